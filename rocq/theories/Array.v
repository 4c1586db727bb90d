(** Model of serializer/array.hpp, serializer/field.hpp and the container
    traits of specialization/array.hpp and specialization/dict.hpp. *)
From Verif Require Import Base Parser Out.

(** array.hpp:90-103, 176-190, 252-266: the element loop of the three
    serialize operators is the same loop over an iterator range. *)
Fixpoint items_ser {A} (item : A -> res (list op)) (l : list A) : res (list op) :=
  match l with
  | [] => Ok []
  | [x] => item x
  | x :: t => let* a := item x in let* b := items_ser item t in Ok (a ++ W COMMA :: b)
  end.
Definition seq_ser {A} (L R : Z) (item : A -> res (list op)) (l : list A) : res (list op) :=
  let* b := items_ser item l in Ok (W L :: b ++ [W R]).

(** array.hpp:61-87, the loop of serializerA and what follows it.
    [ins st x]: the state of container plus inserter after [*(bitr++) = x].
    [d0]: the contents of the local [target tg], for built-in types an
    indeterminate value.  Most readers overwrite it in any case; floating-point
    and quoted elements leave it when they refuse the text, and it is inserted
    all the same (C90). *)
Fixpoint seq_loop {A S} (item : A -> buf -> eptr -> res (A * buf * eptr)) (ins : S -> A -> S) (d0 : A) (R : Z)
  (fuel : nat) (st : S) (s : buf) (e : eptr) : res (S * buf * eptr) :=
  match fuel with
  | O => Fuel
  | Datatypes.S n =>
    match s with
    | [] => Ok (st, [], cerr UnexpectedEndFragment None 0 e)      (* 61 -> 82 *)
    | _ =>
      let '(s1, e1) := parse_space s e in
      match s1 with
      | [] => Ok (st, [], cerr UnexpectedEndFragment None 0 e1)
      | c :: t1 =>
        if c =? R then Ok (st, t1, e1)
        else
          let* (x, s2, e2) := item d0 s1 e1 in
          let st' := ins st x in
          let '(s3, e3) := parse_space s2 e2 in
          match s3 with
          | [] => Ok (st', [], cerr UnexpectedEndFragment None 0 e3)
          | d :: t3 =>
            if d =? R then Ok (st', t3, e3)
            else if negb (d =? COMMA) then Ok (st', [], cerr ExpectedOf (Some [COMMA]) (dist s3) e3)
            else seq_loop item ins d0 R n st' t3 e3
          end
      end
    end
  end.

(** A container as the serializer sees it: contents, empty state after
    clear(), inserter, and iteration order. *)
Record container (A C S : Type) := mkcont {
  c_new : S;                 (* after t.clear() and inserter(t) *)
  c_ins : S -> A -> S;
  c_get : S -> C;            (* the container held by the state *)
  c_list : C -> list A       (* begin()..end() *)
}.
Arguments mkcont {A C S}.
Arguments c_new {A C S}.
Arguments c_ins {A C S}.
Arguments c_get {A C S}.
Arguments c_list {A C S}.

(** array.hpp:44-88 *)
Definition seq_des {A C S} (k : container A C S) (L R : Z) (item : codec A) (d0 : A)
  (sn : option Z) (_ : C) (s : buf) (e : eptr) : res (C * buf * eptr) :=
  if is_null s then let '(r, e') := parse_null s e in Ok (c_get k (c_new k), r, e')
  else match s with
  | [] => Ok (c_get k (c_new k), [], cerr UnexpectedEndFragment None 0 e)
  | c :: t =>
    if negb (c =? L) then Ok (c_get k (c_new k), [], cerr ExpectedOf (Some [L]) (dist t + 1) e)
    else
      let* (st, r, e') := seq_loop (des item sn) (c_ins k) d0 R (Datatypes.S (length t)) (c_new k) t e in
      Ok (c_get k st, r, e')
  end.
Definition seq_codec {A C S} (k : container A C S) (L R : Z) (item : codec A) (d0 : A) : codec C :=
  mkcodec (fun c => seq_ser L R (ser item) (c_list k c)) (seq_des k L R item d0).

(** specialization/array.hpp:57-91, dict.hpp:73-107: vector, deque, list with
    back_inserter.  reserve() does not change the contents. *)
Definition vec_cont {A} : container A (list A) (list A) :=
  mkcont [] (fun l x => l ++ [x]) (fun l => l) (fun l => l).

(** Ordered containers: [lt] is operator< of the key of an element.  A state is
    the sorted contents and the position of the insert_iterator.
    insert_iterator does [iter = c.insert(iter, v); ++iter].
    std::set, std::map (array.hpp:103-113, dict.hpp:133-147): an element with an
    equivalent key already present prevents the insertion, the position does
    not matter. *)
Fixpoint set_insert {A} (lt : A -> A -> bool) (x : A) (l : list A) : list A :=
  match l with
  | [] => [x]
  | y :: t => if lt x y then x :: l else if lt y x then y :: set_insert lt x t else l
  end.
Definition set_cont {A} (lt : A -> A -> bool) : container A (list A) (list A) :=
  mkcont [] (fun l x => set_insert lt x l) (fun l => l) (fun l => l).

(** std::multiset, std::multimap (array.hpp:115-125, dict.hpp:149-163): inserted
    as close as possible to the position just prior to the hint
    ([associative.reqmts], C++11): the hint is clamped to
    [lower_bound, upper_bound]. *)
Fixpoint lower_bound {A} (lt : A -> A -> bool) (x : A) (l : list A) : nat :=
  match l with [] => O | y :: t => if lt y x then Datatypes.S (lower_bound lt x t) else O end.
Fixpoint upper_bound {A} (lt : A -> A -> bool) (x : A) (l : list A) : nat :=
  match l with [] => O | y :: t => if lt x y then O else Datatypes.S (upper_bound lt x t) end.
Definition insert_at {A} (n : nat) (x : A) (l : list A) : list A := firstn n l ++ x :: skipn n l.
Definition multi_insert {A} (lt : A -> A -> bool) (st : list A * nat) (x : A) : list A * nat :=
  let '(l, h) := st in
  let p := Nat.max (lower_bound lt x l) (Nat.min h (upper_bound lt x l)) in
  (insert_at p x l, Datatypes.S p).
Definition multi_cont {A} (lt : A -> A -> bool) : container A (list A) (list A * nat) :=
  mkcont ([], O) (multi_insert lt) fst (fun l => l).

(** array.hpp:57-125: vector_of, deque_of, list_of; set_of; multiset_of *)
Definition vector_codec {A} (item : codec A) (d0 : A) : codec (list A) := seq_codec vec_cont LBR RBR item d0.
Definition set_codec {A} (lt : A -> A -> bool) (item : codec A) (d0 : A) : codec (list A) :=
  seq_codec (set_cont lt) LBR RBR item d0.
Definition multiset_codec {A} (lt : A -> A -> bool) (item : codec A) (d0 : A) : codec (list A) :=
  seq_codec (multi_cont lt) LBR RBR item d0.

(** field.hpp:16-49 *)
Definition field_ser {K V} (kc : codec K) (vc : codec V) (p : K * V) : res (list op) :=
  let* a := ser kc (fst p) in let* b := ser vc (snd p) in Ok (a ++ W COLON :: b).
Definition field_des {K V} (kc : codec K) (vc : codec V) (sn : option Z) (old : K * V) (s : buf) (e : eptr)
  : res (K * V * buf * eptr) :=
  let* (k, s1, e1) := des kc sn (fst old) s e in
  let '(s2, e2) := parse_space s1 e1 in
  match s2 with
  | [] => Ok ((k, snd old), [], cerr UnexpectedEndFragment None 0 e2)
  | c :: t =>
    if negb (c =? COLON) then Ok ((k, snd old), [], cerr ExpectedOf (Some [COLON]) (dist t + 1) e2)
    else
      let '(s3, e3) := parse_space t e2 in
      match s3 with
      | [] => Ok ((k, snd old), [], cerr UnexpectedEndFragment None 0 e3)
      | _ => let* (v, s4, e4) := des vc sn (snd old) s3 e3 in Ok ((k, v), s4, e4)
      end
  end.
Definition field_codec {K V} (kc : codec K) (vc : codec V) : codec (K * V) :=
  mkcodec (field_ser kc vc) (field_des kc vc).

(** dict.hpp:73-163: dict over vector/deque/list, map, multimap *)
Definition dict_vec_codec {K V} (kc : codec K) (vc : codec V) (d0 : K * V) : codec (list (K * V)) :=
  seq_codec vec_cont LCB RCB (field_codec kc vc) d0.
Definition klt {K V} (lt : K -> K -> bool) (a b : K * V) : bool := lt (fst a) (fst b).
Definition map_codec {K V} (lt : K -> K -> bool) (kc : codec K) (vc : codec V) (d0 : K * V) : codec (list (K * V)) :=
  seq_codec (set_cont (klt lt)) LCB RCB (field_codec kc vc) d0.
Definition multimap_codec {K V} (lt : K -> K -> bool) (kc : codec K) (vc : codec V) (d0 : K * V) : codec (list (K * V)) :=
  seq_codec (multi_cont (klt lt)) LCB RCB (field_codec kc vc) d0.

(** Fixed-size arrays.  [fresh]: std::array (114-191) reads each element into a
    local [target tg] with contents d0 and copies it; J[N] (194-267) reads in
    place.  [ex] is the expected-of text of the missing-comma error. *)
Definition fix_close (R : Z) (s : buf) (e : eptr) : buf * eptr :=
  match s with
  | [] => ([], cerr UnexpectedEndFragment None 0 e)
  | c :: t => if negb (c =? R) then ([], cerr ExpectedOf (Some [R]) (dist t + 1) e) else (t, e)
  end.
(** array.hpp:147-173, 227-249; [todo]: the elements bitr..eitr *)
Fixpoint fix_loop {A} (item : A -> buf -> eptr -> res (A * buf * eptr)) (fresh : option A) (ex : buf) (R : Z)
  (todo : list A) (s : buf) (e : eptr) : res (list A * buf * eptr) :=
  match todo with
  | [] => let '(r, e') := fix_close R s e in Ok ([], r, e')
  | x :: todo' =>
    match s with
    | [] => let '(r, e') := fix_close R s e in Ok (todo, r, e')
    | _ =>
      let '(s1, e1) := parse_space s e in
      match s1 with
      | [] => Ok (todo, [], cerr UnexpectedEndFragment None 0 e1)
      | c :: _ =>
        if c =? R then let '(r, e') := fix_close R s1 e1 in Ok (todo, r, e')
        else
          let* (y, s2, e2) := item (match fresh with Some d0 => d0 | None => x end) s1 e1 in
          let '(s3, e3) := parse_space s2 e2 in
          match s3 with
          | [] => Ok (y :: todo', [], cerr UnexpectedEndFragment None 0 e3)
          | d :: t3 =>
            if d =? R then let '(r, e') := fix_close R s3 e3 in Ok (y :: todo', r, e')
            else if negb (d =? COMMA) then Ok (y :: todo', [], cerr ExpectedOf (Some ex) (dist s3) e3)
            else let* (l, r, e') := fix_loop item fresh ex R todo' t3 e3 in Ok (y :: l, r, e')
          end
      end
    end
  end.
(** array.hpp:128-136, 208-216: null for every element; the iterators the
    element calls return are dropped *)
Fixpoint fix_null {A} (item : A -> buf -> eptr -> res (A * buf * eptr)) (l : list A) (s : buf) (e : eptr)
  : res (list A * eptr) :=
  match l with
  | [] => Ok ([], e)
  | x :: t => let* (y, _, e1) := item x s e in let* (t', e2) := fix_null item t s e1 in Ok (y :: t', e2)
  end.
Definition fix_des {A} (fresh : option A) (ex : buf) (L R : Z) (item : codec A)
  (sn : option Z) (old : list A) (s : buf) (e : eptr) : res (list A * buf * eptr) :=
  if is_null s then
    let* (l, e1) := fix_null (des item sn) old s e in
    let '(r, e2) := parse_null s e1 in Ok (l, r, e2)
  else match s with
  | [] => Ok (old, [], cerr UnexpectedEndFragment None 0 e)
  | c :: t =>
    if negb (c =? L) then Ok (old, [], cerr ExpectedOf (Some [L]) (dist t + 1) e)
    else fix_loop (des item sn) fresh ex R old t e
  end.
Definition stdarray_codec {A} (item : codec A) (d0 : A) : codec (list A) :=
  mkcodec (seq_ser LBR RBR (ser item)) (fix_des (Some d0) [] LBR RBR item).
Definition carray_codec {A} (item : codec A) : codec (list A) :=
  mkcodec (seq_ser LBR RBR (ser item)) (fix_des None [COMMA] LBR RBR item).

(** The C++ types target[N] and std::array<target, N> hold exactly N elements. *)
Fixpoint vec (A : Type) (n : nat) : Type :=
  match n with O => unit | Datatypes.S m => (A * vec A m)%type end.
Fixpoint vlist {A n} : vec A n -> list A :=
  match n with O => fun _ => [] | Datatypes.S m => fun v => fst v :: vlist (snd v) end.
(** store the elements of a list, in order *)
Fixpoint vfill {A n} : vec A n -> list A -> vec A n :=
  match n with
  | O => fun v _ => v
  | Datatypes.S m => fun v l => match l with [] => v | x :: t => (x, vfill (snd v) t) end
  end.
Definition vec_codec {A} (c : codec (list A)) (N : nat) : codec (vec A N) :=
  mkcodec (fun v => ser c (vlist v))
          (fun sn old s e => let* (l, r, e') := des c sn (vlist old) s e in Ok (vfill old l, r, e')).
(** array< std::array<J,N> > and array< J[N] > *)
Definition std_array_codec {A} (item : codec A) (d0 : A) (N : nat) : codec (vec A N) := vec_codec (stdarray_codec item d0) N.
Definition c_array_codec {A} (item : codec A) (N : nat) : codec (vec A N) := vec_codec (carray_codec item) N.

(** operator< of std::string: lexicographic, bytes compared as unsigned *)
Fixpoint str_lt (a b : buf) : bool :=
  match a, b with
  | _, [] => false
  | [], _ :: _ => true
  | x :: a', y :: b' => if x <? y then true else if y <? x then false else str_lt a' b'
  end.
