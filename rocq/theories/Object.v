(** Model of serializer/object.hpp (members: specialization/member.hpp,
    member_p.hpp, member_if.hpp, base.hpp).  The member list is the flat list
    fas::normalize produces. *)
From Verif Require Import Base Parser Out.

(** specialization/member.hpp:11-26, member_p.hpp:11-23.  A name is the C string
    memb() returns (the bytes before its NUL); [m_get]/[m_set] access the field
    (member: ref(t); member_p: get/set). *)
Record mem (T : Type) := mkmem {
  m_ty : Type;
  m_name : buf;
  m_get : T -> m_ty;
  m_set : T -> m_ty -> T;
  m_codec : codec m_ty
}.
Arguments mkmem {T m_ty}.
Arguments m_ty {T}. Arguments m_name {T}. Arguments m_get {T}. Arguments m_set {T}. Arguments m_codec {T}.

(** An element of the member list: member, member_p ([init] is M()), or
    member_if<ML, MR, RU> ([isdef v] is [v == typeL()]).  The alternatives of a
    member_if have to be of kind member (ref() is used). *)
Inductive memb (T : Type) :=
| MRef (m : mem T)
| MProp (m : mem T) (init : m_ty m)
| MIf (ru : bool) (l r : mem T) (isdef : m_ty l -> bool).
Arguments MRef {T}. Arguments MProp {T}. Arguments MIf {T}.

(** nonstrict_mode / strict_mode *)
Inductive omode := Nonstrict | Strict.

(** ---- serialization ---- *)
(** object.hpp:103-129 *)
Definition mem_ser {T} (m : mem T) (t : T) : res (list op) :=
  let* v := ser (m_codec m) (m_get m t) in
  Ok (W QT :: wr (m_name m) ++ W QT :: W COLON :: v).
(** object.hpp:132-139 *)
Definition memb_ser {T} (b : memb T) (t : T) : res (list op) :=
  match b with
  | MRef m => mem_ser m t
  | MProp m _ => mem_ser m t
  | MIf _ l r isdef => if negb (isdef (m_get l t)) then mem_ser l t else mem_ser r t
  end.
(** object.hpp:83-101 *)
Fixpoint members_ser {T} (L : list (memb T)) (t : T) : res (list op) :=
  match L with
  | [] => Ok []
  | [c] => memb_ser c t
  | c :: R => let* a := memb_ser c t in let* b := members_ser R t in Ok (a ++ W COMMA :: b)
  end.
(** object.hpp:22-29 *)
Definition object_ser {T} (L : list (memb T)) (t : T) : res (list op) :=
  let* b := members_ser L t in Ok (W LCB :: b ++ [W RCB]).

(** ---- deserialization ---- *)
(** object.hpp:256, what is left of name and input *)
Fixpoint name_loop (name s : buf) : buf * buf :=
  match s, name with
  | c :: t, n :: name' => if (c =? n) && negb (c =? QT) then name_loop name' t else (name, s)
  | _, _ => (name, s)
  end.
(** object.hpp:246-282; [u] is the flag [unserialized], returned last.  Note
    that it stays true on the errors of lines 259, 270, 273 and 279. *)
Definition unser_name (name : buf) (s : buf) (u : bool) (e : eptr) : buf * eptr * bool :=
  if negb (is_string s) then ([], cerr ExpectedOf (Some [QT]) (dist s) e, u)
  else
    let '(n', s1) := name_loop name (tl s) in
    match s1 with
    | [] => ([], cerr UnexpectedEndFragment None 0 e, true)
    | c :: t1 =>
      if negb (c =? QT) || match n' with [] => false | _ => true end then (s, e, false)
      else
        let '(s2, e2) := parse_space t1 e in
        match s2 with
        | [] => ([], cerr UnexpectedEndFragment None 0 e2, true)
        | d :: t2 =>
          if negb (d =? COLON) then ([], cerr ExpectedOf (Some [COLON]) (dist s2) e2, true)
          else
            let '(s3, e3) := parse_space t2 e2 in
            match s3 with
            | [] => ([], cerr UnexpectedEndFragment None 0 e3, true)
            | _ => (s3, e3, true)
            end
        end
    end.
(** object.hpp:285-293 *)
Definition mem_des {T} (m : mem T) (sn : option Z) (t : T) (s : buf) (u : bool) (e : eptr)
  : res (T * bool * buf * eptr) :=
  let '(s1, e1, u1) := unser_name (m_name m) s u e in
  if negb u1 then Ok (t, u1, s1, e1)
  else let* (x, r, e2) := des (m_codec m) sn (m_get m t) s1 e1 in Ok (m_set m t x, u1, r, e2).
(** object.hpp:295-306 *)
Definition mem_p_des {T} (m : mem T) (init : m_ty m) (sn : option Z) (t : T) (s : buf) (u : bool) (e : eptr)
  : res (T * bool * buf * eptr) :=
  let '(s1, e1, u1) := unser_name (m_name m) s u e in
  if negb u1 then Ok (t, u1, s1, e1)
  else let* (x, r, e2) := des (m_codec m) sn init s1 e1 in Ok (m_set m t x, u1, r, e2).
(** object.hpp:316, 319, 331, 335: reading "null" (a C string, so a NUL follows)
    into the member, with a null json_error* *)
Definition mem_reset {T} (m : mem T) (t : T) : res T :=
  let* (x, _, _) := des (m_codec m) (Some 0) (m_get m t) (text "null") None in Ok (m_set m t x).
(** object.hpp:308-337; [ru] = true tries the right alternative first *)
Definition memb_des {T} (b : memb T) (sn : option Z) (t : T) (s : buf) (u : bool) (e : eptr)
  : res (T * bool * buf * eptr) :=
  match b with
  | MRef m => mem_des m sn t s u e
  | MProp m init => mem_p_des m init sn t s u e
  | MIf ru l r _ =>
    let fst_ := if ru then r else l in
    let snd_ := if ru then l else r in
    let* (t1, u1, itr, ee) := mem_des fst_ sn t s u (Some no_error) in
    if no_err_yet ee then let* t2 := mem_reset snd_ t1 in Ok (t2, u1, itr, e)
    else let* t2 := mem_reset fst_ t1 in mem_des snd_ sn t2 s u1 e
  end.

Section Members.
  Context {T : Type} (mode : omode) (sn : option Z).
  (** object.hpp:206-225 *)
  Fixpoint rest_loop (fuel : nat) (s : buf) (e : eptr) : res (buf * eptr) :=
    match fuel with
    | O => Fuel
    | S n =>
      let* (s1, e1) := parse_member (parse_value sn) s e in
      let '(s2, e2) := parse_space s1 e1 in
      match s2 with
      | [] => Ok ([], cerr UnexpectedEndFragment None 0 e2)
      | c :: t2 =>
        if c =? RCB then
          match mode with
          | Nonstrict => Ok (s2, e2)
          | Strict => Ok ([], cerr InvalidMember None (dist s) e2)
          end
        else if negb (c =? COMMA) then Ok ([], cerr ExpectedOf (Some [COMMA]) (dist s2) e2)
        else let '(s3, e3) := parse_space t2 e2 in rest_loop n s3 e3
      end
    end.
  (** object.hpp:199-205 *)
  Definition rest_members (s : buf) (e : eptr) : res (buf * eptr) :=
    let '(s1, e1) := parse_space s e in
    match s1 with
    | [] => Ok ([], cerr UnexpectedEndFragment None 0 e1)
    | c :: _ => if c =? RCB then Ok (s1, e1) else rest_loop (S (length s1)) s1 e1
    end.
  (** object.hpp:227-243: search = true, list exhausted *)
  Definition search_end (s : buf) (e : eptr) : res (buf * eptr) :=
    match mode with
    | Nonstrict => let* (s1, e1) := parse_member (parse_value sn) s e in Ok (parse_space s1 e1)
    | Strict =>
      match s with
      | [] => Ok ([], cerr UnexpectedEndFragment None 0 e)
      | c :: _ => if c =? RCB then Ok (s, e) else Ok ([], cerr InvalidMember None (dist s) e)
      end
    end.
  (** object.hpp:155-169 with search = true *)
  Fixpoint search_members (L : list (memb T)) (t : T) (s : buf) (e : eptr) : res (T * buf * eptr) :=
    match L with
    | [] => let* (s1, e1) := search_end s e in Ok (t, s1, e1)
    | c :: R =>
      let* (t1, u, s1, e1) := memb_des c sn t s false e in
      if negb u then search_members R t1 s1 e1 else Ok (t1, s1, e1)
    end.
  (** object.hpp:187-193 *)
  Definition at_close (t : T) (s : buf) (e : eptr) : res (T * buf * eptr) :=
    match s with
    | [] => Ok (t, [], cerr UnexpectedEndFragment None 0 e)
    | c :: _ => if negb (c =? RCB) then Ok (t, [], cerr ExpectedOf (Some [RCB]) (dist s) e) else Ok (t, s, e)
    end.
  (** object.hpp:155-194 with search = false; [L] is the whole list, [R] the
      current one *)
  Fixpoint members_loop (L : list (memb T)) (fuel : nat) (R : list (memb T)) (t : T) (s : buf) (e : eptr)
    : res (T * buf * eptr) :=
    match fuel with
    | O => Fuel
    | S n =>
      match R with
      | [] => let* (s1, e1) := rest_members s e in Ok (t, s1, e1)
      | c :: R' =>
        let* (t1, u, s1, e1) := memb_des c sn t s false e in
        let* (t2, s2, e2) := if negb u then search_members L t1 s1 e1 else Ok (t1, s1, e1) in
        let '(s3, e3) := parse_space s2 e2 in
        match s3 with
        | [] => Ok (t2, [], cerr UnexpectedEndFragment None 0 e3)
        | d :: t3 =>
          if d =? COMMA then
            let '(s4, e4) := parse_space t3 e3 in
            let* (t5, s5, e5) := members_loop L n (if u then R' else R) t2 s4 e4 in
            at_close t5 s5 e5
          else at_close t2 s3 e3
        end
      end
    end.
End Members.

(** object.hpp:31-79; [t0] is T() *)
Definition object_des {T} (mode : omode) (L : list (memb T)) (t0 : T) (sn : option Z) (old : T) (s : buf) (e : eptr)
  : res (T * buf * eptr) :=
  if is_null s then let '(r, e') := parse_null s e in Ok (t0, r, e')
  else match s with
  | [] => Ok (old, [], cerr UnexpectedEndFragment None 0 e)
  | c :: t =>
    if negb (c =? LCB) then
      if c =? LBR then
        let '(s1, e1) := parse_space t e in
        let* d := deref sn s1 in                               (* 48, unguarded *)
        if negb (d =? RBR) then Ok (old, [], cerr ExpectedOf (Some [RBR]) (dist s1) e1)
        else let* s2 := step s1 in Ok (old, s2, e1)
      else Ok (old, [], cerr ExpectedOf (Some [LCB]) (dist s) e)
    else
      let '(s1, e1) := parse_space t e in
      match s1 with
      | [] => Ok (old, [], cerr UnexpectedEndFragment None 0 e1)
      | d :: t1 =>
        if negb (d =? RCB) then
          let* (v, s2, e2) := members_loop mode sn L (S (length s1)) L old s1 e1 in
          match s2 with
          | [] => Ok (v, [], cerr UnexpectedEndFragment None 0 e2)
          | _ =>
            let '(s3, e3) := parse_space s2 e2 in
            match s3 with
            | [] => Ok (v, [], cerr UnexpectedEndFragment None 0 e3)
            | f :: t3 => if negb (f =? RCB) then Ok (v, [], cerr ExpectedOf (Some [RCB]) (dist t3 + 1) e3) else Ok (v, t3, e3)
            end
          end
        else Ok (old, t1, e1)
      end
  end.
Definition object_codec {T} (mode : omode) (L : list (memb T)) (t0 : T) : codec T :=
  mkcodec (object_ser L) (object_des mode L t0).

(** serializer/member_value.hpp:11-26 *)
Definition member_value_codec {T A} (get : T -> A) (set : T -> A -> T) (c : codec A) : codec T :=
  mkcodec (fun t => ser c (get t))
          (fun sn old s e => let* (x, r, e') := des c sn (get old) s e in Ok (set old x, r, e')).
