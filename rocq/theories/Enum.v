(** Model of serializer/enumerator.hpp and serializer/flags.hpp.  A list element
    enum_value<N,T,v> is the pair of its C string and its value; T() is 0. *)
From Verif Require Import Base Parser Out Object.

Definition elist := list (buf * Z).

(** ---- enumerator.hpp ---- *)
(** 60-80 *)
Fixpoint enum_name (L : elist) (v : Z) : buf :=
  match L with
  | [] => []
  | (n, x) :: R => if x =? v then n else enum_name R v
  end.
(** 22-29 *)
Definition enum_ser (L : elist) (v : Z) : res (list op) := Ok (wr (QT :: enum_name L v ++ [QT])).

(** 88-89: the whole range equals the C string *)
Fixpoint cstr_eq (n s : buf) : bool :=
  match n, s with
  | [], [] => true
  | a :: n', c :: s' => if a =? c then cstr_eq n' s' else false
  | _, _ => false
  end.
(** 83-101; the last line is the answer for an unknown name *)
Fixpoint enum_find (mode : omode) (L : elist) (v : Z) (s : buf) : option Z :=
  match L with
  | [] => match mode with Nonstrict => Some v | Strict => None end
  | (n, x) :: R => if cstr_eq n s then Some x else enum_find mode R v s
  end.
(** 35: [*beg <= ' '] on a (signed) char: bytes >= 128 are skipped as well *)
Fixpoint skip_low (s : buf) : buf :=
  match s with
  | [] => []
  | c :: t => if (c <=? 32) || (128 <=? c) then skip_low t else s
  end.
(** 46: the range up to the next quote, and the rest from there *)
Fixpoint to_quote (s : buf) : buf * buf :=
  match s with
  | [] => ([], [])
  | c :: t => if c =? QT then ([], s) else let '(a, r) := to_quote t in (c :: a, r)
  end.
(** 31-56 *)
Definition enum_des (mode : omode) (L : elist) (_ : option Z) (_ : Z) (s : buf) (e : eptr) : res (Z * buf * eptr) :=
  match skip_low s with
  | [] => Ok (0, [], cerr UnexpectedEndFragment None 0 e)
  | c :: t =>
    if negb (c =? QT) then Ok (0, [], cerr ExpectedOf (Some [QT]) (dist (c :: t)) e)
    else match t with
    | [] => Ok (0, [], cerr UnexpectedEndFragment None 0 e)
    | _ =>
      let '(nm, r) := to_quote t in
      match r with
      | [] => Ok (0, [], cerr UnexpectedEndFragment None 0 e)
      | _ :: r' =>
        match enum_find mode L 0 nm with
        | None => Ok (0, [], cerr InvalidEnum None (dist t) e)
        | Some v => Ok (v, r', e)
        end
      end
    end
  end.
Definition enum_codec (mode : omode) (L : elist) : codec Z := mkcodec (enum_ser L) (enum_des mode L).

(** ---- flags.hpp; T is taken as an integer type that can represent the union
    of all listed values, so that the casts of lines 128 and 171 are identities ---- *)
(** 65-96 *)
Definition flag_on (v x : Z) : bool := (negb (x =? 0) && (Z.land x v =? x)) || (v =? x).
Fixpoint flags_body (sep : Z) (L : elist) (v : Z) (first : bool) : buf :=
  match L with
  | [] => []
  | (n, x) :: R =>
    if flag_on v x then
      (if first then [] else [sep]) ++ (if sep =? COMMA then QT :: n ++ [QT] else n) ++ flags_body sep R v false
    else flags_body sep R v first
  end.
(** 21-28 *)
Definition flags_ser (sep : Z) (L : elist) (v : Z) : res (list op) :=
  Ok (wr ((if sep =? COMMA then LBR else QT) :: flags_body sep L v true ++ [if sep =? COMMA then RBR else QT])).

(** 120, 164: the C string is a prefix; what follows it *)
Fixpoint pre_match (n s : buf) : option buf :=
  match n with
  | [] => Some s
  | a :: n' => match s with c :: t => if a =? c then pre_match n' t else None | [] => None end
  end.
(** 106-107, 131-132: spaces are allowed unless they are the separator *)
Definition opt_space (sep : Z) (s : buf) (e : eptr) : buf * eptr := if sep =? 32 then (s, e) else parse_space s e.
(** 209: up to the separator or quote *)
Fixpoint skip_unknown (sep : Z) (s : buf) : buf :=
  match s with
  | [] => []
  | c :: t => if (c =? sep) || (c =? QT) then s else skip_unknown sep t
  end.
Definition skip1 (c : Z) (s : buf) : buf := match s with d :: t => if d =? c then t else s | [] => [] end.

(** 98-146, 202-214 *)
Fixpoint one_str (sep : Z) (mode : omode) (L : elist) (v : Z) (s : buf) (e : eptr) (ready : bool) : Z * buf * eptr :=
  match L with
  | [] =>
    if ready || match mode with Strict => true | Nonstrict => false end then (v, s, e)
    else
      let '(s1, e1) := parse_space s e in
      let '(s2, e2) := parse_space (skip_unknown sep s1) e1 in
      match s2 with
      | [] => (v, [], e2)
      | _ => let '(s3, e3) := parse_space (skip1 sep s2) e2 in (v, s3, e3)
      end
  | (n, x) :: R =>
    match s with
    | [] => (v, [], e)
    | _ =>
      let '(s1, e1) := opt_space sep s e in
      match s1 with
      | [] => (v, [], e1)
      | c :: _ =>
        if c =? QT then (v, s1, e1)
        else
          match pre_match n s1 with
          | Some ((d :: t) as cur) =>
            if (negb (sep =? 32) && is_space cur) || (d =? sep) || (d =? QT) then
              let '(s2, e2) := opt_space sep cur e1 in
              match s2 with
              | [] => (Z.lor v x, [], e2)
              | f :: _ => if f =? QT then (Z.lor v x, s2, e2) else one_str sep mode R (Z.lor v x) (skip1 sep s2) e2 true
              end
            else one_str sep mode R v s1 e1 ready
          | _ => one_str sep mode R v s1 e1 ready
          end
      end
    end
  end.
(** 148-200 *)
Fixpoint one_arr (mode : omode) (sn : option Z) (L : elist) (v : Z) (s : buf) (e : eptr) (ready : bool) : res (Z * buf * eptr) :=
  match L with
  | [] =>
    if ready || match mode with Strict => true | Nonstrict => false end then Ok (v, s, e)
    else
      let '(s1, e1) := parse_space s e in
      let* c := deref sn s1 in                                  (* 194, unguarded *)
      if c =? RBR then Ok (v, s1, e1)
      else
        let* (s2, e2) := parse_string s1 e1 in
        let '(s3, e3) := parse_space s2 e2 in
        match s3 with
        | [] => Ok (v, [], e3)
        | _ => let '(s4, e4) := parse_space (skip1 COMMA s3) e3 in Ok (v, s4, e4)
        end
  | (n, x) :: R =>
    let '(s1, e1) := parse_space s e in
    match s1 with
    | [] => Ok (v, [], e1)
    | c :: t1 =>
      if c =? RBR then Ok (v, s1, e1)
      else if negb (c =? QT) then Ok (v, [], cerr ExpectedOf (Some [QT]) (dist s1) e1)
      else
        match pre_match n t1 with
        | Some (d :: t) =>
          if d =? QT then
            let '(s2, e2) := parse_space t e1 in
            match s2 with
            | [] => Ok (Z.lor v x, [], e2)
            | f :: t2 =>
              if negb (f =? COMMA) then Ok (Z.lor v x, s2, e2)
              else let '(s3, e3) := parse_space t2 e2 in one_arr mode sn R (Z.lor v x) s3 e3 true
            end
          else one_arr mode sn R v s1 e1 ready
        | _ => one_arr mode sn R v s1 e1 ready
        end
    end
  end.
(** 217-233 *)
Fixpoint flags_loop (fin : Z) (one : Z -> buf -> eptr -> res (Z * buf * eptr)) (fuel : nat) (v : Z) (s : buf) (e : eptr)
  : res (Z * buf * eptr) :=
  match fuel with
  | O => Fuel
  | S n =>
    match s with
    | [] => Ok (v, [], e)
    | c :: _ =>
      if c =? fin then Ok (v, s, e)
      else
        let* (v1, s1, e1) := one v s e in
        if (dist s1 =? dist s) then Ok (v1, [], cerr InvalidEnum None (dist s1) e1)
        else match s1 with
        | [] => Ok (v1, [], cerr UnexpectedEndFragment None 0 e1)
        | _ => flags_loop fin one n v1 s1 e1
        end
    end
  end.
(** 30-61 *)
Definition flags_des (sep : Z) (mode : omode) (L : elist) (sn : option Z) (_ : Z) (s : buf) (e : eptr) : res (Z * buf * eptr) :=
  match s with
  | [] => Ok (0, [], cerr UnexpectedEndFragment None 0 e)
  | c :: t =>
    if negb (c =? LBR) && negb (c =? QT) then Ok (0, [], cerr ExpectedOf (Some [QT]) (dist s) e)
    else
    let* (v, s1, e1) :=
      if c =? LBR then flags_loop RBR (fun v s e => one_arr mode sn L v s e false) (S (length t)) 0 t e
      else flags_loop QT (fun v s e => Ok (one_str sep mode L v s e false)) (S (length t)) 0 t e in
    match s1 with
    | [] => Ok (v, [], cerr UnexpectedEndFragment None 0 e1)
    | d :: t1 => if negb (d =? RBR) && negb (d =? QT) then Ok (v, [], cerr ExpectedOf (Some [RBR]) (dist s1) e1) else Ok (v, t1, e1)
    end
  end.
Definition flags_codec (sep : Z) (mode : omode) (L : elist) : codec Z := mkcodec (flags_ser sep L) (flags_des sep mode L).
