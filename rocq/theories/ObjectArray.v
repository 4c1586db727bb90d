(** Model of serializer/object_array.hpp.  Members are those of Object.v; for
    member_array (specialization/member_array.hpp:11-24) the name is unused. *)
From Verif Require Import Base Parser Out Object.

(** object_array.hpp:94-122 *)
Definition amem_ser {T} (m : mem T) (t : T) : res (list op) := ser (m_codec m) (m_get m t).
Definition amemb_ser {T} (b : memb T) (t : T) : res (list op) :=
  match b with
  | MRef m => amem_ser m t
  | MProp m _ => amem_ser m t
  | MIf _ l r isdef => if negb (isdef (m_get l t)) then amem_ser l t else amem_ser r t
  end.
(** object_array.hpp:74-92 *)
Fixpoint amembers_ser {T} (L : list (memb T)) (t : T) : res (list op) :=
  match L with
  | [] => Ok []
  | [c] => amemb_ser c t
  | c :: R => let* a := amemb_ser c t in let* b := amembers_ser R t in Ok (a ++ W COMMA :: b)
  end.
(** object_array.hpp:23-30 *)
Definition oarray_ser {T} (L : list (memb T)) (t : T) : res (list op) :=
  let* b := amembers_ser L t in Ok (W LBR :: b ++ [W RBR]).

(** object_array.hpp:171-184 *)
Definition amem_des {T} (m : mem T) (sn : option Z) (t : T) (s : buf) (e : eptr) : res (T * buf * eptr) :=
  let* (x, r, e') := des (m_codec m) sn (m_get m t) s e in Ok (m_set m t x, r, e').
(** object_array.hpp:186-227 *)
Definition amemb_des {T} (b : memb T) (sn : option Z) (t : T) (s : buf) (e : eptr) : res (T * buf * eptr) :=
  match b with
  | MRef m => amem_des m sn t s e
  | MProp m init => let* (x, r, e') := des (m_codec m) sn init s e in Ok (m_set m t x, r, e')
  | MIf ru l r _ =>
    let fst_ := if ru then r else l in
    let snd_ := if ru then l else r in
    let* (t1, itr, ee) := amem_des fst_ sn t s (Some no_error) in
    if no_err_yet ee then let* t2 := mem_reset snd_ t1 in Ok (t2, itr, e)
    else let* t2 := mem_reset fst_ t1 in amem_des snd_ sn t2 s e
  end.
(** object_array.hpp:138-168 *)
Fixpoint amembers_des {T} (sn : option Z) (L : list (memb T)) (t : T) (s : buf) (e : eptr) : res (T * buf * eptr) :=
  match L with
  | [] => Ok (t, s, e)
  | c :: R =>
    let* (t1, s1, e1) := amemb_des c sn t s e in
    let '(s2, e2) := parse_space s1 e1 in
    match s2 with
    | [] => Ok (t1, [], cerr UnexpectedEndFragment None 0 e2)
    | d :: t2 =>
      let* (t3, s3, e3) :=
        if d =? COMMA then let '(s4, e4) := parse_space t2 e2 in amembers_des sn R t1 s4 e4
        else Ok (t1, s2, e2) in
      match s3 with
      | [] => Ok (t3, [], cerr UnexpectedEndFragment None 0 e3)
      | f :: _ => if negb (f =? RBR) then Ok (t3, [], cerr ExpectedOf (Some [RBR]) (dist s3) e3) else Ok (t3, s3, e3)
      end
    end
  end.
(** object_array.hpp:32-70 *)
Definition oarray_des {T} (L : list (memb T)) (t0 : T) (sn : option Z) (old : T) (s : buf) (e : eptr)
  : res (T * buf * eptr) :=
  if is_null s then let '(r, e') := parse_null s e in Ok (t0, r, e')
  else match s with
  | [] => Ok (old, [], cerr UnexpectedEndFragment None 0 e)
  | c :: t =>
    if negb (c =? LBR) then Ok (old, [], cerr ExpectedOf (Some [LBR]) (dist s) e)
    else
      let '(s1, e1) := parse_space t e in
      match s1 with
      | [] => Ok (old, [], cerr UnexpectedEndFragment None 0 e1)
      | d :: t1 =>
        if negb (d =? RBR) then
          let* (v, s2, e2) := amembers_des sn L old s1 e1 in
          match s2 with
          | [] => Ok (v, [], cerr UnexpectedEndFragment None 0 e2)
          | _ =>
            let '(s3, e3) := parse_space s2 e2 in
            match s3 with
            | [] => Ok (v, [], cerr UnexpectedEndFragment None 0 e3)
            | f :: t3 => if negb (f =? RBR) then Ok (v, [], cerr ExpectedOf (Some [RBR]) (dist t3 + 1) e3) else Ok (v, t3, e3)
            end
          end
        else Ok (old, t1, e1)
      end
  end.
Definition oarray_codec {T} (L : list (memb T)) (t0 : T) : codec T := mkcodec (oarray_ser L) (oarray_des L t0).
