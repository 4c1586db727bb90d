(** Model of serializer/number.hpp, parser::unserialize_integer and
    serializer/bool.hpp. *)
From Verif Require Import Base Parser Out.

(** A built-in integer type: sizeof(T) in bytes (1, 2, 4, 8) and signedness.
    Assumed platform: 8-bit bytes, two's complement, 32-bit int, signed char. *)
Record ity := mkity { isize : Z; isigned : bool }.
Definition ity_ok (t : ity) : Prop := isize t = 1 \/ isize t = 2 \/ isize t = 4 \/ isize t = 8.
Definition imod (t : ity) : Z := 2 ^ (8 * isize t).
Definition imin (t : ity) : Z := if isigned t then - (imod t / 2) else 0.
Definition imax (t : ity) : Z := if isigned t then imod t / 2 - 1 else imod t - 1.
Definition irange (t : ity) (z : Z) : Prop := imin t <= z <= imax t.
Definition irangeb (t : ity) (z : Z) : bool := (imin t <=? z) && (z <=? imax t).

(** static_cast<T>(z): modulo 2^bits (gcc) *)
Definition icast (t : ity) (z : Z) : Z :=
  let u := z mod imod t in
  if isigned t && (imod t / 2 <=? u) then u - imod t else u.

(** Integer promotion: types narrower than int are computed in int. *)
Definition ipromote (t : ity) : ity := if isize t <? 4 then mkity 4 true else t.

(** The value of an arithmetic operation performed in (promoted) type [t]:
    signed overflow is undefined behaviour, unsigned arithmetic wraps. *)
Definition iarith (t : ity) (z : Z) : res Z :=
  if isigned t then if irangeb t z then Ok z else UB else Ok (z mod imod t).

(** number.hpp:37-55 integer_buffer_size *)
Definition integer_buffer_size (t : ity) : Z :=
  if isize t =? 1 then 4
  else isize t * 2 + isize t / 2 + isize t mod 2 + (if isigned t then 1 else 0).

(** number.hpp:76-77 and 82-83, the digit loops: [cap] is the space left in
    buf; returns the characters written (least significant first) and the
    space left.  Writing outside buf is UB.  v%10 and v/=10 truncate. *)
Fixpoint digit_loop (cap : nat) (neg : bool) (v : Z) : res (buf * nat) :=
  if v =? 0 then Ok ([], cap)
  else match cap with
       | O => UB
       | S c => let d := if neg then 48 - Z.rem v 10 else 48 + Z.rem v 10 in
                let* (l, c') := digit_loop c neg (Z.quot v 10) in
                Ok (d :: l, c')
       end.

(** number.hpp:64-90 integer_serializer<T>::serialize.  is_less_zero
    (17-35) is constantly false for unsigned types.  The final do-while emits
    buf backwards. *)
Definition int_ser (t : ity) (v : Z) : res (list op) :=
  let cap := Z.to_nat (integer_buffer_size t) in
  if v =? 0 then match cap with O => UB | S _ => Ok (wr [48]) end
  else if isigned t && (v <? 0) then
    let* (l, c) := digit_loop cap true v in
    match c with O => UB | S _ => Ok (wr (rev (l ++ [MINUS]))) end
  else
    let* (l, _) := digit_loop cap false v in
    Ok (wr (rev l)).

(** parser.hpp:646-652, the loop of unserialize_integer *)
Fixpoint int_loop (t : ity) (v : Z) (s : buf) : res (Z * buf) :=
  match s with
  | [] => Ok (v, [])
  | c :: r =>
    if negb (is_digit c) then Ok (v, s)
    else
      let* a := iarith (ipromote t) (v * 10) in
      let* b := iarith (ipromote t) (a + icast t (c - 48)) in
      int_loop t (icast t b) r
  end.

(** parser.hpp:632-659 unserialize_integer *)
Definition unserialize_integer (t : ity) (old : Z) (s : buf) (e : eptr) : res (Z * buf * eptr) :=
  match s with
  | [] => Ok (old, [], cerr UnexpectedEndFragment None 0 e)
  | c :: t0 =>
    let neg := c =? MINUS in
    let s1 := if neg then t0 else s in
    match s1 with
    | [] => Ok (0, [], cerr InvalidNumber None (dist s1) e)
    | d :: r =>
      if negb (is_digit d) then Ok (0, [], cerr InvalidNumber None (dist s1) e)
      else if d =? 48 then Ok (0, r, e)
      else
        let* (v, s2) := int_loop t 0 s1 in
        if neg then
          let* w := iarith (ipromote t) (- v) in
          Ok (icast t w, s2, e)
        else Ok (v, s2, e)
    end
  end.

(** number.hpp:102-123 serializerN<T> *)
Definition int_des (t : ity) (_ : option Z) (old : Z) (s : buf) (e : eptr) : res (Z * buf * eptr) :=
  if is_null s then let '(r, e') := parse_null s e in Ok (0, r, e')
  else unserialize_integer t old s e.
Definition int_codec (t : ity) : codec Z := mkcodec (int_ser t) (int_des t).

(** bool.hpp:20-62 *)
Definition bool_ser (v : bool) : res (list op) :=
  Ok (wr (if v then text "true" else text "false")).
Definition bool_des (_ : option Z) (old : bool) (s : buf) (e : eptr) : res (bool * buf * eptr) :=
  match s with
  | [] => Ok (old, [], cerr UnexpectedEndFragment None 0 e)
  | c :: _ =>
    if is_null s then let '(r, e') := parse_null s e in Ok (false, r, e')
    else if c =? 116 then let '(r, e') := parse_bool s e in Ok (true, r, e')
    else if c =? 102 then let '(r, e') := parse_bool s e in Ok (false, r, e')
    else Ok (false, [], cerr InvalidBool None (dist s) e)
  end.
Definition bool_codec : codec bool := mkcodec bool_ser bool_des.
