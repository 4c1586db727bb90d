(** Specification: texts whose reading is undefined behaviour. *)
From Verif Require Import Base Parser SpecJson SpecNum Out Number TimeSize SpecExact.

(** A number of more than imax in a signed type of int or wider. *)
Definition too_big (t : ity) (s : buf) : Prop :=
  isigned t = true /\ 4 <= isize t /\
  exists z l r, s = l ++ r /\ jint z l /\ match r with [] => True | c :: _ => ~ s_digit c end /\ imax t < Z.abs z.

(** One component of a time: from v, the values it may lead to, and the rest. *)
Inductive component (t : ity) (fr : Z) (sn : option Z) (v : Z) (s : buf) : (Z -> Prop) -> buf -> Prop :=
| co_unit cur u k s2 : reads (int_codec t) sn 0 s cur (u :: s2) -> tunit u k -> component t fr sn v s (plus t fr v cur k) s2
| co_min cur s2 : reads (int_codec t) sn 0 s cur (109 :: s2) -> ~ heads 115 s2 -> ~ heads 107 s2 -> component t fr sn v s (plus t fr v cur 60) s2
| co_ms cur s2 : reads (int_codec t) sn 0 s cur (109 :: 115 :: s2) -> component t fr sn v s (plus_part t fr v cur 1000) s2
| co_mks cur c s2 : reads (int_codec t) sn 0 s cur (109 :: 107 :: c :: s2) -> component t fr sn v s (plus_part t fr v cur 1000000) s2
| co_other cur u s2 : reads (int_codec t) sn 0 s cur (u :: s2) -> u <> 109 -> (forall k, ~ tunit u k) -> component t fr sn v s (eq v) s2.
(** A component whose number or sum overflows, or "mk" at the end of the text. *)
Inductive time_over (t : ity) (fr : Z) (sn : option Z) : Z -> buf -> Prop :=
| ov_number v s : too_big t s -> time_over t fr sn v s
| ov_sum v s P s2 : component t fr sn v s P s2 -> (forall w, ~ P w) -> time_over t fr sn v s
| ov_end v s cur : reads (int_codec t) sn 0 s cur (text "mk") -> time_over t fr sn v s
| ov_next v s P s2 w : component t fr sn v s P s2 -> P w -> time_over t fr sn w s2 -> time_over t fr sn v s.

(** The contents of a size: 32 bytes without a zero, a number or a byte count that overflows. *)
Definition size_over (sn : option Z) (w : buf) : Prop :=
  length w = 32%nat /\ ~ In 0 w \/
  exists txt rest, w ++ repeat 0 (32 - length w) = txt ++ 0 :: rest /\ ~ In 0 txt /\
    (too_big i64 txt \/ exists z q m, reads (int_codec i64) sn 0 txt z q /\ sunit q m /\ ~ - 2 ^ 63 <= z * m < 2 ^ 63).
