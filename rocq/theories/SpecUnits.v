(** Specification: the texts written for times and sizes. *)
From Verif Require Import Base SpecNum.

(** n units in canonical decimals, nothing for zero *)
Inductive amount (n : Z) (u : buf) : buf -> Prop :=
| am_zero : n = 0 -> amount n u []
| am_some s : n <> 0 -> numeral n s -> amount n u (s ++ u).
(** q seconds as days, hours, minutes and seconds of one sign *)
Inductive clock (q : Z) : buf -> Prop :=
| clk d h m s xd xh xm xs : q = ((d * 24 + h) * 60 + m) * 60 + s -> Z.abs h < 24 -> Z.abs m < 60 -> Z.abs s < 60 ->
    (0 <= d /\ 0 <= h /\ 0 <= m /\ 0 <= s \/ d <= 0 /\ h <= 0 /\ m <= 0 /\ s <= 0) ->
    amount d (text "d") xd -> amount h (text "h") xh -> amount m (text "m") xm -> amount s (text "s") xs ->
    clock q (xd ++ xh ++ xm ++ xs).
(** r of fr ticks of a second as milliseconds and microseconds *)
Inductive fraction (fr r : Z) : buf -> Prop :=
| frac ms us xms xus : r * 1000000 = (ms * 1000 + us) * fr -> 0 <= ms < 1000 -> 0 <= us < 1000 ->
    amount ms (text "ms") xms -> amount us (text "mks") xus -> fraction fr r (xms ++ xus).

(** base, exponent and name of the units of sizes *)
Definition size_names : list (Z * Z * buf) :=
  [(1000, 1, text "KB"); (1000, 2, text "MB"); (1000, 3, text "GB"); (1000, 4, text "TB");
   (1024, 1, text "KiB"); (1024, 2, text "MiB"); (1024, 3, text "GiB"); (1024, 4, text "TiB")].
(** The unit base^k can be used for v metrics: the type (width bytes) can hold it and it
    divides the number of bytes; zero is written in the unit of the metric. *)
Definition fitting (width metric v base k : Z) : Prop :=
  2 * k <= width /\ (v * metric <> 0 -> (base ^ k | v * metric)) /\ (v * metric = 0 -> metric = base ^ k).
(** decimal units are preferred for decimal metrics and bytes *)
Definition preferred (metric base : Z) : Prop := if (metric =? 1) || (metric mod 10 =? 0) then base = 1000 else base = 1024.
(** v metrics in the largest unit possible *)
Inductive size_text (width metric v : Z) : buf -> Prop :=
| sx_unit base k u n s : In (base, k, u) size_names -> fitting width metric v base k ->
    (forall base' k' u', In (base', k', u') size_names -> fitting width metric v base' k' -> k' < k \/ k' = k /\ (base' = base \/ preferred metric base)) ->
    n * base ^ k = v * metric -> numeral n s -> size_text width metric v (QT :: s ++ u ++ [QT])
| sx_plain s : (forall base k u, In (base, k, u) size_names -> ~ fitting width metric v base k) -> numeral v s -> size_text width metric v s.
