(** Specification of time intervals: a list of components, each a decimal
    number with a unit. *)
From Verif Require Import Base SpecNum.

Inductive tunit := Day | Hour | Minute | Second | Millisecond | Microsecond.
Definition unit_text (u : tunit) : buf :=
  match u with
  | Day => text "d" | Hour => text "h" | Minute => text "m" | Second => text "s"
  | Millisecond => text "ms" | Microsecond => text "mks"
  end.
(** length of [n] units in a clock that ticks [fr] times a second, rounded
    towards zero *)
Definition unit_ticks (fr n : Z) (u : tunit) : Z :=
  match u with
  | Day => n * 86400 * fr | Hour => n * 3600 * fr | Minute => n * 60 * fr | Second => n * fr
  | Millisecond => Z.quot (n * fr) 1000 | Microsecond => Z.quot (n * fr) 1000000
  end.
Fixpoint ticks (fr : Z) (l : list (Z * tunit)) : Z :=
  match l with [] => 0 | (n, u) :: l' => unit_ticks fr n u + ticks fr l' end.
(** the text of a component list; numbers as in JSON, without fraction *)
Inductive comps : list (Z * tunit) -> buf -> Prop :=
| comps_nil : comps [] []
| comps_cons n u l s x : jint n s -> comps l x -> comps ((n, u) :: l) (s ++ unit_text u ++ x).
(** the numbers that occur while computing the sum: n units in seconds times fr,
    all taken positively *)
Definition unit_weight (fr n : Z) (u : tunit) : Z :=
  match u with
  | Day => Z.abs n * 86400 * fr | Hour => Z.abs n * 3600 * fr | Minute => Z.abs n * 60 * fr
  | Second | Millisecond | Microsecond => Z.abs n * fr
  end.
Fixpoint weight (fr : Z) (l : list (Z * tunit)) : Z :=
  match l with [] => 0 | (n, u) :: l' => unit_weight fr n u + weight fr l' end.
