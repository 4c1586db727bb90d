(** Specification of decimal numerals. *)
From Verif Require Import Base SpecJson.

(** value of a string of decimal digits *)
Definition dval (l : buf) : Z := fold_left (fun a c => a * 10 + (c - 48)) l 0.

(** canonical decimal numeral of an integer *)
Inductive numeral : Z -> buf -> Prop :=
| num_nonneg i : rint i -> numeral (dval i) i
| num_neg i : rint i -> 0 < dval i -> numeral (- dval i) (MINUS :: i).

(** any JSON integer (also "-0") and its value *)
Inductive jint : Z -> buf -> Prop :=
| ji_nonneg i : rint i -> jint (dval i) i
| ji_neg i : rint i -> jint (- dval i) (MINUS :: i).
