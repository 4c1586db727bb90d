(** Specification: two readers with the same outcome. *)
From Verif Require Import Base SpecSeq SpecUnord SpecMulti.

(** Both are undefined, or both leave the same text over, report the same error
    and store related values. *)
Inductive outcomes {A B} (K : A -> B -> Prop) : res (A * buf * eptr) -> res (B * buf * eptr) -> Prop :=
| oc_ok a b r e : K a b -> outcomes K (Ok (a, r, e)) (Ok (b, r, e))
| oc_ub : outcomes K UB UB.

(** What a container holds, given the elements in the order they are read. *)
Definition as_set {A} (lt : A -> A -> bool) (vs m : list A) : Prop :=
  sorted_lt lt m /\ forall y, find (eqv lt y) m = find (eqv lt y) vs.
Definition as_multiset {A} (lt : A -> A -> bool) (vs m : list A) : Prop :=
  vs = [] /\ m = [] \/ exists a u b, m = a ++ u :: b /\ finger lt vs a u b.
Definition as_unique {A} (eq : A -> A -> bool) (vs m : list A) : Prop :=
  distinct eq m /\ forall y, find (eq y) m = find (eq y) vs.
