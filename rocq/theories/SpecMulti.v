(** Specification: the order of equivalent elements of a multiset or multimap. *)
From Verif Require Import Base.

(** [finger lt vs a u b]: inserting vs one after the other gives a ++ u :: b,
    where u is the one inserted last.  An equivalent element goes right behind
    it, a greater one in front of the first that is not less, a smaller one
    behind the last that is not greater. *)
Inductive finger {A} (lt : A -> A -> bool) : list A -> list A -> A -> list A -> Prop :=
| f_first v : finger lt [v] [] v []
| f_same vs a u b v : finger lt vs a u b -> lt u v = false -> lt v u = false -> finger lt (vs ++ [v]) (a ++ [u]) v b
| f_greater vs a u b1 b2 v : finger lt vs a u (b1 ++ b2) -> lt u v = true ->
    Forall (fun y => lt y v = true) b1 -> Forall (fun y => lt y v = false) b2 -> finger lt (vs ++ [v]) (a ++ u :: b1) v b2
| f_less vs a1 a2 u b v : finger lt vs (a1 ++ a2) u b -> lt v u = true ->
    Forall (fun y => lt v y = false) a1 -> Forall (fun y => lt v y = true) a2 -> finger lt (vs ++ [v]) a1 v (a2 ++ u :: b).
