(** Specification of hash tables: what [unord.req] of the C++ standard promises
    about clear() and insert(). *)
From Coq Require Import Sorting.Permutation.
From Verif Require Import Base Unord.

Record equivb {A} (eq : A -> A -> bool) : Prop := {
  eqb_refl' : forall x, eq x x = true;
  eqb_sym' : forall x y, eq x y = true -> eq y x = true;
  eqb_trans' : forall x y z, eq x y = true -> eq y z = true -> eq x z = true
}.
(** unordered_set/map: an equivalent key already present prevents insertion;
    iteration order is unspecified and may change with every insertion *)
Record unique_keys {A H} (eq : A -> A -> bool) (h : hashtab A H) : Prop := {
  uk_clear : forall t, h_list h (h_clear h t) = [];
  uk_old : forall t x, existsb (eq x) (h_list h t) = true -> Permutation (h_list h t) (h_list h (h_ins h t x));
  uk_new : forall t x, existsb (eq x) (h_list h t) = false -> Permutation (x :: h_list h t) (h_list h (h_ins h t x))
}.
(** unordered_multiset/multimap *)
Record equiv_keys {A H} (h : hashtab A H) : Prop := {
  ek_clear : forall t, h_list h (h_clear h t) = [];
  ek_ins : forall t x, Permutation (x :: h_list h t) (h_list h (h_ins h t x))
}.
(** no two elements with equivalent keys *)
Definition distinct {A} (eq : A -> A -> bool) (l : list A) : Prop :=
  forall i j x y, (i < j)%nat -> nth_error l i = Some x -> nth_error l j = Some y -> eq x y = false.
(** [rdp c elems txt m]: txt reads as a container with the elements of m in some
    order: whatever the target contained and whatever follows, exactly txt is
    consumed and nothing is reported. *)
Definition rdp {A H} (d : option Z -> H -> buf -> eptr -> res (H * buf * eptr)) (elems : H -> list A) (ok : buf -> Prop) (txt : buf) (m : list A) : Prop :=
  forall sn old r e, ok r -> no_err_yet e = true ->
    exists t, d sn old (txt ++ r) e = Ok (t, r, e) /\ Permutation m (elems t).
