(** Specification for enumerators and flags. *)
From Verif Require Import Base SpecJson Enum.

Definition no_quote (n : buf) : Prop := Forall (fun c => c <> QT) n.
(** names, values *)
Definition enames (L : elist) : list buf := map fst L.
Definition evals (L : elist) : list Z := map snd L.

(** v is a union of listed flags *)
Definition flag_union (L : elist) (v : Z) : Prop := exists xs, incl xs (evals L) /\ v = fold_left Z.lor xs 0.
(** separators of the string form: a space, or neither whitespace nor slash nor quote *)
Definition sep_ok (sep : Z) : Prop := sep <> COMMA /\ (sep = 32 \/ ~ s_ws sep /\ sep <> SLASH /\ sep <> QT).
(** names of the string form: not empty, no separator, whitespace, slash or quote *)
Definition flag_name (sep : Z) (n : buf) : Prop :=
  n <> [] /\ Forall (fun c => c <> QT /\ c <> sep /\ ~ s_ws c /\ c <> SLASH) n.
(** strings with a separator between them *)
Fixpoint jsep (sep : Z) (l : list buf) : buf := match l with [] => [] | [x] => x | x :: r => x ++ sep :: jsep sep r end.
Definition quoted_name (n : buf) : buf := QT :: n ++ [QT].
(** the union of the flags with the given names *)
Definition union_of (ns : elist) : Z := fold_left Z.lor (evals ns) 0.
