(** Specification: reading a value later. *)
From Verif Require Import Base SpecJson Out Object SpecObject SpecAccept SpecExact.

(** What may follow an element or a member. *)
Definition followed (r : buf) : Prop := exists c t, after_gap r (c :: t) /\ In c [COMMA; RBR; RCB].
(** No blanks and no comment in front. *)
Definition at_value (s : buf) : Prop := exists g, after_gap g s.

(** [alike Q R b c]: whatever the member c reads into a struct u, the member b
    reads into each struct t related to u, and the results are related. *)
Definition alike {T U} (Q : quirk -> Prop) (R : T -> U -> Prop) (b : memb T) (c : memb U) : Prop :=
  memb_name b = memb_name c /\ forall sn t u s y r, R t u -> bytes s -> tame Q s -> at_value s -> followed r ->
    reads (m_codec (memb_mem c)) sn (memb_old c u) s y r ->
    exists x, reads (m_codec (memb_mem b)) sn (memb_old b t) s x r /\ R (m_set (memb_mem b) t x) (m_set (memb_mem c) u y).
