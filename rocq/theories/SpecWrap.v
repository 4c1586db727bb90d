(** Specification for wrappers. *)
From Verif Require Import Base SpecJson Out.
(** [txt] is what serializing v produces *)
Definition writes {A} (c : codec A) (v : A) (txt : buf) : Prop := exists ops, ser c v = Ok ops /\ flat ops = txt.
(** the text of v does not start with byte c *)
Definition not_starting {A} (c : codec A) (b : Z) (v : A) : Prop := forall txt, writes c v txt -> ~ heads b txt.
