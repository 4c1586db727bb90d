(** Specification: texts that are written through one description and read
    through another one. *)
From Verif Require Import Base SpecJson Out SpecSeq Object SpecObject.

(** [gives c c' old a b]: the text written for [a] through [c] is read through
    [c'], into a target that contains [old], as [b], and is consumed exactly. *)
Definition gives {A B} (c : codec A) (c' : codec B) (old : B) (a : A) (b : B) : Prop :=
  exists ops, ser c a = Ok ops /\ rd_into c' old (flat ops) b.

(** Text without quotes, backslashes, control and non-ASCII characters. *)
Definition plain_text (n : buf) : Prop := Forall (fun c => 32 <= c < 128 /\ c <> QT /\ c <> BSL) n.

(** What becomes of a member of the writing struct: the reading struct has a
    member of that name which can read it, or it is skipped. *)
Inductive member_goes {T U} (mode : omode) (LU : list (memb U)) (v : T) (b : memb T) : Prop :=
| mg_read (c : memb U) (F : m_ty (memb_mem c) -> m_ty (memb_mem c)) : In c LU -> memb_name c = memb_name b ->
    (forall o, gives (m_codec (memb_mem b)) (m_codec (memb_mem c)) o (m_get (memb_mem b) v) (F o)) -> member_goes mode LU v b
| mg_skip ops : mode = Nonstrict -> ~ In (memb_name b) (names LU) -> wchars (memb_name b) ->
    ser (m_codec (memb_mem b)) (m_get (memb_mem b) v) = Ok ops -> wvalue (flat ops) -> member_goes mode LU v b.

(** A field holds what was stored last. *)
Definition keeps {U} (L : list (memb U)) : Prop :=
  forall c, In c L -> forall t x, m_get (memb_mem c) (m_set (memb_mem c) t x) = x.
