(** Specification: texts in UTF-8. *)
From Verif Require Import Base SpecJson SpecString.

(** The end of a text in UTF-8, as a reader sees it in the middle of the text. *)
Definition end8 (s : buf) : Prop := exists p, utf8 (p ++ s).
(** No escape stands for half of a surrogate pair, or for a byte from 128 on. *)
Definition no_half (s : buf) : Prop :=
  (forall p a b c d q, s = p ++ BSL :: 117 :: a :: b :: c :: d :: q -> s_hex a -> s_hex b -> s_hex c -> s_hex d -> scalar (hex4 a b c d)) /\
  forall p a b q, s = p ++ BSL :: 120 :: a :: b :: q -> s_hex a -> s_hex b -> hexv a * 16 + hexv b < 128.
(** Texts in UTF-8 without such escapes, and their ends. *)
Definition text8 (s : buf) : Prop := end8 s /\ no_half s.
