(** C116: of the alternatives of a member_if one is unset. *)
From Verif Require Import Base Parser SpecJson Out SpecSeq Number StringS Array Object ObjectArray SpecObject SpecIf IfHoldProofs IfExclProofs Properties_Seq Properties_Object Properties_IfHold.
Import ListNotations.

(** ---- C116 ---- *)
(** Whatever is read, with or without error, if one alternative of a member_if held
    what it reads from null before, one does afterwards: in an object ... *)
Theorem C116_object : forall S mode (L1 L2 : list (memb S)) (ru : bool) (l r : mem S) isdef t0,
  apart l r -> apart r l -> keeps_set l -> keeps_set r -> (forall b m, In b (L1 ++ L2) -> In m (parts b) -> apart m l /\ apart m r) -> one_unset l r t0 ->
  forall sn old s e v q e', des (object_codec mode (L1 ++ MIf ru l r isdef :: L2) t0) sn old s e = Ok (v, q, e') -> one_unset l r old -> one_unset l r v.
Proof.
  intros S mode L1 L2 ru l r isdef t0 Al Ar Kl Kr Ho H0 sn old s e v q e'. apply object_x; [exact H0|]. apply all_keep; auto. apply Forall_forall. intros b Hb m. now apply Ho.
Qed.
Print Assumptions C116_object.
(** ... and in an array of members. *)
Theorem C116_array : forall S (L1 L2 : list (memb S)) (ru : bool) (l r : mem S) isdef t0,
  apart l r -> apart r l -> keeps_set l -> keeps_set r -> (forall b m, In b (L1 ++ L2) -> In m (parts b) -> apart m l /\ apart m r) -> one_unset l r t0 ->
  forall sn old s e v q e', des (oarray_codec (L1 ++ MIf ru l r isdef :: L2) t0) sn old s e = Ok (v, q, e') -> one_unset l r old -> one_unset l r v.
Proof.
  intros S L1 L2 ru l r isdef t0 Al Ar Kl Kr Ho H0 sn old s e v q e'. apply oarray_x; [exact H0|]. apply all_keep; auto. apply Forall_forall. intros b Hb m. now apply Ho.
Qed.
Print Assumptions C116_array.
(** Where the member_if is come to, nothing has to hold before. *)
Theorem C116_element : forall S (ru : bool) (l r : mem S) isdef, apart l r -> apart r l -> keeps_set l -> keeps_set r ->
  (forall sn t s u e t' u' q e', memb_des (MIf ru l r isdef) sn t s u e = Ok (t', u', q, e') -> one_unset l r t') /\
  (forall sn t s e t' q e', amemb_des (MIf ru l r isdef) sn t s e = Ok (t', q, e') -> one_unset l r t').
Proof.
  intros S ru l r isdef Al Ar Kl Kr. split; intros.
  - now apply (if_leaves l r Al Ar Kl Kr) in H.
  - now apply (aif_leaves l r Al Ar Kl Kr) in H.
Qed.
Print Assumptions C116_element.
(** an instance: int or string, at most one of them is not empty *)
Theorem C116_int_or_string : forall (ru : bool) mode c, c = object_codec mode (Lif ru) foo0 \/ c = oarray_codec (Lif ru) foo0 ->
  forall sn old s e v q e', des c sn old s e = Ok (v, q, e') -> fa old = 0 \/ fs old = [] -> fa v = 0 \/ fs v = [].
Proof.
  intros ru mode c Hc sn old s e v q e' E Ho.
  assert (N : forall t, one_unset sa ms t <-> fa t = 0 \/ fs t = []).
  { intros t. split; (intros [H|H]; [left|right]).
    - now apply null_int.
    - now apply null_string.
    - exists 0, [], None. cbn [m_get m_codec sa]. now rewrite H.
    - exists [], [], None. cbn [m_get m_codec ms]. now rewrite H. }
  assert (A : forall b m, In b ([MRef mb] ++ []) -> In m (parts b) -> apart m sa /\ apart m ms) by (intros b m [<-|[]] [<-|[]]; split; intros t x; reflexivity).
  apply N. apply N in Ho. destruct Hc as [->| ->].
  - apply (C116_object foo mode [MRef mb] [] ru sa ms (Z.eqb 0) foo0) with sn old s e q e'; auto; try (intros t x; reflexivity). apply N. now left.
  - apply (C116_array foo [MRef mb] [] ru sa ms (Z.eqb 0) foo0) with sn old s e q e'; auto; try (intros t x; reflexivity). apply N. now left.
Qed.
Print Assumptions C116_int_or_string.
(** The condition on the target is needed: a text that does not come to the
    member_if leaves both alternatives as they were. *)
Theorem C116_target_refuted : ~ (forall sn old s e v q e', des (object_codec Nonstrict (Lif false) foo0) sn old s e = Ok (v, q, e') -> fa v = 0 \/ fs v = []).
Proof.
  intros H. assert (E : des (object_codec Nonstrict (Lif false) foo0) None (mkfoo 7 0 (text "old")) (jt "{'b':1}") clean = Ok (mkfoo 7 1 (text "old"), [], clean)) by exq.
  apply H in E. destruct E; discriminate.
Qed.
Print Assumptions C116_target_refuted.
(** a concrete case: a string cut short replaces an int *)
Example C116_ex : des (object_codec Nonstrict (Lif false) foo0) None (mkfoo 7 0 []) (jt "{'b':1,'foo':'abc") clean = Ok (mkfoo 0 1 (text "abc"), [], Some (mkerr UnexpectedEndFragment None 0)) /\
  des (oarray_codec (Lif true) foo0) None (mkfoo 0 0 (text "old")) (jt "[1,5]") clean = Ok (mkfoo 5 1 [], [], clean).
Proof. split; exq. Qed.
