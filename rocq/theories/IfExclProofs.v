(** Proofs: of the alternatives of a member_if one is unset, whatever is read. *)
From Verif Require Import Base Parser Out Object ObjectArray SpecIf IfHoldProofs.

Section Excl.
  Context {S : Type} (I : S -> Prop).
  Definition des_keeps (b : memb S) : Prop := forall sn t s u e t' u' r e', memb_des b sn t s u e = Ok (t', u', r, e') -> I t -> I t'.
  Definition ades_keeps (b : memb S) : Prop := forall sn t s e t' r e', amemb_des b sn t s e = Ok (t', r, e') -> I t -> I t'.
  Lemma search_x mode sn R : Forall des_keeps R -> forall t s e t' r e', search_members mode sn R t s e = Ok (t', r, e') -> I t -> I t'.
  Proof.
    induction 1 as [|b R Hb _ IH]; intros t s e t' r e' E Ht; cbn [search_members] in E.
    - apply bind_ok in E as ([s1 e1] & _ & E). now injection E as <- _ _.
    - apply bind_ok in E as ([[[t1 u] s1] e1] & E1 & E). apply Hb in E1; specialize (E1 Ht). destruct (negb u); [now apply (IH _ _ _ _ _ _ E)|now injection E as <- _ _].
  Qed.
  Lemma close_x (t : S) s e t' r e' : at_close t s e = Ok (t', r, e') -> t' = t.
  Proof. unfold at_close. destruct s as [|c s]; [|destruct (negb (c =? RCB))]; now intros [= -> _ _]. Qed.
  Lemma loop_x mode sn L n : Forall des_keeps L -> forall R t s e t' r e', Forall des_keeps R -> members_loop mode sn L n R t s e = Ok (t', r, e') -> I t -> I t'.
  Proof.
    intros HL. induction n as [|n IH]; intros R t s e t' r e' HR E Ht; [discriminate|]. cbn [members_loop] in E. destruct R as [|b R].
    { apply bind_ok in E as ([s1 e1] & _ & E). now injection E as <- _ _. }
    apply bind_ok in E as ([[[t1 u] s1] e1] & E1 & E). pose proof (Forall_inv HR) as Hb. apply Hb in E1; specialize (E1 Ht).
    apply bind_ok in E as ([[t2 s2] e2] & E2 & E).
    assert (K2 : I t2) by (destruct (negb u); [now apply (search_x mode sn L HL _ _ _ _ _ _ E2)|now injection E2 as <- _ _]).
    destruct (parse_space s2 e2) as [[|d t3] e3]; [now injection E as <- _ _|]. destruct (d =? COMMA); [|apply close_x in E as ->; exact K2].
    destruct (parse_space t3 e3) as [s4 e4]. apply bind_ok in E as ([[t5 s5] e5] & E5 & E). apply close_x in E as ->.
    apply (fun K => IH _ _ _ _ _ _ _ K E5 K2). destruct u; [now apply Forall_inv_tail in HR|exact HR].
  Qed.
  Theorem object_x mode L t0 : I t0 -> Forall des_keeps L -> forall sn old s e v r e', des (object_codec mode L t0) sn old s e = Ok (v, r, e') -> I old -> I v.
  Proof.
    intros H0 HL sn old s e v r e' E Ho. cbn [des object_codec] in E. unfold object_des in E.
    destruct (is_null s); [destruct (parse_null s e); now injection E as <- _ _|]. destruct s as [|c s]; [now injection E as <- _ _|]. destruct (negb (c =? LCB)).
    { destruct (c =? LBR); [|now injection E as <- _ _]. destruct (parse_space s e) as [s1 e1]. apply bind_ok in E as (d & _ & E).
      destruct (negb (d =? RBR)); [now injection E as <- _ _|]. apply bind_ok in E as (s2 & _ & E). now injection E as <- _ _. }
    destruct (parse_space s e) as [[|d t1] e1]; [now injection E as <- _ _|]. destruct (negb (d =? RCB)); [|now injection E as <- _ _].
    apply bind_ok in E as ([[v1 s2] e2] & E2 & E). pose proof (loop_x mode sn L _ HL L _ _ _ _ _ _ HL E2 Ho) as K.
    destruct s2 as [|x s2]; [now injection E as <- _ _|]. destruct (parse_space (x :: s2) e2) as [[|y s3] e3]; [now injection E as <- _ _|].
    destruct (negb (y =? RCB)); now injection E as <- _ _.
  Qed.
  Lemma aloop_x sn R : Forall ades_keeps R -> forall t s e t' r e', amembers_des sn R t s e = Ok (t', r, e') -> I t -> I t'.
  Proof.
    induction 1 as [|b R Hb _ IH]; intros t s e t' r e' E Ht; cbn [amembers_des] in E; [now injection E as <- _ _|].
    apply bind_ok in E as ([[t1 s1] e1] & E1 & E). apply Hb in E1; specialize (E1 Ht). destruct (parse_space s1 e1) as [[|d t2] e2]; [now injection E as <- _ _|].
    apply bind_ok in E as ([[t3 s3] e3] & E3 & E).
    assert (K : I t3) by (destruct (d =? COMMA); [destruct (parse_space t2 e2) as [s4 e4]; now apply (IH _ _ _ _ _ _ E3)|now injection E3 as <- _ _]).
    destruct s3 as [|f s3]; [now injection E as <- _ _|]. destruct (negb (f =? RBR)); now injection E as <- _ _.
  Qed.
  Theorem oarray_x L t0 : I t0 -> Forall ades_keeps L -> forall sn old s e v r e', des (oarray_codec L t0) sn old s e = Ok (v, r, e') -> I old -> I v.
  Proof.
    intros H0 HL sn old s e v r e' E Ho. cbn [des oarray_codec] in E. unfold oarray_des in E.
    destruct (is_null s); [destruct (parse_null s e); now injection E as <- _ _|]. destruct s as [|c s]; [now injection E as <- _ _|]. destruct (negb (c =? LBR)); [now injection E as <- _ _|].
    destruct (parse_space s e) as [[|d t1] e1]; [now injection E as <- _ _|]. destruct (negb (d =? RBR)); [|now injection E as <- _ _].
    apply bind_ok in E as ([[v1 s2] e2] & E2 & E). pose proof (aloop_x sn L HL _ _ _ _ _ _ E2 Ho) as K.
    destruct s2 as [|x s2]; [now injection E as <- _ _|]. destruct (parse_space (x :: s2) e2) as [[|y s3] e3]; [now injection E as <- _ _|].
    destruct (negb (y =? RBR)); now injection E as <- _ _.
  Qed.
End Excl.

(** what one element does to the struct *)
Lemma p_tried {S} (m : mem S) i sn t s u e t' u' r e' : mem_p_des m i sn t s u e = Ok (t', u', r, e') -> tried m t t'.
Proof.
  unfold mem_p_des. destruct (unser_name (m_name m) s u e) as [[s1 e1] u1]. destruct (negb u1); [intros [= <- _ _ _]; now left|].
  intros E. apply bind_ok in E as ([[x r1] e2] & E1 & E2). injection E2 as <- _ _ _. right. now exists x.
Qed.
Lemma tried_apart {S} (m l : mem S) t t' : apart m l -> tried m t t' -> m_get l t' = m_get l t.
Proof. intros H [->|[x ->]]; [reflexivity|apply H]. Qed.
Section Pair.
  Context {S : Type} (l r : mem S).
  Hypothesis Al : apart l r. Hypothesis Ar : apart r l. Hypothesis Kl : keeps_set l. Hypothesis Kr : keeps_set r.
  Lemma if_leaves ru d sn t s u e t' u' q e' : memb_des (MIf ru l r d) sn t s u e = Ok (t', u', q, e') -> one_unset l r t'.
  Proof.
    cbn [memb_des]. intros E. apply bind_ok in E as ([[[t1 u1] itr] ee] & E1 & E). destruct (no_err_yet ee).
    - apply bind_ok in E as (t2 & E2 & E). injection E as <- _ _ _. apply reset_gives in E2 as (n & Hn & ->). destruct ru; [left; rewrite Kl|right; rewrite Kr]; exact Hn.
    - apply bind_ok in E as (t2 & E2 & E). apply mem_tried in E. apply reset_gives in E2 as (n & Hn & ->).
      destruct ru; [right; rewrite (tried_apart l r _ _ Al E), Kr|left; rewrite (tried_apart r l _ _ Ar E), Kl]; exact Hn.
  Qed.
  Lemma aif_leaves ru d sn t s e t' q e' : amemb_des (MIf ru l r d) sn t s e = Ok (t', q, e') -> one_unset l r t'.
  Proof.
    cbn [amemb_des]. intros E. apply bind_ok in E as ([[t1 itr] ee] & E1 & E). destruct (no_err_yet ee).
    - apply bind_ok in E as (t2 & E2 & E). injection E as <- _ _. apply reset_gives in E2 as (n & Hn & ->). destruct ru; [left; rewrite Kl|right; rewrite Kr]; exact Hn.
    - apply bind_ok in E as (t2 & E2 & E). apply amem_tried in E. apply reset_gives in E2 as (n & Hn & ->).
      destruct ru; [right; rewrite (tried_apart l r _ _ Al E), Kr|left; rewrite (tried_apart r l _ _ Ar E), Kl]; exact Hn.
  Qed.
  (** other elements leave both alone *)
  Definition sees (t t' : S) : Prop := m_get l t' = m_get l t /\ m_get r t' = m_get r t.
  Lemma sees_trans a b c : sees a b -> sees b c -> sees a c.
  Proof. intros [H1 H2] [H3 H4]. split; congruence. Qed.
  Lemma tried_sees m t t' : apart m l -> apart m r -> tried m t t' -> sees t t'.
  Proof. intros H1 H2 H. split; now apply (tried_apart m). Qed.
  Lemma reset_tried (m : mem S) t t' : mem_reset m t = Ok t' -> tried m t t'.
  Proof. intros E. apply reset_gives in E as (n & _ & ->). right. now exists n. Qed.
  Lemma other_sees b sn t s u e t' u' q e' : (forall m, In m (parts b) -> apart m l /\ apart m r) -> memb_des b sn t s u e = Ok (t', u', q, e') -> sees t t'.
  Proof.
    intros H. assert (T : forall m x y, In m (parts b) -> tried m x y -> sees x y) by (intros m x y Hm; apply tried_sees; now apply H).
    destruct b as [m|m i|ru f g d]; cbn [memb_des parts] in *.
    - intros E. apply mem_tried in E. apply (T m); [now left|exact E].
    - intros E. apply p_tried in E. apply (T m); [now left|exact E].
    - assert (Tf : forall x y, tried (if ru then g else f) x y -> sees x y) by (intros x y; destruct ru; apply T; [right|]; now left).
      assert (Tg : forall x y, tried (if ru then f else g) x y -> sees x y) by (intros x y; destruct ru; apply T; [|right]; now left).
      intros E. apply bind_ok in E as ([[[t1 u1] itr] ee] & E1 & E). apply mem_tried in E1. destruct (no_err_yet ee); apply bind_ok in E as (t2 & E2 & E); apply reset_tried in E2.
      + injection E as <- _ _ _. apply sees_trans with t1; auto.
      + apply mem_tried in E. apply sees_trans with t1; [auto|]. apply sees_trans with t2; auto.
  Qed.
  Lemma aother_sees b sn t s e t' q e' : (forall m, In m (parts b) -> apart m l /\ apart m r) -> amemb_des b sn t s e = Ok (t', q, e') -> sees t t'.
  Proof.
    intros H. assert (T : forall m x y, In m (parts b) -> tried m x y -> sees x y) by (intros m x y Hm; apply tried_sees; now apply H).
    destruct b as [m|m i|ru f g d]; cbn [amemb_des parts] in *.
    - intros E. apply amem_tried in E. apply (T m); [now left|exact E].
    - intros E. apply bind_ok in E as ([[x r1] e2] & E1 & E2). injection E2 as <- _ _. apply (T m); [now left|]. right. now exists x.
    - assert (Tf : forall x y, tried (if ru then g else f) x y -> sees x y) by (intros x y; destruct ru; apply T; [right|]; now left).
      assert (Tg : forall x y, tried (if ru then f else g) x y -> sees x y) by (intros x y; destruct ru; apply T; [|right]; now left).
      intros E. apply bind_ok in E as ([[t1 itr] ee] & E1 & E). apply amem_tried in E1. destruct (no_err_yet ee); apply bind_ok in E as (t2 & E2 & E); apply reset_tried in E2.
      + injection E as <- _ _. apply sees_trans with t1; auto.
      + apply amem_tried in E. apply sees_trans with t1; [auto|]. apply sees_trans with t2; auto.
  Qed.
  Lemma sees_unset t t' : sees t t' -> one_unset l r t -> one_unset l r t'.
  Proof. intros [H1 H2]. unfold one_unset. now rewrite H1, H2. Qed.
  (** the elements of a list: the member_if, and others *)
  Definition others (L : list (memb S)) : Prop := Forall (fun b => forall m, In m (parts b) -> apart m l /\ apart m r) L.
  Lemma all_keep ru d L1 L2 : others (L1 ++ L2) -> Forall (des_keeps (one_unset l r)) (L1 ++ MIf ru l r d :: L2) /\ Forall (ades_keeps (one_unset l r)) (L1 ++ MIf ru l r d :: L2).
  Proof.
    intros H. apply Forall_app in H as [H1 H2].
    assert (K : forall L, others L -> Forall (des_keeps (one_unset l r)) L /\ Forall (ades_keeps (one_unset l r)) L).
    { intros L HL. split; (eapply Forall_impl; [|exact HL]); intros b Hb sn t s.
      - intros u e t' u' q e' E. apply sees_unset. now apply other_sees in E.
      - intros e t' q e' E. apply sees_unset. now apply aother_sees in E. }
    destruct (K L1 H1), (K L2 H2). split; (apply Forall_app; split; [assumption|constructor; [|assumption]]); intros sn t s.
    - intros u e t' u' q e' E _. now apply if_leaves in E.
    - intros e t' q e' E _. now apply aif_leaves in E.
  Qed.
End Pair.
