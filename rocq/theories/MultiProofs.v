(** The order of equivalent elements of a multiset or multimap. *)
From Verif Require Import Base Parser Out Number StringS CodecLaws SpecSeq Array ArrayProofs SpecMulti.

Section Multi.
  Context {A : Type} (lt : A -> A -> bool) (W : swo lt).
  Lemma lower_split x l : sle lt l -> exists l1 l2, l = l1 ++ l2 /\ lower_bound lt x l = length l1 /\ Forall (fun y => lt y x = true) l1 /\ Forall (fun y => lt y x = false) l2.
  Proof.
    induction l as [|y l IH]; intros H; [exists [], []; auto|]. destruct H as (H1 & H2). cbn [lower_bound]. destruct (lt y x) eqn:E.
    - destruct (IH H2) as (l1 & l2 & -> & -> & F1 & F2). exists (y :: l1), l2. auto.
    - exists [], (y :: l). repeat split; auto. constructor; [exact E|]. apply Forall_forall. intros z Hz. destruct (lt z x) eqn:Ez; [|reflexivity].
      destruct (swo_neg lt W z x y Ez) as [K|K]; [rewrite (H1 z Hz) in K; discriminate|congruence].
  Qed.
  Lemma upper_split x l : sle lt l -> exists l1 l2, l = l1 ++ l2 /\ upper_bound lt x l = length l1 /\ Forall (fun y => lt x y = false) l1 /\ Forall (fun y => lt x y = true) l2.
  Proof.
    induction l as [|y l IH]; intros H; [exists [], []; auto|]. destruct H as (H1 & H2). cbn [upper_bound]. destruct (lt x y) eqn:E.
    - exists [], (y :: l). repeat split; auto. constructor; [exact E|]. apply Forall_forall. intros z Hz.
      destruct (swo_neg lt W x y z E) as [K|K]; [exact K|rewrite (H1 z Hz) in K; discriminate].
    - destruct (IH H2) as (l1 & l2 & -> & -> & F1 & F2). exists (y :: l1), l2. auto.
  Qed.
  Lemma sle_back a b : sle lt (a ++ b) -> sle lt b.
  Proof. induction a as [|x a IH]; [auto|]. intros (_ & H). auto. Qed.
  Lemma sle_head u b : sle lt (u :: b) -> forall y, In y b -> lt y u = false.
  Proof. intros (H & _). exact H. Qed.
  (** bounds of a list with a known beginning *)
  Lemma lower_app x l1 l2 : Forall (fun y => lt y x = true) l1 -> lower_bound lt x (l1 ++ l2) = (length l1 + lower_bound lt x l2)%nat.
  Proof. induction 1 as [|y l1 Hy _ IH]; [reflexivity|]. cbn [app lower_bound length]. rewrite Hy, IH. reflexivity. Qed.
  Lemma upper_app x l1 l2 : Forall (fun y => lt x y = false) l1 -> upper_bound lt x (l1 ++ l2) = (length l1 + upper_bound lt x l2)%nat.
  Proof. induction 1 as [|y l1 Hy _ IH]; [reflexivity|]. cbn [app upper_bound length]. rewrite Hy, IH. reflexivity. Qed.
  Lemma lower_stop x l1 u l2 : lt u x = false -> (lower_bound lt x (l1 ++ u :: l2) <= length l1)%nat.
  Proof. intros Hu. induction l1 as [|y l1 IH]; cbn [app lower_bound length]; [now rewrite Hu|]. destruct (lt y x); lia. Qed.
  Lemma upper_stop x l1 u l2 : lt x u = true -> (upper_bound lt x (l1 ++ u :: l2) <= length l1)%nat.
  Proof. intros Hu. induction l1 as [|y l1 IH]; cbn [app upper_bound length]; [now rewrite Hu|]. destruct (lt x y); lia. Qed.
  Lemma insert_mid a b (v : A) : insert_at (length a) v (a ++ b) = a ++ v :: b.
  Proof. unfold insert_at. rewrite firstn_app, firstn_all, Nat.sub_diag, firstn_O, app_nil_r, skipn_app, skipn_all, Nat.sub_diag. reflexivity. Qed.

  Lemma finger_step vs a u b v : sle lt (a ++ u :: b) -> finger lt vs a u b ->
    exists a' b', multi_insert lt (a ++ u :: b, S (length a)) v = (a' ++ v :: b', S (length a')) /\ finger lt (vs ++ [v]) a' v b'.
  Proof.
    intros Hs Hf. cbn [multi_insert]. assert (Ha : forall y, In y a -> lt u y = false) by (now apply sle_app with b).
    assert (Hb : forall y, In y b -> lt y u = false) by (apply sle_head; now apply sle_back with a).
    pose proof (lower_le_upper lt W v _ Hs) as LU. destruct (lt u v) eqn:E1.
    - destruct (lower_split v b) as (b1 & b2 & -> & Lb & F1 & F2); [apply sle_back with (a ++ [u]); rewrite <- app_assoc; exact Hs|].
      assert (L : lower_bound lt v (a ++ u :: b1 ++ b2) = length (a ++ u :: b1)).
      { rewrite lower_app by (apply Forall_forall; intros y Hy; destruct (swo_neg lt W u v y E1) as [K|K]; [rewrite (Ha y Hy) in K; discriminate|exact K]).
        cbn [lower_bound]. rewrite E1, Lb, app_length. reflexivity. }
      exists (a ++ u :: b1), b2. split; [|now constructor]. rewrite L in *.
      assert (LE : (S (length a) <= length (a ++ u :: b1))%nat) by (rewrite app_length; cbn [length]; lia).
      replace (Nat.max _ _) with (length (a ++ u :: b1)) by lia. replace (a ++ u :: b1 ++ b2) with ((a ++ u :: b1) ++ b2) by now rewrite <- app_assoc.
      now rewrite insert_mid.
    - destruct (lt v u) eqn:E2.
      + destruct (upper_split v a (sle_front lt a (u :: b) Hs)) as (a1 & a2 & -> & Ua & F1 & F2). exists a1, (a2 ++ u :: b). split; [|now constructor].
        assert (U : upper_bound lt v ((a1 ++ a2) ++ u :: b) = length a1).
        { rewrite <- app_assoc. rewrite upper_app by exact F1. destruct a2 as [|y a2]; cbn [app upper_bound]; [rewrite E2; lia|]. inversion F2 as [|? ? K ?]; subst. rewrite K. lia. }
        rewrite U in *. replace (Nat.max _ _) with (length a1) by (rewrite app_length in *; lia). rewrite <- app_assoc. now rewrite insert_mid.
      + exists (a ++ [u]), b. split; [|now constructor].
        assert (L : (lower_bound lt v (a ++ u :: b) <= length a)%nat) by now apply lower_stop.
        assert (U : (S (length a) <= upper_bound lt v (a ++ u :: b))%nat).
        { rewrite upper_app by (apply Forall_forall; intros y Hy; destruct (lt v y) eqn:K; [|reflexivity]; destruct (swo_neg lt W v y u K) as [K'|K']; [congruence|rewrite (Ha y Hy) in K'; discriminate]).
          cbn [upper_bound]. rewrite E2. lia. }
        replace (Nat.max _ _) with (length (a ++ [u])) by (rewrite app_length; cbn [length]; lia). replace (a ++ u :: b) with ((a ++ [u]) ++ b) by now rewrite <- app_assoc.
        now rewrite insert_mid.
  Qed.
  Lemma finger_fold vs : vs <> [] -> exists a u b, fold_left (multi_insert lt) vs ([], O) = (a ++ u :: b, S (length a)) /\ finger lt vs a u b.
  Proof.
    induction vs as [|v vs IH] using rev_ind; intros N; [contradiction|]. rewrite fold_left_app. destruct vs as [|w ws].
    - exists [], v, []. split; [reflexivity|constructor].
    - destruct (IH ltac:(discriminate)) as (a & u & b & E & Hf). rewrite E. cbn [fold_left].
      assert (Hs : sle lt (a ++ u :: b)) by (pose proof (proj1 (multi_fold lt W (w :: ws) ([], O) I)) as K; rewrite E in K; exact K).
      destruct (finger_step _ a u b v Hs Hf) as (a' & b' & -> & Hf'). exists a', v, b'. auto.
  Qed.
  Lemma snoc_eq (l l' : list A) x y : l ++ [x] = l' ++ [y] -> l = l' /\ x = y.
  Proof. apply app_inj_tail. Qed.
  Lemma split_unique (P : A -> bool) l1 l2 m1 m2 : l1 ++ l2 = m1 ++ m2 -> Forall (fun y => P y = true) l1 -> Forall (fun y => P y = false) l2 ->
    Forall (fun y => P y = true) m1 -> Forall (fun y => P y = false) m2 -> l1 = m1 /\ l2 = m2.
  Proof.
    intros E H1 H2. revert m1 E. induction H1 as [|x l1 Hx H1 IH]; intros [|y m1] E M1 M2; cbn [app] in E; auto.
    - subst l2. inversion M1; inversion H2; subst. congruence.
    - subst m2. inversion M2; subst. congruence.
    - injection E as -> E. inversion M1; subst. destruct (IH m1 E) as (-> & ->); auto.
  Qed.
  (** the order is determined *)
  Lemma finger_unique vs a u b a' u' b' : finger lt vs a u b -> finger lt vs a' u' b' -> a = a' /\ u = u' /\ b = b'.
  Proof.
    intros H. revert a' u' b'. induction H as [v|vs a u b v Hf IH E1 E2|vs a u b1 b2 v Hf IH E1 F1 F2|vs a1 a2 u b v Hf IH E1 F1 F2]; intros a' u' b' H'.
    - inversion H' as [w A1 A2 A3 A4|ws x w y z Hf' ? ? Q|ws x w y1 y2 z Hf' ? ? ? Q|ws x1 x2 w y z Hf' ? ? ? Q]; subst; auto; destruct ws; try (destruct ws; discriminate Q); inversion Hf'; destruct vs; discriminate.
    - remember (vs ++ [v]) as l eqn:El. destruct H' as [w|ws x w y z Hf' G1 G2|ws x w y1 y2 z Hf' G1 G2 G3|ws x1 x2 w y z Hf' G1 G2 G3].
      + destruct vs as [|q [|]]; try discriminate. inversion Hf; destruct vs; discriminate.
      + apply snoc_eq in El. destruct El as (-> & ->). destruct (IH _ _ _ Hf') as (-> & -> & ->). auto.
      + apply snoc_eq in El. destruct El as (-> & ->). destruct (IH _ _ _ Hf') as (_ & -> & _). congruence.
      + apply snoc_eq in El. destruct El as (-> & ->). destruct (IH _ _ _ Hf') as (_ & -> & _). congruence.
    - remember (vs ++ [v]) as l eqn:El. destruct H' as [w|ws x w y z Hf' G1 G2|ws x w y1 y2 z Hf' G1 G2 G3|ws x1 x2 w y z Hf' G1 G2 G3].
      + destruct vs as [|q [|]]; try discriminate. inversion Hf; destruct vs; discriminate.
      + apply snoc_eq in El. destruct El as (-> & ->). destruct (IH _ _ _ Hf') as (_ & -> & _). congruence.
      + apply snoc_eq in El. destruct El as (-> & ->). destruct (IH _ _ _ Hf') as (-> & -> & Eb).
        destruct (split_unique (fun y => lt y v) _ _ _ _ Eb F1 F2 G2 G3) as (-> & ->). auto.
      + apply snoc_eq in El. destruct El as (-> & ->). destruct (IH _ _ _ Hf') as (_ & -> & _). pose proof (swo_trans lt W _ _ _ E1 G1) as K. rewrite (swo_irr lt W) in K. discriminate.
    - remember (vs ++ [v]) as l eqn:El. destruct H' as [w|ws x w y z Hf' G1 G2|ws x w y1 y2 z Hf' G1 G2 G3|ws x1 x2 w y z Hf' G1 G2 G3].
      + destruct vs as [|q [|]]; try discriminate. inversion Hf; destruct vs; discriminate.
      + apply snoc_eq in El. destruct El as (-> & ->). destruct (IH _ _ _ Hf') as (_ & -> & _). congruence.
      + apply snoc_eq in El. destruct El as (-> & ->). destruct (IH _ _ _ Hf') as (_ & <- & _). pose proof (swo_trans lt W _ _ _ E1 G1) as K. rewrite (swo_irr lt W) in K. discriminate.
      + apply snoc_eq in El. destruct El as (-> & ->). destruct (IH _ _ _ Hf') as (Ea & -> & ->).
        destruct (split_unique (fun y => negb (lt v y)) a1 a2 x1 x2 Ea) as (-> & ->); auto; (eapply Forall_impl; [|eassumption]); cbn; intros ? ->; reflexivity.
  Qed.
End Multi.
Theorem multi_order {A} lt (item : codec A) d0 L R tc ts b vs : swo lt -> brackets L R -> spaced tc ts b -> Forall2 (rd item) ts vs -> vs <> [] ->
  exists x u y, rd (seq_codec (multi_cont lt) L R item d0) (L :: b ++ [R]) (x ++ u :: y) /\ finger lt vs x u y.
Proof.
  intros W HB Hs Hv N. destruct (finger_fold lt W vs N) as (x & u & y & E & Hf). exists x, u, y. split; [|exact Hf].
  pose proof (seq_rd (multi_cont lt) L R item d0 tc ts b vs HB Hs Hv) as K. cbn [c_get c_ins c_new multi_cont] in K. rewrite E in K. exact K.
Qed.
