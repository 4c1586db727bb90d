(** Exactness of the readers of bool, wrappers, times and sizes. *)
From Verif Require Import Base Parser SpecJson SpecNum SpecString SpecEnum ParserFacts Grammar1 Grammar2 Out Number StringS Array Object Wrap TimeSize CodecLaws
  NumberProofs StringProofs ArrayProofs WrapProofs FloatProofs AcceptProofs SpecExact ExactProofs ObjExactProofs.

Lemma bool_C0 s r : parse_bool s C0 = (r, C0) -> s = text "true" ++ r \/ s = text "false" ++ r.
Proof.
  intros B. unfold parse_bool in B. destruct s as [|a s]; [discriminate|]. unfold finish_lit in B. revert B.
  destruct s as [|b [|c [|d [|f s]]]]; cbn; repeat match goal with |- context [if ?z then _ else _] => destruct z eqn:? end; cbn; intros X;
  inversion X; subst; repeat match goal with H : (_ =? _) = true |- _ => apply Z.eqb_eq in H; subst end; (now left) || now right.
Qed.
Lemma bool_exact sn old s v r : reads bool_codec sn old s v r <->
  s = text "null" ++ r /\ v = false \/ s = text "true" ++ r /\ v = true \/ s = text "false" ++ r /\ v = false.
Proof.
  unfold reads. cbn [des bool_codec]. unfold bool_des. fold C0. split.
  - destruct s as [|c t]; [discriminate|]. destruct (is_null (c :: t)) eqn:En.
    { destruct (parse_null _ C0) as [r' e'] eqn:E1. intros E. injection E as <- <- ->. left. split; [now apply null_exact|reflexivity]. }
    destruct (c =? 116) eqn:E1.
    { destruct (parse_bool _ C0) as [r' e'] eqn:E2. intros E. injection E as <- <- ->. destruct (bool_C0 _ _ E2) as [Ep|Ep]; [now right; left|].
      injection Ep as -> _. discriminate. }
    destruct (c =? 102) eqn:E2; [|discriminate].
    destruct (parse_bool _ C0) as [r' e'] eqn:E3. intros E. injection E as <- <- ->. destruct (bool_C0 _ _ E3) as [Ep|Ep]; [|now right; right].
    injection Ep as -> _. discriminate.
  - intros [[-> ->]|[[-> ->]|[-> ->]]]; reflexivity.
Qed.
Lemma value_exact sn s r : bytes s -> parse_value sn s C0 = Ok (r, C0) <-> exists v, s = v ++ r /\ waccept v r.
Proof. exact (parse_exact sn s r). Qed.
Lemma value_C0 sn s e r : bytes s -> parse_value sn s e = Ok (r, C0) -> e = C0.
Proof. intros Hb E. exact (proj1 (value_ok _ _ _ _ _ Hb E C0_ok)). Qed.
Lemma raw_exact sn old s v r : bytes s -> reads raw_codec sn old s v r <-> s = v ++ r /\ waccept v r.
Proof.
  intros Hb. unfold reads. cbn [des raw_codec]. unfold raw_des. fold C0. split.
  - destruct (parse_value sn s C0) as [[r1 e1]| |] eqn:E; cbn [bind]; try discriminate. intros H. injection H as <- <- ->. apply value_exact in E; [|exact Hb].
    destruct E as (v & -> & Hv). rewrite range_app_l. now split.
  - intros (-> & Hv). rewrite (proj2 (value_exact sn (v ++ r) r Hb)) by now exists v. cbn [bind]. now rewrite range_app_l.
Qed.
Lemma rquoted_exact serq reqq sn old s v r : bytes s -> reads (rquoted_codec serq reqq) sn old s v r <->
  if reqq then s = QT :: v ++ QT :: r /\ waccept v (QT :: r) else s = v ++ r /\ waccept v r.
Proof.
  intros Hb. unfold reads. cbn [des rquoted_codec]. unfold rquoted_des. fold C0. destruct reqq; cbn [andb]; split.
  - destruct s as [|c t]; [discriminate|]. destruct (c =? QT) eqn:Ec; cbn [negb]; [|discriminate]. apply Z.eqb_eq in Ec. subst c. cbv zeta.
    destruct (parse_value sn t C0) as [[r1 e1]| |] eqn:E; cbn [bind]; try discriminate. destruct (has_err e1) eqn:He; [intros H; injection H as _ _ ->; discriminate|].
    inversion Hb; subst. intros H. destruct r1 as [|d r']; [injection H as _ _ H; now apply C0_cerr in H|].
    destruct (d =? QT) eqn:Ed; [|injection H as _ _ H; now apply C0_cerr in H]. apply Z.eqb_eq in Ed. subst d. injection H as <- <- ->. apply value_exact in E; [|assumption].
    destruct E as (v & -> & Hv). rewrite range_app_l. now split.
  - intros (-> & Hv). rewrite Z.eqb_refl. cbn [negb]. cbv zeta. inversion Hb; subst. rewrite (proj2 (value_exact sn (v ++ QT :: r) (QT :: r) H2)) by now exists v. cbn [bind has_err]. now rewrite Z.eqb_refl, range_app_l.
  - destruct s as [|c t]; [discriminate|]. cbv zeta. destruct (parse_value sn (c :: t) C0) as [[r1 e1]| |] eqn:E; cbn [bind]; try discriminate.
    destruct (has_err e1) eqn:He; [intros H; injection H as _ _ ->; discriminate|]. intros H. injection H as <- <- ->. apply value_exact in E; [|assumption].
    destruct E as (v & Ev & Hv). rewrite Ev, range_app_l. now split.
  - intros (-> & Hv). destruct (v ++ r) as [|c t] eqn:E.
    { exfalso. apply app_eq_nil in E. destruct E as [-> _]. destruct Hv as [Hv _]. destruct (wvalue_head _ Hv) as (? & ? & ? & _). discriminate. }
    cbv zeta. rewrite <- E in *. rewrite (proj2 (value_exact sn (v ++ r) r Hb)) by now exists v. cbn [bind has_err]. now rewrite range_app_l.
Qed.
Section PQ.
  Context {A : Type} (J : codec A).
  Lemma ptr_exact d0 sn old s v r : reads (ptr_codec J d0) sn old s v r <->
    ((s = [] \/ heads 110 s) /\ v = None /\ r = skipn 4 s) \/ exists x, v = Some x /\ s <> [] /\ ~ heads 110 s /\ reads J sn d0 s x r.
  Proof.
    unfold reads. cbn [des ptr_codec]. unfold ptr_des. fold C0. split.
    - destruct s as [|c t]; [intros E; injection E as <- <-; left; auto|]. destruct (c =? 110) eqn:Ec; cbn [negb].
      + intros E. injection E as <- <-. left. split; [right; exists t; f_equal; lia|auto].
      + destruct (des J sn d0 (c :: t) C0) as [[[x r1] e1]| |] eqn:E; cbn [bind]; try discriminate. intros H. injection H as <- <- ->. right. exists x. split; [reflexivity|]. split; [discriminate|]. split; [|reflexivity].
        intros (z & Ez). injection Ez as -> _. discriminate.
    - intros [([-> | (t & ->)] & -> & ->)|(x & -> & N & H & E)]; [reflexivity|reflexivity|]. destruct s as [|c t]; [congruence|]. destruct (c =? 110) eqn:Ec; cbn [negb]; [exfalso; apply H; exists t; f_equal; lia|].
      rewrite E. reflexivity.
  Qed.
  Lemma quoted_exact serq reqq sn old s v r : dlaw (des J) -> reads (quoted_codec J serq reqq) sn old s v r <->
    (reqq = true \/ heads QT s) /\ (exists b r', reads string_codec sn [] s b r /\ reads J (Some 0) old b v r') \/
    reqq = false /\ ~ heads QT s /\ reads J sn old s v r.
  Proof.
    intros HD. assert (K : quoted_des1 J sn old s C0 = Ok (v, r, C0) <-> exists b r', reads string_codec sn [] s b r /\ reads J (Some 0) old b v r').
    { unfold quoted_des1, reads. fold C0. cbn [des string_codec]. split.
      - destruct (string_des sn [] s C0) as [[[b r1] e1]| |] eqn:E; cbn [bind]; try discriminate. destruct (has_err e1) eqn:He; [intros H; injection H as _ _ ->; discriminate|].
        destruct (des J (Some 0) old b C0) as [[[x r2] e2]| |] eqn:E2; cbn [bind]; try discriminate.
        pose proof (HD (Some 0) old b C0) as G. rewrite E2 in G. destruct G as [_ G]. destruct e1 as [k1|].
        + destruct e2 as [k2|]; [|destruct G as [G|(k & j & _ & _ & G & _)]; discriminate]. destruct (is_err k2) eqn:Ek.
          * intros H. exfalso. unfold is_err in Ek. injection H as _ _ H _. rewrite H in Ek. discriminate.
          * intros H. injection H as -> -> ->. pose proof (estep_clean _ _ _ G) as G2. cbn in G2. rewrite Ek in G2. specialize (G2 eq_refl). exists b, r2. split; [reflexivity|]. rewrite E2. now rewrite <- G2.
        + intros H. discriminate.
      - intros (b & r' & E1 & E2). rewrite E1. cbn [bind has_err]. cbn. fold C0. rewrite E2. reflexivity. }
    unfold reads at 1. cbn [des quoted_codec]. unfold quoted_des. fold C0. destruct reqq.
    - rewrite K. split; [intros H; left; auto|]. intros [[_ H]|(H & _)]; [exact H|discriminate].
    - destruct (is_string s) eqn:Es.
      + destruct (is_string_qt s Es) as (z & ->). rewrite K. split; [intros H; left; split; [right; now exists z|exact H]|]. intros [[_ H]|(_ & N & _)]; [exact H|]. exfalso. apply N. now exists z.
      + assert (N : ~ heads QT s) by (intros (z & ->); cbn in Es; discriminate). split; [intros H; right; auto|]. intros [[[H|H] _]|(_ & _ & H)]; [discriminate|contradiction|exact H].
  Qed.
  Lemma member_value_exact {T} (get : T -> A) set sn old s v r : reads (member_value_codec get set J) sn old s v r <-> exists x, reads J sn (get old) s x r /\ v = set old x.
  Proof.
    unfold reads. cbn [des member_value_codec]. split.
    - destruct (des J sn (get old) s (Some no_error)) as [[[x r1] e1]| |] eqn:E; cbn [bind]; try discriminate. intros H. injection H as <- <- ->. now exists x.
    - intros (x & -> & ->). reflexivity.
  Qed.
End PQ.

(** ---- times and sizes ---- *)
Lemma icast_wrapped t z v : ity_ok t -> icast t z = v <-> wrapped t z v.
Proof.
  intros Ht. split.
  - intros <-. split; [now apply icast_range|]. now apply icast_eq.
  - intros (R & k & ->). destruct (icast_eq t z Ht) as (k2 & E). apply irange_unique with (t := t) (k := k2 - k); auto using icast_range. change (2 ^ (8 * isize t)) with (imod t). lia.
Qed.
Lemma iarith_computes t z v : ity_ok t -> iarith t z = Ok v <-> computes t z v.
Proof.
  intros Ht. unfold iarith, computes. destruct (isigned t) eqn:Es.
  - unfold irangeb. destruct ((imin t <=? z) && (z <=? imax t)) eqn:E; split.
    + intros H. injection H as <-. split; [|auto]. split; [unfold irange; lia|exists 0; lia].
    + intros [_ H]. now rewrite H.
    + discriminate.
    + intros [[R _] H]. rewrite (H eq_refl) in R. unfold irange in R. lia.
  - assert (0 < imod t) by (destruct (imod_cases t Ht); lia). split.
    + intros H0. injection H0 as <-. split; [|discriminate]. pose proof (icast_wrapped t z (z mod imod t) Ht) as [K _]. apply K. unfold icast. rewrite Es. reflexivity.
    + intros [W _]. apply icast_wrapped in W; [|exact Ht]. rewrite <- W. unfold icast. rewrite Es. reflexivity.
Qed.
Lemma ipromote_ok t : ity_ok t -> ity_ok (ipromote t). Proof. unfold ity_ok, ipromote. destruct (isize t <? 4) eqn:E; cbn; lia. Qed.

Lemma int_shape t sn old s v r : ity_ok t -> reads (int_codec t) sn old s v r -> is_null s = true \/ is_null s = false /\ is_number s = true.
Proof.
  intros Ht H. apply int_exact in H; [|exact Ht]. destruct H as [[-> _]|(z & l & Hj & -> & _)]; [now left|]. right.
  assert (K : forall i, rint i -> exists d x, i = d :: x /\ s_digit d). { intros i [|d x Hd _]; eexists _, _; (split; [reflexivity|]); unfold s_digit; lia. }
  destruct Hj as [i Hi|i Hi].
  - destruct (K i Hi) as (d & x & -> & Hd). unfold s_digit in Hd. cbn. unfold is_digit. split; lia.
  - split; reflexivity.
Qed.
Lemma int_qt t sn old x v r : ity_ok t -> ~ reads (int_codec t) sn old (QT :: x) v r.
Proof. intros Ht H. destruct (int_shape _ _ _ _ _ _ Ht H) as [K|[_ K]]; cbn in K; discriminate. Qed.
Lemma int_nil t sn old v r : ity_ok t -> ~ reads (int_codec t) sn old [] v r.
Proof. intros Ht H. destruct (int_shape _ _ _ _ _ _ Ht H) as [K|[_ K]]; cbn in K; discriminate. Qed.
Lemma int_C0 t sn old s e v r : int_des t sn old s e = Ok (v, r, C0) -> e = C0.
Proof. exact (dl_C0 _ _ sn old s e v r (int_dlaw t)). Qed.

Section Time.
  Context (t : ity) (fr : Z) (Ht : ity_ok t).
  Lemma add_exact v cur k v' : time_add t fr v cur k = Ok v' <-> plus t fr v cur k v'.
  Proof.
    pose proof (ipromote_ok t Ht) as HP. unfold time_add, plus. cbv zeta. split.
    - destruct (iarith (ipromote t) (cur * k)) as [a| |] eqn:Ea; cbn [bind]; try discriminate. destruct (iarith (ipromote t) (a * fr)) as [b| |] eqn:Eb; cbn [bind]; try discriminate.
      destruct (iarith (ipromote t) (v + b)) as [c| |] eqn:Ec; cbn [bind]; try discriminate. intros H. injection H as H. exists a, b, c. rewrite <- !iarith_computes by exact HP. rewrite <- icast_wrapped by exact Ht. auto.
    - intros (a & b & c & A & B & C & W). rewrite <- iarith_computes in A, B, C by exact HP. rewrite <- icast_wrapped in W by exact Ht. rewrite A. cbn [bind]. rewrite B. cbn [bind]. rewrite C. cbn [bind]. now rewrite W.
  Qed.
  Lemma addq_exact v cur k v' : time_addq t fr v cur k = Ok v' <-> plus_part t fr v cur k v'.
  Proof.
    pose proof (ipromote_ok t Ht) as HP. unfold time_addq, plus_part. cbv zeta. split.
    - destruct (iarith (ipromote t) (cur * fr)) as [a| |] eqn:Ea; cbn [bind]; try discriminate.
      destruct (iarith (ipromote t) (v + Z.quot a k)) as [c| |] eqn:Ec; cbn [bind]; try discriminate. intros H. injection H as H. exists a, c. rewrite <- !iarith_computes by exact HP. rewrite <- icast_wrapped by exact Ht. auto.
    - intros (a & c & A & C & W). rewrite <- iarith_computes in A, C by exact HP. rewrite <- icast_wrapped in W by exact Ht. rewrite A. cbn [bind]. rewrite C. cbn [bind]. now rewrite W.
  Qed.
  Definition ends_at (x : res (Z * buf * eptr + Z * buf * eptr)) (w : Z) (r : buf) (e : eptr) : Prop :=
    x = Ok (inr (w, r, e)) \/ x = Ok (inl (w, QT :: r, e)).
  Lemma time_sound f sn : forall v s e w r, ends_at (time_loop t fr f sn v s e) w r C0 -> e = C0 /\ parts t fr sn v s w r.
  Proof.
    induction f as [|f IH]; intros v s e w r; cbn [time_loop]; [intros [H|H]; discriminate|]. destruct s as [|c s0]; [intros [H|H]; discriminate|].
    destruct (c =? QT) eqn:Ec. { apply Z.eqb_eq in Ec. subst c. intros [H|H]; [discriminate|]. injection H as -> -> ->. split; [reflexivity|constructor]. }
    destruct (int_des t sn 0 (c :: s0) e) as [[[cur s1] e1]| |] eqn:E; cbn [bind]; try (intros [H|H]; discriminate).
    destruct (has_err e1) eqn:He. { intros [H|H]; [|discriminate]. injection H as _ _ ->. discriminate. }
    assert (K : e1 = C0 -> e = C0 /\ reads (int_codec t) sn 0 (c :: s0) cur s1). { intros ->. pose proof (int_C0 _ _ _ _ _ _ _ E) as ->. now split. }
    destruct s1 as [|u s2]. { intros [H|H]; [|discriminate]. injection H as <- <- ->. destruct (K eq_refl) as [-> Hr]. split; [reflexivity|]. now apply pt_cut with cur. }
    destruct (u =? 100) eqn:E1. { apply Z.eqb_eq in E1. subst u. destruct (time_add t fr v cur 86400) as [v'| |] eqn:Ea; cbn [bind]; try (intros [H|H]; discriminate).
      intros H. apply IH in H. destruct H as [-> H]. destruct (K eq_refl) as [-> Hr]. split; [reflexivity|]. apply pt_unit with cur 100 86400 s2 v'; auto using tu_d. now apply add_exact. }
    destruct (u =? 104) eqn:E2. { apply Z.eqb_eq in E2. subst u. destruct (time_add t fr v cur 3600) as [v'| |] eqn:Ea; cbn [bind]; try (intros [H|H]; discriminate).
      intros H. apply IH in H. destruct H as [-> H]. destruct (K eq_refl) as [-> Hr]. split; [reflexivity|]. apply pt_unit with cur 104 3600 s2 v'; auto using tu_h. now apply add_exact. }
    destruct (u =? 109) eqn:E3.
    { apply Z.eqb_eq in E3. subst u. destruct s2 as [|w' s3].
      - destruct (time_add t fr v cur 60) as [v'| |] eqn:Ea; cbn [bind]; try (intros [H|H]; discriminate). intros H. apply IH in H. destruct H as [-> H]. destruct (K eq_refl) as [-> Hr]. split; [reflexivity|].
        apply pt_min with cur [] v'; auto; [intros (z & Ez); discriminate|intros (z & Ez); discriminate|now apply add_exact].
      - destruct (w' =? 115) eqn:E4.
        { apply Z.eqb_eq in E4. subst w'. destruct (time_addq t fr v cur 1000) as [v'| |] eqn:Ea; cbn [bind]; try (intros [H|H]; discriminate).
          intros H. apply IH in H. destruct H as [-> H]. destruct (K eq_refl) as [-> Hr]. split; [reflexivity|]. apply pt_ms with cur s3 v'; auto. now apply addq_exact. }
        destruct (w' =? 107) eqn:E5.
        { apply Z.eqb_eq in E5. subst w'. destruct (time_addq t fr v cur 1000000) as [v'| |] eqn:Ea; cbn [bind]; try (intros [H|H]; discriminate).
          destruct s3 as [|c3 s4]; cbn [step bind]; [intros [H|H]; discriminate|].
          intros H. apply IH in H. destruct H as [-> H]. destruct (K eq_refl) as [-> Hr]. split; [reflexivity|]. apply pt_mks with cur c3 s4 v'; auto. now apply addq_exact. }
        destruct (time_add t fr v cur 60) as [v'| |] eqn:Ea; cbn [bind]; try (intros [H|H]; discriminate). intros H. apply IH in H. destruct H as [-> H]. destruct (K eq_refl) as [-> Hr]. split; [reflexivity|].
        apply pt_min with cur (w' :: s3) v'; auto; [intros (z & Ez); injection Ez as -> _; lia|intros (z & Ez); injection Ez as -> _; lia|now apply add_exact]. }
    destruct (u =? 115) eqn:E6. { apply Z.eqb_eq in E6. subst u. destruct (time_add t fr v cur 1) as [v'| |] eqn:Ea; cbn [bind]; try (intros [H|H]; discriminate).
      intros H. apply IH in H. destruct H as [-> H]. destruct (K eq_refl) as [-> Hr]. split; [reflexivity|]. apply pt_unit with cur 115 1 s2 v'; auto using tu_s. now apply add_exact. }
    intros H. apply IH in H. destruct H as [-> H]. destruct (K eq_refl) as [-> Hr]. split; [reflexivity|]. apply pt_other with cur u s2; auto; [lia|]. intros k Hk. inversion Hk; subst; lia.
  Qed.
  Lemma time_complete sn v s w r : parts t fr sn v s w r -> forall f, (length s < f)%nat -> ends_at (time_loop t fr f sn v s C0) w r C0.
  Proof.
    assert (L : forall s cur s1, reads (int_codec t) sn 0 s cur s1 -> exists c s0, s = c :: s0 /\ (c =? QT) = false /\ (length s1 <= length s)%nat).
    { clear v s w r. intros s cur s1 H. destruct s as [|c s0]; [now apply int_nil in H|]. exists c, s0. split; [reflexivity|]. split; [apply Z.eqb_neq; intros ->; now apply int_qt in H|].
      apply suffix_len. exact (dl_suffix _ _ _ _ _ _ _ _ _ (int_dlaw t) H). }
    induction 1 as [v r|v s cur H|v s cur u k s2 v' w r H Hu Hp Hs IH|v s cur s2 v' w r H N1 N2 Hp Hs IH|v s cur s2 v' w r H Hp Hs IH|v s cur c s2 v' w r H Hp Hs IH|v s cur u s2 w r H N1 N2 Hs IH];
      intros f Hf; (destruct f as [|f]; [lia|]); cbn [time_loop].
    - rewrite Z.eqb_refl. now right.
    - destruct (L _ _ _ H) as (c & s0 & -> & -> & L1). unfold reads in H. fold C0 in H. cbn [des int_codec] in H. rewrite H. cbn [bind has_err]. now left.
    - destruct (L _ _ _ H) as (c & s0 & -> & -> & L1). unfold reads in H. fold C0 in H. cbn [des int_codec] in H. rewrite H. cbn [bind]. cbn [length] in *. apply add_exact in Hp.
      specialize (IH f ltac:(lia)). destruct Hu; cbn; fold C0; rewrite Hp; exact IH.
    - destruct (L _ _ _ H) as (c & s0 & -> & -> & L1). unfold reads in H. fold C0 in H. cbn [des int_codec] in H. rewrite H. cbn [bind]. cbn [length] in *. apply add_exact in Hp.
      specialize (IH f ltac:(lia)). cbn [has_err]. change (is_err no_error) with false. cbv iota. change (109 =? 100) with false. change (109 =? 104) with false. change (109 =? 109) with true. cbv iota.
      destruct s2 as [|w' s3]; [rewrite Hp; exact IH|]. destruct (w' =? 115) eqn:E4; [exfalso; apply N1; exists s3; f_equal; lia|]. destruct (w' =? 107) eqn:E5; [exfalso; apply N2; exists s3; f_equal; lia|].
      rewrite Hp. exact IH.
    - destruct (L _ _ _ H) as (c & s0 & -> & -> & L1). unfold reads in H. fold C0 in H. cbn [des int_codec] in H. rewrite H. cbn [bind]. cbn [length] in *. apply addq_exact in Hp.
      specialize (IH f ltac:(lia)). cbn. fold C0. rewrite Hp. exact IH.
    - destruct (L _ _ _ H) as (c' & s0 & -> & -> & L1). unfold reads in H. fold C0 in H. cbn [des int_codec] in H. rewrite H. cbn [bind]. cbn [length] in *. apply addq_exact in Hp.
      specialize (IH f ltac:(lia)). cbn. fold C0. rewrite Hp. exact IH.
    - destruct (L _ _ _ H) as (c & s0 & -> & -> & L1). unfold reads in H. fold C0 in H. cbn [des int_codec] in H. rewrite H. cbn [bind]. cbn [length] in *.
      specialize (IH f ltac:(lia)). cbn [has_err]. change (is_err no_error) with false. cbv iota. rewrite (proj2 (Z.eqb_neq u 109) N1).
      destruct (u =? 100) eqn:E1; [exfalso; apply (N2 86400); replace u with 100 by lia; constructor|]. destruct (u =? 104) eqn:E2; [exfalso; apply (N2 3600); replace u with 104 by lia; constructor|].
      destruct (u =? 115) eqn:E3; [exfalso; apply (N2 1); replace u with 115 by lia; constructor|]. exact IH.
  Qed.
  Lemma time_exact sn old s v r : reads (time_codec t fr) sn old s v r <-> reads (int_codec t) sn 0 s v r \/ exists x, s = QT :: x /\ parts t fr sn 0 x v r.
  Proof.
    unfold reads at 1. cbn [des time_codec]. unfold time_des. fold C0. split.
    - destruct s as [|c s0]; [discriminate|]. destruct (is_null (c :: s0)) eqn:En.
      { intros H. left. unfold reads. cbn [des int_codec]. unfold int_des. fold C0. rewrite En. exact H. }
      destruct (is_number (c :: s0)); [intros H; now left|]. destruct (is_string (c :: s0)) eqn:Es; cbn [negb]; [|discriminate]. destruct (is_string_qt _ Es) as (z & Ez). injection Ez as -> ->.
      intros H. right. exists z. split; [reflexivity|]. destruct (time_loop t fr (S (length z)) sn 0 z C0) as [[[[w r1] e1]|[[w r1] e1]]| |] eqn:E; cbn [bind] in H; try discriminate.
      + destruct r1 as [|d r1]; [injection H as _ _ H; now apply C0_cerr in H|]. destruct (d =? QT) eqn:Ed; cbn [negb] in H; [|injection H as _ _ H; now apply C0_cerr in H]. apply Z.eqb_eq in Ed. subst d. injection H as -> -> ->.
        exact (proj2 (time_sound _ _ _ _ _ _ _ (or_intror E))).
      + injection H as -> -> ->. exact (proj2 (time_sound _ _ _ _ _ _ _ (or_introl E))).
    - intros [H|(x & -> & H)].
      + destruct s as [|c s0]; [now apply int_nil in H|]. destruct (int_shape _ _ _ _ _ _ Ht H) as [E|[E1 E2]].
        * rewrite E. unfold reads in H. cbn [des int_codec] in H. unfold int_des in H. fold C0 in H. now rewrite E in H.
        * rewrite E1, E2. exact H.
      + cbn [is_null is_number is_string starts]. change (QT =? 110) with false. cbv iota. change (is_digit QT) with false. change (QT =? MINUS) with false. rewrite Z.eqb_refl. cbn [orb negb].
        destruct (time_complete _ _ _ _ _ H (S (length x)) ltac:(lia)) as [-> | ->]; cbn [bind]; [reflexivity|]. now rewrite Z.eqb_refl.
  Qed.
End Time.

Lemma strlen_exact b txt : strlen b = Ok txt <-> exists rest, b = txt ++ 0 :: rest /\ ~ In 0 txt.
Proof.
  revert txt. induction b as [|c b IH]; intros txt; cbn [strlen]; split.
  - discriminate.
  - intros (rest & E & _). destruct txt; discriminate.
  - destruct (c =? 0) eqn:Ec; [intros H; injection H as <-; exists b; split; [cbn; f_equal; lia|auto]|]. destruct (strlen b) as [l| |]; cbn [bind]; try discriminate. intros H. injection H as <-.
    destruct (proj1 (IH l) eq_refl) as (rest & -> & N). exists rest. split; [reflexivity|]. intros [H|H]; [lia|contradiction].
  - intros (rest & E & N). destruct txt as [|x txt]; injection E as -> E; [reflexivity|]. subst b. destruct (x =? 0) eqn:Ex; [exfalso; apply N; left; lia|]. rewrite (proj2 (IH txt)); [reflexivity|]. exists rest. split; [reflexivity|]. intros H. apply N. now right.
Qed.
Lemma mult_exact q m : sunit q m <-> exists c q1, q = c :: q1 /\ size_mult c (match q1 with d :: _ => d | [] => 0 end) = Some m.
Proof.
  split.
  - intros [x|c k x H|c k x H N].
    + exists 66, x. split; reflexivity.
    + exists c, (105 :: x). split; [reflexivity|]. cbn in H. unfold size_mult. repeat (destruct H as [H|H]; [injection H as <- <-; reflexivity|]). contradiction.
    + exists c, x. split; [reflexivity|]. assert (E : (match x with d :: _ => d | [] => 0 end =? 105) = false). { destruct x as [|d x]; [reflexivity|]. apply Z.eqb_neq. intros ->. apply N. now exists x. }
      cbn in H. unfold size_mult. rewrite E. repeat (destruct H as [H|H]; [injection H as <- <-; reflexivity|]). contradiction.
  - intros (c & q1 & -> & H). unfold size_mult in H.
    assert (B : forall d k, c = d -> In (d, k) [(75, 1); (77, 2); (71, 3); (84, 4)] -> (if match q1 with d :: _ => d | [] => 0 end =? 105 then 1024 ^ k else 1000 ^ k) = m -> sunit (c :: q1) m).
    { intros d k -> Hin E. destruct (match q1 with d :: _ => d | [] => 0 end =? 105) eqn:Eq; subst m.
      - destruct q1 as [|d1 q1]; [discriminate|]. apply Z.eqb_eq in Eq. subst d1. now apply (su_bin d k q1).
      - apply su_dec; [exact Hin|]. intros (z & ->). discriminate. }
    destruct (c =? 84) eqn:E1; [injection H as H; apply (B 84 4); [lia|cbn; tauto|exact H]|]. destruct (c =? 71) eqn:E2; [injection H as H; apply (B 71 3); [lia|cbn; tauto|exact H]|].
    destruct (c =? 77) eqn:E3; [injection H as H; apply (B 77 2); [lia|cbn; tauto|exact H]|]. destruct (c =? 75) eqn:E4; [injection H as H; apply (B 75 1); [lia|cbn; tauto|exact H]|].
    destruct (c =? 66) eqn:E5; [|discriminate]. injection H as <-. replace c with 66 by lia. apply (su_b q1).
Qed.
Lemma i64_ok : ity_ok i64. Proof. unfold ity_ok. cbn. lia. Qed.
Lemma size_exact t metric sn old s v r : ity_ok t -> bytes s -> irange i64 metric -> reads (size_codec t metric) sn old s v r <-> reads (int_codec t) sn 0 s v r \/
  exists l w txt rest z q, s = QT :: l ++ QT :: r /\ literal 32 l w /\ w ++ repeat 0 (32 - length w) = txt ++ 0 :: rest /\ ~ In 0 txt /\ reads (int_codec i64) sn 0 txt z q /\
    (q = [] /\ wrapped t z v \/ exists m a, sunit q m /\ computes i64 (z * m) a /\ wrapped t (Z.quot a metric) v).
Proof.
  intros Ht Hb Hm. assert (Em : icast i64 metric = metric) by (apply icast_id; [exact i64_ok|exact Hm]).
  unfold reads at 1. cbn [des size_codec]. unfold size_des. fold C0. split.
  - destruct s as [|c s0]; [discriminate|]. destruct (is_null (c :: s0)) eqn:En.
    { intros H. left. unfold reads. cbn [des int_codec]. unfold int_des. fold C0. rewrite En. exact H. }
    destruct (is_number (c :: s0)); [intros H; now left|]. destruct (is_string (c :: s0)) eqn:Es; cbn [negb]; [|discriminate]. destruct (is_string_qt _ Es) as (z & Ez). injection Ez as -> ->.
    intros H. right. destruct (chars_des 32 sn [] (QT :: z) C0) as [[[b r1] e1]| |] eqn:E1; cbn [bind] in H; try discriminate.
    destruct (has_err e1) eqn:He; [injection H as _ _ ->; discriminate|]. destruct (strlen b) as [txt| |] eqn:E2; cbn [bind] in H; try discriminate.
    destruct (int_des i64 (Some 0) 0 txt e1) as [[[val q] e2]| |] eqn:E3; cbn [bind] in H; try discriminate. destruct (has_err e2) eqn:He2; [injection H as _ _ ->; discriminate|].
    assert (K : r1 = r -> e2 = C0 -> exists l w rest, QT :: z = QT :: l ++ QT :: r /\ literal 32 l w /\ w ++ repeat 0 (32 - length w) = txt ++ 0 :: rest /\ ~ In 0 txt /\ reads (int_codec i64) sn 0 txt val q).
    { intros -> ->. pose proof (int_C0 _ _ _ _ _ _ _ E3) as ->. assert (R : reads (chars_codec 32) sn [] (QT :: z) b r) by exact E1. apply chars_exact in R; [|exact Hb]. destruct R as [[R _]|(l & w & El & Hl & Eb)]; [discriminate|].
      destruct (proj1 (strlen_exact b txt) E2) as (rest & Er & N). exists l, w, rest. rewrite <- Eb. repeat split; auto. }
    destruct q as [|ch1 q1].
    + injection H as H -> ->. destruct (K eq_refl eq_refl) as (l & w & rest & A & B & C & D & F). exists l, w, txt, rest, val, []. repeat (split; [assumption|]). left. split; [reflexivity|]. now apply icast_wrapped.
    + cbv zeta in H. destruct (size_mult ch1 _) as [mult|] eqn:Eu; [|injection H as _ _ H; now apply C0_cerr in H]. destruct (iarith i64 (val * mult)) as [a| |] eqn:Ea; cbn [bind] in H; try discriminate.
      injection H as H -> ->. destruct (K eq_refl eq_refl) as (l & w & rest & A & B & C & D & F). exists l, w, txt, rest, val, (ch1 :: q1). repeat (split; [assumption|]). right. exists mult, a.
      split; [apply mult_exact; now exists ch1, q1|]. split; [apply iarith_computes; [exact i64_ok|exact Ea]|]. rewrite Em in H. now apply icast_wrapped.
  - intros [H|(l & w & txt & rest & z & q & -> & Hl & Ew & N & Hi & Hq)].
    + destruct s as [|c s0]; [now apply int_nil in H|]. destruct (int_shape _ _ _ _ _ _ Ht H) as [E|[E1 E2]].
      * rewrite E. unfold reads in H. cbn [des int_codec] in H. unfold int_des in H. fold C0 in H. now rewrite E in H.
      * rewrite E1, E2. exact H.
    + cbn [is_null is_number is_string starts]. change (QT =? 110) with false. cbv iota. change (is_digit QT) with false. change (QT =? MINUS) with false. rewrite Z.eqb_refl. cbn [orb negb].
      assert (R : reads (chars_codec 32) sn [] (QT :: l ++ QT :: r) (w ++ repeat 0 (32 - length w)) r) by (apply chars_exact; [exact Hb|]; right; exists l, w; auto).
      unfold reads in R. cbn [des chars_codec] in R. fold C0 in R. rewrite R. cbn [bind has_err]. rewrite (proj2 (strlen_exact _ txt)) by (exists rest; auto). cbn [bind].
      change (is_err no_error) with false. cbv iota. assert (Ei : int_des i64 (Some 0) 0 txt C0 = Ok (z, q, C0)) by exact Hi. rewrite Ei. cbn [bind has_err]. change (is_err no_error) with false. cbv iota.
      destruct Hq as [[-> W]|(m & a & Hu & Ha & W)].
      * apply icast_wrapped in W; [|exact Ht]. now rewrite W.
      * apply mult_exact in Hu. destruct Hu as (c & q1 & -> & Hu). cbv zeta. rewrite Hu. apply iarith_computes in Ha; [|exact i64_ok]. rewrite Ha. cbn [bind]. apply icast_wrapped in W; [|exact Ht]. rewrite Em. now rewrite W.
Qed.
