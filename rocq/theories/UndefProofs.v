(** Exactly when reading a number, time or size is undefined behaviour. *)
From Verif Require Import Base Parser SpecJson SpecNum SpecString SpecEnum ParserFacts Grammar1 Grammar2 Out Number StringS Array Object Wrap TimeSize CodecLaws
  NumberProofs StringProofs ArrayProofs WrapProofs AcceptProofs SpecExact ExactProofs ObjExactProofs WrapExactProofs SpecUndef.

Lemma int_ub t sn old s e : ity_ok t -> int_des t sn old s e = UB <-> too_big t s.
Proof.
  intros Ht. split.
  - intros E. destruct (is_null s) eqn:En; [unfold int_des in E; rewrite En in E; destruct (parse_null s e); discriminate|].
    assert (J : exists z l r', jint z l /\ s = l ++ r' /\ int_end l r').
    { unfold int_des in E. rewrite En in E. unfold unserialize_integer in E. destruct s as [|c t0]; [discriminate|]. cbv zeta in E.
      assert (K : forall s1, match s1 with [] => False | d :: _ => is_digit d = true end -> exists l r', s1 = l ++ r' /\ rint l /\ (l = text "0" \/ nodigit r')).
      { intros s1 H. destruct s1 as [|d t1]; [contradiction|]. destruct (Z.eq_dec d 48) as [->|Hd].
        - exists [48], t1. split; [reflexivity|]. split; [constructor|]. now left.
        - destruct (parse_digit_inv t1) as (ds & Es & Hds & Hnd). exists (d :: ds), (parse_digit t1). split; [cbn [app]; now rewrite <- Es|].
          split; [constructor; [unfold is_digit in H; lia|exact Hds]|]. now right. }
      destruct (c =? MINUS) eqn:Ec.
      - apply Z.eqb_eq in Ec. subst c. destruct t0 as [|d t1]; [discriminate|]. destruct (is_digit d) eqn:Ed; cbn [negb] in E; [|discriminate].
        destruct (K (d :: t1) Ed) as (l & r' & El & Hl & Hr). exists (- dval l), (MINUS :: l), r'. split; [now constructor|]. rewrite El. split; [reflexivity|].
        unfold int_end. destruct Hr as [-> | Hr]; [right; left; reflexivity|right; right; exact Hr].
      - destruct (is_digit c) eqn:Ed; cbn [negb] in E; [|discriminate].
        destruct (K (c :: t0) Ed) as (l & r' & El & Hl & Hr). exists (dval l), l, r'. split; [now constructor|]. split; [exact El|].
        unfold int_end. destruct Hr as [-> | Hr]; [left; reflexivity|right; right; exact Hr]. }
    destruct J as (z & l & r' & Hj & -> & He). destruct (wraps_dec t) as [W|W]; [rewrite (int_des_wrap t sn old z l r' e Ht W Hj He) in E; discriminate|].
    destruct (Z_le_gt_dec (Z.abs z) (imax t)) as [L|G]; [rewrite (int_des_exact t sn old z l r' e) in E by assumption; discriminate|].
    assert (Sg : isigned t = true /\ 4 <= isize t) by (unfold wraps in W; destruct (isigned t); split; try reflexivity; try lia; exfalso; apply W; now right).
    destruct Sg as (S1 & S2). split; [exact S1|]. split; [exact S2|]. exists z, l, r'. split; [reflexivity|]. split; [exact Hj|]. split; [|lia].
    destruct He as [-> | [-> | He]]; [exfalso|exfalso|exact He].
    + inversion Hj as [i Hi Ei|i Hi Ei]; subst. cbn in G. unfold imax in G. pose proof (half_cases t Ht). destruct (isigned t); lia.
    + inversion Hj as [i Hi Ei|i Hi Ei]; subst; [inversion Hi; subst; lia|]. cbn in G. unfold imax in G. pose proof (half_cases t Ht). destruct (isigned t); lia.
  - intros (S1 & S2 & z & l & r & -> & Hj & Hr & Hz). apply int_des_overflow with z; auto. unfold wraps. intros [W|W]; [lia|congruence].
Qed.
Lemma too_big_head t s : too_big t s -> is_null s = false /\ is_number s = true.
Proof.
  intros (_ & _ & z & l & r & -> & Hj & _).
  assert (K : forall i, rint i -> exists d x, i = d :: x /\ s_digit d). { intros i [|d x Hd _]; eexists _, _; (split; [reflexivity|]); unfold s_digit; lia. }
  destruct Hj as [i Hi|i Hi]; [|split; reflexivity]. destruct (K i Hi) as (d & x & -> & Hd). unfold s_digit in Hd. cbn. unfold is_digit. split; lia.
Qed.
Lemma clean_out A (d : option Z -> A -> buf -> eptr -> res (A * buf * eptr)) sn old s v r e1 : dlaw d -> d sn old s C0 = Ok (v, r, e1) -> has_err e1 = false -> e1 = C0.
Proof.
  intros D E He. specialize (D sn old s C0). rewrite E in D. destruct D as (_ & [D|(k & j & _ & _ & -> & Hj & _)]); [exact D|].
  exfalso. unfold has_err, no_err_yet in He. rewrite Hj in He. discriminate.
Qed.
Lemma ub_or_ok {A} (x : res A) : x <> Fuel -> x = UB \/ exists v, x = Ok v.
Proof. destruct x as [v| |]; [right; now exists v|now left|contradiction]. Qed.
Lemma iarith_fuel t z : iarith t z <> Fuel. Proof. unfold iarith. destruct (isigned t); [destruct (irangeb t z)|]; discriminate. Qed.
Lemma add_fuel t fr v cur k : time_add t fr v cur k <> Fuel.
Proof.
  unfold time_add. pose proof (iarith_fuel (ipromote t) (cur * k)). destruct (iarith _ (cur * k)) as [a| |]; cbn [bind]; try (discriminate || contradiction).
  pose proof (iarith_fuel (ipromote t) (a * fr)). destruct (iarith _ (a * fr)) as [b| |]; cbn [bind]; try (discriminate || contradiction).
  pose proof (iarith_fuel (ipromote t) (v + b)). destruct (iarith _ (v + b)); cbn [bind]; (discriminate || contradiction).
Qed.
Lemma addq_fuel t fr v cur k : time_addq t fr v cur k <> Fuel.
Proof.
  unfold time_addq. pose proof (iarith_fuel (ipromote t) (cur * fr)). destruct (iarith _ (cur * fr)) as [a| |]; cbn [bind]; try (discriminate || contradiction).
  pose proof (iarith_fuel (ipromote t) (v + Z.quot a k)). destruct (iarith _ (v + Z.quot a k)); cbn [bind]; (discriminate || contradiction).
Qed.
Section Time.
  Context (t : ity) (fr : Z) (sn : option Z) (Ht : ity_ok t).
  Lemma add_ub v cur k : time_add t fr v cur k = UB <-> forall w, ~ plus t fr v cur k w.
  Proof.
    split; [intros E w H; apply add_exact in H; [congruence|exact Ht]|]. intros H. destruct (ub_or_ok _ (add_fuel t fr v cur k)) as [E|(w & E)]; [exact E|].
    exfalso. apply (H w). now apply add_exact.
  Qed.
  Lemma addq_ub v cur k : time_addq t fr v cur k = UB <-> forall w, ~ plus_part t fr v cur k w.
  Proof.
    split; [intros E w H; apply addq_exact in H; [congruence|exact Ht]|]. intros H. destruct (ub_or_ok _ (addq_fuel t fr v cur k)) as [E|(w & E)]; [exact E|].
    exfalso. apply (H w). now apply addq_exact.
  Qed.
  (** the sum and what follows it *)
  Lemma bind_ub (x : res Z) (P : Z -> Prop) g : x <> Fuel -> (forall w, x = Ok w <-> P w) -> bind x g = (UB : res (Z * buf * eptr + Z * buf * eptr)) <-> (forall w, ~ P w) \/ exists w, P w /\ g w = UB.
  Proof.
    intros F H. destruct x as [w| |]; cbn [bind]; [| |contradiction].
    - split; [intros E; right; exists w; split; [now apply H|exact E]|]. intros [N|(w' & Hw & E)]; [exfalso; now apply (N w), H|]. apply H in Hw. now injection Hw as ->.
    - split; [intros _; left; intros w Hw; apply H in Hw; discriminate|reflexivity].
  Qed.
  Lemma tunit_fun u k k' : tunit u k -> tunit u k' -> k = k'.
  Proof. intros [] H; inversion H; reflexivity. Qed.
  Lemma comp_cases v s cur u s2 P r : reads (int_codec t) sn 0 s cur (u :: s2) -> component t fr sn v s P r ->
    (exists k, tunit u k /\ r = s2 /\ P = plus t fr v cur k) \/
    (u = 109 /\ ~ heads 115 s2 /\ ~ heads 107 s2 /\ r = s2 /\ P = plus t fr v cur 60) \/
    (u = 109 /\ s2 = 115 :: r /\ P = plus_part t fr v cur 1000) \/
    (u = 109 /\ (exists c, s2 = 107 :: c :: r) /\ P = plus_part t fr v cur 1000000) \/
    (u <> 109 /\ (forall k, ~ tunit u k) /\ r = s2 /\ P = eq v).
  Proof.
    intros H C. assert (F : forall c' r', reads (int_codec t) sn 0 s c' r' -> c' = cur /\ r' = u :: s2) by (unfold reads; intros c' r' H'; rewrite H in H'; now injection H' as -> ->).
    destruct C as [cur' u' k s2' H' Hu|cur' s2' H' N1 N2|cur' s2' H'|cur' c s2' H'|cur' u' s2' H' N1 N2]; destruct (F _ _ H') as (-> & E).
    - injection E as -> ->. left. exists k. auto.
    - injection E as <- ->. right. left. auto.
    - injection E as <- <-. right. right. left. auto.
    - injection E as <- <-. right. right. right. left. split; [reflexivity|]. split; [now exists c|reflexivity].
    - injection E as -> ->. right. right. right. right. auto.
  Qed.
  Lemma tunit_109 k : ~ tunit 109 k. Proof. intros H. inversion H. Qed.
  Lemma over_inv v s : time_over t fr sn v s -> too_big t s \/ exists cur u s2, reads (int_codec t) sn 0 s cur (u :: s2) /\
    ((u = 109 /\ s2 = [107]) \/ exists P r, component t fr sn v s P r /\ ((forall w, ~ P w) \/ exists w, P w /\ time_over t fr sn w r)).
  Proof.
    intros [v0 s0 H|v0 s0 P s2 C N|v0 s0 cur H|v0 s0 P s2 w C Hw Ho]; [now left|right..].
    - assert (exists cur u s3, reads (int_codec t) sn 0 s0 cur (u :: s3)) as (cur & u & s3 & Hr) by (destruct C; eauto). exists cur, u, s3. split; [exact Hr|right]. exists P, s2. auto.
    - exists cur, 109, [107]. split; [exact H|left; auto].
    - assert (exists cur u s3, reads (int_codec t) sn 0 s0 cur (u :: s3)) as (cur & u & s3 & Hr) by (destruct C; eauto). exists cur, u, s3. split; [exact Hr|right]. exists P, s2. eauto.
  Qed.
  Lemma not_both s cur r : reads (int_codec t) sn 0 s cur r -> ~ too_big t s.
  Proof. intros H B. apply (int_ub t sn 0 s C0 Ht) in B. unfold reads in H. cbn [des int_codec] in H. fold C0 in H. congruence. Qed.
  Lemma loop_ub f : forall v s, (length s < f)%nat -> time_loop t fr f sn v s C0 = UB <-> time_over t fr sn v s.
  Proof.
    induction f as [|f IH]; intros v s Hf; [lia|]. cbn [time_loop]. destruct s as [|c s0].
    { split; [discriminate|]. intros H. apply over_inv in H. destruct H as [H|(cur & u & s2 & H & _)]; [apply too_big_head in H; destruct H; discriminate|now apply int_nil in H]. }
    destruct (c =? QT) eqn:Ec.
    { apply Z.eqb_eq in Ec. subst c. split; [discriminate|]. intros H. apply over_inv in H. destruct H as [H|(cur & u & s2 & H & _)]; [apply too_big_head in H; destruct H; discriminate|now apply int_qt in H]. }
    set (s := c :: s0) in *. destruct (int_des t sn 0 s C0) as [[[cur s1] e1]| |] eqn:E; cbn [bind].
    3: { exfalso. pose proof (int_dlaw t sn 0 s C0) as D. now rewrite E in D. }
    2: { split; [intros _; apply ov_number; now apply (int_ub t sn 0 s C0)|reflexivity]. }
    assert (NB : ~ too_big t s) by (intros B; apply (int_ub t sn 0 s C0 Ht) in B; congruence).
    destruct (has_err e1) eqn:He.
    { split; [discriminate|]. intros H. apply over_inv in H. destruct H as [H|(cur' & u & s2 & H & _)]; [contradiction|]. unfold reads in H. cbn [des int_codec] in H. fold C0 in H. rewrite E in H. injection H as _ _ ->. discriminate. }
    pose proof (clean_out _ _ _ _ _ _ _ _ (int_dlaw t) E He) as ->.
    assert (Hr : reads (int_codec t) sn 0 s cur s1) by exact E.
    assert (Ls : (length s1 <= length s)%nat) by (apply suffix_len; exact (dl_suffix _ _ _ _ _ _ _ _ _ (int_dlaw t) Hr)).
    destruct s1 as [|u s2].
    { split; [discriminate|]. intros H. apply over_inv in H. destruct H as [H|(cur' & u & s2 & H & _)]; [contradiction|]. unfold reads in H. cbn [des int_codec] in H. fold C0 in H. rewrite E in H. discriminate. }
    assert (G : forall P r g, component t fr sn v s P r -> (length r < f)%nat -> ~ (u = 109 /\ s2 = [107]) -> (forall x, g <> Ok x \/ True) ->
      (g = (UB : res (Z * buf * eptr + Z * buf * eptr)) <-> (forall w, ~ P w) \/ exists w, P w /\ time_loop t fr f sn w r C0 = UB) ->
      (g = UB <-> time_over t fr sn v s)).
    { intros P r g C L N _ ->. split.
      - intros [H|(w & Hw & H)]; [now apply ov_sum with P r|]. apply IH in H; [|exact L]. now apply ov_next with P r w.
      - intros H. apply over_inv in H. destruct H as [H|(cur' & u' & s2' & H & K)]; [contradiction|].
        assert (cur' = cur /\ u' = u /\ s2' = s2) as (-> & -> & ->). { unfold reads in H, Hr. rewrite Hr in H. now injection H as -> -> ->. }
        destruct K as [K|(P' & r' & C' & K)]; [contradiction|].
        assert (P' = P /\ r' = r) as (-> & ->).
        { pose proof (comp_cases v s cur u s2 P r Hr C) as A. pose proof (comp_cases v s cur u s2 P' r' Hr C') as B.
          destruct A as [(k & Hu & -> & ->)|[(-> & A1 & A2 & -> & ->)|[(-> & -> & ->)|[(-> & (c1 & ->) & ->)|(A1 & A2 & -> & ->)]]]];
          destruct B as [(k' & Hu' & -> & ->)|[(B0 & B1 & B2 & -> & ->)|[(B0 & B1 & ->)|[(B0 & (c2 & B1) & ->)|(B1 & B2 & -> & ->)]]]];
          try subst u; try (now apply tunit_109 in Hu); try (now apply tunit_109 in Hu'); try contradiction; try (split; reflexivity); try (exfalso; now apply (B2 k)); try (exfalso; now apply (A2 k'));
          try (exfalso; apply B1; eexists; reflexivity); try (exfalso; apply B2; eexists; reflexivity); try (subst s2; exfalso; apply A1; eexists; reflexivity); try (subst s2; exfalso; apply A2; eexists; reflexivity);
          try discriminate; try (injection B1 as <-; split; reflexivity); try (injection B1 as _ <-; split; reflexivity).
          - now rewrite (tunit_fun _ _ _ Hu Hu'). }
        destruct K as [K|(w & Hw & K)]; [now left|right]. exists w. split; [exact Hw|]. now apply IH. }
    unfold s in Ls, Hf. cbn [length] in Ls, Hf.
    destruct (u =? 100) eqn:E1. { apply Z.eqb_eq in E1. subst u. apply (G (plus t fr v cur 86400) s2); [exact (co_unit t fr sn v s cur 100 86400 s2 Hr tu_d)|lia|intros (K & _); discriminate|now right|]. apply bind_ub; [apply add_fuel|intros w; now apply add_exact]. }
    destruct (u =? 104) eqn:E2. { apply Z.eqb_eq in E2. subst u. apply (G (plus t fr v cur 3600) s2); [exact (co_unit t fr sn v s cur 104 3600 s2 Hr tu_h)|lia|intros (K & _); discriminate|now right|]. apply bind_ub; [apply add_fuel|intros w; now apply add_exact]. }
    destruct (u =? 109) eqn:E3.
    { apply Z.eqb_eq in E3. subst u. destruct s2 as [|w' s3].
      - apply (G (plus t fr v cur 60) []); [apply co_min; [exact Hr|intros (z & Ez); discriminate|intros (z & Ez); discriminate]|cbn; lia|intros (_ & K); discriminate|now right|]. apply bind_ub; [apply add_fuel|intros w; now apply add_exact].
      - cbn [length] in Ls. destruct (w' =? 115) eqn:E4.
        { apply Z.eqb_eq in E4. subst w'. apply (G (plus_part t fr v cur 1000) s3); [now apply co_ms|lia|intros (_ & K); discriminate|now right|]. apply bind_ub; [apply addq_fuel|intros w; now apply addq_exact]. }
        destruct (w' =? 107) eqn:E5.
        { apply Z.eqb_eq in E5. subst w'. destruct s3 as [|c3 s4].
          - split; [intros _; now apply ov_end with cur|]. intros _. destruct (ub_or_ok _ (addq_fuel t fr v cur 1000000)) as [Q|(w & Q)]; rewrite Q; reflexivity.
          - cbn [length] in Ls. apply (G (plus_part t fr v cur 1000000) s4); [now apply co_mks with c3|lia|intros (_ & K); discriminate|now right|]. cbn [step bind]. apply bind_ub; [apply addq_fuel|intros w; now apply addq_exact]. }
        apply (G (plus t fr v cur 60) (w' :: s3)); [apply co_min; [exact Hr|intros (z & Ez); injection Ez as -> _; lia|intros (z & Ez); injection Ez as -> _; lia]|cbn [length]; lia|intros (_ & K); injection K as -> _; lia|now right|]. apply bind_ub; [apply add_fuel|intros w; now apply add_exact]. }
    destruct (u =? 115) eqn:E6. { apply Z.eqb_eq in E6. subst u. apply (G (plus t fr v cur 1) s2); [exact (co_unit t fr sn v s cur 115 1 s2 Hr tu_s)|lia|intros (K & _); discriminate|now right|]. apply bind_ub; [apply add_fuel|intros w; now apply add_exact]. }
    apply (G (eq v) s2); [apply co_other with cur u; [exact Hr|lia|intros k Hk; inversion Hk; subst; lia]|lia|intros (K & _); lia|now right|].
    split; [intros H; right; exists v; auto|]. intros [N|(w & <- & H)]; [exfalso; now apply (N v)|exact H].
  Qed.
  Theorem time_ub old s : time_des t fr sn old s C0 = UB <-> too_big t s \/ exists x, s = QT :: x /\ time_over t fr sn 0 x.
  Proof.
    unfold time_des. destruct s as [|c s0]; [split; [discriminate|]; intros [H|(x & H & _)]; [apply too_big_head in H; destruct H; discriminate|discriminate]|].
    destruct (is_null (c :: s0)) eqn:En.
    { destruct (parse_null (c :: s0) C0). split; [discriminate|]. intros [H|(x & H & _)]; [apply too_big_head in H; destruct H; congruence|]. injection H as -> ->. discriminate. }
    destruct (is_number (c :: s0)) eqn:Em.
    { rewrite (int_ub t sn 0 (c :: s0) C0 Ht). split; [now left|]. intros [H|(x & H & _)]; [exact H|]. injection H as -> ->. discriminate. }
    assert (NB : ~ too_big t (c :: s0)) by (intros B; apply too_big_head in B; destruct B; congruence).
    destruct (is_string (c :: s0)) eqn:Es; cbn [negb].
    2: { split; [discriminate|]. intros [H|(x & H & _)]; [contradiction|]. injection H as -> ->. discriminate. }
    destruct (is_string_qt _ Es) as (z & Ez). injection Ez as -> ->. transitivity (time_loop t fr (S (length z)) sn 0 z C0 = UB).
    - destruct (time_loop t fr (S (length z)) sn 0 z C0) as [[[[w r1] e1]|[[w r1] e1]]| |]; cbn [bind]; [|split; discriminate..|tauto|split; discriminate].
      destruct r1 as [|d r1]; [split; discriminate|]. destruct (d =? QT); split; discriminate.
    - rewrite loop_ub by lia. split; [intros H; right; now exists z|]. intros [H|(x & H & K)]; [contradiction|]. now injection H as <-.
  Qed.
End Time.
Lemma strlen_ub b : strlen b = UB <-> ~ In 0 b.
Proof.
  induction b as [|c b IH]; cbn [strlen]; [split; [intros _ []|reflexivity]|]. destruct (c =? 0) eqn:Ec.
  - split; [discriminate|]. intros H. exfalso. apply H. left. lia.
  - assert (bind (strlen b) (fun l => Ok (c :: l)) = UB <-> strlen b = UB) as -> by (destruct (strlen b); cbn [bind]; split; (discriminate || reflexivity)). rewrite IH. cbn. intuition lia.
Qed.
Lemma literal_len n l w : literal n l w -> 0 <= n -> dist w <= n.
Proof.
  induction 1 as [n|n c w l v Hc Hd Hl IH|n c k l Hw Hk Hl Hn|n a b c d Ha Hb Hcc Hd Hk Hn]; intros H0.
  - rewrite dist_nil. lia.
  - unfold dist in *. rewrite app_length. specialize (IH ltac:(lia)). lia.
  - lia.
  - unfold dist. rewrite firstn_length. cbn [length]. lia.
Qed.
Theorem size_ub t metric sn old s : ity_ok t -> bytes s -> size_des t metric sn old s C0 = UB <->
  too_big t s \/ exists l w r, s = QT :: l ++ QT :: r /\ literal 32 l w /\ size_over sn w.
Proof.
  intros Ht Hb. unfold size_des. destruct s as [|c s0]; [split; [discriminate|]; intros [H|(l & w & r & H & _)]; [apply too_big_head in H; destruct H; discriminate|discriminate]|].
  destruct (is_null (c :: s0)) eqn:En.
  { destruct (parse_null (c :: s0) C0). split; [discriminate|]. intros [H|(l & w & r & H & _)]; [apply too_big_head in H; destruct H; congruence|]. injection H as -> ->. discriminate. }
  destruct (is_number (c :: s0)) eqn:Em.
  { rewrite (int_ub t sn 0 (c :: s0) C0 Ht). split; [now left|]. intros [H|(l & w & r & H & _)]; [exact H|]. injection H as -> ->. discriminate. }
  assert (NB : ~ too_big t (c :: s0)) by (intros B; apply too_big_head in B; destruct B; congruence).
  destruct (is_string (c :: s0)) eqn:Es; cbn [negb].
  2: { split; [discriminate|]. intros [H|(l & w & r & H & _)]; [contradiction|]. injection H as -> ->. discriminate. }
  destruct (is_string_qt _ Es) as (z & Ez). injection Ez as -> ->.
  assert (CF : chars_des 32 sn [] (QT :: z) C0 <> UB) by (destruct (chars_total 32 sn [] (QT :: z) C0) as (w0 & r0 & e0 & _ & -> & _); discriminate).
  destruct (chars_des 32 sn [] (QT :: z) C0) as [[[b r1] e1]| |] eqn:E1; cbn [bind]; [|contradiction|exfalso; pose proof (chars_dlaw 32 sn [] (QT :: z) C0) as D; now rewrite E1 in D].
  destruct (has_err e1) eqn:He.
  { split; [discriminate|]. intros [H|(l & w & r & H & Hl & _)]; [contradiction|]. exfalso. injection H as ->.
    assert (R : reads (chars_codec 32) sn [] (QT :: l ++ QT :: r) (w ++ repeat 0 (32 - length w)) r) by (apply chars_exact; [exact Hb|]; right; exists l, w; auto).
    unfold reads in R. cbn [des chars_codec] in R. fold C0 in R. rewrite E1 in R. injection R as _ _ ->. discriminate. }
  pose proof (clean_out _ _ _ _ _ _ _ _ (chars_dlaw 32) E1 He) as ->.
  assert (R : reads (chars_codec 32) sn [] (QT :: z) b r1) by exact E1. pose proof R as R'. apply chars_exact in R'; [|exact Hb]. destruct R' as [(R' & _)|(l & w & El & Hl & Eb)]; [discriminate|].
  assert (Lw : (length w <= 32)%nat) by (pose proof (literal_len _ _ _ Hl ltac:(lia)) as L; unfold dist in L; lia).
  match goal with |- ?A <-> _ => transitivity (size_over sn w); [assert (GA : A <-> size_over sn w); [|exact GA]|] end.
  2: { split; [intros H; right; exists l, w, r1; auto|]. intros [H|(l' & w' & r' & H & Hl' & K)]; [contradiction|]. injection H as Hz.
       assert (R2 : reads (chars_codec 32) sn [] (QT :: z) (w' ++ repeat 0 (32 - length w')) r') by (apply chars_exact; [exact Hb|]; right; exists l', w'; rewrite Hz; auto).
       unfold reads in R, R2. rewrite R in R2. assert (EE : w ++ repeat 0 (32 - length w) = w' ++ repeat 0 (32 - length w')) by (rewrite <- Eb; clear - R2; congruence).
       assert (Lw' : (length w' <= 32)%nat) by (pose proof (literal_len _ _ _ Hl' ltac:(lia)) as L; unfold dist in L; lia).
       unfold size_over in *. rewrite EE. destruct K as [(K1 & K2)|K]; [|now right]. left.
       replace (32 - length w')%nat with 0%nat in EE by lia. cbn [repeat] in EE. rewrite (app_nil_r w') in EE.
       assert (32 - length w = 0)%nat as Q. { destruct (32 - length w)%nat eqn:Q; [reflexivity|]. exfalso. apply K2. rewrite <- EE. apply in_or_app. right. now left. }
       rewrite Q in EE. cbn [repeat] in EE. rewrite app_nil_r in EE. subst w'. auto. }
  rewrite Eb. clear E1 R Eb CF. destruct (strlen (w ++ repeat 0 (32 - length w))) as [txt| |] eqn:E2; cbn [bind].
  3: { exfalso. pose proof (SizeProofs.strlen_total (w ++ repeat 0 (32 - length w))) as T. now rewrite E2 in T. }
  2: { split; [intros _|reflexivity]. apply strlen_ub in E2. left. split; [|intros H; apply E2, in_or_app; now left].
       destruct (32 - length w)%nat eqn:Q; [lia|]. exfalso. apply E2. apply in_or_app. right. now left. }
  destruct (proj1 (strlen_exact _ txt) E2) as (rest & Er & N).
  assert (NF : ~ (length w = 32%nat /\ ~ In 0 w)).
  { intros (L & K). apply K. rewrite L, Nat.sub_diag in Er. cbn [repeat] in Er. rewrite app_nil_r in Er. rewrite Er. apply in_or_app. right. now left. }
  assert (O : size_over sn w <-> (too_big i64 txt \/ exists z q m, reads (int_codec i64) sn 0 txt z q /\ sunit q m /\ ~ - 2 ^ 63 <= z * m < 2 ^ 63)).
  { unfold size_over. split.
    - intros [K|(txt' & rest' & Er' & N' & K)]; [contradiction|]. assert (strlen (w ++ repeat 0 (32 - length w)) = Ok txt') as Q by (apply strlen_exact; exists rest'; auto). rewrite E2 in Q. now injection Q as ->.
    - intros K. right. exists txt, rest. auto. }
  rewrite O. clear O. destruct (int_des i64 (Some 0) 0 txt C0) as [[[val q] e2]| |] eqn:E3; cbn [bind].
  3: { exfalso. pose proof (int_dlaw i64 (Some 0) 0 txt C0) as D. now rewrite E3 in D. }
  2: { split; [intros _; left; now apply (int_ub i64 (Some 0) 0 txt C0 i64_ok)|reflexivity]. }
  assert (NT : ~ too_big i64 txt) by (intros B; apply (int_ub i64 (Some 0) 0 txt C0 i64_ok) in B; congruence).
  assert (FN : forall z' q', reads (int_codec i64) sn 0 txt z' q' -> val = z' /\ q = q' /\ e2 = C0).
  { intros z' q' H. unfold reads in H. cbn [des int_codec] in H. change (int_des i64 (Some 0) 0 txt C0 = Ok (z', q', C0)) in H. rewrite E3 in H. now injection H as -> -> ->. }
  destruct (has_err e2) eqn:He2.
  { split; [discriminate|]. intros [H|(z' & q' & m & H & _)]; [contradiction|]. destruct (FN _ _ H) as (_ & _ & ->). discriminate. }
  pose proof (clean_out _ _ _ _ _ _ _ _ (int_dlaw i64) E3 He2) as ->.
  assert (RI : reads (int_codec i64) sn 0 txt val q) by exact E3.
  destruct q as [|ch1 q1].
  { split; [discriminate|]. intros [H|(z' & q' & m & H & Hu & _)]; [contradiction|]. destruct (FN _ _ H) as (_ & <- & _). inversion Hu. }
  cbv zeta. destruct (size_mult ch1 _) as [mult|] eqn:Eu.
  2: { split; [discriminate|]. intros [H|(z' & q' & m & H & Hu & _)]; [contradiction|]. destruct (FN _ _ H) as (_ & <- & _). apply mult_exact in Hu. destruct Hu as (c' & q1' & Eq & Hu). injection Eq as <- <-. congruence. }
  assert (HU : sunit (ch1 :: q1) mult) by (apply mult_exact; now exists ch1, q1).
  assert (IA : iarith i64 (val * mult) = UB <-> ~ - 2 ^ 63 <= val * mult < 2 ^ 63).
  { unfold iarith, irangeb. change (isigned i64) with true. cbv iota. change (imin i64) with (- 2 ^ 63). change (imax i64) with (2 ^ 63 - 1). destruct ((- 2 ^ 63 <=? val * mult) && (val * mult <=? 2 ^ 63 - 1)) eqn:Q; split; (discriminate || (intros; (reflexivity || lia))). }
  split.
  - intros H. right. exists val, (ch1 :: q1), mult. split; [exact RI|]. split; [exact HU|]. apply IA. destruct (iarith i64 (val * mult)); cbn [bind] in H; [discriminate|reflexivity|discriminate].
  - intros [H|(z' & q' & m & H & Hu & K)]; [contradiction|]. destruct (FN _ _ H) as (<- & <- & _). apply mult_exact in Hu. destruct Hu as (c' & q1' & Eq & Hu). injection Eq as <- <-. rewrite Eu in Hu. injection Hu as <-. apply IA in K. now rewrite K.
Qed.
