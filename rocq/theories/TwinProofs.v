(** Proofs about SpecTwin.v. *)
From Coq Require Import QArith Qabs Lqa.
From Verif Require Import Base Parser SpecJson SpecNum SpecSeq SpecString Out Number StringS Array Object ObjectArray SpecObject Enum SpecEnum Wrap SpecWrap
  TimeSize SpecTime Float SpecMisc Fp SpecFp CodecLaws StringProofs ArrayProofs ObjectProofs FloatProofs FpProofs FpTextProofs FpWriteProofs FpSciProofs Grammar2 Desc SpecTwin Properties_Fp.
Open Scope Z_scope.

(** ---- writing depends on what is written for the parts ---- *)
Lemma items_twin {A} (f : A -> res (list op)) l l' : Forall2 (fun x y => f x = f y) l l' -> items_ser f l = items_ser f l'.
Proof.
  induction 1 as [|x y l l' E H IH]; [reflexivity|]. inversion H; subst; cbn [items_ser] in *; [exact E|]. now rewrite E, IH.
Qed.
Lemma f2_ser {A} (N : A -> A -> Prop) (f : A -> res (list op)) l l' : (forall v w, N v w -> f v = f w) -> Forall2 N l l' -> Forall2 (fun x y => f x = f y) l l'.
Proof. intros H. induction 1; constructor; auto. Qed.
Lemma seq_twin {A} (N : A -> A -> Prop) (f : A -> res (list op)) L R l l' : (forall v w, N v w -> f v = f w) -> Forall2 N l l' ->
  seq_ser L R f l = seq_ser L R f l'.
Proof. intros H F. unfold seq_ser. now rewrite (items_twin f l l' (f2_ser N f l l' H F)). Qed.
Lemma field_twin {K V} (kc : codec K) (vc : codec V) (N : K -> K -> Prop) (N' : V -> V -> Prop) :
  (forall v w, N v w -> ser kc v = ser kc w) -> (forall v w, N' v w -> ser vc v = ser vc w) ->
  forall p p', N (fst p) (fst p') /\ N' (snd p) (snd p') -> ser (field_codec kc vc) p = ser (field_codec kc vc) p'.
Proof. intros H H' p p' [A B]. cbn [ser field_codec]. unfold field_ser. now rewrite (H _ _ A), (H' _ _ B). Qed.
Lemma f2_dom {A} (N : A -> A -> Prop) l l' : Forall2 N l l' -> Forall (fun w => exists v, N v w) l'.
Proof. induction 1; constructor; eauto. Qed.
Lemma f2_dom2 {K V} (N : K -> K -> Prop) (N' : V -> V -> Prop) l l' : Forall2 (fun p p' => N (fst p) (fst p') /\ N' (snd p) (snd p')) l l' ->
  Forall (fun p => (exists k, N k (fst p)) /\ exists v, N' v (snd p)) l'.
Proof. induction 1 as [|x y l l' [A B] H IH]; constructor; eauto. Qed.

(** ---- rounding to a unit is unique ---- *)
Lemma rne_tie q n : (Qabs (q - inject_Z n) == 1 # 2)%Q -> Z.Even n -> rne q = n.
Proof.
  intros K [h Hh]. destruct (rne_spec q) as [B E]. assert (rne q = n - 1 \/ rne q = n \/ rne q = n + 1) as [C|[C|C]].
  { assert (n - 1 <= rne q <= n + 1); [|lia]. split; apply (proj2 (injZ_le _ _)); rewrite ?inject_Z_plus; unfold Z.sub; rewrite ?inject_Z_plus; change (inject_Z 1) with 1%Q; change (inject_Z (- (1))) with (-1)%Q; revert K; qabs; lra. }
  2: exact C.
  - exfalso. rewrite C in B, E. unfold Z.sub in B, E. rewrite inject_Z_plus in B, E. change (inject_Z (- (1))) with (-1)%Q in *.
    destruct E as [g Hg]; [right; revert K; qabs; lra|]. lia.
  - exfalso. rewrite C in B, E. rewrite inject_Z_plus in B, E. change (inject_Z 1) with 1%Q in *.
    destruct E as [g Hg]; [left; revert K; qabs; lra|]. lia.
Qed.
Lemma unit_unique u x n n' : (0 < u)%Q -> (Qabs (inject_Z n * u - x) <= (1#2) * u)%Q -> ((Qabs (inject_Z n * u - x) == (1#2) * u)%Q -> Z.Even n) ->
  (Qabs (inject_Z n' * u - x) <= (1#2) * u)%Q -> ((Qabs (inject_Z n' * u - x) == (1#2) * u)%Q -> Z.Even n') -> n = n'.
Proof.
  intros U A E A' E'. set (y := (x / u)%Q). assert (x == y * u)%Q as X by (unfold y; field; lra). clearbody y.
  assert (forall k, (Qabs (inject_Z k * u - x) == Qabs (inject_Z k - y) * u)%Q) as S by (intros k; rewrite X; now apply scale).
  rewrite S in A, E, A', E'. apply Qmult_le_r in A, A'; try exact U.
  assert (forall k, (Qabs (inject_Z k - y) == 1 # 2)%Q -> (Qabs (inject_Z k - y) * u == (1 # 2) * u)%Q) as T by (intros k ->; reflexivity).
  assert (rne y = n) as <-; [|assert (rne y = n') as <-; [|reflexivity]].
  - destruct (Qlt_le_dec (Qabs (inject_Z n - y)) (1 # 2)) as [L|L].
    + apply rne_close. rewrite Qabs_Qminus. exact L.
    + assert (Qabs (inject_Z n - y) == 1 # 2)%Q as K by lra. specialize (E (T n K)).
      apply rne_tie; [|exact E]. rewrite Qabs_Qminus. exact K.
  - destruct (Qlt_le_dec (Qabs (inject_Z n' - y)) (1 # 2)) as [L|L].
    + apply rne_close. rewrite Qabs_Qminus. exact L.
    + assert (Qabs (inject_Z n' - y) == 1 # 2)%Q as K by lra. specialize (E' (T n' K)).
      apply rne_tie; [|exact E']. rewrite Qabs_Qminus. exact K.
Qed.

(** ---- floats ---- *)
Lemma decimals_unique R x q q' : 0 <= R -> to_decimals R x q -> to_decimals R x q' -> (q == q')%Q.
Proof.
  intros HR (n & E & A & T) (n' & E' & A' & T'). pose proof (ten_pos R) as P. pose proof (Qinv_lt_0_compat _ P) as U.
  rewrite E in A, T. rewrite E' in A', T'. rewrite E, E'. now rewrite (unit_unique (/ 10 ^ R) x n n' U A T A' T').
Qed.
Lemma seven_unique x q q' : to_seven x q -> to_seven x q' -> (q == q')%Q.
Proof.
  assert (forall k y, (10 ^ (k + 6) <= Qabs y)%Q -> ~ (y == 0)%Q) as Z0.
  { intros k y H E. rewrite E in H. change (Qabs 0) with 0%Q in H. pose proof (ten_pos (k + 6)). lra. }
  intros [[X Q]|(n & k & L & U & E & A & T)] [[X' Q']|(n' & k' & L' & U' & E' & A' & T')].
  - lra.
  - destruct (Z0 _ _ L' X).
  - destruct (Z0 _ _ L X').
  - assert (k = k') as <-.
    { assert (k + 6 < k' + 7) by (apply pow10_lt_inv; lra). assert (k' + 6 < k + 7) by (apply pow10_lt_inv; lra). lia. }
    rewrite E in A, T. rewrite E' in A', T'. rewrite E, E'. now rewrite (unit_unique (10 ^ k) x n n' (ten_pos k) A T A' T').
Qed.
Lemma fixed_twin F R v w : format_ok F -> 0 <= R -> finite F v -> not_too_large v -> negative w = negative v ->
  (exists q, to_decimals R (worth v) q /\ nearest F q w) ->
  rnumber (put R v) /\ (length (put R v) <= bufsize R)%nat /\ put R w = put R v /\ get F (put R v) = w.
Proof.
  intros HF HR Hv B S (q & Tq & Nw). destruct (fin_mfin F v Hv) as (neg & m & x & -> & M).
  destruct (fixed_out F R neg m x HF HR M B) as (Hn & Hl & _). pose proof (mag_nonneg m x ltac:(destruct M; lia)) as N.
  assert (forall a b c, put R (Fin a b c) = fixed R a (mag b c)) as Ep by (intros; unfold put; replace (R =? -1) with false by lia; reflexivity).
  destruct (fixed_shape R neg (mag m x) HR N) as (T & Hm & q1 & D & E).
  destruct (denotes_get F _ q1 HF D [] I) as (q0 & P & G & E0). rewrite app_nil_r in G.
  destruct (round_nearest F (minus_first (fixed R neg (mag m x))) q0 HF P) as [N1 S1]. rewrite <- G in N1, S1.
  assert (get F (fixed R neg (mag m x)) = w) as W.
  { apply nearest_unique with F q; [exact HF| |exact Nw|].
    - apply nearest_comp with (if minus_first (fixed R neg (mag m x)) then - q0 else q0)%Q; [|exact N1].
      rewrite E0. apply decimals_unique with R (worth (Fin neg m x)); auto. rewrite worth_signed. now apply fixed_decimals.
    - now rewrite S1, S, Hm. }
  rewrite Ep. split; [exact Hn|]. split; [exact Hl|]. split; [|exact W].
  destruct (fixed_again F R neg m x [] HF HR M I) as (m' & x' & G' & _ & U & _). rewrite app_nil_r in G'. rewrite <- W, G', Ep. exact U.
Qed.
Lemma sci_twin F v w : F = f64 \/ F = f80 -> finite F v -> negative w = negative v -> (exists q, to_seven (worth v) q /\ nearest F q w) ->
  rnumber (put (-1) v) /\ (length (put (-1) v) <= bufsize (-1))%nat /\ put (-1) w = put (-1) v /\ get F (put (-1) v) = w.
Proof.
  intros HF0 Hv S (q & Tq & Nw). assert (format_ok F /\ sci_ok F) as [HF HS] by (destruct HF0 as [-> | ->]; split; auto using f64_ok, f80_ok, sci_ok_f64, sci_ok_f80).
  destruct (fin_mfin F v Hv) as (neg & m & x & -> & M). destruct (sci_out F neg m x HF M) as [St _]. destruct (sci_number _ St) as [Hn Hl].
  pose proof (mag_nonneg m x ltac:(destruct M; lia)) as N. destruct (seven_bounds F m x HF M) as (n & k & E & Bn & Bk).
  destruct (sci_shape neg (mag m x) n k E Bn Bk) as (_ & Hm & q1 & D & E1).
  destruct (denotes_get F _ q1 HF D [] I) as (q0 & P & G & E0). rewrite app_nil_r in G.
  destruct (round_nearest F (minus_first (scientific neg (mag m x))) q0 HF P) as [N1 S1]. rewrite <- G in N1, S1.
  assert (get F (scientific neg (mag m x)) = w) as W.
  { apply nearest_unique with F q; [exact HF| |exact Nw|].
    - apply nearest_comp with (if minus_first (scientific neg (mag m x)) then - q0 else q0)%Q; [|exact N1].
      rewrite E0. apply seven_unique with (worth (Fin neg m x)); auto. rewrite worth_signed. now apply seven_digits_of with n k.
    - now rewrite S1, S, Hm. }
  change (put (-1) (Fin neg m x)) with (scientific neg (mag m x)). split; [exact Hn|]. split; [unfold bufsize; exact Hl|]. split; [|exact W].
  destruct (sci_again F neg m x [] HF HS M I) as (m' & x' & G' & _ & U). rewrite app_nil_r in G'. rewrite <- W, G'. exact U.
Qed.
Lemma float_twin {A} R (fmt : A -> buf) scan zero v w : fmt w = fmt v -> ser (float_codec R fmt scan zero) v = ser (float_codec R fmt scan zero) w.
Proof. cbn [ser float_codec]. unfold float_ser. now intros ->. Qed.

(** ---- flags, char arrays ---- *)
Lemma flags_body_twin sep v w : forall L first, (forall x, In x (evals L) -> flag_on v x = flag_on w x) -> flags_body sep L v first = flags_body sep L w first.
Proof.
  induction L as [|[n x] L IH]; intros first H; [reflexivity|]. cbn [flags_body]. rewrite (H x) by now left.
  assert (forall b, flags_body sep L v b = flags_body sep L w b) as R by (intros b; apply IH; intros y Hy; apply H; now right). now rewrite !R.
Qed.
Lemma flag_on_twin L v w : (forall x, In x (evals L) -> (Z.land x v = x <-> Z.land x w = x)) -> (In 0 (evals L) -> (v = 0 <-> w = 0)) ->
  forall x, In x (evals L) -> flag_on v x = flag_on w x.
Proof.
  intros H Z0 x Hx. unfold flag_on. pose proof (H x Hx) as E. destruct (Z.eqb_spec x 0) as [->|N]; cbn [negb andb orb].
  - specialize (Z0 Hx). destruct (Z.eqb_spec v 0), (Z.eqb_spec w 0); tauto.
  - assert (forall u, u = x -> Z.land x u = x) as S by (intros u ->; apply Z.land_diag).
    destruct (Z.eqb_spec (Z.land x v) x), (Z.eqb_spec (Z.land x w) x); cbn [orb]; try tauto.
    destruct (Z.eqb_spec v x), (Z.eqb_spec w x); try reflexivity; exfalso; auto.
Qed.
Lemma part_nul : forall n t, (exists a t', t = a ++ t' /\ forall x, utf8_part n (t ++ 0 :: x) (Some no_error) = (t' ++ 0 :: x, Some no_error)) \/
  forall x, has_err (snd (utf8_part n (t ++ 0 :: x) (Some no_error))) = true.
Proof.
  induction n as [|n IH]; intros t; [left; now exists [], t|]. destruct t as [|c t]; [right; reflexivity|].
  cbn [app utf8_part]. destruct (Z.land c 192 =? 128); [|right; reflexivity].
  destruct (IH t) as [(a & t' & -> & H)|H]; [left; now exists (c :: a), t'|right; exact H].
Qed.
Lemma nul_stop q q' : forall n t, Forall str_char t -> str_ser_loop true n (t ++ 0 :: q) = str_ser_loop true n (t ++ 0 :: q').
Proof.
  induction n as [|n IH]; intros t H; [reflexivity|]. destruct t as [|c t]; [reflexivity|]. inversion H as [|? ? Hc Ht]; subst.
  cbn [app str_ser_loop]. rewrite (IH t Ht). destruct (true && (c =? 0)); [reflexivity|]. destruct (_ || _); [reflexivity|]. destruct (c <? 127); [reflexivity|].
  cbn [is_utf8]. unfold parse_utf8. destruct (utf8_conts c) as [k|]; [|reflexivity].
  destruct (part_nul k t) as [(a & t' & -> & U)|U].
  - rewrite !U. cbn [has_err no_error]. change (c :: (a ++ t') ++ 0 :: q) with ((c :: a ++ t') ++ 0 :: q). change (c :: (a ++ t') ++ 0 :: q') with ((c :: a ++ t') ++ 0 :: q').
    assert (Forall str_char t') as Ht' by (apply Forall_app in Ht; tauto). rewrite (IH t' Ht').
    assert (forall x, range ((c :: a ++ t') ++ 0 :: x) (t' ++ 0 :: x) = c :: a) as R.
    { intros x. change (c :: a ++ t') with ((c :: a) ++ t'). rewrite <- app_assoc. apply range_app_l. }
    now rewrite !R.
  - pose proof (U q) as U1. pose proof (U q') as U2. destruct (utf8_part k (t ++ 0 :: q) _) as [r1 e1], (utf8_part k (t ++ 0 :: q') _) as [r2 e2]. cbn [snd] in U1, U2. now rewrite U1, U2.
Qed.

(** ---- members ---- *)
Lemma mem_twin {T} (m : mem T) v w : ser (m_codec m) (m_get m v) = ser (m_codec m) (m_get m w) -> mem_ser m v = mem_ser m w.
Proof. unfold mem_ser. now intros ->. Qed.
Lemma amem_twin {T} (m : mem T) v w : ser (m_codec m) (m_get m v) = ser (m_codec m) (m_get m w) -> amem_ser m v = amem_ser m w.
Proof. unfold amem_ser. now intros ->. Qed.
Lemma members_twin {T} (v w : T) : forall L, Forall (fun b => memb_ser b v = memb_ser b w) L -> members_ser L v = members_ser L w.
Proof.
  induction 1 as [|b L E H IH]; [reflexivity|]. destruct L as [|b' L]; cbn [members_ser] in *; [exact E|]. now rewrite E, IH.
Qed.
Lemma amembers_twin {T} (v w : T) : forall L, Forall (fun b => amemb_ser b v = amemb_ser b w) L -> amembers_ser L v = amembers_ser L w.
Proof.
  induction 1 as [|b L E H IH]; [reflexivity|]. destruct L as [|b' L]; cbn [amembers_ser] in *; [exact E|]. now rewrite E, IH.
Qed.
Section Members.
  Context {T : Type} (N : forall m : mem T, m_ty m -> m_ty m -> Prop).
  Lemma memb_twin_rin v w b : memb_twin N v w b -> memb_rin (fun m y => exists x, N m x y) w b.
  Proof.
    destruct b as [m|m|ru l r isdef]; unfold memb_rin, memb_in, memb_twin; intros H; [split; eauto|split; eauto|]. destruct H as [E H]. revert H. destruct (isdef (m_get l w)); intros [H H']; split; eauto.
  Qed.
  Lemma memb_twin_ser v w b : (forall m, In m (mems_of b) -> forall x y, N m x y -> ser (m_codec m) x = ser (m_codec m) y) ->
    memb_twin N v w b -> memb_ser b v = memb_ser b w /\ amemb_ser b v = amemb_ser b w.
  Proof.
    intros S. destruct b as [m|m|ru l r isdef]; cbn [memb_twin memb_ser amemb_ser mems_of] in *; intros H.
    - split; [apply mem_twin|apply amem_twin]; apply S; auto; now left.
    - split; [apply mem_twin|apply amem_twin]; apply S; auto; now left.
    - destruct H as [E H]. rewrite E. revert H. destruct (isdef (m_get l w)); cbn [negb]; intros [H _].
      + split; [apply mem_twin|apply amem_twin]; apply S; auto; right; now left.
      + split; [apply mem_twin|apply amem_twin]; apply S; auto; now left.
  Qed.
End Members.

(** ---- what comes back is in the domain, and is written the same ---- *)
Lemma twins_rdesc A c N : twins A c N -> rdesc A c (fun w => exists v, N v w).
Proof.
  induction 1.
  - apply rd_sub with (fun w => exists v, N v w); [assumption|]. intros w [v Hv]. eauto.
  - apply rd_sub with dom; [assumption|]. intros w (v & _ & Hw). exact Hw.
  - eapply rd_sub; [apply (rd_float _ R (put R) (get F) (get F) (nothing F)); now apply get_law|].
    intros w (v & Hv & B & S & Q). destruct (fixed_twin F R v w H H0 Hv B S Q) as (Hn & Hl & P & G). rewrite P. auto.
  - assert (format_ok F) as HF by (destruct H as [-> | ->]; [exact f64_ok|exact f80_ok]).
    eapply rd_sub; [apply (rd_float _ (-1) (put (-1)) (get F) (get F) (nothing F)); now apply get_law|].
    intros w (v & Hv & S & Q). destruct (sci_twin F v w H Hv S Q) as (Hn & Hl & P & G). rewrite P. auto.
  - apply rd_sub with (flag_union L).
    + destruct H0 as [[Hs Hf]|[-> Hf]]; [now apply rd_flags_text|now apply rd_flags_array].
    + intros w (v & Hw & _). exact Hw.
  - apply rd_sub with (chars_dom n); [now apply rd_chars|]. intros w (v & Hl & t & q & E & Ht & ->). exists t. split; [|split; [|reflexivity]].
    + rewrite <- Hl, E, app_length. cbn. lia.
    + exact Ht.
  - apply rd_sub with wvalue; [apply rd_raw|]. intros w (v & [[_ ->]|[_ Hw]]); [|exact Hw]. apply (proj1 rfc_wjson). apply (rv_str [QT; QT]). apply (rstr []). constructor.
  - apply rd_sub with wvalue; [apply rd_ipair|]. intros w (v & [[_ ->]|[_ Hw]]); [|exact Hw]. apply (proj1 rfc_wjson). apply (rv_str [QT; QT]). apply (rstr []). constructor.
  - eapply rd_sub; [apply rd_vector; exact IHtwins|]. intros w (v & Hv). now apply f2_dom with v.
  - eapply rd_sub; [apply rd_set; [assumption|exact IHtwins]|]. intros w (v & Hv & S). split; [now apply f2_dom with v|exact S].
  - eapply rd_sub; [apply rd_multiset; [assumption|exact IHtwins]|]. intros w (v & Hv & S). split; [now apply f2_dom with v|exact S].
  - eapply rd_sub; [apply rd_dict; [exact IHtwins1|exact IHtwins2]|]. intros w (v & Hv). now apply f2_dom2 with v.
  - eapply rd_sub; [apply rd_map; [assumption|exact IHtwins1|exact IHtwins2]|]. intros w (v & Hv & S). split; [now apply f2_dom2 with v|exact S].
  - eapply rd_sub; [apply rd_multimap; [assumption|exact IHtwins1|exact IHtwins2]|]. intros w (v & Hv & S). split; [now apply f2_dom2 with v|exact S].
  - eapply rd_sub; [apply rd_std_array; exact IHtwins|]. intros w (v & Hv). now apply f2_dom with (vlist v).
  - eapply rd_sub; [apply rd_c_array; exact IHtwins|]. intros w (v & Hv). now apply f2_dom with (vlist v).
  - eapply rd_sub; [apply (rd_object T mode L t0 (fun m y => exists x, N m x y)); assumption|].
    intros w (v & Hv). eapply Forall_impl; [|exact Hv]. intros b. apply memb_twin_rin.
  - eapply rd_sub; [apply (rd_object_array T L t0 (fun m y => exists x, N m x y)); assumption|].
    intros w (v & Hv). eapply Forall_impl; [|exact Hv]. intros b. apply memb_twin_rin.
  - eapply rd_sub; [apply rd_member_value; [assumption|exact IHtwins]|]. intros w (v & Hv). eauto.
  - eapply rd_sub; [apply rd_quoted; exact IHtwins|]. intros w (v & Hv & S). eauto.
  - eapply rd_sub; [apply rd_unquoted; exact IHtwins|]. intros w (v & Hv & S). eauto.
  - eapply rd_sub; [apply rd_pointer; exact IHtwins|]. intros [w|] (o & Ho); [|exact I]. destruct o as [v|]; [|contradiction]. destruct Ho as [Hv S]. eauto.
Qed.
Lemma twins_ser A c N : twins A c N -> forall v w, N v w -> ser c v = ser c w.
Proof.
  induction 1; intros v w.
  - eauto.
  - intros [-> _]. reflexivity.
  - intros (Hv & B & S & Q). destruct (fixed_twin F R v w H H0 Hv B S Q) as (_ & _ & P & _). now apply float_twin.
  - intros (Hv & S & Q). destruct (sci_twin F v w H Hv S Q) as (_ & _ & P & _). now apply float_twin.
  - intros (_ & B & Z0). cbn [ser flags_codec]. unfold flags_ser. rewrite (flags_body_twin sep v w L true); [reflexivity|]. now apply (flag_on_twin L v w).
  - intros (Hl & t & q & -> & Ht & ->). cbn [ser chars_codec]. unfold chars_ser, str_ser. rewrite !app_length. rewrite app_length in Hl. cbn [length] in *. rewrite repeat_length.
    replace (length t + S (length q))%nat with n by lia. replace (length t + (n - length t))%nat with n by lia.
    destruct (n - length t)%nat as [|k] eqn:Ek; [lia|]. cbn [repeat]. now rewrite (nul_stop q (repeat 0 k) _ t Ht).
  - intros [[-> ->]|[-> _]]; reflexivity.
  - intros [[-> ->]|[-> _]]; reflexivity.
  - intros Hv. now apply (seq_twin N).
  - intros [Hv _]. now apply (seq_twin N).
  - intros [Hv _]. now apply (seq_twin N).
  - intros Hv. refine (seq_twin _ _ _ _ _ _ _ Hv). now apply field_twin.
  - intros [Hv _]. refine (seq_twin _ _ _ _ _ _ _ Hv). now apply field_twin.
  - intros [Hv _]. refine (seq_twin _ _ _ _ _ _ _ Hv). now apply field_twin.
  - intros Hv. now apply (seq_twin N).
  - intros Hv. now apply (seq_twin N).
  - intros Hv. cbn [ser object_codec]. unfold object_ser. rewrite (members_twin v w L); [reflexivity|]. rewrite Forall_forall in *. intros b Hb.
    apply (memb_twin_ser N v w b); [|now apply Hv]. intros m Hm x y. now apply (H4 b m Hb Hm).
  - intros Hv. cbn [ser oarray_codec]. unfold oarray_ser. rewrite (amembers_twin v w L); [reflexivity|]. rewrite Forall_forall in *. intros b Hb.
    apply (memb_twin_ser N v w b); [|now apply Hv]. intros m Hm x y. now apply (H2 b m Hb Hm).
  - intros Hv. cbn [ser member_value_codec]. now apply IHtwins.
  - intros [Hv _]. cbn [ser quoted_codec]. unfold quoted_ser. now rewrite (IHtwins v w Hv).
  - intros [Hv _]. cbn [ser quoted_codec]. unfold quoted_ser. now apply IHtwins.
  - destruct v as [v|], w as [w|]; try contradiction; [|reflexivity]. intros [Hv _]. cbn [ser ptr_codec ptr_ser]. now apply IHtwins.
Qed.
