(** Proofs about Fp.v: the texts written, and reading them back. *)
From Coq Require Import QArith Qabs Qround Qpower Lqa.
From Verif Require Import Base Parser SpecJson SpecNum SpecMisc Fp SpecFp FpProofs FpTextProofs.
Open Scope Z_scope.

Lemma rint_digits1 i : rint i -> digits1 i.
Proof.
  intros [|d ds Hd Hds]; (split; [discriminate|]); constructor; try constructor; try exact Hds; unfold s_digit; lia.
Qed.
Lemma sign_opt neg : ropt_minus (sign neg).
Proof. destruct neg; constructor. Qed.
Lemma sign_first neg i t : rint i -> minus_first (sign neg ++ i ++ t) = neg.
Proof.
  intros [|d ds Hd Hds]; (destruct neg; [reflexivity|]); [reflexivity|]. cbn [sign app minus_first].
  assert (In d [49; 50; 51; 52; 53; 54; 55; 56; 57]) as I by (cbn [In]; lia). cbn [In] in I.
  repeat (destruct I as [<-|I]; [reflexivity|]). contradiction.
Qed.
Definition signed (neg : bool) (q : Q) : Q := if neg then (- q)%Q else q.
Lemma signed_minus neg q : (minus_sign (sign neg) * q == signed neg q)%Q.
Proof. destruct neg; cbn [sign minus_sign signed]; ring. Qed.
Lemma denotes_eq t q q' : denotes t q -> (q == q')%Q -> exists q'', denotes t q'' /\ (q'' == q')%Q.
Proof. intros H E. now exists q. Qed.

(** ---- fixed ---- *)
Lemma fixed_shape R neg q : 0 <= R -> (0 <= q)%Q ->
  let n := rne (q * inject_Z (10 ^ R))%Q in
  fixed_text (Z.to_nat R) (fixed R neg q) /\ minus_first (fixed R neg q) = neg /\
  exists q', denotes (fixed R neg q) q' /\ (q' == signed neg (inject_Z n / 10 ^ R))%Q.
Proof.
  intros HR Hq n. assert (0 < 10 ^ R) as T by (apply Z.pow_pos_nonneg; lia).
  assert (0 <= n) as Hn. { apply rne_pos. apply Qmult_le_0_compat; [exact Hq|]. apply injZ_nonneg. lia. }
  assert (0 <= n / 10 ^ R) as Hd by (apply Z.div_pos; lia).
  unfold fixed. fold n. pose proof (plain_rint (n / 10 ^ R) Hd) as Hi. split; [|split; [now apply sign_first|]].
  - destruct (R =? 0) eqn:E.
    + assert (R = 0) as -> by lia. change (Z.to_nat 0) with 0%nat.
      apply (SpecMisc.fixed 0 (sign neg) (plain (n / 10 ^ 0)) []); auto; [apply sign_opt|constructor].
    + assert (exists k, Z.to_nat R = S k) as [k Ek] by (exists (Z.to_nat R - 1)%nat; lia).
      pose proof (SpecMisc.fixed (Z.to_nat R) (sign neg) (plain (n / 10 ^ R)) (digs (Z.to_nat R) (n mod 10 ^ R)) (sign_opt neg) Hi (digs_digits _ _) (digs_length _ _)) as H.
      rewrite Ek in *. exact H.
  - assert (0 < 10 ^ R)%Q as TQ by apply ten_pos. pose proof (Z.div_mod n (10 ^ R) ltac:(lia)) as D.
    assert (inject_Z n == 10 ^ R * inject_Z (n / 10 ^ R) + inject_Z (n mod 10 ^ R))%Q as Dq.
    { rewrite D at 1. rewrite inject_Z_plus, inject_Z_mult, pow_Z by exact HR. reflexivity. }
    destruct (R =? 0) eqn:E.
    + pose proof (den (sign neg) (plain (n / 10 ^ R)) [] [] (sign_opt neg) (rint_digits1 _ Hi) rf_none re_none) as H.
      cbn [app] in H. eexists. split; [exact H|]. cbn [fraction exponent]. rewrite plain_dval by exact Hd.
      assert (R = 0) as -> by lia. change (10 ^ 0)%Z with 1 in *. rewrite Z.mod_1_r, Z.div_1_r in *.
      rewrite <- signed_minus. change (10 ^ 0)%Q with 1%Q. field.
    + pose proof (den (sign neg) (plain (n / 10 ^ R)) (DOT :: digs (Z.to_nat R) (n mod 10 ^ R)) [] (sign_opt neg) (rint_digits1 _ Hi)) as H.
      rewrite app_nil_r in H. eexists. split; [apply H; [|constructor]|].
      * constructor. split; [|apply digs_digits]. intros Z0. apply (f_equal (@length Z)) in Z0. rewrite digs_length in Z0. cbn in Z0. lia.
      * cbn [fraction exponent]. rewrite plain_dval by exact Hd. rewrite digs_length, digs_dval, Z2Nat.id by exact HR.
        rewrite Z.mod_mod by lia. rewrite <- signed_minus. rewrite Dq. change (10 ^ 0)%Q with 1%Q. field. lra.
Qed.
(** a text of this shape is determined by its sign and its value *)
Lemma digs_self d : digits d -> digs (length d) (dval d) = d.
Proof.
  induction d as [|c d IH] using rev_ind; intros H; [reflexivity|]. apply Forall_app in H as [H1 H2]. inversion H2 as [|? ? Hc _]; subst.
  rewrite app_length, dval_app. cbn [length]. rewrite Nat.add_1_r. cbn [digs]. change (Z.of_nat 1) with 1. rewrite Z.pow_1_r.
  change (dval [c]) with (0 * 10 + (c - 48)). unfold s_digit in Hc.
  rewrite Z.div_add_l by lia. rewrite (Z.div_small (0 * 10 + (c - 48)) 10) by lia. rewrite Z.add_0_r, IH by exact H1.
  f_equal. f_equal. rewrite (Z.add_comm (dval d * 10)), Z.mod_add by lia. rewrite Z.mod_small; lia.
Qed.
Lemma plain_self i : rint i -> plain (dval i) = i.
Proof.
  intros Hi. pose proof (digs_self i (proj2 (rint_digits1 i Hi))) as E. unfold plain.
  assert (S (Z.to_nat (ilog 10 (dval i))) = length i) as ->; [|exact E].
  destruct Hi as [|d ds Hd Hds]; [reflexivity|]. pose proof (dval_bounds ds Hds) as B.
  assert (dval (d :: ds) = (d - 48) * 10 ^ Z.of_nat (length ds) + dval ds) as V.
  { change (d :: ds) with ([d] ++ ds). rewrite dval_app. reflexivity. }
  assert (0 < 10 ^ Z.of_nat (length ds)) as T by (apply Z.pow_pos_nonneg; lia).
  assert (10 ^ Z.of_nat (length ds) <= dval (d :: ds) < 10 ^ (Z.of_nat (length ds) + 1)) as [L U].
  { rewrite V, Z.pow_add_r, Z.pow_1_r by lia. nia. }
  destruct (ilog_spec 10 (dval (d :: ds)) ltac:(lia) ltac:(lia)) as (P & L' & U').
  assert (ilog 10 (dval (d :: ds)) < Z.of_nat (length ds) + 1) by (apply (Z.pow_lt_mono_r_iff 10); lia).
  assert (Z.of_nat (length ds) < ilog 10 (dval (d :: ds)) + 1) by (apply (Z.pow_lt_mono_r_iff 10); lia).
  cbn [length]. lia.
Qed.
Lemma fixed_text_self R t : fixed_text R t -> exists n, 0 <= n /\
  (exists q, denotes t q /\ (q == signed (minus_first t) (inject_Z n / 10 ^ Z.of_nat R))%Q) /\
  forall q, rne (q * inject_Z (10 ^ Z.of_nat R))%Q = n -> fixed (Z.of_nat R) (minus_first t) q = t.
Proof.
  intros [m i fr Hm Hi Hf Hl]. assert (0 < 10 ^ Z.of_nat R) as T by (apply Z.pow_pos_nonneg; lia).
  assert (exists neg, m = sign neg) as [neg ->] by (destruct Hm; [now exists false|now exists true]).
  rewrite sign_first by exact Hi. pose proof (dval_bounds i (proj2 (rint_digits1 i Hi))) as Bi. pose proof (dval_bounds fr Hf) as Bf. rewrite Hl in Bf.
  exists (dval i * 10 ^ Z.of_nat R + dval fr). split; [nia|]. split.
  - assert (0 < 10 ^ Z.of_nat R)%Q as TQ by apply ten_pos.
    assert (inject_Z (dval i * 10 ^ Z.of_nat R + dval fr) == inject_Z (dval i) * 10 ^ Z.of_nat R + inject_Z (dval fr))%Q as Dq.
    { rewrite inject_Z_plus, inject_Z_mult, pow_Z by lia. reflexivity. }
    destruct R as [|k].
    + pose proof (den (sign neg) i [] [] (sign_opt neg) (rint_digits1 _ Hi) rf_none re_none) as H.
      eexists. split; [exact H|]. cbn [fraction exponent]. rewrite <- signed_minus, Dq. destruct fr; [|discriminate].
      change (inject_Z (dval [])) with 0%Q. change (10 ^ 0)%Q with 1%Q in *. change (Z.of_nat 0) with 0 in *. change (10 ^ 0)%Q with 1%Q. field.
    + pose proof (den (sign neg) i (DOT :: fr) [] (sign_opt neg) (rint_digits1 _ Hi)) as H. rewrite app_nil_r in H.
      eexists. split; [apply H; [|constructor]|].
      * constructor. split; [|exact Hf]. intros ->. discriminate.
      * cbn [fraction exponent]. rewrite <- signed_minus, Dq, Hl. change (10 ^ 0)%Q with 1%Q. field. lra.
  - intros q E. unfold fixed. rewrite E. rewrite Z.div_add_l, (Z.div_small (dval fr)), Z.add_0_r by lia. rewrite plain_self by exact Hi.
    rewrite (Z.add_comm (dval i * _)), Z.mod_add, Z.mod_small by lia. rewrite Nat2Z.id. rewrite <- Hl at 2. rewrite digs_self by exact Hf.
    destruct R as [|k]; [reflexivity|]. replace (Z.of_nat (S k) =? 0) with false by lia. reflexivity.
Qed.

(** ---- reading back ---- *)
Lemma signed_inj neg a b : (signed neg a == signed neg b)%Q -> (a == b)%Q.
Proof. destruct neg; cbn [signed]; intros H; lra. Qed.
Lemma pnear_comp F q q' m e : (q == q')%Q -> pnear F q m e -> pnear F q' m e.
Proof.
  intros E [H G]. split; [exact H|]. intros m' e' M. destruct (G m' e' M) as [G1 G2]. rewrite E in G1, G2. now split.
Qed.
Lemma get_signed F t q a r : format_ok F -> denotes t q -> (q == signed (minus_first t) a)%Q -> follow r ->
  exists m e, get F (t ++ r) = Fin (minus_first t) m e /\ pnear F a m e.
Proof.
  intros HF D E Hr. destruct (denotes_get F t q HF D r Hr) as (q0 & P & G & E0).
  destruct (round_near F (minus_first t) q0 HF P) as (m & e & R & N). exists m, e. split; [now rewrite G, R|].
  apply pnear_comp with q0; [|exact N]. apply signed_inj with (minus_first t). rewrite <- E. exact E0.
Qed.
Lemma finite_mfin F neg m e : finite F (Fin neg m e) <-> mfin F m e.
Proof. reflexivity. Qed.

(** two distinct values are at least half a unit of the last place of either apart *)
Lemma mfin_apart F m e m' e' : format_ok F -> mfin F m e -> mfin F m' e' -> e' <= e ->
  (mag m e == mag m' e')%Q \/ (Z.max (lo F) (e - 1) <= e' /\ (2 ^ e' <= Qabs (mag m e - mag m' e'))%Q) \/ (2 ^ (e - 1) <= Qabs (mag m e - mag m' e'))%Q.
Proof.
  intros (P & L & H) (M & E & N) (M' & E' & N') Le.
  destruct (Z_le_gt_dec (e - 1) e') as [C|C].
  - set (n := m * 2 ^ (e - e')). assert (mag m e == mag n e')%Q as En.
    { unfold n. rewrite mag_pow by lia. now replace (e' + (e - e')) with e by lia. }
    rewrite En. destruct (Z.eq_dec n m') as [->|D]; [now left|right; left]. split; [lia|].
    unfold mag. rewrite scale by apply two_pos.
    assert (1 <= Qabs (inject_Z n - inject_Z m'))%Q as X by (destruct (int_gap _ _ D) as [G|G]; qabs; lra).
    rewrite <- (Qmult_1_l (2 ^ e')) at 1. apply Qmult_le_compat_r; [exact X|]. pose proof (two_pos e'); lra.
  - right; right. destruct N as [N|N]; [|lia].
    assert (mag m' e' <= mag (2 ^ (prec F)) (e - 2))%Q as B.
    { apply Qle_trans with (mag (2 ^ prec F) e'); [apply mag_le; lia|]. apply mag_exp; lia. }
    assert (mag (2 ^ (prec F - 1)) e <= mag m e)%Q as A by (apply mag_le; lia).
    rewrite mag_two in A, B by lia. replace (prec F + (e - 2)) with (prec F - 2 + e) in B by lia.
    assert (2 ^ (prec F - 1 + e) == 2 * 2 ^ (prec F - 2 + e))%Q as D.
    { replace (prec F - 1 + e) with (1 + (prec F - 2 + e)) by lia. rewrite pow_add by lra. now rewrite Qpower_1_r. }
    assert (2 ^ (e - 1) <= 2 ^ (prec F - 2 + e))%Q as X by (apply pow2_le; lia). qabs; lra.
Qed.
Lemma mfin_unique F m e m' e' : format_ok F -> mfin F m e -> mfin F m' e' -> (mag m e == mag m' e')%Q -> m = m' /\ e = e'.
Proof.
  intros HF. assert (forall m e m' e', mfin F m e -> mfin F m' e' -> e <= e' -> (mag m e == mag m' e')%Q -> m = m' /\ e = e') as W.
  { clear m e m' e'. intros m e m' e' (M & E & N) (M' & E' & N') Le Q. destruct HF as (P & L & H).
    assert (mag m' e' == mag (m' * 2 ^ (e' - e)) e)%Q as En by (rewrite mag_pow by lia; now replace (e + (e' - e)) with e' by lia).
    rewrite En in Q. unfold mag in Q. apply Qmult_inj_r in Q; [|pose proof (two_pos e); lra].
    assert (m = m' * 2 ^ (e' - e)) as Em by (apply Z.le_antisymm; apply (proj2 (injZ_le _ _)); lra).
    destruct (Z.eq_dec e e') as [->|D]; [split; [|reflexivity]; rewrite Z.sub_diag in Em; cbn in Em; lia|]. exfalso.
    destruct N' as [N'|N']; [|lia]. assert (2 <= 2 ^ (e' - e)). { change 2 with (2 ^ 1) at 1. apply Z.pow_le_mono_r; lia. }
    assert (2 ^ prec F = 2 * 2 ^ (prec F - 1)) by (rewrite <- Z.pow_succ_r by lia; f_equal; lia). nia. }
  intros A B Q. destruct (Z_le_gt_dec e e') as [C|C]; [now apply W|]. destruct (W m' e' m e B A ltac:(lia)) as [-> ->]; [now symmetry|auto].
Qed.

(** fixed: the text of what is read back is the same text *)
Lemma fixed_again F R neg m e r : format_ok F -> 0 <= R -> mfin F m e -> follow r ->
  exists m' e', get F (fixed R neg (mag m e) ++ r) = Fin neg m' e' /\ mfin F m' e' /\
    fixed R neg (mag m' e') = fixed R neg (mag m e) /\
    (Qabs (mag m' e' - inject_Z (rne (mag m e * inject_Z (10 ^ R))) / 10 ^ R) <= Qabs (mag m e - inject_Z (rne (mag m e * inject_Z (10 ^ R))) / 10 ^ R))%Q.
Proof.
  intros HF HR M Hr. pose proof (mag_nonneg m e ltac:(destruct M; lia)) as N.
  destruct (fixed_shape R neg (mag m e) HR N) as (S & E & q & D & Q). set (n := rne (mag m e * inject_Z (10 ^ R))) in *.
  assert (q == signed (minus_first (fixed R neg (mag m e))) (inject_Z n / 10 ^ R))%Q as Q' by (rewrite E; exact Q).
  destruct (get_signed F _ q _ r HF D Q' Hr) as (m' & e' & G & (M' & G')).
  rewrite E in G. exists m', e'. split; [exact G|]. split; [exact M'|]. destruct (G' m e M) as [X _]. split; [|exact X].
  unfold fixed. fold n. assert (rne (mag m' e' * inject_Z (10 ^ R)) = n) as ->; [|reflexivity].
  apply (rne_again (mag m e * inject_Z (10 ^ R))); [reflexivity|]. rewrite pow_Z by exact HR. change (inject_Z 10) with 10%Q.
  pose proof (ten_pos R) as T. assert (inject_Z n == (inject_Z n / 10 ^ R) * 10 ^ R)%Q as Z by (field; lra).
  rewrite Z. rewrite !scale by exact T. apply Qmult_le_compat_r; [exact X|lra].
Qed.
Lemma rne_error q : (Qabs (inject_Z (rne q) - q) <= 1#2)%Q.
Proof. destruct (rne_spec q) as [H _]. qabs; lra. Qed.
Lemma fixed_error R q : 0 <= R -> (Qabs (inject_Z (rne (q * inject_Z (10 ^ R))) / 10 ^ R - q) <= (1#2) * / 10 ^ R)%Q.
Proof.
  intros HR. pose proof (ten_pos R) as T. pose proof (rne_error (q * inject_Z (10 ^ R))) as E.
  set (n := inject_Z (rne (q * inject_Z (10 ^ R)))) in *. rewrite pow_Z in E by exact HR. change (inject_Z 10) with 10%Q in E.
  apply Qmult_le_r with (10 ^ R)%Q; [exact T|]. rewrite <- scale by exact T.
  assert (n / 10 ^ R * 10 ^ R == n)%Q as -> by (field; lra). assert ((1 # 2) * / 10 ^ R * 10 ^ R == 1 # 2)%Q as -> by (field; lra). exact E.
Qed.
(** exact decimals come back *)
Lemma fixed_back F R neg m e r n : format_ok F -> 0 <= R -> mfin F m e -> follow r -> (mag m e * 10 ^ R == inject_Z n)%Q ->
  get F (fixed R neg (mag m e) ++ r) = Fin neg m e.
Proof.
  intros HF HR M Hr E. destruct (fixed_again F R neg m e r HF HR M Hr) as (m' & e' & G & M' & _ & X).
  pose proof (ten_pos R) as T.
  assert (rne (mag m e * inject_Z (10 ^ R)) = n) as R0.
  { apply rne_int. rewrite pow_Z by exact HR. exact E. }
  rewrite R0 in X. assert (inject_Z n / 10 ^ R == mag m e)%Q as Z by (rewrite <- E; field; lra). rewrite Z in X.
  destruct (mfin_unique F m e m' e' HF M M') as [<- <-]; [|exact G].
  set (a := mag m e) in *. set (b := mag m' e') in *. clearbody a b. clear - X. revert X. qabs; lra.
Qed.
(** values whose digits lie further apart than the decimals come back *)
Lemma fixed_spaced F R neg m e r : format_ok F -> 0 <= R -> mfin F m e -> follow r -> (/ 10 ^ R < 2 ^ (e - 1))%Q ->
  get F (fixed R neg (mag m e) ++ r) = Fin neg m e.
Proof.
  intros HF HR M Hr E. destruct (fixed_again F R neg m e r HF HR M Hr) as (m' & e' & G & M' & _ & X).
  pose proof (fixed_error R (mag m e) HR) as B. set (a := (inject_Z _ / 10 ^ R)%Q) in *. pose proof (ten_pos R) as T.
  assert (Qabs (mag m e - mag m' e') <= / 10 ^ R)%Q as D.
  { set (i := (/ 10 ^ R)%Q) in *. set (b := mag m e) in *. set (c := mag m' e') in *. clearbody a b c i. clear - X B. revert X B. qabs; lra. }
  destruct (mfin_unique F m e m' e' HF M M') as [<- <-]; [|exact G].
  destruct (Z_le_gt_dec e' e) as [C|C].
  - destruct (mfin_apart F m e m' e' HF M M' C) as [Q|[[Q1 Q2]|Q]]; [exact Q| |]; exfalso.
    + assert (2 ^ (e - 1) <= 2 ^ e')%Q by (apply pow2_le; lia). lra.
    + lra.
  - destruct (mfin_apart F m' e' m e HF M' M ltac:(lia)) as [Q|[[Q1 Q2]|Q]]; [now symmetry| |]; exfalso.
    + rewrite Qabs_Qminus in Q2. assert (2 ^ (e - 1) <= 2 ^ e)%Q by (apply pow2_le; lia). lra.
    + rewrite Qabs_Qminus in Q. assert (2 ^ (e - 1) <= 2 ^ (e' - 1))%Q by (apply pow2_le; lia). lra.
Qed.

(** ---- the nearest value is unique ---- *)
Lemma even_between F m e m' e' : format_ok F -> mfin F m e -> mfin F m' e' -> Z.Even m -> Z.Even m' -> (mag m e < mag m' e')%Q ->
  exists m1 e1, mfin F m1 e1 /\ (mag m e < mag m1 e1)%Q /\ (mag m1 e1 < mag m' e')%Q.
Proof.
  intros (P & L & H) (M & E & N) (M' & E' & N') Ev Ev' Lt.
  assert (2 ^ prec F = 2 * 2 ^ (prec F - 1)) as D by (rewrite <- Z.pow_succ_r by lia; f_equal; lia).
  destruct (Ztrichotomy e e') as [C|[C|C]].
  - exists (m + 1), e. assert (m + 1 < 2 ^ prec F) by (destruct Ev as [a ->]; lia). split; [|split].
    + repeat split; auto; lia.
    + apply mag_lt. lia.
    + apply Qlt_le_trans with (mag (2 ^ prec F) e); [apply mag_lt; lia|].
      apply Qle_trans with (mag (2 ^ (prec F - 1)) e'); [|apply mag_le; lia]. rewrite !mag_two by lia. apply pow2_le. lia.
  - subst e'. assert (m < m') as Lm.
    { destruct (Z_lt_le_dec m m') as [G|G]; [exact G|]. pose proof (mag_le m' m e G). lra. }
    exists (m + 1), e. assert (m + 1 < m') by (destruct Ev as [a ->], Ev' as [b ->]; lia). split; [|split].
    + repeat split; auto; lia.
    + apply mag_lt. lia.
    + apply mag_lt. lia.
  - exfalso. assert (mag m' e' <= mag m e)%Q; [|lra]. apply Qle_trans with (mag (2 ^ prec F) e'); [apply mag_le; lia|].
    apply Qle_trans with (mag (2 ^ (prec F - 1)) e); [|apply mag_le; lia]. rewrite !mag_two by lia. apply pow2_le. lia.
Qed.
Lemma worth_signed neg m e : worth (Fin neg m e) = signed neg (mag m e).
Proof. destruct neg; reflexivity. Qed.
Lemma signed_dist neg a q : (Qabs (signed neg a - q) == Qabs (a - signed neg q))%Q.
Proof. destruct neg; cbn [signed]; qabs; lra. Qed.
Lemma nearest_unique F q v w : format_ok F -> nearest F q v -> nearest F q w -> negative v = negative w -> v = w.
Proof.
  intros HF [Fv Nv] [Fw Nw] S. destruct v as [n m e| |], w as [n' m' e'| |]; try contradiction. cbn [negative] in S. subst n'.
  change (mfin F m e) in Fv. change (mfin F m' e') in Fw. set (x := signed n q).
  assert (forall m1 e1, mfin F m1 e1 -> (Qabs (mag m e - x) <= Qabs (mag m1 e1 - x))%Q) as A.
  { intros m1 e1 M1. destruct (Nv (Fin n m1 e1) M1) as [B _]. rewrite !worth_signed, !signed_dist in B. exact B. }
  assert (forall m1 e1, mfin F m1 e1 -> (Qabs (mag m' e' - x) <= Qabs (mag m1 e1 - x))%Q) as A'.
  { intros m1 e1 M1. destruct (Nw (Fin n m1 e1) M1) as [B _]. rewrite !worth_signed, !signed_dist in B. exact B. }
  assert (Qabs (mag m e - x) == Qabs (mag m' e' - x))%Q as E by (specialize (A m' e' Fw); specialize (A' m e Fv); lra).
  destruct (proj2 (Nv (Fin n m' e') Fw)) as [W|Ev]; [rewrite !worth_signed, !signed_dist; fold x; now symmetry| |].
  { rewrite !worth_signed in W. apply signed_inj in W. destruct (mfin_unique F m e m' e' HF Fv Fw) as [-> ->]; [now symmetry|reflexivity]. }
  destruct (proj2 (Nw (Fin n m e) Fv)) as [W|Ev']; [rewrite !worth_signed, !signed_dist; fold x; exact E| |].
  { rewrite !worth_signed in W. apply signed_inj in W. destruct (mfin_unique F m e m' e' HF Fv Fw) as [-> ->]; [exact W|reflexivity]. }
  cbn [last_bit_0] in Ev, Ev'.
  destruct (Q_dec (mag m e) (mag m' e')) as [[C|C]|C].
  - exfalso. destruct (even_between F m e m' e' HF Fv Fw Ev Ev' C) as (m1 & e1 & M1 & C1 & C2). specialize (A m1 e1 M1).
    set (a := mag m e) in *. set (b := mag m' e') in *. set (c := mag m1 e1) in *. clearbody a b c x. clear - A E C1 C2. revert A E. qabs; lra.
  - exfalso. destruct (even_between F m' e' m e HF Fw Fv Ev' Ev C) as (m1 & e1 & M1 & C1 & C2). specialize (A m1 e1 M1).
    set (a := mag m e) in *. set (b := mag m' e') in *. set (c := mag m1 e1) in *. clearbody a b c x. clear - A E C1 C2. revert A E. qabs; lra.
  - destruct (mfin_unique F m e m' e' HF Fv Fw C) as [-> ->]. reflexivity.
Qed.
