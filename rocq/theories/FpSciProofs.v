(** Proofs about Fp.v: scientific notation, decimals that come back, lengths. *)
From Coq Require Import QArith Qabs Qround Qpower Lqa.
From Verif Require Import Base Parser SpecJson SpecNum SpecMisc Fp SpecFp FpProofs FpTextProofs FpWriteProofs.
Open Scope Z_scope.

Lemma pow10_le j k : j <= k -> (10 ^ j <= 10 ^ k)%Q.
Proof. intros H. apply Qpower_le_compat_l; [exact H|lra]. Qed.
Lemma pow10_lt j k : j < k -> (10 ^ j < 10 ^ k)%Q.
Proof. intros H. apply Qpower_lt_compat_l; [exact H|lra]. Qed.
Lemma pow10_lt_inv j k : (10 ^ j < 10 ^ k)%Q -> j < k.
Proof. intros H. apply Qpower_lt_compat_l_inv with 10%Q; [exact H|lra]. Qed.
Lemma pow10_add j k : (10 ^ (j + k) == 10 ^ j * 10 ^ k)%Q.
Proof. apply pow_add. lra. Qed.

Lemma Qmult_le_l_nonneg z x y : (0 <= z)%Q -> (x <= y)%Q -> (z * x <= z * y)%Q.
Proof. intros Hz H. rewrite !(Qmult_comm z). now apply Qmult_le_compat_r. Qed.

(** how far the nearest value can be *)
Lemma close_value F q : format_ok F -> (0 <= q)%Q -> (q <= mag (2 ^ prec F - 1) (hi F))%Q ->
  exists m e s, mfin F m e /\ (Qabs (mag m e - q) <= (1#2) * 2 ^ s)%Q /\ (s = lo F \/ 2 ^ (prec F - 1 + s) <= q)%Q.
Proof.
  intros HF Hq Hb. assert (HF' := HF). destruct HF' as (P & L & H).
  assert (2 ^ prec F = 2 * 2 ^ (prec F - 1)) as D by (rewrite <- Z.pow_succ_r by lia; f_equal; lia).
  assert (0 < 2 ^ (prec F - 1)) as D0 by (apply Z.pow_pos_nonneg; lia).
  destruct (Qlt_le_dec 0 q) as [Pq|Z0].
  2: { exists 0, (lo F), (lo F). split; [repeat split; auto; lia|]. split; [|now left].
       assert (mag 0 (lo F) == 0)%Q as -> by (unfold mag; change (inject_Z 0) with 0%Q; ring). pose proof (two_pos (lo F)). qabs; lra. }
  destruct (qlog_spec 2 q ltac:(lia) Pq) as [QL QU]. change (inject_Z 2) with 2%Q in QL, QU. set (l := qlog 2 q) in *.
  set (s := Z.max (lo F) (l - (prec F - 1))).
  pose proof (two_pos s) as T. assert (q == (q / 2 ^ s) * 2 ^ s)%Q as Eq by (field; lra).
  assert (s = lo F \/ 2 ^ (prec F - 1 + s) <= q)%Q as Lq.
  { destruct (Z_le_gt_dec (l - (prec F - 1)) (lo F)) as [C|C]; [left; unfold s; lia|right].
    replace (prec F - 1 + s) with l by (unfold s; lia). exact QL. }
  assert (s <= hi F) as Hs.
  { assert (l < prec F + hi F); [|unfold s; lia]. apply Qpower_lt_compat_l_inv with 2%Q; [|lra].
    apply Qle_lt_trans with q; [exact QL|]. apply Qle_lt_trans with (mag (2 ^ prec F - 1) (hi F)); [exact Hb|].
    apply Qlt_le_trans with (mag (2 ^ prec F) (hi F)); [apply mag_lt; lia|]. rewrite mag_two by lia. lra. }
  assert (rne (q / 2 ^ s) <= 2 ^ prec F) as Um.
  { apply rne_le. apply Qmult_le_r with (2 ^ s)%Q; [exact T|]. rewrite <- Eq.
    change (q <= mag (2 ^ prec F) s)%Q. rewrite mag_two by lia. apply Qle_trans with (2 ^ (l + 1))%Q; [lra|]. apply pow2_le. unfold s; lia. }
  assert (s = lo F \/ 2 ^ (prec F - 1) <= rne (q / 2 ^ s)) as Lm.
  { destruct Lq as [C|C]; [now left|right]. apply rne_ge. apply Qmult_le_r with (2 ^ s)%Q; [exact T|]. rewrite <- Eq.
    change (mag (2 ^ (prec F - 1)) s <= q)%Q. rewrite mag_two by lia. exact C. }
  assert (0 <= rne (q / 2 ^ s)) as Nm.
  { apply rne_pos. apply Qmult_le_r with (2 ^ s)%Q; [exact T|]. rewrite <- Eq. lra. }
  assert (Qabs (mag (rne (q / 2 ^ s)) s - q) <= (1#2) * 2 ^ s)%Q as B.
  { pose proof (rne_error (q / 2 ^ s)) as R. set (m := rne (q / 2 ^ s)) in *. rewrite Eq. unfold mag. rewrite scale by exact T. apply Qmult_le_compat_r; lra. }
  assert (mag (2 ^ (prec F - 1)) (s + 1) == mag (2 ^ prec F) s)%Q as Ec by (rewrite !mag_two by lia; now replace (prec F - 1 + (s + 1)) with (prec F + s) by lia).
  destruct (Z.eq_dec (rne (q / 2 ^ s)) (2 ^ prec F)) as [E|N].
  - destruct (Z.eq_dec s (hi F)) as [Es|Ns].
    + exfalso. assert (rne (q / 2 ^ s) <= 2 ^ prec F - 1); [|lia]. apply rne_le. apply Qmult_le_r with (2 ^ s)%Q; [exact T|]. rewrite <- Eq.
      rewrite Es. exact Hb.
    + exists (2 ^ (prec F - 1)), (s + 1), s. split; [repeat split; auto; try lia; unfold s; lia|]. split; [|exact Lq]. rewrite Ec, <- E. exact B.
  - exists (rne (q / 2 ^ s)), s, s. split; [|split; [exact B|exact Lq]]. repeat split; auto; try lia; unfold s; lia.
Qed.

(** decimals of few digits come back from the format unchanged *)
Lemma decimal_again F R t r : format_ok F -> fixed_text R t -> follow r ->
  (forall q, denotes t q -> Qabs q * 10 ^ Z.of_nat R < inject_Z (2 ^ (prec F - 1)))%Q -> (10 ^ Z.of_nat R * 2 ^ lo F < 1)%Q ->
  exists m e, get F (t ++ r) = Fin (minus_first t) m e /\ mfin F m e /\ fixed (Z.of_nat R) (minus_first t) (mag m e) = t.
Proof.
  intros HF Ht Hr B HR. destruct (fixed_text_self R t Ht) as (n & Hn & (q & D & E) & U). specialize (B q D).
  set (a := (inject_Z n / 10 ^ Z.of_nat R)%Q) in *. pose proof (ten_pos (Z.of_nat R)) as T.
  assert (inject_Z n == a * 10 ^ Z.of_nat R)%Q as Ea by (unfold a; field; lra).
  assert (0 <= a)%Q as Pa.
  { apply Qmult_le_r with (10 ^ Z.of_nat R)%Q; [exact T|]. rewrite <- Ea. pose proof (injZ_nonneg n Hn). lra. }
  assert (Qabs q == a)%Q as Eq. { rewrite E. destruct (minus_first t); cbn [signed]; qabs; lra. } rewrite Eq in B.
  assert (1 <= 10 ^ Z.of_nat R)%Q as T1 by (apply Qpower_1_le; [lra|lia]).
  destruct (get_signed F t q a r HF D E Hr) as (m & e & G & (M & N)). exists m, e. split; [exact G|]. split; [exact M|].
  apply U. apply rne_close. rewrite pow_Z by lia. change (inject_Z 10) with 10%Q. rewrite Ea. rewrite scale by exact T.
  assert (HF' := HF). destruct HF' as (P & L & H).
  assert (0 < 2 ^ (prec F - 1)) as D0 by (apply Z.pow_pos_nonneg; lia).
  assert (a <= mag (2 ^ prec F - 1) (hi F))%Q as Ub.
  { apply Qle_trans with (a * 10 ^ Z.of_nat R)%Q.
    - rewrite <- (Qmult_1_r a) at 1. apply Qmult_le_l_nonneg; [exact Pa|exact T1].
    - apply Qle_trans with (mag (2 ^ (prec F - 1)) 0).
      + unfold mag. change (2 ^ 0)%Q with 1%Q. lra.
      + apply Qle_trans with (mag (2 ^ prec F - 1) 0); [|apply mag_exp; lia]. apply mag_le.
        assert (2 ^ prec F = 2 * 2 ^ (prec F - 1)) by (rewrite <- Z.pow_succ_r by lia; f_equal; lia). lia. }
  destruct (close_value F a HF Pa Ub) as (m1 & e1 & s & M1 & X & S). destruct (N m1 e1 M1) as [Y _].
  assert (Qabs (mag m e - a) <= (1#2) * 2 ^ s)%Q as Z by lra.
  assert (2 ^ s * 10 ^ Z.of_nat R < 1)%Q as W.
  { destruct S as [->|S]; [lra|]. apply Qmult_lt_l with (inject_Z (2 ^ (prec F - 1))).
    - change 0%Q with (inject_Z 0). now apply (proj1 (injZ_lt _ _)).
    - rewrite Qmult_1_r. apply Qle_lt_trans with (a * 10 ^ Z.of_nat R)%Q; [|exact B].
      rewrite Qmult_assoc. apply Qmult_le_compat_r; [|lra]. rewrite pow_Z by lia. change (inject_Z 2) with 2%Q. rewrite <- pow_add by lra. exact S. }
  apply Qle_lt_trans with ((1 # 2) * 2 ^ s * 10 ^ Z.of_nat R)%Q; [apply Qmult_le_compat_r; lra|]. lra.
Qed.

(** ---- scientific ---- *)
Lemma qlog_is k q : (10 ^ k <= q)%Q -> (q < 10 ^ (k + 1))%Q -> qlog 10 q = k.
Proof.
  intros A B. assert (0 < q)%Q as P by (pose proof (ten_pos k); lra).
  destruct (qlog_spec 10 q ltac:(lia) P) as [L U]. change (inject_Z 10) with 10%Q in L, U.
  assert (k < qlog 10 q + 1) by (apply pow10_lt_inv; lra). assert (qlog 10 q < k + 1) by (apply pow10_lt_inv; lra). lia.
Qed.
Lemma rne_even q n : Z.Even n -> (Qabs (q - inject_Z n) <= 1#2)%Q -> rne q = n.
Proof.
  intros Ev H. destruct (Z.eq_dec (rne q) n) as [E|N]; [exact E|exfalso]. destruct (rne_spec q) as [Hx E].
  assert (q == inject_Z (rne q) - (1 # 2) \/ q == inject_Z (rne q) + (1 # 2))%Q as T.
  { destruct (int_gap _ _ N) as [G|G]; revert H; qabs; lra. }
  specialize (E T). destruct (int_gap _ _ N) as [G|G].
  - assert (rne q + 1 = n) by (apply Z.le_antisymm; apply (proj2 (injZ_le _ _)); rewrite injZ_succ; revert H; qabs; lra).
    destruct Ev as [a Ha], E as [b Hb]. lia.
  - assert (n + 1 = rne q) by (apply Z.le_antisymm; apply (proj2 (injZ_le _ _)); rewrite injZ_succ; revert H; qabs; lra).
    destruct Ev as [a Ha], E as [b Hb]. lia.
Qed.
Lemma seven_pos q : (0 < q)%Q -> seven q =
  let k := qlog 10 q in let n := rne (q / (10 ^ (k - 6)))%Q in if n =? 10 ^ 7 then (10 ^ 6, k + 1) else (n, k).
Proof.
  intros H. unfold seven. destruct (Qeq_bool q 0) eqn:E; [|reflexivity]. apply Qeq_bool_iff in E. lra.
Qed.
(** the decade of a number, and its seven digits *)
Lemma decade q : (0 < q)%Q -> exists k n, qlog 10 q = k /\ n = rne (q / 10 ^ (k - 6)) /\
  (10 ^ k <= q)%Q /\ (q < 10 ^ (k + 1))%Q /\ 10 ^ 6 <= n <= 10 ^ 7 /\
  (Qabs (q - inject_Z n * 10 ^ (k - 6)) <= (1#2) * 10 ^ (k - 6))%Q /\
  seven q = (if n =? 10 ^ 7 then (10 ^ 6, k + 1) else (n, k)).
Proof.
  intros P. destruct (qlog_spec 10 q ltac:(lia) P) as [L U]. change (inject_Z 10) with 10%Q in L, U.
  exists (qlog 10 q), (rne (q / 10 ^ (qlog 10 q - 6))). set (k := qlog 10 q) in *. pose proof (ten_pos (k - 6)) as T.
  assert (q == (q / 10 ^ (k - 6)) * 10 ^ (k - 6))%Q as Eq by (field; lra).
  split; [reflexivity|]. split; [reflexivity|]. split; [exact L|]. split; [exact U|]. split; [|split].
  - split.
    + apply rne_ge. apply Qmult_le_r with (10 ^ (k - 6))%Q; [exact T|]. rewrite <- Eq. rewrite pow_Z by lia. change (inject_Z 10) with 10%Q.
      rewrite <- pow10_add. now replace (6 + (k - 6)) with k by lia.
    + apply rne_le. apply Qmult_le_r with (10 ^ (k - 6))%Q; [exact T|]. rewrite <- Eq. rewrite pow_Z by lia. change (inject_Z 10) with 10%Q.
      rewrite <- pow10_add. replace (7 + (k - 6)) with (k + 1) by lia. lra.
  - pose proof (rne_error (q / 10 ^ (k - 6))) as R. set (n := rne (q / 10 ^ (k - 6))) in *. rewrite Eq at 1. rewrite scale by exact T.
    rewrite Qabs_Qminus. apply Qmult_le_compat_r; lra.
  - rewrite seven_pos by exact P. reflexivity.
Qed.
Lemma seven_at k q : (10 ^ k <= q)%Q -> (q < 10 ^ (k + 1))%Q ->
  seven q = let n := rne (q / 10 ^ (k - 6)) in if n =? 10 ^ 7 then (10 ^ 6, k + 1) else (n, k).
Proof.
  intros L U. rewrite seven_pos by (pose proof (ten_pos k); lra). rewrite (qlog_is k q L U). reflexivity.
Qed.
Lemma even_pow10 j : 1 <= j -> Z.Even (10 ^ j).
Proof. intros H. exists (5 * 10 ^ (j - 1)). replace j with (j - 1 + 1) at 1 by lia. rewrite Z.pow_add_r, Z.pow_1_r by lia. ring. Qed.
(** numbers no further from the seven digits have the same seven digits, except
    perhaps below a power of ten *)
Lemma seven_again v w k n : (0 < v)%Q -> qlog 10 v = k -> n = rne (v / 10 ^ (k - 6)) ->
  (Qabs (w - inject_Z n * 10 ^ (k - 6)) <= Qabs (v - inject_Z n * 10 ^ (k - 6)))%Q ->
  (n = 10 ^ 6 -> (w < 10 ^ k)%Q -> (10 ^ k - w <= (1#2) * 10 ^ (k - 7))%Q) ->
  (0 < w)%Q /\ seven w = seven v.
Proof.
  intros Pv Ek En Hw Hc. destruct (decade v Pv) as (k' & n' & Ek' & En' & L & U & Bn & D & S).
  assert (k' = k) as -> by congruence. assert (n' = n) as -> by congruence. clear Ek' En'. rewrite S.
  pose proof (ten_pos (k - 6)) as T. set (t := (10 ^ (k - 6))%Q) in *.
  assert (10 ^ k == inject_Z (10 ^ 6) * t)%Q as K6 by (unfold t; change (inject_Z (10 ^ 6)) with (10 ^ 6)%Q; rewrite <- pow10_add; now replace (6 + (k - 6)) with k by lia).
  assert (10 ^ (k + 1) == inject_Z (10 ^ 7) * t)%Q as K7 by (unfold t; change (inject_Z (10 ^ 7)) with (10 ^ 7)%Q; rewrite <- pow10_add; now replace (7 + (k - 6)) with (k + 1) by lia).
  assert (10 ^ (k + 2) == inject_Z (10 ^ 8) * t)%Q as K8 by (unfold t; change (inject_Z (10 ^ 8)) with (10 ^ 8)%Q; rewrite <- pow10_add; now replace (8 + (k - 6)) with (k + 2) by lia).
  assert (Qabs (w - inject_Z n * t) <= (1#2) * t)%Q as Dw by lra.
  assert (forall y, (y == (y / t) * t)%Q) as Q by (intros y; field; lra).
  assert (rne (w / t) = n) as Rw.
  { apply (rne_again (v / t)); [exact En|]. apply Qmult_le_r with t; [exact T|]. rewrite <- !scale by exact T. rewrite <- !Q. exact Hw. }
  assert (inject_Z (10 ^ 6) * t <= inject_Z n * t)%Q as B6 by (apply Qmult_le_compat_r; [apply (proj1 (injZ_le _ _)); lia|lra]).
  assert (inject_Z n * t <= inject_Z (10 ^ 7) * t)%Q as B7 by (apply Qmult_le_compat_r; [apply (proj1 (injZ_le _ _)); lia|lra]).
  assert (t <= inject_Z (10 ^ 6) * t)%Q as Bt by (rewrite <- (Qmult_1_l t) at 1; apply Qmult_le_compat_r; [apply (proj1 (injZ_le 1 _)); lia|lra]).
  assert (0 < w)%Q as Pw by (revert Dw; qabs; lra). split; [exact Pw|].
  destruct (Qlt_le_dec w (10 ^ k)) as [C|C].
  - (* below the decade *)
    assert (n = 10 ^ 6) as E6.
    { destruct (Z.eq_dec n (10 ^ 6)) as [E|N]; [exact E|exfalso].
      assert (inject_Z (10 ^ 6) * t + t <= inject_Z n * t)%Q; [|revert Dw; qabs; lra].
      assert (inject_Z (10 ^ 6) * t + t == (inject_Z (10 ^ 6) + 1) * t)%Q as -> by ring. rewrite <- injZ_succ.
      apply Qmult_le_compat_r; [apply (proj1 (injZ_le _ _)); lia|lra]. }
    specialize (Hc E6 C). rewrite E6. change (10 ^ 6 =? 10 ^ 7) with false. cbv iota.
    assert (10 ^ k == inject_Z (10 ^ 7) * 10 ^ (k - 7))%Q as K' by (change (inject_Z (10 ^ 7)) with (10 ^ 7)%Q; rewrite <- pow10_add; now replace (7 + (k - 7)) with k by lia).
    pose proof (ten_pos (k - 7)) as T'.
    assert (10 ^ (k - 1) == inject_Z (10 ^ 6) * 10 ^ (k - 7))%Q as K'' by (change (inject_Z (10 ^ 6)) with (10 ^ 6)%Q; rewrite <- pow10_add; now replace (6 + (k - 7)) with (k - 1) by lia).
    change (inject_Z (10 ^ 7)) with 10000000%Q in K'. change (inject_Z (10 ^ 6)) with 1000000%Q in K''.
    rewrite (seven_at (k - 1)); [|lra|replace (k - 1 + 1) with k by lia; exact C]. cbv zeta. replace (k - 1 - 6) with (k - 7) by lia.
    assert (rne (w / 10 ^ (k - 7)) = 10 ^ 7) as ->.
    { apply rne_even; [apply even_pow10; lia|]. apply Qmult_le_r with (10 ^ (k - 7))%Q; [exact T'|]. rewrite <- scale by exact T'.
      assert (w / 10 ^ (k - 7) * 10 ^ (k - 7) == w)%Q as -> by (field; lra). change (inject_Z (10 ^ 7)) with 10000000%Q. qabs; lra. }
    change (10 ^ 7 =? 10 ^ 7) with true. cbv iota. f_equal. lia.
  - destruct (Qlt_le_dec w (10 ^ (k + 1))) as [C'|C'].
    + rewrite (seven_at k w C C'). cbv zeta. fold t. rewrite Rw. reflexivity.
    + (* above it *)
      assert (n = 10 ^ 7) as E7.
      { destruct (Z.eq_dec n (10 ^ 7)) as [E|N]; [exact E|exfalso].
        assert (inject_Z n * t + t <= inject_Z (10 ^ 7) * t)%Q; [|revert Dw; qabs; lra].
        assert (inject_Z n * t + t == (inject_Z n + 1) * t)%Q as -> by ring. rewrite <- injZ_succ.
        apply Qmult_le_compat_r; [apply (proj1 (injZ_le _ _)); lia|lra]. }
      rewrite E7 in Dw |- *. change (10 ^ 7 =? 10 ^ 7) with true. cbv iota.
      change (inject_Z (10 ^ 7)) with 10000000%Q in *. change (inject_Z (10 ^ 8)) with 100000000%Q in *.
      rewrite (seven_at (k + 1)); [|exact C'|replace (k + 1 + 1) with (k + 2) by lia; revert Dw; qabs; lra]. cbv zeta.
      replace (k + 1 - 6) with (1 + (k - 6)) by lia.
      assert (rne (w / 10 ^ (1 + (k - 6))) = 10 ^ 6) as ->; [|reflexivity].
      apply rne_close. pose proof (ten_pos (1 + (k - 6))) as T'.
      assert (10 ^ (1 + (k - 6)) == 10 * t)%Q as E10 by (rewrite pow10_add, Qpower_1_r; reflexivity).
      apply Qmult_lt_r with (10 ^ (1 + (k - 6)))%Q; [exact T'|]. rewrite <- scale by exact T'.
      assert (w / 10 ^ (1 + (k - 6)) * 10 ^ (1 + (k - 6)) == w)%Q as -> by (field; lra). rewrite E10. change (inject_Z (10 ^ 6)) with 1000000%Q.
      revert Dw; qabs; lra.
Qed.

Lemma expo_shape k : Z.abs k < 10000 -> exists sg ex, expo k = [sg] ++ ex /\ (sg = MINUS \/ sg = PLUS) /\ digits ex /\ (2 <= length ex <= 4)%nat /\
  exponent (101 :: expo k) = k.
Proof.
  intros H. set (x := if Z.abs k <? 10 then digs 2 (Z.abs k) else plain (Z.abs k)).
  change (expo k) with ((if k <? 0 then 45 else 43) :: x). exists (if k <? 0 then 45 else 43), x.
  split; [reflexivity|]. split; [destruct (k <? 0); auto|].
  assert (digits x) as D.
  { unfold x. destruct (Z.abs k <? 10); [apply digs_digits|]. apply rint_digits1, plain_rint. lia. }
  assert (2 <= length x <= 4)%nat as Lx.
  { unfold x. destruct (Z.abs k <? 10) eqn:E; [rewrite digs_length; lia|]. split.
    - unfold plain. rewrite digs_length. destruct (ilog_spec 10 (Z.abs k) ltac:(lia) ltac:(lia)) as (P & L & U).
      assert (0 < ilog 10 (Z.abs k)); [|lia]. destruct (Z.eq_dec (ilog 10 (Z.abs k)) 0) as [Z0|N]; [|lia]. rewrite Z0 in U. cbn in U. lia.
    - apply plain_length; [|lia]. change (10 ^ Z.of_nat 4) with 10000. lia. }
  assert (dval x = Z.abs k) as V.
  { unfold x. destruct (Z.abs k <? 10) eqn:E; [|apply plain_dval; lia]. rewrite digs_dval. change (10 ^ Z.of_nat 2) with 100. apply Z.mod_small. lia. }
  clearbody x. split; [exact D|]. split; [exact Lx|]. destruct (k <? 0) eqn:E.
  - change (- dval x = k). lia.
  - change (dval x = k). lia.
Qed.
Lemma sci_shape neg q n k : seven q = (n, k) -> 0 <= n < 10 ^ 7 -> Z.abs k < 10000 ->
  sci_text (scientific neg q) /\ minus_first (scientific neg q) = neg /\
  exists q', denotes (scientific neg q) q' /\ (q' == signed neg (inject_Z n * 10 ^ (k - 6)))%Q.
Proof.
  intros E Hn Hk. unfold scientific. rewrite E. destruct (expo_shape k Hk) as (sg & ex & Ee & Hsg & Hex & Hl & Vx).
  assert (0 <= n / 10 ^ 6 < 10) as Hd by (split; [apply Z.div_pos; lia|apply Z.div_lt_upper_bound; lia]).
  assert (digs 1 (n / 10 ^ 6) = [48 + n / 10 ^ 6]) as D1 by (cbn [digs app]; rewrite Z.mod_small by lia; reflexivity).
  rewrite D1. assert (rexp (101 :: expo k)) as Rx.
  { rewrite Ee. apply (re_some 101 [sg] ex); [auto|destruct Hsg as [-> | ->]; auto|]. split; [|exact Hex]. intros ->. cbn in Hl. lia. }
  assert (digits [48 + n / 10 ^ 6]) as Hi by (constructor; [unfold s_digit; lia|constructor]).
  split; [|split].
  - rewrite Ee. change (DOT :: digs 6 (n mod 10 ^ 6) ++ 101 :: [sg] ++ ex) with ((DOT :: digs 6 (n mod 10 ^ 6)) ++ 101 :: [sg] ++ ex).
    apply sci; auto using sign_opt, digs_digits, digs_length. unfold s_digit; lia.
  - destruct neg; [reflexivity|]. cbn [sign app minus_first].
    assert (In (48 + n / 10 ^ 6) [48; 49; 50; 51; 52; 53; 54; 55; 56; 57]) as I by (cbn [In]; lia). cbn [In] in I.
    repeat (destruct I as [<-|I]; [reflexivity|]). contradiction.
  - pose proof (den (sign neg) [48 + n / 10 ^ 6] (DOT :: digs 6 (n mod 10 ^ 6)) (101 :: expo k) (sign_opt neg)) as D.
    eexists. split; [apply D; [split; [discriminate|exact Hi]| |exact Rx]|].
    + constructor. split; [|apply digs_digits]. intros Z0. apply (f_equal (@length Z)) in Z0. rewrite digs_length in Z0. discriminate.
    + rewrite Vx. cbn [fraction]. rewrite digs_length, digs_dval. change (Z.of_nat 6) with 6. rewrite Z.mod_mod by lia.
      change (dval [48 + n / 10 ^ 6]) with (0 * 10 + (48 + n / 10 ^ 6 - 48)).
      replace (0 * 10 + (48 + n / 10 ^ 6 - 48)) with (n / 10 ^ 6) by lia. rewrite <- signed_minus.
      assert (10 ^ k == 10 ^ (k - 6) * 1000000)%Q as -> by (change 1000000%Q with (10 ^ 6)%Q; rewrite <- pow10_add; now replace (k - 6 + 6) with k by lia).
      change (10 ^ 6)%Q with 1000000%Q.
      assert (inject_Z n == 1000000 * inject_Z (n / 10 ^ 6) + inject_Z (n mod 10 ^ 6))%Q as Dq.
      { pose proof (Z.div_mod n (10 ^ 6) ltac:(lia)) as Dm. rewrite Dm at 1. rewrite inject_Z_plus, inject_Z_mult. reflexivity. }
      rewrite Dq. field.
Qed.
Lemma eight_ten n : 0 <= n -> (2 ^ (3 * n) <= 10 ^ n)%Q.
Proof.
  intros H. pattern n. apply natlike_ind; [discriminate| |exact H]. intros x Hx IH. unfold Z.succ.
  replace (3 * (x + 1)) with (3 * x + 3) by lia. rewrite pow_add, pow10_add by lra. change (2 ^ 3)%Q with 8%Q. change (10 ^ 1)%Q with 10%Q.
  pose proof (ten_pos x). lra.
Qed.
Lemma big_bound : (2 ^ 16384 <= 10 ^ 5462)%Q.
Proof. apply Qle_trans with (2 ^ (3 * 5462))%Q; [apply pow2_le; lia|apply eight_ten; lia]. Qed.
Lemma small_bound : (10 ^ (-5482) <= 2 ^ (-16445))%Q.
Proof.
  apply Qle_trans with (2 ^ (- (3 * 5482)))%Q; [|apply pow2_le; lia]. change (-5482) with (- (5482)). rewrite !Qpower_opp.
  pose proof (eight_ten 5482 ltac:(lia)) as H. pose proof (two_pos (3 * 5482)) as P. pose proof (ten_pos 5482) as T.
  set (a := (2 ^ (3 * 5482))%Q) in *. set (b := (10 ^ 5482)%Q) in *. clearbody a b.
  apply Qle_shift_inv_l; [exact P|]. rewrite Qmult_comm. apply Qle_shift_div_r; [exact T|]. lra.
Qed.
Lemma mag_pos_low F m e : mfin F m e -> m <> 0 -> (2 ^ lo F <= mag m e)%Q.
Proof.
  intros (M & E & _) N. apply Qle_trans with (2 ^ e)%Q; [apply pow2_le; lia|]. unfold mag. rewrite <- (Qmult_1_l (2 ^ e)) at 1.
  apply Qmult_le_compat_r; [apply (proj1 (injZ_le 1 _)); lia|]. pose proof (two_pos e). lra.
Qed.
Lemma seven_zero q : (q == 0)%Q -> seven q = (0, 0).
Proof. intros H. unfold seven. now rewrite (proj2 (Qeq_bool_iff q 0) H). Qed.
Lemma seven_bounds F m e : format_ok F -> mfin F m e -> exists n k, seven (mag m e) = (n, k) /\ 0 <= n < 10 ^ 7 /\ Z.abs k < 10000.
Proof.
  intros HF M. destruct (Z.eq_dec m 0) as [->|N].
  - exists 0, 0. split; [|lia]. apply seven_zero. unfold mag. change (inject_Z 0) with 0%Q. ring.
  - pose proof (mag_pos_low F m e M N) as Lv. pose proof (two_pos (lo F)) as T.
    destruct (decade (mag m e) ltac:(lra)) as (k & n & _ & _ & L & U & Bn & _ & S).
    assert (k < 5462) as K1.
    { apply pow10_lt_inv. apply Qle_lt_trans with (mag m e); [exact L|]. apply Qlt_le_trans with (2 ^ 16384)%Q; [|exact big_bound].
      apply Qle_lt_trans with (mag (2 ^ prec F - 1) (hi F)); [now apply mfin_largest|]. destruct HF as (P & Lo & H).
      apply Qlt_le_trans with (mag (2 ^ prec F) (hi F)); [apply mag_lt; lia|]. rewrite mag_two by lia. apply pow2_le. lia. }
    assert (-5482 < k + 1) as K2.
    { apply pow10_lt_inv. apply Qle_lt_trans with (mag m e); [|exact U]. apply Qle_trans with (2 ^ (-16445))%Q; [exact small_bound|].
      apply Qle_trans with (2 ^ lo F)%Q; [apply pow2_le; destruct HF; lia|exact Lv]. }
    rewrite S. destruct (n =? 10 ^ 7) eqn:E; [exists (10 ^ 6), (k + 1)|exists n, k]; (split; [reflexivity|]); lia.
Qed.
Lemma seven_value q n k : (0 < q)%Q -> seven q = (n, k) -> exists j, (inject_Z n * 10 ^ (k - 6) == inject_Z (rne (q / 10 ^ (j - 6))) * 10 ^ (j - 6))%Q /\ qlog 10 q = j.
Proof.
  intros P E. destruct (decade q P) as (j & n' & Ej & En & _ & _ & _ & _ & S). exists j. split; [|exact Ej]. rewrite <- En.
  rewrite S in E. destruct (n' =? 10 ^ 7) eqn:C.
  - injection E as <- <-. assert (n' = 10 ^ 7) as -> by lia. replace (j + 1 - 6) with (1 + (j - 6)) by lia. rewrite pow10_add.
    set (t := (10 ^ (j - 6))%Q). change (1000000 * (10 * t) == 10000000 * t)%Q. ring.
  - injection E as <- <-. reflexivity.
Qed.
(** relative error of half a unit of the seventh digit *)
Lemma seven_error q n k : (0 < q)%Q -> seven q = (n, k) -> (Qabs (inject_Z n * 10 ^ (k - 6) - q) <= (1 # 2000000) * q)%Q.
Proof.
  intros P E. destruct (seven_value q n k P E) as (j & V & Ej). destruct (decade q P) as (j' & n' & Ej' & En & L & U & _ & D & _).
  assert (j' = j) as -> by congruence. rewrite V, <- En, Qabs_Qminus.
  assert (10 ^ j == 1000000 * 10 ^ (j - 6))%Q as K by (change 1000000%Q with (10 ^ 6)%Q; rewrite <- pow10_add; now replace (6 + (j - 6)) with j by lia). lra.
Qed.

(** The format has a binary digit to spare over seven decimal ones, and there is
    no surprise at the one power of ten whose seventh digit is about as small as
    the smallest value. *)
Definition sci_ok (F : fpt) : Prop := 25 <= prec F /\ exists k, (10 ^ (k - 7) < 2 ^ lo F)%Q /\ (2 ^ lo F <= 10 ^ (k - 6))%Q /\
  exists m, 0 <= m < 2 ^ prec F /\ (10 ^ k - mag m (lo F) <= (1#2) * 10 ^ (k - 7))%Q /\ (Qabs (mag m (lo F) - 10 ^ k) < (1#2) * 2 ^ lo F)%Q.
Lemma mfin_near F m e m' e' : mfin F m e -> mfin F m' e' -> (Qabs (mag m e - mag m' e') < 2 ^ lo F)%Q -> (mag m e == mag m' e')%Q.
Proof.
  intros (_ & E & _) (_ & E' & _) H. pose proof (two_pos (lo F)) as T.
  assert (mag m e == mag (m * 2 ^ (e - lo F)) (lo F))%Q as A by (rewrite mag_pow by lia; now replace (lo F + (e - lo F)) with e by lia).
  assert (mag m' e' == mag (m' * 2 ^ (e' - lo F)) (lo F))%Q as B by (rewrite mag_pow by lia; now replace (lo F + (e' - lo F)) with e' by lia).
  rewrite A, B in *. destruct (Z.eq_dec (m * 2 ^ (e - lo F)) (m' * 2 ^ (e' - lo F))) as [->|N]; [reflexivity|exfalso].
  unfold mag in H. rewrite scale in H by exact T.
  assert (1 <= Qabs (inject_Z (m * 2 ^ (e - lo F)) - inject_Z (m' * 2 ^ (e' - lo F))))%Q as O by (destruct (int_gap _ _ N) as [G|G]; qabs; lra).
  assert (1 * 2 ^ lo F <= Qabs (inject_Z (m * 2 ^ (e - lo F)) - inject_Z (m' * 2 ^ (e' - lo F))) * 2 ^ lo F)%Q by (apply Qmult_le_compat_r; lra). lra.
Qed.
Lemma sci_again F neg m e r : format_ok F -> sci_ok F -> mfin F m e -> follow r ->
  exists m' e', get F (scientific neg (mag m e) ++ r) = Fin neg m' e' /\ mfin F m' e' /\ scientific neg (mag m' e') = scientific neg (mag m e).
Proof.
  intros HF HS M Hr. destruct (seven_bounds F m e HF M) as (n & k & E & Bn & Bk).
  destruct (sci_shape neg (mag m e) n k E Bn Bk) as (_ & Em & q & D & Q).
  assert (q == signed (minus_first (scientific neg (mag m e))) (inject_Z n * 10 ^ (k - 6)))%Q as Q' by (rewrite Em; exact Q).
  destruct (get_signed F _ q _ r HF D Q' Hr) as (m' & e' & G & N). rewrite Em in G. exists m', e'. split; [exact G|].
  assert (M' := proj1 N). split; [exact M'|]. unfold scientific. assert (seven (mag m' e') = seven (mag m e)) as ->; [|reflexivity].
  destruct (Z.eq_dec m 0) as [->|Nz].
  - assert (mag 0 e == 0)%Q as Z0 by (unfold mag; change (inject_Z 0) with 0%Q; ring). rewrite (seven_zero _ Z0) in *. injection E as <- <-.
    apply seven_zero. destruct N as [_ N]. destruct (N 0 e M) as [X _]. rewrite Z0 in X. change (inject_Z 0) with 0%Q in X.
    set (a := mag m' e') in *. set (b := (0 * 10 ^ (0 - 6))%Q) in *. assert (b == 0)%Q as Eb by (unfold b; ring). clearbody a b. clear - X Eb. revert X. qabs; lra.
  - pose proof (mag_pos_low F m e M Nz) as Lv. pose proof (two_pos (lo F)) as T. assert (0 < mag m e)%Q as Pv by lra.
    destruct (seven_value (mag m e) n k Pv E) as (j & V & Ej). pose proof (pnear_comp F _ _ _ _ V N) as N1. clear N. 
    destruct (decade (mag m e) Pv) as (j' & n' & Ej' & En & L & U & B & Dv & _). assert (j' = j) as -> by congruence. rewrite <- En in N1.
    apply (seven_again (mag m e) (mag m' e') j n' Pv Ej En); [apply (proj2 N1 m e M)|].
    intros E6 C. rewrite E6 in *. clear Bn.
    assert (inject_Z (10 ^ 6) * 10 ^ (j - 6) == 10 ^ j)%Q as K6 by (change (inject_Z (10 ^ 6)) with (10 ^ 6)%Q; rewrite <- pow10_add; now replace (6 + (j - 6)) with j by lia).
    rewrite K6 in Dv. apply (pnear_comp F _ _ _ _ K6) in N1.
    assert (10 ^ j <= mag (2 ^ prec F - 1) (hi F))%Q as Ub by (apply Qle_trans with (mag m e); [exact L|now apply mfin_largest]).
    destruct (close_value F (10 ^ j)%Q HF ltac:(pose proof (ten_pos j); lra) Ub) as (m1 & e1 & s & M1 & X & S). destruct (proj2 N1 m1 e1 M1) as [Y _].
    assert (10 ^ j - mag m' e' <= (1#2) * 2 ^ s)%Q as Z by (revert X Y; qabs; lra).
    destruct HS as (Hp & kc & C1 & C2 & Cr). destruct S as [->|S].
    + destruct (Qlt_le_dec (10 ^ (j - 7)) (2 ^ lo F)) as [A|A]; [|lra].
      destruct (Qlt_le_dec (10 ^ (j - 6)) (2 ^ lo F)) as [A'|A'].
      * exfalso. destruct (proj2 N1 m e M) as [Y' _].
        assert (Qabs (mag m e - mag m' e') < 2 ^ lo F)%Q as Ab by (revert Dv Y'; qabs; lra).
        pose proof (mfin_near F m e m' e' M M' Ab). lra.
      * assert (j = kc) as ->.
        { assert (j - 7 < kc - 6) by (apply pow10_lt_inv; lra). assert (kc - 7 < j - 6) by (apply pow10_lt_inv; lra). lia. }
        destruct Cr as (m2 & B2 & Cr1 & Cr2). assert (mfin F m2 (lo F)) as M2 by (destruct HF as (? & ? & ?); repeat split; auto; lia).
        destruct (proj2 N1 m2 (lo F) M2) as [Y3 _].
        assert (mag m' e' == mag m2 (lo F))%Q as Eq; [|lra]. apply (mfin_near F); [exact M'|exact M2|]. clear - Y3 Cr2. revert Y3 Cr2. qabs; lra.
    + assert (2 ^ s <= 10 ^ (j - 7))%Q; [|lra]. apply Qmult_le_l with (2 ^ 24)%Q; [apply two_pos|]. rewrite <- pow_add by lra.
      apply Qle_trans with (2 ^ (prec F - 1 + s))%Q; [apply pow2_le; lia|]. apply Qle_trans with (10 ^ j)%Q; [exact S|].
      assert (10 ^ j == 10 ^ 7 * 10 ^ (j - 7))%Q as -> by (rewrite <- pow10_add; now replace (7 + (j - 7)) with j by lia).
      apply Qmult_le_compat_r; [vm_compute; discriminate|]. pose proof (ten_pos (j - 7)). lra.
Qed.

(** Powers of ten between numbers of about eighty bits, so that the few
    comparisons needed are quick. *)
Definition cut80 (up : bool) (x : Z * Z) : Z * Z :=
  let '(a, b) := x in let s := Z.max 0 (Z.log2 a - 80) in ((if up then - (- a / 2 ^ s) else a / 2 ^ s), b + s).
Fixpoint ten80 (up : bool) (n : positive) : Z * Z :=
  match n with
  | xH => (10, 0)
  | xO p => let '(a, b) := ten80 up p in cut80 up (a * a, 2 * b)
  | xI p => let '(a, b) := ten80 up p in cut80 up (10 * (a * a), 2 * b)
  end.
Definition on_side (up : bool) (x : Z * Z) (q : Q) : Prop := 0 <= fst x /\ if up then (q <= mag (fst x) (snd x))%Q else (mag (fst x) (snd x) <= q)%Q.
Lemma cut80_side up x q : on_side up x q -> on_side up (cut80 up x) q.
Proof.
  destruct x as [a b]. unfold on_side, cut80. cbn [fst snd]. intros [P H]. set (s := Z.max 0 (Z.log2 a - 80)). assert (0 <= s) as Hs by lia. clearbody s.
  assert (0 < 2 ^ s) as T by (apply Z.pow_pos_nonneg; lia). pose proof (two_pos b) as B. pose proof (Z.div_mod a (2 ^ s) ltac:(lia)) as D. pose proof (Z.mod_pos_bound a (2 ^ s) T) as M.
  assert (0 <= a / 2 ^ s) as Q by (apply Z.div_pos; lia).
  assert (forall c, (mag c (b + s) == mag (c * 2 ^ s) b)%Q) as E by (intros c; rewrite mag_pow by lia; reflexivity).
  pose proof (Z.div_mod (- a) (2 ^ s) ltac:(lia)) as D'. pose proof (Z.mod_pos_bound (- a) (2 ^ s) T) as M'.
  destruct up; (split; [nia|]); rewrite E.
  - apply Qle_trans with (mag a b); [exact H|]. unfold mag. apply Qmult_le_compat_r; [|lra]. apply (proj1 (injZ_le _ _)). nia.
  - apply Qle_trans with (mag a b); [|exact H]. unfold mag. apply Qmult_le_compat_r; [|lra]. apply (proj1 (injZ_le _ _)). nia.
Qed.
Lemma sq_side up a b q c : 0 <= c -> (0 <= q)%Q -> on_side up (a, b) q -> on_side up (c * (a * a), 2 * b) (inject_Z c * (q * q)).
Proof.
  unfold on_side. cbn [fst snd]. intros Hc Hq [P H]. split; [nia|].
  assert (mag (c * (a * a)) (2 * b) == inject_Z c * (mag a b * mag a b))%Q as E.
  { unfold mag. rewrite !inject_Z_mult. replace (2 * b) with (b + b) by lia. rewrite pow_add by lra. ring. }
  pose proof (mag_nonneg a b P) as N. pose proof (injZ_nonneg c Hc) as C. set (g := mag a b) in *. clearbody g. set (z := inject_Z c) in *. clearbody z.
  destruct up; rewrite E.
  - assert (q * q <= g * g)%Q by (apply Qle_trans with (g * q)%Q; [apply Qmult_le_compat_r; auto|rewrite (Qmult_comm g q); apply Qmult_le_compat_r; auto]).
    rewrite !(Qmult_comm z). now apply Qmult_le_compat_r.
  - assert (g * g <= q * q)%Q by (apply Qle_trans with (q * g)%Q; [apply Qmult_le_compat_r; auto|rewrite (Qmult_comm q g); apply Qmult_le_compat_r; auto]).
    rewrite !(Qmult_comm z). now apply Qmult_le_compat_r.
Qed.
Lemma side_comp up x q q' : (q == q')%Q -> on_side up x q -> on_side up x q'.
Proof. unfold on_side. intros E. destruct up; now rewrite E. Qed.
Lemma ten80_side up n : on_side up (ten80 up n) (10 ^ Zpos n).
Proof.
  induction n as [p IH|p IH|].
  - cbn [ten80]. destruct (ten80 up p) as [a b]. apply cut80_side. apply side_comp with (inject_Z 10 * (10 ^ Zpos p * 10 ^ Zpos p))%Q.
    + rewrite <- !pow10_add. replace (Zpos p~1) with (1 + (Zpos p + Zpos p)) by lia. now rewrite (pow10_add 1).
    + apply sq_side; [lia| |exact IH]. pose proof (ten_pos (Zpos p)). lra.
  - cbn [ten80]. destruct (ten80 up p) as [a b]. apply cut80_side. apply side_comp with (inject_Z 1 * (10 ^ Zpos p * 10 ^ Zpos p))%Q.
    + rewrite <- !pow10_add. replace (Zpos p~0) with (Zpos p + Zpos p) by lia. change (inject_Z 1) with 1%Q. ring.
    + replace (a * a) with (1 * (a * a)) by lia. apply sq_side; [lia| |exact IH]. pose proof (ten_pos (Zpos p)). lra.
  - unfold on_side. cbn. split; [lia|]. destruct up; discriminate.
Qed.
Lemma sci_ok_q F k m : 25 <= prec F -> 0 <= m < 2 ^ prec F ->
  let T := (10 ^ (- k))%Q in let S := (2 ^ (- lo F))%Q in
  (S < 10000000 * T)%Q -> (1000000 * T <= S)%Q -> ((2 * inject_Z m - 1) * T < 2 * S)%Q -> (2 * S < (2 * inject_Z m + 1) * T)%Q ->
  (S * 19999999 <= 20000000 * inject_Z m * T)%Q -> sci_ok F.
Proof.
  intros HP Hm T S A B C D E. pose proof (ten_pos (- k)) as PT. pose proof (two_pos (- lo F)) as PS. fold T in PT. fold S in PS.
  pose proof (Qinv_lt_0_compat T PT) as Pt. pose proof (Qinv_lt_0_compat S PS) as Ps.
  assert (10 ^ k == / T)%Q as Ek by (unfold T; rewrite Qpower_opp, Qinv_involutive; reflexivity).
  assert (2 ^ lo F == / S)%Q as Es by (unfold S; rewrite Qpower_opp, Qinv_involutive; reflexivity).
  assert (10 ^ (k - 7) == / T * (1 # 10000000))%Q as E7 by (unfold Z.sub; rewrite pow10_add, Ek; reflexivity).
  assert (10 ^ (k - 6) == / T * (1 # 1000000))%Q as E6 by (unfold Z.sub; rewrite pow10_add, Ek; reflexivity).
  assert (T * / T == 1)%Q as T1 by (field; lra). assert (S * / S == 1)%Q as S1 by (field; lra).
  assert (0 < / T * / S)%Q as PP by (apply Qmult_lt_0_compat; assumption).
  assert (forall x, x * T * (/ T * / S) == x * / S)%Q as RT by (intros x; field; split; lra).
  assert (forall x, S * x * (/ T * / S) == x * / T)%Q as RS by (intros x; field; split; lra).
  set (n := inject_Z m) in *.
  apply (Qmult_lt_compat_r _ _ _ PP) in A. apply (fun h => Qmult_le_compat_r _ _ _ h (Qlt_le_weak _ _ PP)) in B.
  apply (Qmult_lt_compat_r _ _ _ PP) in C. apply (Qmult_lt_compat_r _ _ _ PP) in D. apply (fun h => Qmult_le_compat_r _ _ _ h (Qlt_le_weak _ _ PP)) in E.
  rewrite RT in A, B, C, D, E. rewrite RS in E. rewrite (Qmult_comm 2 S), RS in C, D.
  assert (S * (/ T * / S) == / T)%Q as R1 by (field; split; lra). rewrite R1 in A, B.
  split; [exact HP|]. exists k. rewrite E7, E6, Es. clear E6 RT RS R1. set (t := (/ T)%Q) in *. set (s := (/ S)%Q) in *. clearbody t s.
  split; [lra|]. split; [lra|]. exists m. split; [exact Hm|]. rewrite E7, Ek. unfold mag. rewrite Es. fold n. set (ns := (n * s)%Q) in *.
  assert ((2 * n - 1) * s == 2 * ns - s)%Q as X1 by (unfold ns; ring). rewrite X1 in C.
  assert ((2 * n + 1) * s == 2 * ns + s)%Q as X2 by (unfold ns; ring). rewrite X2 in D.
  assert (20000000 * n * s == 20000000 * ns)%Q as X3 by (unfold ns; ring). rewrite X3 in E. clearbody ns.
  split; [lra|]. qabs; lra.
Qed.
Definition sci_cert (F : fpt) (K : positive) (m : Z) : bool :=
  let '(a, b) := ten80 false K in let '(c, d) := ten80 true K in let x := - lo F - b in let y := - lo F - d in
  (25 <=? prec F) && (0 <? m) && (m <? 2 ^ prec F) && (0 <=? x) && (0 <=? y) &&
  (2 ^ x <? 10000000 * a) && (1000000 * c <=? 2 ^ y) && ((2 * m - 1) * c <? 2 * 2 ^ y) && (2 * 2 ^ x <? (2 * m + 1) * a) &&
  (2 ^ x * 19999999 <=? 20000000 * m * a).
Lemma sci_ok_cert F K m : sci_cert F K m = true -> sci_ok F.
Proof.
  unfold sci_cert. pose proof (ten80_side false K) as L. pose proof (ten80_side true K) as U.
  destruct (ten80 false K) as [a b], (ten80 true K) as [c d]. destruct L as [Pa L], U as [Pc U]. cbn [fst snd] in *.
  rewrite !andb_true_iff. intros H. decompose [and] H. clear H.
  set (x := - lo F - b) in *. set (y := - lo F - d) in *.
  assert (2 ^ (- lo F) == inject_Z (2 ^ x) * 2 ^ b)%Q as Ex by (rewrite pow_Z by lia; change (inject_Z 2) with 2%Q; rewrite <- pow_add by lra; now replace (x + b) with (- lo F) by lia).
  assert (2 ^ (- lo F) == inject_Z (2 ^ y) * 2 ^ d)%Q as Ey by (rewrite pow_Z by lia; change (inject_Z 2) with 2%Q; rewrite <- pow_add by lra; now replace (y + d) with (- lo F) by lia).
  pose proof (two_pos b) as Bp. pose proof (two_pos d) as Dp. unfold mag in L, U. set (T := (10 ^ Zpos K)%Q) in *.
  assert (forall i j z, i < j -> (0 < z)%Q -> (inject_Z i * z < inject_Z j * z)%Q) as LT by (intros i j z G Z; apply Qmult_lt_compat_r; [exact Z|now apply (proj1 (injZ_lt _ _))]).
  assert (forall i j z, i <= j -> (0 < z)%Q -> (inject_Z i * z <= inject_Z j * z)%Q) as LE by (intros i j z G Z; apply Qmult_le_compat_r; [now apply (proj1 (injZ_le _ _))|lra]).
  assert (forall i, 0 <= i -> (inject_Z i * (inject_Z a * 2 ^ b) <= inject_Z i * T)%Q) as ML by (intros i G; rewrite !(Qmult_comm (inject_Z i)); apply Qmult_le_compat_r; [exact L|now apply injZ_nonneg]).
  assert (forall i, 0 <= i -> (inject_Z i * T <= inject_Z i * (inject_Z c * 2 ^ d))%Q) as MU by (intros i G; rewrite !(Qmult_comm (inject_Z i)); apply Qmult_le_compat_r; [exact U|now apply injZ_nonneg]).
  apply (sci_ok_q F (- Zpos K) m); [lia|lia|..]; change (- - Zpos K) with (Zpos K); fold T.
  - rewrite Ex. specialize (ML 10000000 ltac:(lia)). specialize (LT (2 ^ x) (10000000 * a) (2 ^ b)%Q ltac:(lia) Bp). rewrite inject_Z_mult in LT. change (inject_Z 10000000) with 10000000%Q in *. lra.
  - rewrite Ey. specialize (MU 1000000 ltac:(lia)). specialize (LE (1000000 * c) (2 ^ y) (2 ^ d)%Q ltac:(lia) Dp). rewrite inject_Z_mult in LE. change (inject_Z 1000000) with 1000000%Q in *. lra.
  - rewrite Ey. specialize (MU (2 * m - 1) ltac:(lia)). specialize (LT ((2 * m - 1) * c) (2 * 2 ^ y) (2 ^ d)%Q ltac:(lia) Dp). rewrite !inject_Z_mult in LT.
    assert (inject_Z (2 * m - 1) == 2 * inject_Z m - 1)%Q as X by (unfold Z.sub; rewrite inject_Z_plus, inject_Z_mult; reflexivity). rewrite X in *. change (inject_Z 2) with 2%Q in *. lra.
  - rewrite Ex. specialize (ML (2 * m + 1) ltac:(lia)). specialize (LT (2 * 2 ^ x) ((2 * m + 1) * a) (2 ^ b)%Q ltac:(lia) Bp). rewrite !inject_Z_mult in LT.
    assert (inject_Z (2 * m + 1) == 2 * inject_Z m + 1)%Q as X by (rewrite inject_Z_plus, inject_Z_mult; reflexivity). rewrite X in *. change (inject_Z 2) with 2%Q in *. lra.
  - rewrite Ex. specialize (ML (20000000 * m) ltac:(lia)). specialize (LE (2 ^ x * 19999999) (20000000 * m * a) (2 ^ b)%Q ltac:(lia) Bp). rewrite (inject_Z_mult (20000000 * m) a), (inject_Z_mult 20000000 m), inject_Z_mult in LE. rewrite inject_Z_mult in ML.
    change (inject_Z 20000000) with 20000000%Q in *. change (inject_Z 19999999) with 19999999%Q in *. lra.
Qed.
Lemma sci_ok_f64 : sci_ok f64.
Proof. apply (sci_ok_cert f64 317 2024023). vm_compute. reflexivity. Qed.
Lemma sci_ok_f80 : sci_ok f80.
Proof. apply (sci_ok_cert f80 4944 2743334). vm_compute. reflexivity. Qed.
(** numbers of at most seven digits come back *)
Lemma sci_back F neg m e r N j : format_ok F -> mfin F m e -> follow r -> (mag m e == inject_Z N * 10 ^ j)%Q -> 0 <= N < 10 ^ 7 ->
  get F (scientific neg (mag m e) ++ r) = Fin neg m e.
Proof.
  intros HF M Hr V HN. destruct (seven_bounds F m e HF M) as (n & k & E & Bn & Bk).
  destruct (sci_shape neg (mag m e) n k E Bn Bk) as (_ & Em & q & D & Q).
  assert (inject_Z n * 10 ^ (k - 6) == mag m e)%Q as X.
  { destruct (Z.eq_dec N 0) as [->|NZ].
    - assert (mag m e == 0)%Q as Z0 by (rewrite V; change (inject_Z 0) with 0%Q; ring). rewrite (seven_zero _ Z0) in E. injection E as <- <-.
      rewrite Z0. change (inject_Z 0) with 0%Q. ring.
    - pose proof (ten_pos j) as T. assert (1 <= inject_Z N)%Q as N1 by (apply (proj1 (injZ_le 1 _)); lia).
      assert (inject_Z N < 10000000)%Q as N7 by (apply (proj1 (injZ_lt _ 10000000)); lia).
      assert (1 * 10 ^ j <= inject_Z N * 10 ^ j)%Q as A1 by (apply Qmult_le_compat_r; lra).
      assert (inject_Z N * 10 ^ j < 10000000 * 10 ^ j)%Q as A2 by (apply Qmult_lt_r; [exact T|exact N7]).
      assert (0 < mag m e)%Q as P by lra.
      destruct (seven_value (mag m e) n k P E) as (i & Vi & Ei). destruct (decade (mag m e) P) as (i' & n' & Ei' & _ & L & _).
      assert (i' = i) as -> by congruence. rewrite Vi.
      assert (i < 7 + j) as Hij.
      { apply pow10_lt_inv. rewrite pow10_add. change (10 ^ 7)%Q with 10000000%Q. lra. }
      assert (mag m e == inject_Z (N * 10 ^ (j - (i - 6))) * 10 ^ (i - 6))%Q as W.
      { rewrite V, inject_Z_mult, pow_Z by lia. change (inject_Z 10) with 10%Q.
        rewrite <- Qmult_assoc, <- pow10_add. now replace (j - (i - 6) + (i - 6)) with j by lia. }
      pose proof (ten_pos (i - 6)) as Ti.
      rewrite (rne_int (mag m e / 10 ^ (i - 6)) (N * 10 ^ (j - (i - 6)))); [now symmetry|]. rewrite W. field. lra. }
  assert (q == signed (minus_first (scientific neg (mag m e))) (mag m e))%Q as Q'.
  { rewrite Em, Q. destruct neg; cbn [signed]; rewrite X; reflexivity. }
  destruct (get_signed F _ q _ r HF D Q' Hr) as (m' & e' & G & (M' & N')). rewrite Em in G. rewrite G.
  destruct (mfin_unique F m e m' e' HF M M') as [<- <-]; [|reflexivity]. destruct (N' m e M) as [Y _].
  set (a := mag m e) in *. set (b := mag m' e') in *. clearbody a b. clear - Y. revert Y. qabs; lra.
Qed.
(** ---- lengths ---- *)
Lemma sci_length t : sci_text t -> (length t <= 15)%nat.
Proof. intros [m d fr sg ex Hm Hd Hf Hl Hs He Lx]. rewrite !app_length. cbn [length]. rewrite !app_length. cbn [length]. destruct Hm; cbn [length]; lia. Qed.
Lemma fixed_length R neg q : 0 <= R -> (0 <= q <= inject_Z (10 ^ 18 - 1))%Q -> (length (fixed R neg q) <= Z.to_nat (20 + R))%nat.
Proof.
  intros HR Hq. unfold fixed. set (n := rne (q * inject_Z (10 ^ R))). assert (0 < 10 ^ R) as T by (apply Z.pow_pos_nonneg; lia).
  assert (0 <= n) as Hn by (apply rne_pos, Qmult_le_0_compat; [lra|apply injZ_nonneg; lia]).
  assert (n <= (10 ^ 18 - 1) * 10 ^ R) as Un.
  { apply rne_le. rewrite inject_Z_mult. apply Qmult_le_compat_r; [lra|]. apply injZ_nonneg. lia. }
  assert (n / 10 ^ R < 10 ^ Z.of_nat 18) as B by (apply Z.div_lt_upper_bound; [lia|]; change (10 ^ Z.of_nat 18) with (10 ^ 18); nia).
  rewrite !app_length. pose proof (plain_length (n / 10 ^ R) 18 ltac:(split; [apply Z.div_pos; lia|exact B]) ltac:(lia)) as Lp.
  assert (length (sign neg) <= 1)%nat by (destruct neg; cbn; lia).
  destruct (R =? 0) eqn:E; cbn [length]; [|rewrite digs_length]; lia.
Qed.
