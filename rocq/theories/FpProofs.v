(** Proofs about Fp.v: rounding. *)
From Coq Require Import QArith Qabs Qround Qpower Lqa.
From Verif Require Import Base SpecJson SpecNum Fp SpecFp.
Open Scope Z_scope.

Ltac qabs := repeat match goal with
  | |- context [Qabs ?x] => pattern (Qabs x); apply Qabs_case; intros
  | H : context [Qabs ?x] |- _ => revert H; pattern (Qabs x); apply Qabs_case; intros
  end.

Lemma injZ_le a b : (a <= b)%Z <-> (inject_Z a <= inject_Z b)%Q.
Proof. now rewrite Zle_Qle. Qed.
Lemma injZ_lt a b : (a < b)%Z <-> (inject_Z a < inject_Z b)%Q.
Proof. now rewrite Zlt_Qlt. Qed.
Lemma injZ_succ a : (inject_Z (a + 1) == inject_Z a + 1)%Q.
Proof. now rewrite inject_Z_plus. Qed.

Lemma rne_spec q : (inject_Z (rne q) - (1#2) <= q <= inject_Z (rne q) + (1#2))%Q /\
  ((q == inject_Z (rne q) - (1#2) \/ q == inject_Z (rne q) + (1#2))%Q -> Z.Even (rne q)).
Proof.
  pose proof (Qfloor_le q) as L. pose proof (Qlt_floor q) as U. rewrite injZ_succ in U. unfold rne.
  destruct (q - inject_Z (Qfloor q) ?= 1 # 2)%Q eqn:E.
  - apply Qeq_alt in E. destruct (Z.even (Qfloor q)) eqn:Ev.
    + split; [lra|]. intros _. now apply Z.even_spec.
    + rewrite injZ_succ. split; [lra|]. intros _. apply Z.even_spec. rewrite Z.even_add, Ev. reflexivity.
  - apply Qlt_alt in E. split; [lra|]. intros [H|H]; lra.
  - apply Qgt_alt in E. rewrite injZ_succ. split; [lra|]. intros [H|H]; lra.
Qed.
Lemma int_gap a b : (a <> b)%Z -> (inject_Z a + 1 <= inject_Z b \/ inject_Z b + 1 <= inject_Z a)%Q.
Proof.
  intros H. rewrite <- !injZ_succ. rewrite <- !injZ_le. lia.
Qed.
Lemma rne_near q n : (Qabs (inject_Z (rne q) - q) <= Qabs (inject_Z n - q))%Q /\
  ((Qabs (inject_Z n - q) == Qabs (inject_Z (rne q) - q))%Q -> n = rne q \/ Z.Even (rne q)).
Proof.
  destruct (rne_spec q) as [H E]. destruct (Z.eq_dec n (rne q)) as [->|N]; [split; [lra|auto]|].
  destruct (int_gap _ _ N) as [G|G].
  - split; [qabs; lra|]. intros Q. right. apply E. revert Q. qabs; lra.
  - split; [qabs; lra|]. intros Q. right. apply E. revert Q. qabs; lra.
Qed.
(** what is no further from the rounded value rounds to it as well *)
Lemma rne_again x y n : n = rne x -> (Qabs (y - inject_Z n) <= Qabs (x - inject_Z n))%Q -> rne y = n.
Proof.
  intros -> H. destruct (rne_spec x) as [Hx Ex], (rne_spec y) as [Hy Ey].
  destruct (Z.eq_dec (rne y) (rne x)) as [E|N]; [exact E|]. exfalso.
  destruct (int_gap _ _ N) as [G|G].
  - assert (y == inject_Z (rne y) + (1#2))%Q by (revert H; qabs; lra).
    assert (y == inject_Z (rne x) - (1#2))%Q by (revert H; qabs; lra).
    assert (Z.Even (rne y)) as Ey' by (apply Ey; lra).
    assert (Z.Even (rne x)) as Ex' by (apply Ex; revert H; qabs; lra).
    assert (rne y + 1 = rne x) as D by (apply Z.le_antisymm; rewrite injZ_le, injZ_succ; lra).
    destruct Ey' as [a Ha], Ex' as [b Hb]. lia.
  - assert (y == inject_Z (rne y) - (1#2))%Q by (revert H; qabs; lra).
    assert (y == inject_Z (rne x) + (1#2))%Q by (revert H; qabs; lra).
    assert (Z.Even (rne y)) as Ey' by (apply Ey; lra).
    assert (Z.Even (rne x)) as Ex' by (apply Ex; revert H; qabs; lra).
    assert (rne x + 1 = rne y) as D by (apply Z.le_antisymm; rewrite injZ_le, injZ_succ; lra).
    destruct Ey' as [a Ha], Ex' as [b Hb]. lia.
Qed.
Lemma rne_int q n : (q == inject_Z n)%Q -> rne q = n.
Proof.
  intros H. apply (rne_again (inject_Z n) q n).
  - symmetry. destruct (Z.eq_dec (rne (inject_Z n)) n) as [E|N]; [exact E|]. exfalso.
    destruct (rne_spec (inject_Z n)) as [Hx _]. destruct (int_gap _ _ N) as [G|G]; lra.
  - qabs; lra.
Qed.
Lemma rne_close q n : (Qabs (q - inject_Z n) < 1#2)%Q -> rne q = n.
Proof.
  intros H. destruct (Z.eq_dec (rne q) n) as [E|N]; [exact E|]. exfalso.
  destruct (rne_spec q) as [Hx _]. destruct (int_gap _ _ N) as [G|G]; revert H; qabs; lra.
Qed.
Lemma rne_pos q : (0 <= q)%Q -> 0 <= rne q.
Proof.
  intros H. destruct (rne_spec q) as [Hx E]. destruct (Z_lt_le_dec (rne q) 0) as [L|L]; [|exact L]. exfalso.
  assert (inject_Z (rne q) + 1 <= 0)%Q. { rewrite <- injZ_succ. change 0%Q with (inject_Z 0). apply (proj1 (injZ_le _ _)). lia. } clear E L. lra.
Qed.
Lemma rne_comp x y : (x == y)%Q -> rne x = rne y.
Proof. intros H. symmetry. apply (rne_again x y); [reflexivity|]. qabs; lra. Qed.

(** ---- powers ---- *)
Lemma pow_pos (b : Q) k : (0 < b)%Q -> (0 < b ^ k)%Q.
Proof. apply Qpower_0_lt. Qed.
Lemma two_pos k : (0 < 2 ^ k)%Q. Proof. apply pow_pos. lra. Qed.
Lemma ten_pos k : (0 < 10 ^ k)%Q. Proof. apply pow_pos. lra. Qed.
Lemma pow_add (b : Q) j k : (0 < b)%Q -> (b ^ (j + k) == b ^ j * b ^ k)%Q.
Proof. intros H. apply Qpower_plus. lra. Qed.
Lemma pow_Z B k : 0 <= k -> (inject_Z (B ^ k) == inject_Z B ^ k)%Q.
Proof. apply Zpower_Qpower. Qed.

Lemma ilog_f_spec B fuel z : 2 <= B -> 1 <= z -> z < B ^ Z.of_nat fuel ->
  0 <= ilog_f fuel B z /\ B ^ ilog_f fuel B z <= z < B ^ (ilog_f fuel B z + 1).
Proof.
  intros HB. revert z. induction fuel as [|n IH]; intros z H1 H2.
  - change (B ^ Z.of_nat 0) with 1 in H2. lia.
  - cbn [ilog_f]. destruct (z <? B) eqn:E.
    + rewrite Z.pow_0_r, Z.add_0_l, Z.pow_1_r. lia.
    + assert (1 <= z / B) as Hd by (apply Z.div_le_lower_bound; lia).
      assert (z / B < B ^ Z.of_nat n) as Hu.
      { apply Z.div_lt_upper_bound; [lia|]. rewrite Nat2Z.inj_succ, Z.pow_succ_r in H2 by lia. exact H2. }
      destruct (IH _ Hd Hu) as (P & L & U). set (k := ilog_f n B (z / B)) in *.
      pose proof (Z.div_mod z B ltac:(lia)) as D. pose proof (Z.mod_pos_bound z B ltac:(lia)) as M.
      rewrite (Z.add_comm 1 k), !Z.pow_add_r by lia. rewrite Z.pow_add_r in U by lia. rewrite !Z.pow_1_r in *. split; [lia|]. nia.
Qed.
Lemma ilog_spec B z : 2 <= B -> 1 <= z -> 0 <= ilog B z /\ B ^ ilog B z <= z < B ^ (ilog B z + 1).
Proof.
  intros HB Hz. unfold ilog. apply ilog_f_spec; auto.
  pose proof (Z.log2_spec z ltac:(lia)) as [_ U]. pose proof (Z.log2_nonneg z).
  eapply Z.lt_le_trans; [exact U|]. rewrite Nat2Z.inj_succ, Z2Nat.id by lia. apply Z.pow_le_mono_l. lia.
Qed.

Lemma qlog_spec B q : 2 <= B -> (0 < q)%Q -> (inject_Z B ^ qlog B q <= q < inject_Z B ^ (qlog B q + 1))%Q.
Proof.
  intros HB Hq. destruct q as [a b]. assert (1 <= a) as Ha by (unfold Qlt in Hq; cbn in Hq; lia).
  destruct (ilog_spec B a HB Ha) as (P1 & L1 & U1). destruct (ilog_spec B (Zpos b) HB ltac:(lia)) as (P2 & L2 & U2).
  unfold qlog. cbn [Qnum Qden]. set (j := ilog B a) in *. set (k := ilog B (Z.pos b)) in *.
  assert (0 < inject_Z B)%Q as HB0 by (change 0%Q with (inject_Z 0); apply (proj1 (injZ_lt _ _)); lia).
  apply injZ_le in L1, L2. apply injZ_lt in U1, U2. rewrite pow_Z in * by lia.
  pose proof (pow_pos _ (j - k) HB0) as P. pose proof (pow_pos _ k HB0) as Pk.
  assert ((a # b) == inject_Z a / inject_Z (Zpos b))%Q as E by (rewrite <- Qmake_Qdiv; reflexivity).
  assert (0 < inject_Z (Zpos b))%Q as Pb by (change 0%Q with (inject_Z 0); apply (proj1 (injZ_lt _ _)); lia).
  assert ((a # b) * inject_Z (Zpos b) == inject_Z a)%Q as E2 by (rewrite E; field; lra).
  set (q := a # b) in *. set (bq := inject_Z (Z.pos b)) in *. set (Bq := inject_Z B) in *.
  assert (Bq ^ (j - k) * Bq ^ k == Bq ^ j)%Q as Ej by (rewrite <- pow_add by exact HB0; replace (j - k + k) with j by lia; reflexivity).
  assert (Bq ^ (j + 1) == Bq ^ j * Bq)%Q as Ej1 by (rewrite pow_add by exact HB0; rewrite Qpower_1_r; reflexivity).
  assert (Bq ^ (k + 1) == Bq ^ k * Bq)%Q as Ek1 by (rewrite pow_add by exact HB0; rewrite Qpower_1_r; reflexivity).
  assert (Bq ^ (j - k + 1) == Bq ^ (j - k) * Bq)%Q as Ejk by (rewrite pow_add by exact HB0; rewrite Qpower_1_r; reflexivity).
  destruct (Qle_bool (Bq ^ (j - k)) q) eqn:C.
  - apply Qle_bool_iff in C. split; [exact C|]. rewrite Ejk. 
    apply Qmult_lt_r with bq; [exact Pb|]. rewrite E2.
    assert (0 <= Bq ^ (j - k) * Bq * (bq - Bq ^ k))%Q as X by (apply Qmult_le_0_compat; [apply Qmult_le_0_compat|]; lra).
    assert (Bq ^ j * Bq == Bq ^ (j - k) * Bq ^ k * Bq)%Q as Y by (rewrite Ej; reflexivity). lra.
  - replace (j - k - 1 + 1) with (j - k) by lia.
    assert (q < Bq ^ (j - k))%Q as C' by (apply Qnot_le_lt; rewrite <- Qle_bool_iff, C; discriminate).
    split; [|exact C']. 
    assert (Bq ^ (j - k) == Bq ^ (j - k - 1) * Bq)%Q as Em by (replace (j - k) with (j - k - 1 + 1) at 1 by lia; rewrite pow_add by exact HB0; rewrite Qpower_1_r; reflexivity).
    pose proof (pow_pos _ (j - k - 1) HB0) as Pm.
    apply Qmult_le_r with bq; [exact Pb|]. rewrite E2.
    assert (0 <= Bq ^ (j - k - 1) * (Bq ^ k * Bq - bq))%Q as X by (apply Qmult_le_0_compat; lra).
    assert (Bq ^ (j - k - 1) * Bq * Bq ^ k == Bq ^ j)%Q as Y by (rewrite <- Em; exact Ej). lra.
Qed.

(** ---- rounding to a format ---- *)
Definition mfin (F : fpt) (m e : Z) : Prop :=
  0 <= m < 2 ^ prec F /\ lo F <= e <= hi F /\ (2 ^ (prec F - 1) <= m \/ e = lo F).
Definition pnear (F : fpt) (q : Q) (m e : Z) : Prop :=
  mfin F m e /\ forall m' e', mfin F m' e' ->
    (Qabs (mag m e - q) <= Qabs (mag m' e' - q))%Q /\
    ((Qabs (mag m' e' - q) == Qabs (mag m e - q))%Q -> (mag m' e' == mag m e)%Q \/ Z.Even m).

Lemma scale a x s : (0 < s)%Q -> (Qabs (a * s - x * s) == Qabs (a - x) * s)%Q.
Proof.
  intros H. assert (a * s - x * s == (a - x) * s)%Q as E by ring. rewrite E, Qabs_Qmult. rewrite (Qabs_pos s) by lra. reflexivity.
Qed.
Lemma mag_pow m e d : 0 <= d -> (mag (m * 2 ^ d) e == mag m (e + d))%Q.
Proof.
  intros H. unfold mag. rewrite inject_Z_mult, pow_Z by exact H. rewrite pow_add by lra. ring_simplify. change (inject_Z 2) with 2%Q. ring.
Qed.
Lemma pow2_le j k : j <= k -> (2 ^ j <= 2 ^ k)%Q.
Proof. intros H. apply Qpower_le_compat_l; [exact H|lra]. Qed.
Lemma mag_le m n e : m <= n -> (mag m e <= mag n e)%Q.
Proof. intros H. unfold mag. apply Qmult_le_compat_r; [now apply (proj1 (injZ_le _ _))|]. pose proof (two_pos e); lra. Qed.
Lemma mag_lt m n e : m < n -> (mag m e < mag n e)%Q.
Proof. intros H. unfold mag. apply Qmult_lt_r; [apply two_pos|now apply (proj1 (injZ_lt _ _))]. Qed.
Lemma mag_nonneg m e : 0 <= m -> (0 <= mag m e)%Q.
Proof. intros H. unfold mag. apply Qmult_le_0_compat; [change 0%Q with (inject_Z 0); now apply (proj1 (injZ_le _ _))|]. pose proof (two_pos e); lra. Qed.
Lemma mag_two k e : 0 <= k -> (mag (2 ^ k) e == 2 ^ (k + e))%Q.
Proof. intros H. unfold mag. rewrite pow_Z by exact H. change (inject_Z 2) with 2%Q. now rewrite pow_add by lra. Qed.

Lemma injZ_nonneg a : 0 <= a -> (0 <= inject_Z a)%Q.
Proof. intros H. change 0%Q with (inject_Z 0). now apply (proj1 (injZ_le _ _)). Qed.
Lemma mag_exp m e e' : 0 <= m -> e <= e' -> (mag m e <= mag m e')%Q.
Proof.
  intros M E. unfold mag. rewrite !(Qmult_comm (inject_Z m)). apply Qmult_le_compat_r; [now apply pow2_le|now apply injZ_nonneg].
Qed.
Lemma mfin_largest F m e : format_ok F -> mfin F m e -> (mag m e <= mag (2 ^ prec F - 1) (hi F))%Q.
Proof.
  intros (P & L & H) (M & E & _). apply Qle_trans with (mag m (hi F)); [apply mag_exp; lia|]. apply mag_le. lia.
Qed.
Lemma rne_ge q n : (inject_Z n <= q)%Q -> n <= rne q.
Proof.
  intros H. destruct (rne_spec q) as [[L U] _]. destruct (Z_lt_le_dec (rne q) n) as [C|C]; [|exact C]. exfalso.
  assert (inject_Z (rne q) + 1 <= inject_Z n)%Q as G by (rewrite <- injZ_succ; apply (proj1 (injZ_le _ _)); lia). clear C. lra.
Qed.
Lemma rne_le q n : (q <= inject_Z n)%Q -> rne q <= n.
Proof.
  intros H. destruct (rne_spec q) as [[L U] _]. destruct (Z_lt_le_dec n (rne q)) as [C|C]; [|exact C]. exfalso.
  assert (inject_Z n + 1 <= inject_Z (rne q))%Q as G by (rewrite <- injZ_succ; apply (proj1 (injZ_le _ _)); lia). clear C. lra.
Qed.

(** the multiple of [2^e] next to [q], as long as it stays within the format *)
Lemma grid_near F q e : format_ok F -> lo F <= e -> (e = lo F \/ 2 ^ (prec F - 1 + e) <= q)%Q ->
  let m := rne (q / 2 ^ e) in
  forall m' e', mfin F m' e' ->
    (Qabs (mag m e - q) <= Qabs (mag m' e' - q))%Q /\
    ((Qabs (mag m' e' - q) == Qabs (mag m e - q))%Q -> (mag m' e' == mag m e)%Q \/ Z.Even m).
Proof.
  intros (P & L & H) Le Lq m m' e' (M & E & N). pose proof (two_pos e) as T.
  assert (q == (q / 2 ^ e) * 2 ^ e)%Q as Eq by (field; lra). set (x := (q / 2 ^ e)%Q) in *.
  assert (forall n : Z, (Qabs (mag n e - q) == Qabs (inject_Z n - x) * 2 ^ e)%Q) as S.
  { intros n. rewrite Eq. unfold mag. now rewrite scale. }
  destruct (Z_le_gt_dec e e') as [C|C].
  - set (n := m' * 2 ^ (e' - e)). assert (mag m' e' == mag n e)%Q as En.
    { unfold n. rewrite mag_pow by lia. now replace (e + (e' - e)) with e' by lia. }
    rewrite En, !S. destruct (rne_near x n) as [R1 R2]. fold m in R1, R2. split.
    + apply Qmult_le_compat_r; lra.
    + intros Q. assert (n = m \/ Z.Even m) as [-> |Ev]; [|left; lra|now right].
      apply R2. apply Qmult_inj_r with (2 ^ e)%Q; [lra|exact Q].
  - destruct Lq as [->|Lq]; [lia|].
    assert (mag m' e' < mag (2 ^ (prec F - 1)) e)%Q as B1.
    { apply Qlt_le_trans with (mag (2 ^ prec F) e'); [apply mag_lt; lia|]. rewrite !mag_two by lia. apply pow2_le. lia. }
    assert (mag (2 ^ (prec F - 1)) e <= q)%Q as B2 by (rewrite mag_two by lia; exact Lq).
    destruct (rne_near x (2 ^ (prec F - 1))) as [R1 _]. fold m in R1.
    assert (Qabs (mag m e - q) <= Qabs (mag (2 ^ (prec F - 1)) e - q))%Q as R by (rewrite !S; apply Qmult_le_compat_r; lra).
    set (a := mag m e) in *. set (b := mag (2 ^ (prec F - 1)) e) in *. set (c := mag m' e') in *. clearbody a b c.
    clear - R B1 B2. rewrite (Qabs_neg (b - q)) in R by lra. rewrite (Qabs_neg (c - q)) by lra. split; [lra|]. intros Q. exfalso. lra.
Qed.

Lemma pnear_zero F q : format_ok F -> (q == 0)%Q -> pnear F q 0 (lo F).
Proof.
  intros (P & L & H) E. assert (mag 0 (lo F) == 0)%Q as Z0 by (unfold mag; change (inject_Z 0) with 0%Q; ring).
  split; [repeat split; auto; try lia; apply Z.pow_pos_nonneg; lia|]. intros m' e' (M & _ & _).
  pose proof (mag_nonneg m' e' ltac:(lia)) as N. set (a := mag m' e') in *. set (b := mag 0 (lo F)) in *. clearbody a b.
  split; [qabs; lra|]. intros Q. left. revert Q. qabs; lra.
Qed.
Lemma pnear_over F q : format_ok F -> (mag (2 ^ prec F - 1) (hi F) <= q)%Q -> pnear F q (2 ^ prec F - 1) (hi F).
Proof.
  intros HF E. assert (HF' := HF). destruct HF' as (P & L & H). split.
  - assert (2 ^ prec F = 2 * 2 ^ (prec F - 1)) as D by (rewrite <- Z.pow_succ_r by lia; f_equal; lia).
    assert (0 < 2 ^ (prec F - 1)) by (apply Z.pow_pos_nonneg; lia). repeat split; auto; lia.
  - intros m' e' M. pose proof (mfin_largest F m' e' HF M) as B.
    set (a := mag m' e') in *. set (b := mag _ (hi F)) in *. clearbody a b. clear M.
    split; [qabs; lra|]. intros Q. left. revert Q. qabs; lra.
Qed.
Lemma round_near F neg q : format_ok F -> (0 <= q)%Q -> exists m e, round F neg q = Fin neg m e /\ pnear F q m e.
Proof.
  intros HF Hq. unfold round. destruct (Qle_bool q 0) eqn:Z0.
  - apply Qle_bool_iff in Z0. exists 0, (lo F). split; [reflexivity|]. apply pnear_zero; [exact HF|lra].
  - assert (0 < q)%Q as Pq by (apply Qnot_le_lt; rewrite <- Qle_bool_iff, Z0; discriminate).
    destruct (qlog_spec 2 q ltac:(lia) Pq) as [QL QU]. change (inject_Z 2) with 2%Q in QL, QU. set (l := qlog 2 q) in *.
    assert (HF' := HF). destruct HF' as (P & L & H). set (e := Z.max (lo F) (l - (prec F - 1))).
    pose proof (two_pos e) as T. assert (q == (q / 2 ^ e) * 2 ^ e)%Q as Eq by (field; lra).
    assert (2 ^ prec F = 2 * 2 ^ (prec F - 1)) as D by (rewrite <- Z.pow_succ_r by lia; f_equal; lia).
    assert (0 < 2 ^ (prec F - 1)) as D0 by (apply Z.pow_pos_nonneg; lia).
    assert (e = lo F \/ 2 ^ (prec F - 1 + e) <= q)%Q as Lq.
    { destruct (Z_le_gt_dec (l - (prec F - 1)) (lo F)) as [C|C]; [left; unfold e; lia|right].
      replace (prec F - 1 + e) with l by (unfold e; lia). exact QL. }
    assert (rne (q / 2 ^ e) <= 2 ^ prec F) as Um.
    { apply rne_le. apply Qmult_le_r with (2 ^ e)%Q; [exact T|]. rewrite <- Eq.
      change (q <= mag (2 ^ prec F) e)%Q. rewrite mag_two by lia. apply Qle_trans with (2 ^ (l + 1))%Q; [lra|]. apply pow2_le. unfold e; lia. }
    assert (e = lo F \/ 2 ^ (prec F - 1) <= rne (q / 2 ^ e)) as Lm.
    { destruct Lq as [C|C]; [now left|right]. apply rne_ge. apply Qmult_le_r with (2 ^ e)%Q; [exact T|]. rewrite <- Eq.
      change (mag (2 ^ (prec F - 1)) e <= q)%Q. rewrite mag_two by lia. exact C. }
    assert (0 <= rne (q / 2 ^ e)) as Nm.
    { apply rne_pos. apply Qmult_le_r with (2 ^ e)%Q; [exact T|]. rewrite <- Eq. lra. }
    pose proof (grid_near F q e HF ltac:(unfold e; lia) Lq) as G. cbv zeta in G. set (m := rne (q / 2 ^ e)) in *.
    assert (mag (2 ^ (prec F - 1)) (e + 1) == mag (2 ^ prec F) e)%Q as Ec by (rewrite !mag_two by lia; now replace (prec F - 1 + (e + 1)) with (prec F + e) by lia).
    destruct (rne_spec (q / 2 ^ e)) as [[R1 R2] _]. fold m in R1, R2.
    destruct (m =? 2 ^ prec F) eqn:C; unfold clamp.
    + assert (m = 2 ^ prec F) as Em by lia. destruct (hi F <? e + 1) eqn:O.
      * exists (2 ^ prec F - 1), (hi F). split; [reflexivity|]. apply pnear_over; [exact HF|].
        apply Qle_trans with (mag (2 ^ prec F - 1) e); [apply mag_exp; lia|].
        rewrite Eq. unfold mag. apply Qmult_le_compat_r; [|lra]. rewrite Em in R1.
        assert (inject_Z (2 ^ prec F - 1) + 1 == inject_Z (2 ^ prec F))%Q as S by (rewrite <- injZ_succ; now replace (2 ^ prec F - 1 + 1) with (2 ^ prec F) by lia). lra.
      * exists (2 ^ (prec F - 1)), (e + 1). split; [reflexivity|]. split; [repeat split; auto; try lia; unfold e; lia|].
        intros m' e' M. rewrite Em in G. rewrite Ec. destruct (G m' e' M) as [G1 G2]. split; [exact G1|]. intros Q.
        destruct (G2 Q) as [X|X]; [now left|right]. exists (2 ^ (prec F - 2)). rewrite <- Z.pow_succ_r by lia. f_equal. lia.
    + destruct (hi F <? e) eqn:O.
      * exists (2 ^ prec F - 1), (hi F). split; [reflexivity|]. apply pnear_over; [exact HF|]. destruct Lq as [Q|Q]; [lia|].
        apply Qle_trans with (mag (2 ^ prec F) (hi F)); [apply mag_le; lia|]. rewrite mag_two by lia.
        apply Qle_trans with (2 ^ (prec F - 1 + e))%Q; [apply pow2_le; lia|exact Q].
      * exists m, e. split; [reflexivity|]. split; [|exact G]. repeat split; auto; try lia; try (unfold e; lia).
Qed.
Lemma round_nearest F (neg : bool) q : format_ok F -> (0 <= q)%Q ->
  nearest F (if neg then - q else q) (round F neg q) /\ negative (round F neg q) = neg.
Proof.
  intros HF Hq. destruct (round_near F neg q HF Hq) as (m & e & -> & M & G). split; [|reflexivity].
  split; [exact M|]. intros [neg' m' e'| |] W; [|contradiction|contradiction]. change (mfin F m' e') in W.
  assert (mfin F 0 (lo F)) as W0. { destruct HF as (P & L & H). repeat split; auto; try lia. }
  destruct (G m' e' W) as [G1 G2], (G 0 (lo F) W0) as [Z1 Z2].
  assert (mag 0 (lo F) == 0)%Q as Z0 by (unfold mag; change (inject_Z 0) with 0%Q; ring).
  pose proof (mag_nonneg m e ltac:(destruct M; lia)) as N. pose proof (mag_nonneg m' e' ltac:(destruct W; lia)) as N'.
  cbn [worth last_bit_0]. fold (mag m e) (mag m' e'). set (a := mag m e) in *. set (b := mag m' e') in *. set (c := mag 0 (lo F)) in *. clearbody a b c.
  clear W W0 M G HF. assert (Qabs (a - q) <= q)%Q as A by (revert Z1; qabs; lra).
  destruct neg, neg'.
  - assert (Qabs (- a - - q) == Qabs (a - q))%Q as -> by (qabs; lra). assert (Qabs (- b - - q) == Qabs (b - q))%Q as -> by (qabs; lra).
    split; [exact G1|]. intros Q. destruct (G2 Q); [left; lra|now right].
  - assert (Qabs (- a - - q) == Qabs (a - q))%Q as -> by (qabs; lra). assert (Qabs (b - - q) == b + q)%Q as -> by (qabs; lra).
    split; [lra|]. intros Q. assert (b == 0)%Q as Eb by lra. destruct Z2 as [X|X]; [|left; lra|now right]. revert Q A. qabs; lra.
  - assert (Qabs (- b - q) == b + q)%Q as -> by (qabs; lra).
    split; [lra|]. intros Q. assert (b == 0)%Q as Eb by lra. destruct Z2 as [X|X]; [|left; lra|now right]. revert Q A. qabs; lra.
  - split; [exact G1|]. exact G2.
Qed.
