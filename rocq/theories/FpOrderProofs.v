(** Proofs about Fp.v: rounding keeps the order, and how far it goes. *)
From Coq Require Import QArith Qabs Qround Qpower Lqa.
From Verif Require Import Base Parser SpecJson SpecNum SpecMisc Fp SpecFp FpProofs FpTextProofs FpWriteProofs FpSciProofs.
Open Scope Z_scope.

Lemma zero_finite F neg : format_ok F -> finite F (Fin neg 0 (lo F)).
Proof. intros (P & L & H). assert (0 < 2 ^ prec F) by (apply Z.pow_pos_nonneg; lia). repeat split; auto; lia. Qed.
Lemma zero_worth F neg : (worth (Fin neg 0 (lo F)) == 0)%Q.
Proof. destruct neg; cbn [worth]; change (inject_Z 0) with 0%Q; ring. Qed.
Lemma nearest_zero F q v neg : format_ok F -> nearest F q v -> (worth v == 0)%Q -> nearest F q (Fin neg 0 (lo F)).
Proof.
  intros HF [Fv N] W. split; [now apply zero_finite|]. intros w Hw. rewrite zero_worth, <- W. split; [apply N; exact Hw|].
  intros _. right. now exists 0.
Qed.
Lemma nearest_worth F q v w : format_ok F -> nearest F q v -> nearest F q w -> (worth v == worth w)%Q.
Proof.
  intros HF Nv Nw. destruct (Bool.bool_dec (negative v) (negative w)) as [E|E]; [now rewrite (nearest_unique F q v w HF Nv Nw E)|].
  assert (forall a b, nearest F q a -> nearest F q b -> negative a = false -> negative b = true -> (worth a == worth b)%Q) as K.
  { clear v w Nv Nw E. intros a b Na Nb Sa Sb.
    assert (0 <= worth a)%Q as Pa. { destruct Na as [Fa _]. destruct a as [n m e| |]; try contradiction. cbn in Sa. subst n. apply mag_nonneg. apply Fa. }
    assert (worth b <= 0)%Q as Pb. { destruct Nb as [Fb _]. destruct b as [n m e| |]; try contradiction. cbn in Sb. subst n. pose proof (mag_nonneg m e (proj1 (proj1 Fb))). unfold mag in *. cbn [worth]. lra. }
    destruct (proj2 Na b (proj1 Nb)) as [A _]. destruct (proj2 Nb a (proj1 Na)) as [B _].
    destruct (proj2 Na _ (zero_finite F false HF)) as [C _]. rewrite zero_worth in C. destruct (proj2 Nb _ (zero_finite F false HF)) as [D _]. rewrite zero_worth in D.
    assert (worth a == 0 \/ worth b == 0)%Q as [Z|Z].
    { destruct (Qlt_le_dec 0 (worth a)) as [Ga|Ga]; [right|left; lra]. set (y := worth a) in *. set (x := worth b) in *. clearbody x y. clear - A B C D Ga Pb. revert A B C D. qabs; lra. }
    - pose proof (nearest_zero F q a true HF Na Z) as N0. rewrite (nearest_unique F q b _ HF Nb N0 Sb). rewrite zero_worth. exact Z.
    - pose proof (nearest_zero F q b false HF Nb Z) as N0. rewrite (nearest_unique F q a _ HF Na N0 Sa). rewrite zero_worth. now symmetry. }
  destruct (negative v) eqn:Sv, (negative w) eqn:Sw; try congruence; [symmetry|]; now apply K.
Qed.
Lemma nearest_mono F q q' v v' : format_ok F -> nearest F q v -> nearest F q' v' -> (q <= q')%Q -> (worth v <= worth v')%Q.
Proof.
  intros HF N N' H. destruct (Qlt_le_dec (worth v') (worth v)) as [C|C]; [exfalso|exact C].
  destruct (proj2 N v' (proj1 N')) as [A _]. destruct (proj2 N' v (proj1 N)) as [B _].
  assert (q' == q)%Q as E. { set (y := worth v) in *. set (x := worth v') in *. clearbody x y. clear - A B C H. revert A B. qabs; lra. }
  pose proof (nearest_worth F q v v' HF N (nearest_comp F q' q v' E N')). lra.
Qed.

Lemma decimals_mono R x x' q q' : to_decimals R x q -> to_decimals R x' q' -> (x <= x')%Q -> (q <= q')%Q.
Proof.
  intros (n & E & B & T) (n' & E' & B' & T') H. assert (0 < / 10 ^ R)%Q as P by (apply Qinv_lt_0_compat, ten_pos). set (h := (/ 10 ^ R)%Q) in *. clearbody h.
  destruct (Qlt_le_dec q' q) as [C|C]; [exfalso|exact C].
  assert (n' < n) as L. { apply injZ_lt. apply Qmult_lt_r with h; [exact P|]. now rewrite <- E, <- E'. }
  assert (q' + h <= q)%Q as G.
  { rewrite E, E'. assert (inject_Z n' + 1 <= inject_Z n)%Q as I by (rewrite <- injZ_succ; apply (injZ_le (n' + 1) n); lia).
    apply (Qmult_le_compat_r _ _ h) in I; [|lra]. lra. }
  assert (Qabs (q - x) == (1 # 2) * h /\ Qabs (q' - x') == (1 # 2) * h /\ q' + h == q)%Q as (T1 & T2 & T3).
  { clear T T' E E'. revert B B'. qabs; lra. }
  specialize (T T1). specialize (T' T2). assert (n = n' + 1) as ->; [|apply Z.even_spec in T, T'; rewrite Z.even_add, T' in T; discriminate].
  apply Z.le_antisymm; [|lia]. apply injZ_le. rewrite injZ_succ. apply Qmult_le_r with h; [exact P|]. rewrite <- E, <- T3, E'. lra.
Qed.
Lemma seven_neg x q : to_seven x q -> to_seven (- x) (- q).
Proof.
  intros [[A B]|(n & k & A & B & C & D & E)]; [left; split; lra|]. right. exists (- n), k. rewrite Qabs_opp.
  assert (Qabs (- q - - x) == Qabs (q - x))%Q as Q1 by (qabs; lra). rewrite Q1. split; [exact A|]. split; [exact B|].
  split; [rewrite C, inject_Z_opp; ring|]. split; [exact D|]. intros H. specialize (E H). destruct E as [j ->]. exists (- j). lia.
Qed.
Lemma seven_cases x q : to_seven x q -> (0 < x)%Q -> exists n k, (10 ^ (k + 6) <= x)%Q /\ (x < 10 ^ (k + 7))%Q /\ (q == inject_Z n * 10 ^ k)%Q /\
  (Qabs (q - x) <= (1 # 2) * 10 ^ k)%Q /\ ((Qabs (q - x) == (1 # 2) * 10 ^ k)%Q -> Z.Even n) /\ 10 ^ 6 <= n <= 10 ^ 7.
Proof.
  intros [[A _]|(n & k & A & B & C & D & E)] P; [lra|]. rewrite Qabs_pos in A, B by lra. exists n, k. repeat (split; [assumption|]).
  pose proof (ten_pos k) as T. rewrite pow10_add in A, B. change (10 ^ 6)%Q with (inject_Z (10 ^ 6)) in A. change (10 ^ 7)%Q with (inject_Z (10 ^ 7)) in B.
  set (h := (10 ^ k)%Q) in *. clearbody h.
  assert (inject_Z (10 ^ 6) * h - (1 # 2) * h <= inject_Z n * h /\ inject_Z n * h < inject_Z (10 ^ 7) * h + (1 # 2) * h)%Q as [L U].
  { rewrite <- C. clear E C. revert D. qabs; lra. }
  split.
  - assert (10 ^ 6 - 1 < n); [|lia]. apply injZ_lt. apply Qmult_lt_r with h; [exact T|]. unfold Z.sub. rewrite inject_Z_plus. change (inject_Z (- (1))) with (-1)%Q. lra.
  - assert (n < 10 ^ 7 + 1); [|lia]. apply injZ_lt. apply Qmult_lt_r with h; [exact T|]. rewrite injZ_succ. lra.
Qed.
Lemma seven_mono_pos x x' q q' : to_seven x q -> to_seven x' q' -> (0 < x)%Q -> (x <= x')%Q -> (q <= q')%Q.
Proof.
  intros S S' P H. destruct (seven_cases x q S P) as (n & k & A & B & E & D & T & [Nl Nu]). destruct (seven_cases x' q' S' ltac:(lra)) as (n' & k' & A' & B' & E' & D' & T' & [Nl' Nu']).
  destruct (Z_lt_ge_dec k k') as [L|G].
  - assert (10 ^ (k + 7) <= 10 ^ (k' + 6))%Q as M by (apply pow10_le; lia). rewrite !pow10_add in M.
    pose proof (ten_pos k). pose proof (ten_pos k'). apply injZ_le in Nu, Nl'. rewrite E, E'.
    apply Qle_trans with (inject_Z (10 ^ 7) * 10 ^ k)%Q; [apply Qmult_le_compat_r; lra|]. apply Qle_trans with (inject_Z (10 ^ 6) * 10 ^ k')%Q; [|apply Qmult_le_compat_r; lra].
    change (10 ^ 7)%Q with (inject_Z (10 ^ 7)) in M. change (10 ^ 6)%Q with (inject_Z (10 ^ 6)) in M. lra.
  - assert (k = k') as <-. { assert (k + 6 < k' + 7); [|lia]. apply pow10_lt_inv. lra. }
    apply (decimals_mono (- k) x x'); [| |exact H]; eexists; rewrite Qpower_opp, Qinv_involutive; eauto.
Qed.
Lemma seven_sign x q : to_seven x q -> (0 <= x)%Q -> (0 <= q)%Q.
Proof.
  intros S P. destruct (Qlt_le_dec 0 x) as [L|G].
  - destruct (seven_cases x q S L) as (n & k & _ & _ & E & _ & _ & [N _]). rewrite E. apply Qmult_le_0_compat; [apply injZ_nonneg; lia|apply Qlt_le_weak, ten_pos].
  - destruct S as [[_ ->]|(n & k & A & _)]; [lra|]. exfalso. pose proof (ten_pos (k + 6)). revert A. qabs; lra.
Qed.
Lemma seven_mono x x' q q' : to_seven x q -> to_seven x' q' -> (x <= x')%Q -> (q <= q')%Q.
Proof.
  intros S S' H. destruct (Qlt_le_dec 0 x) as [L|G]; [now apply (seven_mono_pos x x')|].
  assert (q <= 0)%Q as Q0. { pose proof (seven_sign _ _ (seven_neg _ _ S) ltac:(lra)). lra. }
  destruct (Qlt_le_dec x' 0) as [L'|G']; [|pose proof (seven_sign _ _ S' G'); lra].
  pose proof (seven_mono_pos (- x') (- x) (- q') (- q) (seven_neg _ _ S') (seven_neg _ _ S) ltac:(lra) ltac:(lra)). lra.
Qed.

(** half of the last bit *)
Lemma nearest_error F q v : format_ok F -> nearest F q v -> (Qabs q <= worth (largest F false))%Q ->
  (Qabs (worth v - q) <= (1 # 2) * 2 ^ lo F \/ Qabs (worth v - q) <= Qabs q * / 2 ^ prec F)%Q.
Proof.
  intros HF [Fv N] B. destruct (close_value F (Qabs q) HF (Qabs_nonneg q) B) as (m & e & s & M & D & S).
  assert (exists neg, q == signed neg (Qabs q))%Q as [neg E].
  { destruct (Qlt_le_dec q 0) as [L|L]; [exists true|exists false]; cbn [signed]; qabs; lra. }
  destruct (N (Fin neg m e) M) as [A _]. rewrite worth_signed in A.
  assert (Qabs (signed neg (mag m e) - q) == Qabs (mag m e - Qabs q))%Q as X.
  { rewrite E at 1. destruct neg; cbn [signed]; [|reflexivity]. rewrite <- Qabs_opp. apply Qabs_wd. ring. }
  rewrite X in A. destruct S as [-> |S]; [left; lra|right]. apply Qle_trans with ((1 # 2) * 2 ^ s)%Q; [lra|].
  replace (prec F - 1 + s) with (s - 1 + prec F) in S by lia. rewrite pow_add in S by lra.
  apply Qle_shift_div_l; [apply two_pos|]. replace s with (1 + (s - 1)) at 1 by lia. rewrite pow_add by lra. change (2 ^ 1)%Q with 2%Q. lra.
Qed.
