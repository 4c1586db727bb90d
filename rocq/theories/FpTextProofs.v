(** Proofs about Fp.v: reading and writing decimal texts. *)
From Coq Require Import QArith Qabs Qround Qpower Lqa.
From Verif Require Import Base Parser SpecJson SpecNum SpecMisc Fp SpecFp FpProofs.
Open Scope Z_scope.

Lemma number_of_dval d : number_of d = dval d.
Proof.
  unfold number_of, dval. generalize 0. induction d as [|c d IH]; intros a; [reflexivity|]. cbn [fold_left]. rewrite IH. f_equal. lia.
Qed.
Lemma dval_from d a : fold_left (fun a c => a * 10 + (c - 48)) d a = a * 10 ^ Z.of_nat (length d) + dval d.
Proof.
  unfold dval. revert a. induction d as [|c d IH]; intros a; cbn [fold_left length].
  - cbn. lia.
  - rewrite IH, (IH (0 * 10 + (c - 48))). rewrite Nat2Z.inj_succ, Z.pow_succ_r by lia. ring.
Qed.
Lemma dval_app a b : dval (a ++ b) = dval a * 10 ^ Z.of_nat (length b) + dval b.
Proof. unfold dval at 1. rewrite fold_left_app. rewrite dval_from. reflexivity. Qed.
Lemma dval_bounds d : digits d -> 0 <= dval d < 10 ^ Z.of_nat (length d).
Proof.
  induction d as [|c d IH] using rev_ind; intros H; [cbn; lia|]. apply Forall_app in H as [H1 H2]. inversion H2 as [|? ? Hc _]; subst.
  specialize (IH H1). rewrite dval_app, app_length. cbn [length]. rewrite Nat2Z.inj_add, Z.pow_add_r by lia. unfold s_digit in Hc.
  change (Z.of_nat 1) with 1. rewrite Z.pow_1_r. change (dval [c]) with (0 * 10 + (c - 48)). lia.
Qed.

Lemma is_digit_s c : is_digit c = true <-> s_digit c.
Proof. unfold is_digit, s_digit. lia. Qed.
Lemma run_app d r : digits d -> match r with [] => True | c :: _ => ~ s_digit c end -> run (d ++ r) = (d, r).
Proof.
  intros Hd Hr. induction Hd as [|c d Hc _ IH]; cbn [app run].
  - destruct r as [|c r]; [reflexivity|]. cbn [run]. destruct (is_digit c) eqn:E; [|reflexivity]. apply is_digit_s in E. contradiction.
  - rewrite (proj2 (is_digit_s c) Hc), IH. reflexivity.
Qed.

(** ---- reading ---- *)
Definition q_of (i f x : buf) : Q :=
  (inject_Z (dval (i ++ tl f)) * 10 ^ (exponent x - Z.of_nat (length (tl f))))%Q.
Definition is_minus (m : buf) : bool := match m with [] => false | _ => true end.

Lemma nondigit_head d : s_digit d -> d <> 45 /\ d <> 46 /\ d <> 43 /\ d <> 101 /\ d <> 69.
Proof. unfold s_digit. lia. Qed.
Lemma lead_minus_text m i t : ropt_minus m -> digits1 i -> lead_minus (m ++ i ++ t) = (is_minus m, i ++ t).
Proof.
  intros Hm [Ni Hi]. destruct Hm; [|reflexivity]. destruct i as [|c i]; [congruence|]. inversion Hi as [|? ? Hc _]; subst.
  apply nondigit_head in Hc. cbn [app is_minus lead_minus]. replace (c =? 45) with false by lia. reflexivity.
Qed.
Definition no_digit (r : buf) : Prop := match r with [] => True | c :: _ => ~ s_digit c end.
Lemma point_text f t : rfrac f -> no_digit t -> match t with [] => True | c :: _ => c <> DOT end -> point (f ++ t) = (tl f, t).
Proof.
  intros Hf Nt Dt. destruct Hf as [|ds [_ Hd]].
  - cbn [app tl]. destruct t as [|c t]; [reflexivity|]. cbn [point]. replace (c =? 46) with false by lia. reflexivity.
  - cbn [app tl point]. change (46 =? 46) with true. cbv iota. now apply run_app.
Qed.
Lemma exponent_text c sg ds : sg = [] \/ sg = [MINUS] \/ sg = [PLUS] -> digits1 ds ->
  exponent (c :: sg ++ ds) = if match sg with [45] => true | _ => false end then - dval ds else dval ds.
Proof.
  intros [->|[-> | ->]] [N H]; [|reflexivity|reflexivity]. destruct ds as [|d ds]; [congruence|]. inversion H as [|? ? Hd _]; subst.
  unfold s_digit in Hd. cbn [app exponent]. assert (In d [48; 49; 50; 51; 52; 53; 54; 55; 56; 57]) as I by (cbn [In]; lia). cbn [In] in I.
  repeat (destruct I as [<-|I]; [reflexivity|]). contradiction.
Qed.
Lemma power_text x r : rexp x -> follow r -> power (x ++ r) = Some (exponent x).
Proof.
  intros Hx Hr. destruct Hx as [|c sg ds Hc Hsg Hd].
  - cbn [app exponent]. destruct r as [|c r]; [reflexivity|]. destruct Hr as (_ & _ & D1 & D2). cbn [power].
    replace (c =? 101) with false by lia. replace (c =? 69) with false by lia. reflexivity.
  - rewrite exponent_text by auto. destruct Hd as [Nd Hd]. cbn [app power]. replace ((c =? 101) || (c =? 69)) with true by lia.
    rewrite <- app_assoc.
    assert (exp_sign (sg ++ ds ++ r) = (match sg with [45] => true | _ => false end, ds ++ r)) as ->.
    { destruct Hsg as [->|[-> | ->]]; [|reflexivity|reflexivity]. destruct ds as [|d ds]; [congruence|]. inversion Hd as [|? ? H0 _]; subst.
      apply nondigit_head in H0. cbn [app exp_sign]. replace (d =? 45) with false by lia. replace (d =? 43) with false by lia. reflexivity. }
    rewrite run_app; [|exact Hd|destruct r; [exact I|apply Hr]]. rewrite number_of_dval. destruct ds; [congruence|]. reflexivity.
Qed.
Lemma get_text F m i f x r : ropt_minus m -> digits1 i -> rfrac f -> rexp x -> follow r ->
  get F (m ++ i ++ f ++ x ++ r) = round F (is_minus m) (q_of i f x).
Proof.
  intros Hm Hi Hf Hx Hr. unfold get, q_of. rewrite lead_minus_text by auto.
  assert (no_digit (x ++ r)) as Nx.
  { destruct Hx as [|c sg ds Hc]; [destruct r; [exact I|apply Hr]|]. cbn [app no_digit]. unfold s_digit. lia. }
  rewrite run_app; [|apply Hi|].
  2: { destruct Hf; [exact Nx|]. cbn [app]. unfold s_digit. lia. }
  rewrite point_text; [|exact Hf|exact Nx|].
  2: { destruct Hx as [|c sg ds Hc]; [destruct r; [exact I|apply Hr]|]. cbn [app]. lia. }
  rewrite power_text by auto. destruct Hi as [Ni _]. destruct i as [|c i]; [congruence|]. cbn [app]. now rewrite number_of_dval.
Qed.
Lemma q_of_value i f x : digits i -> rfrac f ->
  (0 <= q_of i f x)%Q /\ (q_of i f x == (inject_Z (dval i) + fraction f) * 10 ^ exponent x)%Q.
Proof.
  intros Hi Hf. unfold q_of. split.
  - apply Qmult_le_0_compat; [|pose proof (ten_pos (exponent x - Z.of_nat (length (tl f)))); lra].
    apply injZ_nonneg. apply dval_bounds. apply Forall_app. split; [exact Hi|]. destruct Hf as [|ds [_ H]]; [constructor|exact H].
  - assert (0 < 10 ^ Z.of_nat (length (tl f)))%Q as T by apply ten_pos.
    assert (10 ^ exponent x == 10 ^ (exponent x - Z.of_nat (length (tl f))) * 10 ^ Z.of_nat (length (tl f)))%Q as ->.
    { rewrite <- pow_add by lra. now replace (exponent x - Z.of_nat (length (tl f)) + Z.of_nat (length (tl f))) with (exponent x) by lia. }
    rewrite dval_app, inject_Z_plus, inject_Z_mult, pow_Z by lia. change (inject_Z 10) with 10%Q.
    destruct Hf as [|ds _]; cbn [tl length fraction] in *.
    + change (Z.of_nat 0) with 0. rewrite Qpower_0_r. change (dval []) with 0. change (inject_Z 0) with 0%Q. ring.
    + field. intros E. rewrite E in T. lra.
Qed.
(** a text denotes one number *)
Definition pieces (s : buf) : bool * buf * buf * option Z :=
  let '(neg, s1) := lead_minus s in let '(i, s2) := run s1 in let '(f, s3) := point s2 in (neg, i, f, power s3).
Lemma pieces_text m i f x : ropt_minus m -> digits1 i -> rfrac f -> rexp x ->
  pieces (m ++ i ++ f ++ x) = (is_minus m, i, tl f, Some (exponent x)).
Proof.
  intros Hm Hi Hf Hx. unfold pieces. rewrite lead_minus_text by auto.
  assert (no_digit x) as Nx by (destruct Hx as [|c sg ds Hc]; [exact I|]; cbn [no_digit]; unfold s_digit; lia).
  rewrite run_app; [|apply Hi|].
  2: { destruct Hf; [exact Nx|]. cbn [app]. unfold s_digit. lia. }
  rewrite point_text; [|exact Hf|exact Nx|].
  2: { destruct Hx as [|c sg ds Hc]; [exact I|]. lia. }
  pose proof (power_text x [] Hx I) as P. rewrite app_nil_r in P. now rewrite P.
Qed.
Lemma denotes_fun t q q' : denotes t q -> denotes t q' -> (q == q')%Q.
Proof.
  intros D D'. destruct D as [m i f x Hm Hi Hf Hx]. remember (m ++ i ++ f ++ x) as t eqn:Et. destruct D' as [m' i' f' x' Hm' Hi' Hf' Hx'].
  pose proof (pieces_text m i f x Hm Hi Hf Hx) as P. pose proof (pieces_text m' i' f' x' Hm' Hi' Hf' Hx') as P'.
  rewrite <- Et, P' in P. injection P as Em Ei Ef Ex.
  assert (minus_sign m' = minus_sign m) as -> by (destruct Hm, Hm'; (reflexivity || discriminate)).
  destruct (q_of_value i f x (proj2 Hi) Hf) as [_ A]. destruct (q_of_value i' f' x' (proj2 Hi') Hf') as [_ A'].
  assert (q_of i f x = q_of i' f' x') as Q by (unfold q_of; now rewrite Ei, Ef, Ex).
  rewrite <- !Qmult_assoc, <- A, <- A', Q. reflexivity.
Qed.
Lemma nearest_comp F q q' v : (q == q')%Q -> nearest F q v -> nearest F q' v.
Proof.
  intros E [H G]. split; [exact H|]. intros w W. destruct (G w W) as [G1 G2]. rewrite E in G1, G2. now split.
Qed.
Lemma denotes_get F t q : format_ok F -> denotes t q -> forall r, follow r ->
  exists q0, (0 <= q0)%Q /\ get F (t ++ r) = round F (minus_first t) q0 /\
    ((if minus_first t then - q0 else q0) == q)%Q.
Proof.
  intros HF [m i f x Hm Hi Hf Hx] r Hr. destruct (q_of_value i f x) as [P E]; [apply Hi|exact Hf|].
  exists (q_of i f x). split; [exact P|]. rewrite <- !app_assoc. rewrite get_text by auto.
  assert (minus_first (m ++ i ++ f ++ x) = is_minus m) as ->.
  { destruct Hm; [|reflexivity]. destruct Hi as [Ni Hi]. destruct i as [|d i]; [congruence|]. inversion Hi as [|? ? Hd _]; subst. unfold s_digit in Hd. cbn [app is_minus minus_first].
    assert (In d [48; 49; 50; 51; 52; 53; 54; 55; 56; 57]) as I by (cbn [In]; lia). cbn [In] in I.
    repeat (destruct I as [<-|I]; [reflexivity|]). contradiction. }
  split; [reflexivity|]. destruct Hm; cbn [is_minus minus_sign]; rewrite E; ring.
Qed.
Lemma sfloat_denotes t : sfloat t <-> exists q, denotes t q.
Proof. split; [intros []; eexists; constructor; auto|intros [q []]; constructor; auto]. Qed.
Lemma get_law F : format_ok F -> scan_law (get F) (get F).
Proof.
  intros HF t r Ht Hr. destruct Ht as [m i f x Hm Hi Hf Hx]. rewrite <- !app_assoc. rewrite get_text by auto.
  rewrite <- (app_nil_r x) at 2. now rewrite get_text.
Qed.

(** ---- writing digits ---- *)
Lemma digs_length w n : length (digs w n) = w.
Proof. revert n. induction w as [|w IH]; intros n; [reflexivity|]. cbn [digs]. rewrite app_length, IH. cbn. lia. Qed.
Lemma digs_digits w n : digits (digs w n).
Proof.
  revert n. induction w as [|w IH]; intros n; [constructor|]. cbn [digs]. apply Forall_app. split; [apply IH|].
  constructor; [|constructor]. unfold s_digit. pose proof (Z.mod_pos_bound n 10). lia.
Qed.
Lemma digs_dval w n : dval (digs w n) = n mod 10 ^ Z.of_nat w.
Proof.
  revert n. induction w as [|w IH]; intros n; [cbn; now rewrite Z.mod_1_r|]. cbn [digs]. rewrite dval_app, IH.
  change (Z.of_nat (length [48 + n mod 10])) with 1. rewrite Z.pow_1_r. change (dval [48 + n mod 10]) with (0 * 10 + (48 + n mod 10 - 48)).
  rewrite Nat2Z.inj_succ, Z.pow_succ_r by lia. rewrite Z.rem_mul_r by (try apply Z.pow_nonzero; lia). lia.
Qed.
Lemma plain_dval n : 0 <= n -> dval (plain n) = n.
Proof.
  intros H. unfold plain. rewrite digs_dval. destruct (Z.eq_dec n 0) as [->|N]; [reflexivity|].
  destruct (ilog_spec 10 n ltac:(lia) ltac:(lia)) as (P & L & U). rewrite Z.mod_small; [reflexivity|].
  rewrite Nat2Z.inj_succ, Z2Nat.id by exact P. lia.
Qed.
Lemma digs_head w n : exists d, digs (S w) n = d :: digs w (n mod 10 ^ Z.of_nat w) /\ d = 48 + n / 10 ^ Z.of_nat w mod 10.
Proof.
  revert n. induction w as [|w IH]; intros n.
  - exists (48 + n mod 10). change (10 ^ Z.of_nat 0) with 1. rewrite Z.div_1_r. split; reflexivity.
  - destruct (IH (n / 10)) as (d & E & Ed). exists d. split.
    + change (digs (S (S w)) n) with (digs (S w) (n / 10) ++ [48 + n mod 10]). rewrite E. cbn [app digs].
      rewrite Nat2Z.inj_succ, Z.pow_succ_r by lia. do 2 f_equal.
      * f_equal. rewrite Z.rem_mul_r by (try apply Z.pow_nonzero; lia). rewrite (Z.mul_comm 10), Z.div_add by lia. rewrite (Z.div_small (n mod 10)) by (apply Z.mod_pos_bound; lia). reflexivity.
      * do 2 f_equal. rewrite Z.rem_mul_r by (try apply Z.pow_nonzero; lia). rewrite (Z.mul_comm 10), Z_mod_plus_full. now rewrite Z.mod_mod by lia.
    + rewrite Ed. rewrite Nat2Z.inj_succ, Z.pow_succ_r by lia. rewrite Z.div_div; [reflexivity|lia|]. apply Z.pow_pos_nonneg; lia.
Qed.
Lemma plain_rint n : 0 <= n -> rint (plain n).
Proof.
  intros H. destruct (Z.eq_dec n 0) as [->|N]; [constructor|]. unfold plain.
  destruct (ilog_spec 10 n ltac:(lia) ltac:(lia)) as (P & L & U). destruct (digs_head (Z.to_nat (ilog 10 n)) n) as (d & -> & ->).
  rewrite Z2Nat.id by exact P. constructor; [|apply digs_digits].
  assert (0 < 10 ^ ilog 10 n) as T by (apply Z.pow_pos_nonneg; lia).
  rewrite Z.pow_add_r, Z.pow_1_r in U by lia. assert (1 <= n / 10 ^ ilog 10 n < 10) as B.
  { split; [apply Z.div_le_lower_bound; lia|]. apply Z.div_lt_upper_bound; lia. }
  rewrite Z.mod_small by lia. lia.
Qed.
Lemma plain_length n k : 0 <= n < 10 ^ Z.of_nat k -> (1 <= k)%nat -> (length (plain n) <= k)%nat.
Proof.
  intros H K. unfold plain. rewrite digs_length. destruct (Z.eq_dec n 0) as [->|N]; [cbn; lia|].
  destruct (ilog_spec 10 n ltac:(lia) ltac:(lia)) as (P & L & U).
  assert (ilog 10 n < Z.of_nat k) by (apply (Z.pow_lt_mono_r_iff 10); lia). lia.
Qed.
