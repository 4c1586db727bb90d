(** Proofs about the texts written for times and sizes. *)
From Verif Require Import Base Parser SpecJson SpecNum Out Number StringS CodecLaws NumberProofs TimeSize SpecTime SpecSize TimeProofs SizeProofs SpecWrap SpecUnits.

(** ---- amounts ---- *)
Lemma amount_unique n u x y : amount n u x -> amount n u y -> x = y.
Proof.
  intros H1 H2. destruct H1 as [E1|s1 N1 H1], H2 as [E2|s2 N2 H2]; try congruence. now rewrite (numeral_unique _ _ _ H1 H2).
Qed.
Lemma clock_unique q x y : clock q x -> clock q y -> x = y.
Proof.
  intros H1 H2. destruct H1 as [d h m s xd xh xm xs E Bh Bm Bs Sg A1 A2 A3 A4]. destruct H2 as [d' h' m' s' yd yh ym ys E' Bh' Bm' Bs' Sg' A1' A2' A3' A4'].
  assert (K : d = d' /\ h = h' /\ m = m' /\ s = s') by lia. destruct K as (-> & -> & -> & ->).
  rewrite (amount_unique _ _ _ _ A1 A1'), (amount_unique _ _ _ _ A2 A2'), (amount_unique _ _ _ _ A3 A3'), (amount_unique _ _ _ _ A4 A4'). reflexivity.
Qed.
Lemma fraction_unique fr r x y : fr <> 0 -> fraction fr r x -> fraction fr r y -> x = y.
Proof.
  intros Hf H1 H2. destruct H1 as [ms us xm xu E B1 B2 A1 A2]. destruct H2 as [ms' us' ym yu E' B1' B2' A1' A2'].
  assert (T : ms * 1000 + us = ms' * 1000 + us') by (apply (Z.mul_cancel_r _ _ fr Hf); lia).
  assert (K : ms = ms' /\ us = us') by lia. destruct K as (-> & ->).
  now rewrite (amount_unique _ _ _ _ A1 A1'), (amount_unique _ _ _ _ A2 A2').
Qed.

(** ---- times ---- *)
Lemma write_if_amount t n ch : ity_ok t -> irange t n -> exists o, time_write_if t n ch = Ok o /\ amount n [ch] (flat o).
Proof.
  intros Ht Hn. unfold time_write_if. destruct (Z.eqb_spec n 0) as [->|N]; [exists []; split; [reflexivity|now constructor]|].
  destruct (int_ser_numeral t n Ht Hn) as (s & -> & Hs). cbn [bind]. eexists. split; [reflexivity|].
  change (flat [Sub (wr s); W ch]) with (flat ([Sub (wr s)] ++ [W ch])). rewrite flat_app, flat_sub, flat_wr. now constructor.
Qed.
Lemma write_pos_amount t n suf : ity_ok t -> irange t n -> 0 <= n ->
  exists o, (if 0 <? n then let* o := time_write_if t n 109 in Ok (o ++ wr suf) else Ok []) = Ok o /\ amount n (109 :: suf) (flat o).
Proof.
  intros Ht Hn Hp. destruct (0 <? n) eqn:E; [|exists []; split; [reflexivity|constructor; lia]].
  unfold time_write_if. replace (n =? 0) with false by lia. destruct (int_ser_numeral t n Ht Hn) as (s & -> & Hs). cbn [bind]. eexists. split; [reflexivity|].
  change ([Sub (wr s); W 109] ++ wr suf) with ([Sub (wr s)] ++ wr (109 :: suf)). rewrite flat_app, flat_sub, !flat_wr. constructor; [lia|exact Hs].
Qed.
(** whatever the fraction of a second gives *)
Lemma time_ser_clock t fr v o5 : ity_ok t -> irange t v -> 1 <= fr -> time_ser_tail t fr v = Ok o5 ->
  exists ops x, time_ser t fr v = Ok ops /\ flat ops = QT :: x ++ flat o5 ++ [QT] /\ clock (Z.quot v fr) x.
Proof.
  intros Ht Hv Hf E5. remember (Z.quot v fr) as q eqn:Vq.
  assert (Hq : btw (q * fr) v) by (subst q; now apply btw_quot).
  destruct (split_seconds q) as (D & H & M & S & ED & EH & EM & ES & Eq & BH & BM & BS & Sg).
  assert (EQS : hide (q = Z.quot v fr /\ D = Z.quot q 86400 /\ H = Z.quot (q - D * 86400) 3600 /\ M = Z.quot (q - H * 3600 - D * 86400) 60 /\ S = Z.rem q 60)) by (unfold hide; auto).
  clear Vq ED EH EM ES.
  assert (R : forall x, btw x q -> irange t (x * fr) /\ irange t x).
  { intros x Hx. destruct (btw_scale x q fr v Hf Hx Hq). split; now apply irange_btw with v. }
  assert (N : forall n k, 1 <= k -> btw (n * k) q -> irange t n /\ irange t (n * k)).
  { intros n k Hk Hn. destruct (R _ Hn). split; [|tauto]. apply R. now apply btw_mul with k. }
  destruct (N D 86400) as (D1 & D2); [lia|clear - Eq Sg; unfold btw; lia|]. destruct (N H 3600) as (H1 & H2); [lia|clear - Eq Sg; unfold btw; lia|].
  destruct (N M 60) as (M1 & M2); [lia|clear - Eq Sg; unfold btw; lia|]. destruct (N S 1) as (S1 & S2); [lia|clear - Eq Sg; unfold btw; lia|].
  assert (Q1 : irange t q) by (apply R; clear - Eq Sg; unfold btw; lia).
  destruct (write_if_amount t D 100 Ht D1) as (o1 & W1 & C1). destruct (write_if_amount t H 104 Ht H1) as (o2 & W2 & C2).
  destruct (write_if_amount t M 109 Ht M1) as (o3 & W3 & C3). destruct (write_if_amount t S 115 Ht S1) as (o4 & W4 & C4).
  eexists _, (flat o1 ++ flat o2 ++ flat o3 ++ flat o4). split; [|split].
  - assert (irange t (q - D * 86400) /\ irange t (q - H * 3600) /\ irange t (q - H * 3600 - D * 86400)) as (G1 & G2 & G3).
    { repeat split; apply R; clear - Eq Sg; unfold btw; lia. }
    destruct EQS as (Vq & ED & EH & EM & ES). unfold time_ser. rewrite <- Vq, (icast_id t q), <- ED, (icast_id t D) by assumption. rewrite W1. cbn [bind].
    rewrite (parith t (D * 86400)) by assumption. cbn [bind].
    rewrite (parith t (q - D * 86400)) by assumption. cbn [bind].
    rewrite <- EH, (icast_id t H), W2 by assumption. cbn [bind].
    rewrite (parith t (H * 3600)) by assumption. cbn [bind].
    rewrite (parith t (q - H * 3600)) by assumption. cbn [bind].
    rewrite (parith t (q - H * 3600 - D * 86400)) by assumption. cbn [bind].
    rewrite <- EM, (icast_id t M), W3 by assumption. cbn [bind].
    rewrite <- ES, (icast_id t S), W4 by assumption. cbn [bind]. rewrite E5. cbn [bind]. reflexivity.
  - rewrite !flat_app. change (flat [W QT]) with [QT]. cbn [app]. now rewrite <- !app_assoc.
  - apply (clk q D H M S); try assumption; clear - Eq Sg; lia.
Qed.
Lemma whole_frac t fr v : Z.rem v fr = 0 -> exists o, time_ser_tail t fr v = Ok o /\ fraction fr (Z.rem v fr) (flat o).
Proof. intros H. exists []. unfold time_ser_tail. rewrite H. split; [reflexivity|]. apply (frac _ _ 0 0 [] []); try lia; now constructor. Qed.
Lemma mks_frac t v : ity_ok t -> irange t 1000000 -> irange t v -> 0 <= v ->
  exists o, time_ser_tail t 1000000 v = Ok o /\ fraction 1000000 (Z.rem v 1000000) (flat o).
Proof.
  intros Ht Hf Hv Hp. set (R := Z.rem v 1000000). pose proof (Z.rem_bound_pos v 1000000 Hp ltac:(lia)) as HR. fold R in HR.
  assert (B : 2147483647 <= imax t).
  { unfold irange, imax in *. pose proof (half_cases t Ht). destruct (isigned t); lia. }
  assert (L : imin t <= 0) by apply (irange_0 t Ht).
  assert (I : forall x, 0 <= x <= 2147483647 -> irange t x) by (unfold irange; intros; lia).
  set (ms := R / 1000). set (mks := R mod 1000).
  assert (E : R = ms * 1000 + mks /\ 0 <= ms < 1000 /\ 0 <= mks < 1000).
  { unfold ms, mks. pose proof (Z.div_mod R 1000). pose proof (Z.mod_pos_bound R 1000). assert (R / 1000 < 1000) by (apply Z.div_lt_upper_bound; lia). pose proof (Z.div_pos R 1000). lia. }
  destruct E as (E & Bms & Bmks).
  assert (Ems : Z.quot (R * 1000) 1000000 = ms).
  { rewrite Z.quot_div_nonneg by lia. symmetry. apply Z.div_unique with (mks * 1000); lia. }
  destruct (write_pos_amount t ms [115] Ht (I ms ltac:(lia)) ltac:(lia)) as (o1 & W1 & C1).
  destruct (write_pos_amount t mks [107; 115] Ht (I mks ltac:(lia)) ltac:(lia)) as (o2 & W2 & C2).
  exists (o1 ++ o2). split; [|rewrite flat_app; apply (frac _ _ ms mks); auto; lia].
  unfold time_ser_tail. fold R. destruct (Z.eqb_spec R 0) as [R0|R0].
  { replace (0 <? ms) with false in W1 by lia. replace (0 <? mks) with false in W2 by lia. injection W1 as <-. injection W2 as <-. reflexivity. }
  rewrite (icast_id t R) by (auto; apply I; lia). rewrite (parith t (R * 1000)) by (auto; apply I; lia). cbn [bind].
  rewrite Ems, (icast_id t ms) by (auto; apply I; lia). rewrite (parith t (ms * 1000)) by (auto; apply I; lia). cbn [bind].
  replace (R - ms * 1000) with mks by lia. rewrite (parith t mks) by (auto; apply I; lia). cbn [bind].
  rewrite (icast_id t mks) by (auto; apply I; lia). rewrite (parith t (mks * 1000000)) by (auto; apply I; lia). cbn [bind].
  rewrite Z.quot_mul by lia. rewrite (icast_id t mks) by (auto; apply I; lia).
  change (wr [115]) with [W 115] in W1. change (wr [107; 115]) with [W 107; W 115] in W2. rewrite W1. cbn [bind]. rewrite W2. reflexivity.
Qed.
Lemma i64_small x : - 2 ^ 62 <= x <= 2 ^ 62 -> irange i64 x.
Proof. intros. unfold irange. change (imin i64) with (- 9223372036854775808). change (imax i64) with 9223372036854775807. lia. Qed.
Lemma ms_frac v : 0 <= v -> exists o, time_ser_tail i64 1000 v = Ok o /\ fraction 1000 (Z.rem v 1000) (flat o).
Proof.
  intros Hp. assert (Ht : ity_ok i64) by (unfold ity_ok; cbn; tauto).
  set (R := Z.rem v 1000). pose proof (Z.rem_bound_pos v 1000 Hp ltac:(lia)) as HR. fold R in HR.
  pose proof i64_small as I.
  destruct (write_pos_amount i64 R [115] Ht (I R ltac:(lia)) ltac:(lia)) as (o1 & W1 & C1).
  exists o1. split; [|rewrite <- (app_nil_r (flat o1)); apply (frac _ _ R 0); auto; try lia; now constructor].
  unfold time_ser_tail. fold R. destruct (Z.eqb_spec R 0) as [R0|R0].
  { replace (0 <? R) with false in W1 by lia. exact W1. }
  rewrite (icast_id i64 R) by (auto; apply I; lia). rewrite (parith i64 (R * 1000)) by (auto; apply I; lia). cbn [bind].
  rewrite Z.quot_mul, (icast_id i64 R) by (try lia; auto; apply I; lia). rewrite (parith i64 (R * 1000)) by (auto; apply I; lia). cbn [bind].
  rewrite (parith i64 (R - R * 1000)) by (auto; apply I; lia). cbn [bind].
  rewrite (icast_id i64 (R - R * 1000)) by (auto; apply I; lia). rewrite (parith i64 ((R - R * 1000) * 1000000)) by (auto; apply I; lia). cbn [bind].
  replace ((R - R * 1000) * 1000000) with (- 999000 * R * 1000) by ring. rewrite Z.quot_mul by lia. rewrite (icast_id i64 (- 999000 * R)) by (auto; apply I; lia).
  change (wr [115]) with [W 115] in W1. rewrite W1. cbn [bind]. replace (0 <? - 999000 * R) with false by lia. cbn [bind]. now rewrite app_nil_r.
Qed.
Theorem time_text t fr v txt : ity_ok t -> 1 <= fr -> irange t fr -> time_dom t fr v ->
  (writes (time_codec t fr) v txt <-> exists x y, clock (Z.quot v fr) x /\ fraction fr (Z.rem v fr) y /\ txt = QT :: x ++ y ++ [QT]).
Proof.
  intros Ht Hf Hr (Hv & Hd).
  assert (T : exists o, time_ser_tail t fr v = Ok o /\ fraction fr (Z.rem v fr) (flat o)).
  { destruct Hd as [H|[(-> & H)|(-> & -> & H)]]; [now apply whole_frac|now apply mks_frac|now apply ms_frac]. }
  destruct T as (o5 & E5 & F5). destruct (time_ser_clock t fr v o5 Ht Hv Hf E5) as (ops & x & E & Ef & Hx). unfold writes. cbn [ser time_codec]. split.
  - intros (ops' & E' & <-). rewrite E in E'. injection E' as <-. exists x, (flat o5). auto.
  - intros (x' & y' & Hx' & Hy' & ->). exists ops. split; [exact E|]. rewrite Ef, (clock_unique _ _ _ Hx Hx'), (fraction_unique fr _ _ _ ltac:(lia) F5 Hy'). reflexivity.
Qed.
(** below zero the fraction of microseconds is dropped ... *)
Lemma neg_mks_frac t v : ity_ok t -> irange t 1000000 -> irange t v -> v < 0 -> time_ser_tail t 1000000 v = Ok [].
Proof.
  intros Ht Hf Hv Hp. set (R := Z.rem v 1000000).
  assert (HR : - 1000000 < R <= 0) by (unfold R; Z.to_euclidean_division_equations; lia).
  assert (Sg : isigned t = true). { destruct (isigned t) eqn:E; [reflexivity|]. unfold irange, imin in Hv. rewrite E in Hv. lia. }
  assert (B : 2147483647 <= imax t /\ imin t <= - 2147483648).
  { unfold irange, imax, imin in *. rewrite Sg in *. pose proof (half_cases t Ht). lia. }
  assert (I : forall x, - 2147483647 <= x <= 2147483647 -> irange t x) by (unfold irange; intros; lia).
  unfold time_ser_tail. fold R. destruct (Z.eqb_spec R 0) as [R0|R0]; [reflexivity|].
  rewrite (icast_id t R) by (auto; apply I; lia). rewrite (parith t (R * 1000)) by (auto; apply I; lia). cbn [bind].
  set (ms := Z.quot (R * 1000) 1000000). assert (Bm : - 1000 < ms <= 0 /\ - 1000 < R - ms * 1000 <= 0) by (unfold ms; Z.to_euclidean_division_equations; lia).
  rewrite (icast_id t ms) by (auto; apply I; lia). rewrite (parith t (ms * 1000)) by (auto; apply I; lia). cbn [bind].
  set (mks := R - ms * 1000) in *. rewrite (parith t mks) by (auto; apply I; lia). cbn [bind].
  rewrite (icast_id t mks) by (auto; apply I; lia). rewrite (parith t (mks * 1000000)) by (auto; apply I; lia). cbn [bind].
  rewrite Z.quot_mul by lia. rewrite (icast_id t mks) by (auto; apply I; lia).
  replace (0 <? ms) with false by lia. replace (0 <? mks) with false by lia. reflexivity.
Qed.
Theorem time_text_neg_mks t v txt : ity_ok t -> irange t 1000000 -> irange t v -> v < 0 ->
  (writes (time_codec t 1000000) v txt <-> exists x, clock (Z.quot v 1000000) x /\ txt = QT :: x ++ [QT]).
Proof.
  intros Ht Hf Hv Hn. destruct (time_ser_clock t 1000000 v [] Ht Hv ltac:(lia) (neg_mks_frac t v Ht Hf Hv Hn)) as (ops & x & E & Ef & Hx). unfold writes. cbn [ser time_codec]. split.
  - intros (ops' & E' & <-). rewrite E in E'. injection E' as <-. exists x. auto.
  - intros (x' & Hx' & ->). exists ops. split; [exact E|]. now rewrite Ef, (clock_unique _ _ _ Hx Hx').
Qed.
(** ... while milliseconds become 999000 times as many microseconds, of the other sign *)
Lemma neg_ms_frac v : v < 0 -> Z.rem v 1000 <> 0 -> exists o s, time_ser_tail i64 1000 v = Ok o /\ numeral (- 999000 * Z.rem v 1000) s /\ flat o = s ++ text "mks".
Proof.
  intros Hp HN. assert (Ht : ity_ok i64) by (unfold ity_ok; cbn; tauto).
  set (R := Z.rem v 1000) in *. assert (HR : - 1000 < R <= 0) by (unfold R; Z.to_euclidean_division_equations; lia).
  pose proof i64_small as I. set (m := - 999000 * R).
  destruct (int_ser_numeral i64 m Ht (I m ltac:(lia))) as (s & Es & Hs).
  exists ([Sub (wr s); W 109] ++ [W 107; W 115]), s. split; [|split; [exact Hs|]].
  - unfold time_ser_tail. fold R. destruct (Z.eqb_spec R 0) as [R0|R0]; [contradiction|].
    rewrite (icast_id i64 R) by (auto; apply I; lia). rewrite (parith i64 (R * 1000)) by (auto; apply I; lia). cbn [bind].
    rewrite Z.quot_mul, (icast_id i64 R) by (try lia; auto; apply I; lia). rewrite (parith i64 (R * 1000)) by (auto; apply I; lia). cbn [bind].
    rewrite (parith i64 (R - R * 1000)) by (auto; apply I; lia). cbn [bind].
    rewrite (icast_id i64 (R - R * 1000)) by (auto; apply I; lia). rewrite (parith i64 ((R - R * 1000) * 1000000)) by (auto; apply I; lia). cbn [bind].
    replace ((R - R * 1000) * 1000000) with (m * 1000) by (unfold m; ring). rewrite Z.quot_mul by lia. rewrite (icast_id i64 m) by (auto; apply I; lia).
    replace (0 <? R) with false by lia. cbn [bind]. replace (0 <? m) with true by lia.
    unfold time_write_if. replace (m =? 0) with false by lia. rewrite Es. reflexivity.
  - change ([Sub (wr s); W 109] ++ [W 107; W 115]) with ([Sub (wr s)] ++ wr (text "mks")). now rewrite flat_app, flat_sub, !flat_wr.
Qed.
Theorem time_text_neg_ms v txt : irange i64 v -> v < 0 -> Z.rem v 1000 <> 0 ->
  (writes (time_codec i64 1000) v txt <-> exists x s, clock (Z.quot v 1000) x /\ numeral (- 999000 * Z.rem v 1000) s /\ txt = QT :: x ++ s ++ text "mks" ++ [QT]).
Proof.
  intros Hv Hn HR. assert (Ht : ity_ok i64) by (unfold ity_ok; cbn; tauto). destruct (neg_ms_frac v Hn HR) as (o & s & Eo & Hs & Fo).
  destruct (time_ser_clock i64 1000 v o Ht Hv ltac:(lia) Eo) as (ops & x & E & Ef & Hx). rewrite Fo in Ef. unfold writes. cbn [ser time_codec]. split.
  - intros (ops' & E' & <-). rewrite E in E'. injection E' as <-. exists x, s. rewrite Ef, <- app_assoc. auto.
  - intros (x' & s' & Hx' & Hs' & ->). exists ops. split; [exact E|]. rewrite Ef, (clock_unique _ _ _ Hx Hx'), (numeral_unique _ _ _ Hs Hs'), <- app_assoc. reflexivity.
Qed.
Lemma amount_comps n u x : amount n (unit_text u) x -> comps (opt n u) x.
Proof. intros [->|s N Hs]; [constructor|]. unfold opt. replace (n =? 0) with false by lia. apply comps_one. now apply numeral_jint. Qed.
Lemma weight_app fr l1 l2 : weight fr (l1 ++ l2) = weight fr l1 + weight fr l2.
Proof. induction l1 as [|(n & u) l1 IH]; cbn [app weight]; lia. Qed.
Lemma weight_opt fr n u : weight fr (opt n u) = unit_weight fr n u.
Proof. unfold opt. destruct (Z.eqb_spec n 0) as [->|H]; cbn [weight]; [destruct u; cbn; lia|lia]. Qed.
Lemma clock_comps q x fr : clock q x -> exists l, comps l x /\ ticks fr l = q * fr /\ weight fr l = Z.abs q * fr.
Proof.
  intros [d h m s xd xh xm xs E Bh Bm Bs Sg A1 A2 A3 A4]. exists (opt d Day ++ opt h Hour ++ opt m Minute ++ opt s Second). split; [|split].
  - repeat apply comps_app; now apply amount_comps.
  - rewrite !ticks_app, !ticks_opt. cbn [unit_ticks]. subst q. ring.
  - rewrite !weight_app, !weight_opt. cbn [unit_weight].
    replace (Z.abs q) with (Z.abs d * 86400 + Z.abs h * 3600 + Z.abs m * 60 + Z.abs s) by lia. ring.
Qed.
(** a negative number of milliseconds is read back as another *)
Theorem neg_ms_read v txt sn old r e : - 2 ^ 62 <= v < 0 -> Z.rem v 1000 <> 0 -> no_err_yet e = true -> writes (time_codec i64 1000) v txt ->
  des (time_codec i64 1000) sn old (txt ++ r) e = Ok (v - 1000 * Z.rem v 1000, r, e).
Proof.
  intros Hv HR He Hw. assert (Ht : ity_ok i64) by (unfold ity_ok; cbn; tauto).
  apply time_text_neg_ms in Hw; [|apply i64_small; lia|lia|exact HR]. destruct Hw as (x & s & Hx & Hs & ->).
  destruct (clock_comps _ x 1000 Hx) as (l & Hl & Tl & Wl). set (R := Z.rem v 1000) in *.
  assert (BR : - 1000 < R < 0) by (unfold R in *; Z.to_euclidean_division_equations; lia).
  assert (EQ : v = Z.quot v 1000 * 1000 + R) by (unfold R; Z.to_euclidean_division_equations; lia).
  pose proof (comps_app _ _ _ _ Hl (comps_one (- 999000 * R) Microsecond s (numeral_jint _ _ Hs))) as HC. cbn [unit_text] in HC.
  replace ((QT :: x ++ s ++ text "mks" ++ [QT]) ++ r) with (QT :: (x ++ s ++ text "mks") ++ QT :: r) by (cbn [app]; rewrite <- !app_assoc; reflexivity).
  cbn [des time_codec]. rewrite (time_read i64 1000 _ _ sn old r e Ht HC).
  - rewrite ticks_app, Tl. cbn [ticks unit_ticks]. replace (- 999000 * R * 1000) with (- 999 * R * 1000000) by ring. rewrite Z.quot_mul by lia. do 2 f_equal. f_equal. lia.
  - apply weight_sok; [exact Ht|lia|left; reflexivity|left; reflexivity|]. rewrite weight_app, Wl. cbn [weight unit_weight]. change (imax i64) with 9223372036854775807. lia.
  - exact He.
Qed.

(** ---- sizes ---- *)
Definition usable (t : ity) (metric bytes : Z) (x : Z * Z * buf) : bool :=
  let '(base, ex, _) := x in (ex <=? isize t / 2) && (if negb (bytes =? 0) then Z.rem bytes (base ^ ex) =? 0 else metric =? base ^ ex).
Lemma size_try_first t metric bytes l : size_conv t bytes = bytes -> irange i64 bytes -> Forall entry_ok l ->
  (exists l1 base ex u l2 ops n s, l = l1 ++ (base, ex, u) :: l2 /\ Forall (fun x => usable t metric bytes x = false) l1 /\ usable t metric bytes (base, ex, u) = true /\
    size_try t metric l bytes = Ok (Some ops) /\ flat ops = QT :: s ++ u ++ [QT] /\ numeral n s /\ n * base ^ ex = bytes) \/
  (size_try t metric l bytes = Ok None /\ Forall (fun x => usable t metric bytes x = false) l).
Proof.
  intros Hc Hb. induction 1 as [|[[base ex] ch] l (Hu & Hm) Hl IH]; [right; split; [reflexivity|constructor]|].
  destruct (usable t metric bytes (base, ex, ch)) eqn:Ub; cbn [usable] in Ub.
  - left. apply andb_prop in Ub. destruct Ub as (Ux & Ur). exists [], base, ex, ch, l. set (p := base ^ ex) in *.
    pose proof (Z.quot_rem bytes p ltac:(lia)) as Q.
    assert (R0 : Z.rem bytes p = 0) by (destruct (Z.eqb_spec bytes 0) as [->|]; cbn [negb] in Ur; [apply Z.rem_0_l; lia|now apply Z.eqb_eq]).
    rewrite R0, Z.add_0_r in Q. set (n := Z.quot bytes p) in *.
    assert (Hn : irange i64 n) by (apply i64_range; apply (proj1 (i64_range _)) in Hb; apply (quot_range p n bytes); [lia|exact Q|exact Hb|lia]).
    destruct (int_ser_numeral i64 n i64_ok Hn) as (s & Es & Hs). exists ([W QT; Sub (wr s)] ++ wr ch ++ [W QT]), n, s.
    split; [reflexivity|]. split; [constructor|]. split; [cbn [usable]; fold p; now rewrite Ux, Ur|]. split; [|split; [|split; [exact Hs|lia]]].
    + cbn [size_try]. unfold size_write_if. rewrite Ux. cbn [negb]. rewrite Hc. fold p. rewrite Ur. fold n. rewrite (icast_id i64 n i64_ok Hn), Es. reflexivity.
    + change ([W QT; Sub (wr s)] ++ wr ch ++ [W QT]) with ([W QT] ++ [Sub (wr s)] ++ wr ch ++ [W QT]).
      rewrite !flat_app, flat_sub, !flat_wr. change (flat [W QT]) with [QT]. reflexivity.
  - assert (E : size_write_if t metric base ex bytes ch = Ok None).
    { unfold size_write_if. destruct (ex <=? isize t / 2); [|reflexivity]. cbn [negb andb] in *. rewrite Hc. now rewrite Ub. }
    cbn [size_try]. rewrite E. cbn [bind]. destruct IH as [(l1 & b & k & u & l2 & ops & n & s & El & H1 & H)|(H1 & H2)].
    + left. exists ((base, ex, ch) :: l1), b, k, u, l2, ops, n, s. split; [now rewrite El|]. split; [constructor; assumption|exact H].
    + right. split; [exact H1|]. constructor; assumption.
Qed.
Lemma usable_fits t metric v base k u : ity_ok t -> In (base, k, u) size_names ->
  usable t metric (v * metric) (base, k, u) = true <-> fitting (isize t) metric v base k.
Proof.
  intros Ht Hi. assert (P : 1000 <= base ^ k).
  { cbn [size_names In] in Hi. repeat (destruct Hi as [Hi|Hi]; [injection Hi as <- <- <-; vm_compute; discriminate|]). contradiction. }
  unfold usable, fitting. rewrite andb_true_iff. destruct (Z.eqb_spec (v * metric) 0) as [E|E]; cbn [negb].
  - rewrite E. split; [intros (A & B); split; [Z.to_euclidean_division_equations; lia|split; [contradiction|lia]]|].
    intros (A & B & C). split; [Z.to_euclidean_division_equations; lia|specialize (C eq_refl); lia].
  - split.
    + intros (A & B). split; [Z.to_euclidean_division_equations; lia|split; [|contradiction]]. intros _. apply Z.eqb_eq, Z.rem_divide in B; [exact B|lia].
    + intros (A & B & C). split; [Z.to_euclidean_division_equations; lia|]. apply Z.eqb_eq, Z.rem_divide; [lia|]. now apply B.
Qed.
Definition ranked (metric : Z) (l : list (Z * Z * buf)) : Prop := forall l1 b k u l2, l = l1 ++ (b, k, u) :: l2 ->
  In (b, k, u) size_names /\ forall b' k' u', In (b', k', u') size_names -> In (b', k', u') l1 \/ k' < k \/ k' = k /\ (b' = b \/ preferred metric b).
Ltac rank Hp := let l1 := fresh "l1" in let b := fresh "b" in let k := fresh "k" in let u := fresh "u" in let l2 := fresh "l2" in let E := fresh "E" in
  intros l1 b k u l2 E; do 8 (destruct l1 as [|? l1]; [injection E as <- <- <- <-; split; [cbn [size_names In]; tauto|];
    intros b' k' u' Hi; cbn [size_names In] in Hi; repeat (destruct Hi as [Hi|Hi]; [injection Hi as <- <- <-; first [right; left; lia|right; right; split; [reflexivity|first [left; reflexivity|right; exact Hp]]|left; cbn [In]; tauto]|]); contradiction
   |injection E as <- E]); destruct l1; discriminate E.
Lemma dec_ranked metric : preferred metric 1000 -> ranked metric size_dec.
Proof. intros Hp. unfold ranked, size_dec. rank Hp. Qed.
Lemma bin_ranked metric : preferred metric 1024 -> ranked metric size_bin.
Proof. intros Hp. unfold ranked, size_bin. rank Hp. Qed.
Lemma names_in x l : l = size_dec \/ l = size_bin -> In x size_names -> In x l.
Proof. intros [-> | ->] H; cbn [size_names size_dec size_bin In] in *; tauto. Qed.
Lemma name_unique b k u u' : In (b, k, u) size_names -> In (b, k, u') size_names -> u = u'.
Proof.
  intros H1 H2. cbn [size_names In] in H1. repeat (destruct H1 as [H1|H1]; [injection H1 as <- <- <-; cbn [size_names In] in H2; repeat (destruct H2 as [H2|H2]; [try discriminate H2; now injection H2|]); contradiction|]). contradiction.
Qed.
Lemma preferred_one metric b b' : preferred metric b -> preferred metric b' -> b = b'.
Proof. unfold preferred. destruct (_ || _); congruence. Qed.
Lemma names_pos b k u : In (b, k, u) size_names -> 0 < b ^ k.
Proof. intros H. cbn [size_names In] in H. repeat (destruct H as [H|H]; [injection H as <- <- <-; reflexivity|]). contradiction. Qed.
Lemma size_text_unique w metric v x y : size_text w metric v x -> size_text w metric v y -> x = y.
Proof.
  intros [b k u n s Hi Hf Hm En Hs|s Hn Hs] [b' k' u' n' s' Hi' Hf' Hm' En' Hs'|s' Hn' Hs'].
  - pose proof (Hm _ _ _ Hi' Hf') as A. pose proof (Hm' _ _ _ Hi Hf) as B.
    assert (k' = k) as -> by lia. assert (b' = b) as ->.
    { destruct A as [A|(_ & [A|A])]; [lia|exact A|]. destruct B as [B|(_ & [B|B])]; [lia|now symmetry|]. eapply preferred_one; eassumption. }
    pose proof (names_pos _ _ _ Hi). assert (n' = n) as -> by (apply (Z.mul_cancel_r _ _ (b ^ k)); lia).
    now rewrite (name_unique _ _ _ _ Hi Hi'), (numeral_unique _ _ _ Hs Hs').
  - exfalso. now apply (Hn' b k u).
  - exfalso. now apply (Hn b' k' u').
  - exact (numeral_unique _ _ _ Hs Hs').
Qed.
Theorem size_writes_text t metric v txt : ity_ok t -> 1 <= metric -> irange i64 metric -> size_dom t metric v ->
  (writes (size_codec t metric) v txt <-> size_text (isize t) metric v txt).
Proof.
  intros Ht Hk Hk64 (Hv & Hb).
  assert (Hv64 : irange i64 v) by (apply i64_range; apply (proj1 (i64_range _)) in Hb; apply (quot_range metric v (v * metric)); [lia|ring|exact Hb|lia]).
  assert (Hc : size_conv t (v * metric) = v * metric).
  { unfold size_conv. destruct (isize t =? 8); [|reflexivity]. destruct (isigned t) eqn:Es; [reflexivity|]. cbn [andb negb].
    unfold irange, imin in Hv. rewrite Es in Hv. apply (proj1 (i64_range _)) in Hb. apply Z.mod_small. change (imod i64) with 18446744073709551616.
    assert (0 <= v * metric) by (apply Z.mul_nonneg_nonneg; lia). lia. }
  assert (G : forall l, (l = size_dec \/ l = size_bin) -> ranked metric l -> Forall entry_ok l ->
    exists ops, (let* w := size_try t metric l (v * metric) in match w with Some o => Ok o | None => int_ser t v end) = Ok ops /\ size_text (isize t) metric v (flat ops)).
  { intros l Hl Hr He. destruct (size_try_first t metric (v * metric) l Hc Hb He) as [(l1 & b & k & u & l2 & ops & n & s & El & H1 & Hu & -> & Ef & Hs & En)|(-> & Hn)]; cbn [bind].
    - exists ops. split; [reflexivity|]. rewrite Ef. destruct (Hr _ _ _ _ _ El) as (Hi & Hm). apply sx_unit with b k n; auto.
      + now apply (usable_fits t metric v b k u).
      + intros b' k' u' Hi' Hf'. destruct (Hm b' k' u' Hi') as [Hin|Hin]; [|exact Hin]. exfalso. rewrite Forall_forall in H1. specialize (H1 _ Hin).
        apply (usable_fits t metric v b' k' u') in Hf'; auto. congruence.
    - destruct (int_ser_numeral t v Ht Hv) as (s & -> & Hs). exists (wr s). split; [reflexivity|]. rewrite flat_wr. apply sx_plain; [|exact Hs].
      intros b k u Hi Hf. rewrite Forall_forall in Hn. specialize (Hn _ (names_in _ l Hl Hi)). apply (usable_fits t metric v b k u) in Hf; auto. congruence. }
  assert (G' : exists ops, size_ser t metric v = Ok ops /\ size_text (isize t) metric v (flat ops)).
  { unfold size_ser. rewrite !(icast_id i64) by auto using i64_ok. rewrite (iarith_ok i64) by auto using i64_ok. cbn [bind].
    assert (EP : (Z.rem metric 10 =? 0) || (metric =? 1) = (metric =? 1) || (metric mod 10 =? 0)) by (rewrite Z.rem_mod_nonneg by lia; apply orb_comm).
    destruct ((Z.rem metric 10 =? 0) || (metric =? 1)) eqn:Ed.
    - apply G; [now left|apply dec_ranked; unfold preferred; now rewrite <- EP|apply dec_ok].
    - apply G; [now right|apply bin_ranked; unfold preferred; now rewrite <- EP|apply bin_ok]. }
  destruct G' as (ops & E & Hx). unfold writes. cbn [ser size_codec]. split.
  - intros (ops' & E' & <-). rewrite E in E'. injection E' as <-. exact Hx.
  - intros H. exists ops. split; [exact E|]. eapply size_text_unique; eassumption.
Qed.
(** too many bytes for an int64_t *)
Theorem size_overflow t metric v : irange i64 v -> irange i64 metric -> ~ irange i64 (v * metric) -> ser (size_codec t metric) v = UB.
Proof.
  intros Hv Hm Hb. cbn [ser size_codec]. unfold size_ser. rewrite !(icast_id i64) by auto using i64_ok.
  unfold iarith. change (isigned i64) with true. cbv iota. destruct (irangeb i64 (v * metric)) eqn:E; [|reflexivity]. exfalso. apply Hb. unfold irangeb in E. unfold irange. lia.
Qed.
