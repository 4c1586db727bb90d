(** Proofs about size_value. *)
From Verif Require Import Base Parser SpecJson SpecNum ParserFacts Grammar1 Grammar2 Out Number StringS CodecLaws NumberProofs StringProofs WrapProofs
  TimeSize SpecTime TimeProofs SpecSize.

Lemma i64_ok : ity_ok i64. Proof. unfold ity_ok. cbn. tauto. Qed.
Lemma i64_range x : irange i64 x <-> - 9223372036854775808 <= x <= 9223372036854775807.
Proof. unfold irange. change (imin i64) with (- 9223372036854775808). change (imax i64) with 9223372036854775807. tauto. Qed.
Lemma i64_dom x : int_dom i64 x <-> - 9223372036854775808 < x <= 9223372036854775807.
Proof.
  unfold int_dom, wraps. rewrite i64_range. change (imin i64) with (- 9223372036854775808). cbn [isize isigned i64].
  split; [intros (H & [[K|K]|K]); [lia|discriminate|lia]|intros; split; [lia|right; lia]].
Qed.

(** ---- reading plain strings ---- *)
Definition plain (x : buf) : Prop := Forall (fun c => 32 <= c < 127 /\ c <> QT /\ c <> BSL) x.
Lemma plain_dchunks x : plain x -> dchunks x x.
Proof.
  induction 1 as [|c x Hc _ IH]; [constructor|]. change (c :: x) with ([c] ++ x). constructor; [|exact IH].
  apply dchunk_raw; lia.
Qed.
Lemma plain_chars x r sn old e : plain x -> (length x <= 32)%nat ->
  chars_des 32 sn old (QT :: x ++ QT :: r) e = Ok (x ++ repeat 0 (32 - length x), r, e).
Proof.
  intros Hx Hl. unfold chars_des. change (is_null (QT :: x ++ QT :: r)) with false. cbv iota.
  replace (QT :: x ++ QT :: r) with ((QT :: x ++ [QT]) ++ r) by (cbn [app]; now rewrite <- app_assoc).
  rewrite (dchunks_unser x x r (Z.of_nat 32) e) by (auto using plain_dchunks; unfold dist; lia). cbn [bind].
  destruct (Nat.ltb_spec 32 (length x)); [lia|]. reflexivity.
Qed.
Lemma strlen_fill x k : ~ In 0 x -> (0 < k)%nat -> strlen (x ++ repeat 0 k) = Ok x.
Proof.
  intros Hx Hk. induction x as [|c x IH]; [destruct k; [lia|reflexivity]|]. cbn [app strlen].
  destruct (Z.eqb_spec c 0) as [->|Hc]; [exfalso; apply Hx; now left|]. rewrite IH by (intro; apply Hx; now right). reflexivity.
Qed.
Lemma plain_nz x : plain x -> ~ In 0 x.
Proof. intros H K. unfold plain in H. rewrite Forall_forall in H. apply H in K. lia. Qed.
Lemma jint_plain n s : jint n s -> plain s.
Proof.
  intros [i Hi|i Hi]; apply rint_digits in Hi; [|constructor; [lia|]]; (eapply Forall_impl; [|exact Hi]); unfold s_digit; cbn; intros; lia.
Qed.

Lemma units_cases u m : In (u, m) size_units ->
  1 <= m <= 1099511627776 /\ plain u /\ (length u <= 3)%nat /\
  exists c1 q1, u = c1 :: q1 /\ ~ s_digit c1 /\ size_mult c1 (match q1 with c :: _ => c | [] => 0 end) = Some m.
Proof.
  unfold size_units. cbn [In]. intros H.
  repeat (destruct H as [H|H]; [injection H as <- <-|]); [..|contradiction];
    (split; [lia|]; split; [repeat constructor; lia|]; split; [cbn; lia|]);
    (eexists _, _; split; [reflexivity|split; [unfold s_digit; lia|vm_compute; reflexivity]]).
Qed.

Theorem size_read t metric n s u m sn old r e : jint n s -> In (u, m) size_units -> dist s + dist u < 32 ->
  int_dom i64 n -> irange i64 (n * m) -> irange i64 metric -> no_err_yet e = true ->
  size_des t metric sn old (QT :: (s ++ u) ++ QT :: r) e = Ok (icast t (Z.quot (n * m) metric), r, e).
Proof.
  intros Hj Hu Hl Hn Hm Hk He. destruct (units_cases u m Hu) as (_ & Pu & _ & c1 & q1 & Eu & Nd & Em).
  assert (Hp : plain (s ++ u)) by (apply Forall_app; split; [now apply jint_plain with n|exact Pu]).
  assert (L : (length (s ++ u) < 32)%nat) by (rewrite app_length; unfold dist in Hl; lia).
  unfold size_des. set (s0 := QT :: (s ++ u) ++ QT :: r).
  change (is_null s0) with false. change (is_number s0) with false. change (is_string s0) with true. cbn [negb]. unfold s0.
  rewrite plain_chars by (auto; lia). cbn [bind]. unfold has_err. rewrite He. cbn [negb].
  rewrite strlen_fill by (auto using plain_nz; lia). cbn [bind].
  rewrite (int_des_in_range i64 (Some 0) 0 n s u e i64_ok Hn Hj) by (right; right; rewrite Eu; exact Nd). cbn [bind].
  rewrite He. cbn [negb]. rewrite Eu at 1. rewrite Em. rewrite (iarith_ok i64) by (auto using i64_ok). cbn [bind].
  now rewrite (icast_id i64 metric) by auto using i64_ok.
Qed.
(** no suffix: the number is not divided by the metric *)
Theorem size_read_plain t metric n s sn old r e : jint n s -> dist s < 32 -> int_dom i64 n -> no_err_yet e = true ->
  size_des t metric sn old (QT :: s ++ QT :: r) e = Ok (icast t n, r, e).
Proof.
  intros Hj Hl Hn He. pose proof (jint_plain n s Hj) as Hp. assert (L : (length s < 32)%nat) by (unfold dist in Hl; lia).
  unfold size_des. set (s0 := QT :: s ++ QT :: r).
  change (is_null s0) with false. change (is_number s0) with false. change (is_string s0) with true. cbn [negb]. unfold s0.
  rewrite plain_chars by (auto; lia). cbn [bind]. unfold has_err. rewrite He. cbn [negb].
  rewrite strlen_fill by (auto using plain_nz; lia). cbn [bind]. rewrite <- (app_nil_r s) at 1.
  rewrite (int_des_in_range i64 (Some 0) 0 n s [] e i64_ok Hn Hj) by (right; right; exact I). cbn [bind].
  rewrite He. reflexivity.
Qed.

(** ---- writing ---- *)
Lemma rint_short i k : rint i -> dval i < 10 ^ k -> 1 <= k -> dist i <= k.
Proof.
  intros Hi Hk H1. destruct Hi as [|d ds Hd Hds]; [rewrite dist_cons, dist_nil; lia|]. rewrite dist_cons.
  change (dacc (0 * 10 + (d - 48)) ds < 10 ^ k) in Hk. pose proof (dacc_pow ds Hds (0 * 10 + (d - 48))) as (K & _).
  assert (10 ^ dist ds < 10 ^ k) as P. { assert (0 < 10 ^ dist ds) by (apply Z.pow_pos_nonneg; [lia|apply dist_pos]). nia. }
  apply Z.pow_lt_mono_r_iff in P; lia.
Qed.
Lemma numeral_short n s k : numeral n s -> Z.abs n < 10 ^ k -> 1 <= k -> dist s <= k + 1.
Proof.
  intros Hn Ha Hk. destruct Hn as [i Hi|i Hi Hp].
  - pose proof (rint_nonneg i Hi). pose proof (rint_short i k Hi ltac:(lia) Hk). lia.
  - rewrite dist_cons. pose proof (rint_short i k Hi ltac:(lia) Hk). lia.
Qed.

Definition entry_ok (x : Z * Z * buf) : Prop :=
  let '(base, ex, ch) := x in In (ch, base ^ ex) size_units /\ 1000 <= base ^ ex.
Lemma dec_ok : Forall entry_ok size_dec.
Proof. repeat (constructor; [split; [vm_compute; tauto|vm_compute; discriminate]|]). constructor. Qed.
Lemma bin_ok : Forall entry_ok size_bin.
Proof. repeat (constructor; [split; [vm_compute; tauto|vm_compute; discriminate]|]). constructor. Qed.

Lemma quot_range p n b lo hi : 1 <= p -> b = p * n -> lo <= b <= hi -> lo <= 0 <= hi -> lo <= n <= hi.
Proof. intros Hp -> Hb H0. destruct (Z_le_gt_dec 0 n); nia. Qed.
Definition sized (bytes : Z) (ops : list op) : Prop :=
  exists n s u m, flat ops = QT :: (s ++ u) ++ [QT] /\ numeral n s /\ In (u, m) size_units /\ 1000 <= m /\ n * m = bytes.
Lemma size_try_spec t metric bytes l : size_conv t bytes = bytes -> irange i64 bytes -> Forall entry_ok l ->
  (exists ops, size_try t metric l bytes = Ok (Some ops) /\ sized bytes ops) \/
  (size_try t metric l bytes = Ok None /\
   (bytes <> 0 -> Forall (fun x => let '(base, ex, _) := x in ex <= isize t / 2 -> Z.rem bytes (base ^ ex) <> 0) l)).
Proof.
  intros Hc Hb. induction 1 as [|[[base ex] ch] l (Hu & Hm) Hl IH]; [right; split; [reflexivity|constructor]|].
  cbn [size_try]. unfold size_write_if. destruct (ex <=? isize t / 2) eqn:Ex; cbn [negb].
  - rewrite Hc. destruct (if negb (bytes =? 0) then Z.rem bytes (base ^ ex) =? 0 else metric =? base ^ ex) eqn:Er.
    + left. set (p := base ^ ex) in *. pose proof (Z.quot_rem bytes p ltac:(lia)) as Q.
      assert (R0 : Z.rem bytes p = 0) by (destruct (Z.eqb_spec bytes 0) as [->|]; cbn [negb] in Er; [apply Z.rem_0_l; lia|now apply Z.eqb_eq]).
      set (n := Z.quot bytes p) in *.
      rewrite R0, Z.add_0_r in Q. clearbody n.
      assert (Hn : irange i64 n) by (apply i64_range; apply (proj1 (i64_range _)) in Hb; apply (quot_range p n bytes); [lia|exact Q|exact Hb|lia]).
      rewrite (icast_id i64 n i64_ok Hn). destruct (int_ser_numeral i64 n i64_ok Hn) as (s & -> & Hs). cbn [bind].
      eexists. split; [reflexivity|]. exists n, s, ch, p. split; [|split; [exact Hs|split; [exact Hu|split; [exact Hm|lia]]]].
      change ([W QT; Sub (wr s)] ++ wr ch ++ [W QT]) with ([W QT] ++ [Sub (wr s)] ++ wr ch ++ [W QT]).
      rewrite !flat_app, flat_sub, !flat_wr. change (flat [W QT]) with [QT]. cbn [app]. now rewrite <- app_assoc.
    + cbn [bind]. destruct IH as [IH|(IH1 & IH2)]; [now left|]. right. split; [exact IH1|]. intros H0. constructor; [|now apply IH2].
      intros _ K. rewrite K in Er. destruct (Z.eqb_spec bytes 0); [contradiction|discriminate].
  - cbn [bind]. destruct IH as [IH|(IH1 & IH2)]; [now left|]. right. split; [exact IH1|]. intros H0. constructor; [|now apply IH2]. intros; lia.
Qed.

(** the byte count fits in 63 bits *)
Definition size_dom (t : ity) (metric v : Z) : Prop := irange t v /\ irange i64 (v * metric).

Lemma min_div t v : ity_ok t -> 2 <= isize t -> irange t v -> v = imin t -> isigned t = true -> exists k, v = k * 1024.
Proof.
  intros Ht H2 Hv -> E. unfold imin. rewrite E. destruct (half_cases t Ht) as [H|[H|[H|H]]]; destruct H as (A & B & C); rewrite C; [lia|..].
  - exists (-32). reflexivity.
  - exists (-2097152). reflexivity.
  - exists (-9007199254740992). reflexivity.
Qed.

Lemma size_ser_gen t metric v : ity_ok t -> 2 <= isize t -> 1 <= metric -> irange i64 metric -> size_dom t metric v ->
  exists ops, size_ser t metric v = Ok ops /\ (sized (v * metric) ops \/ exists s, ops = wr s /\ numeral v s /\ int_dom t v).
Proof.
  intros Ht H2 Hk Hk64 (Hv & Hb). unfold size_ser.
  assert (Hv64 : irange i64 v) by (apply i64_range; apply (proj1 (i64_range _)) in Hb; apply (quot_range metric v (v * metric)); [lia|ring|exact Hb|lia]).
  rewrite !(icast_id i64) by auto using i64_ok. rewrite (iarith_ok i64) by auto using i64_ok. cbn [bind].
  assert (Hc : size_conv t (v * metric) = v * metric).
  { unfold size_conv. destruct (isize t =? 8); [|reflexivity]. destruct (isigned t) eqn:Es; [reflexivity|]. cbn [andb negb].
    unfold irange, imin in Hv. rewrite Es in Hv. apply (proj1 (i64_range _)) in Hb. apply Z.mod_small. change (imod i64) with 18446744073709551616.
    assert (0 <= v * metric) by (apply Z.mul_nonneg_nonneg; lia). lia. }
  assert (G : forall l, Forall entry_ok l -> In (1024, 1, text "KiB") l ->
    exists ops, (let* w := size_try t metric l (v * metric) in match w with Some o => Ok o | None => int_ser t v end) = Ok ops /\
     (sized (v * metric) ops \/ exists s, ops = wr s /\ numeral v s /\ int_dom t v)).
  { intros l Hl Hi. destruct (size_try_spec t metric (v * metric) l Hc Hb Hl) as [(ops & -> & Hs)|(-> & Hn)].
    - exists ops. cbn [bind]. auto.
    - cbn [bind]. destruct (int_ser_numeral t v Ht Hv) as (s & -> & Hs). exists (wr s). split; [reflexivity|]. right. exists s.
      split; [reflexivity|]. split; [exact Hs|]. split; [exact Hv|].
      destruct (isigned t) eqn:Es; [|left; now right]. right. intros Em.
      destruct (min_div t v Ht H2 Hv Em Es) as (k & Ek).
      assert (v <> 0) by (rewrite Em; unfold imin; rewrite Es; pose proof (half_cases t Ht); lia).
      specialize (Hn ltac:(nia)). rewrite Forall_forall in Hn. specialize (Hn _ Hi). cbn beta iota in Hn. apply Hn.
      + assert (2 / 2 <= isize t / 2) by (apply Z.div_le_mono; lia). exact H0.
      + change (1024 ^ 1) with 1024. replace (v * metric) with (k * metric * 1024) by (rewrite Ek; ring). apply Z.rem_mul. lia. }
  destruct (_ || _); apply G; [apply dec_ok|cbn [In size_dec]; auto 12|apply bin_ok|cbn [In size_bin]; auto 12].
Qed.

Theorem size_rt t metric : ity_ok t -> 2 <= isize t -> 1 <= metric -> irange i64 metric ->
  rt (size_codec t metric) (size_dom t metric).
Proof.
  intros Ht H2 Hk Hk64 v Hv. destruct (size_ser_gen t metric v Ht H2 Hk Hk64 Hv) as (ops & E & H). exists ops. split; [exact E|].
  destruct Hv as (Hv & Hb). destruct H as [(n & s & u & m & Ef & Hn & Hu & Hm & Eb)|(s & -> & Hs & Hd)].
  - rewrite Ef. split; [exists QT, ((s ++ u) ++ [QT]); split; [reflexivity|unfold vstart; lia]|].
    intros sn old r e _ He. cbn [des size_codec].
    replace ((QT :: (s ++ u) ++ [QT]) ++ r) with (QT :: (s ++ u) ++ QT :: r) by (cbn [app]; now rewrite <- !app_assoc).
    assert (An : Z.abs n < 10 ^ 19).
    { apply (proj1 (i64_range _)) in Hb. change (10 ^ 19) with 10000000000000000000. nia. }
    pose proof (numeral_short n s 19 Hn An ltac:(lia)) as Ls. destruct (units_cases u m Hu) as (_ & _ & Lu & _).
    rewrite (size_read t metric n s u m).
    + rewrite Eb, Z.quot_mul by lia. now rewrite icast_id.
    + now apply numeral_jint.
    + exact Hu.
    + unfold dist in *. lia.
    + apply i64_dom. apply (proj1 (i64_range _)) in Hb. nia.
    + rewrite Eb. exact Hb.
    + exact Hk64.
    + exact He.
  - rewrite flat_wr. destruct (jint_head v s (numeral_jint v s Hs)) as (c & y & Es & Hc).
    split; [exists c, y; split; [exact Es|unfold vstart; tauto]|].
    intros sn old r e Hr He. cbn [des size_codec]. rewrite Es. cbn [app]. unfold size_des.
    assert (N1 : is_null (c :: y ++ r) = false) by (apply is_null_digit; exact Hc).
    assert (N2 : is_number (c :: y ++ r) = true) by (cbn; unfold is_digit; unfold s_digit in Hc; lia).
    rewrite N1, N2. change (c :: y ++ r) with ((c :: y) ++ r). rewrite <- Es.
    apply int_des_in_range; auto; [now apply numeral_jint|]. right. right. now apply follow_nodigit.
Qed.
Theorem size_jout t metric : ity_ok t -> 2 <= isize t -> 1 <= metric -> irange i64 metric ->
  jout (size_codec t metric) (size_dom t metric).
Proof.
  intros Ht H2 Hk Hk64 v Hv. destruct (size_ser_gen t metric v Ht H2 Hk Hk64 Hv) as (ops & E & H). exists ops. split; [exact E|].
  destruct H as [(n & s & u & m & Ef & Hn & Hu & Hm & Eb)|(s & -> & Hs & Hd)].
  - rewrite Ef. apply rv_str, rstr, rchars_ascii. apply Forall_app. split; [apply jint_plain with n; now apply numeral_jint|]. now destruct (units_cases u m Hu).
  - rewrite flat_wr. apply rv_num. now apply numeral_rnumber with v.
Qed.

(** ---- laws, memory safety ---- *)
Lemma unser_len s n k b r e1 : 0 <= n -> str_unser s n (Some k) = Ok (b, r, e1) -> has_err e1 = false -> dist b + dist r + 1 <= dist s.
Proof.
  intros Hn. unfold str_unser. destruct s as [|c t]; [cerr_case|].
  destruct (negb (c =? QT)); [cerr_case|].
  pose proof (str_loop_good (S (length t)) t n (Some k) [] ltac:(lia) Hn) as G.
  pose proof (str_loop_len (S (length t)) t n (Some k) []) as K. pose proof (str_loop_inr (S (length t)) t n k []) as KI.
  destruct (str_loop (S (length t)) t n (Some k) []) as [[[[r1 e2] out]|[e2 out]]| |]; cbn [bind]; try discriminate.
  - specialize (K _ _ _ eq_refl). rewrite dist_nil in K. rewrite dist_cons. destruct G as (_ & G & _). apply estep_some in G. destruct G as (j & ->). destruct r1 as [|d t1].
    + cerr_case.
    + destruct (negb (d =? QT)); [cerr_case|]. intros [= <- <- <-] _. rewrite dist_cons in K. lia.
  - intros [= <- <- <-] Hh. specialize (KI _ _ Hn eq_refl). congruence.
Qed.
Lemma strlen_le w k txt : strlen (w ++ repeat 0 k) = Ok txt -> dist txt <= dist w.
Proof.
  revert txt. induction w as [|c w IH]; intros txt H.
  - cbn [app] in H. destruct k; [discriminate|]. cbn in H. injection H as <-. rewrite dist_nil. lia.
  - cbn [app strlen] in H. pose proof (dist_pos w). destruct (c =? 0); [injection H as <-; rewrite dist_nil, dist_cons; lia|].
    destruct (strlen (w ++ repeat 0 k)) as [l| |]; cbn [bind] in H; [|discriminate|discriminate]. injection H as <-. rewrite !dist_cons.
    specialize (IH l eq_refl). lia.
Qed.
Lemma strlen_total b : match strlen b with Ok l => In 0 b | UB => ~ In 0 b | Fuel => False end.
Proof.
  induction b as [|c b IH]; [cbn; tauto|]. cbn [strlen]. destruct (Z.eqb_spec c 0) as [->|Hc]; [now left|].
  destruct (strlen b) as [l| |]; cbn [bind]; [now right| |exact IH]. intros [K|K]; [congruence|tauto].
Qed.
Theorem size_dlaw t metric : dlaw (size_des t metric).
Proof.
  intros sn old s e. unfold size_des. destruct s as [|c s0]; [apply dgood_err; [discriminate|cbn; lia]|].
  destruct (is_null (c :: s0)) eqn:En; [apply (dgood_pair (c :: s0) e parse_null (fun _ => 0)); apply null_good|].
  destruct (is_number (c :: s0)); [apply int_dlaw|]. set (s := c :: s0) in *. pose proof (dist_pos s).
  destruct (negb (is_string s)); [apply dgood_err; [discriminate|lia]|].
  apply dgood_bind; [apply (chars_dlaw 32)|]. intros b r e1 Hr He Ec. destruct (has_err e1) eqn:Eh; [now split|].
  assert (L : forall txt, strlen b = Ok txt -> e = None \/ dist txt <= dist s).
  { intros txt Et. destruct e as [k|]; [|now left]. right. unfold chars_des in Ec. rewrite En in Ec.
    destruct (str_unser s (Z.of_nat 32) (Some k)) as [[[w r1] e2]| |] eqn:Eu; cbn [bind] in Ec; [|discriminate|discriminate].
    destruct (Nat.ltb_spec 32 (length w)); [discriminate|]. unfold chars_fill in Ec. injection Ec as <- <- <-.
    apply unser_len in Eu; [|lia|exact Eh]. apply strlen_le in Et. pose proof (dist_pos r1). lia. }
  pose proof (strlen_total b) as T. destruct (strlen b) as [txt| |]; cbn [bind]; [|exact I|exact T]. clear T. specialize (L txt eq_refl).
  pose proof (int_dlaw i64 (Some 0) 0 txt e1) as G. destruct (int_des i64 (Some 0) 0 txt e1) as [[[val q] e2]| |]; cbn [bind]; [|exact I|exact G].
  destruct G as (_ & G).
  assert (He2 : estep s e e2).
  { destruct G as [->|(k & j & -> & G1 & -> & G2 & G3)]; [exact He|]. destruct L as [->|L].
    - destruct He as [He|(k' & _ & He & _)]; discriminate.
    - eapply estep_trans; [exact He|]. right. exists k, j. repeat split; auto; lia. }
  destruct (has_err e2); [now split|]. destruct q as [|ch1 q1]; [now split|].
  destruct (size_mult _ _) as [m|].
  - unfold iarith. destruct (isigned i64); [destruct (irangeb i64 (val * m)); [|exact I]|]; cbn [bind]; now split.
  - split; [apply suffix_nil|]. eapply estep_trans; [exact He2|]. apply estep_cerr; [discriminate|lia].
Qed.

(** the 32-byte buffer is overrun exactly if the decoded text fills it *)
Theorem size_overrun t metric sn old s e b r e1 : chars_des 32 sn [] s e = Ok (b, r, e1) -> is_string s = true ->
  has_err e1 = false -> ~ In 0 b -> size_des t metric sn old s e = UB.
Proof.
  intros Ec Hs Hh Hz. apply starts_inv in Hs. destruct Hs as (s0 & ->). unfold size_des.
  change (is_null (QT :: s0)) with false. change (is_number (QT :: s0)) with false. change (is_string (QT :: s0)) with true. cbn [negb].
  rewrite Ec. cbn [bind]. rewrite Hh. pose proof (strlen_total b) as T. destruct (strlen b); [contradiction|reflexivity|contradiction].
Qed.
Lemma int_des_small txt e : (forall n p q, txt = p ++ q -> jint n p -> Z.abs n < 8388608) ->
  exists v q e2, int_des i64 (Some 0) 0 txt e = Ok (v, q, e2) /\ Z.abs v < 8388608.
Proof.
  intros H. destruct (is_null txt) eqn:En.
  { unfold int_des. rewrite En. destruct (parse_null txt e) as [r e']. do 3 eexists. split; [reflexivity|lia]. }
  assert (D : forall z p q, txt = p ++ q -> jint z p -> (p = [48] \/ p = [MINUS; 48] \/ nodigit q) ->
     exists v q e2, int_des i64 (Some 0) 0 txt e = Ok (v, q, e2) /\ Z.abs v < 8388608).
  { intros z p q E Hz Hq. pose proof (H z p q E Hz) as Hb. exists z, q, e. split; [|exact Hb]. rewrite E.
    apply int_des_in_range; auto using i64_ok. apply i64_dom. lia. }
  destruct txt as [|c t0]; [do 3 eexists; split; [reflexivity|lia]|].
  destruct (Z.eqb_spec c MINUS) as [->|Hc].
  - destruct t0 as [|d t1]; [do 3 eexists; split; [reflexivity|lia]|].
    destruct (is_digit d) eqn:Ed.
    2:{ unfold int_des. rewrite En. unfold unserialize_integer. change (MINUS =? MINUS) with true. cbv iota. rewrite Ed. do 3 eexists. split; [reflexivity|lia]. }
    destruct (Z.eqb_spec d 48) as [->|Hd]; [apply (D (- dval [48]) [MINUS; 48] t1); [reflexivity|constructor; constructor|tauto]|].
    destruct (parse_digit_inv t1) as (ds & E1 & E2 & E3). unfold is_digit in Ed.
    apply (D (- dval (d :: ds)) (MINUS :: d :: ds) (parse_digit t1)); [cbn [app]; now rewrite <- E1|constructor; constructor; [lia|exact E2]|tauto].
  - destruct (is_digit c) eqn:Ed.
    2:{ unfold int_des. rewrite En. unfold unserialize_integer. replace (c =? MINUS) with false by lia. rewrite Ed. do 3 eexists. split; [reflexivity|lia]. }
    destruct (Z.eqb_spec c 48) as [->|Hd]; [apply (D (dval [48]) [48] t0); [reflexivity|constructor; constructor|tauto]|].
    destruct (parse_digit_inv t0) as (ds & E1 & E2 & E3). unfold is_digit in Ed.
    apply (D (dval (c :: ds)) (c :: ds) (parse_digit t0)); [cbn [app]; now rewrite <- E1|constructor; constructor; [lia|exact E2]|tauto].
Qed.
Lemma size_mult_range a b m : size_mult a b = Some m -> 1 <= m <= 1099511627776.
Proof.
  unfold size_mult. change (1024 ^ 4) with 1099511627776. change (1000 ^ 4) with 1000000000000. change (1024 ^ 3) with 1073741824.
  change (1000 ^ 3) with 1000000000. change (1024 ^ 2) with 1048576. change (1000 ^ 2) with 1000000.
  repeat match goal with |- context[if ?x then _ else _] => destruct x end; intros [= <-]; lia.
Qed.
Theorem size_safe t metric sn old s e b r e1 : chars_des 32 sn [] s e = Ok (b, r, e1) -> is_string s = true ->
  In 0 b -> (forall n p q, b = p ++ q -> jint n p -> Z.abs n < 8388608) -> size_des t metric sn old s e <> UB.
Proof.
  intros Ec Hs Hz Hn. apply starts_inv in Hs. destruct Hs as (s0 & ->). unfold size_des.
  change (is_null (QT :: s0)) with false. change (is_number (QT :: s0)) with false. change (is_string (QT :: s0)) with true. cbn [negb].
  rewrite Ec. cbn [bind]. destruct (has_err e1); [discriminate|]. pose proof (strlen_total b) as T.
  destruct (strlen b) as [txt| |] eqn:Et; [|contradiction|contradiction]. cbn [bind].
  assert (Hp : exists z, b = txt ++ z).
  { clear - Et. revert txt Et. induction b as [|c b IH]; intros txt Et; [discriminate|]. cbn [strlen] in Et.
    destruct (c =? 0); [injection Et as <-; now eexists|]. destruct (strlen b) as [l| |]; cbn [bind] in Et; [|discriminate|discriminate].
    injection Et as <-. destruct (IH l eq_refl) as (z & ->). now exists z. }
  destruct Hp as (z & ->). destruct (int_des_small txt e1) as (v & q & e2 & -> & Hv).
  { intros n p q E Hj. apply (Hn n p (q ++ z)); [|exact Hj]. now rewrite E, <- app_assoc. }
  cbn [bind]. destruct (has_err e2); [discriminate|]. destruct q as [|c1 q1]; [discriminate|].
  destruct (size_mult _ _) as [m|] eqn:Em; [|discriminate]. apply size_mult_range in Em.
  rewrite (iarith_ok i64) by (auto using i64_ok; apply i64_range; nia). discriminate.
Qed.
