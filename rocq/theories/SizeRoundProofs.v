(** Exactly which sizes survive a round trip. *)
From Verif Require Import Base Parser SpecJson SpecNum ParserFacts Grammar1 Grammar2 Out Number StringS CodecLaws SpecExact ExactProofs NumberProofs StringProofs WrapProofs
  TimeSize SpecTime TimeProofs SpecSize SizeProofs SpecWrap SpecUnits UnitProofs SpecSizeRound.

Theorem size_read_over t metric n s u m sn old r e : jint n s -> In (u, m) size_units -> dist s + dist u < 32 ->
  int_dom i64 n -> ~ irange i64 (n * m) -> no_err_yet e = true ->
  size_des t metric sn old (QT :: (s ++ u) ++ QT :: r) e = UB.
Proof.
  intros Hj Hu Hl Hn Hm He. destruct (units_cases u m Hu) as (_ & Pu & _ & c1 & q1 & Eu & Nd & Em).
  assert (Hp : plain (s ++ u)) by (apply Forall_app; split; [now apply jint_plain with n|exact Pu]).
  assert (L : (length (s ++ u) < 32)%nat) by (rewrite app_length; unfold dist in Hl; lia).
  unfold size_des. set (s0 := QT :: (s ++ u) ++ QT :: r).
  change (is_null s0) with false. change (is_number s0) with false. change (is_string s0) with true. cbn [negb]. unfold s0.
  rewrite plain_chars by (auto; lia). cbn [bind]. unfold has_err. rewrite He. cbn [negb].
  rewrite strlen_fill by (auto using plain_nz; lia). cbn [bind].
  rewrite (int_des_in_range i64 (Some 0) 0 n s u e i64_ok Hn Hj) by (right; right; rewrite Eu; exact Nd). cbn [bind].
  rewrite He. cbn [negb]. rewrite Eu at 1. rewrite Em. unfold iarith. change (isigned i64) with true. cbv iota.
  destruct (irangeb i64 (n * m)) eqn:E; [|reflexivity]. exfalso. apply Hm. unfold irangeb in E. unfold irange. lia.
Qed.
Definition u64t : ity := mkity 8 false.
Lemma size_try_large metric bytes B l : size_conv u64t bytes = B -> bytes <> 0 -> 0 <= B < 2 ^ 64 -> Forall entry_ok l ->
  (exists ops, size_try u64t metric l bytes = Ok (Some ops) /\ sized B ops /\ exists base ex ch, In (base, ex, ch) l /\ Z.rem B (base ^ ex) = 0) \/
  (size_try u64t metric l bytes = Ok None /\ Forall (fun x => let '(base, ex, _) := x in ex <= 4 -> Z.rem B (base ^ ex) <> 0) l).
Proof.
  change (2 ^ 64) with 18446744073709551616. intros Hc Hz Hb. induction 1 as [|[[base ex] ch] l (Hu & Hm) Hl IH]; [right; split; [reflexivity|constructor]|].
  cbn [size_try]. unfold size_write_if. change (isize u64t / 2) with 4. replace (negb (bytes =? 0)) with true by lia. rewrite Hc. destruct (ex <=? 4) eqn:Ex; cbn [negb].
  - set (p := base ^ ex) in *. destruct (Z.eqb_spec (Z.rem B p) 0) as [R0|R0].
    + left. pose proof (Z.quot_rem B p ltac:(lia)) as Q. set (n := Z.quot B p) in *. rewrite R0, Z.add_0_r in Q. clearbody n.
      assert (Hn : irange i64 n) by (apply i64_range; nia).
      rewrite (icast_id i64 n i64_ok Hn). destruct (int_ser_numeral i64 n i64_ok Hn) as (s & -> & Hs). cbn [bind].
      eexists. split; [reflexivity|]. split; [|exists base, ex, ch; split; [now left|exact R0]]. exists n, s, ch, p. split; [|split; [exact Hs|split; [exact Hu|split; [exact Hm|lia]]]].
      change ([W QT; Sub (wr s)] ++ wr ch ++ [W QT]) with ([W QT] ++ [Sub (wr s)] ++ wr ch ++ [W QT]).
      rewrite !flat_app, flat_sub, !flat_wr. change (flat [W QT]) with [QT]. cbn [app]. now rewrite <- app_assoc.
    + cbn [bind]. destruct IH as [(ops & IH & Sz & b & x & c & Hi & R)|(IH1 & IH2)]; [left; exists ops; split; [exact IH|split; [exact Sz|exists b, x, c; split; [now right|exact R]]]|].
      right. split; [exact IH1|]. constructor; [|exact IH2]. intros _. exact R0.
  - cbn [bind]. destruct IH as [(ops & IH & Sz & b & x & c & Hi & R)|(IH1 & IH2)]; [left; exists ops; split; [exact IH|split; [exact Sz|exists b, x, c; split; [now right|exact R]]]|].
    right. split; [exact IH1|]. constructor; [|exact IH2]. intros; lia.
Qed.
Lemma pow_rem B base ex : 0 < base -> 1 <= ex -> Z.rem B (base ^ ex) = 0 -> (base | B).
Proof.
  intros Hb He H. apply Z.rem_divide in H; [|assert (0 < base ^ ex) by (apply Z.pow_pos_nonneg; lia); lia].
  apply Z.divide_trans with (base ^ ex); [|exact H]. exists (base ^ (ex - 1)). rewrite Z.mul_comm, <- Z.pow_succ_r by lia. f_equal. lia.
Qed.
Lemma large_round metric v sn old : 1 <= metric < 2 ^ 63 -> 2 ^ 63 <= v < 2 ^ 64 ->
  (exists ops, size_ser u64t metric v = Ok ops /\ size_des u64t metric sn old (flat ops) (Some no_error) = Ok (v, [], Some no_error)) <->
  (2 ^ 63 <= byte_count metric v /\ ~ (1000 | byte_count metric v) /\ ~ (1024 | byte_count metric v)).
Proof.
  intros Hm Hv. unfold byte_count. change (2 ^ 63) with 9223372036854775808 in *. change (2 ^ 64) with 18446744073709551616 in *. unfold size_ser.
  assert (Hk64 : irange i64 metric) by (apply i64_range; lia). rewrite (icast_id i64 metric i64_ok Hk64).
  replace (icast i64 v) with (v - 18446744073709551616).
  2: { destruct (icast_eq i64 v i64_ok) as (k & E). pose proof (icast_range i64 v i64_ok) as R. apply (proj1 (i64_range _)) in R. change (imod i64) with 18446744073709551616 in E. lia. }
  set (b := (v - 18446744073709551616) * metric). set (B := 18446744073709551616 - (18446744073709551616 - v) * metric).
  assert (EB : B = 18446744073709551616 + b) by (unfold B, b; ring). assert (Nb : b < 0) by (unfold b; nia).
  unfold iarith. change (isigned i64) with true. cbv iota. destruct (irangeb i64 b) eqn:Er.
  2: { split; [intros (ops & K & _); discriminate|]. intros (K & _). exfalso. unfold irangeb in Er. change (imin i64) with (- 9223372036854775808) in Er. change (imax i64) with 9223372036854775807 in Er. lia. }
  assert (Rb : - 9223372036854775808 <= b). { unfold irangeb in Er. change (imin i64) with (- 9223372036854775808) in Er. lia. }
  cbn [bind]. assert (Hc : size_conv u64t b = B).
  { unfold size_conv. change ((isize u64t =? 8) && negb (isigned u64t)) with true. cbv iota. change (imod i64) with 18446744073709551616. rewrite EB.
    replace b with (18446744073709551616 + b + (-1) * 18446744073709551616) at 1 by lia. rewrite Z_mod_plus_full. apply Z.mod_small. lia. }
  assert (Hv64 : irange u64t v) by (unfold irange; change (imin u64t) with 0; change (imax u64t) with 18446744073709551615; lia).
  assert (H64 : ity_ok u64t) by (unfold ity_ok; cbn; tauto).
  assert (G : forall l, Forall entry_ok l -> Forall (fun x => let '(base, ex, _) := x in (base = 1000 \/ base = 1024) /\ 1 <= ex) l -> In (1000, 1, text "KB") l -> In (1024, 1, text "KiB") l ->
    (exists ops, (let* w := size_try u64t metric l b in match w with Some o => Ok o | None => int_ser u64t v end) = Ok ops /\ size_des u64t metric sn old (flat ops) (Some no_error) = Ok (v, [], Some no_error)) <->
    9223372036854775808 <= B /\ ~ (1000 | B) /\ ~ (1024 | B)).
  { intros l Hl Hbs I1 I2. destruct (size_try_large metric b B l Hc ltac:(lia) ltac:(change (2 ^ 64) with 18446744073709551616; lia) Hl) as [(ops & -> & (n & s & u & m & Ef & Hn & Hu & Hm1 & Eb) & base & ex & ch & Hi & R)|(-> & Hn)]; cbn [bind].
    - split.
      + intros (ops' & E & D). injection E as <-. exfalso. rewrite Ef in D.
        destruct (units_cases u m Hu) as (_ & _ & Lu & _).
        pose proof (numeral_short n s 19 Hn ltac:(change (10 ^ 19) with 10000000000000000000; nia) ltac:(lia)) as Ls.
        rewrite (size_read_over u64t metric n s u m sn old [] (Some no_error)) in D; [discriminate|now apply numeral_jint|exact Hu|unfold dist in *; lia|apply i64_dom; nia| |reflexivity].
        rewrite Eb. intros K. apply (proj1 (i64_range _)) in K. lia.
      + intros (_ & N1 & N2). exfalso. rewrite Forall_forall in Hbs. specialize (Hbs _ Hi). cbv beta iota in Hbs. destruct Hbs as ([->| ->] & He).
        * apply N1. apply pow_rem with ex; [lia|exact He|exact R].
        * apply N2. apply pow_rem with ex; [lia|exact He|exact R].
    - destruct (int_ser_numeral u64t v H64 Hv64) as (s & -> & Hs). rewrite Forall_forall in Hn. pose proof (Hn _ I1 ltac:(lia)) as N1. pose proof (Hn _ I2 ltac:(lia)) as N2. change (1000 ^ 1) with 1000 in N1. change (1024 ^ 1) with 1024 in N2.
      split.
      + intros _. split; [clear - EB Rb; lia|]. split; intros D; [apply N1; apply (proj2 (Z.rem_divide B 1000 ltac:(discriminate)) D)|apply N2; apply (proj2 (Z.rem_divide B 1024 ltac:(discriminate)) D)].
      + intros _. exists (wr s). split; [reflexivity|]. rewrite flat_wr. destruct (jint_head v s (numeral_jint v s Hs)) as (c & y & Es & Hcc).
        rewrite Es. unfold size_des. assert (F1 : is_null (c :: y) = false) by (apply is_null_digit; exact Hcc).
        assert (F2 : is_number (c :: y) = true) by (cbn; unfold is_digit; unfold s_digit in Hcc; lia). rewrite F1, F2. rewrite <- (app_nil_r (c :: y)), <- Es.
        apply int_des_in_range; [exact H64|split; [exact Hv64|left; right; reflexivity]|exact (numeral_jint v s Hs)|right; right; exact I]. }
  destruct (_ || _); apply G; [apply dec_ok| | | |apply bin_ok| | |]; try (cbn [In size_dec size_bin]; auto 12); repeat (apply Forall_cons; [lia|]); apply Forall_nil.
Qed.
Theorem size_round t metric v sn old : ity_ok t -> 2 <= isize t -> 1 <= metric < 2 ^ 63 -> irange t v ->
  (exists ops, ser (size_codec t metric) v = Ok ops /\ reads (size_codec t metric) sn old (flat ops) v []) <-> size_kept metric v.
Proof.
  intros Ht H2 Hm Hv. unfold size_kept. destruct (Z_lt_ge_dec v (2 ^ 63)) as [Lv|Lv].
  - assert (Lw : - 2 ^ 63 <= v). { change (2 ^ 63) with 9223372036854775808. unfold irange, imin, imax in Hv. pose proof (half_cases t Ht). destruct (isigned t); lia. }
    assert (R : - 2 ^ 63 <= v * metric < 2 ^ 63 <-> irange i64 (v * metric)) by (rewrite i64_range; change (2 ^ 63) with 9223372036854775808; lia).
    assert (K : irange i64 v) by (apply i64_range; change (2 ^ 63) with 9223372036854775808 in *; lia). assert (Km : irange i64 metric) by (apply i64_range; change (2 ^ 63) with 9223372036854775808 in *; lia).
    split.
    + intros (ops & E & _). left. split; [exact Lv|]. apply R. destruct (irangeb i64 (v * metric)) eqn:Eb; [unfold irangeb in Eb; unfold irange; lia|].
      rewrite (size_overflow t metric v K Km) in E; [discriminate|]. unfold irangeb in Eb. unfold irange. lia.
    + intros [(_ & H)|(H & _)]; [|lia]. destruct (size_rt t metric Ht H2 ltac:(lia) Km v) as (ops & E & _ & Rd); [split; [exact Hv|now apply R]|].
      exists ops. split; [exact E|]. unfold reads. specialize (Rd sn old [] (Some no_error) I eq_refl). now rewrite app_nil_r in Rd.
  - assert (t = u64t) as ->.
    { change (2 ^ 63) with 9223372036854775808 in Lv. unfold irange, imin, imax in Hv. pose proof (half_cases t Ht) as HC. destruct t as (sz & sg). cbn [isigned isize] in *.
      destruct sg; [lia|]. destruct HC as [HC|[HC|[HC|HC]]]; destruct HC as (A & B & C); cbn [isize] in *; try lia. now subst sz. }
    assert (Hv' : 2 ^ 63 <= v < 2 ^ 64). { unfold irange in Hv. change (imax u64t) with 18446744073709551615 in Hv. change (2 ^ 64) with 18446744073709551616. lia. }
    unfold reads. cbn [ser des size_codec]. rewrite (large_round metric v sn old Hm Hv'). split; [intros H; right; split; [lia|exact H]|]. intros [(K & _)|(_ & K)]; [lia|exact K].
Qed.
