(** Theorems about time_interval and size_value (C44-C47). *)
From Verif Require Import Base Parser SpecJson SpecNum SpecString ParserFacts Out Number StringS CodecLaws NumberProofs StringProofs
  TimeSize SpecTime SpecSize TimeProofs SizeProofs Properties_Seq.
Definition u64 := mkity 8 false.
Definition u32 := mkity 4 false.
Definition jtx (l : buf) : buf := QT :: l ++ [QT].

(** C44.  [fr]: ticks per second (1, 1000, 1000000 for time_interval_s, _ms, _mks).
    Every T: all whole-second values; [_mks]: all non-negative values;
    [_ms]: all non-negative values of a signed 64-bit T. *)
Theorem C44_time_roundtrip_partial : forall t fr, ity_ok t -> 1 <= fr -> irange t fr ->
  rt (time_codec t fr) (fun v => irange t v /\
    (Z.rem v fr = 0 \/ fr = 1000000 /\ 0 <= v \/ fr = 1000 /\ t = i64 /\ 0 <= v)).
Proof. exact time_rt. Qed.
Print Assumptions C44_time_roundtrip_partial.
(** time_interval_s is lossless on every value of every integer type *)
Theorem C44_seconds_roundtrip : forall t, ity_ok t -> rt (time_codec t 1) (irange t).
Proof.
  intros t Ht v Hv. apply (time_rt t 1 Ht); [lia| |].
  - unfold irange, imin, imax. pose proof (half_cases t Ht). destruct (isigned t); lia.
  - split; [exact Hv|]. left. apply Z.rem_1_r.
Qed.
Print Assumptions C44_seconds_roundtrip.
(** the text written is a list of components that add up to the value *)
Theorem C44_text : forall t fr v, ity_ok t -> 1 <= fr -> irange t fr -> irange t v ->
  (Z.rem v fr = 0 \/ fr = 1000000 /\ 0 <= v \/ fr = 1000 /\ t = i64 /\ 0 <= v) ->
  exists ops l x, ser (time_codec t fr) v = Ok ops /\ flat ops = QT :: x ++ [QT] /\ comps l x /\ ticks fr l = v.
Proof. intros t fr v Ht Hf Hr Hv Hd. apply time_writes; auto. now split. Qed.
Print Assumptions C44_text.
Example C44_ex : exists ops, ser (time_codec i64 1000000) 93784005006 = Ok ops /\ flat ops = jtx (text "1d2h3m4s5ms6mks") /\
  des (time_codec i64 1000000) None 77 (flat ops) clean = Ok (93784005006, [], clean).
Proof. eexists. split; [exq|]. split; exq. Qed.
Example C44_ex_zero : exists ops, ser (time_codec i32 1) 0 = Ok ops /\ flat ops = jtx [] /\ des (time_codec i32 1) None 77 (flat ops) clean = Ok (0, [], clean).
Proof. eexists. split; [exq|]. split; exq. Qed.
Example C44_ex_min : exists ops, ser (time_codec i32 1) (-2147483648) = Ok ops /\ flat ops = jtx (text "-24855d-3h-14m-8s") /\
  des (time_codec i32 1) None 77 (flat ops) clean = Ok (-2147483648, [], clean).
Proof. eexists. split; [exq|]. split; exq. Qed.
(** refuted in general: the sub-second part of a negative value is lost *)
Theorem C44_negative_refuted : exists ops, ser (time_codec i64 1000000) (-1500000) = Ok ops /\ flat ops = jtx (text "-1s") /\
  des (time_codec i64 1000000) None 0 (flat ops) clean = Ok (-1000000, [], clean).
Proof. eexists. split; [exq|]. split; exq. Qed.
Print Assumptions C44_negative_refuted.
(** ... milliseconds in a 32-bit int overflow while being written *)
Theorem C44_int32_refuted : forall v, 0 <= v < 2000000 -> 3 <= v mod 1000 -> ser (time_codec i32 1000) v = UB.
Proof.
  intros v Hv H. cbn [ser time_codec]. unfold time_ser.
  set (q := Z.quot v 1000).
  assert (Hi : forall x, - 2147483648 <= x <= 2147483647 -> irange i32 x) by (intros x Hx; unfold irange; change (imin i32) with (-2147483648); change (imax i32) with 2147483647; lia).
  assert (Ho : ity_ok i32) by (unfold ity_ok; cbn; tauto).
  assert (Hq : 0 <= q < 2000) by (unfold q; rewrite Z.quot_div_nonneg by lia; split; [apply Z.div_pos; lia|apply Z.div_lt_upper_bound; lia]).
  rewrite (icast_id i32 q) by (auto; apply Hi; lia). clearbody q. replace (Z.quot q 86400) with 0 by (symmetry; apply Z.quot_small; lia).
  change (icast i32 0) with 0. change (time_write_if i32 0 100) with (@Ok (list op) []). cbn [bind].
  change (iarith (ipromote i32) (0 * 86400)) with (Ok 0). cbn [bind]. rewrite (parith i32 (q - 0)) by (auto; apply Hi; lia). cbn [bind].
  replace (Z.quot (q - 0) 3600) with 0 by (symmetry; apply Z.quot_small; lia). change (icast i32 0) with 0.
  change (time_write_if i32 0 104) with (@Ok (list op) []). cbn [bind]. change (iarith (ipromote i32) (0 * 3600)) with (Ok 0). cbn [bind].
  rewrite (parith i32 (q - 0)) by (auto; apply Hi; lia). cbn [bind]. rewrite (parith i32 (q - 0 - 0)) by (auto; apply Hi; lia). cbn [bind].
  assert (Hm : 0 <= Z.quot (q - 0 - 0) 60 < 2000).
  { rewrite Z.quot_div_nonneg by lia. split; [apply Z.div_pos; lia|apply Z.div_lt_upper_bound; lia]. }
  rewrite (icast_id i32 (Z.quot (q - 0 - 0) 60)) by (auto; apply Hi; lia).
  pose proof (Z.rem_bound_pos q 60 ltac:(lia) ltac:(lia)) as Hs. rewrite (icast_id i32 (Z.rem q 60)) by (auto; apply Hi; lia).
  destruct (write_if_part i32 (Z.quot (q - 0 - 0) 60) Minute 109 Ho ltac:(apply Hi; lia) eq_refl) as (o3 & -> & _). cbn [bind].
  destruct (write_if_part i32 (Z.rem q 60) Second 115 Ho ltac:(apply Hi; lia) eq_refl) as (o4 & -> & _). cbn [bind].
  unfold time_ser_tail. rewrite Z.rem_mod_nonneg by lia. pose proof (Z.mod_pos_bound v 1000 ltac:(lia)). set (R := v mod 1000) in *. clearbody R.
  destruct (Z.eqb_spec R 0) as [R0|_]; [lia|]. rewrite (icast_id i32 R) by (auto; apply Hi; lia). rewrite (parith i32 (R * 1000)) by (auto; apply Hi; lia). cbn [bind].
  rewrite Z.quot_mul by lia. rewrite (icast_id i32 R) by (auto; apply Hi; lia). rewrite (parith i32 (R * 1000)) by (auto; apply Hi; lia). cbn [bind].
  rewrite (parith i32 (R - R * 1000)) by (auto; apply Hi; lia). cbn [bind]. rewrite (icast_id i32 (R - R * 1000)) by (auto; apply Hi; lia).
  unfold iarith. change (isigned (ipromote i32)) with true. cbv iota. unfold irangeb. change (imin (ipromote i32)) with (-2147483648).
  replace (-2147483648 <=? (R - R * 1000) * 1000000) with false by lia. reflexivity.
Qed.
Print Assumptions C44_int32_refuted.
Example C44_int32_ex : ser (time_codec i32 1000) 1003 = UB. Proof. exq. Qed.
(** ... and an unsigned type gets a bogus microsecond component *)
Theorem C44_unsigned_refuted : exists ops, ser (time_codec u64 1000) 1 = Ok ops /\ flat ops = jtx (text "1ms18446744072710551mks") /\
  des (time_codec u64 1000) None 0 (flat ops) clean <> Ok (1, [], clean).
Proof. eexists. split; [exq|]. split; [exq|]. intros H. vm_compute in H. discriminate. Qed.
Print Assumptions C44_unsigned_refuted.

(** C45.  [comps l x]: x is the text of the components l, in any order and
    number; [ticks]: their sum; [weight]: bounds the numbers involved. *)
Theorem C45_sum : forall t fr l x sn old r e, ity_ok t -> 1 <= fr -> comps l x ->
  (isigned t = true \/ Forall (fun c => 0 <= fst c) l) -> weight fr l <= imax t -> no_err_yet e = true ->
  des (time_codec t fr) sn old (QT :: x ++ QT :: r) e = Ok (ticks fr l, r, e).
Proof.
  intros t fr l x sn old r e Ht Hf Hx Hs Hw He. apply time_read; auto. apply weight_sok; auto; lia.
Qed.
Print Assumptions C45_sum.
Theorem C45_unterminated : forall t fr l x sn old e, ity_ok t -> 1 <= fr -> comps l x ->
  (isigned t = true \/ Forall (fun c => 0 <= fst c) l) -> weight fr l <= imax t -> no_err_yet e = true ->
  des (time_codec t fr) sn old (QT :: x) e = Ok (ticks fr l, [], cerr UnexpectedEndFragment None 0 e).
Proof.
  intros t fr l x sn old e Ht Hf Hx Hs Hw He. apply time_read_open; auto. apply weight_sok; auto; lia.
Qed.
Print Assumptions C45_unterminated.
Example C45_ex : comps [(5, Second); (-1, Day); (5, Second); (7, Millisecond)] (text "5s-1d5s7ms") /\
  ticks 1000 [(5, Second); (-1, Day); (5, Second); (7, Millisecond)] = -86389993 /\
  des (time_codec i64 1000) None 0 (jtx (text "5s-1d5s7ms")) clean = Ok (-86389993, [], clean).
Proof.
  split; [|split; exq].
  assert (forall d, 49 <= d <= 57 -> jint (d - 48) [d]) as P.
  { intros d Hd. replace (d - 48) with (dval [d]) by (unfold dval; cbn; lia). constructor. constructor; [lia|constructor]. }
  change (text "5s-1d5s7ms") with (([53]) ++ unit_text Second ++ ([45; 49] ++ unit_text Day ++ ([53] ++ unit_text Second ++ ([55] ++ unit_text Millisecond ++ [])))).
  constructor; [apply (P 53); lia|]. constructor; [|constructor; [apply (P 53); lia|constructor; [apply (P 55); lia|constructor]]].
  change (-1) with (- dval [49]). change [45; 49] with (MINUS :: [49]). constructor. constructor; [lia|constructor].
Qed.
Example C45_ex_null : des (time_codec i64 1000) None 5 (text "null") clean = Ok (0, [], clean) /\
  des (time_codec i64 1000) None 5 (text "1500") clean = Ok (1500, [], clean).
Proof. split; exq. Qed.
(** refuted: a string cut after the digits of a component is accepted *)
Theorem C45_truncated_refuted : des (time_codec i64 1000) (Some 0) 0 (QT :: text "1s5") clean = Ok (1000, [], clean).
Proof. exq. Qed.
Print Assumptions C45_truncated_refuted.
(** ... a string cut inside mks makes the iterator step past the end *)
Theorem C45_overrun_refuted : forall sn, des (time_codec i64 1000) sn 0 (QT :: text "1mk") clean = UB.
Proof. intros sn. exq. Qed.
Print Assumptions C45_overrun_refuted.
(** ... unknown units are ignored, and the closing quote can be swallowed *)
Theorem C45_garbage_refuted : des (time_codec i64 1000) (Some 0) 0 (jtx (text "1s5x2#")) clean = Ok (1000, [], clean) /\
  des (time_codec i64 1000) (Some 0) 0 (QT :: text "1mk" ++ [QT; 53; 115; QT]) clean = Ok (5000, [], clean).
Proof. split; exq. Qed.
Print Assumptions C45_garbage_refuted.
(** ... as is signed overflow *)
Theorem C45_overflow_refuted : des (time_codec i32 1) (Some 0) 0 (jtx (text "99999d")) clean = UB.
Proof. exq. Qed.
Print Assumptions C45_overflow_refuted.
(** whatever the input, the returned iterator stays in the range and errors point into it *)
Theorem C45_law : forall t fr, dlaw (des (time_codec t fr)).
Proof. exact time_dlaw. Qed.
Print Assumptions C45_law.

(** C46: every value whose byte count fits in 63 bits, every metric, every T
    of at least 2 bytes *)
Theorem C46_size_roundtrip : forall t metric, ity_ok t -> 2 <= isize t -> 1 <= metric -> metric < 2 ^ 63 ->
  rt (size_codec t metric) (fun v => irange t v /\ - 2 ^ 63 <= v * metric < 2 ^ 63).
Proof.
  intros t metric Ht H2 H1 Hk v (Hv & Hb). change (2 ^ 63) with 9223372036854775808 in *.
  apply (size_rt t metric); auto; [apply i64_range; lia|]. split; [exact Hv|apply i64_range; lia].
Qed.
Print Assumptions C46_size_roundtrip.
(** reading a number with any of the nine suffixes *)
Theorem C46_size_read : forall t metric n s u m sn old r e, jint n s -> In (u, m) size_units -> dist s + dist u < 32 ->
  - 2 ^ 63 < n < 2 ^ 63 -> - 2 ^ 63 <= n * m < 2 ^ 63 -> 1 <= metric < 2 ^ 63 -> no_err_yet e = true ->
  des (size_codec t metric) sn old (QT :: (s ++ u) ++ QT :: r) e = Ok (icast t (Z.quot (n * m) metric), r, e).
Proof.
  intros t metric n s u m sn old r e Hj Hu Hl Hn Hm Hk He. change (2 ^ 63) with 9223372036854775808 in *.
  apply size_read; auto; [apply i64_dom; lia|apply i64_range; lia|apply i64_range; lia].
Qed.
Print Assumptions C46_size_read.
Example C46_ex : exists ops, ser (size_codec i64 1024) 3 = Ok ops /\ flat ops = jtx (text "3KiB") /\
  des (size_codec i64 1024) None 0 (flat ops) clean = Ok (3, [], clean).
Proof. eexists. split; [exq|]. split; exq. Qed.
Example C46_ex_min : exists ops, ser (size_codec i32 1) (-2147483648) = Ok ops /\ flat ops = jtx (text "-2048MiB") /\
  des (size_codec i32 1) None 0 (flat ops) clean = Ok (-2147483648, [], clean).
Proof. eexists. split; [exq|]. split; exq. Qed.
Example C46_ex_plain : exists ops, ser (size_codec u32 1) 4000000001 = Ok ops /\ flat ops = text "4000000001" /\
  des (size_codec u32 1) None 0 (flat ops) clean = Ok (4000000001, [], clean) /\
  des (size_codec i64 1) None 0 (jtx (text "7GiB")) clean = Ok (7516192768, [], clean).
Proof. eexists. split; [exq|]. split; [exq|]. split; exq. Qed.
(** outside that domain the value is not preserved: 2^63 bytes *)
Theorem C46_large_refuted : exists ops, ser (size_codec u64 1) (2 ^ 63) = Ok ops /\ flat ops = jtx (text "8388608TiB") /\
  des (size_codec u64 1) None 0 (flat ops) clean = UB.
Proof. eexists. split; [exq|]. split; exq. Qed.
Print Assumptions C46_large_refuted.
(** a quoted number without suffix is not divided by the metric, a quoted byte
    count is: "2048" and "2048B" differ *)
Theorem C46_no_suffix : forall t metric n s sn old r e, jint n s -> dist s < 32 -> - 2 ^ 63 < n < 2 ^ 63 -> no_err_yet e = true ->
  des (size_codec t metric) sn old (QT :: s ++ QT :: r) e = Ok (icast t n, r, e).
Proof. intros t metric n s sn old r e Hj Hl Hn He. change (2 ^ 63) with 9223372036854775808 in *. apply size_read_plain; auto. apply i64_dom. lia. Qed.
Print Assumptions C46_no_suffix.
Example C46_no_suffix_ex : des (size_codec i64 1024) None 0 (jtx (text "2048")) clean = Ok (2048, [], clean) /\
  des (size_codec i64 1024) None 0 (jtx (text "2048B")) clean = Ok (2, [], clean).
Proof. split; exq. Qed.

(** C47, refuted: a string of 32 characters fills the buffer, strlen runs on *)
Theorem C47_size_overrun_refuted : forall t metric sn old x r e, plain x -> length x = 32%nat -> no_err_yet e = true ->
  des (size_codec t metric) sn old (QT :: x ++ QT :: r) e = UB.
Proof.
  intros t metric sn old x r e Hx Hl He. eapply size_overrun.
  - apply plain_chars; [exact Hx|lia].
  - reflexivity.
  - unfold has_err. now rewrite He.
  - rewrite Hl. cbn [Nat.sub repeat]. rewrite app_nil_r. now apply plain_nz.
Qed.
Print Assumptions C47_size_overrun_refuted.
Example C47_ex : plain (text "00000000000000000000000000000001") /\ length (text "00000000000000000000000000000001") = 32%nat /\
  des (size_codec i64 1) None 0 (jtx (text "00000000000000000000000000000001")) clean = UB.
Proof. split; [apply Forall_forall; intros c Hc; vm_compute in Hc; repeat (destruct Hc as [<-|Hc]; [lia|]); contradiction|]. split; exq. Qed.
(** what holds: as soon as the decoded buffer contains a NUL nothing outside it
    is read; 2^23 keeps the multiplication within 63 bits *)
Theorem C47_size_safe_partial : forall t metric sn old s e b r e1, is_string s = true ->
  des (chars_codec 32) sn [] s e = Ok (b, r, e1) -> In 0 b ->
  (forall n p q, b = p ++ q -> jint n p -> Z.abs n < 2 ^ 23) -> des (size_codec t metric) sn old s e <> UB.
Proof. intros t metric sn old s e b r e1 Hs Hc Hz Hn. eapply size_safe; [exact Hc|exact Hs|exact Hz|exact Hn]. Qed.
Print Assumptions C47_size_safe_partial.
Theorem C47_short_safe_partial : forall t metric sn old x r e, plain x -> (length x < 32)%nat ->
  (forall n p q, x = p ++ q -> jint n p -> Z.abs n < 2 ^ 23) -> des (size_codec t metric) sn old (QT :: x ++ QT :: r) e <> UB.
Proof.
  intros t metric sn old x r e Hx Hl Hn. eapply size_safe; [apply plain_chars; [exact Hx|lia]|reflexivity| |].
  - apply in_or_app. right. destruct (32 - length x)%nat eqn:E; [lia|now left].
  - intros n p q E Hj. assert (exists q', x = p ++ q') as (q' & E').
    { pose proof (jint_plain n p Hj) as Hp. apply plain_nz in Hp. revert E. generalize (32 - length x)%nat. intros k. clear - Hp.
      revert x. induction p as [|c p IH]; intros x E; [now exists x|]. destruct x as [|d x]; cbn [app] in E.
      - exfalso. destruct k; [discriminate|]. cbn in E. injection E as <- _. apply Hp. now left.
      - injection E as -> E. destruct (IH ltac:(intro; apply Hp; now right) x E) as (q' & ->). now exists q'. }
    apply (Hn n p q' E' Hj).
Qed.
Print Assumptions C47_short_safe_partial.
(** whatever the input, the returned iterator stays in the range and errors point into it *)
Theorem C47_law : forall t metric, dlaw (des (size_codec t metric)).
Proof. exact size_dlaw. Qed.
Print Assumptions C47_law.
