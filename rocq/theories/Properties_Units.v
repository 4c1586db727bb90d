(** C85, C86: the texts written for times and sizes. *)
From Verif Require Import Base Parser SpecJson SpecNum Out Number StringS CodecLaws NumberProofs TimeSize TimeProofs SizeProofs SpecWrap SpecUnits UnitProofs Properties_Seq Properties_TimeSize.

(** ---- C85 ---- *)
(** the domain of C44: canonical days, hours, minutes and seconds of one sign, then milli- and microseconds *)
Theorem C85_time : forall t fr v txt, ity_ok t -> 1 <= fr -> irange t fr -> irange t v ->
  (Z.rem v fr = 0 \/ fr = 1000000 /\ 0 <= v \/ fr = 1000 /\ t = i64 /\ 0 <= v) ->
  (writes (time_codec t fr) v txt <-> exists x y, clock (Z.quot v fr) x /\ fraction fr (Z.rem v fr) y /\ txt = QT :: x ++ y ++ [QT]).
Proof. intros t fr v txt Ht Hf Hr Hv Hd. apply time_text; auto. now split. Qed.
Print Assumptions C85_time.
(** negative microseconds: the fraction of a second is dropped *)
Theorem C85_negative_microseconds : forall t v txt, ity_ok t -> irange t 1000000 -> irange t v -> v < 0 ->
  (writes (time_codec t 1000000) v txt <-> exists x, clock (Z.quot v 1000000) x /\ txt = QT :: x ++ [QT]).
Proof. exact time_text_neg_mks. Qed.
Print Assumptions C85_negative_microseconds.
(** negative milliseconds: a positive number of microseconds takes the place of the fraction *)
Theorem C85_negative_milliseconds : forall v txt, irange i64 v -> v < 0 -> Z.rem v 1000 <> 0 ->
  (writes (time_codec i64 1000) v txt <-> exists x s, clock (Z.quot v 1000) x /\ numeral (- 999000 * Z.rem v 1000) s /\ txt = QT :: x ++ s ++ text "mks" ++ [QT]).
Proof. exact time_text_neg_ms. Qed.
Print Assumptions C85_negative_milliseconds.
(** so that no such value survives *)
Theorem C85_negative_refuted : forall v txt sn old r e, - 2 ^ 62 <= v < 0 -> Z.rem v 1000 <> 0 -> no_err_yet e = true -> writes (time_codec i64 1000) v txt ->
  des (time_codec i64 1000) sn old (txt ++ r) e = Ok (v - 1000 * Z.rem v 1000, r, e) /\ v - 1000 * Z.rem v 1000 <> v.
Proof. intros v txt sn old r e Hv HR He Hw. split; [now apply neg_ms_read|lia]. Qed.
Print Assumptions C85_negative_refuted.
(** the description determines the text *)
Theorem C85_unique : forall fr v x y x' y', fr <> 0 -> clock (Z.quot v fr) x -> clock (Z.quot v fr) x' -> fraction fr (Z.rem v fr) y -> fraction fr (Z.rem v fr) y' -> x = x' /\ y = y'.
Proof. intros. split; [eapply clock_unique; eassumption|eapply fraction_unique; eassumption]. Qed.
Print Assumptions C85_unique.
Example C85_ex_negative : writes (time_codec i64 1000) (-1500) (jtx (text "-1s499500000mks")) /\
  des (time_codec i64 1000) None 0 (jtx (text "-1s499500000mks")) clean = Ok (498500, [], clean).
Proof. split; [eexists; split; exq|exq]. Qed.
Lemma ex_num n s : int_ser i64 n = Ok (wr s) -> irange i64 n -> numeral n s.
Proof. intros E Hn. destruct (int_ser_numeral i64 n i64_ok Hn) as (s' & E' & Hs). rewrite E in E'. injection E' as E'. assert (flat (wr s) = flat (wr s')) as F by now rewrite E'. rewrite !flat_wr in F. now subst. Qed.
Lemma ex_amount n s u : int_ser i64 n = Ok (wr s) -> irange i64 n -> n <> 0 -> amount n u (s ++ u).
Proof. intros. constructor; [assumption|now apply ex_num]. Qed.
Example C85_ex_clock : clock (-93784) (text "-1d-2h-3m-4s") /\ fraction 1000000 5006 (text "5ms6mks").
Proof.
  split.
  - refine (clk _ (-1) (-2) (-3) (-4) (text "-1" ++ text "d") (text "-2" ++ text "h") (text "-3" ++ text "m") (text "-4" ++ text "s") _ _ _ _ _ _ _ _ _);
      first [lia|apply ex_amount; [exq|apply i64_small; lia|lia]].
  - refine (frac _ _ 5 6 (text "5" ++ text "ms") (text "6" ++ text "mks") _ _ _ _ _); first [lia|apply ex_amount; [exq|apply i64_small; lia|lia]].
Qed.

(** ---- C86 ---- *)
Theorem C86_size : forall t metric v txt, ity_ok t -> 1 <= metric < 2 ^ 63 -> irange t v -> - 2 ^ 63 <= v * metric < 2 ^ 63 ->
  (writes (size_codec t metric) v txt <-> size_text (isize t) metric v txt).
Proof.
  intros t metric v txt Ht Hm Hv Hb. change (2 ^ 63) with 9223372036854775808 in *.
  apply size_writes_text; [exact Ht|lia|apply i64_range; lia|]. split; [exact Hv|apply i64_range; lia].
Qed.
Print Assumptions C86_size.
Theorem C86_unique : forall w metric v x y, size_text w metric v x -> size_text w metric v y -> x = y.
Proof. exact size_text_unique. Qed.
Print Assumptions C86_unique.
Theorem C86_overflow : forall t metric v, - 2 ^ 63 <= v < 2 ^ 63 -> 1 <= metric < 2 ^ 63 -> ~ - 2 ^ 63 <= v * metric < 2 ^ 63 -> ser (size_codec t metric) v = UB.
Proof.
  intros t metric v Hv Hm Hb. change (2 ^ 63) with 9223372036854775808 in *. apply size_overflow; [apply i64_range; lia|apply i64_range; lia|].
  intros K. apply Hb. apply (proj1 (i64_range _)) in K. lia.
Qed.
Print Assumptions C86_overflow.
(** decimal and binary metrics, zero, a number no unit divides, a type too small for GiB *)
Example C86_ex : writes (size_codec i64 1000) 1024 (jtx (text "1024KB")) /\ writes (size_codec i64 1024) 1000 (jtx (text "1000KiB")) /\ writes (size_codec i64 1) 1024000 (jtx (text "1024KB")) /\
  writes (size_codec i64 8) 128000 (jtx (text "1000KiB")) /\ writes (size_codec i64 1000000) 0 (jtx (text "0MB")) /\ writes (size_codec i64 1) 0 (text "0") /\
  writes (size_codec i64 1) 1001 (text "1001") /\ writes (size_codec i32 1024) 1048576 (jtx (text "1024MiB")) /\ writes (size_codec i64 1024) 1048576 (jtx (text "1GiB")).
Proof. repeat (split; [eexists; split; exq|]). eexists; split; exq. Qed.
Example C86_ex_overflow : ser (size_codec i64 1024) (2 ^ 60) = UB. Proof. apply C86_overflow; vm_compute; intuition congruence. Qed.
