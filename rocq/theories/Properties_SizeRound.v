(** C94: exactly which sizes survive a round trip. *)
From Verif Require Import Base Parser SpecJson SpecNum Out Number StringS CodecLaws TimeSize SpecExact SpecSizeRound SizeRoundProofs Properties_Seq Properties_TimeSize.

Theorem C94_sizes : forall t metric v sn old, ity_ok t -> 2 <= isize t -> 1 <= metric < 2 ^ 63 -> irange t v ->
  ((exists ops, ser (size_codec t metric) v = Ok ops /\ reads (size_codec t metric) sn old (flat ops) v []) <-> size_kept metric v).
Proof. exact (fun t metric v sn old => size_round t metric v sn old). Qed.
Print Assumptions C94_sizes.
(** bytes in a signed type always survive ... *)
Theorem C94_signed_bytes : forall t v sn old, ity_ok t -> 2 <= isize t -> isigned t = true -> irange t v ->
  exists ops, ser (size_codec t 1) v = Ok ops /\ reads (size_codec t 1) sn old (flat ops) v [].
Proof.
  intros t v sn old Ht H2 Hs Hv. apply C94_sizes; auto; [lia|]. left. rewrite Z.mul_1_r. change (2 ^ 63) with 9223372036854775808.
  unfold irange, imin, imax in Hv. rewrite Hs in Hv. pose proof (NumberProofs.half_cases t Ht). lia.
Qed.
Print Assumptions C94_signed_bytes.
(** ... of uint64_t the upper half only if no unit divides it *)
Theorem C94_large_bytes : forall v sn old, 2 ^ 63 <= v < 2 ^ 64 ->
  ((exists ops, ser (size_codec u64 1) v = Ok ops /\ reads (size_codec u64 1) sn old (flat ops) v []) <-> ~ (1000 | v) /\ ~ (1024 | v)).
Proof.
  intros v sn old Hv. rewrite C94_sizes; [|unfold ity_ok; cbn; tauto|cbn; lia|lia|].
  - unfold size_kept. replace (byte_count 1 v) with v by (unfold byte_count; ring). split; [intros [(K & _)|(_ & _ & K)]; [lia|exact K]|].
    intros K. right. split; [lia|]. split; [lia|exact K].
  - unfold irange. change (imin u64) with 0. change (imax u64) with 18446744073709551615. change (2 ^ 63) with 9223372036854775808 in Hv. change (2 ^ 64) with 18446744073709551616 in Hv. lia.
Qed.
Print Assumptions C94_large_bytes.
Example C94_ex_large_kept : exists ops, ser (size_codec u64 1) 18446744073709551615 = Ok ops /\ reads (size_codec u64 1) None 7 (flat ops) 18446744073709551615 [].
Proof. eexists. split; [exq|]. unfold reads. exq. Qed.
Example C94_ex_large_lost : exists ops, ser (size_codec u64 1) 10000000000000000000 = Ok ops /\ flat ops = jtx (text "10000000TB") /\ des (size_codec u64 1) None 7 (flat ops) clean = UB.
Proof. eexists. split; [exq|]. split; exq. Qed.
(** a metric above 1 *)
Example C94_ex_kilo : exists ops, ser (size_codec u64 1001) 18446744073709551615 = Ok ops /\ flat ops = text "18446744073709551615" /\ reads (size_codec u64 1001) None 7 (flat ops) 18446744073709551615 [].
Proof. eexists. split; [exq|]. split; [exq|]. unfold reads. exq. Qed.
Example C94_ex_overflow : ser (size_codec i64 1000) 9223372036854776 = UB /\ ~ size_kept 1000 9223372036854776.
Proof. split; [exq|]. intros [(_ & _ & K)|(K & _)]; vm_compute in K; [discriminate|now apply K]. Qed.
