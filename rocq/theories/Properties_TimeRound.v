(** C93: exactly which time intervals survive a round trip. *)
From Verif Require Import Base Parser SpecJson SpecNum Out Number StringS CodecLaws TimeSize SpecExact SpecTimeRound TimeRoundProofs Properties_Seq Properties_TimeSize.

(** time_interval_ms: written and read back with nothing left over exactly when
    its fraction of a second is one of [ms_kept] *)
Theorem C93_milliseconds : forall t v sn old, ity_ok t -> irange t 1000 -> irange t v ->
  ((exists ops, ser (time_codec t 1000) v = Ok ops /\ reads (time_codec t 1000) sn old (flat ops) v []) <-> ms_kept t (Z.rem v 1000)).
Proof. exact (fun t v sn old => ms_round t v sn old). Qed.
Print Assumptions C93_milliseconds.
(** time_interval_mks: the values that are not negative and the whole seconds *)
Theorem C93_microseconds : forall t v sn old, ity_ok t -> irange t 1000000 -> irange t v ->
  ((exists ops, ser (time_codec t 1000000) v = Ok ops /\ reads (time_codec t 1000000) sn old (flat ops) v []) <-> 0 <= v \/ Z.rem v 1000000 = 0).
Proof. exact (fun t v sn old => mks_round t v sn old). Qed.
Print Assumptions C93_microseconds.
(** so that int64_t is the only type in which no duration is lost in milliseconds ... *)
Theorem C93_only_int64 : forall t sn old, ity_ok t -> irange t 1000 ->
  ((forall v, irange t v -> 0 <= v -> exists ops, ser (time_codec t 1000) v = Ok ops /\ reads (time_codec t 1000) sn old (flat ops) v []) <-> t = i64).
Proof.
  intros t sn old Ht Hf. split.
  - intros H. assert (I : irange t 3) by (unfold irange in *; pose proof (TimeProofs.irange_0 t Ht) as Z0; unfold irange in Z0; lia).
    apply (C93_milliseconds t 3 sn old Ht Hf I) in H; [|exact I|lia]. change (Z.rem 3 1000) with 3 in H. destruct t as (sz & sg). destruct H as [H|(S & H)]; [discriminate|].
    cbn [isigned isize] in *. subst sg. destruct H as [(-> & _)|[(_ & [H|H])|(_ & H)]]; [reflexivity|lia|lia|]. exfalso. cbn in H. lia.
  - intros -> v Hv Hp. apply C93_milliseconds; auto. pose proof (Z.rem_nonneg v 1000 ltac:(lia) Hp).
    destruct (Z.eq_dec (Z.rem v 1000) 0) as [E|E]; [now left|right]. split; [reflexivity|left]. split; [reflexivity|lia].
Qed.
Print Assumptions C93_only_int64.
(** ... and no type keeps a negative fraction *)
Theorem C93_negative : forall t v sn old, ity_ok t -> irange t 1000 -> irange t v -> Z.rem v 1000 < 0 ->
  ~ exists ops, ser (time_codec t 1000) v = Ok ops /\ reads (time_codec t 1000) sn old (flat ops) v [].
Proof.
  intros t v sn old Ht Hf Hv HR H. apply C93_milliseconds in H; auto. set (R := Z.rem v 1000) in *. clearbody R.
  destruct H as [H|(_ & [H|[H|(_ & H)]])]; [lia..|]. assert (P : Forall (fun x => 0 < x) short_ms) by (repeat (apply Forall_cons; [lia|]); apply Forall_nil).
  rewrite Forall_forall in P. specialize (P R H). lia.
Qed.
Print Assumptions C93_negative.
Example C93_ex_kept : exists ops, ser (time_codec i64 1000) 61007 = Ok ops /\ flat ops = jtx (text "1m1s7ms") /\ reads (time_codec i64 1000) None 5 (flat ops) 61007 [].
Proof. eexists. split; [exq|]. split; [exq|]. unfold reads. exq. Qed.
(** a short of 66 ms survives, one of 65 ms does not *)
Example C93_ex_short : exists ops, ser (time_codec (mkity 2 true) 1000) 66 = Ok ops /\ flat ops = jtx (text "66ms") /\ reads (time_codec (mkity 2 true) 1000) None 5 (flat ops) 66 [].
Proof. eexists. split; [exq|]. split; [exq|]. unfold reads. exq. Qed.
Example C93_ex_short_lost : exists ops v, ser (time_codec (mkity 2 true) 1000) 65 = Ok ops /\ des (time_codec (mkity 2 true) 1000) None 5 (flat ops) clean = Ok (v, [], clean) /\ v <> 65.
Proof. eexists. eexists. split; [exq|]. split; [exq|]. lia. Qed.
Example C93_ex_unsigned_lost : exists ops v, ser (time_codec u32 1000) 1 = Ok ops /\ des (time_codec u32 1000) None 5 (flat ops) clean = Ok (v, [], clean) /\ v <> 1.
Proof. eexists. eexists. split; [exq|]. split; [exq|]. lia. Qed.
Example C93_ex_microseconds : exists ops, ser (time_codec i32 1000000) 2147483647 = Ok ops /\ reads (time_codec i32 1000000) None 5 (flat ops) 2147483647 [].
Proof. eexists. split; [exq|]. unfold reads. exq. Qed.
