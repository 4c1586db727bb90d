(** C114.  Floating-point values keep their order when they are read and written;
    how far reading is off, and what it does not change. *)
From Coq Require Import QArith Qabs Qround Qpower Lqa.
From Verif Require Import Base Parser SpecJson SpecNum SpecMisc Out CodecLaws Float FloatProofs Fp SpecFp FpProofs FpTextProofs FpWriteProofs FpSciProofs FpOrderProofs.
From Verif Require Import ParserFacts Grammar1 Grammar2 Properties_Seq Properties_Fp.
Open Scope Z_scope.

(** Of two numbers that fit the buffer, the larger one is not read as a smaller value. *)
Theorem C114_read : forall F R t t' q q' r r' sn sn' old old' e e' v v' x x', format_ok F ->
  denotes t q -> rnumber t -> Z.of_nat (length t) <= (if R =? -1 then 20 else 20 + R) -> follow r ->
  denotes t' q' -> rnumber t' -> Z.of_nat (length t') <= (if R =? -1 then 20 else 20 + R) -> follow r' ->
  des (real_codec F R) sn old (t ++ r) e = Ok (v, r, x) -> des (real_codec F R) sn' old' (t' ++ r') e' = Ok (v', r', x') ->
  (q <= q')%Q -> (worth v <= worth v')%Q.
Proof.
  intros F R t t' q q' r r' sn sn' old old' e e' v v' x x' HF D Hn Hl Hr D' Hn' Hl' Hr' E E' H.
  destruct (C110_nearest F R t q r sn old e HF D Hn Hr Hl) as (w & W & N & _). destruct (C110_nearest F R t' q' r' sn' old' e' HF D' Hn' Hr' Hl') as (w' & W' & N' & _).
  rewrite E in W. injection W as <- _. rewrite E' in W'. injection W' as <- _. now apply (nearest_mono F q q').
Qed.
Print Assumptions C114_read.
(** Of two values, the larger one is not written as a smaller number. *)
Theorem C114_fixed : forall F R v v' ops ops' q q', format_ok F -> 0 <= R -> finite F v -> not_too_large v -> finite F v' -> not_too_large v' ->
  ser (real_codec F R) v = Ok ops -> ser (real_codec F R) v' = Ok ops' -> denotes (flat ops) q -> denotes (flat ops') q' ->
  (worth v <= worth v')%Q -> (q <= q')%Q.
Proof.
  intros F R v v' ops ops' q q' HF HR Hv Lv Hv' Lv' E E' D D' H. destruct (C111_text F R v HF HR Hv Lv) as (o & p & O & _ & _ & P & T).
  destruct (C111_text F R v' HF HR Hv' Lv') as (o' & p' & O' & _ & _ & P' & T'). rewrite E in O. injection O as <-. rewrite E' in O'. injection O' as <-.
  rewrite (C110_denotes _ _ _ D P), (C110_denotes _ _ _ D' P'). now apply (decimals_mono R (worth v) (worth v')).
Qed.
Print Assumptions C114_fixed.
Theorem C114_scientific : forall F v v' ops ops' q q', format_ok F -> finite F v -> finite F v' ->
  ser (real_codec F (-1)) v = Ok ops -> ser (real_codec F (-1)) v' = Ok ops' -> denotes (flat ops) q -> denotes (flat ops') q' ->
  (worth v <= worth v')%Q -> (q <= q')%Q.
Proof.
  intros F v v' ops ops' q q' HF Hv Hv' E E' D D' H. destruct (C112_text F v HF Hv) as (o & p & O & _ & _ & _ & P & T & _).
  destruct (C112_text F v' HF Hv') as (o' & p' & O' & _ & _ & _ & P' & T' & _). rewrite E in O. injection O as <-. rewrite E' in O'. injection O' as <-.
  rewrite (C110_denotes _ _ _ D P), (C110_denotes _ _ _ D' P'). now apply (seven_mono (worth v) (worth v')).
Qed.
Print Assumptions C114_scientific.
(** So the order also survives being written with one precision and read by another type. *)
Theorem C114_through : forall F G R v v' ops ops' r r' w w' e e' x x' sn sn' old old', format_ok F -> format_ok G ->
  (R = -1 \/ 0 <= R /\ not_too_large v /\ not_too_large v') -> finite F v -> finite F v' ->
  ser (real_codec F R) v = Ok ops -> ser (real_codec F R) v' = Ok ops' -> follow r -> follow r' ->
  des (real_codec G R) sn old (flat ops ++ r) e = Ok (w, r, x) -> des (real_codec G R) sn' old' (flat ops' ++ r') e' = Ok (w', r', x') ->
  (worth v <= worth v')%Q -> (worth w <= worth w')%Q.
Proof.
  intros F G R v v' ops ops' r r' w w' e e' x x' sn sn' old old' HF HG HR Hv Hv' E E' Hr Hr' D D' H.
  assert (forall u o, finite F u -> ser (real_codec F R) u = Ok o -> (R = -1 \/ 0 <= R /\ not_too_large u) ->
    exists q, rnumber (flat o) /\ denotes (flat o) q /\ Z.of_nat (length (flat o)) <= (if R =? -1 then 20 else 20 + R)) as K.
  { intros u o Hu O [-> |[HR0 L]].
    - destruct (C112_text F u HF Hu) as (o1 & q & O1 & S & Hl & _ & Q & _). rewrite O in O1. injection O1 as <-. exists q. split; [apply sci_number; exact S|]. split; [exact Q|]. cbn. lia.
    - destruct (fin_mfin F u Hu) as (neg & m & z & -> & M). destruct (fixed_out F R neg m z HF HR0 M L) as (Hn & Hl & S). rewrite O in S. injection S as ->.
      pose proof (mag_nonneg m z ltac:(destruct M; lia)) as N. destruct (fixed_shape R neg (mag m z) HR0 N) as (_ & _ & q & Q & _). exists q. rewrite flat_wr.
      split; [exact Hn|]. split; [exact Q|]. unfold bufsize in Hl. destruct (R =? -1) eqn:ER; lia. }
  destruct (K v ops Hv E ltac:(tauto)) as (q & N1 & Q & L1). destruct (K v' ops' Hv' E' ltac:(tauto)) as (q' & N1' & Q' & L1').
  apply (C114_read G R (flat ops) (flat ops') q q' r r' sn sn' old old' e e' w w' x x'); auto.
  destruct HR as [-> |(HR & L & L')]; [now apply (C114_scientific F v v' ops ops')|now apply (C114_fixed F R v v' ops ops')].
Qed.
Print Assumptions C114_through.
(** The value read is off by half a unit of the last place at most: relatively one
    part in 2^prec, absolutely (below the normal numbers) half the smallest value. *)
Theorem C114_error : forall F R t q r sn old e v x, format_ok F -> denotes t q -> rnumber t ->
  Z.of_nat (length t) <= (if R =? -1 then 20 else 20 + R) -> follow r ->
  (Qabs q <= inject_Z (2 ^ prec F - 1) * 2 ^ hi F)%Q -> des (real_codec F R) sn old (t ++ r) e = Ok (v, r, x) ->
  (Qabs (worth v - q) <= (1 # 2) * 2 ^ lo F \/ Qabs (worth v - q) <= Qabs q * / 2 ^ prec F)%Q.
Proof.
  intros F R t q r sn old e v x HF D Hn Hl Hr B E. destruct (C110_nearest F R t q r sn old e HF D Hn Hr Hl) as (w & W & N & _).
  rewrite E in W. injection W as <- _. now apply nearest_error.
Qed.
Print Assumptions C114_error.
(** Numbers that are values of the type are read exactly, *)
Theorem C114_exact : forall F R t q r sn old e v x w, format_ok F -> denotes t q -> rnumber t ->
  Z.of_nat (length t) <= (if R =? -1 then 20 else 20 + R) -> follow r -> finite F w -> (q == worth w)%Q ->
  des (real_codec F R) sn old (t ++ r) e = Ok (v, r, x) -> (worth v == q)%Q.
Proof.
  intros F R t q r sn old e v x w HF D Hn Hl Hr Hw Eq E. destruct (C110_nearest F R t q r sn old e HF D Hn Hr Hl) as (u & U & N & _).
  rewrite E in U. injection U as <- _. destruct N as [_ N]. destruct (N w Hw) as [A _]. rewrite Eq in A |- *. revert A. generalize (worth v) (worth w). intros a b. qabs; lra.
Qed.
Print Assumptions C114_exact.
(** so integers of as many bits as the type has are. *)
Lemma int_value F z : format_ok F -> Z.abs z < 2 ^ prec F -> exists w, finite F w /\ (worth w == inject_Z z)%Q.
Proof.
  intros (P & L & H) Hz.
  assert (exists m e, mfin F m e /\ mag m e == inject_Z (Z.abs z))%Q as (m & e & M & E).
  { destruct (Z.eq_dec z 0) as [-> |N].
    - exists 0, (lo F). split; [repeat split; auto; lia|]. unfold mag. change (inject_Z (Z.abs 0)) with 0%Q. change (inject_Z 0) with 0%Q. ring.
    - destruct (Z.log2_spec (Z.abs z) ltac:(lia)) as [G1 G2]. set (l := Z.log2 (Z.abs z)) in *. assert (0 <= l) as Pl by apply Z.log2_nonneg.
      assert (l < prec F) as Ul by (apply (Z.pow_lt_mono_r_iff 2); lia).
      set (d := Z.min (- lo F) (prec F - 1 - l)). assert (0 <= d) as Pd by (unfold d; lia). assert (0 < 2 ^ d) as P2 by (apply Z.pow_pos_nonneg; lia).
      exists (Z.abs z * 2 ^ d), (- d). split.
      + repeat split; try (unfold d; lia); try nia.
        * apply Z.lt_le_trans with (2 ^ Z.succ l * 2 ^ d); [nia|]. rewrite <- Z.pow_add_r by lia. apply Z.pow_le_mono_r; unfold d; lia.
        * destruct (Z_le_gt_dec (- lo F) (prec F - 1 - l)) as [C|C]; [right; unfold d; lia|left].
          apply Z.le_trans with (2 ^ l * 2 ^ d); [|nia]. rewrite <- Z.pow_add_r by lia. apply Z.pow_le_mono_r; unfold d; lia.
      + rewrite mag_pow by lia. replace (- d + d) with 0 by lia. unfold mag. change (2 ^ 0)%Q with 1%Q. ring. }
  exists (Fin (z <? 0) m e). split; [exact M|]. rewrite worth_signed. destruct (Z.ltb_spec z 0); cbn [signed]; rewrite E.
  - rewrite <- inject_Z_opp. replace (- Z.abs z) with z by lia. reflexivity.
  - now replace (Z.abs z) with z by lia.
Qed.
Theorem C114_integers : forall F R t q z r sn old e v x, format_ok F -> denotes t q -> rnumber t ->
  Z.of_nat (length t) <= (if R =? -1 then 20 else 20 + R) -> follow r -> (q == inject_Z z)%Q -> Z.abs z < 2 ^ prec F ->
  des (real_codec F R) sn old (t ++ r) e = Ok (v, r, x) -> (worth v == inject_Z z)%Q.
Proof.
  intros F R t q z r sn old e v x HF D Hn Hl Hr Eq Hz E. destruct (int_value F z HF Hz) as (w & Hw & Ew).
  rewrite <- Eq. eapply (C114_exact F R t q r sn old e v x w); eauto. now rewrite Ew.
Qed.
Print Assumptions C114_integers.

Example C114_ex_order :
  des (real_codec f32 (-1)) None fp0 (text "16777217") clean = Ok (Fin false 8388608 1, [], clean) /\
  des (real_codec f32 (-1)) None fp0 (text "16777216") clean = Ok (Fin false 8388608 1, [], clean) /\
  des (real_codec f32 (-1)) None fp0 (text "-16777215") clean = Ok (Fin true 16777215 0, [], clean).
Proof. repeat split; exq. Qed.
Example C114_ex_int : finite f64 (Fin false 9007199254740991 0) /\
  des (real_codec f64 (-1)) None fp0 (text "9007199254740991") clean = Ok (Fin false 9007199254740991 0, [], clean).
Proof. split; [cbn; lia|exq]. Qed.
(** The order is not strict: 2^24 and 2^24+1 are one float, and neighbours are
    written alike. *)
Theorem C114_strict_refuted : exists v v' ops, finite f64 v /\ finite f64 v' /\ (worth v < worth v')%Q /\
  ser (real_codec f64 (-1)) v = Ok ops /\ ser (real_codec f64 (-1)) v' = Ok ops.
Proof.
  exists (Fin false 6004799503160661 (-54)), (Fin false 6004799503160662 (-54)), (wr (text "3.333333e-01")).
  split; [cbn; lia|]. split; [cbn; lia|]. split; [apply Qlt_alt; vm_compute; reflexivity|]. split; exq.
Qed.
Print Assumptions C114_strict_refuted.
(** One bit more and an integer is read as its neighbour. *)
Theorem C114_integers_refuted : exists t z v, Z.abs z = 2 ^ 53 + 1 /\ denotes t (inject_Z z) /\ rnumber t /\
  des (real_codec f64 (-1)) None fp0 t clean = Ok (v, [], clean) /\ (worth v == inject_Z (z - 1))%Q.
Proof.
  assert (digits (text "007199254740993")) as Z0 by alldig.
  assert (rint (text "9007199254740993")) as Hi by (change (rint (57 :: text "007199254740993")); constructor; [lia|exact Z0]).
  exists (text "9007199254740993"), 9007199254740993, (Fin false 4503599627370496 1). split; [reflexivity|]. split.
  - pose proof (den [] (text "9007199254740993") [] [] rm_none (rint_digits1 _ Hi) rf_none re_none) as D. vm_compute in D. exact D.
  - split; [exact (rnum [] (text "9007199254740993") [] [] rm_none Hi rf_none re_none)|]. split; [exq|vm_compute; reflexivity].
Qed.
Print Assumptions C114_integers_refuted.
