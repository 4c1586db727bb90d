(** C110-C112.  Floating-point members: what is read, what is written, and what
    comes back, for the conversions of the C++ streams (Fp.v). *)
From Coq Require Import QArith Qabs Qround Qpower Lqa.
From Verif Require Import Base Parser SpecJson SpecNum SpecMisc Out CodecLaws Float FloatProofs Fp SpecFp FpProofs FpTextProofs FpWriteProofs FpSciProofs FpExactProofs.
From Verif Require Import SpecExact ExactProofs.
From Verif Require Import ParserFacts Grammar1 Grammar2 Properties_Seq.
Open Scope Z_scope.

Lemma f32_ok : format_ok f32. Proof. repeat split; cbn; lia. Qed.
Lemma f64_ok : format_ok f64. Proof. repeat split; cbn; lia. Qed.
Lemma f80_ok : format_ok f80. Proof. repeat split; cbn; lia. Qed.
Lemma bufsize_len R (t : buf) : Z.of_nat (length t) <= (if R =? -1 then 20 else 20 + R) -> (length t <= bufsize R)%nat.
Proof. unfold bufsize. destruct (R =? -1); lia. Qed.

Ltac alldig := apply Forall_forall; intros c Hc; vm_compute in Hc; unfold s_digit; repeat (destruct Hc as [<-|Hc]; [lia|]); contradiction.

(** C110.  A number that fits the buffer is read as the value of the type
    nearest to it (the even one of two), with the sign of the text. *)
Theorem C110_nearest : forall F R t q r sn old e, format_ok F -> denotes t q -> rnumber t -> follow r ->
  Z.of_nat (length t) <= (if R =? -1 then 20 else 20 + R) ->
  exists v, des (real_codec F R) sn old (t ++ r) e = Ok (v, r, e) /\ nearest F q v /\ negative v = minus_first t.
Proof.
  intros F R t q r sn old e HF D Hn Hr Hl. exists (get F t). split.
  - apply (float_read R (put R) (get F) (get F)); auto; [now apply get_law|now apply bufsize_len].
  - destruct (denotes_get F t q HF D [] I) as (q0 & P & G & E). rewrite app_nil_r in G. rewrite G.
    destruct (round_nearest F (minus_first t) q0 HF P) as [N S]. split; [|exact S]. now apply nearest_comp with (if minus_first t then - q0 else q0)%Q.
Qed.
Print Assumptions C110_nearest.
(** that value is the only one *)
Theorem C110_one : forall F q v w, format_ok F -> nearest F q v -> nearest F q w -> negative v = negative w -> v = w.
Proof. exact nearest_unique. Qed.
Print Assumptions C110_one.
(** and so is the number a text stands for *)
Theorem C110_denotes : forall t q q', denotes t q -> denotes t q' -> (q == q')%Q.
Proof. exact denotes_fun. Qed.
Print Assumptions C110_denotes.
Definition fp0 := Fin false 0 (-1074).
Example C110_ex_tenth : des (real_codec f64 (-1)) None fp0 (text "0.1,") clean = Ok (Fin false 7205759403792794 (-56), text ",", clean).
Proof. exq. Qed.
(** 2^53+1 is half way: the even neighbour *)
Example C110_ex_tie : des (real_codec f64 (-1)) None fp0 (text "9007199254740993") clean = Ok (Fin false 4503599627370496 1, [], clean) /\
  des (real_codec f64 (-1)) None fp0 (text "9007199254740995") clean = Ok (Fin false 4503599627370498 1, [], clean).
Proof. split; exq. Qed.
Example C110_ex_edges :
  des (real_codec f64 (-1)) None fp0 (text "-0.0]") clean = Ok (Fin true 0 (-1074), text "]", clean) /\
  des (real_codec f32 (-1)) None fp0 (text "1e-45") clean = Ok (Fin false 1 (-149), [], clean) /\
  des (real_codec f32 (-1)) None fp0 (text "7e-46") clean = Ok (Fin false 0 (-149), [], clean) /\
  des (real_codec f32 (-1)) None fp0 (text "-3.5E+38") clean = Ok (Fin true 16777215 104, [], clean) /\
  des (real_codec f32 (-1)) None fp0 (text "16777217") clean = Ok (Fin false 8388608 1, [], clean).
Proof. repeat split; exq. Qed.
Example C110_ex_denotes : exists q, denotes (text "-12.50e-1") q /\ (q == -5 # 4)%Q /\ rnumber (text "-12.50e-1").
Proof.
  pose proof (den [MINUS] (text "12") (text ".50") (text "e-1") rm_some) as D. eexists. split; [apply D|].
  - split; [discriminate|]. alldig.
  - change (text ".50") with (46 :: [53; 48]). constructor. split; [discriminate|]. alldig.
  - change (text "e-1") with (101 :: [45] ++ [49]). constructor; auto. split; [discriminate|]. alldig.
  - split; [vm_compute; reflexivity|].
    apply (rnum [MINUS] (text "12") (text ".50") (text "e-1")).
    + constructor.
    + change (text "12") with (49 :: [50]). constructor; [lia|]. alldig.
    + change (text ".50") with (46 :: [53; 48]). constructor. split; [discriminate|]. alldig.
    + change (text "e-1") with (101 :: [45] ++ [49]). constructor; auto. split; [discriminate|]. alldig.
Qed.
(** a longer number is cut, and may be read as another one altogether *)
Theorem C110_long_refuted : exists t q v, rnumber t /\ denotes t q /\
  des (real_codec f64 (-1)) None fp0 t clean = Ok (v, [], clean) /\ ~ nearest f64 q v /\ (worth v * 1000 < q)%Q.
Proof.
  assert (digits (text "00000000000000000000000")) as Z0 by alldig.
  assert (rint (text "100000000000000000000000")) as Hi by (change (rint (49 :: text "00000000000000000000000")); constructor; [lia|exact Z0]).
  exists (text "100000000000000000000000").
  pose proof (den [] (text "100000000000000000000000") [] [] rm_none (rint_digits1 _ Hi) rf_none re_none) as D.
  pose proof (rnum [] (text "100000000000000000000000") [] [] rm_none Hi rf_none re_none) as N.
  cbn [app] in D, N. rewrite app_nil_r in D, N. eexists _, (Fin false 4882812500000000 11). split; [exact N|]. split; [exact D|]. split; [exq|]. split.
  - intros [_ H]. destruct (H (Fin false 5960464477539062 24)) as [H1 _]; [cbn; lia|]. apply Qle_bool_iff in H1. vm_compute in H1. discriminate.
  - apply Qlt_alt. vm_compute. reflexivity.
Qed.
Print Assumptions C110_long_refuted.

(** Whatever is read, null and broken texts included, the value stays finite. *)
Lemma nothing_finite F : format_ok F -> finite F (nothing F).
Proof. intros (P & L & H). unfold nothing, finite. assert (0 < 2 ^ prec F) by (apply Z.pow_pos_nonneg; lia). lia. Qed.
Lemma round_finite F neg q : format_ok F -> finite F (round F neg q).
Proof.
  intros HF. destruct (Qlt_le_dec 0 q) as [P|P].
  - apply (round_nearest F neg q HF (Qlt_le_weak _ _ P)).
  - unfold round. rewrite (proj2 (Qle_bool_iff q 0) P). apply (nothing_finite F HF).
Qed.
Theorem C110_finite : forall F R sn old s e v r e', format_ok F -> finite F old ->
  des (real_codec F R) sn old s e = Ok (v, r, e') -> finite F v.
Proof.
  intros F R sn old s e v r e' HF Ho. cbn [des real_codec float_codec]. unfold float_des. destruct s as [|c s]; [now intros [= <- _ _]|].
  destruct (is_null (c :: s)). { destruct (parse_null (c :: s) e). intros [= <- _ _]. now apply nothing_finite. }
  destruct (is_number (c :: s)); cbn [negb]; [|now intros [= <- _ _]].
  destruct (parse_number (c :: s) e). intros [= <- _ _]. unfold get. destruct (lead_minus _) as [neg s1]. destruct (run s1) as [i s2].
  destruct (point s2) as [f s3]. destruct (i ++ f); [now apply nothing_finite|]. destruct (power s3); [now apply round_finite|now apply nothing_finite].
Qed.
Print Assumptions C110_finite.
(** null is 0 *)
Theorem C110_null : forall F R sn old r e, format_ok F ->
  exists v, des (real_codec F R) sn old (text "null" ++ r) e = Ok (v, r, e) /\ (worth v == 0)%Q /\ negative v = false.
Proof. intros F R sn old r e HF. exists (nothing F). split; [reflexivity|]. split; [|reflexivity]. cbn [nothing worth]. ring. Qed.
Print Assumptions C110_null.
(** A number cut between the exponent mark and its digits is read as 0. *)
Theorem C110_cut_refuted : exists t q v, rnumber t /\ denotes t q /\ (10 ^ 23 < q)%Q /\
  des (real_codec f64 (-1)) None fp0 t clean = Ok (v, [], clean) /\ (worth v == 0)%Q.
Proof.
  assert (digits (text "234567890123456789")) as Z0 by alldig.
  assert (rint (text "1234567890123456789")) as Hi by (change (rint (49 :: text "234567890123456789")); constructor; [lia|exact Z0]).
  assert (rexp (text "e5")) as Hx by (apply (re_some 101 [] (text "5")); [auto|auto|]; split; [discriminate|alldig]).
  exists (text "1234567890123456789e5"). eexists _, (Fin false 0 (-1074)).
  split; [exact (rnum [] (text "1234567890123456789") [] (text "e5") rm_none Hi rf_none Hx)|].
  split; [exact (den [] (text "1234567890123456789") [] (text "e5") rm_none (rint_digits1 _ Hi) rf_none Hx)|].
  split; [apply Qlt_alt; vm_compute; reflexivity|]. split; [exq|vm_compute; reflexivity].
Qed.
Print Assumptions C110_cut_refuted.
(** Whatever is read without an error, if what was taken fits the buffer and no
    digit follows: null, or a JSON number, its nearest value and its sign; the
    rest may begin with anything that does not lengthen the number. *)
Theorem C110_exact : forall F R sn old s v r, format_ok F -> (forall c t, r = c :: t -> ~ s_digit c) ->
  Z.of_nat (length s) - Z.of_nat (length r) <= (if R =? -1 then 20 else 20 + R) ->
  (reads (real_codec F R) sn old s v r <->
   s = text "null" ++ r /\ finite F v /\ (worth v == 0)%Q /\ negative v = false \/
   exists n q, s = n ++ r /\ rnumber n /\ num_stop n r /\ denotes n q /\ nearest F q v /\ negative v = minus_first n).
Proof.
  intros F R sn old s v r HF Hd Hl. unfold real_codec. rewrite float_exact.
  assert (match r with [] => True | c :: _ => ~ s_digit c end) as Hd' by (destruct r; [exact I|now apply Hd with r]).
  split.
  - intros [[-> ->]|(n & Hn & -> & Hs & ->)].
    + left. split; [reflexivity|]. split; [now apply nothing_finite|]. split; [cbn [nothing worth]; ring|reflexivity].
    + right. rewrite app_length in Hl. destruct (get_number F R n r HF Hn Hs Hd') as (q & D & N & S); [apply bufsize_len; lia|].
      exists n, q. auto 7.
  - intros [(-> & Hf & W & S)|(n & q & -> & Hn & Hs & D & N & S)].
    + left. split; [reflexivity|]. apply (C110_one F 0%Q); [exact HF| | |exact S].
      * split; [exact Hf|]. intros w Hw. split; [|].
        -- rewrite W. setoid_replace (0 - 0)%Q with 0%Q by ring. apply Qabs_nonneg.
        -- rewrite W. setoid_replace (0 - 0)%Q with 0%Q by ring. intros E. left. revert E. qabs; lra.
      * assert (worth (nothing F) == 0)%Q as W0 by (cbn [nothing worth]; ring). split; [now apply nothing_finite|]. intros w Hw. rewrite W0. setoid_replace (0 - 0)%Q with 0%Q by ring.
        split; [apply Qabs_nonneg|]. intros E. left. revert E. qabs; lra.
    + right. exists n. split; [exact Hn|]. split; [reflexivity|]. split; [exact Hs|]. rewrite app_length in Hl.
      destruct (get_number F R n r HF Hn Hs Hd') as (q' & D' & N' & S'); [apply bufsize_len; lia|].
      apply (C110_one F q); [exact HF|exact N| |now rewrite S, S']. apply nearest_comp with q'; [|exact N']. now apply C110_denotes with n.
Qed.
Print Assumptions C110_exact.
Example C110_ex_exact :
  reads (real_codec f64 (-1)) None fp0 (text "1.5.5") (Fin false 6755399441055744 (-52)) (text ".5") /\
  reads (real_codec f64 (-1)) None fp0 (text "1.5x") (Fin false 6755399441055744 (-52)) (text "x") /\
  reads (real_codec f64 (-1)) None fp0 (text "nullx") fp0 (text "x").
Proof. repeat split; exq. Qed.
(** A digit behind a zero: the reader leaves it, yet the value depends on it and on
    what comes after it. *)
Theorem C110_behind_refuted : exists s s' v v' r r', reads (real_codec f64 (-1)) None fp0 s v r /\ reads (real_codec f64 (-1)) None fp0 s' v' r' /\
  s = text "0" ++ r /\ s' = text "0" ++ r' /\ hd_error r = hd_error r' /\ (worth v == 12)%Q /\ (worth v' == 13)%Q.
Proof.
  exists (text "012"), (text "013"), (Fin false 6755399441055744 (-49)), (Fin false 7318349394477056 (-49)), (text "12"), (text "13").
  repeat split; vm_compute; reflexivity.
Qed.
Print Assumptions C110_behind_refuted.

(** C111.  Fixed precision.  The text of a value has the digits asked for, stands
    for a number half a unit of the last digit away at most, and has its sign; if
    two such numbers are equally near, its last digit is even. *)
Lemma fin_mfin F v : finite F v -> exists neg m e, v = Fin neg m e /\ mfin F m e.
Proof. destruct v as [neg m e| |]; try contradiction. intros H. now exists neg, m, e. Qed.
Lemma signed_abs neg q : (0 <= q)%Q -> (Qabs (signed neg q) == q)%Q.
Proof. intros H. destruct neg; cbn [signed]; revert H; qabs; lra. Qed.
Lemma signed_minus neg a b : (Qabs (signed neg a - signed neg b) == Qabs (a - b))%Q.
Proof. destruct neg; cbn [signed]; qabs; lra. Qed.
Lemma fixed_out F R neg m e : format_ok F -> 0 <= R -> mfin F m e -> not_too_large (Fin neg m e) ->
  rnumber (fixed R neg (mag m e)) /\ (length (fixed R neg (mag m e)) <= bufsize R)%nat /\
  ser (real_codec F R) (Fin neg m e) = Ok (wr (fixed R neg (mag m e))).
Proof.
  intros HF HR M B. pose proof (mag_nonneg m e ltac:(destruct M; lia)) as N.
  assert (put R (Fin neg m e) = fixed R neg (mag m e)) as Ep by (unfold put; replace (R =? -1) with false by lia; reflexivity).
  assert (rnumber (fixed R neg (mag m e))) as Hn by (apply (fixed_number (Z.to_nat R)), fixed_shape; auto).
  assert (length (fixed R neg (mag m e)) <= bufsize R)%nat as Hl.
  { unfold bufsize. replace (R =? -1) with false by lia. apply fixed_length; [exact HR|]. split; [exact N|].
    unfold not_too_large in B. rewrite worth_signed, (signed_abs neg _ N) in B. exact B. }
  split; [exact Hn|]. split; [exact Hl|]. rewrite <- Ep in Hn, Hl |- *. now apply float_out.
Qed.
Lemma tie_even R q : 0 <= R -> (Qabs (inject_Z (rne (q * inject_Z (10 ^ R))) / 10 ^ R - q) == (1 # 2) * / 10 ^ R)%Q ->
  Z.Even (rne (q * inject_Z (10 ^ R))).
Proof.
  intros HR H. destruct (rne_spec (q * inject_Z (10 ^ R))) as [_ E]. set (n := rne (q * inject_Z (10 ^ R))) in *. apply E. clearbody n.
  assert (inject_Z (10 ^ R) == 10 ^ R)%Q as X by (now rewrite pow_Z). rewrite X. pose proof (ten_pos R) as T.
  assert (Qabs (inject_Z n - q * 10 ^ R) == 1 # 2)%Q as K.
  { assert (inject_Z n == inject_Z n / 10 ^ R * 10 ^ R)%Q as -> by (field; lra). rewrite scale by exact T. rewrite H. field. lra. }
  set (y := (q * 10 ^ R)%Q) in *. clearbody y. destruct (Qlt_le_dec y (inject_Z n)); [left|right]; revert K; qabs; lra.
Qed.
Lemma fixed_decimals R neg a q : 0 <= R -> (0 <= a)%Q -> (q == signed neg (inject_Z (rne (a * inject_Z (10 ^ R))) / 10 ^ R))%Q -> to_decimals R (signed neg a) q.
Proof.
  intros HR Ha E. pose proof (fixed_error R a HR) as U. pose proof (tie_even R a HR) as V. set (n := rne (a * inject_Z (10 ^ R))) in *.
  exists (if neg then - n else n). rewrite E, signed_minus. split; [|split; [exact U|]].
  - destruct neg; cbn [signed]; [rewrite inject_Z_opp|]; unfold Qdiv; ring.
  - intros T. destruct (V T) as [h ->]. destruct neg; [exists (- h); lia|now exists h].
Qed.
Theorem C111_text : forall F R v, format_ok F -> 0 <= R -> finite F v -> not_too_large v ->
  exists ops q, ser (real_codec F R) v = Ok ops /\ fixed_text (Z.to_nat R) (flat ops) /\ minus_first (flat ops) = negative v /\
    denotes (flat ops) q /\ to_decimals R (worth v) q.
Proof.
  intros F R v HF HR Hv B. destruct (fin_mfin F v Hv) as (neg & m & e & -> & M).
  destruct (fixed_out F R neg m e HF HR M B) as (_ & _ & S). pose proof (mag_nonneg m e ltac:(destruct M; lia)) as N.
  destruct (fixed_shape R neg (mag m e) HR N) as (T & Hm & q & D & E). eexists _, q. split; [exact S|]. rewrite flat_wr.
  split; [exact T|]. split; [exact Hm|]. split; [exact D|]. rewrite worth_signed. now apply fixed_decimals.
Qed.
Print Assumptions C111_text.
Example C111_ex_text :
  ser (real_codec f64 2) (Fin false 4503599627370496 (-55)) = Ok (wr (text "0.12")) /\
  ser (real_codec f64 2) (Fin false 6755399441055744 (-54)) = Ok (wr (text "0.38")) /\
  ser (real_codec f64 2) (Fin true 5764607523034235 (-59)) = Ok (wr (text "-0.01")) /\
  ser (real_codec f64 0) (Fin true 4503599627370496 (-53)) = Ok (wr (text "-0")) /\
  ser (real_codec f64 3) (Fin false 6004799503160661 (-54)) = Ok (wr (text "0.333")).
Proof. repeat split; exq. Qed.

(** Reading that text and writing the value read gives the same text. *)
Theorem C111_again : forall F R v, format_ok F -> 0 <= R -> finite F v -> not_too_large v ->
  exists ops, ser (real_codec F R) v = Ok ops /\
    forall sn old r e, follow r -> exists w, des (real_codec F R) sn old (flat ops ++ r) e = Ok (w, r, e) /\ finite F w /\
      ser (real_codec F R) w = Ok ops.
Proof.
  intros F R v HF HR Hv B. destruct (fin_mfin F v Hv) as (neg & m & x & -> & M).
  destruct (fixed_out F R neg m x HF HR M B) as (Hn & Hl & S). eexists. split; [exact S|]. rewrite flat_wr. intros sn old r e Hr.
  destruct (fixed_again F R neg m x [] HF HR M I) as (m' & x' & G & M' & U & _). rewrite app_nil_r in G. exists (Fin neg m' x').
  split; [|split; [exact M'|]].
  - rewrite <- G. apply (float_read R (put R) (get F) (get F)); auto. now apply get_law.
  - rewrite <- U in Hn, Hl |- *.
    assert (put R (Fin neg m' x') = fixed R neg (mag m' x')) as Ep by (unfold put; replace (R =? -1) with false by lia; reflexivity).
    rewrite <- Ep in Hn, Hl |- *. now apply float_out.
Qed.
Print Assumptions C111_again.

(** A value with no more decimal digits than asked for comes back... *)
Definition decimal (R : Z) (v : fp) : Prop := exists n, (worth v * 10 ^ R == inject_Z n)%Q.
Lemma fixed_rt F R (P : fp -> Prop) : format_ok F -> 0 <= R ->
  (forall neg m e, mfin F m e -> P (Fin neg m e) -> get F (fixed R neg (mag m e) ++ []) = Fin neg m e) ->
  rt (real_codec F R) (fun v => finite F v /\ not_too_large v /\ P v).
Proof.
  intros HF HR H v (Hv & B & HP). apply (float_rt R (put R) (get F) (get F) (nothing F)); [now apply get_law|].
  destruct (fin_mfin F v Hv) as (neg & m & e & -> & M). destruct (fixed_out F R neg m e HF HR M B) as (Hn & Hl & _).
  specialize (H neg m e M HP). rewrite app_nil_r in H.
  assert (put R (Fin neg m e) = fixed R neg (mag m e)) as Ep by (unfold put; replace (R =? -1) with false by lia; reflexivity).
  unfold float_dom. rewrite Ep. auto.
Qed.
Theorem C111_back : forall F R, format_ok F -> 0 <= R ->
  rt (real_codec F R) (fun v => finite F v /\ not_too_large v /\ decimal R v).
Proof.
  intros F R HF HR. apply fixed_rt; auto. intros neg m e M [n E]. rewrite worth_signed in E.
  apply fixed_back with (if neg then - n else n); auto; [exact I|].
  destruct neg; cbn [signed] in E; [|exact E]. rewrite inject_Z_opp, <- E. ring.
Qed.
Print Assumptions C111_back.
(** ...and so does one whose neighbours are further away than two units of the
    last digit. *)
Definition apart (R : Z) (v : fp) : Prop := match v with Fin _ _ e => (2 * / 10 ^ R < 2 ^ e)%Q | _ => False end.
Theorem C111_spaced : forall F R, format_ok F -> 0 <= R ->
  rt (real_codec F R) (fun v => finite F v /\ not_too_large v /\ apart R v).
Proof.
  intros F R HF HR. apply fixed_rt; auto. intros neg m e M E. cbn [apart] in E. apply fixed_spaced; auto; [exact I|].
  assert (2 ^ e == 2 * 2 ^ (e - 1))%Q as X.
  { replace e with (1 + (e - 1)) at 1 by lia. rewrite Qpower_plus by discriminate. reflexivity. }
  rewrite X in E. lra.
Qed.
Print Assumptions C111_spaced.
(** all doubles of 1/4 and more, with 17 digits after the point *)
Example C111_ex_spaced : apart 17 (Fin false 4503599627370496 (-54)) /\ apart 17 (Fin true 9007199254740991 10) /\ ~ apart 16 (Fin false 4503599627370496 (-54)).
Proof. repeat split; try (apply Qlt_alt; vm_compute; reflexivity). intros H. apply Qlt_alt in H. vm_compute in H. discriminate. Qed.
Example C111_ex_back : decimal 2 (Fin true 5066549580791808 (-49)) /\
  ser (real_codec f64 2) (Fin true 5066549580791808 (-49)) = Ok (wr (text "-9.00")) /\
  des (real_codec f64 2) None fp0 (text "-9.00]") clean = Ok (Fin true 5066549580791808 (-49), text "]", clean).
Proof. split; [exists (-900); vm_compute; reflexivity|]. split; exq. Qed.
(** one third does not come back *)
Theorem C111_back_refuted : exists v ops w, finite f64 v /\ not_too_large v /\ ser (real_codec f64 3) v = Ok ops /\
  des (real_codec f64 3) None fp0 (flat ops) clean = Ok (w, [], clean) /\ ~ (worth w == worth v)%Q.
Proof.
  exists (Fin false 6004799503160661 (-54)), (wr (text "0.333")), (Fin false 5998794703657501 (-54)).
  split; [cbn; lia|]. split; [apply Qle_bool_iff; vm_compute; reflexivity|]. split; [exq|]. split; [exq|]. intros H. vm_compute in H. discriminate.
Qed.
Print Assumptions C111_back_refuted.

(** A decimal number read and written with as many digits as it has is the same
    text, if it has fewer digits altogether than the type can tell apart. *)
Theorem C111_decimal : forall F R t q sn old r e, format_ok F -> fixed_text R t -> denotes t q ->
  (Qabs q * 10 ^ Z.of_nat R < inject_Z (2 ^ (prec F - 1)))%Q -> (10 ^ Z.of_nat R * 2 ^ lo F < 1)%Q -> (length t <= 20 + R)%nat -> follow r ->
  exists v ops, des (real_codec F (Z.of_nat R)) sn old (t ++ r) e = Ok (v, r, e) /\ ser (real_codec F (Z.of_nat R)) v = Ok ops /\ flat ops = t.
Proof.
  intros F R t q sn old r e HF Ht D B HR Hl Hr.
  assert (forall q', denotes t q' -> (q' == q)%Q) as Uq.
  { intros q' D'. now apply denotes_fun with t. }
  assert (forall q', denotes t q' -> Qabs q' * 10 ^ Z.of_nat R < inject_Z (2 ^ (prec F - 1)))%Q as B' by (intros q' D'; now rewrite (Uq q' D')).
  destruct (decimal_again F R t [] HF Ht I B' HR) as (m & x & G & M & U). rewrite app_nil_r in G.
  assert (put (Z.of_nat R) (get F t) = t) as Ep by (rewrite G; unfold put; replace (Z.of_nat R =? -1) with false by lia; exact U).
  assert (length t <= bufsize (Z.of_nat R))%nat as Hb by (unfold bufsize; replace (Z.of_nat R =? -1) with false by lia; lia).
  pose proof (fixed_number R t Ht) as Hn. exists (get F t), (wr t). rewrite flat_wr.
  split; [|split; [|reflexivity]].
  - apply (float_read (Z.of_nat R) (put (Z.of_nat R)) (get F) (get F)); auto. now apply get_law.
  - rewrite <- Ep at 2. apply float_out; now rewrite Ep.
Qed.
Print Assumptions C111_decimal.
(** for doubles: fewer than 2^52 units of the last digit, that is any fifteen
    digits *)
Theorem C111_double : forall R t q sn old r e, (R <= 300)%nat -> fixed_text R t -> denotes t q ->
  (Qabs q * 10 ^ Z.of_nat R < inject_Z (2 ^ 52))%Q -> follow r ->
  exists v ops, des (real_codec f64 (Z.of_nat R)) sn old (t ++ r) e = Ok (v, r, e) /\ ser (real_codec f64 (Z.of_nat R)) v = Ok ops /\ flat ops = t.
Proof.
  intros R t q sn old r e HR Ht D B Hr. pose proof (ten_pos (Z.of_nat R)) as T.
  apply C111_decimal with q; auto; [exact f64_ok| |].
  - apply Qle_lt_trans with (10 ^ 300 * 2 ^ lo f64)%Q; [|apply Qlt_alt; vm_compute; reflexivity].
    apply Qmult_le_compat_r; [|apply Qlt_le_weak, two_pos].
    change 10%Q with (inject_Z 10). rewrite <- !pow_Z by lia. apply (proj1 (injZ_le _ _)). apply Z.pow_le_mono_r; lia.
  - destruct (fixed_text_self R t Ht) as (n & Hn & (q0 & D0 & E0) & U). rewrite (denotes_fun t q q0 D D0), E0 in B.
    rewrite signed_abs in B. 2: { apply Qle_shift_div_l; [exact T|]. rewrite Qmult_0_l. now apply injZ_nonneg. }
    assert (n < 2 ^ 52) as Bn. { apply (proj2 (injZ_lt _ _)). assert (inject_Z n / 10 ^ Z.of_nat R * 10 ^ Z.of_nat R == inject_Z n)%Q as <- by (field; lra). exact B. }
    specialize (U (inject_Z n / 10 ^ Z.of_nat R)%Q).
    rewrite <- U.
    + pose proof (fixed_length (Z.of_nat R) (minus_first t) (inject_Z n / 10 ^ Z.of_nat R)%Q ltac:(lia)) as L.
      replace (20 + R)%nat with (Z.to_nat (20 + Z.of_nat R)) by lia. apply L.
      assert (1 <= 10 ^ Z.of_nat R)%Q as T1.
      { change 10%Q with (inject_Z 10). rewrite <- pow_Z by lia. change 1%Q with (inject_Z 1). apply (proj1 (injZ_le _ _)). pose proof (Z.pow_pos_nonneg 10 (Z.of_nat R)). lia. }
      split; [apply Qle_shift_div_l; [exact T|]; rewrite Qmult_0_l; now apply injZ_nonneg|].
      apply Qle_shift_div_r; [exact T|]. apply Qle_trans with (inject_Z (10 ^ 18 - 1) * 1)%Q; [|rewrite !(Qmult_comm (inject_Z (10 ^ 18 - 1))); apply Qmult_le_compat_r; [exact T1|apply injZ_nonneg; lia]].
      rewrite Qmult_1_r. apply (proj1 (injZ_le _ _)). lia.
    + apply rne_int. rewrite pow_Z by lia. change (inject_Z 10) with 10%Q. field. lra.
Qed.
Print Assumptions C111_double.
Example C111_ex_double :
  des (real_codec f64 5) None fp0 (text "-9999999999.99999}") clean = Ok (Fin true 5242879999999995 (-19), text "}", clean) /\
  ser (real_codec f64 5) (Fin true 5242879999999995 (-19)) = Ok (wr (text "-9999999999.99999")).
Proof. split; exq. Qed.
(** larger values are cut and come back as other ones *)
Theorem C111_large_refuted : exists v ops w, finite f64 v /\ (worth v == 10 ^ 22)%Q /\ ser (real_codec f64 2) v = Ok ops /\
  des (real_codec f64 2) None fp0 (flat ops) clean = Ok (w, [], clean) /\ (worth w == 10 ^ 21)%Q.
Proof.
  exists (Fin false 4768371582031250 21), (wr (text "1000000000000000000000")), (Fin false 7629394531250000 17).
  split; [cbn; lia|]. split; [vm_compute; reflexivity|]. split; [exq|]. split; [exq|vm_compute; reflexivity].
Qed.
Print Assumptions C111_large_refuted.

(** C112.  Scientific notation.  Any finite value is written in at most fifteen
    characters as a number of seven digits, the first of which is not 0 unless
    the value is, half a unit of the seventh digit away at most; that digit is
    even if two such numbers are equally near. *)
Lemma sci_out F neg m e : format_ok F -> mfin F m e -> sci_text (scientific neg (mag m e)) /\
  ser (real_codec F (-1)) (Fin neg m e) = Ok (wr (scientific neg (mag m e))).
Proof.
  intros HF M. destruct (seven_bounds F m e HF M) as (n & k & E & Bn & Bk). destruct (sci_shape neg (mag m e) n k E Bn Bk) as (S & _).
  split; [exact S|]. destruct (sci_number _ S) as [Hn Hl].
  apply (float_out (-1) (put (-1)) (get F) (nothing F) (Fin neg m e)); [exact Hn|unfold bufsize; exact Hl].
Qed.
Lemma sci_first F neg m e s d x : format_ok F -> mfin F m e -> m <> 0 -> scientific neg (mag m e) = s ++ d :: DOT :: x -> ropt_minus s -> d <> 48.
Proof.
  intros HF M Nz E Hs. assert (0 < mag m e)%Q as P.
  { pose proof (mag_pos_low F m e M Nz) as L. pose proof (two_pos (lo F)) as T. lra. }
  destruct (decade (mag m e) P) as (k & n & _ & _ & _ & _ & Bn & _ & S). unfold scientific in E. rewrite S in E.
  assert (forall n' y, 10 ^ 6 <= n' < 10 ^ 7 -> sign neg ++ digs 1 (n' / 10 ^ 6) ++ DOT :: y = s ++ d :: DOT :: x -> d <> 48) as X.
  { intros n' y B Q. assert (1 <= n' / 10 ^ 6 < 10) as Bd by (split; [apply Z.div_le_lower_bound; lia|apply Z.div_lt_upper_bound; lia]).
    cbn [digs app] in Q. rewrite Z.mod_small in Q by lia. set (h := n' / 10 ^ 6) in *. clearbody h. remember (48 + h) as c eqn:Ec. destruct neg, Hs; cbn [sign app] in Q; injection Q; intros; subst; lia. }
  destruct (n =? 10 ^ 7) eqn:C; eapply X; try eassumption; lia.
Qed.
(** the seven digits: no other number of as many is nearer, and of two equally
    near ones it is the even one *)
Lemma seven_digits_of q n k neg y : (0 <= q)%Q -> seven q = (n, k) -> (y == signed neg (inject_Z n * 10 ^ (k - 6)))%Q -> to_seven (signed neg q) y.
Proof.
  intros P0 E Y. destruct (Qlt_le_dec 0 q) as [P|P].
  2: { assert (q == 0)%Q as Z0 by lra. left. rewrite (seven_zero _ Z0) in E. injection E as <- <-. rewrite Y.
       set (t := (10 ^ (0 - 6))%Q). change (inject_Z 0) with 0%Q. clearbody t. destruct neg; cbn [signed]; split; lra. }
  right. destruct (seven_value q n k P E) as (j & V & Ej). destruct (decade q P) as (j' & n' & Ej' & En & L & U & Bn & D & _).
  assert (j' = j) as -> by congruence. clear Ej'. rewrite <- En in V. pose proof (ten_pos (j - 6)) as T.
  exists (if neg then - n' else n'), (j - 6). replace (j - 6 + 6) with j by lia. replace (j - 6 + 7) with (j + 1) by lia.
  rewrite signed_abs by exact P0. split; [exact L|]. split; [exact U|].
  assert (Y' : (y == signed neg (inject_Z n' * 10 ^ (j - 6)))%Q) by (rewrite Y; destruct neg; cbn [signed]; rewrite V; reflexivity).
  split; [rewrite Y'; destruct neg; cbn [signed]; [rewrite inject_Z_opp; ring|reflexivity]|].
  rewrite Y', signed_minus, Qabs_Qminus. split; [exact D|]. intros Tie.
  assert (Z.Even n') as [h ->]; [|destruct neg; [exists (- h); lia|now exists h]].
  destruct (rne_spec (q / 10 ^ (j - 6))) as [_ Ev]. rewrite <- En in Ev. apply Ev. set (t := (10 ^ (j - 6))%Q) in *.
  assert (Qabs (q / t - inject_Z n') == 1 # 2)%Q as K.
  { apply Qmult_inj_r with t; [lra|]. rewrite <- scale by exact T. rewrite <- Tie.
    assert (q / t * t == q)%Q as -> by (field; lra). reflexivity. }
  set (x := (q / t)%Q) in *. clearbody x. destruct (Qlt_le_dec x (inject_Z n')); [left|right]; revert K; qabs; lra.
Qed.
Theorem C112_text : forall F v, format_ok F -> finite F v ->
  exists ops q, ser (real_codec F (-1)) v = Ok ops /\ sci_text (flat ops) /\ (length (flat ops) <= 15)%nat /\ minus_first (flat ops) = negative v /\
    denotes (flat ops) q /\ to_seven (worth v) q /\ (Qabs (q - worth v) <= (1 # 2000000) * Qabs (worth v))%Q /\
    (~ (worth v == 0)%Q -> forall s d x, flat ops = s ++ d :: DOT :: x -> ropt_minus s -> d <> 48).
Proof.
  intros F v HF Hv. destruct (fin_mfin F v Hv) as (neg & m & e & -> & M). destruct (sci_out F neg m e HF M) as [S O].
  pose proof (mag_nonneg m e ltac:(destruct M; lia)) as N.
  destruct (seven_bounds F m e HF M) as (n & k & E & Bn & Bk). destruct (sci_shape neg (mag m e) n k E Bn Bk) as (_ & Hm & q & D & Q).
  exists (wr (scientific neg (mag m e))), q. rewrite flat_wr. split; [exact O|]. split; [exact S|]. split; [now apply sci_length|].
  split; [exact Hm|]. split; [exact D|]. rewrite worth_signed. split; [now apply seven_digits_of with n k|]. split.
  - rewrite Q, signed_minus, signed_abs by exact N. destruct (Qlt_le_dec 0 (mag m e)) as [P|P]; [now apply seven_error|].
    assert (mag m e == 0)%Q as Z0 by lra. rewrite (seven_zero _ Z0) in E. injection E as <- <-. rewrite Z0. change (inject_Z 0) with 0%Q.
    rewrite Qmult_0_l. apply Qle_bool_iff. vm_compute. reflexivity.
  - intros Nz s d x. apply (sci_first F neg m e s d x HF M). intros ->. apply Nz. unfold mag. change (inject_Z 0) with 0%Q.
    destruct neg; cbn [signed]; rewrite Qmult_0_l; reflexivity.
Qed.
Print Assumptions C112_text.
Example C112_ex_text :
  ser (real_codec f64 (-1)) (Fin false 7205759403792794 (-56)) = Ok (wr (text "1.000000e-01")) /\
  ser (real_codec f32 (-1)) (Fin true 1 (-149)) = Ok (wr (text "-1.401298e-45")) /\
  ser (real_codec f32 (-1)) (Fin false 16777215 104) = Ok (wr (text "3.402823e+38")) /\
  ser (real_codec f64 (-1)) (Fin false 5368709119463129 (-29)) = Ok (wr (text "1.000000e+07")) /\
  ser (real_codec f64 (-1)) (Fin true 0 (-1074)) = Ok (wr (text "-0.000000e+00")).
Proof. repeat split; exq. Qed.

(** For double and long double, reading that text and writing the value read
    gives the same text. *)
Theorem C112_again : forall F v, F = f64 \/ F = f80 -> finite F v ->
  exists ops, ser (real_codec F (-1)) v = Ok ops /\
    forall sn old r e, follow r -> exists w, des (real_codec F (-1)) sn old (flat ops ++ r) e = Ok (w, r, e) /\ finite F w /\
      ser (real_codec F (-1)) w = Ok ops.
Proof.
  intros F v HF Hv. assert (format_ok F /\ sci_ok F) as [HO HS] by (destruct HF as [-> | ->]; split; auto using f64_ok, f80_ok, sci_ok_f64, sci_ok_f80).
  destruct (fin_mfin F v Hv) as (neg & m & x & -> & M). destruct (sci_out F neg m x HO M) as [S O]. eexists. split; [exact O|]. rewrite flat_wr.
  intros sn old r e Hr. destruct (sci_number _ S) as [Hn Hl].
  destruct (sci_again F neg m x [] HO HS M I) as (m' & x' & G & M' & U). rewrite app_nil_r in G. exists (Fin neg m' x').
  split; [|split; [exact M'|]].
  - rewrite <- G. apply (float_read (-1) (put (-1)) (get F) (get F)); auto. now apply get_law.
  - rewrite <- U. now apply sci_out.
Qed.
Print Assumptions C112_again.
(** For float that is not so: the text read back is written with another last
    digit. *)
Theorem C112_float_refuted : exists v ops w, finite f32 v /\ ser (real_codec f32 (-1)) v = Ok ops /\
  des (real_codec f32 (-1)) None fp0 (flat ops) clean = Ok (w, [], clean) /\ ser (real_codec f32 (-1)) w <> Ok ops.
Proof.
  exists (Fin false 8470330 70), (wr (text "1.000000e+28")). eexists. split; [cbn; lia|]. split; [exq|]. split; [exq|]. vm_compute. discriminate.
Qed.
Print Assumptions C112_float_refuted.
(** Values of at most seven significant decimal digits come back. *)
Definition seven_digits (v : fp) : Prop := exists N j, Z.abs N < 10 ^ 7 /\ (worth v == inject_Z N * 10 ^ j)%Q.
Theorem C112_back : forall F, format_ok F -> rt (real_codec F (-1)) (fun v => finite F v /\ seven_digits v).
Proof.
  intros F HF v [Hv (N & j & HN & E)]. apply (float_rt (-1) (put (-1)) (get F) (get F) (nothing F)); [now apply get_law|].
  destruct (fin_mfin F v Hv) as (neg & m & e & -> & M). destruct (sci_out F neg m e HF M) as [S _]. destruct (sci_number _ S) as [Hn Hl].
  unfold float_dom. change (put (-1) (Fin neg m e)) with (scientific neg (mag m e)). split; [exact Hn|]. split; [exact Hl|].
  pose proof (mag_nonneg m e ltac:(destruct M; lia)) as P. pose proof (ten_pos j) as T.
  rewrite <- (app_nil_r (scientific neg (mag m e))). apply sci_back with (Z.abs N) j; auto; [exact I| |lia].
  rewrite worth_signed in E. rewrite <- (signed_abs neg _ P), E, Qabs_Qmult. rewrite (Qabs_pos (10 ^ j)%Q) by lra. reflexivity.
Qed.
Print Assumptions C112_back.
Example C112_ex_back : seven_digits (Fin true 5429388417957888 (-42)) /\
  ser (real_codec f64 (-1)) (Fin true 5429388417957888 (-42)) = Ok (wr (text "-1.234500e+03")).
Proof. split; [|exq]. exists (-12345), (-1). split; [lia|]. vm_compute. reflexivity. Qed.
(** One third has more, and does not. *)
Theorem C112_back_refuted : exists v ops w, finite f64 v /\ ser (real_codec f64 (-1)) v = Ok ops /\
  des (real_codec f64 (-1)) None fp0 (flat ops) clean = Ok (w, [], clean) /\ ~ (worth w == worth v)%Q.
Proof.
  exists (Fin false 6004799503160661 (-54)), (wr (text "3.333333e-01")). eexists. split; [cbn; lia|]. split; [exq|]. split; [exq|].
  intros H. vm_compute in H. discriminate.
Qed.
Print Assumptions C112_back_refuted.

(** Infinities and NaN, of either sign, are written as text that is not JSON. *)
Theorem C112_not_finite_refuted : forall F R v neg, -1 <= R -> v = Inf neg \/ v = Nan neg ->
  exists ops, ser (real_codec F R) v = Ok ops /\ (flat ops = text "inf" \/ flat ops = text "-inf" \/ flat ops = text "nan" \/ flat ops = text "-nan") /\ ~ rvalue (flat ops).
Proof.
  intros F R v neg HR Hv. exists (wr (put R v)). rewrite flat_wr.
  assert (length (put R v) <= bufsize R)%nat as Hl.
  { unfold bufsize. assert (length (put R v) <= 4)%nat by (destruct Hv as [-> | ->]; destruct neg; cbn; lia). destruct (R =? -1) eqn:E; lia. }
  split; [|split].
  - cbn [ser real_codec float_codec]. unfold float_ser. rewrite firstn_all2 by exact Hl. destruct Hv as [-> | ->]; destruct neg; reflexivity.
  - destruct Hv as [-> | ->]; destruct neg; cbn [put sign app]; auto.
  - intros V. pose proof (rfc_accept None (put R v) [] clean V I) as P. rewrite app_nil_r in P.
    destruct Hv as [-> | ->]; destruct neg; vm_compute in P; discriminate.
Qed.
Print Assumptions C112_not_finite_refuted.
