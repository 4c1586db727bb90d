(** C113.  Values that do not come back as they were, inside any description:
    what they come back as, and that nothing changes after that. *)
From Coq Require Import QArith Qabs Lqa.
From Verif Require Import Base Parser SpecJson SpecNum SpecSeq SpecString Out Number StringS Array Object ObjectArray SpecObject Enum SpecEnum Wrap SpecWrap
  TimeSize SpecTime Float SpecMisc Fp SpecFp CodecLaws StringProofs ArrayProofs ObjectProofs FloatProofs FpProofs FpTextProofs FpWriteProofs FpSciProofs
  Desc DescProofs SpecType SpecSettle SettleProofs Properties_Settle SpecTwin TwinProofs Properties_Seq Properties_Object Properties_Fp.
Open Scope Z_scope.

Theorem C113_back : forall A (c : codec A) N v w, twins A c N -> N v w ->
  exists ops, ser c v = Ok ops /\
    (forall sn old r e, follow r -> no_err_yet e = true -> des c sn old (flat ops ++ r) e = Ok (w, r, e)) /\
    ser c w = Ok ops.
Proof.
  intros A c N v w H Hv. destruct (rdesc_rt A c _ (twins_rdesc A c N H) w (ex_intro _ v Hv)) as (ops & E & _ & D).
  exists ops. split; [rewrite <- E; now apply (twins_ser A c N H)|]. split; [exact D|exact E].
Qed.
Print Assumptions C113_back.
(** so there is one such value at most *)
Theorem C113_one : forall A (c : codec A) N v w w', twins A c N -> N v w -> N v w' -> w = w'.
Proof.
  intros A c N v w w' H Hw Hw'. destruct (C113_back A c N v w H Hw) as (ops & E & D & _). destruct (C113_back A c N v w' H Hw') as (ops' & E' & D' & _).
  rewrite E in E'. injection E' as <-. specialize (D None v [] None I eq_refl). specialize (D' None v [] None I eq_refl). congruence.
Qed.
Print Assumptions C113_one.

(** There is one for every floating-point value, and for flags whose listed
    values do not include 0. *)
Theorem C113_fixed : forall F R v, format_ok F -> 0 <= R -> finite F v -> not_too_large v ->
  exists q w, to_decimals R (worth v) q /\ nearest F q w /\ negative w = negative v.
Proof.
  intros F R v HF HR Hv B. destruct (C111_text F R v HF HR Hv B) as (ops & q & _ & _ & S & D & T).
  destruct (denotes_get F _ q HF D [] I) as (q0 & P & _ & E0). destruct (round_nearest F (minus_first (flat ops)) q0 HF P) as [N1 S1].
  eexists q, _. split; [exact T|]. split; [apply (nearest_comp F _ _ _ E0 N1)|]. now rewrite S1.
Qed.
Print Assumptions C113_fixed.
Theorem C113_scientific : forall F v, format_ok F -> finite F v ->
  exists q w, to_seven (worth v) q /\ nearest F q w /\ negative w = negative v.
Proof.
  intros F v HF Hv. destruct (C112_text F v HF Hv) as (ops & q & _ & _ & _ & S & D & T & _).
  destruct (denotes_get F _ q HF D [] I) as (q0 & P & _ & E0). destruct (round_nearest F (minus_first (flat ops)) q0 HF P) as [N1 S1].
  eexists q, _. split; [exact T|]. split; [apply (nearest_comp F _ _ _ E0 N1)|]. now rewrite S1.
Qed.
Print Assumptions C113_scientific.
Lemma lor_in x : forall l a, Z.land x (fold_left Z.lor l a) = x <-> Z.land x (Z.lor a (fold_left Z.lor l 0)) = x.
Proof.
  intros l a. assert (fold_left Z.lor l a = Z.lor a (fold_left Z.lor l 0)) as ->; [|reflexivity].
  revert a. induction l as [|y l IH]; intros a; cbn [fold_left]; [now rewrite Z.lor_0_r|]. rewrite IH, (IH (Z.lor 0 y)), Z.lor_0_l. now rewrite Z.lor_assoc.
Qed.
Lemma sub_lor x y : Z.land x y = x <-> Z.lor x y = y.
Proof.
  split; intros H; apply Z.bits_inj'; intros n _; pose proof (f_equal (fun z => Z.testbit z n) H) as K; cbn beta in K;
    rewrite ?Z.lor_spec, ?Z.land_spec in *; destruct (Z.testbit x n), (Z.testbit y n); auto.
Qed.
Lemma fold_lor_sub v : forall l, (forall x, In x l -> Z.land x v = x) -> Z.lor (fold_left Z.lor l 0) v = v.
Proof.
  assert (forall l a, fold_left Z.lor l a = Z.lor a (fold_left Z.lor l 0)) as G.
  { induction l as [|y l IH]; intros a; cbn [fold_left]; [now rewrite Z.lor_0_r|]. rewrite IH, (IH (Z.lor 0 y)), Z.lor_0_l. now rewrite Z.lor_assoc. }
  induction l as [|y l IH]; intros H; cbn [fold_left]; [apply Z.lor_0_l|]. rewrite Z.lor_0_l, G, <- Z.lor_assoc, IH by (intros x Hx; apply H; now right).
  apply sub_lor, H. now left.
Qed.
Lemma fold_lor_has x : forall l, In x l -> Z.land x (fold_left Z.lor l 0) = x.
Proof.
  induction l as [|y l IH]; intros H; [contradiction|]. cbn [fold_left]. rewrite Z.lor_0_l. apply lor_in. destruct H as [->|H].
  - apply sub_lor. now rewrite Z.lor_assoc, Z.lor_diag.
  - specialize (IH H). apply sub_lor in IH. apply sub_lor. now rewrite (Z.lor_comm y), Z.lor_assoc, IH.
Qed.
Theorem C113_flags : forall L v, ~ In 0 (evals L) ->
  exists w, flag_union L w /\ (forall x, In x (evals L) -> (Z.land x v = x <-> Z.land x w = x)) /\ (In 0 (evals L) -> (v = 0 <-> w = 0)).
Proof.
  intros L v N0. set (on := filter (fun x => Z.land x v =? x) (evals L)). exists (fold_left Z.lor on 0). split; [|split; [|tauto]].
  - exists on. split; [|reflexivity]. intros x Hx. now apply filter_In in Hx.
  - intros x Hx. split; intros H.
    + apply fold_lor_has. apply filter_In. split; [exact Hx|]. now apply Z.eqb_eq.
    + assert (Z.lor (fold_left Z.lor on 0) v = v) as S by (apply fold_lor_sub; intros y Hy; apply filter_In in Hy; lia).
      apply sub_lor in H. apply sub_lor. rewrite <- S, Z.lor_assoc, H. reflexivity.
Qed.
Print Assumptions C113_flags.
(** If 0 has a name and the value has unnamed bits only, the value that comes
    back is written differently. *)
Theorem C113_flags_zero_refuted : exists L v ops w ops', NoDup (map fst L) /\ Forall no_quote (map fst L) /\
  ser (flags_codec COMMA Strict L) v = Ok ops /\ des (flags_codec COMMA Strict L) None 0 (flat ops) clean = Ok (w, [], clean) /\
  ser (flags_codec COMMA Strict L) w = Ok ops' /\ flat ops' <> flat ops.
Proof.
  exists [(text "none", 0); (text "a", 1)], 4. eexists _, 0, _. split; [repeat constructor; cbn; intuition discriminate|].
  split; [repeat constructor; cbn; discriminate|]. split; [exq|]. split; [exq|]. split; [exq|]. vm_compute. discriminate.
Qed.
Print Assumptions C113_flags_zero_refuted.

(** A struct with a price of two decimals, a double of seven digits and flags *)
Record goods := mkgoods { g_price : fp; g_mass : list fp; g_tags : Z }.
Definition gm1 : Object.mem goods := mkmem (text "price") g_price (fun t x => mkgoods x (g_mass t) (g_tags t)) (real_codec f64 2).
Definition gm2 : Object.mem goods := mkmem (text "mass") g_mass (fun t x => mkgoods (g_price t) x (g_tags t)) (vector_codec (real_codec f64 (-1)) fp0).
Definition Ltag : elist := [(text "new", 1); (text "hot", 2)].
Definition gm3 : Object.mem goods := mkmem (text "tags") g_tags (fun t x => mkgoods (g_price t) (g_mass t) x) (flags_codec COMMA Strict Ltag).
Definition Lgoods : list (memb goods) := [MRef gm1; MRef gm2; MProp gm3 0].
Definition goods0 := mkgoods fp0 [] 0.
Definition goods_twin (v w : goods) : Prop :=
  (finite f64 (g_price v) /\ not_too_large (g_price v) /\ negative (g_price w) = negative (g_price v) /\
    exists q, to_decimals 2 (worth (g_price v)) q /\ nearest f64 q (g_price w)) /\
  Forall2 (fun x y => finite f64 x /\ negative y = negative x /\ exists q, to_seven (worth x) q /\ nearest f64 q y) (g_mass v) (g_mass w) /\
  flag_union Ltag (g_tags w) /\ (forall x, In x (evals Ltag) -> (Z.land x (g_tags v) = x <-> Z.land x (g_tags w) = x)).
Lemma goods_twins mode : twins goods (object_codec mode Lgoods goods0) goods_twin.
Proof.
  set (N := fun (m : Object.mem goods) (x y : m_ty m) => exists v w, m_get m v = x /\ m_get m w = y /\ goods_twin v w).
  apply tw_sub with (N := fun v w => Forall (memb_twin N v w) Lgoods).
  - apply tw_object; [intros [a b c] [a' b' c']; reflexivity|repeat constructor|repeat constructor| |].
    + intros b [<-|[<-|[<-|[]]]]; repeat constructor; cbn; discriminate.
    + intros b m [<-|[<-|[<-|[]]]] [<-|[]].
      * eapply tw_sub; [apply (tw_fixed f64 2 f64_ok); lia|]. intros x y (v & w & <- & <- & H & _). exact H.
      * eapply tw_sub; [apply tw_vector, (tw_sci f64); now left|]. intros x y (v & w & <- & <- & _ & H & _). exact H.
      * eapply tw_sub; [apply (tw_flags COMMA Strict Ltag)|].
        -- repeat constructor; cbn; intuition discriminate.
        -- right. split; [reflexivity|]. repeat constructor; cbn; discriminate.
        -- intros x y (v & w & <- & <- & _ & _ & H & H'). split; [exact H|]. split; [exact H'|]. cbn. intuition discriminate.
  - intros v w H. repeat constructor; exists v, w; auto.
Qed.
Theorem C113_goods : forall mode v, finite f64 (g_price v) -> not_too_large (g_price v) -> Forall (finite f64) (g_mass v) ->
  exists w ops, goods_twin v w /\ ser (object_codec mode Lgoods goods0) v = Ok ops /\ ser (object_codec mode Lgoods goods0) w = Ok ops /\
    forall sn old r e, follow r -> no_err_yet e = true -> des (object_codec mode Lgoods goods0) sn old (flat ops ++ r) e = Ok (w, r, e).
Proof.
  intros mode v Hp Hl Hm. destruct (C113_fixed f64 2 (g_price v) f64_ok ltac:(lia) Hp Hl) as (q & p & Tq & Np & Sp).
  assert (exists ms, Forall2 (fun x y => finite f64 x /\ negative y = negative x /\ exists q, to_seven (worth x) q /\ nearest f64 q y) (g_mass v) ms) as [ms Hms].
  { induction Hm as [|x l Hx _ IH]; [exists []; constructor|]. destruct IH as [ms IH]. destruct (C113_scientific f64 x f64_ok Hx) as (q' & y & A & B & C).
    exists (y :: ms). constructor; [|exact IH]. split; [exact Hx|]. split; [exact C|]. now exists q'. }
  destruct (C113_flags Ltag (g_tags v)) as (t & Ut & Et & _); [cbn; intuition discriminate|].
  assert (goods_twin v (mkgoods p ms t)) as G.
  { split; [split; [exact Hp|]; split; [exact Hl|]; split; [exact Sp|]; now exists q|]. split; [exact Hms|]. split; [exact Ut|exact Et]. }
  destruct (C113_back _ _ _ _ _ (goods_twins mode) G) as (ops & E & D & E'). exists (mkgoods p ms t), ops. auto.
Qed.
Print Assumptions C113_goods.
(** price 1/3, masses 2/3 and -1/1024, and a bit that has no name *)
Definition g1 := mkgoods (Fin false 6004799503160661 (-54)) [Fin false 6004799503160661 (-53); Fin true 4503599627370496 (-62)] 6.
Definition g2 := mkgoods (Fin false 5944751508129055 (-54)) [Fin false 6004799803400636 (-53); Fin true 4503599627370496 (-62)] 2.
Example C113_ex_goods : exists ops, ser (object_codec Strict Lgoods goods0) g1 = Ok ops /\
  flat ops = jt "{'price':0.33,'mass':[6.666667e-01,-9.765625e-04],'tags':['hot']}" /\
  des (object_codec Strict Lgoods goods0) None goods0 (flat ops) clean = Ok (g2, [], clean) /\ ser (object_codec Strict Lgoods goods0) g2 = Ok ops.
Proof. eexists. split; [exq|]. split; [exq|]. split; exq. Qed.
(** a char array with rubbish behind the end of its text, and an empty raw value *)
Example C113_ex_chars : twins _ (chars_codec 6) (fun v w => v = [97; 208; 150] ++ 0 :: text "xy" /\ w = [97; 208; 150] ++ [0; 0; 0]) /\
  exists ops, ser (chars_codec 6) ([97; 208; 150] ++ 0 :: text "xy") = Ok ops /\ flat ops = [QT; 97; 208; 150; QT] /\
  des (chars_codec 6) None (text "zzzzzz") (flat ops) clean = Ok ([97; 208; 150; 0; 0; 0], [], clean).
Proof.
  split; [|eexists; split; [exq|split; exq]]. eapply tw_sub; [apply (tw_chars 6); unfold INT_MAX; lia|].
  intros v w [-> ->]. split; [reflexivity|]. exists [97; 208; 150], (text "xy"). split; [reflexivity|]. split; [|reflexivity].
  apply Forall_forall. intros c [<-|[<-|[<-|[]]]]; unfold str_char, short_ctl; lia.
Qed.
Example C113_ex_raw : exists ops, ser (vector_codec raw_codec []) [[]; text "1"] = Ok ops /\ flat ops = jt "['',1]" /\
  des (vector_codec raw_codec []) None [] (flat ops) clean = Ok ([jt "''"; text "1"], [], clean).
Proof. eexists. split; [exq|]. split; exq. Qed.

(** Whatever text such a description accepts: the value read is written, comes
    back as its partner, and the partner is written alike. *)
Theorem C113_settle : forall A (c : codec A) T O G N, hdesc T A c O G -> twins A c N -> (forall v, G v -> exists w, N v w) -> (forall p s, T (p ++ s) -> T s) ->
  forall sn old s v r, bytes s -> T s -> O old -> SpecExact.reads c sn old s v r ->
  exists w ops, N v w /\ ser c v = Ok ops /\ ser c w = Ok ops /\
    forall sn' old' r' e', follow r' -> no_err_yet e' = true -> des c sn' old' (flat ops ++ r') e' = Ok (w, r', e').
Proof.
  intros A c T O G N Hh Hw Ex HT sn old s v r Hb Ht Ho E. destruct (hdesc_holds T A c O G Hh HT) as [_ HR].
  destruct (Ex v (HR sn old s v r Hb Ht Ho E)) as [w W]. destruct (C113_back A c N v w Hw W) as (ops & A1 & A2 & A3). exists w, ops. auto.
Qed.
Print Assumptions C113_settle.
(** Floating-point values read from any text are finite, flags are unions. *)
Theorem C113_read : forall T F R, format_ok F -> hdesc T _ (real_codec F R) (finite F) (finite F) /\
  forall sep mode L, hdesc T _ (flags_codec sep mode L) (flag_union L) (flag_union L).
Proof.
  intros T F R HF. split; [|intros sep mode L; apply hd_typed, td_flags]. apply hd_typed, td_float; [|now apply nothing_finite].
  intros txt. unfold get. destruct (lead_minus _) as [neg s1]. destruct (run s1) as [i s2]. destruct (point s2) as [f s3].
  destruct (i ++ f); [now apply nothing_finite|]. destruct (power s3); [now apply round_finite|now apply nothing_finite].
Qed.
Print Assumptions C113_read.
(** Tables of doubles with names, in any order and repeated. *)
Definition row_codec := vector_codec (real_codec f64 (-1)) fp0.
Definition table_codec := dict_vec_codec string_codec row_codec ([], []).
Definition rounded (v w : fp) : Prop := finite f64 v /\ negative w = negative v /\ exists q, to_seven (worth v) q /\ nearest f64 q w.
Theorem C113_table : forall sn old s l r, bytes s -> mild s -> SpecExact.reads table_codec sn old s l r ->
  exists l' ops, Forall2 (fun p p' => fst p = fst p' /\ Forall2 rounded (snd p) (snd p')) l l' /\ ser table_codec l = Ok ops /\ ser table_codec l' = Ok ops /\
    forall sn' old' r' e', follow r' -> no_err_yet e' = true -> des table_codec sn' old' (flat ops ++ r') e' = Ok (l', r', e').
Proof.
  intros sn old s l r Hb Hm E.
  assert (hdesc mild _ table_codec (fun _ => True) (Forall (fun p => str_dom (fst p) /\ Forall (finite f64) (snd p)))) as Hh.
  { apply hd_dict with (fun _ => True) (fun _ => True); [exact (proj1 (C69_mild_strings mild (fun _ H => H)))| |exact I|exact I].
    apply hd_vector with (finite f64); [exact (proj1 (C113_read mild f64 (-1) f64_ok))|cbn; lia]. }
  assert (twins _ table_codec (Forall2 (fun p p' => (fst p = fst p' /\ str_dom (fst p')) /\ Forall2 rounded (snd p) (snd p')))) as Hw.
  { apply (tw_dict _ _ string_codec row_codec ([], []) (fun v w => v = w /\ str_dom w)); [apply tw_same, rd_string|]. apply tw_vector, tw_sci. now left. }
  destruct (C113_settle _ _ _ _ _ _ Hh Hw) with (sn := sn) (old := old) (s := s) (v := l) (r := r) as (w & ops & Hn & A1 & A2 & A3); auto.
  - clear. intros v H. induction H as [|[k x] v [Hk Hx] _ IH]; [exists []; constructor|]. destruct IH as [w IH].
    assert (exists y, Forall2 rounded x y) as [y Hy].
    { cbn [snd] in Hx. clear - Hx. induction Hx as [|u x Hu _ IH]; [exists []; constructor|]. destruct IH as [y IH]. destruct (C113_scientific f64 u f64_ok Hu) as (q & z & A & B & C).
      exists (z :: y). constructor; [|exact IH]. split; [exact Hu|]. split; [exact C|]. now exists q. }
    exists ((k, y) :: w). constructor; [|exact IH]. cbn [fst snd] in *. auto.
  - exact mild_closed.
  - exists w, ops. split; [|auto]. eapply Forall2_impl; [|exact Hn]. intros p p' [[A _] B]. auto.
Qed.
Print Assumptions C113_table.
Example C113_ex_table : exists l l' ops, SpecExact.reads table_codec None [] (jt "{'b' : [1, 0.333333333], 'a':[ 1e400]}") l [] /\ ser table_codec l = Ok ops /\
  flat ops = jt "{'b':[1.000000e+00,3.333333e-01],'a':[1.797693e+308]}" /\ SpecExact.reads table_codec None [] (flat ops) l' [] /\ l' <> l /\ ser table_codec l' = Ok ops.
Proof. eexists _, _, _. split; [unfold SpecExact.reads; exq|]. split; [exq|]. split; [exq|]. split; [unfold SpecExact.reads; exq|]. split; [vm_compute; discriminate|exq]. Qed.
