(** Proofs about the reports of show_parse. *)
From Verif Require Import Base Parser SpecJson SpecNum SpecString SpecSeq ParserFacts Grammar1 Grammar2 Out StringS Number Array Object Wrap CodecLaws
  StringProofs ArrayProofs ObjectProofs SpecReport SpecExact ExactProofs ObjExactProofs SpecRefuse RefuseProofs SpecFail FailProofs FailWrapProofs Programs SpecPrograms ProgramProofs SpecShow.
Import ListNotations.

Definition gets (out : list buf) (o : fail) (x : res (list buf * buf * eptr)) : Prop :=
  match o with None => x = UB | Some j => is_err j = true /\ x = Ok (out, [], Some j) end.
Lemma cerr_keep c m t j : is_err j = true -> cerr c m t (Some j) = Some j.
Proof. intros H. unfold cerr. now rewrite H. Qed.
Lemma heads_no c s : ~ heads c s -> forall d t, s = d :: t -> d =? c = false.
Proof. intros H d t ->. destruct (Z.eqb_spec d c) as [->|]; [|reflexivity]. exfalso. apply H. now exists t. Qed.
Lemma item_nonempty sn s l r : shown_item sn s l r -> s <> [].
Proof. intros [s' v r' (t & ->) _|v r' _ H]; [discriminate|]. destruct (wvalue_head _ (proj1 H)) as (c & t & -> & _). discriminate. Qed.
Lemma item_bytes sn s l r : bytes s -> shown_item sn s l r -> bytes r.
Proof. intros Hb H. apply item_suffix in H. exact (bytes_suffix _ _ H Hb). Qed.

(** the beginning of an iteration *)
Lemma loop_at sn f out s s1 : after_gap s s1 -> s1 <> [] -> ~ heads RBR s1 ->
  show_loop sn (S f) out s C0 =
  (let* (out', s2, e2, stop) := show_item sn out s1 C0 in
   if (stop : bool) then Ok (out', [], e2)
   else let '(s3, e3) := parse_space s2 e2 in
     match s3 with
     | [] => Ok (out', [], cerr ExpectedOf (Some [RBR]) (dist s3) e3)
     | d :: t3 => if negb (d =? COMMA) && negb (d =? RBR) then Ok (out', [], cerr ExpectedOf (Some [RBR]) (dist s3) e3)
                  else show_loop sn f out' (if d =? COMMA then t3 else s3) e3
     end).
Proof.
  intros H1 N1 N2. cbn [show_loop]. destruct s as [|c0 t0]; [apply after_gap_nil in H1; congruence|]. destruct (c0 =? RBR) eqn:Ec.
  { exfalso. assert (c0 = RBR) as -> by lia. apply space_exact in H1. pose proof (rbr_gap t0) as G. apply space_exact in G. rewrite G in H1. injection H1 as <-. apply N2. now exists t0. }
  apply space_exact in H1. rewrite H1. destruct s1 as [|c t1]; [congruence|]. cbn [deref bind]. now rewrite (heads_no _ _ N2 c t1 eq_refl).
Qed.
Lemma stuck_loop sn s ls o : stuck sn s ls o -> bytes s -> forall f out, (length s < f)%nat -> gets (out ++ concat ls) o (show_loop sn (S f) out s C0).
Proof.
  induction 1 as [|s H|s N H|s s1 v r j H Hh F|s s1 o H N1 N2 N3 F|s s1 l s2 s3 H N1 HI H2 N2 N3|s s1 l s2 H N1 HI H2|s s1 l s2 s3 ls o H N1 HI H2 HS IH]; intros Hb f out Hf; cbn [concat]; rewrite ?app_nil_r.
  - split; reflexivity.
  - cbn [show_loop]. destruct s as [|c0 t0].
    { destruct H as (g & u & E & _). now destruct g. }
    destruct (c0 =? RBR) eqn:Ec.
    { exfalso. assert (c0 = RBR) as -> by lia. exact (not_open_gap _ _ (rbr_gap t0) H). }
    apply open_exact in H. rewrite H. destruct sn as [c|]; cbn [deref bind]; [|reflexivity]. destruct (c =? RBR).
    + split; [reflexivity|]. unfold show_close. now rewrite cerr_keep.
    + unfold show_item. cbn [is_string starts]. destruct (ObjectProofs.pv_law (Some c) []) as [(rr & oo & Hv & Ho & _)|[K _]]; [|discriminate]. rewrite (Hv (Some comment_error)). cbn [bind].
      assert (rr = []) as -> by (apply suffix_of_nil; apply Ho). rewrite (bad_app (Some comment_error) oo) by (exists comment_error; now split). split; [reflexivity|]. unfold parse_space. cbn. reflexivity.
  - cbn [show_loop]. destruct s as [|c0 t0]; [congruence|]. destruct (c0 =? RBR) eqn:Ec.
    { exfalso. assert (c0 = RBR) as -> by lia. apply space_exact in H. pose proof (rbr_gap t0) as G. apply space_exact in G. rewrite G in H. discriminate. }
    apply space_exact in H. rewrite H. destruct sn as [c|]; cbn [deref bind]; [|reflexivity]. destruct (c =? RBR); split; reflexivity.
  - pose proof Hh as (t & Et). rewrite (loop_at sn f out s s1 H) by (subst s1; (discriminate || (intros (z & E); discriminate))). unfold show_item. apply is_string_heads in Hh. rewrite Hh.
    pose proof (after_gap_bytes _ _ H Hb) as Hb1. apply (string_fails sn []) in F; [|exact Hb1]. destruct F as (Hj & E). fold C0 in E. rewrite E. cbn [bind]. rewrite Hj. now split.
  - rewrite (loop_at sn f out s s1 H N1 N2). unfold show_item. pose proof (after_gap_bytes _ _ H Hb) as Hb1.
    assert (is_string s1 = false) as -> by (destruct (is_string s1) eqn:K; [apply is_string_heads in K; contradiction|reflexivity]).
    apply parse_fails in F; [|exact Hb1]. unfold ends, gets in *. unfold parse in F. destruct o as [j|]; [|rewrite F; reflexivity]. destruct F as (Hj & ->). cbn [bind]. rewrite gap_nil. split; [exact Hj|]. now rewrite cerr_keep.
  - pose proof (item_nonempty _ _ _ _ HI) as N0. rewrite (loop_at sn f out s s1 H N0 N1), (show_item_complete sn out _ _ _ HI). cbn [bind]. apply space_exact in H2. rewrite H2.
    split; [reflexivity|]. destruct s3 as [|d t3]; [reflexivity|]. rewrite (heads_no _ _ N2 d t3 eq_refl), (heads_no _ _ N3 d t3 eq_refl). reflexivity.
  - pose proof (item_nonempty _ _ _ _ HI) as N0. rewrite (loop_at sn f out s s1 H N0 N1), (show_item_complete sn out _ _ _ HI). cbn [bind]. apply open_exact in H2. rewrite H2. split; reflexivity.
  - pose proof (item_nonempty _ _ _ _ HI) as N0. rewrite (loop_at sn f out s s1 H N0 N1), (show_item_complete sn out _ _ _ HI). cbn [bind].
    pose proof (item_suffix _ _ _ _ HI) as L2. pose proof (after_gap_suffix _ _ H) as L1. pose proof (suffix_len _ _ L1). pose proof (suffix_len _ _ L2). pose proof (after_gap_len _ _ H2) as L3. cbn [length] in L3.
    pose proof (after_gap_bytes _ _ H2 (item_bytes _ _ _ _ (after_gap_bytes _ _ H Hb) HI)) as Hb3. apply space_exact in H2. rewrite H2. change (COMMA =? COMMA) with true. cbn [negb andb].
    destruct f as [|f]; [lia|]. rewrite app_assoc. apply IH; [now inversion Hb3|lia].
Qed.
Lemma Z_of_head (s : buf) : (exists t, s = COMMA :: t) \/ (exists t, s = RBR :: t) \/ (~ heads COMMA s /\ ~ heads RBR s).
Proof.
  destruct s as [|c t]; [right; right; split; intros (z & E); discriminate|]. destruct (Z.eq_dec c COMMA) as [->|N1]; [left; now exists t|]. destruct (Z.eq_dec c RBR) as [->|N2]; [right; left; now exists t|].
  right. right. split; intros (z & E); congruence.
Qed.
(** every text is one or the other *)
Lemma array_or_stuck sn n : forall s, bytes s -> (length s < n)%nat -> (exists ls r, elements (shown_item sn) RBR s ls r) \/ exists ls o, stuck sn s ls o.
Proof.
  induction n as [|n IH]; intros s Hb Hn; [lia|]. destruct s as [|c t]; [right; eexists _, _; apply st_end|].
  destruct (space_cases (c :: t)) as [(s1 & _ & H)|(_ & H)]; [|right; eexists _, _; now apply st_comment].
  pose proof (after_gap_bytes _ _ H Hb) as Hb1. destruct s1 as [|c1 t1]; [right; eexists _, _; now apply st_beyond|].
  destruct (Z.eq_dec c1 RBR) as [->|N1]; [left; eexists _, _; apply el_end; exact H|]. assert (~ heads RBR (c1 :: t1)) as N2 by (intros (z & E); congruence).
  assert ((exists l s2, shown_item sn (c1 :: t1) l s2) \/ exists o, stuck sn (c :: t) [] o) as [(l & s2 & HI)|(o & K)]; [|..|right; eauto].
  { destruct (Z.eq_dec c1 QT) as [->|N3].
    - destruct (string_des_clean sn [] (QT :: t1) Hb1) as [(b & r & E)|(b & r & j & Hj & E)].
      + left. exists [b], r. apply si_string; [now exists t1|exact E].
      + right. exists (Some j). apply st_string with (QT :: t1) b r; [exact H|now exists t1|]. apply (string_fails sn []); [exact Hb1|]. now split.
    - assert (~ heads QT (c1 :: t1)) as N4 by (intros (z & E); congruence). destruct (parse_total sn (c1 :: t1) Hb1) as [(r & v & E & Hv)|(o & F)].
      + left. exists [], r. rewrite E. apply si_other; [|exact Hv]. intros (z & ->). apply N4. rewrite E. now eexists.
      + right. exists o. apply st_value with (c1 :: t1); auto. discriminate. }
  destruct (space_cases s2) as [(s3 & _ & H3)|(_ & H3)]; [|right; eexists _, _; eapply st_behind; eassumption].
  assert (suffix s3 (c1 :: t1)) as Hs by (eapply suffix_trans; [exact (after_gap_suffix _ _ H3)|exact (item_suffix _ _ _ _ HI)]).
  destruct (Z_of_head s3) as [E|[E|E]].
  - destruct E as (t3 & ->). destruct (IH t3) as [(ls & r & K)|(ls & o & K)].
    + apply bytes_suffix in Hs; [now inversion Hs|exact Hb1].
    + pose proof (suffix_len _ _ Hs). pose proof (after_gap_len _ _ H). cbn [length] in *. lia.
    + left. exists (l :: ls), r. eapply el_more; eassumption.
    + right. exists (l :: ls), o. eapply st_more; eassumption.
  - destruct E as (t3 & ->). left. exists [l], t3. eapply el_last; eassumption.
  - right. eexists _, _. destruct E. eapply st_separator; eassumption.
Qed.
Theorem unshown_gets sn s out o : bytes s -> unshown sn s out o -> gets out o (show_parse sn s C0).
Proof.
  intros Hb HU. destruct HU as [s H|s s1 H N|s t ls o H HS]; unfold show_parse.
  - apply open_exact in H. rewrite H. split; reflexivity.
  - apply space_exact in H. rewrite H. destruct (is_array s1) eqn:Ea; [apply is_array_heads in Ea; contradiction|]. split; reflexivity.
  - pose proof (after_gap_bytes _ _ H Hb) as Hb1. apply space_exact in H. rewrite H. cbn [is_array starts]. change (LBR =? LBR) with true. cbn [negb].
    apply (stuck_loop sn t ls o HS); [now inversion Hb1|lia].
Qed.
Theorem shown_or sn s : bytes s -> (exists out r, shown sn s out r) \/ exists out o, unshown sn s out o.
Proof.
  intros Hb. destruct (space_cases s) as [(s1 & _ & H)|(_ & H)]; [|right; eexists _, _; now apply us_comment].
  pose proof (after_gap_bytes _ _ H Hb) as Hb1. destruct (is_array s1) eqn:Ea.
  - apply is_array_heads in Ea. destruct Ea as (t & ->). destruct (array_or_stuck sn (S (length t)) t) as [(ls & r & K)|(ls & o & K)]; [now inversion Hb1|lia| |].
    + left. exists (concat ls), r, t, ls. now split.
    + right. eexists _, _. eapply us_inside; eassumption.
  - right. eexists _, _. eapply us_start; [exact H|]. intros K. apply is_array_heads in K. congruence.
Qed.
Theorem show_reports sn s out r j : bytes s -> (show_parse sn s C0 = Ok (out, r, Some j) /\ is_err j = true <-> r = [] /\ unshown sn s out (Some j)).
Proof.
  intros Hb. split.
  - intros (E & Hj). destruct (shown_or sn s Hb) as [(out' & r' & K)|(out' & o & K)].
    + apply show_exact in K; [|exact Hb]. rewrite K in E. assert (j = no_error) as -> by (unfold C0 in *; congruence). discriminate.
    + pose proof (unshown_gets sn s out' o Hb K) as G. unfold gets in G. destruct o as [k|]; [|rewrite G in E; discriminate]. destruct G as (_ & G). rewrite G in E. assert (out' = out) as -> by congruence.
      assert (k = j) as -> by congruence. split; [congruence|exact K].
  - intros (-> & K). apply unshown_gets in K; [|exact Hb]. now destruct K.
Qed.
Theorem show_overreads sn s : bytes s -> (show_parse sn s C0 = UB <-> exists out, unshown sn s out None).
Proof.
  intros Hb. split.
  - intros E. destruct (shown_or sn s Hb) as [(out' & r' & K)|(out' & o & K)].
    + apply show_exact in K; [|exact Hb]. rewrite K in E. discriminate.
    + pose proof (unshown_gets sn s out' o Hb K) as G. unfold gets in G. destruct o as [k|]; [|now exists out']. destruct G as (_ & G). rewrite G in E. discriminate.
  - intros (out & K). now apply unshown_gets in K.
Qed.
