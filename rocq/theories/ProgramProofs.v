(** Proofs about the example programs. *)
From Verif Require Import Base Parser SpecJson SpecNum SpecString SpecSeq ParserFacts Grammar1 Grammar2 Out StringS Number Array Object Wrap CodecLaws
  NumberProofs StringProofs ArrayProofs ObjectProofs WrapProofs SpecPtr PtrProofs SpecExact ExactProofs ObjExactProofs WrapExactProofs NearProofs LaterProofs KindProofs SpecPass PassProofs Programs SpecPrograms.
Import ListNotations.

(** ---- show_parse ---- *)
Lemma item_suffix sn s l r : shown_item sn s l r -> suffix r s.
Proof.
  intros H. destruct H as [s v r _ H|v r _ _]; [|now exists v]. unfold reads in H. exact (dl_suffix _ _ _ _ _ _ _ _ _ string_dlaw H).
Qed.
Lemma is_string_heads s : is_string s = true <-> heads QT s.
Proof.
  unfold is_string, starts. destruct s as [|c t]; [split; [discriminate|intros (t & E); discriminate]|]. split.
  - intros E. exists t. f_equal. lia.
  - intros (u & E). injection E as -> _. reflexivity.
Qed.
Lemma show_item_C0 sn out s e out' r : bytes s -> show_item sn out s e = Ok (out', r, C0, false) -> e = C0 /\ exists l, shown_item sn s l r /\ out' = out ++ l.
Proof.
  intros Hb. unfold show_item. destruct (is_string s) eqn:Es.
  - destruct (des string_codec sn [] s e) as [[[v s2] e2]| |] eqn:E; cbn [bind]; try discriminate. destruct e2 as [j|]; [|discriminate]. destruct (is_err j); [discriminate|].
    intros H. injection H as <- <- Ej. subst j. pose proof (dl_C0 _ _ _ _ _ _ _ _ string_dlaw E) as ->. split; [reflexivity|]. exists [v]. split; [|reflexivity]. apply si_string; [now apply is_string_heads|exact E].
  - destruct (parse_value sn s e) as [[s2 e2]| |] eqn:E; cbn [bind]; try discriminate. intros H. injection H as <- <- ->.
    pose proof (value_C0 _ _ _ _ Hb E) as ->. split; [reflexivity|]. apply value_exact in E; [|exact Hb]. destruct E as (v & -> & Hv). exists []. rewrite app_nil_r. split; [|reflexivity].
    apply si_other; [|exact Hv]. intros (t & ->). discriminate.
Qed.
Lemma show_item_complete sn out s l r : shown_item sn s l r -> show_item sn out s C0 = Ok (out ++ l, r, C0, false).
Proof.
  intros H. unfold show_item. destruct H as [s v r Hh H|v r Hh H].
  - apply is_string_heads in Hh. rewrite Hh. unfold reads in H. fold C0 in H. rewrite H. reflexivity.
  - destruct (wvalue_head _ (proj1 H)) as (c & t & E & _). assert (is_string (v ++ r) = false) as ->.
    { destruct (is_string (v ++ r)) eqn:K; [|reflexivity]. exfalso. apply is_string_heads in K. destruct K as (u & K). apply Hh. rewrite E in *. injection K as -> _. now exists t. }
    rewrite (parse_complete sn v r C0 H : parse_value sn (v ++ r) C0 = _). cbn [bind]. now rewrite app_nil_r.
Qed.
Lemma show_close_C0 out s e out' r : show_close out s e = (out', r, C0) -> e = C0 /\ s = RBR :: r /\ out' = out.
Proof.
  unfold show_close. destruct s as [|c t]; [intros H; injection H as _ _ H; now apply C0_cerr in H|]. destruct (c =? RBR) eqn:Ec; cbn [negb].
  - intros H. injection H as <- <- ->. split; [reflexivity|]. split; [f_equal; lia|reflexivity].
  - intros H; injection H as _ _ H; now apply C0_cerr in H.
Qed.
Lemma heads_gap a s : ~ s_ws a -> a <> SLASH -> a <> STAR -> heads a s -> after_gap s s.
Proof. intros H1 H2 H3 (t & ->). exists []. split; [reflexivity|]. split; [constructor|]. split; [exact H1|]. split; [exact H2|]. intros E. now subst. Qed.
Lemma rbr_gap t : after_gap (RBR :: t) (RBR :: t). Proof. apply (heads_gap RBR); [unfold s_ws; lia|lia|lia|now exists t]. Qed.
Lemma bytes_suffix s r : suffix r s -> bytes s -> bytes r. Proof. intros (p & ->) H. now apply bytes_app in H. Qed.

Lemma ok_inj {A} (x y : A) : Ok x = Ok y -> x = y. Proof. congruence. Qed.
(** the error does not disappear *)
Lemma show_loop_C0 sn f : forall out s e out' r, show_loop sn f out s e = Ok (out', r, C0) -> bytes s -> e = C0 /\ exists ls, elements (shown_item sn) RBR s ls r /\ out' = out ++ concat ls.
Proof.
  induction f as [|f IH]; intros out s e out' r E Hb; [discriminate|]. cbn [show_loop] in E. destruct s as [|c0 t0].
  { apply ok_inj, show_close_C0 in E. now destruct E as (_ & E & _). }
  destruct (c0 =? RBR) eqn:Ec0.
  { apply ok_inj, show_close_C0 in E. destruct E as (-> & E & ->). split; [reflexivity|]. exists []. split; [|cbn; now rewrite app_nil_r]. apply el_end. rewrite E. apply rbr_gap. }
  destruct (parse_space (c0 :: t0) e) as [s1 e1] eqn:E1. destruct (deref sn s1) as [c1| |] eqn:Ed; cbn [bind] in E; try discriminate.
  destruct (c1 =? RBR) eqn:Ec1.
  { apply ok_inj, show_close_C0 in E. destruct E as (-> & -> & ->). apply space_C0 in E1. destruct E1 as [-> H1]. split; [reflexivity|]. exists []. split; [now apply el_end|cbn; now rewrite app_nil_r]. }
  destruct (show_item sn out s1 e1) as [[[[o2 s2] e2] stop]| |] eqn:E2; cbn [bind] in E; try discriminate. destruct stop.
  { exfalso. injection E as <- <- ->. unfold show_item in E2. destruct (is_string s1).
    - destruct (des string_codec sn [] s1 e1) as [[[v x] e2]| |]; cbn [bind] in E2; try discriminate. destruct e2 as [j|]; [|discriminate]. destruct (is_err j) eqn:Ej; [|discriminate]. assert (j = no_error) as -> by (unfold C0 in *; congruence). discriminate.
    - destruct (parse_value sn s1 e1) as [[x y]| |]; cbn [bind] in E2; discriminate. }
  destruct (parse_space s2 e2) as [s3 e3] eqn:E3. destruct s3 as [|d t3]; [injection E as _ _ E; now apply C0_cerr in E|].
  destruct (negb (d =? COMMA) && negb (d =? RBR)) eqn:Ed3; [injection E as _ _ E; now apply C0_cerr in E|].
  assert (Hsuf : suffix s1 (c0 :: t0)). { destruct (space_good (c0 :: t0)) as (rr & oo & Hs & (Ho & _)). rewrite Hs in E1. injection E1 as <- _. exact Ho. }
  assert (Hs2 : suffix s2 s1).
  { unfold show_item in E2. destruct (is_string s1).
    - destruct (des string_codec sn [] s1 e1) as [[[v x] e2']| |] eqn:Es; cbn [bind] in E2; try discriminate. pose proof (dl_suffix _ _ _ _ _ _ _ _ _ string_dlaw Es). destruct e2' as [j|]; [|discriminate]. destruct (is_err j); [discriminate|]. now injection E2 as _ <- _.
    - destruct (parse_value sn s1 e1) as [[x y]| |] eqn:Es; cbn [bind] in E2; try discriminate. injection E2 as _ <- _. destruct (pv_law sn s1) as [(rr & oo & Hv & (Ho & _) & _)|[_ Hv]]; rewrite Hv in Es; [|discriminate]. now injection Es as <- _. }
  assert (Hs3 : suffix (d :: t3) s2). { destruct (space_good s2) as (rr & oo & Hs & (Ho & _)). rewrite Hs in E3. injection E3 as <- _. exact Ho. }
  pose proof (bytes_suffix _ _ Hsuf Hb) as Hb1. pose proof (bytes_suffix _ _ Hs3 (bytes_suffix _ _ Hs2 Hb1)) as Hb3.
  assert (Hb3' : bytes (if d =? COMMA then t3 else d :: t3)) by (destruct (d =? COMMA); [now inversion Hb3|exact Hb3]).
  destruct (IH _ _ _ _ _ E Hb3') as (-> & ls & Hl & ->). apply space_C0 in E3. destruct E3 as [-> H3].
  destruct (show_item_C0 _ _ _ _ _ _ Hb1 E2) as (-> & l & Hi & ->). apply space_C0 in E1. destruct E1 as [-> H1]. split; [reflexivity|].
  assert (N : ~ heads RBR s1). { intros (z & ->). cbn in Ed. injection Ed as <-. lia. }
  destruct (d =? COMMA) eqn:Ec.
  - apply Z.eqb_eq in Ec. subst d. exists (l :: ls). split; [now apply el_more with s1 s2 t3|cbn [concat]; now rewrite app_assoc].
  - assert (d = RBR) as -> by lia. assert (ls = [] /\ r = t3) as [-> ->].
    { inversion Hl as [s r' G|s q v s5 r' G NN _ _|s q v s5 s6 l0 r' G NN _ _ _]; subst.
      - split; [reflexivity|]. apply space_exact in G. pose proof (rbr_gap t3) as G'. apply space_exact in G'. rewrite G in G'. now injection G'.
      - exfalso. apply NN. apply space_exact in G. pose proof (rbr_gap t3) as G'. apply space_exact in G'. rewrite G in G'. injection G' as ->. now exists t3.
      - exfalso. apply NN. apply space_exact in G. pose proof (rbr_gap t3) as G'. apply space_exact in G'. rewrite G in G'. injection G' as ->. now exists t3. }
    exists [l]. split; [now apply el_last with s1 s2|cbn [concat]; now rewrite !app_nil_r].
Qed.
Lemma show_loop_complete sn s ls r : elements (shown_item sn) RBR s ls r -> forall f out, (length s < f)%nat ->
  show_loop sn (S f) out s C0 = Ok (out ++ concat ls, r, C0).
Proof.
  induction 1 as [s r H1|s s1 v s2 r H1 N H2 H3|s s1 v s2 s3 l r H1 N H2 H3 H4 IH]; intros f out Hf.
  - cbn [show_loop concat]. rewrite app_nil_r. destruct s as [|c0 t0]; [apply after_gap_nil in H1; discriminate|]. destruct (c0 =? RBR) eqn:Ec.
    + assert (c0 = RBR) as -> by lia. apply space_exact in H1. pose proof (rbr_gap t0) as G. apply space_exact in G. rewrite G in H1. injection H1 as <-. reflexivity.
    + apply space_exact in H1. rewrite H1. reflexivity.
  - pose proof (item_suffix _ _ _ _ H2) as L2. pose proof (after_gap_suffix _ _ H1) as L1. pose proof (suffix_len _ _ L1). pose proof (suffix_len _ _ L2). pose proof (after_gap_len _ _ H3) as L3. cbn [length] in L3.
    destruct f as [|f]; [lia|]. cbn [show_loop]. destruct s as [|c0 t0]; [cbn in *; lia|]. destruct (c0 =? RBR) eqn:Ec.
    { exfalso. assert (c0 = RBR) as -> by lia. apply space_exact in H1. pose proof (rbr_gap t0) as G. apply space_exact in G. rewrite G in H1. injection H1 as <-. apply N. now exists t0. }
    apply space_exact in H1, H3. rewrite H1. destruct s1 as [|c t1]; [cbn in *; lia|]. cbn [deref bind]. destruct (c =? RBR) eqn:Ec1; [exfalso; apply N; exists t1; f_equal; lia|].
    rewrite (show_item_complete sn out _ _ _ H2). cbn [bind]. rewrite H3. change (RBR =? COMMA) with false. change (RBR =? RBR) with true. cbn [negb andb concat].
    rewrite app_nil_r. reflexivity.
  - pose proof (item_suffix _ _ _ _ H2) as L2. pose proof (after_gap_suffix _ _ H1) as L1. pose proof (suffix_len _ _ L1). pose proof (suffix_len _ _ L2). pose proof (after_gap_len _ _ H3) as L3. cbn [length] in L3.
    destruct f as [|f]; [lia|]. change (show_loop sn (S (S f))) with (show_loop sn (S (S f))). remember (S f) as f1. cbn [show_loop]. destruct s as [|c0 t0]; [cbn in *; lia|]. destruct (c0 =? RBR) eqn:Ec.
    { exfalso. assert (c0 = RBR) as -> by lia. apply space_exact in H1. pose proof (rbr_gap t0) as G. apply space_exact in G. rewrite G in H1. injection H1 as <-. apply N. now exists t0. }
    apply space_exact in H1, H3. rewrite H1. destruct s1 as [|c t1]; [cbn in *; lia|]. cbn [deref bind]. destruct (c =? RBR) eqn:Ec1; [exfalso; apply N; exists t1; f_equal; lia|].
    rewrite (show_item_complete sn out _ _ _ H2). cbn [bind]. rewrite H3. change (COMMA =? COMMA) with true. cbn [negb andb concat]. subst f1.
    rewrite IH; [now rewrite app_assoc|cbn [length] in *; lia].
Qed.
Lemma is_array_heads s : is_array s = true <-> heads LBR s.
Proof.
  unfold is_array, starts. destruct s as [|c t]; [split; [discriminate|intros (t & E); discriminate]|]. split.
  - intros E. exists t. f_equal. lia.
  - intros (u & E). injection E as -> _. reflexivity.
Qed.
Theorem show_exact sn s out r : bytes s -> show_parse sn s C0 = Ok (out, r, C0) <-> shown sn s out r.
Proof.
  intros Hb. unfold show_parse, shown. split.
  - destruct (parse_space s C0) as [s1 e1] eqn:E1. destruct (is_array s1) eqn:Ea; cbn [negb]; [|intros E; injection E as _ _ E; now apply C0_cerr in E].
    apply is_array_heads in Ea. destruct Ea as (t & ->). intros E.
    assert (Hs : suffix (LBR :: t) s). { destruct (space_good s) as (rr & oo & Hs & (Ho & _)). rewrite Hs in E1. injection E1 as <- _. exact Ho. }
    pose proof (bytes_suffix _ _ Hs Hb) as Hb1. apply show_loop_C0 in E; [|now inversion Hb1]. destruct E as (-> & ls & Hl & ->). exists t, ls. split; [now apply space_exact|]. now split.
  - intros (t & ls & H1 & Hl & ->). apply space_exact in H1. rewrite H1. cbn [is_array starts negb]. change (LBR =? LBR) with true. cbn [negb].
    rewrite (show_loop_complete _ _ _ _ Hl); [reflexivity|lia].
Qed.

(** It never runs out of fuel, and with a json_error and a readable byte behind
    the text it is defined. *)
Lemma show_item_total sn out s k : match show_item sn out s (Some k) with
  | Ok (_, r, e, _) => suffix r s /\ exists k', e = Some k' | UB => sn = None | Fuel => False end.
Proof.
  unfold show_item. destruct (is_string s).
  - pose proof (string_dlaw sn [] s (Some k)) as G. pose proof (string_dsafe sn [] s (Some k)) as U. cbn [des string_codec] in *. destruct (string_des sn [] s (Some k)) as [[[v r] e]| |]; cbn [bind]; [|congruence|exact G].
    destruct G as [G1 G2]. assert (exists k', e = Some k') as (k' & ->) by (destruct G2 as [->|(k1 & j & _ & _ & -> & _)]; eauto). destruct (is_err k'); (split; [|eauto]); [exists s; now rewrite app_nil_r|exact G1].
  - destruct (pv_law sn s) as [(r & o & H & (Ho & _) & _)|[H1 H]]; rewrite H; cbn [bind]; [|exact H1]. split; [exact Ho|]. unfold app_err. destruct o; cbn; [destruct (is_err k); eauto|eauto].
Qed.
Lemma space_total s k : exists r k', parse_space s (Some k) = (r, Some k') /\ suffix r s.
Proof.
  destruct (space_good s) as (r & o & H & (Ho & _)). exists r. rewrite H. destruct o as [j|]; cbn [app_err]; [destruct (is_err k)|]; eauto.
Qed.
Definition total (sn : option Z) (x : res (list buf * buf * eptr)) (s : buf) : Prop :=
  match x with Ok (_, r, e) => suffix r s /\ exists k, e = Some k | UB => sn = None | Fuel => False end.
Lemma cerr_total c m t k : exists k', cerr c m t (Some k) = Some k'. Proof. unfold cerr. destruct (is_err k); eauto. Qed.
Lemma nil_suffix (s : buf) : suffix [] s. Proof. exists s. now rewrite app_nil_r. Qed.
Lemma close_total sn out s k z : suffix s z -> total sn (Ok (show_close out s (Some k))) z.
Proof.
  intros Hs. unfold total, show_close. destruct s as [|c t]; [split; [apply nil_suffix|apply cerr_total]|]. destruct (c =? RBR); cbn [negb].
  - split; [|eauto]. destruct Hs as (p & ->). exists (p ++ [c]). now rewrite <- app_assoc.
  - split; [apply nil_suffix|apply cerr_total].
Qed.
Lemma total_weak sn x s z : suffix s z -> total sn x s -> total sn x z.
Proof. intros H. unfold total. destruct x as [[[o r] e]| |]; auto. intros [A B]. split; [|exact B]. eapply suffix_trans; eauto. Qed.
Lemma show_loop_total sn f : forall out (s : buf) k, (length s + (match s with c :: _ => if (c =? RBR)%Z then O else 1%nat | [] => O end) < f)%nat -> total sn (show_loop sn f out s (Some k)) s.
Proof.
  induction f as [|f IH]; intros out s k Hf; [lia|]. cbn [show_loop]. destruct s as [|c0 t0]; [apply close_total, suffix_refl|].
  destruct (c0 =? RBR) eqn:Ec0; [apply close_total, suffix_refl|].
  destruct (space_total (c0 :: t0) k) as (s1 & k1 & -> & Hs1). destruct (deref sn s1) as [c1| |] eqn:Ed; cbn [bind].
  2: { unfold deref in Ed. destruct s1; [|discriminate]. destruct sn; [discriminate|reflexivity]. }
  2: { unfold deref in Ed. destruct s1; [|discriminate]. destruct sn; discriminate. }
  destruct (c1 =? RBR) eqn:Ec1; [now apply close_total|].
  pose proof (show_item_total sn out s1 k1) as G. destruct (show_item sn out s1 (Some k1)) as [[[[o2 s2] e2] stop]| |]; cbn [bind]; [|exact G|exact G].
  destruct G as [Hs2 (k2 & ->)]. destruct stop; [split; [apply nil_suffix|eauto]|].
  destruct (space_total s2 k2) as (s3 & k3 & -> & Hs3). destruct s3 as [|d t3]; [split; [apply nil_suffix|apply cerr_total]|].
  destruct (d =? COMMA) eqn:Ec; cbn [negb andb].
  - assert (Hs : suffix t3 (c0 :: t0)) by (eapply suffix_trans; [|exact Hs1]; eapply suffix_trans; [|exact Hs2]; eapply suffix_trans; [|exact Hs3]; now exists [d]).
    apply (total_weak _ _ t3 _ Hs). apply IH. apply suffix_len in Hs1, Hs2, Hs3. cbn [length] in *. destruct t3 as [|d3 t3]; [cbn; lia|]. destruct (d3 =? RBR); lia.
  - destruct (d =? RBR) eqn:Er; cbn [negb]; [|split; [apply nil_suffix|apply cerr_total]].
    assert (Hs : suffix (d :: t3) (c0 :: t0)) by (eapply suffix_trans; [|exact Hs1]; eapply suffix_trans; [|exact Hs2]; exact Hs3).
    apply (total_weak _ _ (d :: t3) _ Hs). apply IH. rewrite Er. apply suffix_len in Hs. cbn [length] in *. lia.
Qed.
Theorem show_total sn s k : total sn (show_parse sn s (Some k)) s.
Proof.
  unfold show_parse. destruct (space_total s k) as (s1 & k1 & -> & Hs1). destruct (is_array s1) eqn:Ea; cbn [negb]; [|split; [apply nil_suffix|apply cerr_total]].
  apply is_array_heads in Ea. destruct Ea as (t & ->). apply (total_weak _ _ t); [eapply suffix_trans; [|exact Hs1]; now exists [LBR]|].
  apply show_loop_total. destruct t as [|c t]; [cbn; lia|]. cbn [length]. destruct (c =? RBR); lia.
Qed.

(** ---- example11, example16 ---- *)
Lemma reads_take {A} (c : codec A) old s v r : pure_desc A c -> reads c (Some 0) old s v r -> take c old s = Ok v.
Proof.
  intros Hc H. unfold reads in H. pose proof (pure_desc_pure A c Hc (Some no_error) None (Some 0) old s _ _ (R_init (Some no_error) None)) as P.
  rewrite H in P. unfold take. inversion P as [[v0 r0] x0 y Hr H1| |]; subst. reflexivity.
Qed.
Lemma pure_cint : pure_desc _ cint. Proof. apply pu_int. Qed.
Lemma pure_ints : pure_desc _ ints. Proof. apply pu_vector, pu_int. Qed.
Lemma pure_raws : pure_desc _ raws. Proof. apply pu_vector, pu_raw. Qed.
Lemma i4_ok : ity_ok (mkity 4 true). Proof. unfold ity_ok; cbn; lia. Qed.
Lemma not_wraps4 : ~ wraps (mkity 4 true). Proof. unfold wraps. cbn. intros [H|H]; [lia|discriminate]. Qed.
Lemma digit_jint d : is_digit d = true -> jint (dval [d]) [d].
Proof.
  intros H. constructor. destruct (Z.eq_dec d 48) as [->|N]; [constructor|]. constructor; [unfold is_digit in H; lia|constructor].
Qed.
Lemma leading_take w z : leading w z -> take cint 0 w = Ok z.
Proof.
  intros H. unfold take, cint. cbn [des int_codec]. destruct H as [z i r Hj He Hz|w H].
  - rewrite (int_des_exact _ (Some 0) 0 z i r None i4_ok not_wraps4 Hj He); [reflexivity|]. cbn. lia.
  - unfold int_des. destruct (is_null w); [destruct (parse_null w None); reflexivity|]. unfold unserialize_integer. destruct w as [|c t]; [reflexivity|]. cbv zeta.
    destruct (c =? MINUS) eqn:Ec.
    + destruct t as [|d t]; [reflexivity|]. destruct (is_digit d) eqn:Ed; cbn [negb]; [|reflexivity]. exfalso. apply (H (- dval [d]) [c; d] t); [reflexivity|].
      assert (c = MINUS) as -> by lia. apply ji_neg. pose proof (digit_jint d Ed) as J. inversion J; [assumption|subst; discriminate].
    + destruct (is_digit c) eqn:Ed; cbn [negb]; [|reflexivity]. exfalso. apply (H (dval [c]) [c] t); [reflexivity|]. now apply digit_jint.
Qed.
Lemma numeral_put z u : -2147483648 <= z <= 2147483647 -> numeral z u -> put cint z = Ok u.
Proof.
  intros Hz Hu. destruct (int_ser_numeral (mkity 4 true) z i4_ok) as (s & E & Hn); [unfold irange; cbn; lia|]. unfold put, cint. cbn [ser int_codec]. rewrite E. cbn [bind]. rewrite flat_wr. f_equal. now apply (numeral_unique z).
Qed.
Lemma commas_join ts b : commas ts b -> b = join ts.
Proof. induction 1; [reflexivity|reflexivity|]. cbn [join] in *. now subst b. Qed.
Lemma put_seq {A} (c : codec A) d0 xs ts u : Forall2 (fun x t => put c x = Ok t) xs ts -> array_of ts u -> put (vector_codec c d0) xs = Ok u.
Proof.
  intros HF (b & Hb & ->). apply commas_join in Hb. subst b. unfold put. cbn [ser vector_codec seq_codec c_list vec_cont]. unfold seq_ser.
  destruct (items_ser_ok (ser c) xs (fun x o => put c x = Ok (flat o))) as (opss & ops & F & E & Ef & _).
  { clear - HF. induction HF as [|x t xs ts H _ IH]; constructor; [|exact IH]. unfold put in *. destruct (ser c x) as [o| |]; try discriminate. now exists o. }
  rewrite E. cbn [bind flat flat1 app]. rewrite flat_app, Ef. cbn [flat flat1 app]. f_equal. f_equal. f_equal. f_equal. clear - HF F.
  revert opss F. induction HF as [|x t xs ts H _ IH]; intros opss F; inversion F as [|? o ? os [H1 H2] F']; subst; [reflexivity|]. cbn [map]. rewrite (IH _ F'). f_equal. congruence.
Qed.
Lemma array_of_ex ts : exists u, array_of ts u.
Proof.
  assert (exists b, commas ts b) as (b & H); [|now exists (LBR :: b ++ [RBR]), b].
  induction ts as [|t [|u ts] (b & IH)]; [exists []; constructor|exists t; constructor|]. exists (t ++ COMMA :: b). now constructor.
Qed.
Lemma put_raw u : u <> [] -> put raw_codec u = Ok u.
Proof. intros H. unfold put. cbn [ser raw_codec]. unfold raw_ser. destruct u as [|c u]; [easy|]. cbn [bind]. now rewrite flat_wr. Qed.
Lemma put_raws us s : Forall (fun u => u <> []) us -> array_of us s -> put raws us = Ok s.
Proof. intros H. apply put_seq. induction H as [|u us H _ IH]; constructor; [now apply put_raw|exact IH]. Qed.
Lemma ints_range l xs r : reads ints (Some 0) [] l xs r -> Forall (fun z => -2147483648 < z <= 2147483647) xs.
Proof.
  intros H. apply seq_exact in H; [|apply int_dlaw|now left]. destruct H as [[_ ->]|(t & zs & _ & H & E)]; [constructor|]. cbn in E. rewrite fold_snoc in E. cbn in E. subst xs.
  assert (I : forall s v r, reads cint (Some 0) 0 s v r -> -2147483648 < v <= 2147483647).
  { intros s v r' K. apply int_exact in K; [|exact i4_ok]. destruct K as [[_ ->]|(z & i & _ & _ & _ & K)]; [lia|]. destruct K as (K1 & (k & ->) & K3). cbn in K3. specialize (K3 eq_refl ltac:(lia)). unfold irange in K1. cbn in *. lia. }
  induction H as [|s s1 v s2 r H1 N H2 H3|s s1 v s2 s3 l0 r H1 N H2 H3 _ IH]; [constructor|..]; (constructor; [now apply I in H2|]); [constructor|assumption].
Qed.
Lemma numerals_put xs us : Forall (fun z => -2147483648 < z <= 2147483647) xs -> Forall2 numeral xs us -> Forall2 (fun x t => put cint x = Ok t) xs us.
Proof. intros H HF. induction HF as [|x u xs us Hu _ IH]; [constructor|]. inversion H; subst. constructor; [apply numeral_put; [lia|exact Hu]|now apply IH]. Qed.
Lemma numeral_ne z u : numeral z u -> u <> [].
Proof. intros H. apply numeral_rnumber, rnumber_head in H. destruct H as (c & t & -> & _). discriminate. Qed.
Lemma rint_digits i : rint i -> digits i. Proof. intros [|c ds H1 H2]; repeat constructor; unfold s_digit; try lia; exact H2. Qed.
Lemma numeral_plain z u : numeral z u -> Forall (fun c => 32 <= c < 128 /\ c <> QT /\ c <> BSL /\ c <> SLASH) u.
Proof.
  assert (D : forall i, rint i -> Forall (fun c => 32 <= c < 128 /\ c <> QT /\ c <> BSL /\ c <> SLASH) i).
  { intros i H. apply rint_digits in H. eapply Forall_impl; [|exact H]. unfold s_digit. intros; lia. }
  intros [i H|i H _]; [now apply D|]. constructor; [lia|now apply D].
Qed.
Lemma plain_ser_loop u : Forall (fun c => 32 <= c < 128 /\ c <> QT /\ c <> BSL /\ c <> SLASH) u -> forall n, (length u < n)%nat -> str_ser_loop false n u = Ok u.
Proof.
  induction 1 as [|c u (H1 & H2 & H3 & H4) _ IH]; intros n Hn; (destruct n as [|n]; [cbn in Hn; lia|]); [reflexivity|]. rewrite str_ser_plain by assumption. rewrite IH by (cbn in Hn; lia). reflexivity.
Qed.
Lemma put_string_numeral z u : numeral z u -> put string_codec u = Ok (QT :: u ++ [QT]).
Proof. intros H. unfold put. cbn [ser string_codec]. unfold str_ser. rewrite (plain_ser_loop u (numeral_plain _ _ H)) by lia. cbn [bind]. now rewrite flat_wr. Qed.
Lemma leading_range w z : leading w z -> -2147483647 <= z <= 2147483647.
Proof. intros [z0 i r _ _ H|w0 _]; lia. Qed.
Lemma incr_ok z : z < 2147483647 -> incr z = Ok (z + 1). Proof. intros H. unfold incr. now replace (z =? 2147483647) with false by lia. Qed.
Lemma flip_ok z : -2147483648 < z -> flip z = Ok (- z). Proof. intros H. unfold flip. now replace (z =? -2147483648) with false by lia. Qed.
Lemma array_ne us u : array_of us u -> u <> []. Proof. intros (b & _ & ->). discriminate. Qed.
Lemma rnum_first l : rnumber l -> is_number l = true /\ is_null l = false /\ is_bool l = false.
Proof.
  intros H. destruct (rnumber_head _ H) as (c & t & -> & K). unfold is_number, is_null, is_bool, is_digit, starts. unfold s_digit in K. repeat split; lia.
Qed.
Lemma turned_item l u : turned l u -> ex11_item l = Ok u /\ u <> [].
Proof.
  intros H. unfold ex11_item. destruct H as [l z u Hn Hl Hz Hu|l w z u (t & ->) Hr Hl Hz Hu|l xs us u (t & ->) Hr Hx Hu|l H].
  - rewrite (proj1 (rnum_first l Hn)), (leading_take _ _ Hl). cbn [bind]. rewrite incr_ok by exact Hz. cbn [bind]. pose proof (leading_range _ _ Hl).
    rewrite (numeral_put _ u) by (lia || exact Hu). split; [reflexivity|now apply numeral_ne in Hu].
  - change (is_number (QT :: t)) with false. change (is_string (QT :: t)) with true. cbv iota. rewrite (reads_take string_codec _ _ _ _ pu_string Hr). cbn [bind]. rewrite (leading_take _ _ Hl). cbn [bind].
    rewrite incr_ok by exact Hz. cbn [bind]. pose proof (leading_range _ _ Hl). rewrite (numeral_put _ u) by (lia || exact Hu). cbn [bind]. rewrite (put_string_numeral _ _ Hu). split; [reflexivity|discriminate].
  - change (is_number (LBR :: t)) with false. change (is_string (LBR :: t)) with false. change (is_array (LBR :: t)) with true. cbv iota. rewrite (reads_take ints _ _ _ _ pure_ints Hr). cbn [bind].
    split; [|now apply array_ne in Hu]. unfold ints. apply (put_seq cint 0 xs us u); [|exact Hu]. apply numerals_put; [now apply ints_range in Hr|exact Hx].
  - split; [|discriminate]. destruct H as [->|[->|[->|(t & ->)]]]; reflexivity.
Qed.
Lemma turned_items ls us : Forall2 turned ls us -> ex11_items ls = Ok us /\ Forall (fun u => u <> []) us.
Proof.
  induction 1 as [|l u ls us H _ (IH1 & IH2)]; [split; [reflexivity|constructor]|]. apply turned_item in H. destruct H as [H1 H2]. cbn [ex11_items]. rewrite H1, IH1. split; [reflexivity|now constructor].
Qed.
Theorem ex11_spec s ls us r out : reads raws (Some 0) [] s ls r -> Forall2 turned ls us -> array_of us out -> ex11 s = Ok out.
Proof.
  intros H HF Ho. apply turned_items in HF. destruct HF as [H1 H2]. unfold ex11. rewrite (reads_take raws _ _ _ _ pure_raws H). cbn [bind]. rewrite H1. cbn [bind]. now apply put_raws.
Qed.
Lemma ser_string_ne w ops : ser string_codec w = Ok ops -> flat ops <> [].
Proof. cbn [ser string_codec]. unfold str_ser. destruct (str_ser_loop false _ w) as [x| |]; cbn [bind]; intros E; try discriminate. assert (ops = wr (QT :: x ++ [QT])) as -> by congruence. rewrite flat_wr. discriminate. Qed.
Lemma mirrored_item l us : mirrored l us -> ex16_item l = Ok us /\ Forall (fun u => u <> []) us.
Proof.
  intros H. unfold ex16_item. destruct H as [|l H|l z u Hn Hl Hu|l w ops (t & ->) Hr Hs|l xs us u (t & ->) Hr H2 Hx Hu|l (t & ->)].
  - split; [reflexivity|repeat constructor; discriminate].
  - split; [|repeat constructor; discriminate]. destruct H as [->| ->]; reflexivity.
  - destruct (rnum_first l Hn) as (H1 & H2 & H3). rewrite H1, H2, H3, (leading_take _ _ Hl). cbn [bind]. pose proof (leading_range _ _ Hl). rewrite flip_ok by lia. cbn [bind].
    rewrite (numeral_put _ u) by (lia || exact Hu). split; [reflexivity|]. constructor; [now apply numeral_ne in Hu|constructor].
  - change (is_null (QT :: t)) with false. change (is_bool (QT :: t)) with false. change (is_number (QT :: t)) with false. change (is_string (QT :: t)) with true. cbv iota.
    rewrite (reads_take string_codec _ _ _ _ pu_string Hr). cbn [bind]. unfold put. rewrite Hs. cbn [bind]. split; [reflexivity|]. constructor; [now apply ser_string_ne in Hs|constructor].
  - change (is_null (LBR :: t)) with false. change (is_bool (LBR :: t)) with false. change (is_number (LBR :: t)) with false. change (is_string (LBR :: t)) with false. change (is_array (LBR :: t)) with true. cbv iota.
    rewrite (reads_take ints _ _ _ _ pure_ints Hr). cbn [bind]. replace (length xs <? 2)%nat with false by (symmetry; apply Nat.ltb_ge; exact H2).
    assert (put ints (rev xs) = Ok u) as ->.
    { unfold ints. apply (put_seq cint 0 (rev xs) us u); [|exact Hu]. apply numerals_put; [|exact Hx]. apply ints_range in Hr. rewrite Forall_forall in *. intros x K. apply Hr. now apply in_rev. }
    split; [reflexivity|]. constructor; [now apply array_ne in Hu|constructor].
  - split; [reflexivity|constructor].
Qed.
Lemma mirrored_items ls us : Forall2 mirrored ls us -> ex16_items ls = Ok (concat us) /\ Forall (fun u => u <> []) (concat us).
Proof.
  induction 1 as [|l u ls us H _ (IH1 & IH2)]; [split; [reflexivity|constructor]|]. apply mirrored_item in H. destruct H as [H1 H2]. cbn [ex16_items concat]. rewrite H1, IH1. split; [reflexivity|]. now apply Forall_app.
Qed.
Theorem ex16_spec s ls us r out : reads raws (Some 0) [] s ls r -> Forall2 mirrored ls us -> array_of (concat us) out -> ex16 s = Ok out.
Proof.
  intros H HF Ho. apply mirrored_items in HF. destruct HF as [H1 H2]. unfold ex16. rewrite (reads_take raws _ _ _ _ pure_raws H). cbn [bind]. rewrite H1. cbn [bind]. now apply put_raws.
Qed.
(** arrays of fewer than two numbers *)
Theorem ex16_short s ls l ls' us r xs : reads raws (Some 0) [] s (ls ++ l :: ls') r -> Forall2 mirrored ls us -> heads LBR l -> reads ints (Some 0) [] l xs [] -> (length xs < 2)%nat -> ex16 s = UB.
Proof.
  intros H HF (t & ->) Hr Hx. unfold ex16. rewrite (reads_take raws _ _ _ _ pure_raws H). cbn [bind].
  match goal with |- bind ?x _ = _ => enough (x = UB) as K by now rewrite K end. clear H. induction HF as [|a u ls us Ha _ IH]; cbn [app ex16_items].
  - assert (ex16_item (LBR :: t) = UB) as ->; [|reflexivity]. unfold ex16_item. change (is_null (LBR :: t)) with false. change (is_bool (LBR :: t)) with false. change (is_number (LBR :: t)) with false. change (is_string (LBR :: t)) with false. change (is_array (LBR :: t)) with true. cbv iota.
    rewrite (reads_take ints _ _ _ _ pure_ints Hr). cbn [bind]. now replace (length xs <? 2)%nat with true by (symmetry; apply Nat.ltb_lt; exact Hx).
  - apply mirrored_item in Ha. rewrite (proj1 Ha). cbn [bind]. now rewrite IH.
Qed.

(** ---- arrays written by the library ---- *)
Lemma raws_text ts s : Forall wvalue ts -> array_of ts s -> reads raws (Some 0) [] s ts [].
Proof.
  intros H (b & Hb & ->). apply commas_join in Hb. subst b.
  assert (R : rd raws (LBR :: join ts ++ [RBR]) ts).
  { replace ts with (c_get (@vec_cont buf) (fold_left (c_ins vec_cont) ts (c_new vec_cont))) at 2 by (cbn; now rewrite fold_snoc).
    apply (seq_rd vec_cont LBR RBR raw_codec [] false ts (join ts) ts); [now left|apply join_spaced|].
    induction H as [|t ts H _ IH]; constructor; [|exact IH]. split; [destruct (wvalue_head _ H) as (h & z & E & Hh); now exists h, z|]. intros sn old r e Hr _. apply raw_read. now apply wvalue_follow. }
  unfold reads. rewrite <- (app_nil_r (LBR :: join ts ++ [RBR])). apply (proj2 R); [exact Logic.I|reflexivity].
Qed.
Lemma ints_text zs : Forall (fun z => -2147483648 <= z <= 2147483647) zs -> exists us s, Forall2 numeral zs us /\ array_of us s /\ put ints zs = Ok s.
Proof.
  intros H. assert (exists us, Forall2 numeral zs us) as (us & Hu).
  { induction H as [|z zs Hz _ (us & IH)]; [exists []; constructor|]. destruct (int_ser_numeral (mkity 4 true) z i4_ok) as (u & _ & Hn); [unfold irange; cbn; lia|]. exists (u :: us). now constructor. }
  destruct (array_of_ex us) as (s & Hs). exists us, s. split; [exact Hu|]. split; [exact Hs|]. unfold ints. apply (put_seq cint 0 zs us s); [|exact Hs].
  clear Hs s. induction Hu as [|z u zs us Hz _ IH]; [constructor|]. inversion H; subst. constructor; [now apply numeral_put|now apply IH].
Qed.
Lemma numeral_wvalue z u : numeral z u -> wvalue u. Proof. intros H. apply wv_num. now apply numeral_rnumber in H. Qed.
Lemma numeral_leading z u : numeral z u -> Z.abs z <= 2147483647 -> leading u z.
Proof. intros H Hz. rewrite <- (app_nil_r u). apply le_int; [now apply numeral_jint|right; right; exact Logic.I|exact Hz]. Qed.
Theorem ex11_ints zs s : Forall (fun z => -2147483648 < z < 2147483647) zs -> put ints zs = Ok s -> exists out, ex11 s = Ok out /\ put ints (map (fun z => z + 1) zs) = Ok out.
Proof.
  intros H E. destruct (ints_text zs) as (us & s' & Hu & Hs & E'); [eapply Forall_impl; [|exact H]; cbv beta; intros; lia|]. rewrite E in E'. injection E' as <-.
  destruct (ints_text (map (fun z => z + 1) zs)) as (ws & out & Hw & Ho & Eo); [rewrite Forall_map; eapply Forall_impl; [|exact H]; cbv beta; intros; lia|].
  exists out. split; [|exact Eo]. apply (ex11_spec s us ws []); [apply raws_text; [|exact Hs]; clear - Hu; induction Hu; constructor; eauto using numeral_wvalue| |exact Ho].
  clear - Hu Hw H. revert ws Hw. induction Hu as [|z u zs us Hz _ IH]; intros ws Hw; inversion Hw as [|? w ? ws' H1 H2]; subst; [constructor|]. inversion H; subst. constructor; [|now apply IH].
  apply tn_num with z; [now apply numeral_rnumber in Hz|apply numeral_leading; [exact Hz|lia]|lia|exact H1].
Qed.
Theorem ex16_ints zs s : Forall (fun z => -2147483648 < z <= 2147483647) zs -> put ints zs = Ok s -> exists out, ex16 s = Ok out /\ put ints (map Z.opp zs) = Ok out.
Proof.
  intros H E. destruct (ints_text zs) as (us & s' & Hu & Hs & E'); [eapply Forall_impl; [|exact H]; cbv beta; intros; lia|]. rewrite E in E'. injection E' as <-.
  destruct (ints_text (map Z.opp zs)) as (ws & out & Hw & Ho & Eo); [rewrite Forall_map; eapply Forall_impl; [|exact H]; cbv beta; intros; lia|].
  exists out. split; [|exact Eo]. apply (ex16_spec s us (map (fun w => [w]) ws) []).
  - apply raws_text; [|exact Hs]. clear - Hu; induction Hu; constructor; eauto using numeral_wvalue.
  - clear - Hu Hw H. revert ws Hw. induction Hu as [|z u zs us Hz _ IH]; intros ws Hw; inversion Hw as [|? w ? ws' H1 H2]; subst; [constructor|]. inversion H; subst. constructor; [|now apply IH].
    apply mi_num with z; [now apply numeral_rnumber in Hz|apply numeral_leading; [exact Hz|lia]|exact H1].
  - replace (concat (map (fun w => [w]) ws)) with ws; [exact Ho|]. clear. induction ws as [|w ws IH]; [reflexivity|]. cbn. now f_equal.
Qed.
Theorem show_written vs s sn : Forall str_dom vs -> put (vector_codec string_codec []) vs = Ok s -> show_parse sn s (Some no_error) = Ok (vs, [], Some no_error).
Proof.
  intros H E. assert (T : exists ts, Forall2 (fun v t => put string_codec v = Ok t /\ rd string_codec t v /\ heads QT t) vs ts).
  { clear E. induction H as [|v vs Hv _ (ts & IH)]; [exists []; constructor|]. destruct (proj1 (rt_rd string_codec str_dom) string_rt v Hv) as (ops & Eo & R). exists (flat ops :: ts). constructor; [|exact IH].
    split; [unfold put; now rewrite Eo|]. split; [exact R|]. cbn [ser string_codec] in Eo. unfold str_ser in Eo. destruct (str_ser_loop false _ v) as [x| |]; cbn [bind] in Eo; try discriminate. assert (ops = wr (QT :: x ++ [QT])) as -> by congruence. rewrite flat_wr. now exists (x ++ [QT]). }
  destruct T as (ts & HT). destruct (array_of_ex ts) as (u & Hu).
  rewrite (put_seq string_codec [] vs ts u) in E; [|clear - HT; induction HT as [|v t vs ts (H & _) _ IH]; now constructor|exact Hu]. injection E as <-.
  destruct Hu as (b & Hb & ->). apply commas_join in Hb. subst b.
  assert (G : forall z c t, after_gap (c :: t) z -> c = QT \/ c = COMMA \/ c = RBR \/ c = LBR -> z = c :: t).
  { intros z c t G Hc. assert (G' : after_gap (c :: t) (c :: t)) by (apply (heads_gap c); [unfold s_ws; lia|lia|lia|now exists t]). apply space_exact in G, G'. rewrite G in G'. now injection G'. }
  assert (GG : forall c t, c = QT \/ c = COMMA \/ c = RBR \/ c = LBR -> after_gap (c :: t) (c :: t)) by (intros c t Hc; apply (heads_gap c); [unfold s_ws; lia|lia|lia|now exists t]).
  assert (EL : exists ls, elements (shown_item sn) RBR (join ts ++ [RBR]) ls [] /\ concat ls = vs).
  { clear G H. induction HT as [|v t vs ts (H1 & R & (x & ->)) HT IH]; [exists []; split; [apply el_end, GG; tauto|reflexivity]|]. destruct IH as (ls & IH & <-).
    assert (I : forall r, follow r -> shown_item sn ((QT :: x) ++ r) [v] r).
    { intros r Hr. apply si_string; [now exists (x ++ r)|]. unfold reads. apply (proj2 R); [exact Hr|reflexivity]. }
    exists ([v] :: ls). split; [|reflexivity]. destruct ts as [|t2 ts].
    - assert (ls = []) as ->. { inversion HT; subst. destruct ls as [|a ls]; [reflexivity|]. exfalso. cbn [join app] in IH.
        inversion IH as [|? q ? ? ? K1 K2|? q ? ? ? ? ? K1 K2]; subst; apply space_exact in K1; pose proof (rbr_gap []) as K3; apply space_exact in K3; rewrite K1 in K3; injection K3 as ->; apply K2; now exists []. }
      cbn [join]. apply el_last with ((QT :: x) ++ [RBR]) [RBR]; [apply GG; tauto|intros (z & K); discriminate|apply I; unfold follow, s_digit; lia|apply GG; tauto].
    - change (join ((QT :: x) :: t2 :: ts) ++ [RBR]) with (((QT :: x) ++ COMMA :: join (t2 :: ts)) ++ [RBR]). rewrite <- app_assoc. cbn [app]. apply el_more with (QT :: x ++ COMMA :: join (t2 :: ts) ++ [RBR]) (COMMA :: join (t2 :: ts) ++ [RBR]) (join (t2 :: ts) ++ [RBR]).
      + apply GG; tauto.
      + intros (z & K); discriminate.
      + apply I. unfold follow, s_digit; lia.
      + apply GG; tauto.
      + exact IH. }
  destruct EL as (ls & EL & <-). unfold show_parse. pose proof (GG LBR (join ts ++ [RBR]) ltac:(tauto)) as K. apply space_exact in K. fold C0. rewrite K. change (is_array (LBR :: join ts ++ [RBR])) with true. cbn [negb].
  rewrite (show_loop_complete _ _ _ _ EL) by lia. reflexivity.
Qed.

(** Whenever an error is reported, the end of the text is returned. *)
Lemma space_err s k r k' : parse_space s (Some k) = (r, Some k') -> is_err k' = true -> (is_err k = true -> s = []) -> r = [].
Proof.
  intros E K H. destruct (space_good s) as (r0 & o & Hs & (Ho & _ & Hn)). rewrite Hs in E. injection E as <- E. destruct o as [j|]; [now apply Hn|]. cbn in E. injection E as ->.
  rewrite (H K) in Ho. destruct Ho as (p & Hp). symmetry in Hp. now apply app_eq_nil in Hp.
Qed.
Lemma close_err out s k out' r j : show_close out s (Some k) = (out', r, Some j) -> is_err j = true -> (is_err k = true -> s = []) -> r = [].
Proof.
  unfold show_close. intros E K H. destruct s as [|c t]; [now injection E as _ <- _|]. destruct (negb (c =? RBR)); [now injection E as _ <- _|]. injection E as _ _ ->. discriminate (H K).
Qed.
Lemma show_loop_err sn f : forall out s k out' r j, show_loop sn f out s (Some k) = Ok (out', r, Some j) -> is_err j = true -> (is_err k = true -> s = []) -> r = [].
Proof.
  induction f as [|f IH]; intros out s k out' r j E K H; [discriminate|]. cbn [show_loop] in E. destruct s as [|c0 t0]; [apply ok_inj in E; now apply close_err in E|].
  destruct (c0 =? RBR); [apply ok_inj in E; now apply close_err in E|].
  destruct (space_total (c0 :: t0) k) as (s1 & k1 & E1 & _). rewrite E1 in E. assert (H1 : is_err k1 = true -> s1 = []) by (intros; now apply (space_err (c0 :: t0) k s1 k1)).
  destruct (deref sn s1) as [c1| |] eqn:Ed; cbn [bind] in E; try discriminate. destruct (c1 =? RBR); [apply ok_inj in E; now apply close_err in E|].
  pose proof (show_item_total sn out s1 k1) as G. destruct (show_item sn out s1 (Some k1)) as [[[[o2 s2] e2] stop]| |] eqn:E2; cbn [bind] in E; try discriminate. destruct G as [_ (k2 & ->)].
  destruct stop; [injection E as _ <- _; reflexivity|].
  assert (H2 : is_err k2 = true -> s2 = []).
  { intros K2. unfold show_item in E2. destruct (is_string s1) eqn:Es.
    - destruct (des string_codec sn [] s1 (Some k1)) as [[[v x] e2']| |]; cbn [bind] in E2; try discriminate. destruct e2' as [j'|]; [|discriminate]. destruct (is_err j') eqn:Ej; [discriminate|]. injection E2 as _ _ <-. congruence.
    - destruct (parse_value sn s1 (Some k1)) as [[x y]| |] eqn:Ev; cbn [bind] in E2; try discriminate. injection E2 as _ <- ->. destruct (pv_law sn s1) as [(rr & o & Hv & (Ho & _ & Hn) & _)|[_ Hv]]; rewrite Hv in Ev; [|discriminate]. injection Ev as <- Ev.
      destruct o as [j'|]; [now apply Hn|]. cbn in Ev. injection Ev as ->. rewrite (H1 K2) in Ho. destruct Ho as (p & Hp). symmetry in Hp. now apply app_eq_nil in Hp. }
  destruct (space_total s2 k2) as (s3 & k3 & E3 & _). rewrite E3 in E. assert (H3 : is_err k3 = true -> s3 = []) by (intros; now apply (space_err s2 k2 s3 k3)).
  destruct s3 as [|d t3]; [injection E as _ <- _; reflexivity|]. destruct (negb (d =? COMMA) && negb (d =? RBR)); [injection E as _ <- _; reflexivity|].
  apply (IH _ _ _ _ _ _ E K). intros K3. discriminate (H3 K3).
Qed.
Theorem show_err sn s out r j : show_parse sn s (Some no_error) = Ok (out, r, Some j) -> is_err j = true -> r = [].
Proof.
  unfold show_parse. intros E K. destruct (space_total s no_error) as (s1 & k1 & E1 & _). rewrite E1 in E. destruct (is_array s1) eqn:Ea; cbn [negb] in E; [|now injection E as _ <- _].
  apply is_array_heads in Ea. destruct Ea as (t & ->). apply (show_loop_err _ _ _ _ _ _ _ _ E K). intros K1. discriminate (space_err _ _ _ _ E1 K1 ltac:(discriminate)).
Qed.
