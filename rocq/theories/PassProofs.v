(** Proofs: texts that are written through one description and read through another one. *)
From Verif Require Import Base Parser SpecJson ParserFacts Grammar1 Grammar2 Out CodecLaws SpecSeq SpecString Number NumberProofs StringS StringProofs
  Array ArrayProofs Object SpecObject ObjectProofs ObjectArray ObjectArrayProofs Enum SpecEnum EnumProofs Wrap SpecWrap WrapProofs SpecPass.

Lemma rt_gives {A} (c : codec A) dom : rt c dom -> forall v old, dom v -> gives c c old v v.
Proof. intros H v old Hv. destruct (H v Hv) as (ops & E & Hh & Hd). exists ops. split; [exact E|]. split; [exact Hh|]. intros sn r e. apply Hd. Qed.
Lemma gives_det {A B} (c : codec A) (c' : codec B) old a b b' : gives c c' old a b -> gives c c' old a b' -> b = b'.
Proof.
  intros (o & E & _ & H) (o' & E' & _ & H'). rewrite E in E'. injection E' as <-.
  specialize (H None [] None I eq_refl). specialize (H' None [] None I eq_refl). rewrite H in H'. now injection H'.
Qed.

(** elements are read into the contents of a fresh element *)
Definition at_old {A} (c : codec A) (o : A) : codec A := mkcodec (ser c) (fun sn _ s e => des c sn o s e).
Lemma at_rd {A} (c : codec A) o t v : rd_into c o t v -> rd (at_old c o) t v.
Proof. intros (H & K). split; [exact H|]. intros sn old r e. apply K. Qed.
Lemma seq_loop_at {A S} (c : codec A) sn (ins : S -> A -> S) d0 R : forall n st s e,
  seq_loop (des (at_old c d0) sn) ins d0 R n st s e = seq_loop (des c sn) ins d0 R n st s e.
Proof.
  induction n as [|n IH]; intros st s e; [reflexivity|]. cbn [seq_loop]. destruct s as [|c1 s]; [reflexivity|].
  destruct (parse_space (c1 :: s) e) as [[|d t] e1]; [reflexivity|]. destruct (d =? R); [reflexivity|]. cbn [des at_old].
  destruct (des c sn d0 (d :: t) e1) as [[[x s2] e2]| |]; cbn [bind]; [|reflexivity|reflexivity].
  destruct (parse_space s2 e2) as [[|f t3] e3]; [reflexivity|]. destruct (f =? R); [reflexivity|]. destruct (negb (f =? COMMA)); [reflexivity|]. apply IH.
Qed.
Lemma seq_rd_into {A C S} (k : container A C S) L R (item : codec A) d0 tc ts b vs :
  brackets L R -> spaced tc ts b -> Forall2 (rd_into item d0) ts vs ->
  rd (seq_codec k L R item d0) (L :: b ++ [R]) (c_get k (fold_left (c_ins k) vs (c_new k))).
Proof.
  intros HB Hs Hv. assert (Forall2 (rd (at_old item d0)) ts vs) as Hv' by (eapply Forall2_impl; [|exact Hv]; intros; now apply at_rd).
  destruct (seq_rd k L R (at_old item d0) d0 tc ts b vs HB Hs Hv') as (Hh & Hd). split; [exact Hh|]. intros sn old r e Hr He.
  rewrite <- (Hd sn old r e Hr He). cbn [des seq_codec]. unfold seq_des. destruct (is_null _); [reflexivity|]. destruct (_ ++ r); [reflexivity|].
  destruct (negb _); [reflexivity|]. now rewrite seq_loop_at.
Qed.
Lemma list_writes {A B} (c : codec A) (c' : codec B) d0 L R l vs : Forall2 (gives c c' d0) l vs ->
  exists ops ts, seq_ser L R (ser c) l = Ok ops /\ flat ops = L :: join ts ++ [R] /\ Forall2 (rd_into c' d0) ts vs.
Proof.
  intros H.
  assert (exists opss, Forall2 (fun x o => ser c x = Ok o /\ True) l opss /\ Forall2 (rd_into c' d0) (map flat opss) vs) as (opss & F & G).
  { induction H as [|a b l vs (o & E & K) _ (opss & IH1 & IH2)]; [exists []; split; constructor|]. exists (o :: opss). cbn [map]. split; constructor; auto. }
  destruct (items_ser_ok (ser c) l (fun _ _ => True)) as (opss' & ops & F' & E & Ef & _).
  { clear - F. induction F as [|x o l os (E & _) _ IH]; constructor; eauto. }
  assert (opss' = opss) as ->.
  { clear - F F'. revert opss' F'. induction F as [|x o l os (E & _) _ IH]; intros os' F'; inversion F'; subst; [reflexivity|]. f_equal; [destruct H1; congruence|auto]. }
  exists (W L :: ops ++ [W R]), (map flat opss). split; [unfold seq_ser; now rewrite E|]. split; [|exact G].
  cbn [flat flat1 app]. rewrite flat_app, Ef. reflexivity.
Qed.
Lemma seq_gives {A B C C' S S'} (k : container A C S) (k' : container B C' S') L R (c : codec A) (c' : codec B) d d0 old x vs :
  brackets L R -> Forall2 (gives c c' d0) (c_list k x) vs ->
  gives (seq_codec k L R c d) (seq_codec k' L R c' d0) old x (c_get k' (fold_left (c_ins k') vs (c_new k'))).
Proof.
  intros HB H. destruct (list_writes c c' d0 L R _ vs H) as (ops & ts & E & Ef & G). exists ops. split; [exact E|]. rewrite Ef.
  destruct (seq_rd_into k' L R c' d0 false ts (join ts) vs HB (join_spaced _ _) G) as (Hh & Hd). split; [exact Hh|]. intros sn r e. apply Hd.
Qed.

Lemma field_gives {K V K' V'} (kc : codec K) (vc : codec V) (kc' : codec K') (vc' : codec V') k0 v0 k v k' v' :
  gives kc kc' k0 k k' -> gives vc vc' v0 v v' -> gives (field_codec kc vc) (field_codec kc' vc') (k0, v0) (k, v) (k', v').
Proof.
  intros (o1 & E1 & H1) (o2 & E2 & H2). exists (o1 ++ W COLON :: o2).
  split; [cbn [ser field_codec]; unfold field_ser; cbn [fst snd]; rewrite E1, E2; reflexivity|]. rewrite flat_app. cbn [flat flat1 app].
  pose proof (field_rd (at_old kc' k0) (at_old vc' v0) _ _ _ _ [] [] (at_rd _ _ _ _ H1) (at_rd _ _ _ _ H2) g_nil g_nil) as (Hh & Hd).
  split; [exact Hh|]. intros sn r e Hr He. exact (Hd sn (k0, v0) r e Hr He).
Qed.

(** ordered readers *)
Lemma sorted_same {A} lt (m m' : list A) : swo lt -> sorted_lt lt m -> sorted_lt lt m' -> (forall y, find (eqv lt y) m = find (eqv lt y) m') -> m = m'.
Proof.
  intros W H H' E. apply slt_sorted in H. apply slt_sorted in H'. revert m' H' E. induction m as [|x m IH]; intros [|x' m'] H' E.
  - reflexivity.
  - specialize (E x'). cbn [find] in E. rewrite (eqv_refl lt W) in E. discriminate.
  - specialize (E x). cbn [find] in E. rewrite (eqv_refl lt W) in E. discriminate.
  - destruct H as [Hx Hm]. destruct H' as [Hx' Hm'].
    assert (T : forall y z l, slt lt l -> (forall u, In u l -> lt z u = true) -> eqv lt y z = true -> find (eqv lt y) l = None).
    { clear - W. intros y z l _ Hl Ez. destruct (find (eqv lt y) l) as [u|] eqn:Eu; [|reflexivity]. apply find_some in Eu as [Iu Eu]. specialize (Hl u Iu).
      rewrite <- (eqv_lt lt W y z u Ez) in Hl. unfold eqv in Eu. rewrite Hl in Eu. discriminate. }
    assert (x = x') as <-.
    { destruct (eqv lt x x') eqn:X.
      - specialize (E x). cbn [find] in E. rewrite (eqv_refl lt W), X in E. congruence.
      - pose proof (E x) as E1. cbn [find] in E1. rewrite (eqv_refl lt W), X in E1. symmetry in E1. apply find_some in E1 as [I1 _]. specialize (Hx' x I1).
        pose proof (E x') as E2. cbn [find] in E2. rewrite (eqv_refl lt W), (eqv_sym lt x' x), X in E2. apply find_some in E2 as [I2 _]. specialize (Hx x' I2).
        pose proof (swo_trans lt W _ _ _ Hx Hx') as K. rewrite (swo_irr lt W) in K. discriminate. }
    f_equal. apply IH; [exact Hm|exact Hm'|]. intros y. specialize (E y). cbn [find] in E. destruct (eqv lt y x) eqn:X; [|exact E].
    rewrite (T y x m Hm Hx X), (T y x m' Hm' Hx' X). reflexivity.
Qed.

(** arrays of fixed length *)
Lemma filled_in {A} (c : codec A) d0 ts vs : Forall2 (rd_into c d0) ts vs -> forall old, (length vs <= length old)%nat ->
  filled c (fun _ => d0) old ts (vs ++ skipn (length vs) old).
Proof.
  induction 1 as [|t v ts vs Hv _ IH]; intros old L; [apply fl_stay|]. destruct old as [|x old]; [cbn in L; lia|]. cbn [length skipn app] in *.
  apply fl_read; [exact Hv|]. apply IH. lia.
Qed.
Lemma array_gives {A B C S} (k : container A C S) (c : codec A) (c' : codec B) d d0 N old x vs :
  Forall2 (gives c c' d0) (c_list k x) vs -> (length vs <= N)%nat -> (0 < N)%nat ->
  gives (seq_codec k LBR RBR c d) (std_array_codec c' d0 N) old x (vfill old (vs ++ skipn (length vs) (vlist old))).
Proof.
  intros H LN NN. destruct (list_writes c c' d0 LBR RBR _ vs H) as (ops & ts & E & Ef & G). exists ops. split; [exact E|]. rewrite Ef.
  split; [eexists _, _; split; [reflexivity|unfold vstart; lia]|]. intros sn r e _ He. cbn [app]. rewrite <- app_assoc. cbn [app].
  cbn [des std_array_codec vec_codec]. unfold stdarray_codec. cbn [des].
  erewrite fix_filled; [reflexivity|now left|apply join_spaced| |intros K; apply (f_equal (@length B)) in K; rewrite vlist_len in K; cbn in K; lia|exact He].
  apply (filled_in c' d0 ts vs G). now rewrite vlist_len.
Qed.
Lemma from_array_gives {A B C S} (k : container B C S) (c : codec A) (c' : codec B) d d0 N old (x : vec A N) vs :
  Forall2 (gives c c' d0) (vlist x) vs ->
  gives (std_array_codec c d N) (seq_codec k LBR RBR c' d0) old x (c_get k (fold_left (c_ins k) vs (c_new k))) /\
  gives (c_array_codec c N) (seq_codec k LBR RBR c' d0) old x (c_get k (fold_left (c_ins k) vs (c_new k))).
Proof.
  intros H. destruct (list_writes c c' d0 LBR RBR _ vs H) as (ops & ts & E & Ef & G).
  assert (rd_into (seq_codec k LBR RBR c' d0) old (flat ops) (c_get k (fold_left (c_ins k) vs (c_new k)))) as R.
  { rewrite Ef. destruct (seq_rd_into k LBR RBR c' d0 false ts (join ts) vs (or_introl (conj eq_refl eq_refl)) (join_spaced _ _) G) as (Hh & Hd). split; [exact Hh|].
    intros sn r e. apply Hd. }
  split; (exists ops; split; [exact E|exact R]).
Qed.

(** pointers *)
Lemma to_ptr_gives {A B} (c : codec A) (c' : codec B) d0 old a b : not_starting c 110 a -> gives c c' d0 a b -> gives c (ptr_codec c' d0) old a (Some b).
Proof.
  intros N (ops & E & (h & t & Eh & Hh) & Hd). exists ops. split; [exact E|]. split; [now exists h, t|]. intros sn r e Hr He.
  specialize (Hd sn r e Hr He). assert (h <> 110) by (intros ->; apply (N (flat ops)); [now exists ops|now exists t]).
  cbn [des ptr_codec]. unfold ptr_des. rewrite Eh in *. cbn [app] in *. replace (h =? 110) with false by lia. cbn [negb]. now rewrite Hd.
Qed.
Lemma ptr_to_gives {A B} (c : codec A) (c' : codec B) d old a b : gives c c' old a b -> gives (ptr_codec c d) c' old (Some a) b.
Proof. intros (ops & E & H). now exists ops. Qed.
Lemma null_gives {A B} (c : codec A) (c' : codec B) d f old : null_reads c' f -> gives (ptr_codec c d) c' old None (f old).
Proof.
  intros H. eexists. split; [reflexivity|]. split; [exists 110; eexists; split; [reflexivity|unfold vstart; lia]|]. intros sn r e _ _.
  change (flat (wr (text "null"))) with (text "null"). apply H.
Qed.

(** numbers *)
Lemma int_gives t u old v : ity_ok t -> ity_ok u -> irange t v -> int_dom u v -> gives (int_codec t) (int_codec u) old v v.
Proof.
  intros Ht Hu Hv Hd. destruct (int_ser_numeral t v Ht Hv) as (s & Es & Hn). exists (wr s). split; [exact Es|]. rewrite flat_wr. split.
  - destruct (rnumber_head s (numeral_rnumber v s Hn)) as (h & z & -> & Hh). exists h, z. split; [reflexivity|]. unfold vstart. tauto.
  - intros sn r e Hr _. apply int_des_in_range; auto using numeral_jint, follow_nodigit.
Qed.
Lemma int_wraps t u old v : ity_ok t -> ity_ok u -> irange t v -> wraps u -> gives (int_codec t) (int_codec u) old v (icast u v).
Proof.
  intros Ht Hu Hv Hd. destruct (int_ser_numeral t v Ht Hv) as (s & Es & Hn). exists (wr s). split; [exact Es|]. rewrite flat_wr. split.
  - destruct (rnumber_head s (numeral_rnumber v s Hn)) as (h & z & -> & Hh). exists h, z. split; [reflexivity|]. unfold vstart. tauto.
  - intros sn r e Hr _. apply int_des_wrap; auto using numeral_jint, follow_nodigit.
Qed.

(** texts *)
Lemma plain_mean n : plain_text n -> lmean_bmp n n.
Proof.
  induction 1 as [|c n Hc _ IH]; [constructor|]. change (c :: n) with ([c] ++ n). apply lb_cons; [|exact IH].
  assert (utf8_encode c = [c]) as E by (unfold utf8_encode; destruct (Z.ltb_spec c 128); [reflexivity|lia]).
  rewrite <- E. apply cb_plain; unfold scalar; lia.
Qed.
Lemma plain_rd n : plain_text n -> dist n <= INT_MAX -> rd string_codec (QT :: n ++ [QT]) n.
Proof.
  intros H L. split; [exists QT; eexists; split; [reflexivity|unfold vstart; lia]|]. intros sn old r e _ _.
  apply string_read_mean; [constructor; now apply plain_mean|exact L].
Qed.
Lemma enum_string_gives mode L v old : In v (evals L) -> plain_text (enum_name L v) -> dist (enum_name L v) <= INT_MAX ->
  gives (enum_codec mode L) string_codec old v (enum_name L v).
Proof.
  intros Hv Hp Hl. eexists. split; [reflexivity|]. rewrite flat_wr. destruct (plain_rd _ Hp Hl) as (Hh & Hd). split; [exact Hh|]. intros sn r e. apply Hd.
Qed.
Lemma raw_gives {A} (c : codec A) old a ops : ser c a = Ok ops -> wvalue (flat ops) -> gives c raw_codec old a (flat ops).
Proof.
  intros E H. exists ops. split; [exact E|]. destruct (wvalue_head _ H) as (h & t & Eh & Hh). split; [now exists h, t|]. intros sn r e Hr _.
  apply raw_read. now apply wvalue_follow.
Qed.
Lemma from_raw_gives {B} (c' : codec B) old txt b : rd_into c' old txt b -> gives raw_codec c' old txt b.
Proof.
  intros H. pose proof H as ((h & t & -> & _) & _). exists (wr (h :: t)). split; [reflexivity|]. now rewrite flat_wr.
Qed.
Lemma chars_string_gives N old t : (length t <= N)%nat -> Z.of_nat N <= INT_MAX -> Forall str_char t ->
  gives (chars_codec N) string_codec old (t ++ repeat 0 (N - length t)) t.
Proof.
  intros Ht HN Hd. pose proof (str_dom_bytes t Hd) as Hb.
  assert (Hz : ~ In 0 t) by (intro K; rewrite Forall_forall in Hd; specialize (Hd 0 K); unfold str_char, short_ctl in Hd; lia).
  set (v := t ++ repeat 0 (N - length t)).
  assert (Hbv : bytes v).
  { apply Forall_app. split; [exact Hb|]. apply Forall_forall. intros x Hx. apply repeat_spec in Hx. lia. }
  destruct (str_ser_runs true (S (length v)) v ltac:(lia) Hbv) as (p & q & l & E1 & E2 & E3 & E4 & E5).
  assert (p = t) as -> by (apply nul_split with (N - length t)%nat q; auto; tauto).
  exists (wr (QT :: l ++ [QT])). split; [cbn [ser chars_codec]; unfold chars_ser, str_ser; rewrite E4; reflexivity|].
  rewrite flat_wr. split; [exists QT, (l ++ [QT]); split; [reflexivity|unfold vstart; lia]|].
  intros sn r e Hr _. cbn [des string_codec]. unfold string_des. change (is_null ((QT :: l ++ [QT]) ++ r)) with false. cbv iota.
  apply (dchunks_unser l t r INT_MAX e); [now apply sruns_dchunks|unfold dist; lia].
Qed.
Lemma string_chars_gives N old t : (length t <= N)%nat -> Z.of_nat N <= INT_MAX -> Forall str_char t ->
  gives string_codec (chars_codec N) old t (t ++ repeat 0 (N - length t)).
Proof.
  intros Ht HN Hd. pose proof (str_dom_bytes t Hd) as Hb.
  destruct (str_ser_runs false (S (length t)) t ltac:(lia) Hb) as (p & q & l & E1 & E2 & E3 & E4 & _).
  assert (q = []) as -> by (destruct E2 as [->|[? _]]; [reflexivity|discriminate]). rewrite app_nil_r in E1. subst p.
  exists (wr (QT :: l ++ [QT])). split; [cbn [ser string_codec]; unfold str_ser; rewrite E4; reflexivity|].
  rewrite flat_wr. split; [exists QT, (l ++ [QT]); split; [reflexivity|unfold vstart; lia]|].
  intros sn r e Hr _. cbn [des chars_codec]. unfold chars_des.
  change (is_null ((QT :: l ++ [QT]) ++ r)) with false. cbv iota.
  rewrite (dchunks_unser l t r (Z.of_nat N) e); [|now apply sruns_dchunks|unfold dist; lia].
  cbn [bind]. destruct (Nat.ltb_spec N (length t)); [lia|]. reflexivity.
Qed.

(** structs *)
Section Structs.
  Context {T U : Type} (mode' : omode) (LU : list (memb U)) (v : T).
  Definition effect (b : memb T) (f : U -> U) : Prop :=
    (exists (c : memb U) (F : m_ty (memb_mem c) -> m_ty (memb_mem c)), In c LU /\ memb_name c = memb_name b /\
       (forall o, gives (m_codec (memb_mem b)) (m_codec (memb_mem c)) o (m_get (memb_mem b) v) (F o)) /\
       f = (fun t => m_set (memb_mem c) t (F (memb_old c t)))) \/
    (~ In (memb_name b) (names LU) /\ f = (fun t => t)).
  Lemma member_writes (b : memb T) : no_if b -> member_goes mode' LU v b -> forall u0 : U,
    exists o, memb_ser b v = Ok o /\ exists vt f, flat o = QT :: memb_name b ++ QT :: COLON :: vt /\ item_sem mode' LU (memb_name b, vt) f /\ effect b f.
  Proof.
    intros Hb [c F Hc En H|ops Hm Hn Hw E Hv] u0.
    - destruct (H (memb_old c u0)) as (o & Eo & Hh & _). destruct (mem_ser_ok (memb_mem b) v o Eo) as (ops & E1 & E2). exists ops.
      split; [destruct b; cbn in *; tauto|]. exists (flat o). eexists. split; [exact E2|]. split.
      + rewrite <- En. apply (is_known mode' LU c (flat o) F Hc). split; [exact Hh|]. intros sn old r e Hr He.
        destruct (H old) as (o' & Eo' & _ & Hd). rewrite Eo in Eo'. injection Eo' as <-. now apply Hd.
      + left. exists c, F. auto.
    - destruct (mem_ser_ok (memb_mem b) v ops E) as (ops' & E1 & E2). exists ops'. split; [destruct b; cbn in *; tauto|].
      exists (flat ops), (fun t => t). split; [exact E2|]. split; [now apply is_unknown|]. right. auto.
  Qed.
  Lemma struct_writes (LT : list (memb T)) mode t0 (u0 : U) : Forall no_if LT -> Forall (member_goes mode' LU v) LT ->
    exists ops its fs, ser (object_codec mode LT t0) v = Ok ops /\ object_text its (flat ops) /\ map fst its = names LT /\
      Forall2 (item_sem mode' LU) its fs /\ Forall2 effect LT fs.
  Proof.
    intros Hn Hm.
    destruct (items_ser_ok (fun b => memb_ser b v) LT (fun b o => exists vt f, flat o = QT :: memb_name b ++ QT :: COLON :: vt /\ item_sem mode' LU (memb_name b, vt) f /\ effect b f))
      as (opss & ops & F & E & Ef & _).
    { rewrite Forall_forall in *. intros b Hb. apply member_writes; auto. }
    exists (W LCB :: ops ++ [W RCB]).
    assert (exists its fs, Forall2 member_text its (map flat opss) /\ map fst its = names LT /\ Forall2 (item_sem mode' LU) its fs /\ Forall2 effect LT fs) as (its & fs & I1 & I2 & I3 & I4).
    { clear - F. induction F as [|b o LT opss (_ & vt & f & E & H1 & H2) _ (its & fs & I1 & I2 & I3 & I4)]; [exists [], []; repeat split; constructor|].
      exists ((memb_name b, vt) :: its), (f :: fs). cbn [map fst names]. split; [|split; [|split; constructor; assumption]].
      - constructor; [|exact I1]. rewrite E. exact (mt (memb_name b) vt [] [] g_nil g_nil).
      - cbn. now rewrite I2. }
    exists its, fs. split; [cbn [ser object_codec]; unfold object_ser; rewrite members_ser_items, E; reflexivity|].
    cbn [flat flat1 app]. rewrite flat_app, Ef. cbn [flat flat1 app]. split; [|auto]. apply ot with (ts := map flat opss); [exact I1|apply join_spaced].
  Qed.
  Hypothesis HN : names_ok LU.
  Hypothesis HI : indep LU.
  Hypothesis HK : keeps LU.
  Lemma name_inj (a b : memb U) : In a LU -> In b LU -> memb_name a = memb_name b -> a = b.
  Proof.
    destruct HN as [ND _]. unfold names in ND. clear - ND. induction LU as [|x L IH]; intros Ia Ib E; [contradiction|]. cbn [map] in ND. inversion ND as [|? ? N1 N2]; subst.
    destruct Ia as [->|Ia], Ib as [->|Ib]; [reflexivity| | |now apply IH]; exfalso; apply N1; [rewrite E|rewrite <- E]; now apply in_map.
  Qed.
  Lemma stays (c : memb U) LT fs : In c LU -> Forall2 effect LT fs -> ~ In (memb_name c) (names LT) -> forall t,
    m_get (memb_mem c) (run_all fs t) = m_get (memb_mem c) t.
  Proof.
    intros Hc. induction 1 as [|b f LT fs Hf _ IH]; intros Hn t; [reflexivity|]. cbn [run_all fold_left]. cbn [names map] in Hn.
    change (fold_left (fun t f => f t) fs (f t)) with (run_all fs (f t)). rewrite IH by (intros K; apply Hn; now right).
    destruct Hf as [(d & F & Hd & En & _ & ->)|(_ & ->)]; [|reflexivity]. refine (proj2 (HI c d Hc Hd _ t (m_get (memb_mem c) t) _)). intros K. apply Hn. left. congruence.
  Qed.
  Lemma stays_old (c : memb U) LT fs : In c LU -> Forall2 effect LT fs -> ~ In (memb_name c) (names LT) -> forall t,
    memb_old c (run_all fs t) = memb_old c t.
  Proof.
    intros Hc H Hn t. pose proof (stays c LT fs Hc H Hn t) as E. destruct c; cbn [memb_old memb_mem] in *; auto.
  Qed.
  Lemma holds (c : memb U) (b : memb T) F LT fs : In c LU -> Forall2 effect LT fs -> NoDup (names LT) -> In b LT -> memb_name c = memb_name b ->
    (forall o, gives (m_codec (memb_mem b)) (m_codec (memb_mem c)) o (m_get (memb_mem b) v) (F o)) -> forall t,
    m_get (memb_mem c) (run_all fs t) = F (memb_old c t).
  Proof.
    intros Hc H. induction H as [|x f LT fs Hf H IH]; intros ND Hb En HF t; [contradiction|]. cbn [names map] in ND. inversion ND as [|? ? N1 N2]; subst.
    cbn [run_all fold_left]. change (fold_left (fun t f => f t) fs (f t)) with (run_all fs (f t)). destruct Hb as [->|Hb].
    - rewrite (stays c LT fs Hc H) by (rewrite En; exact N1). destruct Hf as [(d & G & Hd & Ed & HG & ->)|(K & _)].
      + assert (d = c) as -> by (apply name_inj; auto; congruence). rewrite HK by assumption. eapply gives_det; [apply HG|apply HF].
      + exfalso. apply K. rewrite <- En. now apply in_map.
    - rewrite IH; auto. f_equal. assert (memb_name x <> memb_name c) as NE by (intros K; apply N1; rewrite K, En; now apply in_map).
      destruct Hf as [(d & G & Hd & Ed & HG & ->)|(_ & ->)]; [|reflexivity].
      assert (m_get (memb_mem c) (m_set (memb_mem d) t (G (memb_old d t))) = m_get (memb_mem c) t) as E by (refine (proj2 (HI c d Hc Hd _ t (m_get (memb_mem c) t) _)); congruence).
      destruct c; cbn [memb_old memb_mem] in *; auto.
  Qed.
  Lemma unseen {X} (obs : U -> X) LT fs : Forall2 effect LT fs ->
    (forall c, In c LU -> In (memb_name c) (names LT) -> forall t x, obs (m_set (memb_mem c) t x) = obs t) -> forall t, obs (run_all fs t) = obs t.
  Proof.
    induction 1 as [|b f LT fs Hf _ IH]; intros HO t; [reflexivity|]. cbn [run_all fold_left].
    change (fold_left (fun t f => f t) fs (f t)) with (run_all fs (f t)). rewrite IH by (intros c Hc Hi; apply HO; [exact Hc|now right]).
    destruct Hf as [(d & F & Hd & En & _ & ->)|(_ & ->)]; [|reflexivity]. apply HO; [exact Hd|]. rewrite En. now left.
  Qed.
End Structs.

Theorem struct_gives T U mode mode' (LT : list (memb T)) (LU : list (memb U)) t0 u0 (v : T) (old : U) :
  Forall no_if LT -> Forall no_if LU -> NoDup (names LT) -> names_ok LU -> indep LU -> keeps LU ->
  Forall (member_goes mode' LU v) LT ->
  exists w, gives (object_codec mode LT t0) (object_codec mode' LU u0) old v w /\
    (forall (b : memb T) (c : memb U) F, In b LT -> In c LU -> memb_name c = memb_name b ->
       (forall o, gives (m_codec (memb_mem b)) (m_codec (memb_mem c)) o (m_get (memb_mem b) v) (F o)) ->
       m_get (memb_mem c) w = F (memb_old c old)) /\
    (forall X (obs : U -> X), (forall c, In c LU -> In (memb_name c) (names LT) -> forall t x, obs (m_set (memb_mem c) t x) = obs t) -> obs w = obs old).
Proof.
  intros HT HU ND HN HI HK HM. destruct (struct_writes mode' LU v LT mode t0 old HT HM) as (ops & its & fs & E & Ht & En & Hs & He).
  exists (run_all fs old). split; [|split].
  - exists ops. split; [exact E|]. split; [destruct Ht; eexists _, _; split; [reflexivity|unfold vstart; lia]|]. intros sn r e Hr Hy.
    apply (object_reads mode' LU HN HU u0 its fs (flat ops)); auto. left. unfold once.
    assert (NoDup (map fst its)) as ND' by now rewrite En. clear - ND'. induction its as [|i its IH]; [constructor|]. cbn [map filter] in *. inversion ND' as [|? ? N1 N2]; subst.
    destruct (known LU i); [|now apply IH]. cbn [map]. constructor; [|now apply IH]. intros K. apply N1. apply in_map_iff in K as (j & Ej & K). apply filter_In in K as [K _].
    rewrite <- Ej. now apply in_map.
  - intros b c F Hb Hc Eq HF. apply (holds LU v HN HI HK c b F LT fs); auto.
  - intros X obs HO. now apply (unseen LU v obs LT fs).
Qed.

(** a struct as a dictionary *)
Theorem struct_dict_gives T V C S mode (LT : list (memb T)) t0 (k : container (buf * V) C S) (vc : codec V) d0 old (v : T) xs :
  Forall no_if LT -> Forall plain_text (names LT) -> Forall (fun n => dist n <= INT_MAX) (names LT) ->
  Forall2 (fun (b : memb T) x => gives (m_codec (memb_mem b)) vc (snd d0) (m_get (memb_mem b) v) x) LT xs ->
  gives (object_codec mode LT t0) (seq_codec k LCB RCB (field_codec string_codec vc) d0) old v
    (c_get k (fold_left (c_ins k) (combine (names LT) xs) (c_new k))).
Proof.
  intros HI HP HL HX.
  destruct (items_ser_ok (fun b => memb_ser b v) LT (fun b o => exists o1, ser (m_codec (memb_mem b)) (m_get (memb_mem b) v) = Ok o1 /\ flat o = (QT :: memb_name b ++ [QT]) ++ COLON :: flat o1))
    as (opss & ops & F & E & Ef & _).
  { clear HP HL. induction HX as [|b x LT xs (o & Eo & _) _ IH]; [constructor|]. inversion HI as [|? ? Hb HI']; subst. constructor; [|now apply IH].
    destruct (mem_ser_ok (memb_mem b) v o Eo) as (ops & E1 & E2). exists ops. split; [destruct b; cbn in *; tauto|]. exists o. split; [exact Eo|]. rewrite E2. cbn [app]. now rewrite <- app_assoc. }
  exists (W LCB :: ops ++ [W RCB]). split; [cbn [ser object_codec]; unfold object_ser; rewrite members_ser_items, E; reflexivity|].
  cbn [flat flat1 app]. rewrite flat_app, Ef. cbn [flat flat1 app].
  assert (G : Forall2 (rd_into (field_codec string_codec vc) d0) (map flat opss) (combine (names LT) xs)).
  { clear - F HX HP HL. revert xs HX. induction F as [|b o LT opss (_ & o1 & E1 & E2) _ IH]; intros xs HX; inversion HX as [|? x ? xs' (o2 & Eo2 & Hx) HX']; subst; [constructor|].
    cbn [names map combine] in *. inversion HP; subst. inversion HL; subst. constructor; [|now apply IH].
    rewrite E1 in Eo2. injection Eo2 as <-. rewrite E2.
    destruct (field_rd string_codec (at_old vc (snd d0)) _ _ _ _ [] [] (plain_rd _ H1 H3) (at_rd _ _ _ _ Hx) g_nil g_nil) as (Hh & Hd).
    split; [exact Hh|]. intros sn r e Hr He. specialize (Hd sn d0 r e Hr He). cbn [app] in *. exact Hd. }
  destruct (seq_rd_into k LCB RCB _ d0 false _ (join (map flat opss)) _ (or_intror (conj eq_refl eq_refl)) (join_spaced _ _) G) as (Hh & Hd). split; [exact Hh|].
  intros sn r e. apply Hd.
Qed.
