(** Proofs: reading a value later, from the text a raw value has kept. *)
From Verif Require Import Base Parser SpecJson SpecNum SpecString SpecSeq SpecObject SpecEnum ParserFacts Grammar1 Grammar2 Out Number StringS Array Object ObjectArray Enum Wrap TimeSize CodecLaws
  NumberProofs StringProofs ArrayProofs ObjectProofs ObjectArrayProofs EnumProofs TimeProofs SizeProofs WrapProofs FloatProofs SpecAccept AcceptProofs Desc DescProofs SpecExact ExactProofs ObjExactProofs WrapExactProofs SpecNear NearProofs SpecLater.

Definition swap {A} (c : codec A) : Prop := forall sn sn' old q r r' v, bytes (q ++ r) -> bytes r' -> waccept q r -> waccept q r' ->
  reads c sn old (q ++ r) v r -> reads c sn' old (q ++ r') v r'.
Lemma swap_true A (c : codec A) : tight true A c -> swap c.
Proof.
  intros H sn sn' old q r r' v Hb Hr _ _ E. destruct (tight_near _ _ _ H) as (_ & _ & _ & _ & K). apply (K sn sn' old q [] r r' v Hb Hr); [discriminate|exact E].
Qed.
Lemma jint_rnumber z l : jint z l -> rnumber l.
Proof.
  intros [i H|i H]; [change i with ([] ++ i)|change (MINUS :: i) with ([MINUS] ++ i)]; rewrite <- (app_nil_r i); change (i ++ []) with (i ++ [] ++ []); now repeat constructor.
Qed.
Lemma swap_int t : ity_ok t -> swap (int_codec t).
Proof.
  intros Ht sn sn' old q r r' v Hb Hr _ Hw H. apply int_exact in H; [|exact Ht]. apply int_exact; [exact Ht|].
  destruct H as [[E ->]|(z & l & Hl & E & _ & Hs)]; [left|right]; apply app_inv_tail in E; subst q; [now split|]. exists z, l. split; [exact Hl|]. split; [reflexivity|]. split; [|exact Hs].
  destruct Hw as [_ Hw]. specialize (Hw (jint_rnumber _ _ Hl)). destruct r' as [|a r']; [now right; right|]. destruct Hw as [Hw _]. unfold int_end.
  destruct (is_digit a) eqn:D; [|right; right; unfold s_digit; unfold is_digit in D; lia]. destruct Hw as [->| ->]; [unfold s_digit; unfold is_digit in D; lia| |]; [now left|right; now left].
Qed.
Lemma swap_raw : swap raw_codec.
Proof.
  intros sn sn' old q r r' v Hb Hr _ Hw H. apply raw_exact in H; [|exact Hb]. destruct H as [E _]. apply app_inv_tail in E. subst v. apply raw_exact; [|now split].
  rewrite bytes_app in *. tauto.
Qed.
Lemma swap_size t metric : ity_ok t -> 1 <= metric <= imax i64 -> swap (size_codec t metric).
Proof.
  intros Ht Hm sn sn' old q r r' v Hb Hr Hw Hw' H. assert (Hm' : irange i64 metric) by (unfold irange; cbn in *; lia). apply size_exact in H; [|assumption..].
  apply size_exact; [assumption|rewrite bytes_app in *; tauto|assumption|].
  destruct H as [H|(l & w & x & rest & z & u & E & H1 & H2 & H3 & H4 & H5)]; [left; now apply (swap_int t Ht sn sn' 0 q r r' v)|right]. exists l, w, x, rest, z, u.
  change (QT :: l ++ QT :: r) with ((QT :: l) ++ [QT] ++ r) in E. rewrite (app_assoc (QT :: l)) in E. apply app_inv_tail in E. subst q. rewrite <- app_assoc. split; [reflexivity|].
  apply int_exact in H4; [|exact i64_ok]. rewrite int_exact by exact i64_ok. auto.
Qed.
Lemma last_eq (x z p r : buf) (a : Z) : z <> [] -> p ++ z ++ r = x ++ [a] ++ r -> exists z', z = z' ++ [a] /\ x = p ++ z'.
Proof.
  intros Hz E. rewrite !app_assoc in E. apply app_inv_tail in E. destruct (exists_last Hz) as (z' & b & ->). rewrite app_assoc in E. apply app_inj_tail in E. destruct E as [E ->]. now exists z'.
Qed.
Lemma jint_no_quote z l : jint z l -> ~ In QT l.
Proof.
  assert (D : forall i, rint i -> ~ In QT i).
  { assert (D : forall ds, digits ds -> ~ In QT ds) by (intros ds H K; pose proof (proj1 (Forall_forall _ _) H QT K) as J; unfold s_digit in J; lia).
    intros i [|c ds H1 H2]; [intros [K|[]]; discriminate|]. intros [K|K]; [lia|now apply (D ds)]. }
  intros [i H|i H]; [now apply D|]. intros [K|K]; [discriminate|now apply (D i)].
Qed.
Lemma nil_cons' {A} (a : A) l : a :: l <> []. Proof. discriminate. Qed.
Section Time.
  Context (t : ity) (fr : Z) (sn sn' : option Z) (r r' : buf) (Ht : ity_ok t) (Hr : bytes r').
  Lemma parts_eats v s w q : parts t fr sn v s w q -> exists z, z <> [] /\ s = z ++ q.
  Proof.
    assert (S1 : forall s cur x s2, x <> [] -> reads (int_codec t) sn 0 s cur (x ++ s2) -> suffix q s2 -> exists z, z <> [] /\ s = z ++ q).
    { intros s0 cur x s2 Hx H (p & ->). destruct (reads_suffix (int_codec t) _ _ _ _ _ (int_dlaw t) H) as (u & ->). exists (u ++ x ++ p). split; [|now rewrite <- !app_assoc].
      intros E. apply app_eq_nil in E. destruct E as [_ E]. apply app_eq_nil in E. easy. }
    intros H. inversion H as [v0 q0|v0 s0 cur H1|v0 s0 cur u k s2 v' w0 q0 H1 Hu Hp K|v0 s0 cur s2 v' w0 q0 H1 N1 N2 Hp K|v0 s0 cur s2 v' w0 q0 H1 Hp K|v0 s0 cur c s2 v' w0 q0 H1 Hp K|v0 s0 cur u s2 w0 q0 H1 N1 N2 K]; subst.
    - exists [QT]. now split.
    - exists s. split; [|now rewrite app_nil_r]. intros ->. apply int_exact in H1; [|exact Ht]. destruct H1 as [[E _]|(z & l & Hl & E & _)]; [discriminate|]. rewrite app_nil_r in E. subst l. now destruct (jint_first _ _ Hl) as (a & p & E & _).
    - exact (S1 _ _ [u] _ (nil_cons' _ _) H1 (parts_suffix _ _ _ _ _ _ _ K)).
    - exact (S1 _ _ [109] _ (nil_cons' _ _) H1 (parts_suffix _ _ _ _ _ _ _ K)).
    - exact (S1 _ _ [109; 115] _ (nil_cons' _ _) H1 (parts_suffix _ _ _ _ _ _ _ K)).
    - exact (S1 _ _ [109; 107; c] _ (nil_cons' _ _) H1 (parts_suffix _ _ _ _ _ _ _ K)).
    - exact (S1 _ _ [u] _ (nil_cons' _ _) H1 (parts_suffix _ _ _ _ _ _ _ K)).
  Qed.
  Lemma int_to s x0 cur s2 x v w : bytes s -> x0 <> [] -> reads (int_codec t) sn 0 s cur (x0 ++ s2) -> parts t fr sn v s2 w r -> s = x ++ [QT] ++ r ->
    exists z, s2 = z ++ [QT] ++ r /\ bytes s2 /\ reads (int_codec t) sn' 0 (x ++ [QT] ++ r') cur (x0 ++ z ++ [QT] ++ r').
  Proof.
    intros Hb Hx H HP E. destruct (parts_eats _ _ _ _ HP) as (z & Hz & ->). destruct (reads_suffix (int_codec t) _ _ _ _ _ (int_dlaw t) H) as (p & Ep).
    rewrite E in Ep. rewrite (app_assoc p x0) in Ep. symmetry in Ep. destruct (last_eq _ _ _ _ _ Hz Ep) as (z' & -> & ->). exists z'. rewrite <- !app_assoc in H. rewrite <- !app_assoc. split; [reflexivity|].
    split; [rewrite E, !bytes_app in Hb; rewrite !bytes_app; tauto|].
    destruct (int_step t sn sn' [QT] r r' Ht Hr s cur x0 z' Hb Hx H) as (q & Eq & K). rewrite E in Eq. apply app_inv_tail in Eq. subst q. now rewrite <- !app_assoc in K.
  Qed.
  Lemma parts_quote v s w : parts t fr sn v s w r -> bytes s -> forall x, s = x ++ [QT] ++ r -> parts t fr sn' v (x ++ [QT] ++ r') w r'.
  Proof.
    intros H. remember r as r0 eqn:Er in H.
    induction H as [v q|v s cur H|v s cur u k s2 v' w q H Hu Hp HP IH|v s cur s2 v' w q H N1 N2 Hp HP IH|v s cur s2 v' w q H Hp HP IH|v s cur c s2 v' w q H Hp HP IH|v s cur u s2 w q H N1 N2 HP IH]; intros Hb x E; subst.
    - assert (x = []) as -> by (change (QT :: r) with ([] ++ [QT] ++ r) in E; rewrite !app_assoc in E; apply app_inv_tail, app_inj_tail in E; now destruct E). apply pt_end.
    - exfalso. apply int_exact in H; [|exact Ht]. rewrite app_nil_r in H. destruct H as [[H _]|(z & l & Hl & H & _)].
      + do 4 (destruct x as [|? x]; [discriminate|injection H as _ H]). destruct x; discriminate.
      + rewrite app_nil_r in H. subst l. apply (jint_no_quote _ _ Hl). apply in_app_iff. right. now left.
    - destruct (int_to _ [u] _ _ x _ _ Hb (nil_cons' _ _) H HP eq_refl) as (z & -> & B & K). eapply pt_unit; [exact K|exact Hu|exact Hp|now apply IH].
    - destruct (int_to _ [109] _ _ x _ _ Hb (nil_cons' _ _) H HP eq_refl) as (z & -> & B & K). eapply pt_min; [exact K| | |exact Hp|now apply IH]; intros Z; [apply N1|apply N2]; rewrite app_assoc in Z |- *; eapply heads_swap; try exact Z; now destruct z.
    - destruct (int_to _ [109; 115] _ _ x _ _ Hb (nil_cons' _ _) H HP eq_refl) as (z & -> & B & K). eapply pt_ms; [exact K|exact Hp|now apply IH].
    - destruct (int_to _ [109; 107; c] _ _ x _ _ Hb (nil_cons' _ _) H HP eq_refl) as (z & -> & B & K). eapply pt_mks; [exact K|exact Hp|now apply IH].
    - destruct (int_to _ [u] _ _ x _ _ Hb (nil_cons' _ _) H HP eq_refl) as (z & -> & B & K). eapply pt_other; [exact K|exact N1|exact N2|now apply IH].
  Qed.
End Time.
Lemma wvalue_quote q : wvalue q -> heads QT q -> exists x, q = QT :: x ++ [QT].
Proof.
  intros H (t & E). destruct (wvalue_head _ H) as (c & p & E' & _). clear c p E'. destruct H; try discriminate.
  - exfalso. destruct (rnumber_head _ H) as (c & p & -> & K). injection E as -> _. unfold s_digit in K; lia.
  - destruct H. now exists l.
Qed.
Lemma wvalue_null q : wvalue q -> heads 110 q -> q = text "null".
Proof.
  intros H (t & E). destruct H; try discriminate; [reflexivity| |].
  - exfalso. destruct (rnumber_head _ H) as (c & p & -> & K). injection E as -> _. unfold s_digit in K; lia.
  - destruct H. discriminate.
Qed.
Lemma swap_time t fr : ity_ok t -> swap (time_codec t fr).
Proof.
  intros Ht sn sn' old q r r' v Hb Hr Hw Hw' H. apply time_exact in H; [|exact Ht]. apply time_exact; [exact Ht|].
  destruct H as [H|(x & E & H)]; [left; now apply (swap_int t Ht sn sn' 0 q r r' v)|right].
  assert (HQ : heads QT q) by (destruct q as [|a q]; [exfalso; now destruct (wvalue_head _ (proj1 Hw)) as (? & ? & ? & _)|injection E as -> _; now exists q]).
  destruct (wvalue_quote _ (proj1 Hw) HQ) as (y & ->). exists (y ++ [QT] ++ r'). split; [cbn [app]; now rewrite <- app_assoc|].
  cbn [app] in E. injection E as <-. inversion Hb as [|? ? _ Hb']; subst. eapply parts_quote; [exact Ht|exact Hr|exact H|exact Hb'|now rewrite <- app_assoc].
Qed.
Lemma heads_keep a q (r r' : buf) : q <> [] -> heads a (q ++ r) -> heads a (q ++ r').
Proof. intros Hq (t & E). destruct q as [|b q]; [easy|]. injection E as -> _. now exists (q ++ r'). Qed.
Theorem tight_swap d A (c : codec A) : tight d A c -> swap c.
Proof.
  intros H. assert (HH := H). revert HH. 
  induction H as [t Ht| | |N|mode L| | |serq reqq|t metric Ht Hm|t fr Ht|d A C S k l r c d0 HB _ IH|d d' K V C S k l r kc vc d0 HB _ IH1 _ IH2|d A c d0 N _ IH|d A c N _ IH|T mode L t0 d HI HP _ IH|T L t0 d HI _ IH|d T A get set c HT IH|A c serq HD|d A c serq HT IH|d A c d0 HT IH]; intros HH; try solve [now apply swap_true].
  - now apply swap_int.
  - exact swap_raw.
  - exact swap_raw.
  - destruct reqq; [now apply swap_true|]. intros sn sn' old q r r' v Hb Hr _ Hw K. apply rquoted_exact in K; [|exact Hb]. destruct K as [E _]. apply app_inv_tail in E. subst v. apply rquoted_exact; [|now split].
    rewrite bytes_app in *. tauto.
  - now apply swap_size.
  - now apply swap_time.
  - specialize (IH HT). intros sn sn' old q r r' v Hb Hr Hw Hw' K. apply member_value_exact in K. destruct K as (x & K & ->). apply member_value_exact. exists x. split; [|reflexivity]. now apply (IH sn sn' _ q r r').
  - specialize (IH HT). destruct (tight_near _ _ _ HT) as (D & _). intros sn sn' old q r r' v Hb Hr Hw Hw' K. apply quoted_exact in K; [|exact D]. apply quoted_exact; [exact D|].
    assert (Hq : q <> []) by (intros ->; now destruct (wvalue_head _ (proj1 Hw)) as (? & ? & ? & _)).
    destruct K as [([K|K] & b & r2 & K1 & K2)|(_ & K & K1)]; [discriminate|left|right].
    + split; [right; now apply (heads_keep _ q r r')|]. exists b, r2. split; [|exact K2]. now apply (swap_true _ _ ti_string sn sn' _ q r r').
    + split; [reflexivity|]. split; [intros J; apply K; now apply (heads_keep _ q r' r)|]. now apply (IH sn sn' _ q r r').
  - specialize (IH HT). intros sn sn' old q r r' v Hb Hr Hw Hw' K. apply ptr_exact in K. apply ptr_exact.
    assert (Hq : q <> []) by (intros ->; now destruct (wvalue_head _ (proj1 Hw)) as (? & ? & ? & _)).
    destruct K as [([K|K] & -> & E)|(x & -> & K1 & K2 & K3)]; [destruct q; [easy|discriminate]|left|right].
    + pose proof (heads_keep _ q r [] Hq K) as K0. rewrite app_nil_r in K0. rewrite (wvalue_null _ (proj1 Hw) K0). split; [right; now exists (text "ull" ++ r')|]. now split.
    + exists x. split; [reflexivity|]. split; [intros E; apply app_eq_nil in E; easy|]. split; [intros J; apply K2; now apply (heads_keep _ q r' r)|]. now apply (IH sn sn' _ q r r').
Qed.

(** ---- deferring a value ---- *)
Lemma waccept_nil q r : waccept q r -> waccept q [].
Proof. intros [H _]. split; [exact H|]. intros _. exact Logic.I. Qed.
Theorem defer d A (c : codec A) sn sn' sn'' old x s v t r : tight d A c -> bytes s -> reads raw_codec sn x s t r -> reads c sn' old s v r <-> reads c sn'' old t v [].
Proof.
  intros Hc Hb H. apply raw_exact in H; [|exact Hb]. destruct H as [-> Hw]. pose proof (waccept_nil _ _ Hw) as Hw0. assert (Hb' := Hb). rewrite bytes_app in Hb'. split; intros K.
  - rewrite <- (app_nil_r t). apply (tight_swap _ _ _ Hc sn' sn'' old t r []); [exact Hb|constructor|assumption..].
  - rewrite <- (app_nil_r t) in K. apply (tight_swap _ _ _ Hc sn'' sn' old t [] r); [rewrite app_nil_r|..]; tauto.
Qed.
Lemma followed_follow r : followed r -> follow r.
Proof.
  intros (c & t & (g & -> & Hg & _) & Hc). destruct Hg as [|a g Ha Hg|g Ha Hg|u g H1 H2 H3]; cbn [app].
  - unfold follow, s_digit. destruct Hc as [<-|[<-|[<-|[]]]]; lia.
  - unfold follow, s_digit. unfold s_ws in Ha. lia.
  - unfold follow, s_digit; lia.
  - unfold follow, s_digit; lia.
Qed.
Lemma keep Q A (c : codec A) sn sn' old x s v r : sdesc Q A c -> bytes s -> tame Q s -> at_value s -> followed r -> reads c sn old s v r -> exists q, reads raw_codec sn' x s q r.
Proof.
  intros Hc Hb HT (g0 & g & _ & _ & Hg) HF H. destruct (proj2 (sdesc_acc Q A c Hc) _ _ _ _ _ _ _ Hb H) as (_ & p & -> & Hp); [now exists no_error|]. destruct (Hp (tame_l Q _ _ HT)) as (w & q & -> & (Hw & _) & Hq).
  assert (w = []) as -> by (destruct w as [|a w]; [reflexivity|exfalso; inversion Hw; subst; now destruct Hg as [Hg _]]).
  exists q. apply raw_exact; [exact Hb|]. split; [reflexivity|]. apply wvalue_follow; [exact Hq|now apply followed_follow].
Qed.
Lemma gap_at s s1 : after_gap s s1 -> at_value s1. Proof. now exists s. Qed.
Lemma followed_comma s t : after_gap s (COMMA :: t) -> followed s. Proof. intros H. exists COMMA, t. split; [exact H|now left]. Qed.
Lemma followed_close c s t : c = RBR \/ c = RCB -> after_gap s (c :: t) -> followed s. Proof. intros Hc H. exists c, t. split; [exact H|]. destruct Hc as [->| ->]; [right; now left|right; right; now left]. Qed.
Definition tame_bytes Q (s : buf) := bytes s /\ tame Q s.
Lemma tb_suffix Q s r : suffix r s -> tame_bytes Q s -> tame_bytes Q r.
Proof. intros (p & ->) [H1 H2]. split; [now apply bytes_app in H1|now apply tame_r in H2]. Qed.
Section Sim.
  Context {A B : Type} (Q : quirk -> Prop) (R : Z) (HR : R = RBR \/ R = RCB) (K : B -> A -> Prop).
  Lemma elements_sim (item : buf -> A -> buf -> Prop) (item' : buf -> B -> buf -> Prop) s xs r :
    (forall s x r, item s x r -> suffix r s) -> (forall s x r, tame_bytes Q s -> at_value s -> followed r -> item s x r -> exists y, item' s y r /\ K y x) ->
    elements item R s xs r -> tame_bytes Q s -> exists ys, elements item' R s ys r /\ Forall2 K ys xs.
  Proof.
    intros HS HI H. induction H as [s r H|s s1 v s2 r H1 N H2 H3|s s1 v s2 s3 l r H1 N H2 H3 _ IH]; intros HT.
    - exists []. split; [now apply el_end|constructor].
    - destruct (HI s1 v s2) as (y & Hy & HK); [exact (tb_suffix _ _ _ (after_gap_suffix _ _ H1) HT)|exact (gap_at _ _ H1)|exact (followed_close _ _ _ HR H3)|exact H2|].
      exists [y]. split; [now apply el_last with s1 s2|]. constructor; [exact HK|constructor].
    - pose proof (tb_suffix _ _ _ (after_gap_suffix _ _ H1) HT) as T1. destruct (HI s1 v s2) as (y & Hy & HK); [exact T1|exact (gap_at _ _ H1)|exact (followed_comma _ _ H3)|exact H2|].
      pose proof (tb_suffix _ _ _ (HS _ _ _ H2) T1) as T2. pose proof (tb_suffix _ _ _ (after_gap_suffix _ _ H3) T2) as T3.
      destruct IH as (ys & Hys & HF); [exact (tb_suffix Q (COMMA :: s3) s3 ltac:(now exists [COMMA]) T3)|].
      exists (y :: ys). split; [now apply el_more with s1 s2 s3|]. now constructor.
  Qed.
  Lemma elements_fwd (item : buf -> A -> buf -> Prop) (item' : buf -> B -> buf -> Prop) s ys r : (forall s y r, item' s y r -> suffix r s) -> (forall s y r x, bytes s -> item' s y r -> K y x -> item s x r) ->
    elements item' R s ys r -> bytes s -> forall xs, Forall2 K ys xs -> elements item R s xs r.
  Proof.
    assert (BS : forall a b, suffix a b -> bytes b -> bytes a) by (intros a b (p & ->) J; now apply bytes_app in J).
    intros HS HI H. induction H as [s r H|s s1 v s2 r H1 N H2 H3|s s1 v s2 s3 l r H1 N H2 H3 _ IH]; intros Hb xs HF.
    - inversion HF; subst. now apply el_end.
    - inversion HF as [|? x ? xs' HK HF']; subst. inversion HF'; subst. apply el_last with s1 s2; auto. apply (HI _ v); auto. exact (BS _ _ (after_gap_suffix _ _ H1) Hb).
    - inversion HF as [|? x ? xs' HK HF']; subst. pose proof (BS _ _ (after_gap_suffix _ _ H1) Hb) as B1. pose proof (BS _ _ (HS _ _ _ H2) B1) as B2. pose proof (BS _ _ (after_gap_suffix _ _ H3) B2) as B3.
      apply el_more with s1 s2 s3; auto; [now apply (HI _ v)|]. apply IH; [now inversion B3|exact HF'].
  Qed.
End Sim.
Lemma raw_dlaw : dlaw (des raw_codec). Proof. exact (proj1 (tight_near _ _ _ ti_raw)). Qed.
Lemma close_of l r : brackets l r -> r = RBR \/ r = RCB. Proof. intros [[_ H]|[_ H]]; auto. Qed.
Section Container.
  Context {A C S : Type} (d : bool) (c : codec A) (d0 : A) (k : container A C S) (HT : tight d A c).
  Lemma c_dlaw : dlaw (des c). Proof. exact (proj1 (tight_near _ _ _ HT)). Qed.
  Lemma container_fwd sn old old' s ts r xs : bytes s -> reads (vector_codec raw_codec []) sn old s ts r -> Forall2 (fun t x => reads c None d0 t x []) ts xs ->
    reads (seq_codec k LBR RBR c d0) sn old' s (c_get k (fold_left (c_ins k) xs (c_new k))) r.
  Proof.
    intros Hb H HF. apply seq_exact in H; [|exact raw_dlaw|now left]. apply seq_exact; [exact c_dlaw|now left|].
    destruct H as [[-> ->]|(t & l & -> & H & E)]; [left|right].
    - cbn in HF. inversion HF; subst. now split.
    - cbn [c_get c_ins c_new vec_cont] in E. rewrite fold_snoc in E. cbn [app] in E. subst ts.
      exists t, xs. split; [reflexivity|]. split; [|reflexivity]. inversion Hb as [|? ? _ Hb']; subst.
      apply elements_fwd with (K := fun t x => reads c None d0 t x []) (item' := fun s x r => reads raw_codec sn [] s x r) (ys := l); try assumption.
      + intros s0 y r0. apply reads_suffix. exact raw_dlaw.
      + intros s0 y r0 x B0 H1 H2. exact (proj2 (defer _ _ _ _ _ None _ _ _ _ _ _ HT B0 H1) H2).
  Qed.
  Lemma container_back Q sn old old' s v r : sdesc Q A c -> bytes s -> tame Q s -> reads (seq_codec k LBR RBR c d0) sn old s v r ->
    exists ts xs, reads (vector_codec raw_codec []) sn old' s ts r /\ Forall2 (fun t x => reads c None d0 t x []) ts xs /\ v = c_get k (fold_left (c_ins k) xs (c_new k)).
  Proof.
    intros Hc Hb Hq H. apply seq_exact in H; [|exact c_dlaw|now left]. destruct H as [[-> ->]|(t & l & -> & H & ->)].
    - exists [], []. split; [|split; [constructor|reflexivity]]. apply seq_exact; [exact raw_dlaw|now left|]. left. now split.
    - inversion Hb as [|? ? _ Hb']; subst. destruct (elements_sim Q RBR (or_introl eq_refl) (fun t x => reads c None d0 t x []) (fun s x r => reads c sn d0 s x r) (fun s x r => reads raw_codec sn [] s x r) t l r) as (ts & H1 & HF).
      + intros s0 y r0. apply reads_suffix. exact c_dlaw.
      + intros s0 x r0 [B0 T0] Ha Hf H0. destruct (keep Q A c sn sn d0 [] s0 x r0 Hc B0 T0 Ha Hf H0) as (q & Hq'). exists q. split; [exact Hq'|]. exact (proj1 (defer _ _ _ _ _ None _ _ _ _ _ _ HT B0 Hq') H0).
      + exact H.
      + split; [exact Hb'|now apply tame_c in Hq].
      + exists ts, l. split; [|now split]. apply seq_exact; [exact raw_dlaw|now left|]. right. exists t, ts. split; [reflexivity|]. split; [exact H1|]. cbn [c_get c_ins c_new vec_cont]. now rewrite fold_snoc.
  Qed.
End Container.
Section Dict.
  Context {K V C S : Type} (d : bool) (kc : codec K) (k0 : K) (vc : codec V) (v0 : V) (k : container (K * V) C S) (HK : dlaw (des kc)) (HT : tight d V vc).
  Definition dkept (p : K * buf) (q : K * V) : Prop := fst p = fst q /\ reads vc None v0 (snd p) (snd q) [].
  Lemma field_at sn (v1 : buf) s x r : reads (field_codec kc raw_codec) sn (k0, v1) s x r <->
    exists s1 s2 s3, reads kc sn k0 s (fst x) s1 /\ after_gap s1 (COLON :: s2) /\ after_gap s2 s3 /\ s3 <> [] /\ reads raw_codec sn v1 s3 (snd x) r.
  Proof. destruct x as [a b]. apply field_exact; [exact HK|exact raw_dlaw]. Qed.
  Lemma field_typed sn s x r : reads (field_codec kc vc) sn (k0, v0) s x r <->
    exists s1 s2 s3, reads kc sn k0 s (fst x) s1 /\ after_gap s1 (COLON :: s2) /\ after_gap s2 s3 /\ s3 <> [] /\ reads vc sn v0 s3 (snd x) r.
  Proof. destruct x as [a b]. apply field_exact; [exact HK|exact (c_dlaw _ _ HT)]. Qed.
  Lemma suffix_at sn s kx s1 s2 (s3 : buf) : reads kc sn k0 s kx s1 -> after_gap s1 (COLON :: s2) -> after_gap s2 s3 -> suffix s3 s.
  Proof.
    intros H1 H2 H3. apply reads_suffix in H1; [|exact HK]. apply after_gap_suffix in H2, H3. eapply suffix_trans; [exact H3|]. eapply suffix_trans; [|exact H1]. eapply suffix_trans; [|exact H2]. now exists [COLON].
  Qed.
  Lemma dict_fwd sn old old' s ts r xs : bytes s -> reads (dict_vec_codec kc raw_codec (k0, [])) sn old s ts r -> Forall2 dkept ts xs ->
    reads (seq_codec k LCB RCB (field_codec kc vc) (k0, v0)) sn old' s (c_get k (fold_left (c_ins k) xs (c_new k))) r.
  Proof.
    assert (D1 : dlaw (des (field_codec kc raw_codec))) by (apply field_dlaw; [exact HK|exact raw_dlaw]). assert (D2 : dlaw (des (field_codec kc vc))) by (apply field_dlaw; [exact HK|exact (c_dlaw _ _ HT)]).
    intros Hb H HF. apply seq_exact in H; [|exact D1|now right]. apply seq_exact; [exact D2|now right|].
    destruct H as [[-> ->]|(t & l & -> & H & E)]; [left|right].
    - cbn in HF. inversion HF; subst. now split.
    - cbn [c_get c_ins c_new vec_cont] in E. rewrite fold_snoc in E. cbn [app] in E. subst ts.
      exists t, xs. split; [reflexivity|]. split; [|reflexivity]. inversion Hb as [|? ? _ Hb']; subst.
      apply elements_fwd with (K := dkept) (item' := fun s x r => reads (field_codec kc raw_codec) sn (k0, []) s x r) (ys := l); try assumption.
      + intros s0 y r0. apply reads_suffix. exact D1.
      + intros s0 y r0 x B0 H1 [H2 H3]. apply field_at in H1. destruct H1 as (s1 & s2 & s3 & A1 & A2 & A3 & A4 & A5). apply field_typed. exists s1, s2, s3. rewrite <- H2. repeat (split; [assumption|]).
        destruct (suffix_at _ _ _ _ _ _ A1 A2 A3) as (p & ->). apply bytes_app in B0. exact (proj2 (defer _ _ _ _ _ None _ _ _ _ _ _ HT (proj2 B0) A5) H3).
  Qed.
  Lemma dict_back Q sn old old' s v r : sdesc Q V vc -> bytes s -> tame Q s -> reads (seq_codec k LCB RCB (field_codec kc vc) (k0, v0)) sn old s v r ->
    exists ts xs, reads (dict_vec_codec kc raw_codec (k0, [])) sn old' s ts r /\ Forall2 dkept ts xs /\ v = c_get k (fold_left (c_ins k) xs (c_new k)).
  Proof.
    assert (D1 : dlaw (des (field_codec kc raw_codec))) by (apply field_dlaw; [exact HK|exact raw_dlaw]). assert (D2 : dlaw (des (field_codec kc vc))) by (apply field_dlaw; [exact HK|exact (c_dlaw _ _ HT)]).
    intros Hc Hb Hq H. apply seq_exact in H; [|exact D2|now right]. destruct H as [[-> ->]|(t & l & -> & H & ->)].
    - exists [], []. split; [|split; [constructor|reflexivity]]. apply seq_exact; [exact D1|now right|]. left. now split.
    - inversion Hb as [|? ? _ Hb']; subst. destruct (elements_sim Q RCB (or_intror eq_refl) dkept (fun s x r => reads (field_codec kc vc) sn (k0, v0) s x r) (fun s x r => reads (field_codec kc raw_codec) sn (k0, []) s x r) t l r) as (ts & H1 & HF).
      + intros s0 y r0. apply reads_suffix. exact D2.
      + intros s0 x r0 TB _ Hf H0. apply field_typed in H0. destruct H0 as (s1 & s2 & s3 & A1 & A2 & A3 & A4 & A5). destruct (tb_suffix _ _ _ (suffix_at _ _ _ _ _ _ A1 A2 A3) TB) as [B0 T0].
        destruct (keep Q V vc sn sn v0 [] s3 (snd x) r0 Hc B0 T0 (gap_at _ _ A3) Hf A5) as (q & Hq'). exists (fst x, q). split; [apply field_at; exists s1, s2, s3; now repeat split|]. split; [reflexivity|].
        exact (proj1 (defer _ _ _ _ _ None _ _ _ _ _ _ HT B0 Hq') A5).
      + exact H.
      + split; [exact Hb'|now apply tame_c in Hq].
      + exists ts, l. split; [|now split]. apply seq_exact; [exact D1|now right|]. right. exists t, ts. split; [reflexivity|]. split; [exact H1|]. cbn [c_get c_ins c_new vec_cont]. now rewrite fold_snoc.
  Qed.
End Dict.

(** ---- structs with raw members ---- *)
Lemma named_suffix s n s3 : named s n s3 -> suffix s3 s.
Proof.
  intros (s1 & s2 & -> & H1 & H2 & _). apply after_gap_suffix in H1, H2. eapply suffix_trans; [exact H2|]. eapply suffix_trans; [now exists [COLON]|]. eapply suffix_trans; [exact H1|].
  exists (QT :: n ++ [QT]). cbn [app]. now rewrite <- app_assoc.
Qed.
Lemma named_at s n s3 : named s n s3 -> at_value s3. Proof. intros (s1 & s2 & _ & _ & H & _). exact (gap_at _ _ H). Qed.
Section Struct.
  Context {T U : Type} (Q : quirk -> Prop) (R : T -> U -> Prop) (mode : omode) (L : list (memb T)) (M : list (memb U)) (sn : option Z).
  Hypotheses (HA : Forall2 (alike Q R) L M) (HD : forall c, In c M -> dlaw (des (m_codec (memb_mem c)))).
  Lemma alike_names L' M' : Forall2 (alike Q R) L' M' -> names L' = names M'.
  Proof. induction 1 as [|b c L' M' [E _] _ IH]; [reflexivity|]. unfold names in *. cbn [map]. now rewrite E, IH. Qed.
  Lemma takes_sim b c t u s u' r : alike Q R b c -> R t u -> tame_bytes Q s -> followed r -> takes sn c u s u' r -> exists t', takes sn b t s t' r /\ R t' u'.
  Proof.
    intros [EN H] HR HT HF (s1 & y & H1 & H2 & ->). destruct (tb_suffix _ _ _ (named_suffix _ _ _ H1) HT) as [B1 T1].
    destruct (H sn t u s1 y r HR B1 T1 (named_at _ _ _ H1) HF H2) as (x & Hx & HR'). eexists. split; [|exact HR']. exists s1, x. now rewrite EN.
  Qed.
  Lemma takes_suffix c u s u' r : In c M -> takes sn c u s u' r -> suffix r s.
  Proof. intros Hc (s1 & y & H1 & H2 & _). apply reads_suffix in H2; [|now apply HD]. apply named_suffix in H1. eapply suffix_trans; eassumption. Qed.
  Lemma one_suffix Rm u s Rm' u' r : incl Rm M -> one_member mode M sn Rm u s Rm' u' r -> suffix r s /\ incl Rm' M.
  Proof.
    intros HI H. destruct H as [b Rm t s t' r H|b Rm A b' B t s t' r E _ _ H|b Rm n t s r _ _ _ (_ & vt & H & _)].
    - split; [apply (takes_suffix b t s t'); [apply HI; now left|exact H]|]. intros x Hx. apply HI. now right.
    - split; [|exact HI]. apply (takes_suffix b' t s t'); [rewrite E; apply in_app_iff; right; now left|exact H].
    - split; [|exact HI]. apply named_suffix in H. eapply suffix_trans; [|exact H]. now exists vt.
  Qed.
  Lemma one_sim Lm Rm t u s Rm' u' r : Forall2 (alike Q R) Lm Rm -> R t u -> tame_bytes Q s -> followed r -> one_member mode M sn Rm u s Rm' u' r ->
    exists Lm' t', one_member mode L sn Lm t s Lm' t' r /\ Forall2 (alike Q R) Lm' Rm' /\ R t' u'.
  Proof.
    intros HF HR HT Hf H. destruct H as [c Rm u s u' r H|c Rm A c' B u s u' r E N1 N2 H|c Rm n u s r HM N1 N2 H]; inversion HF as [|b ? Lm' ? Hbc HF']; subst Lm.
    - destruct (takes_sim b c t u s u' r Hbc HR HT Hf H) as (t' & H' & HR'). exists Lm', t'. split; [now apply om_next|now split].
    - pose proof HA as HA'. rewrite E in HA'. apply Forall2_app_inv_r in HA'. destruct HA' as (A' & B' & HA1 & HB1 & EL). inversion HB1 as [|b' ? B'' ? Hb' HB2]; subst B'.
      destruct (takes_sim b' c' t u s u' r Hb' HR HT Hf H) as (t' & H' & HR'). exists (b :: Lm'), t'. split; [|split; [now constructor|exact HR']].
      apply om_other with A' b' B''; [exact EL| | |exact H'].
      + destruct Hbc as [E1 _], Hb' as [E2 _]. now rewrite E1, E2.
      + destruct Hb' as [E2 _]. now rewrite E2, (alike_names _ _ HA1).
    - exists (b :: Lm'), t. split; [|split; [now constructor|exact HR]]. destruct Hbc as [E1 _]. apply om_none with n; [exact HM|now rewrite E1| |exact H]. now rewrite (alike_names _ _ HA).
  Qed.
  Lemma members_sim Rm u s u' r : members mode M sn Rm u s u' r -> incl Rm M -> forall Lm t, Forall2 (alike Q R) Lm Rm -> R t u -> tame_bytes Q s ->
    exists t', members mode L sn Lm t s t' r /\ R t' u'.
  Proof.
    induction 1 as [u s r H|u s s1 r HM H1 H2|c Rm Rm' u s u' s1 r H1 H2|c Rm Rm' u s u' s1 s2 s3 u'' r H1 H2 H3 _ IH]; intros HI Lm t HF HR HT.
    - inversion HF; subst. exists t. split; [now apply ms_close|exact HR].
    - inversion HF; subst. exists t. split; [now apply ms_rest with s1|exact HR].
    - destruct (one_sim Lm (c :: Rm) t u s Rm' u' s1 HF HR HT (followed_close _ _ _ (or_intror eq_refl) H2) H1) as (Lm' & t' & H1' & _ & HR'). exists t'. split; [|exact HR'].
      inversion HF; subst. now apply ms_last with Lm' s1.
    - destruct (one_sim Lm (c :: Rm) t u s Rm' u' s1 HF HR HT (followed_comma _ _ H2) H1) as (Lm' & t' & H1' & HF' & HR').
      destruct (one_suffix _ _ _ _ _ _ HI H1) as [S1 HI']. destruct (IH HI' Lm' t' HF' HR') as (t'' & K & HR'').
      + apply after_gap_suffix in H2, H3. apply (tb_suffix Q s s3); [|exact HT]. eapply suffix_trans; [exact H3|]. eapply suffix_trans; [now exists [COMMA]|]. eapply suffix_trans; eassumption.
      + exists t''. split; [|exact HR'']. inversion HF; subst. now apply ms_more with Lm' t' s1 s2 s3.
  Qed.
End Struct.

Lemma memb_dlaw {T} (L : list (memb T)) : Forall (memb_all (fun _ c => dlaw (des c))) L -> forall c, In c L -> dlaw (des (m_codec (memb_mem c))).
Proof. intros H c Hc. pose proof (proj1 (Forall_forall _ _) H c Hc) as K. destruct c; cbn in *; tauto. Qed.
Theorem struct_later T U Q R mode (L : list (memb T)) (M : list (memb U)) t0 u0 sn t u s u' r :
  Forall2 (alike Q R) L M -> Forall (memb_all (fun _ c => dlaw (des c))) L -> Forall (memb_all (fun _ c => dlaw (des c))) M -> Forall no_if L -> Forall no_if M -> Forall plain_name (names L) ->
  R t0 u0 -> R t u -> bytes s -> tame Q s -> reads (object_codec mode M u0) sn u s u' r -> exists t', reads (object_codec mode L t0) sn t s t' r /\ R t' u'.
Proof.
  intros HA DL DM NL NM PL R0 HR Hb HT H. assert (PM : Forall plain_name (names M)) by now rewrite <- (alike_names _ _ _ _ HA).
  apply object_exact in H; [|assumption..]. destruct H as [[-> ->]|[(x & -> & H & ->)|[(x & -> & H & ->)|(x & s1 & -> & H & HM)]]].
  - exists t0. split; [|exact R0]. apply object_exact; auto.
  - exists t. split; [|exact HR]. apply object_exact; auto. right. left. now exists x.
  - exists t. split; [|exact HR]. apply object_exact; auto. right. right. left. now exists x.
  - destruct (members_sim Q R mode L M sn HA (memb_dlaw M DM) M u s1 u' r HM (incl_refl _) L t HA HR) as (t' & K & HR').
    + apply (tb_suffix Q (LCB :: x)); [|now split]. apply after_gap_suffix in H. eapply suffix_trans; [exact H|now exists [LCB]].
    + exists t'. split; [|exact HR']. apply object_exact; auto. right. right. right. now exists x, s1.
Qed.
