(** Proofs: written texts denote the values, texts that denote values are read. *)
From Verif Require Import Base Parser SpecJson ParserFacts Grammar1 Grammar2 Out CodecLaws SpecSeq SpecString SpecNum Number NumberProofs StringS StringProofs
  Array ArrayProofs Unord Object SpecObject ObjectProofs ObjectArray ObjectArrayProofs Enum SpecEnum EnumProofs Wrap SpecWrap WrapProofs Float SpecMisc FloatProofs SpecPass PassProofs
  SpecMulti MultiProofs SpecAlike Desc DescProofs SpecTree.

(** ---- literals ---- *)
Lemma bare_lmean s : bare s -> lmean s s.
Proof. induction 1; constructor; auto. now apply cm_plain. Qed.
Lemma bare_bmp s : bare s -> lmean_bmp s s.
Proof. induction 1; constructor; auto. now apply cb_plain. Qed.
Lemma lmean_rchars l s : lmean l s -> rchars l.
Proof.
  induction 1 as [|c t l m Hc _ IH]; [constructor|]. destruct Hc as [cp H1 H2 H3 H4|c t Hc|a b c d H1 H2 H3 H4 _|a b c d a' b' c' d' H1 H2 H3 H4 K1 K2 K3 K4 _ _].
  - apply rcs_cons; [now apply rc_plain|exact IH].
  - apply rcs_cons; [|exact IH]. apply rc_esc. unfold s_esc. destruct Hc; lia.
  - apply rcs_cons; [now apply rc_u|exact IH].
  - change (rchars ([BSL; 117; a; b; c; d] ++ [BSL; 117; a'; b'; c'; d'] ++ l)). apply rcs_cons; [now apply rc_u|]. apply rcs_cons; [now apply rc_u|exact IH].
Qed.
Lemma bmp_lmean l s : lmean_bmp l s -> lmean l s.
Proof. induction 1 as [|c t l m Hc _ IH]; constructor; auto. destruct Hc; [now apply cm_plain|now apply cm_esc|now apply cm_u]. Qed.
Lemma bare_rchars s : bare s -> rchars s. Proof. intros H. eapply lmean_rchars, bare_lmean, H. Qed.
Lemma lit_bmp esc l s : lit esc l s -> lmean_bmp l s.
Proof. destruct esc; cbn [lit]; [auto|]. intros (-> & H). now apply bare_bmp. Qed.
Lemma as_is_lit esc l s : as_is l s -> lit esc l s.
Proof. destruct esc; cbn [lit]; [|auto]. intros (-> & H). now apply bare_bmp. Qed.

(** ---- numbers ---- *)
Lemma jint_rnumber z n : jint z n -> rnumber n.
Proof.
  destruct 1 as [i Hi|i Hi].
  - replace i with ([] ++ i ++ [] ++ []) by (cbn; now rewrite !app_nil_r). constructor; auto; constructor.
  - replace (MINUS :: i) with ([MINUS] ++ i ++ [] ++ []) by (cbn; now rewrite !app_nil_r). constructor; auto; constructor.
Qed.

(** ---- texts ---- *)
Section Texts.
  Variables (LM NM : buf -> buf -> Prop).
  Hypothesis HL : forall l s, LM l s -> rchars l.
  Hypothesis HN : forall l s, NM l s -> rchars l.
  Lemma means_rvalue : (forall b t, means LM NM b t -> rvalue b) /\ (forall b l, melems LM NM b l -> relems b) /\ (forall b l, mmembers LM NM b l -> rmembers b).
  Proof.
    apply means_ind3; intros.
    - constructor. - constructor. - constructor.
    - apply rv_num. eapply jint_rnumber; eauto.
    - now apply rv_num.
    - apply rv_str. constructor. eauto.
    - now apply rv_arr0. - now apply rv_arr. - now apply rv_obj0. - now apply rv_obj.
    - now apply rel_one. - now apply rel_more.
    - replace (w1 ++ QT :: k ++ QT :: w2 ++ COLON :: w3 ++ v ++ w4) with (w1 ++ (QT :: k ++ [QT]) ++ w2 ++ COLON :: w3 ++ v ++ w4) by (cbn [app]; now rewrite <- app_assoc).
      apply rme_one; auto. constructor. eauto.
    - replace (w1 ++ QT :: k ++ QT :: w2 ++ COLON :: w3 ++ v ++ w4 ++ COMMA :: b) with (w1 ++ (QT :: k ++ [QT]) ++ w2 ++ COLON :: w3 ++ v ++ w4 ++ COMMA :: b) by (cbn [app]; now rewrite <- app_assoc).
      apply rme_more; auto. constructor. eauto.
  Qed.
  (** the elements *)
  Lemma melems_texts b l : melems LM NM b l -> exists ts, Forall2 (means LM NM) ts l /\ ebody false ts b.
  Proof.
    induction 1 as [w1 v w2 t H1 H2 H3|w1 v w2 t b l H1 H2 H3 H4 (ts & IH1 & IH2)].
    - exists [v]. split; [repeat constructor; auto|]. apply eb_one; now apply ws_gap.
    - exists (v :: ts). split; [now constructor|]. apply eb_more; auto; now apply ws_gap.
  Qed.
  Lemma mmembers_texts b l : mmembers LM NM b l -> exists its ts, Forall2 (fun it x => NM (fst it) (fst x) /\ means LM NM (snd it) (snd x)) its l /\
    Forall2 member_text its ts /\ ebody false ts b.
  Proof.
    induction 1 as [w1 k n w2 w3 v w4 t H1 H2 H3 H4 H5 H6|w1 k n w2 w3 v w4 t b l H1 H2 H3 H4 H5 H6 H7 (its & ts & IH1 & IH2 & IH3)].
    - exists [(k, v)], [QT :: k ++ QT :: w2 ++ COLON :: w3 ++ v]. split; [repeat constructor; auto|]. split.
      + constructor; [|constructor]. apply mt; now apply ws_gap.
      + replace (w1 ++ QT :: k ++ QT :: w2 ++ COLON :: w3 ++ v ++ w4) with (w1 ++ (QT :: k ++ QT :: w2 ++ COLON :: w3 ++ v) ++ w4).
        { apply eb_one; now apply ws_gap. } cbn [app]. repeat (rewrite <- app_assoc; cbn [app]). reflexivity.
    - exists ((k, v) :: its), ((QT :: k ++ QT :: w2 ++ COLON :: w3 ++ v) :: ts). split; [now constructor|]. split.
      + constructor; [|exact IH2]. apply mt; now apply ws_gap.
      + replace (w1 ++ QT :: k ++ QT :: w2 ++ COLON :: w3 ++ v ++ w4 ++ COMMA :: b) with (w1 ++ (QT :: k ++ QT :: w2 ++ COLON :: w3 ++ v) ++ w4 ++ COMMA :: b).
        { apply eb_more; auto; now apply ws_gap. } cbn [app]. repeat (rewrite <- app_assoc; cbn [app]). reflexivity.
  Qed.
  Lemma arr_texts b l : means LM NM b (TArr l) -> exists c ts, b = LBR :: c ++ [RBR] /\ Forall2 (means LM NM) ts l /\ spaced false ts c.
  Proof.
    intros H. inversion H as [| | | | | |w Hw|c l' Hc| |]; subst.
    - exists w, []. split; [reflexivity|]. split; [constructor|]. apply sp_nil. now apply ws_gap.
    - apply melems_texts in Hc. destruct Hc as (ts & H1 & H2). exists c, ts. split; [reflexivity|]. split; [exact H1|now apply sp_body].
  Qed.
  Lemma obj_texts b l : means LM NM b (TObj l) -> exists its, Forall2 (fun it x => NM (fst it) (fst x) /\ means LM NM (snd it) (snd x)) its l /\ object_text its b.
  Proof.
    intros H. inversion H as [| | | | | | | |w Hw|c l' Hc]; subst.
    - exists []. split; [constructor|]. apply ot with []; [constructor|]. apply sp_nil. now apply ws_gap.
    - apply mmembers_texts in Hc. destruct Hc as (its & ts & H1 & H2 & H3). exists its. split; [exact H1|]. apply ot with ts; [exact H2|now apply sp_body].
  Qed.
  (** joined *)
  Lemma join_means ts l : Forall2 (means LM NM) ts l -> means LM NM (LBR :: join ts ++ [RBR]) (TArr l).
  Proof.
    intros H. destruct H as [|t x ts l Hx H]; [apply (mn_arr0 _ _ []); constructor|]. apply mn_arr. revert t x Hx. induction H as [|u y ts l Hy H IH]; intros t x Hx.
    - replace (join [t]) with ([] ++ t ++ []) by (cbn; apply app_nil_r). apply me_one; auto; constructor.
    - replace (join (t :: u :: ts)) with ([] ++ t ++ [] ++ COMMA :: join (u :: ts)) by reflexivity. apply me_more; auto; constructor.
  Qed.
  Definition memtxt (it : buf * buf) : buf := QT :: fst it ++ QT :: COLON :: snd it.
  Lemma join_members its l : Forall2 (fun it x => NM (fst it) (fst x) /\ means LM NM (snd it) (snd x)) its l -> means LM NM (LCB :: join (map memtxt its) ++ [RCB]) (TObj l).
  Proof.
    intros H. destruct H as [|[k v] [n t] its l (Hn & Hx) H]; [apply (mn_obj0 _ _ []); constructor|]. apply mn_obj. cbn [fst snd] in *. revert k v n t Hn Hx.
    induction H as [|[k' v'] [n' t'] its l (Hn' & Hx') H IH]; intros k v n t Hn Hx.
    - replace (join (map memtxt [(k, v)])) with ([] ++ QT :: k ++ QT :: [] ++ COLON :: [] ++ v ++ []) by (cbn; now rewrite app_nil_r). apply mm_one; auto; constructor.
    - replace (join (map memtxt ((k, v) :: (k', v') :: its))) with ([] ++ QT :: k ++ QT :: [] ++ COLON :: [] ++ v ++ [] ++ COMMA :: join (map memtxt ((k', v') :: its)))
        by (cbn [map join memtxt fst snd app]; unfold memtxt at 2; cbn [fst snd]; repeat (rewrite <- ?app_assoc; cbn [app]); reflexivity).
      apply mm_more; auto; constructor.
  Qed.
End Texts.
Lemma denotes_rvalue b t : denotes b t -> rvalue b.
Proof. apply means_rvalue; intros l s; apply lmean_rchars. Qed.
Lemma simple_rvalue esc b t : simple esc b t -> rvalue b.
Proof. apply means_rvalue; intros l s H; [eapply lmean_rchars, bmp_lmean, lit_bmp, H|destruct H as (-> & H); now apply bare_rchars]. Qed.

(** ---- writing ---- *)
Definition written {A} (c : codec A) (dom : A -> Prop) (tr : A -> tree -> Prop) : Prop :=
  forall v, dom v -> exists ops t, ser c v = Ok ops /\ denotes (flat ops) t /\ tr v t.
Lemma list_says {A X} (item : A -> res (list op)) (P : A -> buf -> X -> Prop) l : Forall (fun x => exists o t, item x = Ok o /\ P x (flat o) t) l ->
  exists ops xs, items_ser item l = Ok ops /\ flat ops = join (map fst xs) /\ Forall2 (fun x p => P x (fst p) (snd p)) l xs.
Proof.
  intros H. destruct (items_ser_ok item l (fun x o => exists t, P x (flat o) t)) as (opss & ops & F & E & Ef & _).
  { eapply Forall_impl; [|exact H]. cbn. intros x (o & t & E & K). exists o. split; [exact E|]. now exists t. }
  assert (exists xs : list (buf * X), map flat opss = map fst xs /\ Forall2 (fun x p => P x (fst p) (snd p)) l xs) as (xs & E1 & E2).
  { clear - F. induction F as [|x o l os (_ & t & K) _ (xs & I1 & I2)]; [exists []; split; [reflexivity|constructor]|]. exists ((flat o, t) :: xs). cbn. split; [now rewrite I1|now constructor]. }
  exists ops, xs. split; [exact E|]. split; [now rewrite Ef, E1|exact E2].
Qed.
Lemma arr_says {A} (c : codec A) dom tr l : written c dom tr -> Forall dom l ->
  exists ops t, seq_ser LBR RBR (ser c) l = Ok ops /\ denotes (flat ops) t /\ exists ts, t = TArr ts /\ Forall2 tr l ts.
Proof.
  intros H F. destruct (list_says (ser c) (fun x b t => denotes b t /\ tr x t) l) as (ops & xs & E & Ef & G).
  { eapply Forall_impl; [|exact F]. intros x Hx. destruct (H x Hx) as (o & t & K). now exists o, t. }
  exists (W LBR :: ops ++ [W RBR]), (TArr (map snd xs)). split; [unfold seq_ser; now rewrite E|]. split.
  - cbn [flat flat1 app]. rewrite flat_app, Ef. apply join_means. clear - G. induction G as [|x p l xs (K & _) _ IH]; constructor; auto.
  - eexists. split; [reflexivity|]. clear - G. induction G as [|x p l xs (_ & K) _ IH]; constructor; auto.
Qed.
Lemma obj_says {K V} (kc : codec K) (vc : codec V) dk tk dv tv l : written kc dk tk -> written vc dv tv -> (forall x t, dk x -> tk x t -> exists s, t = TStr s) ->
  Forall (fun p => dk (fst p) /\ dv (snd p)) l ->
  exists ops t, seq_ser LCB RCB (ser (field_codec kc vc)) l = Ok ops /\ denotes (flat ops) t /\
    exists ts, t = TObj ts /\ Forall2 (fun p it => tk (fst p) (TStr (fst it)) /\ tv (snd p) (snd it)) l ts.
Proof.
  intros HK HV HS F. destruct (list_says (ser (field_codec kc vc)) (fun p b (x : buf * (buf * tree)) => exists vt, b = memtxt (fst x, vt) /\ lmean (fst x) (fst (snd x)) /\ denotes vt (snd (snd x)) /\
    tk (fst p) (TStr (fst (snd x))) /\ tv (snd p) (snd (snd x))) l) as (ops & xs & E & Ef & G).
  { eapply Forall_impl; [|exact F]. intros p (H1 & H2). destruct (HK _ H1) as (o1 & t1 & E1 & D1 & T1). destruct (HV _ H2) as (o2 & t2 & E2 & D2 & T2).
    destruct (HS _ _ H1 T1) as (s & ->). inversion D1 as [| | | | |lt s' Hl E3| | | |]; subst.
    exists (o1 ++ W COLON :: o2), (lt, (s, t2)). cbn [fst snd]. split; [cbn [ser field_codec]; unfold field_ser; now rewrite E1, E2|].
    exists (flat o2). split; [rewrite flat_app; cbn [flat flat1 app]; rewrite <- E3; unfold memtxt; cbn [fst snd app]; now rewrite <- app_assoc|]. auto. }
  exists (W LCB :: ops ++ [W RCB]), (TObj (map (fun x => snd (snd x)) xs)). split; [unfold seq_ser; now rewrite E|]. split.
  - cbn [flat flat1 app]. rewrite flat_app, Ef.
    assert (exists its, map fst xs = map memtxt its /\ Forall2 (fun it x => lmean (fst it) (fst x) /\ denotes (snd it) (snd x)) its (map (fun x => snd (snd x)) xs)) as (its & -> & K9).
    { clear - G. induction G as [|p x l xs (vt & E & K1 & K2 & _) _ (its & I1 & I2)]; [exists []; split; [reflexivity|constructor]|]. exists ((fst (snd x), vt) :: its). cbn [map].
      split; [now rewrite E, I1|]. constructor; auto. }
    now apply join_members.
  - eexists. split; [reflexivity|]. clear - G. induction G as [|p x l xs (vt & _ & _ & _ & K9) _ IH]; constructor; auto.
Qed.
Lemma object_says {T} mode (L : list (memb T)) t0 (dm : mem T -> T -> Prop) tr :
  (forall b m, In b L -> In m (mems_of b) -> bare (m_name m) /\ written (member_value_codec (m_get m) (m_set m) (m_codec m)) (dm m) (tr m)) ->
  written (object_codec mode L t0) (fun v => Forall (memb_doms dm v) L) (fun v t => exists l, t = TObj l /\ Forall2 (memb_tree tr v) L l).
Proof.
  intros H v F.
  destruct (list_says (fun b => memb_ser b v) (fun b x (y : buf * tree) => exists vt, x = memtxt (fst y, vt) /\ lmean (fst y) (fst y) /\ denotes vt (snd y) /\ memb_tree tr v b y) L) as (ops & xs & E & Ef & G).
  { rewrite Forall_forall in *. intros b Hb. specialize (F b Hb).
    assert (M : forall m, In m (mems_of b) -> dm m v -> exists o t, mem_ser m v = Ok o /\ exists vt, flat o = memtxt (m_name m, vt) /\ lmean (m_name m) (m_name m) /\ denotes vt t /\ tr m v t).
    { intros m Hm Hd. destruct (H b m Hb Hm) as (Hn & Hw). destruct (Hw v Hd) as (o & t & E & D & Ht). cbn [ser member_value_codec] in E.
      exists (W QT :: wr (m_name m) ++ W QT :: W COLON :: o), t. unfold mem_ser. rewrite E. split; [reflexivity|]. exists (flat o).
      split; [cbn [flat flat1 app]; rewrite flat_app, flat_wr; reflexivity|]. split; [now apply bare_lmean|]. now split. }
    destruct b as [m|m i|ru l r isdef]; cbn [memb_doms memb_ser memb_tree mems_of] in *.
    - destruct (M m (or_introl eq_refl) F) as (o & t & E & vt & K1 & K2 & K3 & K4). exists o, (m_name m, t). split; [exact E|]. exists vt. cbn [fst snd]. auto.
    - destruct (M m (or_introl eq_refl) F) as (o & t & E & vt & K1 & K2 & K3 & K4). exists o, (m_name m, t). split; [exact E|]. exists vt. cbn [fst snd]. auto.
    - destruct (isdef (m_get l v)); cbn [negb].
      + destruct (M r (or_intror (or_introl eq_refl)) F) as (o & t & E & vt & K1 & K2 & K3 & K4). exists o, (m_name r, t). split; [exact E|]. exists vt. cbn [fst snd]. auto.
      + destruct (M l (or_introl eq_refl) F) as (o & t & E & vt & K1 & K2 & K3 & K4). exists o, (m_name l, t). split; [exact E|]. exists vt. cbn [fst snd]. auto. }
  exists (W LCB :: ops ++ [W RCB]), (TObj (map snd xs)). split; [cbn [ser object_codec]; unfold object_ser; rewrite members_items, E; reflexivity|]. split.
  - cbn [flat flat1 app]. rewrite flat_app, Ef.
    assert (exists its, map fst xs = map memtxt its /\ Forall2 (fun it x => lmean (fst it) (fst x) /\ denotes (snd it) (snd x)) its (map snd xs)) as (its & -> & K).
    { clear - G. induction G as [|b x l xs (vt & E & K1 & K2 & _) _ (its & I1 & I2)]; [exists []; split; [reflexivity|constructor]|]. exists ((fst (snd x), vt) :: its). cbn [map].
      split; [now rewrite E, I1|]. constructor; auto. }
    now apply join_members.
  - eexists. split; [reflexivity|]. clear - G. induction G as [|b x l xs (vt & _ & _ & _ & K) _ IH]; constructor; auto.
Qed.
Lemma oarray_says {T} (L : list (memb T)) t0 (dm : mem T -> T -> Prop) tr :
  (forall b m, In b L -> In m (mems_of b) -> written (member_value_codec (m_get m) (m_set m) (m_codec m)) (dm m) (tr m)) ->
  written (oarray_codec L t0) (fun v => Forall (memb_doms dm v) L) (fun v t => exists l, t = TArr (map snd l) /\ Forall2 (memb_tree tr v) L l).
Proof.
  intros H v F.
  destruct (list_says (fun b => amemb_ser b v) (fun b x (y : buf * tree) => denotes x (snd y) /\ memb_tree tr v b y) L) as (ops & xs & E & Ef & G).
  { rewrite Forall_forall in *. intros b Hb. specialize (F b Hb).
    assert (M : forall m, In m (mems_of b) -> dm m v -> exists o t, amem_ser m v = Ok o /\ denotes (flat o) t /\ tr m v t).
    { intros m Hm Hd. exact (H b m Hb Hm v Hd). }
    destruct b as [m|m i|ru l r isdef]; cbn [memb_doms amemb_ser memb_tree mems_of] in *.
    - destruct (M m (or_introl eq_refl) F) as (o & t & E & K3 & K4). exists o, (m_name m, t). split; [exact E|]. cbn [fst snd]. auto.
    - destruct (M m (or_introl eq_refl) F) as (o & t & E & K3 & K4). exists o, (m_name m, t). split; [exact E|]. cbn [fst snd]. auto.
    - destruct (isdef (m_get l v)); cbn [negb].
      + destruct (M r (or_intror (or_introl eq_refl)) F) as (o & t & E & K3 & K4). exists o, (m_name r, t). split; [exact E|]. cbn [fst snd]. auto.
      + destruct (M l (or_introl eq_refl) F) as (o & t & E & K3 & K4). exists o, (m_name l, t). split; [exact E|]. cbn [fst snd]. auto. }
  exists (W LBR :: ops ++ [W RBR]), (TArr (map snd (map snd xs))). split; [cbn [ser oarray_codec]; unfold oarray_ser; rewrite amembers_items, E; reflexivity|]. split.
  - cbn [flat flat1 app]. rewrite flat_app, Ef. apply join_means. clear - G. induction G as [|b x l xs (K & _) _ IH]; constructor; auto.
  - eexists. split; [reflexivity|]. clear - G. induction G as [|b x l xs (_ & K) _ IH]; constructor; auto.
Qed.
Lemma jint_chars z n : jint z n -> forall c, In c n -> c = MINUS \/ 48 <= c <= 57.
Proof.
  assert (D : forall i, rint i -> forall c, In c i -> 48 <= c <= 57).
  { intros i [|d ds Hd Hds] c [<-|Hc]; try lia; [destruct Hc|]. rewrite (Forall_forall s_digit) in Hds. apply Hds in Hc. exact Hc. }
  intros [i Hi|i Hi] c Hc; [right; now apply (D i)|]. destruct Hc as [<-|Hc]; [now left|right; now apply (D i)].
Qed.
Lemma rnumber_means n : rnumber n -> exists t, denotes n t.
Proof.
  intros H. destruct H as [m i f x Hm Hi Hf Hx]. destruct Hf as [|ds Hds].
  - destruct Hx as [|a sg ds Ha Hsg Hds].
    + rewrite app_nil_r. destruct Hm; cbn [app]; eexists; apply mn_int; [now apply ji_nonneg|now apply ji_neg].
    + eexists. apply mn_real; [constructor; auto; [constructor|now constructor]|]. intros z Hz.
      assert (In a (m ++ i ++ [] ++ a :: sg ++ ds)) as HI by (apply in_or_app; right; apply in_or_app; right; now left).
      apply (jint_chars z _ Hz) in HI. lia.
  - eexists. apply mn_real; [constructor; auto; now constructor|]. intros z Hz.
    assert (In DOT (m ++ i ++ (DOT :: ds) ++ x)) as HI by (apply in_or_app; right; apply in_or_app; right; now left).
    apply (jint_chars z _ Hz) in HI. lia.
Qed.
Lemma Forall2_map2 {A B C} (P : B -> C -> Prop) (f : A -> B) (g : A -> C) l : (forall x, In x l -> P (f x) (g x)) -> Forall2 P (map f l) (map g l).
Proof. induction l as [|x l IH]; intros H; constructor; [apply H; now left|]. apply IH. intros y Hy. apply H. now right. Qed.
Lemma sel_chosen v L : chosen v L (map fst (sel v L)).
Proof.
  induction L as [|[n x] L IH]; [apply ch_nil|]. cbn [sel filter snd]. fold (sel v L). destruct (flag_on v x) eqn:E; unfold flag_on in E; cbn [map fst]; [apply ch_in|apply ch_out]; auto; lia.
Qed.
Lemma bare_app (a b : buf) : bare a -> bare b -> bare (a ++ b).
Proof. induction 1 as [|cp l H1 H2 H3 H4 _ IH]; intros Hb; [exact Hb|]. rewrite <- app_assoc. constructor; auto. Qed.
Theorem says_written A (c : codec A) dom tr : says A c dom tr -> written c dom tr.
Proof.
  induction 1 as [A c dom dom' tr tr' _ IH Hd Ht|y Hy| | |mode L HL| |A C S k c d0 dom tr _ IH|A H h c d0 dom tr _ IH|A c d0 N dom tr _ IH|A c N dom tr _ IH
    |K V C S k kc vc d0 dk tk dv tv _ IHk _ IHv HS|K V H h kc vc d0 dk tk dv tv _ IHk _ IHv HS|T mode L t0 dm tr HB _ IH|T L t0 dm tr _ IH|T A get set c dom tr _ IH
    |A c reqq dom tr _ IH|A c reqq dom tr _ IH|A c d0 dom tr _ IH|A R fmt scan zero|N|mode L HL|sep mode L Hs Hb HL].
  - intros v Hv. destruct (IH v (Hd v Hv)) as (ops & t & E & D & K). exists ops, t. auto.
  - intros v Hv. destruct (int_ser_numeral y v Hy Hv) as (s & Es & Hn). exists (wr s), (TInt v). split; [exact Es|]. rewrite flat_wr. split; [|reflexivity]. apply mn_int. now apply numeral_jint.
  - intros [] _; [exists (wr (text "true")), (TBool true)|exists (wr (text "false")), (TBool false)]; (split; [reflexivity|split; [constructor|reflexivity]]).
  - intros v Hv. destruct (string_ser_rfc v Hv) as (l & E & _ & M). exists (wr l), (TStr v). split; [exact E|]. rewrite flat_wr. split; [|reflexivity]. destruct M as [l m M]. now apply mn_str.
  - intros v Hv. exists (wr (QT :: enum_name L v ++ [QT])), (TStr (enum_name L v)). split; [reflexivity|]. rewrite flat_wr. split.
    + apply mn_str, bare_lmean. rewrite Forall_forall in HL. apply HL. unfold enames. apply in_map_iff. exists (enum_name L v, v). split; [reflexivity|]. now apply enum_name_in.
    + clear HL. induction L as [|[n x] L IH]; [destruct Hv|]. cbn [enum_name]. destruct (Z.eqb_spec x v) as [->|N].
      * exists [], n, L. split; [reflexivity|]. split; [intros []|reflexivity].
      * destruct Hv as [Hv|Hv]; [now cbn in Hv|]. destruct (IH Hv) as (l & n' & m & -> & K & E). exists ((n, x) :: l), n', m. split; [reflexivity|]. split; [|exact E].
        cbn. intros [X|X]; [congruence|contradiction].
  - intros v (t & Hv). exists (wr v), t. split; [|rewrite flat_wr; now split]. cbn [ser raw_codec]. unfold raw_ser. destruct v; [|reflexivity].
    apply denotes_rvalue, rfc_wjson, wvalue_head in Hv. destruct Hv as (h & z & E & _). discriminate.
  - intros v Hv. exact (arr_says c dom tr _ IH Hv).
  - intros v Hv. exact (arr_says c dom tr _ IH Hv).
  - intros v Hv. exact (arr_says c dom tr _ IH Hv).
  - intros v Hv. exact (arr_says c dom tr _ IH Hv).
  - intros v Hv. exact (obj_says kc vc dk tk dv tv _ IHk IHv HS Hv).
  - intros v Hv. exact (obj_says kc vc dk tk dv tv _ IHk IHv HS Hv).
  - apply object_says. intros b m Hb Hm. split; [exact (HB b m Hb Hm)|]. now apply IH with b.
  - apply oarray_says. intros b m Hb Hm. now apply IH with b.
  - intros v Hv. exact (IH (get v) Hv).
  - intros v Hv. destruct (IH v Hv) as (ops & t & E & D & K). assert (utf8 (flat ops)) as U by (apply denotes_rvalue, rvalue_u8s in D; exact (proj1 D)).
    destruct (string_ser_rfc (flat ops) U) as (l & E2 & _ & M). exists (wr l), (TStr (flat ops)). split; [cbn [ser quoted_codec]; unfold quoted_ser; rewrite E; exact E2|].
    rewrite flat_wr. split; [destruct M as [l m M]; now apply mn_str|]. now exists (flat ops), t.
  - exact IH.
  - intros [v|] Hv; [exact (IH v Hv)|]. exists (map PW (text "null")), TNull. split; [reflexivity|]. split; [apply mn_null|reflexivity].
  - intros v (Hn & Hl). destruct (rnumber_means _ Hn) as (t & D). exists (wr (fmt v)), t. split; [now apply float_out|]. rewrite flat_wr. now split.
  - intros v (s & k & -> & H0 & Hu). destruct (chars_ser_rfc N s (repeat 0 k) Hu H0) as (l & E & _ & M).
    { destruct k; [now left|right]. eexists. reflexivity. }
    exists (wr l), (TStr s). split; [exact E|]. rewrite flat_wr. split; [destruct M as [l m M]; now apply mn_str|]. now exists s, k.
  - intros v _. exists (wr (LBR :: flags_body COMMA L v true ++ [RBR])), (TArr (map TStr (map fst (sel v L)))). split; [reflexivity|]. rewrite flat_wr, flags_body_true, jsep_join. split.
    + apply join_means. rewrite map_map. apply Forall2_map2. intros p Hp. apply mn_str, bare_lmean. rewrite Forall_forall in HL. apply HL. apply filter_In in Hp. unfold enames. now apply in_map.
    + eexists. split; [apply sel_chosen|reflexivity].
  - intros v _. exists (wr (QT :: flags_body sep L v true ++ [QT])), (TStr (jsep sep (map fst (sel v L)))).
    assert (sep =? COMMA = false) as E by lia. split; [cbn [ser flags_codec]; unfold flags_ser; now rewrite E|]. rewrite flat_wr, flags_body_true. split.
    + replace (map (fun p => fitem sep (fst p)) (sel v L)) with (map fst (sel v L)) by (apply map_ext; intros p; unfold fitem; now rewrite E).
      apply mn_str, bare_lmean. assert (Forall bare (map fst (sel v L))) as HS.
      { apply Forall_map, Forall_forall. intros p Hp. rewrite Forall_forall in HL. apply HL. apply filter_In in Hp. unfold enames. now apply in_map. }
      destruct (map fst (sel v L)) as [|x l]; [apply ba_nil|]. rewrite jsep_cons. inversion HS; subst. apply bare_app; [assumption|]. clear - Hb H2.
      induction H2 as [|y l Hy _ IH]; [apply ba_nil|]. cbn [fsep flat_map]. change (sep :: y) with ([sep] ++ y). apply bare_app; [now apply bare_app|exact IH].
    + eexists. split; [apply sel_chosen|reflexivity].
Qed.

(** ---- reading ---- *)
Definition read (esc : bool) {A} (c : codec A) (tr : tree -> (A -> A) -> Prop) : Prop := forall b t F, simple esc b t -> tr t F -> rdf c b F.
Lemma simple_head esc b t : simple esc b t -> exists h z, b = h :: z /\ vstart h.
Proof. intros H. apply rvalue_head, simple_rvalue with esc t, H. Qed.
Lemma rd_rdf {A} (c : codec A) b v : rd c b v -> rdf c b (fun _ => v).
Proof. exact (fun H => H). Qed.
Lemma rdf_into {A} (c : codec A) b F o : rdf c b F -> rd_into c o b (F o).
Proof. intros (H & K). split; [exact H|]. intros sn r e. apply K. Qed.
Lemma set_as {A} lt (vs m : list A) : swo lt -> as_set lt vs m -> fold_left (fun l y => set_insert lt y l) vs [] = m.
Proof.
  intros W (H1 & H2). apply (sorted_same lt); auto.
  - apply slt_sorted. apply set_fold_slt; [exact W|exact I].
  - intros y. rewrite set_fold_find; [now rewrite H2|exact W|exact I].
Qed.
Lemma multi_as {A} lt (vs m : list A) : swo lt -> as_multiset lt vs m -> fst (fold_left (multi_insert lt) vs ([], O)) = m.
Proof.
  intros W [(-> & ->)|(a & u & b & -> & H)]; [reflexivity|]. destruct (finger_fold lt W vs) as (a' & u' & b' & E & H'). { intros ->. inversion H; destruct vs; discriminate. }
  rewrite E. cbn [fst]. destruct (finger_unique lt W _ _ _ _ _ _ _ H H') as (-> & -> & ->). reflexivity.
Qed.
Section Lists.
  Context (esc : bool).
  Lemma list_reads {A} (c : codec A) tr d0 ts l fs : read esc c tr -> Forall2 (simple esc) ts l -> Forall2 tr l fs -> Forall2 (rd_into c d0) ts (map (fun f => f d0) fs).
  Proof.
    intros H T. revert fs. induction T as [|b t ts l Hb _ IH]; intros fs F; inversion F as [|? f ? fs' Hf F']; subst; cbn [map]; constructor; auto.
    apply rdf_into. now apply H with t.
  Qed.
  Lemma arr_reads {A C S} (k : container A C S) (c : codec A) tr d0 b l fs : read esc c tr -> simple esc b (TArr l) -> Forall2 tr l fs ->
    rd (seq_codec k LBR RBR c d0) b (c_get k (fold_left (c_ins k) (map (fun f => f d0) fs) (c_new k))).
  Proof.
    intros H Hb F. apply arr_texts in Hb. destruct Hb as (x & ts & -> & T & Hs). apply seq_rd_into with false ts; [now left|exact Hs|]. now apply list_reads with tr l.
  Qed.
  Lemma dict_reads {K V C S} (k : container (K * V) C S) (kc : codec K) (vc : codec V) tk tv k0 v0 b l fs : read esc kc tk -> read esc vc tv -> simple esc b (TObj l) ->
    Forall2 (fun it p => exists f g, tk (TStr (fst it)) f /\ tv (snd it) g /\ p = (f k0, g v0)) l fs ->
    rd (seq_codec k LCB RCB (field_codec kc vc) (k0, v0)) b (c_get k (fold_left (c_ins k) fs (c_new k))).
  Proof.
    intros Hk Hv Hb F. apply obj_texts in Hb. destruct Hb as (its & T & O). destruct O as [ts x M Hs]. apply seq_rd_into with false ts; [now right|exact Hs|]. clear Hs x.
    revert ts fs M F. induction T as [|it y its l (H1 & H2) _ IH]; intros ts fs M F; inversion M as [|? tx ? ts' Hm M']; subst; inversion F as [|? p ? fs' (f & g & Hf & Hg & ->) F']; subst; constructor; auto.
    destruct it as [nm vt]. cbn [fst snd] in *. inversion Hm as [nm' vt' g1 g2 G1 G2]; subst.
    pose proof (Hk (QT :: nm ++ [QT]) _ f (mn_str _ _ _ _ (as_is_lit esc _ _ H1)) Hf) as R1. pose proof (Hv vt _ g H2 Hg) as R2.
    pose proof (field_rd (at_old kc k0) (at_old vc v0) _ _ _ _ g1 g2 (at_rd _ _ _ _ (rdf_into _ _ _ k0 R1)) (at_rd _ _ _ _ (rdf_into _ _ _ v0 R2)) G1 G2) as (Hh & Hd).
    replace (QT :: nm ++ QT :: g1 ++ COLON :: g2 ++ vt) with ((QT :: nm ++ [QT]) ++ g1 ++ COLON :: g2 ++ vt) by (cbn [app]; now rewrite <- app_assoc).
    split; [exact Hh|]. intros sn r e Hr He. exact (Hd sn (k0, v0) r e Hr He).
  Qed.
End Lists.
Lemma known_names {T} (L : list (memb T)) it : known L it = true <-> In (fst it) (names L).
Proof.
  unfold known. rewrite existsb_exists. split.
  - intros (n & H & K). destruct (name_dec n (fst it)); [now subst|discriminate].
  - intros H. exists (fst it). split; [exact H|]. destruct (name_dec (fst it) (fst it)); congruence.
Qed.
Lemma count_once {T} (L : list (memb T)) its : (forall n, In n (names L) -> (count_occ name_dec (map fst its) n <= 1)%nat) -> once L its.
Proof.
  unfold once. induction its as [|it its IH]; intros H; [constructor|]. cbn [filter map count_occ] in *.
  assert (forall n, In n (names L) -> (count_occ name_dec (map fst its) n <= 1)%nat) as H' by (intros n Hn; specialize (H n Hn); destruct (name_dec (fst it) n); lia).
  destruct (known L it) eqn:E; [|now apply IH]. cbn [map]. constructor; [|now apply IH]. apply known_names in E. specialize (H _ E). destruct (name_dec (fst it) (fst it)); [|congruence].
  intros K. assert (In (fst it) (map fst its)) as K'. { apply in_map_iff in K. destruct K as (x & <- & Hx). apply filter_In in Hx. now apply in_map. }
  apply (count_occ_In name_dec) in K'. lia.
Qed.
(** arrays of flag names, with gaps *)
Inductive fitems (r : buf) : elist -> buf -> Prop :=
| fs_nil g : gap g -> fitems r [] (g ++ RBR :: r)
| fs_last n x g g2 : gap g -> gap g2 -> fitems r [(n, x)] (g ++ QT :: n ++ QT :: g2 ++ RBR :: r)
| fs_more n x g g2 l s : gap g -> gap g2 -> fitems r l s -> fitems r ((n, x) :: l) (g ++ QT :: n ++ QT :: g2 ++ COMMA :: s).
Lemma fitems_space r l s e : fitems r l s -> exists s', parse_space s e = (s', e) /\ fitems r l s' /\ suffix s' s /\ match l with [] => s' = RBR :: r | p :: _ => exists t, s' = QT :: fst p ++ QT :: t end.
Proof.
  intros [g Hg|n x g g2 Hg Hg2|n x g g2 l' s0 Hg Hg2 H]; rewrite gap_parse_space by (auto; unfold stop, s_ws; lia); eexists; (split; [reflexivity|]).
  - split; [apply (fs_nil r []); constructor|]. split; [now exists g|reflexivity].
  - split; [apply (fs_last r n x []); auto; constructor|]. split; [now exists g|]. eexists. reflexivity.
  - split; [apply (fs_more r n x []); auto; constructor|]. split; [now exists g|]. eexists. reflexivity.
Qed.
Lemma fitems_nonempty r l s : fitems r l s -> s <> [].
Proof. intros [g Hg|n x g g2 Hg Hg2|n x g g2 l' s0 Hg Hg2 H] E; now destruct g. Qed.
Lemma gap_quote g (a b : buf) : gap g -> g ++ QT :: a = QT :: b -> g = [].
Proof. intros Hg E. destruct Hg as [|c g Hc Hg|g Hn Hg|u g H1 H2 Hg]; [reflexivity| | |]; cbn [app] in E; exfalso; [assert (c = QT) by congruence; unfold s_ws in Hc; lia| |]; discriminate. Qed.
Lemma fitems_head r m x ns t : fitems r ((m, x) :: ns) (QT :: m ++ QT :: t) ->
  (ns = [] /\ exists g2, gap g2 /\ t = g2 ++ RBR :: r) \/ exists g2 s2, gap g2 /\ t = g2 ++ COMMA :: s2 /\ fitems r ns s2.
Proof.
  intros H. remember ((m, x) :: ns) as l eqn:El. remember (QT :: m ++ QT :: t) as s eqn:Es. destruct H as [g Hg|n' x' g g2 Hg Hg2|n' x' g g2 l' s0 Hg Hg2 H']; [discriminate| |].
  - assert (n' = m) as -> by congruence. pose proof (gap_quote _ _ _ Hg Es) as ->. cbn [app] in Es. apply (f_equal (@tl Z)) in Es. cbn [tl] in Es. apply app_inv_head in Es. apply (f_equal (@tl Z)) in Es. cbn [tl] in Es.
    left. split; [congruence|]. now exists g2.
  - assert (n' = m) as -> by congruence. pose proof (gap_quote _ _ _ Hg Es) as ->. cbn [app] in Es. apply (f_equal (@tl Z)) in Es. cbn [tl] in Es. apply app_inv_head in Es. apply (f_equal (@tl Z)) in Es. cbn [tl] in Es.
    right. exists g2, s0. assert (l' = ns) as <- by congruence. now split.
Qed.
Lemma one_arr_gaps mode sn L0 r e : Forall no_quote (enames L0) -> NoDup (enames L0) ->
  forall L ns v0 rdy s, incl L L0 -> incl ns L0 -> fitems r ns s -> rdy = true \/ (exists p l, ns = p :: l /\ In p L) \/ ns = [] /\ L <> [] ->
  exists k l s', ns = k ++ l /\ fitems r l s' /\ suffix s' s /\ (rdy = false -> ns <> [] -> k <> []) /\ (rdy = false -> ns = [] -> s' = RBR :: r) /\ (k <> [] -> length s' < length s)%nat /\
    one_arr mode sn L v0 s e rdy = Ok (fold_left Z.lor (evals k) v0, s', e).
Proof.
  intros Hn Hd. rewrite Forall_forall in Hn. induction L as [|[n x] L IH]; intros ns v0 rdy s HL Hns HF Hr.
  - destruct Hr as [->|[(p & l & _ & [])|(_ & K)]]; [|congruence]. exists [], ns, s. split; [reflexivity|]. split; [exact HF|]. split; [now exists []|]. split; [discriminate|]. split; [discriminate|]. split; [congruence|]. reflexivity.
  - cbn [one_arr]. destruct (fitems_space r ns s e HF) as (s1 & E1 & F1 & (g1 & Eg1) & S1). rewrite E1. destruct ns as [|[m y] ns].
    { subst s1. change (RBR =? RBR) with true. cbv iota. exists [], [], (RBR :: r). split; [reflexivity|]. split; [exact F1|]. split; [now exists g1|]. split; [congruence|]. split; [reflexivity|]. split; [congruence|]. reflexivity. }
    destruct S1 as (t & ->). cbn [fst] in *. change (QT =? RBR) with false. change (QT =? QT) with true. cbn [negb].
    assert (Hm : no_quote m) by (apply Hn; apply (in_map fst L0 (m, y)), Hns; now left).
    assert (Hn1 : no_quote n) by (apply Hn; apply (in_map fst L0 (n, x)), HL; now left).
    assert (HLs : (length (QT :: m ++ QT :: t) <= length s)%nat) by (rewrite Eg1, app_length; lia).
    destruct (list_eq_dec Z.eq_dec n m) as [->|Hnm].
    + assert (x = y).
      { assert (H1 : In (m, x) L0) by (apply HL; now left). assert (H2 : In (m, y) L0) by (apply Hns; now left).
        pose proof (enum_find_in Strict L0 0 _ _ Hd H1). pose proof (enum_find_in Strict L0 0 _ _ Hd H2). congruence. }
      subst y. rewrite pre_match_app. change (QT =? QT) with true. cbv iota.
      assert ((ns = [] /\ exists g2, gap g2 /\ t = g2 ++ RBR :: r) \/ exists g2 s2, gap g2 /\ t = g2 ++ COMMA :: s2 /\ fitems r ns s2) as HT.
      { exact (fitems_head r m x ns t F1). }
      destruct HT as [(-> & g2 & Hg2 & ->)|(g2 & s2 & Hg2 & -> & F2)].
      * rewrite gap_parse_space by (auto; unfold stop, s_ws; lia). change (RBR =? COMMA) with false. cbn [negb].
        exists [(m, x)], [], (RBR :: r). split; [reflexivity|]. split; [apply (fs_nil r []); constructor|]. split; [|split; [discriminate|split; [discriminate|split]]].
        -- exists (g1 ++ QT :: m ++ QT :: g2). rewrite Eg1. repeat (rewrite <- app_assoc; cbn [app]). reflexivity.
        -- intros _. revert HLs. cbn [length]. rewrite !app_length. cbn [length]. rewrite app_length. cbn [length]. lia.
        -- reflexivity.
      * rewrite gap_parse_space by (auto; unfold stop, s_ws; lia). change (COMMA =? COMMA) with true. cbn [negb].
        destruct (fitems_space r ns s2 e F2) as (s3 & E3 & F3 & (g3 & Eg3) & _). rewrite E3.
        destruct (IH ns (Z.lor v0 x) true s3) as (k & l & s' & Ek & F' & (g4 & Eg4) & _ & _ & _ & Eo); [intros q Hq; apply HL; now right|intros q Hq; apply Hns; now right|exact F3|now left|].
        exists ((m, x) :: k), l, s'. split; [cbn; now f_equal|]. split; [exact F'|]. split; [|split; [discriminate|split; [discriminate|split]]].
        -- exists (g1 ++ QT :: m ++ QT :: g2 ++ COMMA :: g3 ++ g4). rewrite Eg1, Eg3, Eg4. repeat (rewrite <- app_assoc; cbn [app]). reflexivity.
        -- intros _. revert HLs. rewrite Eg3, Eg4. cbn [length]. rewrite !app_length. cbn [length]. rewrite !app_length. cbn [length]. rewrite !app_length. lia.
        -- exact Eo.
    + destruct (IH ((m, y) :: ns) v0 rdy (QT :: m ++ QT :: t)) as (k & l & s' & Ek & F' & (g4 & Eg4) & Hk & _ & Hlt & Eo).
      { intros q Hq; apply HL; now right. } { exact Hns. } { exact F1. }
      { destruct Hr as [->|[(p & l & [= <- <-] & [Hp|Hp])|(Hp & _)]]; [now left|congruence| |discriminate]. right. left. eexists _, _. now split. }
      exists k, l, s'. split; [exact Ek|]. split; [exact F'|]. split; [exists (g1 ++ g4); rewrite <- app_assoc, <- Eg4; exact Eg1|]. split; [exact Hk|]. split; [discriminate|]. split; [intros K; specialize (Hlt K); lia|].
      destruct (pre_match n _) as [[|d u]|] eqn:E; try exact Eo. destruct (Z.eqb_spec d QT) as [->|]; [|exact Eo]. exfalso. apply Hnm.
      eapply (pre_match_miss (fun c => c = QT)); try exact E; auto.
Qed.
Lemma flags_loop_gaps mode sn L r e : L <> [] -> Forall no_quote (enames L) -> NoDup (enames L) ->
  forall fuel ns v0 s, incl ns L -> fitems r ns s -> (length s < fuel)%nat ->
  flags_loop RBR (fun v s e => one_arr mode sn L v s e false) fuel v0 s e = Ok (fold_left Z.lor (evals ns) v0, RBR :: r, e).
Proof.
  intros HL Hn Hd. induction fuel as [|fuel IH]; intros ns v0 s Hi HF Hf; [lia|]. cbn [flags_loop].
  destruct s as [|c u]; [now destruct (fitems_nonempty r ns [] HF)|]. destruct (Z.eqb_spec c RBR) as [->|Nc].
  - destruct (fitems_space r ns _ e HF) as (s1 & E1 & _ & _ & S1). rewrite space_stop in E1 by (unfold stop, s_ws; lia). injection E1 as <-.
    destruct ns as [|p ns]; [injection S1 as <-; reflexivity|]. destruct S1 as (t & S1). discriminate.
  - destruct (one_arr_gaps mode sn L r e Hn Hd L ns v0 false (c :: u) (incl_refl _) Hi HF) as (k & l & s' & Ek & F' & (g & Eg) & Hk & H0 & Hlt & Eo).
    { right. destruct ns as [|p ns]; [right; now split|left]. exists p, ns. split; [reflexivity|]. apply Hi. now left. }
    rewrite Eo. cbn [bind]. assert (length s' < length (c :: u))%nat as Hs.
    { destruct ns as [|p ns]; [|apply Hlt, Hk; [reflexivity|discriminate]]. rewrite (H0 eq_refl eq_refl) in *. destruct g as [|d g]; [cbn in Eg; injection Eg as -> _; congruence|].
      rewrite Eg. cbn [app length]. rewrite app_length. cbn [length]. lia. }
    replace (dist s' =? dist (c :: u)) with false by (unfold dist; lia). destruct s' as [|c2 u2] eqn:E2; [now destruct (fitems_nonempty r l [] F')|].
    rewrite (IH l); auto; [|intros q Hq; apply Hi; rewrite Ek; apply in_or_app; now right|lia]. rewrite Ek. unfold evals. now rewrite map_app, fold_left_app.
Qed.
Lemma flags_arr_gaps sep mode L sn old ns x r e : L <> [] -> NoDup (enames L) -> Forall no_quote (enames L) -> incl ns L ->
  spaced false (map (fun p => QT :: fst p ++ [QT]) ns) x -> flags_des sep mode L sn old (LBR :: x ++ RBR :: r) e = Ok (union_of ns, r, e).
Proof.
  intros HL Hd Hn Hi HS. assert (fitems r ns (x ++ RBR :: r)) as HF.
  { assert (B : forall ts b, ebody false ts b -> forall ns, ts = map (fun p => QT :: fst p ++ [QT]) ns -> fitems r ns (b ++ RBR :: r)).
    { clear. induction 1 as [g1 t g2 H1 H2|g1 t g2 g3 E|g1 t g2 ts b H1 H2 _ IH]; intros ns Et; [|discriminate|]; destruct ns as [|[n x] ns]; try discriminate.
      - destruct ns; [|discriminate]. cbn in Et. injection Et as ->. repeat (rewrite <- app_assoc; cbn [app]). now apply fs_last.
      - cbn [map fst] in Et. injection Et as -> ->. repeat (rewrite <- app_assoc; cbn [app]). apply fs_more; auto. }
    inversion HS as [g Hg E|ts b Hb E]; subst; [|now apply (B _ _ Hb)]. destruct ns; [|discriminate]. now apply fs_nil. }
  unfold flags_des. change (negb (LBR =? LBR) && negb (LBR =? QT)) with false. cbv iota. change (LBR =? LBR) with true. cbv iota.
  rewrite (flags_loop_gaps mode sn L r e HL Hn Hd _ ns 0 _ Hi HF) by lia. reflexivity.
Qed.
Theorem sees_read esc A (c : codec A) tr : sees esc A c tr -> read esc c tr.
Proof.
  induction 1 as [A c tr tr' _ IH Hs|y Hy| | |mode L He Hd Hq|A c d0 tr _ IH|A lt c d0 tr W _ IH|A lt c d0 tr W _ IH|A c d0 N tr P _ IH|K V kc vc k0 v0 tk tv _ IHk _ IHv
    |K V lt kc vc k0 v0 tk tv W _ IHk _ IHv|K V lt kc vc k0 v0 tk tv W _ IHk _ IHv|T mode L t0 tr HN HI _ IH|T L t0 tr HI _ IH|A c serq reqq tr _ IH|A c d0 tr _ IH|A c tr f _ IH Hf|A R fmt scan conv zero Hc|N HN|sep mode L He Hs Hd Hq|sep mode L HL He Hd Hq|A c N tr P _ IH|T A get set c tr _ IH]; intros b t F Hb Ht.
  - destruct (Hs t F Ht) as (G & HG & E). destruct (IH b t G Hb HG) as (Hh & Hd). split; [exact Hh|]. intros sn old r e Hr He. rewrite <- E. now apply Hd.
  - destruct Ht as (z & -> & R & Hd & ->). split; [now apply simple_head in Hb|]. intros sn old r e Hr He. inversion Hb as [| | |z' n Hj| | | | | |]; subst.
    apply int_des_in_range; auto; [|right; right; now apply follow_nodigit]. split; [exact R|]. unfold wraps. tauto.
  - destruct Ht as (x & -> & ->). split; [now apply simple_head in Hb|]. intros sn old r e Hr He. inversion Hb; subst; reflexivity.
  - destruct Ht as (s & -> & Hl & ->). split; [now apply simple_head in Hb|]. intros sn old r e Hr He. inversion Hb as [| | | | |l s' Hs| | | |]; subst.
    apply string_read_mean; [|exact Hl]. constructor. now apply lit_bmp with esc.
  - destruct Ht as (n & x & -> & Hi & ->). split; [now apply simple_head in Hb|]. intros sn old r e Hr _. subst esc. inversion Hb as [| | | | |l s' Hs| | | |]; subst.
    destruct Hs as (-> & _). cbn [app]. rewrite <- app_assoc. cbn [app des enum_codec]. rewrite enum_run.
    + now rewrite (enum_find_in mode L 0 n x Hd Hi).
    + rewrite Forall_forall in Hq. apply Hq. unfold enames. now apply (in_map fst) in Hi.
  - destruct Ht as (l & fs & -> & Hf & ->). apply rd_rdf. pose proof (arr_reads esc vec_cont c tr d0 b l fs IH Hb Hf) as R. cbn [c_get c_ins c_new vec_cont] in R. rewrite fold_snoc in R. exact R.
  - destruct Ht as (l & fs & m & -> & Hf & Hm & ->). apply rd_rdf. pose proof (arr_reads esc (set_cont lt) c tr d0 b l fs IH Hb Hf) as R. cbn [c_get c_ins c_new set_cont] in R.
    rewrite (set_as lt _ m W Hm) in R. exact R.
  - destruct Ht as (l & fs & m & -> & Hf & Hm & ->). apply rd_rdf. pose proof (arr_reads esc (multi_cont lt) c tr d0 b l fs IH Hb Hf) as R. cbn [c_get c_ins c_new multi_cont] in R.
    rewrite (multi_as lt _ m W Hm) in R. exact R.
  - destruct Ht as (l & fs & -> & Hf & Hl & HF). split; [now apply simple_head in Hb|]. intros sn old r e Hr He. apply arr_texts in Hb. destruct Hb as (x & ts & -> & T & Hs).
    pose proof (list_reads esc c tr d0 ts l fs IH T Hf) as R. cbn [app]. rewrite <- app_assoc. cbn [app des std_array_codec vec_codec]. unfold stdarray_codec. cbn [des].
    assert (length (map (fun f => f d0) fs) = length l) as EL by (rewrite map_length; clear - Hf; induction Hf; cbn; congruence).
    erewrite fix_filled; [|now left|exact Hs|apply (filled_in c d0 ts _ R); rewrite EL, vlist_len; exact Hl|intros K; apply (f_equal (@length A)) in K; rewrite vlist_len in K; cbn in K; lia|exact He].
    cbn [bind]. rewrite EL, <- HF, vfill_vlist. reflexivity.
  - destruct Ht as (l & fs & -> & Hf & ->). apply rd_rdf. pose proof (dict_reads esc vec_cont kc vc tk tv k0 v0 b l fs IHk IHv Hb Hf) as R. cbn [c_get c_ins c_new vec_cont] in R. rewrite fold_snoc in R. exact R.
  - destruct Ht as (l & fs & m & -> & Hf & Hm & ->). apply rd_rdf. pose proof (dict_reads esc (set_cont (klt lt)) kc vc tk tv k0 v0 b l fs IHk IHv Hb Hf) as R. cbn [c_get c_ins c_new set_cont] in R.
    rewrite (set_as (klt lt) _ m (klt_swo lt W) Hm) in R. exact R.
  - destruct Ht as (l & fs & m & -> & Hf & Hm & ->). apply rd_rdf. pose proof (dict_reads esc (multi_cont (klt lt)) kc vc tk tv k0 v0 b l fs IHk IHv Hb Hf) as R. cbn [c_get c_ins c_new multi_cont] in R.
    rewrite (multi_as (klt lt) _ m (klt_swo lt W) Hm) in R. exact R.
  - destruct Ht as (l & fs & -> & Hf & Ho & ->). split; [now apply simple_head in Hb|]. intros sn old r e _ He. apply obj_texts in Hb. destruct Hb as (its & HT & O).
    assert (map fst its = map fst l) as EN. { clear - HT. induction HT as [|x y its l ((E & _) & _) _ IH]; [reflexivity|]. cbn. now rewrite IH, E. }
    apply object_reads with its; auto.
    + rewrite EN. destruct Ho as [Ho|Ho]; [left|now right]. apply count_once. now rewrite EN.
    + clear Ho EN O. revert fs Hf. induction HT as [|x y its l ((E & Hn) & Hx) _ IH2]; intros fs Hf; inversion Hf as [|? g ? fs' Hg Hf']; subst; constructor; auto.
      destruct x as [nm vt]. cbn [fst snd] in *. destruct Hg as [bb t G Hbb HG|n t Hm Hnn]; cbn [fst snd] in *; subst nm.
      * apply is_known; [exact Hbb|]. exact (IH bb Hbb vt t G Hx HG).
      * apply is_unknown; auto; [apply rchars_wchars; now apply bare_rchars|]. apply rfc_wjson. now apply simple_rvalue with esc t.
  - destruct Ht as (l & L1 & L2 & fs & -> & -> & Hf & ->). split; [now apply simple_head in Hb|]. intros sn old r e _ He. apply arr_texts in Hb. destruct Hb as (x & ts & -> & HT & Hs).
    eapply oarray_run; eauto. apply elems_aread; [|apply Forall_app in HI; tauto].
    assert (forall bb, In bb L1 -> read esc (m_codec (memb_mem bb)) (tr (memb_mem bb))) as IH' by (intros bb Hbb; apply IH; apply in_or_app; now left). clear - IH' Hf HT.
    revert ts HT. induction Hf as [|bb L t G l fs HG _ IH2]; intros ts HT; inversion HT as [|bx ? ts' ? Hx HT']; subst; constructor.
    + apply (IH' bb (or_introl eq_refl) bx t G Hx HG).
    + apply IH2; [|exact HT']. intros q Hq. apply IH'. now right.
  - split; [now apply simple_head in Hb|]. intros sn old r e Hr He. destruct Ht as [(s & t' & -> & Hl & Hs & Ht)|(-> & Hn & Ht)].
    + inversion Hb as [| | | | |lt s' HL| | | |]; subst. assert (quoted_des1 c sn old ((QT :: lt ++ [QT]) ++ r) e = Ok (F old, r, e)) as Q.
      { unfold quoted_des1. rewrite (string_read_mean sn [] _ s r e (sb _ _ (lit_bmp _ _ _ HL)) Hl). cbn [bind].
        assert (has_err e = false) as -> by (destruct e as [j|]; [unfold has_err, no_err_yet in *; destruct (is_err j); [discriminate|reflexivity]|reflexivity]).
        destruct (IH s t' F Hs Ht) as (_ & Hd). specialize (Hd (Some 0) old [] (Some no_error) I eq_refl). rewrite app_nil_r in Hd. rewrite Hd. cbn [bind]. destruct e; reflexivity. }
      cbn [des quoted_codec]. unfold quoted_des. destruct reqq; [exact Q|]. change (is_string ((QT :: lt ++ [QT]) ++ r)) with true. exact Q.
    + cbn [des quoted_codec]. unfold quoted_des. destruct (IH b t F Hb Ht) as ((h & z & -> & Hh) & Hd). destruct (is_string ((h :: z) ++ r)) eqn:Es; [|now apply Hd].
      exfalso. apply starts_inv in Es. destruct Es as (z' & Es). cbn [app] in Es. assert (h = QT) as -> by congruence.
      inversion Hb as [| | |z1 n Hj|n Hj Hq|lt s HL| | | |]; subst; try (now apply (Hn s)).
      * apply jint_rnumber, rnumber_head in Hj. destruct Hj as (h & y & E & Hh'). injection E as <- _. unfold s_digit in Hh'. lia.
      * apply rnumber_head in Hj. destruct Hj as (h & y & E & Hh'). injection E as <- _. unfold s_digit in Hh'. lia.
  - split; [now apply simple_head in Hb|]. intros sn old r e Hr He. cbn [des ptr_codec]. unfold ptr_des. destruct Ht as [(-> & ->)|(Hn & f & Hf & ->)].
    + inversion Hb; subst. reflexivity.
    + destruct (IH b t f Hb Hf) as ((h & z & -> & Hh) & Hd). cbn [app]. destruct (Z.eqb_spec h 110) as [->|Nh]; cbn [negb].
      * exfalso. inversion Hb as [| | |z1 n Hj|n Hj Hq|lt s HL| | | |]; subst; try congruence.
        -- apply jint_rnumber, rnumber_head in Hj. destruct Hj as (h & y & E & Hh'). injection E as <- _. unfold s_digit in Hh'. lia.
        -- apply rnumber_head in Hj. destruct Hj as (h & y & E & Hh'). injection E as <- _. unfold s_digit in Hh'. lia.
      * change (h :: z ++ r) with ((h :: z) ++ r). rewrite Hd by assumption. reflexivity.
  - destruct Ht as [Ht|(-> & ->)]; [now apply IH with t|]. split; [now apply simple_head in Hb|]. intros sn old r e _ _. inversion Hb; subst. apply Hf.
  - destruct Ht as (x & -> & Ht). split; [now apply simple_head in Hb|]. intros sn old r e Hr _. destruct Ht as [(n & -> & Hl & <-)|(z & -> & Hz)].
    + inversion Hb as [| | | |n' Hn Hj| | | | |]; subst. now apply float_read.
    + inversion Hb as [| | |z' n Hj| | | | | |]; subst. destruct (Hz b Hj) as (Hl & <-). apply float_read; auto. now apply jint_rnumber with z.
  - destruct Ht as (s & -> & Hl & ->). split; [now apply simple_head in Hb|]. intros sn old r e _ _. inversion Hb as [| | | | |l s' HL| | | |]; subst.
    cbn [des chars_codec]. unfold chars_des. change (is_null ((QT :: l ++ [QT]) ++ r)) with false. cbv iota.
    rewrite (dchunks_unser l s r (Z.of_nat N) e); [|now apply lmean_dchunks, lit_bmp with esc|unfold dist; lia].
    cbn [bind]. destruct (Nat.ltb_spec N (length s)); [lia|]. reflexivity.
  - destruct Ht as (ns & -> & Hi & ->). split; [now apply simple_head in Hb|]. intros sn old r e _ _. subst esc. inversion Hb as [| | | | |l s' HL| | | |]; subst. destruct HL as (-> & _).
    cbn [app]. rewrite <- app_assoc. cbn [app des flags_codec]. now apply flags_str_any.
  - destruct Ht as (ns & -> & Hi & ->). split; [now apply simple_head in Hb|]. intros sn old r e _ _. subst esc. apply arr_texts in Hb. destruct Hb as (x & ts & -> & HT & HS).
    assert (ts = map (fun p => QT :: fst p ++ [QT]) ns) as ->.
    { clear - HT. revert ts HT. induction ns as [|p ns IH]; intros ts HT; inversion HT as [|bx ? ts' ? Hx HT']; subst; [reflexivity|]. cbn [map]. f_equal; [|now apply IH].
      inversion Hx as [| | | | |l s' HL| | | |]; subst. destruct HL as (-> & _). reflexivity. }
    cbn [app]. rewrite <- app_assoc. cbn [app des flags_codec]. now apply flags_arr_gaps.
  - destruct Ht as (l & fs & -> & Hf & Hl & HF). split; [now apply simple_head in Hb|]. intros sn old r e Hr He. apply arr_texts in Hb. destruct Hb as (x & ts & -> & T & Hs).
    cbn [app]. rewrite <- app_assoc. cbn [app des c_array_codec vec_codec]. unfold carray_codec. cbn [des].
    assert (filled c (fun y => y) (vlist old) ts (patch fs (vlist old))) as FL.
    { assert (length fs <= length (vlist old))%nat as Lo by (rewrite vlist_len; replace (length fs) with (length l) by (clear - Hf; induction Hf; cbn; congruence); exact Hl).
      clear - IH T Hf Lo. revert ts T Lo. generalize (vlist old) as o. induction Hf as [|t f l fs Ht _ IH2]; intros o ts T Lo; inversion T as [|bx ? ts' ? Hx T']; subst; [destruct o; apply fl_stay|].
      destruct o as [|y o]; [cbn in Lo; lia|]. cbn [patch]. apply fl_read; [apply rdf_into; exact (IH bx t f Hx Ht)|]. apply IH2; [exact T'|cbn in Lo; lia]. }
    erewrite fix_filled; [|now left|exact Hs|exact FL|intros K; apply (f_equal (@length A)) in K; rewrite vlist_len in K; cbn in K; lia|exact He].
    cbn [bind]. rewrite <- HF, vfill_vlist. reflexivity.
  - destruct Ht as (f & Hf & ->). destruct (IH b t f Hb Hf) as (Hh & Hd). split; [exact Hh|]. intros sn old r e Hr He. cbn [des member_value_codec]. rewrite Hd by assumption. reflexivity.
Qed.
