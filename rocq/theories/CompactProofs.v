(** Proofs about SpecCompact. *)
From Verif Require Import Base Parser SpecJson SpecNum SpecSeq SpecString Grammar1 Grammar2 SpecDespace DespaceProofs Out Number Float StringS Array Unord Object SpecObject ObjectArray Enum SpecEnum
  Wrap SpecWrap TimeSize SpecTime CodecLaws NumberProofs StringProofs ArrayProofs ObjectProofs ObjectArrayProofs EnumProofs WrapProofs TimeProofs SizeProofs FloatProofs Desc DescProofs SpecCompact.

(** ---- the grammar ---- *)
Lemma wsn : ws []. Proof. constructor. Qed.
#[local] Hint Resolve wsn g_nil : core.
Theorem cvalue_rvalue : (forall v, cvalue v -> rvalue v) /\ (forall l, celems l -> relems l) /\ (forall l, cmembers l -> rmembers l).
Proof.
  apply cjson_ind; intros; try (now constructor).
  - apply (rv_arr0 []); auto.
  - apply (rv_obj0 []); auto.
  - rewrite <- (app_nil_r v). apply (rel_one [] v []); auto.
  - apply (rel_more [] v [] l); auto.
  - rewrite <- (app_nil_r v). apply (rme_one [] k [] [] v []); auto.
  - apply (rme_more [] k [] [] v [] l); auto.
Qed.
(** A compact text is made of its tokens, *)
Theorem cvalue_lay : (forall v, cvalue v -> exists ts, concat ts = v /\ lay v ts) /\ (forall l, celems l -> exists ts, concat ts = l /\ cont l ts) /\ (forall l, cmembers l -> exists ts, concat ts = l /\ cont l ts).
Proof.
  assert (T : forall t, token t -> exists ts, concat ts = t /\ lay t ts) by (intros t Ht; exists [t]; cbn; rewrite app_nil_r; split; [reflexivity|now apply lay_token]).
  apply cjson_ind.
  - apply T; constructor.
  - apply T; constructor.
  - apply T; constructor.
  - intros n Hn. apply T. now apply tk_num.
  - intros s Hs. apply T. now apply tk_str, rstring_wstring.
  - exists [[LBR]; [RBR]]. split; [reflexivity|]. apply (lay_empty LBR [] RBR); auto; pin.
  - intros l _ (ts & E & C). exists ([LBR] :: ts ++ [[RBR]]). cc. rewrite E. split; [reflexivity|]. apply lay_brackets'; auto; pin.
  - exists [[LCB]; [RCB]]. split; [reflexivity|]. apply (lay_empty LCB [] RCB); auto; pin.
  - intros l _ (ts & E & C). exists ([LCB] :: ts ++ [[RCB]]). cc. rewrite E. split; [reflexivity|]. apply lay_brackets'; auto; pin.
  - intros v _ (ts & E & L). exists ts. split; [exact E|]. pose proof (cont_value [] v ts [] g_nil g_nil L) as K. cbn [app] in K. now rewrite app_nil_r in K.
  - intros v l _ (ts & E & L) _ (tl & El & M). exists (ts ++ [COMMA] :: tl). cc. rewrite E, El. split; [reflexivity|]. apply (cont_more [] v ts [] l tl); auto.
  - intros k v Hk _ (ts & E & L). exists (k :: [COLON] :: ts). cc. rewrite E. split; [reflexivity|].
    pose proof (cont_member [] k [] [] v ts [] g_nil (rstring_wstring _ Hk) g_nil g_nil L g_nil) as K. cbn [app] in K. now rewrite app_nil_r in K.
  - intros k v l Hk _ (ts & E & L) _ (tl & El & M). exists (k :: [COLON] :: ts ++ [COMMA] :: tl). cc. rewrite E, El. split; [reflexivity|].
    apply (cont_member_more [] k [] [] v ts [] l tl); auto using rstring_wstring.
Qed.
Theorem despace_compact v e : cvalue v -> no_err_yet e = true -> despace v e = Ok ([], v, e).
Proof.
  intros H He. destruct (proj1 cvalue_lay v H) as (ts & E & L). rewrite <- E at 2. apply despace_tokens; [|exact He].
  pose proof (lay_doc v ts [] [] L g_nil g_nil) as K. cbn [app] in K. now rewrite app_nil_r in K.
Qed.
(** and the tokens of a JSON text make up a compact one. *)
Definition Cv (G : buf -> Prop) (P : buf -> list buf -> Prop) (v : buf) : Prop := exists ts, G (concat ts) /\ P v ts.
Lemma rfc_compact : (forall v, rvalue v -> Cv cvalue lay v) /\ (forall l, relems l -> Cv celems cont l) /\ (forall l, rmembers l -> Cv cmembers cont l).
Proof.
  assert (T : forall t, token t -> cvalue t -> Cv cvalue lay t) by (intros t Ht Hv; exists [t]; cbn; rewrite app_nil_r; split; [exact Hv|now apply lay_token]).
  apply rjson_ind.
  - apply T; constructor.
  - apply T; constructor.
  - apply T; constructor.
  - intros n Hn. apply T; [now apply tk_num|now constructor].
  - intros s Hs. apply T; [now apply tk_str, rstring_wstring|now constructor].
  - intros g Hg. apply ws_gap in Hg. exists [[LBR]; [RBR]]. split; [exact cv_arr0|]. apply lay_empty; auto; pin.
  - intros l _ (ts & G & C). exists ([LBR] :: ts ++ [[RBR]]). cc. split; [now apply cv_arr|]. apply lay_brackets'; auto; pin.
  - intros g Hg. apply ws_gap in Hg. exists [[LCB]; [RCB]]. split; [exact cv_obj0|]. apply lay_empty; auto; pin.
  - intros l _ (ts & G & C). exists ([LCB] :: ts ++ [[RCB]]). cc. split; [now apply cv_obj|]. apply lay_brackets'; auto; pin.
  - intros g1 v g2 H1 _ (ts & G & L) H2. exists ts. split; [now apply ce_one|]. apply cont_value; auto using ws_gap.
  - intros g1 v g2 l H1 _ (ts & G & L) H2 _ (tl & Gl & M). exists (ts ++ [COMMA] :: tl). cc. split; [now apply ce_more|]. apply cont_more; auto using ws_gap.
  - intros g1 k g2 g3 v g4 H1 Hk H2 H3 _ (ts & G & L) H4. exists (k :: [COLON] :: ts). cc. split; [now apply cm_one|]. apply cont_member; auto using ws_gap, rstring_wstring.
  - intros g1 k g2 g3 v g4 l H1 Hk H2 H3 _ (ts & G & L) H4 _ (tl & Gl & M). exists (k :: [COLON] :: ts ++ [COMMA] :: tl). cc. split; [now apply cm_more|].
    apply cont_member_more; auto using ws_gap, rstring_wstring.
Qed.
Theorem despace_makes_compact g1 v g2 e : rvalue v -> gap g1 -> gap g2 -> no_err_yet e = true -> exists w, despace (g1 ++ v ++ g2) e = Ok ([], w, e) /\ cvalue w.
Proof. intros Hv H1 H2 He. destruct (proj1 rfc_compact v Hv) as (ts & G & L). exists (concat ts). split; [|exact G]. apply despace_tokens; [|exact He]. now apply lay_doc. Qed.
Theorem compact_fixed v : rvalue v -> (cvalue v <-> despace v (Some no_error) = Ok ([], v, Some no_error)).
Proof.
  intros Hv. split; [intros H; now apply despace_compact|]. intros E. destruct (despace_makes_compact [] v [] (Some no_error) Hv g_nil g_nil eq_refl) as (w & E' & H).
  cbn [app] in E'. rewrite app_nil_r, E in E'. injection E' as ->. exact H.
Qed.

(** ---- what is written ---- *)
Definition cout {A} (c : codec A) (dom : A -> Prop) : Prop := forall v, dom v -> exists ops, ser c v = Ok ops /\ cvalue (flat ops).
Lemma scalar_compact v : rvalue v -> ~ heads LBR v -> ~ heads LCB v -> cvalue v.
Proof.
  intros H N1 N2. destruct H as [| | |n Hn|s Hs|w Hw|l Hl|w Hw|l Hl].
  - constructor. - constructor. - constructor. - now constructor. - now constructor.
  - exfalso. apply N1. now eexists. - exfalso. apply N1. now eexists. - exfalso. apply N2. now eexists. - exfalso. apply N2. now eexists.
Qed.
Lemma string_compact s : rstring s -> cvalue s. Proof. now constructor. Qed.
Inductive cfield : buf -> Prop := cfl k v : rstring k -> cvalue v -> cfield (k ++ COLON :: v).
Lemma join_celems ts : ts <> [] -> Forall cvalue ts -> celems (join ts).
Proof.
  intros Hne H. induction H as [|t ts Ht Hts IH]; [congruence|]. destruct ts as [|u ts]; [now apply ce_one|].
  change (join (t :: u :: ts)) with (t ++ COMMA :: join (u :: ts)). apply ce_more; [exact Ht|]. apply IH. discriminate.
Qed.
Lemma join_carr ts : Forall cvalue ts -> cvalue (LBR :: join ts ++ [RBR]).
Proof. destruct ts as [|t ts]; intros H; [exact cv_arr0|]. apply cv_arr, join_celems; [discriminate|exact H]. Qed.
Lemma join_cmembers ts : ts <> [] -> Forall cfield ts -> cmembers (join ts).
Proof.
  intros Hne H. induction H as [|t ts [k v Hk Hv] Hts IH]; [congruence|]. destruct ts as [|u ts]; [now apply cm_one|].
  change (join ((k ++ COLON :: v) :: u :: ts)) with ((k ++ COLON :: v) ++ COMMA :: join (u :: ts)). rewrite <- app_assoc. cbn [app]. apply cm_more; [exact Hk|exact Hv|]. apply IH. discriminate.
Qed.
Lemma join_cobj ts : Forall cfield ts -> cvalue (LCB :: join ts ++ [RCB]).
Proof. destruct ts as [|t ts]; intros H; [exact cv_obj0|]. apply cv_obj, join_cmembers; [discriminate|exact H]. Qed.
Lemma seq_compact {A} (f : A -> res (list op)) (P : buf -> Prop) L R l : (forall ts, Forall P ts -> cvalue (L :: join ts ++ [R])) -> Forall (fun x => exists ops, f x = Ok ops /\ P (flat ops)) l ->
  exists ops, seq_ser L R f l = Ok ops /\ cvalue (flat ops).
Proof.
  intros HP Hl. destruct (items_ser_ok f l (fun _ o => P (flat o)) Hl) as (opss & ops & F & E & Ef & _). exists (W L :: ops ++ [W R]). unfold seq_ser. rewrite E. split; [reflexivity|].
  cbn [flat flat1 app]. rewrite flat_app, Ef. cbn [flat flat1 app]. apply HP. clear - F. induction F as [|b o L opss (_ & H) _ IH]; cbn; constructor; auto.
Qed.
Lemma arr_cout {A} (c : codec A) dom l : cout c dom -> Forall dom l -> exists ops, seq_ser LBR RBR (ser c) l = Ok ops /\ cvalue (flat ops).
Proof. intros H Hl. apply (seq_compact (ser c) cvalue); [exact join_carr|]. eapply Forall_impl; [|exact Hl]. exact H. Qed.
Lemma dict_cout {K V} (kc : codec K) (vc : codec V) dk dv l : sout kc dk -> cout vc dv -> Forall (fun p => dk (fst p) /\ dv (snd p)) l ->
  exists ops, seq_ser LCB RCB (field_ser kc vc) l = Ok ops /\ cvalue (flat ops).
Proof.
  intros Hk Hv Hl. apply (seq_compact (field_ser kc vc) cfield); [exact join_cobj|]. eapply Forall_impl; [|exact Hl]. intros [k v] [Dk Dv]. cbn [fst snd] in *.
  destruct (Hk k Dk) as (a & Ea & Ra). destruct (Hv v Dv) as (b & Eb & Rb). exists (a ++ W COLON :: b). unfold field_ser. cbn [fst snd]. rewrite Ea, Eb. split; [reflexivity|].
  rewrite flat_app. cbn [flat flat1 app]. now constructor.
Qed.
Lemma object_cout {T} mode (L : list (memb T)) t0 (dm : forall m : mem T, m_ty m -> Prop) : (forall b m, In b L -> In m (mems_of b) -> rchars (m_name m)) ->
  (forall b m, In b L -> In m (mems_of b) -> cout (m_codec m) (dm m)) -> cout (object_codec mode L t0) (fun v => Forall (memb_in dm v) L).
Proof.
  intros HN HM v Hv. cbn [ser object_codec]. unfold object_ser. rewrite members_ser_items. apply (seq_compact (fun b => memb_ser b v) cfield); [exact join_cobj|].
  assert (M : forall m : mem T, rchars (m_name m) -> cout (m_codec m) (dm m) -> dm m (m_get m v) -> exists o, mem_ser m v = Ok o /\ cfield (flat o)).
  { intros m Hn Hc Hd. destruct (Hc _ Hd) as (o & Eo & Co). unfold mem_ser. rewrite Eo. eexists. split; [reflexivity|]. cbn [flat flat1 app]. rewrite flat_app, flat_wr. cbn [flat flat1 app].
    replace (QT :: m_name m ++ QT :: COLON :: flat o) with ((QT :: m_name m ++ [QT]) ++ COLON :: flat o) by (cbn [app]; now rewrite <- app_assoc). constructor; [now constructor|exact Co]. }
  rewrite Forall_forall in *. intros b Hb. specialize (Hv b Hb). destruct b as [m|m i|ru l r isdef]; cbn [memb_ser memb_in] in *.
  - apply M; [apply (HN _ m Hb); now left|apply (HM _ m Hb); now left|exact Hv].
  - apply M; [apply (HN _ m Hb); now left|apply (HM _ m Hb); now left|exact Hv].
  - destruct (isdef (m_get l v)); cbn [negb].
    + apply M; [apply (HN _ r Hb); right; now left|apply (HM _ r Hb); right; now left|exact Hv].
    + apply M; [apply (HN _ l Hb); now left|apply (HM _ l Hb); now left|exact Hv].
Qed.
Lemma oarray_cout {T} (L : list (memb T)) t0 (dm : forall m : mem T, m_ty m -> Prop) :
  (forall b m, In b L -> In m (mems_of b) -> cout (m_codec m) (dm m)) -> cout (oarray_codec L t0) (fun v => Forall (memb_in dm v) L).
Proof.
  intros HM v Hv. cbn [ser oarray_codec]. unfold oarray_ser. rewrite amembers_ser_items. apply (seq_compact (fun b => amemb_ser b v) cvalue); [exact join_carr|].
  rewrite Forall_forall in *. intros b Hb. specialize (Hv b Hb). destruct b as [m|m i|ru l r isdef]; cbn [amemb_ser memb_in] in *; unfold amem_ser.
  - apply (HM _ m Hb); [now left|exact Hv].
  - apply (HM _ m Hb); [now left|exact Hv].
  - destruct (isdef (m_get l v)); cbn [negb].
    + apply (HM _ r Hb); [right; now left|exact Hv].
    + apply (HM _ l Hb); [now left|exact Hv].
Qed.
Lemma flags_cout mode L : Forall rchars (enames L) -> cout (flags_codec COMMA mode L) (fun _ => True).
Proof.
  intros Hn v _. eexists. split; [reflexivity|]. rewrite flat_wr, flags_body_true. change (COMMA =? COMMA) with true. cbv iota. rewrite jsep_join. apply join_carr.
  apply Forall_map, Forall_forall. intros p Hp. apply cv_str. constructor. rewrite Forall_forall in Hn. apply Hn. apply filter_In in Hp. now apply in_map.
Qed.
Lemma sout_cout {A} (c : codec A) dom : sout c dom -> cout c dom.
Proof. intros H v Hv. destruct (H v Hv) as (o & E & R). exists o. split; [exact E|now constructor]. Qed.
Theorem cdesc_cout A (c : codec A) dom : cdesc A c dom -> cout c dom.
Proof.
  induction 1 as [A c dom dom' _ IH Hs|A c dom Hk|t Ht| |A R fmt scan zero|mode L Hn| | |t fr H1 H2 H3|t metric H1 H2 H3 H4
    |A c d0 dom _ IH|A lt c d0 dom _ IH|A lt c d0 dom _ IH|K V kc vc d0 dk dv Hk _ IH|K V lt kc vc d0 dk dv Hk _ IH|K V lt kc vc d0 dk dv Hk _ IH
    |A c d0 N dom _ IH|A c N dom _ IH|T mode L t0 dm Hn _ IH|T L t0 dm _ IH|T A get set c dom _ IH|A c sq rq dom _ IH|A c d0 dom _ IH|A H h c d0 dom _ IH|K V H h kc vc d0 dk dv Hk _ IH].
  - intros v Hv. apply IH. auto.
  - now apply sout_cout, kdesc_sout.
  - intros v Hv. destruct (int_ser_numeral t v Ht Hv) as (s & E & Hs). exists (wr s). split; [exact E|]. rewrite flat_wr. apply cv_num. now apply numeral_rnumber with v.
  - intros [|] _; eexists; (split; [reflexivity|]); rewrite flat_wr; constructor.
  - intros v (Hv1 & Hv2). exists (wr (fmt v)). split; [exact (float_out R fmt scan zero v Hv1 Hv2)|]. rewrite flat_wr. now constructor.
  - now apply flags_cout.
  - intros v [->|Hv]; [exists (wr [QT; QT]); split; [reflexivity|]; rewrite flat_wr; apply cv_str; apply (rstr []); constructor|]. exists (wr v). cbn [ser raw_codec]. unfold raw_ser.
    rewrite flat_wr. split; [destruct v; [|reflexivity]|exact Hv]. exfalso. apply (proj1 cvalue_rvalue) in Hv. apply rfc_wjson in Hv. destruct (wvalue_head [] Hv) as (h & z & E & _). discriminate.
  - intros v [->|Hv]; [exists (wr [QT; QT]); split; [reflexivity|]; rewrite flat_wr; apply cv_str; apply (rstr []); constructor|]. exists (wr v). cbn [ser ipair_codec]. unfold raw_ser.
    rewrite flat_wr. split; [destruct v; [|reflexivity]|exact Hv]. exfalso. apply (proj1 cvalue_rvalue) in Hv. apply rfc_wjson in Hv. destruct (wvalue_head [] Hv) as (h & z & E & _). discriminate.
  - intros v Hv. destruct (time_writes t fr v H1 H2 H3 Hv) as (ops & l & x & A & B & C & _). exists ops. split; [exact A|]. rewrite B. apply cv_str, rstr, rchars_ascii. now apply comps_ascii with l.
  - intros v Hv. destruct (size_jout t metric H1 H2 H3 H4 v Hv) as (ops & E & Hr). exists ops. split; [exact E|]. destruct (size_ser_gen t metric v H1 H2 H3 H4 Hv) as (ops' & E' & G). cbn [ser size_codec] in E. rewrite E in E'. injection E' as <-.
    destruct G as [(n & s & u & m & Ef & _)|(s & -> & Hs & _)].
    + apply scalar_compact; [exact Hr| |]; rewrite Ef; intros [z Z]; discriminate.
    + rewrite flat_wr. apply cv_num. now apply numeral_rnumber with v.
  - intros l Hl. now apply arr_cout with dom.
  - intros l Hl. now apply arr_cout with dom.
  - intros l Hl. now apply arr_cout with dom.
  - intros l Hl. apply dict_cout with dk dv; [now apply kdesc_sout|exact IH|exact Hl].
  - intros l Hl. apply dict_cout with dk dv; [now apply kdesc_sout|exact IH|exact Hl].
  - intros l Hl. apply dict_cout with dk dv; [now apply kdesc_sout|exact IH|exact Hl].
  - intros v Hv. now apply arr_cout with dom.
  - intros v Hv. now apply arr_cout with dom.
  - now apply object_cout.
  - now apply oarray_cout.
  - intros v Hv. now apply IH.
  - intros v Hv. destruct (IH v Hv) as (ops & E & Hc). destruct sq; [|now exists ops]. pose proof (proj1 cvalue_rvalue _ Hc) as Hr. apply rvalue_u8s in Hr. destruct Hr as (Hu & _).
    destruct (string_ser_rfc (flat ops) Hu) as (lit & E2 & R2 & _). exists (wr lit). split; [cbn [ser quoted_codec quoted_ser]; rewrite E; exact E2|]. rewrite flat_wr. now constructor.
  - intros [v|] Hv; [now apply IH|]. eexists. split; [reflexivity|]. constructor.
  - intros t Ht. now apply (arr_cout c dom).
  - intros t Ht. apply (dict_cout kc vc dk dv); [now apply kdesc_sout|exact IH|exact Ht].
Qed.
