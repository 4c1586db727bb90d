(** Composition: the laws of the individual descriptions give the laws of
    everything built from them. *)
From Verif Require Import Base Parser ParserFacts SpecJson SpecNum SpecSeq SpecString Out Number StringS Array Unord Object ObjectArray SpecObject Enum SpecEnum Wrap SpecWrap
  TimeSize SpecTime SpecSize Float SpecMisc CodecLaws NumberProofs StringProofs ArrayProofs UnordProofs ObjectProofs ObjectArrayProofs EnumProofs WrapProofs TimeProofs SizeProofs FloatProofs Desc.

Lemma memb_all_in {T} (P : forall A, codec A -> Prop) (L : list (memb T)) :
  (forall b m, In b L -> In m (mems_of b) -> P _ (m_codec m)) -> Forall (memb_all P) L.
Proof.
  intros H. apply Forall_forall. intros b Hb. destruct b as [m|m i|ru l r isdef]; cbn.
  - apply (H (MRef m)); [exact Hb|now left].
  - apply (H (MProp m i)); [exact Hb|now left].
  - split; apply (H (MIf ru l r isdef)); auto; cbn; auto.
Qed.
Lemma member_value_dlaw {T A} (get : T -> A) set c : dlaw (des c) -> dlaw (des (member_value_codec get set c)).
Proof.
  intros H sn old s e. cbn [des member_value_codec]. specialize (H sn (get old) s e). unfold dgood in H |- *.
  destruct (des c sn (get old) s e) as [[[v r] e']| |]; exact H.
Qed.
Theorem desc_dlaw A (c : codec A) : desc A c -> dlaw (des c).
Proof.
  induction 1 as [A c Hl| | | | | | | | | |T mode L t0 _ IH|T L t0 _ IH| | | | |].
  - destruct Hl.
    + apply int_dlaw.
    + exact bool_dlaw.
    + apply float_dlaw.
    + exact string_dlaw.
    + apply chars_dlaw.
    + apply enum_dlaw.
    + apply flags_dlaw.
    + exact raw_dlaw.
    + exact raw_dlaw.
    + apply rquoted_dlaw.
    + apply time_dlaw.
    + apply size_dlaw.
  - now apply seq_dlaw.
  - now apply seq_dlaw.
  - now apply seq_dlaw.
  - now apply field_dlaw.
  - now apply seq_dlaw, field_dlaw.
  - now apply seq_dlaw, field_dlaw.
  - now apply seq_dlaw, field_dlaw.
  - now apply vec_dlaw, fix_dlaw.
  - now apply vec_dlaw, fix_dlaw.
  - apply object_dlaw. now apply (memb_all_in (fun _ c => dlaw (des c))).
  - apply oarray_dlaw. now apply (memb_all_in (fun _ c => dlaw (des c))).
  - now apply member_value_dlaw.
  - now apply quoted_dlaw.
  - now apply ptr_dlaw.
  - now apply hash_dlaw.
  - now apply hash_dlaw, field_dlaw.
Qed.
Lemma member_value_dsafe {T A} (get : T -> A) set c : dsafe (des c) -> dsafe (des (member_value_codec get set c)).
Proof.
  intros H sn old s e Hs. cbn [des member_value_codec]. specialize (H sn (get old) s e Hs).
  destruct (des c sn (get old) s e) as [[[v r] e']| |]; cbn; congruence.
Qed.
Theorem desc_dsafe A (c : codec A) : safe_desc A c -> dsafe (des c).
Proof.
  induction 1 as [A c Hl| | | | | | | | | |T mode L t0 _ IH|T L t0 _ IH| | | | |].
  - destruct Hl as [t Ht Hw| |A R fmt scan zero| |N|mode L|sep mode L| | |sq rq].
    + apply int_dsafe; [exact Ht|]. unfold wraps. tauto.
    + intros sn old s e _. cbn [des bool_codec]. unfold bool_des. destruct s as [|b s]; [discriminate|].
      destruct (is_null (b :: s)); [destruct (parse_null _ _); discriminate|]. destruct (b =? 116); [destruct (parse_bool _ _); discriminate|].
      destruct (b =? 102); [destruct (parse_bool _ _); discriminate|discriminate].
    + apply float_dsafe.
    + intros sn old s e _. apply string_dsafe.
    + intros sn old s e _. destruct (chars_total N sn old s e) as (w & r & e' & _ & E & _). cbn [des chars_codec]. rewrite E. discriminate.
    + apply enum_dsafe.
    + apply flags_dsafe.
    + exact raw_dsafe.
    + exact raw_dsafe.
    + apply rquoted_dsafe.
  - now apply seq_dsafe.
  - now apply seq_dsafe.
  - now apply seq_dsafe.
  - now apply field_dsafe.
  - now apply seq_dsafe, field_dsafe.
  - now apply seq_dsafe, field_dsafe.
  - now apply seq_dsafe, field_dsafe.
  - now apply vec_dsafe, fix_dsafe.
  - now apply vec_dsafe, fix_dsafe.
  - apply object_dsafe. now apply (memb_all_in (fun _ c => dsafe (des c))).
  - apply oarray_dsafe. now apply (memb_all_in (fun _ c => dsafe (des c))).
  - now apply member_value_dsafe.
  - now apply quoted_dsafe.
  - now apply ptr_dsafe.
  - now apply hash_dsafe.
  - now apply hash_dsafe, field_dsafe.
Qed.

(** ---- plain writes ---- *)
Definition wonly {A} (c : codec A) : Prop := forall v ops, ser c v = Ok ops -> exists b, ops = wr b.
Lemma wonly_of {A} (c : codec A) (dom : A -> Prop) : (forall v, ser c v = UB \/ dom v) -> wout c dom -> wonly c.
Proof. intros H W v ops E. destruct (H v) as [N|D]; [congruence|]. destruct (W v D) as (b & Eb). exists b. congruence. Qed.
Lemma bind_ok {X Y} (x : res X) (f : X -> res Y) y : bind x f = Ok y -> exists a, x = Ok a /\ f a = Ok y.
Proof. destruct x as [a| |]; cbn; [|discriminate|discriminate]. intros H. now exists a. Qed.
Lemma str_ser_wonly nt v ops : str_ser nt v = Ok ops -> exists b, ops = wr b.
Proof. unfold str_ser. intros H. apply bind_ok in H. destruct H as (l & _ & E). exists (QT :: l ++ [QT]). congruence. Qed.
Lemma int_ser_wonly t : wonly (int_codec t).
Proof.
  intros v ops. cbn [ser int_codec]. unfold int_ser. destruct (v =? 0).
  - destruct (Z.to_nat _); [discriminate|]. intros H. exists [48]. congruence.
  - destruct (isigned t && (v <? 0)); intros H; apply bind_ok in H; destruct H as ((l & c) & _ & E).
    + destruct c; [discriminate|]. exists (rev (l ++ [MINUS])). congruence.
    + exists (rev l). congruence.
Qed.
Lemma items_wonly {A} (item : A -> res (list op)) : forall l ops,
  (forall x o, In x l -> item x = Ok o -> exists b, o = wr b) -> items_ser item l = Ok ops -> exists b, ops = wr b.
Proof.
  induction l as [|x l IH]; intros ops Hx H; [exists []; injection H as <-; reflexivity|]. destruct l as [|y l].
  - apply (Hx x); [now left|exact H].
  - cbn [items_ser] in H. apply bind_ok in H. destruct H as (a & Ea & H). apply bind_ok in H. destruct H as (b & Eb & H).
    destruct (Hx x a ltac:(now left) Ea) as (ba & ->). destruct (IH b) as (bb & ->); [|exact Eb|].
    { intros z o Hz. apply Hx. now right. }
    exists (ba ++ COMMA :: bb). injection H as <-. rewrite wr_app. reflexivity.
Qed.
Lemma wrap_wonly L R b : exists b', W L :: wr b ++ [W R] = wr b'.
Proof. exists (L :: b ++ [R]). unfold wr. cbn [map]. now rewrite map_app. Qed.
Lemma seq_ser_wonly {A} L R (item : codec A) l ops : wonly item -> seq_ser L R (ser item) l = Ok ops -> exists b, ops = wr b.
Proof.
  intros W0 H. unfold seq_ser in H. apply bind_ok in H. destruct H as (b & Eb & H).
  destruct (items_wonly (ser item) l b (fun x o _ => W0 x o) Eb) as (b' & ->). destruct (wrap_wonly L R b') as (b'' & E). exists b''. congruence.
Qed.
Lemma field_wonly {K V} (kc : codec K) (vc : codec V) : wonly kc -> wonly vc -> wonly (field_codec kc vc).
Proof.
  intros Hk Hv p ops H. cbn [ser field_codec] in H. unfold field_ser in H. apply bind_ok in H. destruct H as (a & Ea & H). apply bind_ok in H. destruct H as (b & Eb & H).
  destruct (Hk _ _ Ea) as (ba & ->). destruct (Hv _ _ Eb) as (bb & ->). exists (ba ++ COLON :: bb). injection H as <-. rewrite wr_app. reflexivity.
Qed.
Lemma amembers_items {T} (L : list (memb T)) v : amembers_ser L v = items_ser (fun b => amemb_ser b v) L.
Proof. induction L as [|b [|b' L] IH]; [reflexivity|reflexivity|]. cbn [amembers_ser items_ser] in *. now rewrite IH. Qed.
Lemma members_items {T} (L : list (memb T)) v : members_ser L v = items_ser (fun b => memb_ser b v) L.
Proof. induction L as [|b [|b' L] IH]; [reflexivity|reflexivity|]. cbn [members_ser items_ser] in *. now rewrite IH. Qed.
Lemma object_wonly {T} mode (L : list (memb T)) t0 : (forall b m, In b L -> In m (mems_of b) -> wonly (m_codec m)) -> wonly (object_codec mode L t0).
Proof.
  intros Hm v ops H. cbn [ser object_codec] in H. unfold object_ser in H. apply bind_ok in H. destruct H as (o & Eo & H). rewrite members_items in Eo.
  assert (M : forall (m : mem T) o, wonly (m_codec m) -> mem_ser m v = Ok o -> exists b, o = wr b).
  { intros m o' Hw H'. unfold mem_ser in H'. apply bind_ok in H'. destruct H' as (o2 & E2 & H'). destruct (Hw _ _ E2) as (b & ->).
    exists (QT :: m_name m ++ QT :: COLON :: b). injection H' as <-. unfold wr. cbn [map]. now rewrite map_app. }
  destruct (items_wonly (fun b => memb_ser b v) L o) as (b & ->); [|exact Eo|].
  { intros b o' Hb E. destruct b as [m|m i|ru l r isdef]; cbn [memb_ser] in E.
    - exact (M m o' (Hm _ m Hb (or_introl eq_refl)) E).
    - exact (M m o' (Hm _ m Hb (or_introl eq_refl)) E).
    - destruct (negb (isdef (m_get l v))).
      + exact (M l o' (Hm _ l Hb (or_introl eq_refl)) E).
      + exact (M r o' (Hm _ r Hb (or_intror (or_introl eq_refl))) E). }
  destruct (wrap_wonly LCB RCB b) as (b'' & E). exists b''. congruence.
Qed.
Lemma oarray_wonly {T} (L : list (memb T)) t0 : (forall b m, In b L -> In m (mems_of b) -> wonly (m_codec m)) -> wonly (oarray_codec L t0).
Proof.
  intros Hm v ops H. cbn [ser oarray_codec] in H. unfold oarray_ser in H. apply bind_ok in H. destruct H as (o & Eo & H). rewrite amembers_items in Eo.
  destruct (items_wonly (fun b => amemb_ser b v) L o) as (b & ->); [|exact Eo|].
  { intros b o' Hb E. destruct b as [m|m i|ru l r isdef]; cbn [amemb_ser] in E.
    - exact (Hm _ m Hb (or_introl eq_refl) _ o' E).
    - exact (Hm _ m Hb (or_introl eq_refl) _ o' E).
    - destruct (negb (isdef (m_get l v))).
      + exact (Hm _ l Hb (or_introl eq_refl) _ o' E).
      + exact (Hm _ r Hb (or_intror (or_introl eq_refl)) _ o' E). }
  destruct (wrap_wonly LBR RBR b) as (b'' & E). exists b''. congruence.
Qed.
Theorem plain_wonly A (c : codec A) : plain_desc A c -> wonly c.
Proof.
  induction 1 as [t| |A R fmt scan zero| |N|mode L|sep mode L| | |A c d0 _ IH|A lt c d0 _ IH|A lt c d0 _ IH|K V kc vc _ IHk _ IHv|K V kc vc d0 _ IHk _ IHv
    |K V lt kc vc d0 _ IHk _ IHv|K V lt kc vc d0 _ IHk _ IHv|A c d0 N _ IH|A c N _ IH|T mode L t0 _ IH|T L t0 _ IH|T A get set c _ IH|A c reqq|A c reqq _ IH|A H h c d0 _ IH|K V H h kc vc d0 _ IHk _ IHv].
  - apply int_ser_wonly.
  - intros v ops H. eexists. symmetry. cbn in H. injection H as <-. reflexivity.
  - intros v ops H. eexists. symmetry. cbn [ser float_codec] in H. unfold float_ser in H. injection H as <-. reflexivity.
  - intros v ops. apply str_ser_wonly.
  - intros v ops. apply str_ser_wonly.
  - intros v ops H. exists (QT :: enum_name L v ++ [QT]). cbn [ser enum_codec] in H. unfold enum_ser in H. injection H as <-. reflexivity.
  - intros v ops H. exists ((if sep =? COMMA then LBR else QT) :: flags_body sep L v true ++ [if sep =? COMMA then RBR else QT]).
    cbn [ser flags_codec] in H. unfold flags_ser in H. injection H as <-. reflexivity.
  - intros v ops H. cbn [ser raw_codec] in H. unfold raw_ser in H. exists (match v with [] => [QT; QT] | _ => v end). destruct v; congruence.
  - intros v ops H. cbn [ser ipair_codec] in H. unfold raw_ser in H. exists (match v with [] => [QT; QT] | _ => v end). destruct v; congruence.
  - intros v ops. now apply seq_ser_wonly.
  - intros v ops. now apply seq_ser_wonly.
  - intros v ops. now apply seq_ser_wonly.
  - now apply field_wonly.
  - intros v ops. now apply seq_ser_wonly, field_wonly.
  - intros v ops. now apply seq_ser_wonly, field_wonly.
  - intros v ops. now apply seq_ser_wonly, field_wonly.
  - intros v ops. now apply seq_ser_wonly.
  - intros v ops. now apply seq_ser_wonly.
  - now apply object_wonly.
  - now apply oarray_wonly.
  - intros v ops. apply IH.
  - intros v ops H. cbn [ser quoted_codec] in H. unfold quoted_ser in H. apply bind_ok in H. destruct H as (o & _ & H). now apply str_ser_wonly in H.
  - intros v ops. apply IH.
  - intros v ops. now apply seq_ser_wonly.
  - intros v ops. now apply seq_ser_wonly, field_wonly.
Qed.
Lemma ptr_run_wr b : forall m a, snd (ptr_run (wr b) m a) = a + dist b /\ forall x, fst (ptr_run (wr b) m a) x = stored m a b x.
Proof.
  induction b as [|c b IH]; intros m a.
  { cbn. unfold stored, dist. cbn. split; [lia|]. intros x. destruct (Z.leb_spec a x), (Z.ltb_spec x (a + 0)); cbn; auto; lia. }
  cbn [wr map ptr_run ptr1]. change (map W b) with (wr b). destruct (IH (upd m a c) (a + 1)) as (E1 & E2).
  assert (Ed : dist (c :: b) = 1 + dist b) by (unfold dist; cbn [length]; lia). split; [lia|].
  intros x. rewrite E2. unfold stored, upd. rewrite Ed. assert (0 <= dist b) by (unfold dist; lia).
  destruct (Z.eqb_spec x a) as [->|Hn].
  - destruct (Z.leb_spec (a + 1) a); [lia|]. destruct (Z.leb_spec a a); [|lia]. destruct (Z.ltb_spec a (a + (1 + dist b))); [|lia].
    cbn [andb]. now rewrite Z.sub_diag.
  - destruct (Z.leb_spec (a + 1) x), (Z.leb_spec a x); cbn [andb]; try lia; try reflexivity.
    destruct (Z.ltb_spec x (a + 1 + dist b)), (Z.ltb_spec x (a + (1 + dist b))); try lia; [|reflexivity].
    replace (Z.to_nat (x - a)) with (S (Z.to_nat (x - (a + 1)))) by lia. reflexivity.
Qed.

(** ---- JSON output ---- *)
Lemma str_ser_utf8_nt q : (q = [] \/ exists q', q = 0 :: q') -> forall s, utf8 s -> ~ In 0 s -> forall n, (length s < n)%nat ->
  exists l, str_ser_loop true n (s ++ q) = Ok l /\ lmean l s /\ rchars l.
Proof.
  intros Hq. induction 1 as [|cp s Hs Hu IH]; intros H0 n Hn.
  { exists []. destruct n; [lia|]. split; [|split; constructor]. destruct Hq as [->|(q' & ->)]; reflexivity. }
  destruct n; [lia|]. rewrite app_length in Hn.
  assert (1 <= length (utf8_encode cp))%nat by (pose proof (utf8_encode_nonempty cp); destruct (utf8_encode cp); [congruence|cbn; lia]).
  destruct (IH ltac:(intros F; apply H0, in_or_app; now right) n ltac:(lia)) as (l & El & Hm & Hr).
  destruct (Z_lt_le_dec cp 128) as [L|L].
  - assert (E : utf8_encode cp = [cp]) by (unfold utf8_encode; destruct (Z.ltb_spec cp 128); [reflexivity|lia]).
    rewrite E in *. cbn [app] in *. destruct Hs as (Hs1 & Hs2). assert (N0 : cp <> 0) by (intros ->; apply H0; now left).
    destruct ((cp <? 32) || (cp =? QT) || (cp =? BSL) || (cp =? SLASH)) eqn:Ee.
    + rewrite str_ser_esc by (lia || auto). rewrite El. cbn [bind].
      destruct (escape_cmean cp ltac:(lia) ltac:(lia)) as (A & B).
      eexists. split; [reflexivity|]. split; [apply (lm_cons _ [cp]); assumption|now constructor].
    + rewrite str_ser_plain by lia. rewrite El. cbn [bind]. eexists. split; [reflexivity|].
      assert (A : cmean [cp] [cp]) by (rewrite <- E; apply cm_plain; try lia; split; lia).
      assert (B : rchar [cp]) by (rewrite <- E; apply rc_plain; try lia; split; lia).
      split; [apply (lm_cons [cp] [cp]); assumption|apply (rcs_cons [cp]); assumption].
  - destruct (utf8_encode_shape cp Hs L) as (c & k & x & E & A & B & C & D).
    rewrite E. cbn [app]. rewrite <- app_assoc. rewrite (str_ser_multi true n c k x (s ++ q) A C D), El. cbn [bind].
    eexists. split; [reflexivity|]. rewrite <- E.
    change (c :: x ++ s) with ((c :: x) ++ s). rewrite <- E. split; [apply lm_cons; [apply cm_plain; auto; lia|exact Hm]|apply rcs_cons; [apply rc_plain; auto; lia|exact Hr]].
Qed.
Theorem chars_ser_rfc N t q : utf8 t -> ~ In 0 t -> (q = [] \/ exists q', q = 0 :: q') ->
  exists lit, ser (chars_codec N) (t ++ q) = Ok (wr lit) /\ rstring lit /\ smean lit t.
Proof.
  intros Hu H0 Hq. destruct (str_ser_utf8_nt q Hq t Hu H0 (S (length (t ++ q)))) as (l & El & Hm & Hr); [rewrite app_length; lia|].
  exists (QT :: l ++ [QT]). split; [cbn [ser chars_codec]; unfold chars_ser, str_ser; rewrite El; reflexivity|].
  split; now constructor.
Qed.
Lemma rvalue_quote t : rvalue (QT :: t) -> rstring (QT :: t).
Proof.
  intros H. inversion H as [| | |n Hn|s Hs| | | |]; [|exact Hs]. exfalso. subst n. inversion Hn as [m i f x Hm Hi _ _ E].
  destruct Hm; destruct Hi; cbn [app] in E; injection E; intros; lia.
Qed.
Theorem kdesc_sout A (c : codec A) dom : kdesc A c dom -> sout c dom.
Proof.
  intros H. destruct H as [|N|mode L Hn|sep mode L Hs Hsep Hn]; intros v Hv.
  - destruct (string_ser_rfc v Hv) as (lit & E & Hr & _). exists (wr lit). split; [exact E|]. now rewrite flat_wr.
  - destruct Hv as (t & q & -> & Hu & H0 & Hq). destruct (chars_ser_rfc N t q Hu H0 Hq) as (lit & E & Hr & _). exists (wr lit). split; [exact E|]. now rewrite flat_wr.
  - destruct (enum_jout mode L Hn v I) as (ops & E & Hr). exists ops. split; [exact E|]. cbn [ser enum_codec] in E. unfold enum_ser in E.
    assert (X : ops = wr (QT :: enum_name L v ++ [QT])) by congruence. rewrite X, flat_wr in *. now apply rvalue_quote.
  - destruct (flags_jout sep mode L (or_intror Hsep) Hn v I) as (ops & E & Hr). exists ops. split; [exact E|]. cbn [ser flags_codec] in E. unfold flags_ser in E.
    destruct (Z.eqb_spec sep COMMA); [contradiction|]. assert (X : ops = wr (QT :: flags_body sep L v true ++ [QT])) by congruence. rewrite X, flat_wr in *. now apply rvalue_quote.
Qed.
Lemma sout_jout A (c : codec A) dom : sout c dom -> jout c dom.
Proof. intros H v Hv. destruct (H v Hv) as (ops & E & Hr). exists ops. split; [exact E|now constructor]. Qed.
Lemma memb_dom_in {T} (P : forall A, codec A -> (A -> Prop) -> Prop) (dm : forall m : mem T, m_ty m -> Prop) (L : list (memb T)) v :
  (forall b m, In b L -> In m (mems_of b) -> P _ (m_codec m) (dm m)) -> Forall (memb_in dm v) L -> Forall (fun b => memb_dom P b v) L.
Proof.
  intros H Hv. rewrite Forall_forall in *. intros b Hb. specialize (Hv b Hb). destruct b as [m|m i|ru l r isdef]; cbn in *.
  - exists (dm m). split; [apply (H _ m Hb); now left|exact Hv].
  - exists (dm m). split; [apply (H _ m Hb); now left|exact Hv].
  - destruct (isdef (m_get l v)).
    + exists (dm r). split; [apply (H _ r Hb); right; now left|exact Hv].
    + exists (dm l). split; [apply (H _ l Hb); now left|exact Hv].
Qed.
Theorem jdesc_jout A (c : codec A) dom : jdesc A c dom -> jout c dom.
Proof.
  induction 1 as [A c dom dom' _ IH Hs|A c dom Hk|t Ht| |A R fmt scan zero|mode L Hn| | |t fr H1 H2 H3|t metric H1 H2 H3 H4
    |A c d0 dom _ IH|A lt c d0 dom _ IH|A lt c d0 dom _ IH|K V kc vc d0 dk dv Hk _ IH|K V lt kc vc d0 dk dv Hk _ IH|K V lt kc vc d0 dk dv Hk _ IH
    |A c d0 N dom _ IH|A c N dom _ IH|T mode L t0 dm Hn _ IH|T L t0 dm _ IH|T A get set c dom _ IH|A c sq rq dom _ IH|A c d0 dom _ IH|A H h c d0 dom _ IH|K V H h kc vc d0 dk dv Hk _ IH].
  - intros v Hv. apply IH. auto.
  - now apply sout_jout, kdesc_sout.
  - now apply int_jout.
  - exact bool_jout.
  - intros v (Hv1 & Hv2). apply (float_jout R fmt scan (fun _ => v) zero v). repeat split; assumption.
  - apply flags_jout; [now left|exact Hn].
  - exact raw_jout.
  - exact raw_jout.
  - now apply time_jout.
  - now apply size_jout.
  - now apply arr_jout with dom.
  - now apply arr_jout with dom.
  - now apply arr_jout with dom.
  - apply dict_jout with dk dv; [now apply kdesc_sout|exact IH|auto].
  - apply dict_jout with dk dv; [now apply kdesc_sout|exact IH|auto].
  - apply dict_jout with dk dv; [now apply kdesc_sout|exact IH|auto].
  - now apply vec_jout, fix_jout.
  - now apply vec_jout, fix_jout.
  - apply object_jout.
    + apply Forall_forall. intros b Hb. destruct b as [m|m i|ru l r isdef]; cbn.
      * constructor. apply (Hn _ m Hb). now left.
      * constructor. apply (Hn _ m Hb). now left.
      * split; constructor; [apply (Hn _ l Hb); now left|apply (Hn _ r Hb); right; now left].
    + intros v Hv. now apply memb_dom_in with dm.
  - apply oarray_jout. intros v Hv. now apply memb_dom_in with dm.
  - intros v Hv. now apply IH.
  - now apply quoted_jout.
  - now apply ptr_jout.
  - intros t Ht. exact (arr_jout vec_cont c d0 dom (Forall dom) IH (fun l H => H) _ Ht).
  - intros t Ht. exact (dict_jout vec_cont kc vc d0 dk dv (Forall (pair_dom dk dv)) (kdesc_sout _ _ _ Hk) IH (fun l H => H) _ Ht).
Qed.

(** ---- round trip ---- *)
Lemma member_value_rt {T A} (get : T -> A) (set : T -> A -> T) (c : codec A) d :
  (forall v old, set old (get v) = v) -> rt c d -> rt (member_value_codec get set c) (fun t => d (get t)).
Proof.
  intros Hg H v Hv. destruct (H _ Hv) as (ops & E & Hh & Hd). exists ops. split; [exact E|]. split; [exact Hh|].
  intros sn old r e Hr He. cbn [des member_value_codec]. rewrite Hd by assumption. cbn [bind]. now rewrite Hg.
Qed.
Lemma null_reads_det {A} (c : codec A) (x y : A) : null_reads c (fun _ => x) -> null_reads c (fun _ => y) -> x = y.
Proof. intros H1 H2. specialize (H1 None x [] None). specialize (H2 None x [] None). rewrite H1 in H2. congruence. Qed.
Lemma rin_memb_rt {T} (dm : forall m : mem T, m_ty m -> Prop) (b : memb T) (v : T) : alts_ok dm b ->
  (forall m, In m (mems_of b) -> rt (m_codec m) (dm m)) -> memb_rin dm v b ->
  exists d : T -> Prop, (same_names b -> plain_name (memb_name b) -> memb_rt b d) /\ amemb_rt b d /\ d v.
Proof.
  intros Ha Hr (Hin & Hz). destruct b as [m|m i|ru l r isdef].
  - exists (fun t => dm m (m_get m t)). assert (Hm : rt (m_codec m) (dm m)) by (apply Hr; now left).
    split; [intros _ Hn; exact (noif_rt (MRef m) (dm m) I Hn Hm)|]. split; [exact (noif_amemb_rt (MRef m) (dm m) I Hm)|exact Hin].
  - exists (fun t => dm m (m_get m t)). assert (Hm : rt (m_codec m) (dm m)) by (apply Hr; now left).
    split; [intros _ Hn; exact (noif_rt (MProp m i) (dm m) I Hn Hm)|]. split; [exact (noif_amemb_rt (MProp m i) (dm m) I Hm)|exact Hin].
  - destruct Ha as ((dl & Nl) & (dr & Nr) & Sl & Sr & Hc & H1 & H2).
    assert (Hl : rt (m_codec l) (dm l)) by (apply Hr; now left).
    assert (Hrr : rt (m_codec r) (dm r)) by (apply Hr; right; now left).
    assert (H1' : ru = false -> forall w o, dm r w -> ser (m_codec r) w = Ok o -> rejects (m_codec l) (flat o)).
    { intros E w o Hw Eo. apply (H1 E w); [exact Hw|]. exists o. now split. }
    assert (H2' : ru = true -> forall w o, dm l w -> ser (m_codec l) w = Ok o -> rejects (m_codec r) (flat o)).
    { intros E w o Hw Eo. apply (H2 E w); [exact Hw|]. exists o. now split. }
    exists (fun t => if isdef (m_get l t) then dm r (m_get r t) /\ m_get l t = dl else dm l (m_get l t) /\ m_get r t = dr).
    split; [intros En Hn; now apply if_rt|]. split; [now apply if_amemb_rt|]. cbn in Hin, Hz.
    destruct (isdef (m_get l v)).
    + split; [exact Hin|]. exact (null_reads_det _ _ _ Hz Nl).
    + split; [exact Hin|]. exact (null_reads_det _ _ _ Hz Nr).
Qed.
Theorem rdesc_rt A (c : codec A) dom : rdesc A c dom -> rt c dom.
Proof.
  induction 1 as [A c dom dom' _ IH Hs|t Ht| |A R fmt scan conv zero Hc| |N HN|mode L H1 H2|sep mode L H1 H2 H3|mode L H1 H2| | |b|t fr H1 H2 H3|t metric H1 H2 H3 H4
    |A c d0 dom _ IH|A lt c d0 dom Hw _ IH|A lt c d0 dom Hw _ IH|K V kc vc d0 dk dv _ IHk _ IHv|K V lt kc vc d0 dk dv Hw _ IHk _ IHv|K V lt kc vc d0 dk dv Hw _ IHk _ IHv
    |A c d0 N dom _ IH|A c N dom _ IH|T mode L t0 dm Hc Hi He Hn _ IH|T L t0 dm Hc Hi _ IH|T A get set c dom Hg _ IH|A c rq dom _ IH|A c rq dom _ IH Hj|A c dom _ IH|A c d0 dom _ IH].
  - intros v Hv. apply IH. auto.
  - now apply int_rt.
  - exact bool_rt.
  - now apply float_rt.
  - exact string_rt.
  - now apply chars_rt.
  - now apply enum_rt.
  - now apply flags_str_rt.
  - now apply flags_arr_rt.
  - exact raw_rt.
  - exact raw_rt.
  - apply rquoted_rt.
  - now apply time_rt.
  - now apply size_rt.
  - now apply vector_rt.
  - now apply set_rt.
  - now apply multiset_rt.
  - now apply dict_vec_rt.
  - now apply map_rt.
  - now apply multimap_rt.
  - now apply vec_rt, fix_rt.
  - now apply vec_rt, fix_rt.
  - apply object_rt; [exact Hc|]. intros v Hv. rewrite Forall_forall in *. intros b Hb. specialize (Hv b Hb).
    destruct (rin_memb_rt dm b v (Hi b Hb) (fun m => IH b m Hb) Hv) as (d & H1 & _ & H3). exists d. split; [apply H1; auto|exact H3].
  - apply oarray_rt; [exact Hc|]. intros v Hv. rewrite Forall_forall in *. intros b Hb. specialize (Hv b Hb).
    destruct (rin_memb_rt dm b v (Hi b Hb) (fun m => IH b m Hb) Hv) as (d & _ & H2 & H3). exists d. split; [exact H2|exact H3].
  - now apply member_value_rt.
  - now apply quoted_rt.
  - apply quoted_json_rt; [exact IH|now apply jdesc_jout].
  - now apply quoted_plain_rt.
  - now apply ptr_rt.
Qed.
