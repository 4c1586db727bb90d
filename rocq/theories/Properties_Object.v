(** Theorems about objects and objects as arrays (C33-C41). *)
From Coq Require Import Sorting.Permutation.
From Verif Require Import Base Parser SpecJson SpecNum SpecString SpecSeq ParserFacts Grammar1 Grammar2 Out Number StringS Array
  Object ObjectArray SpecObject CodecLaws NumberProofs StringProofs ArrayProofs ObjectProofs ObjectArrayProofs Properties_Seq.

(** text with ' for quotes *)
Definition jt (s : Coq.Strings.String.string) : buf := map (fun c => if c =? 39 then QT else c) (text s).
Arguments jt s%string_scope.

(** A struct for the examples. *)
Record foo := mkfoo { fa : Z; fb : Z; fs : buf }.
Definition ma : mem foo := mkmem (text "a") fa (fun t x => mkfoo x (fb t) (fs t)) int32.
Definition mb : mem foo := mkmem (text "b") fb (fun t x => mkfoo (fa t) x (fs t)) int32.
Definition ms : mem foo := mkmem (text "foo") fs (fun t x => mkfoo (fa t) (fb t) x) string_codec.
Definition foo0 := mkfoo 0 0 [].
Definition Lfoo : list (memb foo) := [MRef ma; MRef mb; MProp ms []].
Definition foo_codec mode := object_codec mode Lfoo foo0.
Definition foo_dom (v : foo) : Prop := int_dom i32 (fa v) /\ int_dom i32 (fb v) /\ str_dom (fs v).
Lemma Lfoo_ok : names_ok Lfoo.
Proof.
  split.
  - cbn. repeat constructor; cbn; intuition discriminate.
  - cbn. repeat constructor; cbn; discriminate.
Qed.
Lemma Lfoo_noif : Forall no_if Lfoo. Proof. repeat constructor. Qed.
Lemma Lfoo_indep : indep Lfoo.
Proof. intros a b [<-|[<-|[<-|[]]]] [<-|[<-|[<-|[]]]] Hn t x y; try (split; reflexivity); now contradiction Hn. Qed.
Lemma Lfoo_covers : covers Lfoo. Proof. intros [a b s] [a' b' s']. reflexivity. Qed.

(** C26 for objects *)
Theorem C26_null_object : forall T mode (L : list (memb T)) t0, null_reads (object_codec mode L t0) (fun _ => t0).
Proof. exact @object_null. Qed.
Theorem C26_null_object_array : forall T (L : list (memb T)) t0, null_reads (oarray_codec L t0) (fun _ => t0).
Proof. exact @oarray_null. Qed.
Print Assumptions C26_null_object.
Print Assumptions C26_null_object_array.

(** C33.  [covers L]: storing all described fields of v in any struct gives v. *)
Theorem C33_object_roundtrip : forall T mode (L : list (memb T)) t0 (dom : T -> Prop),
  Forall no_if L -> Forall plain_name (names L) -> covers L ->
  (forall v, dom v -> Forall (fun b => exists d, rt (m_codec (memb_mem b)) d /\ d (m_get (memb_mem b) v)) L) ->
  rt (object_codec mode L t0) dom.
Proof.
  intros T mode L t0 dom Hn Hp Hc H. apply object_rt; [exact Hc|]. intros v Hv. specialize (H v Hv). unfold names in Hp. rewrite Forall_map in Hp.
  rewrite Forall_forall in *. intros b Hb. destruct (H b Hb) as (d & Hr & Hd). exists (fun t => d (m_get (memb_mem b) t)). split; [|exact Hd].
  apply noif_rt; auto.
Qed.
Print Assumptions C33_object_roundtrip.
Theorem C33_foo : forall mode, rt (foo_codec mode) foo_dom.
Proof.
  intros mode. apply C33_object_roundtrip; [exact Lfoo_noif|apply Lfoo_ok|exact Lfoo_covers|]. intros v (H1 & H2 & H3). repeat constructor.
  - exists (int_dom i32). split; [apply int_rt, i32_ok|exact H1].
  - exists (int_dom i32). split; [apply int_rt, i32_ok|exact H2].
  - exists str_dom. split; [apply string_rt|exact H3].
Qed.
Print Assumptions C33_foo.
Example C33_ex : exists ops, ser (foo_codec Strict) (mkfoo 1 (-2) (text "x")) = Ok ops /\ flat ops = jt "{'a':1,'b':-2,'foo':'x'}" /\
  des (foo_codec Strict) None (mkfoo 7 8 (text "old")) (flat ops) clean = Ok (mkfoo 1 (-2) (text "x"), [], clean).
Proof. eexists. split; [exq|]. split; exq. Qed.
(** member_value *)
Theorem C33_member_value_roundtrip : forall T A (get : T -> A) (set : T -> A -> T) (c : codec A) d,
  (forall v old, set old (get v) = v) -> rt c d -> rt (member_value_codec get set c) (fun t => d (get t)).
Proof.
  intros T A get set c d Hg H v Hv. destruct (H _ Hv) as (ops & E & Hh & Hd). exists ops. split; [exact E|]. split; [exact Hh|].
  intros sn old r e Hr He. cbn [des member_value_codec]. rewrite Hd by assumption. cbn [bind]. now rewrite Hg.
Qed.
Print Assumptions C33_member_value_roundtrip.

(** C34 *)
Theorem C34_any_order : forall T mode (L : list (memb T)) t0 its1 its2 fs txt1 txt2, names_ok L -> Forall no_if L -> indep L ->
  Permutation its1 its2 -> once L its1 -> Forall2 (item_sem mode L) its1 fs -> object_text its1 txt1 -> object_text its2 txt2 ->
  forall sn old r1 r2 e, no_err_yet e = true -> exists v,
    des (object_codec mode L t0) sn old (txt1 ++ r1) e = Ok (v, r1, e) /\
    des (object_codec mode L t0) sn old (txt2 ++ r2) e = Ok (v, r2, e).
Proof.
  intros T mode L t0 its1 its2 fs txt1 txt2 H1 H2 H3 H4 H5 H6 H7 H8 sn old r1 r2 e He. exists (run_all fs old).
  eapply object_any_order; eassumption.
Qed.
Print Assumptions C34_any_order.
(** ... namely the struct with exactly the named fields set *)
Theorem C34_reads_fields : forall T mode (L : list (memb T)) t0 its fs txt, names_ok L -> Forall no_if L ->
  once L its -> Forall2 (item_sem mode L) its fs -> object_text its txt ->
  forall sn old r e, no_err_yet e = true -> des (object_codec mode L t0) sn old (txt ++ r) e = Ok (run_all fs old, r, e).
Proof. intros T mode L t0 its fs txt H1 H2 H3 H4 H5 sn old r e He. eapply object_reads; eauto. Qed.
Print Assumptions C34_reads_fields.
Example C34_ex : des (foo_codec Strict) None foo0 (jt "{ 'foo' : 'z' ,/**/'b':2, 'a': 1}") clean = Ok (mkfoo 1 2 (text "z"), [], clean) /\
  des (foo_codec Strict) None foo0 (jt "{'b':2,'foo':'z','a':1}") clean = Ok (mkfoo 1 2 (text "z"), [], clean).
Proof. split; exq. Qed.
Example C34_ex_hyp : Forall2 (item_sem Strict Lfoo) [(text "foo", jt "''"); (text "b", text "2")]
  [fun t => m_set ms t []; fun t => m_set mb t 2].
Proof.
  constructor; [|constructor; [|constructor]].
  - apply (is_known Strict Lfoo (MProp ms []) (jt "''") (fun _ => [])); [cbn; tauto|]. split; [exists QT, [QT]; split; [reflexivity|unfold vstart; lia]|].
    intros sn old r e _ _. reflexivity.
  - apply (is_known Strict Lfoo (MRef mb) (text "2") (fun _ => 2)); [cbn; tauto|]. destruct (proj1 (rt_rd _ _) (int_rt i32 i32_ok) 2) as (ops & E & H).
    + unfold int_dom, irange. cbn. lia.
    + vm_compute in E. injection E as <-. exact H.
Qed.

(** C35 *)
Theorem C35_nonstrict_skips : forall T (L : list (memb T)) t0 its fs txt txt', names_ok L -> Forall no_if L ->
  once L its -> Forall2 (item_sem Nonstrict L) its fs ->
  object_text its txt -> object_text (filter (known L) its) txt' ->
  forall sn old r r' e, no_err_yet e = true -> exists v,
    des (object_codec Nonstrict L t0) sn old (txt ++ r) e = Ok (v, r, e) /\
    des (object_codec Nonstrict L t0) sn old (txt' ++ r') e = Ok (v, r', e).
Proof.
  intros T L t0 its fs txt txt' HN Hi Hd Hf Ht Ht' sn old r r' e He. exists (run_all fs old). split; [eapply object_reads; eauto|].
  destruct (known_only L Nonstrict its fs Hf) as (fs' & F & E). rewrite <- E. eapply object_reads with (its := filter (known L) its); eauto. left.
  unfold once in *. replace (filter (known L) (filter (known L) its)) with (filter (known L) its); [exact Hd|].
  clear. induction its as [|it its IH]; [reflexivity|]. cbn [filter]. destruct (known L it) eqn:E; [|exact IH]. cbn [filter]. rewrite E. now f_equal.
Qed.
Theorem C35_strict_rejects : forall T (L : list (memb T)) t0 sn pre fs p nm x g old k, names_ok L -> Forall no_if L -> sn <> None ->
  Forall2 (item_sem Strict L) pre fs -> prefix_text pre p -> gap g -> ~ In nm (names L) -> wchars nm -> is_err k = false ->
  exists v r j, des (object_codec Strict L t0) sn old (LCB :: p ++ g ++ QT :: nm ++ QT :: x) (Some k) = Ok (v, r, Some j) /\ is_err j = true.
Proof. intros T L t0 sn pre fs p nm x g old k H1 H2 H3 H4 H5 H6 H7 H8 H9. eapply object_strict; eauto. now apply wchars_qsafe. Qed.
Print Assumptions C35_nonstrict_skips.
Print Assumptions C35_strict_rejects.
Example C35_ex_nonstrict : des (foo_codec Nonstrict) (Some 0) foo0 (jt "{'x':[{},1,'}'],'b':2,'y':null,'a':1}") clean = Ok (mkfoo 1 2 [], [], clean).
Proof. exq. Qed.
Example C35_ex_strict : exists j, des (foo_codec Strict) (Some 0) foo0 (jt "{'b':2,'y':null,'a':1}") clean = Ok (mkfoo 0 2 [], [], Some j) /\ code j = InvalidMember.
Proof. eexists. split; exq. Qed.

(** C36: any observation of the struct that the named members do not affect *)
Theorem C36_missing_keep : forall T X mode (L : list (memb T)) t0 (obs : T -> X) its fs txt, names_ok L -> Forall no_if L ->
  once L its -> Forall2 (item_sem mode L) its fs -> object_text its txt ->
  (forall b, In b L -> In (memb_name b) (map fst its) -> forall t x, obs (m_set (memb_mem b) t x) = obs t) ->
  forall sn old r e, no_err_yet e = true -> exists v,
    des (object_codec mode L t0) sn old (txt ++ r) e = Ok (v, r, e) /\ obs v = obs old.
Proof.
  intros T X mode L t0 obs its fs txt H1 H2 H3 H4 H5 H6 sn old r e He. exists (run_all fs old). split; [eapply object_reads; eauto|].
  eapply run_obs; eauto.
Qed.
Print Assumptions C36_missing_keep.
Example C36_ex : des (foo_codec Nonstrict) None (mkfoo 7 8 (text "keep")) (jt "{'b':1}") clean = Ok (mkfoo 7 1 (text "keep"), [], clean).
Proof. exq. Qed.
(** For nested structs: a member that is itself a struct keeps its fields that
    the inner object does not name... *)
Theorem C36_nested_keep : forall T U X mode mode' (L : list (memb T)) t0 (LU : list (memb U)) u0 nm (get : T -> U) set (obs : U -> X)
  pre post fs fs' itsU fsU txtU txt, let m := mkmem nm get set (object_codec mode' LU u0) in
  names_ok L -> Forall no_if L -> In (MRef m) L -> names_ok LU -> Forall no_if LU ->
  (forall t x, get (set t x) = x) ->
  (forall c, In c L -> memb_name c <> nm -> forall t x, get (m_set (memb_mem c) t x) = get t) ->
  once LU itsU -> Forall2 (item_sem mode' LU) itsU fsU -> object_text itsU txtU ->
  (forall b, In b LU -> In (memb_name b) (map fst itsU) -> forall t x, obs (m_set (memb_mem b) t x) = obs t) ->
  Forall2 (item_sem mode L) pre fs -> Forall2 (item_sem mode L) post fs' -> once L (pre ++ (nm, txtU) :: post) ->
  object_text (pre ++ (nm, txtU) :: post) txt ->
  forall sn old r e, no_err_yet e = true -> exists v,
    des (object_codec mode L t0) sn old (txt ++ r) e = Ok (v, r, e) /\ obs (get v) = obs (get old).
Proof.
  intros T U X mode mode' L t0 LU u0 nm get set obs pre post fs fs' itsU fsU txtU txt m H1 H2 H3 H4 H5 Hg Ho H6 H7 H8 H9 H10 H11 H12 H13 sn old r e He.
  destruct (member_result mode L t0 (MRef m) txtU (run_all fsU) pre post fs fs' txt H1 H2 H3) with (sn := sn) (old := old) (r := r) (e := e) as (v & E & Ev); auto.
  - split; [|intros sn' old' r' e' _ He'; eapply object_reads; eauto]. destruct H8. exists LCB, (b ++ [RCB]). split; [reflexivity|unfold vstart; lia].
  - exists v. split; [exact E|]. cbn in Ev. rewrite Ev. eapply run_obs; eauto.
Qed.
(** ... while a property (member_p) is read into a fresh value: what it contained
    before has no influence. *)
Theorem C36_property_fresh : forall T U X mode mode' (L : list (memb T)) t0 (LU : list (memb U)) u0 nm (get : T -> U) set init (obs : U -> X)
  pre post fs fs' itsU fsU txtU txt, let m := mkmem nm get set (object_codec mode' LU u0) in
  names_ok L -> Forall no_if L -> In (MProp m init) L -> names_ok LU -> Forall no_if LU ->
  (forall t x, get (set t x) = x) ->
  (forall c, In c L -> memb_name c <> nm -> forall t x, get (m_set (memb_mem c) t x) = get t) ->
  once LU itsU -> Forall2 (item_sem mode' LU) itsU fsU -> object_text itsU txtU ->
  (forall b, In b LU -> In (memb_name b) (map fst itsU) -> forall t x, obs (m_set (memb_mem b) t x) = obs t) ->
  Forall2 (item_sem mode L) pre fs -> Forall2 (item_sem mode L) post fs' -> once L (pre ++ (nm, txtU) :: post) ->
  object_text (pre ++ (nm, txtU) :: post) txt ->
  forall sn old r e, no_err_yet e = true -> exists v,
    des (object_codec mode L t0) sn old (txt ++ r) e = Ok (v, r, e) /\ obs (get v) = obs init.
Proof.
  intros T U X mode mode' L t0 LU u0 nm get set init obs pre post fs fs' itsU fsU txtU txt m H1 H2 H3 H4 H5 Hg Ho H6 H7 H8 H9 H10 H11 H12 H13 sn old r e He.
  destruct (member_result mode L t0 (MProp m init) txtU (run_all fsU) pre post fs fs' txt H1 H2 H3) with (sn := sn) (old := old) (r := r) (e := e) as (v & E & Ev); auto.
  - split; [|intros sn' old' r' e' _ He'; eapply object_reads; eauto]. destruct H8. exists LCB, (b ++ [RCB]). split; [reflexivity|unfold vstart; lia].
  - exists v. split; [exact E|]. cbn in Ev. rewrite Ev. eapply run_obs; eauto.
Qed.
Print Assumptions C36_nested_keep.
Print Assumptions C36_property_fresh.
Record outer := mkouter { o1 : foo; o2 : foo }.
Definition Louter : list (memb outer) :=
  [MRef (mkmem (text "p") o1 (fun t x => mkouter x (o2 t)) (foo_codec Strict));
   MProp (mkmem (text "q") o2 (fun t x => mkouter (o1 t) x) (foo_codec Strict)) (mkfoo 5 5 [])].
Example C36_ex_nested : des (object_codec Strict Louter (mkouter foo0 foo0)) None (mkouter (mkfoo 7 8 (text "p")) (mkfoo 7 8 (text "q")))
  (jt "{'q':{'a':1},'p':{'a':1}}") clean = Ok (mkouter (mkfoo 1 8 (text "p")) (mkfoo 1 5 []), [], clean).
Proof. exq. Qed.
(** For malformed input it is false: a truncated name that is a prefix of a
    listed one counts as that member. *)
Theorem C36_missing_keep_malformed_refuted : exists s j, s = jt "{'fo" /\
  des (foo_codec Nonstrict) None (mkfoo 7 8 (text "keep")) s clean = Ok (mkfoo 7 8 [], [], Some j).
Proof. eexists. eexists. split; [reflexivity|]. exq. Qed.
Print Assumptions C36_missing_keep_malformed_refuted.

(** C37: holds as long as some listed member does not occur at all. *)
Theorem C37_last_wins_partial : forall T mode (L : list (memb T)) t0 pre b vt v post fs fs' txt, names_ok L -> Forall no_if L ->
  In b L -> rd (m_codec (memb_mem b)) vt v ->
  Forall2 (item_sem mode L) pre fs -> Forall2 (item_sem mode L) post fs' -> ~ In (memb_name b) (map fst post) ->
  (exists c, In c L /\ memb_name c <> memb_name b /\ ~ In (memb_name c) (map fst (pre ++ post))) ->
  (forall t x, m_get (memb_mem b) (m_set (memb_mem b) t x) = x) ->
  (forall c, In c L -> memb_name c <> memb_name b -> forall t x, m_get (memb_mem b) (m_set (memb_mem c) t x) = m_get (memb_mem b) t) ->
  object_text (pre ++ (memb_name b, vt) :: post) txt ->
  forall sn old r e, no_err_yet e = true -> exists t,
    des (object_codec mode L t0) sn old (txt ++ r) e = Ok (t, r, e) /\ m_get (memb_mem b) t = v.
Proof.
  intros T mode L t0 pre b vt v post fs fs' txt HN Hif Hb Hrd Hp Hq Hn (c & Hc & Hcb & Hcn) Hgs Hgo Ht sn old r e He.
  exists (run_all (fs ++ (fun t => m_set (memb_mem b) t v) :: fs') old). split.
  - eapply object_reads with (its := pre ++ (memb_name b, vt) :: post); eauto.
    + right. exists c. split; [exact Hc|]. rewrite map_app in *. cbn [map fst]. intros K. apply in_app_or in K. destruct K as [K|[K|K]].
      * apply Hcn. apply in_or_app. now left.
      * congruence.
      * apply Hcn. apply in_or_app. now right.
    + apply Forall2_app; [exact Hp|]. constructor; [now apply (is_known mode L b vt (fun _ => v))|exact Hq].
  - unfold run_all. rewrite fold_left_app. cbn [fold_left]. fold (run_all fs' (m_set (memb_mem b) (fold_left (fun t f => f t) fs old) v)).
    rewrite (run_obs mode L (m_get (memb_mem b)) post fs' Hq); [apply Hgs|]. intros d Hd Hdn t x. apply Hgo; [exact Hd|]. intros E. apply Hn. now rewrite <- E.
Qed.
Print Assumptions C37_last_wins_partial.
Example C37_ex : des (foo_codec Nonstrict) None foo0 (jt "{'a':1,'b':2,'a':3}") clean = Ok (mkfoo 3 2 [], [], clean). Proof. exq. Qed.
(** After the last listed member was read in list order nothing is read any more. *)
Theorem C37_last_wins_refuted : exists s, s = jt "{'a':1,'b':2,'foo':'','a':3}" /\
  des (foo_codec Nonstrict) None foo0 s clean = Ok (mkfoo 1 2 [], [], clean).
Proof. eexists. split; [reflexivity|exq]. Qed.
Print Assumptions C37_last_wins_refuted.

(** C38 *)
Definition u0061 : buf := text "\" ++ text "u0061".
Theorem C38_escaped_names_refuted : exists s, s = jt "{'" ++ u0061 ++ jt "':5}" /\ wvalue s /\
  string_des None [] (QT :: u0061 ++ [QT]) clean = Ok (text "a", [], clean) /\
  des (foo_codec Nonstrict) None foo0 s clean = Ok (foo0, [], clean) /\
  exists j, des (foo_codec Strict) None foo0 s clean = Ok (foo0, [], Some j) /\ code j = InvalidMember.
Proof.
  eexists. split; [reflexivity|]. split; [|split; [exq|split; [exq|eexists; split; exq]]].
  apply rfc_wjson. apply (rv_obj (QT :: u0061 ++ jt "':5")). apply (rme_one [] (QT :: u0061 ++ [QT]) [] [] (text "5") []); try constructor.
  - apply (rcs_cons u0061 []); [|constructor]. apply (rc_u 48 48 54 49); unfold s_hex, s_digit; lia.
  - apply (rnum [] (text "5") [] []); [constructor|apply (ri_pos 53 []); [lia|constructor]|constructor|constructor].
Qed.
Print Assumptions C38_escaped_names_refuted.
(** Names are compared as raw bytes: a listed member takes the value exactly if
    the bytes between the quotes are its name; a name written with an escape is
    never taken, and one written without escapes denotes its own bytes. *)
Theorem C38_raw_match_partial : forall T (m : mem T) nm vt txt, plain_name (m_name m) -> wchars nm -> member_text (nm, vt) txt ->
  (exists h t, vt = h :: t /\ vstart h) -> forall sn old r u e,
  (nm = m_name m -> memb_des (MRef m) sn old (txt ++ r) u e =
     let* (x, r', e') := des (m_codec m) sn (m_get m old) (vt ++ r) e in Ok (m_set m old x, true, r', e')) /\
  (nm <> m_name m -> memb_des (MRef m) sn old (txt ++ r) u e = Ok (old, false, txt ++ r, e)) /\
  (In BSL nm -> memb_des (MRef m) sn old (txt ++ r) u e = Ok (old, false, txt ++ r, e)).
Proof.
  intros T m nm vt txt Hp Hw Ht Hv sn old r u e. destruct (member_text_app nm vt txt r Ht) as (g1 & g2 & H1 & H2 & E). rewrite E.
  assert (M : nm <> m_name m -> memb_des (MRef m) sn old (quoted_name nm (g1 ++ COLON :: g2 ++ vt ++ r)) u e
     = Ok (old, false, quoted_name nm (g1 ++ COLON :: g2 ++ vt ++ r), e)).
  { intros Hn. cbn [memb_des]. apply mem_des_miss; [exact Hp|now apply wchars_qsafe|exact Hn]. }
  split; [|split; [exact M|]].
  - intros ->. cbn [memb_des]. unfold mem_des. rewrite unser_name_hit; [reflexivity|exact Hp|exact H1|exact H2|].
    destruct Hv as (h & t & -> & Hh). exists h, (t ++ r). auto.
  - intros HB. apply M. intros ->. now apply (plain_no_bsl _ Hp).
Qed.
Print Assumptions C38_raw_match_partial.
Theorem C38_unescaped_partial : forall nm t, lmean nm t -> ~ In BSL nm -> nm = t.
Proof. exact lmean_raw. Qed.
Print Assumptions C38_unescaped_partial.
Example C38_ex : memb_des (MRef ma) None foo0 (jt "'a' : 5}") false clean = Ok (mkfoo 5 0 [], true, text "}", clean) /\
  memb_des (MRef ma) None foo0 (jt "'" ++ u0061 ++ jt "':5}") false clean = Ok (foo0, false, jt "'" ++ u0061 ++ jt "':5}", clean).
Proof. split; exq. Qed.

(** C39 *)
Definition sa : mem foo := mkmem (text "foo") fa (fun t x => mkfoo x (fb t) (fs t)) int32.
Definition Lif ru : list (memb foo) := [MRef mb; MIf ru sa ms (Z.eqb 0)].
Theorem C39_unrelated_member_if_refuted : exists s v1 v2, s = jt "{'foo':'hello','x':1}" /\
  des (object_codec Nonstrict (Lif false) foo0) None foo0 (jt "{'foo':'hello'}") clean = Ok (v1, [], clean) /\ fs v1 = text "hello" /\
  des (object_codec Nonstrict (Lif false) foo0) None foo0 s clean = Ok (v2, [], clean) /\ fs v2 = [].
Proof. do 3 eexists. split; [reflexivity|]. split; [exq|]. split; [exq|]. split; exq. Qed.
Print Assumptions C39_unrelated_member_if_refuted.
(** What does hold.  Members listed before a member_if, present in list order,
    touch nothing but their own fields; in particular no alternative. *)
Theorem C39_listed_before_partial : forall T X mode (L1 L2 : list (memb T)) t0 (obs : T -> X) ts fs txt,
  elems L1 ts fs -> Forall no_if L1 -> Forall plain_name (names L1) -> object_text (combine (names L1) ts) txt ->
  (forall b, In b L1 -> forall t x, obs (m_set (memb_mem b) t x) = obs t) ->
  forall sn old r e, no_err_yet e = true -> exists v,
    des (object_codec mode (L1 ++ L2) t0) sn old (txt ++ r) e = Ok (v, r, e) /\ obs v = obs old.
Proof.
  intros T X mode L1 L2 t0 obs ts fs txt H1 H2 H3 H4 H5 sn old r e He. exists (run_all fs old).
  split; [eapply prefix_reads; eauto|eapply elems_obs; eauto].
Qed.
Print Assumptions C39_listed_before_partial.
(** Otherwise a member of another name has exactly this effect: the alternative
    that is tried first stays as it is, the other one is set to what it reads
    from null; the text is not consumed and no error is reported. *)
Theorem C39_effect_partial : forall T (sn : option Z) (ru : bool) (l r : mem T) isdef nm vt txt x t e y z e',
  let a := if ru then r else l in let b := if ru then l else r in
  plain_name (m_name a) -> wchars nm -> nm <> m_name a -> member_text (nm, vt) txt ->
  des (m_codec b) (Some 0) (m_get b t) (text "null") None = Ok (y, z, e') ->
  memb_des (MIf ru l r isdef) sn t (txt ++ x) false e = Ok (m_set b t y, false, txt ++ x, e).
Proof.
  intros T sn ru l r isdef nm vt txt x t e y z e' a b Hp Hw Hn Ht Hd. destruct (member_text_app nm vt txt x Ht) as (g1 & g2 & _ & _ & E). rewrite E.
  apply (if_skips_other sn ru l r isdef nm _ t e y z e' Hp); [now apply wchars_qsafe|exact Hn|exact Hd].
Qed.
Print Assumptions C39_effect_partial.
Example C39_ex : des (object_codec Nonstrict (Lif false) foo0) None (mkfoo 0 0 (text "keep")) (jt "{'b':1}") clean
  = Ok (mkfoo 0 1 (text "keep"), [], clean). Proof. exq. Qed.
Example C39_ex_effect : memb_des (MIf false sa ms (Z.eqb 0)) None (mkfoo 7 8 (text "lost")) (jt "'x':1}") false clean
  = Ok (mkfoo 7 8 [], false, jt "'x':1}", clean). Proof. exq. Qed.

(** C40.  The written text is the one of the selected alternative ... *)
Theorem C40_member_if_writes : forall T mode ru (l r : mem T) isdef t0 t ol or_,
  ser (m_codec l) (m_get l t) = Ok ol -> ser (m_codec r) (m_get r t) = Ok or_ ->
  exists ops, ser (object_codec mode [MIf ru l r isdef] t0) t = Ok ops /\
    flat ops = if isdef (m_get l t) then LCB :: QT :: m_name r ++ QT :: COLON :: flat or_ ++ [RCB]
               else LCB :: QT :: m_name l ++ QT :: COLON :: flat ol ++ [RCB].
Proof.
  intros T mode ru l r isdef t0 t ol or_ El Er. cbn [ser object_codec]. unfold object_ser. cbn [members_ser memb_ser].
  destruct (isdef (m_get l t)); cbn [negb].
  - destruct (mem_ser_ok r t or_ Er) as (ops & -> & E). cbn [bind]. eexists. split; [reflexivity|]. cbn [flat flat1 app]. rewrite flat_app, E.
    cbn [flat flat1 app]. now rewrite <- app_assoc.
  - destruct (mem_ser_ok l t ol El) as (ops & -> & E). cbn [bind]. eexists. split; [reflexivity|]. cbn [flat flat1 app]. rewrite flat_app, E.
    cbn [flat flat1 app]. now rewrite <- app_assoc.
Qed.
(** ... and reading it back restores it and resets the other one: with equal
    names, and if the alternative that is tried first rejects the texts of the
    other one, objects with a member_if round-trip. *)
Theorem C40_member_if_roundtrip : forall T mode ru (l r : mem T) isdef (doml : m_ty l -> Prop) (domr : m_ty r -> Prop) dl dr (L1 L2 : list (memb T)) t0 (dom : T -> Prop),
  m_name l = m_name r -> plain_name (m_name l) -> rt (m_codec l) doml -> rt (m_codec r) domr ->
  null_reads (m_codec l) (fun _ => dl) -> null_reads (m_codec r) (fun _ => dr) -> set_set l -> set_set r ->
  (forall t x y, m_set l (m_set r t y) x = m_set r (m_set l t x) y) ->
  (ru = false -> forall v o, domr v -> ser (m_codec r) v = Ok o -> rejects (m_codec l) (flat o)) ->
  (ru = true -> forall v o, doml v -> ser (m_codec l) v = Ok o -> rejects (m_codec r) (flat o)) ->
  Forall no_if (L1 ++ L2) -> Forall plain_name (names (L1 ++ L2)) -> covers (L1 ++ MIf ru l r isdef :: L2) ->
  (forall v, dom v -> Forall (fun b => exists d, rt (m_codec (memb_mem b)) d /\ d (m_get (memb_mem b) v)) (L1 ++ L2) /\
     if isdef (m_get l v) then domr (m_get r v) /\ m_get l v = dl else doml (m_get l v) /\ m_get r v = dr) ->
  rt (object_codec mode (L1 ++ MIf ru l r isdef :: L2) t0) dom.
Proof.
  intros T mode ru l r isdef doml domr dl dr L1 L2 t0 dom En Hn Hl Hr Nl Nr Sl Sr Hc H1 H2 Hif Hp Hcov H. apply object_rt; [exact Hcov|].
  intros v Hv. destruct (H v Hv) as (Ho & Hi). unfold names in Hp. rewrite Forall_map in Hp.
  assert (G : forall b, In b (L1 ++ L2) -> exists dm, memb_rt b dm /\ dm v).
  { rewrite Forall_forall in *. intros b Hb. destruct (Ho b Hb) as (d & Hd1 & Hd2). exists (fun t => d (m_get (memb_mem b) t)). split; [|exact Hd2]. apply noif_rt; auto. }
  apply Forall_app. split; [|constructor].
  - apply Forall_forall. intros b Hb. apply G. apply in_or_app. now left.
  - eexists. split; [eapply if_rt; eauto|exact Hi].
  - apply Forall_forall. intros b Hb. apply G. apply in_or_app. now right.
Qed.
Print Assumptions C40_member_if_writes.
Print Assumptions C40_member_if_roundtrip.
(** an instance: int or string *)
Theorem C40_int_or_string : forall mode, rt (object_codec mode (Lif false) foo0)
  (fun v => int_dom i32 (fb v) /\ if Z.eqb 0 (fa v) then str_dom (fs v) /\ fa v = 0 else int_dom i32 (fa v) /\ fs v = []).
Proof.
  intros mode. apply (C40_member_if_roundtrip foo mode false sa ms (Z.eqb 0) (int_dom i32) str_dom 0 [] [MRef mb] []).
  - reflexivity.
  - repeat constructor; discriminate.
  - apply int_rt, i32_ok.
  - apply string_rt.
  - intros sn old r e. reflexivity.
  - intros sn old r e. reflexivity.
  - intros t x y. reflexivity.
  - intros t x y. reflexivity.
  - reflexivity.
  - intros _ v o Hv E. destruct (string_ser_any v) as (l & E2 & _).
    { eapply Forall_impl; [|apply Hv]. intros c Hc. unfold str_char, short_ctl in Hc. unfold byteb. lia. }
    assert (o = wr (QT :: l ++ [QT])) as -> by (pose proof (eq_trans (eq_sym E) E2) as K; now injection K). rewrite flat_wr. intros sn old r Hr. cbn [m_codec sa]. cbn [app].
    unfold int32. cbn [des int_codec]. unfold int_des. cbn. do 3 eexists. split; reflexivity.
  - discriminate.
  - repeat constructor.
  - repeat constructor; discriminate.
  - intros [a b s] [a' b' s']. reflexivity.
  - intros v (H1 & H2). split; [|exact H2]. repeat constructor. exists (int_dom i32). split; [apply int_rt, i32_ok|exact H1].
Qed.
Print Assumptions C40_int_or_string.
Example C40_ex : exists ops, ser (object_codec Nonstrict (Lif false) foo0) (mkfoo 0 3 (text "x")) = Ok ops /\ flat ops = jt "{'b':3,'foo':'x'}" /\
  des (object_codec Nonstrict (Lif false) foo0) None (mkfoo 5 6 []) (flat ops) clean = Ok (mkfoo 0 3 (text "x"), [], clean).
Proof. eexists. split; [exq|]. split; exq. Qed.
(** With different names the alternative that is not tried first is never read. *)
Theorem C40_different_names_refuted : exists s ops, s = jt "{'foo':'x'}" /\
  ser (object_codec Nonstrict [MIf false ma ms (Z.eqb 0)] foo0) (mkfoo 0 0 (text "x")) = Ok ops /\ flat ops = s /\
  des (object_codec Nonstrict [MIf false ma ms (Z.eqb 0)] foo0) None foo0 s clean = Ok (foo0, [], clean).
Proof. do 2 eexists. split; [reflexivity|]. split; [exq|]. split; exq. Qed.
Print Assumptions C40_different_names_refuted.

(** C41 *)
Theorem C41_object_array_roundtrip : forall T (L : list (memb T)) t0 (dom : T -> Prop), Forall no_if L -> covers L ->
  (forall v, dom v -> Forall (fun b => exists d, rt (m_codec (memb_mem b)) d /\ d (m_get (memb_mem b) v)) L) ->
  rt (oarray_codec L t0) dom.
Proof.
  intros T L t0 dom Hn Hc H. apply oarray_rt; [exact Hc|]. intros v Hv. specialize (H v Hv).
  rewrite Forall_forall in *. intros b Hb. destruct (H b Hb) as (d & Hr & Hd). exists (fun t => d (m_get (memb_mem b) t)). split; [|exact Hd].
  apply noif_amemb_rt; auto.
Qed.
(** k elements set the first k members *)
Theorem C41_object_array_prefix : forall T (L1 L2 : list (memb T)) t0 ts fs b, Forall no_if L1 -> elems L1 ts fs -> spaced false ts b ->
  forall sn old r e, no_err_yet e = true ->
  des (oarray_codec (L1 ++ L2) t0) sn old ((LBR :: b ++ [RBR]) ++ r) e = Ok (run_all fs old, r, e).
Proof. intros T L1 L2 t0 ts fs b Hn He Hs sn old r e Hc. eapply oarray_run; eauto. now apply elems_aread. Qed.
(** more elements than members *)
Theorem C41_object_array_too_many : forall T (L : list (memb T)) t0 ts fs x ts2 b, Forall no_if L -> elems L ts fs -> wvalue x ->
  spaced false (ts ++ x :: ts2) b -> forall sn old r k, is_err k = false ->
  exists s' j, des (oarray_codec L t0) sn old ((LBR :: b ++ [RBR]) ++ r) (Some k) = Ok (run_all fs old, s', Some j) /\ is_err j = true.
Proof.
  intros T L t0 ts fs x ts2 b Hn He Hx Hs sn old r k Hk. eapply oarray_many; eauto.
  - rewrite <- (app_nil_r L). now apply elems_aread.
  - now apply elems_len with fs.
  - now apply wvalue_head.
Qed.
(** An object whose members stand in list order and the array of their values are
    read to the same struct, also if members are missing at the end. *)
Theorem C41_like_object : forall T mode (L1 L2 : list (memb T)) t0 t1 ts fs b txt, Forall no_if L1 -> Forall plain_name (names L1) -> elems L1 ts fs ->
  spaced false ts b -> object_text (combine (names L1) ts) txt -> forall sn old r e, no_err_yet e = true -> exists v,
  des (object_codec mode (L1 ++ L2) t0) sn old (txt ++ r) e = Ok (v, r, e) /\
  des (oarray_codec (L1 ++ L2) t1) sn old ((LBR :: b ++ [RBR]) ++ r) e = Ok (v, r, e).
Proof.
  intros T mode L1 L2 t0 t1 ts fs b txt Hn Hp He Hs Ht sn old r e Hc. exists (run_all fs old). split; [eapply prefix_reads; eauto|eapply C41_object_array_prefix; eauto].
Qed.
Print Assumptions C41_like_object.
Print Assumptions C41_object_array_roundtrip.
Print Assumptions C41_object_array_prefix.
Print Assumptions C41_object_array_too_many.
Example C41_ex : des (oarray_codec Lfoo foo0) None (mkfoo 7 8 (text "old")) (text "[ 1, 2]") clean = Ok (mkfoo 1 2 (text "old"), [], clean).
Proof. exq. Qed.
Example C41_ex_like : des (oarray_codec Lfoo foo0) None (mkfoo 7 8 (text "old")) (text "[ 1, 2]") clean = des (foo_codec Strict) None (mkfoo 7 8 (text "old")) (jt "{'a':1 ,'b':2}") clean.
Proof. exq. Qed.
Example C41_ex_rt : exists ops, ser (oarray_codec Lfoo foo0) (mkfoo 1 2 (text "x")) = Ok ops /\ flat ops = jt "[1,2,'x']" /\
  des (oarray_codec Lfoo foo0) None foo0 (flat ops) clean = Ok (mkfoo 1 2 (text "x"), [], clean).
Proof. eexists. split; [exq|]. split; exq. Qed.
Example C41_ex_many : exists j, des (oarray_codec Lfoo foo0) None foo0 (jt "[1,2,'x',4]") clean = Ok (mkfoo 1 2 (text "x"), [], Some j) /\ is_err j = true.
Proof. eexists. split; exq. Qed.
