(** C105-C106: written texts and the documents they denote; documents and what is
    read from them. *)
From Verif Require Import Base Parser SpecJson ParserFacts Out CodecLaws SpecSeq SpecString SpecNum Number NumberProofs StringS Array ArrayProofs Unord Object SpecObject ObjectArray Enum SpecEnum EnumProofs Wrap
  SpecAlike Desc SpecTree TreeProofs TreeUnique Properties_Seq Properties_Object Properties_Enum.

(** C105.  What is written denotes (RFC 8259) the document that describes the
    value, and no other one. *)
Theorem C105_written_document : forall A (c : codec A) dom tr, says A c dom tr -> forall v, dom v ->
  exists ops t, ser c v = Ok ops /\ denotes (flat ops) t /\ tr v t /\ forall t', denotes (flat ops) t' -> t' = t.
Proof.
  intros A c dom tr H v Hv. destruct (says_written A c dom tr H v Hv) as (ops & t & E & D & K). exists ops, t. split; [exact E|]. split; [exact D|]. split; [exact K|].
  intros t' D'. exact (denotes_fun _ _ _ D' D).
Qed.
Print Assumptions C105_written_document.
(** A text that denotes a document is JSON, and denotes no other document. *)
Theorem C105_denotes_json : forall b t, denotes b t -> rvalue b.
Proof. exact denotes_rvalue. Qed.
Print Assumptions C105_denotes_json.
Theorem C105_one_document : forall b t t', denotes b t -> denotes b t' -> t = t'.
Proof. exact denotes_fun. Qed.
Print Assumptions C105_one_document.
(** Different values are different documents: what is written can be told apart
    by any reader. *)
Theorem C105_documents_differ : forall A (c : codec A) dom tr, says A c dom tr -> (forall v w t, dom v -> dom w -> tr v t -> tr w t -> v = w) ->
  forall v w ops ops', dom v -> dom w -> ser c v = Ok ops -> ser c w = Ok ops' -> forall t, denotes (flat ops) t -> denotes (flat ops') t -> v = w.
Proof.
  intros A c dom tr H I v w ops ops' Hv Hw E E' t D D'. destruct (C105_written_document A c dom tr H v Hv) as (o & x & Eo & Dx & Kx & Ux).
  destruct (C105_written_document A c dom tr H w Hw) as (o' & x' & Eo' & Dx' & Kx' & Ux'). rewrite E in Eo. injection Eo as <-. rewrite E' in Eo'. injection Eo' as <-.
  rewrite (Ux t D) in *. rewrite (Ux' x D') in *. now apply (I v w x').
Qed.
Print Assumptions C105_documents_differ.

(** C106.  Whatever spelling of a document, as long as names (and, without
    [esc], strings) need no unescaping and escapes are no surrogate pairs or
    \u-escaped controls without a short form, is read as the document says. *)
Theorem C106_document_read : forall esc A (c : codec A) tr, sees esc A c tr -> forall b t F, simple esc b t -> tr t F ->
  forall sn old r e, follow r -> no_err_yet e = true -> des c sn old (b ++ r) e = Ok (F old, r, e).
Proof. intros esc A c tr H b t F Hb Ht. exact (proj2 (sees_read esc A c tr H b t F Hb Ht)). Qed.
Print Assumptions C106_document_read.
(** These spellings are spellings of the document in the sense of RFC 8259. *)
Theorem C106_simple_denotes : forall esc b t, simple esc b t -> denotes b t.
Proof.
  intros esc. assert (forall l s, lit esc l s -> lmean l s) as HL by (intros l s H; eapply bmp_lmean, lit_bmp, H).
  assert (forall l s, as_is l s -> lmean l s) as HN by (intros l s (-> & H); now apply bare_lmean).
  apply (proj1 (means_ind3 (lit esc) as_is (fun b t _ => denotes b t) (fun b l _ => melems lmean lmean b l) (fun b l _ => mmembers lmean lmean b l)
    (mn_null _ _) (mn_true _ _) (mn_false _ _) (mn_int _ _) (mn_real _ _) (fun l s H => mn_str _ _ l s (HL l s H)) (mn_arr0 _ _) (fun b l _ H => mn_arr _ _ b l H) (mn_obj0 _ _) (fun b l _ H => mn_obj _ _ b l H)
    (fun w1 v w2 t H1 _ H2 H3 => me_one _ _ w1 v w2 t H1 H2 H3) (fun w1 v w2 t b l H1 _ H2 H3 _ H4 => me_more _ _ w1 v w2 t b l H1 H2 H3 H4)
    (fun w1 k n w2 w3 v w4 t H1 H2 H3 H4 _ H5 H6 => mm_one _ _ w1 k n w2 w3 v w4 t H1 (HN _ _ H2) H3 H4 H5 H6)
    (fun w1 k n w2 w3 v w4 t b l H1 H2 H3 H4 _ H5 H6 _ H7 => mm_more _ _ w1 k n w2 w3 v w4 t b l H1 (HN _ _ H2) H3 H4 H5 H6 H7))).
Qed.
Print Assumptions C106_simple_denotes.
(** Exchange: a text is written; another program rewrites it as another spelling
    of the same document; what is read is what the document says. *)
Theorem C106_exchange : forall esc A B (c : codec A) (c' : codec B) dom tw tr, says A c dom tw -> sees esc B c' tr ->
  forall v F, dom v -> (forall t, tw v t -> tr t F) ->
  exists ops, ser c v = Ok ops /\ forall b t, denotes (flat ops) t -> simple esc b t ->
  forall sn old r e, follow r -> no_err_yet e = true -> des c' sn old (b ++ r) e = Ok (F old, r, e).
Proof.
  intros esc A B c c' dom tw tr HW HR v F Hv K. destruct (C105_written_document A c dom tw HW v Hv) as (ops & t & E & D & Kt & U). exists ops. split; [exact E|].
  intros b t' D' Hb. rewrite (U t' D') in Hb. exact (C106_document_read esc B c' tr HR b t F Hb (K t Kt)).
Qed.
Print Assumptions C106_exchange.
(** Other spellings are read as something else: a surrogate pair, a \u-escaped
    control character, an escaped member name, an escaped enumerator. *)
Theorem C106_other_spellings_refuted :
  (exists b, denotes b (TStr [240; 159; 152; 128]) /\ exists s, des string_codec (Some 0) [] b clean = Ok (s, [], clean) /\ s <> [240; 159; 152; 128]) /\
  (exists b, denotes b (TStr [1]) /\ exists s, des string_codec (Some 0) [] b clean = Ok (s, [], clean) /\ s <> [1]) /\
  (exists b, denotes b (TObj [(text "a", TInt 5)]) /\ des (foo_codec Nonstrict) (Some 0) foo0 b clean = Ok (foo0, [], clean)) /\
  (exists b, denotes b (TStr (text "red")) /\ exists j r, des (enum_codec Strict colors) (Some 0) 7 b clean = Ok (0, r, Some j) /\ is_err j = true).
Proof.
  split; [|split; [|split]].
  - exists (QT :: (text "\uD83D\uDE00" ++ []) ++ [QT]). split.
    + apply mn_str. apply (lm_cons (text "\uD83D\uDE00") (utf8_encode 128512) [] []); [|constructor]. apply (cm_pair 68 56 51 68 68 69 48 48); unfold s_hex; cbn; lia.
    + eexists. split; [exq|]. discriminate.
  - exists (QT :: (text "\u0001" ++ []) ++ [QT]). split.
    + apply mn_str. apply (lm_cons (text "\u0001") (utf8_encode 1) [] []); [|constructor]. apply (cm_u 48 48 48 49); unfold s_hex, scalar; cbn; lia.
    + eexists. split; [exq|]. discriminate.
  - exists (LCB :: ([] ++ QT :: (text "\u0061" ++ []) ++ QT :: [] ++ COLON :: [] ++ text "5" ++ []) ++ [RCB]). split; [|exq].
    apply mn_obj, mm_one; try constructor.
    + apply (lm_cons (text "\u0061") (text "a") [] []); [|constructor]. apply (cm_u 48 48 54 49); unfold s_hex, scalar; cbn; lia.
    + apply (ji_nonneg [53]). change [53] with (53 :: []). constructor; [lia|constructor].
  - exists (QT :: (text "\u0072" ++ text "e" ++ text "d" ++ []) ++ [QT]). split.
    + apply mn_str. apply (lm_cons (text "\u0072") (text "r") _ (text "ed")); [apply (cm_u 48 48 55 50); unfold s_hex, scalar; cbn; lia|].
      apply (lm_cons (text "e") (text "e") _ (text "d")); [apply (cm_plain 101); unfold scalar; lia|]. apply (lm_cons (text "d") (text "d") [] []); [apply (cm_plain 100); unfold scalar; lia|constructor].
    + do 2 eexists. split; [exq|]. reflexivity.
Qed.
Print Assumptions C106_other_spellings_refuted.

(** A struct of two ints and a string. *)
Definition foo_tree (v : foo) : tree := TObj [(text "a", TInt (fa v)); (text "b", TInt (fb v)); (text "foo", TStr (fs v))].
Lemma foo_bare : bare (text "a") /\ bare (text "b") /\ bare (text "foo").
Proof.
  assert (P : forall c l, 97 <= c <= 122 -> bare l -> bare (c :: l)).
  { intros c l Hc Hl. assert (utf8_encode c = [c]) as E by (unfold utf8_encode; destruct (Z.ltb_spec c 128); [reflexivity|lia]). change (c :: l) with ([c] ++ l). rewrite <- E. constructor; auto; unfold scalar; lia. }
  split; [change (bare [97])|split; [change (bare [98])|change (bare [102; 111; 111])]]; repeat (apply P; [lia|]); apply ba_nil.
Qed.
Definition foo_part (m : mem foo) (v : foo) : tree := match m_name m with [97] => TInt (fa v) | [98] => TInt (fb v) | _ => TStr (fs v) end.
Lemma foo_says mode : says foo (foo_codec mode) (fun v => irange i32 (fa v) /\ irange i32 (fb v) /\ utf8 (fs v)) (fun v t => t = foo_tree v).
Proof.
  eapply sy_sub.
  - apply sy_object with (dm := fun _ v => irange i32 (fa v) /\ irange i32 (fb v) /\ utf8 (fs v)) (tr := fun m v t => t = foo_part m v).
    + intros b m Hb Hm. destruct foo_bare as (B1 & B2 & B3). destruct Hb as [<-|[<-|[<-|[]]]]; destruct Hm as [<-|[]]; assumption.
    + intros b m Hb Hm. destruct Hb as [<-|[<-|[<-|[]]]]; destruct Hm as [<-|[]].
      * eapply sy_sub; [apply sy_member_value, sy_int, i32_ok| |]; [intros v H; apply H|]. intros v t _ ->. reflexivity.
      * eapply sy_sub; [apply sy_member_value, sy_int, i32_ok| |]; [intros v H; apply H|]. intros v t _ ->. reflexivity.
      * eapply sy_sub; [apply sy_member_value, sy_string| |]; [intros v H; apply H|]. intros v t _ ->. reflexivity.
  - intros v Hv. repeat constructor; apply Hv.
  - intros v t _ (l & -> & F). destruct l as [|[n1 t1] [|[n2 t2] [|[n3 t3] [|p l]]]]; unfold Lfoo in F; repeat match goal with H : Forall2 _ _ _ |- _ => inversion H; clear H; subst end.
    repeat match goal with H : memb_tree _ _ _ _ |- _ => destruct H end. cbn [fst snd] in *. subst. reflexivity.
Qed.
Example C105_ex_struct : forall mode v, irange i32 (fa v) -> irange i32 (fb v) -> utf8 (fs v) -> exists ops, ser (foo_codec mode) v = Ok ops /\ denotes (flat ops) (foo_tree v).
Proof. intros mode v H1 H2 H3. destruct (C105_written_document _ _ _ _ (foo_says mode) v (conj H1 (conj H2 H3))) as (ops & t & E & D & -> & _). now exists ops. Qed.
Example C105_ex_text : exists ops, ser (foo_codec Strict) (mkfoo 5 (-7) [QT; 10]) = Ok ops /\ flat ops = jt "{'a':5,'b':-7,'foo':'\'\n'}".
Proof. eexists. split; [exq|]. exq. Qed.

(** What a member of a document does to the struct. *)
Definition foo_sets (n : buf) (t : tree) (x x' : foo) : Prop :=
  match n with
  | [97] => exists z, t = TInt z /\ irange i32 z /\ z <> imin i32 /\ x' = mkfoo z (fb x) (fs x)
  | [98] => exists z, t = TInt z /\ irange i32 z /\ z <> imin i32 /\ x' = mkfoo (fa x) z (fs x)
  | _ => exists s, t = TStr s /\ dist s <= INT_MAX /\ x' = mkfoo (fa x) (fb x) s
  end.
Definition foo_does (m : mem foo) (t : tree) (F : m_ty m -> m_ty m) : Prop := forall x y, foo_sets (m_name m) t x (m_set m x (F y)).
Lemma foo_sees esc mode : sees esc foo (foo_codec mode) (fun t F => exists l fs, t = TObj l /\ Forall2 (tells mode Lfoo foo_does) l fs /\
  ((forall n, In n (names Lfoo) -> (count_occ name_dec (map fst l) n <= 1)%nat) \/ (exists b, In b Lfoo /\ ~ In (memb_name b) (map fst l))) /\ F = run_all fs).
Proof.
  apply se_object; [exact Lfoo_ok|repeat constructor|]. intros b [<-|[<-|[<-|[]]]]; cbn [memb_mem].
  - eapply se_sub; [apply (se_int esc i32), i32_ok|]. intros t F H. destruct (H foo0 0) as (z & -> & H1 & H2 & E). exists (fun _ => z). split; [exists z; split; [reflexivity|]; split; [exact H1|]; split; [right; right; exact H2|reflexivity]|].
    intros y. destruct (H foo0 y) as (z' & E1 & _ & _ & E2). cbn in E2. assert (z = z') by congruence. congruence.
  - eapply se_sub; [apply (se_int esc i32), i32_ok|]. intros t F H. destruct (H foo0 0) as (z & -> & H1 & H2 & E). exists (fun _ => z). split; [exists z; split; [reflexivity|]; split; [exact H1|]; split; [right; right; exact H2|reflexivity]|].
    intros y. destruct (H foo0 y) as (z' & E1 & _ & _ & E2). cbn in E2. assert (z = z') by congruence. congruence.
  - eapply se_sub; [apply (se_string esc)|]. intros t F H. destruct (H foo0 []) as (z & -> & H1 & E). exists (fun _ => z). split; [exists z; auto|].
    intros y. destruct (H foo0 y) as (z' & E1 & _ & E2). cbn in E2. assert (z = z') by congruence. congruence.
Qed.
Lemma foo_member_a mode z : irange i32 z -> z <> imin i32 -> tells mode Lfoo foo_does (text "a", TInt z) (fun x => mkfoo z (fb x) (fs x)).
Proof. intros H1 H2. apply (te_known mode Lfoo foo_does (MRef ma) (TInt z) (fun _ => z)); [now left|]. intros x y. exists z. auto. Qed.
Lemma foo_member_s mode s : dist s <= INT_MAX -> tells mode Lfoo foo_does (text "foo", TStr s) (fun x => mkfoo (fa x) (fb x) s).
Proof. intros H. apply (te_known mode Lfoo foo_does (MProp ms []) (TStr s) (fun _ => s)); [right; right; now left|]. intros x y. exists s. auto. Qed.
(** Members in any order and spelling, some missing, unknown ones in between. *)
Example C106_ex_struct : forall b z s n t old, simple true b (TObj [(text "foo", TStr s); (n, t); (text "a", TInt z)]) -> ~ In n (names Lfoo) ->
  irange i32 z -> z <> imin i32 -> dist s <= INT_MAX ->
  des (foo_codec Nonstrict) None old b clean = Ok (mkfoo z (fb old) s, [], clean).
Proof.
  intros b z s n t old Hb Hn H1 H2 H3. rewrite <- (app_nil_r b).
  erewrite (C106_document_read true _ _ _ (foo_sees true Nonstrict) b _ _ Hb); [| |exact I|reflexivity].
  2: { eexists _, _. split; [reflexivity|]. split; [|split; [|reflexivity]].
    - constructor; [now apply foo_member_s|]. constructor; [now apply te_unknown|]. constructor; [now apply foo_member_a|constructor].
    - right. exists (MRef mb). split; [right; now left|]. cbn. intros [E|[E|[E|[]]]]; try discriminate. apply Hn. rewrite E. right. now left. }
  reflexivity.
Qed.
Example C106_ex_text : des (foo_codec Nonstrict) None (mkfoo 1 2 (text "old")) (jt "{ 'foo' :'\u0041\n', 'x':[1,{}],'a': -5 }") clean = Ok (mkfoo (-5) 2 [65; 10], [], clean).
Proof. exq. Qed.
Example C106_ex_denotes : simple true (jt "[ 1,'\u0041' ]") (TArr [TInt 1; TStr [65]]).
Proof.
  change (jt "[ 1,'\u0041' ]") with (LBR :: ([32] ++ [49] ++ [] ++ COMMA :: [] ++ (QT :: (text "\u0041" ++ []) ++ [QT]) ++ [32]) ++ [RBR]). apply mn_arr.
  assert (ws [32]) as W by (constructor; [now left|constructor]). apply me_more; [exact W| |constructor|].
  - apply mn_int. apply (ji_nonneg [49]). change [49] with (49 :: []). constructor; [lia|constructor].
  - apply me_one; [constructor| |exact W]. apply mn_str. apply (lb_cons (text "\u0041") (text "A") [] []); [|constructor]. apply (cb_u 48 48 52 49); unfold s_hex, scalar; cbn; lia.
Qed.
(** Flags, as an array and as words. *)
Lemma colors_bare : Forall bare (enames colors).
Proof.
  assert (P : forall c l, 97 <= c <= 122 -> bare l -> bare (c :: l)).
  { intros c l Hc Hl. assert (utf8_encode c = [c]) as E by (unfold utf8_encode; destruct (Z.ltb_spec c 128); [reflexivity|lia]). change (c :: l) with ([c] ++ l). rewrite <- E. constructor; auto; unfold scalar; lia. }
  change (Forall bare [[114; 101; 100]; [103; 114; 101; 101; 110]; [98; 108; 117; 101]]). repeat constructor; repeat (apply P; [lia|]); apply ba_nil.
Qed.
Example C105_ex_flags : exists ops, ser (flags_codec COMMA Strict colors) 5 = Ok ops /\ flat ops = jt "['red','blue']" /\ denotes (flat ops) (TArr [TStr (text "red"); TStr (text "blue")]).
Proof.
  destruct (C105_written_document _ _ _ _ (sy_flags Strict colors colors_bare) 5 I) as (ops & t & E & D & (ns & HN & ->) & _). exists ops. split; [exact E|].
  assert (ops = wr (jt "['red','blue']")) as -> by (assert (H : ser (flags_codec COMMA Strict colors) 5 = Ok (wr (jt "['red','blue']"))) by exq; congruence). split; [exq|].
  replace ns with [text "red"; text "blue"] in D; [exact D|]. unfold colors in HN.
  repeat match goal with H : chosen _ _ _ |- _ => inversion H; clear H; subst end; repeat match goal with H : _ \/ _ |- _ => destruct H as [(_ & H)|H]; cbn in H; try discriminate H; clear H | H : ~ _ |- _ => exfalso; apply H; left; split; [lia|reflexivity] end; reflexivity.
Qed.
Example C106_ex_flags : forall b old, simple false b (TArr [TStr (text "blue"); TStr (text "red"); TStr (text "blue")]) ->
  des (flags_codec COMMA Strict colors) None old b clean = Ok (5, [], clean).
Proof.
  intros b old Hb. rewrite <- (app_nil_r b). assert (colors <> []) as N by discriminate.
  apply (C106_document_read false _ _ _ (se_flags false COMMA Strict colors N eq_refl colors_nodup colors_nq) b _ (fun _ => 5) Hb); [|exact I|reflexivity].
  exists [(text "blue", 4); (text "red", 1); (text "blue", 4)]. split; [reflexivity|]. split; [|reflexivity].
  intros q [<-|[<-|[<-|[]]]]; unfold colors; cbn; auto.
Qed.
Example C106_ex_flags_text : des (flags_codec COMMA Strict colors) None 9 (jt "[ 'blue', 'red' ,'blue' ]") clean = Ok (5, [], clean).
Proof. exq. Qed.
(** Elements of a C array keep what the document does not say. *)
Example C106_ex_c_array : forall b x y z, simple true b (TArr [TObj [(text "a", TInt 5)]]) ->
  des (c_array_codec (foo_codec Nonstrict) 3) None (x, (y, (z, tt))) b clean = Ok ((mkfoo 5 (fb x) (fs x), (y, (z, tt))), [], clean).
Proof.
  intros b x y z Hb. rewrite <- (app_nil_r b).
  apply (C106_document_read true _ _ _ (se_c_array true foo (foo_codec Nonstrict) 3 _ ltac:(lia) (foo_sees true Nonstrict)) b _ (fun o => match o with (x, o') => (mkfoo 5 (fb x) (fs x), o') end) Hb); [|exact I|reflexivity].
  eexists _, [_]. split; [reflexivity|]. split; [|split; [cbn; lia|]].
  - constructor; [|constructor]. eexists _, [_]. split; [reflexivity|]. split; [constructor; [apply (foo_member_a Nonstrict 5); [cbv; split; discriminate|discriminate]|constructor]|]. split; [|reflexivity].
    right. exists (MRef mb). split; [right; now left|]. cbn. intros [E|[]]. discriminate.
  - intros (x0 & y0 & z0 & []). reflexivity.
Qed.
