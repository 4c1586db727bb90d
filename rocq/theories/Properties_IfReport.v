(** C72 for structs with member_if. *)
From Verif Require Import Base Parser SpecJson ParserFacts Grammar1 Out SpecSeq Number StringS Object ObjectArray SpecObject ObjectProofs SpecReport ReportProofs IfReportProofs NumberProofs Properties_Seq Properties_Object Properties_Report.
Import ListNotations.

(** ---- C72 ---- *)
(** The two alternatives of a member_if have one name and both refuse the value:
    the struct reports what the alternative tried last reports, whatever the
    other one had found.  The one tried first is left as it reads null. *)
Theorem C72_if : forall T mode (L1 L2 : list (memb T)) (ru : bool) (l r : mem T) d t0 ts fs p g g1 g2 h t old,
  let f := if ru then r else l in let s := if ru then l else r in let o := run_all fs old in
  Forall no_if L1 -> Forall plain_name (names L1) -> plain_name (m_name l) -> m_name r = m_name l ->
  elems L1 ts fs -> prefix_text (combine (names L1) ts) p -> gap g -> gap g1 -> gap g2 -> token h ->
  forall (x : m_ty f) j1 (n : m_ty f) (o2 : T) (y : m_ty s) j, reports (m_codec f) (m_get f o) (h :: t) x j1 ->
  des (m_codec f) (Some 0) (m_get f (m_set f o x)) (text "null") None = Ok (n, [], None) -> o2 = m_set f (m_set f o x) n ->
  reports (m_codec s) (m_get s o2) (h :: t) y j ->
  reports (object_codec mode (L1 ++ MIf ru l r d :: L2) t0) old (LCB :: p ++ g ++ QT :: m_name l ++ QT :: g1 ++ COLON :: g2 ++ h :: t) (m_set s o2 y) j.
Proof. intros. eapply if_report; eassumption. Qed.
Print Assumptions C72_if.
(** The same in an array of members. *)
Theorem C72_if_array : forall T (L1 L2 : list (memb T)) (ru : bool) (l r : mem T) d t0 ts b fs g h t old,
  let f := if ru then r else l in let s := if ru then l else r in let o := run_all fs old in
  commas ts b -> elems L1 ts fs -> Forall no_if L1 -> gap g -> token h -> (ts = [] -> h <> RBR) ->
  forall (x : m_ty f) j1 (n : m_ty f) (o2 : T) (y : m_ty s) j, reports (m_codec f) (m_get f o) (h :: t) x j1 ->
  des (m_codec f) (Some 0) (m_get f (m_set f o x)) (text "null") None = Ok (n, [], None) -> o2 = m_set f (m_set f o x) n ->
  reports (m_codec s) (m_get s o2) (h :: t) y j ->
  reports (oarray_codec (L1 ++ MIf ru l r d :: L2) t0) old (LBR :: b ++ g ++ h :: t) (m_set s o2 y) j.
Proof. intros. eapply if_array_report; try eassumption. intros E. exists h, t. auto. Qed.
Print Assumptions C72_if_array.
Example C72_ex_if_array : des (oarray_codec (Lif false) foo0) None (mkfoo 5 6 (text "old")) (jt "[1, 'abc") clean = Ok (mkfoo 0 1 (text "abc"), [], Some (mkerr UnexpectedEndFragment None 0)) /\
  des (oarray_codec (Lif true) foo0) None (mkfoo 5 6 (text "old")) (jt "[1, 'abc") clean = Ok (mkfoo 0 1 [], [], Some (mkerr InvalidNumber None 4)).
Proof. split; exq. Qed.
(** So the same broken string is reported as a string or as a number, depending
    on which alternative is tried last. *)
Theorem C72_if_refuted : exists s v1 v2,
  des (object_codec Nonstrict (Lif false) foo0) None foo0 s clean = Ok (v1, [], Some (mkerr UnexpectedEndFragment None 0)) /\
  des (object_codec Nonstrict (Lif true) foo0) None foo0 s clean = Ok (v2, [], Some (mkerr InvalidNumber None 4)) /\ fs v1 = text "abc" /\ fs v2 = [].
Proof. exists (jt "{'b':1, 'foo': 'abc"). do 2 eexists. split; [exq|]. split; [exq|]. split; exq. Qed.
Print Assumptions C72_if_refuted.
(** a concrete case of C72_if *)
Example C72_ex_if : reports (object_codec Nonstrict (Lif false) foo0) (mkfoo 5 6 (text "old")) (jt "{'b':1, 'foo': 'abc") (mkfoo 0 1 (text "abc")) (mkerr UnexpectedEndFragment None 0).
Proof.
  pose proof (C72_if foo Nonstrict [MRef mb] [] false sa ms (Z.eqb 0) foo0 [text "1"] [fun t => m_set mb t 1] (jt "'b':1,") (text " ") [] (text " ") QT (text "abc") (mkfoo 5 6 (text "old"))) as H.
  cbv zeta in H. apply H with (x := 0) (j1 := mkerr InvalidNumber None 4) (n := 0) (o2 := mkfoo 0 1 (text "old")) (y := text "abc"); clear H.
  - repeat constructor.
  - unfold plain_name. cbn. repeat (apply Forall_cons || apply Forall_nil); lia.
  - unfold plain_name. cbn. repeat (apply Forall_cons || apply Forall_nil); lia.
  - reflexivity.
  - apply (el_cons (MRef mb) [] (text "1") (fun _ => 1) [] []); [|constructor]. apply (rd32 1 (text "1")); [unfold int_dom, irange; cbn; lia|exq].
  - apply (px_cons (text "b", text "1") [] (jt "'b':1") [] [] []); [apply g_nil| |apply g_nil|constructor].
    apply (mt (text "b") (text "1") [] []); apply g_nil.
  - gp.
  - apply g_nil.
  - gp.
  - tok.
  - split; [reflexivity|]. intros sn [j|] He; [|exq]. cbn [no_err_yet] in He. unfold told. cbn. destruct (is_err j); [discriminate|reflexivity].
  - exq.
  - reflexivity.
  - split; [reflexivity|]. intros sn [j|] He; [|exq]. cbn [no_err_yet] in He. unfold told. cbn. destruct (is_err j); [discriminate|reflexivity].
Qed.
