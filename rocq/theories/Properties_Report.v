(** C71-C73: what exactly a failed reading reports and leaves in the target. *)
From Verif Require Import Base Parser SpecJson ParserFacts Grammar1 Out Number StringS SpecString Array Object ObjectArray SpecObject Wrap CodecLaws SpecSeq
  NumberProofs ArrayProofs ObjectProofs ObjectArrayProofs SpecReport ReportProofs Properties_Seq Properties_Object.

(** ================= C71: containers ================= *)
(** [holds k vs]: the container k after inserting vs in order into an empty one;
    [brackets L R]: [] or {}. *)
Theorem C71_holds_vector : forall A (vs : list A), holds vec_cont vs = vs.
Proof.
  intros A vs. unfold holds. cbn [c_get c_ins c_new vec_cont].
  assert (H : forall l, fold_left (fun l x => l ++ [x]) vs l = l ++ vs); [|exact (H [])].
  induction vs as [|v vs IH]; intros l; cbn [fold_left]; [now rewrite app_nil_r|]. rewrite IH. now rewrite <- app_assoc.
Qed.
Print Assumptions C71_holds_vector.
(** no opening bracket: nothing is kept, and the bracket is expected where the text begins *)
Theorem C71_opening : forall A C S (k : container A C S) L R (item : codec A) d0 old,
  (forall c s, c <> L -> c <> 110 -> reports (seq_codec k L R item d0) old (c :: s) (holds k []) (expected [L] (c :: s))) /\
  reports (seq_codec k L R item d0) old [] (holds k []) unexpected_end.
Proof. intros. split; [intros; now apply seq_open|apply seq_empty]. Qed.
Print Assumptions C71_opening.
(** after an element something other than a comma or the closing bracket: the
    elements so far, that one included, are kept *)
Theorem C71_separator : forall A C S (k : container A C S) L R (item : codec A) d0, brackets L R ->
  forall ts b vs g1 t v g2 c r old, commas ts b -> Forall2 (rd item) ts vs -> gap g1 -> gap g2 -> rd item t v ->
  token c -> follow (g2 ++ c :: r) -> c <> R -> c <> COMMA ->
  reports (seq_codec k L R item d0) old (L :: b ++ g1 ++ t ++ g2 ++ c :: r) (holds k (vs ++ [v])) (expected [COMMA] (c :: r)).
Proof. intros. now apply seq_separator with ts. Qed.
Print Assumptions C71_separator.
(** the input ends after the opening bracket or a comma, or after an element *)
Theorem C71_truncated : forall A C S (k : container A C S) L R (item : codec A) d0, brackets L R ->
  forall ts b vs g1 old, commas ts b -> Forall2 (rd item) ts vs -> gap g1 ->
  reports (seq_codec k L R item d0) old (L :: b ++ g1) (holds k vs) unexpected_end /\
  forall t v g2, gap g2 -> rd item t v ->
  reports (seq_codec k L R item d0) old (L :: b ++ g1 ++ t ++ g2) (holds k (vs ++ [v])) unexpected_end.
Proof. intros A C S k L R item d0 HB ts b vs g1 old Hb Hv Hg. split; [now apply seq_end_item with ts|]. intros. now apply seq_end_separator with ts. Qed.
Print Assumptions C71_truncated.
(** what an element reports is what the container reports, at any depth; what
    the element left in its target is inserted too *)
Theorem C71_element : forall A C S (k : container A C S) L R (item : codec A) d0, brackets L R ->
  forall ts b vs g h t v j old, commas ts b -> Forall2 (rd item) ts vs -> gap g -> token h -> h <> R ->
  reports item d0 (h :: t) v j -> reports (seq_codec k L R item d0) old (L :: b ++ g ++ h :: t) (holds k (vs ++ [v])) j.
Proof. intros. now apply seq_item with ts. Qed.
Print Assumptions C71_element.

Lemma rd32 v txt : int_dom i32 v -> ser int32 v = Ok (wr txt) -> rd int32 txt v.
Proof.
  intros Hv E. destruct (proj1 (rt_rd _ _) (int_rt i32 i32_ok) v Hv) as (ops & E2 & H). unfold int32 in E. rewrite E in E2. injection E2 as <-.
  now rewrite flat_wr in H.
Qed.
Ltac rd32 := apply rd32; [unfold int_dom, irange; cbn; lia|exq].
Ltac gp := match goal with |- gap ?g => let g' := eval vm_compute in g in change (gap g') end; repeat (apply g_ws; [unfold s_ws; lia|]); apply g_nil.
Ltac tok := cbn; unfold token, follow, s_ws, s_digit; lia.
(** [1, 2 x: the comma is expected at x; 1 and 2 are kept *)
Example C71_ex_separator : reports (vector_codec int32 0) [9] (text "[1, 2 x") [1; 2] (expected [COMMA] (text "x")).
Proof.
  pose proof (C71_separator _ _ _ vec_cont LBR RBR int32 0 (or_introl (conj eq_refl eq_refl)) [text "1"] (text "1,") [1] (text " ") (text "2") 2 (text " ") 120 [] [9]) as H.
  rewrite C71_holds_vector in H. apply H; try tok.
  - exact (cm_cons [] (text "1") [] [] [] g_nil g_nil cm_nil).
  - constructor; [rd32|constructor].
  - gp.
  - gp.
  - rd32.
Qed.
(** [[1],[2 3]]: the inner array's report, seen through the outer one *)
Example C71_ex_nested : reports (vector_codec (vector_codec int32 0) []) [] (text "[[1],[2 3]]") [[1]; [2]] (expected [COMMA] (text "3]]")).
Proof.
  pose proof (C71_element _ _ _ vec_cont LBR RBR (vector_codec int32 0) [] (or_introl (conj eq_refl eq_refl)) [text "[1]"] (text "[1],") [[1]] [] LBR (text "2 3]]") [2]
    (expected [COMMA] (text "3]]")) []) as H.
  rewrite C71_holds_vector in H. apply H; try tok.
  - exact (cm_cons [] (text "[1]") [] [] [] g_nil g_nil cm_nil).
  - constructor; [|constructor]. pose proof (seq_rd vec_cont LBR RBR int32 0 false [text "1"] (text "1") [1] (or_introl (conj eq_refl eq_refl))) as H1. apply H1.
    + apply (join_spaced false [text "1"]).
    + constructor; [rd32|constructor].
  - apply g_nil.
  - pose proof (C71_separator _ _ _ vec_cont LBR RBR int32 0 (or_introl (conj eq_refl eq_refl)) [] [] [] [] (text "2") 2 (text " ") 51 (text "]]") []) as H1.
    apply H1; [exact cm_nil|constructor|apply g_nil|gp|rd32|tok|tok|discriminate|discriminate].
Qed.

(** Members of dictionaries. *)
Theorem C71_field : forall K V (kc : codec K) (vc : codec V) (old : K * V),
  (forall s k j, reports kc (fst old) s k j -> reports (field_codec kc vc) old s (k, snd old) j) /\
  forall kt k g1, rd kc kt k -> gap g1 ->
  (forall c r, token c -> follow (g1 ++ c :: r) -> c <> COLON ->
    reports (field_codec kc vc) old (kt ++ g1 ++ c :: r) (k, snd old) (expected [COLON] (c :: r))) /\
  reports (field_codec kc vc) old (kt ++ g1) (k, snd old) unexpected_end /\
  forall g2, gap g2 ->
    reports (field_codec kc vc) old (kt ++ g1 ++ COLON :: g2) (k, snd old) unexpected_end /\
    forall h t v j, token h -> reports vc (snd old) (h :: t) v j ->
      reports (field_codec kc vc) old (kt ++ g1 ++ COLON :: g2 ++ h :: t) (k, v) j.
Proof.
  intros K V kc vc old. split; [intros; now apply field_key|]. intros kt k g1 Hk Hg. split; [intros; now apply field_colon|].
  split; [now apply field_end_colon|]. intros g2 Hg2. split; [now apply field_end_value|]. intros. now apply field_value.
Qed.
Print Assumptions C71_field.
(** the report passes through the dictionary: the value is the failing int's 0 *)
Example C71_ex_dict : reports (map_codec Z.ltb int32 int32 (7, 8)) [] (text "{1:x}") [(1, 0)] (mkerr InvalidNumber None 2).
Proof.
  pose proof (C71_element _ _ _ (set_cont (klt Z.ltb)) LCB RCB (field_codec int32 int32) (7, 8) (or_intror (conj eq_refl eq_refl)) [] [] [] [] 49 (text ":x}") (1, 0)
    (mkerr InvalidNumber None 2) []) as H.
  apply H; [exact cm_nil|constructor|apply g_nil|tok|discriminate|].
  pose proof (proj2 (C71_field Z Z int32 int32 (7, 8)) (text "1") 1 [] ltac:(rd32) g_nil) as (_ & _ & H1).
  destruct (H1 [] g_nil) as (_ & H2). apply (H2 120 (text "}") 0 (mkerr InvalidNumber None 2)); [tok|]. apply int_bad; tok.
Qed.

(** Fixed-size arrays: [carray_codec] is J[N] (the expected text names the
    comma), [stdarray_codec] is std::array (its expected text is empty).  The
    elements not read keep their values. *)
Theorem C71_array_opening : forall A (item : codec A) d0 old,
  (forall c s, c <> LBR -> c <> 110 ->
    reports (carray_codec item) old (c :: s) old (expected [LBR] (c :: s)) /\
    reports (stdarray_codec item d0) old (c :: s) old (expected [LBR] (c :: s))) /\
  reports (carray_codec item) old [] old unexpected_end /\ reports (stdarray_codec item d0) old [] old unexpected_end.
Proof. intros. split; [intros; split; now apply fix_open|split; apply fix_empty]. Qed.
Print Assumptions C71_array_opening.
Theorem C71_array_separator : forall A (item : codec A) d0 ts b vs g1 t v g2 c r old1 x old2,
  commas ts b -> Forall2 (rd item) ts vs -> length old1 = length ts -> gap g1 -> gap g2 -> rd item t v ->
  token c -> follow (g2 ++ c :: r) -> c <> RBR -> c <> COMMA ->
  reports (carray_codec item) (old1 ++ x :: old2) (LBR :: b ++ g1 ++ t ++ g2 ++ c :: r) (vs ++ v :: old2) (expected [COMMA] (c :: r)) /\
  reports (stdarray_codec item d0) (old1 ++ x :: old2) (LBR :: b ++ g1 ++ t ++ g2 ++ c :: r) (vs ++ v :: old2) (expected [] (c :: r)).
Proof. intros. split; apply (fix_separator item _ _ LBR RBR _ (or_introl (conj eq_refl eq_refl)) ts); assumption. Qed.
Print Assumptions C71_array_separator.
Theorem C71_array_truncated : forall A (item : codec A) d0 ts b vs old1 old2, commas ts b -> Forall2 (rd item) ts vs -> length old1 = length ts ->
  (forall g, gap g -> old2 <> [] \/ g = [] ->
    reports (carray_codec item) (old1 ++ old2) (LBR :: b ++ g) (vs ++ old2) unexpected_end /\
    reports (stdarray_codec item d0) (old1 ++ old2) (LBR :: b ++ g) (vs ++ old2) unexpected_end) /\
  forall g1 t v g2 x, gap g1 -> gap g2 -> rd item t v ->
    reports (carray_codec item) (old1 ++ x :: old2) (LBR :: b ++ g1 ++ t ++ g2) (vs ++ v :: old2) unexpected_end /\
    reports (stdarray_codec item d0) (old1 ++ x :: old2) (LBR :: b ++ g1 ++ t ++ g2) (vs ++ v :: old2) unexpected_end.
Proof.
  intros A item d0 ts b vs old1 old2 Hb Hv Hl. split.
  - intros g Hg Ho. split; apply (fix_end_item item _ _ LBR RBR _ (or_introl (conj eq_refl eq_refl)) ts); assumption.
  - intros g1 t v g2 x H1 H2 Ht. split; apply (fix_end_separator item _ _ LBR RBR _ (or_introl (conj eq_refl eq_refl)) ts); assumption.
Qed.
Print Assumptions C71_array_truncated.
(** one element too many: after the comma that follows the last element the
    closing bracket must come at once, without a gap *)
Theorem C71_array_extra : forall A (item : codec A) d0 ts b vs c r old, commas ts b -> Forall2 (rd item) ts vs -> length old = length ts -> c <> RBR ->
  reports (carray_codec item) old (LBR :: b ++ c :: r) vs (expected [RBR] (c :: r)) /\
  reports (stdarray_codec item d0) old (LBR :: b ++ c :: r) vs (expected [RBR] (c :: r)).
Proof. intros. split; apply (fix_extra item _ _ LBR RBR _ (or_introl (conj eq_refl eq_refl)) ts); assumption. Qed.
Print Assumptions C71_array_extra.
Theorem C71_array_element : forall A (item : codec A) d0 ts b vs g h t v j old1 x old2,
  commas ts b -> Forall2 (rd item) ts vs -> length old1 = length ts -> gap g -> token h -> h <> RBR ->
  (reports item x (h :: t) v j -> reports (carray_codec item) (old1 ++ x :: old2) (LBR :: b ++ g ++ h :: t) (vs ++ v :: old2) j) /\
  (reports item d0 (h :: t) v j -> reports (stdarray_codec item d0) (old1 ++ x :: old2) (LBR :: b ++ g ++ h :: t) (vs ++ v :: old2) j).
Proof.
  intros. split; intros.
  - apply (fix_item item None [COMMA] LBR RBR _ (or_introl (conj eq_refl eq_refl)) ts); assumption.
  - apply (fix_item item (Some d0) [] LBR RBR _ (or_introl (conj eq_refl eq_refl)) ts); assumption.
Qed.
Print Assumptions C71_array_element.
Example C71_ex_array :
  des (c_array_codec int32 3) None (7, (8, (9, tt))) (text "[1,2 3]") clean = Ok ((1, (2, (9, tt))), [], Some (expected [COMMA] (text "3]"))) /\
  des (std_array_codec int32 0 3) None (7, (8, (9, tt))) (text "[1,2 3]") clean = Ok ((1, (2, (9, tt))), [], Some (expected [] (text "3]"))) /\
  des (c_array_codec int32 2) None (7, (8, tt)) (text "[1,2, ]") clean = Ok ((1, (2, tt)), [], Some (expected [RBR] (text " ]"))) /\
  des (c_array_codec int32 2) None (7, (8, tt)) (text "[1,2,]") clean = Ok ((1, (2, tt)), [], clean).
Proof. repeat split; exq. Qed.

(** ================= C72: structs ================= *)
(** The text is an opening brace, the members pre each followed by a comma, and
    the failing place.  fs are the effects of pre on the struct.  [still]: pre
    does not yet go through all listed members in their order; the other case,
    [uses], is treated by the theorems C72_rest_*. *)
Theorem C72_opening : forall T mode (L : list (memb T)) t0 old,
  (forall c s, c <> LCB -> c <> LBR -> c <> 110 -> reports (object_codec mode L t0) old (c :: s) old (expected [LCB] (c :: s))) /\
  reports (object_codec mode L t0) old [] old unexpected_end /\
  forall g, gap g -> reports (object_codec mode L t0) old (LCB :: g) old unexpected_end.
Proof. intros. split; [intros; now apply obj_open|]. split; [apply obj_empty|]. intros. now apply obj_end_first. Qed.
Print Assumptions C72_opening.
(** what the value of a member reports, the struct reports; the member gets
    what the value left in its target *)
Theorem C72_value : forall T mode (L : list (memb T)) t0, names_ok L -> Forall no_if L ->
  forall pre fs p b g g1 g2 h t y j old, Forall2 (item_sem mode L) pre fs -> prefix_text pre p -> In b L -> still (names L) (map fst pre) ->
  gap g -> gap g1 -> gap g2 -> token h -> reports (m_codec (memb_mem b)) (memb_old b (run_all fs old)) (h :: t) y j ->
  reports (object_codec mode L t0) old (LCB :: p ++ g ++ QT :: memb_name b ++ QT :: g1 ++ COLON :: g2 ++ h :: t) (m_set (memb_mem b) (run_all fs old) y) j.
Proof. intros. now apply obj_value with pre. Qed.
Print Assumptions C72_value.
(** no colon after the name of a listed member (or the input ends there): the
    value is still read, from nothing *)
Theorem C72_colon : forall T mode (L : list (memb T)) t0, names_ok L -> Forall no_if L ->
  forall pre fs p b g g1 y old, Forall2 (item_sem mode L) pre fs -> prefix_text pre p -> In b L -> still (names L) (map fst pre) ->
  gap g -> gap g1 -> at_end (m_codec (memb_mem b)) (memb_old b (run_all fs old)) y ->
  (forall c r, token c -> c <> COLON ->
    reports (object_codec mode L t0) old (LCB :: p ++ g ++ QT :: memb_name b ++ QT :: g1 ++ c :: r) (m_set (memb_mem b) (run_all fs old) y) (expected [COLON] (c :: r))) /\
  reports (object_codec mode L t0) old (LCB :: p ++ g ++ QT :: memb_name b ++ QT :: g1) (m_set (memb_mem b) (run_all fs old) y) unexpected_end /\
  forall g2, gap g2 ->
    reports (object_codec mode L t0) old (LCB :: p ++ g ++ QT :: memb_name b ++ QT :: g1 ++ COLON :: g2) (m_set (memb_mem b) (run_all fs old) y) unexpected_end.
Proof.
  intros. split; [intros; now apply obj_colon with pre|]. split; [now apply obj_end_colon with pre|]. intros. now apply obj_end_value with pre.
Qed.
Print Assumptions C72_colon.
(** after a complete member the closing brace is expected, not the comma *)
Theorem C72_separator : forall T mode (L : list (memb T)) t0, names_ok L -> Forall no_if L ->
  forall pre fs p it f g1 txt g2 old, Forall2 (item_sem mode L) pre fs -> prefix_text pre p -> still (names L) (map fst pre) ->
  item_sem mode L it f -> gap g1 -> member_text it txt -> gap g2 ->
  (forall c r, token c -> follow (g2 ++ c :: r) -> c <> COMMA -> c <> RCB ->
    reports (object_codec mode L t0) old (LCB :: p ++ g1 ++ txt ++ g2 ++ c :: r) (run_all (fs ++ [f]) old) (expected [RCB] (c :: r))) /\
  reports (object_codec mode L t0) old (LCB :: p ++ g1 ++ txt ++ g2) (run_all (fs ++ [f]) old) unexpected_end.
Proof. intros. split; [intros; now apply obj_separator with pre it|]. now apply obj_end_separator with pre it. Qed.
Print Assumptions C72_separator.
(** where a name should start (after a comma also at the end of the input) *)
Theorem C72_name : forall T mode (L : list (memb T)) t0, names_ok L -> Forall no_if L ->
  forall pre fs p g z old, Forall2 (item_sem mode L) pre fs -> prefix_text pre p -> still (names L) (map fst pre) ->
  gap g -> (pre <> [] /\ z = [] \/ exists c r, z = c :: r /\ token c /\ c <> QT /\ (pre = [] -> c <> RCB)) ->
  reports (object_codec mode L t0) old (LCB :: p ++ g ++ z) (run_all fs old) (expected [QT] z).
Proof.
  intros T mode L t0 HL Hif pre fs p g z old Hf Hp Hn Hg Hz. apply obj_name with pre; auto.
  - destruct Hz as [(_ & ->)|(c & r & -> & Hc & _)]; [exact Logic.I|exact Hc].
  - destruct Hz as [(_ & ->)|(c & r & -> & _ & Hc & _)]; [reflexivity|]. cbn. lia.
  - intros ->. destruct Hz as [(Hz & _)|(c & r & -> & _ & _ & Hc)]; [congruence|]. exists c, r. auto.
Qed.
Print Assumptions C72_name.
(** a member of a strict struct that is not listed: where its name starts *)
Theorem C72_unknown : forall T (L : list (memb T)) t0, names_ok L -> Forall no_if L ->
  forall pre fs p g nm x old, Forall2 (item_sem Strict L) pre fs -> prefix_text pre p -> still (names L) (map fst pre) ->
  gap g -> ~ In nm (names L) -> wchars nm ->
  reports (object_codec Strict L t0) old (LCB :: p ++ g ++ QT :: nm ++ QT :: x) (run_all fs old)
    (mkerr InvalidMember None (Z.of_nat (length (QT :: nm ++ QT :: x)))).
Proof. intros. now apply obj_unknown with pre. Qed.
Print Assumptions C72_unknown.
(** Once all listed members have been read in their order, the same mistakes are
    reported differently: the comma is expected ... *)
Theorem C72_rest_separator : forall T mode (L : list (memb T)) t0, names_ok L -> Forall no_if L -> L <> [] ->
  forall pre fs p xs q g it txt g2 c r old, Forall2 (item_sem mode L) pre fs -> prefix_text pre p -> uses (names L) (map fst pre) ->
  Forall item_wf xs -> prefix_text xs q -> gap g -> item_wf it -> member_text it txt -> gap g2 -> token c -> follow (g2 ++ c :: r) -> c <> COMMA -> c <> RCB ->
  reports (object_codec mode L t0) old (LCB :: p ++ q ++ g ++ txt ++ g2 ++ c :: r) (run_all fs old) (expected [COMMA] (c :: r)).
Proof. intros. now apply obj_rest_separator with pre xs it. Qed.
Print Assumptions C72_rest_separator.
(** ... and of the unlisted members xs, it the last one is named *)
Theorem C72_rest_unknown : forall T (L : list (memb T)) t0, names_ok L -> Forall no_if L -> L <> [] ->
  forall pre fs p xs q g it txt g2 r old, Forall2 (item_sem Strict L) pre fs -> prefix_text pre p -> uses (names L) (map fst pre) ->
  Forall item_wf xs -> prefix_text xs q -> gap g -> item_wf it -> member_text it txt -> gap g2 ->
  reports (object_codec Strict L t0) old (LCB :: p ++ q ++ g ++ txt ++ g2 ++ RCB :: r) (run_all fs old)
    (mkerr InvalidMember None (Z.of_nat (length (txt ++ g2 ++ RCB :: r)))).
Proof. intros. now apply obj_rest_unknown with pre xs it. Qed.
Print Assumptions C72_rest_unknown.
(** So neither "the first member that is not listed is reported" nor "a missing
    separator is reported as a missing brace" holds in general. *)
Theorem C72_first_unknown_refuted :
  des (foo_codec Strict) None foo0 (jt "{'a':1,'x':1,'b':2,'y':2}") clean = Ok (mkfoo 1 0 [], [], Some (mkerr InvalidMember None (Z.of_nat (length (jt "'x':1,'b':2,'y':2}"))))) /\
  des (foo_codec Strict) None foo0 (jt "{'a':1,'b':2,'foo':'','x':1,'y':2}") clean = Ok (mkfoo 1 2 [], [], Some (mkerr InvalidMember None (Z.of_nat (length (jt "'y':2}"))))).
Proof. split; exq. Qed.
Print Assumptions C72_first_unknown_refuted.
Theorem C72_separator_refuted :
  des (foo_codec Nonstrict) None foo0 (jt "{'a':1,'b':2 'y':2}") clean = Ok (mkfoo 1 2 [], [], Some (expected [RCB] (jt "'y':2}"))) /\
  des (foo_codec Nonstrict) None foo0 (jt "{'a':1,'b':2,'foo':'','x':1 'y':2}") clean = Ok (mkfoo 1 2 [], [], Some (expected [COMMA] (jt "'y':2}"))).
Proof. split; exq. Qed.
Print Assumptions C72_separator_refuted.

Lemma still_a : still (names Lfoo) [text "a"].
Proof.
  intros m1 m2 E K. inversion K as [|? ? ms H1|? ? ? ms Hm H1]; subst.
  - destruct ms; [inversion H1|]. destruct ms; discriminate.
  - destruct ms; [inversion H1|]. destruct ms; discriminate.
Qed.
Lemma item_a mode v txt : int_dom i32 v -> ser int32 v = Ok (wr txt) -> item_sem mode Lfoo (text "a", txt) (fun t => mkfoo v (fb t) (fs t)).
Proof. intros Hv E. apply (is_known mode Lfoo (MRef ma) txt (fun _ => v)); [cbn; tauto|]. exact (rd32 v txt Hv E). Qed.
(** the error of a member's value, through the struct and the vector around it *)
Example C72_ex_value : reports (vector_codec (foo_codec Strict) (mkfoo 5 6 [])) [] (jt "[{'a':1, 'b':x}]") [mkfoo 1 0 []] (mkerr InvalidNumber None 3).
Proof.
  pose proof (C71_element _ _ _ vec_cont LBR RBR (foo_codec Strict) (mkfoo 5 6 []) (or_introl (conj eq_refl eq_refl)) [] [] [] [] LCB (jt "'a':1, 'b':x}]") (mkfoo 1 0 [])
    (mkerr InvalidNumber None 3) []) as H.
  apply H; [exact cm_nil|constructor|apply g_nil|tok|discriminate|].
  pose proof (C72_value _ Strict Lfoo foo0 Lfoo_ok Lfoo_noif [(text "a", text "1")] [fun t => mkfoo 1 (fb t) (fs t)] (jt "'a':1,") (MRef mb) (text " ") [] [] 120 (text "}]") 0
    (mkerr InvalidNumber None 3) (mkfoo 5 6 [])) as H1.
  apply H1; [| |cbn; tauto|apply still_a|gp|apply g_nil|apply g_nil|tok|].
  - constructor; [apply item_a; [unfold int_dom, irange; cbn; lia|exq]|constructor].
  - apply (px_cons (text "a", text "1") [] (jt "'a':1") [] [] []); [apply g_nil| |apply g_nil|constructor].
    apply (mt (text "a") (text "1") [] []); apply g_nil.
  - apply int_bad; tok.
Qed.
(** the case distinction is complete *)
Theorem C72_cases : forall ns ms, still ns ms \/ exists ms1 ms2, ms = ms1 ++ ms2 /\ uses ns ms1.
Proof.
  intros ns ms. revert ns. induction ms as [|m ms IH]; intros [|n ns].
  - right. exists [], []. split; [reflexivity|constructor].
  - left. intros [|? ?] ? E K; [inversion K|discriminate].
  - right. exists [], (m :: ms). split; [reflexivity|constructor].
  - destruct (name_dec m n) as [<-|Hn].
    + destruct (IH ns) as [H|(a & b & -> & H)].
      * left. intros [|x a] b E K; [inversion K|]. injection E as <- E. inversion K; subst; [now apply (H a b)|congruence].
      * right. exists (m :: a), b. split; [reflexivity|now constructor].
    + destruct (IH (n :: ns)) as [H|(a & b & -> & H)].
      * left. intros [|x a] b E K; [inversion K|]. injection E as <- E. inversion K; subst; [congruence|now apply (H a b)].
      * right. exists (m :: a), b. split; [reflexivity|now constructor].
Qed.
Print Assumptions C72_cases.
(** all members present, but not in order: the brace is expected *)
Example C72_ex_order : still (names Lfoo) [text "b"; text "a"; text "foo"] /\
  des (foo_codec Nonstrict) None foo0 (jt "{'b':2,'a':1,'foo':'','x':1 'y':2}") clean = Ok (mkfoo 1 2 [], [], Some (expected [RCB] (jt "'y':2}"))) /\
  uses (names Lfoo) [text "x"; text "a"; text "b"; text "a"; text "foo"] /\
  des (foo_codec Nonstrict) None foo0 (jt "{'x':0,'a':1,'b':2,'a':3,'foo':'','a':4 'y':2}") clean = Ok (mkfoo 3 2 [], [], Some (expected [COMMA] (jt "'y':2}"))).
Proof.
  split; [|split; [exq|split; [|exq]]].
  - intros m1 m2 E K. 
    repeat (inversion K as [|? ? ? K1|? ? ? ? ? K1]; subst; clear K; rename K1 into K; try discriminate); cbn in E; try discriminate.
  - apply us_other; [discriminate|]. apply us_hit, us_hit, us_other; [discriminate|]. apply us_hit, us_done.
Qed.
Example C72_ex_more :
  des (foo_codec Strict) None (mkfoo 5 6 []) (jt "{'a':1 'b':2}") clean = Ok (mkfoo 1 6 [], [], Some (expected [RCB] (jt "'b':2}"))) /\
  des (foo_codec Strict) None (mkfoo 5 6 []) (jt "{'b':1, 'a' 2}") clean = Ok (mkfoo 5 1 [], [], Some (expected [COLON] (jt "2}"))) /\
  des (foo_codec Strict) None (mkfoo 5 6 (text "old")) (jt "{'foo' 2}") clean = Ok (mkfoo 5 6 [], [], Some (expected [COLON] (jt "2}"))) /\
  des (foo_codec Strict) None (mkfoo 5 6 []) (jt "{'a':1, b:2}") clean = Ok (mkfoo 1 6 [], [], Some (expected [QT] (jt "b:2}"))) /\
  des (foo_codec Strict) None (mkfoo 5 6 []) (jt "{'a':1, 'z':2, 'b':3}") clean = Ok (mkfoo 1 6 [], [], Some (mkerr InvalidMember None (Z.of_nat (length (jt "'z':2, 'b':3}"))))).
Proof. repeat split; exq. Qed.

(** Structs written as arrays. *)
Theorem C72_array_opening : forall T (L : list (memb T)) t0 old,
  (forall c s, c <> LBR -> c <> 110 -> reports (oarray_codec L t0) old (c :: s) old (expected [LBR] (c :: s))) /\
  reports (oarray_codec L t0) old [] old unexpected_end /\
  forall g, gap g -> reports (oarray_codec L t0) old (LBR :: g) old unexpected_end.
Proof. intros. split; [intros; now apply oarr_open|]. split; [apply oarr_empty|]. intros. now apply oarr_end_first. Qed.
Print Assumptions C72_array_opening.
Theorem C72_array_element : forall T t0 (L1 : list (memb T)) m L2 ts b fs g z y j old,
  commas ts b -> elems L1 ts fs -> Forall no_if (L1 ++ [m]) -> gap g ->
  (ts <> [] /\ z = [] \/ exists c r, z = c :: r /\ token c /\ (ts = [] -> c <> RBR)) ->
  reports (m_codec (memb_mem m)) (memb_old m (run_all fs old)) z y j ->
  reports (oarray_codec (L1 ++ m :: L2) t0) old (LBR :: b ++ g ++ z) (m_set (memb_mem m) (run_all fs old) y) j.
Proof.
  intros T t0 L1 m L2 ts b fs g z y j old Hb He Hn Hg Hz Hr. apply oarr_item with ts; auto.
  - destruct Hz as [(_ & ->)|(c & r & -> & Hc & _)]; [exact Logic.I|exact Hc].
  - intros ->. destruct Hz as [(Hz & _)|(c & r & -> & _ & Hc)]; [congruence|]. exists c, r. auto.
Qed.
Print Assumptions C72_array_element.
Theorem C72_array_separator : forall T t0 (L1 : list (memb T)) m L2 ts b fs g vt F g2 old,
  commas ts b -> elems L1 ts fs -> Forall no_if (L1 ++ [m]) -> gap g -> gap g2 -> rdf (m_codec (memb_mem m)) vt F ->
  (forall c r, token c -> follow (g2 ++ c :: r) -> c <> COMMA -> c <> RBR ->
    reports (oarray_codec (L1 ++ m :: L2) t0) old (LBR :: b ++ g ++ vt ++ g2 ++ c :: r)
      (m_set (memb_mem m) (run_all fs old) (F (memb_old m (run_all fs old)))) (expected [RBR] (c :: r))) /\
  reports (oarray_codec (L1 ++ m :: L2) t0) old (LBR :: b ++ g ++ vt ++ g2)
    (m_set (memb_mem m) (run_all fs old) (F (memb_old m (run_all fs old)))) unexpected_end.
Proof. intros. split; [intros; now apply oarr_separator with ts|]. now apply oarr_end_separator with ts. Qed.
Print Assumptions C72_array_separator.
Theorem C72_array_extra : forall T t0 (L : list (memb T)) ts b fs g c r old, commas ts b -> elems L ts fs -> Forall no_if L -> gap g -> token c -> c <> RBR ->
  reports (oarray_codec L t0) old (LBR :: b ++ g ++ c :: r) (run_all fs old) (expected [RBR] (c :: r)).
Proof. intros. now apply oarr_extra with ts. Qed.
Print Assumptions C72_array_extra.
Example C72_ex_array :
  des (oarray_codec Lfoo foo0) None (mkfoo 5 6 []) (jt "[1 2]") clean = Ok (mkfoo 1 6 [], [], Some (expected [RBR] (jt "2]"))) /\
  des (oarray_codec Lfoo foo0) None (mkfoo 5 6 []) (jt "[1,2,'x',4]") clean = Ok (mkfoo 1 2 (text "x"), [], Some (expected [RBR] (jt "4]"))) /\
  des (oarray_codec Lfoo foo0) None (mkfoo 5 6 []) (jt "[1,]") clean = Ok (mkfoo 1 0 [], [], Some (mkerr InvalidNumber None 1)).
Proof. repeat split; exq. Qed.

(** ================= C73: values and wrappers ================= *)
Theorem C73_integer : forall ty old,
  reports (int_codec ty) old [] old unexpected_end /\
  (forall c s, c <> 110 -> c <> MINUS -> ~ s_digit c -> reports (int_codec ty) old (c :: s) 0 (mkerr InvalidNumber None (Z.of_nat (length (c :: s))))) /\
  (forall s, (forall c r, s = c :: r -> ~ s_digit c) -> reports (int_codec ty) old (MINUS :: s) 0 (mkerr InvalidNumber None (Z.of_nat (length s)))).
Proof. intros. split; [apply int_empty|]. split; [intros; now apply int_bad|intros; now apply int_minus]. Qed.
Print Assumptions C73_integer.
Theorem C73_bool : forall old, reports bool_codec old [] old unexpected_end /\
  forall c s, c <> 110 -> c <> 116 -> c <> 102 -> reports bool_codec old (c :: s) false (mkerr InvalidBool None (Z.of_nat (length (c :: s)))).
Proof. intros. split; [apply bool_empty|intros; now apply bool_bad]. Qed.
Print Assumptions C73_bool.
(** strings; l is the text of the characters m read so far *)
Theorem C73_string : forall old,
  reports string_codec old [] [] unexpected_end /\
  (forall c s, c <> 110 -> c <> QT -> reports string_codec old (c :: s) [] (expected [QT] (c :: s))) /\
  forall l m, lmean_bmp l m -> dist m < INT_MAX ->
    reports string_codec old (QT :: l) m unexpected_end /\
    reports string_codec old (QT :: l ++ [BSL]) m unexpected_end /\
    forall c r, ~ In c [QT; BSL; SLASH; 98; 102; 110; 114; 116; 117; 120] ->
      reports string_codec old (QT :: l ++ BSL :: c :: r) m (mkerr InvalidString None (Z.of_nat (length (c :: r)))).
Proof.
  intros. split; [apply str_empty|]. split; [intros; now apply str_open|]. intros l m Hl Hm. split; [apply str_end; [exact Hl|lia]|].
  split; [now apply str_end_escape|]. intros. now apply str_escape.
Qed.
Print Assumptions C73_string.
Theorem C73_wrappers : forall A (J : codec A),
  (forall T (get : T -> A) (set : T -> A -> T) old s v j, reports J (get old) s v j -> reports (member_value_codec get set J) old s (set old v) j) /\
  (forall d0 old h t v j, h <> 110 -> reports J d0 (h :: t) v j -> reports (ptr_codec J d0) old (h :: t) (Some v) j) /\
  (forall sq old h t v j, h <> QT -> reports J old (h :: t) v j -> reports (quoted_codec J sq false) old (h :: t) v j).
Proof. intros. split; [intros; now apply member_value_report|]. split; intros; [now apply ptr_report|now apply unquoted_report]. Qed.
Print Assumptions C73_wrappers.
(** what is stored when there is nothing left to read (the premise of C72_colon) *)
Theorem C73_at_end :
  (forall ty old, at_end (int_codec ty) old old) /\ (forall old, at_end bool_codec old old) /\ (forall old, at_end string_codec old []) /\
  (forall T mode (L : list (memb T)) t0 old, at_end (object_codec mode L t0) old old) /\
  (forall A C S (k : container A C S) L R (item : codec A) d0 old, at_end (seq_codec k L R item d0) old (holds k [])).
Proof. split; [exact int_at_end|]. split; [exact bool_at_end|]. split; [exact str_at_end|]. split; intros; [apply obj_at_end|apply seq_at_end]. Qed.
Print Assumptions C73_at_end.
Example C73_ex : reports (ptr_codec (vector_codec bool_codec true) [true]) None (text "[yes]") (Some [false]) (mkerr InvalidBool None 4) /\
  reports string_codec (text "old") (jt "'ab\q'") (text "ab") (mkerr InvalidString None 2).
Proof.
  split.
  - apply (proj1 (proj2 (C73_wrappers _ (vector_codec bool_codec true)))); [discriminate|].
    apply (C71_element _ _ _ vec_cont LBR RBR bool_codec true (or_introl (conj eq_refl eq_refl)) [] [] [] [] 121 (text "es]") false); [exact cm_nil|constructor|apply g_nil|tok|discriminate|].
    apply (proj2 (C73_bool true)); discriminate.
  - destruct (C73_string (text "old")) as (_ & _ & H). destruct (H (text "ab") (text "ab")) as (_ & _ & H1).
    + apply (lb_cons (text "a") (text "a") (text "b") (text "b")); [apply (cb_plain 97); unfold scalar; lia|].
      apply (lb_cons (text "b") (text "b") [] []); [apply (cb_plain 98); unfold scalar; lia|constructor].
    + vm_compute. reflexivity.
    + apply (H1 113 [QT]). cbn. lia.
Qed.
