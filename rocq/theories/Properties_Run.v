(** C88, C89: every outcome of reading containers, structs and arrays of members. *)
From Verif Require Import Base Parser SpecJson SpecString Out Number StringS Array Unord Object SpecObject ObjectArray CodecLaws NumberProofs StringProofs ArrayProofs ObjectProofs ObjectArrayProofs
  SpecReport SpecExact SpecRefuse SpecFail Properties_Seq Properties_Object Properties_Refuse SpecRun RunProofs ObjRunProofs.

(** ---- C88 ---- *)
Theorem C88_container : forall A C S (k : container A C S) l r0 (c : codec A) d0 sn old e s v r e', dlaw (des c) -> brackets l r0 ->
  (runs (seq_codec k l r0 c d0) sn old e s v r e' <->
   exists xs, v = c_get k (fold_left (c_ins k) xs (c_new k)) /\ seq_text (runs c sn d0) l r0 e s xs r e').
Proof. intros. now apply seq_runs. Qed.
Print Assumptions C88_container.
(** vectors hold what has been read, also after an error *)
Theorem C88_vector : forall A (c : codec A) d0 sn old e s v r e', dlaw (des c) ->
  (runs (vector_codec c d0) sn old e s v r e' <-> seq_text (runs c sn d0) LBR RBR e s v r e').
Proof.
  intros A c d0 sn old e s v r e' Hd. unfold vector_codec. rewrite seq_runs; [|exact Hd|now left]. cbn [c_get c_ins c_new vec_cont].
  assert (F : forall l (a : list A), fold_left (fun l x => l ++ [x]) l a = a ++ l).
  { induction l as [|x l IH]; intros a; cbn [fold_left]; [now rewrite app_nil_r|]. rewrite IH, <- app_assoc. reflexivity. }
  split; [intros (xs & -> & H)|intros H; exists v; split; [|exact H]]; rewrite F; [exact H|reflexivity].
Qed.
Print Assumptions C88_vector.
(** unordered containers insert into the cleared target *)
Theorem C88_unordered : forall A H (h : hashtab A H) l r0 (c : codec A) d0 sn old e s v r e', dlaw (des c) -> brackets l r0 ->
  (runs (hash_codec h l r0 c d0) sn old e s v r e' <->
   exists xs, v = fold_left (h_ins h) xs (h_clear h old) /\ seq_text (runs c sn d0) l r0 e s xs r e').
Proof. intros A H h l r0 c d0 sn old e s v r e' Hd HB. exact (seq_runs (mkcont (h_clear h old) (h_ins h) (fun t => t) (h_list h)) l r0 c d0 sn old e s v r e' Hd HB). Qed.
Print Assumptions C88_unordered.
Theorem C88_field : forall K V (kc : codec K) (vc : codec V) sn k0 v0 e s p r e', dlaw (des kc) -> dlaw (des vc) ->
  (runs (field_codec kc vc) sn (k0, v0) e s p r e' <-> field_run (runs kc sn k0) (runs vc sn v0) v0 e s p r e').
Proof. intros. now apply field_runs. Qed.
Print Assumptions C88_field.
(** std::array reads its elements into a fresh element, C arrays in place *)
Theorem C88_std_array : forall A (c : codec A) d0 N sn old e s (v : vec A N) r e', dlaw (des c) ->
  (runs (std_array_codec c d0 N) sn old e s v r e' <-> slots_text (runs c sn) (fun _ => runs c sn d0) [] (vlist old) e s (vlist v) r e').
Proof. intros A c d0 N sn old e s v r e' Hd. unfold std_array_codec. rewrite vec_runs by (intros l H; exact (slots_text_len _ _ _ _ _ _ _ _ _ (proj1 (fix_runs c (Some d0) [] sn Hd _ _ _ _ _ _) H))). exact (fix_runs c (Some d0) [] sn Hd _ _ _ _ _ _). Qed.
Print Assumptions C88_std_array.
Theorem C88_c_array : forall A (c : codec A) N sn old e s (v : vec A N) r e', dlaw (des c) ->
  (runs (c_array_codec c N) sn old e s v r e' <-> slots_text (runs c sn) (runs c sn) [COMMA] (vlist old) e s (vlist v) r e').
Proof. intros A c N sn old e s v r e' Hd. unfold c_array_codec. rewrite vec_runs by (intros l H; exact (slots_text_len _ _ _ _ _ _ _ _ _ (proj1 (fix_runs c None [COMMA] sn Hd _ _ _ _ _ _) H))). exact (fix_runs c None [COMMA] sn Hd _ _ _ _ _ _). Qed.
Print Assumptions C88_c_array.

(** ---- concrete cases ---- *)
(** a bad hexadecimal digit is reported, the elements behind it are read *)
Example C88_ex_vector : seq_text (runs string_codec None []) LBR RBR no_error (jt "['a\u0z41', 'b' ]x") [text "aA"; text "b"] (text "x") bad_digit /\
  seq_text (runs int32 None 7) LBR RBR no_error (text "[1, 2 3]") [1; 2] [] (expected [COMMA] (text "3]")) /\
  seq_text (runs int32 None 7) LBR RBR no_error (text "[1,nul") [1; 0] [] unexpected_end.
Proof.
  split; [|split].
  - apply (C88_vector buf string_codec [] None []); [exact string_dlaw|exq].
  - apply (C88_vector Z int32 7 None []); [apply int_dlaw|exq].
  - apply (C88_vector Z int32 7 None []); [apply int_dlaw|exq].
Qed.
(** from the description back to the code: any gaps, any element *)
Example C88_ex_back : forall A (c : codec A) d0 sn old s1 x s2 r, dlaw (des c) -> after_gap s1 s1 -> s1 <> [] -> ~ heads RBR s1 -> reads c sn d0 s1 x s2 -> after_gap s2 (58 :: r) ->
  runs (vector_codec c d0) sn old no_error (LBR :: s1) [x] [] (expected [COMMA] (58 :: r)).
Proof.
  intros A c d0 sn old s1 x s2 r Hd G N H Hx G2. apply C88_vector; [exact Hd|]. apply qt_items. eapply sq_last; [exact G|exact N|exact H|exact Hx|].
  refine (tr_other [COMMA] RBR no_error s2 58 r G2 _ _); discriminate.
Qed.
Example C88_ex_field : field_run (runs string_codec None []) (runs int32 None 5) 5 no_error (jt "'k' 1") (text "k", 5) [] (expected [COLON] (text "1")).
Proof. apply (C88_field buf Z string_codec int32 None [] 5); [exact string_dlaw|apply int_dlaw|exq]. Qed.
Example C88_ex_arrays : slots_text (runs int32 None) (fun _ => runs int32 None 0) [] [7; 8; 9] no_error (text "[1;") [1; 8; 9] [] (expected [] (text ";")) /\
  slots_text (runs int32 None) (runs int32 None) [COMMA] [7; 8] no_error (text "[1,2,3]") [1; 2] [] (expected [RBR] (text "3]")).
Proof.
  split.
  - apply (C88_std_array Z int32 0 3 None (7, (8, (9, tt))) no_error (text "[1;") (1, (8, (9, tt)))); [apply int_dlaw|exq].
  - apply (C88_c_array Z int32 2 None (7, (8, tt)) no_error (text "[1,2,3]") (1, (2, tt))); [apply int_dlaw|exq].
Qed.

(** ---- C89 ---- *)
(** The domain: the codecs obey the law of C51, the names are plain. *)
Definition all_names {T} (b : memb T) : list buf := match b with MRef m => [m_name m] | MProp m _ => [m_name m] | MIf _ l r _ => [m_name l; m_name r] end.
Definition run_list {T} (L : list (memb T)) : Prop := Forall (memb_all (fun _ c => dlaw (des c))) L /\ Forall (fun b => Forall plain_name (all_names b)) L.
Lemma run_good {T} (L : list (memb T)) : run_list L -> Forall bgood L.
Proof.
  intros [H1 H2]. rewrite Forall_forall in *. intros b Hb. specialize (H1 b Hb). specialize (H2 b Hb). destruct b as [m|m i|ru l r d]; cbn [memb_all all_names bgood] in *; unfold mgood.
  - inversion H2; subst. auto.
  - inversion H2; subst. auto.
  - inversion H2 as [|? ? ? H3]; subst. inversion H3; subst. tauto.
Qed.
Theorem C89_struct : forall T mode (L : list (memb T)) t0 sn old e s v r e', run_list L -> bytes s ->
  (runs (object_codec mode L t0) sn old e s v r e' <-> struct_text mode sn L t0 old e s v r e').
Proof. intros. apply object_runs; [now apply run_good|assumption]. Qed.
Print Assumptions C89_struct.
Theorem C89_array : forall T (L : list (memb T)) t0 sn old e s v r e', Forall (memb_all (fun _ c => dlaw (des c))) L ->
  (runs (oarray_codec L t0) sn old e s v r e' <-> oarray_text sn L t0 old e s v r e').
Proof. intros. now apply oarray_runs. Qed.
Print Assumptions C89_array.

(** ---- concrete cases ---- *)
Example C89_ex_dom : run_list Lfoo /\ run_list (Lif false) /\ run_list (Lif true).
Proof.
  assert (I1 : dlaw (des (m_codec ma))) by exact (int_dlaw _). assert (I2 : dlaw (des (m_codec mb))) by exact (int_dlaw _).
  assert (I3 : dlaw (des (m_codec sa))) by exact (int_dlaw _). assert (I4 : dlaw (des (m_codec ms))) by exact string_dlaw.
  split; [|split]; (split; [repeat apply Forall_cons; try apply Forall_nil; first [exact I1|exact I2|exact I4|exact (conj I3 I4)]|]);
  repeat apply Forall_cons; try apply Forall_nil; cbn [all_names]; repeat apply Forall_cons; try apply Forall_nil; split; discriminate.
Qed.
(** the text ends behind a name, behind the last comma, or in a value *)
Example C89_ex_cut : struct_text Strict None Lfoo foo0 (mkfoo 7 8 (text "z")) no_error (jt "{'a':1,'b'") (mkfoo 1 8 (text "z")) [] unexpected_end /\
  struct_text Strict None Lfoo foo0 (mkfoo 7 8 (text "z")) no_error (jt "{'a':1,'b':2,'foo':'x', ") (mkfoo 1 2 (text "x")) [] unexpected_end /\
  struct_text Strict None Lfoo foo0 (mkfoo 7 8 (text "z")) no_error (jt "{'foo':'xy") (mkfoo 7 8 (text "xy")) [] unexpected_end.
Proof. split; [|split]; (apply C89_struct; [apply C89_ex_dom|byt|exq]). Qed.
(** behind the whole list a strict struct reports the last member, not the first *)
Example C89_ex_strict : struct_text Strict None Lfoo foo0 foo0 no_error (jt "{'a':1,'b':2,'foo':'','x':3 , 'y':4}") (mkfoo 1 2 []) [] (mkerr InvalidMember None 6) /\
  struct_text Nonstrict None Lfoo foo0 foo0 no_error (jt "{'a':1,'b':2,'foo':'','x':3 , 'y':4} ") (mkfoo 1 2 []) (text " ") no_error /\
  struct_text Nonstrict None Lfoo foo0 foo0 no_error (jt "{'b':2,'x':tru }") (mkfoo 0 2 []) [] (mkerr ExpectedOf (Some (text "true")) 3).
Proof. split; [|split]; (apply C89_struct; [apply C89_ex_dom|byt|exq]). Qed.
(** the number is tried first; a string makes it 0 again *)
Example C89_ex_if : struct_text Nonstrict None (Lif false) foo0 (mkfoo 7 8 (text "z")) no_error (jt "{'b':1,'foo':'x'}") (mkfoo 0 1 (text "x")) [] no_error /\
  struct_text Nonstrict None (Lif false) foo0 (mkfoo 7 8 (text "z")) no_error (jt "{'b':1,'foo':[]}") (mkfoo 0 1 []) [] (expected [QT] (jt "[]}")) /\
  struct_text Nonstrict None (Lif true) foo0 (mkfoo 7 8 (text "z")) no_error (jt "{'b':1,'foo':3}") (mkfoo 3 1 []) [] no_error.
Proof. split; [|split]; (apply C89_struct; [apply C89_ex_dom|byt|exq]). Qed.
(** a bad hexadecimal digit: the members behind it are read nevertheless *)
Example C89_ex_on : struct_text Strict None Lfoo foo0 foo0 no_error (jt "{'foo':'\u0z41','b':5}!") (mkfoo 0 5 (text "A")) (text "!") bad_digit.
Proof. apply C89_struct; [apply C89_ex_dom|byt|exq]. Qed.
(** from the description back to the code *)
Example C89_ex_back : forall T mode (L : list (memb T)) t0 sn old e g, run_list L -> bytes g -> after_gap g [] ->
  runs (object_codec mode L t0) sn old e (LCB :: g) old [] (first e unexpected_end).
Proof. intros. apply C89_struct; [assumption|constructor; [lia|assumption]|]. apply ob_cut. now left. Qed.
Example C89_ex_array : oarray_text None Lfoo foo0 (mkfoo 7 8 (text "z")) no_error (text "[1,2}") (mkfoo 1 2 (text "z")) [] (expected [RBR] (text "}")) /\
  oarray_text None Lfoo foo0 (mkfoo 7 8 (text "z")) no_error (text "[1,]") (mkfoo 1 0 (text "z")) [] (mkerr InvalidNumber None 1) /\
  oarray_text None (Lif false) foo0 (mkfoo 7 8 (text "z")) no_error (jt "[5,'q']") (mkfoo 0 5 (text "q")) [] no_error.
Proof. split; [|split]; (apply C89_array; [apply C89_ex_dom|exq]). Qed.
