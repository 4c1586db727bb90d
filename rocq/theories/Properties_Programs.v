(** The example programs, from the text they are given to the text they print. *)
From Verif Require Import Base Parser SpecJson SpecNum SpecString Out StringS Number Array Object Wrap CodecLaws StringProofs SpecReport SpecExact SpecRefuse SpecFail Programs SpecPrograms ProgramProofs SpecShow ShowProofs Properties_Seq Properties_Object.

(** C101. show_parse succeeds exactly on arrays and prints the strings among
    their elements, in order. *)
Theorem C101_exact : forall sn s out r, bytes s -> (show_parse sn s (Some no_error) = Ok (out, r, Some no_error) <-> shown sn s out r).
Proof. exact show_exact. Qed.
Print Assumptions C101_exact.
(** It ends on every text and stays inside it; it is undefined only if the byte
    behind the text may not be read. *)
Theorem C101_total : forall sn s k, match show_parse sn s (Some k) with
  | Ok (_, r, e) => (exists p, s = p ++ r) /\ exists j, e = Some j | UB => sn = None | Fuel => False end.
Proof. exact show_total. Qed.
Print Assumptions C101_total.
(** If it reports an error, it returns the end. *)
Theorem C101_error : forall sn s out r j, show_parse sn s (Some no_error) = Ok (out, r, Some j) -> is_err j = true -> r = [].
Proof. exact show_err. Qed.
Print Assumptions C101_error.
(** The strings of an array written by the library are printed as they were. *)
Theorem C101_written : forall vs s sn, Forall str_dom vs -> put (vector_codec string_codec []) vs = Ok s -> show_parse sn s (Some no_error) = Ok (vs, [], Some no_error).
Proof. exact show_written. Qed.
Print Assumptions C101_written.
(** It reads the byte behind a text that ends inside the array, and it needs a
    json_error. *)
Theorem C101_defined_refuted : ~ (forall s e, bytes s -> show_parse None s e <> UB) /\ ~ (forall s, bytes s -> show_parse (Some 0) s None <> UB).
Proof.
  split; intros H.
  - apply (H (text "[ ") (Some no_error)); [|exq]. repeat (apply Forall_cons; [split; discriminate|]). apply Forall_nil.
  - apply (H (jt "['a']")); [|exq]. repeat (apply Forall_cons; [split; discriminate|]). apply Forall_nil.
Qed.
Print Assumptions C101_defined_refuted.
(** Exactly which error it reports, with which strings printed before: the end of
    a text that stops, what a string or another element reports, a missing
    separator, a missing bracket. *)
Theorem C101_reports : forall sn s out r j, bytes s ->
  (show_parse sn s (Some no_error) = Ok (out, r, Some j) /\ is_err j = true <-> r = [] /\ unshown sn s out (Some j)).
Proof. exact show_reports. Qed.
Print Assumptions C101_reports.
(** Exactly when it reads a byte behind the text that may not be read *)
Theorem C101_overreads : forall sn s, bytes s -> (show_parse sn s (Some no_error) = UB <-> exists out, unshown sn s out None).
Proof. exact show_overreads. Qed.
Print Assumptions C101_overreads.

Example C101_ex_main : show_parse (Some 0) (jt "/*x*/ [ 42, null, /*?*/ 'abra', [1,2], {'x':[3, 4]}, 'b', true ] z") clean = Ok ([text "abra"; text "b"], text " z", clean). Proof. exq. Qed.
Example C101_ex_comma : show_parse None (jt "['a',]") clean = Ok ([text "a"], [], clean). Proof. exq. Qed.
Example C101_ex_error : match show_parse (Some 0) (jt "['a' 'b']") clean with Ok (out, r, Some j) => out = [text "a"] /\ r = [] /\ code j = ExpectedOf /\ tail_of j = 4 | _ => False end. Proof. repeat split. Qed.
Example C101_ex_object : match show_parse (Some 0) (jt "{}") clean with Ok (out, r, Some j) => expected_of j = Some [LBR] /\ tail_of j = 2 | _ => False end. Proof. repeat split. Qed.
Example C101_ex_shown : shown None (jt "['a',]x") [text "a"] (text "x").
Proof. apply C101_exact; [repeat (apply Forall_cons; [split; discriminate|]); apply Forall_nil|exq]. Qed.
Ltac byt' := repeat (apply Forall_cons; [split; discriminate|]); apply Forall_nil.
Example C101_ex_end : unshown None (jt "['a',") [text "a"] (Some (expected [RBR] [])).
Proof. apply C101_reports with (r := []); [byt'|split; exq]. Qed.
Example C101_ex_separator : unshown None (jt "['a', 1 'b']") [text "a"] (Some (expected [RBR] (jt "'b']"))).
Proof. apply C101_reports with (r := []); [byt'|split; exq]. Qed.
Example C101_ex_start : unshown None (jt " {}") [] (Some (expected [LBR] (text "{}"))).
Proof. apply C101_reports with (r := []); [byt'|split; exq]. Qed.
Example C101_ex_open : unshown (Some 0) (jt "['a' /*") [text "a"] (Some comment_error).
Proof. apply C101_reports with (r := []); [byt'|split; exq]. Qed.
Example C101_ex_beyond : exists out, unshown None (jt "['a', ") out None.
Proof. apply C101_overreads; [byt'|exq]. Qed.
Example C101_ex_bracket_behind : unshown (Some RBR) (jt "['a', ") [text "a"] (Some (expected [RBR] [])).
Proof. apply C101_reports with (r := []); [byt'|split; exq]. Qed.

(** C102. What becomes of each element of the array example11 and example16 are
    given; strings hold the int at their beginning, objects and literals become
    null in example11, objects vanish in example16. *)
Theorem C102_ex11 : forall s ls us r out, reads raws (Some 0) [] s ls r -> Forall2 turned ls us -> array_of us out -> ex11 s = Ok out.
Proof. exact ex11_spec. Qed.
Print Assumptions C102_ex11.
Theorem C102_ex16 : forall s ls us r out, reads raws (Some 0) [] s ls r -> Forall2 mirrored ls us -> array_of (concat us) out -> ex16 s = Ok out.
Proof. exact ex16_spec. Qed.
Print Assumptions C102_ex16.
(** Arrays of numbers *)
Theorem C102_ex11_numbers : forall zs s, Forall (fun z => -2147483648 < z < 2147483647) zs -> put ints zs = Ok s ->
  exists out, ex11 s = Ok out /\ put ints (map (fun z => z + 1) zs) = Ok out.
Proof. exact ex11_ints. Qed.
Print Assumptions C102_ex11_numbers.
Theorem C102_ex16_numbers : forall zs s, Forall (fun z => -2147483648 < z <= 2147483647) zs -> put ints zs = Ok s ->
  exists out, ex16 s = Ok out /\ put ints (map Z.opp zs) = Ok out.
Proof. exact ex16_ints. Qed.
Print Assumptions C102_ex16_numbers.
(** example16 looks at the first two numbers of every inner array. *)
Theorem C102_ex16_short : forall s ls l ls' us r xs, reads raws (Some 0) [] s (ls ++ l :: ls') r -> Forall2 mirrored ls us ->
  heads LBR l -> reads ints (Some 0) [] l xs [] -> (length xs < 2)%nat -> ex16 s = UB.
Proof. exact ex16_short. Qed.
Print Assumptions C102_ex16_short.
(** The comment at the end of example11 promises another output: the numbers of
    inner arrays are not incremented. *)
Theorem C102_comment_refuted : ~ ex11 (jt "[1,'2',[3]]") = Ok (jt "[2,'3',[4]]") /\ ex11 (jt "[1,'2',[3]]") = Ok (jt "[2,'3',[3]]").
Proof. split; [vm_compute; discriminate|exq]. Qed.
Print Assumptions C102_comment_refuted.
(** Neither program is defined on every JSON array. *)
Theorem C102_defined_refuted : ex11 (text "[2147483647]") = UB /\ ex16 (text "[[1]]") = UB /\ ex16 (text "[2147483648]") = UB.
Proof. split; [|split]; exq. Qed.
Print Assumptions C102_defined_refuted.

Example C102_ex_ex16 : ex16 (jt "[ 42, null, 'abc', [1,2], {'x':[3,4]}, 7, false ]") = Ok (jt "[-42,null,'cba',[2,1],-7,true]"). Proof. exq. Qed.
Example C102_ex_ex11 : ex11 (jt "[ 1.5, 'x', '12ab', [ ], {}, false, -1 ]") = Ok (jt "[2,'1','13',[],null,null,0]"). Proof. exq. Qed.
Example C102_ex_broken : ex11 (jt "[1,2") = Ok (jt "[2,3]") /\ ex11 (jt "x") = Ok (jt "[]"). Proof. split; exq. Qed.
Example C102_ex_turned : turned (jt "'12ab'") (jt "'13'").
Proof.
  apply (tn_str _ (text "12ab") 12 (text "13")); [now eexists|unfold reads; exq| |lia|].
  - change (text "12ab") with (text "12" ++ text "ab"). apply le_int; [|right; right; unfold s_digit; cbn; lia|lia]. change (jint (dval [49; 50]) [49; 50]). constructor. constructor; [lia|]. constructor; [unfold s_digit; lia|constructor].
  - change (numeral (dval [49; 51]) [49; 51]). constructor. constructor; [lia|]. constructor; [unfold s_digit; lia|constructor].
Qed.
