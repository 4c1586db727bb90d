(** C82: which texts the parser refuses, and what it reports. *)
From Verif Require Import Base Parser SpecJson SpecNum SpecReport SpecExact SpecRefuse Grammar2 ExactProofs RefuseProofs Properties_Seq Properties_Object.

(** ---- C82 ---- *)
(** parser::parse fails in the way o exactly when o is described by [fails]:
    the code, the expected text and the position of every report. *)
Theorem C82_parse : forall sn s o, bytes s -> (ends o (parse sn s clean) <-> fails sn s o).
Proof. exact parse_fails. Qed.
Print Assumptions C82_parse.
(** every text is either a value with something behind it or described by [fails], never both *)
Theorem C82_total : forall sn s, bytes s -> (exists r, takes_value s r) \/ (exists o, fails sn s o).
Proof. exact parse_total. Qed.
Print Assumptions C82_total.
Theorem C82_exclusive : forall sn s r o, bytes s -> takes_value s r -> fails sn s o -> False.
Proof. exact parse_exclusive. Qed.
Print Assumptions C82_exclusive.
Theorem C82_unique : forall sn s o o', bytes s -> fails sn s o -> fails sn s o' -> o = o'.
Proof. exact fails_det. Qed.
Print Assumptions C82_unique.
(** any error object: an earlier report is kept *)
Theorem C82_reports : forall sn s j e, bytes s -> fails sn s (Some j) ->
  parse sn s e = Ok ([], if no_err_yet e then told e j else e).
Proof. exact parse_reports. Qed.
Print Assumptions C82_reports.
(** exactly the texts on which an unreadable byte behind the input is read *)
Theorem C82_overreads : forall sn s e, bytes s -> (parse sn s e = UB <-> fails sn s None).
Proof. exact parse_overreads. Qed.
Print Assumptions C82_overreads.

(** the parts, called directly *)
Theorem C82_null : forall s j, pends j (parse_null s clean) <->
  s = [] /\ j = unexpected_end \/ (exists c t, s = c :: t /\ c <> 110 /\ j = mkerr InvalidNull None 0) \/ lit_refuses (text "null") s j.
Proof. exact null_refuses. Qed.
Print Assumptions C82_null.
Theorem C82_bool : forall s j, pends j (parse_bool s clean) <->
  s = [] /\ j = unexpected_end \/ (exists c t, s = c :: t /\ c <> 116 /\ c <> 102 /\ j = mkerr InvalidBool None 0) \/
  lit_refuses (text "true") s j \/ lit_refuses (text "false") s j.
Proof. exact bool_refuses. Qed.
Print Assumptions C82_bool.
Theorem C82_number : forall s j, pends j (parse_number s clean) <-> num_refuses s j.
Proof. exact number_refuses. Qed.
Print Assumptions C82_number.
Theorem C82_integer : forall s j, pends j (parse_integer s clean) <->
  exists m s', s = m ++ s' /\ ropt_minus m /\ (m = [] -> ~ heads MINUS s') /\ no_digit s' j.
Proof. exact integer_refuses. Qed.
Print Assumptions C82_integer.
Theorem C82_string : forall s j, bytes s -> (ends (Some j) (parse_string s clean) <-> str_refuses s j).
Proof. exact string_refuses. Qed.
Print Assumptions C82_string.
Theorem C82_hex : forall s j, pends j (parse_hex s clean) <-> misses s_hex 4 s j.
Proof. exact hex4_misses. Qed.
Print Assumptions C82_hex.
Theorem C82_utf8 : forall c t j, bytes (c :: t) -> (pends j (parse_utf8 c t clean) <->
  (128 <= c /\ (forall n, ~ wlead c n) /\ j = bad_string (c :: t)) \/ exists n, wlead c n /\ misses s_cont n t j).
Proof. exact utf8_misses. Qed.
Print Assumptions C82_utf8.
Theorem C82_member : forall sn s o, bytes s -> (ends o (parse_member (parse_value sn) s clean) <->
  (exists j, o = Some j /\ member_refuses s j) \/
  (exists s3 s4 s5, takes_string s s3 /\ after_gap s3 (COLON :: s4) /\ after_gap s4 s5 /\ s5 <> [] /\ fails sn s5 o)).
Proof. exact member_fails_at. Qed.
Print Assumptions C82_member.
Theorem C82_member_accepts : forall sn s r, bytes s -> (parse_member (parse_value sn) s clean = Ok (r, clean) <-> takes_member s r).
Proof. exact member_takes_at. Qed.
Print Assumptions C82_member_accepts.
(** parse_object: what does not begin with a brace and is not [ gap ] is reported
    at its beginning, everything else as by parse *)
Theorem C82_object : forall sn s o, bytes s -> (ends o (parse_object sn (parse_value sn) s clean) <->
  heads LCB s /\ fails sn s o \/
  ~ heads LCB s /\ ~ (exists t r, s = LBR :: t /\ after_gap t (RBR :: r)) /\ o = Some (expected [LCB] s)).
Proof. exact object_fails_at. Qed.
Print Assumptions C82_object.
Theorem C82_array : forall sn s o, bytes s -> (ends o (parse_array sn (parse_value sn) s clean) <->
  heads LBR s /\ fails sn s o \/ ~ heads LBR s /\ o = Some (expected [LBR] s)).
Proof. exact array_fails_at. Qed.
Print Assumptions C82_array.

(** Examples: reports computed by the model and derived from the description. *)
Ltac byt := repeat constructor; cbn; lia.
Ltac viap := apply C82_parse; [byt|cbn; split; reflexivity].
Example C82_ex_literal : fails None (jt "[1, tru ]") (Some (mkerr ExpectedOf (Some (text "true")) 3)).
Proof. viap. Qed.
Example C82_ex_literal_derived : fails None (jt "[1, tru ]") (Some (mkerr ExpectedOf (Some (text "true")) 3)).
Proof.
  apply f_elem with (jt " tru ]") (jt "tru ]").
  - apply sk_more with (jt "1, tru ]") (jt ", tru ]") (jt " tru ]"); [now apply space_exact| |now apply space_exact|constructor].
    apply (parse_exact None); [byt|reflexivity].
  - exists [32]. split; [reflexivity|]. split; [constructor; [now left|constructor]|]. cbn; split; [unfold s_ws; lia|]. split; discriminate.
  - discriminate.
  - intros (? & [=]).
  - apply f_lit with (text "true"); [right; now left|]. exists (text "tru"), (text "e"). repeat split; try discriminate. right. exists 32, (text "]"). repeat split. intros (? & [=]).
Qed.
Example C82_ex_colon : fails None (jt "{'a' 1}") (Some (expected [COLON] (text "}"))) /\
  fails None (jt "{'a':[{'b'") (Some unexpected_end) /\ fails None (jt "{'a':'\x'}") (Some (bad_string (jt "x'}"))) /\
  fails None (jt "[1 2]") (Some (expected [RBR] (jt "2]"))) /\ fails None (jt "[1.e]") (Some (mkerr InvalidNumber None 0)) /\
  fails None (jt "{/*") (Some comment_error) /\ fails None (jt "?") (Some (mkerr InvalidJSON None 1)).
Proof. repeat split; viap. Qed.
Example C82_ex_end : fails None (jt "[ ") None /\ fails (Some 0) (jt "[ ") (Some (mkerr InvalidJSON None 0)) /\
  fails (Some RBR) (jt "[ ") (Some (expected [RBR] [])) /\ fails None (jt "{ ") (Some (expected [RCB] [])) /\ fails None (jt "[/*") None.
Proof. repeat split; apply C82_parse; try byt; cbn; repeat split. Qed.
Example C82_ex_direct : ends (Some (expected [LCB] (jt "[1]"))) (parse_object None (parse_value None) (jt "[1]") clean) /\
  ends (Some (expected [LBR] (jt "{}"))) (parse_array None (parse_value None) (jt "{}") clean) /\
  parse_object None (parse_value None) (jt "[ ]") clean = Ok ([], clean) /\
  pends (mkerr InvalidNull None 0) (parse_null (text "x") clean) /\ misses s_hex 4 (text "12g4") (bad_string (text "g4")).
Proof.
  repeat (split; [now repeat split|]). exists (text "12"). split; [cbn; lia|]. split; [vm_compute text; unfold s_hex, s_digit; repeat apply Forall_cons; try apply Forall_nil; lia|].
  right. exists 103, (text "4"). split; [reflexivity|]. split; [unfold s_hex, s_digit; lia|reflexivity].
Qed.
