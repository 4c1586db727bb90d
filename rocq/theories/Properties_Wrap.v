(** Theorems about quoted, raw and pointer descriptions (C48-C51). *)
From Verif Require Import Base Parser SpecJson SpecNum SpecString SpecSeq ParserFacts Grammar1 Grammar2 Out Number StringS Array Object CodecLaws NumberProofs StringProofs
  ArrayProofs ObjectProofs Wrap SpecWrap WrapProofs Properties_Seq Properties_Object.

(** C48.  [qdom]: v is in the domain and all bytes of its text can be escaped *)
Theorem C48_quoted_roundtrip : forall A (J : codec A) reqq dom, rt J dom ->
  rt (quoted_codec J true reqq) (fun v => dom v /\ forall txt, writes J v txt -> str_dom txt).
Proof. exact @quoted_rt. Qed.
Print Assumptions C48_quoted_roundtrip.
(** the text of a description that writes JSON has no unescapable bytes *)
Theorem C48_quoted_json_roundtrip : forall A (J : codec A) reqq dom, rt J dom -> jout J dom ->
  rt (quoted_codec J true reqq) (fun v => dom v /\ forall txt, writes J v txt -> dist txt <= INT_MAX).
Proof. exact @quoted_json_rt. Qed.
Print Assumptions C48_quoted_json_roundtrip.
(** quoting n times *)
Theorem C48_nested_roundtrip : forall A (J : codec A) reqq dom n, rt J dom ->
  rt (nest n reqq J) (fun v => dom v /\ forall txt, writes J v txt -> Forall str_char txt /\ (dist txt + 1) * 6 ^ Z.of_nat n <= INT_MAX).
Proof. exact @nest_rt. Qed.
Print Assumptions C48_nested_roundtrip.
(** SerQ = ReqQ = false: texts that do not start with a quote *)
Theorem C48_unquoted_roundtrip : forall A (J : codec A) dom, rt J dom ->
  rt (quoted_codec J false false) (fun v => dom v /\ not_starting J QT v).
Proof. exact @quoted_plain_rt. Qed.
Print Assumptions C48_unquoted_roundtrip.
Example C48_ex : exists ops, ser (quoted_codec (foo_codec Strict) true true) (mkfoo 1 (-2) (text "x")) = Ok ops /\
  flat ops = QT :: flat_map (fun c => if c =? QT then [BSL; QT] else [c]) (jt "{'a':1,'b':-2,'foo':'x'}") ++ [QT] /\
  des (quoted_codec (foo_codec Strict) true true) None (mkfoo 7 8 (text "old")) (flat ops ++ text ",") clean = Ok (mkfoo 1 (-2) (text "x"), text ",", clean).
Proof. eexists. split; [exq|]. split; exq. Qed.
Example C48_ex_nested : exists ops, ser (nest 2 true string_codec) (jt "a'b") = Ok ops /\
  flat ops = QT :: BSL :: QT :: BSL :: BSL :: BSL :: QT :: (text "a" ++ BSL :: BSL :: BSL :: BSL :: BSL :: BSL :: BSL :: QT :: text "b" ++ BSL :: BSL :: BSL :: QT :: BSL :: QT :: [QT]) /\
  des (nest 2 true string_codec) None [] (flat ops) clean = Ok (jt "a'b", [], clean).
Proof. eexists. split; [exq|]. split; exq. Qed.
(** without SerQ a string is written unquoted twice and read as quoted text *)
Theorem C48_unquoted_refuted : exists v ops v' e', ser (quoted_codec string_codec false false) v = Ok ops /\ str_dom v /\
  des (quoted_codec string_codec false false) None [] (flat ops) clean = Ok (v', [], e') /\ has_err e' = true.
Proof.
  exists (text "abc"). eexists _, _, _. split; [exq|]. split; [split; [change (text "abc") with [97; 98; 99]; repeat constructor; unfold str_char; lia|cbn; unfold INT_MAX; lia]|]. split; [exq|exq].
Qed.
Print Assumptions C48_unquoted_refuted.

(** C49: trailing garbage inside the quotes is accepted *)
Theorem C49_trailing_garbage_refuted : des (quoted_codec int32 true true) None 0 (jt "'1 garbage'") clean = Ok (1, [], clean).
Proof. exq. Qed.
Print Assumptions C49_trailing_garbage_refuted.
(** what is reported: every error of the inner description on the decoded text,
    located inside the literal *)
Theorem C49_inner_error_partial : forall A (J : codec A) serq reqq sn old lit txt r v r2 k e, smean_bmp lit txt -> dist txt <= INT_MAX ->
  des J (Some 0) old txt (Some no_error) = Ok (v, r2, Some k) -> is_err k = true -> is_err e = false ->
  des (quoted_codec J serq reqq) sn old (lit ++ r) (Some e) = Ok (v, [], Some (mkerr (code k) None (dist r + tail_of k + 1))).
Proof.
  intros A J serq reqq sn old lit txt r v r2 k e Hm Hl Hd Hk He.
  assert (K : quoted_des1 J sn old (lit ++ r) (Some e) = Ok (v, [], Some (mkerr (code k) None (dist r + tail_of k + 1)))).
  { unfold quoted_des1. pose proof (string_read_mean sn [] lit txt r (Some e) Hm Hl) as H. cbn [des string_codec] in H. rewrite H. cbn [bind].
    unfold has_err, no_err_yet. rewrite He. cbn [negb]. rewrite Hd. cbn [bind]. now rewrite Hk. }
  cbn [des quoted_codec]. unfold quoted_des. destruct reqq; [exact K|]. destruct Hm. exact K.
Qed.
Print Assumptions C49_inner_error_partial.
Example C49_ex : des (quoted_codec (foo_codec Strict) true true) None foo0 (jt "'{}x'") clean = Ok (foo0, [], clean) /\
  exists j, des (quoted_codec int32 true true) None 0 (jt "'x'") clean = Ok (0, [], Some j) /\ is_err j = true.
Proof. split; [exq|]. eexists. split; [exq|exq]. Qed.

(** C50 *)
Theorem C50_raw_exact : forall sn old s v r, bytes s ->
  (des raw_codec sn old s clean = Ok (v, r, clean) <-> s = v ++ r /\ waccept v r).
Proof. exact raw_exact. Qed.
Print Assumptions C50_raw_exact.
Theorem C50_iterator_pair_exact : forall sn old s v r, bytes s ->
  (des ipair_codec sn old s clean = Ok (v, r, clean) <-> s = v ++ r /\ waccept v r).
Proof. exact raw_exact. Qed.
Print Assumptions C50_iterator_pair_exact.
(** on any input and for any outcome the captured bytes are those before the returned iterator *)
Theorem C50_raw_capture : forall sn old s e v r e', des raw_codec sn old s e = Ok (v, r, e') -> s = v ++ r.
Proof. exact raw_capture. Qed.
Print Assumptions C50_raw_capture.
Theorem C50_raw_json : forall v, rvalue v -> exists ops, ser raw_codec v = Ok ops /\ flat ops = v /\
  forall sn old r e, follow r -> des raw_codec sn old (v ++ r) e = Ok (v, r, e).
Proof.
  intros v Hv. exists (wr v). destruct (rvalue_head v Hv) as (c & t & E & _). split; [cbn [ser raw_codec]; unfold raw_ser; now rewrite E|]. split; [apply flat_wr|].
  intros sn old r e Hf. apply raw_read. apply wvalue_follow; [now apply rfc_wjson|exact Hf].
Qed.
Print Assumptions C50_raw_json.
Theorem C50_raw_roundtrip : rt raw_codec wvalue.
Proof. exact raw_rt. Qed.
Print Assumptions C50_raw_roundtrip.
Theorem C50_raw_quoted_roundtrip : forall b, rt (rquoted_codec b b) wvalue.
Proof. exact rquoted_rt. Qed.
Print Assumptions C50_raw_quoted_roundtrip.
Example C50_ex : des raw_codec None (text "old") (jt "{'a':[1, 2]} ,3") clean = Ok (jt "{'a':[1, 2]}", text " ,3", clean) /\
  des (rquoted_codec true true) None [] (jt "'[1,2]' x") clean = Ok (text "[1,2]", text " x", clean).
Proof. split; exq. Qed.
(** an empty raw value is written as an empty string *)
Example C50_ex_empty : exists ops, ser raw_codec [] = Ok ops /\ flat ops = jt "''".
Proof. eexists. split; [exq|]. exq. Qed.

(** C51 *)
Theorem C51_pointer_roundtrip : forall A (J : codec A) d0 dom, rt J dom ->
  rt (ptr_codec J d0) (fun o => match o with None => True | Some v => dom v /\ not_starting J 110 v end).
Proof. exact @ptr_rt. Qed.
Print Assumptions C51_pointer_roundtrip.
Example C51_ex : exists ops, ser (ptr_codec (foo_codec Strict) foo0) (Some (mkfoo 1 (-2) (text "x"))) = Ok ops /\
  des (ptr_codec (foo_codec Strict) foo0) None None (flat ops) clean = Ok (Some (mkfoo 1 (-2) (text "x")), [], clean).
Proof. eexists. split; [exq|]. exq. Qed.
Theorem C51_malformed_null_refuted : forall A (J : codec A) d0 sn old e,
  des (ptr_codec J d0) sn old (text "nope, really") e = Ok (None, text ", really", e) /\ des (ptr_codec J d0) sn old (text "n") e = Ok (None, [], e) /\
  des (ptr_codec J d0) sn old [] e = Ok (None, [], e).
Proof. intros. repeat split. Qed.
Print Assumptions C51_malformed_null_refuted.
Theorem C51_null : forall A (J : codec A) d0, null_reads (ptr_codec J d0) (fun _ => None).
Proof. exact @ptr_null. Qed.
Print Assumptions C51_null.
(** a pointer to a pointer does not round-trip: the inner null reads as an outer null *)
Theorem C51_nested_null_refuted : exists ops, ser (ptr_codec (ptr_codec int32 0) None) (Some None) = Ok ops /\
  des (ptr_codec (ptr_codec int32 0) None) None None (flat ops) clean = Ok (None, [], clean).
Proof. eexists. split; [exq|]. exq. Qed.
Print Assumptions C51_nested_null_refuted.

(** laws of these descriptions *)
Theorem C59_quoted : forall A (J : codec A) serq reqq, dlaw (des J) -> dlaw (des (quoted_codec J serq reqq)).
Proof. exact @quoted_dlaw. Qed.
Theorem C59_raw_quoted : forall serq reqq, dlaw (des (rquoted_codec serq reqq)).
Proof. intros. apply rquoted_dlaw. Qed.
Theorem C59_raw : dlaw (des raw_codec).
Proof. exact raw_dlaw. Qed.
Theorem C59_pointer : forall A (J : codec A) d0, dlaw (des J) -> dlaw (des (ptr_codec J d0)).
Proof. exact @ptr_dlaw. Qed.
Theorem C59_quoted_safe : forall A (J : codec A) serq reqq, dsafe (des J) -> dsafe (des (quoted_codec J serq reqq)).
Proof. exact @quoted_dsafe. Qed.
Theorem C59_raw_quoted_safe : forall serq reqq, dsafe (des (rquoted_codec serq reqq)).
Proof. intros. apply rquoted_dsafe. Qed.
Theorem C59_raw_safe : dsafe (des raw_codec).
Proof. exact raw_dsafe. Qed.
Theorem C59_pointer_safe : forall A (J : codec A) d0, dsafe (des J) -> dsafe (des (ptr_codec J d0)).
Proof. exact @ptr_dsafe. Qed.
Theorem C21_quoted : forall A (J : codec A) serq reqq dom, jout J dom -> jout (quoted_codec J serq reqq) dom.
Proof. exact @quoted_jout. Qed.
Theorem C21_pointer : forall A (J : codec A) d0 dom, jout J dom -> jout (ptr_codec J d0) (fun o => match o with None => True | Some v => dom v end).
Proof. exact @ptr_jout. Qed.
Theorem C21_raw : jout raw_codec (fun v => v = [] \/ rvalue v).
Proof. exact raw_jout. Qed.
(** raw_quoted output need not be JSON *)
Theorem C21_raw_quoted_refuted : exists v ops, rvalue v /\ ser (rquoted_codec true true) v = Ok ops /\ flat ops = jt "''a''" /\
  exists e', parse None (flat ops) clean = Ok (jt "a''", e').
Proof.
  exists (jt "'a'"). eexists. split; [apply rv_str, (rstr (text "a")); apply (rcs_cons [97] []); [apply (rc_plain 97); unfold scalar; lia|constructor]|].
  split; [exq|]. split; [exq|]. eexists. exq.
Qed.
Print Assumptions C59_quoted.
Print Assumptions C59_raw_quoted.
Print Assumptions C59_raw.
Print Assumptions C59_pointer.
Print Assumptions C59_quoted_safe.
Print Assumptions C59_raw_quoted_safe.
Print Assumptions C59_raw_safe.
Print Assumptions C59_pointer_safe.
Print Assumptions C21_quoted.
Print Assumptions C21_pointer.
Print Assumptions C21_raw.
Print Assumptions C21_raw_quoted_refuted.

(** C52: pointers and raw_quoted write differently through a plain char* *)
Theorem C52_pointer_null_refuted : exists ops, ser (ptr_codec int32 0) None = Ok ops /\
  forall m a, fst (ptr_run ops m a) a = m a /\ fst (ptr_run ops m a) (a + 1) = Some 110.
Proof.
  eexists. split; [reflexivity|]. intros m a. cbn. unfold upd. split.
  - replace (a =? a + 1 + 1 + 1 + 1) with false by lia. replace (a =? a + 1 + 1 + 1) with false by lia. replace (a =? a + 1 + 1) with false by lia. now replace (a =? a + 1) with false by lia.
  - replace (a + 1 =? a + 1 + 1 + 1 + 1) with false by lia. replace (a + 1 =? a + 1 + 1 + 1) with false by lia. replace (a + 1 =? a + 1 + 1) with false by lia. now rewrite Z.eqb_refl.
Qed.
Print Assumptions C52_pointer_null_refuted.
Theorem C52_raw_quoted_refuted : exists ops, ser (rquoted_codec true true) (text "12") = Ok ops /\ flat ops = jt "'12'" /\
  forall m a, snd (ptr_run ops m a) = a + 2 /\ fst (ptr_run ops m a) (a + 1) = Some QT.
Proof.
  eexists. split; [reflexivity|]. split; [reflexivity|]. intros m a. cbn. unfold upd. split; [lia|]. now rewrite Z.eqb_refl.
Qed.
Print Assumptions C52_raw_quoted_refuted.
Theorem C52_quoted : forall A (J : codec A) reqq dom, bout J dom -> wout (quoted_codec J true reqq) dom.
Proof. exact @quoted_wout. Qed.
Theorem C52_quoted_plain : forall A (J : codec A) reqq dom, wout J dom -> wout (quoted_codec J false reqq) dom.
Proof. exact @quoted_plain_wout. Qed.
Theorem C52_raw : wout raw_codec (fun _ => True).
Proof. exact raw_wout. Qed.
Print Assumptions C52_quoted.
Print Assumptions C52_quoted_plain.
Print Assumptions C52_raw.
