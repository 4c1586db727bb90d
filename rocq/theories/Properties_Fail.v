(** C83, C84: which texts the typed readers refuse, what they report and what
    they leave in the target. *)
From Verif Require Import Base Parser SpecJson SpecNum SpecString SpecEnum Grammar2 Out Number StringS Array Object Enum Float Wrap TimeSize CodecLaws ArrayProofs WrapProofs
  SpecReport SpecExact ExactProofs SpecRefuse RefuseProofs SpecFail FailProofs FailWrapProofs Properties_Seq Properties_Object Properties_Misc Properties_Refuse.

(** ---- C83 ---- *)
(** every typed read stores a value, reports a failure or runs into undefined behaviour *)
Theorem C83_total : forall A (c : codec A) sn old s, dlaw (des c) ->
  (exists v r, reads c sn old s v r) \/ (exists v r j, faults c sn old s v r j) \/ des c sn old s clean = UB.
Proof. exact @des_trichotomy. Qed.
Print Assumptions C83_total.
Theorem C83_string : forall sn old s v r j, bytes s -> (faults string_codec sn old s v r j <-> string_faults s v r j).
Proof. exact string_fails. Qed.
Print Assumptions C83_string.
Theorem C83_chars : forall N sn old s v r j, bytes s -> (faults (chars_codec N) sn old s v r j <-> chars_faults N s v r j).
Proof. exact chars_fails. Qed.
Print Assumptions C83_chars.
(** strings are always read or refused *)
Theorem C83_string_total : forall sn old s, bytes s -> (exists v r, reads string_codec sn old s v r) \/ exists v r j, string_faults s v r j.
Proof.
  intros sn old s Hb. destruct (string_des_clean sn old s Hb) as [H|(v & r & j & Hj & H)]; [now left|]. right. exists v, r, j. apply (string_fails sn old); [exact Hb|]. now split.
Qed.
Print Assumptions C83_string_total.
Theorem C83_int : forall t sn old s v r j, faults (int_codec t) sn old s v r j <-> int_faults old s v j /\ r = [].
Proof. exact int_fails. Qed.
Print Assumptions C83_int.
Theorem C83_bool : forall sn old s v r j, faults bool_codec sn old s v r j <-> bool_faults old s v j /\ r = [].
Proof. exact bool_fails. Qed.
Print Assumptions C83_bool.
(** got: the conversion applied to at most bufsize bytes, whatever comes behind them *)
Theorem C83_float : forall A R (fmt : A -> buf) scan zero sn old s v r j, faults (float_codec R fmt scan zero) sn old s v r j <->
  float_faults (fun s => scan (cstr (firstn (bufsize R) s))) zero old s v j /\ r = [].
Proof. exact @float_fails. Qed.
Print Assumptions C83_float.
Theorem C83_enum : forall mode L sn old s v r j, faults (enum_codec mode L) sn old s v r j <-> enum_faults mode L s j /\ v = 0 /\ r = [].
Proof. exact enum_fails. Qed.
Print Assumptions C83_enum.

Ltac faultq := split; [reflexivity|exq].
(** A bad digit counts as 0 and reading goes on behind the closing quote. *)
Example C83_ex_digit : faults string_codec None (text "old") (jt "'a\u00g1b' ,") (jt "a\u00g1b") (text " ,") (mkerr InvalidString None 0) /\
  faults string_codec None (text "old") (jt "'a\xg1b' ,") (text "a" ++ [1] ++ text "b") (text " ,") (mkerr InvalidString None 0).
Proof. split; faultq. Qed.
Example C83_ex_digit_spec : str_faults 2147483647 (jt "'a\xg1b' ,") (text "a" ++ [1] ++ text "b") (text " ,") bad_digit.
Proof.
  apply (sf_digit 2147483647 (text "a\xg1b")). apply (ls_chunk _ (text "a") (text "a") false (text "\xg1b") ([1] ++ text "b") true); [apply lk_good, ck_plain; cbn; lia|cbn; lia|].
  apply (ls_chunk _ (text "\xg1") [1] true (text "b") (text "b") false); [apply (lk_x 103 49); reflexivity|cbn; lia|].
  apply (ls_chunk _ (text "b") (text "b") false [] [] false); [apply lk_good, ck_plain; cbn; lia|cbn; lia|apply ls_nil].
Qed.
Example C83_ex_string : faults string_codec None (text "old") (jt "'ab\q' ,") (text "ab") [] (mkerr InvalidString None 4) /\
  faults string_codec None (text "old") (jt "'ab") (text "ab") [] (mkerr UnexpectedEndFragment None 0) /\
  faults string_codec None (text "old") (text "nuts") [] [] (mkerr ExpectedOf (Some (text "null")) 2) /\
  faults string_codec None (text "old") (QT :: 97 :: 228 :: [189]) (97 :: 228 :: [189]) [] (mkerr UnexpectedEndFragment None 0).
Proof. repeat split; exq. Qed.
(** what does not fit *)
Example C83_ex_chars : faults (chars_codec 4) None [] (jt "'abcdef'x") (text "abcd") [] (mkerr ExpectedOf (Some [QT]) 4) /\
  faults (chars_codec 4) None [] (jt "'abc€'x") (text "abc" ++ [226]) [] (mkerr ExpectedOf (Some [QT]) 4) /\
  faults (chars_codec 4) None [] (jt "'abc\u20ac'x") (text "abc" ++ [226]) [] (mkerr InvalidString None 2).
Proof. repeat split; exq. Qed.
Example C83_ex_scalars : faults int32 None 7 (text "-x1") 0 [] (mkerr InvalidNumber None 2) /\ faults bool_codec None true (text "no") false [] (mkerr ExpectedOf (Some (text "null")) 1) /\
  faults bool_codec None false (text "tree") true [] (mkerr ExpectedOf (Some (text "true")) 2) /\
  faults (dbl 2) None (text "old") (text "1.x") (text "1.x") [] (mkerr InvalidNumber None 0) /\ faults (dbl 2) None (text "old") (text "x") (text "old") [] (mkerr InvalidNumber None 1) /\
  faults (enum_codec Strict [(text "a", 3)]) None 5 (jt " 'b'x") 0 [] (mkerr InvalidEnum None 3).
Proof. repeat split; exq. Qed.

(** ---- C84 ---- *)
Theorem C84_pointer : forall A (c : codec A) d0 sn old s v r j, faults (ptr_codec c d0) sn old s v r j <->
  exists x, v = Some x /\ s <> [] /\ ~ heads 110 s /\ faults c sn d0 s x r j.
Proof. exact @ptr_fails. Qed.
Print Assumptions C84_pointer.
(** a failure inside a quoted value is reported as if the contents stood in the text unescaped, without expected text *)
Theorem C84_quoted : forall A (c : codec A) serq reqq sn old s v r j, bytes s -> (faults (quoted_codec c serq reqq) sn old s v r j <->
  (reqq = true \/ heads QT s) /\ r = [] /\ (
    (v = old /\ exists b r', string_faults s b r' j) \/
    exists b r' q k, reads string_codec sn [] s b r' /\ faults c (Some 0) old b v q k /\ j = mkerr (code k) None (Z.of_nat (length r') + tail_of k + 1)) \/
  reqq = false /\ ~ heads QT s /\ faults c sn old s v r j).
Proof. exact @quoted_fails. Qed.
Print Assumptions C84_quoted.
Theorem C84_raw_value : forall sn old s v r j, bytes s -> (faults raw_codec sn old s v r j <-> fails sn s (Some j) /\ v = s /\ r = []).
Proof. exact raw_fails. Qed.
Print Assumptions C84_raw_value.
Theorem C84_raw_quoted : forall serq reqq sn old s v r j, bytes s -> (faults (rquoted_codec serq reqq) sn old s v r j <-> rquoted_faults reqq sn old s v j /\ r = []).
Proof. exact rquoted_fails. Qed.
Print Assumptions C84_raw_quoted.
Theorem C84_member_value : forall A T (c : codec A) (get : T -> A) set sn old s v r j,
  faults (member_value_codec get set c) sn old s v r j <-> exists x, faults c sn (get old) s x r j /\ v = set old x.
Proof. intros. apply member_value_fails. Qed.
Print Assumptions C84_member_value.
Theorem C84_time : forall t fr sn old s v r j, ity_ok t -> (faults (time_codec t fr) sn old s v r j <-> time_faults t fr sn old s v j /\ r = []).
Proof. intros t fr sn old s v r j Ht. now apply time_fails. Qed.
Print Assumptions C84_time.
Theorem C84_size : forall t metric sn old s v r j, ity_ok t -> bytes s -> (faults (size_codec t metric) sn old s v r j <-> size_faults sn old s v r j).
Proof. exact size_fails. Qed.
Print Assumptions C84_size.
Example C84_ex_wrap : faults (ptr_codec int32 0) None None (text "x") (Some 0) [] (mkerr InvalidNumber None 1) /\
  faults (quoted_codec (chars_codec 2) true true) None (text "zz") (jt "'\'abc\'',") (text "ab") [] (mkerr ExpectedOf None 4) /\
  faults raw_codec None [] (text "[1,") (text "[1,") [] (mkerr ExpectedOf (Some [RBR]) 0) /\
  faults (rquoted_codec true true) None (text "o") (jt "'1x'") (text "1") [] (mkerr ExpectedOf (Some [QT]) 2) /\
  faults (rquoted_codec true true) None (text "o") (jt "'1") (text "1") [] (mkerr UnexpectedEndFragment None 0).
Proof. repeat split; exq. Qed.
Example C84_ex_time : faults (time_codec i64 1000) None 5 (jt "'1h2m-x'") 3720000 [] (mkerr InvalidNumber None 2) /\ faults (time_codec i64 1000) None 5 (text "[]") 0 [] (mkerr InvalidString None 0).
Proof. repeat split; exq. Qed.
Example C84_ex_time_spec : parts_fail i64 1000 None 0 (jt "1h-x'") 3600000 (mkerr InvalidNumber None 2).
Proof.
  assert (T : time_faults i64 1000 None 5 (jt "'1h-x'") 3600000 (mkerr InvalidNumber None 2)).
  { apply (C84_time i64 1000 None 5 (jt "'1h-x'") 3600000 []); [unfold ity_ok; cbn; lia|faultq]. }
  inversion T as [|? N|? ? ? ? ? N|? ? ? P]; [exfalso; apply N; eexists; reflexivity|exact P].
Qed.
Example C84_ex_size : faults (size_codec i64 1024) None 5 (jt "'MiB',") 0 (text ",") (mkerr InvalidNumber None 3) /\ faults (size_codec i64 1024) None 5 (jt "'3QB',") 0 [] (mkerr InvalidNumber None 0) /\
  faults (size_codec i64 1024) None 5 (jt "'\x3g',") 0 (text ",") (mkerr InvalidString None 0).
Proof. repeat split; exq. Qed.
