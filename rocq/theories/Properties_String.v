(** Theorems about strings and char arrays (C19-C24). *)
From Verif Require Import Base Parser SpecJson SpecString ParserFacts Grammar1 Grammar2 Out StringS CodecLaws StringProofs.
Ltac exq := vm_compute; reflexivity.
Definition clean := Some no_error.

(** C19.  [str_dom]: every byte is printable ASCII, \b \t \n \f \r, or any
    byte >= 127 except 0xF8..0xFD; at most INT_MAX bytes.  In particular bytes
    that are not valid UTF-8 are covered. *)
Theorem C19_string_roundtrip_partial : forall s, Forall str_char s -> dist s <= 2147483647 ->
  exists b, ser string_codec s = Ok (wr b) /\
  forall sn old r e, des string_codec sn old (b ++ r) e = Ok (s, r, e).
Proof.
  intros s Hd Hn. pose proof (str_dom_bytes s Hd) as Hb.
  destruct (str_ser_runs false (S (length s)) s ltac:(lia) Hb) as (p & q & l & E1 & E2 & E3 & E4 & _).
  assert (q = []) as -> by (destruct E2 as [->|[? _]]; [reflexivity|discriminate]). rewrite app_nil_r in E1. subst p.
  exists (QT :: l ++ [QT]). split; [cbn [ser string_codec]; unfold str_ser; rewrite E4; reflexivity|].
  intros sn old r e. cbn [des string_codec]. unfold string_des.
  change (is_null ((QT :: l ++ [QT]) ++ r)) with false. cbv iota.
  apply dchunks_unser; [|exact Hn]. now apply sruns_dchunks.
Qed.
Print Assumptions C19_string_roundtrip_partial.
(** the general round-trip law used for compositions *)
Theorem C19_string_codec_partial : rt string_codec str_dom.
Proof. exact string_rt. Qed.
Print Assumptions C19_string_codec_partial.
(** 0xC3 0x28 is not UTF-8 and still survives *)
Example C19_ex : let s := [195; 40; 10; 34; 92; 47; 255; 226; 130; 172; 127] in
  str_dom s /\ exists b, ser string_codec s = Ok (wr b) /\
  des string_codec None [7] (b ++ [COMMA]) clean = Ok (s, [COMMA], clean).
Proof.
  cbv zeta. split.
  - split; [|vm_compute; discriminate]. repeat (apply Forall_cons; [unfold str_char, short_ctl; lia|]). apply Forall_nil.
  - exists (QT :: text "\xc3(\n" ++ [92; 34; 92; 92; 92; 47] ++ text "\xff" ++ [226; 130; 172; 127; QT]). split; exq.
Qed.
(** a control character without a short escape comes back as the six
    characters of its escape sequence; a 0xF8 sequence is rejected on reading *)
Theorem C19_string_roundtrip_refuted :
  (exists s b, bytes s /\ dist s = 1 /\ ser string_codec s = Ok (wr b) /\
    des string_codec (Some 0) [] b clean = Ok (text "\u0001", [], clean) /\ s <> text "\u0001") /\
  (exists s b r j, bytes s /\ ser string_codec s = Ok (wr b) /\
    des string_codec (Some 0) [] b clean = Ok (r, [], Some j) /\ is_err j = true).
Proof.
  split.
  - exists [1], (QT :: text "\u0001" ++ [QT]). split; [apply bytes_of_bool; exq|].
    split; [exq|]. split; [exq|]. split; [exq|]. discriminate.
  - exists [248; 128; 128; 128; 128], [QT; 248; 128; 128; 128; 128; QT]. eexists _, _. split; [apply bytes_of_bool; exq|].
    split; [exq|]. split; exq.
Qed.
Print Assumptions C19_string_roundtrip_refuted.

(** C20 *)
Theorem C20_utf8_text_preserved : forall s, utf8 s ->
  exists lit, ser string_codec s = Ok (wr lit) /\ rstring lit /\ smean lit s.
Proof. exact string_ser_rfc. Qed.
Print Assumptions C20_utf8_text_preserved.
Theorem C20_any_bytes : forall s, bytes s ->
  exists l, ser string_codec s = Ok (wr (QT :: l ++ [QT])) /\ xchunks l.
Proof. exact string_ser_any. Qed.
Print Assumptions C20_any_bytes.
Example C20_ex : utf8 (1 :: 226 :: 130 :: 172 :: []) /\
  ser string_codec [1; 226; 130; 172] = Ok (wr (QT :: text "\u0001" ++ [226; 130; 172; QT])).
Proof.
  split; [|exq]. apply (u8_cons 1 [226; 130; 172]); [unfold scalar; lia|].
  apply (u8_cons 8364 []); [unfold scalar; lia|constructor].
Qed.
Example C20_ex_bytes : ser string_codec [255; 0] = Ok (wr (QT :: text "\xff\u0000" ++ [QT])). Proof. exq. Qed.

(** C21 for strings: valid UTF-8 text is written as RFC JSON; other bytes give
    the escape \x which the parser rejects. *)
Theorem C21_string_output_json : jout string_codec utf8.
Proof. exact string_jout. Qed.
Print Assumptions C21_string_output_json.
Theorem C21_string_output_refuted : exists s b r j, bytes s /\ ser string_codec s = Ok (wr b) /\
  parse (Some 0) b clean = Ok (r, Some j) /\ is_err j = true.
Proof.
  exists [255], (QT :: text "\xff" ++ [QT]). eexists _, _. split; [apply bytes_of_bool; exq|].
  split; [exq|]. split; exq.
Qed.
Print Assumptions C21_string_output_refuted.

(** C22.  [smean_bmp]: the RFC meaning of literals without surrogate pairs and
    without control characters (other than \b\t\n\f\r) written as \u. *)
Theorem C22_escapes_decode_partial : forall sn old lit t r e, smean_bmp lit t -> dist t <= 2147483647 ->
  des string_codec sn old (lit ++ r) e = Ok (t, r, e).
Proof. exact string_read_mean. Qed.
Print Assumptions C22_escapes_decode_partial.
(** [smean_bmp] is a restriction of the RFC meaning *)
Theorem C22_bmp_is_rfc : forall lit t, smean_bmp lit t -> smean lit t.
Proof.
  assert (C : forall c t, cmean_bmp c t -> cmean c t) by (destruct 1; [now apply cm_plain|now apply cm_esc|now apply cm_u]).
  assert (L : forall l m, lmean_bmp l m -> lmean l m) by (induction 1; constructor; auto).
  destruct 1; constructor; auto.
Qed.
Print Assumptions C22_bmp_is_rfc.
Example C22_ex : des string_codec None [] (QT :: text "\u20AC\u00E9\u0041\/" ++ [QT; COMMA]) clean
  = Ok ([226; 130; 172; 195; 169; 65; 47], [COMMA], clean). Proof. exq. Qed.
Example C22_ex_mean : smean_bmp (QT :: text "\u20AC\/" ++ [QT]) [226; 130; 172; 47].
Proof.
  apply (sb (text "\u20AC\/") [226; 130; 172; 47]). apply (lb_cons (text "\u20AC") [226; 130; 172] (text "\/") [47]).
  - apply (cb_u 50 48 65 67); unfold s_hex, scalar; cbn; lia.
  - apply (lb_cons (text "\/") [47] [] []); [|constructor]. apply cb_esc. constructor. tauto.
Qed.
(** a surrogate pair decodes to two three-byte sequences instead of U+1F600,
    and \u0001 is not decoded at all *)
Theorem C22_escapes_decode_refuted :
  (exists lit t out, smean lit t /\ des string_codec (Some 0) [] lit clean = Ok (out, [], clean) /\
     out = [237; 160; 189; 237; 184; 128] /\ t = [240; 159; 152; 128]) /\
  (exists lit t out, smean lit t /\ des string_codec (Some 0) [] lit clean = Ok (out, [], clean) /\
     out = text "\u0001" /\ t = [1]).
Proof.
  split; eexists (QT :: _ ++ [QT]), _, _.
  - split.
    + apply sm. apply (lm_cons (text "\uD83D\uDE00") (utf8_encode 128512) [] []); [|constructor].
      apply (cm_pair 68 56 51 68 68 69 48 48); unfold s_hex; cbn; lia.
    + split; [exq|]. split; reflexivity.
  - split.
    + apply sm. apply (lm_cons (text "\u0001") (utf8_encode 1) [] []); [|constructor].
      apply (cm_u 48 48 48 49); unfold s_hex, scalar; cbn; lia.
    + split; [exq|]. split; reflexivity.
Qed.
Print Assumptions C22_escapes_decode_refuted.

(** C23: more than N bytes would be UB in the model; the rest is zero. *)
Theorem C23_char_array_bounds : forall N sn old s e, exists w r e', (length w <= N)%nat /\
  des (chars_codec N) sn old s e = Ok (w ++ repeat 0 (N - length w), r, e').
Proof. intros. destruct (chars_total N sn old s e) as (w & r & e' & A & B & _). exists w, r, e'. auto. Qed.
Print Assumptions C23_char_array_bounds.
(** a text that does not fit is an error *)
Example C23_ex : exists j, des (chars_codec 3) None [] (QT :: text "abcd" ++ [QT]) clean = Ok (text "abc", [], Some j)
  /\ is_err j = true. Proof. eexists. split; exq. Qed.
Example C23_ex_multibyte : exists j, des (chars_codec 3) None [] (QT :: text "ab\u20AC" ++ [QT]) clean
  = Ok ([97; 98; 226], [], Some j) /\ is_err j = true. Proof. eexists. split; exq. Qed.

(** C24 *)
Theorem C24_char_array_roundtrip_partial : forall N t, Z.of_nat N <= 2147483647 -> (length t <= N)%nat -> Forall str_char t ->
  exists ops, ser (chars_codec N) (t ++ repeat 0 (N - length t)) = Ok ops /\
  forall sn old r e, follow r -> no_err_yet e = true ->
    des (chars_codec N) sn old (flat ops ++ r) e = Ok (t ++ repeat 0 (N - length t), r, e).
Proof.
  intros N t HN Hl Hd. destruct (chars_rt N HN (t ++ repeat 0 (N - length t))) as (ops & A & _ & B); [now exists t|].
  exists ops. auto.
Qed.
Print Assumptions C24_char_array_roundtrip_partial.
Example C24_ex : ser (chars_codec 4) [97; 10; 0; 0] = Ok (wr (QT :: text "a\n" ++ [QT])) /\
  des (chars_codec 4) None [] (QT :: text "a\n" ++ [QT]) clean = Ok ([97; 10; 0; 0], [], clean).
Proof. split; exq. Qed.
(** a control character comes back as the beginning of its escape sequence,
    cut to the array, without any error *)
Theorem C24_char_array_roundtrip_refuted : exists N v b, length v = N /\ ser (chars_codec N) v = Ok (wr b) /\
  des (chars_codec N) (Some 0) [] b clean = Ok (text "\u0", [], clean) /\ v <> text "\u0".
Proof.
  exists 3%nat, [1; 0; 0], (QT :: text "\u0001" ++ [QT]). split; [reflexivity|]. split; [exq|]. split; [exq|]. discriminate.
Qed.
Print Assumptions C24_char_array_roundtrip_refuted.
