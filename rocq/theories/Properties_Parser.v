(** Theorems about wjson::parser (C01-C06, C08-C13, C60). *)
From Verif Require Import Base Parser SpecJson SpecDespace ParserFacts Grammar1 Grammar2
  DespaceProofs ErrPos ParserProps.

(** a document used by the examples: {"a":[1,-2.5e3,"x"],"b":null} with blanks *)
Definition doc1 : buf :=
  [123; 34; 97; 34; 58; 91; 49; 44; 32; 45; 50; 46; 53; 101; 51; 44; 34; 120; 34; 93; 44; 10;
   34; 98; 34; 58; 110; 117; 108; 108; 125].

Ltac exq := vm_compute; reflexivity.

(** C01. Every RFC 8259 value followed by something that does not continue a
    number is accepted; exactly it is consumed; whatever lies at *end and
    whatever the error pointer. *)
Theorem C01_rfc_accept : forall sn v r e, rvalue v -> follow r -> parse sn (v ++ r) e = Ok (r, e).
Proof. exact rfc_accept. Qed.
Print Assumptions C01_rfc_accept.

Example C01_ex_value : rvalue (text "[1, true]").
Proof.
  change (text "[1, true]") with (LBR :: text "1, true" ++ [RBR]). apply rv_arr.
  change (text "1, true") with ([] ++ text "1" ++ [] ++ COMMA :: text " true").
  apply rel_more; try (constructor; fail).
  - apply rv_num. apply (rnum [] [49] [] []); constructor; [lia|constructor].
  - change (text " true") with (text " " ++ text "true" ++ []).
    apply rel_one; [repeat constructor|constructor|constructor].
Qed.
Example C01_ex_follow : follow (text ", 5"). Proof. cbn. unfold s_digit. lia. Qed.
Example C01_ex_run : parse None (doc1 ++ text " }") (Some no_error) = Ok (text " }", Some no_error).
Proof. exq. Qed.

(** C02. Success is equivalent to membership in the explicit grammar [wvalue]. *)
Theorem C02_exact_language : forall sn s r, bytes s ->
  (parse sn s (Some no_error) = Ok (r, Some no_error) <-> exists v, s = v ++ r /\ waccept v r).
Proof. exact parse_exact. Qed.
Print Assumptions C02_exact_language.

Theorem C02_decides : forall c s, bytes s ->
  (exists v r, s = v ++ r /\ waccept v r /\ parse (Some c) s (Some no_error) = Ok (r, Some no_error)) \/
  ((forall v r, s = v ++ r -> ~ waccept v r) /\
   exists j, is_err j = true /\ parse (Some c) s (Some no_error) = Ok ([], Some j)).
Proof. exact parse_decides. Qed.
Print Assumptions C02_decides.

(** RFC JSON is a proper subset of that grammar. *)
Theorem C02_rfc_included : forall v, rvalue v -> wvalue v.
Proof. exact (proj1 rfc_wjson). Qed.
Print Assumptions C02_rfc_included.

Example C02_ex_trailing : parse (Some 0) (text "[1,/*c*/]") (Some no_error) = Ok ([], Some no_error).
Proof. exq. Qed.
Example C02_ex_reject : exists j, is_err j = true /\ parse (Some 0) (text "[1 2]") (Some no_error) = Ok ([], Some j).
Proof. eexists. split; [|exq]. reflexivity. Qed.

(** C03. The recursion counter never runs out, and a larger one changes nothing. *)
Theorem C03_terminates : forall sn f s e, parser_entry sn f -> f s e <> Fuel.
Proof. exact entry_no_fuel. Qed.
Print Assumptions C03_terminates.
Theorem C03_fuel_independent : forall sn n m s e, (length s < n)%nat -> (length s < m)%nat ->
  parse_value_f sn n s e = parse_value_f sn m s e.
Proof. exact parse_value_fuel. Qed.
Print Assumptions C03_fuel_independent.
Theorem C03_despace_terminates : forall s e, exists out e', despace s e = Ok ([], out, e').
Proof. exact despace_total. Qed.
Print Assumptions C03_despace_terminates.
Example C03_ex : parse (Some 0) (text "[[[[[[1]]]]]]") None = Ok ([], None). Proof. exq. Qed.

(** C04 as stated (no read at end at all) is false: "[ " makes parse_array read
    *end. *)
Theorem C04_no_overread_refuted : exists s, bytes s /\ parse None s (Some no_error) = UB.
Proof. exists (text "[ "). split; [apply bytes_of_bool; exq|exq]. Qed.
Print Assumptions C04_no_overread_refuted.
(** What holds: no entry point advances past end or has any other undefined
    behaviour when *end is readable ... *)
Theorem C04_safe_with_readable_end_partial : forall c f s e, parser_entry (Some c) f ->
  exists r e', f s e = Ok (r, e') /\ exists p, s = p ++ r.
Proof. exact entry_safe. Qed.
Print Assumptions C04_safe_with_readable_end_partial.
(** ... the byte found there never influences the returned iterator ... *)
Theorem C04_end_byte_irrelevant_partial : forall sn1 sn2 s e r1 r2 e1 e2, bytes s ->
  parse sn1 s e = Ok (r1, e1) -> parse sn2 s e = Ok (r2, e2) -> r1 = r2.
Proof. exact sentinel_irrelevant. Qed.
Print Assumptions C04_end_byte_irrelevant_partial.
(** ... and texts that are accepted are parsed without reading it. *)
Theorem C04_accepted_no_overread_partial : forall s r e c, bytes s ->
  parse (Some c) s (Some no_error) = Ok (r, Some no_error) -> parse None s e = Ok (r, e).
Proof. exact accept_no_overread. Qed.
Print Assumptions C04_accepted_no_overread_partial.
Example C04_ex : parse (Some RBR) (text "[ ") (Some no_error)
               = Ok ([], Some (mkerr ExpectedOf (Some [RBR]) 0)). Proof. exq. Qed.

(** C05 *)
Theorem C05_in_range : forall sn f s e r e', parser_entry sn f -> f s e = Ok (r, e') -> exists p, s = p ++ r.
Proof. exact entry_range. Qed.
Print Assumptions C05_in_range.
Theorem C05_progress : forall sn s r, parse sn s (Some no_error) = Ok (r, Some no_error) ->
  exists p, p <> [] /\ s = p ++ r.
Proof. exact parse_progress. Qed.
Print Assumptions C05_progress.
Example C05_ex : parse None (text "12,") (Some no_error) = Ok ([COMMA], Some no_error). Proof. exq. Qed.

(** C06 *)
Theorem C06_error_iff_end : forall sn f s r e', parser_entry sn f -> f s (Some no_error) = Ok (r, e') ->
  e' = Some no_error \/ exists j, e' = Some j /\ is_err j = true /\ r = [].
Proof. exact entry_error_end. Qed.
Print Assumptions C06_error_iff_end.
Example C06_ex : parse (Some 0) (text "{""a"" 1}") (Some no_error)
               = Ok ([], Some (mkerr ExpectedOf (Some [COLON]) 1)). Proof. exq. Qed.

(** C07, parser part *)
Theorem C07_parser_sticky : forall sn f s j r e', parser_entry sn f -> is_err j = true ->
  f s (Some j) = Ok (r, e') -> e' = Some j.
Proof. exact entry_sticky. Qed.
Print Assumptions C07_parser_sticky.
Example C07_ex_parser : parse (Some 0) (text "nulx") (Some (mkerr InvalidEnum None 7))
  = Ok ([], Some (mkerr InvalidEnum None 7)). Proof. exq. Qed.

(** C08 *)
Theorem C08_same_position : forall sn f s e1 e2 r e1', parser_entry sn f -> f s e1 = Ok (r, e1') ->
  exists e2', f s e2 = Ok (r, e2').
Proof. exact entry_same. Qed.
Print Assumptions C08_same_position.
Example C08_ex : parse (Some 0) (text "[1]x") None = Ok (text "x", None)
  /\ parse (Some 0) (text "[1]x") (Some (mkerr InvalidEnum None 1)) = Ok (text "x", Some (mkerr InvalidEnum None 1)).
Proof. split; exq. Qed.

(** C09, parser part *)
Theorem C09_parser_tail : forall sn f s r j, parser_entry sn f -> f s (Some no_error) = Ok (r, Some j) ->
  is_err j = true -> 0 <= tail_of j <= dist s.
Proof. exact entry_tail. Qed.
Print Assumptions C09_parser_tail.
Example C09_ex : parse (Some 0) (text "[1 2]") (Some no_error) = Ok ([], Some (mkerr ExpectedOf (Some [RBR]) 2)).
Proof. exq. Qed.

(** C10 *)
Theorem C10_skips_gap : forall s r, parse_space s (Some no_error) = (r, Some no_error) ->
  exists g, s = g ++ r /\ gap g /\ match r with [] => True | c :: _ => ~ s_ws c /\ c <> SLASH end.
Proof. exact space_skip. Qed.
Print Assumptions C10_skips_gap.
Theorem C10_blanks : forall w r e, ws w -> (match r with [] => True | c :: _ => ~ s_ws c /\ c <> SLASH end) ->
  parse_space (w ++ r) e = (r, e).
Proof. exact space_blank. Qed.
Print Assumptions C10_blanks.
Theorem C10_comment : forall b r e, no_close (STAR :: b ++ [STAR]) -> ~ heads STAR r ->
  parse_space (SLASH :: STAR :: b ++ STAR :: SLASH :: r) e = parse_space r e.
Proof. exact space_comment. Qed.
Print Assumptions C10_comment.
Theorem C10_unterminated : forall w u e, ws w -> no_close (STAR :: u) ->
  parse_space (w ++ SLASH :: STAR :: u) e
  = ([], cerr UnexpectedEndFragment (Some (text "Unterminated comment")) 0 e).
Proof. exact space_unterminated. Qed.
Print Assumptions C10_unterminated.
Example C10_ex1 : parse_space (text "  /* a * b */ 1") None = (text "1", None). Proof. exq. Qed.
Example C10_ex2 : no_close (STAR :: text "ab" ++ [STAR]). Proof. cbn. repeat (apply nc_cons; [lia|]). constructor. Qed.
Example C10_ex3 : parse_space (text " /* a ") (Some no_error)
  = ([], Some (mkerr UnexpectedEndFragment (Some (text "Unterminated comment")) 0)). Proof. exq. Qed.

(** C11 *)
Theorem C11_despace_tokens : forall s ts e, layout s ts -> no_err_yet e = true ->
  despace s e = Ok ([], concat ts, e).
Proof. exact despace_tokens. Qed.
Print Assumptions C11_despace_tokens.
Theorem C11_despace_document : forall g1 v g2 e, wvalue v -> gap g1 -> gap g2 -> no_err_yet e = true ->
  exists w, despace (g1 ++ v ++ g2) e = Ok ([], w, e) /\ wvalue w /\ despace w e = Ok ([], w, e).
Proof. exact despace_document. Qed.
Print Assumptions C11_despace_document.
Theorem C11_despace_rfc : forall g1 v g2 e, rvalue v -> gap g1 -> gap g2 -> no_err_yet e = true ->
  exists w, despace (g1 ++ v ++ g2) e = Ok ([], w, e) /\ rvalue w /\ despace w e = Ok ([], w, e).
Proof. exact despace_rfc. Qed.
Print Assumptions C11_despace_rfc.
Example C11_ex : despace (text " [ 1 ,/*x*/ true ] ") None = Ok ([], text "[1,true]", None). Proof. exq. Qed.
Example C11_ex_layout : layout (text " 1 , ") [text "1"; text ","].
Proof.
  change (text " 1 , ") with (text " " ++ text "1" ++ text " , "). apply lay_tok.
  - repeat constructor.
  - apply tk_num, (rnum [] [49] [] []); constructor; [lia|constructor].
  - cbn. unfold s_digit. lia.
  - change (text " , ") with (text " " ++ text "," ++ text " "). apply lay_tok.
    + repeat constructor.
    + constructor. cbn. tauto.
    + cbn. unfold s_digit. lia.
    + constructor. repeat constructor.
Qed.
(** On texts that are no token sequence despace need not be idempotent. *)
Theorem C11_idempotent_everywhere_refuted : exists s w e1 w2 e2,
  despace s (Some no_error) = Ok ([], w, e1) /\ despace w (Some no_error) = Ok ([], w2, e2) /\ w2 <> w.
Proof.
  exists (text "1 ."), (text "1."), (Some no_error), [], (Some (mkerr UnexpectedEndFragment None 0)).
  repeat split; try exq. discriminate.
Qed.
Print Assumptions C11_idempotent_everywhere_refuted.

(** C12 *)
Theorem C12_number_exact : forall s r,
  parse_number s (Some no_error) = (r, Some no_error) <->
  exists n, s = n ++ r /\ rnumber n /\ num_stop n r.
Proof. exact parse_number_exact. Qed.
Print Assumptions C12_number_exact.
Theorem C12_number_longest : forall s n r n' r', s = n ++ r -> rnumber n -> num_stop n r ->
  s = n' ++ r' -> rnumber n' -> (length n' <= length n)%nat.
Proof. exact number_longest. Qed.
Print Assumptions C12_number_longest.
Theorem C12_number_total : forall s, exists r e', parse_number s (Some no_error) = (r, e') /\
  (e' = Some no_error \/ exists j, e' = Some j /\ is_err j = true /\ r = []).
Proof. exact number_total. Qed.
Print Assumptions C12_number_total.
Example C12_ex1 : parse_number (text "01") (Some no_error) = (text "1", Some no_error). Proof. exq. Qed.
Example C12_ex2 : parse_number (text "-1.5E+3]") (Some no_error) = (text "]", Some no_error). Proof. exq. Qed.
Example C12_ex3 : map (fun s => snd (parse_number s (Some no_error))) [text "1."; text "1e"; text "-"; text "-x"]
  = [Some (mkerr UnexpectedEndFragment None 0); Some (mkerr UnexpectedEndFragment None 0);
     Some (mkerr UnexpectedEndFragment None 0); Some (mkerr InvalidNumber None 0)]. Proof. exq. Qed.

(** C13 *)
Theorem C13_string_exact : forall s r, bytes s ->
  (parse_string s (Some no_error) = Ok (r, Some no_error) <-> exists k, s = k ++ r /\ wstring k).
Proof. exact parse_string_exact. Qed.
Print Assumptions C13_string_exact.
Theorem C13_string_decides : forall s, bytes s ->
  (exists k r, s = k ++ r /\ wstring k /\ parse_string s (Some no_error) = Ok (r, Some no_error)) \/
  ((forall k r, s = k ++ r -> ~ wstring k) /\
   exists j, is_err j = true /\ parse_string s (Some no_error) = Ok ([], Some j)).
Proof. exact string_decides. Qed.
Print Assumptions C13_string_decides.
Example C13_ex : parse_string ([QT; 208; 159; BSL; QT; BSL; 117; 48; 48; 52; 49; QT] ++ text ",x") (Some no_error)
  = Ok (text ",x", Some no_error). Proof. exq. Qed.

(** C60 is false: for "trux" the offending byte is at offset 3, the reported
    position is length - tail_of = 1. *)
Theorem C60_where_exact_refuted : exists s k j, offending s k /\
  parse (Some 0) s (Some no_error) = Ok ([], Some j) /\ dist s - tail_of j <> Z.of_nat k.
Proof.
  exists (text "trux"), 3%nat, (mkerr ExpectedOf (Some (text "true")) 3).
  split; [exact trux_offending|]. split; [exq|]. vm_compute. discriminate.
Qed.
Print Assumptions C60_where_exact_refuted.

(** What does hold.  [first_bad s k]: k is the end, or the first byte that rules
    out every completion; there is at most one such k.  Every error of
    end-of-text, string, member, bracket and no-value kind is reported exactly
    there, for every text and whatever lies at *end. *)
Theorem C60_where_partial : forall sn s r j, bytes s -> parse sn s (Some no_error) = Ok (r, Some j) -> is_err j = true ->
  exact_pos j -> first_bad s (Z.to_nat (dist s - tail_of j)).
Proof. exact exact_where. Qed.
Print Assumptions C60_where_partial.
Theorem C60_first_bad_unique : forall s k k', first_bad s k -> first_bad s k' -> k = k'.
Proof. exact first_bad_fun. Qed.
Print Assumptions C60_first_bad_unique.

(** The errors fall into four kinds; the other three point elsewhere, always by
    the same rule: a missing colon is reported one byte behind the offending
    byte, a malformed number at the end of the text, a malformed literal at most
    four bytes before the end of the text. *)
Theorem C60_kinds_partial : forall sn s r j, bytes s -> parse sn s (Some no_error) = Ok (r, Some j) -> is_err j = true ->
  exact_pos j \/ colon_pos j \/ number_pos j \/ literal_pos j.
Proof. exact pos_kinds. Qed.
Print Assumptions C60_kinds_partial.
Theorem C60_colon_partial : forall sn s r j, bytes s -> parse sn s (Some no_error) = Ok (r, Some j) -> is_err j = true ->
  colon_pos j -> exists k, offending s k /\ dist s - tail_of j = Z.of_nat k + 1.
Proof. exact colon_where. Qed.
Print Assumptions C60_colon_partial.
Theorem C60_number_partial : forall sn s r j, bytes s -> parse sn s (Some no_error) = Ok (r, Some j) -> is_err j = true ->
  number_pos j -> tail_of j = 0 /\ exists k, offending s k.
Proof. exact number_where. Qed.
Print Assumptions C60_number_partial.
Theorem C60_literal_partial : forall sn s r j, bytes s -> parse sn s (Some no_error) = Ok (r, Some j) -> is_err j = true ->
  literal_pos j -> 1 <= tail_of j <= 4 /\ exists k, offending s k.
Proof. exact literal_where. Qed.
Print Assumptions C60_literal_partial.

(** "Unexpected end" means exactly that: the text is a beginning of a document. *)
Theorem C60_end_partial : forall sn s r j, bytes s -> parse sn s (Some no_error) = Ok (r, Some j) ->
  code j = UnexpectedEndFragment -> tail_of j = 0 /\ viable s.
Proof. exact end_where. Qed.
Print Assumptions C60_end_partial.

Example C60_ex_bracket : parse (Some 0) (text "[1 2]") (Some no_error) = Ok ([], Some (mkerr ExpectedOf (Some [RBR]) 2)). Proof. exq. Qed.
Example C60_ex_string : parse (Some 0) ([LBR; QT; 97; BSL; 113; QT; RBR]) (Some no_error) = Ok ([], Some (mkerr InvalidString None 3)). Proof. exq. Qed.
Example C60_ex_colon : parse (Some 0) ([LCB; QT; 97; QT; 44; 49; RCB]) (Some no_error) = Ok ([], Some (mkerr ExpectedOf (Some [COLON]) 2)). Proof. exq. Qed.
Example C60_ex_number : parse (Some 0) (text "[1.x]") (Some no_error) = Ok ([], Some (mkerr InvalidNumber None 0)). Proof. exq. Qed.
Example C60_ex_literal : parse (Some 0) (text "[nulx, 1]") (Some no_error) = Ok ([], Some (mkerr ExpectedOf (Some (text "null")) 3)). Proof. exq. Qed.
Example C60_ex_end : parse (Some 0) (text "[1, [2, tr") (Some no_error) = Ok ([], Some (mkerr UnexpectedEndFragment None 0)). Proof. exq. Qed.
