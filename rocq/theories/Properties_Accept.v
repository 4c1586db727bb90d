(** What texts the typed readers accept, compared with the parser. *)
From Verif Require Import Base Parser SpecJson ParserFacts Grammar1 Grammar2 ParserProps Out Number StringS Array Unord Object ObjectArray Enum Wrap TimeSize Float
  CodecLaws Desc DescProofs SpecAccept AcceptProofs Misc Properties_Seq Properties_Object Properties_Desc.

(** C70. Reading through a description without reporting an error consumed a
    value of the language parser::parse recognises, provided the consumed text
    has none of the quirks [Q] of the leaves used. *)
Theorem C70_accepts : forall Q A (c : codec A) sn old s v r j, sdesc Q A c -> bytes s ->
  des c sn old s (Some no_error) = Ok (v, r, Some j) -> is_err j = false ->
  exists p, s = p ++ r /\ (tame Q p -> exists w q, p = w ++ q /\ ws w /\ wvalue q).
Proof.
  intros Q A c sn old s v r j Hc Hs E Hj. destruct (proj2 (sdesc_acc Q A c Hc) _ _ _ _ _ _ _ Hs E) as (_ & p & -> & Hp); [now exists j|].
  exists p. split; [reflexivity|]. intros T. destruct (Hp T) as (w & q & -> & (Hw & _) & Hq). now exists w, q.
Qed.
(** Hence validating what was consumed finds nothing wrong. *)
Theorem C70_parse : forall Q A (c : codec A) sn old s v r j, sdesc Q A c -> bytes s ->
  des c sn old s (Some no_error) = Ok (v, r, Some j) -> is_err j = false ->
  exists p, s = p ++ r /\ (tame Q p -> exists w q, p = w ++ q /\ ws w /\
    forall sn' r' e, follow r' -> parse sn' (q ++ r') e = Ok (r', e)).
Proof.
  intros Q A c sn old s v r j Hc Hs E Hj. destruct (C70_accepts Q A c sn old s v r j Hc Hs E Hj) as (p & Ep & Hp). exists p. split; [exact Ep|].
  intros T. destruct (Hp T) as (w & q & -> & Hw & Hq). exists w, q. split; [reflexivity|]. split; [exact Hw|]. intros sn' r' e Hf.
  apply parse_complete. split; [exact Hq|]. intros _. now apply follow_num_stop.
Qed.
Print Assumptions C70_parse.
(** Descriptions from integers, booleans, floats, raw values, containers and
    objects only: no condition, and no blanks skipped. *)
Theorem C70_plain : forall A (c : codec A) sn old s v r j, sdesc (fun _ => False) A c -> bytes s ->
  des c sn old s (Some no_error) = Ok (v, r, Some j) -> is_err j = false ->
  exists q, s = q ++ r /\ wvalue q /\ forall sn' e, parse sn' q e = Ok ([], e).
Proof.
  intros A c sn old s v r j Hc Hs E Hj. destruct (proj2 (sdesc_acc _ A c Hc) _ _ _ _ _ _ _ Hs E) as (_ & p & -> & Hp); [now exists j|].
  destruct Hp as (w & q & -> & (_ & [->|[]]) & Hq); [split; [|split]; intros []|]. exists q. repeat split; [exact Hq|]. intros sn' e.
  rewrite <- (app_nil_r q). apply parse_complete. split; [exact Hq|]. intros _. exact Logic.I.
Qed.
Print Assumptions C70_plain.
(** so texts that are no JSON at any length are rejected *)
Theorem C70_rejects : forall A (c : codec A) sn old s v r x, sdesc (fun _ => False) A c -> bytes s ->
  (forall q t, s = q ++ t -> ~ wvalue q) -> des c sn old s (Some no_error) = Ok (v, r, x) -> exists j, x = Some j /\ is_err j = true.
Proof.
  intros A c sn old s v r x Hc Hs Hn E. pose proof (proj1 (sdesc_acc _ A c Hc) sn old s (Some no_error)) as G. rewrite E in G.
  destruct G as (_ & [->|(k & j & _ & _ & -> & Hj & _)]); [|now exists j].
  destruct (C70_plain A c sn old s v r no_error Hc Hs E eq_refl) as (q & Eq & Hq & _). exfalso. exact (Hn q r Eq Hq).
Qed.
Print Assumptions C70_rejects.

(** an object of numbers, in a vector *)
Definition pt_mem n (get : Z * Z -> Z) set : mem (Z * Z) := mkmem n get set (int_codec i32).
Definition Lpt : list (memb (Z * Z)) := [MRef (pt_mem (text "x") fst (fun t v => (v, snd t))); MRef (pt_mem (text "y") snd (fun t v => (fst t, v)))].
Definition pts := vector_codec (object_codec Nonstrict Lpt (0, 0)) (0, 0).
Lemma pt_wchars c : 0 <= c < 128 -> c <> 34 -> c <> 92 -> wchars [c].
Proof. intros. apply (wcs_cons [c] []); constructor; assumption. Qed.
Lemma pts_sdesc : sdesc (fun _ => False) _ pts.
Proof.
  apply sd_vector, sd_object; intros b m [<-|[<-|[]]] [<-|[]]; try (cbn; apply pt_wchars; lia); apply sd_int.
Qed.
Example C70_ex : sdesc (fun _ => False) _ pts /\
  des pts None [] (jt "[{'y':-1,'z':[],'x' : 2},null/**/,]?") clean = Ok ([(2, -1); (0, 0)], text "?", clean) /\
  parse None (jt "[{'y':-1,'z':[],'x' : 2},null/**/,]?") clean = Ok (text "?", clean).
Proof. split; [exact pts_sdesc|]. split; exq. Qed.
(** with strings: the text of the example meets the condition *)
Example C70_ex_string : sdesc (eq QStr) _ (vector_codec string_codec []) /\
  des (vector_codec string_codec []) None [] (jt "['a',null]") clean = Ok ([text "a"; []], [], clean) /\ tame (eq QStr) (jt "['a',null]").
Proof.
  split; [apply sd_vector, sd_string; reflexivity|]. split; [exq|]. split; [|split; discriminate]. intros _. split.
  - intros a b E. assert (H : In BSL (jt "['a',null]")) by (rewrite E; apply in_elt). vm_compute in H. intuition discriminate.
  - intros a c n l d b E Hn. exfalso. assert (H : In c (jt "['a',null]")) by (rewrite E; apply in_elt). vm_compute in H. inversion Hn; intuition lia.
Qed.

(** The condition and the exclusions are needed: these texts are accepted
    without an error by the reader on the left and rejected by the parser. *)
Definition parser_rejects (s : buf) : Prop := exists r j, parse None s clean = Ok (r, Some j) /\ is_err j = true.
Ltac rej := split; [exq|]; eexists _, _; split; [exq|reflexivity].
Theorem C70_string_refuted : exists s v, bytes s /\ des string_codec None [] s clean = Ok (v, [], clean) /\ parser_rejects s.
Proof. exists (jt "'\x41'"), (text "A"). split; [vm_compute; repeat (apply Forall_cons; [split; discriminate|]); constructor|]. rej. Qed.
Theorem C70_utf8_refuted : exists s v, bytes s /\ des string_codec None [] s clean = Ok (v, [], clean) /\ parser_rejects s.
Proof. exists [QT; 195; QT; QT], [195; QT]. split; [repeat (apply Forall_cons; [lia|]); constructor|]. rej. Qed.
Example C70_key_refuted : des (dict_vec_codec string_codec (int_codec i32) ([], 0)) None [] (text "{null:1}") clean = Ok ([([], 1)], [], clean) /\ parser_rejects (text "{null:1}").
Proof. rej. Qed.
Example C70_pointer_refuted : des (ptr_codec (int_codec i32) 0) None None (text "nabc") clean = Ok (None, [], clean) /\ parser_rejects (text "nabc").
Proof. rej. Qed.
(** here the parser stops after the first string *)
Example C70_rquoted_refuted : des (rquoted_codec true true) None [] (jt "'{'a':1}'") clean = Ok (jt "{'a':1}", [], clean) /\
  parse None (jt "'{'a':1}'") clean = Ok (jt "a':1}'", clean).
Proof. split; exq. Qed.
Example C70_flags_refuted : des (flags_codec COMMA Strict colors) None 0 (jt "['red' 'green']") clean = Ok (3, [], clean) /\ parser_rejects (jt "['red' 'green']").
Proof. rej. Qed.
Example C70_enum_refuted : des (enum_codec Strict colors) None 0 (1 :: jt "'red'") clean = Ok (1, [], clean) /\ parser_rejects (1 :: jt "'red'").
Proof. rej. Qed.
Example C70_nonstrict_refuted : des (enum_codec Nonstrict colors) None 0 (jt "'\'") clean = Ok (0, [], clean) /\ parser_rejects (jt "'\'").
Proof. rej. Qed.
