(** Theorems about multi_deserializer, schema, strerror, the _json literal and
    floating-point values (C53-C58, C61-C63, parts of C07, C09, C26, C52, C59). *)
From Verif Require Import Base Parser SpecJson ParserFacts Grammar1 Grammar2 Out Number StringS Array CodecLaws NumberProofs
  StringProofs ArrayProofs Properties_Seq Object Properties_Object Misc Float SpecMisc MiscProofs FloatProofs.

(** C53.  The index is the number of leading descriptions that report an error.
    Targets of those are overwritten too ([pre1]); later ones are untouched and
    so is *e. *)
Theorem C53_first_accepting : forall sn s e pre pre1 x x1 post,
  Forall2 (rejects sn s) pre pre1 -> accepts sn s x x1 ->
  multi sn s (pre ++ x :: post) e = Ok (Z.of_nat (length pre), pre1 ++ x1 :: post, e).
Proof. intros. now apply multi_index. Qed.
Print Assumptions C53_first_accepting.
(** when none accepts the result is the number of descriptions and *e is what
    parser::parse_value reports, i.e. nothing if the text is JSON *)
Theorem C53_none_accepts : forall sn s e l l1 r e1,
  Forall2 (rejects sn s) l l1 -> parse_value sn s e = Ok (r, e1) ->
  multi sn s l e = Ok (Z.of_nat (length l), l1, e1).
Proof. intros. now apply multi_none with (r := r). Qed.
Print Assumptions C53_none_accepts.
(** and those are the only two ways to return *)
Theorem C53_only : forall sn s e l n l1 e1, multi sn s l e = Ok (n, l1, e1) ->
  (exists pre pre1 x x1 post, l = pre ++ x :: post /\ l1 = pre1 ++ x1 :: post /\ n = Z.of_nat (length pre) /\ e1 = e /\
     Forall2 (rejects sn s) pre pre1 /\ accepts sn s x x1) \/
  (n = Z.of_nat (length l) /\ Forall2 (rejects sn s) l l1 /\ exists r, parse_value sn s e = Ok (r, e1)).
Proof. intros. now apply multi_inv. Qed.
Print Assumptions C53_only.
Definition four : list slot :=
  [mkslot bool bool_codec false; mkslot Z int32 0; mkslot buf string_codec []; mkslot (list Z) (vector_codec int32 0) []].
Definition four_index (s : buf) : option (Z * eptr) :=
  match multi None s four None with Ok (n, _, e) => Some (n, e) | _ => None end.
Example C53_ex : four_index (text "true") = Some (0, None) /\ four_index (text "123") = Some (1, None) /\
  four_index (jt "'abc'") = Some (2, None) /\ four_index (text "[1,2]") = Some (3, None) /\
  four_index (text "{}") = Some (4, None).
Proof. split; [exq|]. split; [exq|]. split; [exq|]. split; exq. Qed.
Example C53_ex_none : match multi None (text "{}") four clean with Ok (n, _, e) => n = 4 /\ e = clean | _ => False end.
Proof. vm_compute. split; reflexivity. Qed.
Example C53_ex_bad : match multi None (text "?") four clean with Ok (n, _, e) => n = 4 /\ has_err e = true | _ => False end.
Proof. vm_compute. split; reflexivity. Qed.

(** C54 *)
Theorem C54_merge : forall A (T : sclass A) cur schemas, s_list T = Some cur ->
  exists new, get_schema_list T schemas = (schemas ++ new, match new with [] => false | _ => true end) /\
    missing_in_order schemas cur new.
Proof.
  intros A T cur schemas E. unfold get_schema_list, schema_list. rewrite E.
  destruct (schema_merge_spec cur schemas false) as (new & -> & M). exists new. split; [reflexivity|exact M].
Qed.
Print Assumptions C54_merge.
Theorem C54_no_list : forall A (T : sclass A) schemas, s_list T = None -> get_schema_list T schemas = (schemas, false).
Proof. intros A T schemas E. unfold get_schema_list, schema_list. now rewrite E. Qed.
Print Assumptions C54_no_list.
(** merging twice adds nothing the second time *)
Theorem C54_idempotent : forall A (T : sclass A) schemas l b, get_schema_list T schemas = (l, b) ->
  get_schema_list T l = (l, false).
Proof.
  intros A T schemas l b. unfold get_schema_list. destruct (schema_merge_spec (schema_list T) schemas false) as (new & -> & M).
  intros [= <- _]. destruct (schema_merge_spec (schema_list T) (schemas ++ new) false) as (n2 & -> & M2).
  assert (n2 = []) as ->; [|now rewrite app_nil_r].
  destruct n2 as [|x n2]; [reflexivity|]. exfalso. destruct M as (_ & I & _), M2 as (_ & I2 & _).
  destruct (proj1 (I2 x) (or_introl eq_refl)) as [H1 H2]. apply H2. apply in_or_app.
  destruct (schema_found x schemas) eqn:F; [left; now apply schema_found_iff|].
  right. apply I. split; [exact H1|]. rewrite <- schema_found_iff. congruence.
Qed.
Print Assumptions C54_idempotent.
Definition names3 : sclass Z :=
  mksclass 0 None None None (Some (fun v n => (dist n, negb (dist n =? 5)))) (Some [text "a"; text "bb"; text "a"; text "cc"]).
Example C54_ex : get_schema_list names3 [text "bb"; text "bb"] = ([text "bb"; text "bb"; text "a"; text "cc"], true).
Proof. exq. Qed.

(** C55 *)
Theorem C55_first_offered : forall A (T : sclass A) obj offered p x q, s_list T = Some offered ->
  (forall y, In y p -> ~ In y offered) -> In x offered ->
  create_names T obj (p ++ x :: q) = create_obj T obj x.
Proof.
  intros A T obj offered p x q E Hp Hx. unfold create_names, schema_list. rewrite E.
  destruct offered as [|o offered]; [contradiction|]. rewrite (schema_pick_first _ p x q Hp Hx). now destruct p.
Qed.
Print Assumptions C55_first_offered.
Theorem C55_none_offered : forall A (T : sclass A) obj q y,
  (forall offered z, s_list T = Some offered -> In z (q ++ [y]) -> ~ In z offered) ->
  create_names T obj (q ++ [y]) = create_obj T obj y.
Proof.
  intros A T obj q y H. unfold create_names, schema_list.
  assert (last (q ++ [y]) [] = y) as L by (rewrite last_last; reflexivity).
  destruct (s_list T) as [offered|] eqn:E.
  - rewrite (schema_pick_none offered (q ++ [y])) by (intros z Hz; now apply (H offered z)).
    rewrite L. destruct offered, q; reflexivity.
  - rewrite L. destruct q; reflexivity.
Qed.
Print Assumptions C55_none_offered.
Theorem C55_no_names : forall A (T : sclass A) obj, create_names T obj [] = create_obj T obj [].
Proof. reflexivity. Qed.
Print Assumptions C55_no_names.
Example C55_ex : create_names names3 7 [text "zzz"; text "bb"; text "a"] = Some (2, true) /\
  create_names names3 7 [text "zzz"; text "yyyyy"] = Some (5, false).
Proof. split; exq. Qed.

(** C56.  The two overloads agree (on the object T() and on every name) exactly
    when T has either both or neither of the two forms taking a name... *)
Theorem C56_agree_partial : forall A (T : sclass A) name,
  (s_form3 T = None <-> s_form4 T = None) ->
  exists v b, create_obj T (s_default T) name = Some (v, b) /\ create_name T name = Some v.
Proof.
  intros A T name H. unfold create_obj, create_name, create4.
  destruct (s_form3 T) eqn:E3, (s_form4 T) as [f|] eqn:E4; cbn [has].
  - destruct (f (s_default T) name) as [v b] eqn:F. exists v, b. split; reflexivity.
  - destruct H as [_ H]. specialize (H eq_refl). discriminate.
  - destruct H as [H _]. specialize (H eq_refl). discriminate.
  - destruct (create3 T (s_default T) name) as [v b] eqn:F. exists v, b. split; reflexivity.
Qed.
Print Assumptions C56_agree_partial.
(** ...a class offering only [bool create_schema(T&, const string&)] gets the
    name ignored by create_schema(name)... *)
Theorem C56_form4_refuted : forall A (T : sclass A) f name, s_form4 T = Some f -> s_form3 T = None -> s_form2 T = None -> s_form1 T = None ->
  create_obj T (s_default T) name = Some (f (s_default T) name) /\ create_name T name = Some (s_default T).
Proof.
  intros A T f name E4 E3 E2 E1. unfold create_obj, create_name, create4. rewrite E3, E4. cbn [has].
  unfold create3, create2, create1. rewrite E3, E2, E1. split; reflexivity.
Qed.
Print Assumptions C56_form4_refuted.
(** ...and for a class offering [T create_schema(const string&)] but not the
    form with both arguments, create_schema(name) does not compile. *)
Theorem C56_form3_refuted : forall A (T : sclass A) f name obj, s_form3 T = Some f -> s_form4 T = None ->
  create_obj T obj name = Some (f name, true) /\ create_name T name = None.
Proof.
  intros A T f name obj E3 E4. unfold create_obj, create_name, create4. rewrite E3, E4. cbn [has].
  unfold create3. rewrite E3. split; reflexivity.
Qed.
Print Assumptions C56_form3_refuted.
(** create_schema(obj, name) always compiles and prefers the forms in the order
    4, 3, 2, 1; without any form the object is reset *)
Theorem C56_order : forall A (T : sclass A) obj name,
  (forall f, s_form4 T = Some f -> create_obj T obj name = Some (f obj name)) /\
  (forall f, s_form4 T = None -> s_form3 T = Some f -> create_obj T obj name = Some (f name, true)) /\
  (forall f, s_form4 T = None -> s_form3 T = None -> s_form2 T = Some f -> create_obj T obj name = Some (f obj, true)) /\
  (forall v, s_form4 T = None -> s_form3 T = None -> s_form2 T = None -> s_form1 T = Some v -> create_obj T obj name = Some (v, true)) /\
  (has_schema T = false -> create_obj T obj name = Some (s_default T, true)).
Proof.
  intros A T obj name. unfold has_schema, create_obj, create4, create3, create2, create1.
  destruct (s_form4 T), (s_form3 T), (s_form2 T), (s_form1 T); cbn; repeat split; intros; try discriminate; congruence.
Qed.
Print Assumptions C56_order.
Example C56_ex : create_obj names3 0 (text "bb") = Some (2, true) /\ create_name names3 (text "bb") = Some 0.
Proof. split; exq. Qed.
Example C56_ex3 : let T := mksclass 0 None None (Some (fun n => dist n)) None None in
  create_obj T 9 (text "bb") = Some (2, true) /\ create_name T (text "bb") = None.
Proof. split; exq. Qed.
Example C56_ex_agree : let T := mksclass 0 None None (Some (fun n => dist n)) (Some (fun v n => (dist n, true))) None in
  create_obj T 0 (text "bb") = Some (2, true) /\ create_name T (text "bb") = Some 2.
Proof. split; exq. Qed.

(** C57 *)
Theorem C57_what : forall j, what j = code_text (code j).
Proof. intros [c x t]. now destruct c. Qed.
Print Assumptions C57_what.
Theorem C57_what_injective : forall a b, code_text a = code_text b -> a = b.
Proof. intros a b. destruct a, b; cbn; intros H; try reflexivity; discriminate. Qed.
Print Assumptions C57_what_injective.
(** the message determines the code and the expected text *)
Theorem C57_message_faithful : forall a b, message a = message b -> code a = code b /\ expected_of a = expected_of b.
Proof.
  intros a b. unfold message. rewrite !C57_what. intros H.
  assert (code a = code b) as E.
  { destruct a as [c x t], b as [d y u]. cbn [code expected_of] in *. clear t u.
    destruct x as [x|], y as [y|]; destruct c, d; try reflexivity; exfalso; cbn in H; discriminate. }
  split; [exact E|]. rewrite E in H. apply app_inv_head in H. destruct (expected_of a) as [x|], (expected_of b) as [y|]; try discriminate; [|reflexivity].
  apply app_inv_head in H. apply app_inj_tail in H. destruct H as [-> _]. reflexivity.
Qed.
Print Assumptions C57_message_faithful.
(** The codes are the numbers 0 to 10, each standing for one code; 0 is success. *)
Theorem C57_codes : (forall n, 0 <= n <= 10 <-> exists c, ecode_num c = n) /\ (forall c d, ecode_num c = ecode_num d -> c = d) /\
  (forall c, ecode_num c = 0 <-> c = ValidJSON).
Proof.
  split; [|split].
  - intros n. split.
    + intros H. assert (n = 0 \/ n = 1 \/ n = 2 \/ n = 3 \/ n = 4 \/ n = 5 \/ n = 6 \/ n = 7 \/ n = 8 \/ n = 9 \/ n = 10) as K by lia.
      destruct K as [->|[->|[->|[->|[->|[->|[->|[->|[->|[->| ->]]]]]]]]]].
      * now exists ValidJSON. * now exists InvalidJSON. * now exists UnexpectedEndFragment. * now exists ExpectedOf. * now exists InvalidNull.
      * now exists InvalidNumber. * now exists InvalidBool. * now exists InvalidString. * now exists InvalidMember. * now exists InvalidEnum. * now exists InvalidRequest.
    + intros [c <-]. destruct c; cbn; lia.
  - intros c d. destruct c, d; cbn; congruence.
  - intros c. destruct c; cbn; split; congruence.
Qed.
Print Assumptions C57_codes.
Theorem C57_where : forall j s, is_err j = true -> 0 <= tail_of j <= dist s -> where_ j s = dist s - tail_of j.
Proof. intros j s H1 H2. unfold where_. rewrite H1. cbn [negb]. now replace (dist s <? tail_of j) with false by lia. Qed.
Print Assumptions C57_where.
(** [where] never points outside the text, whatever the error object holds *)
Theorem C57_where_inside : forall j s, 0 <= tail_of j -> 0 <= where_ j s <= dist s.
Proof.
  intros j s H. unfold where_. pose proof (dist_nonneg s). destruct (negb (is_err j)); [lia|].
  destruct (dist s <? tail_of j) eqn:E; lia.
Qed.
Print Assumptions C57_where_inside.
Theorem C57_trace : forall j s, is_err j = true -> 0 <= tail_of j <= dist s -> exists a m b,
  trace j s = Ok (a ++ m ++ b) /\ s = a ++ b /\ dist a = where_ j s /\
  m = (if tail_of j =? 0 then text "<<<" else text ">>>").
Proof.
  intros j s H1 H2. destruct (split_trace_spec j s H2) as (a & b & E & Hb & Ha & T).
  exists a, (if tail_of j =? 0 then text "<<<" else text ">>>"), b.
  unfold trace. rewrite H1. cbn [negb]. split; [exact T|]. split; [exact E|]. split; [|reflexivity].
  rewrite C57_where by assumption. exact Ha.
Qed.
Print Assumptions C57_trace.
Theorem C57_message_trace : forall j s, is_err j = true -> 0 <= tail_of j <= dist s -> exists t,
  trace j s = Ok t /\ message_trace j s = Ok (message j ++ text ": " ++ t).
Proof.
  intros j s H1 H2. destruct (split_trace_spec j s H2) as (a & b & E & Hb & Ha & T).
  unfold trace, message_trace. rewrite H1. cbn [negb]. rewrite T. eexists. split; reflexivity.
Qed.
Print Assumptions C57_message_trace.
Theorem C57_no_error : forall j s, is_err j = false -> where_ j s = 0 /\ trace j s = Ok s /\ message_trace j s = Ok (message j).
Proof. intros j s H. unfold where_, trace, message_trace. rewrite H. repeat split. Qed.
Print Assumptions C57_no_error.
(** used with a shorter range than the one that was read, trace leaves it *)
Theorem C57_other_range_refuted : forall j s, is_err j = true -> dist s < tail_of j -> trace j s = UB /\ where_ j s = 0.
Proof.
  intros j s H1 H2. unfold trace, where_. rewrite H1. cbn [negb]. split; [apply split_trace_bad; lia|].
  now replace (dist s <? tail_of j) with true by lia.
Qed.
Print Assumptions C57_other_range_refuted.
Definition ex_err := mkerr ExpectedOf (Some (text "]")) 3.
Example C57_ex : trace ex_err (text "[1,2?3]") = Ok (text "[1,2>>>?3]") /\ where_ ex_err (text "[1,2?3]") = 4 /\
  message_trace ex_err (text "[1,2?3]") = Ok (text "Expected Of ']': [1,2>>>?3]").
Proof. split; [exq|]. split; exq. Qed.

(** C09 / C57: after any failed reading strerror's functions are defined on the
    range that was read, and [where] is the position the error reports. *)
Theorem C09_strerror_defined : forall A (c : codec A), dlaw (des c) -> forall sn old s v r j,
  des c sn old s clean = Ok (v, r, Some j) -> is_err j = true ->
  where_ j s = dist s - tail_of j /\ exists a m b, trace j s = Ok (a ++ m ++ b) /\ s = a ++ b /\ dist a = where_ j s /\
    message_trace j s = Ok (message j ++ text ": " ++ a ++ m ++ b).
Proof.
  intros A c L sn old s v r j D E. specialize (L sn old s clean). rewrite D in L. destruct L as [_ [H|(k & j1 & H1 & H2 & H3 & H4 & H5)]].
  - injection H as ->. discriminate.
  - injection H3 as <-. split; [now apply C57_where|]. destruct (C57_trace j s E H5) as (a & m & b & T & S & W & M).
    exists a, m, b. repeat split; auto. destruct (C57_message_trace j s E H5) as (t & T1 & ->). congruence.
Qed.
Print Assumptions C09_strerror_defined.
Example C09_strerror_ex : exists v r j, des (vector_codec int32 0) None [] (text "[1,2;3]") clean = Ok (v, r, Some j) /\
  message_trace j (text "[1,2;3]") = Ok (text "Expected Of ',': [1,2>>>;3]").
Proof. eexists _, _, _. split; exq. Qed.

(** C58 *)
Theorem C58_literal : forall s, Forall2 (fun c d => (c = 39 -> d = 34) /\ (c <> 39 -> d = c)) s (json_literal s).
Proof.
  induction s as [|c s IH]; cbn; constructor; [|exact IH]. destruct (c =? 39) eqn:E; lia.
Qed.
Print Assumptions C58_literal.
Theorem C58_length : forall s, dist (json_literal s) = dist s.
Proof. intros s. unfold dist, json_literal. now rewrite map_length. Qed.
Print Assumptions C58_length.
Theorem C58_no_apostrophe : forall s, ~ In 39 (json_literal s).
Proof. intros s H. apply in_map_iff in H. destruct H as (c & H & _). destruct (c =? 39) eqn:E; lia. Qed.
Print Assumptions C58_no_apostrophe.
Example C58_ex : json_literal (text "{'a':[1]}") = jt "{'a':[1]}" /\ In 34 (json_literal (text "{'a':[1]}")).
Proof. split; [exq|]. right. now left. Qed.

(** C61.  [scan] is stream extraction, [conv] the conversion of a number's text. *)
Theorem C61_short_partial : forall A R fmt scan conv (zero : A) sn old n r e, scan_law scan conv -> rnumber n -> follow r ->
  (length n <= bufsize R)%nat -> des (float_codec R fmt scan zero) sn old (n ++ r) e = Ok (conv n, r, e).
Proof. intros. now apply float_read. Qed.
Print Assumptions C61_short_partial.
(** a longer token is consumed whole but only its first bufsize characters
    determine the value *)
Theorem C61_long_refuted : forall A R fmt scan conv (zero : A) sn old d ds r e, scan_law scan conv ->
  49 <= d <= 57 -> digits ds -> follow r -> -1 <= R -> (bufsize R <= length ds)%nat ->
  des (float_codec R fmt scan zero) sn old ((d :: ds) ++ r) e = Ok (conv (firstn (bufsize R) (d :: ds)), r, e).
Proof.
  intros A R fmt scan conv zero sn old d ds r e L Hd Hds Hr HR Hl. apply float_read_cut; [exact L| |exact Hr|cbn [length]; lia|].
  - replace (d :: ds) with ([] ++ (d :: ds) ++ [] ++ []) by (cbn [app]; now rewrite app_nil_r). constructor; constructor; auto.
  - replace (firstn (bufsize R) (d :: ds)) with ([] ++ firstn (bufsize R) (d :: ds) ++ [] ++ []) by (cbn [app]; now rewrite app_nil_r).
    assert (exists k, bufsize R = S k) as (k & ->).
    { unfold bufsize. destruct (R =? -1); [now exists 19%nat|]. exists (Z.to_nat (19 + R)). lia. }
    constructor; constructor; cbn [firstn]; [discriminate|]. constructor; [unfold s_digit; lia|].
    apply Forall_forall. intros c Hc. unfold digits in Hds; rewrite Forall_forall in Hds. apply Hds. rewrite <- (firstn_skipn k ds). apply in_or_app. now left.
Qed.
Print Assumptions C61_long_refuted.
(** after a leading zero the value comes from more than the consumed token *)
Theorem C61_leading_zero_refuted : forall A R fmt scan conv (zero : A) sn old ds r e, scan_law scan conv -> digits1 ds -> follow r ->
  (S (length ds) <= bufsize R)%nat -> des (float_codec R fmt scan zero) sn old (48 :: ds ++ r) e = Ok (conv (48 :: ds), ds ++ r, e).
Proof. intros. now apply float_read_zero. Qed.
Print Assumptions C61_leading_zero_refuted.
Theorem C61_law_inhabited : scan_law scan_text (fun t => t).
Proof. exact scan_text_law. Qed.
Print Assumptions C61_law_inhabited.
Definition dbl R := float_codec R (fun t : buf => t) scan_text [48].
Example C61_ex_short : des (dbl 2) None [] (text "-12.50e+3,1") clean = Ok (text "-12.50e+3", text ",1", clean).
Proof. exq. Qed.
Example C61_ex_long : des (dbl (-1)) None [] (text "1000000000000000000000000]") clean =
  Ok (text "10000000000000000000", text "]", clean).
Proof. exq. Qed.
Example C61_ex_zero : des (dbl 2) None [] (text "05") clean = Ok (text "05", text "5", clean).
Proof. exq. Qed.

(** C62.  std::scientific: the text always fits and is a JSON number. *)
Theorem C62_scientific : forall A fmt scan (zero : A) v, sci_text (fmt v) ->
  exists ops, ser (float_codec (-1) fmt scan zero) v = Ok ops /\ flat ops = fmt v /\ rvalue (flat ops).
Proof.
  intros A fmt scan zero v H. destruct (sci_number _ H) as [Hn Hl]. exists (wr (fmt v)). rewrite flat_wr.
  split; [now apply float_out|]. split; [reflexivity|]. now apply rv_num.
Qed.
Print Assumptions C62_scientific.
(** std::fixed: fine as long as sign and integer part have at most 19
    characters (20 without a fraction) *)
Theorem C62_fixed_partial : forall A R fmt scan (zero : A) v, fixed_text R (fmt v) -> (length (fmt v) <= 20 + R)%nat ->
  exists ops, ser (float_codec (Z.of_nat R) fmt scan zero) v = Ok ops /\ flat ops = fmt v /\ rvalue (flat ops).
Proof.
  intros A R fmt scan zero v H Hl. pose proof (fixed_number _ _ H) as Hn. exists (wr (fmt v)). rewrite flat_wr.
  split; [|split; [reflexivity|now apply rv_num]]. apply float_out; [exact Hn|]. unfold bufsize.
  replace (Z.of_nat R =? -1) with false by lia. lia.
Qed.
Print Assumptions C62_fixed_partial.
(** larger values are cut: right after the point the output is not JSON... *)
Theorem C62_point_refuted : forall A R fmt scan (zero : A) v m i fr, fmt v = m ++ i ++ DOT :: fr ->
  ropt_minus m -> rint i -> digits fr -> length fr = R -> length (m ++ i) = (19 + R)%nat ->
  exists ops, ser (float_codec (Z.of_nat R) fmt scan zero) v = Ok ops /\ flat ops = m ++ i ++ [DOT] /\ ~ rvalue (flat ops).
Proof.
  intros A R fmt scan zero v m i fr E Hm Hi Hfr Hl HL.
  assert (Forall plainc (m ++ i ++ [DOT])) as NZ.
  { rewrite app_assoc. apply Forall_app. split; [|constructor; [unfold plainc; lia|constructor]].
    apply (sfloat_nz (m ++ i)). apply rnumber_sfloat. rewrite <- (app_nil_r i). change (@nil Z) with (@nil Z ++ []). constructor; auto; constructor. }
  exists (wr (m ++ i ++ [DOT])). rewrite flat_wr. split; [|split; [reflexivity|]].
  - cbn [ser float_codec]. unfold float_ser. rewrite E. replace (m ++ i ++ DOT :: fr) with ((m ++ i ++ [DOT]) ++ fr).
    2: { rewrite <- !app_assoc. reflexivity. }
    rewrite firstn_long.
    2: { unfold bufsize. replace (Z.of_nat R =? -1) with false by lia. rewrite app_assoc, app_length, HL. cbn [length]. lia. }
    rewrite firstn_all2.
    2: { unfold bufsize. replace (Z.of_nat R =? -1) with false by lia. rewrite app_assoc, app_length, HL. cbn [length]. lia. }
    do 2 f_equal. rewrite <- (app_nil_r (m ++ i ++ [DOT])) at 1. rewrite cstr_app by exact NZ. cbn [cstr]. now rewrite app_nil_r.
  - intros H. assert (exists c t, m ++ i ++ [DOT] = c :: t /\ (c = MINUS \/ s_digit c)) as (c & t & Ec & Hc).
    { destruct Hm; cbn [app]; [|eexists _, _; split; [reflexivity|now left]].
      destruct Hi as [|d ds Hd]; cbn [app]; eexists _, _; (split; [reflexivity|]); unfold s_digit; lia. }
    rewrite Ec in H. apply rvalue_num in H; [|exact Hc]. rewrite <- Ec in H. apply rnumber_last in H. destruct H as (p & d & H & Hd).
    rewrite app_assoc in H. apply app_inj_tail in H. destruct H as [_ <-]. unfold s_digit in Hd. lia.
Qed.
Print Assumptions C62_point_refuted.
(** ...and inside the integer part it is a different number *)
Theorem C62_integer_part_refuted : forall A R fmt scan (zero : A) v i tail, fmt v = i ++ tail -> digits i ->
  (length i = 20 + R)%nat -> exists ops, ser (float_codec (Z.of_nat R) fmt scan zero) v = Ok ops /\ flat ops = i.
Proof.
  intros A R fmt scan zero v i tail E Hi Hl. exists (wr i). rewrite flat_wr. split; [|reflexivity].
  cbn [ser float_codec]. unfold float_ser. rewrite E. unfold bufsize. replace (Z.of_nat R =? -1) with false by lia.
  rewrite firstn_long by lia. rewrite firstn_all2 by lia. rewrite <- (app_nil_r i) at 1. rewrite cstr_app by now apply digits_nz.
  cbn [cstr]. now rewrite app_nil_r.
Qed.
Print Assumptions C62_integer_part_refuted.
(** infinities and NaN are written as text that is not JSON *)
Theorem C62_nan_refuted : forall A R fmt scan (zero : A) v, -1 <= R -> fmt v = text "nan" \/ fmt v = text "inf" \/ fmt v = text "-inf" ->
  exists ops, ser (float_codec R fmt scan zero) v = Ok ops /\ flat ops = fmt v /\ ~ rvalue (flat ops).
Proof.
  intros A R fmt scan zero v HR H. exists (wr (fmt v)). rewrite flat_wr. split; [|split; [reflexivity|]].
  - cbn [ser float_codec]. unfold float_ser.
    assert (length (fmt v) <= 4)%nat as HL by (destruct H as [->|[-> | ->]]; repeat constructor).
    assert (4 <= bufsize R)%nat as HB by (unfold bufsize; destruct (R =? -1) eqn:E; lia).
    rewrite firstn_all2 by lia. destruct H as [->|[-> | ->]]; reflexivity.
  - intros V. pose proof (rfc_accept None (fmt v) [] clean V I) as P. rewrite app_nil_r in P.
    destruct H as [H|[H|H]]; rewrite H in P; vm_compute in P; discriminate.
Qed.
Print Assumptions C62_nan_refuted.
Example C62_ex_sci : sci_text (text "-1.234560e+10") /\ ser (dbl (-1)) (text "-1.234560e+10") = Ok (wr (text "-1.234560e+10")).
Proof.
  split; [|exq]. apply (sci [MINUS] 49 (text "234560") PLUS (text "10")); try (vm_compute; repeat constructor; discriminate || lia);
    unfold s_digit; try lia; auto; constructor.
Qed.
Example C62_ex_fixed : ser (dbl 2) (text "12345678901234567.25") = Ok (wr (text "12345678901234567.25")) /\
  ser (dbl 2) (text "123456789012345678901.25") = Ok (wr (text "123456789012345678901.")) /\
  ser (dbl 2) (text "1000000000000000019884624838656.00") = Ok (wr (text "1000000000000000019884")).
Proof. split; [exq|]. split; exq. Qed.

(** C63.  Round trip of the values whose text fits and is read back by the stream. *)
Theorem C63_roundtrip_partial : forall A R fmt scan conv (zero : A), scan_law scan conv ->
  rt (float_codec R fmt scan zero) (float_dom R fmt conv).
Proof. intros. now apply float_rt. Qed.
Print Assumptions C63_roundtrip_partial.
Theorem C63_output_json_partial : forall A R fmt scan conv (zero : A), jout (float_codec R fmt scan zero) (float_dom R fmt conv).
Proof. intros. apply float_jout. Qed.
Print Assumptions C63_output_json_partial.
Example C63_ex : let t := text "-1.234560e+10" in ser (dbl (-1)) t = Ok (wr t) /\ des (dbl (-1)) None [] (t ++ text ",") clean = Ok (t, text ",", clean).
Proof. split; exq. Qed.
(** a value whose fixed text is cut is not read back *)
Theorem C63_cut_refuted : exists v ops r, fixed_text 2 v /\ ser (dbl 2) v = Ok ops /\
  des (dbl 2) None [] (flat ops) clean = Ok (r, [], clean) /\ r <> v.
Proof.
  exists (text "1000000000000000019884624838656.00"). eexists _, _. split.
  - apply (fixed 2 [] (text "1000000000000000019884624838656") (text "00")); [constructor| | |reflexivity].
    + change (rint (49 :: text "000000000000000019884624838656")). constructor; [lia|].
      apply Forall_forall. intros c Hc. vm_compute in Hc. unfold s_digit. repeat (destruct Hc as [<-|Hc]; [lia|]). contradiction.
    + change (digits [48; 48]). repeat constructor; unfold s_digit; lia.
  - split; [exq|]. split; [exq|]. discriminate.
Qed.
Print Assumptions C63_cut_refuted.

(** C74.  The branches of the writer for libstdc++ and for other libraries. *)
Theorem C74_whole : forall A R fmt scan (zero : A) v, rnumber (fmt v) ->
  exists ops, ser (float_codec_std R fmt scan zero) v = Ok ops /\ flat ops = fmt v /\ rvalue (flat ops).
Proof. intros A R fmt scan zero v H. exists (wr (fmt v)). rewrite flat_wr. split; [reflexivity|]. split; [reflexivity|]. now apply rv_num. Qed.
Print Assumptions C74_whole.
(** what libstdc++ builds write is the beginning of what the others write, at
    most bufsize characters of it... *)
Theorem C74_prefix : forall A R fmt scan (zero : A) v, exists a b rest, ser (float_codec R fmt scan zero) v = Ok a /\
  ser (float_codec_std R fmt scan zero) v = Ok b /\ flat b = flat a ++ rest /\
  (length (flat a) <= Z.to_nat (if R =? -1 then 20 else 20 + R)%Z)%nat.
Proof.
  intros A R fmt scan zero v. destruct (cstr_prefix (firstn (bufsize R) (fmt v))) as [t E].
  exists (wr (cstr (firstn (bufsize R) (fmt v)))), (wr (fmt v)), (t ++ skipn (bufsize R) (fmt v)).
  split; [reflexivity|]. split; [reflexivity|]. rewrite !flat_wr. split; [|apply cstr_short].
  now rewrite app_assoc, <- E, firstn_skipn.
Qed.
Print Assumptions C74_prefix.
(** ...so the two agree exactly on the numbers that fit *)
Theorem C74_same_iff : forall A R fmt scan (zero : A) v, rnumber (fmt v) ->
  (ser (float_codec R fmt scan zero) v = ser (float_codec_std R fmt scan zero) v <->
   (length (fmt v) <= Z.to_nat (if R =? -1 then 20 else 20 + R)%Z)%nat).
Proof.
  intros A R fmt scan zero v Hn. split; intros H.
  - pose proof (cstr_short (bufsize R) (fmt v)) as L. cbn [ser float_codec float_codec_std] in H. unfold float_ser, float_ser_std in H.
    assert (flat (wr (cstr (firstn (bufsize R) (fmt v)))) = flat (wr (fmt v))) as E by congruence.
    rewrite !flat_wr in E. rewrite E in L. exact L.
  - rewrite float_out; [reflexivity|exact Hn|exact H].
Qed.
Print Assumptions C74_same_iff.
(** The reader is the same: values whose text fits come back,... *)
Theorem C74_roundtrip : forall A R fmt scan conv (zero : A), scan_law scan conv ->
  rt (float_codec_std R fmt scan zero) (float_dom R fmt conv).
Proof.
  intros A R fmt scan conv zero L v D. destruct (float_rt R fmt scan conv zero L v D) as (ops & E & H). exists ops. split; [|exact H].
  destruct D as (Hn & Hl & Hv). rewrite (float_out R fmt scan zero v Hn Hl) in E. exact E.
Qed.
Print Assumptions C74_roundtrip.
(** ...a longer integer is written whole and read back as its first bufsize
    digits. *)
Theorem C74_long_refuted : forall A R fmt scan conv (zero : A) sn old v d ds, scan_law scan conv ->
  fmt v = d :: ds -> 49 <= d <= 57 -> digits ds -> -1 <= R -> (bufsize R <= length ds)%nat ->
  exists ops, ser (float_codec_std R fmt scan zero) v = Ok ops /\ flat ops = d :: ds /\
    des (float_codec_std R fmt scan zero) sn old (flat ops) None = Ok (conv (firstn (bufsize R) (d :: ds)), [], None).
Proof.
  intros A R fmt scan conv zero sn old v d ds L E Hd Hds HR Hl. exists (wr (fmt v)). rewrite flat_wr. split; [reflexivity|].
  split; [exact E|]. rewrite E. rewrite <- (app_nil_r (d :: ds)) at 1.
  exact (C61_long_refuted A R fmt scan conv zero sn old d ds [] None L Hd Hds I HR Hl).
Qed.
Print Assumptions C74_long_refuted.
Example C74_ex : let v := text "12345678901234567890123.25" in let c := float_codec_std 2 (fun t : buf => t) scan_text [48] in
  ser c v = Ok (wr v) /\ ser (dbl 2) v = Ok (wr (text "1234567890123456789012")) /\
  des c None [] v None = Ok (text "1234567890123456789012", [], None).
Proof. split; [exq|]. split; exq. Qed.

(** The laws shared by all descriptions *)
Theorem C07_float : forall A R fmt scan (zero : A), dlaw (des (float_codec R fmt scan zero)).
Proof. intros A R fmt scan zero. exact (float_dlaw R fmt scan zero). Qed.
Print Assumptions C07_float.
Theorem C26_null_float : forall A R fmt scan (zero : A), null_reads (float_codec R fmt scan zero) (fun _ => zero).
Proof. intros A R fmt scan zero sn old r e. reflexivity. Qed.
Print Assumptions C26_null_float.
Theorem C52_float : forall A R fmt scan (zero : A), wout (float_codec R fmt scan zero) (fun _ => True).
Proof. intros A R fmt scan zero. exact (float_wout R fmt scan zero). Qed.
Print Assumptions C52_float.
Theorem C59_float : forall A R fmt scan (zero : A) sn old s e,
  exists v r e1, des (float_codec R fmt scan zero) sn old s e = Ok (v, r, e1) /\ exists p, s = p ++ r.
Proof.
  intros A R fmt scan zero sn old s e. pose proof (float_dlaw R fmt scan zero sn old s e) as L.
  assert (des (float_codec R fmt scan zero) sn old s e <> UB) as S.
  { cbn [des float_codec]. unfold float_des. destruct s as [|c s0]; [discriminate|].
    destruct (is_null (c :: s0)); [destruct (parse_null (c :: s0) e); discriminate|].
    destruct (negb (is_number (c :: s0))); [discriminate|]. destruct (parse_number (c :: s0) e); discriminate. }
  destruct (des (float_codec R fmt scan zero) sn old s e) as [[[v r] e1]| |]; [|congruence|contradiction].
  exists v, r, e1. split; [reflexivity|]. apply L.
Qed.
Print Assumptions C59_float.
