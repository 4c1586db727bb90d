(** Corollaries of the parser laws in the form used by Properties_Parser. *)
From Verif Require Import Base Parser SpecJson SpecDespace ParserFacts Grammar1 Grammar2 DespaceProofs.

Lemma pgood_rlaw sn f s : pgood f s -> rlaw sn (fun s e => Ok (f s e)) s.
Proof. intros (r & o & A & B). left. exists r, o. split; [intro e; now rewrite A|exact B]. Qed.
Lemma rlawS_rlaw sn f s : rlawS sn f s -> rlaw sn f s.
Proof. intros [(r & o & A & B & _)|H]; [left; exists r, o; auto|now right]. Qed.

Lemma entry_law sn f s : parser_entry sn f -> rlaw sn f s.
Proof.
  intros H. destruct H.
  - apply rlawS_rlaw, parse_law.
  - apply rlawS_rlaw, parse_law.
  - apply pgood_rlaw, space_good.
  - apply pgood_rlaw, null_good.
  - apply pgood_rlaw, bool_good.
  - apply pgood_rlaw, number_good.
  - left. apply string_good.
  - destruct (is_object s) eqn:E.
    + apply rlawS_rlaw, object_law; [exact E|]. intros s' _. apply parse_law.
    + left. unfold rgood, parse_object. rewrite E. cbn [negb]. apply rgood_err; [discriminate|].
      pose proof (dist_nonneg s). lia.
  - destruct (is_array s) eqn:E.
    + apply rlawS_rlaw, array_law; [exact E|]. intros s' _. apply parse_law.
    + left. unfold rgood, parse_array. rewrite E. cbn [negb]. apply rgood_err; [discriminate|].
      pose proof (dist_nonneg s). lia.
Qed.

Lemma entry_no_fuel sn f s e : parser_entry sn f -> f s e <> Fuel.
Proof. intros H. destruct (entry_law sn f s H) as [(r & o & A & _)|(_ & A)]; rewrite A; discriminate. Qed.

Lemma entry_safe c f s e : parser_entry (Some c) f ->
  exists r e', f s e = Ok (r, e') /\ exists p, s = p ++ r.
Proof.
  intros H. destruct (entry_law (Some c) f s H) as [(r & o & A & B)|(K & _)]; [|discriminate].
  exists r, (app_err e o). split; [apply A|apply B].
Qed.

Lemma entry_inv sn f s e r e' : parser_entry sn f -> f s e = Ok (r, e') ->
  exists o, e' = app_err e o /\ outcome s r o /\ forall e1, f s e1 = Ok (r, app_err e1 o).
Proof.
  intros H E. destruct (entry_law sn f s H) as [(r0 & o & A & B)|(_ & A)]; [|rewrite A in E; discriminate].
  rewrite A in E. injection E as -> <-. exists o. repeat split; try assumption; apply B.
Qed.

Lemma app_err_clean o s : rep_ok s o -> app_err (Some no_error) o = match o with None => Some no_error | Some j => Some j end.
Proof. destruct o; reflexivity. Qed.

Lemma entry_range sn f s e r e' : parser_entry sn f -> f s e = Ok (r, e') -> exists p, s = p ++ r.
Proof. intros H E. destruct (entry_inv _ _ _ _ _ _ H E) as (o & _ & (B & _) & _). exact B. Qed.

Lemma parse_progress sn s r : parse sn s (Some no_error) = Ok (r, Some no_error) -> exists p, p <> [] /\ s = p ++ r.
Proof.
  intros E. destruct (parse_law sn s) as [(r0 & o & A & B & C)|(_ & A)]; [|rewrite A in E; discriminate].
  rewrite A in E. injection E as -> E. destruct o as [j|].
  - destruct B as (_ & (B & _) & _). cbn in E. injection E as ->. discriminate.
  - destruct (C eq_refl) as (c & t & -> & (p & ->)). exists (c :: p). split; [discriminate|reflexivity].
Qed.

Lemma entry_error_end sn f s r e' : parser_entry sn f -> f s (Some no_error) = Ok (r, e') ->
  (e' = Some no_error \/ (exists j, e' = Some j /\ is_err j = true /\ r = [])).
Proof.
  intros H E. destruct (entry_inv _ _ _ _ _ _ H E) as (o & -> & (B1 & B2 & B3) & _).
  destruct o as [j|]; [right|now left]. exists j. split; [reflexivity|]. split; [apply B2|]. apply B3. congruence.
Qed.

Lemma entry_sticky sn f s j r e' : parser_entry sn f -> is_err j = true -> f s (Some j) = Ok (r, e') -> e' = Some j.
Proof.
  intros H Hj E. destruct (entry_inv _ _ _ _ _ _ H E) as (o & -> & _ & _).
  destruct o as [k|]; [|reflexivity]. cbn. now rewrite Hj.
Qed.

Lemma entry_same sn f s e1 e2 r e1' : parser_entry sn f -> f s e1 = Ok (r, e1') ->
  exists e2', f s e2 = Ok (r, e2').
Proof. intros H E. destruct (entry_inv _ _ _ _ _ _ H E) as (o & _ & _ & K). eexists. apply K. Qed.

Lemma entry_tail sn f s r j : parser_entry sn f -> f s (Some no_error) = Ok (r, Some j) -> is_err j = true ->
  0 <= tail_of j <= dist s.
Proof.
  intros H E Hj. destruct (entry_inv _ _ _ _ _ _ H E) as (o & K & (_ & B & _) & _).
  destruct o as [k|]; cbn in K; injection K as ->; [apply B|discriminate].
Qed.

Lemma parse_decides c s : bytes s ->
  (exists v r, s = v ++ r /\ waccept v r /\ parse (Some c) s (Some no_error) = Ok (r, Some no_error)) \/
  ((forall v r, s = v ++ r -> ~ waccept v r) /\
   exists j, is_err j = true /\ parse (Some c) s (Some no_error) = Ok ([], Some j)).
Proof.
  intros Hb. destruct (entry_safe c _ s (Some no_error) (pe_parse _)) as (r & e' & E & _).
  destruct (entry_error_end _ _ _ _ _ (pe_parse _) E) as [->|(j & -> & Hj & ->)].
  - left. destruct (proj1 (parse_exact (Some c) s r Hb) E) as (v & -> & Hv). exists v, r. auto.
  - right. split; [|exists j; auto]. intros v r -> Hv. rewrite (parse_complete (Some c) v r (Some no_error) Hv) in E.
    injection E as _ <-. discriminate.
Qed.

Lemma sentinel_irrelevant sn1 sn2 s e r1 r2 e1 e2 : bytes s ->
  parse sn1 s e = Ok (r1, e1) -> parse sn2 s e = Ok (r2, e2) -> r1 = r2.
Proof.
  intros Hb E1 E2.
  destruct (entry_inv _ _ _ _ _ _ (pe_parse _) E1) as (o1 & _ & B1 & K1).
  destruct (entry_inv _ _ _ _ _ _ (pe_parse _) E2) as (o2 & _ & B2 & K2).
  specialize (K1 (Some no_error)). specialize (K2 (Some no_error)).
  destruct o1 as [j1|]; destruct o2 as [j2|].
  - transitivity (@nil Z); [apply B1; congruence|symmetry; apply B2; congruence].
  - exfalso. destruct (proj1 (parse_exact sn2 s r2 Hb) K2) as (v & Es & Hv).
    rewrite Es, (parse_complete sn1 v r2 _ Hv) in K1. destruct B1 as (_ & (B1 & _) & _). cbn in K1.
    injection K1 as _ <-. discriminate.
  - exfalso. destruct (proj1 (parse_exact sn1 s r1 Hb) K1) as (v & Es & Hv).
    rewrite Es, (parse_complete sn2 v r1 _ Hv) in K2. destruct B2 as (_ & (B2 & _) & _). cbn in K2.
    injection K2 as _ <-. discriminate.
  - destruct (proj1 (parse_exact sn1 s r1 Hb) K1) as (v & Es & Hv).
    rewrite Es, (parse_complete sn2 v r1 _ Hv) in K2. congruence.
Qed.

Lemma accept_no_overread s r e c : bytes s -> parse (Some c) s (Some no_error) = Ok (r, Some no_error) ->
  parse None s e = Ok (r, e).
Proof.
  intros Hb E. apply parse_exact in E; [|exact Hb]. destruct E as (v & -> & Hv). now apply parse_complete.
Qed.

(** ---- C10 ---- *)
Lemma space_skip s r : parse_space s (Some no_error) = (r, Some no_error) ->
  exists g, s = g ++ r /\ gap g /\ match r with [] => True | c :: _ => ~ s_ws c /\ c <> SLASH end.
Proof. apply space_ok_inv. Qed.

Lemma space_blank w r e : ws w -> (match r with [] => True | c :: _ => ~ s_ws c /\ c <> SLASH end) ->
  parse_space (w ++ r) e = (r, e).
Proof.
  intros Hw Hr. unfold parse_space.
  assert (space_loop false (w ++ r) = (false, r)) as ->; [|reflexivity].
  induction Hw as [|c w Hc Hw IH].
  - destruct r as [|c t]; [reflexivity|]. cbn [app space_loop].
    destruct (is_ws c) eqn:E; [apply is_ws_iff in E; tauto|]. cbn [negb].
    destruct (c =? SLASH) eqn:E2; [bool2prop; tauto|reflexivity].
  - cbn [app space_loop]. apply is_ws_iff in Hc. rewrite Hc. cbn [negb]. exact IH.
Qed.

(** a well-behaved comment: no "*/" between the opening and the closing marks *)
Lemma space_comment b r e : no_close (STAR :: b ++ [STAR]) -> ~ heads STAR r ->
  parse_space (SLASH :: STAR :: b ++ STAR :: SLASH :: r) e = parse_space r e.
Proof.
  intros Hn Hr. unfold parse_space.
  assert (space_loop false (SLASH :: STAR :: b ++ STAR :: SLASH :: r) = space_loop false r) as ->; [|reflexivity].
  transitivity (space_loop true ((STAR :: b) ++ STAR :: SLASH :: r)); [reflexivity|].
  rewrite comment_skip by exact Hn. cbn [space_loop]. change (is_ws SLASH) with false. cbn [negb].
  change (SLASH =? SLASH) with true. cbv iota. destruct r as [|c t]; [reflexivity|].
  destruct (c =? STAR) eqn:E; [|reflexivity]. bool2prop. subst c. exfalso. apply Hr. now exists t.
Qed.

Lemma comment_open u : no_close u -> space_loop true u = (true, []).
Proof.
  intros H. induction H as [|c|c d t Hcd H IH]; [reflexivity| |].
  - cbn. now destruct (c =? STAR).
  - cbn [space_loop]. cbn [space_loop] in IH. destruct (c =? STAR) eqn:E; [|exact IH].
    destruct (d =? SLASH) eqn:E2; [bool2prop; tauto|exact IH].
Qed.

Lemma space_unterminated w u e : ws w -> no_close (STAR :: u) ->
  parse_space (w ++ SLASH :: STAR :: u) e = ([], cerr UnexpectedEndFragment (Some (text "Unterminated comment")) 0 e).
Proof.
  intros Hw Hu. unfold parse_space.
  assert (space_loop false (w ++ SLASH :: STAR :: u) = (true, [])) as ->; [|reflexivity].
  induction Hw as [|c w Hc Hw IH].
  - transitivity (space_loop true (STAR :: u)); [reflexivity|]. now apply comment_open.
  - cbn [app space_loop]. apply is_ws_iff in Hc. rewrite Hc. cbn [negb]. exact IH.
Qed.

(** ---- C12: maximality of the consumed number ---- *)
Lemma number_total s : exists r e', parse_number s (Some no_error) = (r, e') /\
  (e' = Some no_error \/ exists j, e' = Some j /\ is_err j = true /\ r = []).
Proof.
  destruct (entry_safe 0 _ s (Some no_error) (pe_number _)) as (r & e' & E & _).
  pose proof (entry_error_end _ _ _ _ _ (pe_number (Some 0)) E) as K.
  injection E as E. exists r, e'. auto.
Qed.

(** number prefixes of one text: the one followed by [num_stop] is the longest *)
Lemma app_prefix (a b c d : buf) : a ++ b = c ++ d -> (length a <= length c)%nat -> exists x, c = a ++ x /\ b = x ++ d.
Proof.
  revert c. induction a as [|z a IH]; intros c E L; [exists c; auto|].
  destruct c as [|y c]; [cbn in L; lia|]. cbn in E. injection E as -> E. cbn in L.
  destruct (IH c E ltac:(lia)) as (x & -> & ->). exists x. auto.
Qed.

Lemma number_longest s n r n' r' : s = n ++ r -> rnumber n -> num_stop n r ->
  s = n' ++ r' -> rnumber n' -> (length n' <= length n)%nat.
Proof.
  intros E Hn Hs E' Hn'. destruct (Nat.le_gt_cases (length n') (length n)) as [L|L]; [exact L|]. exfalso.
  rewrite E in E'. destruct (app_prefix n r n' r' E' ltac:(lia)) as (x & -> & ->).
  assert (K : parse_number (n ++ x) None = (x, None)).
  { apply parse_number_app; [exact Hn|]. destruct x; [constructor|exact Hs]. }
  pose proof (parse_number_app (n ++ x) [] None Hn' I) as K'. rewrite app_nil_r in K'.
  assert (x = []) as -> by congruence. rewrite app_nil_r in L. lia.
Qed.

(** ---- C13 ---- *)
Lemma string_decides s : bytes s ->
  (exists k r, s = k ++ r /\ wstring k /\ parse_string s (Some no_error) = Ok (r, Some no_error)) \/
  ((forall k r, s = k ++ r -> ~ wstring k) /\ exists j, is_err j = true /\ parse_string s (Some no_error) = Ok ([], Some j)).
Proof.
  intros Hb. destruct (entry_safe 0 _ s (Some no_error) (pe_string _)) as (r & e' & E & _).
  destruct (entry_error_end _ _ _ _ _ (pe_string (Some 0)) E) as [->|(j & -> & Hj & ->)].
  - left. destruct (proj1 (parse_string_exact s r Hb) E) as (k & -> & Hk). exists k, r. auto.
  - right. split; [|exists j; auto]. intros k r -> Hk. rewrite (parse_string_app k r _ Hk) in E. injection E as _ <-. discriminate.
Qed.

(** ---- C60 ---- *)
Lemma t_value v : wvalue (116 :: v) -> 116 :: v = text "true".
Proof.
  intros H. remember (116 :: v) as x eqn:E. destruct H as [| | |n Hn|s Hs| | | | |]; try discriminate; try reflexivity.
  - destruct (rnumber_head _ Hn) as (c & t & E' & Hc). rewrite E' in E. injection E as -> _. unfold s_digit in Hc. lia.
  - destruct Hs. discriminate.
Qed.

Lemma trux_offending : offending (text "trux") 3.
Proof.
  split; [cbn; lia|]. split.
  - exists (text "e"). apply (wv_true).
  - intros (t & H). apply t_value in H. discriminate.
Qed.
