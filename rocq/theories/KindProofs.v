(** Proofs: the recognisers of the parser one by one, and the predicates that
    choose between them. *)
From Verif Require Import Base Parser SpecJson ParserFacts Grammar1 Grammar2 SpecExact ExactProofs ObjExactProofs SpecKinds.

Lemma value_array sn s e : is_array s = true -> is_object s = false -> parse_value sn s e = parse_array sn (parse_value sn) s e.
Proof.
  intros Ha Ho. unfold parse_value at 1. cbn [parse_value_f]. destruct s as [|c t]; [discriminate|]. assert (c = LBR) as -> by (cbn in Ha; lia).
  change (is_null (LBR :: t)) with false. change (is_bool (LBR :: t)) with false. change (is_number (LBR :: t)) with false. change (is_string (LBR :: t)) with false. rewrite Ho, Ha. cbv iota.
  unfold parse_array. rewrite Ha. cbn [negb step bind]. cbn [length]. apply items_fuel; try lia.
  - intros s' Hs'. apply parse_value_law. lia.
  - intros s' e' Hs'. unfold parse_value; apply parse_value_fuel; lia.
Qed.
Lemma value_object sn s e : is_object s = true -> parse_value sn s e = parse_object sn (parse_value sn) s e.
Proof.
  intros Ho. unfold parse_value at 1. cbn [parse_value_f]. destruct s as [|c t]; [discriminate|]. assert (Hc : c = LCB \/ c = LBR) by (cbn in Ho; destruct (c =? LCB) eqn:E1; [lia|]; destruct (c =? LBR) eqn:E2; [lia|discriminate]).
  assert (is_null (c :: t) = false /\ is_bool (c :: t) = false /\ is_number (c :: t) = false /\ is_string (c :: t) = false) as (-> & -> & -> & ->) by (destruct Hc as [->| ->]; repeat split). rewrite Ho. cbv iota.
  unfold parse_object. rewrite Ho. cbn [negb step bind]. cbn [length].
  destruct (space_good t) as (s1 & o1 & A1 & B1). rewrite A1. pose proof (suffix_len _ _ (proj1 B1)). destruct (starts RBR s1); [reflexivity|]. apply items_fuel; try lia.
  - intros s' Hs'. apply member_law. intros s'' Hs''. apply parse_value_law. lia.
  - intros s' e' Hs'. apply member_fuel. intros s'' e'' Hs''. unfold parse_value; apply parse_value_fuel; lia.
Qed.
Lemma heads_no_num a v : a <> MINUS -> ~ s_digit a -> heads a v -> ~ rnumber v.
Proof. intros H1 H2 (t & ->) H. destruct (rnumber_head _ H) as (c & t' & E & K). injection E as <- <-. tauto. Qed.
Lemma warray_iff v : warray v <-> wvalue v /\ heads LBR v.
Proof.
  split; [intros [g H|l H]; (split; [now constructor|now eexists])|]. intros [H (t & E)]. destruct H; try discriminate; try now constructor.
  - exfalso. apply (heads_no_num LBR n); [lia|unfold s_digit; lia|now exists t|assumption].
  - destruct H. discriminate.
Qed.
Lemma wobject_iff v : wobject v <-> wvalue v /\ heads LCB v \/ exists g, gap g /\ v = LBR :: g ++ [RBR].
Proof.
  split; [intros [g H|g H|g H|l H]; [left|left|right; now exists g|left]; (split; [now constructor|now eexists])|]. intros [[H (t & E)]|(g & H & ->)]; [|now constructor]. destruct H; try discriminate; try now constructor.
  - exfalso. apply (heads_no_num LCB n); [lia|unfold s_digit; lia|now exists t|assumption].
  - destruct H. discriminate.
Qed.
Lemma space_square t : starts RBR (fst (parse_space t None)) = true <-> exists g r, t = g ++ RBR :: r /\ gap g.
Proof.
  split.
  - unfold parse_space. destruct (space_loop false t) as [[|] r] eqn:E; cbn [fst]; [discriminate|]. intros H. destruct r as [|c r]; [discriminate|]. assert (c = RBR) as -> by (cbn in H; lia).
    assert (K : parse_space t (Some no_error) = (RBR :: r, Some no_error)) by (unfold parse_space; now rewrite E). apply space_ok_inv in K. destruct K as (g & -> & Hg & _). now exists g, r.
  - intros (g & r & -> & Hg). rewrite gap_parse_space; [reflexivity|exact Hg|apply closer_stop, rstop].
Qed.
Lemma is_object_iff s : is_object s = true <-> heads LCB s \/ exists g r, s = LBR :: g ++ RBR :: r /\ gap g.
Proof.
  destruct s as [|c t]; [split; [discriminate|intros [(x & E)|(g & r & E & _)]; discriminate]|]. cbn [is_object]. destruct (c =? LCB) eqn:E1; [split; [left; exists t; f_equal; lia|reflexivity]|].
  destruct (c =? LBR) eqn:E2; cbn [negb].
  - assert (c = LBR) as -> by lia. destruct (parse_space t None) as [r e] eqn:E. pose proof (space_square t) as K. rewrite E in K. cbn [fst] in K. rewrite K. split.
    + intros (g & r0 & -> & Hg). right. now exists g, r0.
    + intros [(x & D)|(g & r0 & D & Hg)]; [discriminate|]. injection D as ->. now exists g, r0.
  - split; [discriminate|]. intros [(x & D)|(g & r0 & D & Hg)]; injection D as -> _; discriminate.
Qed.
Lemma array_exact sn s r : bytes s -> parse_array sn (parse_value sn) s (Some no_error) = Ok (r, Some no_error) <-> exists v, s = v ++ r /\ warray v.
Proof.
  intros Hb. destruct (is_array s) eqn:Ha.
  2:{ unfold parse_array. rewrite Ha. cbn [negb]. split; [discriminate|]. intros (v & -> & Hv). exfalso. destruct Hv; discriminate. }
  assert (Hs : heads LBR s) by (destruct s as [|c t]; [discriminate|]; exists t; f_equal; cbn in Ha; lia).
  destruct (is_object s) eqn:Ho.
  - apply is_object_iff in Ho. destruct Ho as [(t & ->)|(g & r0 & -> & Hg)]; [destruct Hs; discriminate|]. unfold parse_array. rewrite Ha. cbn [negb step bind]. rewrite items_end; [|exact rstop|exact Hg]. split.
    + intros H. injection H as <-. exists (LBR :: g ++ [RBR]). split; [cbn [app]; now rewrite <- app_assoc|now constructor].
    + intros (v & E & Hv). f_equal. f_equal. destruct Hv as [g' H|l H].
      * cbn [app] in E. injection E as E. rewrite <- app_assoc in E. cbn [app] in E.
        assert (K1 := gap_parse_space g (RBR :: r0) (Some no_error) Hg (closer_stop _ _ rstop)). rewrite E, (gap_parse_space g' (RBR :: r) (Some no_error) H (closer_stop _ _ rstop)) in K1. now injection K1.
      * exfalso. cbn [app] in E. rewrite <- app_assoc in E. pose proof (is_object_head l ([RBR] ++ r) H) as K. cbn [app] in *. rewrite <- E in K. rewrite is_object_empty in K by exact Hg. discriminate.
  - rewrite <- value_array by assumption. pose proof (parse_exact sn s r Hb) as K. unfold parse in K. rewrite K. split; intros (v & -> & H); exists v; (split; [reflexivity|]).
    + apply warray_iff. split; [apply H|]. destruct (wvalue_head _ (proj1 H)) as (c & t & -> & _). destruct Hs as (x & E). injection E as -> _. now exists t.
    + apply warray_iff in H. destruct H as [H1 H2]. split; [exact H1|]. intros Hn. exfalso. apply (heads_no_num LBR v); [lia|unfold s_digit; lia|exact H2|exact Hn].
Qed.
Lemma object_exact' sn s r : bytes s -> parse_object sn (parse_value sn) s (Some no_error) = Ok (r, Some no_error) <-> exists v, s = v ++ r /\ wobject v.
Proof.
  intros Hb. destruct (is_object s) eqn:Ho.
  2:{ unfold parse_object. rewrite Ho. cbn [negb]. split; [discriminate|]. intros (v & -> & Hv). exfalso. apply Bool.not_true_iff_false in Ho. apply Ho, is_object_iff.
      destruct Hv as [g H|g H|g H|l H]; [left; now eexists|left; now eexists|right; exists g, r; split; [cbn [app]; now rewrite <- app_assoc|exact H]|left; now eexists]. }
  rewrite <- value_object by exact Ho. pose proof (parse_exact sn s r Hb) as K. unfold parse in K. rewrite K. apply is_object_iff in Ho. split; intros (v & -> & H); exists v; (split; [reflexivity|]).
  - apply wobject_iff. destruct (wvalue_head _ (proj1 H)) as (c & t & Ev & _). destruct Ho as [(x & E)|(g & r0 & E & Hg)].
    + left. split; [apply H|]. subst v. injection E as -> _. now exists t.
    + right. exists g. split; [exact Hg|]. assert (Ha : warray v) by (apply warray_iff; split; [apply H|]; subst v; injection E as -> _; now exists t).
      destruct Ha as [g' H'|l H'].
      * cbn [app] in E. injection E as E. rewrite <- app_assoc in E. cbn [app] in E. f_equal.
        assert (K1 := gap_parse_space g (RBR :: r0) (Some no_error) Hg (closer_stop _ _ rstop)). rewrite <- E, (gap_parse_space g' (RBR :: r) (Some no_error) H' (closer_stop _ _ rstop)) in K1. injection K1 as ->. now apply app_inv_tail in E; subst.
      * exfalso. cbn [app] in E. rewrite <- app_assoc in E. pose proof (is_object_head l ([RBR] ++ r) H') as K1. cbn [app] in *. rewrite E in K1. rewrite is_object_empty in K1 by exact Hg. discriminate.
  - assert (Hn : ~ rnumber v) by (destruct H; (eapply heads_no_num; [| |now eexists]); unfold s_digit; lia).
    split; [destruct H; now constructor|]. intros J. now destruct Hn.
Qed.

(** ---- the small recognisers ---- *)
Lemma lit_chain_iff lit : forall p t r, lit_chain lit p t = LMatch r <-> t = lit ++ r.
Proof.
  induction lit as [|x lit IH]; intros p t r; cbn [lit_chain app]; [split; [intros H; now injection H|now intros ->]|].
  destruct t as [|c t]; [split; discriminate|]. destruct (c =? x) eqn:E; [|split; [discriminate|intros H; injection H as -> _; lia]].
  rewrite IH. split; [intros ->; f_equal; lia|intros H; now injection H].
Qed.
Lemma finish_iff l n r : finish_lit l n (Some no_error) = (r, Some no_error) <-> l = LMatch r.
Proof. destruct l; cbn; split; try discriminate; [intros H; now injection H as ->|intros H; now injection H as ->]. Qed.
Lemma null_exact s r : parse_null s (Some no_error) = (r, Some no_error) <-> s = text "null" ++ r.
Proof.
  destruct s as [|c t]; [split; discriminate|]. cbn [parse_null]. destruct (c =? 110) eqn:E; [|split; [discriminate|intros H; injection H as -> _; discriminate]].
  rewrite finish_iff, lit_chain_iff. assert (c = 110) as -> by lia. split; [now intros ->|intros H; now injection H].
Qed.
Lemma bool_exact' s r : parse_bool s (Some no_error) = (r, Some no_error) <-> s = text "true" ++ r \/ s = text "false" ++ r.
Proof.
  destruct s as [|c t]; [split; [discriminate|intros [H|H]; discriminate]|]. cbn [parse_bool]. destruct (c =? 116) eqn:E; [|destruct (c =? 102) eqn:E2].
  - rewrite finish_iff, lit_chain_iff. assert (c = 116) as -> by lia. split; [intros ->; now left|intros [H|H]; [now injection H|discriminate]].
  - rewrite finish_iff, lit_chain_iff. assert (c = 102) as -> by lia. split; [intros ->; now right|intros [H|H]; [discriminate|now injection H]].
  - split; [discriminate|]. intros [H|H]; injection H as -> _; discriminate.
Qed.
Lemma integer_exact s r : parse_integer s (Some no_error) = (r, Some no_error) <-> exists m i, s = m ++ i ++ r /\ ropt_minus m /\ rint i /\ (i = [48] \/ nodig r).
Proof. split; [apply parse_integer_inv|]. intros (m & i & -> & H1 & H2 & H3). now apply parse_integer_app. Qed.
Lemma hex_app l : forall r e, Forall s_hex l -> hex_loop (length l) (l ++ r) e = (r, e).
Proof. induction l as [|c l IH]; intros r e H; [reflexivity|]. inversion H; subst. cbn [length app hex_loop]. rewrite (proj2 (is_hex_iff c)) by assumption. now apply IH. Qed.
Lemma hex_exact s r : parse_hex s (Some no_error) = (r, Some no_error) <-> exists l, s = l ++ r /\ length l = 4%nat /\ Forall s_hex l.
Proof.
  split.
  - unfold parse_hex. destruct s as [|c t]; [discriminate|]. apply hex_loop_inv.
  - intros (l & -> & E & H). unfold parse_hex. destruct (l ++ r) eqn:D; [destruct l; discriminate|]. rewrite <- D, <- E. now apply hex_app.
Qed.
Lemma utf8_exact c t r : bytes (c :: t) -> parse_utf8 c t (Some no_error) = (r, Some no_error) <-> c < 128 /\ r = t \/ exists n l, wlead c n /\ t = l ++ r /\ length l = n /\ Forall s_cont l.
Proof.
  intros Hb. inversion Hb as [|? ? Hc Ht]; subst. unfold parse_utf8. split.
  - rewrite utf8_conts_class by exact Hc. unfold lead_class. intros H.
    repeat match type of H with context [if ?b then _ else _] => destruct b eqn:? end; try discriminate.
    all: try (left; split; [lia|]; cbn in H; now injection H).
    all: apply utf8_part_inv in H; [|exact Ht]; destruct H as (l & -> & E & F); right; eexists _, l; split; [|split; [reflexivity|split; [exact E|exact F]]]; constructor; lia.
  - intros [[H ->]|(n & l & H1 & -> & H2 & H3)].
    + rewrite utf8_conts_class by exact Hc. unfold lead_class. replace (c <? 128) with true by lia. reflexivity.
    + destruct (wlead_range _ _ H1) as [_ ->]. now apply utf8_part_app.
Qed.

(** ---- the predicates ---- *)
Lemma starts_iff a s : starts a s = true <-> heads a s.
Proof. destruct s as [|c t]; cbn; [split; [discriminate|intros (x & H); discriminate]|]. split; [intros H; exists t; f_equal; lia|intros (x & H); injection H as -> _; lia]. Qed.
Lemma value_cases v : wvalue v -> v = text "null" \/ v = text "true" \/ v = text "false" \/ rnumber v \/ wstring v \/ warray v \/ wvalue v /\ heads LCB v.
Proof.
  intros H. assert (K := H). destruct H; try solve [auto 7]; [do 5 right; left; now constructor|do 5 right; left; now constructor| | |]; do 6 right; (split; [exact K|now eexists]).
Qed.
Lemma heads_app a v (r : buf) : v <> [] -> heads a (v ++ r) <-> heads a v.
Proof. destruct v as [|c t]; [easy|]. intros _. split; intros (x & H); injection H as -> _; now eexists. Qed.
Lemma number_first n r : rnumber n -> exists c t, n ++ r = c :: t /\ (c = MINUS \/ s_digit c).
Proof. intros H. destruct (rnumber_head _ H) as (c & t & -> & K). now exists c, (t ++ r). Qed.
Lemma is_number_iff s : is_number s = true <-> exists c t, s = c :: t /\ (c = MINUS \/ s_digit c).
Proof.
  destruct s as [|c t]; [split; [discriminate|intros (x & y & E & _); discriminate]|]. unfold is_number. rewrite orb_true_iff, Z.eqb_eq, is_digit_iff. split; [now exists c, t|]. intros (x & y & E & K). injection E as -> ->. exact K.
Qed.
Section Kinds.
  Context (v r : buf) (Hv : wvalue v).
  Lemma v_ne : v <> []. Proof. intros E. destruct (wvalue_head _ Hv) as (c & t & D & _). congruence. Qed.
  Lemma kind_null : is_null (v ++ r) = true <-> v = text "null".
  Proof.
    unfold is_null. rewrite starts_iff, heads_app by exact v_ne. split; [|intros ->; now eexists]. intros (t & E).
    destruct (value_cases v Hv) as [K|[K|[K|[K|[K|[K|[_ (x & K)]]]]]]]; try congruence; try (rewrite E in K; discriminate).
    - exfalso. apply (heads_no_num 110 v); [lia|unfold s_digit; lia|now exists t|exact K].
    - destruct K; discriminate.
    - destruct K; discriminate.
  Qed.
  Lemma kind_bool : is_bool (v ++ r) = true <-> v = text "true" \/ v = text "false".
  Proof.
    unfold is_bool. rewrite orb_true_iff, !starts_iff, !heads_app by exact v_ne. split; [|intros [-> | ->]; [left|right]; now eexists]. intros H.
    destruct (value_cases v Hv) as [K|[K|[K|[K|[K|[K|[_ (x & K)]]]]]]]; auto; exfalso.
    - rewrite K in H. destruct H as [(t & E)|(t & E)]; discriminate.
    - destruct H as [H|H]; (eapply heads_no_num; [| |exact H|exact K]); unfold s_digit; lia.
    - destruct K. destruct H as [(t & E)|(t & E)]; discriminate.
    - destruct K; destruct H as [(t & E)|(t & E)]; discriminate.
    - rewrite K in H. destruct H as [(t & E)|(t & E)]; discriminate.
  Qed.
  Lemma kind_number : is_number (v ++ r) = true <-> rnumber v.
  Proof.
    rewrite is_number_iff. split; [|intros H; now apply number_first]. intros (c & t & E & Hc). unfold s_digit in Hc.
    destruct (value_cases v Hv) as [K|[K|[K|[K|[K|[K|[_ (x & K)]]]]]]]; auto; exfalso; try (rewrite K in E; injection E as <- _; lia); destruct K; cbn [app] in E; injection E as <- _; lia.
  Qed.
  Lemma kind_string : is_string (v ++ r) = true <-> wstring v.
  Proof.
    unfold is_string. rewrite starts_iff, heads_app by exact v_ne. split; [|intros []; now eexists]. intros (t & E).
    destruct (value_cases v Hv) as [K|[K|[K|[K|[K|[K|[_ (x & K)]]]]]]]; auto; exfalso; try (rewrite E in K; discriminate).
    - apply (heads_no_num QT v); [lia|unfold s_digit; lia|now exists t|exact K].
    - destruct K; discriminate.
  Qed.
  Lemma kind_array : is_array (v ++ r) = true <-> warray v.
  Proof. unfold is_array. rewrite starts_iff, heads_app by exact v_ne. rewrite warray_iff. tauto. Qed.
  Lemma kind_object : is_object (v ++ r) = true <-> wobject v.
  Proof.
    rewrite is_object_iff, wobject_iff, heads_app by exact v_ne. split.
    - intros [H|(g & r0 & E & Hg)]; [left; now split|right]. assert (Ha : warray v) by (apply warray_iff; split; [exact Hv|]; destruct (wvalue_head _ Hv) as (c & t & Ev & _); rewrite Ev in E |- *; injection E as -> _; now exists t).
      destruct Ha as [g' H'|l H']; [now exists g'|]. exfalso. cbn [app] in E. rewrite <- app_assoc in E. pose proof (is_object_head l ([RBR] ++ r) H') as K1. cbn [app] in *. rewrite E in K1. rewrite is_object_empty in K1 by exact Hg. discriminate.
    - intros [[_ H]|(g & Hg & ->)]; [now left|right]. exists g, r. split; [cbn [app]; now rewrite <- app_assoc|exact Hg].
  Qed.
End Kinds.
Lemma is_space_iff s : is_space s = true <-> (exists c t, s = c :: t /\ s_ws c) \/ exists t, s = SLASH :: STAR :: t.
Proof.
  destruct s as [|c t]; [split; [discriminate|intros [(x & y & E & _)|(x & E)]; discriminate]|]. cbn [is_space]. destruct (is_ws c) eqn:E; [split; [left; exists c, t; split; [reflexivity|now apply is_ws_iff]|reflexivity]|].
  assert (N : ~ s_ws c) by (intros H; apply is_ws_iff in H; congruence). destruct (c =? SLASH) eqn:E2.
  - destruct t as [|d t]; [split; [discriminate|intros [(x & y & D & K)|(x & D)]; [injection D as <- <-; contradiction|discriminate]]|]. split.
    + intros H. right. exists t. f_equal; [lia|f_equal; lia].
    + intros [(x & y & D & K)|(x & D)]; [injection D as <- <-; contradiction|injection D as _ -> _; reflexivity].
  - split; [discriminate|]. intros [(x & y & D & K)|(x & D)]; [injection D as <- <-; contradiction|injection D as -> _; discriminate].
Qed.
Lemma gap_space_first s r : after_gap s r -> is_space s = true \/ r = s \/ exists t, s = SLASH :: t /\ ~ heads STAR t.
Proof.
  intros (g & -> & Hg & Hr). destruct Hg as [|c g Hc Hg|g Hn Hg|u g H1 H2 H3].
  - now right; left.
  - left. apply is_space_iff. left. now exists c, (g ++ r).
  - right. right. exists (g ++ r). split; [reflexivity|]. intros (t & E). destruct g as [|a g]; [|injection E as -> _; apply Hn; now exists g].
    cbn [app] in E. subst r. destruct Hr as (_ & _ & Hr). apply (Hr eq_refl []). reflexivity.
  - left. apply is_space_iff. right. destruct H1 as (x & E). destruct u as [|a u]; cbn [app] in *; [now eexists|]. injection E as -> _. now eexists.
Qed.
Lemma is_utf8_iff c t : bytes (c :: t) -> is_utf8 (c :: t) = true <-> c < 128 \/ exists n, wlead c n.
Proof.
  intros Hb. inversion Hb as [|? ? Hc Ht]; subst. cbn [is_utf8]. rewrite utf8_conts_class by exact Hc. unfold lead_class. split.
  - destruct (c <? 128) eqn:E1; [left; lia|]. destruct (c <? 192) eqn:E2; [discriminate|]. intros H. right.
    destruct (c <? 224) eqn:E3; [exists 1%nat; constructor; lia|]. destruct (c <? 240) eqn:E4; [exists 2%nat; constructor; lia|]. destruct (c <? 248) eqn:E5; [exists 3%nat; constructor; lia|].
    destruct (c <? 252) eqn:E6; [exists 4%nat; constructor; lia|]. destruct (c <? 254) eqn:E7; [exists 5%nat; constructor; lia|discriminate].
  - intros [H|(n & H)]; [replace (c <? 128) with true by lia; reflexivity|]. destruct (wlead_range _ _ H) as [_ K]. rewrite utf8_conts_class in K by exact Hc. unfold lead_class in K. now rewrite K.
Qed.
