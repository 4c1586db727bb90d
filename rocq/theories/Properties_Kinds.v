(** The recognisers of the parser one by one, and the predicates that choose
    between them. *)
From Verif Require Import Base Parser SpecJson ParserFacts Grammar1 Grammar2 SpecExact ExactProofs ObjExactProofs SpecKinds KindProofs Properties_Seq Properties_Object.

(** C100. Each public parse_ function succeeds exactly on its part of the grammar
    and stops behind it. *)
Theorem C100_null : forall s r, parse_null s (Some no_error) = (r, Some no_error) <-> s = text "null" ++ r.
Proof. exact null_exact. Qed.
Print Assumptions C100_null.
Theorem C100_bool : forall s r, parse_bool s (Some no_error) = (r, Some no_error) <-> s = text "true" ++ r \/ s = text "false" ++ r.
Proof. exact bool_exact'. Qed.
Print Assumptions C100_bool.
Theorem C100_integer : forall s r, parse_integer s (Some no_error) = (r, Some no_error) <->
  exists m i, s = m ++ i ++ r /\ ropt_minus m /\ rint i /\ (i = [48] \/ nodig r).
Proof. exact integer_exact. Qed.
Print Assumptions C100_integer.
Theorem C100_hex : forall s r, parse_hex s (Some no_error) = (r, Some no_error) <-> exists l, s = l ++ r /\ length l = 4%nat /\ Forall s_hex l.
Proof. exact hex_exact. Qed.
Print Assumptions C100_hex.
Theorem C100_utf8 : forall c t r, bytes (c :: t) -> (parse_utf8 c t (Some no_error) = (r, Some no_error) <->
  c < 128 /\ r = t \/ exists n l, wlead c n /\ t = l ++ r /\ length l = n /\ Forall s_cont l).
Proof. exact utf8_exact. Qed.
Print Assumptions C100_utf8.
Theorem C100_array : forall sn s r, bytes s ->
  (parse_array sn (parse_value sn) s (Some no_error) = Ok (r, Some no_error) <-> exists v, s = v ++ r /\ warray v).
Proof. exact array_exact. Qed.
Print Assumptions C100_array.
Theorem C100_object : forall sn s r, bytes s ->
  (parse_object sn (parse_value sn) s (Some no_error) = Ok (r, Some no_error) <-> exists v, s = v ++ r /\ wobject v).
Proof. exact object_exact'. Qed.
Print Assumptions C100_object.
Theorem C100_member : forall sn s r, bytes s ->
  (parse_member (parse_value sn) s (Some no_error) = Ok (r, Some no_error) <->
   exists n s1 s2 v, wchars n /\ s = QT :: n ++ QT :: s1 /\ after_gap s1 (COLON :: s2) /\ after_gap s2 (v ++ r) /\ waccept v r).
Proof.
  intros sn s r Hb. split.
  - intros H. apply passes_sound in H; [|exact Hb]. destruct H as (n & Hn & v & (s1 & s2 & E & H1 & H2 & _) & Hv). now exists n, s1, s2, v.
  - intros (n & s1 & s2 & v & Hn & E & H1 & H2 & Hv). apply (passes_complete sn n). split; [exact Hn|]. exists v. split; [|exact Hv]. exists s1, s2. repeat (split; [assumption|]).
    destruct (wvalue_head _ (proj1 Hv)) as (c & t & -> & _). discriminate.
Qed.
Print Assumptions C100_member.

(** The predicates look at the first byte only (is_object skips a gap), but in
    front of a value they tell its kind. *)
Theorem C100_kinds : forall v r, wvalue v ->
  (is_null (v ++ r) = true <-> v = text "null") /\ (is_bool (v ++ r) = true <-> v = text "true" \/ v = text "false") /\
  (is_number (v ++ r) = true <-> rnumber v) /\ (is_string (v ++ r) = true <-> wstring v) /\
  (is_array (v ++ r) = true <-> warray v) /\ (is_object (v ++ r) = true <-> wobject v).
Proof.
  intros v r H. split; [now apply kind_null|]. split; [now apply kind_bool|]. split; [now apply kind_number|]. split; [now apply kind_string|]. split; [now apply kind_array|now apply kind_object].
Qed.
Print Assumptions C100_kinds.
(** What no predicate recognises is no value; only empty arrays have two kinds. *)
Theorem C100_complete : forall v r, wvalue v ->
  is_null (v ++ r) || is_bool (v ++ r) || is_number (v ++ r) || is_string (v ++ r) || is_array (v ++ r) || is_object (v ++ r) = true.
Proof.
  intros v r H. rewrite !orb_true_iff, kind_null, kind_bool, kind_number, kind_string, kind_array, kind_object by exact H.
  destruct (value_cases v H) as [K|[K|[K|[K|[K|[K|K]]]]]]; try tauto. right. apply wobject_iff. now left.
Qed.
Print Assumptions C100_complete.
Theorem C100_both : forall s, is_array s = true -> is_object s = true -> exists g r, s = LBR :: g ++ RBR :: r /\ gap g.
Proof.
  intros s Ha Ho. apply is_object_iff in Ho. destruct Ho as [(t & ->)|H]; [discriminate|exact H].
Qed.
Print Assumptions C100_both.
Theorem C100_space : forall s, is_space s = true <-> (exists c t, s = c :: t /\ s_ws c) \/ exists t, s = SLASH :: STAR :: t.
Proof. exact is_space_iff. Qed.
Print Assumptions C100_space.
(** Where is_space sees nothing, parse_space skips nothing but a lone slash. *)
Theorem C100_no_space : forall s r, is_space s = false -> after_gap s r -> r = s \/ exists t, s = SLASH :: t /\ ~ heads STAR t.
Proof. intros s r H G. destruct (gap_space_first s r G) as [K|K]; [congruence|exact K]. Qed.
Print Assumptions C100_no_space.
Theorem C100_is_utf8 : forall s, bytes s -> (is_utf8 s = true <-> exists c t, s = c :: t /\ (c < 128 \/ exists n, wlead c n)).
Proof.
  intros [|c t] Hb.
  - split; [discriminate|]. intros (c & t & E & _). discriminate.
  - rewrite (is_utf8_iff c t Hb). split; [intros H; now exists c, t|]. intros (c' & t' & E & H). injection E as <- <-. exact H.
Qed.
Print Assumptions C100_is_utf8.
(** Nothing is of any kind. *)
Theorem C100_nothing : is_null [] = false /\ is_bool [] = false /\ is_number [] = false /\ is_string [] = false /\ is_array [] = false /\ is_object [] = false /\ is_space [] = false /\ is_utf8 [] = false.
Proof. repeat split. Qed.
Print Assumptions C100_nothing.

(** The predicates do not recognise values by themselves. *)
Theorem C100_prefix_refuted : ~ (forall s, bytes s -> is_null s = true -> exists r, s = text "null" ++ r).
Proof.
  intros H. destruct (H (text "nil")) as (r & E); [repeat (apply Forall_cons; [split; discriminate|]); apply Forall_nil|reflexivity|discriminate].
Qed.
Print Assumptions C100_prefix_refuted.

Example C100_ex_array : parse_array None (parse_value None) (jt "[1,'a',{} ] x") clean = Ok (text " x", clean). Proof. exq. Qed.
Example C100_ex_object : parse_object None (parse_value None) (jt "[ /*c*/ ]7") clean = Ok (text "7", clean) /\
  parse_object None (parse_value None) (jt "{'a':[1]}}") clean = Ok (text "}", clean). Proof. split; exq. Qed.
Example C100_ex_object_no : match parse_object None (parse_value None) (jt "[1]") clean with Ok (r, Some e) => r = [] /\ is_err e = true | _ => False end. Proof. split; exq. Qed.
Example C100_ex_member : parse_member (parse_value None) (jt "'k' : 1.5,") clean = Ok (text ",", clean). Proof. exq. Qed.
Example C100_ex_integer : parse_integer (text "-12.5") clean = (text ".5", clean) /\ parse_integer (text "012") clean = (text "12", clean). Proof. split; exq. Qed.
Example C100_ex_hex : parse_hex (text "0aF9x") clean = (text "x", clean). Proof. exq. Qed.
Example C100_ex_utf8 : parse_utf8 226 [130; 172; 65] clean = ([65], clean). Proof. exq. Qed.
Example C100_ex_kinds : map (fun s => (is_null s, is_bool s, is_number s, is_string s, is_array s, is_object s)) [jt "null"; jt "false,"; jt "-1"; jt "'a'"; jt "[1]"; jt "[ ]"; jt "{}"] =
  [(true, false, false, false, false, false); (false, true, false, false, false, false); (false, false, true, false, false, false); (false, false, false, true, false, false);
   (false, false, false, false, true, false); (false, false, false, false, true, true); (false, false, false, false, false, true)]. Proof. exq. Qed.
Example C100_ex_space : is_space (text "/*") = true /\ is_space (text "/ 1") = false /\ parse_space (text "/ 1") clean = (text "1", clean). Proof. split; [|split]; exq. Qed.
