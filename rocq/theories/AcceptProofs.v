(** Texts accepted by the typed readers are JSON in the parser's sense. *)
From Verif Require Import Base Parser SpecJson ParserFacts Grammar1 Grammar2 ErrPos ParserProps Out Number StringS Array Unord Object SpecObject ObjectArray Enum Wrap TimeSize Float
  CodecLaws NumberProofs StringProofs ArrayProofs UnordProofs ObjectProofs ObjectArrayProofs EnumProofs WrapProofs TimeProofs SizeProofs FloatProofs Desc DescProofs SpecAccept.

(** no error was reported: backwards, the record was clean before as well *)
Definition OKE (x : eptr) : Prop := exists k, x = Some k /\ is_err k = false.
Lemma OKE_cerr c m t e : c <> ValidJSON -> ~ OKE (cerr c m t e).
Proof.
  intros Hc (k & E & Hk). unfold cerr in E. destruct e as [j|]; [|discriminate]. destruct (is_err j) eqn:Ej; [congruence|].
  injection E as <-. destruct c; try discriminate Hk. now apply Hc.
Qed.
Lemma OKE_app e o s : rep_ok s o -> OKE (app_err e o) -> o = None.
Proof.
  intros H (k & E & Hk). destruct o as [j|]; [|reflexivity]. destruct H as [Hj _]. cbn in E. destruct e as [i|]; [|discriminate].
  destruct (is_err i) eqn:Ei; congruence.
Qed.
Lemma OKE_has x : OKE x -> has_err x = false. Proof. intros (k & -> & H). unfold has_err, no_err_yet. now rewrite H. Qed.
Lemma pg_ok f s e r x : pgood f s -> f s e = (r, x) -> OKE x -> e = x /\ f s (Some no_error) = (r, Some no_error).
Proof.
  intros (r0 & o & A & B) E Hx. rewrite A in E. injection E as <- <-. rewrite (OKE_app e o s (proj1 (proj2 B)) Hx) in *. cbn. split; [now destruct e|]. now rewrite A.
Qed.
Lemma rg_ok f s e r x sn : rlaw sn f s -> f s e = Ok (r, x) -> OKE x -> e = x /\ f s (Some no_error) = Ok (r, Some no_error).
Proof.
  intros [(r0 & o & A & B)|(_ & A)] E Hx; [|rewrite A in E; discriminate]. rewrite A in E. assert (r0 = r) by congruence. assert (X : app_err e o = x) by congruence. subst.
  rewrite (OKE_app e o s (proj1 (proj2 B)) Hx) in *. cbn. split; [now destruct e|]. now rewrite A.
Qed.
Lemma space_ok s e r x : parse_space s e = (r, x) -> OKE x -> e = x /\ exists g, s = g ++ r /\ gap g /\ stop' r.
Proof. intros E Hx. destruct (pg_ok _ _ _ _ _ (space_good s) E Hx) as [A B]. split; [exact A|]. now apply space_ok_inv. Qed.
Lemma value_ok sn s e r x : bytes s -> parse_value sn s e = Ok (r, x) -> OKE x -> e = x /\ exists p, s = p ++ r /\ wvalue p.
Proof.
  intros Hs E Hx. destruct (rg_ok _ _ _ _ _ sn (rlawS_rlaw _ _ _ (pv_law sn s)) E Hx) as [A B]. split; [exact A|].
  apply parse_exact in B; [|exact Hs]. destruct B as (v & -> & Hv & _). now exists v.
Qed.
Lemma member_ok sn s e r x : bytes s -> parse_member (parse_value sn) s e = Ok (r, x) -> OKE x -> e = x /\ exists p, s = p ++ r /\ memtext p.
Proof.
  intros Hs E Hx. destruct (rg_ok _ _ _ _ _ sn (rlawS_rlaw _ _ _ (pmember_law sn s)) E Hx) as [A B]. split; [exact A|].
  apply (member_sound sn (parse_value sn)) in B; [exact B| | |exact Hs].
  - intros z _. apply pv_law.
  - intros z q Hz Hq. destruct (value_ok sn z _ _ _ Hz Hq) as (_ & p & Hp); [now exists no_error|]. now exists p.
Qed.
Lemma null_ok s e r x : parse_null s e = (r, x) -> OKE x -> e = x /\ s = text "null" ++ r.
Proof.
  intros E Hx. destruct (pg_ok _ _ _ _ _ (null_good s) E Hx) as [A B]. split; [exact A|]. clear - B.
  unfold parse_null in B. destruct s as [|a s]; [discriminate|]. destruct (a =? 110) eqn:Ea; [|discriminate].
  unfold finish_lit in B. revert B. destruct s as [|b [|c [|d s]]]; cbn; repeat match goal with |- context [if ?z then _ else _] => destruct z eqn:? end; cbn; intros X;
    inversion X; subst; repeat match goal with H : (_ =? _) = true |- _ => apply Z.eqb_eq in H; subst end; reflexivity.
Qed.
Lemma bool_ok s e r x : parse_bool s e = (r, x) -> OKE x -> e = x /\ exists p, s = p ++ r /\ wvalue p.
Proof.
  intros E Hx. destruct (pg_ok _ _ _ _ _ (bool_good s) E Hx) as [A B]. split; [exact A|]. clear - B.
  assert (K : s = text "true" ++ r \/ s = text "false" ++ r).
  { unfold parse_bool in B. destruct s as [|a s]; [discriminate|]. unfold finish_lit in B. revert B.
    destruct s as [|b [|c [|d [|f s]]]]; cbn; repeat match goal with |- context [if ?z then _ else _] => destruct z eqn:? end; cbn; intros X;
    inversion X; subst; repeat match goal with H : (_ =? _) = true |- _ => apply Z.eqb_eq in H; subst end; (now left) || now right. }
  destruct K as [-> | ->]; eexists; (split; [reflexivity|constructor]).
Qed.

Section Laws.
  Context (Q : quirk -> Prop).
  Lemma tame_sub a p b : tame Q (a ++ p ++ b) -> tame Q p.
  Proof.
    intros (H1 & H2 & H3). split; [|split].
    - intros HQ. destruct (H1 HQ) as [X1 X2]. split.
      + intros u v ->. apply (X1 (a ++ u) (v ++ b)). now rewrite <- !app_assoc.
      + intros u c n l d v -> Hn Hl. apply (X2 (a ++ u) c n l d (v ++ b)); [|exact Hn|exact Hl].
        repeat (rewrite <- ?app_assoc; cbn [app]). reflexivity.
    - intros HQ u g v Hg ->. apply (H2 HQ (a ++ u) g (v ++ b) Hg). rewrite <- !app_assoc. cbn [app]. reflexivity.
    - intros HQ. specialize (H3 HQ). unfold printable in *. rewrite !Forall_app in H3. tauto.
  Qed.
  Lemma tame_l a b : tame Q (a ++ b) -> tame Q a. Proof. apply (tame_sub []). Qed.
  Lemma tame_r a b : tame Q (a ++ b) -> tame Q b. Proof. rewrite <- (app_nil_r b) at 1. apply tame_sub. Qed.
  Lemma tame_c c b : tame Q (c :: b) -> tame Q b. Proof. apply (tame_r [c]). Qed.

  (** blanks (in front of enumerators only), then an item *)
  Definition blanks (w : buf) : Prop := ws w /\ (w = [] \/ Q QEnum).
  Definition Wd (I : buf -> Prop) (p : buf) : Prop := exists w q, p = w ++ q /\ blanks w /\ I q.
  Notation V := (Wd wvalue).
  Lemma Wd0 (I : buf -> Prop) p : I p -> Wd I p. Proof. intros H. exists [], p. repeat split; [constructor|now left|exact H]. Qed.
  Lemma V0 p : wvalue p -> V p. Proof. apply Wd0. Qed.
  Definition keyI (p : buf) : Prop := wstring p \/ (p = text "null" /\ Q QKey).
  Definition acc {A} (I : buf -> Prop) (d : option Z -> A -> buf -> eptr -> res (A * buf * eptr)) : Prop := dlaw d /\
    forall sn old s e v r x, bytes s -> d sn old s e = Ok (v, r, x) -> OKE x -> e = x /\ exists p, s = p ++ r /\ (tame Q p -> Wd I p).

  Ltac nope := match goal with H : OKE (cerr _ _ _ _) |- _ => exfalso; revert H; apply OKE_cerr; discriminate end.
  Ltac inj E := first [ injection E as <- <- <- | injection E as ? ? ?; subst ].
  Ltac err E := inversion E; subst; nope.
  Ltac nul E Hx := match type of E with context [parse_null ?s ?e] =>
    let r0 := fresh "r0" in let y0 := fresh "y0" in let En := fresh "En" in
    destruct (parse_null s e) as [r0 y0] eqn:En; inversion E; subst; destruct (null_ok _ _ _ _ En Hx) as [? ?];
    split; [assumption|]; exists (text "null"); split; [assumption|]; intros _; apply V0; constructor end.
  Ltac spc E := match type of E with context [parse_space ?s ?e] =>
    let r0 := fresh "s1" in let y0 := fresh "x1" in let En := fresh "Esp" in destruct (parse_space s e) as [r0 y0] eqn:En end.
  Ltac bnd E v r y Ev := match type of E with bind ?m _ = _ => destruct m as [[[v r] y]| |] eqn:Ev; cbn [bind] in E; [|discriminate E|discriminate E] end.
  Ltac norm := repeat (rewrite <- ?app_assoc; cbn [app]).

  (** ---- leaves ---- *)
  Lemma int_loop_split t : forall s v w r, int_loop t v s = Ok (w, r) -> exists ds, s = ds ++ r /\ digits ds.
  Proof.
    induction s as [|c s IH]; intros v w r E; cbn [int_loop] in E; [injection E as <- <-; now exists []; split; [|constructor]|].
    destruct (is_digit c) eqn:Ec; cbn [negb] in E; [|injection E as <- <-; now exists []; split; [|constructor]].
    destruct (iarith _ (v * 10)); cbn [bind] in E; try discriminate. destruct (iarith _ (_ + _)); cbn [bind] in E; try discriminate.
    destruct (IH _ _ _ E) as (ds & -> & Hd). exists (c :: ds). split; [reflexivity|]. constructor; [now apply is_digit_iff|exact Hd].
  Qed.
  Lemma int_acc t : acc wvalue (int_des t).
  Proof.
    split; [apply int_dlaw|]. intros sn old s e v r x Hs E Hx. unfold int_des in E. destruct (is_null s); [nul E Hx|].
    unfold unserialize_integer in E. destruct s as [|c t0]; [err E|]. cbv zeta in E.
    assert (K : forall m s1, c :: t0 = m ++ s1 -> ropt_minus m ->
      match s1 with
      | [] => Ok (0, [], cerr InvalidNumber None (dist s1) e)
      | d :: r =>
        if negb (is_digit d) then Ok (0, [], cerr InvalidNumber None (dist s1) e)
        else if d =? 48 then Ok (0, r, e)
        else
          let* (v, s2) := int_loop t 0 s1 in
          if c =? MINUS then
            let* w := iarith (ipromote t) (- v) in
            Ok (icast t w, s2, e)
          else Ok (v, s2, e)
      end = Ok (v, r, x) -> e = x /\ exists p, c :: t0 = p ++ r /\ (tame Q p -> V p)).
    { intros m s1 -> Hm E1. destruct s1 as [|d r1]; [err E1|]. destruct (is_digit d) eqn:Ed; cbn [negb] in E1; [|err E1].
      apply is_digit_iff in Ed. assert (R : forall i, rint i -> V (m ++ i)).
      { intros i Hi. apply V0, wv_num. pose proof (rnum m i [] [] Hm Hi rf_none re_none) as R. now rewrite !app_nil_r in R. }
      destruct (d =? 48) eqn:E48.
      - inversion E1; subst. split; [reflexivity|]. apply Z.eqb_eq in E48. subst d. exists (m ++ [48]). split; [norm; reflexivity|]. intros _. apply R. constructor.
      - destruct (int_loop t 0 (d :: r1)) as [[w s2]| |] eqn:El; cbn [bind] in E1; try discriminate.
        destruct (int_loop_split _ _ _ _ _ El) as (ds & Ed' & Hds).
        assert (Hr : s2 = r /\ e = x).
        { destruct (c =? MINUS); [destruct (iarith _ (- w)); cbn [bind] in E1; try discriminate|]; inversion E1; now subst. }
        destruct Hr as [-> ->]. split; [reflexivity|]. rewrite Ed'. destruct ds as [|d' ds].
        { exfalso. cbn in Ed'. subst r. clear - El Ed. cbn [int_loop] in El. apply is_digit_iff in Ed. rewrite Ed in El. cbn [negb] in El.
          destruct (iarith _ (0 * 10)); cbn [bind] in El; try discriminate. destruct (iarith _ (_ + _)); cbn [bind] in El; try discriminate.
          destruct (int_loop_split _ _ _ _ _ El) as (ds & K & _). apply (f_equal (@length Z)) in K. rewrite app_length in K. cbn in K. lia. }
        injection Ed' as -> ->. exists (m ++ d' :: ds). split; [norm; reflexivity|]. intros _. apply R. inversion Hds; subst. constructor; [unfold s_digit in *; lia|assumption]. }
    destruct (c =? MINUS) eqn:Em.
    - apply Z.eqb_eq in Em. subst c. apply (K [MINUS] t0); [reflexivity|constructor|exact E].
    - apply (K [] (c :: t0)); [reflexivity|constructor|exact E].
  Qed.
  Lemma bool_acc : acc wvalue bool_des.
  Proof.
    split; [apply bool_dlaw|]. intros sn old s e v r x Hs E Hx. unfold bool_des in E. destruct s as [|c t]; [err E|].
    destruct (is_null (c :: t)); [nul E Hx|].
    assert (K : forall b, (let '(r0, e') := parse_bool (c :: t) e in Ok (b, r0, e')) = Ok (v, r, x) -> e = x /\ exists p, c :: t = p ++ r /\ (tame Q p -> V p)).
    { intros b E1. destruct (parse_bool (c :: t) e) as [r0 y0] eqn:En. inversion E1; subst. destruct (bool_ok _ _ _ _ En Hx) as (A & p & B & C).
      split; [exact A|]. exists p. split; [exact B|]. intros _. now apply V0. }
    destruct (c =? 116); [exact (K _ E)|]. destruct (c =? 102); [exact (K _ E)|err E].
  Qed.
  Lemma float_acc A R fmt scan zero : acc wvalue (des (float_codec (A := A) R fmt scan zero)).
  Proof.
    split; [apply float_dlaw|]. intros sn old s e v r x Hs E Hx. cbn [des float_codec] in E. unfold float_des in E. destruct s as [|c t]; [err E|].
    destruct (is_null (c :: t)); [nul E Hx|]. destruct (negb _); [err E|]. cbv zeta in E.
    destruct (parse_number (c :: t) e) as [r0 y0] eqn:En. inversion E; subst. destruct (pg_ok _ _ _ _ _ (number_good (c :: t)) En Hx) as [X B].
    split; [exact X|]. apply parse_number_exact in B. destruct B as (n & -> & Hn & _). exists n. split; [reflexivity|]. intros _. now apply V0, wv_num.
  Qed.
  Lemma raw_acc : acc wvalue raw_des.
  Proof.
    split; [apply raw_dlaw|]. intros sn old s e v r x Hs E Hx. unfold raw_des in E.
    destruct (parse_value sn s e) as [[r0 y0]| |] eqn:En; cbn [bind] in E; try discriminate. inversion E; subst.
    destruct (value_ok _ _ _ _ _ Hs En Hx) as (A & p & B & C). split; [exact A|]. exists p. split; [exact B|]. intros _. now apply V0.
  Qed.
  Lemma rquoted_acc : acc wvalue (rquoted_des false).
  Proof.
    split; [apply rquoted_dlaw|]. intros sn old s e v r x Hs E Hx. unfold rquoted_des in E. destruct s as [|c t]; [err E|]. cbn [andb] in E. cbv zeta in E.
    destruct (parse_value sn (c :: t) e) as [[r0 y0]| |] eqn:En; cbn [bind] in E; try discriminate.
    assert (X : r0 = r /\ y0 = x) by (destruct (has_err y0); inversion E; now subst). destruct X as [-> ->].
    destruct (value_ok _ _ _ _ _ Hs En Hx) as (A & p & B & C). split; [exact A|]. exists p. split; [exact B|]. intros _. now apply V0.
  Qed.

  (** ---- strings ---- *)
  Lemma uchar2_ok c e d x : uchar2 c e = (d, x) -> OKE x -> e = x /\ s_hex c.
  Proof.
    unfold uchar2. unfold s_hex. destruct ((48 <=? c) && (c <=? 57)) eqn:E1; [intros H; inversion H; subst; split; [reflexivity|lia]|].
    destruct ((97 <=? c) && (c <=? 102)) eqn:E2; [intros H; inversion H; subst; split; [reflexivity|lia]|].
    destruct ((65 <=? c) && (c <=? 70)) eqn:E3; [intros H; inversion H; subst; split; [reflexivity|lia]|].
    intros H Hx. err H.
  Qed.
  Lemma uhex_emit_ok h cur s n e r w n' x : uhex_emit h cur s n e = (r, w, n', x) -> OKE x -> e = x /\ r = s.
  Proof.
    unfold uhex_emit. cbv zeta. intros H Hx. revert H. repeat match goal with |- (if ?b then _ else _) = _ -> _ => destruct b end; intros H; inversion H; subst; try nope; now split.
  Qed.
  Lemma uhex_ok s n e r w n' x : n <> 0 -> uhex s n e = (r, w, n', x) -> OKE x -> e = x /\ exists a b c d, s = a :: b :: c :: d :: r /\ s_hex a /\ s_hex b /\ s_hex c /\ s_hex d.
  Proof.
    unfold uhex. intros Hn H Hx. destruct (n =? 0) eqn:En; [lia|].
    destruct s as [|a s]; [err H|]. destruct (uchar2 a e) as [da x1] eqn:Ea.
    destruct s as [|b s]; [err H|]. destruct (uchar2 b x1) as [db x2] eqn:Eb.
    destruct s as [|c s]; [err H|]. destruct (uchar2 c x2) as [dc x3] eqn:Ec.
    destruct s as [|d s]; [err H|]. destruct (uchar2 d x3) as [dd x4] eqn:Ed.
    destruct (uhex_emit_ok _ _ _ _ _ _ _ _ _ H Hx) as [-> ->]. destruct (uchar2_ok _ _ _ _ Ed Hx) as [-> Hd]. destruct (uchar2_ok _ _ _ _ Ec Hx) as [-> Hc].
    destruct (uchar2_ok _ _ _ _ Eb Hx) as [-> Hb]. destruct (uchar2_ok _ _ _ _ Ea Hx) as [-> Ha]. split; [reflexivity|]. now exists a, b, c, d.
  Qed.
  Lemma xhex_ok s n e r w n' x : xhex s n e = (r, w, n', x) -> OKE x -> e = x /\ exists a b, s = a :: b :: r.
  Proof.
    unfold xhex. intros H Hx. destruct s as [|a s]; [err H|]. destruct (uchar2 a e) as [da x1] eqn:Ea.
    destruct s as [|b s]; [err H|]. destruct (uchar2 b x1) as [db x2] eqn:Eb. inversion H; subst.
    destruct (uchar2_ok _ _ _ _ Eb Hx) as [-> Hb]. destruct (uchar2_ok _ _ _ _ Ea Hx) as [-> Ha]. split; [reflexivity|]. now exists a, b.
  Qed.
  Lemma utf8_copy_ok k : forall s n e r w n' x, utf8_copy k s n e = (r, w, n', x) -> OKE x -> s = w ++ r /\ e = x /\ (length w <= k)%nat /\ ((length w < k)%nat -> n' = 0).
  Proof.
    induction k as [|k IH]; intros s n e r w n' x H Hx; cbn [utf8_copy] in H; [inversion H; subst; cbn; repeat split; lia|].
    destruct (n =? 0) eqn:En; [inversion H; subst; cbn; repeat split; lia|].
    destruct s as [|c t]; [err H|].
    destruct (utf8_copy k t (n - 1) e) as [[[r0 w0] n0] e0] eqn:E. inversion H; subst. destruct (IH _ _ _ _ _ _ _ E Hx) as (-> & -> & Hl & Hk). cbn.
    repeat split; lia.
  Qed.
  Definition lead_ok (c : Z) : bool :=
    (if Z.land c 128 =? 0 then c <? 128 else true) &&
    (if Z.land c 224 =? 192 then (192 <=? c) && (c <=? 223) else true) &&
    (if Z.land c 240 =? 224 then (224 <=? c) && (c <=? 239) else true) &&
    (if Z.land c 248 =? 240 then (240 <=? c) && (c <=? 247) else true).
  Lemma lead_class_ok c : 0 <= c <= 255 -> lead_ok c = true. Proof. apply byte_sweep. vm_compute. reflexivity. Qed.
  Lemma full_multi c k l : wlead c k -> length l = k -> full_chars (c :: l) -> wchar (c :: l).
  Proof.
    intros Hk Hl Hf. apply (wc_multi c k l Hk Hl). apply Forall_forall. intros d Hd. apply in_split in Hd. destruct Hd as (l1 & l2 & ->).
    apply (Hf [] c k l1 d l2); [reflexivity|exact Hk|]. rewrite app_length in Hl. cbn in Hl. lia.
  Qed.
  (** one step outside escapes: a whole character, or one cut short *)
  Lemma unutf8_ok c t n e r w n' x : 0 <= c <= 255 -> c <> QT -> c <> BSL -> n <> 0 -> unutf8 c t n e = (r, w, n', x) -> OKE x ->
    e = x /\ exists l, t = l ++ r /\ ((full_chars (c :: l) -> wchar (c :: l)) \/ (n' = 0 /\ exists k, wlead c k /\ (length l < k)%nat)).
  Proof.
    intros Hc Hq Hb Hn H Hx. pose proof (lead_class_ok c Hc) as K. unfold lead_ok in K. unfold unutf8 in H.
    destruct (Z.land c 128 =? 0).
    { inversion H; subst. split; [reflexivity|]. exists []. split; [reflexivity|]. left. intros _. apply wc_plain; lia. }
    assert (G : forall k, wlead c k -> utf8_copy (S k) (c :: t) n e = (r, w, n', x) -> e = x /\ exists l, t = l ++ r /\
      ((full_chars (c :: l) -> wchar (c :: l)) \/ (n' = 0 /\ exists k, wlead c k /\ (length l < k)%nat))).
    { intros k Hk E. cbn [utf8_copy] in E. destruct (n =? 0) eqn:En; [lia|].
      destruct (utf8_copy k t (n - 1) e) as [[[r0 w0] n0] e0] eqn:E0. inversion E; subst.
      destruct (utf8_copy_ok _ _ _ _ _ _ _ _ E0 Hx) as (-> & -> & Hl & Hlt). split; [reflexivity|]. exists w0. split; [reflexivity|].
      destruct (Nat.eq_dec (length w0) k) as [Hw|Hw]; [left; now apply full_multi with k|right].
      split; [apply Hlt; lia|]. exists k. split; [exact Hk|lia]. }
    destruct (Z.land c 224 =? 192). { apply (G 1%nat); [|exact H]. constructor. lia. }
    destruct (Z.land c 240 =? 224). { apply (G 2%nat); [|exact H]. constructor. lia. }
    destruct (Z.land c 248 =? 240). { apply (G 3%nat); [|exact H]. constructor. lia. }
    err H.
  Qed.
  Lemma unescape_ok d b : unescape d = Some b -> s_esc d.
  Proof. unfold unescape, s_esc. repeat match goal with |- context [if ?z then _ else _] => destruct z eqn:? end; intros; try discriminate; lia. Qed.
  Lemma full_sub a p : full_chars (a ++ p) -> full_chars p.
  Proof. intros H u c n l d v -> Hn Hl. apply (H (a ++ u) c n l d v); [now rewrite <- app_assoc|exact Hn|exact Hl]. Qed.
  Lemma full_pre p b : full_chars (p ++ b) -> full_chars p.
  Proof. intros H u c n l d v -> Hn Hl. apply (H u c n l d (v ++ b)); [|exact Hn|exact Hl]. norm. reflexivity. Qed.
  Lemma nox_sub a p : no_xesc (a ++ p) -> no_xesc p.
  Proof. intros H u v ->. apply (H (a ++ u) v). now rewrite <- app_assoc. Qed.
  Lemma str_loop_ok f : forall s n e out r x out', bytes s -> 0 <= n -> str_loop f s n e out = Ok (inl (QT :: r, x, out')) -> OKE x ->
    e = x /\ exists p, s = p ++ QT :: r /\ (no_xesc p -> full_chars (p ++ [QT]) -> wchars p).
  Proof.
    induction f as [|f IH]; intros s n e out r x out' Hs Hn0 E Hx; [discriminate|]. cbn [str_loop] in E. destruct s as [|c t]; [discriminate|].
    inversion Hs as [|? ? Hc Ht]; subst.
    destruct ((c =? QT) || (n =? 0)) eqn:E0.
    { inversion E; subst. split; [reflexivity|]. exists []. split; [reflexivity|constructor]. }
    assert (Hn1 : 1 <= n) by lia. destruct (c =? BSL) eqn:Eb.
    - apply Z.eqb_eq in Eb. subst c. destruct t as [|d t]; [discriminate|]. inversion Ht as [|? ? Hd Ht']; subst.
      destruct (unescape d) as [b|] eqn:Eu.
      { assert (Hn2 : 0 <= n - 1) by lia. destruct (IH _ _ _ _ _ _ _ Ht' Hn2 E Hx) as (-> & p & -> & Hp). split; [reflexivity|]. exists (BSL :: d :: p). split; [reflexivity|]. intros X F.
        apply (wcs_cons [BSL; d]); [apply wc_esc; now apply unescape_ok in Eu|]. apply Hp; [now apply (nox_sub [BSL; d])|now apply (full_sub [BSL; d])]. }
      destruct (d =? 117) eqn:E117.
      { apply Z.eqb_eq in E117. subst d. pose proof (uhex_good t n e Hn1) as G. destruct (uhex t n e) as [[[r0 w0] n0] x0] eqn:Eh. destruct G as ((z & G) & _ & _ & Gn).
        assert (Hb0 : bytes r0) by (rewrite G in Ht'; now apply Forall_app in Ht').
        destruct (IH _ _ _ _ _ _ _ Hb0 (Gn Hn0) E Hx) as (-> & p & -> & Hp). assert (Hn3 : n <> 0) by lia. destruct (uhex_ok _ _ _ _ _ _ _ Hn3 Eh Hx) as (-> & a & b & c & d & Et & Ha & Hb & Hc' & Hd').
        split; [reflexivity|]. exists ([BSL; 117; a; b; c; d] ++ p). split; [now rewrite Et|]. intros X F.
        apply wcs_cons; [now apply wc_u|]. apply Hp; [now apply (nox_sub [BSL; 117; a; b; c; d])|now apply (full_sub [BSL; 117; a; b; c; d])]. }
      destruct (d =? 120) eqn:E120; [|discriminate].
      apply Z.eqb_eq in E120. subst d. pose proof (xhex_good t n e Hn1) as G. destruct (xhex t n e) as [[[r0 w0] n0] x0] eqn:Eh. destruct G as ((z & G) & _ & _ & Gn).
      assert (Hb0 : bytes r0) by (rewrite G in Ht'; now apply Forall_app in Ht').
      destruct (IH _ _ _ _ _ _ _ Hb0 (Gn Hn0) E Hx) as (-> & p & -> & Hp). destruct (xhex_ok _ _ _ _ _ _ _ Eh Hx) as (-> & a & b & Et).
      split; [reflexivity|]. exists ([BSL; 120; a; b] ++ p). split; [now rewrite Et|]. intros X. exfalso. now apply (X [] (a :: b :: p)).
    - pose proof (unutf8_good c t n e Hn1) as (G1 & G). destruct (unutf8 c t n e) as [[[r0 w0] n0] x0] eqn:Eh. cbn [fst snd] in G. destruct G1 as (_ & _ & _ & Gn). destruct G as (z & G).
      assert (Hb0 : bytes r0) by (rewrite G in Ht; now apply Forall_app in Ht).
      destruct (IH _ _ _ _ _ _ _ Hb0 (Gn Hn0) E Hx) as (-> & p & -> & Hp).
      destruct (unutf8_ok c t n e _ _ _ _ Hc ltac:(lia) ltac:(lia) ltac:(lia) Eh Hx) as (-> & l & -> & [Hl|(-> & k & Hk & Hl)]).
      + split; [reflexivity|]. exists ((c :: l) ++ p). split; [cbn; now rewrite <- app_assoc|]. intros X F. apply wcs_cons.
        * apply Hl. rewrite <- app_assoc in F. now apply full_pre in F.
        * apply Hp; [now apply (nox_sub (c :: l))|]. rewrite <- app_assoc in F. now apply full_sub in F.
      + split; [reflexivity|]. destruct f as [|f]; [discriminate|]. cbn [str_loop] in E. destruct p as [|d p].
        * exists (c :: l). split; [reflexivity|]. intros _ F. exfalso. specialize (F [] c k l QT [] eq_refl Hk Hl). unfold s_cont in F. lia.
        * cbn [app] in E. rewrite Bool.orb_true_r in E. injection E as E1 E2 E3. exfalso. apply (f_equal (@length Z)) in E2. rewrite app_length in E2. cbn in E2. lia.
  Qed.
  Lemma str_loop_inr f : forall s n e out x out', str_loop f s n e out = Ok (inr (x, out')) -> ~ OKE x.
  Proof.
    induction f as [|f IH]; intros s n e out x out' E Hx; [discriminate|]. cbn [str_loop] in E. destruct s as [|c t]; [discriminate|].
    destruct (_ || _); [discriminate|]. destruct (c =? BSL).
    - destruct t as [|d t]; [err E|]. destruct (unescape d); [exact (IH _ _ _ _ _ _ E Hx)|].
      destruct (d =? 117). { destruct (uhex t n e) as [[[? ?] ?] ?]. exact (IH _ _ _ _ _ _ E Hx). }
      destruct (d =? 120); [|err E]. destruct (xhex t n e) as [[[? ?] ?] ?]. exact (IH _ _ _ _ _ _ E Hx).
    - destruct (unutf8 c t n e) as [[[? ?] ?] ?]. exact (IH _ _ _ _ _ _ E Hx).
  Qed.
  Lemma str_ok s n e w r x : bytes s -> 0 <= n -> str_unser s n e = Ok (w, r, x) -> OKE x -> e = x /\ exists p, s = p ++ r /\ (no_xesc p -> full_chars p -> wstring p).
  Proof.
    intros Hs Hn E Hx. unfold str_unser in E. destruct s as [|c t]; [err E|]. destruct (c =? QT) eqn:Ec; cbn [negb] in E; [|err E].
    apply Z.eqb_eq in Ec. subst c. inversion Hs as [|? ? Hc Ht]; subst.
    destruct (str_loop (S (length t)) t n e []) as [[[[s1 e1] o1]|[e1 o1]]| |] eqn:El; cbn [bind] in E; try discriminate.
    - destruct s1 as [|d t1]; [err E|]. destruct (d =? QT) eqn:Ed; cbn [negb] in E; [|err E]. apply Z.eqb_eq in Ed. subst d. inversion E; subst.
      destruct (str_loop_ok _ _ _ _ _ _ _ _ Ht Hn El Hx) as (-> & p & -> & Hp). split; [reflexivity|]. exists (QT :: p ++ [QT]).
      split; [norm; reflexivity|]. intros X F. constructor. apply Hp.
      + intros a b Hab. apply (X (QT :: a) (b ++ [QT])). rewrite Hab. norm. reflexivity.
      + now apply (full_sub [QT]).
    - inversion E; subst. exfalso. exact (str_loop_inr _ _ _ _ _ _ _ El Hx).
  Qed.
  Context (HS : Q QStr).
  Lemma string_ok sn old s e w r x : bytes s -> string_des sn old s e = Ok (w, r, x) -> OKE x ->
    e = x /\ exists p, s = p ++ r /\ (tame Q p -> wstring p \/ p = text "null").
  Proof.
    intros Hs E Hx. unfold string_des in E. destruct (is_null s).
    - destruct (parse_null s e) as [r0 y0] eqn:En. inversion E; subst. destruct (null_ok _ _ _ _ En Hx) as [? ?]. split; [assumption|].
      exists (text "null"). split; [assumption|]. now right.
    - assert (HM : 0 <= INT_MAX) by (unfold INT_MAX; lia). destruct (str_ok _ _ _ _ _ _ Hs HM E Hx) as (A & p & B & C). split; [exact A|]. exists p. split; [exact B|].
      intros (T & _). destruct (T HS). left. now apply C.
  Qed.
  Lemma chars_ok N sn old s e w r x : bytes s -> chars_des N sn old s e = Ok (w, r, x) -> OKE x ->
    e = x /\ exists p, s = p ++ r /\ (tame Q p -> wstring p \/ p = text "null").
  Proof.
    intros Hs E Hx. unfold chars_des in E. destruct (is_null s).
    - destruct (parse_null s e) as [r0 y0] eqn:En. inversion E; subst. destruct (null_ok _ _ _ _ En Hx) as [? ?]. split; [assumption|].
      exists (text "null"). split; [assumption|]. now right.
    - destruct (str_unser s (Z.of_nat N) e) as [[[w0 r0] y0]| |] eqn:Es; cbn [bind] in E; try discriminate. destruct (_ <? _)%nat; [discriminate|].
      inversion E; subst. destruct (str_ok _ _ _ _ _ _ Hs (Nat2Z.is_nonneg N) Es Hx) as (A & p & B & C). split; [exact A|]. exists p. split; [exact B|].
      intros (T & _). destruct (T HS). left. now apply C.
  Qed.
  Lemma strnull_V p : wstring p \/ p = text "null" -> V p.
  Proof. intros [H| ->]; apply V0; now constructor. Qed.
  Lemma string_acc : acc wvalue string_des.
  Proof.
    split; [apply string_dlaw|]. intros sn old s e v r x Hs E Hx. destruct (string_ok _ _ _ _ _ _ _ Hs E Hx) as (A & p & B & C).
    split; [exact A|]. exists p. split; [exact B|]. intros T. now apply strnull_V, C.
  Qed.
  Lemma chars_acc N : acc wvalue (chars_des N).
  Proof.
    split; [apply chars_dlaw|]. intros sn old s e v r x Hs E Hx. destruct (chars_ok _ _ _ _ _ _ _ _ Hs E Hx) as (A & p & B & C).
    split; [exact A|]. exists p. split; [exact B|]. intros T. now apply strnull_V, C.
  Qed.
  Lemma string_kacc : Q QKey -> acc keyI string_des.
  Proof.
    intros HK. split; [apply string_dlaw|]. intros sn old s e v r x Hs E Hx. destruct (string_ok _ _ _ _ _ _ _ Hs E Hx) as (A & p & B & C).
    split; [exact A|]. exists p. split; [exact B|]. intros T. apply Wd0. destruct (C T); [now left|now right].
  Qed.
  Lemma chars_kacc N : Q QKey -> acc keyI (chars_des N).
  Proof.
    intros HK. split; [apply chars_dlaw|]. intros sn old s e v r x Hs E Hx. destruct (chars_ok _ _ _ _ _ _ _ _ Hs E Hx) as (A & p & B & C).
    split; [exact A|]. exists p. split; [exact B|]. intros T. apply Wd0. destruct (C T); [now left|now right].
  Qed.
  Lemma dl_ok A (d : option Z -> A -> buf -> eptr -> res (A * buf * eptr)) sn old s e v r x : dlaw d -> d sn old s e = Ok (v, r, x) -> OKE x -> e = x.
  Proof.
    intros H E (k & -> & Hk). specialize (H sn old s e). rewrite E in H. destruct H as (_ & [H|(? & j & _ & _ & H & Hj & _)]); [now rewrite H|]. injection H as ->. congruence.
  Qed.
  Lemma quoted1_acc A (c : codec A) : dlaw (des c) -> forall sn old s e v r x, bytes s -> quoted_des1 c sn old s e = Ok (v, r, x) -> OKE x ->
    e = x /\ exists p, s = p ++ r /\ (tame Q p -> V p).
  Proof.
    intros Hc sn old s e v r x Hs E Hx. unfold quoted_des1 in E. destruct (string_des sn [] s e) as [[[b r0] e1]| |] eqn:Es; cbn [bind] in E; try discriminate.
    assert (K : r0 = r /\ e1 = x).
    { destruct (has_err e1) eqn:Eh; [inversion E; subst; rewrite (OKE_has _ Hx) in Eh; discriminate|].
      destruct (des c (Some 0) old b (Some no_error)) as [[[v1 r1] e2]| |]; cbn [bind] in E; try discriminate.
      destruct e1 as [k1|]; [|inversion E; now split]. destruct e2 as [k2|]; [|inversion E; now split].
      destruct (is_err k2) eqn:E2; inversion E; subst; [|now split]. destruct Hx as (k & Ek & Hk). injection Ek as <-. exfalso. unfold is_err in *. cbn in Hk. congruence. }
    destruct K as [-> ->]. destruct (string_ok _ _ _ _ _ _ _ Hs Es Hx) as (X & p & B & C).
    split; [exact X|]. exists p. split; [exact B|]. intros T. now apply strnull_V, C.
  Qed.
  Lemma quoted_acc A (c : codec A) serq reqq : dlaw (des c) -> (reqq = false -> acc wvalue (des c)) -> acc wvalue (des (quoted_codec c serq reqq)).
  Proof.
    intros Hc Hr. split; [now apply quoted_dlaw|]. intros sn old s e v r x Hs E Hx. cbn [des quoted_codec] in E. unfold quoted_des in E. destruct reqq.
    - now apply (quoted1_acc _ _ Hc _ _ _ _ _ _ _ Hs E Hx).
    - destruct (is_string s); [now apply (quoted1_acc _ _ Hc _ _ _ _ _ _ _ Hs E Hx)|]. exact (proj2 (Hr eq_refl) _ _ _ _ _ _ _ Hs E Hx).
  Qed.
  Lemma size_acc t metric : acc wvalue (des (size_codec t metric)).
  Proof.
    split; [apply size_dlaw|]. intros sn old s e v r x Hs E Hx. cbn [des size_codec] in E. unfold size_des in E. destruct s as [|c0 t0]; [err E|].
    destruct (is_null (c0 :: t0)); [nul E Hx|]. destruct (is_number (c0 :: t0)); [exact (proj2 (int_acc t) _ _ _ _ _ _ _ Hs E Hx)|].
    destruct (is_string (c0 :: t0)); cbn [negb] in E; [|err E].
    destruct (chars_des 32 sn [] (c0 :: t0) e) as [[[b r0] e1]| |] eqn:Es; cbn [bind] in E; try discriminate.
    assert (K : r0 = r /\ e1 = x).
    { destruct (has_err e1) eqn:Eh; [inversion E; subst; rewrite (OKE_has _ Hx) in Eh; discriminate|].
      destruct (strlen b) as [txt| |]; cbn [bind] in E; try discriminate.
      destruct (int_des i64 (Some 0) 0 txt e1) as [[[val q] e2]| |] eqn:Ei; cbn [bind] in E; try discriminate.
      assert (K2 : r0 = r /\ e2 = x).
      { destruct (has_err e2) eqn:Eh2; [inversion E; subst; rewrite (OKE_has _ Hx) in Eh2; discriminate|].
        destruct q as [|ch1 q1]; [inversion E; now split|]. destruct (size_mult ch1 _); [|err E]. destruct (iarith i64 _); cbn [bind] in E; try discriminate. inversion E; now split. }
      destruct K2 as [-> ->]. split; [reflexivity|]. exact (dl_ok _ _ _ _ _ _ _ _ _ (int_dlaw i64) Ei Hx). }
    destruct K as [-> ->]. destruct (chars_ok _ _ _ _ _ _ _ _ Hs Es Hx) as (X & p & B & C).
    split; [exact X|]. exists p. split; [exact B|]. intros T. now apply strnull_V, C.
  Qed.

  (** ---- enumerators ---- *)
  Lemma skip_low_split s : exists w, s = w ++ skip_low s /\ Forall (fun c => c <= 32 \/ 128 <= c) w.
  Proof.
    induction s as [|c t (w & E & H)]; [exists []; split; [reflexivity|constructor]|]. cbn [skip_low]. destruct ((c <=? 32) || (128 <=? c)) eqn:K.
    - exists (c :: w). split; [cbn; now rewrite <- E|]. constructor; [lia|exact H].
    - exists []. split; [reflexivity|constructor].
  Qed.
  Lemma to_quote_split s : forall nm r, to_quote s = (nm, r) -> s = nm ++ r /\ (r = [] \/ heads QT r).
  Proof.
    induction s as [|c t IH]; intros nm r E; cbn [to_quote] in E; [inversion E; subst; now split; [|left]|].
    destruct (c =? QT) eqn:Ec; [inversion E; subst; split; [reflexivity|right]; exists t; f_equal; lia|].
    destruct (to_quote t) as [a r0]. inversion E; subst. destruct (IH _ _ eq_refl) as [-> H]. now split.
  Qed.
  Lemma enum_find_wchars L v nm x : Forall wchars (map fst L) -> enum_find Strict L v nm = Some x -> wchars nm.
  Proof.
    induction L as [|[n y] L IH]; intros HL E; cbn in E; [discriminate|]. inversion HL; subst. destruct (cstr_eq n nm) eqn:K; [apply cstr_eq_iff in K; now subst|now apply IH].
  Qed.
  Lemma enum_string_ok L sn old s e v r x : Q QEnum -> Forall wchars (map fst L) -> enum_des Strict L sn old s e = Ok (v, r, x) -> OKE x ->
    e = x /\ exists p, s = p ++ r /\ (tame Q p -> Wd wstring p).
  Proof.
    intros HE HL E Hx. unfold enum_des in E. destruct (skip_low_split s) as (w & Ew & Hw). destruct (skip_low s) as [|c t]; [err E|].
    destruct (c =? QT) eqn:Ec; cbn [negb] in E; [|err E]. apply Z.eqb_eq in Ec. subst c. destruct t as [|a t]; [err E|].
    destruct (to_quote (a :: t)) as [nm r0] eqn:Et. destruct (to_quote_split _ _ _ Et) as (E1 & H1). destruct r0 as [|q r0]; [err E|].
    destruct H1 as [H1|(z & H1)]; [discriminate|]. injection H1 as -> ->.
    destruct (enum_find Strict L 0 nm) eqn:Ef; [|err E]. inversion E; subst. split; [reflexivity|]. exists (w ++ QT :: nm ++ [QT]). split; [rewrite E1; norm; reflexivity|].
    intros (_ & _ & T). specialize (T HE). unfold printable in T. apply Forall_app in T. destruct T as [T _]. exists w, (QT :: nm ++ [QT]). split; [reflexivity|]. split.
    - split; [|now right]. apply Forall_forall. intros c Hc. rewrite Forall_forall in Hw, T. specialize (Hw c Hc). specialize (T c Hc). cbv beta in *. destruct T; [assumption|lia].
    - constructor. now apply enum_find_wchars in Ef.
  Qed.
  Lemma Wd_mono (I J : buf -> Prop) p : (forall q, I q -> J q) -> Wd I p -> Wd J p.
  Proof. intros H (w & q & A & B & C). exists w, q. auto. Qed.
  Lemma enum_acc L : Q QEnum -> Forall wchars (map fst L) -> acc wvalue (des (enum_codec Strict L)).
  Proof.
    intros HE HL. split; [apply enum_dlaw|]. intros sn old s e v r x Hs E Hx. destruct (enum_string_ok _ _ _ _ _ _ _ _ HE HL E Hx) as (A & p & B & C).
    split; [exact A|]. exists p. split; [exact B|]. intros T. eapply Wd_mono; [|exact (C T)]. now constructor.
  Qed.
  Lemma enum_kacc L : Q QEnum -> Forall wchars (map fst L) -> acc keyI (des (enum_codec Strict L)).
  Proof.
    intros HE HL. split; [apply enum_dlaw|]. intros sn old s e v r x Hs E Hx. destruct (enum_string_ok _ _ _ _ _ _ _ _ HE HL E Hx) as (A & p & B & C).
    split; [exact A|]. exists p. split; [exact B|]. intros T. eapply Wd_mono; [|exact (C T)]. now left.
  Qed.
  (** ---- gaps and lists ---- *)
  Lemma gap_ws g w : gap g -> blanks w -> gap (g ++ w).
  Proof.
    intros Hg [Hw _]. induction Hg as [|c g Hc Hg IH|g Hh Hg IH|u g Hh Hn Hg IH]; cbn [app].
    - now apply ws_gap.
    - now apply g_ws.
    - apply g_slash; [|exact IH]. intros (z & E). destruct g as [|c g]; [|injection E as -> _; apply Hh; now exists g].
      cbn in E. subst w. inversion Hw as [|? ? H _]; subst. unfold s_ws in H. lia.
    - rewrite <- app_assoc. cbn [app]. now apply g_comment.
  Qed.
  Lemma gap_stop_nil g r : gap g -> stop' (g ++ r) -> g = [].
  Proof. intros Hg Hs. destruct (gap_head g Hg) as [->|(c & z & -> & Hc)]; [reflexivity|]. cbn in Hs. tauto. Qed.
  Lemma glist_lead I g l r : gap g -> glist I l -> stop' (l ++ r) -> glist I (g ++ l).
  Proof.
    intros Hg [g1 v g2 G1 Hv G2|g1 v g2 g3 G1 Hv G2 G3|g1 v g2 l' G1 Hv G2 Hl] Hs; rewrite <- app_assoc in Hs;
      rewrite (gap_stop_nil _ _ G1 Hs); cbn [app]; [now apply gl_one|now apply gl_trail|now apply gl_more].
  Qed.
  Lemma glist_absorb I l : glist (Wd I) l -> glist I l.
  Proof.
    induction 1 as [g1 v g2 G1 (w & q & -> & Hw & Hq) G2|g1 v g2 g3 G1 (w & q & -> & Hw & Hq) G2 G3|g1 v g2 l G1 (w & q & -> & Hw & Hq) G2 Hl IH].
    - pose proof (gl_one I _ _ _ (gap_ws _ _ G1 Hw) Hq G2) as R. now rewrite <- !app_assoc in *.
    - pose proof (gl_trail I _ _ _ _ (gap_ws _ _ G1 Hw) Hq G2 G3) as R. now rewrite <- !app_assoc in *.
    - pose proof (gl_more I _ _ _ _ (gap_ws _ _ G1 Hw) Hq G2 IH) as R. now rewrite <- !app_assoc in *.
  Qed.
  Lemma bytes_r a b : bytes (a ++ b) -> bytes b. Proof. intros H. now apply Forall_app in H. Qed.
  Lemma bytes_c a b : bytes (a :: b) -> bytes b. Proof. intros H. now inversion H. Qed.

  (** ---- containers ---- *)
  Ltac sp_ok Esp Hx := let A := fresh in let B := fresh "g" in let C := fresh "Eg" in let D := fresh "Hg" in let F := fresh "St" in
    destruct (space_ok _ _ _ _ Esp Hx) as (A & B & C & D & F); subst.
  Lemma seq_loop_ok A S (item : A -> buf -> eptr -> res (A * buf * eptr)) (ins : S -> A -> S) d0 Rb I
    (HI : forall s e v r x, bytes s -> item d0 s e = Ok (v, r, x) -> OKE x -> e = x /\ exists p, s = p ++ r /\ (tame Q p -> Wd I p))
    (HB : forall s e v r x, item d0 s e = Ok (v, r, x) -> suffix r s) :
    forall f st s e st' r x, bytes s -> seq_loop item ins d0 Rb f st s e = Ok (st', r, x) -> OKE x ->
    e = x /\ exists l, s = l ++ Rb :: r /\ (tame Q l -> gap l \/ glist (Wd I) l).
  Proof.
    induction f as [|f IH]; intros st s e st' r x Hs E Hx; [discriminate|]. cbn [seq_loop] in E. destruct s as [|c0 t0]; [err E|].
    assert (Hs0 := Hs). remember (c0 :: t0) as s eqn:Es. clear Es c0 t0 Hs0.
    destruct (parse_space s e) as [s1 e1] eqn:Esp. 
    assert (Hs1 : bytes s1).
    { pose proof (space_good s) as (ra & oa & Ga & Gb). rewrite Ga in Esp. injection Esp as <- _. destruct Gb as (Gb & _). destruct Gb as (z & Gb). rewrite Gb in Hs. now apply bytes_r in Hs. }
    destruct s1 as [|c t1]; [err E|]. destruct (c =? Rb) eqn:Ec.
    { inversion E; subst. sp_ok Esp Hx. split; [reflexivity|]. apply Z.eqb_eq in Ec. subst c. exists g. split; [reflexivity|]. now left. }
    destruct (item d0 (c :: t1) e1) as [[[y s2] e2]| |] eqn:Ei; cbn [bind] in E; try discriminate.
    assert (Hs2 : bytes s2). { destruct (HB _ _ _ _ _ Ei) as (z & Gz). rewrite Gz in Hs1. now apply bytes_r in Hs1. }
    destruct (parse_space s2 e2) as [s3 e3] eqn:Esp3.
    assert (Hs3 : bytes s3).
    { pose proof (space_good s2) as (ra & oa & Ga & Gb). rewrite Ga in Esp3. injection Esp3 as <- _. destruct Gb as (Gb & _). destruct Gb as (z & Gb). rewrite Gb in Hs2. now apply bytes_r in Hs2. }
    destruct s3 as [|d t3]; [err E|]. destruct (d =? Rb) eqn:Ed.
    { inversion E; subst. sp_ok Esp3 Hx. destruct (HI _ _ _ _ _ Hs1 Ei Hx) as (-> & p & Ep & Hp). sp_ok Esp Hx. split; [reflexivity|].
      apply Z.eqb_eq in Ed. subst d. exists (g0 ++ p ++ g). split; [rewrite Ep; norm; reflexivity|]. intros T. right. apply gl_one; [assumption| |assumption].
      apply Hp. now apply tame_sub in T. }
    destruct (d =? COMMA) eqn:Edc; cbn [negb] in E; [|err E]. apply Z.eqb_eq in Edc. subst d.
    destruct (IH _ _ _ _ _ _ (bytes_c _ _ Hs3) E Hx) as (-> & l & -> & Hl). sp_ok Esp3 Hx. destruct (HI _ _ _ _ _ Hs1 Ei Hx) as (-> & p & Ep & Hp). sp_ok Esp Hx. split; [reflexivity|].
    exists (g0 ++ p ++ g ++ COMMA :: l). split; [rewrite Ep; norm; reflexivity|]. intros T. right. specialize (Hp (tame_sub _ _ _ T)).
    assert (T' : tame Q l). { apply (tame_r (g0 ++ p ++ g ++ [COMMA])). norm. exact T. }
    destruct (Hl T'); [now apply gl_trail|now apply gl_more].
  Qed.
  Definition closes (L R : Z) (I : buf -> Prop) : Prop := forall l, gap l \/ glist I l -> wvalue (L :: l ++ [R]).
  Lemma closes_arr : closes LBR RBR wvalue.
  Proof. intros l [H|H]; [now apply wv_arr0|now apply wv_arr, glist_elems]. Qed.
  Lemma closes_obj : closes LCB RCB memtext.
  Proof. intros l [H|H]; [now apply wv_obj0|now apply wv_obj, glist_members]. Qed.
  Lemma seq_acc A C S (k : container A C S) L R (item : codec A) d0 I : closes L R I -> acc I (des item) -> acc wvalue (seq_des k L R item d0).
  Proof.
    intros HC [HD HA]. split; [now apply seq_dlaw|]. intros sn old s e v r x Hs E Hx. unfold seq_des in E. destruct (is_null s); [nul E Hx|].
    destruct s as [|c t]; [err E|]. destruct (c =? L) eqn:Ec; cbn [negb] in E; [|err E]. apply Z.eqb_eq in Ec. subst c.
    destruct (seq_loop _ _ _ _ _ _ _ _) as [[[st r0] e0]| |] eqn:El in E; cbn [bind] in E; try discriminate. inversion E; subst.
    eapply (seq_loop_ok _ _ (des item sn) (c_ins k) d0 R I) in El; [| | |now apply bytes_c in Hs|exact Hx].
    - destruct El as (-> & l & -> & Hl). split; [reflexivity|]. exists (L :: l ++ [R]). split; [norm; reflexivity|]. intros T. apply V0, HC.
      destruct (Hl (tame_l _ _ (tame_c _ _ T))) as [G|G]; [now left|right]. now apply glist_absorb.
    - intros. eapply HA; eassumption.
    - intros s' e' v' r' x' E'. specialize (HD sn d0 s' e'). rewrite E' in HD. apply HD.
  Qed.
  Lemma field_acc K W (kc : codec K) (vc : codec W) : acc keyI (des kc) -> acc wvalue (des vc) -> acc memtext (field_des kc vc).
  Proof.
    intros [KD KA] [VD VA]. split; [now apply field_dlaw|]. intros sn old s e v r x Hs E Hx. unfold field_des in E.
    destruct (des kc sn (fst old) s e) as [[[k s1] e1]| |] eqn:Ek; cbn [bind] in E; try discriminate.
    assert (Hs1 : bytes s1). { pose proof (KD sn (fst old) s e) as G. rewrite Ek in G. destruct G as ((z & G) & _). rewrite G in Hs. now apply bytes_r in Hs. }
    destruct (parse_space s1 e1) as [s2 e2] eqn:Esp2.
    destruct s2 as [|c t]; [err E|]. destruct (c =? COLON) eqn:Ec; cbn [negb] in E; [|err E]. apply Z.eqb_eq in Ec. subst c.
    destruct (parse_space t e2) as [s3 e3] eqn:Esp3. destruct s3 as [|c3 t3]; [err E|].
    destruct (des vc sn (snd old) (c3 :: t3) e3) as [[[y s4] e4]| |] eqn:Ev; cbn [bind] in E; try discriminate. inversion E; subst.
    pose proof (dl_ok _ _ _ _ _ _ _ _ _ VD Ev Hx) as ->. sp_ok Esp3 Hx. sp_ok Esp2 Hx. 
    destruct (KA _ _ _ _ _ _ _ Hs Ek Hx) as (-> & p & -> & Hp). split; [reflexivity|].
    assert (Hs3 : bytes (c3 :: t3)). { now apply bytes_r, bytes_c, bytes_r in Hs1. }
    destruct (VA _ _ _ _ _ _ _ Hs3 Ev Hx) as (_ & q & Eq & Hq). exists (p ++ g0 ++ COLON :: g ++ q). split; [rewrite Eq; norm; reflexivity|].
    intros T. assert (Tp := tame_l _ _ T). assert (Tq : tame Q q). { apply (tame_r (p ++ g0 ++ COLON :: g)). norm. exact T. }
    destruct (Hp Tp) as (w & k0 & -> & Hw & [Hk|(-> & HK)]).
    - destruct (Hq Tq) as (w' & q' & -> & Hw' & Hq'). exists w, (k0 ++ g0 ++ COLON :: g ++ w' ++ q'). split; [now rewrite <- app_assoc|]. split; [exact Hw|].
      exists k0, g0, (g ++ w'), q'. split; [now rewrite <- app_assoc|]. repeat split; try assumption. now apply gap_ws.
    - exfalso. destruct T as (_ & T & _). apply (T HK w g0 (g ++ q) Hg0). now rewrite <- app_assoc.
  Qed.
  Lemma fix_null_ok A (item : codec A) sn : dlaw (des item) -> forall l s e l' x, fix_null (des item sn) l s e = Ok (l', x) -> OKE x -> e = x.
  Proof.
    intros HD. induction l as [|a l IH]; intros s e l' x E Hx; cbn [fix_null] in E; [now inversion E|].
    destruct (des item sn a s e) as [[[y ?] e1]| |] eqn:Ei; cbn [bind] in E; try discriminate.
    destruct (fix_null (des item sn) l s e1) as [[t' e2]| |] eqn:El; cbn [bind] in E; try discriminate. inversion E; subst.
    pose proof (IH _ _ _ _ El Hx) as ->. exact (dl_ok _ _ _ _ _ _ _ _ _ HD Ei Hx).
  Qed.
  Lemma space_bytes s e r x : bytes s -> parse_space s e = (r, x) -> bytes r.
  Proof.
    intros Hs E. pose proof (space_good s) as (ra & oa & Ga & Gb). rewrite Ga in E. injection E as <- _. destruct Gb as (Gb & _). destruct Gb as (z & Gb). rewrite Gb in Hs. now apply bytes_r in Hs.
  Qed.
  Lemma dl_bytes A (d : option Z -> A -> buf -> eptr -> res (A * buf * eptr)) sn old s e v r x : dlaw d -> bytes s -> d sn old s e = Ok (v, r, x) -> bytes r.
  Proof. intros H Hs E. specialize (H sn old s e). rewrite E in H. destruct H as ((z & G) & _). rewrite G in Hs. now apply bytes_r in Hs. Qed.
  Lemma fix_close_ok R s e r x : fix_close R s e = (r, x) -> OKE x -> e = x /\ s = R :: r.
  Proof.
    unfold fix_close. destruct s as [|c t]; [intros E Hx; err E|]. destruct (c =? R) eqn:Ec; cbn [negb]; intros E Hx; [|err E].
    inversion E; subst. split; [reflexivity|]. f_equal. lia.
  Qed.
  Lemma fix_loop_ok A (item : codec A) sn fresh ex R I : acc I (des item) -> forall todo s e l' r x, bytes s ->
    fix_loop (des item sn) fresh ex R todo s e = Ok (l', r, x) -> OKE x -> e = x /\ exists l, s = l ++ R :: r /\ (tame Q l -> gap l \/ glist (Wd I) l).
  Proof.
    intros [HD HA]. induction todo as [|a todo IH]; intros s e l' r x Hs E Hx; cbn [fix_loop] in E.
    { destruct (fix_close R s e) as [r0 x0] eqn:Ec. inversion E; subst. destruct (fix_close_ok _ _ _ _ _ Ec Hx) as [-> ->]. split; [reflexivity|].
      exists []. split; [reflexivity|]. intros _. left. constructor. }
    destruct s as [|c0 t0].
    { destruct (fix_close R [] e) as [r0 x0] eqn:Ec. inversion E; subst. destruct (fix_close_ok _ _ _ _ _ Ec Hx) as [_ K]. discriminate. }
    remember (c0 :: t0) as s eqn:Es. clear Es c0 t0. destruct (parse_space s e) as [s1 e1] eqn:Esp. pose proof (space_bytes _ _ _ _ Hs Esp) as Hs1.
    destruct s1 as [|c t1]; [err E|]. destruct (c =? R) eqn:Ec.
    { destruct (fix_close R (c :: t1) e1) as [r0 x0] eqn:Ecl. inversion E; subst. destruct (fix_close_ok _ _ _ _ _ Ecl Hx) as [-> K]. injection K as -> ->. sp_ok Esp Hx.
      split; [reflexivity|]. exists g. split; [reflexivity|]. now left. }
    destruct (des item sn _ (c :: t1) e1) as [[[y s2] e2]| |] eqn:Ei in E; cbn [bind] in E; try discriminate.
    pose proof (dl_bytes _ _ _ _ _ _ _ _ _ HD Hs1 Ei) as Hs2. destruct (parse_space s2 e2) as [s3 e3] eqn:Esp3. pose proof (space_bytes _ _ _ _ Hs2 Esp3) as Hs3.
    destruct s3 as [|d t3]; [err E|]. destruct (d =? R) eqn:Ed.
    { destruct (fix_close R (d :: t3) e3) as [r0 x0] eqn:Ecl. inversion E; subst. destruct (fix_close_ok _ _ _ _ _ Ecl Hx) as [-> K]. injection K as -> ->.
      sp_ok Esp3 Hx. destruct (HA _ _ _ _ _ _ _ Hs1 Ei Hx) as (-> & p & Ep & Hp). sp_ok Esp Hx. split; [reflexivity|].
      exists (g0 ++ p ++ g). split; [rewrite Ep; norm; reflexivity|]. intros T. right. apply gl_one; [assumption| |assumption]. apply Hp. now apply tame_sub in T. }
    destruct (d =? COMMA) eqn:Edc; cbn [negb] in E; [|err E]. apply Z.eqb_eq in Edc. subst d.
    destruct (fix_loop _ _ _ _ _ t3 e3) as [[[l1 r1] x1]| |] eqn:El in E; cbn [bind] in E; try discriminate. inversion E; subst.
    destruct (IH _ _ _ _ _ (bytes_c _ _ Hs3) El Hx) as (-> & l & -> & Hl). sp_ok Esp3 Hx. destruct (HA _ _ _ _ _ _ _ Hs1 Ei Hx) as (-> & p & Ep & Hp). sp_ok Esp Hx. split; [reflexivity|].
    exists (g0 ++ p ++ g ++ COMMA :: l). split; [rewrite Ep; norm; reflexivity|]. intros T. right. specialize (Hp (tame_sub _ _ _ T)).
    assert (T' : tame Q l). { apply (tame_r (g0 ++ p ++ g ++ [COMMA])). norm. exact T. }
    destruct (Hl T'); [now apply gl_trail|now apply gl_more].
  Qed.
  Lemma fix_acc A fresh ex L R (item : codec A) I : closes L R I -> acc I (des item) -> acc wvalue (fix_des fresh ex L R item).
  Proof.
    intros HC HA. split; [now apply fix_dlaw, HA|]. intros sn old s e v r x Hs E Hx. unfold fix_des in E. destruct (is_null s).
    { destruct (fix_null _ _ _ _) as [[l1 e1]| |] eqn:El in E; cbn [bind] in E; try discriminate.
      destruct (parse_null s e1) as [r0 y0] eqn:En. inversion E; subst. destruct (null_ok _ _ _ _ En Hx) as [-> ->].
      pose proof (fix_null_ok _ _ _ (proj1 HA) _ _ _ _ _ El Hx) as ->. split; [reflexivity|]. exists (text "null"). split; [reflexivity|]. intros _. apply V0. constructor. }
    destruct s as [|c t]; [err E|]. destruct (c =? L) eqn:Ec; cbn [negb] in E; [|err E]. apply Z.eqb_eq in Ec. subst c.
    destruct (fix_loop_ok _ _ _ _ _ _ _ HA _ _ _ _ _ _ (bytes_c _ _ Hs) E Hx) as (-> & l & -> & Hl).
    split; [reflexivity|]. exists (L :: l ++ [R]). split; [norm; reflexivity|]. intros T. apply V0, HC.
    destruct (Hl (tame_l _ _ (tame_c _ _ T))) as [G|G]; [now left|right]. now apply glist_absorb.
  Qed.
  Lemma vec_acc A (c : codec (list A)) N : acc wvalue (des c) -> acc wvalue (des (vec_codec c N)).
  Proof.
    intros HA. split; [now apply vec_dlaw, HA|]. intros sn old s e v r x Hs E Hx. cbn [des vec_codec] in E.
    destruct (des c sn (vlist old) s e) as [[[l r0] x0]| |] eqn:El; cbn [bind] in E; try discriminate. inversion E; subst. exact (proj2 HA _ _ _ _ _ _ _ Hs El Hx).
  Qed.
  Lemma mval_acc T A (get : T -> A) set c : acc wvalue (des c) -> acc wvalue (des (member_value_codec get set c)).
  Proof.
    intros HA. split; [now apply member_value_dlaw, HA|]. intros sn old s e v r x Hs E Hx. cbn [des member_value_codec] in E.
    destruct (des c sn (get old) s e) as [[[l r0] x0]| |] eqn:El; cbn [bind] in E; try discriminate. inversion E; subst. exact (proj2 HA _ _ _ _ _ _ _ Hs El Hx).
  Qed.
  Lemma hash_acc A H (h : hashtab A H) L R (item : codec A) d0 I : closes L R I -> acc I (des item) -> acc wvalue (des (hash_codec h L R item d0)).
  Proof.
    intros HC HA. split; [now apply hash_dlaw, HA|]. intros sn old s e v r x Hs E Hx. cbn [des hash_codec] in E.
    exact (proj2 (seq_acc _ _ _ _ _ _ _ _ _ HC HA) _ _ _ _ _ _ _ Hs E Hx).
  Qed.

  (** ---- objects ---- *)
  Lemma name_loop_ok name : forall s n' s1, name_loop name s = (n', s1) -> n' = [] -> s = name ++ s1.
  Proof.
    induction name as [|n name IH]; intros s n' s1 E H; destruct s as [|c t]; cbn [name_loop] in E; try (inversion E; subst; reflexivity || discriminate).
    destruct ((c =? n) && negb (c =? QT)) eqn:K; [|inversion E; subst; discriminate]. rewrite (IH _ _ _ E H). cbn [app]. f_equal. lia.
  Qed.
  Lemma unser_name_ok name s u e s1 e1 u1 : unser_name name s u e = (s1, e1, u1) -> OKE e1 -> e = e1 /\
    ((u1 = false /\ s1 = s /\ heads QT s) \/ (u1 = true /\ exists g2 g3, s = QT :: name ++ QT :: g2 ++ COLON :: g3 ++ s1 /\ gap g2 /\ gap g3)).
  Proof.
    intros E Hx. unfold unser_name in E. destruct (is_string s) eqn:Eq; cbn [negb] in E; [|err E].
    destruct s as [|q t]; [discriminate|]. cbn [is_string starts] in Eq. apply Z.eqb_eq in Eq. subst q. cbn [tl] in E.
    destruct (name_loop name t) as [n' s2] eqn:En. destruct s2 as [|c t1]; [err E|].
    destruct (negb (c =? QT) || _) eqn:K in E.
    { inversion E; subst. split; [reflexivity|]. left. repeat split. now exists t. }
    assert (Hn : n' = []) by (destruct n'; [reflexivity|]; rewrite Bool.orb_true_r in K; discriminate). assert (c = QT) by lia. subst c.
    apply (name_loop_ok _ _ _ _ En) in Hn. subst t. destruct (parse_space t1 e) as [s3 e3] eqn:Esp3. destruct s3 as [|d t2]; [err E|].
    destruct (d =? COLON) eqn:Ed; cbn [negb] in E; [|err E]. apply Z.eqb_eq in Ed. subst d. destruct (parse_space t2 e3) as [s4 e4] eqn:Esp4. destruct s4 as [|f t4]; [err E|].
    inversion E; subst. sp_ok Esp4 Hx. sp_ok Esp3 Hx. split; [reflexivity|]. right. split; [reflexivity|]. exists g0, g. split; [reflexivity|]. now split.
  Qed.
  Section Obj.
    Context {T : Type}.
    Definition macc (b : memb T) : Prop := forall m, In m (mems_of b) -> wchars (m_name m) /\ acc wvalue (des (m_codec m)).
    (** one attempt at a member: not its name, or the member consumed *)
    Definition tried (s r : buf) (u : bool) : Prop :=
      (u = false /\ r = s /\ heads QT s) \/ (u = true /\ exists p, s = p ++ r /\ (tame Q p -> memtext p)).
    Lemma mem_try (m : mem T) (x0 : m_ty m) (st : m_ty m -> T) (t : T) sn s u e t' u' r x : wchars (m_name m) -> acc wvalue (des (m_codec m)) -> bytes s ->
      (let '(s1, e1, u1) := unser_name (m_name m) s u e in
       if negb u1 then Ok (t, u1, s1, e1) else let* (y, r, e2) := des (m_codec m) sn x0 s1 e1 in Ok (st y, u1, r, e2)) = Ok (t', u', r, x) -> OKE x -> e = x /\ tried s r u'.
    Proof.
      intros Hn [HD HA] Hs E Hx. destruct (unser_name (m_name m) s u e) as [[s1 e1] u1] eqn:Eu. destruct u1; cbn [negb] in E.
      - destruct (des (m_codec m) sn x0 s1 e1) as [[[y r0] e2]| |] eqn:Ev; cbn [bind] in E; try discriminate. inversion E; subst.
        pose proof (dl_ok _ _ _ _ _ _ _ _ _ HD Ev Hx) as ->. destruct (unser_name_ok _ _ _ _ _ _ _ Eu Hx) as (-> & [(? & _)|(_ & g2 & g3 & -> & G2 & G3)]); [discriminate|].
        split; [reflexivity|]. assert (Hb : bytes s1). { apply bytes_c, bytes_r, bytes_c, bytes_r, bytes_c, bytes_r in Hs. exact Hs. }
        destruct (HA _ _ _ _ _ _ _ Hb Ev Hx) as (_ & q & -> & Hq). right. split; [reflexivity|]. exists ((QT :: m_name m ++ [QT]) ++ g2 ++ COLON :: g3 ++ q). split; [norm; reflexivity|].
        intros Tm. assert (Tq : tame Q q). { apply (tame_r ((QT :: m_name m ++ [QT]) ++ g2 ++ COLON :: g3)). revert Tm. norm. trivial. }
        destruct (Hq Tq) as (w & q' & -> & Hw & Hq'). exists (QT :: m_name m ++ [QT]), g2, (g3 ++ w), q'. split; [norm; reflexivity|]. repeat split; try assumption. now apply gap_ws.
      - inversion E; subst. destruct (unser_name_ok _ _ _ _ _ _ _ Eu Hx) as (-> & [H|(? & _)]); [|discriminate]. split; [reflexivity|]. now left.
    Qed.
    Lemma memb_try b sn t s u e t' u' r x : macc b -> bytes s -> memb_des b sn t s u e = Ok (t', u', r, x) -> OKE x -> e = x /\ tried s r u'.
    Proof.
      intros HM Hs E Hx. destruct b as [m|m i|ru ml mr isd]; cbn [memb_des] in E.
      - destruct (HM m ltac:(now left)). eapply (mem_try m (m_get m t) (m_set m t)); try eassumption.
      - destruct (HM m ltac:(now left)). eapply (mem_try m i (m_set m t)); try eassumption.
      - cbv zeta in E. set (m1 := if ru then mr else ml) in *. set (m2 := if ru then ml else mr) in *.
        assert (H1 : In m1 (mems_of (MIf ru ml mr isd))) by (unfold m1; destruct ru; cbn; tauto).
        assert (H2 : In m2 (mems_of (MIf ru ml mr isd))) by (unfold m2; destruct ru; cbn; tauto).
        apply HM in H1, H2. destruct H1 as [N1 A1], H2 as [N2 A2]. clearbody m1 m2.
        destruct (mem_des m1 sn t s u (Some no_error)) as [[[[t1 u1] itr] ee]| |] eqn:E1; cbn [bind] in E; try discriminate.
        destruct (no_err_yet ee) eqn:Ene.
        + destruct (mem_reset m2 t1); cbn [bind] in E; try discriminate. inversion E; subst. split; [reflexivity|].
          assert (Hee : OKE ee).
          { pose proof (mem_des_good m1 sn t s u (Some no_error) (proj1 A1)) as G. rewrite E1 in G. destruct G as (_ & [->|(? & j & _ & _ & -> & Hj & _)]); [now exists no_error|].
            cbn in Ene. rewrite Hj in Ene. discriminate. }
          eapply (mem_try m1 (m_get m1 t) (m_set m1 t)); eassumption.
        + destruct (mem_reset m1 t1); cbn [bind] in E; try discriminate. eapply (mem_try m2 (m_get m2 _) (m_set m2 _)); eassumption.
    Qed.
    Lemma tried_bytes s r u : bytes s -> tried s r u -> bytes r.
    Proof. intros Hs [(_ & -> & _)|(_ & p & -> & _)]; [exact Hs|now apply bytes_r in Hs]. Qed.
    Lemma memb_bytes b sn t s u e t' u' r x : macc b -> bytes s -> memb_des b sn t s u e = Ok (t', u', r, x) -> bytes r.
    Proof.
      intros HM Hs E. assert (HG : memb_all (fun _ c => dlaw (des c)) b).
      { assert (HF : Forall (memb_all (fun _ c => dlaw (des c))) [b]); [|now inversion HF].
        apply (memb_all_in (fun _ c => dlaw (des c))). intros b0 m [<-|[]] Hm. apply (HM m Hm). }
      pose proof (memb_des_good b sn t s u e HG) as G. rewrite E in G. destruct G as ((z & G) & _). rewrite G in Hs. now apply bytes_r in Hs.
    Qed.
    Lemma gap_glue g g' r r' : gap g -> (g = [] \/ stop' r) -> r = g' ++ r' -> gap g' -> gap (g ++ g').
    Proof. intros Hg [->|Hs] -> Hg'; [exact Hg'|]. rewrite (gap_stop_nil _ _ Hg' Hs), app_nil_r. exact Hg. Qed.
    Lemma mem_false (m : mem T) (x0 : m_ty m) (st : m_ty m -> T) (t : T) sn s u e t' r x : heads QT s ->
      (let '(s1, e1, u1) := unser_name (m_name m) s u e in
       if negb u1 then Ok (t, u1, s1, e1) else let* (y, r, e2) := des (m_codec m) sn x0 s1 e1 in Ok (st y, u1, r, e2)) = Ok (t', false, r, x) -> r = s.
    Proof.
      intros (z & ->) E. destruct (unser_name _ _ u e) as [[s1 e1] u1] eqn:Eu. destruct u1; cbn [negb] in E.
      - destruct (des (m_codec m) sn x0 s1 e1) as [[[y r0] e2]| |]; cbn [bind] in E; discriminate.
      - inversion E; subst. unfold unser_name in Eu. change (is_string (QT :: z)) with true in Eu. cbn [negb tl] in Eu.
        destruct (name_loop (m_name m) z) as [n' s2]. destruct s2 as [|c t1]; [discriminate|]. destruct (_ || _); [now inversion Eu|].
        destruct (parse_space t1 e) as [[|d t2] e2]; [discriminate|]. destruct (negb _); [discriminate|]. destruct (parse_space t2 e2) as [[|f t4] e4]; discriminate.
    Qed.
    Lemma memb_false (b : memb T) sn t s u e t' r x : heads QT s -> memb_des b sn t s u e = Ok (t', false, r, x) -> r = s.
    Proof.
      intros Hq E. destruct b as [m|m i|ru ml mr isd]; cbn [memb_des] in E.
      - now apply (mem_false m (m_get m t) (m_set m t)) in E.
      - now apply (mem_false m i (m_set m t)) in E.
      - cbv zeta in E. set (m1 := if ru then mr else ml) in *. set (m2 := if ru then ml else mr) in *.
        destruct (mem_des m1 sn t s u (Some no_error)) as [[[[t1 u1] itr] ee]| |] eqn:E1; cbn [bind] in E; try discriminate.
        destruct (no_err_yet ee).
        + destruct (mem_reset m2 t1); cbn [bind] in E; try discriminate. inversion E; subst. now apply (mem_false m1 (m_get m1 t) (m_set m1 t)) in E1.
        + destruct (mem_reset m1 t1); cbn [bind] in E; try discriminate. now apply (mem_false m2 (m_get m2 _) (m_set m2 _)) in E.
    Qed.
    Lemma search_ok mode sn (L : list (memb T)) : Forall macc L -> forall t s e t' r x, bytes s -> heads QT s ->
      search_members mode sn L t s e = Ok (t', r, x) -> OKE x -> e = x /\ exists p g, s = p ++ g ++ r /\ gap g /\ (g = [] \/ stop' r) /\ (tame Q p -> memtext p).
    Proof.
      intros HL. induction HL as [|b L Hb HL IH]; intros t s e t' r x Hs Hq E Hx; cbn [search_members] in E.
      - destruct (search_end mode sn s e) as [[s1 e1]| |] eqn:Ese; cbn [bind] in E; try discriminate. inversion E; subst. unfold search_end in Ese. destruct mode.
        + destruct (parse_member (parse_value sn) s e) as [[s2 e2]| |] eqn:Em; cbn [bind] in Ese; try discriminate. injection Ese as Ese.
          sp_ok Ese Hx. destruct (member_ok _ _ _ _ _ Hs Em Hx) as (-> & p & -> & Hp). split; [reflexivity|]. exists p, g. repeat split; auto.
        + destruct Hq as (z & ->). change (QT =? RCB) with false in Ese. cbv iota in Ese. err Ese.
      - destruct (memb_des b sn t s false e) as [[[[t1 u] s1] e1]| |] eqn:Eb; cbn [bind] in E; try discriminate. destruct u; cbn [negb] in E.
        + inversion E; subst. destruct (memb_try _ _ _ _ _ _ _ _ _ _ Hb Hs Eb Hx) as (-> & [(? & _)|(_ & p & -> & Hp)]); [discriminate|].
          split; [reflexivity|]. exists p, []. repeat split; auto. constructor.
        + pose proof (memb_false _ _ _ _ _ _ _ _ _ Hq Eb) as ->. destruct (IH _ _ _ _ _ _ Hs Hq E Hx) as (-> & R). split; [|exact R].
          exact (proj1 (memb_try _ _ _ _ _ _ _ _ _ _ Hb Hs Eb Hx)).
    Qed.
    Lemma rest_loop_ok mode sn f : forall s e r x, bytes s -> rest_loop mode sn f s e = Ok (r, x) -> OKE x ->
      e = x /\ exists l, s = l ++ r /\ heads RCB r /\ glist memtext l.
    Proof.
      induction f as [|f IH]; intros s e r x Hs E Hx; [discriminate|]. cbn [rest_loop] in E.
      destruct (parse_member (parse_value sn) s e) as [[s1 e1]| |] eqn:Em; cbn [bind] in E; try discriminate.
      assert (Hs1 : bytes s1). { pose proof (rlawS_rlaw _ _ _ (pmember_law sn s)) as [(r0 & o & A & (z & B) & _)|(_ & A)]; rewrite A in Em; [|discriminate].
        injection Em as <- _. rewrite B in Hs. now apply bytes_r in Hs. }
      destruct (parse_space s1 e1) as [s2 e2] eqn:Esp. pose proof (space_bytes _ _ _ _ Hs1 Esp) as Hs2. destruct s2 as [|c t2]; [err E|]. destruct (c =? RCB) eqn:Ec.
      - destruct mode; [|err E]. inversion E; subst. sp_ok Esp Hx. destruct (member_ok _ _ _ _ _ Hs Em Hx) as (-> & p & -> & Hp). split; [reflexivity|].
        exists (p ++ g). split; [now rewrite <- app_assoc|]. split; [exists t2; f_equal; lia|]. apply (gl_one memtext [] p g); [constructor|exact Hp|assumption].
      - destruct (c =? COMMA) eqn:Ec2; cbn [negb] in E; [|err E]. apply Z.eqb_eq in Ec2. subst c. destruct (parse_space t2 e2) as [s3 e3] eqn:Esp3.
        destruct (IH _ _ _ _ (space_bytes _ _ _ _ (bytes_c _ _ Hs2) Esp3) E Hx) as (-> & l & -> & Hr & Hl). sp_ok Esp3 Hx. sp_ok Esp Hx.
        destruct (member_ok _ _ _ _ _ Hs Em Hx) as (-> & p & -> & Hp). split; [reflexivity|]. exists (p ++ g0 ++ COMMA :: g ++ l). split; [norm; reflexivity|]. split; [exact Hr|].
        apply (gl_more memtext [] p g0); [constructor|exact Hp|assumption|]. now apply glist_lead with r.
    Qed.
    Lemma dg_ok B (v : B) s e r x : dgood s e (Ok (v, r, x)) -> OKE x -> e = x.
    Proof. intros (_ & [->|(? & j & _ & _ & -> & Hj & _)]) Hx; [reflexivity|]. destruct Hx as (k & [= ->] & Hk). congruence. Qed.
    Lemma macc_dl (L : list (memb T)) : Forall macc L -> Forall (memb_all (fun _ c => dlaw (des c))) L.
    Proof. intros HL. apply (memb_all_in (fun _ c => dlaw (des c))). intros b m Hb Hm. rewrite Forall_forall in HL. apply (HL b Hb m Hm). Qed.
    Lemma at_close_ok (t : T) s e t' r x : at_close t s e = Ok (t', r, x) -> OKE x -> e = x /\ r = s /\ heads RCB s.
    Proof.
      unfold at_close. intros E Hx. destruct s as [|c s]; [err E|]. destruct (c =? RCB) eqn:Ec; cbn [negb] in E; [|err E]. inversion E; subst.
      repeat split. exists s. f_equal. lia.
    Qed.
    Lemma members_ok mode sn (L : list (memb T)) : Forall macc L -> forall f R t s e t' r x, Forall macc R -> bytes s ->
      members_loop mode sn L f R t s e = Ok (t', r, x) -> OKE x -> e = x /\ exists l, s = l ++ r /\ heads RCB r /\ (tame Q l -> gap l \/ glist memtext l).
    Proof.
      intros HL. induction f as [|f IH]; intros R t s e t' r x HR Hs E Hx; [discriminate|]. cbn [members_loop] in E. destruct R as [|b R].
      - destruct (rest_members mode sn s e) as [[s1 e1]| |] eqn:Er; cbn [bind] in E; try discriminate. inversion E; subst. unfold rest_members in Er.
        destruct (parse_space s e) as [s2 e2] eqn:Esp. pose proof (space_bytes _ _ _ _ Hs Esp) as Hs2. destruct s2 as [|c t2]; [err Er|]. destruct (c =? RCB) eqn:Ec.
        + inversion Er; subst. sp_ok Esp Hx. split; [reflexivity|]. exists g. split; [reflexivity|]. split; [exists t2; f_equal; lia|]. intros _. now left.
        + destruct (rest_loop_ok _ _ _ _ _ _ _ Hs2 Er Hx) as (-> & l & El & Hr & Hl). sp_ok Esp Hx. split; [reflexivity|]. exists (g ++ l). split; [rewrite El; norm; reflexivity|].
          split; [exact Hr|]. intros _. right. apply glist_lead with r; [assumption|exact Hl|]. now rewrite <- El.
      - inversion HR as [|? ? Hb HR']; subst. destruct (memb_des b sn t s false e) as [[[[t1 u] s1] e1]| |] eqn:Eb; cbn [bind] in E; try discriminate.
        pose proof (memb_bytes _ _ _ _ _ _ _ _ _ _ Hb Hs Eb) as Hs1.
        destruct (if negb u then search_members mode sn L t1 s1 e1 else Ok (t1, s1, e1)) as [[[t2 s2] e2]| |] eqn:Es; cbn [bind] in E; try discriminate.
        destruct (parse_space s2 e2) as [s3 e3] eqn:Esp. destruct s3 as [|d t3]; [err E|].
        assert (Hs2 : bytes s2).
        { destruct u; cbn [negb] in Es; [now inversion Es; subst|]. pose proof (search_good mode sn L (macc_dl L HL) t1 s1 e1) as G. rewrite Es in G.
          destruct G as ((z & G) & _). rewrite G in Hs1. now apply bytes_r in Hs1. }
        pose proof (space_bytes _ _ _ _ Hs2 Esp) as Hs3.
        (* the member consumed, once the record after it is known to be clean *)
        assert (K : OKE e3 -> e = e3 /\ exists p g, s = p ++ g ++ d :: t3 /\ gap g /\ (tame Q p -> memtext p)).
        { intros He. destruct (space_ok _ _ _ _ Esp He) as (-> & g & -> & Hg & Hst'). destruct u; cbn [negb] in Es.
          - inversion Es; subst. destruct (memb_try _ _ _ _ _ _ _ _ _ _ Hb Hs Eb He) as (-> & [(? & _)|(_ & p & -> & Hp)]); [discriminate|].
            split; [reflexivity|]. exists p, g. auto.
          - pose proof (search_good mode sn L (macc_dl L HL) t1 s1 e1) as G. rewrite Es in G. pose proof (dg_ok _ _ _ _ _ _ G He) as ->.
            destruct (memb_try _ _ _ _ _ _ _ _ _ _ Hb Hs Eb He) as (-> & [(_ & -> & Hq)|(? & _)]); [|discriminate].
            destruct (search_ok _ _ _ HL _ _ _ _ _ _ Hs Hq Es He) as (_ & p & g' & -> & Hg' & Hor & Hp). split; [reflexivity|].
            exists p, (g' ++ g). split; [now rewrite <- app_assoc|]. split; [|exact Hp]. eapply gap_glue; [exact Hg'|exact Hor|reflexivity|exact Hg]. }
        destruct (d =? COMMA) eqn:Ed.
        + apply Z.eqb_eq in Ed. subst d. destruct (parse_space t3 e3) as [s4 e4] eqn:Esp4. pose proof (space_bytes _ _ _ _ (bytes_c _ _ Hs3) Esp4) as Hs4.
          destruct (members_loop mode sn L f (if u then R else b :: R) t2 s4 e4) as [[[t5 s5] e5]| |] eqn:El; cbn [bind] in E; try discriminate.
          destruct (at_close_ok _ _ _ _ _ _ E Hx) as (-> & -> & Hr).
          assert (HR2 : Forall macc (if u then R else b :: R)) by (destruct u; [exact HR'|exact HR]).
          destruct (IH _ _ _ _ _ _ _ HR2 Hs4 El Hx) as (-> & l & -> & Hr5 & Hl). sp_ok Esp4 Hx. destruct (K Hx) as (-> & p & g0 & -> & Hg0 & Hp). split; [reflexivity|].
          exists (p ++ g0 ++ COMMA :: g ++ l). split; [norm; reflexivity|]. split; [exact Hr|]. intros Tm. right.
          assert (Tl : tame Q l). { apply (tame_r (p ++ g0 ++ COMMA :: g)). norm. exact Tm. }
          specialize (Hp (tame_l _ _ Tm)). destruct (Hl Tl) as [Gl|Gl].
          * assert (l = []) as -> by (now apply gap_stop_nil with s5). rewrite app_nil_r. apply (gl_trail memtext [] p g0 g); [constructor|exact Hp|exact Hg0|exact Hg].
          * apply (gl_more memtext [] p g0); [constructor|exact Hp|exact Hg0|]. now apply glist_lead with s5.
        + destruct (at_close_ok _ _ _ _ _ _ E Hx) as (-> & -> & Hr). destruct (K Hx) as (-> & p & g & -> & Hg & Hp). split; [reflexivity|].
          exists (p ++ g). split; [now rewrite <- app_assoc|]. split; [exact Hr|]. intros Tm. right. apply (gl_one memtext [] p g); [constructor|exact (Hp (tame_l _ _ Tm))|exact Hg].
    Qed.
    Lemma object_acc mode (L : list (memb T)) t0 : Forall macc L -> acc wvalue (object_des mode L t0).
    Proof.
      intros HL. split; [now apply object_dlaw, macc_dl|]. intros sn old s e v r x Hs E Hx. unfold object_des in E. destruct (is_null s); [nul E Hx|].
      destruct s as [|c t]; [err E|]. destruct (c =? LCB) eqn:Ec; cbn [negb] in E.
      - apply Z.eqb_eq in Ec. subst c. destruct (parse_space t e) as [s1 e1] eqn:Esp. pose proof (space_bytes _ _ _ _ (bytes_c _ _ Hs) Esp) as Hs1.
        destruct s1 as [|d t1]; [err E|]. destruct (d =? RCB) eqn:Ed; cbn [negb] in E.
        + apply Z.eqb_eq in Ed. subst d. inversion E; subst. sp_ok Esp Hx. split; [reflexivity|]. exists (LCB :: g ++ [RCB]). split; [norm; reflexivity|]. intros _. apply V0. now constructor.
        + remember (d :: t1) as s1 eqn:Es1. destruct (members_loop mode sn L (S (length s1)) L old s1 e1) as [[[v2 s2] e2]| |] eqn:El; cbn [bind] in E; try discriminate.
          destruct s2 as [|c2 t2]; [err E|]. destruct (parse_space (c2 :: t2) e2) as [s3 e3] eqn:Esp3. destruct s3 as [|f3 t3]; [err E|].
          destruct (f3 =? RCB) eqn:Ef; cbn [negb] in E; [|err E]. inversion E; subst v2 t3 e3.
          destruct (space_ok _ _ _ _ Esp3 Hx) as (-> & g3 & Eg3 & Hg3 & _). destruct (members_ok _ _ _ HL _ _ _ _ _ _ _ _ HL Hs1 El Hx) as (-> & l & El1 & (z & Er) & Hl).
          injection Er as -> ->. destruct g3 as [|q g3]; [|exfalso; injection Eg3 as <- _; destruct (gap_head _ Hg3) as [?|(c & z' & [= <- <-] & [Hc|Hc])]; [discriminate| |]; unfold s_ws in *; lia].
          injection Eg3 as <- <-. destruct (space_ok _ _ _ _ Esp Hx) as (-> & g & -> & Hg & Hst). split; [reflexivity|]. exists (LCB :: (g ++ l) ++ [RCB]).
          split; [rewrite El1; norm; reflexivity|]. intros Tm. apply V0, closes_obj.
          assert (Tl : tame Q l). { apply (tame_sub (LCB :: g) l [RCB]). revert Tm. norm. trivial. }
          rewrite El1 in Hst. destruct (Hl Tl) as [Gl|Gl].
          * left. rewrite (gap_stop_nil _ _ Gl Hst), app_nil_r. exact Hg.
          * right. eapply glist_lead; eassumption.
      - destruct (c =? LBR) eqn:Ec2; [|err E]. apply Z.eqb_eq in Ec2. subst c. destruct (parse_space t e) as [s1 e1] eqn:Esp. 
        destruct (deref sn s1) as [d| |] eqn:Edr; cbn [bind] in E; try discriminate. destruct (d =? RBR) eqn:Ed; cbn [negb] in E; [|err E].
        destruct (step s1) as [s2| |] eqn:Est; cbn [bind] in E; try discriminate. inversion E; subst. destruct s1 as [|c1 t1]; [discriminate|]. cbn in Edr, Est. inversion Edr; inversion Est; subst.
        sp_ok Esp Hx. split; [reflexivity|]. apply Z.eqb_eq in Ed. subst d. exists (LBR :: g ++ [RBR]). split; [norm; reflexivity|]. intros _. apply V0. now constructor.
    Qed.
    Definition aacc (b : memb T) : Prop := forall m, In m (mems_of b) -> acc wvalue (des (m_codec m)).
    Lemma aacc_dl (L : list (memb T)) : Forall aacc L -> Forall (memb_all (fun _ c => dlaw (des c))) L.
    Proof. intros HL. apply (memb_all_in (fun _ c => dlaw (des c))). intros b m Hb Hm. rewrite Forall_forall in HL. apply (HL b Hb m Hm). Qed.
    Lemma amem_ok (m : mem T) (x0 : m_ty m) (st : m_ty m -> T) sn s e t' r x : acc wvalue (des (m_codec m)) -> bytes s ->
      (let* (y, r, e') := des (m_codec m) sn x0 s e in Ok (st y, r, e')) = Ok (t', r, x) -> OKE x -> e = x /\ exists p, s = p ++ r /\ (tame Q p -> V p).
    Proof.
      intros [_ HA] Hs E Hx. destruct (des (m_codec m) sn x0 s e) as [[[y r0] e2]| |] eqn:Ev; cbn [bind] in E; try discriminate. inversion E; subst.
      exact (HA _ _ _ _ _ _ _ Hs Ev Hx).
    Qed.
    Lemma amemb_ok (b : memb T) sn t s e t' r x : aacc b -> bytes s -> amemb_des b sn t s e = Ok (t', r, x) -> OKE x -> e = x /\ exists p, s = p ++ r /\ (tame Q p -> V p).
    Proof.
      intros HM Hs E Hx. destruct b as [m|m i|ru ml mr isd]; cbn [amemb_des] in E.
      - eapply (amem_ok m (m_get m t) (m_set m t)); try eassumption. apply HM. now left.
      - eapply (amem_ok m i (m_set m t)); try eassumption. apply HM. now left.
      - cbv zeta in E. set (m1 := if ru then mr else ml) in *. set (m2 := if ru then ml else mr) in *.
        assert (A1 : acc wvalue (des (m_codec m1))) by (apply HM; unfold m1; destruct ru; cbn; tauto).
        assert (A2 : acc wvalue (des (m_codec m2))) by (apply HM; unfold m2; destruct ru; cbn; tauto). clearbody m1 m2.
        destruct (amem_des m1 sn t s (Some no_error)) as [[[t1 itr] ee]| |] eqn:E1; cbn [bind] in E; try discriminate.
        destruct (no_err_yet ee) eqn:Ene.
        + destruct (mem_reset m2 t1); cbn [bind] in E; try discriminate. inversion E; subst. split; [reflexivity|].
          assert (Hee : OKE ee).
          { unfold amem_des in E1. destruct (des (m_codec m1) sn (m_get m1 t) s (Some no_error)) as [[[y r0] e2]| |] eqn:Ev; cbn [bind] in E1; try discriminate. inversion E1; subst.
            pose proof (proj1 A1 sn (m_get m1 t) s (Some no_error)) as G. rewrite Ev in G. destruct G as (_ & [->|(? & j & _ & _ & -> & Hj & _)]); [now exists no_error|].
            cbn in Ene. rewrite Hj in Ene. discriminate. }
          eapply (amem_ok m1 (m_get m1 t) (m_set m1 t)); eassumption.
        + destruct (mem_reset m1 t1); cbn [bind] in E; try discriminate. eapply (amem_ok m2 (m_get m2 _) (m_set m2 _)); eassumption.
    Qed.
    Lemma amembers_ok sn (L : list (memb T)) : Forall aacc L -> forall t s e t' r x, bytes s -> amembers_des sn L t s e = Ok (t', r, x) -> OKE x -> e = x /\
      ((L = [] /\ r = s) \/ exists l, s = l ++ r /\ heads RBR r /\ (tame Q l -> glist V l)).
    Proof.
      induction 1 as [|b L Hb HL IH]; intros t s e t' r x Hs E Hx; cbn [amembers_des] in E; [inversion E; subst; split; [reflexivity|]; now left|].
      destruct (amemb_des b sn t s e) as [[[t1 s1] e1]| |] eqn:Eb; cbn [bind] in E; try discriminate.
      assert (Hs1 : bytes s1). { assert (HF := aacc_dl [b] (Forall_cons _ Hb (Forall_nil _))). inversion HF; subst. pose proof (amemb_des_good b sn t s e H1) as G. rewrite Eb in G.
        destruct G as ((z & G) & _). rewrite G in Hs. now apply bytes_r in Hs. }
      destruct (parse_space s1 e1) as [s2 e2] eqn:Esp. pose proof (space_bytes _ _ _ _ Hs1 Esp) as Hs2. destruct s2 as [|d t2]; [err E|]. destruct (d =? COMMA) eqn:Ed.
      - apply Z.eqb_eq in Ed. subst d. destruct (parse_space t2 e2) as [s4 e4] eqn:Esp4. pose proof (space_bytes _ _ _ _ (bytes_c _ _ Hs2) Esp4) as Hs4.
        destruct (amembers_des sn L t1 s4 e4) as [[[t3 s3] e3]| |] eqn:El; cbn [bind] in E; try discriminate. destruct s3 as [|f3 z3]; [err E|].
        destruct (f3 =? RBR) eqn:Ef; cbn [negb] in E; [|err E]. inversion E; subst. apply Z.eqb_eq in Ef. subst f3.
        destruct (IH _ _ _ _ _ _ Hs4 El Hx) as (-> & Hl). sp_ok Esp4 Hx. sp_ok Esp Hx. destruct (amemb_ok _ _ _ _ _ _ _ _ Hb Hs Eb Hx) as (-> & p & -> & Hp). split; [reflexivity|]. right.
        destruct Hl as [(_ & <-)|(l & -> & _ & Hl)].
        + exists (p ++ g0 ++ COMMA :: g). split; [norm; reflexivity|]. split; [now exists z3|]. intros Tm. apply (gl_trail V [] p g0 g); [constructor|exact (Hp (tame_l _ _ Tm))|assumption|assumption].
        + exists (p ++ g0 ++ COMMA :: g ++ l). split; [norm; reflexivity|]. split; [now exists z3|]. intros Tm.
          assert (Tl : tame Q l). { apply (tame_r (p ++ g0 ++ COMMA :: g)). norm. exact Tm. }
          apply (gl_more V [] p g0); [constructor|exact (Hp (tame_l _ _ Tm))|assumption|]. eapply glist_lead; [assumption|exact (Hl Tl)|eassumption].
      - cbn [bind] in E. destruct (d =? RBR) eqn:Ef; cbn [negb] in E; [|err E]. inversion E; subst. apply Z.eqb_eq in Ef. subst d. sp_ok Esp Hx.
        destruct (amemb_ok _ _ _ _ _ _ _ _ Hb Hs Eb Hx) as (-> & p & -> & Hp). split; [reflexivity|]. right. exists (p ++ g). split; [now rewrite <- app_assoc|]. split; [now exists t2|].
        intros Tm. apply (gl_one V [] p g); [constructor|exact (Hp (tame_l _ _ Tm))|assumption].
    Qed.
    Lemma oarray_acc (L : list (memb T)) t0 : Forall aacc L -> acc wvalue (oarray_des L t0).
    Proof.
      intros HL. split; [now apply oarray_dlaw, aacc_dl|]. intros sn old s e v r x Hs E Hx. unfold oarray_des in E. destruct (is_null s); [nul E Hx|].
      destruct s as [|c t]; [err E|]. destruct (c =? LBR) eqn:Ec; cbn [negb] in E; [|err E].
      apply Z.eqb_eq in Ec. subst c. destruct (parse_space t e) as [s1 e1] eqn:Esp. pose proof (space_bytes _ _ _ _ (bytes_c _ _ Hs) Esp) as Hs1.
      destruct s1 as [|d t1]; [err E|]. destruct (d =? RBR) eqn:Ed; cbn [negb] in E.
      - apply Z.eqb_eq in Ed. subst d. inversion E; subst. sp_ok Esp Hx. split; [reflexivity|]. exists (LBR :: g ++ [RBR]). split; [norm; reflexivity|]. intros _. apply V0. now constructor.
      - remember (d :: t1) as s1 eqn:Es1. destruct (amembers_des sn L old s1 e1) as [[[v2 s2] e2]| |] eqn:El; cbn [bind] in E; try discriminate.
        destruct s2 as [|c2 t2]; [err E|]. destruct (parse_space (c2 :: t2) e2) as [s3 e3] eqn:Esp3. destruct s3 as [|f3 t3]; [err E|].
        destruct (f3 =? RBR) eqn:Ef; cbn [negb] in E; [|err E]. inversion E; subst v2 t3 e3.
        destruct (space_ok _ _ _ _ Esp3 Hx) as (-> & g3 & Eg3 & Hg3 & _). destruct (amembers_ok _ _ HL _ _ _ _ _ _ Hs1 El Hx) as (-> & Hl).
        destruct (space_ok _ _ _ _ Esp Hx) as (-> & g & -> & Hg & Hst). split; [reflexivity|].
        destruct Hl as [(_ & Hl)|(l & El1 & (z & Er) & Hl)].
        + exfalso. rewrite <- Hl, Eg3 in Hst. rewrite (gap_stop_nil _ _ Hg3 Hst) in Eg3. rewrite Hl, Es1 in Eg3. injection Eg3 as -> _. congruence.
        + injection Er as -> ->. destruct g3 as [|q g3]; [|exfalso; injection Eg3 as <- _; destruct (gap_head _ Hg3) as [?|(c & z' & [= <- <-] & [Hc|Hc])]; [discriminate| |]; unfold s_ws in *; lia].
          injection Eg3 as <- <-. exists (LBR :: (g ++ l) ++ [RBR]). split; [rewrite El1; norm; reflexivity|]. intros Tm. apply V0, closes_arr. right.
          assert (Tl : tame Q l). { apply (tame_sub (LBR :: g) l [RBR]). revert Tm. norm. trivial. }
          rewrite El1 in Hst. eapply glist_absorb, glist_lead; [assumption|exact (Hl Tl)|eassumption].
    Qed.
  End Obj.
End Laws.
Lemma skey_acc Q A (c : codec A) : skey Q A c -> acc Q (keyI Q) (des c).
Proof. intros []; [now apply string_kacc|now apply chars_kacc|now apply enum_kacc]. Qed.
Theorem sdesc_acc Q A (c : codec A) : sdesc Q A c -> acc Q wvalue (des c).
Proof.
  induction 1.
  - apply int_acc.
  - apply bool_acc.
  - apply float_acc.
  - now apply string_acc.
  - now apply chars_acc.
  - now apply enum_acc.
  - apply raw_acc.
  - apply raw_acc.
  - apply rquoted_acc.
  - now apply size_acc.
  - now apply seq_acc with wvalue; [exact closes_arr|].
  - now apply seq_acc with wvalue; [exact closes_arr|].
  - now apply seq_acc with wvalue; [exact closes_arr|].
  - apply seq_acc with memtext; [exact closes_obj|]. apply field_acc; [now apply skey_acc|assumption].
  - apply seq_acc with memtext; [exact closes_obj|]. apply field_acc; [now apply skey_acc|assumption].
  - apply seq_acc with memtext; [exact closes_obj|]. apply field_acc; [now apply skey_acc|assumption].
  - apply vec_acc. now apply fix_acc with wvalue; [exact closes_arr|].
  - apply vec_acc. now apply fix_acc with wvalue; [exact closes_arr|].
  - apply object_acc. apply Forall_forall. intros b Hb m Hm. split; eauto.
  - apply oarray_acc. apply Forall_forall. intros b Hb m Hm. eauto.
  - now apply mval_acc.
  - apply quoted_acc; [assumption|now apply desc_dlaw|discriminate].
  - apply quoted_acc; [assumption|apply IHsdesc|now intros _].
  - now apply hash_acc with wvalue; [exact closes_arr|].
  - apply hash_acc with memtext; [exact closes_obj|]. apply field_acc; [now apply skey_acc|assumption].
Qed.
