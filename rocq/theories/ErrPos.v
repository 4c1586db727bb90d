(** Where parser::parse reports errors, against the first byte that makes the
    text impossible to complete (C60). *)
From Verif Require Import Base Parser SpecJson ParserFacts Grammar1 Grammar2.

Notation clean := (Some no_error) (only parsing).

Definition tail_rel (j : json_error) (d : Z) : Prop :=
  (exact_pos j /\ tail_of j = d) \/ (colon_pos j /\ tail_of j = d - 1 /\ 0 < d) \/
  (number_pos j /\ tail_of j = 0 /\ 0 < d) \/ (literal_pos j /\ 1 <= tail_of j <= 4 /\ 0 < d).

Definition fails (f : pfun) (s : buf) : Prop := exists j, f s clean = Ok ([], Some j) /\ is_err j = true.

(** [f] recognises [I]; its errors are located *)
Definition errpos (I : buf -> Prop) (f : pfun) (s : buf) : Prop :=
  forall r j, f s clean = Ok (r, Some j) -> is_err j = true ->
  exists p q, s = p ++ q /\ tail_rel j (dist q) /\ (exists t, I (p ++ t)) /\
    forall c q', q = c :: q' -> forall t, fails f (p ++ c :: t).

(** ---- whitespace ---- *)
Lemma space_loop_len s : forall sc, (length (snd (space_loop sc s)) <= length s)%nat.
Proof. intros sc. apply suffix_len, space_loop_suffix. Qed.
Lemma space_loc x : forall sc c t t', space_loop sc (x ++ c :: t) = (false, c :: t) ->
  space_loop sc (x ++ c :: t') = (false, c :: t').
Proof.
  induction x as [|a x IH]; intros sc c t t' H.
  - cbn [app] in *. cbn [space_loop] in H |- *.
    assert (K : forall b, space_loop b t <> (false, c :: t)).
    { intros b E. pose proof (space_loop_len t b) as L. rewrite E in L. cbn [snd length] in L. lia. }
    destruct sc.
    + exfalso. destruct (c =? STAR); [destruct t as [|d t0]; [discriminate|destruct (d =? SLASH)]|]; now apply K in H.
    + destruct (is_ws c); cbn [negb] in *; [now apply K in H|].
      destruct (c =? SLASH); [|reflexivity].
      destruct t as [|d t0]; [discriminate|destruct (d =? STAR)]; now apply K in H.
  - cbn [app] in *. cbn [space_loop] in H |- *.
    assert (K : (a :: x ++ c :: t) <> c :: t).
    { intros E. apply (f_equal (@length Z)) in E. cbn [length] in E. rewrite app_length in E. cbn [length] in E. lia. }
    assert (E : exists d y y', x ++ c :: t = d :: y /\ x ++ c :: t' = d :: y').
    { destruct x as [|d x']; cbn [app]; eauto. }
    destruct E as (d & y & y' & E1 & E2).
    destruct sc.
    + destruct (a =? STAR); [|now apply (IH _ _ t)].
      rewrite E1 in H. rewrite E2. destruct (d =? SLASH); rewrite <- E1 in H; rewrite <- E2; now apply (IH _ _ t).
    + destruct (is_ws a); cbn [negb] in *; [now apply (IH _ _ t)|].
      destruct (a =? SLASH); [|exfalso; apply K; congruence].
      rewrite E1 in H. rewrite E2. destruct (d =? STAR); rewrite <- E1 in H; rewrite <- E2; now apply (IH _ _ t).
Qed.
Lemma parse_space_loc x c t t' e : parse_space (x ++ c :: t) clean = (c :: t, clean) ->
  parse_space (x ++ c :: t') e = (c :: t', e).
Proof.
  unfold parse_space. destruct (space_loop false (x ++ c :: t)) as [sc r] eqn:E. destruct sc; [discriminate|].
  intros H. injection H as ->. apply (space_loc _ _ _ _ t') in E. rewrite E. reflexivity.
Qed.

(** an unterminated comment can be completed *)
Definition openc (s : buf) : Prop :=
  no_close (s ++ [STAR]) \/
  exists u g, s = u ++ STAR :: SLASH :: g /\ no_close (u ++ [STAR]) /\ gap (SLASH :: g ++ [STAR; SLASH]).
Lemma openc_cons c d t : ~ (c = STAR /\ d = SLASH) -> openc (d :: t) -> openc (c :: d :: t).
Proof.
  intros Hn [H|(u & g & E & H & Hg)].
  - left. cbn [app] in *. now constructor.
  - right. exists (c :: u), g. split; [cbn; now rewrite E|]. split; [|exact Hg].
    destruct u as [|x u]; cbn [app] in *; injection E as -> E; constructor; assumption.
Qed.
Lemma space_open s :
  (forall r, space_loop false s = (true, r) -> gap (s ++ [STAR; SLASH])) /\
  (forall r, space_loop true s = (true, r) -> openc s).
Proof.
  induction s as [|c t [IHf IHt]].
  - split; intros r H; [discriminate|]. left. constructor.
  - split; intros r H; cbn [space_loop] in H.
    + destruct (is_ws c) eqn:Ew; cbn [negb] in H.
      { cbn [app]. constructor; [now apply is_ws_iff|]. eapply IHf; eassumption. }
      destruct (c =? SLASH) eqn:Es; [|discriminate]. bool2prop. subst c.
      destruct t as [|d t0]; [discriminate|]. destruct (d =? STAR) eqn:Ed.
      * bool2prop. subst d. destruct (IHt _ H) as [Hn|(u & g & E & Hn & Hg)].
        -- cbn [app]. apply (g_comment (STAR :: t0) []).
           ++ eexists. reflexivity.
           ++ exact Hn.
           ++ apply g_slash; [intros [? ?]; discriminate|constructor].
        -- rewrite E. cbn [app]. rewrite <- app_assoc. cbn [app]. apply g_comment; [|exact Hn|exact Hg].
           destruct u as [|x u]; cbn in E; injection E; intros; subst; eexists; reflexivity.
      * specialize (IHf _ H). bool2prop. cbn [app] in *. apply g_slash; [|exact IHf].
        intros [z E]. injection E as -> _. congruence.
    + destruct (c =? STAR) eqn:Ec.
      * bool2prop. subst c. destruct t as [|d t0].
        { left. cbn. constructor; [lia|constructor]. }
        destruct (d =? SLASH) eqn:Ed; bool2prop.
        -- subst d. specialize (IHf _ H). right. exists [], t0. repeat split; [constructor|exact IHf].
        -- apply openc_cons; [tauto|]. eapply IHt; eassumption.
      * bool2prop. destruct t as [|d t0].
        { left. cbn. constructor; [tauto|constructor]. }
        apply openc_cons; [tauto|]. eapply IHt; eassumption.
Qed.
(** what parse_space does to a clean error *)
Lemma space_cases s : 
  (exists g r, s = g ++ r /\ gap g /\ stop' r /\ parse_space s clean = (r, clean)) \/
  (gap (s ++ [STAR; SLASH]) /\ exists j, parse_space s clean = ([], Some j) /\ exact_pos j /\ tail_of j = 0 /\ is_err j = true).
Proof.
  unfold parse_space. destruct (space_loop false s) as [sc r] eqn:E. destruct sc.
  - right. split; [eapply space_open; eassumption|]. eexists. split; [reflexivity|]. repeat split.
  - left. destruct (proj1 (space_gap_gen s) r E) as (g & Es & Hg & Hr). exists g, r. auto.
Qed.
Lemma space_nil e : parse_space [] e = ([], e).
Proof. reflexivity. Qed.

(** ---- literals ---- *)
Lemma lit_bad lit nm (c0 : Z) : forall (pre t r : buf) j, (length pre + length lit <= 4)%nat ->
  finish_lit (lit_chain lit (dist pre) t) nm clean = (r, Some j) -> is_err j = true ->
  literal_pos (mkerr ExpectedOf (Some nm) 0) ->
  exists p q, t = p ++ q /\ tail_rel j (dist q) /\ (exists z, lit = p ++ z) /\
    forall c q', q = c :: q' -> forall t', exists j', finish_lit (lit_chain lit (dist pre) (p ++ c :: t')) nm clean = ([], Some j') /\ is_err j' = true.
Proof.
  induction lit as [|x lit IH]; intros pre t r j Hl H Hj Hnm; cbn [lit_chain] in *.
  - cbn in H. injection H as _ <-. discriminate.
  - destruct t as [|c t].
    + exists [], []. cbn in H. injection H as _ <-. split; [reflexivity|]. split; [left; split; [exact I|reflexivity]|].
      split; [eexists; reflexivity|]. discriminate.
    + destruct (c =? x) eqn:E.
      * bool2prop. subst c.
        replace (dist pre + 1) with (dist (pre ++ [c0])) in * by (rewrite dist_app; reflexivity).
        destruct (IH (pre ++ [c0]) t r j) as (p & q & -> & Hr & (z & ->) & Hf); [rewrite app_length; cbn [length] in *; lia|exact H|exact Hj|exact Hnm|].
        exists (x :: p), q. split; [reflexivity|]. split; [exact Hr|]. split; [eexists; reflexivity|].
        intros c q' Eq t'. cbn [app]. rewrite Z.eqb_refl. 
        replace (dist pre + 1) with (dist (pre ++ [c0])) in * by (rewrite dist_app; reflexivity). eapply Hf; eassumption.
      * exists [], (c :: t). cbn in H. injection H as _ <-. split; [reflexivity|]. split.
        { right; right; right. split; [exact Hnm|]. cbn [tail_of]. pose proof (dist_nonneg t). rewrite dist_cons.
          unfold dist. cbn [length] in Hl. lia. }
        split; [eexists; reflexivity|]. intros c' q' Eq t'. injection Eq as -> ->. cbn [app].
        rewrite E. cbn [finish_lit]. eexists. split; reflexivity.
Qed.

(** ---- numbers ---- *)
Lemma exp_bad s r j : parse_exp s clean = (r, Some j) -> is_err j = true ->
  exists p q, s = p ++ q /\ tail_rel j (dist q) /\ p <> [] /\ rexp (p ++ [48]) /\
    forall c q', q = c :: q' -> forall t, exists j', parse_exp (p ++ c :: t) clean = ([], Some j') /\ is_err j' = true.
Proof.
  unfold parse_exp. destruct s as [|m t]; [intros H Hj; injection H as _ <-; discriminate|].
  destruct ((m =? 101) || (m =? 69)) eqn:Em; [|intros H Hj; injection H as _ <-; discriminate].
  assert (Hm : m = 101 \/ m = 69) by lia.
  assert (D : forall sg, sg = [] \/ sg = [MINUS] \/ sg = [PLUS] -> rexp ((m :: sg) ++ [48])).
  { intros sg Hsg. apply (re_some m sg [48] Hm Hsg). split; [discriminate|]. constructor; [unfold s_digit; lia|constructor]. }
  assert (E0 : forall j, Some (mkerr UnexpectedEndFragment None 0) = Some j -> tail_rel j 0).
  { intros j0 E. injection E as <-. left. split; [exact I|reflexivity]. }
  assert (E1 : forall d x j, Some (mkerr InvalidNumber None 0) = Some j -> tail_rel j (dist (d :: x))).
  { intros d x j0 E. injection E as <-. right; right; left. split; [reflexivity|]. split; [reflexivity|].
    rewrite dist_cons. pose proof (dist_nonneg x). lia. }
  destruct t as [|d t].
  { intros H Hj. exists [m], []. split; [reflexivity|]. split; [apply E0; cbn in H; congruence|]. split; [discriminate|].
    split; [apply (D []); auto|]. discriminate. }
  destruct ((d =? MINUS) || (d =? PLUS)) eqn:Ed.
  - assert (Hsg : [d] = [] \/ [d] = [MINUS] \/ [d] = [PLUS]) by (assert (d = MINUS \/ d = PLUS) as [-> | ->] by lia; auto).
    destruct t as [|d2 t].
    { intros H Hj. exists [m; d], []. split; [reflexivity|]. split; [apply E0; cbn in H; congruence|]. split; [discriminate|].
      split; [apply (D [d]); auto|]. discriminate. }
    destruct (is_digit d2) eqn:Ed2; [intros H Hj; injection H as _ <-; discriminate|].
    intros H Hj. exists [m; d], (d2 :: t). split; [reflexivity|]. split; [apply E1; cbn in H; congruence|]. split; [discriminate|].
    split; [apply (D [d]); auto|]. intros c q' E t'. injection E as -> ->. cbn [app]. rewrite Em, Ed, Ed2. eexists. split; reflexivity.
  - destruct (is_digit d) eqn:Ed2; [intros H Hj; injection H as _ <-; discriminate|].
    intros H Hj. exists [m], (d :: t). split; [reflexivity|]. split; [apply E1; cbn in H; congruence|]. split; [discriminate|].
    split; [apply (D []); auto|]. intros c q' E t'. injection E as -> ->. cbn [app]. rewrite Em, Ed, Ed2. eexists. split; reflexivity.
Qed.

Lemma rexp_head x c t : rexp x -> x = c :: t -> c = 101 \/ c = 69.
Proof. intros H E. destruct H; [discriminate|]. injection E as <- _. assumption. Qed.

Lemma number_bad s r j : is_number s = true -> parse_number s clean = (r, Some j) -> is_err j = true ->
  exists p q, s = p ++ q /\ tail_rel j (dist q) /\ (exists t, rnumber (p ++ t)) /\ is_number p = true /\
    forall c q', q = c :: q' -> forall t, exists j', parse_number (p ++ c :: t) clean = ([], Some j') /\ is_err j' = true.
Proof.
  intros Hn. unfold parse_number at 1.
  destruct (integer_good s) as (r1 & o1 & A1 & B1). pose proof (A1 clean) as A. rewrite A.
  destruct o1 as [k|].
  { (* a minus without digits *)
    destruct B1 as (_ & (Bk & _) & B1). rewrite B1 in A |- * by congruence. cbn [app_err is_err no_error code] in A |- *.
    intros H Hj. assert (k = j) by congruence. subst k. clear H A1.
    unfold parse_integer in A. destruct s as [|c t]; [discriminate|]. cbv zeta in A.
    destruct (c =? MINUS) eqn:Em.
    - bool2prop. subst c.
      assert (V : rnumber ([MINUS] ++ [48])).
      { apply (rnum [MINUS] [48] [] []); constructor. }
      destruct t as [|c1 t1].
      + exists [MINUS], []. split; [reflexivity|]. split.
        { cbn in A. injection A as <-. left. split; [exact I|reflexivity]. }
        split; [exists [48]; exact V|]. split; [reflexivity|]. discriminate.
      + destruct (c1 =? 48) eqn:E0; [injection A as _ A; subst j; discriminate|].
        destruct ((49 <=? c1) && (c1 <=? 57)) eqn:E9; [injection A as _ A; subst j; discriminate|].
        exists [MINUS], (c1 :: t1). split; [reflexivity|]. split.
        { cbn in A. injection A as <-. right; right; left. split; [reflexivity|]. split; [reflexivity|].
          rewrite dist_cons. pose proof (dist_nonneg t1). lia. }
        split; [exists [48]; exact V|]. split; [reflexivity|].
        intros c q' E t'. injection E as -> ->. cbn [app]. unfold parse_number, parse_integer.
        change (MINUS =? MINUS) with true. cbv iota zeta. rewrite E0, E9. eexists. split; reflexivity.
    - exfalso. cbn in Hn. rewrite Em in Hn. unfold is_digit in Hn.
      destruct (c =? 48) eqn:E0; [injection A as _ A; subst j; discriminate|].
      destruct ((49 <=? c) && (c <=? 57)) eqn:E9; [injection A as _ A; subst j; discriminate|]. lia. }
  cbn [app_err] in *. clear A1. apply parse_integer_inv in A.
  destruct A as (m & i & -> & Hm & Hi & Hnd).
  assert (N : is_number (m ++ i) = true).
  { destruct Hm; [|reflexivity]. destruct Hi; [reflexivity|]. cbn. unfold is_digit. lia. }
  assert (N' : forall x, is_number ((m ++ i) ++ x) = true).
  { intros x. destruct (m ++ i); [discriminate|]. exact N. }
  destruct r1 as [|c t]; [intros H Hj; injection H as _ <-; discriminate|].
  destruct (c =? DOT) eqn:Ec.
  - bool2prop. subst c.
    assert (PI : forall x e, parse_integer (m ++ i ++ DOT :: x) e = (DOT :: x, e)).
    { intros x e. apply parse_integer_app; [assumption..|]. right. cbn. unfold s_digit. lia. }
    assert (V : rnumber ((m ++ i ++ [DOT]) ++ [48])).
    { rewrite <- !app_assoc. cbn [app]. apply (rnum m i [DOT; 48] []); try assumption; [|constructor].
      constructor. split; [discriminate|]. constructor; [unfold s_digit; lia|constructor]. }
    destruct t as [|d t].
    + intros H Hj. exists (m ++ i ++ [DOT]), []. split; [rewrite app_nil_r; reflexivity|]. split.
      { cbn in H. injection H as _ <-. left. split; [exact I|reflexivity]. }
      split; [eexists; exact V|]. split; [rewrite app_assoc; apply N'|]. discriminate.
    + destruct (is_digit d) eqn:Ed.
      2:{ intros H Hj. exists (m ++ i ++ [DOT]), (d :: t). split; [rewrite <- !app_assoc; reflexivity|]. split.
          { cbn in H. injection H as _ <-. right; right; left. split; [reflexivity|]. split; [reflexivity|].
            rewrite dist_cons. pose proof (dist_nonneg t). lia. }
          split; [eexists; exact V|]. split; [rewrite app_assoc; apply N'|].
          intros c q' E t'. injection E as -> ->. rewrite <- !app_assoc. cbn [app]. unfold parse_number. rewrite PI.
          change (DOT =? DOT) with true. cbv iota. rewrite Ed. eexists. split; reflexivity. }
      intros H Hj. destruct (parse_digit_inv (d :: t)) as (ds & E & Hds & Hnds).
      destruct (exp_bad _ _ _ H Hj) as (p & q & Ep & Hr & Hp & Hx & Hf).
      assert (Hds1 : exists d' ds', ds = d' :: ds').
      { destruct ds as [|d' ds']; [|eauto]. exfalso. rewrite app_nil_l in E. rewrite <- E in Hnds. apply Hnds, is_digit_iff, Ed. }
      exists (m ++ i ++ DOT :: ds ++ p), q. split.
      { rewrite E, Ep. repeat (rewrite <- ?app_assoc; cbn [app]). reflexivity. }
      split; [exact Hr|]. split.
      { exists [48]. replace ((m ++ i ++ DOT :: ds ++ p) ++ [48]) with (m ++ i ++ (DOT :: ds) ++ (p ++ [48])) by (repeat (rewrite <- ?app_assoc; cbn [app]); reflexivity).
        constructor; try assumption. constructor. split; [|exact Hds]. destruct Hds1 as (? & ? & ->). discriminate. }
      split; [rewrite app_assoc; apply N'|].
      intros c q' -> t'. destruct (Hf c q' eq_refl t') as (j' & F1 & F2). exists j'. split; [|exact F2].
      replace ((m ++ i ++ DOT :: ds ++ p) ++ c :: t') with (m ++ i ++ DOT :: (ds ++ p ++ c :: t')) by (repeat (rewrite <- ?app_assoc; cbn [app]); reflexivity).
      unfold parse_number. rewrite PI. change (DOT =? DOT) with true. cbv iota.
      destruct Hds1 as (d' & ds' & Eds). 
      assert (PD : parse_digit (ds ++ p ++ c :: t') = p ++ c :: t').
      { apply parse_digit_app; [exact Hds|]. destruct p as [|p0 p]; [congruence|]. cbn.
        assert (p0 = 101 \/ p0 = 69) by (eapply rexp_head; [exact Hx|reflexivity]). unfold s_digit. lia. }
      rewrite PD. subst ds. cbn [app]. inversion Hds; subst. 
      match goal with X : s_digit d' |- _ => apply is_digit_iff in X; rewrite X end. exact F1.
  - intros H Hj. destruct (exp_bad _ _ _ H Hj) as (p & q & Ep & Hr & Hp & Hx & Hf).
    exists (m ++ i ++ p), q. split; [rewrite Ep, <- !app_assoc; reflexivity|]. split; [exact Hr|].
    split.
    { exists [48]. rewrite <- !app_assoc. apply (rnum m i [] (p ++ [48])); try assumption. constructor. }
    split; [rewrite app_assoc; apply N'|].
    intros c' q' -> t'. destruct (Hf c' q' eq_refl t') as (j' & F1 & F2). exists j'. split; [|exact F2].
    rewrite <- !app_assoc. unfold parse_number.
    destruct p as [|p0 p]; [congruence|]. assert (p0 = 101 \/ p0 = 69) by (eapply rexp_head; [exact Hx|reflexivity]).
    rewrite parse_integer_app; [|assumption..|].
    2:{ right. cbn. unfold s_digit. lia. }
    cbn [app] in *. destruct (p0 =? DOT) eqn:E0; [lia|]. exact F1.
Qed.

(** ---- strings ---- *)
Lemma hex_bad n : forall s r j, hex_loop n s clean = (r, Some j) -> is_err j = true ->
  exists p q, s = p ++ q /\ exact_pos j /\ tail_of j = dist q /\ Forall s_hex p /\ (length p < n)%nat /\ r = [] /\
    forall c q', q = c :: q' -> forall t, exists j', hex_loop n (p ++ c :: t) clean = ([], Some j') /\ is_err j' = true.
Proof.
  induction n as [|n IH]; intros s r j H Hj; cbn [hex_loop] in H; [injection H as _ <-; discriminate|].
  destruct s as [|c t].
  - exists [], []. cbn in H. injection H as <- <-. repeat split; try (cbn [length]; lia); try constructor. discriminate.
  - destruct (is_hex c) eqn:E.
    + destruct (IH _ _ _ H Hj) as (p & q & -> & H1 & H2 & H3 & H4 & H5 & H6).
      exists (c :: p), q. repeat split; try assumption; [constructor; [now apply is_hex_iff|assumption]|cbn; lia|].
      intros c' q' Eq t'. cbn [app hex_loop]. rewrite E. eapply H6; eassumption.
    + exists [], (c :: t). cbn in H. injection H as <- <-. repeat split; try (cbn [length]; lia); try constructor.
      intros c' q' Eq t'. injection Eq as -> ->. cbn [app hex_loop]. rewrite E. eexists. split; reflexivity.
Qed.
Lemma part_bad n : forall s r j, bytes s -> utf8_part n s clean = (r, Some j) -> is_err j = true ->
  exists p q, s = p ++ q /\ exact_pos j /\ tail_of j = dist q /\ Forall s_cont p /\ (length p < n)%nat /\ r = [] /\
    forall c q', q = c :: q' -> forall t, exists j', utf8_part n (p ++ c :: t) clean = ([], Some j') /\ is_err j' = true.
Proof.
  induction n as [|n IH]; intros s r j Hb H Hj; cbn [utf8_part] in H; [injection H as _ <-; discriminate|].
  destruct s as [|c t].
  - exists [], []. cbn in H. injection H as <- <-. repeat split; try (cbn [length]; lia); try constructor. discriminate.
  - inversion Hb; subst. destruct (Z.land c 192 =? 128) eqn:E.
    + destruct (IH _ _ _ H3 H Hj) as (p & q & -> & K1 & K2 & K3 & K4 & K5 & K6).
      exists (c :: p), q. repeat split; try assumption; [constructor; [|assumption]|cbn; lia|].
      { rewrite cont_class in E by assumption. unfold s_cont. lia. }
      intros c' q' Eq t'. cbn [app utf8_part]. rewrite E. eapply K6; eassumption.
    + exists [], (c :: t). cbn in H. injection H as <- <-. repeat split; try (cbn [length]; lia); try constructor.
      intros c' q' Eq t'. injection Eq as -> ->. cbn [app utf8_part]. rewrite E. eexists. split; reflexivity.
Qed.

(** the end of parse_string *)
Definition sfin (x : (buf * eptr) + (buf * eptr)) : res (buf * eptr) :=
  match x with
  | inr x => Ok x
  | inl ([], e1) => Ok ([], cerr UnexpectedEndFragment None 0 e1)
  | inl (d :: t1, e1) =>
    if negb (d =? QT) then Ok ([], cerr ExpectedOf (Some [QT]) (dist (d :: t1)) e1) else Ok (t1, e1)
  end.
Definition sfails (n : nat) (s : buf) : Prop := exists x j, string_loop n s clean = Ok x /\ sfin x = Ok ([], Some j) /\ is_err j = true.

Lemma string_loop_end n j : is_err j = true -> string_loop (S n) [] (Some j) = Ok (inl ([], Some j)).
Proof. reflexivity. Qed.
Lemma sfin_end j : is_err j = true -> sfin (inl ([], Some j)) = Ok ([], Some j).
Proof. intros H. cbn. now rewrite H. Qed.

Lemma wlead_class c n : 0 <= c <= 255 -> utf8_conts c = Some n -> 128 <= c -> wlead c n.
Proof.
  intros Hc. rewrite utf8_conts_class by exact Hc. unfold lead_class. intros H Hc'.
  repeat match type of H with context [?a <? ?b] => destruct (Z.ltb_spec a b) end; try lia; try discriminate;
    injection H as <-; constructor; lia.
Qed.

Lemma sloop_bad n : forall s x r j, bytes s -> (length s < n)%nat -> string_loop n s clean = Ok x ->
  sfin x = Ok (r, Some j) -> is_err j = true ->
  exists p q, s = p ++ q /\ exact_pos j /\ tail_of j = dist q /\ (exists t, wchars (p ++ t)) /\ r = [] /\
    forall c q', q = c :: q' -> forall t m, (length (p ++ c :: t) < m)%nat -> sfails m (p ++ c :: t).
Proof.
  induction n as [|n IH]; intros s x r j Hb Hn H Hf Hj; [lia|]. cbn [string_loop] in H.
  destruct s as [|c t].
  { injection H as <-. cbn in Hf. injection Hf as <- <-. exists [], []. repeat split; try constructor; try discriminate.
    exists []. constructor. }
  destruct (c =? QT) eqn:Eq.
  { injection H as <-. cbn [sfin] in Hf. rewrite Eq in Hf. cbn [negb] in Hf. injection Hf as _ <-. discriminate. }
  cbn [length] in Hn. inversion Hb as [|? ? Hc Hbt]; subst.
  assert (Step : forall k s', c :: t = k ++ s' -> wchar k -> (length s' < n)%nat -> string_loop n s' clean = Ok x ->
    exists p q, c :: t = p ++ q /\ exact_pos j /\ tail_of j = dist q /\ (exists t, wchars (p ++ t)) /\ r = [] /\
    forall c q', q = c :: q' -> forall t m, (length (p ++ c :: t) < m)%nat -> sfails m (p ++ c :: t)).
  { intros k s' Ek Hk Hl Hx. assert (Hb' : bytes s').
    { rewrite Ek in Hb. unfold bytes in Hb. rewrite Forall_app in Hb. apply Hb. }
    destruct (IH s' x r j Hb' Hl Hx Hf Hj) as (p & q & -> & K1 & K2 & (z & K3) & K4 & K5).
    exists (k ++ p), q. rewrite Ek. split; [now rewrite app_assoc|]. split; [exact K1|]. split; [exact K2|].
    split; [exists z; rewrite <- app_assoc; now constructor|]. split; [exact K4|].
    intros c' q' -> t' m Hm. rewrite <- app_assoc in *. rewrite app_length in Hm. pose proof (wchar_len _ Hk).
    destruct m as [|m]; [lia|]. destruct (K5 c' q' eq_refl t' m ltac:(lia)) as (x' & j' & F1 & F2).
    exists x', j'. split; [|exact F2]. destruct (wchar_step k Hk m (p ++ c' :: t') clean) as (y & E & ->). rewrite E. exact F1. }
  destruct (c =? BSL) eqn:Eb.
  - assert (c = BSL) by lia. subst c. 
    assert (V0 : exists t0, wchars ([BSL] ++ t0)).
    { exists [BSL]. apply (wcs_cons [BSL; BSL] []); [constructor; unfold s_esc; lia|constructor]. }
    destruct t as [|d t'].
    { injection H as <-. cbn in Hf. injection Hf as <- <-. exists [BSL], []. repeat split; try assumption. discriminate. }
    inversion Hbt as [|? ? Hd Hbt']; subst.
    destruct (esc_ok d) eqn:Ee; cbn [negb] in H.
    2:{ injection H as <-. cbn [sfin] in Hf. cbn in Hf. injection Hf as <- <-. exists [BSL], (d :: t'). repeat split; try assumption.
        intros c q' E t0 m Hm. injection E as <- <-. destruct m as [|m]; [lia|]. cbn [app]. unfold sfails. cbn [string_loop].
        change (BSL =? QT) with false. change (BSL =? BSL) with true. cbv iota. rewrite Ee. cbn [negb].
        eexists _, _. split; [reflexivity|]. split; reflexivity. }
    cbn [length] in *.
    destruct (d =? 117) eqn:Eu.
    + assert (d = 117) by lia. subst d.
      destruct (hex_good t') as (r1 & o1 & A1 & B1). rewrite A1 in H. pose proof (A1 clean) as A1'.
      destruct (app_err_cases _ _ (proj1 (proj2 B1))) as [[-> Ho]|(k & Ek & Hk)].
      * rewrite Ho in *. 
        assert (K : exists h, t' = h ++ r1 /\ length h = 4%nat /\ Forall s_hex h).
        { unfold parse_hex in A1'. destruct t'; [discriminate|]. apply hex_loop_inv. exact A1'. }
        destruct K as (h & Eh & Hh & Hfh). destruct h as [|a [|b [|c [|d [|]]]]]; cbn in Hh; try lia.
        repeat match goal with X : Forall _ (_ :: _) |- _ => inversion X; subst; clear X end.
        apply (Step [BSL; 117; a; b; c; d] r1); [reflexivity|constructor; assumption| |exact H].
        pose proof (suffix_len _ _ (proj1 B1)). lia.
      * rewrite Ek in *. assert (Hr1 : r1 = []).
        { apply B1. intros ->. cbn in Ek. injection Ek as <-. discriminate. }
        subst r1. destruct n as [|n]; [lia|]. rewrite string_loop_end in H by exact Hk. injection H as <-.
        rewrite sfin_end in Hf by exact Hk. injection Hf as <- <-.
        assert (K : exists p q, t' = p ++ q /\ exact_pos k /\ tail_of k = dist q /\ Forall s_hex p /\ (length p < 4)%nat /\
          forall c q', q = c :: q' -> forall t, exists j', parse_hex (p ++ c :: t) clean = ([], Some j') /\ is_err j' = true).
        { unfold parse_hex in A1'. destruct t' as [|a t''].
          - cbn in A1'. injection A1' as <-. exists [], []. repeat split; try (cbn [length]; lia); try constructor. discriminate.
          - destruct (hex_bad 4 _ _ _ A1' Hk) as (p & q & -> & K1 & K2 & K3 & K4 & _ & K6).
            exists p, q. repeat split; try assumption. intros c q' E t. unfold parse_hex.
            destruct (p ++ c :: t) as [|y z] eqn:Ey; [destruct p; discriminate|]. rewrite <- Ey. eapply K6; eassumption. }
        destruct K as (p & q & -> & K1 & K2 & K3 & K4 & K6).
        exists ([BSL; 117] ++ p), q. split; [reflexivity|]. split; [exact K1|]. split; [exact K2|]. split.
        { assert (HH : s_hex 48) by (unfold s_hex; lia).
          exists (repeat 48 (4 - length p)). destruct p as [|a [|b [|c [|d [|]]]]]; cbn in K4; try lia;
          repeat match goal with X : Forall _ (_ :: _) |- _ => inversion X; subst; clear X end; cbn [length repeat Nat.sub app];
          match goal with |- wchars [?x1; ?x2; ?x3; ?x4; ?x5; ?x6] => apply (wcs_cons [x1; x2; x3; x4; x5; x6] []) end;
            constructor; assumption. }
        split; [reflexivity|]. intros c q' -> t m Hm. destruct (K6 c q' eq_refl t) as (j' & F1 & F2).
        rewrite app_length in Hm. cbn [length app] in Hm |- *.
        destruct m as [|[|m]]; [lia..|]. unfold sfails. cbn [string_loop]. change (BSL =? QT) with false. change (BSL =? BSL) with true. cbv iota.
        change (esc_ok 117) with true. cbn [negb]. change (117 =? 117) with true. cbv iota. rewrite F1.
        eexists _, j'. split; [reflexivity|]. split; [now apply sfin_end|exact F2].
    + apply (Step [BSL; d] t'); [reflexivity| |lia|exact H].
      constructor. unfold esc_ok in Ee. unfold s_esc. lia.
  - destruct (utf8_good c t) as (r1 & o1 & A1 & B1 & L1). rewrite A1 in H. pose proof (A1 clean) as A1'.
    unfold parse_utf8 in A1'.
    destruct (utf8_conts c) as [m|] eqn:Em.
    + destruct (app_err_cases _ _ (proj1 (proj2 B1))) as [[-> Ho]|(k & Ek & Hk)].
      * rewrite Ho in *. destruct (utf8_part_inv _ _ _ Hbt A1') as (l & El & Hl & Hfl).
        apply (Step (c :: l) r1); [now rewrite El| |lia|exact H].
        destruct (Z_lt_le_dec c 128) as [Hlt|Hge].
        { assert (m = 0%nat) as ->.
          { rewrite utf8_conts_class in Em by exact Hc. unfold lead_class in Em. destruct (Z.ltb_spec c 128); [|lia]. congruence. }
          destruct l; [|discriminate]. constructor; lia. }
        apply (wc_multi c m l); [|exact Hl|exact Hfl]. now apply wlead_class.
      * rewrite Ek in *. assert (Hr1 : r1 = []).
        { apply B1. intros ->. cbn in Ek. injection Ek as <-. discriminate. }
        subst r1. destruct n as [|n]; [lia|]. rewrite string_loop_end in H by exact Hk. injection H as <-.
        rewrite sfin_end in Hf by exact Hk. injection Hf as <- <-.
        destruct (part_bad _ _ _ _ Hbt A1' Hk) as (p & q & Et & K1 & K2 & K3 & K4 & _ & K6).
        assert (128 <= c).
        { destruct (Z_lt_le_dec c 128) as [Hlt|Hge]; [|exact Hge]. exfalso.
          rewrite utf8_conts_class in Em by exact Hc. unfold lead_class in Em. destruct (Z.ltb_spec c 128); [|lia].
          injection Em as <-. lia. }
        exists (c :: p), q. split; [now rewrite Et|]. split; [exact K1|]. split; [exact K2|]. split.
        { exists (repeat 128 (m - length p)). rewrite <- (app_nil_r (_ ++ _)). constructor; [|constructor].
          cbn [app]. apply (wc_multi c m); [now apply wlead_class|rewrite app_length, repeat_length; lia|].
          apply Forall_app. split; [exact K3|]. apply Forall_forall. intros z Hz. apply repeat_spec in Hz. subst z. unfold s_cont. lia. }
        split; [reflexivity|]. intros c' q' -> t0 m0 Hm. destruct (K6 c' q' eq_refl t0) as (j' & F1 & F2).
        cbn [app length] in Hm |- *. rewrite app_length in Hm. cbn [length] in Hm.
        destruct m0 as [|[|m0]]; [lia..|]. unfold sfails. cbn [string_loop]. rewrite Eq, Eb. unfold parse_utf8. rewrite Em, F1.
        eexists _, j'. split; [reflexivity|]. split; [now apply sfin_end|exact F2].
    + assert (r1 = []) as -> by congruence. assert (Ek : app_err clean o1 = Some (mkerr InvalidString None (dist (c :: t)))) by (cbn in A1' |- *; congruence).
      rewrite Ek in H. destruct n as [|n]; [lia|]. rewrite string_loop_end in H by reflexivity. injection H as <-.
      rewrite sfin_end in Hf by reflexivity. injection Hf as <- <-.
      exists [], (c :: t). repeat split; try constructor.
      * exists []. constructor.
      * intros c' q' E t0 m0 Hm. injection E as <- <-. cbn [app length] in *. destruct m0 as [|[|m0]]; [lia..|].
        unfold sfails. cbn [string_loop]. rewrite Eq, Eb. unfold parse_utf8. rewrite Em.
        eexists _, _. split; [reflexivity|]. split; reflexivity.
Qed.

Lemma parse_string_sfin t e : parse_string (QT :: t) e = let* x := string_loop (S (length t)) t e in sfin x.
Proof. reflexivity. Qed.

Lemma string_bad s r j : bytes s -> is_string s = true -> parse_string s clean = Ok (r, Some j) -> is_err j = true ->
  exists p q, s = p ++ q /\ exact_pos j /\ tail_of j = dist q /\ (exists t, wstring (p ++ t)) /\ is_string p = true /\
    forall c q', q = c :: q' -> forall t, fails parse_string (p ++ c :: t).
Proof.
  intros Hb Hs H Hj. destruct (starts_inv _ _ Hs) as (t & ->). rewrite parse_string_sfin in H.
  destruct (string_loop (S (length t)) t clean) as [x| |] eqn:E; cbn [bind] in H; try discriminate.
  inversion Hb; subst.
  destruct (sloop_bad _ _ _ _ _ ltac:(eassumption) (Nat.lt_succ_diag_r _) E H Hj) as (p & q & -> & K1 & K2 & (z & K3) & K4 & K5).
  exists (QT :: p), q. split; [reflexivity|]. split; [exact K1|]. split; [exact K2|].
  split; [exists (z ++ [QT]); cbn [app]; rewrite app_assoc; now constructor|]. split; [reflexivity|].
  intros c q' Eq t. unfold fails. cbn [app]. rewrite parse_string_sfin.
  destruct (K5 c q' Eq t (S (length (p ++ c :: t))) (Nat.lt_succ_diag_r _)) as (x' & j' & F1 & F2 & F3).
  rewrite F1. cbn [bind]. exists j'. auto.
Qed.

(** ---- lists of items ---- *)
Lemma gap_app g : gap g -> forall g', gap g' -> gap (g ++ g').
Proof.
  induction 1 as [|c g Hc Hg IH|g Hh Hg IH|u g Hh Hn Hg IH]; intros g' Hg'.
  - exact Hg'.
  - cbn [app]. constructor; auto.
  - cbn [app]. apply g_slash; [|auto]. intros [z E]. destruct g as [|x g].
    + cbn [app] in E. subst g'. destruct (gap_head _ Hg') as [K|(c & t & K & Hc)]; [discriminate|].
      injection K as <- _. unfold s_ws in Hc. lia.
    + cbn [app] in E. injection E as -> _. apply Hh. eexists. reflexivity.
  - specialize (IH g' Hg'). cbn [app] in *. rewrite <- app_assoc. cbn [app]. now apply g_comment.
Qed.

Definition itail (sn : option Z) (close : Z) (item : pfun) (n : nat) (x : buf * eptr) : res (buf * eptr) :=
  let '(s2, e2) := x in
  let '(s3, e3) := parse_space s2 e2 in
  match s3 with
  | [] => Ok ([], cerr ExpectedOf (Some [close]) (dist s3) e3)
  | c3 :: t3 =>
    if negb (c3 =? COMMA) && negb (c3 =? close)
    then Ok ([], cerr ExpectedOf (Some [close]) (dist s3) e3)
    else if c3 =? COMMA then items_loop sn close item n t3 e3
    else items_loop sn close item n s3 e3
  end.
Lemma items_run sn close item n s c1 t1 : closer close -> parse_space s clean = (c1 :: t1, clean) -> c1 <> close ->
  items_loop sn close item (S n) s clean = let* x := item (c1 :: t1) clean in itail sn close item n x.
Proof.
  intros Hcl Hs Hc. cbn [items_loop]. destruct s as [|c0 s0]; [discriminate|].
  destruct (c0 =? close) eqn:E0.
  { exfalso. bool2prop. subst c0. rewrite space_stop in Hs by now apply closer_stop. congruence. }
  rewrite Hs. cbn [deref bind]. destruct (c1 =? close) eqn:E1; [lia|].
  destruct (item (c1 :: t1) clean) as [[s2 e2]| |]; reflexivity.
Qed.
Lemma itail_err sn close item n j : is_err j = true -> itail sn close item n ([], Some j) = Ok ([], Some j).
Proof. intros H. unfold itail. rewrite space_nil. unfold cerr. now rewrite H. Qed.

Section Items.
  Context (sn : option Z) (close : Z) (item : pfun) (I : buf -> Prop).
  Hypothesis Hcl : close = RBR \/ close = RCB.
  Hypothesis Hlaw : forall s, rlawS sn item s.
  Hypothesis Hsound : forall s r, bytes s -> item s clean = Ok (r, clean) -> exists v, s = v ++ r /\ I v.
  Hypothesis Hloc : forall v c t t', bytes (v ++ c :: t) -> item (v ++ c :: t) clean = Ok (c :: t, clean) ->
    item (v ++ c :: t') clean = Ok (c :: t', clean).

  Lemma items_bad n : forall s r j, bytes s -> (length s < n)%nat ->
    (forall s', (length s' <= length s)%nat -> bytes s' -> errpos I item s') ->
    items_loop sn close item n s clean = Ok (r, Some j) -> is_err j = true ->
    exists p q, s = p ++ q /\ tail_rel j (dist q) /\ (exists t, gap (p ++ t) \/ glist I (p ++ t)) /\
      forall c q', q = c :: q' -> forall t m, (length (p ++ c :: t) < m)%nat -> fails (items_loop sn close item m) (p ++ c :: t).
  Proof using Hcl Hlaw Hsound Hloc.
    assert (Hcl' : closer close) by (unfold closer; lia).
    assert (Xc : forall d, exact_pos (mkerr ExpectedOf (Some [close]) d)).
    { intros d. cbn. destruct Hcl as [-> | ->]; auto. }
    induction n as [|n IH]; intros s r j Hb Hn HE H Hj; [lia|].
    assert (Hend : forall j0 p, s = p -> is_err j0 = true -> tail_rel j0 0 -> (exists t, gap (p ++ t) \/ glist I (p ++ t)) -> j = j0 ->
      exists p q, s = p ++ q /\ tail_rel j (dist q) /\ (exists t, gap (p ++ t) \/ glist I (p ++ t)) /\
      forall c q', q = c :: q' -> forall t m, (length (p ++ c :: t) < m)%nat -> fails (items_loop sn close item m) (p ++ c :: t)).
    { intros j0 p -> _ Ht Hv ->. exists p, []. split; [now rewrite app_nil_r|]. split; [exact Ht|]. split; [exact Hv|]. discriminate. }
    cbn [items_loop] in H.
    assert (Hclose : forall s1 t1, s1 = close :: t1 -> Ok (close_with close s1 clean) = Ok (r, Some j) -> False).
    { intros s1 t1 -> E. cbn in E. rewrite Z.eqb_refl in E. cbn in E. injection E as _ <-. discriminate. }
    destruct s as [|c0 s0].
    { cbn in H. injection H as _ <-. apply (Hend (mkerr ExpectedOf (Some [close]) 0) []); try reflexivity.
      - left. split; [apply Xc|reflexivity].
      - exists []. left. constructor. }
    destruct (c0 =? close) eqn:E0.
    { exfalso. bool2prop. subst c0. eapply Hclose; [reflexivity|exact H]. }
    remember (c0 :: s0) as s eqn:Es.
    destruct (space_cases s) as [(g1 & s1 & E1 & Hg1 & Hst & A1)|(Hg & j0 & A1 & X0 & T0 & Hj0)]; rewrite A1 in H.
    2:{ (* unterminated comment *)
      apply (Hend j0 s); [reflexivity|exact Hj0|left; auto|exists [STAR; SLASH]; now left|].
      destruct (deref sn []) as [c1| |]; cbn [bind] in H; try discriminate.
      destruct (c1 =? close).
      - cbn in H. rewrite Hj0 in H. congruence.
      - destruct (Hlaw []) as [(r2 & o2 & A2 & B2 & _)|(_ & Hub)]; [|rewrite Hub in H; discriminate].
        rewrite A2 in H. cbn [bind] in H. rewrite (bad_app (Some j0)) in H by (exists j0; auto).
        apply proj1, suffix_of_nil in B2. subst r2. rewrite space_nil in H. unfold cerr in H. rewrite Hj0 in H. congruence. }
    destruct s1 as [|c1 t1].
    { (* nothing left *)
      rewrite app_nil_r in E1. subst g1.
      destruct (deref sn []) as [c1| |]; cbn [bind] in H; try discriminate.
      destruct (c1 =? close).
      - cbn in H. injection H as _ <-. apply (Hend (mkerr ExpectedOf (Some [close]) 0) s); try reflexivity.
        + left. split; [apply Xc|reflexivity].
        + exists []. left. now rewrite app_nil_r.
      - destruct (Hlaw []) as [(r2 & o2 & A2 & B2 & C2)|(_ & Hub)]; [|rewrite Hub in H; discriminate].
        rewrite A2 in H. cbn [bind] in H.
        destruct o2 as [k|]; [|destruct (C2 eq_refl) as (? & ? & K & _); discriminate].
        assert (Hk : is_err k = true) by apply B2. assert (Hr2 : r2 = []) by (apply suffix_of_nil, (proj1 B2)).
        subst r2. cbn [app_err is_err no_error code] in H. rewrite space_nil in H. unfold cerr in H. rewrite Hk in H.
        assert (j = k) by congruence. subst k.
        destruct (HE [] ltac:(cbn; lia) ltac:(constructor) [] j (A2 clean) Hj) as (p & q & Ep & Ht & (z & Hz) & _).
        symmetry in Ep. apply app_eq_nil in Ep. destruct Ep as [-> ->].
        apply (Hend j s); [reflexivity|exact Hj|exact Ht| |reflexivity].
        exists z. right. cbn [app] in Hz. rewrite <- (app_nil_r z). apply (gl_one I s z []); [exact Hg1|exact Hz|constructor]. }
    cbn [deref bind] in H.
    destruct (c1 =? close) eqn:Ec1.
    { exfalso. bool2prop. subst c1. eapply Hclose; [reflexivity|exact H]. }
    bool2prop.
    assert (Hb1 : bytes (c1 :: t1)).
    { rewrite E1 in Hb. unfold bytes in Hb. rewrite Forall_app in Hb. apply Hb. }
    assert (L1 : (length (c1 :: t1) <= length s)%nat) by (rewrite E1, app_length; lia).
    (* the modified text starts the same way *)
    assert (Run : forall t1' m, items_loop sn close item (S m) (g1 ++ c1 :: t1') clean = let* x := item (c1 :: t1') clean in itail sn close item m x).
    { intros t1' m. apply items_run; [exact Hcl'| |exact Ec1]. apply (parse_space_loc g1 c1 t1). rewrite <- E1. exact A1. }
    destruct (Hlaw (c1 :: t1)) as [(s2 & o2 & A2 & B2 & C2)|(_ & Hub)]; [|rewrite Hub in H; discriminate].
    rewrite A2 in H. cbn [bind] in H.
    destruct o2 as [k|].
    { (* error inside the item *)
      assert (Hk : is_err k = true) by apply B2.
      assert (s2 = []) as -> by (apply B2; discriminate).
      cbn [app_err is_err no_error code] in H. rewrite space_nil in H. unfold cerr in H. rewrite Hk in H.
      assert (j = k) by congruence. subst k.
      destruct (HE (c1 :: t1) L1 Hb1 [] j (A2 clean) Hj) as (p & q & Ep & Ht & (z & Hz) & Hf).
      exists (g1 ++ p), q. split; [rewrite E1, Ep, app_assoc; reflexivity|]. split; [exact Ht|]. split.
      { exists z. right. rewrite <- app_assoc. rewrite <- (app_nil_r (p ++ z)). apply gl_one; [exact Hg1|exact Hz|constructor]. }
      intros c q' -> t m Hm. destruct (Hf c q' eq_refl t) as (j' & F1 & F2).
      rewrite <- app_assoc in *. destruct m as [|m]; [lia|].
      assert (exists y, p ++ c :: t = c1 :: y) as (y & Ey).
      { destruct p as [|p0 p]; cbn [app] in *; injection Ep as <- _; eauto. }
      unfold fails. rewrite Ey in *. rewrite Run, F1. cbn [bind]. exists j'. split; [now apply itail_err|exact F2]. }
    cbn [app_err] in H. pose proof (A2 clean) as A2'. cbn [app_err] in A2'.
    destruct (Hsound _ _ Hb1 A2') as (v & Ev & Hv).
    assert (exists v', v = c1 :: v') as (v' & Ev').
    { destruct v as [|v0 v']; [|cbn [app] in Ev; injection Ev as <- _; eauto]. cbn [app] in Ev.
      destruct (C2 eq_refl) as (c & t & K & Hsuf). injection K as <- <-. apply suffix_len in Hsuf. rewrite <- Ev in Hsuf. cbn in Hsuf. lia. }
    assert (Hloc' : forall c t t', s2 = c :: t -> item (v ++ c :: t') clean = Ok (c :: t', clean)).
    { intros c t t' ->. apply (Hloc v c t t'); rewrite <- Ev; assumption. }
    destruct (space_cases s2) as [(g2 & s3 & E3 & Hg2 & Hst3 & A3)|(Hg & j0 & A3 & X0 & T0 & Hj0)]; rewrite A3 in H.
    2:{ unfold cerr in H. rewrite Hj0 in H. apply (Hend j0 s); [reflexivity|exact Hj0|left; auto| |congruence].
        exists [STAR; SLASH]. right. rewrite E1, Ev, <- !app_assoc. now apply gl_one. }
    destruct s3 as [|c3 t3].
    { cbn in H. injection H as _ <-. apply (Hend (mkerr ExpectedOf (Some [close]) 0) s); try reflexivity.
      - left. split; [apply Xc|reflexivity].
      - exists []. right. rewrite app_nil_r in E3. subst s2. rewrite app_nil_r, E1, Ev. now apply gl_one. }
    (* the modified text after the item *)
    assert (Tail : forall t3' m, items_loop sn close item (S m) (g1 ++ v ++ g2 ++ c3 :: t3') clean = itail sn close item m (g2 ++ c3 :: t3', clean)).
    { intros t3' m. rewrite Ev'. cbn [app]. rewrite Run. 
      change (c1 :: v' ++ g2 ++ c3 :: t3') with ((c1 :: v') ++ g2 ++ c3 :: t3'). rewrite <- Ev'.
      assert (exists y z z', g2 ++ c3 :: t3 = y :: z /\ g2 ++ c3 :: t3' = y :: z') as (y & z & z' & Ey & Ey').
      { destruct g2 as [|y g2]; cbn [app]; eauto. }
      rewrite Ey'. rewrite (Hloc' y z z'); [reflexivity|]. rewrite E3. exact Ey. }
    assert (Sp : forall t3', parse_space (g2 ++ c3 :: t3') clean = (c3 :: t3', clean)).
    { intros t3'. apply (parse_space_loc g2 c3 t3). rewrite <- E3. exact A3. }
    destruct (negb (c3 =? COMMA) && negb (c3 =? close)) eqn:Ec3.
    { cbn in H. injection H as _ <-. exists (g1 ++ v ++ g2), (c3 :: t3). split; [rewrite E1, Ev, E3, <- !app_assoc; reflexivity|].
      split; [left; split; [apply Xc|reflexivity]|]. split; [exists []; right; rewrite app_nil_r; now apply gl_one|].
      intros c q' E t m Hm. injection E as <- <-. rewrite <- !app_assoc in *. destruct m as [|m]; [lia|].
      unfold fails. rewrite Tail. unfold itail. rewrite Sp, Ec3. eexists. split; reflexivity. }
    destruct (c3 =? COMMA) eqn:Ecm.
    2:{ exfalso. assert (c3 = close) by lia. subst c3. destruct n as [|n]; [discriminate|]. cbn [items_loop] in H.
        rewrite Z.eqb_refl in H. eapply Hclose; [reflexivity|exact H]. }
    assert (c3 = COMMA) by lia. subst c3.
    assert (L3 : (length t3 < length s)%nat) by (rewrite E1, Ev, E3, !app_length; cbn [length]; lia).
    assert (Hb3 : bytes t3).
    { rewrite Ev, E3 in Hb1. unfold bytes in Hb1. rewrite !Forall_app in Hb1. destruct Hb1 as (_ & _ & Hb1). inversion Hb1; assumption. }
    destruct (IH t3 r j Hb3 ltac:(lia)) as (p & q & Ep & Ht & (z & Hz) & Hf); [|exact H|exact Hj|].
    { intros s' Hs'. apply HE. lia. }
    exists (g1 ++ v ++ g2 ++ COMMA :: p), q. split.
    { rewrite E1, Ev, E3, Ep. repeat (rewrite <- ?app_assoc; cbn [app]). reflexivity. }
    split; [exact Ht|]. split.
    { exists z. right. repeat (rewrite <- ?app_assoc; cbn [app]). destruct Hz as [Hz|Hz]; [now apply gl_trail|now apply gl_more]. }
    intros c q' -> t m Hm. repeat (rewrite <- ?app_assoc in *; cbn [app] in * ). destruct m as [|m]; [lia|].
    unfold fails. rewrite Tail. unfold itail. rewrite Sp. rewrite Z.eqb_refl. cbn [negb andb].
    apply (Hf c q' eq_refl t m). flens. lia.
  Qed.
End Items.

(** ---- values ---- *)
Section Values.
  Context (sn : option Z).
  Notation pv := (parse_value sn).
  Lemma pv_law s : rlawS sn pv s.
  Proof. exact (parse_law sn s). Qed.

  Lemma pv_eq s e : pv s e =
    if is_null s then Ok (parse_null s e)
    else if is_bool s then Ok (parse_bool s e)
    else if is_number s then Ok (parse_number s e)
    else if is_string s then parse_string s e
    else if is_object s then parse_object sn pv s e
    else if is_array s then parse_array sn pv s e
    else Ok ([], cerr InvalidJSON None (dist s) e).
  Proof.
    unfold parse_value at 1. cbn [parse_value_f].
    destruct (is_null s); [reflexivity|]. destruct (is_bool s); [reflexivity|].
    destruct (is_number s); [reflexivity|]. destruct (is_string s); [reflexivity|].
    destruct (is_object s) eqn:Eo.
    { unfold parse_object. rewrite Eo. cbn [negb]. destruct s as [|c t]; [reflexivity|]. cbn [step bind].
      cbn [length] in *.
      destruct (space_good t) as (s1 & o1 & A1 & B1). rewrite A1.
      pose proof (suffix_len _ _ (proj1 B1)).
      destruct (starts RBR s1); [reflexivity|].
      apply items_fuel; try lia.
      - intros s' Hs'. apply member_law. intros s'' Hs''. apply parse_value_law. lia.
      - intros s' e' Hs'. apply member_fuel. intros s'' e'' Hs''. unfold parse_value. apply parse_value_fuel; lia. }
    destruct (is_array s) eqn:Ea; [|reflexivity].
    unfold parse_array. rewrite Ea. cbn [negb]. destruct s as [|c t]; [reflexivity|]. cbn [step bind].
    cbn [length] in *. apply items_fuel; try lia.
    - intros s' Hs'. apply parse_value_law. lia.
    - intros s' e' Hs'. unfold parse_value. apply parse_value_fuel; lia.
  Qed.

  Lemma pv_sound s r : bytes s -> pv s clean = Ok (r, clean) -> exists v, s = v ++ r /\ wvalue v.
  Proof. intros Hb H. apply (parse_exact sn s r Hb) in H. destruct H as (v & E & Hv & _). eauto. Qed.
  Lemma pv_loc v c t t' : bytes (v ++ c :: t) -> pv (v ++ c :: t) clean = Ok (c :: t, clean) ->
    pv (v ++ c :: t') clean = Ok (c :: t', clean).
  Proof.
    intros Hb H. apply (parse_exact sn _ _ Hb) in H. destruct H as (v' & E & Hv & Hs).
    apply app_inv_tail in E. subst v'. apply (parse_complete sn). split; [exact Hv|exact Hs].
  Qed.

  Lemma member_inv s r : bytes s -> parse_member pv s clean = Ok (r, clean) ->
    exists k g2 g3 v, s = k ++ g2 ++ COLON :: g3 ++ v ++ r /\ wstring k /\ gap g2 /\ gap g3 /\ wvalue v /\ bytes (v ++ r) /\
      pv (v ++ r) clean = Ok (r, clean).
  Proof.
    intros Hb H. unfold parse_member in H.
    destruct (negb (is_string s)); [discriminate|].
    destruct (string_good s) as (s1 & o1 & A1 & B1). rewrite A1 in H. cbn [bind] in H.
    destruct (rgood_clean _ _ _ B1) as [->|[-> Hbad]].
    2:{ exfalso. injection H as _ H. rewrite cerr_app, bad_app in H by exact Hbad. now apply bad_not_ok in Hbad. }
    cbn [app_err] in H. pose proof (A1 (Some no_error)) as A1'. cbn [app_err] in A1'.
    apply parse_string_inv in A1'; [|exact Hb]. destruct A1' as (k & E1 & Hk).
    destruct s1 as [|c1 t1]; [discriminate|].
    destruct (space_cases (c1 :: t1)) as [(g2 & s2 & E2 & Hg2 & _ & A2)|(_ & j & A2 & _ & _ & Hj)]; rewrite A2 in H.
    2:{ exfalso. unfold cerr in H. rewrite Hj in H. injection H as _ ->. discriminate. }
    destruct s2 as [|c2 t2]; [discriminate|].
    destruct (c2 =? COLON) eqn:Ec; cbn [negb] in H; [|discriminate]. bool2prop. subst c2.
    destruct t2 as [|c3 t3]; [discriminate|].
    destruct (space_cases (c3 :: t3)) as [(g4 & s4 & E4 & Hg4 & _ & A4)|(_ & j & A4 & _ & _ & Hj)]; rewrite A4 in H.
    2:{ exfalso. unfold cerr in H. rewrite Hj in H. injection H as _ ->. discriminate. }
    destruct s4 as [|c4 t4]; [discriminate|].
    assert (Hb4 : bytes (c4 :: t4)).
    { rewrite E1, E2, E4 in Hb. unfold bytes in Hb. rewrite !Forall_app in Hb.
      destruct Hb as (_ & _ & Hb). inversion Hb; subst. rewrite Forall_app in H3. apply H3. }
    destruct (pv_sound _ _ Hb4 H) as (v & Ev & Hv).
    exists k, g2, g4, v. split; [rewrite E1, E2, E4, Ev; reflexivity|]. rewrite <- Ev. auto 10.
  Qed.

  Lemma member_sound' s r : bytes s -> parse_member pv s clean = Ok (r, clean) -> exists x, s = x ++ r /\ memtext x.
  Proof.
    intros Hb H. destruct (member_inv s r Hb H) as (k & g2 & g3 & v & -> & Hk & H2 & H3 & Hv & _).
    exists (k ++ g2 ++ COLON :: g3 ++ v). split; [repeat (rewrite <- ?app_assoc; cbn [app]); reflexivity|].
    exists k, g2, g3, v. auto.
  Qed.
  Lemma member_loc x c t t' : bytes (x ++ c :: t) -> parse_member pv (x ++ c :: t) clean = Ok (c :: t, clean) ->
    parse_member pv (x ++ c :: t') clean = Ok (c :: t', clean).
  Proof.
    intros Hb H. destruct (member_inv _ _ Hb H) as (k & g2 & g3 & v & E & Hk & H2 & H3 & Hv & Hbv & Hp).
    replace (k ++ g2 ++ COLON :: g3 ++ v ++ c :: t) with ((k ++ g2 ++ COLON :: g3 ++ v) ++ c :: t) in E by (repeat (rewrite <- ?app_assoc; cbn [app]); reflexivity).
    apply app_inv_tail in E. subst x. 
    replace ((k ++ g2 ++ COLON :: g3 ++ v) ++ c :: t') with (k ++ g2 ++ COLON :: g3 ++ v ++ c :: t') by (repeat (rewrite <- ?app_assoc; cbn [app]); reflexivity).
    apply member_app; [assumption..|now apply wvalue_head|]. now apply (pv_loc v c t).
  Qed.

  Lemma zero_value : wvalue [48].
  Proof. apply wv_num. apply (rnum [] [48] [] []); constructor. Qed.

  Lemma member_bad s : bytes s -> (forall s', (length s' < length s)%nat -> bytes s' -> errpos wvalue pv s') ->
    errpos memtext (parse_member pv) s.
  Proof.
    intros Hb HE r j H Hj. unfold parse_member in H.
    assert (Hend : forall j0, is_err j0 = true -> tail_rel j0 0 -> (exists t, memtext (s ++ t)) -> j = j0 ->
      exists p q, s = p ++ q /\ tail_rel j (dist q) /\ (exists t, memtext (p ++ t)) /\
      forall c q', q = c :: q' -> forall t, fails (parse_member pv) (p ++ c :: t)).
    { intros j0 _ Ht Hv ->. exists s, []. split; [now rewrite app_nil_r|]. split; [exact Ht|]. split; [exact Hv|]. discriminate. }
    destruct (is_string s) eqn:Es; cbn [negb] in H.
    2:{ cbn in H. injection H as _ <-. exists [], s. split; [reflexivity|]. split; [left; split; [exact I|reflexivity]|]. split.
        { exists [QT; QT; COLON; 48]. exists [QT; QT], [], [], [48]. split; [reflexivity|].
          split; [apply (wstr []); constructor|]. split; [constructor|]. split; [constructor|exact zero_value]. }
        intros c q' -> t. cbn [app]. unfold fails, parse_member. cbn in Es. cbn [is_string starts]. rewrite Es. cbn [negb]. eexists. split; reflexivity. }
    destruct (string_good s) as (s1 & o1 & A1 & B1). rewrite A1 in H. cbn [bind] in H.
    pose proof (A1 clean) as A1'.
    destruct o1 as [k|].
    { assert (Hk : is_err k = true) by apply B1. assert (s1 = []) as -> by (apply B1; discriminate).
      cbn [app_err is_err no_error code] in *. unfold cerr in H. rewrite Hk in H. assert (j = k) by congruence. subst k.
      destruct (string_bad s [] j Hb Es A1' Hj) as (p & q & Ep & X & T & (z & Hz) & Hsp & Hf).
      exists p, q. split; [exact Ep|]. split; [left; auto|]. split.
      { exists (z ++ [COLON; 48]). rewrite app_assoc. exists (p ++ z), [], [], [48]. split; [reflexivity|].
        split; [exact Hz|]. split; [constructor|]. split; [constructor|exact zero_value]. }
      intros c q' -> t. destruct (Hf c q' eq_refl t) as (j' & F1 & F2). unfold fails, parse_member.
      assert (is_string (p ++ c :: t) = true) as -> by (destruct p; [discriminate|exact Hsp]). cbn [negb]. rewrite F1. cbn [bind].
      exists j'. split; [unfold cerr; now rewrite F2|exact F2]. }
    cbn [app_err] in *. apply parse_string_inv in A1'; [|exact Hb]. destruct A1' as (k & E1 & Hk).
    assert (V : forall g2 g3 t, gap g2 -> gap g3 -> wvalue t -> memtext (k ++ g2 ++ COLON :: g3 ++ t)).
    { intros g2 g3 t ? ? ?. exists k, g2, g3, t. auto. }
    assert (UE : forall t, t = 0 -> tail_rel (mkerr UnexpectedEndFragment None t) 0) by (intros t ->; left; split; [exact I|reflexivity]).
    destruct s1 as [|c1 t1].
    { cbn in H. injection H as _ <-. apply (Hend (mkerr UnexpectedEndFragment None 0)); try reflexivity; [now apply UE|].
      exists ([COLON; 48]). rewrite E1, app_nil_r. apply (V [] [] [48]); [constructor..|exact zero_value]. }
    remember (c1 :: t1) as s1 eqn:Es1.
    assert (Hs1 : s1 <> []) by (subst; discriminate). clear Es1 c1 t1.
    assert (Run : forall s1', s1' <> [] -> parse_member pv (k ++ s1') clean =
      let '(s2, e2) := parse_space s1' clean in
      match s2 with
      | [] => Ok ([], cerr UnexpectedEndFragment None 0 e2)
      | c :: s3 =>
        if negb (c =? COLON) then Ok ([], cerr ExpectedOf (Some [COLON]) (dist s3) e2)
        else match s3 with
        | [] => Ok ([], cerr UnexpectedEndFragment None 0 e2)
        | _ => let '(s4, e4) := parse_space s3 e2 in
          match s4 with [] => Ok ([], cerr UnexpectedEndFragment None 0 e4) | _ => pv s4 e4 end
        end
      end).
    { intros s1' Hs1'. unfold parse_member.
      assert (is_string (k ++ s1') = true) as -> by (destruct Hk; reflexivity). cbn [negb].
      rewrite parse_string_app by exact Hk. cbn [bind]. destruct s1'; [congruence|reflexivity]. }
    assert (H' : parse_member pv (k ++ s1) clean = Ok (r, Some j)).
    { rewrite Run by exact Hs1. destruct s1; [congruence|exact H]. }
    clear H. rename H' into H. rewrite Run in H by exact Hs1.
    destruct (space_cases s1) as [(g2 & s2 & E2 & Hg2 & _ & A2)|(Hg & j0 & A2 & X0 & T0 & Hj0)]; rewrite A2 in H.
    2:{ unfold cerr in H. rewrite Hj0 in H. apply (Hend j0); [exact Hj0|left; auto| |congruence].
        exists ([STAR; SLASH] ++ COLON :: [48]). rewrite E1, <- app_assoc, (app_assoc s1). apply (V (s1 ++ [STAR; SLASH]) [] [48]); [exact Hg|constructor|exact zero_value]. }
    destruct s2 as [|c2 t2].
    { cbn in H. injection H as _ <-. apply (Hend (mkerr UnexpectedEndFragment None 0)); try reflexivity; [now apply UE|].
      exists ([COLON; 48]). rewrite E1, E2, app_nil_r, <- app_assoc. apply (V g2 [] [48]); [exact Hg2|constructor|exact zero_value]. }
    assert (Sp : forall t, parse_space (g2 ++ c2 :: t) clean = (c2 :: t, clean)).
    { intros t. apply (parse_space_loc g2 c2 t2). rewrite <- E2. exact A2. }
    assert (Hne : forall t, g2 ++ c2 :: t <> []) by (intros t; destruct g2; discriminate).
    destruct (c2 =? COLON) eqn:Ec; cbn [negb] in H.
    2:{ cbn in H. injection H as _ <-. exists (k ++ g2), (c2 :: t2). split; [rewrite E1, E2, <- app_assoc; reflexivity|]. split.
        { right; left. split; [split; reflexivity|]. cbn [tail_of]. rewrite dist_cons. pose proof (dist_nonneg t2). lia. }
        split; [exists [COLON; 48]; rewrite <- app_assoc; apply (V g2 [] [48]); [exact Hg2|constructor|exact zero_value]|].
        intros c q' E t. injection E as <- <-. unfold fails. rewrite <- app_assoc, Run by apply Hne. rewrite Sp, Ec. cbn [negb].
        eexists. split; reflexivity. }
    bool2prop. subst c2.
    destruct t2 as [|c3 t3].
    { cbn in H. injection H as _ <-. apply (Hend (mkerr UnexpectedEndFragment None 0)); try reflexivity; [now apply UE|].
      exists [48]. rewrite E1, E2. repeat (rewrite <- ?app_assoc; cbn [app]). apply (V g2 [] [48]); [exact Hg2|constructor|exact zero_value]. }
    remember (c3 :: t3) as s3 eqn:Es3. assert (Hs3 : s3 <> []) by (subst; discriminate).
    assert (H' : (let '(s4, e4) := parse_space s3 clean in
          match s4 with [] => Ok ([], cerr UnexpectedEndFragment None 0 e4) | _ => pv s4 e4 end) = Ok (r, Some j)).
    { destruct s3; [congruence|exact H]. }
    clear H. rename H' into H. clear Es3 c3 t3.
    destruct (space_cases s3) as [(g4 & s4 & E4 & Hg4 & _ & A4)|(Hg & j0 & A4 & X0 & T0 & Hj0)]; rewrite A4 in H.
    2:{ unfold cerr in H. rewrite Hj0 in H. apply (Hend j0); [exact Hj0|left; auto| |congruence].
        exists ([STAR; SLASH] ++ [48]). rewrite E1, E2. repeat (rewrite <- ?app_assoc; cbn [app]).
        change (s3 ++ [STAR; SLASH; 48]) with (s3 ++ [STAR; SLASH] ++ [48]). rewrite (app_assoc s3). apply (V g2 (s3 ++ [STAR; SLASH]) [48]); [exact Hg2|exact Hg|exact zero_value]. }
    destruct s4 as [|c4 t4].
    { cbn in H. injection H as _ <-. apply (Hend (mkerr UnexpectedEndFragment None 0)); try reflexivity; [now apply UE|].
      exists [48]. rewrite E1, E2, E4, app_nil_r. repeat (rewrite <- ?app_assoc; cbn [app]). apply (V g2 g4 [48]); [exact Hg2|exact Hg4|exact zero_value]. }
    assert (Hb4 : bytes (c4 :: t4)).
    { rewrite E1, E2, E4 in Hb. unfold bytes in Hb. rewrite !Forall_app in Hb.
      destruct Hb as (_ & _ & Hb). inversion Hb as [|? ? ? Hb']; subst. rewrite Forall_app in Hb'. apply Hb'. }
    assert (L4 : (length (c4 :: t4) < length s)%nat).
    { rewrite E1, E2, E4, !app_length. cbn [length]. rewrite app_length. cbn [length]. lia. }
    destruct (HE (c4 :: t4) L4 Hb4 r j H Hj) as (p & q & Ep & Ht & (z & Hz) & Hf).
    exists (k ++ g2 ++ COLON :: g4 ++ p), q. split; [rewrite E1, E2, E4, Ep; repeat (rewrite <- ?app_assoc; cbn [app]); reflexivity|].
    split; [exact Ht|]. split; [exists z; repeat (rewrite <- ?app_assoc; cbn [app]); now apply V|].
    intros c q' -> t. repeat (rewrite <- ?app_assoc; cbn [app]). unfold fails. rewrite Run by apply Hne. rewrite Sp.
    change (COLON =? COLON) with true. cbn [negb].
    assert (exists y, p ++ c :: t = c4 :: y) as (y & Ey).
    { destruct p as [|p0 p]; cbn [app] in *; injection Ep as <- _; eauto. }
    destruct (Hf c q' eq_refl t) as (j' & F1 & F2). rewrite Ey in *.
    assert (Sp4 : parse_space (g4 ++ c4 :: y) clean = (c4 :: y, clean)).
    { apply (parse_space_loc g4 c4 t4). rewrite <- E4. exact A4. }
    rewrite Sp4. rewrite F1. exists j'. split; [destruct (g4 ++ c4 :: y) eqn:Eg; [destruct g4; discriminate|reflexivity]|exact F2].
  Qed.

  Lemma num_dispatch s e : is_number s = true -> pv s e = Ok (parse_number s e).
  Proof.
    intros H. rewrite pv_eq. destruct s as [|c t]; [discriminate|].
    assert (is_null (c :: t) = false) as ->.
    { unfold is_null, is_number, starts, is_digit in *. lia. }
    assert (is_bool (c :: t) = false) as ->.
    { unfold is_bool, is_number, starts, is_digit in *. lia. }
    rewrite H. reflexivity.
  Qed.
  Lemma str_dispatch s e : is_string s = true -> pv s e = parse_string s e.
  Proof. intros H. destruct (starts_inv _ _ H) as (t & ->). rewrite pv_eq. reflexivity. Qed.
  Lemma obj_dispatch t e : pv (LCB :: t) e =
    let '(s1, e1) := parse_space t e in
    if starts RBR s1 then let* s2 := step s1 in Ok (s2, e1)
    else items_loop sn RCB (parse_member pv) (S (length s1)) s1 e1.
  Proof. rewrite pv_eq. reflexivity. Qed.

  Lemma value_bad : forall n s, (length s < n)%nat -> bytes s -> errpos wvalue pv s.
  Proof.
    induction n as [|n IH]; intros s Hn Hb r j H Hj; [lia|].
    assert (Hend : forall j0, is_err j0 = true -> tail_rel j0 0 -> (exists t, wvalue (s ++ t)) -> j = j0 ->
      exists p q, s = p ++ q /\ tail_rel j (dist q) /\ (exists t, wvalue (p ++ t)) /\
      forall c q', q = c :: q' -> forall t, fails pv (p ++ c :: t)).
    { intros j0 _ Ht Hv ->. exists s, []. split; [now rewrite app_nil_r|]. split; [exact Ht|]. split; [exact Hv|]. discriminate. }
    rewrite pv_eq in H.
    assert (Lit : forall c0 lit nm t, s = c0 :: t -> wvalue (c0 :: lit) -> literal_pos (mkerr ExpectedOf (Some nm) 0) -> (length lit <= 4)%nat ->
      (forall t', pv (c0 :: t') clean = Ok (finish_lit (lit_chain lit 0 t') nm clean)) ->
      finish_lit (lit_chain lit 0 t) nm clean = (r, Some j) ->
      exists p q, s = p ++ q /\ tail_rel j (dist q) /\ (exists t, wvalue (p ++ t)) /\
      forall c q', q = c :: q' -> forall t, fails pv (p ++ c :: t)).
    { intros c0 lit nm t Es Hw Hnm Hl Hd Hf. 
      destruct (lit_bad lit nm 0 [] t r j Hl Hf Hj Hnm) as (p & q & Et & Ht & (z & Ez) & F).
      exists (c0 :: p), q. split; [rewrite Es, Et; reflexivity|]. split; [exact Ht|]. split; [exists z; cbn [app]; rewrite <- Ez; exact Hw|].
      intros c q' Eq t'. destruct (F c q' Eq t') as (j' & F1 & F2). unfold fails. cbn [app]. rewrite Hd. exists j'.
      change (dist (@nil Z)) with 0 in F1. rewrite F1. auto. }
    destruct (is_null s) eqn:E1.
    { destruct (starts_inv _ _ E1) as (t & Es). subst s.
      apply (Lit 110 (text "ull") (text "null") t); [reflexivity|exact wv_null|split; [reflexivity|left; reflexivity]|cbn; lia| |].
      - intros t'. rewrite pv_eq. reflexivity.
      - unfold parse_null in H. change (110 =? 110) with true in H. cbv iota in H. congruence. }
    destruct (is_bool s) eqn:E2.
    { unfold is_bool in E2. apply orb_true_iff in E2. destruct E2 as [E2|E2]; destruct (starts_inv _ _ E2) as (t & Es); subst s.
      - apply (Lit 116 (text "rue") (text "true") t); [reflexivity|exact wv_true|split; [reflexivity|right; left; reflexivity]|cbn; lia| |].
        + intros t'. rewrite pv_eq. reflexivity.
        + unfold parse_bool in H. change (116 =? 116) with true in H. cbv iota in H. congruence.
      - apply (Lit 102 (text "alse") (text "false") t); [reflexivity|exact wv_false|split; [reflexivity|right; right; reflexivity]|cbn; lia| |].
        + intros t'. rewrite pv_eq. reflexivity.
        + unfold parse_bool in H. change (102 =? 116) with false in H. change (102 =? 102) with true in H. cbv iota in H. congruence. }
    destruct (is_number s) eqn:E3.
    { assert (H' : parse_number s clean = (r, Some j)) by congruence.
      destruct (number_bad s r j E3 H' Hj) as (p & q & Ep & Ht & (z & Hz) & Hnp & F).
      exists p, q. split; [exact Ep|]. split; [exact Ht|]. split; [exists z; now constructor|].
      intros c q' Eq t. destruct (F c q' Eq t) as (j' & F1 & F2). unfold fails. rewrite num_dispatch.
      - rewrite F1. eauto.
      - destruct p; [discriminate|exact Hnp]. }
    destruct (is_string s) eqn:E4.
    { destruct (string_bad s r j Hb E4 H Hj) as (p & q & Ep & X & T & (z & Hz) & Hsp & F).
      exists p, q. split; [exact Ep|]. split; [left; auto|]. split; [exists z; now constructor|].
      intros c q' Eq t. destruct (F c q' Eq t) as (j' & F1 & F2). unfold fails. rewrite str_dispatch.
      - rewrite F1. eauto.
      - destruct p; [discriminate|exact Hsp]. }
    assert (HE : forall s', (length s' < length s)%nat -> bytes s' -> errpos wvalue pv s') by (intros s' Hs'; apply IH; lia).
    destruct (is_object s) eqn:E5.
    { destruct s as [|c t]; [discriminate|]. inversion Hb as [|? ? Hc Hbt]; subst.
      assert (HO : parse_object sn pv (c :: t) clean = let '(s1, e1) := parse_space t clean in
        if starts RBR s1 then let* s2 := step s1 in Ok (s2, e1)
        else items_loop sn RCB (parse_member pv) (S (length s1)) s1 e1).
      { unfold parse_object. rewrite E5. reflexivity. }
      rewrite HO in H. clear HO.
      destruct (space_cases t) as [(g & s1 & Et & Hg & Hst & A1)|(Hg & j0 & A1 & X0 & T0 & Hj0)]; rewrite A1 in H.
      2:{ cbn in H. rewrite Hj0 in H. assert (c = LCB) as ->.
          { unfold is_object in E5. destruct (c =? LCB) eqn:K1; [lia|]. destruct (c =? LBR) eqn:K2; cbn in E5; [|discriminate].
            exfalso. destruct (space_good t) as (s1 & o1 & A & B). rewrite A in E5, A1. assert (s1 = []) by congruence. subst s1. discriminate. }
          apply (Hend j0); [exact Hj0|left; auto| |congruence]. exists ([STAR; SLASH] ++ [RCB]). cbn [app].
          change (t ++ [STAR; SLASH; RCB]) with (t ++ [STAR; SLASH] ++ [RCB]). rewrite app_assoc. now apply wv_obj0. }
      destruct (starts RBR s1) eqn:Es.
      { exfalso. destruct (starts_inv _ _ Es) as (t1 & ->). cbn in H. injection H as _ <-. discriminate. }
      assert (c = LCB) as ->.
      { unfold is_object in E5. destruct (c =? LCB) eqn:K1; [lia|]. destruct (c =? LBR) eqn:K2; cbn in E5; [|discriminate].
        exfalso. destruct (space_good t) as (s1' & o1 & A & B). rewrite A in E5, A1. assert (s1' = s1) by congruence. subst s1'. congruence. }
      assert (Hb1 : bytes s1) by (rewrite Et in Hbt; unfold bytes in Hbt; rewrite Forall_app in Hbt; apply Hbt).
      assert (L1 : (length s1 <= length t)%nat) by (rewrite Et, app_length; lia).
      destruct (items_bad sn RCB (parse_member pv) memtext (or_intror eq_refl)) with (n := S (length s1)) (s := s1) (r := r) (j := j)
        as (p & q & Ep & Ht & (z & Hz) & F); [| | |exact Hb1|lia| |exact H|exact Hj|].
      - intros s'. apply member_law. intros. apply pv_law.
      - exact member_sound'.
      - exact member_loc.
      - intros s' Hs' Hb'. apply member_bad; [exact Hb'|]. intros s'' Hs''. apply HE. cbn [length]. lia.
      - exists (LCB :: g ++ p), q. split; [rewrite Et, Ep; cbn [app]; rewrite <- app_assoc; reflexivity|]. split; [exact Ht|]. split.
        { exists (z ++ [RCB]). cbn [app]. destruct Hz as [Hz|Hz].
          - replace ((g ++ p) ++ z ++ [RCB]) with ((g ++ p ++ z) ++ [RCB]) by (rewrite <- !app_assoc; reflexivity).
            apply wv_obj0. now apply gap_app.
          - replace ((g ++ p) ++ z ++ [RCB]) with ((g ++ p ++ z) ++ [RCB]) by (rewrite <- !app_assoc; reflexivity).
            apply wv_obj, glist_members. inversion Hz as [g1 v g2 G1 Hv G2 E|g1 v g2 g3 G1 Hv G2 G3 E|g1 v g2 l G1 Hv G2 Hl E].
            + rewrite app_assoc. apply gl_one; [now apply gap_app|assumption..].
            + rewrite app_assoc. apply gl_trail; [now apply gap_app|assumption..].
            + rewrite app_assoc. apply gl_more; [now apply gap_app|assumption..]. }
        intros c q' -> t'. unfold fails. cbn [app]. rewrite <- app_assoc, obj_dispatch.
        assert (exists c1 t1 y, s1 = c1 :: t1 /\ p ++ c :: t' = c1 :: y) as (c1 & t1 & y & Es1 & Ey).
        { rewrite Ep. destruct p as [|p0 p]; cbn [app]; eauto. }
        assert (Sp : parse_space (g ++ c1 :: y) clean = (c1 :: y, clean)).
        { apply (parse_space_loc g c1 t1). rewrite <- Es1, <- Et. exact A1. }
        destruct (F c q' eq_refl t' (S (length (p ++ c :: t'))) (Nat.lt_succ_diag_r _)) as (j' & F1 & F2).
        rewrite Ey in *. rewrite Sp. assert (starts RBR (c1 :: y) = false) as -> by (rewrite Es1 in Es; exact Es).
        eauto. }
    destruct (is_array s) eqn:E6.
    { destruct (starts_inv _ _ E6) as (t & ->). inversion Hb as [|? ? Hc Hbt]; subst.
      assert (HO : parse_array sn pv (LBR :: t) clean = items_loop sn RBR pv (S (length t)) t clean) by reflexivity.
      rewrite HO in H. clear HO.
      destruct (items_bad sn RBR pv wvalue (or_introl eq_refl)) with (n := S (length t)) (s := t) (r := r) (j := j)
        as (p & q & Ep & Ht & (z & Hz) & F); [| | |exact Hbt|lia| |exact H|exact Hj|].
      - apply pv_law.
      - exact pv_sound.
      - exact pv_loc.
      - intros s' Hs' Hb'. apply HE; [cbn [length]; lia|exact Hb'].
      - exists (LBR :: p), q. split; [rewrite Ep; reflexivity|]. split; [exact Ht|]. split.
        { exists (z ++ [RBR]). cbn [app]. rewrite app_assoc. destruct Hz as [Hz|Hz]; [now apply wv_arr0|].
          apply wv_arr, glist_elems, Hz. }
        intros c q' -> t'. unfold fails. cbn [app].
        destruct (F c q' eq_refl t' (S (length (p ++ c :: t'))) (Nat.lt_succ_diag_r _)) as (j' & F1 & F2).
        rewrite pv_eq. cbn [is_null is_bool is_number is_string starts]. change (LBR =? 110) with false. change (LBR =? 116) with false.
        change (LBR =? 102) with false. change (LBR =? QT) with false. change (LBR =? MINUS) with false. change (is_digit LBR) with false.
        cbn [orb]. cbv iota.
        destruct (is_object (LBR :: p ++ c :: t')) eqn:Eo.
        + exfalso. unfold is_object in Eo. change (LBR =? LCB) with false in Eo. change (LBR =? LBR) with true in Eo. cbn [negb] in Eo. cbv iota in Eo.
          destruct (space_cases (p ++ c :: t')) as [(g & s1 & Eg & Hg & _ & A1)|(Hg & j0 & A1 & _ & _ & Hj0)].
          * destruct (space_good (p ++ c :: t')) as (s1' & o1 & A & B). rewrite A in Eo, A1. assert (s1' = s1) by congruence. subst s1'.
            destruct (starts_inv _ _ Eo) as (w & ->). rewrite Eg in F1. rewrite items_end in F1; [|exact rstop|exact Hg].
            injection F1 as _ <-. discriminate.
          * destruct (space_good (p ++ c :: t')) as (s1' & o1 & A & B). rewrite A in Eo, A1. assert (s1' = []) by congruence. subst s1'. discriminate.
        + unfold is_array, starts. change (LBR =? LBR) with true. cbv iota. unfold parse_array, is_array, starts. change (LBR =? LBR) with true. cbn [negb].
          cbn [step bind]. eauto. }
    cbn in H. injection H as _ <-. exists [], s. split; [reflexivity|]. split; [left; split; [exact I|reflexivity]|].
    split; [exists (text "null"); exact wv_null|].
    intros c q' -> t. cbn [app]. unfold fails. rewrite pv_eq.
    assert (is_null (c :: t) = false) as -> by exact E1. assert (is_bool (c :: t) = false) as -> by exact E2.
    assert (is_number (c :: t) = false) as -> by exact E3. assert (is_string (c :: t) = false) as -> by exact E4.
    assert (is_object (c :: t) = false) as ->.
    { unfold is_object in E5 |- *. cbn in E6. destruct (c =? LCB); [discriminate|]. rewrite E6. reflexivity. }
    assert (is_array (c :: t) = false) as -> by exact E6. eexists. split; reflexivity.
  Qed.
End Values.

(** ---- the theorems ---- *)
Lemma firstn_app_len {A} (p q : list A) : firstn (length p) (p ++ q) = p.
Proof. rewrite firstn_app, firstn_all, Nat.sub_diag. cbn. apply app_nil_r. Qed.
Lemma firstn_app_S {A} (p : list A) c q : firstn (S (length p)) (p ++ c :: q) = p ++ [c].
Proof. rewrite firstn_app. replace (S (length p) - length p)%nat with 1%nat by lia. rewrite firstn_all2 by lia. reflexivity. Qed.

Lemma reject_pos sn s r j : bytes s -> parse sn s clean = Ok (r, Some j) -> is_err j = true ->
  exists p q, s = p ++ q /\ tail_rel j (dist q) /\ first_bad s (length p).
Proof.
  intros Hb H Hj. destruct (value_bad sn (S (length s)) s ltac:(lia) Hb r j H Hj) as (p & q & -> & Ht & (z & Hz) & F).
  exists p, q. split; [reflexivity|]. split; [exact Ht|]. split; [rewrite app_length; lia|]. split.
  - rewrite firstn_app_len. exists z. exact Hz.
  - rewrite app_length. intros Hl. destruct q as [|c q']; [cbn in Hl; lia|]. rewrite firstn_app_S.
    intros (t & Hw). rewrite <- app_assoc in Hw. cbn [app] in Hw. destruct (F c q' eq_refl t) as (j' & F1 & F2).
    assert (K : parse sn (p ++ c :: t) clean = Ok ([], clean)).
    { rewrite <- (app_nil_r (p ++ c :: t)). apply parse_complete. split; [exact Hw|]. intros _. exact I. }
    unfold parse in K. rewrite F1 in K. injection K as ->. discriminate.
Qed.

Lemma first_bad_fun s k k' : first_bad s k -> first_bad s k' -> k = k'.
Proof.
  assert (Le : forall a b, (a < b)%nat -> first_bad s a -> first_bad s b -> False).
  { intros a b Hab (_ & _ & Na) (Lb & (t & Vb) & _). apply Na; [lia|].
    exists (skipn (S a) (firstn b s) ++ t). rewrite app_assoc.
    replace (firstn (S a) s) with (firstn (S a) (firstn b s)) by (rewrite firstn_firstn; f_equal; lia).
    now rewrite firstn_skipn. }
  intros H H'. destruct (Nat.lt_trichotomy k k') as [L|[E|L]]; [exfalso; eauto|exact E|exfalso; eauto].
Qed.

Lemma pos_of s p q : s = p ++ q -> Z.to_nat (dist s - dist q) = length p.
Proof. intros ->. unfold dist. rewrite app_length. lia. Qed.

Lemma exact_where sn s r j : bytes s -> parse sn s clean = Ok (r, Some j) -> is_err j = true -> exact_pos j ->
  first_bad s (Z.to_nat (dist s - tail_of j)).
Proof.
  intros Hb H Hj Hx. destruct (reject_pos sn s r j Hb H Hj) as (p & q & E & Ht & Hf).
  assert (tail_of j = dist q) as ->.
  { destruct Ht as [[_ Ht]|[[(A & B) _]|[[A _]|[(A & B) _]]]]; [exact Ht| | |]; exfalso; unfold exact_pos, number_pos in *.
    - rewrite A, B in Hx. destruct Hx; discriminate.
    - now rewrite A in Hx.
    - rewrite A in Hx. destruct B as [B|[B|B]]; rewrite B in Hx; destruct Hx; discriminate. }
  now rewrite (pos_of s p q E).
Qed.
Lemma colon_where sn s r j : bytes s -> parse sn s clean = Ok (r, Some j) -> is_err j = true -> colon_pos j ->
  exists k, offending s k /\ dist s - tail_of j = Z.of_nat k + 1.
Proof.
  intros Hb H Hj Hx. destruct (reject_pos sn s r j Hb H Hj) as (p & q & E & Ht & Hf).
  assert (T : tail_of j = dist q - 1 /\ 0 < dist q).
  { destruct Hx as (Cx & Nx).
    destruct Ht as [[A Ht]|[[_ Ht]|[[A _]|[(A & B) _]]]]; [|exact Ht| |]; exfalso; unfold exact_pos, number_pos in *.
    - rewrite Cx, Nx in A. destruct A; discriminate.
    - congruence.
    - rewrite Nx in B. destruct B as [B|[B|B]]; discriminate. }
  exists (length p). destruct Hf as (L & V & N). subst s. unfold dist in *. rewrite app_length in *. split; [|lia].
  assert (length p < length p + length q)%nat by lia. split; [rewrite app_length; assumption|]. split; [exact V|now apply N].
Qed.
Lemma number_where sn s r j : bytes s -> parse sn s clean = Ok (r, Some j) -> is_err j = true -> number_pos j ->
  tail_of j = 0 /\ exists k, offending s k.
Proof.
  intros Hb H Hj Hx. destruct (reject_pos sn s r j Hb H Hj) as (p & q & E & Ht & Hf).
  assert (T : tail_of j = 0 /\ 0 < dist q).
  { unfold number_pos in Hx. destruct Ht as [[A Ht]|[[(A & _) _]|[[_ Ht]|[(A & B) _]]]]; [|congruence|exact Ht|congruence].
    exfalso. unfold exact_pos in A. now rewrite Hx in A. }
  split; [apply T|]. exists (length p). destruct Hf as (L & V & N). subst s. unfold dist in *. rewrite app_length in *.
  assert (length p < length p + length q)%nat by lia. split; [rewrite app_length; assumption|]. split; [exact V|now apply N].
Qed.
Lemma literal_where sn s r j : bytes s -> parse sn s clean = Ok (r, Some j) -> is_err j = true -> literal_pos j ->
  1 <= tail_of j <= 4 /\ exists k, offending s k.
Proof.
  intros Hb H Hj Hx. destruct (reject_pos sn s r j Hb H Hj) as (p & q & E & Ht & Hf).
  assert (T : 1 <= tail_of j <= 4 /\ 0 < dist q).
  { destruct Hx as (Cx & Nx). destruct Ht as [[A Ht]|[[(_ & A) _]|[[A _]|[_ Ht]]]]; [| | |exact Ht]; exfalso; unfold exact_pos, number_pos in *.
    - rewrite Cx in A. destruct Nx as [B|[B|B]]; rewrite B in A; destruct A; discriminate.
    - rewrite A in Nx. destruct Nx as [B|[B|B]]; discriminate.
    - congruence. }
  split; [apply T|]. exists (length p). destruct Hf as (L & V & N). subst s. unfold dist in *. rewrite app_length in *.
  assert (length p < length p + length q)%nat by lia. split; [rewrite app_length; assumption|]. split; [exact V|now apply N].
Qed.
Lemma pos_kinds sn s r j : bytes s -> parse sn s clean = Ok (r, Some j) -> is_err j = true ->
  exact_pos j \/ colon_pos j \/ number_pos j \/ literal_pos j.
Proof.
  intros Hb H Hj. destruct (reject_pos sn s r j Hb H Hj) as (p & q & _ & Ht & _). unfold tail_rel in Ht. tauto.
Qed.

(** ---- UnexpectedEndFragment is only ever reported at the end ---- *)
Definition ue (e : eptr) : Prop :=
  match e with Some j => code j = UnexpectedEndFragment -> tail_of j = 0 | None => True end.
Lemma ue_cerr c m t e : ue e -> c <> UnexpectedEndFragment \/ t = 0 -> ue (cerr c m t e).
Proof.
  intros H D. destruct e as [j|]; [|exact I]. cbn. destruct (is_err j); [exact H|]. cbn. intros E. destruct D; congruence.
Qed.
Ltac ue1 := first [ assumption | apply ue_cerr; [ue1 | first [right; reflexivity | left; discriminate]] ].
Ltac ue2 := repeat match goal with |- context [match ?x with _ => _ end] => destruct x end; ue1.
Lemma ue_space s e : ue e -> ue (snd (parse_space s e)).
Proof. intros H. unfold parse_space. destruct (space_loop false s) as [[] ?]; cbn [snd]; ue1. Qed.
Lemma ue_lit r nm e : ue e -> ue (snd (finish_lit r nm e)).
Proof. intros H. destruct r; cbn [snd finish_lit]; ue1. Qed.
Lemma ue_exp s e : ue e -> ue (snd (parse_exp s e)).
Proof.
  intros H. unfold parse_exp. destruct s as [|c t]; [exact H|]. destruct ((c =? 101) || (c =? 69)); [|exact H]. cbv zeta.
  match goal with |- context [match ?x with [] => _ | d :: _ => if is_digit d then _ else _ end] => destruct x as [|d u] end; cbn [snd]; [ue1|].
  destruct (is_digit d); cbn [snd]; ue1.
Qed.
Lemma ue_integer s e : ue e -> ue (snd (parse_integer s e)).
Proof.
  intros H. unfold parse_integer. destruct s as [|c t]; [cbn [snd]; ue1|]. cbv zeta.
  destruct (if c =? MINUS then t else c :: t) as [|c1 t1]; [cbn [snd]; ue1|].
  destruct (c1 =? 48); [exact H|]. destruct ((49 <=? c1) && (c1 <=? 57)); [exact H|]. cbn [snd]. ue1.
Qed.
Lemma ue_number s e : ue e -> ue (snd (parse_number s e)).
Proof.
  intros H. unfold parse_number. pose proof (ue_integer s e H) as A. destruct (parse_integer s e) as [s1 e1]. cbn [snd] in A.
  destruct s1 as [|c t]; [exact A|]. destruct (c =? DOT); [|now apply ue_exp]. destruct t as [|d t]; [cbn [snd]; ue1|].
  destruct (is_digit d); [now apply ue_exp|cbn [snd]; ue1].
Qed.
Lemma ue_hexl n : forall s e, ue e -> ue (snd (hex_loop n s e)).
Proof.
  induction n as [|n IH]; intros s e H; cbn [hex_loop]; [exact H|]. destruct s as [|c t]; [cbn [snd]; ue1|].
  destruct (is_hex c); [now apply IH|cbn [snd]; ue1].
Qed.
Lemma ue_hex s e : ue e -> ue (snd (parse_hex s e)).
Proof. intros H. unfold parse_hex. destruct s; [cbn [snd]; ue1|now apply ue_hexl]. Qed.
Lemma ue_part n : forall s e, ue e -> ue (snd (utf8_part n s e)).
Proof.
  induction n as [|n IH]; intros s e H; cbn [utf8_part]; [exact H|]. destruct s as [|c t]; [cbn [snd]; ue1|].
  destruct (Z.land c 192 =? 128); [now apply IH|cbn [snd]; ue1].
Qed.
Lemma ue_utf8 c t e : ue e -> ue (snd (parse_utf8 c t e)).
Proof. intros H. unfold parse_utf8. destruct (utf8_conts c); [now apply ue_part|cbn [snd]; ue1]. Qed.
Lemma ue_sloop n : forall s e x, ue e -> string_loop n s e = Ok x -> ue (match x with inl y => snd y | inr y => snd y end).
Proof.
  induction n as [|n IH]; intros s e x H E; cbn [string_loop] in E; [discriminate|].
  destruct s as [|c t]; [injection E as <-; exact H|]. destruct (c =? QT); [injection E as <-; exact H|].
  destruct (c =? BSL).
  - destruct t as [|d t']; [injection E as <-; cbn [snd]; ue1|].
    destruct (negb (esc_ok d)); [injection E as <-; cbn [snd]; ue1|]. destruct (d =? 117); [|now apply (IH t' e)].
    pose proof (ue_hex t' e H) as A. destruct (parse_hex t' e) as [s1 e1]. now apply (IH s1 e1).
  - pose proof (ue_utf8 c t e H) as A. destruct (parse_utf8 c t e) as [s1 e1]. now apply (IH s1 e1).
Qed.
Lemma ue_string s e r e' : ue e -> parse_string s e = Ok (r, e') -> ue e'.
Proof.
  intros H E. unfold parse_string in E. destruct s as [|c t]; [injection E as _ <-; ue1|].
  destruct (negb (c =? QT)); [injection E as _ <-; ue1|].
  destruct (string_loop (S (length t)) t e) as [x| |] eqn:L; try discriminate. cbn [bind] in E.
  pose proof (ue_sloop _ _ _ _ H L) as A. destruct x as [[[|d t1] e1]|[y1 y2]]; cbn [snd] in A.
  - injection E as _ <-; ue1.
  - destruct (negb (d =? QT)); injection E as _ <-; [ue1|exact A].
  - injection E as _ <-; exact A.
Qed.
Definition ukeep (f : pfun) := forall s e r e', ue e -> f s e = Ok (r, e') -> ue e'.
Lemma ue_member pv : ukeep pv -> ukeep (parse_member pv).
Proof.
  intros Hp s e r e' H E. unfold parse_member in E. destruct (negb (is_string s)); [injection E as _ <-; ue1|].
  destruct (parse_string s e) as [[s1 e1]| |] eqn:L; try discriminate. cbn [bind] in E.
  pose proof (ue_string _ _ _ _ H L) as A. destruct s1 as [|c1 t1]; [injection E as _ <-; ue1|].
  pose proof (ue_space (c1 :: t1) e1 A) as B. destruct (parse_space (c1 :: t1) e1) as [s2 e2]. cbn [snd] in B.
  destruct s2 as [|c s3]; [injection E as _ <-; ue1|]. destruct (negb (c =? COLON)); [injection E as _ <-; ue1|].
  destruct s3 as [|c3 t3]; [injection E as _ <-; ue1|].
  pose proof (ue_space (c3 :: t3) e2 B) as D. destruct (parse_space (c3 :: t3) e2) as [s4 e4]. cbn [snd] in D.
  destruct s4 as [|c4 t4]; [injection E as _ <-; ue1|]. now apply (Hp _ _ _ _ D E).
Qed.
Lemma ue_close c s e : ue e -> ue (snd (close_with c s e)).
Proof. intros H. unfold close_with. destruct s as [|d t]; [cbn [snd]; ue1|]. destruct (negb (d =? c)); cbn [snd]; ue1. Qed.
Lemma ue_items sn close item (Hi : ukeep item) n : ukeep (items_loop sn close item n).
Proof.
  induction n as [|n IH]; intros s e r e' H E; cbn [items_loop] in E; [discriminate|].
  assert (Cl : forall s e r e', ue e -> Ok (close_with close s e) = Ok (r, e') -> ue e').
  { intros s' e0 r' e0' H' E'. pose proof (ue_close close s' e0 H') as A. injection E' as E'. rewrite E' in A. exact A. }
  destruct s as [|c0 t]; [now apply (Cl _ _ _ _ H E)|]. destruct (c0 =? close); [now apply (Cl _ _ _ _ H E)|].
  pose proof (ue_space (c0 :: t) e H) as A. destruct (parse_space (c0 :: t) e) as [s1 e1]. cbn [snd] in A.
  destruct (deref sn s1) as [c1| |]; try discriminate. cbn [bind] in E.
  destruct (c1 =? close); [now apply (Cl _ _ _ _ A E)|].
  destruct (item s1 e1) as [[s2 e2]| |] eqn:L; try discriminate. cbn [bind] in E.
  pose proof (Hi _ _ _ _ A L) as B. pose proof (ue_space s2 e2 B) as D. destruct (parse_space s2 e2) as [s3 e3]. cbn [snd] in D.
  destruct s3 as [|c3 t3]; [injection E as _ <-; ue1|].
  destruct (negb (c3 =? COMMA) && negb (c3 =? close)); [injection E as _ <-; ue1|].
  destruct (c3 =? COMMA); now apply (IH _ _ _ _ D E).
Qed.
Lemma ue_value sn n : ukeep (parse_value_f sn n).
Proof.
  induction n as [|n IH]; intros s e r e' H E; cbn [parse_value_f] in E; [discriminate|].
  assert (Q : forall p : buf * eptr, Ok p = Ok (r, e') -> ue (snd p) -> ue e') by (intros p Ep Up; injection Ep as ->; exact Up).
  destruct (is_null s).
  { apply (Q _ E). unfold parse_null. destruct s as [|c t]; [cbn [snd]; ue1|]. destruct (c =? 110); [now apply ue_lit|cbn [snd]; ue1]. }
  destruct (is_bool s).
  { apply (Q _ E). unfold parse_bool. destruct s as [|c t]; [cbn [snd]; ue1|]. destruct (c =? 116); [now apply ue_lit|].
    destruct (c =? 102); [now apply ue_lit|cbn [snd]; ue1]. }
  destruct (is_number s); [apply (Q _ E); now apply ue_number|].
  destruct (is_string s); [now apply (ue_string _ _ _ _ H E)|].
  destruct (is_object s) eqn:Eo.
  { unfold parse_object in E. rewrite Eo in E. cbn [negb] in E. destruct s as [|c t]; [discriminate|]. cbn [step bind] in E.
    pose proof (ue_space t e H) as A. destruct (parse_space t e) as [s1 e1]. cbn [snd] in A.
    destruct (starts RBR s1).
    - destruct (step s1) as [s2| |]; try discriminate. cbn [bind] in E. injection E as _ <-. exact A.
    - exact (ue_items sn RCB _ (ue_member _ IH) _ _ _ _ _ A E). }
  destruct (is_array s) eqn:Ea; [|injection E as _ <-; ue1].
  unfold parse_array in E. rewrite Ea in E. cbn [negb] in E. destruct s as [|c t]; [discriminate|]. cbn [step bind] in E.
  exact (ue_items sn RBR _ IH _ _ _ _ _ H E).
Qed.

Lemma end_where sn s r j : bytes s -> parse sn s clean = Ok (r, Some j) -> code j = UnexpectedEndFragment ->
  tail_of j = 0 /\ viable s.
Proof.
  intros Hb H Hc. assert (Hj : is_err j = true) by (unfold is_err; now rewrite Hc).
  assert (U : ue (Some j)).
  { unfold parse, parse_value in H. exact (ue_value sn _ s clean r (Some j) (fun X => ltac:(discriminate)) H). }
  cbn in U. specialize (U Hc). split; [exact U|].
  assert (X : exact_pos j) by (unfold exact_pos; now rewrite Hc).
  destruct (exact_where sn s r j Hb H Hj X) as (_ & V & _). rewrite U in V.
  replace (Z.to_nat (dist s - 0)) with (length s) in V by (unfold dist; lia). now rewrite firstn_all in V.
Qed.
