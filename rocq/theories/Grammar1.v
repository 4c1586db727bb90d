(** Lexical level: gaps, numbers, strings. Proofs about parse_space,
    parse_number and parse_string against SpecJson. *)
From Verif Require Import Base Parser SpecJson ParserFacts.

Ltac bool2prop := repeat match goal with
  | H : (_ =? _) = true |- _ => apply Z.eqb_eq in H
  | H : (_ =? _) = false |- _ => apply Z.eqb_neq in H
  end.

(** lifting a sweep over all byte values *)
Definition all_bytes : list Z := map Z.of_nat (seq 0 256).
Lemma byte_sweep (P : Z -> bool) : forallb P all_bytes = true ->
  forall c, 0 <= c <= 255 -> P c = true.
Proof.
  intros H c Hc. rewrite forallb_forall in H. apply H. unfold all_bytes.
  apply in_map_iff. exists (Z.to_nat c). split; [lia|]. apply in_seq. lia.
Qed.

Lemma is_ws_iff c : is_ws c = true <-> s_ws c.
Proof. unfold is_ws, s_ws. lia. Qed.
Lemma is_digit_iff c : is_digit c = true <-> s_digit c.
Proof. unfold is_digit, s_digit. lia. Qed.
Lemma is_hex_iff c : is_hex c = true <-> s_hex c.
Proof. unfold is_hex, is_digit, s_hex. lia. Qed.

(** ---------- gaps ---------- *)
Definition stop (r : buf) : Prop :=
  match r with [] => True | c :: _ => ~ s_ws c /\ c <> SLASH /\ c <> STAR end.
Definition stop' (r : buf) : Prop :=
  match r with [] => True | c :: _ => ~ s_ws c /\ c <> SLASH end.

Lemma comment_skip u g : no_close (u ++ [STAR]) ->
  space_loop true (u ++ STAR :: SLASH :: g) = space_loop false (SLASH :: g).
Proof.
  revert g. induction u as [|c u IH]; intros g H.
  - reflexivity.
  - assert (Hu : no_close (u ++ [STAR])).
    { cbn in H. inversion H as [|c' E|c' d t Hcd Ht E]; [destruct u; discriminate|]. rewrite <- E in *. congruence || exact Ht. }
    specialize (IH g Hu). cbn [app]. cbn [space_loop].
    destruct (c =? STAR) eqn:Ec; [|exact IH].
    bool2prop. subst c. destruct u as [|d u].
    + cbn [app] in *. cbn [Z.eqb]. exact IH.
    + cbn [app] in *. destruct (d =? SLASH) eqn:Ed; [|exact IH].
      bool2prop. subst d. inversion H; subst. tauto.
Qed.

Lemma gap_space g : gap g -> forall r, stop r -> space_loop false (g ++ r) = (false, r).
Proof.
  induction 1 as [|c g Hc Hg IH|g Hh Hg IH|u g Hh Hn Hg IH]; intros r Hr.
  - destruct r as [|c t]; [reflexivity|]. cbn in Hr. cbn [app space_loop].
    destruct (is_ws c) eqn:Ew; [apply is_ws_iff in Ew; tauto|]. cbn [negb].
    destruct (c =? SLASH) eqn:Es; [bool2prop; tauto|reflexivity].
  - cbn [app space_loop]. apply is_ws_iff in Hc. rewrite Hc. cbn [negb]. apply IH, Hr.
  - cbn [app space_loop]. change (is_ws SLASH) with false. cbn [negb]. change (SLASH =? SLASH) with true.
    cbv iota. specialize (IH r Hr). destruct (g ++ r) as [|d t] eqn:E.
    + apply app_eq_nil in E. destruct E as [-> ->]. reflexivity.
    + destruct (d =? STAR) eqn:Ed; [|exact IH]. bool2prop. subst d. exfalso.
      destruct g as [|d g]; cbn in E.
      * subst r. cbn in Hr. tauto.
      * injection E as -> _. apply Hh. exists g. reflexivity.
  - specialize (IH r Hr). rewrite <- IH. cbn [app]. rewrite <- app_assoc. cbn [app].
    rewrite <- (comment_skip u (g ++ r) Hn).
    destruct Hh as [t Ht]. cbn [space_loop]. change (is_ws SLASH) with false. cbn [negb].
    change (SLASH =? SLASH) with true. cbv iota.
    destruct (u ++ STAR :: SLASH :: g ++ r) as [|d z] eqn:E; [destruct u; discriminate|].
    assert (d = STAR) as ->.
    { destruct u; cbn in *; congruence. }
    reflexivity.
Qed.

Lemma space_gap_gen s :
  (forall r, space_loop false s = (false, r) ->
     exists g, s = g ++ r /\ gap g /\ stop' r) /\
  (forall r, space_loop true s = (false, r) ->
     exists u g, s = u ++ STAR :: SLASH :: g ++ r /\ no_close (u ++ [STAR]) /\
                 gap (SLASH :: g) /\ stop' r).
Proof.
  induction s as [|c t [IHf IHt]].
  - split; intros r H; [|discriminate]. injection H as <-. exists []. repeat split. constructor.
  - split; intros r H; cbn [space_loop] in H.
    + destruct (is_ws c) eqn:Ew; cbn [negb] in H.
      * destruct (IHf r H) as (g & -> & Hg & Hr). exists (c :: g). split; [reflexivity|].
        split; [constructor; [apply is_ws_iff, Ew|exact Hg]|exact Hr].
      * assert (Hnws : ~ s_ws c) by (intro K; apply is_ws_iff in K; congruence).
        destruct (c =? SLASH) eqn:Es.
        2:{ bool2prop. injection H as <-. exists []. repeat split; try constructor; assumption. }
        bool2prop. subst c. destruct t as [|d t].
        { injection H as <-. exists [SLASH]. repeat split.
          apply g_slash; [intros [? ?]; discriminate|constructor]. }
        destruct (d =? STAR) eqn:Ed.
        -- bool2prop. subst d. destruct (IHt r H) as (u & g & E & Hn & Hg & Hr).
           exists (SLASH :: u ++ STAR :: SLASH :: g). rewrite E. split.
           { cbn. rewrite <- app_assoc. reflexivity. }
           split; [|exact Hr]. apply g_comment; [|exact Hn|exact Hg].
           destruct u as [|x u]; cbn in E; injection E; intros; subst; eexists; reflexivity.
        -- bool2prop. destruct (IHf r H) as (g & E & Hg & Hr).
           exists (SLASH :: g). rewrite E. split; [reflexivity|]. split; [|exact Hr].
           apply g_slash; [|exact Hg]. intros [z ->]. cbn in E. injection E as -> _. congruence.
    + destruct (c =? STAR) eqn:Ec.
      * bool2prop. subst c. destruct t as [|d t]; [discriminate|].
        destruct (d =? SLASH) eqn:Ed.
        -- bool2prop. subst d. destruct (IHf r H) as (g & E & Hg & Hr).
           destruct g as [|x g]; cbn in E.
           { subst r. cbn in Hr. tauto. }
           injection E as <- ->. exists [], g. repeat split; try assumption. constructor.
        -- bool2prop. destruct (IHt r H) as (u & g & E & Hn & Hg & Hr).
           exists (STAR :: u), g. rewrite E. split; [reflexivity|]. split; [|split; assumption].
           destruct u as [|x u]; cbn in E |- *; injection E as E1 E2; subst.
           ++ constructor; [lia|constructor].
           ++ constructor; [lia|exact Hn].
      * bool2prop. destruct (IHt r H) as (u & g & E & Hn & Hg & Hr).
        exists (c :: u), g. rewrite E. split; [reflexivity|]. split; [|split; assumption].
        cbn. destruct (u ++ [STAR]) as [|x y] eqn:E2; [destruct u; discriminate|].
        constructor; [tauto|exact Hn].
Qed.

Lemma space_ok_inv s r : parse_space s (Some no_error) = (r, Some no_error) ->
  exists g, s = g ++ r /\ gap g /\ stop' r.
Proof.
  unfold parse_space. destruct (space_loop false s) as [sc r'] eqn:E. destruct sc; [discriminate|].
  intros H. injection H as ->. apply (space_gap_gen s), E.
Qed.

Lemma gap_parse_space g r e : gap g -> stop r -> parse_space (g ++ r) e = (r, e).
Proof. intros Hg Hr. unfold parse_space. rewrite gap_space by assumption. reflexivity. Qed.

Lemma ws_gap w : ws w -> gap w.
Proof. induction 1; constructor; assumption. Qed.

Lemma space_stop r e : stop r -> parse_space r e = (r, e).
Proof. intros H. apply (gap_parse_space [] r e g_nil H). Qed.

(** ---------- numbers ---------- *)
Definition nodigit (r : buf) : Prop := match r with [] => True | c :: _ => ~ s_digit c end.

Lemma parse_digit_inv s : exists ds, s = ds ++ parse_digit s /\ digits ds /\ nodigit (parse_digit s).
Proof.
  induction s as [|c t (ds & E & Hd & Hn)]; cbn [parse_digit].
  - exists []. repeat split; constructor.
  - destruct (is_digit c) eqn:Ec.
    + exists (c :: ds). cbn. rewrite <- E. repeat split; [|exact Hn].
      constructor; [apply is_digit_iff, Ec|exact Hd].
    + exists []. repeat split; [constructor|]. cbn. intro K. apply is_digit_iff in K. congruence.
Qed.
Lemma parse_digit_app ds r : digits ds -> nodigit r -> parse_digit (ds ++ r) = r.
Proof.
  induction 1 as [|c ds Hc Hd IH]; intros Hr.
  - destruct r as [|c t]; [reflexivity|]. cbn in *. destruct (is_digit c) eqn:E; [|reflexivity].
    apply is_digit_iff in E. tauto.
  - cbn. apply is_digit_iff in Hc. rewrite Hc. apply IH, Hr.
Qed.

Lemma parse_integer_app m i r e : ropt_minus m -> rint i -> (i = [48] \/ nodigit r) ->
  parse_integer (m ++ i ++ r) e = (r, e).
Proof.
  intros Hm Hi Hr. destruct Hi as [|d ds Hd Hds].
  - destruct Hm; reflexivity.
  - destruct Hr as [Hr|Hr]; [injection Hr as -> ->; lia|].
    assert (E : forall e, parse_integer ((d :: ds) ++ r) e = (r, e)).
    { intro. cbn [app parse_integer].
      destruct (d =? MINUS) eqn:E1; [lia|]. destruct (d =? 48) eqn:E2; [lia|].
      destruct ((49 <=? d) && (d <=? 57)) eqn:E3; [|lia].
      f_equal. apply (parse_digit_app (d :: ds) r); [|exact Hr].
      constructor; [unfold s_digit; lia|exact Hds]. }
    destruct Hm; [apply E|]. cbn [app]. unfold parse_integer. cbv beta iota zeta.
    change (MINUS =? MINUS) with true. cbv iota.
    specialize (E e). cbn [app] in E. unfold parse_integer in E. cbv zeta in E.
    destruct (d =? MINUS) eqn:E1; [lia|]. exact E.
Qed.

Lemma parse_integer_inv s r : parse_integer s (Some no_error) = (r, Some no_error) ->
  exists m i, s = m ++ i ++ r /\ ropt_minus m /\ rint i /\ (i = [48] \/ nodigit r).
Proof.
  unfold parse_integer. destruct s as [|c t]; [discriminate|]. cbv zeta.
  assert (K : forall s1, match s1 with
    | [] => ([], cerr UnexpectedEndFragment None 0 (Some no_error))
    | c1 :: t1 => if c1 =? 48 then (t1, Some no_error) else
       if (49 <=? c1) && (c1 <=? 57) then (parse_digit s1, Some no_error)
       else ([], cerr InvalidNumber None 0 (Some no_error)) end = (r, Some no_error) ->
    exists i, s1 = i ++ r /\ rint i /\ (i = [48] \/ nodigit r)).
  { intros [|c1 t1]; [discriminate|]. destruct (c1 =? 48) eqn:E1.
    - intros H. injection H as ->. bool2prop. subst. exists [48]. repeat split; [constructor|now left].
    - destruct ((49 <=? c1) && (c1 <=? 57)) eqn:E2; [|discriminate]. intros H.
      assert (Hr : parse_digit (c1 :: t1) = r) by congruence. clear H.
      destruct (parse_digit_inv (c1 :: t1)) as (ds & E & Hd & Hn). rewrite Hr in E, Hn.
      destruct ds as [|x ds]; cbn in E.
      + rewrite <- E in Hn. exfalso. apply Hn. unfold s_digit. lia.
      + injection E as -> ->. exists (x :: ds). repeat split; [|now right].
        inversion Hd; subst. constructor; [lia|assumption]. }
  destruct (c =? MINUS) eqn:Em.
  - bool2prop. subst c. intros H. destruct (K _ H) as (i & -> & Hi & Hr).
    exists [MINUS], i. repeat split; try assumption. constructor.
  - intros H. destruct (K (c :: t) H) as (i & E & Hi & Hr). rewrite E.
    exists [], i. repeat split; try assumption. constructor.
Qed.

Definition noexp (r : buf) : Prop := match r with [] => True | c :: _ => c <> 101 /\ c <> 69 end.

Lemma parse_exp_app x r e : rexp x -> (x = [] -> noexp r) -> (x <> [] -> nodigit r) ->
  parse_exp (x ++ r) e = (r, e).
Proof.
  intros Hx H1 H2. destruct Hx as [|m sg ds Hm Hsg [Hne Hds]].
  - specialize (H1 eq_refl). destruct r as [|c t]; [reflexivity|]. cbn in *.
    destruct ((c =? 101) || (c =? 69)) eqn:E; [lia|reflexivity].
  - specialize (H2 ltac:(discriminate)). cbn [app parse_exp].
    destruct ((m =? 101) || (m =? 69)) eqn:E; [|lia].
    assert (K : match ds ++ r with [] => ([], cerr UnexpectedEndFragment None 0 e)
      | d :: _ => if is_digit d then (parse_digit (ds ++ r), e) else ([], cerr InvalidNumber None 0 e) end = (r, e)).
    { rewrite parse_digit_app by assumption. destruct ds as [|d ds]; [congruence|]. cbn.
      inversion Hds; subst. apply is_digit_iff in H3. rewrite H3. reflexivity. }
    rewrite <- app_assoc.
    destruct Hsg as [->|[->| ->]]; cbn [app].
    + destruct ds as [|d ds]; [congruence|]. inversion Hds; subst. cbn [app] in *.
      destruct ((d =? MINUS) || (d =? PLUS)) eqn:Ed; [unfold s_digit in *; lia|]. exact K.
    + change ((MINUS =? MINUS) || (MINUS =? PLUS)) with true. cbv iota. exact K.
    + change ((PLUS =? MINUS) || (PLUS =? PLUS)) with true. cbv iota. exact K.
Qed.

Lemma parse_exp_inv s r : parse_exp s (Some no_error) = (r, Some no_error) ->
  exists x, s = x ++ r /\ rexp x /\ (x = [] -> noexp r) /\ (x <> [] -> nodigit r).
Proof.
  unfold parse_exp. destruct s as [|c t].
  - intros H. injection H as <-. exists []. repeat split; constructor || congruence.
  - destruct ((c =? 101) || (c =? 69)) eqn:E.
    + assert (K : forall sg s1, t = sg ++ s1 -> sg = [] \/ sg = [MINUS] \/ sg = [PLUS] ->
        match s1 with [] => ([], cerr UnexpectedEndFragment None 0 (Some no_error))
        | d :: _ => if is_digit d then (parse_digit s1, Some no_error) else ([], cerr InvalidNumber None 0 (Some no_error)) end = (r, Some no_error) ->
        exists x, c :: t = x ++ r /\ rexp x /\ (x = [] -> noexp r) /\ (x <> [] -> nodigit r)).
      { intros sg s1 -> Hsg. destruct s1 as [|d s1]; [discriminate|]. destruct (is_digit d) eqn:Ed; [|discriminate].
        intros H. assert (Hr : parse_digit (d :: s1) = r) by congruence. clear H.
        destruct (parse_digit_inv (d :: s1)) as (ds & E1 & Hd & Hn). rewrite Hr in E1, Hn.
        exists (c :: sg ++ ds). split; [rewrite E1; cbn; rewrite app_assoc; reflexivity|].
        split; [|split; [discriminate|intros _; exact Hn]].
        constructor; [lia|exact Hsg|]. split; [|exact Hd]. intros ->. cbn in E1. rewrite <- E1 in Hn.
        apply Hn. apply is_digit_iff, Ed. }
      destruct t as [|d t'].
      * intros H. apply (K [] []); [reflexivity|now left|exact H].
      * destruct ((d =? MINUS) || (d =? PLUS)) eqn:Ed; intros H.
        -- apply (K [d] t'); [reflexivity| |exact H]. assert (d = MINUS \/ d = PLUS) as [->| ->] by lia; auto.
        -- apply (K [] (d :: t')); [reflexivity|now left|exact H].
    + intros H. injection H as <-. exists []. repeat split; try constructor; cbn; lia || congruence.
Qed.

Lemma rint_nodot i z : rint i -> In z i -> s_digit z.
Proof.
  intros [|d ds Hd Hds] Hin.
  - destruct Hin as [<-|[]]. unfold s_digit; lia.
  - destruct Hin as [<-|Hin]; [unfold s_digit; lia|]. unfold digits in Hds. rewrite Forall_forall in Hds. auto.
Qed.

Lemma parse_number_app n r e : rnumber n -> num_stop n r -> parse_number (n ++ r) e = (r, e).
Proof.
  intros [m i f x Hm Hi Hf Hx] Hs. unfold parse_number. rewrite <- !app_assoc.
  assert (Hlen : (f <> [] \/ x <> []) -> forall c t, r = c :: t -> ~ s_digit c).
  { intros Hfx c t -> Hc. cbn in Hs. destruct Hs as (Hs & _). specialize (Hs Hc).
    assert (length (m ++ i ++ f ++ x) <= 2 /\ (length (m++i++f++x) = 2 -> m = [MINUS]))%nat as [L1 L2].
    { destruct Hs as [Hs|Hs]; rewrite Hs; split; cbn; try lia.
      intros _. destruct Hm; [|reflexivity]. exfalso. destruct Hi; cbn in Hs; [discriminate|]. injection Hs as -> _. lia. }
    rewrite !app_length in L1, L2.
    assert (length i >= 1)%nat by (destruct Hi; cbn; lia).
    assert (length f + length x >= 1)%nat by (destruct Hfx as [H0|H0]; [destruct f|destruct x]; cbn; try lia; congruence).
    assert (length f = 0 \/ length f >= 2)%nat by (destruct Hf as [|[|] [? ?]]; cbn; try lia; congruence).
    assert (length x = 0 \/ length x >= 2)%nat.
    { destruct Hx as [|m' sg [|] ? ? [? ?]]; cbn; try lia; try congruence. rewrite app_length; cbn. lia. }
    lia. }
  assert (Hi2 : i = [48] \/ nodigit (f ++ x ++ r)).
  { destruct f as [|cf f]; [destruct x as [|cx x]; [destruct r as [|c t]|]|].
    - right; exact I.
    - cbn in *. destruct Hs as (Hs & _).
      destruct (is_digit c) eqn:Ed; [|right; intro K; apply is_digit_iff in K; congruence].
      left. apply is_digit_iff in Ed. specialize (Hs Ed). rewrite app_nil_r in Hs.
      destruct Hm; cbn in Hs; destruct Hs as [Hs|Hs]; try exact Hs; try discriminate.
      + exfalso. destruct Hi; [discriminate|]. injection Hs as -> _. lia.
      + injection Hs as Hs. exact Hs.
    - right. cbn. inversion Hx; subst. unfold s_digit. lia.
    - right. cbn. inversion Hf; subst. unfold s_digit. lia. }
  rewrite (parse_integer_app m i _ e Hm Hi Hi2).
  assert (Hex : parse_exp (x ++ r) e = (r, e)).
  { apply parse_exp_app; [exact Hx| |].
    - intros ->. destruct r as [|c t]; [exact I|]. cbn in *. destruct Hs as (_ & _ & Hs).
      assert (NE : forall z, (z = 101 \/ z = 69) -> ~ In z (m ++ i ++ f ++ [])).
      { intros z Hz Hin. rewrite !in_app_iff in Hin.
        destruct Hin as [Hin|[Hin|[Hin|[]]]].
        - destruct Hm; [destruct Hin|]. destruct Hin as [<-|[]]. lia.
        - apply (rint_nodot _ _ Hi) in Hin. unfold s_digit in Hin. lia.
        - destruct Hf as [|ds [_ Hd]]; [destruct Hin|]. destruct Hin as [<-|Hin]; [lia|].
          unfold digits in Hd. rewrite Forall_forall in Hd. apply Hd in Hin. unfold s_digit in Hin. lia. }
      split; intros ->; destruct Hs as [Hs|Hs]; try (now auto); eapply NE; try eassumption; auto.
    - intros Hne. destruct r as [|c t]; [exact I|]. cbn. apply (Hlen (or_intror Hne) c t eq_refl). }
  destruct Hf as [|ds [Hne Hds]].
  - cbn [app]. destruct (x ++ r) as [|c t] eqn:E.
    + apply app_eq_nil in E. destruct E as [-> ->]. reflexivity.
    + destruct (c =? DOT) eqn:Ec; [|exact Hex]. exfalso. bool2prop. subst c.
      destruct x as [|cx x]; cbn in E.
      * subst r. cbn in Hs. destruct Hs as (_ & Hs & _). specialize (Hs eq_refl).
        rewrite app_nil_r in Hs.
        assert (NE : forall z, In z (m ++ i) -> s_digit z \/ z = MINUS).
        { intros z Hin. rewrite in_app_iff in Hin. destruct Hin as [Hin|Hin].
          - destruct Hm; [destruct Hin|]. destruct Hin as [<-|[]]. now right.
          - left. eapply rint_nodot; eassumption. }
        destruct Hs as [Hs|[Hs|Hs]]; apply NE in Hs; unfold s_digit in Hs; lia.
      * injection E as -> _. inversion Hx; subst. lia.
  - cbn [app]. change (DOT =? DOT) with true. cbv iota.
    destruct ds as [|d ds]; [congruence|]. cbn [app]. inversion Hds; subst.
    assert (is_digit d = true) as -> by (apply is_digit_iff; assumption).
    change (d :: ds ++ x ++ r) with ((d :: ds) ++ (x ++ r)).
    rewrite parse_digit_app; [exact Hex|exact Hds|].
    destruct x as [|cx x].
    + destruct r as [|c t]; [exact I|]. eapply Hlen; [left; discriminate|reflexivity].
    + cbn. inversion Hx; subst. unfold s_digit. lia.
Qed.

Lemma nodot_next m i : ropt_minus m -> rint i ->
  forall z, In z (m ++ i) -> z <> DOT /\ z <> 101 /\ z <> 69.
Proof.
  intros Hm Hi z Hin. rewrite in_app_iff in Hin. destruct Hin as [Hin|Hin].
  - destruct Hm; [destruct Hin|]. destruct Hin as [<-|[]]. lia.
  - apply (rint_nodot _ _ Hi) in Hin. unfold s_digit in Hin. lia.
Qed.

Lemma parse_number_inv s r : parse_number s (Some no_error) = (r, Some no_error) ->
  exists n, s = n ++ r /\ rnumber n /\ num_stop n r.
Proof.
  unfold parse_number.
  destruct (integer_good s) as (r1 & o1 & A1 & B1). pose proof (A1 (Some no_error)) as A. rewrite A.
  destruct o1 as [j|].
  { destruct B1 as (_ & (Bj & _) & B1). rewrite B1 by congruence. cbn. intros H.
    injection H as <- ->. discriminate. }
  cbn [app_err] in *. apply parse_integer_inv in A.
  destruct A as (m & i & -> & Hm & Hi & Hnd).
  destruct r1 as [|c t].
  { intros H. injection H as <-. exists (m ++ i). split; [rewrite !app_nil_r; reflexivity|].
    split; [|exact I]. rewrite <- (app_nil_r i), <- (app_nil_r []). constructor; try assumption; constructor. }
  assert (Kx : forall f s1, (c :: t) = f ++ s1 -> rfrac f -> (f = [] -> c <> DOT) -> (f <> [] -> nodigit s1) ->
     parse_exp s1 (Some no_error) = (r, Some no_error) ->
     exists n, m ++ i ++ c :: t = n ++ r /\ rnumber n /\ num_stop n r).
  { intros f s1 Ef Hf Hc Hfd H. apply parse_exp_inv in H. destruct H as (x & -> & Hx & Hx1 & Hx2).
    exists (m ++ i ++ f ++ x). rewrite Ef. split; [rewrite !app_assoc; reflexivity|].
    split; [constructor; assumption|].
    destruct r as [|c' t']; [exact I|]. cbn.
    split; [|split].
    - intros Hd. destruct x as [|x0 x]; [|exfalso; now apply Hx2].
      destruct f as [|f0 f]; [|exfalso; apply Hfd; [discriminate|exact Hd]].
      cbn in Ef. injection Ef as <- <-. destruct Hnd as [->|Hnd]; [|exfalso; now apply Hnd].
      destruct Hm; cbn; auto.
    - intros ->. destruct x as [|x0 x].
      + destruct f as [|f0 f]; [cbn in Ef; injection Ef as E1 E2; exfalso; now apply Hc|].
        left. inversion Hf; subst. rewrite !in_app_iff. right; right; left; now left.
      + right. inversion Hx; subst. rewrite !in_app_iff.
        assert (H : x0 = 101 \/ x0 = 69) by assumption.
        destruct H as [->| ->]; [left|right]; right; right; right; now left.
    - intros Hc'. destruct x as [|x0 x].
      + specialize (Hx1 eq_refl). cbn in Hx1. lia.
      + inversion Hx; subst. rewrite !in_app_iff.
        assert (H : x0 = 101 \/ x0 = 69) by assumption.
        destruct H as [->| ->]; [left|right]; right; right; right; now left. }
  destruct (c =? DOT) eqn:Ec.
  - destruct t as [|d t]; [discriminate|]. destruct (is_digit d) eqn:Ed; [|discriminate].
    intros H. bool2prop. subst c. destruct (parse_digit_inv (d :: t)) as (ds & E & Hd & Hn).
    apply (Kx (DOT :: ds) (parse_digit (d :: t))); try assumption.
    + cbn [app]. rewrite <- E. reflexivity.
    + constructor. split; [|exact Hd]. intros ->. rewrite app_nil_l in E. rewrite <- E in Hn. apply Hn, is_digit_iff, Ed.
    + discriminate.
    + intros _. exact Hn.
  - bool2prop. intros H. apply (Kx [] (c :: t)); try assumption; try constructor; try reflexivity; congruence.
Qed.

(** C12 *)
Theorem parse_number_exact s r :
  parse_number s (Some no_error) = (r, Some no_error) <->
  exists n, s = n ++ r /\ rnumber n /\ num_stop n r.
Proof.
  split; [apply parse_number_inv|]. intros (n & -> & Hn & Hs). now apply parse_number_app.
Qed.

Lemma follow_num_stop n r : follow r -> num_stop n r.
Proof. destruct r as [|c t]; [constructor|]. cbn. intuition lia. Qed.

(** ---------- strings ---------- *)
Definition lead_class (c : Z) : option nat :=
  if c <? 128 then Some 0%nat else if c <? 192 then None else if c <? 224 then Some 1%nat
  else if c <? 240 then Some 2%nat else if c <? 248 then Some 3%nat else if c <? 252 then Some 4%nat
  else if c <? 254 then Some 5%nat else None.
Definition onat_eqb (a b : option nat) : bool :=
  match a, b with Some x, Some y => Nat.eqb x y | None, None => true | _, _ => false end.
Lemma utf8_conts_class c : 0 <= c <= 255 -> utf8_conts c = lead_class c.
Proof.
  intros Hc. assert (H : onat_eqb (utf8_conts c) (lead_class c) = true).
  { revert c Hc. apply byte_sweep. vm_compute. reflexivity. }
  destruct (utf8_conts c), (lead_class c); cbn in H; try discriminate; try reflexivity.
  apply Nat.eqb_eq in H. congruence.
Qed.
Lemma cont_class c : 0 <= c <= 255 -> (Z.land c 192 =? 128) = (128 <=? c) && (c <=? 191).
Proof.
  intros Hc. apply Bool.eqb_prop. revert c Hc. apply byte_sweep. vm_compute. reflexivity.
Qed.

Lemma wlead_range c n : wlead c n -> 0 <= c <= 255 /\ utf8_conts c = Some n.
Proof.
  intros H. assert (Hc : 0 <= c <= 255) by (destruct H; lia). split; [exact Hc|].
  rewrite utf8_conts_class by exact Hc. unfold lead_class.
  destruct H; repeat match goal with |- context [?a <? ?b] => destruct (Z.ltb_spec a b); try lia end; reflexivity.
Qed.

Lemma utf8_part_app l : forall n r e, length l = n -> Forall s_cont l -> utf8_part n (l ++ r) e = (r, e).
Proof.
  induction l as [|c l IH]; intros n r e Hn Hl; cbn in Hn; subst n; [reflexivity|].
  inversion Hl; subst. cbn [app utf8_part]. rewrite cont_class by (unfold s_cont in *; lia).
  unfold s_cont in *. destruct ((128 <=? c) && (c <=? 191)) eqn:E; [|lia]. apply IH; auto.
Qed.

Lemma utf8_part_inv n : forall s r, bytes s -> utf8_part n s (Some no_error) = (r, Some no_error) ->
  exists l, s = l ++ r /\ length l = n /\ Forall s_cont l.
Proof.
  induction n as [|n IH]; intros s r Hb H; cbn [utf8_part] in H.
  - injection H as ->. exists []. repeat split. constructor.
  - destruct s as [|c t]; [discriminate|]. inversion Hb; subst.
    destruct (Z.land c 192 =? 128) eqn:E; [|discriminate].
    destruct (IH t r H3 H) as (l & -> & Hl & Hf). exists (c :: l). repeat split; [cbn; lia|].
    constructor; [|exact Hf]. rewrite cont_class in E by assumption. unfold s_cont. lia.
Qed.

Lemma hex_loop_inv n : forall s r, hex_loop n s (Some no_error) = (r, Some no_error) ->
  exists l, s = l ++ r /\ length l = n /\ Forall s_hex l.
Proof.
  induction n as [|n IH]; intros s r H; cbn [hex_loop] in H.
  - injection H as ->. exists []. repeat split. constructor.
  - destruct s as [|c t]; [discriminate|].
    destruct (is_hex c) eqn:E; [|discriminate].
    destruct (IH t r H) as (l & -> & Hl & Hf). exists (c :: l). repeat split; [cbn; lia|].
    constructor; [apply is_hex_iff, E|exact Hf].
Qed.

Lemma wchar_step c : wchar c -> forall n r e,
  exists k, string_loop (S n) (c ++ r) e = string_loop n (k ++ r) e /\ k = [].
Proof.
  intros Hc n r e. exists []. split; [|reflexivity]. cbn [app].
  destruct Hc as [c Hc H1 H2|c Hc|a b c d Ha Hb Hc Hd|c m l Hl Hn Hf].
  - cbn [app string_loop]. destruct (c =? QT) eqn:E1; [lia|]. destruct (c =? BSL) eqn:E2; [lia|].
    unfold parse_utf8. rewrite utf8_conts_class by lia. unfold lead_class.
    destruct (Z.ltb_spec c 128); [|lia]. reflexivity.
  - cbn [app string_loop]. change (BSL =? QT) with false. change (BSL =? BSL) with true. cbv iota.
    assert (esc_ok c = true /\ (c =? 117) = false) as [-> ->].
    { unfold s_esc in Hc. unfold esc_ok. lia. }
    reflexivity.
  - cbn [app string_loop]. change (BSL =? QT) with false. change (BSL =? BSL) with true. cbv iota.
    change (esc_ok 117) with true. cbn [negb]. change (117 =? 117) with true. cbv iota.
    apply is_hex_iff in Ha, Hb, Hc, Hd. unfold parse_hex, hex_loop. rewrite Ha, Hb, Hc, Hd. reflexivity.
  - cbn [app string_loop]. destruct (wlead_range _ _ Hl) as [Hr Hu].
    assert (192 <= c) by (destruct Hl; lia).
    destruct (c =? QT) eqn:E1; [lia|]. destruct (c =? BSL) eqn:E2; [lia|].
    unfold parse_utf8. rewrite Hu, utf8_part_app by assumption. reflexivity.
Qed.

Lemma wchar_len c : wchar c -> (1 <= length c)%nat.
Proof. destruct 1; cbn; lia. Qed.

Lemma string_loop_app l : wchars l -> forall n r e, (length l < n)%nat ->
  string_loop n (l ++ QT :: r) e = Ok (inl (QT :: r, e)).
Proof.
  induction 1 as [|c l Hc Hl IH]; intros n r e Hn.
  - destruct n; [cbn in Hn; lia|]. reflexivity.
  - rewrite app_length in Hn. pose proof (wchar_len _ Hc). destruct n as [|n]; [lia|].
    rewrite <- app_assoc. destruct (wchar_step c Hc n (l ++ QT :: r) e) as (k & E & ->).
    rewrite E. cbn [app]. apply IH. lia.
Qed.

Lemma parse_string_app s r e : wstring s -> parse_string (s ++ r) e = Ok (r, e).
Proof.
  intros [l Hl]. cbn [app]. unfold parse_string. change (QT =? QT) with true. cbn [negb].
  rewrite <- app_assoc. cbn [app]. rewrite string_loop_app; [|exact Hl|rewrite app_length; cbn; lia].
  cbn [bind]. reflexivity.
Qed.

(** once an error is present it stays *)
Definition bad (e : eptr) : Prop := exists j, e = Some j /\ is_err j = true.
Lemma bad_not_ok e : bad e -> e <> Some no_error.
Proof. intros (j & -> & H) E. injection E as ->. discriminate. Qed.
Lemma app_err_cases s o : rep_ok s o -> (o = None /\ app_err (Some no_error) o = Some no_error) \/ bad (app_err (Some no_error) o).
Proof.
  destruct o as [j|]; [right|left; split; reflexivity]. cbn. exists j. cbn in H. tauto.
Qed.
Lemma bad_app e o : bad e -> app_err e o = e.
Proof. intros (j & -> & H). destruct o; cbn; [rewrite H|]; reflexivity. Qed.

Lemma string_loop_inv n : forall s r, bytes s ->
  string_loop n s (Some no_error) = Ok (inl (r, Some no_error)) ->
  exists l, s = l ++ r /\ wchars l.
Proof.
  induction n as [|n IH]; intros s r Hb H; cbn [string_loop] in H; [discriminate|].
  destruct s as [|c t].
  { injection H as <-. exists []. split; [reflexivity|constructor]. }
  destruct (c =? QT) eqn:Eq.
  { injection H as <-. exists []. split; [reflexivity|constructor]. }
  inversion Hb; subst.
  destruct (c =? BSL) eqn:Eb.
  - destruct t as [|d t']; [discriminate|]. destruct (esc_ok d) eqn:Ee; cbn [negb] in H; [|discriminate].
    inversion H3; subst.
    bool2prop. subst c. destruct (d =? 117) eqn:Eu.
    + bool2prop. subst d. destruct (hex_good t') as (r1 & o1 & A1 & B1). rewrite A1 in H.
      pose proof (A1 (Some no_error)) as A1'.
      destruct (app_err_cases _ _ (proj1 (proj2 B1))) as [[-> Ho]|Hbad].
      * rewrite Ho in *. destruct (IH r1 r) as (l & -> & Hl); [|exact H|].
        { eapply suffix_bytes; [apply B1|assumption]. }
        assert (K : exists h, t' = h ++ (l ++ r) /\ length h = 4%nat /\ Forall s_hex h).
        { unfold parse_hex in A1'. destruct t'; [discriminate|]. apply hex_loop_inv. exact A1'. }
        destruct K as (h & -> & Hh & Hf).
        destruct h as [|a [|b [|c [|d [|]]]]]; cbn in Hh; try lia.
        repeat match goal with X : Forall _ (_ :: _) |- _ => inversion X; subst; clear X end.
        exists ([BSL; 117; a; b; c; d] ++ l). split; [reflexivity|]. constructor; [|exact Hl].
        constructor; assumption.
      * exfalso. destruct B1 as (_ & _ & B1).
        assert (r1 = []) as ->.
        { apply B1. intros ->. apply bad_not_ok in Hbad. apply Hbad. reflexivity. }
        destruct n; [discriminate|]. cbn in H. injection H as _ H. now apply bad_not_ok in Hbad.
    + destruct (IH t' r) as (l & -> & Hl); [assumption|exact H|].
      exists ([BSL; d] ++ l). split; [reflexivity|]. constructor; [|exact Hl]. constructor.
      bool2prop. unfold esc_ok in Ee. unfold s_esc. lia.
  - destruct (utf8_good c t) as (r1 & o1 & A1 & B1 & L1). rewrite A1 in H.
    pose proof (A1 (Some no_error)) as A1'.
    destruct (app_err_cases _ _ (proj1 (proj2 B1))) as [[-> Ho]|Hbad].
    + rewrite Ho in *. destruct (IH r1 r) as (l & -> & Hl); [|exact H|].
      { eapply suffix_bytes; [apply B1|assumption]. }
      unfold parse_utf8 in A1'. rewrite utf8_conts_class in A1' by assumption.
      destruct (lead_class c) as [m|] eqn:Em; [|discriminate].
      apply utf8_part_inv in A1'; [|assumption]. destruct A1' as (k & -> & Hk & Hf).
      exists ((c :: k) ++ l). split; [cbn; rewrite app_assoc; reflexivity|]. constructor; [|exact Hl].
      unfold lead_class in Em. bool2prop.
      destruct (Z.ltb_spec c 128).
      { injection Em as <-. destruct k; [|discriminate]. constructor; lia. }
      apply wc_multi with m; [|exact Hk|exact Hf].
      repeat match type of Em with context [?a <? ?b] => destruct (Z.ltb_spec a b) end;
        try discriminate; injection Em as <-; constructor; lia.
    + exfalso. destruct B1 as (_ & _ & B1).
      assert (r1 = []) as ->.
      { apply B1. intros ->. apply bad_not_ok in Hbad. apply Hbad. reflexivity. }
      destruct n; [discriminate|]. cbn in H. injection H as _ H. now apply bad_not_ok in Hbad.
Qed.

Lemma parse_string_inv s r : bytes s -> parse_string s (Some no_error) = Ok (r, Some no_error) ->
  exists k, s = k ++ r /\ wstring k.
Proof.
  intros Hb. unfold parse_string. destruct s as [|c t]; [discriminate|].
  destruct (c =? QT) eqn:Eq; cbn [negb]; [|discriminate]. bool2prop. subst c. inversion Hb; subst.
  destruct (string_loop_good (S (length t)) t ltac:(lia)) as (side & r' & o' & A & B & C & D).
  pose proof (A (Some no_error)) as A'. rewrite A'. cbn [bind].
  destruct (app_err_cases _ _ (proj1 (proj2 B))) as [[-> Ho]|Hbad].
  - rewrite Ho in A'. rewrite Ho. destruct side; [|exfalso; apply D; reflexivity].
    destruct r' as [|d t1]; [discriminate|].
    destruct (d =? QT) eqn:Ed; cbn [negb]; [|discriminate]. bool2prop. subst d.
    intros H. injection H as ->. destruct (string_loop_inv _ _ _ H2 A') as (l & -> & Hl).
    exists (QT :: l ++ [QT]). split; [cbn; rewrite <- app_assoc; reflexivity|]. now constructor.
  - intros H. exfalso. destruct side; [destruct r' as [|d t1]; [|destruct (negb (d =? QT))]|].
    + injection H as _ H. rewrite cerr_app, bad_app in H by exact Hbad. now apply bad_not_ok in Hbad.
    + injection H as _ H. rewrite cerr_app, bad_app in H by exact Hbad. now apply bad_not_ok in Hbad.
    + injection H as _ H. now apply bad_not_ok in Hbad.
    + injection H as _ H. now apply bad_not_ok in Hbad.
Qed.

(** C13 *)
Theorem parse_string_exact s r : bytes s ->
  (parse_string s (Some no_error) = Ok (r, Some no_error) <-> exists k, s = k ++ r /\ wstring k).
Proof.
  intros Hb. split; [now apply parse_string_inv|]. intros (k & -> & Hk). now apply parse_string_app.
Qed.
