(** Proofs about the reports of the parser. *)
From Verif Require Import Base Parser SpecJson ParserFacts Grammar1 Grammar2 ParserProps SpecReport SpecExact ExactProofs SpecRefuse.
From Verif Require ErrPos.

(** ---- gaps ---- *)
Lemma open_sound s : (forall r, space_loop false s = (true, r) -> r = [] /\ open_comment s) /\
  (forall r, space_loop true s = (true, r) -> r = [] /\ (no_close s \/ exists u t, s = u ++ STAR :: SLASH :: t /\ no_close (u ++ [STAR]) /\ open_comment (SLASH :: t))).
Proof.
  induction s as [|c t [IHf IHt]].
  - split; intros r H; cbn in H; [discriminate|]. injection H as <-. split; [reflexivity|]. left. constructor.
  - split; intros r H; cbn [space_loop] in H.
    + destruct (is_ws c) eqn:Ew; cbn [negb] in H.
      * destruct (IHf r H) as (-> & g & u & -> & Hg & Hu). split; [reflexivity|]. exists (c :: g), u. split; [reflexivity|]. split; [|exact Hu].
        cbn [app]. constructor; [now apply is_ws_iff|exact Hg].
      * destruct (c =? SLASH) eqn:Es; [|discriminate]. assert (c = SLASH) as -> by lia. destruct t as [|d t]; [discriminate|]. destruct (d =? STAR) eqn:Ed.
        -- assert (d = STAR) as -> by lia. destruct (IHt r H) as (-> & [Hn|(u & z & E & Hn & g & w & Eg & Hg & Hw)]); (split; [reflexivity|]).
           ++ exists [], (STAR :: t). split; [reflexivity|]. split; [apply g_slash; [intros [? ?]; discriminate|constructor]|]. split; [now exists t|exact Hn].
           ++ exists (SLASH :: u ++ STAR :: g), w. split; [rewrite E; cbn [app]; rewrite <- app_assoc; cbn [app]; now rewrite <- Eg|].
              split; [|exact Hw]. cbn [app]. rewrite <- app_assoc. cbn [app].
              assert (exists g', g ++ [SLASH] = SLASH :: g') as (g' & Eg').
              { destruct g as [|x g]; [now exists []|]. cbn in Eg. injection Eg as <- _. now exists (g ++ [SLASH]). }
              rewrite Eg' in Hg |- *. apply g_comment; [|exact Hn|exact Hg].
              destruct u as [|x u]; cbn in E; injection E; intros; subst; eexists; reflexivity.
        -- destruct (IHf r H) as (-> & g & u & E & Hg & Hu). split; [reflexivity|]. exists (SLASH :: g), u. split; [now rewrite E|]. split; [|exact Hu].
           cbn [app]. apply g_slash; [|exact Hg]. intros [z Hz]. destruct g as [|x g]; cbn in Hz, E; [discriminate|]. injection Hz as -> _. injection E as -> _. lia.
    + destruct (c =? STAR) eqn:Ec.
      * assert (c = STAR) as -> by lia. destruct t as [|d t]; [injection H as <-; split; [reflexivity|left; constructor]|].
        destruct (d =? SLASH) eqn:Ed.
        -- assert (d = SLASH) as -> by lia. destruct (IHf r H) as (-> & Ho). split; [reflexivity|]. right. exists [], t. split; [reflexivity|]. split; [constructor|exact Ho].
        -- destruct (IHt r H) as (-> & [Hn|(u & z & E & Hn & Ho)]); (split; [reflexivity|]).
           ++ left. constructor; [lia|exact Hn].
           ++ right. exists (STAR :: u), z. split; [now rewrite E|]. split; [|exact Ho].
              destruct u as [|x u]; cbn in E |- *; injection E as E1 E2; subst; (constructor; [lia|]); [constructor|exact Hn].
      * destruct (IHt r H) as (-> & [Hn|(u & z & E & Hn & Ho)]); (split; [reflexivity|]).
        -- left. destruct t; [constructor|constructor; [lia|exact Hn]].
        -- right. exists (c :: u), z. split; [now rewrite E|]. split; [|exact Ho]. cbn. destruct (u ++ [STAR]) as [|x y] eqn:E2; [destruct u; discriminate|].
           constructor; [lia|exact Hn].
Qed.
Lemma snoc_cons (c : Z) g x y : c :: g = x ++ [y] -> (g = [] /\ x = [] /\ c = y) \/ (exists x', x = c :: x' /\ g = x' ++ [y]).
Proof. destruct x as [|a x]; cbn; intros H; injection H as -> H; [now left|]. right. subst. eauto. Qed.
Lemma open_complete u : heads STAR u -> no_close u -> forall g', gap g' -> forall g, g' = g ++ [SLASH] -> space_loop false (g' ++ u) = (true, []).
Proof.
  intros (u' & Eu) Hn. induction 1 as [|c g' Hc Hg IH|g' Hh Hg IH|u1 g' Hh Hn1 Hg IH]; intros g E.
  - destruct g; discriminate.
  - destruct (snoc_cons _ _ _ _ E) as [(-> & -> & ->)|(x & -> & ->)]; [unfold s_ws in Hc; lia|]. cbn [app space_loop]. apply is_ws_iff in Hc. rewrite Hc. cbn [negb].
    now apply (IH x).
  - cbn [app space_loop]. change (is_ws SLASH) with false. cbn [negb]. change (SLASH =? SLASH) with true. cbv iota.
    destruct (snoc_cons _ _ _ _ E) as [(-> & -> & _)|(x & -> & ->)].
    + cbn [app]. rewrite Eu. change (STAR =? STAR) with true. cbv iota. rewrite <- Eu. now apply comment_open.
    + specialize (IH x eq_refl). destruct ((x ++ [SLASH]) ++ u) as [|d t] eqn:E2; [destruct x; discriminate|].
      destruct (d =? STAR) eqn:Ed; [|exact IH]. exfalso. apply Hh. destruct x as [|d' x]; cbn in E2; injection E2 as E2 _; [exfalso; lia|]. exists (x ++ [SLASH]). cbn. f_equal. lia.
  - assert (K : exists x, SLASH :: g' = x ++ [SLASH]).
    { clear -E. assert (E' : (SLASH :: u1 ++ [STAR]) ++ SLASH :: g' = g ++ [SLASH]) by (cbn [app]; rewrite <- app_assoc; exact E). clear E. revert g E'.
      induction (SLASH :: u1 ++ [STAR]) as [|a l IH]; intros g E; [cbn in E; eauto|]. cbn [app] in E. destruct (snoc_cons _ _ _ _ E) as [(E2 & _ & _)|(x & -> & E2)]; [destruct l; discriminate|]. exact (IH x E2). }
    destruct K as (x & K). specialize (IH x K). rewrite <- IH. cbn [app]. rewrite <- app_assoc. cbn [app]. rewrite <- (comment_skip u1 (g' ++ u) Hn1).
    destruct Hh as [t Ht]. cbn [space_loop]. change (is_ws SLASH) with false. cbn [negb]. change (SLASH =? SLASH) with true. cbv iota.
    destruct (u1 ++ STAR :: SLASH :: g' ++ u) as [|d z] eqn:E2; [destruct u1; discriminate|].
    assert (d = STAR) as -> by (destruct u1; cbn in *; congruence). reflexivity.
Qed.
Lemma open_exact s : open_comment s <-> parse_space s C0 = ([], Some comment_error).
Proof.
  unfold parse_space. split.
  - intros (g & u & -> & Hg & Hh & Hn). replace (g ++ SLASH :: u) with ((g ++ [SLASH]) ++ u) by (now rewrite <- app_assoc).
    rewrite (open_complete u Hh Hn _ Hg g eq_refl). reflexivity.
  - destruct (space_loop false s) as [[|] r] eqn:E; [|discriminate]. intros _. apply (proj1 (open_sound s) _ E).
Qed.
Lemma space_cases s : (exists r, parse_space s C0 = (r, C0) /\ after_gap s r) \/ (parse_space s C0 = ([], Some comment_error) /\ open_comment s).
Proof.
  unfold parse_space. destruct (space_loop false s) as [[|] r] eqn:E.
  - right. split; [reflexivity|]. apply (proj1 (open_sound s) _ E).
  - left. exists r. split; [reflexivity|]. apply space_exact. unfold parse_space. now rewrite E.
Qed.

(** ---- literals ---- *)
Lemma pends_not_clean j r : ~ pends j (r, C0).
Proof. intros [H E]. injection E as _ <-. discriminate. Qed.
Lemma pends_cerr c m t j : c <> ValidJSON -> (pends j ([], cerr c m t C0) <-> j = mkerr c m t).
Proof. intros H. cbn. split; [intros [_ E]; now injection E|]. intros ->. split; [destruct c; try reflexivity; congruence|reflexivity]. Qed.
Lemma chain_end a q p : q <> [] -> lit_chain (a ++ q) p a = LEnd.
Proof. revert p. induction a as [|x a IH]; intros p H; cbn. { now destruct q. } rewrite Z.eqb_refl. now apply IH. Qed.
Lemma chain_mis a q p c r : q <> [] -> ~ heads c q -> lit_chain (a ++ q) p (a ++ c :: r) = LMis (p + 1 + Z.of_nat (length a)).
Proof.
  revert p. induction a as [|x a IH]; intros p H Hc.
  - cbn [app lit_chain length]. destruct q as [|y q]; [congruence|]. cbn [lit_chain]. destruct (c =? y) eqn:E; [exfalso; apply Hc; exists q; f_equal; lia|]. replace (p + 1 + Z.of_nat 0) with (p + 1) by lia. reflexivity.
  - cbn [app lit_chain]. rewrite Z.eqb_refl, IH by assumption. f_equal. cbn [length]. lia.
Qed.
Lemma chain_cases lit : forall p t, (exists r, lit_chain lit p t = LMatch r /\ t = lit ++ r) \/ exists a q, lit = a ++ q /\ q <> [] /\ (t = a \/ exists c r, t = a ++ c :: r /\ ~ heads c q).
Proof.
  induction lit as [|x lit IH]; intros p t; [left; now exists t|]. cbn [lit_chain]. destruct t as [|c t].
  - right. exists [], (x :: lit). split; [reflexivity|]. split; [discriminate|]. now left.
  - destruct (c =? x) eqn:E.
    + assert (c = x) as -> by lia. destruct (IH (p + 1) t) as [(r & E1 & ->)|(a & q & -> & Hq & [-> |(c & r & -> & Hc)])]; [left; now exists r| |]; right; exists (x :: a), q;
        (split; [reflexivity|]); (split; [exact Hq|]); [now left|]. right. exists c, r. now split.
    + right. exists [], (x :: lit). split; [reflexivity|]. split; [discriminate|]. right. exists c, t. split; [reflexivity|]. intros [z Hz]. injection Hz as -> _. lia.
Qed.
Lemma lit_exact c lit t j : pends j (finish_lit (lit_chain lit 0 t) (c :: lit) C0) <-> lit_refuses (c :: lit) (c :: t) j.
Proof.
  split.
  - intros H. destruct (chain_cases lit 0 t) as [(r & E & _)|(a & q & -> & Hq & Ht)]; [rewrite E in H; now apply pends_not_clean in H|].
    exists (c :: a), q. split; [reflexivity|]. split; [discriminate|]. split; [exact Hq|]. destruct Ht as [-> |(d & r & -> & Hd)].
    + left. split; [reflexivity|]. rewrite chain_end in H by exact Hq. cbn [finish_lit] in H. apply pends_cerr in H; [exact H|discriminate].
    + right. exists d, r. split; [reflexivity|]. split; [exact Hd|]. rewrite chain_mis in H by assumption. cbn [finish_lit] in H. apply pends_cerr in H; [|discriminate].
      rewrite H. f_equal. cbn [length]. lia.
  - intros (p & q & E & Hp & Hq & H). destruct p as [|c' a]; [congruence|]. cbn [app] in E. injection E as <- ->. destruct H as [(E & ->)|(d & r & E & Hd & ->)]; cbn [app] in E; injection E as ->.
    + rewrite chain_end by exact Hq. now apply pends_cerr.
    + rewrite chain_mis by assumption. cbn [finish_lit]. apply pends_cerr; [discriminate|]. f_equal. cbn [length]. lia.
Qed.
Lemma null_refuses s j : pends j (parse_null s C0) <->
  s = [] /\ j = unexpected_end \/ (exists c t, s = c :: t /\ c <> 110 /\ j = mkerr InvalidNull None 0) \/ lit_refuses (text "null") s j.
Proof.
  unfold parse_null. destruct s as [|c t].
  - rewrite pends_cerr by discriminate. split; [now left|]. intros [[_ H]|[(c & t & E & _)|(p & q & _ & Hp & _ & [[E _]|(c & r & E & _)])]]; [exact H|discriminate|congruence|destruct p; discriminate].
  - destruct (c =? 110) eqn:Ec.
    + assert (c = 110) as -> by lia. rewrite (lit_exact 110 (text "ull") t j). split; [now right; right|]. intros [[H _]|[(c & x & E & Hc & _)|H]]; [discriminate|congruence|exact H].
    + rewrite pends_cerr by discriminate. split; [intros ->; right; left; exists c, t; repeat split; lia|].
      intros [[H _]|[(c' & x & E & _ & H)|(p & q & E & Hp & _ & H)]]; [discriminate|exact H|]. destruct p as [|x p]; [congruence|]. cbn in E. injection E as <- _.
      destruct H as [[H _]|(d & r & H & _)]; cbn in H; injection H as -> _; discriminate.
Qed.
Lemma lit_head nm s j : lit_refuses nm s j -> exists c t t', nm = c :: t /\ s = c :: t'.
Proof. intros (p & q & -> & Hp & _ & [[-> _]|(c & r & -> & _)]); (destruct p as [|x p]; [congruence|]); cbn; eauto. Qed.
Lemma bool_refuses s j : pends j (parse_bool s C0) <->
  s = [] /\ j = unexpected_end \/ (exists c t, s = c :: t /\ c <> 116 /\ c <> 102 /\ j = mkerr InvalidBool None 0) \/ lit_refuses (text "true") s j \/ lit_refuses (text "false") s j.
Proof.
  unfold parse_bool. destruct s as [|c t].
  - rewrite pends_cerr by discriminate. split; [now left|].
    intros [[_ H]|[(c & t & E & _)|[H|H]]]; [exact H|discriminate|apply lit_head in H as (?&?&?&?&?); discriminate|apply lit_head in H as (?&?&?&?&?); discriminate].
  - destruct (c =? 116) eqn:Ec; [|destruct (c =? 102) eqn:Ef].
    + assert (c = 116) as -> by lia. rewrite (lit_exact 116 (text "rue") t j). split; [now right; right; left|]. intros [[H _]|[(c & x & E & Hc & _)|[H|H]]]; [discriminate|congruence|exact H|].
      apply lit_head in H as (?&?&?&E1&E2). injection E1 as <- _. injection E2 as ? _. discriminate.
    + assert (c = 102) as -> by lia. rewrite (lit_exact 102 (text "alse") t j). split; [now right; right; right|]. intros [[H _]|[(c & x & E & _ & Hc & _)|[H|H]]]; [discriminate|congruence| |exact H].
      apply lit_head in H as (?&?&?&E1&E2). injection E1 as <- _. injection E2 as ? _. discriminate.
    + rewrite pends_cerr by discriminate. split; [intros ->; right; left; exists c, t; repeat split; lia|].
      intros [[H _]|[(c' & x & E & _ & _ & H)|[H|H]]]; [discriminate|exact H| |]; apply lit_head in H as (?&?&?&E1&E2); injection E1 as <- _; injection E2 as ? _; lia.
Qed.

(** ---- numbers ---- *)
Lemma no_digit_run s k j : pends j (match s with [] => ([], cerr UnexpectedEndFragment None 0 C0) | d :: _ => if is_digit d then k else ([], cerr InvalidNumber None 0 C0) end) <->
  no_digit s j \/ (exists d t, s = d :: t /\ s_digit d) /\ pends j k.
Proof.
  unfold no_digit. destruct s as [|d t].
  - rewrite pends_cerr by discriminate. split; [now left; left|]. intros [[[_ H]|(c & r & E & _)]|[(d & t & E & _) _]]; [exact H|discriminate|discriminate].
  - destruct (is_digit d) eqn:Ed.
    + apply is_digit_iff in Ed. split; [intros H; right; split; [now exists d, t|exact H]|]. intros [[[E _]|(c & r & E & Hc & _)]|[_ H]]; [discriminate| |exact H].
      injection E as <- _. tauto.
    + assert (~ s_digit d) by (intros K; apply is_digit_iff in K; congruence). rewrite pends_cerr by discriminate. split.
      * intros ->. left. right. now exists d, t.
      * intros [[[E _]|(c & r & E & _ & H')]|[(d' & t' & E & H') _]]; [discriminate|exact H'|]. injection E as <- _. tauto.
Qed.
Lemma integer_refuses s j : pends j (parse_integer s C0) <-> exists m s', s = m ++ s' /\ ropt_minus m /\ (m = [] -> ~ heads MINUS s') /\ no_digit s' j.
Proof.
  assert (K : forall s1, pends j (match s1 with [] => ([], cerr UnexpectedEndFragment None 0 C0) | c1 :: t1 =>
      if c1 =? 48 then (t1, C0) else if (49 <=? c1) && (c1 <=? 57) then (parse_digit s1, C0) else ([], cerr InvalidNumber None 0 C0) end) <-> no_digit s1 j).
  { intros s1. unfold no_digit. destruct s1 as [|d t].
    - rewrite pends_cerr by discriminate. split; [now left|]. intros [[_ H]|(c & r & E & _)]; [exact H|discriminate].
    - destruct (d =? 48) eqn:E1; [|destruct ((49 <=? d) && (d <=? 57)) eqn:E2].
      + split; [intros H; now apply pends_not_clean in H|]. intros [[E _]|(c & r & E & Hc & _)]; [discriminate|]. injection E as <- _. unfold s_digit in Hc. lia.
      + split; [intros H; now apply pends_not_clean in H|]. intros [[E _]|(c & r & E & Hc & _)]; [discriminate|]. injection E as <- _. unfold s_digit in Hc. lia.
      + rewrite pends_cerr by discriminate. split; [intros ->; right; exists d, t; unfold s_digit; repeat split; lia|]. intros [[E _]|(c & r & E & _ & H)]; [discriminate|exact H]. }
  unfold parse_integer. destruct s as [|c t].
  - rewrite pends_cerr by discriminate. split.
    + intros ->. exists [], []. split; [reflexivity|]. split; [constructor|]. split; [intros _ [? ?]; discriminate|]. now left.
    + intros (m & s' & E & _ & _ & H). symmetry in E. apply app_eq_nil in E. destruct E as [_ ->]. destruct H as [[_ H]|(c & r & E & _)]; [exact H|discriminate].
  - cbv zeta. destruct (c =? MINUS) eqn:Em.
    + assert (c = MINUS) as -> by lia. rewrite (K t). split.
      * intros H. exists [MINUS], t. split; [reflexivity|]. split; [constructor|]. split; [discriminate|exact H].
      * intros (m & s' & E & Hm0 & Hm & H); destruct Hm0; cbn [app] in E; [|injection E as ->; exact H]. exfalso. apply Hm; [reflexivity|]. exists t. now symmetry.
    + rewrite (K (c :: t)). split.
      * intros H. exists [], (c :: t). split; [reflexivity|]. split; [constructor|]. split; [|exact H]. intros _ [z E]. injection E as -> _. lia.
      * intros (m & s' & E & Hm0 & Hm & H); destruct Hm0; cbn [app] in E; [rewrite E; exact H|]. injection E as -> _. lia.
Qed.
Lemma exp_refuses s j : pends j (parse_exp s C0) <-> exists x sg s', s = x :: sg ++ s' /\ (x = 101 \/ x = 69) /\ (sg = [] \/ sg = [MINUS] \/ sg = [PLUS]) /\
  (sg = [] -> ~ heads MINUS s' /\ ~ heads PLUS s') /\ no_digit s' j.
Proof.
  unfold parse_exp. destruct s as [|c t].
  { split; [intros H; now apply pends_not_clean in H|]. intros (x & sg & s' & E & _). discriminate. }
  destruct ((c =? 101) || (c =? 69)) eqn:E.
  2:{ split; [intros H; now apply pends_not_clean in H|]. intros (x & sg & s' & E' & Hx & _). injection E' as -> _. lia. }
  cbv zeta. rewrite no_digit_run. split.
  - intros [H|[_ H]]; [|now apply pends_not_clean in H]. destruct t as [|d t'].
    + exists c, [], []. split; [reflexivity|]. split; [lia|]. split; [now left|]. split; [|exact H]. intros _. split; intros [? ?]; discriminate.
    + destruct ((d =? MINUS) || (d =? PLUS)) eqn:Ed.
      * exists c, [d], t'. split; [reflexivity|]. split; [lia|]. split; [assert (d = MINUS \/ d = PLUS) as [-> | -> ] by lia; auto|]. split; [discriminate|exact H].
      * exists c, [], (d :: t'). split; [reflexivity|]. split; [lia|]. split; [now left|]. split; [|exact H]. intros _. split; intros [? Z]; injection Z as -> _; lia.
  - intros (x & sg & s' & E' & Hx & Hsg & Hs & H). left. injection E' as -> ->. destruct Hsg as [-> |[-> | -> ]]; cbn [app]; [|exact H|exact H].
    destruct s' as [|d t']; [exact H|]. destruct ((d =? MINUS) || (d =? PLUS)) eqn:Ed; [|exact H]. exfalso. destruct (Hs eq_refl) as [H1 H2].
    assert (d = MINUS \/ d = PLUS) as [-> | -> ] by lia; [apply H1|apply H2]; now eexists.
Qed.
Lemma digit_cons d t : s_digit d -> exists ds r, d :: t = ds ++ r /\ digits1 ds /\ nodigit r /\ parse_digit (d :: t) = r.
Proof.
  intros Hd. destruct (parse_digit_inv (d :: t)) as (ds & E & H1 & H2). exists ds, (parse_digit (d :: t)). split; [exact E|]. split; [|now split].
  split; [|exact H1]. intros ->. cbn [app] in E. rewrite <- E in H2. now apply H2.
Qed.
Lemma number_refuses s j : pends j (parse_number s C0) <-> num_refuses s j.
Proof.
  unfold parse_number. split.
  - destruct (parse_integer s C0) as [r1 e1] eqn:E1. destruct (integer_good s) as (r1' & o1 & A1 & B1). specialize (A1 C0). rewrite E1 in A1. injection A1 as <- ->.
    destruct (app_err_cases _ _ (proj1 (proj2 B1))) as [[-> Ho]|Hbad].
    2:{ intros H. assert (r1 = []) as ->. { apply B1. intros ->. now apply bad_not_ok in Hbad. } assert (H' : pends j (parse_integer s C0)) by (rewrite E1; exact H). clear H. rename H' into H. apply integer_refuses in H. destruct H as (m & s' & -> & Hm & H1 & H2). now constructor. }
    cbn [app_err] in *. destruct (parse_integer_inv _ _ E1) as (m & i & -> & Hm & Hi & Hnd). destruct r1 as [|c t]; [intros H; now apply pends_not_clean in H|].
    destruct (c =? DOT) eqn:Ec.
    + assert (c = DOT) as -> by lia. rewrite no_digit_run. intros [H|[(d & t' & -> & Hd) H]]; [now constructor|]. apply exp_refuses in H.
      destruct (digit_cons d t' Hd) as (ds & r & Er & Hds & _ & Ep). rewrite Ep in H. destruct H as (x & sg & s' & -> & Hx & Hsg & Hs & H). rewrite Er.
      apply (nr_exp m i (DOT :: ds) x sg s' j); try assumption. now constructor.
    + intros H. apply exp_refuses in H. destruct H as (x & sg & s' & -> & Hx & Hsg & Hs & H). apply (nr_exp m i [] x sg s' j); try assumption. constructor.
  - intros [m s' j' Hm H1 H|m i s' j' Hm Hi H|m i f x sg s' j' Hm Hi Hf Hx Hsg Hs H].
    + assert (P : pends j' (parse_integer (m ++ s') C0)) by (apply integer_refuses; exists m, s'; auto). destruct P as [P1 P2]. rewrite P2. now split.
    + rewrite parse_integer_app; [|assumption|assumption|right; cbn; unfold s_digit; lia]. change (DOT =? DOT) with true. cbv iota. apply no_digit_run. now left.
    + assert (P : pends j' (parse_exp (x :: sg ++ s') C0)) by (apply exp_refuses; exists x, sg, s'; auto).
      rewrite parse_integer_app; [|assumption|assumption|].
      2:{ right. destruct Hf; cbn; unfold s_digit; lia. }
      destruct Hf as [|ds [Hne Hds]].
      * cbn [app]. destruct (x =? DOT) eqn:E; [lia|exact P].
      * cbn [app]. change (DOT =? DOT) with true. cbv iota. apply no_digit_run. right. destruct ds as [|d ds]; [congruence|]. inversion Hds as [|? ? Hd Hds']; subst. split; [cbn [app]; eauto|].
        rewrite parse_digit_app; [exact P|exact Hds|]. cbn. unfold s_digit. lia.
Qed.

(** ---- strings ---- *)
Lemma misses_nil P n : (0 < n)%nat -> misses P n [] unexpected_end.
Proof. intros H. exists []. cbn. split; [lia|]. split; [constructor|]. now left. Qed.
Lemma misses_bad (P : Z -> Prop) n c t : (0 < n)%nat -> ~ P c -> misses P n (c :: t) (bad_string (c :: t)).
Proof. intros H Hc. exists []. cbn. split; [lia|]. split; [constructor|]. right. now exists c, t. Qed.
Lemma misses_cons (P : Z -> Prop) n c t j : P c -> (misses P (S n) (c :: t) j <-> misses P n t j).
Proof.
  intros Hc. split.
  - intros (h & Hl & Hh & H). destruct h as [|x h].
    + destruct H as [[H _]|(d & r & H & Hd & _)]; [discriminate|]. cbn in H. injection H as <- _. tauto.
    + inversion Hh; subst. exists h. cbn in Hl. split; [lia|]. split; [assumption|]. destruct H as [[H ->]|(d & r & H & Hd & ->)]; cbn in H.
      * left. injection H as _ ->. now split.
      * right. injection H as _ ->. now exists d, r.
  - intros (h & Hl & Hh & H). exists (c :: h). cbn [length]. split; [lia|]. split; [now constructor|]. destruct H as [[-> ->]|(d & r & -> & Hd & ->)]; [now left|]. right. now exists d, r.
Qed.
Lemma misses_zero P s j : ~ misses P 0 s j. Proof. intros (h & H & _). lia. Qed.
Lemma misses_at_nil P n j : misses P n [] j -> j = unexpected_end.
Proof. intros (h & _ & _ & [[_ H]|(c & r & E & _)]); [exact H|]. destruct h; discriminate. Qed.
Lemma misses_at_bad (P : Z -> Prop) n c t j : ~ P c -> misses P n (c :: t) j -> j = bad_string (c :: t).
Proof.
  intros Hc (h & _ & Hh & H). destruct h as [|x h].
  - destruct H as [[H _]|(d & r & E & _ & H)]; [discriminate|]. cbn in E. now rewrite E.
  - inversion Hh; subst. destruct H as [[H _]|(d & r & E & _)]; [|cbn in E]; exfalso; congruence.
Qed.
Lemma hex_misses n : forall s j, pends j (hex_loop n s C0) <-> misses s_hex n s j.
Proof.
  induction n as [|n IH]; intros s j; cbn [hex_loop].
  - split; [intros H; now apply pends_not_clean in H|]. intros H. now apply misses_zero in H.
  - destruct s as [|c t].
    + rewrite pends_cerr by discriminate. split; [intros ->; apply misses_nil; lia|apply misses_at_nil].
    + destruct (is_hex c) eqn:E.
      * rewrite IH. symmetry. apply misses_cons. now apply is_hex_iff.
      * assert (~ s_hex c) by (intros K; apply is_hex_iff in K; congruence). rewrite pends_cerr by discriminate. split; [intros ->; apply misses_bad; [lia|assumption]|now apply misses_at_bad].
Qed.
Lemma cont_iff c : 0 <= c <= 255 -> ((Z.land c 192 =? 128) = true <-> s_cont c).
Proof. intros H. rewrite cont_class by exact H. unfold s_cont. lia. Qed.
Lemma part_misses n : forall s j, bytes s -> (pends j (utf8_part n s C0) <-> misses s_cont n s j).
Proof.
  induction n as [|n IH]; intros s j Hb; cbn [utf8_part].
  - split; [intros H; now apply pends_not_clean in H|]. intros H. now apply misses_zero in H.
  - destruct s as [|c t].
    + rewrite pends_cerr by discriminate. split; [intros ->; apply misses_nil; lia|apply misses_at_nil].
    + inversion Hb; subst. destruct (Z.land c 192 =? 128) eqn:E.
      * rewrite IH by assumption. symmetry. apply misses_cons. now apply cont_iff.
      * assert (~ s_cont c) by (intros K; apply cont_iff in K; [congruence|assumption]). rewrite pends_cerr by discriminate. split; [intros ->; apply misses_bad; [lia|assumption]|now apply misses_at_bad].
Qed.
Lemma hex4_misses s j : pends j (parse_hex s C0) <-> misses s_hex 4 s j.
Proof. rewrite <- hex_misses. unfold parse_hex. destruct s; reflexivity. Qed.
Lemma no_lead c : 0 <= c <= 255 -> utf8_conts c = None -> 128 <= c /\ forall n, ~ wlead c n.
Proof.
  intros Hc H. split.
  - rewrite utf8_conts_class in H by exact Hc. unfold lead_class in H. destruct (Z.ltb_spec c 128); [discriminate|lia].
  - intros n Hw. apply wlead_range in Hw. destruct Hw as [_ Hw]. congruence.
Qed.
Lemma lead_some c n : 0 <= c <= 255 -> utf8_conts c = Some n -> (c < 128 /\ n = 0%nat) \/ (128 <= c /\ wlead c n).
Proof.
  intros Hc H. rewrite utf8_conts_class in H by exact Hc. unfold lead_class in H. destruct (Z.ltb_spec c 128); [left; split; [lia|congruence]|]. right. split; [lia|].
  repeat match type of H with context [?a <? ?b] => destruct (Z.ltb_spec a b) end; try discriminate; injection H as <-; constructor; lia.
Qed.
Lemma utf8_misses c t j : bytes (c :: t) -> (pends j (parse_utf8 c t C0) <->
  (128 <= c /\ (forall n, ~ wlead c n) /\ j = bad_string (c :: t)) \/ exists n, wlead c n /\ misses s_cont n t j).
Proof.
  intros Hb. inversion Hb as [|? ? Hc Ht]; subst. unfold parse_utf8. destruct (utf8_conts c) as [n|] eqn:E.
  - rewrite part_misses by assumption. destruct (lead_some c n Hc E) as [[H ->]|[H Hw]].
    + split; [intros K; now apply misses_zero in K|]. intros [(K & _)|(n & K & _)]; [lia|]. destruct K; lia.
    + split; [intros K; right; now exists n|]. intros [(_ & K & _)|(n' & K & K')]; [exfalso; now apply (K n)|]. apply wlead_range in K. destruct K as [_ K]. congruence.
  - destruct (no_lead c Hc E) as [H1 H2]. rewrite pends_cerr by discriminate. split; [intros ->; left; now repeat split|].
    intros [(_ & _ & H)|(n & H & _)]; [exact H|]. exfalso. now apply (H2 n).
Qed.
(** the loop comes to the end of the text without or with a report *)
Definition sfail (j : json_error) (x : res ((buf * eptr) + (buf * eptr))) : Prop :=
  (j = unexpected_end /\ x = Ok (inl ([], C0))) \/ (is_err j = true /\ (x = Ok (inl ([], Some j)) \/ x = Ok (inr ([], Some j)))).
Lemma loop_at_end n j : (0 < n)%nat -> string_loop n [] (Some j) = Ok (inl ([], Some j)). Proof. destruct n; [lia|reflexivity]. Qed.
Lemma no_char_run s j : bytes s -> no_char s j -> forall n, (length s < n)%nat -> sfail j (string_loop n s C0).
Proof.
  intros Hb H n Hn. destruct n as [|n]; [lia|]. destruct H as [| |c r H1 H2|s j H|c r H1 H2|c k s j Hw H].
  - left. now split.
  - right. split; [reflexivity|]. now right.
  - right. split; [reflexivity|]. right. cbn [string_loop]. change (BSL =? QT) with false. change (BSL =? BSL) with true. cbv iota.
    assert (esc_ok c = false) as -> by (unfold esc_ok; unfold s_esc in H1; lia). reflexivity.
  - cbn [length] in Hn. cbn [string_loop]. change (BSL =? QT) with false. change (BSL =? BSL) with true. cbv iota. change (esc_ok 117) with true. cbn [negb]. change (117 =? 117) with true. cbv iota.
    apply hex4_misses in H. destruct H as [H1 H2]. rewrite H2. rewrite loop_at_end by lia. right. split; [exact H1|now left].
  - assert (P : pends (bad_string (c :: r)) (parse_utf8 c r C0)) by (apply utf8_misses; [exact Hb|left; now repeat split]). destruct P as [P1 P2].
    cbn [string_loop]. cbn [length] in Hn. replace (c =? QT) with false by lia. replace (c =? BSL) with false by lia. rewrite P2, loop_at_end by lia. right. split; [exact P1|now left].
  - assert (P : pends j (parse_utf8 c s C0)) by (apply utf8_misses; [exact Hb|right; now exists k]). destruct P as [P1 P2].
    cbn [string_loop]. cbn [length] in Hn. assert (128 <= c) by (destruct Hw; lia). replace (c =? QT) with false by lia. replace (c =? BSL) with false by lia. rewrite P2, loop_at_end by lia. right. split; [exact P1|now left].
Qed.
Lemma wchars_cons c l r : wchar c -> (exists l0 r0, l ++ r = l0 ++ r0 /\ wchars l0) -> exists l0 r0, c ++ l ++ r = l0 ++ r0 /\ wchars l0.
Proof. intros Hc (l0 & r0 & -> & Hl). exists (c ++ l0), r0. split; [now rewrite <- app_assoc|]. now constructor. Qed.
Lemma misses_dec P n s : (forall c, {P c} + {~ P c}) -> (exists h r, s = h ++ r /\ length h = n /\ Forall P h) \/ exists j, misses P n s j.
Proof.
  intros D. revert s. induction n as [|n IH]; intros s; [left; now exists [], s|]. destruct s as [|c t].
  - right. exists unexpected_end. apply misses_nil. lia.
  - destruct (D c) as [Hc|Hc].
    + destruct (IH t) as [(h & r & -> & Hl & Hh)|(j & Hj)]; [left; exists (c :: h), r; cbn; repeat split; [lia|now constructor]|]. right. exists j. now apply misses_cons.
    + right. exists (bad_string (c :: t)). apply misses_bad; [lia|exact Hc].
Qed.
Lemma string_split s : bytes s -> exists l r, s = l ++ r /\ wchars l /\ (heads QT r \/ exists j, no_char r j).
Proof.
  remember (length s) as k eqn:Ek. revert s Ek. induction k as [k IH] using lt_wf_ind. intros s -> Hb.
  assert (Step : forall c t, s = c ++ t -> wchar c -> exists l r, s = l ++ r /\ wchars l /\ (heads QT r \/ exists j, no_char r j)).
  { intros c t -> Hc. pose proof (wchar_len _ Hc). unfold bytes in Hb. rewrite Forall_app in Hb. destruct (IH (length t)) with (s := t) as (l & r & -> & Hl & H'); [rewrite app_length; lia|reflexivity|apply Hb|].
    exists (c ++ l), r. split; [now rewrite <- app_assoc|]. split; [now constructor|exact H']. }
  assert (Stop : (heads QT s \/ exists j, no_char s j) -> exists l r, s = l ++ r /\ wchars l /\ (heads QT r \/ exists j, no_char r j)).
  { intros H. exists [], s. split; [reflexivity|]. split; [constructor|exact H]. }
  destruct s as [|c t]; [apply Stop; right; eexists; constructor|]. inversion Hb as [|? ? Hc Ht]; subst.
  destruct (Z.eq_dec c QT) as [-> |Hq]; [apply Stop; left; now exists t|]. destruct (Z.eq_dec c BSL) as [-> |Hbs].
  - destruct t as [|d t]; [apply Stop; right; eexists; constructor|]. destruct (Z.eq_dec d 117) as [-> |Hu].
    + assert (Dh : forall c, {s_hex c} + {~ s_hex c}). { intros x. destruct (is_hex x) eqn:E; [left; now apply is_hex_iff|right; intros K; apply is_hex_iff in K; congruence]. }
      destruct (misses_dec s_hex 4 t Dh) as [(h & r & -> & Hl & Hh)|(j & Hj)]; [|apply Stop; right; exists j; now constructor].
      destruct h as [|a [|b [|c [|d [|]]]]]; cbn in Hl; try lia. repeat match goal with X : Forall _ (_ :: _) |- _ => inversion X; subst; clear X end.
      apply (Step [BSL; 117; a; b; c; d] r eq_refl). now constructor.
    + destruct (esc_ok d) eqn:E.
      * apply (Step [BSL; d] t eq_refl). constructor. unfold esc_ok in E. unfold s_esc. lia.
      * apply Stop. right. eexists. constructor; [|exact Hu]. unfold esc_ok in E. unfold s_esc. lia.
  - destruct (utf8_conts c) as [n|] eqn:E.
    + destruct (lead_some c n Hc E) as [[H ->]|[H Hw]]; [apply (Step [c] t eq_refl); constructor; lia|].
      assert (Dc : forall c, {s_cont c} + {~ s_cont c}). { intros x. unfold s_cont. destruct (Z_lt_le_dec x 128), (Z_lt_le_dec 191 x); (left; lia) || (right; lia). }
      destruct (misses_dec s_cont n t Dc) as [(h & r & -> & Hl & Hh)|(j & Hj)]; [|apply Stop; right; exists j; now apply nc_cont with n].
      apply (Step (c :: h) r eq_refl). now apply wc_multi with n.
    + destruct (no_lead c Hc E) as [H1 H2]. apply Stop. right. eexists. now apply nc_lead.
Qed.
Lemma loop_skip l : wchars l -> forall n r e, (length (l ++ r) < n)%nat -> exists m, (length r < m)%nat /\ string_loop n (l ++ r) e = string_loop m r e.
Proof.
  induction 1 as [|c l Hc Hl IH]; intros n r e Hn; [now exists n|]. pose proof (wchar_len _ Hc). destruct n as [|n]; [lia|]. rewrite <- app_assoc in Hn |- *.
  destruct (wchar_step c Hc n (l ++ r) e) as (k & -> & ->). cbn [app]. apply IH. rewrite app_length in Hn. lia.
Qed.
Lemma str_run l s j : bytes s -> wchars l -> no_char s j -> ends (Some j) (parse_string (QT :: l ++ s) C0).
Proof.
  intros Hb Hl Hs. unfold parse_string. change (QT =? QT) with true. cbn [negb]. destruct (loop_skip l Hl (S (length (l ++ s))) s C0) as (m & Hm & ->); [lia|].
  destruct (no_char_run s j Hb Hs m Hm) as [[-> ->]|[H [-> | -> ]]]; cbn [bind]; [split; reflexivity| |].
  - split; [exact H|]. cbn [cerr]. now rewrite H.
  - now split.
Qed.
Lemma string_refuses s j : bytes s -> (ends (Some j) (parse_string s C0) <-> str_refuses s j).
Proof.
  intros Hb. split.
  - intros [H1 H2]. destruct s as [|c t]; [cbn in H2; injection H2 as <-; constructor|]. destruct (Z.eq_dec c QT) as [-> |Hc].
    + inversion Hb as [|? ? _ Ht]; subst. destruct (string_split t Ht) as (l & r & -> & Hl & [(r' & ->)|(j' & Hj)]).
      * exfalso. assert (W : wstring (QT :: l ++ [QT])) by now constructor. pose proof (parse_string_app _ r' C0 W) as P. cbn [app] in P. rewrite <- app_assoc in P. cbn [app] in P.
        rewrite P in H2. injection H2 as _ <-. discriminate.
      * assert (Br : bytes r) by (unfold bytes in *; rewrite Forall_app in Ht; apply Ht). destruct (str_run l r j' Br Hl Hj) as [_ E]. rewrite E in H2. injection H2 as <-. now constructor.
    + unfold parse_string in H2. destruct (c =? QT) eqn:E; [lia|]. cbn [negb] in H2. injection H2 as <-. now constructor.
  - intros H. destruct H as [|c s Hc|l s j Hl Hs].
    + now split.
    + unfold parse_string. destruct (c =? QT) eqn:E; [lia|]. now split.
    + apply str_run; try assumption. inversion Hb as [|? ? _ Ht]; subst. unfold bytes in *. rewrite Forall_app in Ht. apply Ht.
Qed.

(** ---- arrays and objects ---- *)
Lemma ends_det o o' x : ends o x -> ends o' x -> o = o'.
Proof. destruct o, o'; cbn; intros H H'; [destruct H, H'; congruence|destruct H; congruence|destruct H'; congruence|reflexivity]. Qed.
Lemma ends_not_clean o r : ~ ends o (Ok (r, C0)).
Proof. destruct o as [j|]; cbn; [|discriminate]. intros [H E]. injection E as _ <-. discriminate. Qed.
Lemma ends_cerr c m t o : c <> ValidJSON -> (ends o (Ok ([], cerr c m t C0)) <-> o = Some (mkerr c m t)).
Proof.
  intros H. destruct o as [j|]; cbn; [|split; discriminate]. split; [intros [_ E]; injection E as <-; reflexivity|]. intros E. injection E as ->. split; [|reflexivity].
  destruct c; try reflexivity; congruence.
Qed.
Lemma ends_sticky c m t j o : is_err j = true -> (ends o (Ok ([], cerr c m t (Some j))) <-> o = Some j).
Proof. intros H. cbn [cerr]. rewrite H. destruct o as [k|]; cbn; [|split; discriminate]. split; [intros [_ E]; injection E as <-; reflexivity|]. intros E. injection E as ->. now split. Qed.
Lemma after_gap_bytes s r : after_gap s r -> bytes s -> bytes r. Proof. intros H. eapply suffix_bytes, after_gap_suffix, H. Qed.
Lemma gap_nil e : parse_space [] e = ([], e). Proof. reflexivity. Qed.
Lemma not_open_gap s r : after_gap s r -> ~ open_comment s.
Proof. intros H K. apply space_exact in H. apply open_exact in K. rewrite H in K. injection K as _ E. discriminate. Qed.
Section Items.
  Context (sn : option Z) (close : Z) (it : pfun) (item : buf -> buf -> Prop) (ifails : buf -> fail -> Prop) (none : ecode) (n : nat).
  Hypothesis Hclose : close = RBR \/ close = RCB.
  Hypothesis Hnone : none <> ValidJSON.
  Hypothesis H1 : forall s r, bytes s -> (length s < n)%nat -> (it s C0 = Ok (r, C0) <-> item s r).
  Hypothesis H2 : forall s o, bytes s -> (length s < n)%nat -> s <> [] -> (ends o (it s C0) <-> ifails s o).
  Hypothesis H3 : forall e, it [] e = Ok ([], cerr none None 0 e).
  Hypothesis H4 : forall s, bytes s -> (length s < n)%nat -> (exists r, it s C0 = Ok (r, C0) /\ suffix r s /\ (length r < length s)%nat) \/ (exists o, ends o (it s C0)).
  Hypothesis H5 : forall s r, item s r -> exists c t, s = c :: t /\ c <> close.
  (* what an item failing in the way o makes of the loop *)
  Lemma bind_fail o x (k : buf * eptr -> res (buf * eptr)) : ends o x -> (forall j, is_err j = true -> k ([], Some j) = Ok ([], Some j)) -> ends o (bind x k).
  Proof. destruct o as [j|]; cbn; [|now intros ->]. intros [H ->] K. cbn. split; [exact H|now apply K]. Qed.
  Lemma items_open m s : s <> [] -> open_comment s -> ends (match sn with None => None | Some _ => Some comment_error end) (items_loop sn close it (S m) s C0).
  Proof.
    intros Hs Ho. cbn [items_loop]. destruct s as [|c t]; [congruence|]. assert (c <> close).
    { destruct Ho as (g & u & E & Hg & _). destruct g as [|x g]; cbn in E; injection E as -> _; [lia|]. cbn [app] in Hg. inversion Hg; subst; unfold s_ws in *; lia. }
    destruct (c =? close) eqn:E; [lia|]. apply open_exact in Ho. fold C0. rewrite Ho. cbn [deref]. destruct sn as [z|]; cbn [bind]; [|reflexivity].
    destruct (z =? close); [now split|]. rewrite H3. cbn [bind]. rewrite gap_nil. now split.
  Qed.
  Lemma items_gap m s : s <> [] -> after_gap s [] ->
    ends (match sn with None => None | Some z => Some (if z =? close then expected [close] [] else mkerr none None 0) end) (items_loop sn close it (S m) s C0).
  Proof.
    intros Hs Ho. cbn [items_loop]. destruct s as [|c t]; [congruence|]. assert (c <> close).
    { destruct Ho as (g & E & Hg & _). rewrite app_nil_r in E. subst g. inversion Hg; subst; unfold s_ws in *; lia. }
    destruct (c =? close) eqn:E; [lia|]. apply space_exact in Ho. rewrite Ho. cbn [deref]. destruct sn as [z|]; cbn [bind]; [|reflexivity].
    destruct (z =? close); [now split|]. rewrite H3. cbn [bind]. rewrite gap_nil. change (cerr none None 0 C0) with (Some (mkerr none None 0)).
    assert (K : is_err (mkerr none None 0) = true) by (destruct none; try reflexivity; congruence). now apply ends_sticky.
  Qed.
  (* the loop up to the item *)
  Lemma items_enter m s s1 : after_gap s s1 -> s1 <> [] -> ~ heads close s1 -> items_loop sn close it (S m) s C0 =
    let* (s2, e2) := it s1 C0 in let '(s3, e3) := parse_space s2 e2 in
    match s3 with [] => Ok ([], cerr ExpectedOf (Some [close]) (dist s3) e3) | c3 :: t3 =>
      if negb (c3 =? COMMA) && negb (c3 =? close) then Ok ([], cerr ExpectedOf (Some [close]) (dist s3) e3)
      else if c3 =? COMMA then items_loop sn close it m t3 e3 else items_loop sn close it m s3 e3 end.
  Proof.
    intros Hg Hs Hc. cbn [items_loop]. destruct s as [|c t]; [apply after_gap_nil in Hg; congruence|]. assert (c <> close).
    { intros ->. destruct Hg as (g & E & Hg & _). destruct g as [|x g]; cbn in E; [apply Hc; now exists t|]. injection E as <- _. inversion Hg; subst; unfold s_ws in *; lia. }
    destruct (c =? close) eqn:E; [lia|]. apply space_exact in Hg. rewrite Hg. destruct s1 as [|c1 t1]; [congruence|]. cbn [deref bind].
    destruct (c1 =? close) eqn:E1; [exfalso; apply Hc; exists t1; f_equal; lia|]. reflexivity.
  Qed.
  Lemma item_head s r : item s r -> s <> [] /\ ~ heads close s.
  Proof. intros H. destruct (H5 s r H) as (c & t & -> & Hc). split; [discriminate|]. intros [z E]. injection E as E _. congruence. Qed.
  Lemma items_backward s s1 o : bytes s -> (length s < n)%nat -> skipped item s s1 ->
    (broken sn close item none s1 o \/ exists s2, after_gap s1 s2 /\ s2 <> [] /\ ~ heads close s2 /\ ifails s2 o) ->
    forall m, (length s < m)%nat -> ends o (items_loop sn close it m s C0).
  Proof.
    intros Hb Hn Hk Hf. revert Hb Hn. induction Hk as [s|s s1 s2 s3 r G1 I1 G2 Hk IH]; intros Hb Hn m Hm; (destruct m as [|m]; [lia|]).
    - destruct Hf as [Hf|(s2 & G & N1 & N2 & F)]; [destruct Hf as [|s' Hs G|s' G|s' s1 s2 s3 G1 I1 G2 N1 N2|s' s1 s2 G1 I1 G2]|].
      + cbn [items_loop]. now apply ends_cerr.
      + now apply items_gap.
      + apply items_open; [|exact G]. destruct G as (g & u & -> & _). now destruct g.
      + destruct (item_head _ _ I1) as [K1 K2]. rewrite (items_enter m s' s1 G1 K1 K2). pose proof (after_gap_bytes _ _ G1 Hb). pose proof (after_gap_len _ _ G1). apply H1 in I1; [|assumption|lia]. rewrite I1. cbn [bind].
        apply space_exact in G2. rewrite G2. destruct s3 as [|c t]; [now apply ends_cerr|].
        replace (negb (c =? COMMA) && negb (c =? close)) with true; [now apply ends_cerr|].
        destruct (c =? COMMA) eqn:E1; [exfalso; apply N1; exists t; f_equal; lia|]. destruct (c =? close) eqn:E2; [exfalso; apply N2; exists t; f_equal; lia|]. reflexivity.
      + destruct (item_head _ _ I1) as [K1 K2]. rewrite (items_enter m s' s1 G1 K1 K2). pose proof (after_gap_bytes _ _ G1 Hb). pose proof (after_gap_len _ _ G1). apply H1 in I1; [|assumption|lia]. rewrite I1. cbn [bind].
        apply open_exact in G2. rewrite G2. now split.
      + rewrite (items_enter m s s2 G N1 N2). pose proof (after_gap_bytes _ _ G Hb). pose proof (after_gap_len _ _ G). apply H2 in F; [|assumption|lia|exact N1]. apply bind_fail; [exact F|].
        intros j Hj. rewrite gap_nil. cbn [cerr]. now rewrite Hj.
    - destruct (item_head _ _ I1) as [K1 K2]. rewrite (items_enter m s s1 G1 K1 K2). pose proof (after_gap_bytes _ _ G1 Hb) as B1. pose proof (after_gap_len _ _ G1). pose proof I1 as I2. apply H1 in I1; [|assumption|lia]. rewrite I1. cbn [bind].
      pose proof G2 as G2'. apply space_exact in G2. rewrite G2. change (negb (COMMA =? COMMA) && negb (COMMA =? close)) with false. cbv iota. change (COMMA =? COMMA) with true. cbv iota.
      destruct (H4 s1 B1 ltac:(lia)) as [(r' & E & S1 & L1)|(o' & Ho)]; [|exfalso; rewrite I1 in Ho; now apply ends_not_clean in Ho].
      rewrite I1 in E. injection E as <-. pose proof (after_gap_len _ _ G2') as L2. cbn [length] in L2. apply IH; [assumption| |lia|lia].
      pose proof (after_gap_bytes _ _ G2' (suffix_bytes _ _ S1 B1)) as B2. now inversion B2.
  Qed.
  Lemma items_forward m : forall s o, bytes s -> (length s < n)%nat -> (length s < m)%nat -> ends o (items_loop sn close it m s C0) ->
    exists s1, skipped item s s1 /\ (broken sn close item none s1 o \/ exists s2, after_gap s1 s2 /\ s2 <> [] /\ ~ heads close s2 /\ ifails s2 o).
  Proof.
    induction m as [|m IH]; intros s o Hb Hn Hm E; [lia|]. destruct s as [|c0 t0].
    { cbn [items_loop close_with] in E. apply ends_cerr in E; [|discriminate]. subst o. exists []. split; [constructor|]. left. constructor. }
    remember (c0 :: t0) as s eqn:Es. assert (Hne : s <> []) by (subst; discriminate).
    destruct (space_cases s) as [(s1 & Gs & G1)|[_ G1]].
    2:{ exists s. split; [constructor|]. left. rewrite (ends_det _ _ _ E (items_open m s Hne G1)). now constructor. }
    pose proof (after_gap_bytes _ _ G1 Hb) as B1. pose proof (after_gap_len _ _ G1) as L1.
    destruct s1 as [|c1 t1].
    { exists s. split; [constructor|]. left. rewrite (ends_det _ _ _ E (items_gap m s Hne G1)). now constructor. }
    destruct (Z.eq_dec c1 close) as [-> |Hc1].
    { exfalso. cbn [items_loop] in E. rewrite Es in E. destruct (c0 =? close) eqn:Ec; [assert (c0 = close) as -> by lia; cbn [close_with] in E; rewrite Z.eqb_refl in E; now apply ends_not_clean in E|].
      rewrite <- Es, Gs in E. cbn [deref bind] in E. rewrite Z.eqb_refl in E. cbn [close_with] in E. rewrite Z.eqb_refl in E. now apply ends_not_clean in E. }
    assert (N1 : ~ heads close (c1 :: t1)) by (intros [z Z]; injection Z as Z _; congruence).
    rewrite (items_enter m s (c1 :: t1) G1 ltac:(discriminate) N1) in E.
    destruct (H4 (c1 :: t1) B1 ltac:(lia)) as [(s2 & E2 & S2 & L2)|(o' & Ho)].
    2:{ exists s. split; [constructor|]. right. exists (c1 :: t1). split; [exact G1|]. split; [discriminate|]. split; [exact N1|]. apply H2; [assumption|lia|discriminate|].
        assert (o = o') as -> ; [|exact Ho]. eapply ends_det; [exact E|]. apply bind_fail; [exact Ho|]. intros j Hj. rewrite gap_nil. cbn [cerr]. now rewrite Hj. }
    rewrite E2 in E. cbn [bind] in E. assert (I1 : item (c1 :: t1) s2) by (apply H1; [assumption|lia|exact E2]).
    destruct (space_cases s2) as [(s3 & Gs3 & G3)|[Gs3 G3]]; rewrite Gs3 in E.
    2:{ exists s. split; [constructor|]. left. assert (o = Some comment_error) as -> ; [|now apply br_sep_comment with (c1 :: t1) s2]. eapply ends_det; [exact E|]. now split. }
    destruct s3 as [|c3 t3].
    { apply ends_cerr in E; [|discriminate]. subst o. exists s. split; [constructor|]. left. apply (br_sep sn close item none s (c1 :: t1) s2 []); try assumption; intros [? ?]; discriminate. }
    destruct (negb (c3 =? COMMA) && negb (c3 =? close)) eqn:Ec.
    { apply ends_cerr in E; [|discriminate]. subst o. exists s. split; [constructor|]. left. apply (br_sep sn close item none s (c1 :: t1) s2 (c3 :: t3)); try assumption; intros [? Z]; injection Z as Z _; lia. }
    destruct (c3 =? COMMA) eqn:Ecm.
    - assert (c3 = COMMA) as -> by lia. pose proof (after_gap_len _ _ G3) as L3. cbn [length] in L3. pose proof (after_gap_bytes _ _ G3 (suffix_bytes _ _ S2 B1)) as B3. inversion B3; subst.
      destruct (IH t3 o) as (s1 & K1 & K2); [assumption|lia|lia|exact E|]. exists s1. split; [|exact K2]. now apply sk_more with (c1 :: t1) s2 t3.
    - exfalso. assert (c3 = close) as -> by lia. destruct m as [|m]; [cbn [items_loop] in E; destruct o as [j|]; cbn in E; [destruct E|]; discriminate|].
      cbn [items_loop] in E. rewrite Z.eqb_refl in E. cbn [close_with] in E. rewrite Z.eqb_refl in E. now apply ends_not_clean in E.
  Qed.
End Items.
Lemma law_dec sn f s : rlawS sn f s -> (exists r, f s C0 = Ok (r, C0) /\ suffix r s /\ (length r < length s)%nat) \/ (exists o, ends o (f s C0)).
Proof.
  intros [(r & o & A & B & S)|(_ & U)].
  - specialize (A C0). destruct o as [j|].
    + right. exists (Some j). destruct B as (_ & Hj & Hr). cbn. split; [apply Hj|]. rewrite A. rewrite Hr by discriminate. reflexivity.
    + left. exists r. split; [exact A|]. split; [apply B|]. destruct (S eq_refl) as (c & t & -> & St). apply suffix_len in St. cbn [length]. lia.
  - right. exists None. cbn. apply U.
Qed.
Lemma items_closed sn close it m s r : close = RBR \/ close = RCB -> after_gap s (close :: r) -> items_loop sn close it (S m) s C0 = Ok (r, C0).
Proof.
  intros Hc Hg. cbn [items_loop]. destruct s as [|c0 t0]; [apply after_gap_nil in Hg; discriminate|].
  destruct (c0 =? close) eqn:Ec.
  - assert (c0 = close) as -> by lia. cbn [close_with]. rewrite Z.eqb_refl. cbn [negb]. destruct Hg as (g & E & Hg & _). destruct g as [|x g]; cbn [app] in E; [injection E as ->; reflexivity|].
    injection E as <- _. exfalso. inversion Hg; subst; unfold s_ws in *; destruct Hc; subst; lia.
  - apply space_exact in Hg. rewrite Hg. cbn [deref bind]. rewrite Z.eqb_refl. cbn [close_with]. now rewrite Z.eqb_refl.
Qed.
Lemma takes_string_run s r e : takes_string s r -> parse_string s e = Ok (r, e) /\ is_string s = true /\ suffix r s /\ (length r < length s)%nat.
Proof.
  intros (k & -> & Hk). split; [now apply parse_string_app|]. split; [now destruct Hk|]. split; [now exists k|]. rewrite app_length. destruct Hk. cbn. lia.
Qed.
Lemma is_string_heads s : is_string s = true <-> heads QT s.
Proof. destruct s as [|c t]; cbn; [split; [discriminate|intros [? ?]; discriminate]|]. split; [intros H; exists t; f_equal; lia|]. intros [z E]. injection E as -> _. reflexivity. Qed.
Section Member.
  Context (sn : option Z) (pv : pfun) (n : nat).
  Hypothesis V1 : forall s r, bytes s -> (length s < n)%nat -> (pv s C0 = Ok (r, C0) <-> takes_value s r).
  Hypothesis V2 : forall s o, bytes s -> (length s < n)%nat -> (ends o (pv s C0) <-> fails sn s o).
  Lemma string_cases s : bytes s -> heads QT s -> (exists r, takes_string s r) \/ exists j, str_refuses s j.
  Proof.
    intros Hb Hh. destruct (string_decides s Hb) as [(k & r & -> & Hk & _)|(_ & j & Hj & E)]; [left; exists r; now exists k|].
    right. exists j. apply string_refuses; [exact Hb|]. now split.
  Qed.
  Definition mfails (s : buf) (o : fail) : Prop := (exists j, o = Some j /\ member_refuses s j) \/
    (exists s3 s4 s5, takes_string s s3 /\ after_gap s3 (COLON :: s4) /\ after_gap s4 s5 /\ s5 <> [] /\ fails sn s5 o).
  (* every way through parse_member *)
  Lemma member_none s : ~ heads QT s -> parse_member pv s C0 = Ok ([], cerr InvalidMember None (dist s) C0).
  Proof. intros H. unfold parse_member. destruct (is_string s) eqn:E; [apply is_string_heads in E; tauto|reflexivity]. Qed.
  Lemma member_name s j : bytes s -> heads QT s -> str_refuses s j -> ends (Some j) (parse_member pv s C0).
  Proof.
    intros Hb Hh H. unfold parse_member. apply is_string_heads in Hh. rewrite Hh. cbn [negb]. apply string_refuses in H; [|exact Hb]. destruct H as [H1 H2]. rewrite H2. cbn [bind]. now apply ends_sticky.
  Qed.
  Lemma member_open s s1 : takes_string s s1 -> open_comment s1 -> ends (Some comment_error) (parse_member pv s C0).
  Proof.
    intros H Ho. unfold parse_member. destruct (takes_string_run _ _ C0 H) as (E & -> & _ & _). cbn [negb]. rewrite E. cbn [bind].
    destruct s1 as [|c t]; [destruct Ho as (g & u & Eo & _); destruct g; discriminate|]. apply open_exact in Ho. rewrite Ho. now split.
  Qed.
  Lemma member_gap s s1 r : takes_string s s1 -> after_gap s1 r -> parse_member pv s C0 =
    match r with [] => Ok ([], cerr UnexpectedEndFragment None 0 C0) | c :: s3 => if negb (c =? COLON) then Ok ([], cerr ExpectedOf (Some [COLON]) (dist s3) C0) else
      match s3 with [] => Ok ([], cerr UnexpectedEndFragment None 0 C0) | _ => let '(s4, e4) := parse_space s3 C0 in match s4 with [] => Ok ([], cerr UnexpectedEndFragment None 0 e4) | _ => pv s4 e4 end end end.
  Proof.
    intros H Hg. unfold parse_member. destruct (takes_string_run _ _ C0 H) as (E & -> & _ & _). cbn [negb]. rewrite E. cbn [bind].
    destruct s1 as [|c t]; [apply after_gap_nil in Hg; now subst r|]. apply space_exact in Hg. rewrite Hg. reflexivity.
  Qed.
  Lemma member_colon s s1 t : takes_string s s1 -> after_gap s1 (COLON :: t) -> parse_member pv s C0 =
      match t with [] => Ok ([], cerr UnexpectedEndFragment None 0 C0) | _ => let '(s4, e4) := parse_space t C0 in match s4 with [] => Ok ([], cerr UnexpectedEndFragment None 0 e4) | _ => pv s4 e4 end end.
  Proof. intros H Hg. rewrite (member_gap _ _ _ H Hg). reflexivity. Qed.
  Lemma member_value_at s s1 t s5 : takes_string s s1 -> after_gap s1 (COLON :: t) -> after_gap t s5 -> s5 <> [] -> parse_member pv s C0 = pv s5 C0.
  Proof.
    intros H Hg Hg2 H5. rewrite (member_colon _ _ _ H Hg). destruct t as [|c t]; [apply after_gap_nil in Hg2; congruence|]. apply space_exact in Hg2. rewrite Hg2. destruct s5; [congruence|reflexivity].
  Qed.
  Lemma value_bounds s s1 t s5 : bytes s -> (length s < S n)%nat -> takes_string s s1 -> after_gap s1 (COLON :: t) -> after_gap t s5 -> bytes s5 /\ (length s5 < n)%nat.
  Proof.
    intros Hb Hn H Hg Hg2. destruct (takes_string_run _ _ C0 H) as (_ & _ & S1 & L1). pose proof (after_gap_len _ _ Hg) as L2. pose proof (after_gap_len _ _ Hg2) as L3. cbn [length] in L2. split; [|lia].
    pose proof (after_gap_bytes _ _ Hg (suffix_bytes _ _ S1 Hb)) as B. inversion B; subst. now apply (after_gap_bytes _ _ Hg2).
  Qed.
  Lemma member_takes s r : bytes s -> (length s < S n)%nat -> (parse_member pv s C0 = Ok (r, C0) <-> takes_member s r).
  Proof.
    intros Hb Hn. split.
    - intros E. destruct (is_string s) eqn:Es; [|unfold parse_member in E; rewrite Es in E; discriminate]. apply is_string_heads in Es.
      destruct (string_cases s Hb Es) as [(s1 & H)|(j & H)].
      2:{ exfalso. pose proof (member_name s j Hb Es H) as K. rewrite E in K. now apply ends_not_clean in K. }
      destruct (space_cases s1) as [(r1 & _ & G)|[_ G]].
      2:{ exfalso. pose proof (member_open _ _ H G) as K. rewrite E in K. now apply ends_not_clean in K. }
      rewrite (member_gap _ _ _ H G) in E. destruct r1 as [|c t]; [discriminate|]. destruct (c =? COLON) eqn:Ec; [|discriminate]. cbn [negb] in E. assert (c = COLON) as -> by lia.
      destruct t as [|c' t']; [discriminate|]. destruct (space_cases (c' :: t')) as [(s5 & Ge & G5)|[Ge G5]]; rewrite Ge in E; [|discriminate].
      destruct s5 as [|c5 t5]; [discriminate|]. destruct (value_bounds _ _ _ _ Hb Hn H G G5) as [B5 L5]. apply V1 in E; [|assumption|assumption].
      exists s1, (c' :: t'), (c5 :: t5). auto.
    - intros (s1 & s2 & s3 & A & B & C & D). destruct (value_bounds _ _ _ _ Hb Hn A B C) as [B5 L5]. assert (s3 <> []).
      { destruct D as (v & -> & Hv & _). apply wvalue_head in Hv. destruct Hv as (c & t & -> & _). discriminate. }
      rewrite (member_value_at _ _ _ _ A B C H). now apply V1.
  Qed.
  Lemma member_fails s o : bytes s -> (length s < S n)%nat -> (ends o (parse_member pv s C0) <-> mfails s o).
  Proof.
    intros Hb Hn. split.
    - intros E. destruct (is_string s) eqn:Es.
      2:{ assert (~ heads QT s) as N by (intros K; apply is_string_heads in K; congruence). rewrite member_none in E by exact N. apply ends_cerr in E; [|discriminate]. subst o. left. eexists. split; [reflexivity|]. now constructor. }
      apply is_string_heads in Es. destruct (string_cases s Hb Es) as [(s1 & H)|(j & H)].
      2:{ left. exists j. split; [exact (ends_det _ _ _ E (member_name s j Hb Es H))|]. now constructor. }
      destruct (space_cases s1) as [(r1 & _ & G)|[_ G]].
      2:{ left. exists comment_error. split; [exact (ends_det _ _ _ E (member_open _ _ H G))|]. now apply mr_comment with s1. }
      destruct r1 as [|c t].
      { rewrite (member_gap _ _ _ H G) in E. apply ends_cerr in E; [|discriminate]. subst o. left. eexists. split; [reflexivity|]. now apply mr_end with s1. }
      destruct (Z.eq_dec c COLON) as [-> |Hc].
      2:{ rewrite (member_gap _ _ _ H G) in E. destruct (c =? COLON) eqn:Ec; [lia|]. cbn [negb] in E. apply ends_cerr in E; [|discriminate]. subst o. left. eexists. split; [reflexivity|]. now apply mr_colon with s1 c. }
      destruct t as [|c' t'].
      { rewrite (member_colon _ _ _ H G) in E. apply ends_cerr in E; [|discriminate]. subst o. left. eexists. split; [reflexivity|]. apply mr_end2 with s1 []; try assumption. exists []. repeat split. constructor. }
      destruct (space_cases (c' :: t')) as [(s5 & Ge & G5)|[Ge G5]].
      2:{ rewrite (member_colon _ _ _ H G), Ge in E. left. exists comment_error. split; [|now apply mr_comment2 with s1 (c' :: t')]. eapply ends_det; [exact E|]. now split. }
      destruct s5 as [|c5 t5].
      { rewrite (member_colon _ _ _ H G), Ge in E. apply ends_cerr in E; [|discriminate]. subst o. left. eexists. split; [reflexivity|]. now apply mr_end2 with s1 (c' :: t'). }
      right. exists s1, (c' :: t'), (c5 :: t5). repeat (split; [assumption || discriminate|]). destruct (value_bounds _ _ _ _ Hb Hn H G G5) as [B5 L5].
      rewrite (member_value_at _ _ _ _ H G G5 ltac:(discriminate)) in E. now apply V2.
    - intros [(j & -> & H)|(s3 & s4 & s5 & A & B & C & D & F)].
      + destruct H as [s H|s j H1 H2|s s1 A B|s s1 A B|s s1 c t A B C|s s1 t A B C|s s1 t A B C].
        * rewrite member_none by exact H. now apply ends_cerr.
        * now apply member_name.
        * now apply member_open with s1.
        * rewrite (member_gap _ _ _ A B). now apply ends_cerr.
        * rewrite (member_gap _ _ _ A B). destruct (c =? COLON) eqn:Ec; [lia|]. now apply ends_cerr.
        * rewrite (member_colon _ _ _ A B). destruct t as [|c t]; [destruct C as (g & u & Eo & _); destruct g; discriminate|]. apply open_exact in C. rewrite C. now split.
        * rewrite (member_colon _ _ _ A B). destruct t as [|c t]; [now apply ends_cerr|]. apply space_exact in C. rewrite C. now apply ends_cerr.
      + destruct (value_bounds _ _ _ _ Hb Hn A B C) as [B5 L5]. rewrite (member_value_at _ _ _ _ A B C D). now apply V2.
  Qed.
End Member.
Lemma law_at sn n s : bytes s -> (length s < n)%nat -> (exists r, parse_value_f sn n s C0 = Ok (r, C0) /\ suffix r s /\ (length r < length s)%nat) \/ (exists o, ends o (parse_value_f sn n s C0)).
Proof. intros _ H. apply law_dec with (sn := sn). now apply parse_value_law. Qed.
Lemma value_takes sn n s r : bytes s -> (length s < n)%nat -> (parse_value_f sn n s C0 = Ok (r, C0) <-> takes_value s r).
Proof.
  intros Hb Hn. split.
  - intros E. now apply parse_value_sound in E.
  - intros (v & -> & Hv). pose proof (parse_complete sn v r C0 Hv) as E. unfold parse, parse_value in E. etransitivity; [|exact E]. apply parse_value_fuel; lia.
Qed.
Lemma takes_value_head s r : takes_value s r -> exists c t, s = c :: t /\ vstart c.
Proof. intros (v & -> & Hv & _). apply wvalue_head in Hv. destruct Hv as (c & t & -> & Hv). cbn. eauto. Qed.
Lemma is_obj_arr t : is_object (LBR :: t) = true <-> exists r, after_gap t (RBR :: r).
Proof.
  cbn [is_object]. change (LBR =? LCB) with false. change (LBR =? LBR) with true. cbn [negb]. unfold parse_space. destruct (space_cases t) as [(r & E & G)|[E G]]; unfold parse_space in E.
  - destruct (space_loop false t) as [[|] r'] eqn:L; [discriminate|]; injection E as <-. split.
    + intros H. destruct r' as [|c u]; [discriminate|]. cbn in H. assert (c = RBR) as -> by lia. eauto.
    + intros (z & Gz). apply space_exact in Gz. unfold parse_space in Gz. rewrite L in Gz. injection Gz as ->. reflexivity.
  - destruct (space_loop false t) as [[|] r'] eqn:L; [|discriminate]. split; [discriminate|]. intros (z & Gz). exfalso. exact (not_open_gap _ _ Gz G).
Qed.
Section Values.
  Context (sn : option Z) (n : nat).
  Hypothesis IH : forall s o, bytes s -> (length s < n)%nat -> (ends o (parse_value_f sn n s C0) <-> fails sn s o).
  Lemma value_end m e : (0 < m)%nat -> parse_value_f sn m [] e = Ok ([], cerr InvalidJSON None 0 e).
  Proof. destruct m; [lia|reflexivity]. Qed.
  Definition arr_fails (t : buf) (o : fail) : Prop := exists s1, skipped takes_value t s1 /\
    (broken sn RBR takes_value InvalidJSON s1 o \/ exists s2, after_gap s1 s2 /\ s2 <> [] /\ ~ heads RBR s2 /\ fails sn s2 o).
  Lemma arr_exact t o m : bytes t -> (length t < n)%nat -> (length t < m)%nat -> (ends o (items_loop sn RBR (parse_value_f sn n) m t C0) <-> arr_fails t o).
  Proof.
    intros Hb Hn Hm.
    assert (H5 : forall s r, takes_value s r -> exists c t, s = c :: t /\ c <> RBR).
    { intros s r H. apply takes_value_head in H. destruct H as (c & u & -> & Hv). exists c, u. split; [reflexivity|]. intros ->. unfold vstart, s_digit in Hv. lia. }
    split.
    - intros E. eapply (items_forward sn RBR (parse_value_f sn n) takes_value (fails sn) InvalidJSON n); try exact E; try assumption; [now left|now discriminate|apply value_takes|intros; now apply IH|intros; apply value_end; lia|apply law_at].
    - intros (s1 & K & F). eapply (items_backward sn RBR (parse_value_f sn n) takes_value (fails sn) InvalidJSON n); try exact F; try assumption; [now left|discriminate|apply value_takes|intros; now apply IH|intros; apply value_end; lia|apply law_at].
  Qed.
  Definition obj_fails (s0 : buf) (o : fail) : Prop := exists s1, skipped takes_member s0 s1 /\
    (broken sn RCB takes_member InvalidMember s1 o \/ exists s2, after_gap s1 s2 /\ s2 <> [] /\ ~ heads RCB s2 /\ mfails sn s2 o).
  Lemma obj_exact t o m : bytes t -> (length t < S n)%nat -> (length t < m)%nat -> (ends o (items_loop sn RCB (parse_member (parse_value_f sn n)) m t C0) <-> obj_fails t o).
  Proof.
    intros Hb Hn Hm.
    assert (H4 : forall s, bytes s -> (length s < S n)%nat -> (exists r, parse_member (parse_value_f sn n) s C0 = Ok (r, C0) /\ suffix r s /\ (length r < length s)%nat) \/ (exists o, ends o (parse_member (parse_value_f sn n) s C0))).
    { intros s _ Hs. apply law_dec with (sn := sn). apply member_law. intros s' Hs'. apply parse_value_law. lia. }
    assert (H5 : forall s r, takes_member s r -> exists c t, s = c :: t /\ c <> RCB).
    { intros s r (s1 & s2 & s3 & A & _). apply (takes_string_run _ _ C0) in A. destruct A as (_ & A & _). destruct s as [|c u]; [discriminate|]. exists c, u. split; [reflexivity|]. intros ->. discriminate. }
    assert (H1 : forall s r, bytes s -> (length s < S n)%nat -> (parse_member (parse_value_f sn n) s C0 = Ok (r, C0) <-> takes_member s r)).
    { intros s r. apply (member_takes sn). all: intros; (now apply value_takes) || now apply IH. }
    assert (H2 : forall s o, bytes s -> (length s < S n)%nat -> s <> [] -> (ends o (parse_member (parse_value_f sn n) s C0) <-> mfails sn s o)).
    { intros s o' A B _. apply member_fails with n; try assumption; intros; (now apply value_takes) || now apply IH. }
    split.
    - intros E. eapply (items_forward sn RCB (parse_member (parse_value_f sn n)) takes_member (mfails sn) InvalidMember (S n)); try exact E; try assumption; [now right|discriminate|reflexivity].
    - intros (s1 & K & F). eapply (items_backward sn RCB (parse_member (parse_value_f sn n)) takes_member (mfails sn) InvalidMember (S n)); try exact F; try assumption; [now right|discriminate|reflexivity].
  Qed.
  Definition obj_at (t : buf) (o : fail) : Prop := open_comment t /\ o = Some comment_error \/ exists s0, after_gap t s0 /\ ~ heads RBR s0 /\ obj_fails s0 o.
  Lemma obj_at_exact t o : bytes t -> (length t < S n)%nat -> (ends o (parse_object sn (parse_value_f sn n) (LCB :: t) C0) <-> obj_at t o).
  Proof.
    intros Hb Hn. unfold parse_object. cbn [is_object]. change (LCB =? LCB) with true. cbn [negb step bind].
    destruct (space_cases t) as [(s0 & E & G)|[E G]]; rewrite E.
    - destruct (starts RBR s0) eqn:Es.
      + assert (heads RBR s0) as Hh. { destruct s0 as [|c u]; [discriminate|]. cbn in Es. exists u. f_equal. lia. }
        destruct Hh as (u & ->). cbn [step bind]. split; [intros K; now apply ends_not_clean in K|]. intros [[K _]|(s0 & G' & N & _)]; [now apply not_open_gap in G|].
        exfalso. apply space_exact in G'. rewrite E in G'. injection G' as <-. apply N. now exists u.
      + assert (~ heads RBR s0) as Hh. { intros (u & ->). discriminate. }
        pose proof (after_gap_len _ _ G) as L. pose proof (after_gap_bytes _ _ G Hb) as B. rewrite obj_exact by (assumption || lia). split; [intros K; right; eauto|].
        intros [[K _]|(s0' & G' & _ & K)]; [now apply not_open_gap in G|]. apply space_exact in G'. rewrite E in G'. injection G' as <-. exact K.
    - cbn [starts length items_loop close_with]. rewrite ends_sticky by reflexivity. split; [intros ->; now left|]. intros [[_ K]|(s0 & G' & _)]; [exact K|]. now apply not_open_gap in G'.
  Qed.
  Lemma arr_at_exact t o : bytes t -> (length t < n)%nat -> (ends o (if is_object (LBR :: t) then parse_object sn (parse_value_f sn n) (LBR :: t) C0 else parse_array sn (parse_value_f sn n) (LBR :: t) C0) <-> arr_fails t o).
  Proof.
    intros Hb Hn. rewrite <- (arr_exact t o (S (length t))) by (assumption || lia). destruct (is_object (LBR :: t)) eqn:Eo.
    - unfold parse_object. rewrite Eo. cbn [negb step bind]. apply is_obj_arr in Eo. destruct Eo as (r & G). rewrite (items_closed sn RBR _ _ t r) by (assumption || now left).
      apply space_exact in G. rewrite G. cbn [starts]. rewrite Z.eqb_refl. cbn [step bind]. split; intros K; exfalso; now apply ends_not_clean in K.
    - unfold parse_array. cbn [is_array starts]. rewrite Z.eqb_refl. reflexivity.
  Qed.
  Lemma ends_pends o x : ends o (Ok x) <-> exists j, o = Some j /\ pends j x.
  Proof.
    destruct o as [j|]; cbn; [|split; [discriminate|intros (j & [=] & _)]]. split.
    - intros [H E]. injection E as ->. exists j. now repeat split.
    - intros (j' & E & H). injection E as <-. destruct H as [H ->]. now split.
  Qed.
  Lemma vstart_iff c : vstart c <-> value_start c.
  Proof. unfold vstart, value_start, s_digit, is_digit. lia. Qed.
  Lemma lit_first nm s j c t : lit_refuses nm s j -> s = c :: t -> heads c nm.
  Proof. intros H ->. apply lit_head in H. destruct H as (x & u & u' & -> & E). injection E as -> _. now exists u. Qed.
  Lemma value_step s o : bytes s -> (length s < S n)%nat -> (ends o (parse_value_f sn (S n) s C0) <-> fails sn s o).
  Proof.
    intros Hb Hn. destruct s as [|c t].
    { rewrite value_end by lia. rewrite ends_cerr by discriminate. split; [intros ->; apply f_none; discriminate|]. intros F. inversion F; subst; try reflexivity. match goal with H : lit_refuses _ _ _ |- _ => apply lit_head in H; destruct H as (? & ? & ? & ? & ?); discriminate end. }
    assert (Hbt : bytes t) by now inversion Hb. cbn [length] in Hn.
    cbn [parse_value_f]. unfold is_null, is_bool, is_number, is_string, is_array. cbn [starts].
    destruct (c =? 110) eqn:E1; [|destruct ((c =? 116) || (c =? 102)) eqn:E2; [|destruct ((c =? MINUS) || is_digit c) eqn:E3; [|destruct (c =? QT) eqn:E4; [|destruct (c =? LCB) eqn:E5; [|destruct (c =? LBR) eqn:E6]]]]].
    - assert (c = 110) as -> by lia. rewrite ends_pends. split.
      + intros (j & -> & H). apply null_refuses in H. destruct H as [[? _]|[(c & u & E & Hc & _)|H]]; [discriminate|injection E as <- <-; lia|]. apply f_lit with (text "null"); [now left|exact H].
      + intros F. inversion F as [s0 N|nm s0 j I L|c0 s0 j D N|s0 j N| | | | | |]; subst.
        * exfalso. apply (N _ _ eq_refl). unfold value_start. lia.
        * exists j. split; [reflexivity|]. apply null_refuses. right; right. destruct I as [<-|[<-|[<-|[]]]]; [exact L| |]; destruct (lit_first _ _ _ _ _ L eq_refl) as (? & Q); discriminate.
        * unfold s_digit in D. lia.
    - rewrite ends_pends. split.
      + intros (j & -> & H). apply bool_refuses in H. destruct H as [[? _]|[(c' & u & E & Hc & Hc' & _)|[H|H]]]; [discriminate|injection E as <- <-; lia| |].
        * apply f_lit with (text "true"); [right; now left|exact H].
        * apply f_lit with (text "false"); [right; right; now left|exact H].
      + intros F. inversion F as [s0 N|nm s0 j I L|c0 s0 j D N|s0 j N| | | | | |]; subst; try (cbn in E2; discriminate).
        * exfalso. apply (N _ _ eq_refl). unfold value_start. lia.
        * exists j. split; [reflexivity|]. apply bool_refuses. right; right. destruct I as [<-|[<-|[<-|[]]]]; [|now left|now right]. destruct (lit_first _ _ _ _ _ L eq_refl) as (? & Q). vm_compute in Q; injection Q as Q. lia.
        * unfold s_digit in D. lia.
    - rewrite ends_pends. split.
      + intros (j & -> & H). apply number_refuses in H. apply f_num; [unfold s_digit, is_digit in *; lia|exact H].
      + intros F. inversion F as [s0 N|nm s0 j I L|c0 s0 j D N|s0 j N| | | | | |]; subst; try (cbn in E3; discriminate).
        * exfalso. apply (N _ _ eq_refl). unfold value_start, s_digit, is_digit in *. lia.
        * exfalso. destruct I as [<-|[<-|[<-|[]]]]; destruct (lit_first _ _ _ _ _ L eq_refl) as (? & Q); vm_compute in Q; injection Q as Q; lia.
        * exists j. split; [reflexivity|]. now apply number_refuses.
    - assert (c = QT) as -> by lia. split.
      + intros H. destruct o as [j|].
        * apply string_refuses in H; [|exact Hb]. now apply f_str.
        * cbn in H. destruct (string_good (QT :: t)) as (r & o & A & _). pose proof (A C0) as Q. cbn in Q, H. congruence.
      + intros F. inversion F as [s0 N|nm s0 j I L|c0 s0 j D N|s0 j N| | | | | |]; subst.
        * exfalso. apply (N _ _ eq_refl). unfold value_start. lia.
        * exfalso. destruct I as [<-|[<-|[<-|[]]]]; destruct (lit_first _ _ _ _ _ L eq_refl) as (? & Q); discriminate.
        * unfold s_digit in D. lia.
        * now apply string_refuses.
    - assert (c = LCB) as -> by lia. change (is_object (LCB :: t)) with true. cbn iota. rewrite obj_at_exact by (assumption || lia). split.
      + intros [[G ->]|(s0 & G & N & s1 & K & [Br|(s2 & G2 & N2 & N3 & [(j & -> & M)|(s3 & s4 & s5 & A & B & C & D & F)])])].
        * now apply f_obj_comment.
        * now apply f_obj with s0 s1.
        * now apply f_member with s0 s1 s2.
        * now apply f_value with s0 s1 s2 s3 s4 s5.
      + intros F. inversion F as [s0 N|nm s0 j I L|c0 s0 j D N|s0 j N| | |s0 O|s0 s1 s2 o0 G N K B|s0 s1 s2 s3 j G N K G2 N2 N3 M|s0 s1 s2 s3 s4 s5 s6 o0 G N K G2 A B C D F']; subst.
        * exfalso. apply (N _ _ eq_refl). unfold value_start. lia.
        * exfalso. destruct I as [<-|[<-|[<-|[]]]]; destruct (lit_first _ _ _ _ _ L eq_refl) as (? & Q); discriminate.
        * unfold s_digit in D. lia.
        * left. now split.
        * right. exists s1. repeat (split; [assumption|]). exists s2. split; [assumption|]. now left.
        * right. exists s1. repeat (split; [assumption|]). exists s2. split; [assumption|]. right. exists s3. repeat (split; [assumption|]). left. eauto.
        * right. exists s1. repeat (split; [assumption|]). exists s2. split; [assumption|]. right. exists s3. split; [assumption|].
          pose proof (takes_string_run _ _ C0 A) as (_ & Q & _). apply is_string_heads in Q. destruct Q as (z & ->). split; [discriminate|]. split; [intros (? & [=])|]. right. exists s4, s5, s6. auto.
    - assert (c = LBR) as -> by lia. rewrite arr_at_exact by (assumption || lia). split.
      + intros (s1 & K & [B|(s2 & G & N & N2 & F)]); [now apply f_arr with s1|now apply f_elem with s1 s2].
      + intros F. inversion F as [s0 N|nm s0 j I L|c0 s0 j D N|s0 j N|s0 s1 o0 K B|s0 s1 s2 o0 K G N N2 F'| | | |]; subst.
        * exfalso. apply (N _ _ eq_refl). unfold value_start. lia.
        * exfalso. destruct I as [<-|[<-|[<-|[]]]]; destruct (lit_first _ _ _ _ _ L eq_refl) as (? & Q); discriminate.
        * unfold s_digit in D. lia.
        * exists s1. split; [assumption|now left].
        * exists s1. split; [assumption|]. right. exists s2. auto.
    - assert (is_object (c :: t) = false) as ->. { cbn [is_object]. rewrite E5, E6. reflexivity. }
      change (dist (c :: t)) with (Z.of_nat (length (c :: t))). rewrite ends_cerr by discriminate. assert (NV : ~ value_start c) by (unfold value_start, s_digit, is_digit in *; lia). split.
      + intros ->. apply f_none. intros c' t' E. injection E as <- _. exact NV.
      + intros F. inversion F as [s0 N|nm s0 j I L|c0 s0 j D N|s0 j N|s0 s1 o0 K B|s0 s1 s2 o0 K G N N2 F'|s0 O|s0 s1 s2 o0 G N K B|s0 s1 s2 s3 j G N K G2 N2 N3 M|s0 s1 s2 s3 s4 s5 s6 o0 G N K G2 A B C D F']; subst; try reflexivity; try discriminate; exfalso.
        * destruct I as [<-|[<-|[<-|[]]]]; destruct (lit_first _ _ _ _ _ L eq_refl) as (? & Q); vm_compute in Q; injection Q as Q; lia.
        * unfold s_digit, is_digit in *. lia.
  Qed.
End Values.
Theorem value_fails sn n : forall s o, bytes s -> (length s < n)%nat -> (ends o (parse_value_f sn n s C0) <-> fails sn s o).
Proof. induction n as [|n IH]; intros s o Hb Hn; [lia|]. now apply value_step. Qed.

(** ---- the public functions ---- *)
Theorem parse_fails sn s o : bytes s -> (ends o (parse sn s C0) <-> fails sn s o).
Proof. intros Hb. unfold parse, parse_value. apply value_fails; [exact Hb|lia]. Qed.
Theorem parse_total sn s : bytes s -> (exists r, takes_value s r) \/ (exists o, fails sn s o).
Proof.
  intros Hb. destruct (law_at sn (S (length s)) s Hb ltac:(lia)) as [(r & E & _)|(o & E)].
  - left. exists r. apply value_takes in E; [exact E|exact Hb|lia].
  - right. exists o. apply value_fails in E; [exact E|exact Hb|lia].
Qed.
Theorem parse_exclusive sn s r o : bytes s -> takes_value s r -> fails sn s o -> False.
Proof.
  intros Hb (v & -> & Hv) F. apply (parse_fails sn) in F; [|exact Hb]. pose proof (parse_complete sn v r C0 Hv) as E. rewrite E in F. now apply ends_not_clean in F.
Qed.
Theorem fails_det sn s o o' : bytes s -> fails sn s o -> fails sn s o' -> o = o'.
Proof. intros Hb F F'. apply parse_fails in F; [|exact Hb]. apply parse_fails in F'; [|exact Hb]. exact (ends_det _ _ _ F F'). Qed.
Theorem parse_reports sn s j e : bytes s -> fails sn s (Some j) -> parse sn s e = Ok ([], if no_err_yet e then told e j else e).
Proof.
  intros Hb F. apply parse_fails in F; [|exact Hb]. destruct F as [Hj E]. unfold parse, parse_value in *.
  destruct (parse_value_law sn (S (length s)) s ltac:(lia)) as [(r & o & A & B & _)|(_ & U)]; [|rewrite U in E; discriminate].
  rewrite (A C0) in E. rewrite A. injection E as -> E. f_equal. f_equal. destruct o as [j'|]; [|cbn in E; injection E as <-; discriminate].
  cbn in E. injection E as <-. unfold app_err, no_err_yet, told. destruct e as [k|]; [|reflexivity]. destruct (is_err k) eqn:K; cbn; rewrite ?K; reflexivity.
Qed.
Theorem parse_overreads sn s e : bytes s -> (parse sn s e = UB <-> fails sn s None).
Proof.
  intros Hb. rewrite <- parse_fails by exact Hb. unfold parse, parse_value. cbn [ends].
  destruct (parse_value_law sn (S (length s)) s ltac:(lia)) as [(r & o & A & _)|(_ & U)]; [rewrite !A; split; discriminate|rewrite !U; tauto].
Qed.
Lemma pv_takes sn n s r : bytes s -> (length s < n)%nat -> (parse_value sn s C0 = Ok (r, C0) <-> takes_value s r).
Proof. intros Hb _. unfold parse_value. apply value_takes; [exact Hb|lia]. Qed.
Lemma pv_fails sn n s o : bytes s -> (length s < n)%nat -> (ends o (parse_value sn s C0) <-> fails sn s o).
Proof. intros Hb _. unfold parse_value. apply value_fails; [exact Hb|lia]. Qed.
Theorem member_fails_at sn s o : bytes s -> (ends o (parse_member (parse_value sn) s C0) <-> mfails sn s o).
Proof. intros Hb. apply member_fails with (length s); [intros; now apply (pv_takes sn (length s))|intros; now apply (pv_fails sn (length s))|exact Hb|lia]. Qed.
Theorem member_takes_at sn s r : bytes s -> (parse_member (parse_value sn) s C0 = Ok (r, C0) <-> takes_member s r).
Proof. intros Hb. apply member_takes with sn (length s); [intros; now apply (pv_takes sn (length s))|intros; now apply (pv_fails sn (length s))|exact Hb|lia]. Qed.
Theorem object_fails_at sn s o : bytes s -> (ends o (parse_object sn (parse_value sn) s C0) <->
  heads LCB s /\ fails sn s o \/
  ~ heads LCB s /\ ~ (exists t r, s = LBR :: t /\ after_gap t (RBR :: r)) /\ o = Some (expected [LCB] s)).
Proof.
  intros Hb. destruct s as [|c t].
  { cbn [parse_object is_object negb]. unfold parse_object. cbn [is_object negb]. rewrite ends_cerr by discriminate. split.
    - intros ->. right. split; [intros [? ?]; discriminate|]. split; [intros (? & ? & ? & _); discriminate|reflexivity].
    - intros [[[? ?] _]|(_ & _ & H)]; [discriminate|exact H]. }
  destruct (Z.eq_dec c LCB) as [-> |Hc].
  { pose proof (parse_fails sn (LCB :: t) o Hb) as F. unfold parse in F. rewrite ErrPos.pv_eq in F. cbn in F. cbn. rewrite F. split; [intros H; left; split; [now exists t|exact H]|]. intros [[_ H]|[N _]]; [exact H|]. exfalso. apply N. now exists t. }
  assert (~ heads LCB (c :: t)) as N by (intros (? & E); injection E as E _; lia).
  destruct (Z.eq_dec c LBR) as [-> |Hd].
  - destruct (is_object (LBR :: t)) eqn:Eo.
    + pose proof (proj1 (is_obj_arr t) Eo) as (r & G). split.
      * intros E. exfalso. unfold parse_object in E. rewrite Eo in E. cbn [negb step bind] in E. apply space_exact in G. rewrite G in E. cbn [starts] in E. rewrite Z.eqb_refl in E. cbn [step bind] in E. now apply ends_not_clean in E.
      * intros [[H _]|(_ & H & _)]; [tauto|]. exfalso. apply H. exists t, r. now split.
    + unfold parse_object. rewrite Eo. cbn [negb]. rewrite ends_cerr by discriminate. split.
      * intros ->. right. split; [exact N|]. split; [|reflexivity]. intros (u & r & E & G). injection E as <-. assert (is_object (LBR :: t) = true) by (apply is_obj_arr; eauto). congruence.
      * intros [[H _]|(_ & _ & H)]; [tauto|exact H].
  - assert (is_object (c :: t) = false) as Eo. { cbn [is_object]. destruct (c =? LCB) eqn:E1; [lia|]. destruct (c =? LBR) eqn:E2; [lia|reflexivity]. }
    unfold parse_object. rewrite Eo. cbn [negb]. rewrite ends_cerr by discriminate. split.
    + intros ->. right. split; [exact N|]. split; [|reflexivity]. intros (u & r & E & _). injection E as -> _. lia.
    + intros [[H _]|(_ & _ & H)]; [tauto|exact H].
Qed.
Theorem array_fails_at sn s o : bytes s -> (ends o (parse_array sn (parse_value sn) s C0) <->
  heads LBR s /\ fails sn s o \/ ~ heads LBR s /\ o = Some (expected [LBR] s)).
Proof.
  intros Hb. destruct (is_array s) eqn:Ea.
  - destruct s as [|c t]; [discriminate|]. cbn in Ea. assert (c = LBR) as -> by lia. clear Ea. assert (heads LBR (LBR :: t)) as Hh by now exists t.
    pose proof (parse_fails sn (LBR :: t) o Hb) as F. unfold parse in F. rewrite ErrPos.pv_eq in F. cbn in F. fold C0 in F.
    transitivity (fails sn (LBR :: t) o); [|tauto]. rewrite <- F. destruct (let '(r, _) := parse_space t None in starts RBR r) eqn:Eo; [|reflexivity].
    assert (is_object (LBR :: t) = true) as Eo' by exact Eo. destruct (proj1 (is_obj_arr t) Eo') as (r & G).
    unfold parse_array, parse_object. rewrite Eo'. cbn [is_array starts]. rewrite Z.eqb_refl. cbn [negb step bind]. rewrite (items_closed sn RBR _ _ t r) by (assumption || now left).
    apply space_exact in G. rewrite G. cbn [starts]. rewrite Z.eqb_refl. cbn [step bind]. reflexivity.
  - assert (~ heads LBR s) as N by (intros (u & ->); discriminate). unfold parse_array. rewrite Ea. cbn [negb]. rewrite ends_cerr by discriminate. split; [intros ->; right; now split|]. intros [[H _]|[_ H]]; [tauto|exact H].
Qed.
