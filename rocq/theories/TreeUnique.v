(** Proofs: a text denotes at most one document. *)
From Verif Require Import Base Parser SpecJson ParserFacts Grammar1 Grammar2 SpecString SpecNum SpecTree TreeProofs.

Lemma cons_eq (a b : Z) l m : a :: l = b :: m -> a = b /\ l = m. Proof. intros E. now injection E. Qed.
Lemma utf8_split cp cp' l l' : scalar cp -> scalar cp' -> utf8_encode cp ++ l = utf8_encode cp' ++ l' -> cp = cp' /\ l = l'.
Proof.
  intros ((H1 & H2) & _) ((H3 & H4) & _). unfold utf8_encode.
  assert (D : forall x, 0 <= x -> x = 64 * (x / 64) + x mod 64 /\ x / 64 = 64 * (x / 4096) + (x / 64) mod 64 /\ x / 4096 = 64 * (x / 262144) + (x / 4096) mod 64 /\
    0 <= x / 262144 /\ 0 <= x / 4096 /\ 0 <= x / 64 /\ 0 <= x mod 64 < 64 /\ 0 <= (x / 64) mod 64 < 64 /\ 0 <= (x / 4096) mod 64 < 64).
  { intros x Hx. change 262144 with (4096 * 64). change 4096 with (64 * 64) at 1 2 3 4 5 6. rewrite <- !Z.div_div by lia. Z.to_euclidean_division_equations. lia. }
  pose proof (D cp H1) as Dc. pose proof (D cp' H3) as Dc'. clear D. revert Dc Dc'. generalize (cp / 64), (cp mod 64), (cp / 4096), ((cp / 64) mod 64), (cp / 262144), ((cp / 4096) mod 64).
  generalize (cp' / 64), (cp' mod 64), (cp' / 4096), ((cp' / 64) mod 64), (cp' / 262144), ((cp' / 4096) mod 64). do 12 intro. intros Dc Dc'.
  destruct (Z.ltb_spec cp 128) as [A1|A1]; [|destruct (Z.ltb_spec cp 2048) as [A2|A2]; [|destruct (Z.ltb_spec cp 65536) as [A3|A3]]];
  (destruct (Z.ltb_spec cp' 128) as [B1|B1]; [|destruct (Z.ltb_spec cp' 2048) as [B2|B2]; [|destruct (Z.ltb_spec cp' 65536) as [B3|B3]]]); cbn [app];
  intros E; apply cons_eq in E; destruct E as (X1 & E); try (exfalso; lia); repeat (apply cons_eq in E; destruct E as (? & E)); (split; [lia|exact E]).
Qed.
Lemma encode_head cp l : 32 <= cp -> scalar cp -> cp <> 92 -> exists h z, utf8_encode cp ++ l = h :: z /\ h <> 92.
Proof.
  intros H0 ((H1 & H2) & _) N. unfold utf8_encode. destruct (Z.ltb_spec cp 128) as [A1|A1]; [|destruct (Z.ltb_spec cp 2048) as [A2|A2]; [|destruct (Z.ltb_spec cp 65536) as [A3|A3]]]; cbn [app];
  eexists _, _; (split; [reflexivity|]); Z.to_euclidean_division_equations; lia.
Qed.
Lemma esc_fun c t t' : esc_mean c t -> esc_mean c t' -> t = t'.
Proof. destruct 1; inversion 1; subst; lia. Qed.
Lemma esc_u c t : esc_mean c t -> c <> 117.
Proof. destruct 1; lia. Qed.
Lemma cmean_split c t c' t' l l' : cmean c t -> cmean c' t' -> c ++ l = c' ++ l' -> t = t' /\ l = l'.
Proof.
  intros [cp S H1 H2 H3|e x He|a b d f A1 A2 A3 A4 S|a b d f a2 b2 d2 f2 A1 A2 A3 A4 B1 B2 B3 B4 R1 R2] [cp' S' H1' H2' H3'|e' x' He'|a' b' d' f' A1' A2' A3' A4' S'|a' b' d' f' a2' b2' d2' f2' A1' A2' A3' A4' B1' B2' B3' B4' R1' R2'] E.
  - destruct (utf8_split cp cp' l l' S S' E) as (-> & ->). now split.
  - exfalso. destruct (encode_head cp l H1 S H3) as (h & z & Eh & Nh). rewrite Eh in E. injection E as -> _. now apply Nh.
  - exfalso. destruct (encode_head cp l H1 S H3) as (h & z & Eh & Nh). rewrite Eh in E. injection E as -> _. now apply Nh.
  - exfalso. destruct (encode_head cp l H1 S H3) as (h & z & Eh & Nh). rewrite Eh in E. injection E as -> _. now apply Nh.
  - exfalso. destruct (encode_head cp' l' H1' S' H3') as (h & z & Eh & Nh). rewrite Eh in E. injection E as <- _. now apply Nh.
  - injection E as -> ->. rewrite (esc_fun _ _ _ He He'). now split.
  - exfalso. injection E as -> _. now apply (esc_u _ _ He).
  - exfalso. injection E as -> _. now apply (esc_u _ _ He).
  - exfalso. destruct (encode_head cp' l' H1' S' H3') as (h & z & Eh & Nh). rewrite Eh in E. injection E as <- _. now apply Nh.
  - exfalso. injection E as <- _. now apply (esc_u _ _ He').
  - injection E as -> -> -> -> ->. now split.
  - exfalso. injection E as -> -> -> -> _. destruct S as (_ & S). lia.
  - exfalso. destruct (encode_head cp' l' H1' S' H3') as (h & z & Eh & Nh). rewrite Eh in E. injection E as <- _. now apply Nh.
  - exfalso. injection E as <- _. now apply (esc_u _ _ He').
  - exfalso. injection E as -> -> -> -> _. destruct S' as (_ & S'). lia.
  - injection E as -> -> -> -> -> -> -> -> ->. now split.
Qed.
Lemma cmean_ne c t : cmean c t -> c <> [].
Proof. destruct 1; try discriminate. unfold utf8_encode. destruct (cp <? 128), (cp <? 2048), (cp <? 65536); discriminate. Qed.
Lemma lmean_fun l m : lmean l m -> forall m', lmean l m' -> m = m'.
Proof.
  induction 1 as [|c t l m Hc Hl IH]; intros m' H'.
  - inversion H' as [|c t l m Hc Hl E]; [reflexivity|]. apply app_eq_nil in E. destruct E as (-> & _). now apply cmean_ne in Hc.
  - inversion H' as [E|c' t' l' m2 Hc' Hl' E]; subst. { symmetry in E. apply app_eq_nil in E. destruct E as (-> & _). now apply cmean_ne in Hc. }
    destruct (cmean_split _ _ _ _ _ _ Hc' Hc E) as (-> & ->). f_equal. now apply IH.
Qed.

Lemma ws_split w w' h z h' z' : ws w -> ws w' -> ~ s_ws h -> ~ s_ws h' -> w ++ h :: z = w' ++ h' :: z' -> w = w' /\ h :: z = h' :: z'.
Proof.
  intros H. revert w'. induction H as [|c w Hc _ IH]; intros w' H' N N' E; destruct H' as [|c' w' Hc' H'].
  - now split.
  - cbn [app] in E. injection E as -> _. contradiction.
  - cbn [app] in E. injection E as -> _. contradiction.
  - cbn [app] in E. injection E as -> E. destruct (IH w' H' N N' E) as (-> & E2). now split.
Qed.
Lemma vstart_ws h : vstart h -> ~ s_ws h.
Proof. unfold vstart, s_digit, s_ws. lia. Qed.
Lemma value_split v v' r r' : rvalue v -> rvalue v' -> follow r -> follow r' -> v ++ r = v' ++ r' -> v = v' /\ r = r'.
Proof.
  intros H H' F F' E. pose proof (rfc_accept None v r None H F) as P. pose proof (rfc_accept None v' r' None H' F') as P'. rewrite E, P' in P. injection P as ->.
  split; [now apply app_inv_tail in E|reflexivity].
Qed.
Lemma string_split k k' r r' : rchars k -> rchars k' -> k ++ QT :: r = k' ++ QT :: r' -> k = k' /\ r = r'.
Proof.
  intros H H' E. assert (forall k, rchars k -> wstring (QT :: k ++ [QT])) as W by (intros x Hx; constructor; now apply rchars_wchars).
  pose proof (parse_string_app _ r None (W k H)) as P. pose proof (parse_string_app _ r' None (W k' H')) as P'. cbn [app] in P, P'. rewrite <- app_assoc in P, P'. cbn [app] in P, P'.
  rewrite E, P' in P. injection P as ->. split; [|reflexivity]. now apply app_inv_tail in E.
Qed.
Lemma follow_ws w c r : ws w -> ~ s_digit c -> c <> DOT -> c <> 101 -> c <> 69 -> follow (w ++ c :: r).
Proof. intros H N1 N2 N3 N4. destruct H as [|d w Hd _]; cbn; [tauto|]. unfold s_ws, s_digit in *. lia. Qed.
Lemma follow_ws0 w : ws w -> follow w.
Proof. intros H. destruct H as [|d w Hd _]; cbn; [exact I|]. unfold s_ws, s_digit in *. lia. Qed.
Lemma ws_only w w' h z : ws w -> vstart h -> w = w' ++ h :: z -> False.
Proof. intros H Hh ->. apply Forall_app in H. destruct H as (_ & H). inversion H; subst. now apply (vstart_ws h). Qed.
Lemma ws_comma w w' r : ws w -> w = w' ++ COMMA :: r -> False.
Proof. intros H ->. apply Forall_app in H. destruct H as (_ & H). inversion H as [|? ? K]; subst. unfold s_ws in K. lia. Qed.
Lemma ws_ws_comma w w' r : ws w -> ws w' -> w ++ COMMA :: r = w' -> False.
Proof. intros _ H E. symmetry in E. exact (ws_comma _ _ _ H E). Qed.
Lemma comma_split w w' r r' : ws w -> ws w' -> w ++ COMMA :: r = w' ++ COMMA :: r' -> w = w' /\ r = r'.
Proof. intros H H' E. assert (~ s_ws COMMA) as N by (unfold s_ws; lia). destruct (ws_split _ _ _ _ _ _ H H' N N E) as (-> & E2). injection E2 as ->. now split. Qed.
Lemma dval_fun z z' n : jint z n -> jint z' n -> z = z'.
Proof.
  assert (forall i, rint i -> exists h t, i = h :: t /\ h <> MINUS) as R by (intros i []; eexists _, _; (split; [reflexivity|lia])).
  intros H H'. inversion H as [i Hi|i Hi]; subst; inversion H' as [j Hj|j Hj]; subst; auto.
  - destruct (R _ Hi) as (h & t & E & N). injection E as <- _. now contradiction N.
  - destruct (R _ Hj) as (h & t & E & N). injection E as <- _. now contradiction N.
Qed.

Section Unique.
  Variables (LM NM : buf -> buf -> Prop).
  Hypothesis HL : forall l s, LM l s -> rchars l.
  Hypothesis HN : forall l s, NM l s -> rchars l.
  Hypothesis FL : forall l s s', LM l s -> LM l s' -> s = s'.
  Hypothesis FN : forall l s s', NM l s -> NM l s' -> s = s'.
  Let RV := proj1 (means_rvalue LM NM HL HN).
  Lemma num_head b t : (exists z, t = TInt z) \/ (exists n, t = TReal n) -> means LM NM b t -> exists h z, b = h :: z /\ (h = MINUS \/ s_digit h).
  Proof.
    intros Ht H. destruct Ht as [(z & ->)|(n & ->)]; inversion H as [| | |z' n' Hj|n' Hj Hq| | | | |]; subst.
    - apply jint_rnumber, rnumber_head in Hj. destruct Hj as (h & y & E & Hh). exists h, y. split; [exact E|]. unfold s_digit in *. lia.
    - apply rnumber_head in Hj. destruct Hj as (h & y & E & Hh). exists h, y. split; [exact E|]. unfold s_digit in *. lia.
  Qed.
  Lemma elem_head b t : means LM NM b t -> exists h z, b = h :: z /\ vstart h.
  Proof. intros H. apply rvalue_head, (RV _ _ H). Qed.
  Lemma elems_nows b l : melems LM NM b l -> ~ ws b.
  Proof.
    intros H W. destruct H as [w1 v w2 t H1 H2 H3|w1 v w2 t b l H1 H2 H3 H4]; destruct (elem_head _ _ H2) as (h & z & -> & Hh); cbn [app] in W.
    - exact (ws_only _ _ _ _ W Hh eq_refl).
    - exact (ws_only _ _ _ _ W Hh eq_refl).
  Qed.
  Lemma members_nows b l : mmembers LM NM b l -> ~ ws b.
  Proof.
    intros H W. assert (vstart QT) as Q by (unfold vstart; lia). destruct H; exact (ws_only _ _ _ _ W Q eq_refl).
  Qed.
  Lemma value_at w1 v w1' v' t t' r r' : ws w1 -> ws w1' -> means LM NM v t -> means LM NM v' t' -> follow r -> follow r' -> w1 ++ v ++ r = w1' ++ v' ++ r' -> w1 = w1' /\ v = v' /\ r = r'.
  Proof.
    intros W W' M M' F F' E. destruct (elem_head _ _ M) as (h & z & Ev & Hh). destruct (elem_head _ _ M') as (h' & z' & Ev' & Hh').
    assert (w1 = w1' /\ v ++ r = v' ++ r') as (-> & E2).
    { rewrite Ev, Ev' in *. cbn [app] in *. exact (ws_split _ _ _ _ _ _ W W' (vstart_ws _ Hh) (vstart_ws _ Hh') E). }
    destruct (value_split v v' r r' (RV _ _ M) (RV _ _ M') F F' E2) as (-> & ->). auto.
  Qed.
  Lemma member_at w1 k w2 w3 v r t n w1' k' w2' w3' v' r' t' n' : ws w1 -> NM k n -> ws w2 -> ws w3 -> means LM NM v t -> follow r -> ws w1' -> NM k' n' -> ws w2' -> ws w3' -> means LM NM v' t' -> follow r' ->
    w1 ++ QT :: k ++ QT :: w2 ++ COLON :: w3 ++ v ++ r = w1' ++ QT :: k' ++ QT :: w2' ++ COLON :: w3' ++ v' ++ r' -> k = k' /\ v = v' /\ r = r'.
  Proof.
    intros W1 K W2 W3 M F W1' K' W2' W3' M' F' E.
    assert (~ s_ws QT) as Q by (unfold s_ws; lia). assert (~ s_ws COLON) as Q2 by (unfold s_ws; lia).
    destruct (ws_split _ _ _ _ _ _ W1 W1' Q Q E) as (-> & E1). injection E1 as E1. destruct (string_split _ _ _ _ (HN _ _ K) (HN _ _ K') E1) as (-> & E2).
    destruct (ws_split _ _ _ _ _ _ W2 W2' Q2 Q2 E2) as (-> & E3). injection E3 as E3. destruct (value_at _ _ _ _ _ _ _ _ W3 W3' M M' F F' E3) as (-> & -> & ->). auto.
  Qed.
  Lemma close_split (a b : buf) (R R' : Z) : a ++ [R] = b ++ [R'] -> a = b.
  Proof. intros E. now apply app_inj_tail in E. Qed.
  Theorem means_fun : (forall b t, means LM NM b t -> forall t', means LM NM b t' -> t = t') /\
    (forall b l, melems LM NM b l -> forall l', melems LM NM b l' -> l = l') /\ (forall b l, mmembers LM NM b l -> forall l', mmembers LM NM b l' -> l = l').
  Proof.
    assert (NH : forall b t, means LM NM b t -> forall h z, b = h :: z -> ~ (h = MINUS \/ s_digit h) -> (forall z, t <> TInt z) /\ (forall n, t <> TReal n)).
    { intros b t H h z -> N. split; intros q ->; [destruct (num_head _ _ (or_introl (ex_intro _ _ eq_refl)) H) as (h' & y & E & K)|destruct (num_head _ _ (or_intror (ex_intro _ _ eq_refl)) H) as (h' & y & E & K)]; injection E as <- _; contradiction. }
    apply means_ind3.
    - intros t' H. destruct (NH _ _ H 110 (text "ull") eq_refl ltac:(unfold s_digit; lia)) as (N1 & N2). inversion H; subst; try reflexivity; [now destruct (N1 z)|now destruct (N2 (text "null"))].
    - intros t' H. destruct (NH _ _ H 116 (text "rue") eq_refl ltac:(unfold s_digit; lia)) as (N1 & N2). inversion H; subst; try reflexivity; [now destruct (N1 z)|now destruct (N2 (text "true"))].
    - intros t' H. destruct (NH _ _ H 102 (text "alse") eq_refl ltac:(unfold s_digit; lia)) as (N1 & N2). inversion H; subst; try reflexivity; [now destruct (N1 z)|now destruct (N2 (text "false"))].
    - intros z n Hj t' H. pose proof (rnumber_head n (jint_rnumber z n Hj)) as (h & y & -> & Hh). unfold s_digit in Hh. inversion H as [E|E|E|z' n' Hj'|n' Hj' Hq|l s HS E|w Hw E|b l Hb E|w Hw E|b l Hb E]; subst; try (exfalso; lia).
      + f_equal. eapply dval_fun; eauto.
      + exfalso. exact (Hq z Hj).
    - intros n Hn Hq t' H. pose proof (rnumber_head n Hn) as (h & y & -> & Hh). unfold s_digit in Hh. inversion H as [E|E|E|z' n' Hj'|n' Hj' Hq'|l s HS E|w Hw E|b l Hb E|w Hw E|b l Hb E]; subst; try (exfalso; lia); auto.
      exfalso. exact (Hq z' Hj').
    - intros l s HS t' H. destruct (NH _ _ H QT (l ++ [QT]) eq_refl ltac:(unfold s_digit; lia)) as (N1 & N2). inversion H as [| | |z' n' Hj'|n' Hj' Hq'|l' s' HS' E| | | |]; subst; [now destruct (N1 z')|now destruct (N2 (QT :: l ++ [QT]))|].
      apply close_split in E. subst l'. f_equal. now apply FL with l.
    - intros w Hw t' H. destruct (NH _ _ H LBR (w ++ [RBR]) eq_refl ltac:(unfold s_digit; lia)) as (N1 & N2). inversion H as [| | |z' n' Hj'|n' Hj' Hq'| |w' Hw' E|b' l' Hb' E| |]; subst; [now destruct (N1 z')|now destruct (N2 (LBR :: w ++ [RBR]))|reflexivity|].
      exfalso. apply close_split in E. subst b'. now apply elems_nows in Hb'.
    - intros b l Hb IH t' H. destruct (NH _ _ H LBR (b ++ [RBR]) eq_refl ltac:(unfold s_digit; lia)) as (N1 & N2). inversion H as [| | |z' n' Hj'|n' Hj' Hq'| |w' Hw' E|b' l' Hb' E| |]; subst; [now destruct (N1 z')|now destruct (N2 (LBR :: b ++ [RBR]))| |].
      + exfalso. apply close_split in E. subst w'. now apply elems_nows in Hb.
      + apply close_split in E. subst b'. f_equal. now apply IH.
    - intros w Hw t' H. destruct (NH _ _ H LCB (w ++ [RCB]) eq_refl ltac:(unfold s_digit; lia)) as (N1 & N2). inversion H as [| | |z' n' Hj'|n' Hj' Hq'| | | |w' Hw' E|b' l' Hb' E]; subst; [now destruct (N1 z')|now destruct (N2 (LCB :: w ++ [RCB]))|reflexivity|].
      exfalso. apply close_split in E. subst b'. now apply members_nows in Hb'.
    - intros b l Hb IH t' H. destruct (NH _ _ H LCB (b ++ [RCB]) eq_refl ltac:(unfold s_digit; lia)) as (N1 & N2). inversion H as [| | |z' n' Hj'|n' Hj' Hq'| | | |w' Hw' E|b' l' Hb' E]; subst; [now destruct (N1 z')|now destruct (N2 (LCB :: b ++ [RCB]))| |].
      + exfalso. apply close_split in E. subst w'. now apply members_nows in Hb.
      + apply close_split in E. subst b'. f_equal. now apply IH.
    - intros w1 v w2 t W1 M IH W2 l' H. inversion H as [w1' v' w2' t' W1' M' W2' E|w1' v' w2' t' b' l2 W1' M' W2' R' E]; subst.
      + destruct (value_at _ _ _ _ _ _ _ _ W1' W1 M' M (follow_ws0 _ W2') (follow_ws0 _ W2) E) as (-> & -> & ->). now rewrite (IH _ M').
      + exfalso. assert (follow (w2' ++ COMMA :: b')) as F' by (apply follow_ws; auto; unfold s_digit; lia).
        destruct (value_at _ _ _ _ _ _ _ _ W1' W1 M' M F' (follow_ws0 _ W2) E) as (_ & _ & E2). exact (ws_comma _ _ _ W2 (eq_sym E2)).
    - intros w1 v w2 t b l W1 M IH W2 R IHR l' H. assert (follow (w2 ++ COMMA :: b)) as F by (apply follow_ws; auto; unfold s_digit; lia).
      inversion H as [w1' v' w2' t' W1' M' W2' E|w1' v' w2' t' b' l2 W1' M' W2' R' E]; subst.
      + exfalso. destruct (value_at _ _ _ _ _ _ _ _ W1' W1 M' M (follow_ws0 _ W2') F E) as (_ & _ & E2). exact (ws_comma _ _ _ W2' E2).
      + assert (follow (w2' ++ COMMA :: b')) as F' by (apply follow_ws; auto; unfold s_digit; lia).
        destruct (value_at _ _ _ _ _ _ _ _ W1' W1 M' M F' F E) as (-> & -> & E2). destruct (comma_split _ _ _ _ W2' W2 E2) as (-> & ->). rewrite (IH _ M'). f_equal. now apply IHR.
    - intros w1 k n w2 w3 v w4 t W1 K W2 W3 M IH W4 l' H. inversion H as [w1' k' n' w2' w3' v' w4' t' W1' K' W2' W3' M' W4' E|w1' k' n' w2' w3' v' w4' t' b' l2 W1' K' W2' W3' M' W4' R' E]; subst.
      + destruct (member_at _ _ _ _ _ _ _ _ _ _ _ _ _ _ _ _ W1' K' W2' W3' M' (follow_ws0 _ W4') W1 K W2 W3 M (follow_ws0 _ W4) E) as (-> & -> & ->). now rewrite (IH _ M'), (FN _ _ _ K K').
      + exfalso. assert (follow (w4' ++ COMMA :: b')) as F' by (apply follow_ws; auto; unfold s_digit; lia).
        destruct (member_at _ _ _ _ _ _ _ _ _ _ _ _ _ _ _ _ W1' K' W2' W3' M' F' W1 K W2 W3 M (follow_ws0 _ W4) E) as (_ & _ & E2). exact (ws_comma _ _ _ W4 (eq_sym E2)).
    - intros w1 k n w2 w3 v w4 t b l W1 K W2 W3 M IH W4 R IHR l' H. assert (follow (w4 ++ COMMA :: b)) as F by (apply follow_ws; auto; unfold s_digit; lia).
      inversion H as [w1' k' n' w2' w3' v' w4' t' W1' K' W2' W3' M' W4' E|w1' k' n' w2' w3' v' w4' t' b' l2 W1' K' W2' W3' M' W4' R' E]; subst.
      + exfalso. destruct (member_at _ _ _ _ _ _ _ _ _ _ _ _ _ _ _ _ W1' K' W2' W3' M' (follow_ws0 _ W4') W1 K W2 W3 M F E) as (_ & _ & E2). exact (ws_comma _ _ _ W4' E2).
      + assert (follow (w4' ++ COMMA :: b')) as F' by (apply follow_ws; auto; unfold s_digit; lia).
        destruct (member_at _ _ _ _ _ _ _ _ _ _ _ _ _ _ _ _ W1' K' W2' W3' M' F' W1 K W2 W3 M F E) as (-> & -> & E2). destruct (comma_split _ _ _ _ W4' W4 E2) as (-> & ->).
        rewrite (IH _ M'), (FN _ _ _ K K'). f_equal. now apply IHR.
  Qed.
End Unique.
Theorem denotes_fun b t t' : denotes b t -> denotes b t' -> t = t'.
Proof. intros H. apply (proj1 (means_fun lmean lmean (lmean_rchars) (lmean_rchars) (fun l s s' H => lmean_fun l s H s') (fun l s s' H => lmean_fun l s H s')) b t H). Qed.
