(** Value level: parse accepts exactly [waccept]; RFC texts are included. *)
From Verif Require Import Base Parser SpecJson ParserFacts Grammar1.

(** first characters of values *)
Definition vstart (c : Z) : Prop :=
  c = 110 \/ c = 116 \/ c = 102 \/ c = MINUS \/ s_digit c \/ c = QT \/ c = LBR \/ c = LCB.
Lemma vstart_stop c t : vstart c -> stop (c :: t).
Proof. unfold vstart, s_digit, stop, s_ws. lia. Qed.

Lemma rnumber_head n : rnumber n -> exists c t, n = c :: t /\ (c = MINUS \/ s_digit c).
Proof.
  intros [m i f x Hm Hi Hf Hx]. destruct Hm; [|eexists _, _; split; [reflexivity|now left]].
  destruct Hi; eexists _, _; (split; [reflexivity|]); right; unfold s_digit; lia.
Qed.
Lemma wvalue_head v : wvalue v -> exists c t, v = c :: t /\ vstart c.
Proof.
  unfold vstart. destruct 1 as [| | |n Hn|s Hs|g|l|g|g|l];
    try (eexists _, _; split; [reflexivity|]; cbn; lia).
  - destruct (rnumber_head n Hn) as (c & t & -> & Hc). eexists _, _; split; [reflexivity|]. tauto.
  - destruct Hs. eexists _, _; split; [reflexivity|]. lia.
Qed.

Definition closer (c : Z) : Prop := c = COMMA \/ c = RBR \/ c = RCB \/ c = COLON.
Lemma closer_stop c t : closer c -> stop (c :: t).
Proof. unfold closer, stop, s_ws. lia. Qed.

Lemma gap_head g : gap g -> g = [] \/ exists c t, g = c :: t /\ (s_ws c \/ c = SLASH).
Proof. destruct 1; [now left|right..]; eexists _, _; (split; [reflexivity|]); auto. Qed.

Lemma gap_follow g c t : gap g -> closer c -> follow (g ++ c :: t).
Proof.
  intros Hg Hc. destruct (gap_head g Hg) as [->|(d & z & -> & Hd)]; cbn;
    unfold closer, s_ws, s_digit in *; lia.
Qed.

Lemma is_object_elems g v r : gap g -> (exists c t, v = c :: t /\ vstart c) -> is_object (LBR :: g ++ v ++ r) = false.
Proof.
  intros Hg (c & t & -> & Hc). unfold is_object. change (LBR =? LCB) with false. change (LBR =? LBR) with true.
  cbn [negb]. cbv iota. cbn [app]. rewrite gap_parse_space; [|exact Hg|now apply vstart_stop].
  cbn. unfold vstart, s_digit in Hc. lia.
Qed.
Lemma is_object_empty g r : gap g -> is_object (LBR :: g ++ RBR :: r) = true.
Proof.
  intros Hg. unfold is_object. change (LBR =? LCB) with false. change (LBR =? LBR) with true.
  cbn [negb]. cbv iota. rewrite gap_parse_space; [reflexivity|exact Hg|]. apply closer_stop. unfold closer; lia.
Qed.

(** one step of the element loop *)
Lemma items_end sn close item m g r e : closer close -> gap g ->
  items_loop sn close item (S m) (g ++ close :: r) e = Ok (r, e).
Proof.
  intros Hc Hg. cbn [items_loop].
  destruct (g ++ close :: r) as [|c0 t0] eqn:E; [destruct g; discriminate|].
  destruct (c0 =? close) eqn:Ec.
  - destruct (gap_head g Hg) as [->|(d & z & -> & Hd)].
    + cbn in E. injection E as <- <-. cbn. rewrite Z.eqb_refl. reflexivity.
    + cbn in E. injection E as <- _. unfold closer, s_ws in *. lia.
  - rewrite <- E. rewrite gap_parse_space; [|exact Hg|now apply closer_stop].
    cbn [deref bind]. rewrite Z.eqb_refl. cbn. rewrite Z.eqb_refl. reflexivity.
Qed.

Lemma items_step sn close item m g1 v g2 c t e :
  closer close -> gap g1 -> gap g2 -> (exists c t, v = c :: t /\ vstart c) ->
  c = COMMA \/ c = close ->
  item (v ++ g2 ++ c :: t) e = Ok (g2 ++ c :: t, e) ->
  items_loop sn close item (S m) (g1 ++ v ++ g2 ++ c :: t) e =
    if c =? COMMA then items_loop sn close item m t e else items_loop sn close item m (c :: t) e.
Proof.
  intros Hcl Hg1 Hg2 (v0 & vt & Ev & Hv) Hc Hit.
  assert (Hvc : v0 <> close) by (unfold vstart, closer, s_digit in *; lia).
  cbn [items_loop].
  destruct (g1 ++ v ++ g2 ++ c :: t) as [|c0 t0] eqn:E; [destruct g1, v; try discriminate|].
  destruct (c0 =? close) eqn:Ec.
  { exfalso. bool2prop. subst c0. destruct (gap_head g1 Hg1) as [->|(d & z & -> & Hd)]; subst v; cbn in E; injection E as E _.
    - congruence.
    - subst d. unfold closer, s_ws in *. lia. }
  rewrite <- E. rewrite gap_parse_space; [|exact Hg1|].
  2:{ subst v. cbn. apply (vstart_stop v0 []) in Hv. exact Hv. }
  rewrite Hit. subst v. cbn [app deref bind].
  destruct (v0 =? close) eqn:E0; [bool2prop; congruence|].
  rewrite gap_parse_space; [|exact Hg2|].
  2:{ apply closer_stop. unfold closer in *. lia. }
  destruct (negb (c =? COMMA) && negb (c =? close)) eqn:E3; [lia|]. reflexivity.
Qed.

Lemma member_app pv k g2 g3 v r e :
  wstring k -> gap g2 -> gap g3 -> (exists c t, v = c :: t /\ vstart c) ->
  pv (v ++ r) e = Ok (r, e) ->
  parse_member pv (k ++ g2 ++ COLON :: g3 ++ v ++ r) e = Ok (r, e).
Proof.
  intros Hk Hg2 Hg3 (v0 & vt & Ev & Hv) Hpv. unfold parse_member.
  assert (is_string (k ++ g2 ++ COLON :: g3 ++ v ++ r) = true) as -> by (destruct Hk; reflexivity).
  cbn [negb]. rewrite parse_string_app by exact Hk. cbn [bind].
  destruct (g2 ++ COLON :: g3 ++ v ++ r) as [|c t] eqn:E; [destruct g2; discriminate|]. rewrite <- E. clear E.
  rewrite gap_parse_space; [|exact Hg2|apply closer_stop; unfold closer; lia].
  change (COLON =? COLON) with true. cbn [negb].
  destruct (g3 ++ v ++ r) as [|c' t'] eqn:E; [subst v; destruct g3; discriminate|]. rewrite <- E. clear E.
  rewrite gap_parse_space; [|exact Hg3|subst v; now apply (vstart_stop v0)].
  rewrite Hpv. subst v. reflexivity.
Qed.

Ltac flens := rewrite ?app_length in *; cbn [length] in *; rewrite ?app_length in *; cbn [length] in *.

Section Complete.
Variable sn : option Z.

Definition Pv (v : buf) : Prop := forall n r e, (length (v ++ r) < n)%nat ->
  (rnumber v -> num_stop v r) -> parse_value_f sn n (v ++ r) e = Ok (r, e).
Definition Pel (l : buf) : Prop := forall n m r e,
  (length (l ++ RBR :: r) < n)%nat -> (length (l ++ RBR :: r) < m)%nat ->
  items_loop sn RBR (parse_value_f sn n) m (l ++ RBR :: r) e = Ok (r, e).
Definition Pme (l : buf) : Prop := forall n m r e,
  (length (l ++ RCB :: r) < n)%nat -> (length (l ++ RCB :: r) < m)%nat ->
  items_loop sn RCB (parse_member (parse_value_f sn n)) m (l ++ RCB :: r) e = Ok (r, e).

Lemma rstop : closer RBR. Proof. unfold closer; lia. Qed.
Lemma rcstop : closer RCB. Proof. unfold closer; lia. Qed.
Lemma cstop : closer COMMA. Proof. unfold closer; lia. Qed.
Hint Resolve rstop rcstop cstop : core.

Lemma num_follow v g c t : gap g -> closer c -> rnumber v -> num_stop v (g ++ c :: t).
Proof. intros Hg Hc _. apply follow_num_stop. now apply gap_follow. Qed.

Lemma is_object_head l r : welems l -> is_object (LBR :: l ++ r) = false.
Proof.
  destruct 1; rewrite <- !app_assoc; apply is_object_elems; auto using wvalue_head.
Qed.

Lemma wstring_head k : wstring k -> exists c t, k = c :: t /\ vstart c.
Proof. destruct 1. eexists _, _. split; [reflexivity|]. unfold vstart. lia. Qed.

Lemma member_head k y : wstring k -> exists c t, k ++ y = c :: t /\ vstart c.
Proof. intros Hk. destruct (wstring_head k Hk) as (c & t & -> & Hc). cbn. eauto. Qed.

Lemma complete :
  (forall v, wvalue v -> Pv v) /\ (forall l, welems l -> Pel l) /\ (forall l, wmembers l -> Pme l).
Proof.
  apply wjson_ind; unfold Pv, Pel, Pme.
  - intros n r e Hn _. destruct n; [cbn in Hn; lia|]. reflexivity.
  - intros n r e Hn _. destruct n; [cbn in Hn; lia|]. reflexivity.
  - intros n r e Hn _. destruct n; [cbn in Hn; lia|]. reflexivity.
  - intros v Hv n r e Hn Hs. destruct n; [lia|]. cbn [parse_value_f].
    destruct (rnumber_head v Hv) as (c & t & Ev & Hc).
    assert (is_null (v ++ r) = false /\ is_bool (v ++ r) = false /\ is_number (v ++ r) = true) as (-> & -> & ->).
    { subst v. unfold is_null, is_bool, is_number, starts, is_digit, s_digit in *. cbn [app]. lia. }
    rewrite parse_number_app; auto.
  - intros s Hs n r e Hn _. destruct n; [lia|]. cbn [parse_value_f].
    assert (is_null (s ++ r) = false /\ is_bool (s ++ r) = false /\ is_number (s ++ r) = false /\ is_string (s ++ r) = true) as (-> & -> & -> & ->) by (destruct Hs; cbn; auto).
    now apply parse_string_app.
  - intros g Hg n r e Hn _. destruct n; [lia|]. cbn [app]. rewrite <- app_assoc. cbn [app parse_value_f].
    cbn [is_null is_bool is_number is_string starts].
    rewrite is_object_empty by exact Hg. cbn [Z.eqb Pos.eqb orb is_digit].
    unfold parse_object. rewrite is_object_empty by exact Hg. cbn [negb step bind].
    rewrite gap_parse_space; [|exact Hg|now apply closer_stop]. reflexivity.
  - intros l Hl IH n r e Hn _. destruct n; [lia|]. cbn [app]. rewrite <- app_assoc. cbn [app parse_value_f].
    cbn [is_null is_bool is_number is_string starts].
    rewrite is_object_head by exact Hl. cbn [Z.eqb Pos.eqb orb is_digit].
    unfold parse_array. cbn [is_array starts Z.eqb Pos.eqb negb step bind].
    flens. apply IH; flens; lia.
  - intros g Hg n r e Hn _. destruct n; [lia|]. cbn [app]. rewrite <- app_assoc. cbn [app parse_value_f].
    change (is_object (LCB :: g ++ RCB :: r)) with true. cbn [is_null is_bool is_number is_string starts Z.eqb Pos.eqb orb is_digit].
    unfold parse_object. change (is_object (LCB :: g ++ RCB :: r)) with true. cbn [negb step bind].
    rewrite gap_parse_space; [|exact Hg|now apply closer_stop]. cbn [starts Z.eqb Pos.eqb].
    apply (items_end sn RCB _ _ [] r e); [auto|constructor].
  - intros g Hg n r e Hn _. destruct n; [lia|]. cbn [app]. rewrite <- app_assoc. cbn [app parse_value_f].
    change (is_object (LCB :: g ++ RBR :: r)) with true. cbn [is_null is_bool is_number is_string starts Z.eqb Pos.eqb orb is_digit].
    unfold parse_object. change (is_object (LCB :: g ++ RBR :: r)) with true. cbn [negb step bind].
    rewrite gap_parse_space; [|exact Hg|now apply closer_stop]. reflexivity.
  - intros l Hl IH n r e Hn _. destruct n; [lia|]. cbn [app]. rewrite <- app_assoc. cbn [app parse_value_f].
    change (is_object (LCB :: l ++ RCB :: r)) with true. cbn [is_null is_bool is_number is_string starts Z.eqb Pos.eqb orb is_digit].
    unfold parse_object. change (is_object (LCB :: l ++ RCB :: r)) with true. cbn [negb step bind].
    assert (K : exists g1 y, l ++ RCB :: r = g1 ++ y /\ gap g1 /\ exists c t, y = c :: t /\ c = QT).
    { destruct Hl; rewrite <- !app_assoc; eexists g1, _; (split; [reflexivity|split; [assumption|]]);
        match goal with H : wstring _ |- _ => destruct H end; eexists _, _; split; reflexivity. }
    destruct K as (g1 & y & E & Hg1 & c & t & -> & ->).
    specialize (IH n). rewrite E. rewrite gap_parse_space; [|exact Hg1|cbn; unfold s_ws; lia].
    cbn [starts Z.eqb Pos.eqb].
    (* the gap has been skipped before the loop; relate to the loop on l *)
    pose proof (f_equal (@length Z) E) as HL0. specialize (IH (S (length (l ++ RCB :: r))) r e). rewrite E in IH. flens.
    rewrite <- IH by lia. clear IH.
    set (item := parse_member (parse_value_f sn n)).
    assert (Hloop : forall m, items_loop sn RCB item (S m) (g1 ++ QT :: t) e = items_loop sn RCB item (S m) (QT :: t) e).
    { intro m. cbn [items_loop]. change (QT =? RCB) with false. cbv iota.
      rewrite (space_stop (QT :: t)) by (cbn; unfold s_ws; lia).
      destruct (g1 ++ QT :: t) as [|c0 t0] eqn:E0; [destruct g1; discriminate|].
      destruct (c0 =? RCB) eqn:Ec.
      { exfalso. bool2prop. subst c0. destruct (gap_head g1 Hg1) as [->|(d & z & -> & Hd)]; cbn in E0; injection E0 as E0 _.
        - discriminate.
        - subst d. unfold s_ws in Hd. lia. }
      rewrite <- E0, gap_parse_space; [|exact Hg1|cbn; unfold s_ws; lia]. reflexivity. }
    rewrite Hloop. apply items_fuel; cbn [length]; try lia.
    + intros s' Hs'. apply member_law. intros s'' Hs''. apply parse_value_law.
      assert (HL : length (l ++ RCB :: r) = length (g1 ++ QT :: t)) by (rewrite E; reflexivity).
      flens. lia.
    + reflexivity.
  - intros g1 v g2 Hg1 Hv IH Hg2 n m r e Hn Hm. destruct m; [lia|]. rewrite <- !app_assoc in *.
    rewrite items_step; auto using wvalue_head.
    + change (RBR =? COMMA) with false. cbv iota. destruct m; [flens; lia|].
      apply (items_end sn RBR _ _ [] r e); [auto|constructor].
    + apply IH; [flens; lia|]. now apply num_follow.
  - intros g1 v g2 g3 Hg1 Hv IH Hg2 Hg3 n m r e Hn Hm. destruct m; [lia|]. rewrite <- !app_assoc in *. cbn [app] in *.
    rewrite items_step; auto using wvalue_head.
    + change (COMMA =? COMMA) with true. cbv iota. destruct m; [flens; lia|].
      apply items_end; auto.
    + apply IH; [flens; lia|]. now apply num_follow.
  - intros g1 v g2 l Hg1 Hv IH Hg2 Hl IHl n m r e Hn Hm. destruct m; [lia|]. rewrite <- !app_assoc in *. cbn [app] in *.
    rewrite items_step; auto using wvalue_head.
    + change (COMMA =? COMMA) with true. cbv iota. apply IHl; flens; lia.
    + apply IH; [flens; lia|]. now apply num_follow.
  - intros g1 k g2 g3 v g4 Hg1 Hk Hg2 Hg3 Hv IH Hg4 n m r e Hn Hm. destruct m; [lia|].
    replace ((g1 ++ k ++ g2 ++ COLON :: g3 ++ v ++ g4) ++ RCB :: r) with (g1 ++ (k ++ g2 ++ COLON :: g3 ++ v) ++ g4 ++ RCB :: r) in *
      by (repeat (rewrite <- ?app_assoc; cbn [app]); reflexivity).
    rewrite items_step; auto using member_head.
    + change (RCB =? COMMA) with false. cbv iota. destruct m; [flens; lia|].
      apply (items_end sn RCB _ _ [] r e); [auto|constructor].
    + replace ((k ++ g2 ++ COLON :: g3 ++ v) ++ g4 ++ RCB :: r) with (k ++ g2 ++ COLON :: g3 ++ v ++ (g4 ++ RCB :: r))
        by (repeat (rewrite <- ?app_assoc; cbn [app]); reflexivity).
      apply member_app; auto using wvalue_head. apply IH; [flens; lia|]. now apply num_follow.
  - intros g1 k g2 g3 v g4 g5 Hg1 Hk Hg2 Hg3 Hv IH Hg4 Hg5 n m r e Hn Hm. destruct m; [lia|].
    replace ((g1 ++ k ++ g2 ++ COLON :: g3 ++ v ++ g4 ++ COMMA :: g5) ++ RCB :: r) with (g1 ++ (k ++ g2 ++ COLON :: g3 ++ v) ++ g4 ++ COMMA :: (g5 ++ RCB :: r)) in *
      by (repeat (rewrite <- ?app_assoc; cbn [app]); reflexivity).
    rewrite items_step; auto using member_head.
    + change (COMMA =? COMMA) with true. cbv iota. destruct m; [flens; lia|].
      apply items_end; auto.
    + replace ((k ++ g2 ++ COLON :: g3 ++ v) ++ g4 ++ COMMA :: (g5 ++ RCB :: r)) with (k ++ g2 ++ COLON :: g3 ++ v ++ (g4 ++ COMMA :: (g5 ++ RCB :: r)))
        by (repeat (rewrite <- ?app_assoc; cbn [app]); reflexivity).
      apply member_app; auto using wvalue_head. apply IH; [flens; lia|]. now apply num_follow.
  - intros g1 k g2 g3 v g4 l Hg1 Hk Hg2 Hg3 Hv IH Hg4 Hl IHl n m r e Hn Hm. destruct m; [lia|].
    replace ((g1 ++ k ++ g2 ++ COLON :: g3 ++ v ++ g4 ++ COMMA :: l) ++ RCB :: r) with (g1 ++ (k ++ g2 ++ COLON :: g3 ++ v) ++ g4 ++ COMMA :: (l ++ RCB :: r)) in *
      by (repeat (rewrite <- ?app_assoc; cbn [app]); reflexivity).
    rewrite items_step; auto using member_head.
    + change (COMMA =? COMMA) with true. cbv iota. apply IHl; flens; lia.
    + replace ((k ++ g2 ++ COLON :: g3 ++ v) ++ g4 ++ COMMA :: (l ++ RCB :: r)) with (k ++ g2 ++ COLON :: g3 ++ v ++ (g4 ++ COMMA :: (l ++ RCB :: r)))
        by (repeat (rewrite <- ?app_assoc; cbn [app]); reflexivity).
      apply member_app; auto using wvalue_head. apply IH; [flens; lia|]. now apply num_follow.
Qed.
End Complete.

Theorem parse_complete sn v r e : waccept v r -> parse sn (v ++ r) e = Ok (r, e).
Proof.
  intros [Hv Hs]. unfold parse, parse_value. apply complete; [exact Hv|lia|exact Hs].
Qed.

(** ------------- soundness ------------- *)
Inductive glist (I : buf -> Prop) : buf -> Prop :=
| gl_one g1 v g2 : gap g1 -> I v -> gap g2 -> glist I (g1 ++ v ++ g2)
| gl_trail g1 v g2 g3 : gap g1 -> I v -> gap g2 -> gap g3 -> glist I (g1 ++ v ++ g2 ++ COMMA :: g3)
| gl_more g1 v g2 l : gap g1 -> I v -> gap g2 -> glist I l -> glist I (g1 ++ v ++ g2 ++ COMMA :: l).

Lemma glist_elems l : glist wvalue l -> welems l.
Proof. induction 1; [apply wel_one|apply wel_trail|apply wel_more]; assumption. Qed.

Definition memtext (x : buf) : Prop := exists k g2 g3 v, x = k ++ g2 ++ COLON :: g3 ++ v /\
  wstring k /\ gap g2 /\ gap g3 /\ wvalue v.
Lemma glist_members l : glist memtext l -> wmembers l.
Proof.
  induction 1 as [g1 v g2 H1 (k & a & b & v' & -> & Hk & Ha & Hb & Hv) H2
                 |g1 v g2 g3 H1 (k & a & b & v' & -> & Hk & Ha & Hb & Hv) H2 H3
                 |g1 v g2 l H1 (k & a & b & v' & -> & Hk & Ha & Hb & Hv) H2 Hl IH];
    repeat (rewrite <- ?app_assoc; cbn [app]); [apply wme_one|apply wme_trail|apply wme_more]; assumption.
Qed.

(** reading off the clean outcome of a step *)
Lemma rgood_clean s r o : outcome s r o ->
  (o = None) \/ (r = [] /\ bad (app_err (Some no_error) o)).
Proof.
  intros (_ & H & Hr). destruct o as [j|]; [right|now left]. split; [apply Hr; congruence|].
  exists j. split; [reflexivity|apply H].
Qed.

Lemma items_sound sn close item I :
  (forall s, bytes s -> rlawS sn item s) ->
  (forall s r, bytes s -> item s (Some no_error) = Ok (r, Some no_error) -> exists v, s = v ++ r /\ I v) ->
  forall n s r, bytes s ->
  items_loop sn close item n s (Some no_error) = Ok (r, Some no_error) ->
  (exists g, s = g ++ close :: r /\ gap g) \/ (exists l, s = l ++ close :: r /\ glist I l).
Proof.
  intros Hlaw Hsound. induction n as [|n IH]; intros s r Hb H; cbn [items_loop] in H; [discriminate|].
  assert (Hclose : forall g s', s = g ++ s' -> gap g -> Ok (close_with close s' (Some no_error)) = Ok (r, Some no_error) ->
      (exists g, s = g ++ close :: r /\ gap g)).
  { intros g s' -> Hg E. unfold close_with in E. destruct s' as [|c' t']; [discriminate|].
    destruct (c' =? close) eqn:Ec; cbn [negb] in E; [|discriminate]. bool2prop. subst c'.
    injection E as ->. exists g. split; [reflexivity|exact Hg]. }
  destruct s as [|c0 s0]; [left; apply (Hclose [] []); [reflexivity|constructor|exact H]|].
  destruct (c0 =? close); [left; apply (Hclose [] (c0 :: s0)); [reflexivity|constructor|exact H]|].
  remember (c0 :: s0) as s eqn:Es. clear Es c0 s0.
  destruct (space_good s) as (s1 & o1 & A1 & B1). rewrite A1 in H.
  destruct (deref sn s1) as [c1| |] eqn:Ed; cbn [bind] in H; [|discriminate|discriminate].
  destruct (rgood_clean _ _ _ B1) as [->|[-> Hbad]].
  2:{ exfalso. destruct (c1 =? close).
      - cbn in H. injection H as _ H. rewrite cerr_app, bad_app in H by exact Hbad. now apply bad_not_ok in Hbad.
      - destruct (Hlaw [] ltac:(constructor)) as [(r2 & o2 & A2 & B2 & _)|(_ & Hub)].
        2:{ rewrite Hub in H. discriminate. }
        rewrite A2, (bad_app _ _ Hbad) in H. cbn [bind] in H.
        apply proj1, suffix_of_nil in B2. subst r2. cbn [parse_space] in H.
        unfold parse_space in H. cbn [space_loop] in H. injection H as _ H.
        rewrite cerr_app, bad_app in H by exact Hbad. now apply bad_not_ok in Hbad. }
  cbn [app_err] in H. pose proof (A1 (Some no_error)) as A1'. cbn [app_err] in A1'.
  apply space_ok_inv in A1'. destruct A1' as (g1 & Es & Hg1 & _).
  destruct (c1 =? close) eqn:Ec1; [left; apply (Hclose g1 s1 Es Hg1 H)|].
  assert (Hb1 : bytes s1) by (eapply suffix_bytes; [apply B1|exact Hb]).
  destruct (Hlaw s1 Hb1) as [(s2 & o2 & A2 & B2 & _)|(_ & Hub)].
  2:{ rewrite Hub in H. discriminate. }
  rewrite A2 in H. cbn [bind] in H.
  destruct (rgood_clean _ _ _ B2) as [->|[-> Hbad]].
  2:{ exfalso. unfold parse_space in H. cbn [space_loop] in H. injection H as _ H.
      rewrite cerr_app, bad_app in H by exact Hbad. now apply bad_not_ok in Hbad. }
  cbn [app_err] in H. pose proof (A2 (Some no_error)) as A2'. cbn [app_err] in A2'.
  destruct (Hsound _ _ Hb1 A2') as (v & E1 & Hv).
  destruct (space_good s2) as (s3 & o3 & A3 & B3). rewrite A3 in H.
  destruct (rgood_clean _ _ _ B3) as [->|[-> Hbad]].
  2:{ exfalso. injection H as _ H.
      rewrite cerr_app, bad_app in H by exact Hbad. now apply bad_not_ok in Hbad. }
  cbn [app_err] in H. pose proof (A3 (Some no_error)) as A3'. cbn [app_err] in A3'.
  apply space_ok_inv in A3'. destruct A3' as (g2 & E2 & Hg2 & _).
  destruct s3 as [|c3 t3]; [discriminate|].
  destruct (negb (c3 =? COMMA) && negb (c3 =? close)) eqn:Ec3; [discriminate|].
  assert (Hb3 : bytes (c3 :: t3)).
  { eapply suffix_bytes; [apply B3|]. eapply suffix_bytes; [apply B2|exact Hb1]. }
  right. subst s s1 s2.
  destruct (c3 =? COMMA) eqn:Ecm.
  - bool2prop. subst c3. inversion Hb3; subst.
    destruct (IH t3 r ltac:(assumption) H) as [(g & -> & Hg)|(l & -> & Hl)].
    + exists (g1 ++ v ++ g2 ++ COMMA :: g). split; [repeat (rewrite <- ?app_assoc; cbn [app]); reflexivity|].
      now apply gl_trail.
    + exists (g1 ++ v ++ g2 ++ COMMA :: l). split; [repeat (rewrite <- ?app_assoc; cbn [app]); reflexivity|].
      now apply gl_more.
  - bool2prop. assert (c3 = close) by lia. subst c3.
    assert (r = t3).
    { destruct n; [discriminate|]. cbn [items_loop] in H. rewrite Z.eqb_refl in H.
      cbn in H. rewrite Z.eqb_refl in H. cbn in H. congruence. }
    subst t3. exists (g1 ++ v ++ g2). split; [repeat (rewrite <- ?app_assoc; cbn [app]); reflexivity|].
    now apply gl_one.
Qed.

Lemma member_sound sn pv :
  (forall s, bytes s -> rlawS sn pv s) ->
  (forall s r, bytes s -> pv s (Some no_error) = Ok (r, Some no_error) -> exists v, s = v ++ r /\ wvalue v) ->
  forall s r, bytes s -> parse_member pv s (Some no_error) = Ok (r, Some no_error) ->
  exists x, s = x ++ r /\ memtext x.
Proof.
  intros Hlaw Hsound s r Hb H. unfold parse_member in H.
  destruct (negb (is_string s)); [discriminate|].
  destruct (string_good s) as (s1 & o1 & A1 & B1). rewrite A1 in H. cbn [bind] in H.
  destruct (rgood_clean _ _ _ B1) as [->|[-> Hbad]].
  2:{ exfalso. injection H as _ H. rewrite cerr_app, bad_app in H by exact Hbad. now apply bad_not_ok in Hbad. }
  cbn [app_err] in H. pose proof (A1 (Some no_error)) as A1'. cbn [app_err] in A1'.
  apply parse_string_inv in A1'; [|exact Hb]. destruct A1' as (k & E1 & Hk).
  destruct s1 as [|c1 t1]; [discriminate|].
  destruct (space_good (c1 :: t1)) as (s2 & o2 & A2 & B2). rewrite A2 in H.
  destruct (rgood_clean _ _ _ B2) as [->|[-> Hbad]].
  2:{ exfalso. injection H as _ H. rewrite cerr_app, bad_app in H by exact Hbad. now apply bad_not_ok in Hbad. }
  cbn [app_err] in H. pose proof (A2 (Some no_error)) as A2'. cbn [app_err] in A2'.
  apply space_ok_inv in A2'. destruct A2' as (g2 & E2 & Hg2 & _).
  destruct s2 as [|c2 t2]; [discriminate|].
  destruct (c2 =? COLON) eqn:Ec; cbn [negb] in H; [|discriminate]. bool2prop. subst c2.
  destruct t2 as [|c3 t3]; [discriminate|].
  destruct (space_good (c3 :: t3)) as (s4 & o4 & A4 & B4). rewrite A4 in H.
  destruct (rgood_clean _ _ _ B4) as [->|[-> Hbad]].
  2:{ exfalso. injection H as _ H. rewrite cerr_app, bad_app in H by exact Hbad. now apply bad_not_ok in Hbad. }
  cbn [app_err] in H. pose proof (A4 (Some no_error)) as A4'. cbn [app_err] in A4'.
  apply space_ok_inv in A4'. destruct A4' as (g4 & E4 & Hg4 & _).
  destruct s4 as [|c4 t4]; [discriminate|].
  assert (Hb4 : bytes (c4 :: t4)).
  { rewrite E1, E2, E4 in Hb. unfold bytes in Hb. rewrite !Forall_app in Hb.
    destruct Hb as (_ & _ & Hb). inversion Hb; subst. rewrite Forall_app in H3. apply H3. }
  destruct (Hsound _ _ Hb4 H) as (v & Ev & Hv).
  exists (k ++ g2 ++ COLON :: g4 ++ v). split.
  - rewrite E1, E2, E4, Ev. repeat (rewrite <- ?app_assoc; cbn [app]). reflexivity.
  - exists k, g2, g4, v. auto.
Qed.

Lemma parse_value_sound sn : forall n s r, bytes s -> (length s < n)%nat ->
  parse_value_f sn n s (Some no_error) = Ok (r, Some no_error) ->
  exists v, s = v ++ r /\ waccept v r.
Proof.
  induction n as [|n IH]; intros s r Hb Hn H; [lia|]. cbn [parse_value_f] in H.
  assert (Hlit : forall lit, (exists c t, lit = c :: t /\ ~ s_digit c /\ c <> MINUS) -> s = lit ++ r -> wvalue lit -> exists v, s = v ++ r /\ waccept v r).
  { intros lit (c & t & -> & H1 & H2) -> Hw. eexists. split; [reflexivity|]. split; [exact Hw|].
    intros Hnum. exfalso. destruct (rnumber_head _ Hnum) as (c' & t' & E & Hc). injection E as <- _. tauto. }
  destruct (is_null s) eqn:E1.
  { destruct s as [|c t]; [discriminate|]. cbn in E1. bool2prop. subst c. unfold parse_null in H.
    change (110 =? 110) with true in H. cbv iota in H.
    assert (H' : finish_lit (lit_chain (text "ull") 0 t) (text "null") (Some no_error) = (r, Some no_error)) by congruence.
    apply finish_lit_clean in H'. subst t. apply (Hlit (text "null")); [|reflexivity|constructor].
    eexists _, _. split; [reflexivity|]. unfold s_digit. cbn. lia. }
  destruct (is_bool s) eqn:E2.
  { destruct s as [|c t]; [discriminate|]. unfold parse_bool in H.
    destruct (c =? 116) eqn:Et; [|destruct (c =? 102) eqn:Ef; [|discriminate]]; bool2prop; subst c.
    - assert (H' : finish_lit (lit_chain (text "rue") 0 t) (text "true") (Some no_error) = (r, Some no_error)) by congruence.
      apply finish_lit_clean in H'. subst t. apply (Hlit (text "true")); [|reflexivity|constructor].
      eexists _, _. split; [reflexivity|]. unfold s_digit. cbn. lia.
    - assert (H' : finish_lit (lit_chain (text "alse") 0 t) (text "false") (Some no_error) = (r, Some no_error)) by congruence.
      apply finish_lit_clean in H'. subst t. apply (Hlit (text "false")); [|reflexivity|constructor].
      eexists _, _. split; [reflexivity|]. unfold s_digit. cbn. lia. }
  destruct (is_number s) eqn:E3.
  { assert (H' : parse_number s (Some no_error) = (r, Some no_error)) by congruence.
    apply parse_number_inv in H'. destruct H' as (v & -> & Hv & Hs). exists v. split; [reflexivity|].
    split; [now constructor|auto]. }
  destruct (is_string s) eqn:E4.
  { apply parse_string_inv in H; [|exact Hb]. destruct H as (k & -> & Hk).
    apply (Hlit k); [|reflexivity|now constructor]. destruct Hk. eexists _, _. split; [reflexivity|].
    unfold s_digit. lia. }
  assert (Hlaw : forall s', bytes s' -> (length s' < n)%nat -> rlawS sn (parse_value_f sn n) s').
  { intros s' _ Hs'. now apply parse_value_law. }
  (* make the item parser total in its law by restricting to short inputs *)
  set (pv := fun s' e' => if (length s' <? n)%nat then parse_value_f sn n s' e' else Ok ([], cerr InvalidJSON None 0 e')).
  assert (Lpv : forall s', bytes s' -> rlawS sn pv s').
  { intros s' Hs'. unfold rlawS, rgoodS, pv. destruct (Nat.ltb_spec (length s') n).
    - apply Hlaw; assumption.
    - left. eexists [], (Some (mkerr InvalidJSON None 0)). split; [reflexivity|].
      split; [apply outcome_err; [discriminate|pose proof (dist_nonneg s'); lia]|]. intro; discriminate. }
  assert (Spv : forall s' r', bytes s' -> pv s' (Some no_error) = Ok (r', Some no_error) -> exists v, s' = v ++ r' /\ wvalue v).
  { intros s' r' Hs'. unfold pv. destruct (Nat.ltb_spec (length s') n); [|discriminate]. intros Hp.
    destruct (IH _ _ Hs' ltac:(assumption) Hp) as (v & -> & Hv & _). eauto. }
  assert (Eqv : forall s' e', (length s' < n)%nat -> parse_value_f sn n s' e' = pv s' e').
  { intros s' e' Hs'. unfold pv. destruct (Nat.ltb_spec (length s') n); [reflexivity|lia]. }
  destruct (is_object s) eqn:E5.
  { unfold parse_object in H. rewrite E5 in H. cbn [negb] in H.
    destruct s as [|c t]; [discriminate|]. cbn [step bind] in H. cbn [length] in Hn. inversion Hb; subst.
    destruct (space_good t) as (s1 & o1 & A1 & B1). rewrite A1 in H.
    pose proof (suffix_len _ _ (proj1 B1)) as L1.
    assert (Hb1 : bytes s1) by (eapply suffix_bytes; [apply B1|assumption]).
    destruct (rgood_clean _ _ _ B1) as [->|[-> Hbad]].
    2:{ exfalso. cbn in H. injection H as _ H. rewrite cerr_app, bad_app in H by exact Hbad. now apply bad_not_ok in Hbad. }
    cbn [app_err] in H. pose proof (A1 (Some no_error)) as A1'. cbn [app_err] in A1'.
    apply space_ok_inv in A1'. destruct A1' as (g & -> & Hg & Hst).
    destruct (starts RBR s1) eqn:Es.
    - destruct (starts_inv _ _ Es) as (t1 & ->). cbn in H. injection H as ->.
      assert (Hcc : c = LCB \/ c = LBR).
      { unfold is_object in E5. destruct (c =? LCB) eqn:K1; [bool2prop; now left|]. destruct (c =? LBR) eqn:K2; [bool2prop; now right|]. cbn in E5. discriminate. }
      apply (Hlit (c :: g ++ [RBR])).
      + eexists _, _. split; [reflexivity|]. unfold s_digit. lia.
      + cbn. rewrite <- app_assoc. reflexivity.
      + destruct Hcc as [-> | ->]; now constructor.
    - assert (c = LCB) as ->.
      { unfold is_object in E5. destruct (c =? LCB) eqn:K1; [bool2prop; exact K1|]. destruct (c =? LBR) eqn:K2; cbn in E5; [|discriminate].
        rewrite A1 in E5. congruence. }
      rewrite (items_fuel sn RCB _ (parse_member pv) _ (S (length s1))) in H; try lia.
      2:{ intros s' Hs'. apply member_law. intros s'' Hs''. apply parse_value_law. lia. }
      2:{ intros s' e' Hs'. apply member_fuel. intros s'' e'' Hs''. apply Eqv. lia. }
      apply (items_sound sn RCB (parse_member pv) memtext) in H; [| | |exact Hb1].
      + destruct H as [(g' & -> & Hg')|(l & -> & Hl)].
        * (* after parse_space the text starts with close *)
          destruct (gap_head g' Hg') as [->|(d & z & -> & Hd)].
          -- apply (Hlit (LCB :: g ++ [RCB])).
             ++ eexists _, _. split; [reflexivity|]. unfold s_digit. lia.
             ++ cbn. rewrite <- app_assoc. reflexivity.
             ++ now constructor.
          -- exfalso. cbn in Hst. tauto.
        * assert (Hgl : glist memtext (g ++ l)).
          { assert (Hnil : forall g1 x, glist memtext (g1 ++ x) -> l = g1 ++ x -> gap g1 -> g1 = []).
            { intros g1 x _ El Hg1. destruct (gap_head g1 Hg1) as [->|(d & z & -> & Hd)]; [reflexivity|].
              exfalso. subst l. cbn in Hst. tauto. }
            destruct Hl as [g1 v g2 G1 Hv G2|g1 v g2 g3 G1 Hv G2 G3|g1 v g2 l G1 Hv G2 Hl].
            - assert (g1 = []) as -> by (eapply Hnil; [|reflexivity|]; [now apply gl_one|assumption]).
              cbn [app]. now apply gl_one.
            - assert (g1 = []) as -> by (eapply Hnil; [|reflexivity|]; [now apply gl_trail|assumption]).
              cbn [app]. now apply gl_trail.
            - assert (g1 = []) as -> by (eapply Hnil; [|reflexivity|]; [now apply gl_more|assumption]).
              cbn [app]. now apply gl_more. }
          apply (Hlit (LCB :: (g ++ l) ++ [RCB])).
          -- eexists _, _. split; [reflexivity|]. unfold s_digit. lia.
          -- cbn. rewrite <- !app_assoc. reflexivity.
          -- apply wv_obj, glist_members, Hgl.
      + intros s' Hs'. apply member_law. intros s'' Hs''. unfold rlawS, rgoodS, pv.
        destruct (Nat.ltb_spec (length s'') n).
        * apply parse_value_law. assumption.
        * left. eexists [], (Some (mkerr InvalidJSON None 0)). split; [reflexivity|].
          split; [apply outcome_err; [discriminate|pose proof (dist_nonneg s''); lia]|]. intro; discriminate.
      + apply (member_sound sn pv Lpv Spv). }
  destruct (is_array s) eqn:E6; [|discriminate].
  unfold parse_array in H. rewrite E6 in H. cbn [negb] in H.
  destruct s as [|c t]; [discriminate|]. cbn [step bind] in H. cbn [length] in Hn. inversion Hb; subst.
  cbn in E6. bool2prop. subst c.
  rewrite (items_fuel sn RBR _ pv _ (S (length t))) in H; try lia.
  2:{ intros s' Hs'. apply parse_value_law. lia. }
  2:{ intros s' e' Hs'. apply Eqv. lia. }
  apply (items_sound sn RBR pv wvalue Lpv Spv) in H; [|assumption].
  destruct H as [(g & -> & Hg)|(l & -> & Hl)].
  - exfalso. rewrite is_object_empty in E5 by exact Hg. discriminate.
  - apply (Hlit (LBR :: l ++ [RBR])).
    + eexists _, _. split; [reflexivity|]. unfold s_digit. lia.
    + cbn. rewrite <- app_assoc. reflexivity.
    + apply wv_arr, glist_elems, Hl.
Qed.

Theorem parse_exact sn s r : bytes s ->
  (parse sn s (Some no_error) = Ok (r, Some no_error) <-> exists v, s = v ++ r /\ waccept v r).
Proof.
  intros Hb. split.
  - unfold parse, parse_value. apply parse_value_sound; [exact Hb|lia].
  - intros (v & -> & Hv). now apply parse_complete.
Qed.

(** ------------- RFC 8259 texts ------------- *)
Lemma utf8_encode_wchar cp : scalar cp -> 32 <= cp -> cp <> 34 -> cp <> 92 -> wchar (utf8_encode cp).
Proof.
  intros [Hs _] H1 H2 H3. unfold utf8_encode.
  destruct (Z.ltb_spec cp 128); [constructor; lia|].
  assert (M : forall x, s_cont (128 + x mod 64)) by (intro x; unfold s_cont; pose proof (Z.mod_pos_bound x 64); lia).
  destruct (Z.ltb_spec cp 2048).
  { apply wc_multi with 1%nat; [|reflexivity|repeat constructor; apply M].
    apply wl2. pose proof (Z.div_le_lower_bound cp 64 2). pose proof (Z.div_lt_upper_bound cp 64 32). lia. }
  destruct (Z.ltb_spec cp 65536).
  { apply wc_multi with 2%nat; [|reflexivity|repeat constructor; apply M].
    apply wl3. pose proof (Z.div_pos cp 4096). pose proof (Z.div_lt_upper_bound cp 4096 16). lia. }
  apply wc_multi with 3%nat; [|reflexivity|repeat constructor; apply M].
  apply wl4. pose proof (Z.div_pos cp 262144). pose proof (Z.div_lt_upper_bound cp 262144 5). lia.
Qed.

Lemma rchar_wchar c : rchar c -> wchar c.
Proof. destruct 1; [now apply utf8_encode_wchar|now constructor|now constructor]. Qed.
Lemma rchars_wchars c : rchars c -> wchars c.
Proof. induction 1; constructor; auto using rchar_wchar. Qed.
Lemma rstring_wstring c : rstring c -> wstring c.
Proof. destruct 1; constructor; auto using rchars_wchars. Qed.

Lemma rfc_wjson :
  (forall v, rvalue v -> wvalue v) /\ (forall l, relems l -> welems l) /\ (forall l, rmembers l -> wmembers l).
Proof.
  apply rjson_ind; intros; try (constructor; auto using ws_gap, rstring_wstring; fail).
Qed.

Theorem rfc_accept sn v r e : rvalue v -> follow r -> parse sn (v ++ r) e = Ok (r, e).
Proof.
  intros Hv Hr. apply parse_complete. split; [now apply rfc_wjson|]. intros _. now apply follow_num_stop.
Qed.

Lemma rvalue_head v : rvalue v -> exists c t, v = c :: t /\ vstart c.
Proof. intros H. apply wvalue_head, rfc_wjson, H. Qed.
