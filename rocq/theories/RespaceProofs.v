(** Readers see tokens, not the gaps between them. *)
From Verif Require Import Base Parser SpecJson SpecDespace ParserFacts Grammar1 Grammar2 Out CodecLaws SpecMisc Number NumberProofs StringS DespaceProofs
  Array Unord Object ObjectArray Enum Wrap Float FloatProofs Desc SpecEnd SpecRespace.

Definition clean0 : eptr := Some no_error.
Lemma punct_cases c : punct c -> c = LCB \/ c = RCB \/ c = LBR \/ c = RBR \/ c = COMMA \/ c = COLON.
Proof. unfold punct. cbn [In]. lia. Qed.
Lemma punct_in c : c = LCB \/ c = RCB \/ c = LBR \/ c = RBR \/ c = COMMA \/ c = COLON -> punct c.
Proof. unfold punct. cbn [In]. lia. Qed.

(** Token heads *)
Definition thead (c : Z) : Prop := punct c \/ c = 110 \/ c = 116 \/ c = 102 \/ c = MINUS \/ s_digit c \/ c = QT.
Lemma token_head t : token t -> exists c z, t = c :: z /\ thead c.
Proof.
  unfold thead. destruct 1 as [c Hc| | | |n Hn|s Hs].
  - exists c, []. split; [reflexivity|]. now left.
  - exists 110, (tl (text "null")). split; [reflexivity|]. tauto.
  - exists 116, (tl (text "true")). split; [reflexivity|]. tauto.
  - exists 102, (tl (text "false")). split; [reflexivity|]. tauto.
  - destruct (rnumber_head n Hn) as (c & z & -> & Hc). eexists _, _; split; [reflexivity|]. tauto.
  - destruct Hs. eexists _, _; split; [reflexivity|]. tauto.
Qed.
Lemma thead_stop c t : thead c -> stop (c :: t).
Proof. intros [H|H]; cbn; [apply punct_cases in H|]; unfold s_digit, s_ws in *; lia. Qed.
Lemma token_stop t s : token t -> stop (t ++ s).
Proof. intros H. destruct (token_head t H) as (c & z & -> & Hc). cbn [app]. now apply thead_stop. Qed.
Lemma token_punct t c z : token t -> t = c :: z -> punct c -> z = [].
Proof.
  intros H E Hc. apply punct_cases in Hc. destruct H as [c' Hc'| | | |n Hn|s Hs].
  - congruence.
  - vm_compute in E. injection E as <- _. lia.
  - vm_compute in E. injection E as <- _. lia.
  - vm_compute in E. injection E as <- _. lia.
  - destruct (rnumber_head n Hn) as (c' & z' & -> & Hc'). injection E as -> _. unfold s_digit in Hc'. lia.
  - destruct Hs. injection E as <- _. lia.
Qed.

Section R.
  Variable fx : Prop.
  (** the same tokens in two texts *)
  Inductive twin : list buf -> buf -> buf -> Prop :=
  | tw_end g g' : gap g -> gap g' -> twin [] g g'
  | tw_tok g g' t ts s s' : gap g -> gap g' -> token t -> (rnumber t -> follow s /\ follow s') ->
      (fx -> t = [COMMA] -> forall b, ts <> [RBR] :: b) -> twin ts s s' -> twin (t :: ts) (g ++ t ++ s) (g' ++ t ++ s').
  (** ... starting with a token *)
  Inductive twin0 : buf -> buf -> Prop :=
  | t0_end : twin0 [] []
  | t0_tok t ts s s' : token t -> (rnumber t -> follow s /\ follow s') ->
      (fx -> t = [COMMA] -> forall b, ts <> [RBR] :: b) -> twin ts s s' -> twin0 (t ++ s) (t ++ s').
  Lemma twin0_twin s s' : twin0 s s' -> exists ts, twin ts s s'.
  Proof.
    intros [|t ts z z' Ht Hn Hf H]; [exists []; constructor; constructor|]. exists (t :: ts).
    exact (tw_tok [] [] t ts z z' g_nil g_nil Ht Hn Hf H).
  Qed.

  Definition bad (e e' : eptr) : Prop := has_err e = true /\ has_err e' = true.
  Definition good (e e' : eptr) : Prop := e = clean0 /\ e' = clean0.
  Definition dead (s : buf) (e : eptr) (s' : buf) (e' : eptr) : Prop := bad e e' /\ s = [] /\ s' = [].
  Definition numc (c : Z) : Prop := c = DOT \/ c = 101 \/ c = 69.
  Definition mid (s s' : buf) : Prop := exists c t t', s = c :: t /\ s' = c :: t' /\ numc c.
  (** before a token, after one, after a gap *)
  Definition st0 s e s' e' : Prop := (good e e' /\ twin0 s s') \/ dead s e s' e'.
  Definition st1 s e s' e' : Prop := (good e e' /\ ((exists ts, twin ts s s') \/ mid s s')) \/ dead s e s' e'.
  Definition stm s e s' e' : Prop := (good e e' /\ (twin0 s s' \/ mid s s')) \/ dead s e s' e'.
  Lemma st0_m s e s' e' : st0 s e s' e' -> stm s e s' e'.
  Proof. intros [[H K]|H]; [left|right]; auto. Qed.
  Lemma stm_1 s e s' e' : stm s e s' e' -> st1 s e s' e'.
  Proof. intros [[H [K|K]]|H]; [left|left|right]; auto. split; [exact H|]. left. now apply twin0_twin. Qed.
  Lemma st0_1 s e s' e' : st0 s e s' e' -> st1 s e s' e'.
  Proof. intros H. now apply stm_1, st0_m. Qed.

  Lemma space_live ts s s' : twin ts s s' -> exists r r', (forall e, parse_space s e = (r, e)) /\ (forall e, parse_space s' e = (r', e)) /\
    twin0 r r' /\ (length r <= length s)%nat /\ (length r' <= length s')%nat /\
    (fx -> (forall b, ts <> [RBR] :: b) -> ~ heads RBR r).
  Proof.
    intros [g g' Hg Hg'|g g' t ts0 z z' Hg Hg' Ht Hn Hf H].
    - exists [], []. split; [|split; [|split; [constructor|]]].
      + intros e. rewrite <- (app_nil_r g). now apply gap_parse_space.
      + intros e. rewrite <- (app_nil_r g'). now apply gap_parse_space.
      + cbn [length]. split; [lia|]. split; [lia|]. intros _ _ [x Hx]. discriminate.
    - exists (t ++ z), (t ++ z'). split; [|split; [|split; [now apply (t0_tok t ts0)|]]].
      + intros e. apply gap_parse_space; [exact Hg|now apply token_stop].
      + intros e. apply gap_parse_space; [exact Hg'|now apply token_stop].
      + rewrite !app_length. split; [lia|]. split; [lia|]. intros _ Hb [x Hx].
        destruct (token_head t Ht) as (c & w & -> & Hc). cbn [app] in Hx. injection Hx as -> Hx.
        assert (w = []) as -> by (eapply token_punct; [exact Ht|reflexivity|apply punct_in; lia]).
        now apply (Hb ts0).
  Qed.
  Lemma space1 s e s' e' : st1 s e s' e' -> exists r r', parse_space s e = (r, e) /\ parse_space s' e' = (r', e') /\
    stm r e r' e' /\ (length r <= length s)%nat /\ (length r' <= length s')%nat.
  Proof.
    intros [[H [[ts K]|K]]|(H & -> & ->)].
    - destruct (space_live ts s s' K) as (r & r' & A & B & C & D & E & _). exists r, r'. rewrite A, B. split; [reflexivity|].
      split; [reflexivity|]. split; [left; auto|]. auto.
    - exists s, s'. destruct K as (c & t & t' & -> & -> & Hc). rewrite !space_stop by (unfold numc in Hc; cbn; unfold s_ws; lia).
      split; [reflexivity|]. split; [reflexivity|]. split; [|lia]. left. split; [exact H|]. right. now exists c, t, t'.
    - exists [], []. split; [reflexivity|]. split; [reflexivity|]. split; [now right|]. lia.
  Qed.
  (** what the two sides see after a gap *)
  Definition ends (e e' : eptr) : Prop := good e e' \/ bad e e'.
  Lemma twin0_cases s s' : twin0 s s' -> (s = [] /\ s' = []) \/
    exists c t t', s = c :: t /\ s' = c :: t' /\ thead c /\ (punct c -> exists ts, twin ts t t' /\ (fx -> c = COMMA -> forall b, ts <> [RBR] :: b)).
  Proof.
    intros [|t ts z z' Ht Hn Hf H]; [now left|right]. destruct (token_head t Ht) as (c & w & -> & Hc).
    exists c, (w ++ z), (w ++ z'). split; [reflexivity|]. split; [reflexivity|]. split; [exact Hc|]. intros P.
    assert (w = []) as -> by (eapply token_punct; [exact Ht|reflexivity|exact P]). exists ts. split; [exact H|].
    intros F -> b. now apply Hf.
  Qed.
  Lemma stm_cases s e s' e' : stm s e s' e' -> (s = [] /\ s' = [] /\ ends e e') \/
    (good e e' /\ exists c t t', s = c :: t /\ s' = c :: t' /\ (punct c -> exists ts, twin ts t t' /\ (fx -> c = COMMA -> forall b, ts <> [RBR] :: b)) /\
       (thead c /\ twin0 s s' \/ numc c)).
  Proof.
    intros [[H [K|K]]|(H & -> & ->)].
    - destruct (twin0_cases s s' K) as [[-> ->]|(c & t & t' & -> & -> & A & B)]; [left; split; [reflexivity|]; split; [reflexivity|now left]|].
      right. split; [exact H|]. exists c, t, t'. auto 7.
    - destruct K as (c & t & t' & -> & -> & Hc). right. split; [exact H|]. exists c, t, t'. split; [reflexivity|]. split; [reflexivity|].
      split; [|now right]. intros P. apply punct_cases in P. unfold numc in Hc. lia.
    - left. split; [reflexivity|]. split; [reflexivity|]. now right.
  Qed.

  (** ---- results ---- *)
  Definition rr {A} (P : A -> buf -> eptr -> buf -> eptr -> Prop) (s s' : buf) (x y : res (A * buf * eptr)) : Prop :=
    match x, y with
    | Ok (v, r, e), Ok (v', r', e') => v = v' /\ P v r e r' e' /\ (length r <= length s)%nat /\ (length r' <= length s')%nat
    | UB, UB => True
    | Fuel, Fuel => True
    | _, _ => False
    end.
  Definition rp (P : buf -> eptr -> buf -> eptr -> Prop) (s s' : buf) (x y : res (buf * eptr)) : Prop :=
    match x, y with
    | Ok (r, e), Ok (r', e') => P r e r' e' /\ (length r <= length s)%nat /\ (length r' <= length s')%nat
    | UB, UB => True
    | Fuel, Fuel => True
    | _, _ => False
    end.
  Notation "'all1'" := (fun _ => st1).
  Definition sim {A} (f : A -> buf -> eptr -> res (A * buf * eptr)) : Prop :=
    forall old s e s' e', st0 s e s' e' -> rr (fun _ => st1) s s' (f old s e) (f old s' e').
  Definition psim (f : buf -> eptr -> res (buf * eptr)) : Prop :=
    forall s e s' e', st0 s e s' e' -> rp st1 s s' (f s e) (f s' e').
  Lemma rr_bind {A B} P Q s s' t t' (x y : res (A * buf * eptr)) (k k' : A * buf * eptr -> res (B * buf * eptr)) :
    rr P s s' x y ->
    (forall v r e r' e', P v r e r' e' -> (length r <= length s)%nat -> (length r' <= length s')%nat -> rr Q t t' (k (v, r, e)) (k' (v, r', e'))) ->
    rr Q t t' (bind x k) (bind y k').
  Proof.
    intros H K. destruct x as [[[v r] e]| |], y as [[[v' r'] e']| |]; cbn [rr bind] in *; try contradiction; auto.
    destruct H as (<- & H & L1 & L2). now apply K.
  Qed.
  Lemma rr_pbind {B} P Q s s' t t' (x y : res (buf * eptr)) (k k' : buf * eptr -> res (B * buf * eptr)) :
    rp P s s' x y ->
    (forall r e r' e', P r e r' e' -> (length r <= length s)%nat -> (length r' <= length s')%nat -> rr Q t t' (k (r, e)) (k' (r', e'))) ->
    rr Q t t' (bind x k) (bind y k').
  Proof.
    intros H K. destruct x as [[r e]| |], y as [[r' e']| |]; cbn [rp rr bind] in *; try contradiction; auto.
    destruct H as (H & L1 & L2). now apply K.
  Qed.
  Lemma rp_bind (P Q : buf -> eptr -> buf -> eptr -> Prop) s s' t t' (x y : res (buf * eptr)) (k k' : buf * eptr -> res (buf * eptr)) :
    rp P s s' x y ->
    (forall r e r' e', P r e r' e' -> (length r <= length s)%nat -> (length r' <= length s')%nat -> rp Q t t' (k (r, e)) (k' (r', e'))) ->
    rp Q t t' (bind x k) (bind y k').
  Proof.
    intros H K. destruct x as [[r e]| |], y as [[r' e']| |]; cbn [rp bind] in *; try contradiction; auto.
    destruct H as (H & L1 & L2). now apply K.
  Qed.
  (** the same computation on both sides *)
  Lemma rr_same {A B} Q t t' (x : res A) (k k' : A -> res (B * buf * eptr)) :
    (forall a, rr Q t t' (k a) (k' a)) -> rr Q t t' (bind x k) (bind x k').
  Proof. intros H. destruct x; cbn [bind]; [apply H|exact I|exact I]. Qed.

  Definition noise (c : ecode) : Prop := c <> ValidJSON.
  Lemma cerr_bad c m a c' m' a' e e' : noise c -> noise c' -> ends e e' -> bad (cerr c m a e) (cerr c' m' a' e').
  Proof.
    intros H H' [[-> ->]|[E E']].
    - unfold bad, has_err, no_err_yet, clean0, cerr, no_error, is_err. cbn [code]. destruct c, c'; try (split; reflexivity); exfalso; auto.
    - unfold bad, has_err, no_err_yet in *. destruct e as [j|], e' as [j'|]; cbn [cerr]; try discriminate.
      destruct (is_err j) eqn:X, (is_err j') eqn:X'; try discriminate. cbn [cerr]. rewrite X, X'. auto.
  Qed.
  Lemma st1_ends s e s' e' : st1 s e s' e' -> ends e e'.
  Proof. intros [[H _]|[H _]]; [now left|now right]. Qed.
  Lemma stm_ends s e s' e' : stm s e s' e' -> ends e e'.
  Proof. intros H. now apply stm_1, st1_ends in H. Qed.
  Lemma st0_ends s e s' e' : st0 s e s' e' -> ends e e'.
  Proof. intros H. now apply st0_m, stm_ends in H. Qed.
  Lemma dead_0 e e' : bad e e' -> st0 [] e [] e'. Proof. intros H. right. unfold dead. auto. Qed.
  Lemma dead_1 e e' : bad e e' -> st1 [] e [] e'. Proof. intros H. right. unfold dead. auto. Qed.
  Lemma dead_m e e' : bad e e' -> stm [] e [] e'. Proof. intros H. right. unfold dead. auto. Qed.
  Lemma rr_dead {A} (P : A -> buf -> eptr -> buf -> eptr -> Prop) s s' v e e' : (forall a b, bad a b -> P v [] a [] b) -> bad e e' ->
    rr P s s' (Ok (v, [], e)) (Ok (v, [], e')).
  Proof. intros H K. cbn [rr length]. split; [reflexivity|]. split; [now apply H|]. lia. Qed.
  Lemma rp_dead (P : buf -> eptr -> buf -> eptr -> Prop) s s' e e' : (forall a b, bad a b -> P [] a [] b) -> bad e e' -> rp P s s' (Ok ([], e)) (Ok ([], e')).
  Proof. intros H K. cbn [rp length]. split; [now apply H|]. lia. Qed.
  Lemma ends_err e e' : ends e e' -> has_err e = has_err e'.
  Proof. intros [[-> ->]|[-> ->]]; reflexivity. Qed.
  Lemma ends_yet e e' : ends e e' -> no_err_yet e = no_err_yet e'.
  Proof. intros H. apply ends_err in H. unfold has_err in H. destruct (no_err_yet e), (no_err_yet e'); auto. Qed.

  (** ---- leaves ---- *)
  Definition okst (e : eptr) : Prop := e = clean0 \/ has_err e = true.
  Lemma cerr_has c m a e : noise c -> okst e -> has_err (cerr c m a e) = true.
  Proof.
    intros H [->|E].
    - unfold has_err, no_err_yet, clean0, cerr, no_error, is_err. cbn [code]. destruct c; try reflexivity. exfalso; auto.
    - unfold has_err, no_err_yet in *. destruct e as [j|]; cbn [cerr]; [|discriminate]. destruct (is_err j) eqn:X; [|discriminate].
      now rewrite X.
  Qed.
  Definition endlaw {A} (f : A -> buf -> eptr -> res (A * buf * eptr)) : Prop :=
    forall old, exists v, forall e, okst e -> exists e', f old [] e = Ok (v, [], e') /\ has_err e' = true.
  Definition verdict {A} (f : A -> buf -> eptr -> res (A * buf * eptr)) (old : A) (t : buf) : Prop :=
    (exists v, forall s, (rnumber t -> follow s) -> f old (t ++ s) clean0 = Ok (v, s, clean0)) \/
    (exists v, forall s, (rnumber t -> follow s) -> exists e, f old (t ++ s) clean0 = Ok (v, [], e) /\ has_err e = true) \/
    (exists v c y, numc c /\ (length (c :: y) <= length t)%nat /\ forall s, (rnumber t -> follow s) -> f old (t ++ s) clean0 = Ok (v, c :: y ++ s, clean0)) \/
    (forall s, (rnumber t -> follow s) -> f old (t ++ s) clean0 = UB).
  Lemma leaf_sim {A} (f : A -> buf -> eptr -> res (A * buf * eptr)) : endlaw f -> (forall old t, token t -> verdict f old t) -> sim f.
  Proof.
    intros He Hv old s e s' e' [[[-> ->] H]|(B & -> & ->)].
    - destruct H as [|t ts z z' Ht Hn Hf H].
      + destruct (He old) as (v & K). destruct (K clean0 (or_introl eq_refl)) as (x & -> & X). apply rr_dead; [intros; now apply dead_1|split; exact X].
      + assert (rnumber t -> follow z) as N1 by (intros X; apply Hn, X). assert (rnumber t -> follow z') as N2 by (intros X; apply Hn, X).
        destruct (Hv old t Ht) as [(v & K)|[(v & K)|[(v & c & y & Hc & L & K)|K]]].
        * rewrite !K by assumption. cbn [rr]. split; [reflexivity|]. split; [|rewrite !app_length; lia]. left. split; [split; reflexivity|]. left. now exists ts.
        * destruct (K z N1) as (x & -> & X). destruct (K z' N2) as (x' & -> & X'). apply rr_dead; [intros; now apply dead_1|split; assumption].
        * rewrite !K by assumption. cbn [rr]. split; [reflexivity|]. split.
          -- left. split; [split; reflexivity|]. right. exists c, (y ++ z), (y ++ z'). auto.
          -- cbn [length] in *. rewrite !app_length. lia.
        * rewrite !K by assumption. exact I.
    - destruct (He old) as (v & K). destruct B as [B B']. destruct (K e (or_intror B)) as (x & -> & X).
      destruct (K e' (or_intror B')) as (x' & -> & X'). apply rr_dead; [intros; now apply dead_1|split; assumption].
  Qed.
  Lemma null_read z e : parse_null (text "null" ++ z) e = (z, e). Proof. reflexivity. Qed.
  Lemma true_read z e : parse_bool (text "true" ++ z) e = (z, e). Proof. reflexivity. Qed.
  Lemma false_read z e : parse_bool (text "false" ++ z) e = (z, e). Proof. reflexivity. Qed.
  Ltac rej := right; left; eexists; intros ? ?; eexists; split; [reflexivity|apply cerr_has; [discriminate|now left]].

  (** integers *)
  Lemma iarith_fuel t z : iarith t z <> Fuel.
  Proof. unfold iarith. destruct (isigned t); [destruct (irangeb t z)|]; discriminate. Qed.
  Lemma int_loop_uniform t ds : digits ds -> forall v, (exists w, forall r, nodigit r -> int_loop t v (ds ++ r) = Ok (w, r)) \/
    (forall r, nodigit r -> int_loop t v (ds ++ r) = UB).
  Proof.
    induction 1 as [|c ds Hc H IH]; intros v.
    - left. exists v. intros [|c r] Hr; [reflexivity|]. cbn [app int_loop]. cbn in Hr.
      destruct (is_digit c) eqn:E; [apply is_digit_iff in E; tauto|reflexivity].
    - apply is_digit_iff in Hc. cbn [app int_loop]. rewrite Hc. cbn [negb].
      destruct (iarith (ipromote t) (v * 10)) as [a| |] eqn:X; cbn [bind]; [|right; reflexivity|now apply iarith_fuel in X].
      destruct (iarith (ipromote t) (a + icast t (c - 48))) as [b| |] eqn:Y; cbn [bind]; [apply IH|right; reflexivity|now apply iarith_fuel in Y].
  Qed.
  Lemma frac_exp_head f x : rfrac f -> rexp x -> f ++ x = [] \/ exists c y, f ++ x = c :: y /\ numc c.
  Proof.
    unfold numc. intros [|ds _]; [|right; eexists _, _; split; [reflexivity|auto]]. intros [|m sg ds Hm _ _]; [now left|].
    right. cbn [app]. eexists _, _; split; [reflexivity|tauto].
  Qed.
  Lemma verdict_after {A} (f : A -> buf -> eptr -> res (A * buf * eptr)) old t y v : (y = [] \/ exists c z, y = c :: z /\ numc c) ->
    (length y <= length t)%nat -> (forall s, (rnumber t -> follow s) -> f old (t ++ s) clean0 = Ok (v, y ++ s, clean0)) -> verdict f old t.
  Proof.
    intros [->|(c & z & -> & Hc)] L H.
    - left. exists v. exact H.
    - right. right. left. exists v, c, z. auto.
  Qed.
  Lemma sim_int t b : sim (des (int_codec t) (Some b)).
  Proof.
    apply leaf_sim.
    - intros old. exists old. intros e He. eexists. split; [reflexivity|]. apply cerr_has; [discriminate|exact He].
    - intros old tk Ht. destruct Ht as [c Hc| | | |n Hn|s Hs].
      + apply punct_cases in Hc. right; left. exists 0. intros z _.
        destruct Hc as [->|[->|[->|[->|[-> | ->]]]]]; (eexists; split; [reflexivity|apply cerr_has; [discriminate|now left]]).
      + left. exists 0. intros z _. reflexivity.
      + right; left. exists 0. intros z _. eexists. split; [reflexivity|apply cerr_has; [discriminate|now left]].
      + right; left. exists 0. intros z _. eexists. split; [reflexivity|apply cerr_has; [discriminate|now left]].
      + assert (exists m i f x, n = m ++ i ++ f ++ x /\ ropt_minus m /\ rint i /\ rfrac f /\ rexp x) as (m & i & f & x & E & Hm & Hi & Hf & Hx) by
          (destruct Hn as [m i f x]; now exists m, i, f, x).
        pose proof (frac_exp_head f x Hf Hx) as Hy.
        assert (forall s, (rnumber n -> follow s) -> nodigit ((f ++ x) ++ s)) as ND.
        { intros s Hs. specialize (Hs Hn). destruct Hy as [-> |(c & y & -> & Hc)]; cbn [app].
          - destruct s; [exact I|]. cbn in *. tauto.
          - cbn. unfold numc in Hc. unfold s_digit. lia. }
        destruct Hi as [|d ds Hd Hds].
        * apply (verdict_after _ old n (f ++ x) 0 Hy); [rewrite E, !app_length; lia|]. intros s Hs. rewrite E. rewrite <- !app_assoc.
          destruct Hm; reflexivity.
        * assert (digits (d :: ds)) as DD by (constructor; [unfold s_digit; lia|exact Hds]).
          assert (forall neg s e, (rnumber n -> follow s) -> unserialize_integer t old ((if neg : bool then [MINUS] else []) ++ (d :: ds) ++ (f ++ x) ++ s) e =
             (let* (v, s2) := int_loop t 0 ((d :: ds) ++ (f ++ x) ++ s) in
               if neg then let* w := iarith (ipromote t) (- v) in Ok (icast t w, s2, e) else Ok (v, s2, e))) as EQ.
          { intros neg s e _. assert (is_digit d = true) as D1 by (apply is_digit_iff; unfold s_digit; lia).
            assert ((d =? MINUS) = false) as D2 by lia. assert ((d =? 48) = false) as D3 by lia.
            destruct neg; cbn [app unserialize_integer].
            - change (MINUS =? MINUS) with true. cbv iota. rewrite D1, D3. reflexivity.
            - rewrite D2, D1, D3. reflexivity. }
          assert (exists neg, m = if neg : bool then [MINUS] else []) as (neg & ->) by (destruct Hm; [exists false|exists true]; reflexivity).
          assert (forall s e, des (int_codec t) (Some b) old (n ++ s) e = unserialize_integer t old ((if neg then [MINUS] else []) ++ (d :: ds) ++ (f ++ x) ++ s) e) as DE.
          { intros s e. rewrite E. rewrite <- !app_assoc. cbn [des int_codec]. unfold int_des.
            replace (is_null ((if neg then [MINUS] else []) ++ (d :: ds) ++ f ++ x ++ s)) with false; [reflexivity|].
            destruct neg; cbn [app is_null starts]; lia. }
          specialize (EQ neg). destruct (int_loop_uniform t (d :: ds) DD 0) as [(w & K)|K].
          -- destruct neg.
             ++ destruct (iarith (ipromote t) (- w)) as [u| |] eqn:U.
                ** apply (verdict_after _ old n (f ++ x) (icast t u) Hy); [rewrite E, !app_length; lia|]. intros s Hs. rewrite DE, EQ, K by auto. cbn [bind]. now rewrite U.
                ** right; right; right. intros s Hs. rewrite DE, EQ, K by auto. cbn [bind]. now rewrite U.
                ** now apply iarith_fuel in U.
             ++ apply (verdict_after _ old n (f ++ x) w Hy); [rewrite E, !app_length; lia|]. intros s Hs. now rewrite DE, EQ, K by auto.
          -- right; right; right. intros s Hs. now rewrite DE, EQ, K by auto.
      + destruct Hs. right; left. exists 0. intros z _. eexists. split; [reflexivity|apply cerr_has; [discriminate|now left]].
  Qed.
  Lemma num_first n : rnumber n -> exists c z, n = c :: z /\ (c = MINUS \/ s_digit c) /\ forall s, is_null (n ++ s) = false /\ is_number (n ++ s) = true /\
    is_bool (n ++ s) = false.
  Proof.
    intros Hn. destruct (rnumber_head n Hn) as (c & z & -> & Hc). exists c, z. split; [reflexivity|]. split; [exact Hc|]. intros s.
    cbn [app is_null is_number is_bool starts]. unfold is_digit. unfold s_digit in Hc. unfold is_null, is_bool, is_number, starts, is_digit. split; [lia|split; lia].
  Qed.
  Lemma sim_bool b : sim (des bool_codec (Some b)).
  Proof.
    apply leaf_sim.
    - intros old. exists old. intros e He. eexists. split; [reflexivity|]. apply cerr_has; [discriminate|exact He].
    - intros old tk Ht. destruct Ht as [c Hc| | | |n Hn|s Hs].
      + apply punct_cases in Hc. right; left. exists false. intros z _.
        destruct Hc as [->|[->|[->|[->|[-> | ->]]]]]; (eexists; split; [reflexivity|apply cerr_has; [discriminate|now left]]).
      + left. exists false. intros z _. reflexivity.
      + left. exists true. intros z _. reflexivity.
      + left. exists false. intros z _. reflexivity.
      + destruct (num_first n Hn) as (c & w & -> & Hc & _). right; left. exists false. intros z _. cbn [app des bool_codec]. unfold bool_des, is_null, starts.
        replace (c =? 110) with false by (unfold s_digit in Hc; lia). replace (c =? 116) with false by (unfold s_digit in Hc; lia).
        replace (c =? 102) with false by (unfold s_digit in Hc; lia).
        eexists; split; [reflexivity|apply cerr_has; [discriminate|now left]].
      + destruct Hs. right; left. exists false. intros z _. eexists. split; [reflexivity|apply cerr_has; [discriminate|now left]].
  Qed.
  Lemma sim_float A R fmt scan conv zero b : scan_law scan conv -> sim (des (@float_codec A R fmt scan zero) (Some b)).
  Proof.
    intros SL. apply leaf_sim.
    - intros old. exists old. intros e He. eexists. split; [reflexivity|]. apply cerr_has; [discriminate|exact He].
    - intros old tk Ht. destruct Ht as [c Hc| | | |n Hn|s Hs].
      + apply punct_cases in Hc. right; left. exists old. intros z _.
        destruct Hc as [->|[->|[->|[->|[-> | ->]]]]]; (eexists; split; [reflexivity|apply cerr_has; [discriminate|now left]]).
      + left. exists zero. intros z _. reflexivity.
      + right; left. exists old. intros z _. eexists. split; [reflexivity|apply cerr_has; [discriminate|now left]].
      + right; left. exists old. intros z _. eexists. split; [reflexivity|apply cerr_has; [discriminate|now left]].
      + left. destruct (Nat.le_gt_cases (length n) (bufsize R)) as [Hl|Hl].
        * exists (conv n). intros s Hs. apply float_read; auto.
        * exists (scan (cstr (firstn (bufsize R) n))). intros s Hs. destruct (num_first n Hn) as (c & w & E & _ & F). destruct (F s) as (F1 & F2 & _).
          rewrite float_read_num by assumption. rewrite parse_number_app; [|exact Hn|now apply follow_num_stop, Hs].
          now rewrite firstn_long by lia.
      + destruct Hs. right; left. exists old. intros z _. eexists. split; [reflexivity|apply cerr_has; [discriminate|now left]].
  Qed.

  (** strings *)
  Definition str_fin (x : (buf * eptr * buf) + (eptr * buf)) : res (buf * buf * eptr) :=
    match x with
    | inr (e1, out) => Ok (out, [], e1)
    | inl ([], e1, out) => Ok (out, [], cerr UnexpectedEndFragment None 0 e1)
    | inl (d :: t1, e1, out) =>
      if negb (d =? QT) then Ok (out, [], cerr ExpectedOf (Some [QT]) (dist t1 + 1) e1) else Ok (out, t1, e1)
    end.
  Definition sfine (x : buf) (n : Z) (out : buf) : Prop :=
    (exists w, forall s f, (length (x ++ QT :: s) < f)%nat -> bind (str_loop f (x ++ QT :: s) n clean0 out) str_fin = Ok (w, s, clean0)) \/
    (exists w, forall s f, (length (x ++ QT :: s) < f)%nat -> exists e, bind (str_loop f (x ++ QT :: s) n clean0 out) str_fin = Ok (w, [], e) /\ has_err e = true).
  Lemma sfine_zero c x out : c <> QT -> sfine (c :: x) 0 out.
  Proof.
    intros Hc. right. exists out. intros s [|f] L; [lia|]. cbn [app str_loop]. rewrite Z.eqb_refl, orb_true_r. cbn [bind str_fin].
    replace (c =? QT) with false by lia. eexists. split; [reflexivity|]. apply cerr_has; [discriminate|now left].
  Qed.
  (** one step of the loop: goes on at [y] *)
  Lemma sfine_step c x n out y n' w : c <> QT -> n <> 0 -> (length y < length (c :: x))%nat ->
    (forall f s, str_loop (S f) (c :: x ++ QT :: s) n clean0 out = str_loop f (y ++ QT :: s) n' clean0 (out ++ w)) ->
    sfine y n' (out ++ w) -> sfine (c :: x) n out.
  Proof.
    intros Hc Hn L E [(o & H)|(o & H)]; [left|right]; exists o; intros s [|f] K; [lia| |lia|]; cbn [app]; rewrite E; apply H;
      rewrite app_length in *; cbn [length] in *; lia.
  Qed.
  Lemma sfine_stop c x n out o : (forall f s, exists e, str_loop (S f) (c :: x ++ QT :: s) n clean0 out = Ok (inr (e, o)) /\ has_err e = true \/
       str_loop (S f) (c :: x ++ QT :: s) n clean0 out = str_loop f [] 0 e o /\ has_err e = true \/
       exists m, str_loop (S f) (c :: x ++ QT :: s) n clean0 out = str_loop f [] m e o /\ has_err e = true) -> sfine (c :: x) n out.
  Proof.
    intros H. right. exists o. intros s [|[|f]] L; [lia|cbn in L; lia|]. destruct (H (S f) s) as (e & [[E X]|[[E X]|(m & E & X)]]); cbn [app]; rewrite E; cbn [str_loop bind str_fin];
      eexists; (split; [reflexivity|]); [exact X|apply cerr_has; [discriminate|now right]|apply cerr_has; [discriminate|now right]].
  Qed.
  Lemma utf8_copy_cases l : forall n e, exists l1 l2 n', l = l1 ++ l2 /\ (l2 = [] \/ n' = 0) /\ forall r, utf8_copy (length l) (l ++ r) n e = (l2 ++ r, l1, n', e).
  Proof.
    induction l as [|c l IH]; intros n e.
    - exists [], [], n. split; [reflexivity|]. split; [now left|]. reflexivity.
    - cbn [length utf8_copy]. destruct (n =? 0) eqn:E.
      + exists [], (c :: l), n. split; [reflexivity|]. split; [right; lia|]. reflexivity.
      + destruct (IH (n - 1) e) as (l1 & l2 & n' & -> & H & K). exists (c :: l1), l2, n'. split; [reflexivity|]. split; [exact H|].
        intros r. cbn [app]. now rewrite K.
  Qed.
  Lemma sfine_all x : wchars x -> forall n out, sfine x n out.
  Proof.
    induction 1 as [|c l Hc Hl IH]; intros n out.
    - left. exists out. intros s [|f] L; [lia|]. reflexivity.
    - destruct (Z.eq_dec n 0) as [->|N0].
      { destruct Hc as [c H1 H2 H3|c Hc|a b c d Ha Hb Hd He|c k m Hk _ _]; cbn [app]; apply sfine_zero; try lia.
        destruct Hk; lia. }
      destruct Hc as [c H1 H2 H3|d Hd|a b c d Ha Hb Hd He|c k m Hk Hm Hf]; cbn [app].
      + apply (sfine_step c l n out l (n - 1) [c]); [lia|lia|cbn [length]; lia| |apply IH]. intros f s. cbn [str_loop].
        replace ((c =? QT) || (n =? 0)) with false by lia. replace (c =? BSL) with false by lia. unfold unutf8.
        assert (Z.land c 128 =? 0 = true) as ->; [|reflexivity].
        assert (0 <= c <= 255) as B by lia.
        pose proof (byte_sweep (fun c => implb ((0 <=? c) && (c <? 128)) (Z.land c 128 =? 0)) ltac:(vm_compute; reflexivity) c B) as Q. cbv beta in Q.
        replace ((0 <=? c) && (c <? 128)) with true in Q by lia. exact Q.
      + assert (exists b, unescape d = Some b) as (b & Hb).
        { unfold s_esc in Hd. destruct Hd as [->|[->|[->|[->|[->|[->|[-> | ->]]]]]]]; eexists; reflexivity. }
        apply (sfine_step BSL (d :: l) n out l (n - 1) [b]); [lia|lia|cbn [length]; lia| |apply IH]. intros f s. cbn [str_loop app].
        replace (n =? 0) with false by lia. change (BSL =? QT) with false. change (BSL =? BSL) with true. cbn [orb]. now rewrite Hb.
      + assert (forall c, s_hex c -> exists v, forall e, uchar2 c e = (v, e)) as UH.
        { intros h Hh. unfold s_hex in Hh. unfold uchar2. destruct ((48 <=? h) && (h <=? 57)) eqn:E1; [eexists; reflexivity|].
          destruct ((97 <=? h) && (h <=? 102)) eqn:E2; [eexists; reflexivity|]. destruct ((65 <=? h) && (h <=? 70)) eqn:E3; [eexists; reflexivity|]. lia. }
        destruct (UH a Ha) as (va & Ea). destruct (UH b Hb) as (vb & Eb). destruct (UH c Hd) as (vc & Ec). destruct (UH d He) as (vd & Ed).
        set (hex := va * 4096 + vb * 256 + vc * 16 + vd).
        assert (forall f s, str_loop (S f) (BSL :: (117 :: a :: b :: c :: d :: l) ++ QT :: s) n clean0 out =
            let '(r, w, n', e') := uhex_emit hex [a; b; c; d] (l ++ QT :: s) n clean0 in str_loop f r n' e' (out ++ w)) as EQ.
        { intros f s. cbn [str_loop app]. replace (n =? 0) with false by lia. change (BSL =? QT) with false. change (BSL =? BSL) with true. cbn [orb].
          change (unescape 117) with (@None Z). cbv iota. change (117 =? 117) with true. cbv iota. unfold uhex.
          replace (n =? 0) with false by lia. now rewrite Ea, Eb, Ec, Ed. }
        assert ((exists w n', forall s, uhex_emit hex [a; b; c; d] s n clean0 = (s, w, n', clean0)) \/
                (exists w n', forall s, uhex_emit hex [a; b; c; d] s n clean0 = ([], w, n', cerr InvalidString None (dist s) clean0))) as [(w & n' & K)|(w & n' & K)].
        { unfold uhex_emit. destruct (hex <? 32).
          { destruct (_ || _); left; eexists _, _; reflexivity. }
          destruct (hex <=? 127); [left; eexists _, _; reflexivity|]. destruct (hex <=? 2047).
          { destruct (n - 1 =? 0); [right|left]; eexists _, _; reflexivity. }
          destruct (n - 1 =? 0); [right; eexists _, _; reflexivity|]. destruct (n - 2 =? 0); [right|left]; eexists _, _; reflexivity. }
        * apply (sfine_step BSL _ n out l n' w); [lia|lia|cbn [length]; lia| |apply IH]. intros f s. now rewrite EQ, K.
        * apply (sfine_stop _ _ _ _ (out ++ w)). intros f s. rewrite EQ, K. eexists. right; right. exists n'. split; [reflexivity|].
          apply cerr_has; [discriminate|now left].
      + assert (128 <= c <= 253) as Hc by (destruct Hk; lia).
        assert ((exists k', k' = S k /\ forall t e, unutf8 c t n e = utf8_copy k' (c :: t) n e) \/
                (forall t e, unutf8 c t n e = ([], [], n, cerr InvalidString None (dist (c :: t)) e))) as [(k' & -> & U)|U].
        { assert (Z.land c 128 =? 0 = false) as Q1.
          { assert (0 <= c <= 255) as B by lia. clear - B Hc. revert c B Hc. intros c B Hc.
            pose proof (byte_sweep (fun c => implb (128 <=? c) (negb (Z.land c 128 =? 0))) ltac:(vm_compute; reflexivity) c B) as Q. cbv beta in Q.
            destruct (128 <=? c) eqn:E; [|lia]. cbn in Q. now destruct (Z.land c 128 =? 0). }
          assert (0 <= c <= 255) as B by lia.
          destruct Hk as [c K|c K|c K|c K|c K]; unfold unutf8.
          - left. exists 2%nat. split; [reflexivity|]. intros t e. rewrite Q1.
            pose proof (byte_sweep (fun c => implb ((192 <=? c) && (c <=? 223)) (Z.land c 224 =? 192)) ltac:(vm_compute; reflexivity) c B) as Q. cbv beta in Q.
            replace ((192 <=? c) && (c <=? 223)) with true in Q by lia. cbn [implb] in Q. now rewrite Q.
          - left. exists 3%nat. split; [reflexivity|]. intros t e. rewrite Q1.
            pose proof (byte_sweep (fun c => implb ((224 <=? c) && (c <=? 239)) (negb (Z.land c 224 =? 192) && (Z.land c 240 =? 224))) ltac:(vm_compute; reflexivity) c B) as Q. cbv beta in Q.
            replace ((224 <=? c) && (c <=? 239)) with true in Q by lia. cbn [implb] in Q. apply andb_prop in Q as [Qa Qb]. apply negb_true_iff in Qa. now rewrite Qa, Qb.
          - left. exists 4%nat. split; [reflexivity|]. intros t e. rewrite Q1.
            pose proof (byte_sweep (fun c => implb ((240 <=? c) && (c <=? 247)) (negb (Z.land c 224 =? 192) && negb (Z.land c 240 =? 224) && (Z.land c 248 =? 240))) ltac:(vm_compute; reflexivity) c B) as Q. cbv beta in Q.
            replace ((240 <=? c) && (c <=? 247)) with true in Q by lia. cbn [implb] in Q. apply andb_prop in Q as [Q Qc]. apply andb_prop in Q as [Qa Qb].
            apply negb_true_iff in Qa, Qb. now rewrite Qa, Qb, Qc.
          - right. intros t e. rewrite Q1.
            pose proof (byte_sweep (fun c => implb ((248 <=? c) && (c <=? 253)) (negb (Z.land c 224 =? 192) && negb (Z.land c 240 =? 224) && negb (Z.land c 248 =? 240))) ltac:(vm_compute; reflexivity) c B) as Q. cbv beta in Q.
            replace ((248 <=? c) && (c <=? 253)) with true in Q by lia. cbn [implb] in Q. apply andb_prop in Q as [Q Qc]. apply andb_prop in Q as [Qa Qb].
            apply negb_true_iff in Qa, Qb, Qc. now rewrite Qa, Qb, Qc.
          - right. intros t e. rewrite Q1.
            pose proof (byte_sweep (fun c => implb ((248 <=? c) && (c <=? 253)) (negb (Z.land c 224 =? 192) && negb (Z.land c 240 =? 224) && negb (Z.land c 248 =? 240))) ltac:(vm_compute; reflexivity) c B) as Q. cbv beta in Q.
            replace ((248 <=? c) && (c <=? 253)) with true in Q by lia. cbn [implb] in Q. apply andb_prop in Q as [Q Qc]. apply andb_prop in Q as [Qa Qb].
            apply negb_true_iff in Qa, Qb, Qc. now rewrite Qa, Qb, Qc. }
        * destruct (utf8_copy_cases (c :: m) n clean0) as (l1 & l2 & n' & E & H & K).
          assert (forall f s, str_loop (S f) (c :: (m ++ l) ++ QT :: s) n clean0 out = str_loop f ((l2 ++ l) ++ QT :: s) n' clean0 (out ++ l1)) as EQ.
          { intros f s. cbn [str_loop]. replace ((c =? QT) || (n =? 0)) with false by lia. replace (c =? BSL) with false by lia. rewrite U.
            specialize (K (l ++ QT :: s)). cbn [length] in K. rewrite Hm in K. cbn [app] in K. rewrite <- app_assoc, K. now rewrite <- app_assoc. }
          assert (l1 <> []) as NE.
          { intros ->. cbn [app] in E. subst l2. specialize (K []). cbn [length utf8_copy app] in K. replace (n =? 0) with false in K by lia.
            destruct (utf8_copy (length m) (m ++ []) (n - 1) clean0) as [[[r w] q] e]. discriminate K. }
          apply (sfine_step c (m ++ l) n out (l2 ++ l) n' l1); [lia|lia| |exact EQ|].
          -- apply (f_equal (@length Z)) in E. rewrite app_length in E. cbn [length] in *. rewrite !app_length. destruct l1; [congruence|]. cbn [length] in E. lia.
          -- destruct H as [-> | ->]; [apply IH|]. destruct l2 as [|c2 l2]; [apply IH|]. cbn [app]. apply sfine_zero.
             destruct l1 as [|x l1]; [congruence|]. cbn [app] in E. injection E as _ E. subst m. apply Forall_app in Hf as [_ Hf]. inversion Hf; subst. unfold s_cont in *. lia.
        * apply (sfine_stop _ _ _ _ (out ++ [])). intros f s. cbn [str_loop]. replace ((c =? QT) || (n =? 0)) with false by lia. replace (c =? BSL) with false by lia. rewrite U.
          eexists. right; right. exists n. split; [reflexivity|]. apply cerr_has; [discriminate|now left].
  Qed.
  Lemma str_unser_fine x n : wchars x ->
    (exists w, forall s, str_unser (QT :: x ++ QT :: s) n clean0 = Ok (w, s, clean0)) \/
    (exists w, forall s, exists e, str_unser (QT :: x ++ QT :: s) n clean0 = Ok (w, [], e) /\ has_err e = true).
  Proof.
    intros Hx. destruct (sfine_all x Hx n []) as [(w & H)|(w & H)]; [left|right]; exists w; intros s.
    - specialize (H s (S (length (x ++ QT :: s))) ltac:(lia)). unfold str_unser. change (negb (QT =? QT)) with false. cbv iota. rewrite <- H.
      destruct (str_loop _ _ _ _ _) as [[[[[|d t] e] o]|[e o]]| |]; reflexivity.
    - destruct (H s (S (length (x ++ QT :: s))) ltac:(lia)) as (e & E & X). exists e. split; [|exact X]. unfold str_unser. change (negb (QT =? QT)) with false. cbv iota. rewrite <- E.
      destruct (str_loop _ _ _ _ _) as [[[[[|d t] e1] o]|[e1 o]]| |]; reflexivity.
  Qed.
  Lemma quote_assoc l s : (QT :: l ++ [QT]) ++ s = QT :: l ++ QT :: s.
  Proof. cbn [app]. now rewrite <- app_assoc. Qed.
  Lemma sim_string b : sim (des string_codec (Some b)).
  Proof.
    apply leaf_sim.
    - intros old. exists []. intros e He. eexists. split; [reflexivity|]. apply cerr_has; [discriminate|exact He].
    - intros old tk Ht. destruct Ht as [c Hc| | | |n Hn|s Hs].
      + apply punct_cases in Hc. right; left. exists []. intros z _.
        destruct Hc as [->|[->|[->|[->|[-> | ->]]]]]; (eexists; split; [reflexivity|apply cerr_has; [discriminate|now left]]).
      + left. exists []. intros z _. reflexivity.
      + right; left. exists []. intros z _. eexists. split; [reflexivity|apply cerr_has; [discriminate|now left]].
      + right; left. exists []. intros z _. eexists. split; [reflexivity|apply cerr_has; [discriminate|now left]].
      + destruct (num_first n Hn) as (c & w & -> & Hc & F). right; left. exists []. intros z _. destruct (F z) as (F1 & _). cbn [des string_codec]. unfold string_des.
        rewrite F1. cbn [app str_unser]. replace (c =? QT) with false by (unfold s_digit in Hc; lia).
        eexists; split; [reflexivity|apply cerr_has; [discriminate|now left]].
      + destruct Hs as [l Hl]. destruct (str_unser_fine l INT_MAX Hl) as [(w & H)|(w & H)]; [left|right; left]; exists w; intros z _; rewrite quote_assoc; apply H.
  Qed.
  Lemma sim_chars N b : sim (des (chars_codec N) (Some b)).
  Proof.
    assert (forall z : buf, (N <? 0)%nat = false) as NZ by (intros _; apply Nat.ltb_ge; lia).
    apply leaf_sim.
    - intros old. exists (chars_fill N []). intros e He. cbn [des chars_codec]. unfold chars_des. cbn [is_null starts str_unser bind length]. rewrite (NZ []).
      eexists. split; [reflexivity|]. apply cerr_has; [discriminate|exact He].
    - intros old tk Ht.
      assert (forall c w, c <> 110 -> c <> QT -> verdict (des (chars_codec N) (Some b)) old (c :: w)) as REJ.
      { intros c w H1 H2. right; left. exists (chars_fill N []). intros z _. cbn [app des chars_codec]. unfold chars_des, is_null, starts.
        replace (c =? 110) with false by lia. cbn [str_unser]. replace (c =? QT) with false by lia. cbn [negb bind length]. rewrite (NZ []).
        eexists; split; [reflexivity|apply cerr_has; [discriminate|now left]]. }
      destruct Ht as [c Hc| | | |n Hn|s Hs].
      + apply punct_cases in Hc. apply REJ; lia.
      + left. exists (repeat 0 N). intros z _. reflexivity.
      + change (text "true") with [116; 114; 117; 101]. apply REJ; lia.
      + change (text "false") with [102; 97; 108; 115; 101]. apply REJ; lia.
      + destruct (num_first n Hn) as (c & w & -> & Hc & F). apply REJ; unfold s_digit in Hc; lia.
      + destruct Hs as [l Hl]. destruct (str_unser_fine l (Z.of_nat N) Hl) as [(w & H)|(w & H)]; destruct (N <? length w)%nat eqn:E.
        * right; right; right. intros z _. rewrite quote_assoc. cbn [des chars_codec]. unfold chars_des. cbn [is_null starts]. change (QT =? 110) with false. cbv iota.
          rewrite H. cbn [bind]. now rewrite E.
        * left. exists (chars_fill N w). intros z _. rewrite quote_assoc. cbn [des chars_codec]. unfold chars_des. cbn [is_null starts]. change (QT =? 110) with false. cbv iota.
          rewrite H. cbn [bind]. now rewrite E.
        * right; right; right. intros z _. rewrite quote_assoc. cbn [des chars_codec]. unfold chars_des. cbn [is_null starts]. change (QT =? 110) with false. cbv iota.
          destruct (H z) as (e & -> & X). cbn [bind]. now rewrite E.
        * right; left. exists (chars_fill N w). intros z _. rewrite quote_assoc. cbn [des chars_codec]. unfold chars_des. cbn [is_null starts]. change (QT =? 110) with false. cbv iota.
          destruct (H z) as (e & -> & X). cbn [bind]. rewrite E. now exists e.
  Qed.
  Lemma wchars_cut a b : wchars a -> ~ wchars (a ++ QT :: b).
  Proof.
    intros Ha Hb. pose proof (parse_string_app _ (b ++ [QT]) None (wstr a Ha)) as E1. pose proof (parse_string_app _ [] None (wstr _ Hb)) as E2.
    rewrite quote_assoc in E1. rewrite app_nil_r in E2. rewrite <- app_assoc in E2. cbn [app] in E2. rewrite E1 in E2. injection E2 as E2.
    destruct b; discriminate.
  Qed.
  Lemma to_quote_cases x : (~ In QT x /\ forall z, to_quote (x ++ QT :: z) = (x, QT :: z)) \/
    exists a b, x = a ++ QT :: b /\ forall z, to_quote (x ++ z) = (a, QT :: b ++ z).
  Proof.
    induction x as [|c x IH]; [left; split; [auto|reflexivity]|]. destruct (Z.eq_dec c QT) as [->|Hc].
    - right. exists [], x. split; reflexivity.
    - destruct IH as [[H K]|(a & b & -> & K)].
      + left. split; [intros [E|E]; auto|]. intros z. cbn [app to_quote]. replace (c =? QT) with false by lia. now rewrite K.
      + right. exists (c :: a), b. split; [reflexivity|]. intros z. cbn [app to_quote]. replace (c =? QT) with false by lia. now rewrite K.
  Qed.
  Lemma cstr_eq_true n : forall s, cstr_eq n s = true -> n = s.
  Proof.
    induction n as [|a n IH]; intros [|c s]; cbn [cstr_eq]; try congruence. destruct (a =? c) eqn:E; [|discriminate]. intros H. apply IH in H. f_equal; [lia|exact H].
  Qed.
  Lemma find_strict_in L s v x : enum_find Strict L v s = Some x -> In s (map fst L).
  Proof.
    induction L as [|[n y] L IH]; cbn [enum_find map fst In]; [discriminate|]. destruct (cstr_eq n s) eqn:E; [|auto].
    intros _. left. now apply cstr_eq_true.
  Qed.
  Lemma sim_enum L b : Forall wchars (map fst L) -> sim (des (enum_codec Strict L) (Some b)).
  Proof.
    intros HL. apply leaf_sim.
    - intros old. exists 0. intros e He. eexists. split; [reflexivity|]. apply cerr_has; [discriminate|exact He].
    - intros old tk Ht.
      assert (forall c w, 32 < c < 128 -> c <> QT -> verdict (des (enum_codec Strict L) (Some b)) old (c :: w)) as REJ.
      { intros c w H1 H2. right; left. exists 0. intros z _. cbn [app des enum_codec]. unfold enum_des. cbn [skip_low].
        replace ((c <=? 32) || (128 <=? c)) with false by lia. replace (c =? QT) with false by lia. cbn [negb].
        eexists; split; [reflexivity|apply cerr_has; [discriminate|now left]]. }
      destruct Ht as [c Hc| | | |n Hn|s Hs].
      + apply punct_cases in Hc. apply REJ; lia.
      + change (text "null") with [110; 117; 108; 108]. apply REJ; lia.
      + change (text "true") with [116; 114; 117; 101]. apply REJ; lia.
      + change (text "false") with [102; 97; 108; 115; 101]. apply REJ; lia.
      + destruct (num_first n Hn) as (c & w & -> & Hc & F). apply REJ; unfold s_digit in Hc; lia.
      + destruct Hs as [l Hl].
        assert (forall z e, des (enum_codec Strict L) (Some b) old (QT :: l ++ QT :: z) e =
          (let '(nm, r) := to_quote (l ++ QT :: z) in
           match r with
           | [] => Ok (0, [], cerr UnexpectedEndFragment None 0 e)
           | _ :: r' => match enum_find Strict L 0 nm with
                        | None => Ok (0, [], cerr InvalidEnum None (dist (l ++ QT :: z)) e)
                        | Some v => Ok (v, r', e)
                        end
           end)) as EQ.
        { intros z e. cbn [des enum_codec]. unfold enum_des. cbn [skip_low]. change ((QT <=? 32) || (128 <=? QT)) with false. cbv iota.
          change (negb (QT =? QT)) with false. cbv iota. destruct l; reflexivity. }
        destruct (to_quote_cases l) as [[_ K]|(a & q & -> & K)].
        * destruct (enum_find Strict L 0 l) as [v|] eqn:F.
          -- left. exists v. intros z _. rewrite quote_assoc, EQ, K. now rewrite F.
          -- right; left. exists 0. intros z _. rewrite quote_assoc, EQ, K. rewrite F. eexists; split; [reflexivity|apply cerr_has; [discriminate|now left]].
        * right; left. exists 0. intros z _. rewrite quote_assoc, EQ, K. destruct (enum_find Strict L 0 a) as [v|] eqn:F.
          -- apply find_strict_in in F. rewrite Forall_forall in HL. apply HL in F. exfalso. exact (wchars_cut a q F Hl).
          -- eexists; split; [reflexivity|apply cerr_has; [discriminate|now left]].
  Qed.

  (** ---- the recogniser ---- *)
  Lemma rr_weak {A} (P : A -> buf -> eptr -> buf -> eptr -> Prop) s s' u u' x y : rr P s s' x y -> (length s <= length u)%nat -> (length s' <= length u')%nat -> rr P u u' x y.
  Proof. intros H L L'. destruct x as [[[v r] e]| |], y as [[[v' r'] e']| |]; cbn [rr] in *; try contradiction; auto. intuition lia. Qed.
  Lemma rp_weak (P : buf -> eptr -> buf -> eptr -> Prop) s s' u u' x y : rp P s s' x y -> (length s <= length u)%nat -> (length s' <= length u')%nat -> rp P u u' x y.
  Proof. intros H L L'. destruct x as [[r e]| |], y as [[r' e']| |]; cbn [rp] in *; try contradiction; auto. intuition lia. Qed.
  Lemma rp_imp (P Q : buf -> eptr -> buf -> eptr -> Prop) s s' x y : rp P s s' x y -> (forall r e r' e', P r e r' e' -> Q r e r' e') -> rp Q s s' x y.
  Proof. intros H K. destruct x as [[r e]| |], y as [[r' e']| |]; cbn [rp] in *; try contradiction; auto. intuition. Qed.
  Lemma rr_imp {A} (P Q : A -> buf -> eptr -> buf -> eptr -> Prop) s s' x y : rr P s s' x y -> (forall v r e r' e', P v r e r' e' -> Q v r e r' e') -> rr Q s s' x y.
  Proof. intros H K. destruct x as [[[v r] e]| |], y as [[[v' r'] e']| |]; cbn [rr] in *; try contradiction; auto. intuition. Qed.
  Definition pit (K K' : nat) (f f' : pfun) : Prop :=
    forall s e s' e', (length s <= K)%nat -> (length s' <= K')%nat -> st0 s e s' e' -> rp st1 s s' (f s e) (f' s' e').
  Definition endp (f : pfun) : Prop := forall e, okst e -> exists e', f [] e = Ok ([], e') /\ has_err e' = true.
  Lemma clean_ok : okst clean0. Proof. now left. Qed.
  Lemma live_good ts s s' : twin ts s s' -> st1 s clean0 s' clean0.
  Proof. intros H. left. split; [split; reflexivity|]. left. now exists ts. Qed.
  Lemma live0_good s s' : twin0 s s' -> st0 s clean0 s' clean0.
  Proof. intros H. left. split; [split; reflexivity|exact H]. Qed.
  Lemma starts_same c s s' : twin0 s s' -> starts c s = starts c s'.
  Proof. intros H. destruct (twin0_cases s s' H) as [[-> ->]|(d & t & t' & -> & -> & _)]; reflexivity. Qed.
  Lemma twin0_str s s' : twin0 s s' -> is_string s = true ->
    exists l ts z z', wchars l /\ s = QT :: l ++ QT :: z /\ s' = QT :: l ++ QT :: z' /\ twin ts z z'.
  Proof.
    intros [|t ts z z' Ht Hn Hf H] E; [discriminate|]. destruct Ht as [c Hc| | | |n Hn'|u Hs].
    - apply punct_cases in Hc. cbn [app is_string starts] in E. lia.
    - discriminate.
    - discriminate.
    - discriminate.
    - destruct (rnumber_head n Hn') as (c & w & -> & Hc). cbn [app is_string starts] in E. unfold s_digit in Hc. lia.
    - destruct Hs as [l Hl]. exists l, ts, z, z'. rewrite !quote_assoc. auto.
  Qed.
  Lemma twin0_null s s' : twin0 s s' -> is_null s = true ->
    exists ts z z', s = text "null" ++ z /\ s' = text "null" ++ z' /\ twin ts z z'.
  Proof.
    intros [|t ts z z' Ht Hn Hf H] E; [discriminate|]. destruct Ht as [c Hc| | | |n Hn'|u Hs].
    - apply punct_cases in Hc. cbn [app is_null starts] in E. lia.
    - exists ts, z, z'. auto.
    - discriminate.
    - discriminate.
    - destruct (rnumber_head n Hn') as (c & w & -> & Hc). cbn [app is_null starts] in E. unfold s_digit in Hc. lia.
    - destruct Hs. discriminate.
  Qed.
  Lemma head_tail c t s' : twin0 (c :: t) s' -> punct c -> exists t' ts, s' = c :: t' /\ twin ts t t' /\ (fx -> c = COMMA -> forall b, ts <> [RBR] :: b).
  Proof.
    intros H P. destruct (twin0_cases _ _ H) as [[E _]|(d & u & u' & E & -> & _ & K)]; [discriminate|]. injection E as <- <-.
    destruct (K P) as (ts & A & B). now exists u', ts.
  Qed.
  Lemma cerr2 c m a c' m' a' : noise c -> noise c' -> bad (cerr c m a clean0) (cerr c' m' a' clean0).
  Proof. intros H H'. split; apply cerr_has; auto using clean_ok. Qed.
  Lemma ends_ok e e' : ends e e' -> okst e /\ okst e'.
  Proof. intros [[-> ->]|[H H']]; split; unfold okst; auto. Qed.
  Ltac kill := first [apply rp_dead; [intros; first [now apply dead_1|now apply dead_m|now apply dead_0]|] | apply rr_dead; [intros; first [now apply dead_1|now apply dead_m|now apply dead_0]|]];
    apply cerr_bad; [discriminate|discriminate|first [assumption | now left; split | now right]].

  Definition items_mid (sn : option Z) (close : Z) (item : pfun) (n : nat) (p : buf * eptr) : res (buf * eptr) :=
    let '(s1, e1) := p in
    let* c1 := deref sn s1 in
    if c1 =? close then Ok (close_with close s1 e1)
    else
      let* (s2, e2) := item s1 e1 in
      let '(s3, e3) := parse_space s2 e2 in
      match s3 with
      | [] => Ok ([], cerr ExpectedOf (Some [close]) (dist s3) e3)
      | c3 :: t3 =>
        if negb (c3 =? COMMA) && negb (c3 =? close)
        then Ok ([], cerr ExpectedOf (Some [close]) (dist s3) e3)
        else if c3 =? COMMA then items_loop sn close item n t3 e3
        else items_loop sn close item n s3 e3
      end.
  Lemma items_unfold sn close item n s e : punct close -> s <> [] ->
    items_loop sn close item (S n) s e = items_mid sn close item n (parse_space s e).
  Proof.
    intros P N. destruct s as [|c t]; [congruence|]. cbn [items_loop]. destruct (c =? close) eqn:E; [|reflexivity].
    assert (c = close) as -> by lia. rewrite space_stop.
    - unfold items_mid. cbn [deref bind]. rewrite Z.eqb_refl. reflexivity.
    - apply thead_stop. now left.
  Qed.
  Lemma items_end_err b close item n s : punct close -> endp item -> parse_space s clean0 = ([], clean0) ->
    exists e, items_loop (Some b) close item (S n) s clean0 = Ok ([], e) /\ has_err e = true.
  Proof.
    intros P E H. destruct s as [|c t].
    - cbn [items_loop close_with]. eexists. split; [reflexivity|]. apply cerr_has; [discriminate|apply clean_ok].
    - rewrite items_unfold by (assumption || discriminate). rewrite H. unfold items_mid. cbn [deref bind]. destruct (b =? close).
      + cbn [close_with]. eexists. split; [reflexivity|]. apply cerr_has; [discriminate|apply clean_ok].
      + destruct (E clean0 clean_ok) as (x & -> & X). cbn [bind]. change (parse_space [] x) with (@nil Z, x).
        eexists. split; [reflexivity|]. apply cerr_has; [discriminate|now right].
  Qed.
  Lemma items_sim b close item item' K K' : punct close -> close <> COMMA -> endp item -> endp item' -> pit K K' item item' ->
    forall n n' ts s s', (length s < n)%nat -> (length s' < n')%nat -> (length s <= K)%nat -> (length s' <= K')%nat -> twin ts s s' ->
    rp st1 s s' (items_loop (Some b) close item n s clean0) (items_loop (Some b) close item' n' s' clean0).
  Proof.
    intros P NC E E' HI. induction n as [|n IH]; intros [|n'] ts s s' L L' LK LK' H; try lia.
    destruct (space_live ts s s' H) as (r & r' & Hr & Hr' & T0 & Lr & Lr' & _).
    destruct (twin0_cases r r' T0) as [[-> ->]|(c & t & t' & -> & -> & Hc & HP)].
    - destruct (items_end_err b close item n s P E (Hr clean0)) as (x & -> & X).
      destruct (items_end_err b close item' n' s' P E' (Hr' clean0)) as (x' & -> & X').
      apply rp_dead; [intros; now apply dead_1|split; assumption].
    - assert (s <> []) as N1 by (intros ->; cbn [length] in Lr; lia). assert (s' <> []) as N2 by (intros ->; cbn [length] in Lr'; lia).
      rewrite !items_unfold by assumption. rewrite Hr, Hr'. unfold items_mid. cbn [deref bind]. destruct (c =? close) eqn:EC.
      + assert (c = close) as -> by lia. destruct (HP P) as (ts' & HT & _). cbn [close_with]. rewrite EC. cbn [negb rp].
        split; [now apply (live_good ts')|]. cbn [length] in *. lia.
      + eapply rp_bind.
        * apply HI; [cbn [length] in *; lia|cbn [length] in *; lia|now apply live0_good].
        * intros r2 e2 r2' e2' HS L2 L2'. destruct (space1 _ _ _ _ HS) as (r3 & r3' & -> & -> & HM & L3 & L3').
          destruct (stm_cases _ _ _ _ HM) as [(-> & -> & He)|([-> ->] & c3 & t3 & t3' & -> & -> & HP3 & _)].
          { kill. }
          destruct (negb (c3 =? COMMA) && negb (c3 =? close)) eqn:Q; [kill|]. destruct (c3 =? COMMA) eqn:QC.
          -- assert (c3 = COMMA) as -> by lia. destruct (HP3 ltac:(apply punct_in; lia)) as (ts' & HT & _).
             eapply rp_weak; [apply (IH n' ts')|cbn [length] in *; lia|cbn [length] in *; lia]; try exact HT; cbn [length] in *; lia.
          -- assert (c3 = close) as -> by lia. destruct (HP3 P) as (ts' & HT & _).
             destruct n as [|n]; [cbn [length] in *; lia|]. destruct n' as [|n']; [cbn [length] in *; lia|].
             cbn [items_loop]. rewrite Z.eqb_refl. cbn [close_with]. rewrite Z.eqb_refl. cbn [negb rp].
             split; [now apply (live_good ts')|]. cbn [length] in *. lia.
  Qed.

  Definition pm_value (pv : pfun) (s4 : buf) (e4 : eptr) : res (buf * eptr) :=
    match s4 with [] => Ok ([], cerr UnexpectedEndFragment None 0 e4) | _ => pv s4 e4 end.
  Definition pm_colon (pv : pfun) (s2 : buf) (e2 : eptr) : res (buf * eptr) :=
    match s2 with
    | [] => Ok ([], cerr UnexpectedEndFragment None 0 e2)
    | c :: s3 =>
      if negb (c =? COLON) then Ok ([], cerr ExpectedOf (Some [COLON]) (dist s3) e2)
      else match s3 with
      | [] => Ok ([], cerr UnexpectedEndFragment None 0 e2)
      | _ => let '(s4, e4) := parse_space s3 e2 in pm_value pv s4 e4
      end
    end.
  Lemma pm_string pv l z r e : wchars l -> parse_space z e = (r, e) -> parse_member pv (QT :: l ++ QT :: z) e = pm_colon pv r e.
  Proof.
    intros Hl H. unfold parse_member. cbn [is_string starts]. change (negb (QT =? QT)) with false. cbv iota.
    pose proof (parse_string_app _ z e (wstr l Hl)) as E. rewrite quote_assoc in E. rewrite E. cbn [bind]. destruct z as [|c z].
    - change (parse_space [] e) with (@nil Z, e) in H. injection H as <-. reflexivity.
    - rewrite H. destruct r; reflexivity.
  Qed.
  Lemma pm_colon_eq pv z r e : parse_space z e = (r, e) -> pm_colon pv (COLON :: z) e = pm_value pv r e.
  Proof.
    intros H. unfold pm_colon. change (negb (COLON =? COLON)) with false. cbv iota. destruct z as [|c z].
    - change (parse_space [] e) with (@nil Z, e) in H. injection H as <-. reflexivity.
    - now rewrite H.
  Qed.
  Lemma member_endp pv : endp (parse_member pv).
  Proof. intros e He. eexists. split; [reflexivity|]. apply cerr_has; [discriminate|exact He]. Qed.
  Lemma member_sim K K' pv pv' : pit K K' pv pv' -> pit K K' (parse_member pv) (parse_member pv').
  Proof.
    intros HI s e s' e' L L' [[[-> ->] H]|(B & -> & ->)].
    2: { unfold parse_member. cbn [is_string starts negb]. kill. }
    destruct (is_string s) eqn:E.
    - destruct (twin0_str s s' H E) as (l & ts & z & z' & Hl & -> & -> & HT).
      destruct (space_live ts z z' HT) as (r & r' & Hr & Hr' & T0 & Lr & Lr' & _).
      rewrite (pm_string pv l z r clean0 Hl (Hr _)), (pm_string pv' l z' r' clean0 Hl (Hr' _)).
      cbn [length] in L, L' |- *. rewrite app_length in *. cbn [length] in *.
      destruct (twin0_cases r r' T0) as [[-> ->]|(c & t & t' & -> & -> & Hc & HP)]; [cbn [pm_colon]; kill|].
      destruct (c =? COLON) eqn:EC.
      + assert (c = COLON) as -> by lia. destruct (HP ltac:(apply punct_in; lia)) as (ts' & HT' & _).
        destruct (space_live ts' t t' HT') as (q & q' & Hq & Hq' & T1 & Lq & Lq' & _).
        rewrite (pm_colon_eq pv t q clean0 (Hq _)), (pm_colon_eq pv' t' q' clean0 (Hq' _)). unfold pm_value.
        destruct (twin0_cases q q' T1) as [[-> ->]|(d & u & u' & -> & -> & _)]; [kill|].
        eapply rp_weak; [apply HI|cbn [length] in *|cbn [length] in *]; try (rewrite ?app_length; cbn [length] in *; lia).
        now apply live0_good.
      + cbn [pm_colon]. rewrite EC. cbn [negb]. kill.
    - unfold parse_member. rewrite E. pose proof (starts_same QT s s' H) as SS. unfold is_string in *. rewrite E in SS. rewrite <- SS. cbn [negb]. kill.
  Qed.
  Lemma value_endp sn n : endp (parse_value_f sn (S n)).
  Proof. intros e He. eexists. split; [reflexivity|]. apply cerr_has; [discriminate|exact He]. Qed.
  Lemma object_same z z' ts : twin ts z z' -> is_object (LBR :: z) = is_object (LBR :: z').
  Proof.
    intros H. destruct (space_live ts z z' H) as (r & r' & Hr & Hr' & T0 & _). unfold is_object.
    change (LBR =? LCB) with false. change (negb (LBR =? LBR)) with false. cbv iota. rewrite Hr, Hr'. now apply starts_same.
  Qed.
  Lemma value_sim b : forall n n' s e s' e', (length s < n)%nat -> (length s' < n')%nat -> st0 s e s' e' ->
    rp st1 s s' (parse_value_f (Some b) n s e) (parse_value_f (Some b) n' s' e').
  Proof.
    induction n as [|n IH]; intros [|n'] s e s' e' L L' HS; try lia.
    destruct HS as [[[-> ->] H]|(B & -> & ->)].
    2: { destruct (value_endp (Some b) n e) as (x & -> & X); [right; apply B|]. destruct (value_endp (Some b) n' e') as (x' & -> & X'); [right; apply B|].
         apply rp_dead; [intros; now apply dead_1|split; assumption]. }
    destruct H as [|t ts z z' Ht Hn Hf H].
    { cbn [parse_value_f is_null is_bool is_number is_string is_object is_array starts orb]. kill. }
    assert (forall u, (rp st1 (u ++ z) (u ++ z') (Ok (z, clean0)) (Ok (z', clean0)))) as OKS.
    { intros u. cbn [rp]. split; [now apply (live_good ts)|]. rewrite !app_length. lia. }
    assert (n <> 0%nat /\ n' <> 0%nat) as [NZ NZ'].
    { destruct (token_head t Ht) as (c & w & -> & _). cbn [app length] in L, L'. lia. }
    destruct Ht as [c Hc| | | |m Hm|u Hu].
    - assert (pit (length z) (length z') (parse_value_f (Some b) n) (parse_value_f (Some b) n')) as HI.
      { intros x y x' y' LL LL' HX. apply IH; [cbn [app length] in *; lia|cbn [app length] in *; lia|exact HX]. }
      assert (endp (parse_value_f (Some b) n)) as E1 by (destruct n; [congruence|apply value_endp]).
      assert (endp (parse_value_f (Some b) n')) as E2 by (destruct n'; [congruence|apply value_endp]).
      destruct (space_live ts z z' H) as (r & r' & Hr & Hr' & T0 & Lr & Lr' & _).
      assert (forall r r', twin0 r r' -> starts RBR r = true -> (length r <= length z)%nat -> (length r' <= length z')%nat ->
        rp st1 (c :: z) (c :: z') (let* s2 := step r in Ok (s2, clean0)) (let* s2 := step r' in Ok (s2, clean0))) as CL.
      { intros x x' TX SX LX LX'. destruct x as [|y x]; [discriminate|]. cbn [starts] in SX. assert (y = RBR) as -> by lia.
        destruct (head_tail RBR x x' TX ltac:(apply punct_in; lia)) as (u & ts' & -> & HT & _). cbn [step bind rp].
        split; [now apply (live_good ts')|]. cbn [length] in *. lia. }
      apply punct_cases in Hc. cbn [app] in *. destruct Hc as [->|[->|[->|Hc]]].
      + (* { *)
        cbn [parse_value_f is_null is_bool is_number is_string starts orb]. unfold is_digit. change (LCB =? 110) with false. change (LCB =? 116) with false.
        change (LCB =? 102) with false. change (LCB =? QT) with false. change ((LCB =? MINUS) || ((48 <=? LCB) && (LCB <=? 57))) with false.
        cbn [orb is_object]. change (LCB =? LCB) with true. cbv iota. unfold parse_object. cbn [is_object]. change (LCB =? LCB) with true. cbn [negb step bind].
        rewrite Hr, Hr'. rewrite <- (starts_same RBR r r' T0). destruct (starts RBR r) eqn:SR.
        * now apply CL.
        * destruct (twin0_twin r r' T0) as (tr & TR). eapply rp_weak; [apply (items_sim b RCB _ _ (length z) (length z')) with (ts := tr)|cbn [length]; lia|cbn [length]; lia];
            try exact TR; try lia; try (apply punct_in; lia); try apply member_endp. now apply member_sim.
      + (* } *) cbn [parse_value_f is_null is_bool is_number is_string starts orb is_object is_array]. kill.
      + (* [ *)
        cbn [parse_value_f is_null is_bool is_number is_string starts orb]. unfold is_digit. change (LBR =? 110) with false. change (LBR =? 116) with false.
        change (LBR =? 102) with false. change (LBR =? QT) with false. change ((LBR =? MINUS) || ((48 <=? LBR) && (LBR <=? 57))) with false. cbn [orb].
        rewrite <- (object_same z z' ts H). destruct (is_object (LBR :: z)) eqn:EO.
        * unfold parse_object. rewrite <- (object_same z z' ts H), EO. cbn [negb step bind]. rewrite Hr, Hr'. rewrite <- (starts_same RBR r r' T0).
          assert (starts RBR r = true) as SR.
          { unfold is_object in EO. change (LBR =? LCB) with false in EO. change (negb (LBR =? LBR)) with false in EO. cbv iota in EO. now rewrite Hr in EO. }
          rewrite SR. now apply CL.
        * cbn [is_array starts]. change (LBR =? LBR) with true. cbv iota. unfold parse_array. cbn [is_array starts]. change (LBR =? LBR) with true. cbn [negb step bind].
          eapply rp_weak; [apply (items_sim b RBR _ _ (length z) (length z')) with (ts := ts)|cbn [length]; lia|cbn [length]; lia]; try exact H; try lia;
            try (apply punct_in; lia); assumption.
      + assert (forall q k x, parse_value_f (Some b) (S k) (c :: q) x = Ok ([], cerr InvalidJSON None (dist (c :: q)) x)) as EQ.
        { intros q k x. cbn [parse_value_f is_null is_bool is_number is_string is_object is_array starts orb]. unfold is_digit.
          destruct Hc as [->|[-> | ->]]; reflexivity. }
        rewrite !EQ. kill.
    - exact (OKS (text "null")).
    - exact (OKS (text "true")).
    - exact (OKS (text "false")).
    - destruct (Hn Hm) as [F F']. destruct (num_first m Hm) as (c & w & E & Hc & HF). destruct (HF z) as (A & B & C). destruct (HF z') as (A' & B' & C').
      cbn [parse_value_f]. rewrite A, B, C, A', B', C'. rewrite !parse_number_app by (assumption || now apply follow_num_stop). apply OKS.
    - pose proof (parse_string_app u z clean0 Hu) as E1. pose proof (parse_string_app u z' clean0 Hu) as E2. destruct Hu as [l Hl].
      assert (forall q k x, parse_value_f (Some b) (S k) ((QT :: l ++ [QT]) ++ q) x = parse_string ((QT :: l ++ [QT]) ++ q) x) as EQ by reflexivity.
      rewrite !EQ, E1, E2. apply OKS.
  Qed.
  Lemma psim_value b : psim (parse_value (Some b)).
  Proof. intros s e s' e' H. unfold parse_value. apply value_sim; [lia|lia|exact H]. Qed.
  Lemma psim_member b : psim (parse_member (parse_value (Some b))).
  Proof. intros s e s' e' H. apply (member_sim (length s) (length s')); [|lia|lia|exact H]. intros x y x' y' _ _ HX. now apply psim_value. Qed.

  (** ---- containers ---- *)
  Lemma seq_unfold {A S} (item : A -> buf -> eptr -> res (A * buf * eptr)) (ins : S -> A -> S) d0 R n st s e r : parse_space s e = (r, e) ->
    seq_loop item ins d0 R (Datatypes.S n) st s e =
      match r with
      | [] => Ok (st, [], cerr UnexpectedEndFragment None 0 e)
      | c :: t1 =>
        if c =? R then Ok (st, t1, e)
        else
          let* (x, s2, e2) := item d0 r e in
          let st' := ins st x in
          let '(s3, e3) := parse_space s2 e2 in
          match s3 with
          | [] => Ok (st', [], cerr UnexpectedEndFragment None 0 e3)
          | d :: t3 =>
            if d =? R then Ok (st', t3, e3)
            else if negb (d =? COMMA) then Ok (st', [], cerr ExpectedOf (Some [COMMA]) (dist s3) e3)
            else seq_loop item ins d0 R n st' t3 e3
          end
      end.
  Proof.
    intros H. cbn [seq_loop]. destruct s as [|c s].
    - change (parse_space [] e) with (@nil Z, e) in H. injection H as <-. reflexivity.
    - now rewrite H.
  Qed.
  Lemma seq_loop_sim {A S} (item : A -> buf -> eptr -> res (A * buf * eptr)) (ins : S -> A -> S) d0 R : punct R -> sim item ->
    forall n n' ts st s s', (length s < n)%nat -> (length s' < n')%nat -> twin ts s s' ->
    rr all1 s s' (seq_loop item ins d0 R n st s clean0) (seq_loop item ins d0 R n' st s' clean0).
  Proof.
    intros P HI. induction n as [|n IH]; intros [|n'] ts st s s' L L' H; try lia.
    destruct (space_live ts s s' H) as (r & r' & Hr & Hr' & T0 & Lr & Lr' & _).
    rewrite (seq_unfold _ _ _ _ _ _ _ _ _ (Hr clean0)), (seq_unfold _ _ _ _ _ _ _ _ _ (Hr' clean0)).
    destruct (twin0_cases r r' T0) as [[-> ->]|(c & t & t' & -> & -> & Hc & HP)]; [kill|]. destruct (c =? R) eqn:EC.
    - assert (c = R) as -> by lia. destruct (HP P) as (ts' & HT & _). cbn [rr]. split; [reflexivity|]. split; [now apply (live_good ts')|]. cbn [length] in *. lia.
    - eapply rr_bind; [apply HI; now apply live0_good|]. intros v r2 e2 r2' e2' HS L2 L2'.
      destruct (space1 _ _ _ _ HS) as (r3 & r3' & -> & -> & HM & L3 & L3').
      destruct (stm_cases _ _ _ _ HM) as [(-> & -> & He)|([-> ->] & c3 & t3 & t3' & -> & -> & HP3 & _)]; [kill|].
      destruct (c3 =? R) eqn:Q.
      + assert (c3 = R) as -> by lia. destruct (HP3 P) as (ts' & HT & _). cbn [rr]. split; [reflexivity|]. split; [now apply (live_good ts')|]. cbn [length] in *. lia.
      + destruct (c3 =? COMMA) eqn:QC; cbn [negb]; [|kill]. assert (c3 = COMMA) as -> by lia. destruct (HP3 ltac:(apply punct_in; lia)) as (ts' & HT & _).
        eapply rr_weak; [apply (IH n' ts')|cbn [length] in *; lia|cbn [length] in *; lia]; try exact HT; cbn [length] in *; lia.
  Qed.
  Lemma null_same s s' : twin0 s s' -> is_null s = is_null s'.
  Proof. apply starts_same. Qed.
  Lemma sim_seq {A C S} (k : container A C S) L R item d0 b : punct L -> punct R -> sim (des item (Some b)) -> sim (seq_des k L R item d0 (Some b)).
  Proof.
    intros PL P HI old s e s' e' [[[-> ->] H]|(B & -> & ->)].
    2: { unfold seq_des. cbn [is_null starts]. kill. }
    unfold seq_des. rewrite <- (null_same s s' H). destruct (is_null s) eqn:EN.
    - destruct (twin0_null s s' H EN) as (ts & z & z' & -> & -> & HT). rewrite !null_read. cbn [rr]. split; [reflexivity|]. split; [now apply (live_good ts)|].
      rewrite !app_length. lia.
    - destruct (twin0_cases s s' H) as [[-> ->]|(c & t & t' & -> & -> & Hc & HP)]; [kill|]. destruct (c =? L) eqn:EC; cbn [negb]; [|kill].
      assert (c = L) as -> by lia. destruct (HP PL) as (ts & HT & _).
      eapply rr_bind; [apply (seq_loop_sim (des item (Some b)) (c_ins k) d0 R P HI _ _ ts); [lia|lia|exact HT]|].
      intros v r e r' e' HS L1 L2. cbn [rr]. split; [reflexivity|]. split; [exact HS|]. cbn [length]. lia.
  Qed.
  Lemma sim_field {K V} (kc : codec K) (vc : codec V) b : sim (des kc (Some b)) -> sim (des vc (Some b)) -> sim (des (field_codec kc vc) (Some b)).
  Proof.
    intros HK HV old s e s' e' HS. cbn [des field_codec]. unfold field_des. eapply rr_bind; [apply HK; exact HS|].
    intros k r1 e1 r1' e1' H1 L1 L1'. destruct (space1 _ _ _ _ H1) as (r2 & r2' & -> & -> & HM & L2 & L2').
    destruct (stm_cases _ _ _ _ HM) as [(-> & -> & He)|([-> ->] & c & t & t' & -> & -> & HP & _)]; [kill|].
    destruct (c =? COLON) eqn:EC; cbn [negb]; [|kill]. assert (c = COLON) as -> by lia. destruct (HP ltac:(apply punct_in; lia)) as (ts & HT & _).
    destruct (space_live ts t t' HT) as (r & r' & Hr & Hr' & T0 & Lr & Lr' & _). rewrite Hr, Hr'.
    destruct (twin0_cases r r' T0) as [[-> ->]|(d & u & u' & -> & -> & _)]; [kill|].
    eapply rr_bind; [apply HV; now apply live0_good|]. intros v r e0 r' e0' HS' L3 L3'. cbn [rr]. split; [reflexivity|]. split; [exact HS'|].
    cbn [length] in *. lia.
  Qed.
  (** fixed-size arrays *)
  Lemma close_reject ts s R e : twin ts s s -> R = RBR -> (forall x, ts <> [RBR] :: x) -> okst e ->
    exists e', fix_close R s e = ([], e') /\ has_err e' = true.
  Proof.
    intros H -> N He. destruct s as [|c t]; cbn [fix_close]; [eexists; split; [reflexivity|]; apply cerr_has; [discriminate|exact He]|].
    destruct (c =? RBR) eqn:E; cbn [negb]; [|eexists; split; [reflexivity|]; apply cerr_has; [discriminate|exact He]].
    exfalso. assert (c = RBR) as -> by lia. inversion H as [g g' Hg Hg' E1 E2 E3|g g' u us z z' Hg Hg' Hu _ _ _ E1 E2 E3]; subst.
    - destruct (gap_head _ Hg) as [Q|(c0 & q & Q & [Hc|Hc])]; [discriminate| |]; injection Q as Q _; unfold s_ws in *; lia.
    - destruct g as [|c1 g].
      + cbn [app] in E2. destruct (token_head u Hu) as (c0 & w & -> & _). cbn [app] in E2. injection E2 as E2 _. subst c0.
        assert (w = []) as -> by (eapply token_punct; [exact Hu|reflexivity|apply punct_in; lia]). now apply (N us).
      + cbn [app] in E2. injection E2 as E2 _. destruct (gap_head _ Hg) as [Q|(c0 & q & Q & [Hc|Hc])]; [discriminate| |]; injection Q as Q _; unfold s_ws in *; lia.
  Qed.
  Lemma twin_left ts s s' : twin ts s s' -> twin ts s s /\ twin ts s' s'.
  Proof.
    induction 1 as [g g' Hg Hg'|g g' t ts s s' Hg Hg' Ht Hn Hf H [IH IH']]; [split; now constructor|].
    split; constructor; auto; intros X; destruct (Hn X); auto.
  Qed.
  Lemma fix_unfold {A} (item : A -> buf -> eptr -> res (A * buf * eptr)) fresh ex R x todo' s r : parse_space s clean0 = (r, clean0) -> forall f,
    f = fix_loop item fresh ex R (x :: todo') s clean0 ->
    match r with
    | [] => exists e, f = Ok (x :: todo', [], e) /\ has_err e = true
    | c :: _ => f =
        if c =? R then let '(r, e') := fix_close R r clean0 in Ok (x :: todo', r, e')
        else
          let* (y, s2, e2) := item (match fresh with Some d0 => d0 | None => x end) r clean0 in
          let '(s3, e3) := parse_space s2 e2 in
          match s3 with
          | [] => Ok (y :: todo', [], cerr UnexpectedEndFragment None 0 e3)
          | d :: t3 =>
            if d =? R then let '(r, e') := fix_close R s3 e3 in Ok (y :: todo', r, e')
            else if negb (d =? COMMA) then Ok (y :: todo', [], cerr ExpectedOf (Some ex) (dist s3) e3)
            else let* (l, r, e') := fix_loop item fresh ex R todo' t3 e3 in Ok (y :: l, r, e')
          end
    end.
  Proof.
    intros H f ->. cbn [fix_loop]. destruct s as [|c s].
    - change (parse_space [] clean0) with (@nil Z, clean0) in H. injection H as <-. cbn [fix_close]. eexists. split; [reflexivity|]. apply cerr_has; [discriminate|apply clean_ok].
    - rewrite H. destruct r; [|reflexivity]. eexists. split; [reflexivity|]. apply cerr_has; [discriminate|apply clean_ok].
  Qed.
  Lemma fix_loop_sim {A} (item : A -> buf -> eptr -> res (A * buf * eptr)) fresh ex : fx -> sim item ->
    forall todo ts s s', (todo = [] -> forall x, ts <> [RBR] :: x) -> twin ts s s' ->
    rr all1 s s' (fix_loop item fresh ex RBR todo s clean0) (fix_loop item fresh ex RBR todo s' clean0).
  Proof.
    intros FX HI. assert (punct RBR) as P by (apply punct_in; lia). assert (punct COMMA) as PC by (apply punct_in; lia).
    induction todo as [|x todo IH]; intros ts s s' N H.
    - destruct (twin_left ts s s' H) as [H1 H2]. cbn [fix_loop].
      destruct (close_reject ts s RBR clean0 H1 eq_refl (N eq_refl) clean_ok) as (e1 & -> & X1).
      destruct (close_reject ts s' RBR clean0 H2 eq_refl (N eq_refl) clean_ok) as (e2 & -> & X2).
      apply rr_dead; [intros; now apply dead_1|split; assumption].
    - destruct (space_live ts s s' H) as (r & r' & Hr & Hr' & T0 & Lr & Lr' & _).
      pose proof (fix_unfold item fresh ex RBR x todo s r (Hr _) _ eq_refl) as E. pose proof (fix_unfold item fresh ex RBR x todo s' r' (Hr' _) _ eq_refl) as E'.
      destruct (twin0_cases r r' T0) as [[-> ->]|(c & t & t' & -> & -> & Hc & HP)].
      + destruct E as (e1 & -> & X1). destruct E' as (e2 & -> & X2). apply rr_dead; [intros; now apply dead_1|split; assumption].
      + rewrite E, E'. clear E E'. destruct (c =? RBR) eqn:EC.
        * assert (c = RBR) as -> by lia. destruct (HP P) as (ts' & HT & _). cbn [fix_close]. rewrite EC. cbn [negb rr]. split; [reflexivity|].
          split; [now apply (live_good ts')|]. cbn [length] in *. lia.
        * eapply rr_bind; [apply HI; now apply live0_good|]. intros v r2 e2 r2' e2' HS L2 L2'.
          destruct (space1 _ _ _ _ HS) as (r3 & r3' & -> & -> & HM & L3 & L3').
          destruct (stm_cases _ _ _ _ HM) as [(-> & -> & He)|([-> ->] & c3 & t3 & t3' & -> & -> & HP3 & _)]; [kill|].
          destruct (c3 =? RBR) eqn:Q.
          -- assert (c3 = RBR) as -> by lia. destruct (HP3 P) as (ts' & HT & _). cbn [fix_close]. rewrite Q. cbn [negb rr]. split; [reflexivity|].
             split; [now apply (live_good ts')|]. cbn [length] in *. lia.
          -- destruct (c3 =? COMMA) eqn:QC; cbn [negb]; [|kill]. assert (c3 = COMMA) as -> by lia. destruct (HP3 PC) as (ts' & HT & NT).
             eapply rr_bind; [apply (IH ts' t3 t3'); [intros _; now apply NT|exact HT]|]. intros w r4 e4 r4' e4' HS' L4 L4'. cbn [rr]. split; [reflexivity|].
             split; [exact HS'|]. cbn [length] in *. lia.
  Qed.
  Lemma fix_null_same {A} (c : codec A) b : takes_null c -> sim (des c (Some b)) -> forall ts z z', twin ts z z' -> forall l, exists l',
    fix_null (des c (Some b)) l (text "null" ++ z) clean0 = Ok (l', clean0) /\ fix_null (des c (Some b)) l (text "null" ++ z') clean0 = Ok (l', clean0).
  Proof.
    intros TN HI ts z z' H. induction l as [|x l (l' & E & E')]; [exists []; split; reflexivity|]. cbn [fix_null].
    destruct (TN (Some b) x z clean0) as (v & r & D). destruct (TN (Some b) x z' clean0) as (v' & r' & D').
    assert (v = v') as <-.
    { assert (twin0 (text "null" ++ z) (text "null" ++ z')) as T0.
      { apply (t0_tok (text "null") ts); [constructor| |discriminate|exact H]. intros X. destruct (rnumber_head _ X) as (c0 & w & Q & Hc).
        vm_compute in Q. injection Q as <- _. unfold s_digit in Hc. lia. }
      pose proof (HI x _ _ _ _ (live0_good _ _ T0)) as Q. rewrite D, D' in Q. cbn [rr] in Q. apply Q. }
    rewrite D, D'. cbn [bind]. rewrite E, E'. cbn [bind]. exists (v :: l'). split; reflexivity.
  Qed.
  Lemma sim_fix {A} fresh ex (c : codec A) b : fx -> takes_null c -> sim (des c (Some b)) -> forall old, old <> [] -> forall s e s' e', st0 s e s' e' ->
    rr all1 s s' (fix_des fresh ex LBR RBR c (Some b) old s e) (fix_des fresh ex LBR RBR c (Some b) old s' e').
  Proof.
    intros FX TN HI old NE s e s' e' [[[-> ->] H]|(B & -> & ->)].
    2: { unfold fix_des. cbn [is_null starts]. kill. }
    unfold fix_des. rewrite <- (null_same s s' H). destruct (is_null s) eqn:EN.
    - destruct (twin0_null s s' H EN) as (ts & z & z' & -> & -> & HT). destruct (fix_null_same c b TN HI ts z z' HT old) as (l' & -> & ->). cbn [bind].
      rewrite !null_read. cbn [rr]. split; [reflexivity|]. split; [now apply (live_good ts)|]. rewrite !app_length. lia.
    - destruct (twin0_cases s s' H) as [[-> ->]|(x & t & t' & -> & -> & Hc & HP)]; [kill|]. destruct (x =? LBR) eqn:EC; cbn [negb]; [|kill].
      assert (x = LBR) as -> by lia. destruct (HP ltac:(apply punct_in; lia)) as (ts & HT & _).
      eapply rr_weak; [apply (fix_loop_sim (des c (Some b)) fresh ex FX HI old ts); [congruence|exact HT]|cbn [length]; lia|cbn [length]; lia].
  Qed.
  Lemma vlist_ne A N (v : vec A N) : (0 < N)%nat -> vlist v <> [].
  Proof. destruct N; [lia|]. intros _. discriminate. Qed.
  Lemma sim_vec {A} (c : codec (list A)) N b : (forall old, old <> [] -> forall s e s' e', st0 s e s' e' ->
      rr all1 s s' (des c (Some b) old s e) (des c (Some b) old s' e')) -> (0 < N)%nat -> sim (des (vec_codec c N) (Some b)).
  Proof.
    intros H HN old s e s' e' HS. cbn [des vec_codec]. eapply rr_bind; [apply H; [now apply vlist_ne|exact HS]|].
    intros v r x r' x' HR L L'. cbn [rr]. auto.
  Qed.
  (** wrappers *)
  Lemma sim_map {A T} (c : codec A) (get : T -> A) (set : T -> A -> T) b : sim (des c (Some b)) ->
    sim (fun old s e => let* (x, r, e') := des c (Some b) (get old) s e in Ok (set old x, r, e')).
  Proof. intros H old s e s' e' HS. eapply rr_bind; [apply H; exact HS|]. intros v r x r' x' HR L L'. cbn [rr]. auto. Qed.
  Lemma sim_ptr {A} (c : codec A) d0 b : sim (des c (Some b)) -> sim (des (ptr_codec c d0) (Some b)).
  Proof.
    intros HC old s e s' e' HS. cbn [des ptr_codec]. unfold ptr_des. pose proof HS as [[[-> ->] H]|(B & -> & ->)].
    2: { cbn [skipn rr length]. split; [reflexivity|]. split; [now apply dead_1|]. lia. }
    destruct (twin0_cases s s' H) as [[-> ->]|(c0 & t & t' & -> & -> & _)].
    - cbn [skipn rr length]. split; [reflexivity|]. split; [|lia]. apply (live_good []). constructor; constructor.
    - destruct (c0 =? 110) eqn:E; cbn [negb].
      + destruct (twin0_null _ _ H E) as (ts & z & z' & E1 & E2 & HT). rewrite E1, E2. change (skipn 4 (text "null" ++ z)) with z. change (skipn 4 (text "null" ++ z')) with z'.
        cbn [rr]. split; [reflexivity|]. split; [now apply (live_good ts)|]. rewrite !app_length. lia.
      + eapply rr_bind; [apply HC; exact HS|]. intros v r x r' x' HR L L'. cbn [rr]. auto.
  Qed.
  Lemma sim_quoted1 {A} (c : codec A) b : sim (quoted_des1 c (Some b)).
  Proof.
    intros old s e s' e' HS. unfold quoted_des1. eapply rr_bind; [apply (sim_string b []); exact HS|]. intros v r x r' x' HR L L'.
    rewrite <- (ends_err _ _ (st1_ends _ _ _ _ HR)). destruct (has_err x) eqn:EX.
    - pose proof (ends_err _ _ (st1_ends _ _ _ _ HR)) as EX'. rewrite EX in EX'. apply rr_dead; [intros; now apply dead_1|split; congruence].
    - destruct (des c (Some 0) old v (Some no_error)) as [[[w q] f]| |]; cbn [bind]; [|exact I|exact I].
      assert (x = clean0 /\ x' = clean0) as [-> ->].
      { destruct (st1_ends _ _ _ _ HR) as [[-> ->]|[B _]]; [auto|congruence]. }
      unfold clean0. destruct f as [k|]; [|cbn [rr]; auto]. destruct (is_err k) eqn:K; [|cbn [rr]; auto].
      apply rr_dead; [intros; now apply dead_1|]. split; unfold has_err, no_err_yet, is_err in *; cbn [code]; now rewrite K.
  Qed.
  Lemma sim_quoted {A} (c : codec A) serq b : sim (des (quoted_codec c serq true) (Some b)).
  Proof. exact (sim_quoted1 c b). Qed.
  Lemma sim_unquoted {A} (c : codec A) serq b : sim (des c (Some b)) -> sim (des (quoted_codec c serq false) (Some b)).
  Proof.
    intros HC old s e s' e' HS. cbn [des quoted_codec]. unfold quoted_des.
    assert (is_string s = is_string s') as <-.
    { destruct HS as [[_ H]|(_ & -> & ->)]; [|reflexivity]. unfold is_string. now apply starts_same. }
    destruct (is_string s); [now apply sim_quoted1|now apply HC].
  Qed.
  (** ---- objects ---- *)

  Definition missed (p : buf * buf) : Prop := match snd p with [] => False | c :: _ => c <> QT \/ fst p <> [] end.
  Lemma name_uniform nm : forall x, (forall a q, x = a ++ QT :: q -> nm <> a) ->
    (forall z, name_loop nm (x ++ QT :: z) = ([], QT :: z)) \/ (forall z, missed (name_loop nm (x ++ QT :: z))).
  Proof.
    induction nm as [|n nm IH]; intros [|c x] NQ.
    - left. reflexivity.
    - right. intros z. left. intros ->. now apply (NQ [] x).
    - right. intros z. cbn [app name_loop]. rewrite Z.eqb_refl, andb_false_r. right. discriminate.
    - cbn [app name_loop]. destruct ((c =? n) && negb (c =? QT)) eqn:E.
      + apply IH. intros a q -> ->. apply (NQ (c :: a) q); [reflexivity|]. f_equal. lia.
      + right. intros z. right. discriminate.
  Qed.
  Definition name_tail (z : buf) (e : eptr) : buf * eptr * bool :=
    let '(s2, e2) := parse_space z e in
    match s2 with
    | [] => ([], cerr UnexpectedEndFragment None 0 e2, true)
    | d :: t2 =>
      if negb (d =? COLON) then ([], cerr ExpectedOf (Some [COLON]) (dist s2) e2, true)
      else
        let '(s3, e3) := parse_space t2 e2 in
        match s3 with
        | [] => ([], cerr UnexpectedEndFragment None 0 e3, true)
        | _ => (s3, e3, true)
        end
    end.
  Lemma unser_uniform nm l : wchars nm -> wchars l ->
    (forall z u e, unser_name nm (QT :: l ++ QT :: z) u e = name_tail z e) \/
    (forall z u e, unser_name nm (QT :: l ++ QT :: z) u e = (QT :: l ++ QT :: z, e, false)).
  Proof.
    intros Hn Hl. destruct (name_uniform nm l) as [H|H].
    - intros a q -> ->. exact (wchars_cut a q Hn Hl).
    - left. intros z u e. unfold unser_name. cbn [is_string starts tl]. change (QT =? QT) with true. cbn [negb]. rewrite H. reflexivity.
    - right. intros z u e. unfold unser_name. cbn [is_string starts tl]. change (QT =? QT) with true. cbn [negb]. specialize (H z).
      destruct (name_loop nm (l ++ QT :: z)) as [n' [|c q]]; cbn [missed fst snd] in H; [contradiction|].
      replace (negb (c =? QT) || match n' with [] => false | _ => true end) with true; [reflexivity|]. destruct H as [H|H]; [|destruct n'; [congruence|]]; lia.
  Qed.
  (** name matched: before the value; otherwise unchanged *)
  Definition ust (u : bool) : buf -> eptr -> buf -> eptr -> Prop := st0.
  Lemma unser_sim nm u s e s' e' : wchars nm -> st0 s e s' e' -> exists r x r' x' v,
    unser_name nm s u e = (r, x, v) /\ unser_name nm s' u e' = (r', x', v) /\ st0 r x r' x' /\ (length r <= length s)%nat /\ (length r' <= length s')%nat.
  Proof.
    intros Hn [[[-> ->] H]|(B & -> & ->)].
    2: { unfold unser_name. cbn [is_string starts negb]. eexists _, _, _, _, _. split; [reflexivity|]. split; [reflexivity|]. split; [|lia]. apply dead_0.
         apply cerr_bad; [discriminate|discriminate|now right]. }
    destruct (is_string s) eqn:E.
    - destruct (twin0_str s s' H E) as (l & ts & z & z' & Hl & -> & -> & HT). destruct (unser_uniform nm l Hn Hl) as [U|U]; rewrite !U.
      + unfold name_tail. destruct (space_live ts z z' HT) as (r & r' & Hr & Hr' & T0 & Lr & Lr' & _). rewrite Hr, Hr'.
        assert (forall a a', (a <= length z)%nat -> (a' <= length z')%nat -> (a <= length (QT :: l ++ QT :: z))%nat /\ (a' <= length (QT :: l ++ QT :: z'))%nat) as LL.
        { intros a a' La La'. cbn [length]. rewrite !app_length. cbn [length]. lia. }
        destruct (twin0_cases r r' T0) as [[-> ->]|(c & t & t' & -> & -> & Hc & HP)].
        { eexists _, _, _, _, _. split; [reflexivity|]. split; [reflexivity|]. split; [|apply LL; cbn [length]; lia]. apply dead_0. now apply cerr2. }
        destruct (c =? COLON) eqn:EC; cbn [negb].
        2: { eexists _, _, _, _, _. split; [reflexivity|]. split; [reflexivity|]. split; [|apply LL; cbn [length]; lia]. apply dead_0. now apply cerr2. }
        assert (c = COLON) as -> by lia. destruct (HP ltac:(apply punct_in; lia)) as (ts' & HT' & _).
        destruct (space_live ts' t t' HT') as (q & q' & Hq & Hq' & T1 & Lq & Lq' & _). rewrite Hq, Hq'.
        destruct (twin0_cases q q' T1) as [[-> ->]|(d & w & w' & -> & -> & _)].
        { eexists _, _, _, _, _. split; [reflexivity|]. split; [reflexivity|]. split; [|apply LL; cbn [length]; lia]. apply dead_0. now apply cerr2. }
        eexists _, _, _, _, _. split; [reflexivity|]. split; [reflexivity|]. split; [now apply live0_good|]. apply LL; cbn [length] in *; lia.
      + eexists _, _, _, _, _. split; [reflexivity|]. split; [reflexivity|]. split; [now apply live0_good|]. lia.
    - unfold unser_name. rewrite E. pose proof (starts_same QT s s' H) as SS. unfold is_string in *. rewrite E in SS. rewrite <- SS. cbn [negb].
      eexists _, _, _, _, _. split; [reflexivity|]. split; [reflexivity|]. split; [|cbn [length]; lia]. apply dead_0. now apply cerr2.
  Qed.
  Definition mst {T} (p : T * bool) : buf -> eptr -> buf -> eptr -> Prop := if snd p then st1 else st0.
  Definition msim {T} (f : T -> buf -> bool -> eptr -> res (T * bool * buf * eptr)) : Prop :=
    forall t u s e s' e', st0 s e s' e' -> rr mst s s' (f t s u e) (f t s' u e').
  Lemma mem_sim_gen {T A} nm (f : T -> A) (g : T -> A -> T) (c : codec A) b : wchars nm -> sim (des c (Some b)) ->
    msim (fun t s u e => let '(s1, e1, u1) := unser_name nm s u e in if negb u1 then Ok (t, u1, s1, e1) else let* (x, r, e2) := des c (Some b) (f t) s1 e1 in Ok (g t x, u1, r, e2)).
  Proof.
    intros Hn HC t u s e s' e' HS. destruct (unser_sim nm u s e s' e' Hn HS) as (r & x & r' & x' & v & -> & -> & HR & L & L'). destruct v; cbn [negb].
    - eapply rr_bind; [apply HC; exact HR|]. intros w q y q' y' HQ LQ LQ'. cbn [rr]. split; [reflexivity|]. split; [exact HQ|]. lia.
    - cbn [rr]. split; [reflexivity|]. split; [exact HR|]. lia.
  Qed.
  Lemma mem_sim {T} (m : mem T) b : wchars (m_name m) -> sim (des (m_codec m) (Some b)) -> msim (fun t s u e => mem_des m (Some b) t s u e).
  Proof. intros Hn HC. exact (mem_sim_gen (m_name m) (m_get m) (m_set m) (m_codec m) b Hn HC). Qed.
  Lemma mem_p_sim {T} (m : mem T) init b : wchars (m_name m) -> sim (des (m_codec m) (Some b)) -> msim (fun t s u e => mem_p_des m init (Some b) t s u e).
  Proof. intros Hn HC. exact (mem_sim_gen (m_name m) (fun _ => init) (m_set m) (m_codec m) b Hn HC). Qed.
  Lemma st0_fresh s e s' e' : st0 s e s' e' -> st0 s clean0 s' clean0.
  Proof. intros [[[-> ->] H]|(B & -> & ->)]; [now apply live0_good|]. apply live0_good. constructor. Qed.
  Lemma memb_sim {T} (c : memb T) b : (forall m, In m (mems_of c) -> wchars (m_name m)) -> (forall m, In m (mems_of c) -> sim (des (m_codec m) (Some b))) ->
    msim (fun t s u e => memb_des c (Some b) t s u e).
  Proof.
    intros Hn HC. destruct c as [m|m init|ru l r isdef]; cbn [mems_of memb_des] in *.
    - apply mem_sim; [apply Hn|apply HC]; now left.
    - apply mem_p_sim; [apply Hn|apply HC]; now left.
    - intros t u s e s' e' HS. set (m1 := if ru then r else l). set (m2 := if ru then l else r).
      assert (In m1 [l; r] /\ In m2 [l; r]) as [I1 I2] by (subst m1 m2; destruct ru; cbn [In]; auto).
      pose proof (mem_sim m1 b (Hn m1 I1) (HC m1 I1)) as S1. pose proof (mem_sim m2 b (Hn m2 I2) (HC m2 I2)) as S2.
      eapply rr_bind; [apply (S1 t u s clean0 s' clean0); now apply (st0_fresh _ _ _ _ HS)|]. intros [t1 u1] q x q' x' HQ LQ LQ'.
      assert (ends x x') as HE by (destruct u1; cbn [mst snd] in HQ; [now apply st1_ends in HQ|now apply st0_ends in HQ]).
      rewrite <- (ends_yet _ _ HE). destruct (no_err_yet x) eqn:EX.
      + apply rr_same. intros t2. cbn [rr]. split; [reflexivity|]. split; [|lia]. assert (x = clean0 /\ x' = clean0) as [-> ->].
        { destruct HE as [[-> ->]|[B _]]; [auto|]. unfold has_err in B. rewrite EX in B. discriminate. }
        destruct HS as [[[-> ->] H]|(B & -> & ->)]; [exact HQ|]. cbn [length] in LQ, LQ'. destruct q; [|cbn [length] in LQ; lia]. destruct q'; [|cbn [length] in LQ'; lia].
        destruct u1; cbn [mst snd]; [now apply dead_1|now apply dead_0].
      + apply rr_same. intros t2. now apply (S2 t2 u1).
  Qed.
  Section Members.
    Context {T : Type} (mode : omode) (b : Z) (L : list (memb T)).
    Hypothesis Hn : forall c m, In c L -> In m (mems_of c) -> wchars (m_name m).
    Hypothesis HC : forall c m, In c L -> In m (mems_of c) -> sim (des (m_codec m) (Some b)).
    Lemma rest_loop_sim : forall n n' s s', (length s < n)%nat -> (length s' < n')%nat -> twin0 s s' ->
      rp stm s s' (rest_loop mode (Some b) n s clean0) (rest_loop mode (Some b) n' s' clean0).
    Proof.
      induction n as [|n IH]; intros [|n'] s s' LS LS' H; try lia. cbn [rest_loop]. eapply rp_bind; [apply psim_member; now apply live0_good|].
      intros r e r' e' HR LR LR'. destruct (space1 _ _ _ _ HR) as (r3 & r3' & -> & -> & HM & L3 & L3').
      destruct (stm_cases _ _ _ _ HM) as [(-> & -> & He)|([-> ->] & c3 & t3 & t3' & -> & -> & HP3 & _)]; [kill|]. destruct (c3 =? RCB) eqn:Q.
      - destruct mode; [|kill]. cbn [rp]. split; [exact HM|]. cbn [length] in *. lia.
      - destruct (c3 =? COMMA) eqn:QC; cbn [negb]; [|kill]. assert (c3 = COMMA) as -> by lia. destruct (HP3 ltac:(apply punct_in; lia)) as (ts & HT & _).
        destruct (space_live ts t3 t3' HT) as (q & q' & Hq & Hq' & T0 & Lq & Lq' & _). rewrite Hq, Hq'.
        eapply rp_weak; [apply IH; [| |exact T0]|cbn [length] in *; lia|cbn [length] in *; lia]; cbn [length] in *; lia.
    Qed.
    Lemma twin0_space s s' e : twin0 s s' -> parse_space s e = (s, e) /\ parse_space s' e = (s', e).
    Proof. intros [|t ts z z' Ht _ _ _]; [split; reflexivity|]. split; apply space_stop; now apply token_stop. Qed.
    Lemma rest_sim s s' : twin0 s s' -> rp stm s s' (rest_members mode (Some b) s clean0) (rest_members mode (Some b) s' clean0).
    Proof.
      intros H. unfold rest_members. destruct (twin0_space s s' clean0 H) as [-> ->].
      destruct (twin0_cases s s' H) as [[-> ->]|(c & t & t' & -> & -> & Hc & HP)]; [kill|]. destruct (c =? RCB) eqn:Q.
      - cbn [rp]. split; [|lia]. now apply st0_m, live0_good.
      - apply rest_loop_sim; [lia|lia|exact H].
    Qed.
    Lemma search_end_sim s e s' e' : st0 s e s' e' -> rp st1 s s' (search_end mode (Some b) s e) (search_end mode (Some b) s' e').
    Proof.
      intros HS. unfold search_end. destruct mode.
      - eapply rp_bind; [apply psim_member; exact HS|]. intros r x r' x' HR LR LR'.
        destruct (space1 _ _ _ _ HR) as (r3 & r3' & -> & -> & HM & L3 & L3'). cbn [rp]. split; [now apply stm_1|lia].
      - pose proof (st0_m _ _ _ _ HS) as HM. destruct (stm_cases _ _ _ _ HM) as [(-> & -> & He)|([-> ->] & c & t & t' & -> & -> & _)]; [kill|].
        destruct (c =? RCB); [|kill]. cbn [rp]. split; [now apply st0_1|lia].
    Qed.
    Lemma search_sim R : (forall c, In c R -> In c L) -> forall t s e s' e', st0 s e s' e' ->
      rr all1 s s' (search_members mode (Some b) R t s e) (search_members mode (Some b) R t s' e').
    Proof.
      induction R as [|c R IH]; intros HR t s e s' e' HS; cbn [search_members].
      - eapply rr_pbind; [apply search_end_sim; exact HS|]. intros r x r' x' H LR LR'. cbn [rr]. auto.
      - assert (In c L) as IC by (apply HR; now left).
        eapply rr_bind; [apply (memb_sim c b); [intros m; now apply Hn|intros m; now apply HC|exact HS]|]. intros [t1 u] r x r' x' H LR LR'. destruct u; cbn [negb].
        + cbn [rr]. auto.
        + cbn [mst snd] in H. eapply rr_weak; [apply IH; [intros d Hd; apply HR; now right|exact H]|lia|lia].
    Qed.
    Lemma at_close_sim (t : T) s e s' e' u u' : stm s e s' e' -> (length s <= length u)%nat -> (length s' <= length u')%nat ->
      rr (fun _ => stm) u u' (at_close t s e) (at_close t s' e').
    Proof.
      intros HM LL LL'. unfold at_close. destruct (stm_cases _ _ _ _ HM) as [(-> & -> & He)|([-> ->] & c & w & w' & -> & -> & _)]; [kill|].
      destruct (c =? RCB); cbn [negb]; [|kill]. cbn [rr]. auto.
    Qed.
    Lemma members_sim : forall n n' R t s s', (forall c, In c R -> In c L) -> (length s < n)%nat -> (length s' < n')%nat -> twin0 s s' ->
      rr (fun _ => stm) s s' (members_loop mode (Some b) L n R t s clean0) (members_loop mode (Some b) L n' R t s' clean0).
    Proof.
      induction n as [|n IH]; intros [|n'] R t s s' HR LS LS' H; try lia. cbn [members_loop]. destruct R as [|c R].
      - eapply rr_pbind; [apply rest_sim; exact H|]. intros r x r' x' HX LR LR'. cbn [rr]. auto.
      - assert (In c L) as IC by (apply HR; now left).
        eapply rr_bind; [apply (memb_sim c b); [intros m; now apply Hn|intros m; now apply HC|now apply live0_good]|]. intros [t1 u] r x r' x' HX LR LR'.
        eapply (rr_bind (fun _ => st1) _ s s').
        + destruct u; cbn [negb mst snd] in *.
          * cbn [rr]. auto.
          * eapply rr_weak; [apply search_sim; [auto|exact HX]|lia|lia].
        + intros t2 r2 e2 r2' e2' H2 L2 L2'. destruct (space1 _ _ _ _ H2) as (r3 & r3' & -> & -> & HM & L3 & L3').
          destruct (stm_cases _ _ _ _ HM) as [(-> & -> & He)|([-> ->] & c3 & t3 & t3' & -> & -> & HP3 & _)]; [kill|]. destruct (c3 =? COMMA) eqn:QC.
          * assert (c3 = COMMA) as -> by lia. destruct (HP3 ltac:(apply punct_in; lia)) as (ts & HT & _).
            destruct (space_live ts t3 t3' HT) as (q & q' & Hq & Hq' & T0 & Lq & Lq' & _). rewrite Hq, Hq'.
            eapply rr_bind; [apply (IH n' (if u then R else c :: R) t2 q q'); [|cbn [length] in *; lia|cbn [length] in *; lia|exact T0]|].
            -- intros d Hd. apply HR. destruct u; [now right|exact Hd].
            -- intros t5 r5 e5 r5' e5' H5 L5 L5'. apply at_close_sim; [exact H5| |]; cbn [length] in *; lia.
          * apply at_close_sim; [exact HM| |]; lia.
    Qed.
    Lemma sim_object t0 : sim (object_des mode L t0 (Some b)).
    Proof.
      intros old s e s' e' [[[-> ->] H]|(B & -> & ->)].
      2: { unfold object_des. cbn [is_null starts]. kill. }
      unfold object_des. rewrite <- (null_same s s' H). destruct (is_null s) eqn:EN.
      - destruct (twin0_null s s' H EN) as (ts & z & z' & -> & -> & HT). rewrite !null_read. cbn [rr]. split; [reflexivity|]. split; [now apply (live_good ts)|].
        rewrite !app_length. lia.
      - destruct (twin0_cases s s' H) as [[-> ->]|(c & t & t' & -> & -> & Hc & HP)]; [kill|]. destruct (c =? LCB) eqn:EC; cbn [negb].
        + assert (c = LCB) as -> by lia. destruct (HP ltac:(apply punct_in; lia)) as (ts & HT & _).
          destruct (space_live ts t t' HT) as (r & r' & Hr & Hr' & T0 & Lr & Lr' & _). rewrite Hr, Hr'.
          destruct (twin0_cases r r' T0) as [[-> ->]|(d & w & w' & -> & -> & Hd & HPd)]; [kill|]. destruct (d =? RCB) eqn:ED; cbn [negb].
          * assert (d = RCB) as -> by lia. destruct (HPd ltac:(apply punct_in; lia)) as (ts' & HT' & _). cbn [rr]. split; [reflexivity|].
            split; [now apply (live_good ts')|]. cbn [length] in *. lia.
          * eapply rr_bind; [apply members_sim; [auto|lia|lia|exact T0]|]. intros v r2 e2 r2' e2' H2 L2 L2'.
            destruct (stm_cases _ _ _ _ H2) as [(-> & -> & He)|([-> ->] & c3 & t3 & t3' & -> & -> & HP3 & [[Hc3 TW]|Hc3])]; [kill| |].
            -- destruct (twin0_space _ _ clean0 TW) as [-> ->]. destruct (c3 =? RCB) eqn:E3; cbn [negb]; [|kill]. assert (c3 = RCB) as -> by lia.
               destruct (HP3 ltac:(apply punct_in; lia)) as (ts' & HT' & _). cbn [rr]. split; [reflexivity|]. split; [now apply (live_good ts')|]. cbn [length] in *. lia.
            -- rewrite !space_stop by (unfold numc in Hc3; cbn; unfold s_ws; lia). replace (c3 =? RCB) with false by (unfold numc in Hc3; lia). cbn [negb]. kill.
        + destruct (c =? LBR) eqn:EL; [|kill]. assert (c = LBR) as -> by lia. destruct (HP ltac:(apply punct_in; lia)) as (ts & HT & _).
          destruct (space_live ts t t' HT) as (r & r' & Hr & Hr' & T0 & Lr & Lr' & _). rewrite Hr, Hr'.
          destruct (twin0_cases r r' T0) as [[-> ->]|(d & w & w' & -> & -> & Hd & HPd)]; cbn [deref bind].
          * destruct (negb (b =? RBR)); [kill|]. exact I.
          * destruct (d =? RBR) eqn:ED; cbn [negb]; [|kill]. assert (d = RBR) as -> by lia. destruct (HPd ltac:(apply punct_in; lia)) as (ts' & HT' & _).
            cbn [step bind rr]. split; [reflexivity|]. split; [now apply (live_good ts')|]. cbn [length] in *. lia.
    Qed.
  End Members.
  (** ---- object arrays ---- *)
  Lemma amem_sim {T} (m : mem T) b : sim (des (m_codec m) (Some b)) -> sim (fun t s e => amem_des m (Some b) t s e).
  Proof. intros H. exact (sim_map (m_codec m) (m_get m) (m_set m) b H). Qed.
  Lemma amemb_sim {T} (c : memb T) b : (forall m, In m (mems_of c) -> sim (des (m_codec m) (Some b))) -> sim (fun t s e => amemb_des c (Some b) t s e).
  Proof.
    intros HC. destruct c as [m|m init|ru l r isdef]; cbn [mems_of amemb_des] in *.
    - apply amem_sim. apply HC. now left.
    - exact (sim_map (m_codec m) (fun _ => init) (m_set m) b (HC m (or_introl eq_refl))).
    - intros t s e s' e' HS. set (m1 := if ru then r else l). set (m2 := if ru then l else r).
      assert (In m1 [l; r] /\ In m2 [l; r]) as [I1 I2] by (subst m1 m2; destruct ru; cbn [In]; auto).
      pose proof (amem_sim m1 b (HC m1 I1)) as S1. pose proof (amem_sim m2 b (HC m2 I2)) as S2.
      eapply rr_bind; [apply (S1 t s clean0 s' clean0); now apply (st0_fresh _ _ _ _ HS)|]. intros t1 q x q' x' HQ LQ LQ'.
      pose proof (st1_ends _ _ _ _ HQ) as HE. rewrite <- (ends_yet _ _ HE). destruct (no_err_yet x) eqn:EX.
      + apply rr_same. intros t2. cbn [rr]. split; [reflexivity|]. split; [|lia]. assert (x = clean0 /\ x' = clean0) as [-> ->].
        { destruct HE as [[-> ->]|[B _]]; [auto|]. unfold has_err in B. rewrite EX in B. discriminate. }
        destruct HS as [[[-> ->] H]|(B & -> & ->)]; [exact HQ|]. cbn [length] in LQ, LQ'. destruct q; [|cbn [length] in LQ; lia]. destruct q'; [|cbn [length] in LQ'; lia].
        now apply dead_1.
      + apply rr_same. intros t2. now apply (S2 t2).
  Qed.
  Lemma amembers_sim {T} (L : list (memb T)) b : (forall c m, In c L -> In m (mems_of c) -> sim (des (m_codec m) (Some b))) ->
    forall t s e s' e', st0 s e s' e' -> rr (fun _ => stm) s s' (amembers_des (Some b) L t s e) (amembers_des (Some b) L t s' e').
  Proof.
    induction L as [|c L IH]; intros HC t s e s' e' HS; cbn [amembers_des].
    - cbn [rr]. split; [reflexivity|]. split; [now apply st0_m|lia].
    - eapply rr_bind; [apply (amemb_sim c b); [intros m; apply HC; now left|exact HS]|]. intros t1 r1 e1 r1' e1' H1 L1 L1'.
      destruct (space1 _ _ _ _ H1) as (r3 & r3' & -> & -> & HM & L3 & L3').
      destruct (stm_cases _ _ _ _ HM) as [(-> & -> & He)|([-> ->] & c3 & t3 & t3' & -> & -> & HP3 & _)]; [kill|].
      eapply (rr_bind (fun _ => stm) _ s s').
      + destruct (c3 =? COMMA) eqn:QC.
        * assert (c3 = COMMA) as -> by lia. destruct (HP3 ltac:(apply punct_in; lia)) as (ts & HT & _).
          destruct (space_live ts t3 t3' HT) as (q & q' & Hq & Hq' & T0 & Lq & Lq' & _). rewrite Hq, Hq'.
          eapply rr_weak; [apply IH; [intros d m Hd; apply HC; now right|now apply live0_good]| |]; cbn [length] in *; lia.
        * cbn [rr]. split; [reflexivity|]. split; [exact HM|]. lia.
      + intros t2 r4 e4 r4' e4' H4 L4 L4'. destruct (stm_cases _ _ _ _ H4) as [(-> & -> & He)|([-> ->] & c5 & t5 & t5' & -> & -> & _)]; [kill|].
        destruct (c5 =? RBR); cbn [negb]; [|kill]. cbn [rr]. auto.
  Qed.
  Lemma sim_oarray {T} (L : list (memb T)) t0 b : (forall c m, In c L -> In m (mems_of c) -> sim (des (m_codec m) (Some b))) ->
    sim (oarray_des L t0 (Some b)).
  Proof.
    intros HC old s e s' e' [[[-> ->] H]|(B & -> & ->)].
    2: { unfold oarray_des. cbn [is_null starts]. kill. }
    unfold oarray_des. rewrite <- (null_same s s' H). destruct (is_null s) eqn:EN.
    - destruct (twin0_null s s' H EN) as (ts & z & z' & -> & -> & HT). rewrite !null_read. cbn [rr]. split; [reflexivity|]. split; [now apply (live_good ts)|].
      rewrite !app_length. lia.
    - destruct (twin0_cases s s' H) as [[-> ->]|(c & t & t' & -> & -> & Hc & HP)]; [kill|]. destruct (c =? LBR) eqn:EC; cbn [negb]; [|kill].
      assert (c = LBR) as -> by lia. destruct (HP ltac:(apply punct_in; lia)) as (ts & HT & _).
      destruct (space_live ts t t' HT) as (r & r' & Hr & Hr' & T0 & Lr & Lr' & _). rewrite Hr, Hr'.
      destruct (twin0_cases r r' T0) as [[-> ->]|(d & w & w' & -> & -> & Hd & HPd)]; [kill|]. destruct (d =? RBR) eqn:ED; cbn [negb].
      + assert (d = RBR) as -> by lia. destruct (HPd ltac:(apply punct_in; lia)) as (ts' & HT' & _). cbn [rr]. split; [reflexivity|].
        split; [now apply (live_good ts')|]. cbn [length] in *. lia.
      + eapply rr_bind; [apply amembers_sim; [exact HC|now apply live0_good]|]. intros v r2 e2 r2' e2' H2 L2 L2'.
        destruct (stm_cases _ _ _ _ H2) as [(-> & -> & He)|([-> ->] & c3 & t3 & t3' & -> & -> & HP3 & [[Hc3 TW]|Hc3])]; [kill| |].
        * destruct (twin0_space _ _ clean0 TW) as [-> ->]. destruct (c3 =? RBR) eqn:E3; cbn [negb]; [|kill]. assert (c3 = RBR) as -> by lia.
          destruct (HP3 ltac:(apply punct_in; lia)) as (ts' & HT' & _). cbn [rr]. split; [reflexivity|]. split; [now apply (live_good ts')|]. cbn [length] in *. lia.
        * rewrite !space_stop by (unfold numc in Hc3; cbn; unfold s_ws; lia). replace (c3 =? RBR) with false by (unfold numc in Hc3; lia). cbn [negb]. kill.
  Qed.
End R.

(** ---- all descriptions ---- *)
Lemma gdesc_sim fx A (c : codec A) : gdesc fx A c -> forall b, sim fx (des c (Some b)).
Proof.
  induction 1; intros b.
  - apply sim_int.
  - apply sim_bool.
  - now apply (sim_float fx A R fmt scan conv).
  - apply sim_string.
  - apply sim_chars.
  - now apply sim_enum.
  - apply sim_seq; auto; apply punct_in; lia.
  - apply sim_seq; auto; apply punct_in; lia.
  - apply sim_seq; auto; apply punct_in; lia.
  - apply sim_seq; [apply punct_in; lia|apply punct_in; lia|]. now apply sim_field.
  - apply sim_seq; [apply punct_in; lia|apply punct_in; lia|]. now apply sim_field.
  - apply sim_seq; [apply punct_in; lia|apply punct_in; lia|]. now apply sim_field.
  - apply sim_vec; [|assumption]. intros old. now apply sim_fix.
  - apply sim_vec; [|assumption]. intros old. now apply sim_fix.
  - apply sim_object; [assumption|]. intros x m Hx Hm. now apply (H1 x m Hx Hm).
  - apply sim_oarray. intros x m Hx Hm. now apply (H0 x m Hx Hm).
  - now apply sim_map.
  - apply sim_quoted.
  - now apply sim_unquoted.
  - now apply sim_ptr.
  - intros old. apply (sim_seq fx (mkcont (h_clear h old) (h_ins h) (fun t => t) (h_list h)) LBR RBR c d0 b); auto; apply punct_in; lia.
  - intros old. apply (sim_seq fx (mkcont (h_clear h old) (h_ins h) (fun t => t) (h_list h)) LCB RCB (field_codec kc vc) d0 b); [apply punct_in; lia|apply punct_in; lia|].
    now apply sim_field.
Qed.
Lemma gdesc_desc fx A (c : codec A) : gdesc fx A c -> desc A c.
Proof.
  unfold desc. induction 1.
  - apply bt_base. apply lf_int.
  - apply bt_base. apply lf_bool.
  - apply bt_base. apply lf_float.
  - apply bt_base. apply lf_string.
  - apply bt_base. apply lf_chars.
  - apply bt_base. apply lf_enum.
  - apply bt_vector; assumption.
  - apply bt_set; assumption.
  - apply bt_multiset; assumption.
  - apply bt_dict; assumption.
  - apply bt_map; assumption.
  - apply bt_multimap; assumption.
  - apply bt_std_array; assumption.
  - apply bt_c_array; assumption.
  - apply bt_object; assumption.
  - apply bt_object_array; assumption.
  - apply bt_member_value; assumption.
  - apply bt_quoted; assumption.
  - apply bt_quoted; assumption.
  - apply bt_pointer; assumption.
  - apply bt_unordered_set; assumption.
  - apply bt_unordered_map; assumption.
Qed.

(** ---- layouts ---- *)
Lemma gap_follow_end g : gap g -> follow g.
Proof. intros H. destruct (gap_head g H) as [->|(c & t & -> & Hc)]; cbn; [exact I|]. unfold s_ws, s_digit in *. lia. Qed.
Lemma layout_twin (fx : Prop) ts : apart ts -> (fx -> no_trailing ts) -> forall s s', layout s ts -> layout s' ts -> twin fx ts s s'.
Proof.
  assert (forall (t : buf) ts z, apart (t :: ts) -> rnumber t -> layout z ts -> follow z) as FO.
  { intros t [|u us] z HA Hn HL.
    - inversion HL; subst. now apply gap_follow_end.
    - cbn [apart adjacent] in HA. destruct HA as [HA _]. destruct (HA Hn) as (c & Hc & ->). inversion HL as [|g t0 s0 ts0 Hg Ht _ _]; subst.
      destruct (gap_head g Hg) as [->|(d & w & -> & Hd)]; cbn; [apply punct_cases in Hc|]; unfold s_ws, s_digit in *; lia. }
  induction ts as [|t ts IH]; intros HA HN s s' H H'.
  - inversion H; subst. inversion H'; subst. now constructor.
  - inversion H as [|g t0 z ts0 Hg Ht Hn HL]; subst. inversion H' as [|g' t1 z' ts1 Hg' Ht' Hn' HL']; subst.
    constructor; auto.
    + intros X. split; [now apply (FO t ts)|now apply (FO t ts)].
    + intros F -> b ->. specialize (HN F). cbn in HN. now apply (proj1 HN).
    + apply IH; auto.
      * destruct ts; [exact I|apply HA].
      * intros F. specialize (HN F). destruct ts; [exact I|apply HN].
Qed.
Lemma twin_layout fx ts s s' : twin fx ts s s' -> layout s ts /\ layout s' ts.
Proof.
  induction 1 as [g g' Hg Hg'|g g' t ts s s' Hg Hg' Ht Hn Hf H [IH IH']]; [split; now constructor|].
  split; constructor; auto; intros X; apply follow_num_stop; now destruct (Hn X).
Qed.
Lemma twin_at fx ts s s' : twin fx ts s s' -> at_token s -> at_token s' -> twin0 fx s s'.
Proof.
  assert (forall g z, gap g -> at_token (g ++ z) -> g = []) as GE.
  { intros g z Hg HA. destruct (gap_head g Hg) as [->|(c & w & -> & Hc)]; [reflexivity|]. cbn in HA. tauto. }
  intros [g g' Hg Hg'|g g' t us z z' Hg Hg' Ht Hn Hf H] A A'.
  - rewrite <- (app_nil_r g) in A. rewrite <- (app_nil_r g') in A'. rewrite (GE _ _ Hg A), (GE _ _ Hg' A'). constructor.
  - rewrite (GE _ _ Hg A), (GE _ _ Hg' A'). cbn [app]. now apply (t0_tok fx t us).
Qed.
Lemma rr_reading fx A s s' (x y : res (A * buf * eptr)) : rr (fun _ => st1 fx) s s' x y -> x <> Fuel -> same_reading x y.
Proof.
  intros H N. destruct x as [[[v r] e]| |], y as [[[v' r'] e']| |]; cbn [rr same_reading] in *; try contradiction; try congruence; auto.
  destruct H as (-> & H & _). split; [reflexivity|]. destruct H as [[[-> ->] [[ts H]|H]]|([B B'] & -> & ->)]; [left|left|right; auto].
  - split; [reflexivity|]. split; [reflexivity|]. left. exists ts. now apply (twin_layout fx).
  - split; [reflexivity|]. split; [reflexivity|]. right. exact H.
Qed.

(** ---- documents ---- *)
Lemma adjacent_app R a u b : adjacent R a -> adjacent R (u :: b) -> (forall t z, a = z ++ [t] -> R t u) -> adjacent R (a ++ u :: b).
Proof.
  induction a as [|t a IH]; intros HA HB HR; [exact HB|]. destruct a as [|v a].
  - cbn [app adjacent]. split; [now apply (HR t [])|exact HB].
  - destruct HA as [HA HA']. cbn [app adjacent] in *. split; [exact HA|]. apply IH; auto. intros x z E. apply (HR x (t :: z)). now rewrite E.
Qed.
Lemma punct_not_num c : punct c -> ~ rnumber [c].
Proof. intros H. apply not_rnum; apply punct_cases in H; unfold s_digit; lia. Qed.
Lemma str_not_num k : wstring k -> ~ rnumber k.
Proof. intros []. apply not_rnum; unfold s_digit; lia. Qed.
Lemma apart_app a c b : punct c -> apart a -> apart b -> apart (a ++ [c] :: b).
Proof.
  intros Hc Ha Hb. apply adjacent_app; [exact Ha| |].
  - destruct b; [exact I|]. split; [|exact Hb]. intros X. now apply punct_not_num in X.
  - intros t z _ _. now exists c.
Qed.
Lemma apart_first c a : punct c -> apart a -> apart ([c] :: a).
Proof. intros Hc Ha. now apply (apart_app [] c a). Qed.
Lemma apart_str k a : wstring k -> apart a -> apart (k :: [COLON] :: a).
Proof.
  intros Hk Ha. split; [intros X; now apply str_not_num in X|]. apply apart_first; [apply punct_in; lia|exact Ha].
Qed.
Lemma apart_close o a c : punct o -> punct c -> apart a -> apart ([o] :: a ++ [[c]]).
Proof. intros Ho Hc Ha. apply apart_first; [exact Ho|]. apply apart_app; [exact Hc|exact Ha|exact I]. Qed.
Definition Av (v : buf) : Prop := exists ts, lay v ts /\ lay (concat ts) ts /\ apart ts.
Definition Al (l : buf) : Prop := exists ts, cont l ts /\ cont (concat ts) ts /\ apart ts.
Lemma Av_token t : token t -> Av t.
Proof. intros Ht. exists [t]. cbn [concat]. rewrite app_nil_r. split; [now apply lay_token|]. split; [now apply lay_token|exact I]. Qed.
Ltac pp := apply punct_in; lia.
#[local] Hint Resolve clos1 clos2 clos3 clos4 g_nil : core.
Lemma doc_apart : (forall v, wvalue v -> Av v) /\ (forall l, welems l -> Al l) /\ (forall l, wmembers l -> Al l).
Proof.
  apply wjson_ind; unfold Al.
  - apply Av_token; constructor.
  - apply Av_token; constructor.
  - apply Av_token; constructor.
  - intros n Hn. apply Av_token; now apply tk_num.
  - intros s Hs. apply Av_token; now apply tk_str.
  - intros g Hg. exists [[LBR]; [RBR]]. split; [apply lay_empty; auto; pin|]. split; [apply (lay_empty LBR [] RBR); auto; pin|].
    apply (apart_close LBR [] RBR); [pp|pp|exact I].
  - intros l Hl (ts & C1 & C2 & HA). exists ([LBR] :: ts ++ [[RBR]]). cc. split; [apply lay_brackets'; auto; pin|]. split; [apply lay_brackets'; auto; pin|].
    apply apart_close; [pp|pp|exact HA].
  - intros g Hg. exists [[LCB]; [RCB]]. split; [apply lay_empty; auto; pin|]. split; [apply (lay_empty LCB [] RCB); auto; pin|].
    apply (apart_close LCB [] RCB); [pp|pp|exact I].
  - intros g Hg. exists [[LCB]; [RBR]]. split; [apply lay_empty; auto; pin|]. split; [apply (lay_empty LCB [] RBR); auto; pin|].
    apply (apart_close LCB [] RBR); [pp|pp|exact I].
  - intros l Hl (ts & C1 & C2 & HA). exists ([LCB] :: ts ++ [[RCB]]). cc. split; [apply lay_brackets'; auto; pin|]. split; [apply lay_brackets'; auto; pin|].
    apply apart_close; [pp|pp|exact HA].
  - intros g1 v g2 H1 Hv (ts & L1 & L2 & HA) H2. exists ts. split; [now apply cont_value|]. split; [|exact HA].
    pose proof (cont_value [] (concat ts) ts [] g_nil g_nil L2) as K. rewrite app_nil_r in K. exact K.
  - intros g1 v g2 g3 H1 Hv (ts & L1 & L2 & HA) H2 H3. exists (ts ++ [[COMMA]]). cc. split; [now apply cont_trail|].
    split; [apply (cont_trail [] _ ts [] []); auto|]. apply apart_app; [pp|exact HA|exact I].
  - intros g1 v g2 l H1 Hv (ts & L1 & L2 & HA) H2 Hl (tl & M1 & M2 & HB). exists (ts ++ [COMMA] :: tl). cc. split; [now apply cont_more|].
    split; [apply (cont_more [] _ ts [] _ tl); auto|]. apply apart_app; [pp|exact HA|exact HB].
  - intros g1 k g2 g3 v g4 H1 Hk H2 H3 Hv (ts & L1 & L2 & HA) H4. exists (k :: [COLON] :: ts). cc. split; [now apply cont_member|].
    split; [|now apply apart_str]. pose proof (cont_member [] k [] [] (concat ts) ts [] g_nil Hk g_nil g_nil L2 g_nil) as K.
    cbn [app] in K. rewrite app_nil_r in K. exact K.
  - intros g1 k g2 g3 v g4 g5 H1 Hk H2 H3 Hv (ts & L1 & L2 & HA) H4 H5. exists (k :: [COLON] :: ts ++ [[COMMA]]). cc.
    split; [now apply cont_member_trail|]. split; [apply (cont_member_trail [] k [] [] _ ts [] []); auto|].
    apply apart_str; [exact Hk|]. apply apart_app; [pp|exact HA|exact I].
  - intros g1 k g2 g3 v g4 l H1 Hk H2 H3 Hv (ts & L1 & L2 & HA) H4 Hl (tl & M1 & M2 & HB). exists (k :: [COLON] :: ts ++ [COMMA] :: tl). cc.
    split; [now apply cont_member_more|]. split; [apply (cont_member_more [] k [] [] _ ts [] _ tl); auto|].
    apply apart_str; [exact Hk|]. apply apart_app; [pp|exact HA|exact HB].
Qed.
(** RFC documents have no trailing commas *)
Definition fine (ts : list buf) : Prop := no_trailing ts /\ (exists u b, ts = u :: b /\ u <> [RBR]) /\ (forall t a, ts = a ++ [t] -> t <> [COMMA]).
Lemma fine_one t : t <> [RBR] -> t <> [COMMA] -> fine [t].
Proof.
  intros H1 H2. split; [exact I|]. split; [now exists t, []|]. intros u a E. destruct a as [|x a]; [injection E as <-; exact H2|]. destruct a; discriminate.
Qed.
Lemma last_inj (a b : list buf) t u : a ++ [t] = b ++ [u] -> t = u.
Proof. intros E. apply app_inj_tail in E. apply E. Qed.
Lemma fine_open o a c : o <> COMMA -> o <> RBR -> c <> COMMA -> fine a -> fine ([o] :: a ++ [[c]]).
Proof.
  intros Ho1 Ho2 Hc (HN & (u & b & -> & Hu) & HL). split; [|split].
  - split; [intros E; congruence|]. apply (adjacent_app _ (u :: b) [c] []); [exact HN|exact I|]. intros t z E Et. now apply HL in E.
  - eexists _, _. split; [reflexivity|congruence].
  - intros t z E. change ([o] :: (u :: b) ++ [[c]]) with (([o] :: u :: b) ++ [[c]]) in E. apply last_inj in E. subst t. congruence.
Qed.
Lemma fine_comma a b : fine a -> fine b -> fine (a ++ [COMMA] :: b).
Proof.
  intros (HN & (u & x & -> & Hu) & HL) (HN' & (w & y & -> & Hw) & HL'). split; [|split].
  - apply adjacent_app; [exact HN| |].
    + split; [intros _; exact Hw|exact HN'].
    + intros t z E Et. discriminate.
  - eexists _, _. split; [reflexivity|exact Hu].
  - intros t z E. assert (exists q, w :: y = q ++ [t]) as (q & Q).
    { destruct (exists_last (l := w :: y) ltac:(discriminate)) as (q & v & Q). rewrite Q in E. 
      assert (v = t) as <- by (apply (last_inj (((u :: x) ++ [COMMA] :: q)) z); rewrite <- E, <- app_assoc; reflexivity). now exists q. }
    now apply (HL' t q).
Qed.
Lemma fine_key k a : wstring k -> fine a -> fine (k :: [COLON] :: a).
Proof.
  intros Hk (HN & (u & x & -> & Hu) & HL). assert (k <> [COMMA] /\ k <> [RBR]) as [K1 K2] by (destruct Hk; split; discriminate). split; [|split].
  - split; [congruence|]. split; [congruence|exact HN].
  - eexists _, _. split; [reflexivity|exact K2].
  - intros t z E. destruct (exists_last (l := u :: x) ltac:(discriminate)) as (q & v & Q). rewrite Q in E.
    assert (v = t) as <- by (apply (last_inj (k :: [COLON] :: q) z); exact E). now apply (HL v q).
Qed.
Definition Fv (v : buf) : Prop := exists ts, lay v ts /\ lay (concat ts) ts /\ apart ts /\ fine ts.
Definition Fl (l : buf) : Prop := exists ts, cont l ts /\ cont (concat ts) ts /\ apart ts /\ fine ts.
Lemma Fv_token t : token t -> t <> [RBR] -> t <> [COMMA] -> Fv t.
Proof. intros Ht H1 H2. exists [t]. cbn [concat]. rewrite app_nil_r. split; [now apply lay_token|]. split; [now apply lay_token|]. split; [exact I|now apply fine_one]. Qed.
Lemma num_two n : rnumber n -> n <> [RBR] /\ n <> [COMMA].
Proof. intros H. destruct (rnumber_head n H) as (c & t & -> & Hc). unfold s_digit in Hc. split; intros E; injection E as E _; lia. Qed.
Lemma fine_empty o c : o <> COMMA -> o <> RBR -> c <> COMMA -> fine [[o]; [c]].
Proof.
  intros Ho1 Ho2 Hc. split; [|split].
  - split; [intros E; congruence|exact I].
  - eexists _, _. split; [reflexivity|congruence].
  - intros t z E. apply (last_inj [[o]] z) in E. subst t. congruence.
Qed.
Lemma rfc_fine : (forall v, rvalue v -> Fv v) /\ (forall l, relems l -> Fl l) /\ (forall l, rmembers l -> Fl l).
Proof.
  apply rjson_ind; unfold Fl.
  - apply Fv_token; [constructor|discriminate|discriminate].
  - apply Fv_token; [constructor|discriminate|discriminate].
  - apply Fv_token; [constructor|discriminate|discriminate].
  - intros n Hn. destruct (num_two n Hn). apply Fv_token; auto. now apply tk_num.
  - intros s Hs. apply rstring_wstring in Hs. apply Fv_token; [now apply tk_str| |]; destruct Hs; discriminate.
  - intros g Hg. apply ws_gap in Hg. exists [[LBR]; [RBR]]. split; [apply lay_empty; auto; pin|]. split; [apply (lay_empty LBR [] RBR); auto; pin|].
    split; [apply (apart_close LBR [] RBR); [pp|pp|exact I]|]. apply fine_empty; lia.
  - intros l Hl (ts & C1 & C2 & HA & HF). exists ([LBR] :: ts ++ [[RBR]]). cc. split; [apply lay_brackets'; auto; pin|]. split; [apply lay_brackets'; auto; pin|].
    split; [apply apart_close; [pp|pp|exact HA]|]. apply fine_open; auto; lia.
  - intros g Hg. apply ws_gap in Hg. exists [[LCB]; [RCB]]. split; [apply lay_empty; auto; pin|]. split; [apply (lay_empty LCB [] RCB); auto; pin|].
    split; [apply (apart_close LCB [] RCB); [pp|pp|exact I]|]. apply fine_empty; lia.
  - intros l Hl (ts & C1 & C2 & HA & HF). exists ([LCB] :: ts ++ [[RCB]]). cc. split; [apply lay_brackets'; auto; pin|]. split; [apply lay_brackets'; auto; pin|].
    split; [apply apart_close; [pp|pp|exact HA]|]. apply fine_open; auto; lia.
  - intros g1 v g2 H1 Hv (ts & L1 & L2 & HA) H2. exists ts. split; [apply cont_value; auto using ws_gap|]. split; [|exact HA].
    pose proof (cont_value [] (concat ts) ts [] g_nil g_nil L2) as K. rewrite app_nil_r in K. exact K.
  - intros g1 v g2 l H1 Hv (ts & L1 & L2 & HA & HF) H2 Hl (tl & M1 & M2 & HB & HG). exists (ts ++ [COMMA] :: tl). cc. split; [apply cont_more; auto using ws_gap|].
    split; [apply (cont_more [] _ ts [] _ tl); auto|]. split; [apply apart_app; [pp|exact HA|exact HB]|now apply fine_comma].
  - intros g1 k g2 g3 v g4 H1 Hk H2 H3 Hv (ts & L1 & L2 & HA & HF) H4. apply rstring_wstring in Hk. exists (k :: [COLON] :: ts). cc.
    split; [apply cont_member; auto using ws_gap|].
    split; [|split; [now apply apart_str|now apply fine_key]]. pose proof (cont_member [] k [] [] (concat ts) ts [] g_nil Hk g_nil g_nil L2 g_nil) as K.
    cbn [app] in K. rewrite app_nil_r in K. exact K.
  - intros g1 k g2 g3 v g4 l H1 Hk H2 H3 Hv (ts & L1 & L2 & HA & HF) H4 Hl (tl & M1 & M2 & HB & HG). apply rstring_wstring in Hk. exists (k :: [COLON] :: ts ++ [COMMA] :: tl). cc.
    split; [apply cont_member_more; auto using ws_gap|]. split; [apply (cont_member_more [] k [] [] _ ts [] _ tl); auto|].
    split; [apply apart_str; [exact Hk|]; apply apart_app; [pp|exact HA|exact HB]|]. apply fine_key; [exact Hk|now apply fine_comma].
Qed.
Lemma lay_at v ts : lay v ts -> wvalue v -> layout v ts /\ at_token v.
Proof.
  intros H Hv. pose proof (lay_doc v ts [] [] H g_nil g_nil) as K. rewrite app_nil_r in K. split; [exact K|].
  destruct (wvalue_head v Hv) as (c & t & -> & Hc). cbn. unfold vstart, s_ws, s_digit in *. lia.
Qed.
