(** Generic facts about the parser model: control flow does not depend on the
    error pointer, results are suffixes, errors stop at end. *)
From Verif Require Import Base Parser.

Definition suffix (r s : buf) : Prop := exists p, s = p ++ r.

Lemma suffix_refl s : suffix s s.
Proof. exists []. reflexivity. Qed.
Lemma suffix_nil s : suffix [] s.
Proof. exists s. rewrite app_nil_r. reflexivity. Qed.
Lemma suffix_cons c r s : suffix r s -> suffix r (c :: s).
Proof. intros [p ->]. exists (c :: p). reflexivity. Qed.
Lemma suffix_trans a b c : suffix a b -> suffix b c -> suffix a c.
Proof. intros [p ->] [q ->]. exists (q ++ p). rewrite app_assoc. reflexivity. Qed.
Lemma suffix_app a b : suffix a (b ++ a).
Proof. exists b; reflexivity. Qed.
Lemma suffix_len a b : suffix a b -> (length a <= length b)%nat.
Proof. intros [p ->]. rewrite app_length. lia. Qed.
Lemma suffix_dist a b : suffix a b -> dist a <= dist b.
Proof. intros H. apply suffix_len in H. unfold dist. lia. Qed.
Lemma dist_nonneg s : 0 <= dist s.
Proof. unfold dist. lia. Qed.
Lemma dist_cons c s : dist (c :: s) = 1 + dist s.
Proof. unfold dist. cbn [length]. lia. Qed.
Lemma dist_nil : dist [] = 0.
Proof. reflexivity. Qed.
Lemma dist_app a b : dist (a ++ b) = dist a + dist b.
Proof. unfold dist. rewrite app_length. lia. Qed.
Lemma suffix_bytes a b : suffix a b -> bytes b -> bytes a.
Proof. intros [p ->] H. apply Forall_app in H. tauto. Qed.
Lemma suffix_of_nil r : suffix r [] -> r = [].
Proof. intros [p H]. symmetry in H. apply app_eq_nil in H. tauto. Qed.
Lemma suffix_same_len a b : suffix a b -> length a = length b -> a = b.
Proof.
  intros [p ->] H. rewrite app_length in H. destruct p; [reflexivity|cbn in H; lia].
Qed.
#[export] Hint Resolve suffix_refl suffix_nil suffix_cons : suf.

(** an error that is about to be reported *)
Definition report := option json_error.
Definition app_err (e : eptr) (o : report) : eptr :=
  match o with
  | None => e
  | Some j => match e with
              | None => None
              | Some k => if is_err k then e else Some j
              end
  end.
Definition orelse (a b : report) : report := match a with Some _ => a | None => b end.

Lemma cerr_app c m t e : cerr c m t e = app_err e (Some (mkerr c m t)).
Proof. reflexivity. Qed.

Definition rep_ok (s : buf) (o : report) : Prop :=
  match o with
  | None => True
  | Some j => is_err j = true /\ 0 <= tail_of j <= dist s
  end.

Lemma app_orelse s e a b : rep_ok s a -> app_err (app_err e a) b = app_err e (orelse a b).
Proof.
  destruct a as [j|]; [|reflexivity].
  cbn. intros [H _]. destruct e as [k|]; [|destruct b; reflexivity].
  destruct (is_err k) eqn:K; destruct b as [j'|]; cbn; rewrite ?K, ?H; reflexivity.
Qed.

(** outcome of a recogniser on [s]: suffix [r] with report [o] *)
Definition outcome (s r : buf) (o : report) : Prop :=
  suffix r s /\ rep_ok s o /\ (o <> None -> r = []).

Definition pgood (f : buf -> eptr -> buf * eptr) (s : buf) : Prop :=
  exists r o, (forall e, f s e = (r, app_err e o)) /\ outcome s r o.
Definition rgood (f : pfun) (s : buf) : Prop :=
  exists r o, (forall e, f s e = Ok (r, app_err e o)) /\ outcome s r o.
Definition rlaw (sn : option Z) (f : pfun) (s : buf) : Prop :=
  rgood f s \/ (sn = None /\ forall e, f s e = UB).

Lemma outcome_ok s r : suffix r s -> outcome s r None.
Proof. intros H. split; [exact H|split; [exact I|congruence]]. Qed.
Lemma outcome_err s c m t : c <> ValidJSON -> 0 <= t <= dist s ->
  outcome s [] (Some (mkerr c m t)).
Proof.
  intros Hc Ht. split; [apply suffix_nil|split; [|reflexivity]].
  split; [|exact Ht]. unfold is_err; cbn. destruct c; congruence.
Qed.
Lemma outcome_weaken s s' r o : suffix s' s -> outcome s' r o -> outcome s r o.
Proof.
  intros H (A & B & C). split; [eapply suffix_trans; eauto|split; [|exact C]].
  destruct o as [j|]; [|exact I]. cbn in *. apply suffix_dist in H. intuition lia.
Qed.
Lemma outcome_seq s r1 o1 r2 o2 :
  outcome s r1 o1 -> outcome r1 r2 o2 -> outcome s r2 (orelse o1 o2).
Proof.
  intros (A & B & C) H2. pose proof (outcome_weaken _ _ _ _ A H2) as (A2 & B2 & C2).
  destruct o1 as [j|]; cbn.
  - split; [exact A2|split; [exact B|]]. intros _.
    destruct H2 as (A3 & _). rewrite C in A3 by congruence.
    destruct A3 as [p Hp]. symmetry in Hp. apply app_eq_nil in Hp. tauto.
  - exact (conj A2 (conj B2 C2)).
Qed.

Ltac perr :=
  eexists [], (Some (mkerr _ _ _)); split;
  [ intro; reflexivity
  | apply outcome_err; [discriminate
      | repeat rewrite ?dist_cons, ?dist_nil;
        repeat match goal with |- context [dist ?x] =>
                 lazymatch goal with H : 0 <= dist x |- _ => fail
                 | _ => pose proof (dist_nonneg x) end end; lia] ].
Ltac pok := eexists _, None; split; [intro; reflexivity | apply outcome_ok; eauto with suf].

Lemma space_loop_suffix s : forall sc, suffix (snd (space_loop sc s)) s.
Proof.
  induction s as [|c t IH]; intros sc; cbn [space_loop]; [apply suffix_refl|].
  destruct sc; [destruct (c =? STAR)|destruct (is_ws c); cbn [negb]; [|destruct (c =? SLASH)]];
    try (destruct t as [|d t']; [cbn; apply suffix_nil|]); cbn [snd];
    repeat match goal with |- context [if ?b then _ else _] => destruct b end;
    try apply suffix_refl; try (apply suffix_cons; apply IH).
Qed.

Lemma space_good s : pgood parse_space s.
Proof.
  unfold pgood, parse_space. pose proof (space_loop_suffix s false) as H.
  destruct (space_loop false s) as [sc r]. cbn in H. destruct sc; [perr|pok].
Qed.

Lemma space_eq s : exists r o, (forall e, parse_space s e = (r, app_err e o)) /\ outcome s r o.
Proof. exact (space_good s). Qed.

Lemma lit_chain_spec lit : forall p t, 0 <= p ->
  match lit_chain lit p t with
  | LMatch r => t = lit ++ r
  | LEnd => True
  | LMis q => p < q <= p + dist t
  end.
Proof.
  induction lit as [|x lit IH]; intros p t Hp; cbn [lit_chain]; [reflexivity|].
  destruct t as [|c t]; [exact I|]. destruct (c =? x) eqn:E.
  - apply Z.eqb_eq in E. subst c. specialize (IH (p+1) t ltac:(lia)).
    destruct (lit_chain lit (p+1) t); rewrite ?dist_cons; try lia; try exact I.
    rewrite IH. reflexivity.
  - rewrite dist_cons. pose proof (dist_nonneg t). lia.
Qed.

Lemma finish_lit_good c t lit nm : pgood (fun _ e => finish_lit (lit_chain lit 0 t) nm e) (c :: t).
Proof.
  pose proof (lit_chain_spec lit 0 t ltac:(lia)) as H. unfold pgood, finish_lit.
  pose proof (dist_nonneg t).
  destruct (lit_chain lit 0 t) as [r| |q].
  - subst t. eexists _, None. split; [intro; reflexivity|]. apply outcome_ok.
    apply suffix_cons, suffix_app.
  - perr.
  - perr.
Qed.

Lemma null_good s : pgood parse_null s.
Proof.
  destruct s as [|c t]; unfold parse_null, pgood; [perr|].
  destruct (c =? 110); [|perr].
  destruct (finish_lit_good c t (text "ull") (text "null")) as (r & o & A & B).
  exists r, o. split; [exact A|exact B].
Qed.

Lemma bool_good s : pgood parse_bool s.
Proof.
  destruct s as [|c t]; unfold parse_bool, pgood; [perr|].
  destruct (c =? 116); [|destruct (c =? 102); [|perr]].
  - destruct (finish_lit_good c t (text "rue") (text "true")) as (r & o & A & B).
    exists r, o. split; [exact A|exact B].
  - destruct (finish_lit_good c t (text "alse") (text "false")) as (r & o & A & B).
    exists r, o. split; [exact A|exact B].
Qed.

Lemma digit_suffix s : suffix (parse_digit s) s.
Proof.
  induction s as [|c t IH]; cbn [parse_digit]; [apply suffix_refl|].
  destruct (is_digit c); auto with suf.
Qed.
#[export] Hint Resolve digit_suffix : suf.

Lemma integer_good s : pgood parse_integer s.
Proof.
  destruct s as [|c t]; unfold parse_integer, pgood; [perr|].
  destruct (c =? MINUS).
  - destruct t as [|c1 t1]; [perr|].
    destruct (c1 =? 48); [pok|]. destruct ((49 <=? c1) && (c1 <=? 57)); [pok|perr].
  - destruct (c =? 48); [pok|]. destruct ((49 <=? c) && (c <=? 57)); [pok|perr].
Qed.

Lemma exp_good s : pgood parse_exp s.
Proof.
  destruct s as [|c t]; unfold parse_exp, pgood; [pok|].
  destruct ((c =? 101) || (c =? 69)); [|pok].
  destruct t as [|d t']; [perr|].
  destruct ((d =? MINUS) || (d =? PLUS)).
  - destruct t' as [|d' t'']; [perr|]. destruct (is_digit d'); [pok|perr].
  - destruct (is_digit d); [pok|perr].
Qed.

(** sequencing *)
Lemma pgood_seq s r1 o1 (g : buf -> eptr -> buf * eptr) :
  outcome s r1 o1 -> pgood g r1 ->
  exists r o, (forall e, g r1 (app_err e o1) = (r, app_err e o)) /\ outcome s r o.
Proof.
  intros H1 (r2 & o2 & A & B). exists r2, (orelse o1 o2). split.
  - intro e. rewrite A. f_equal. destruct H1 as (_ & H1 & _). eapply app_orelse; eassumption.
  - eapply outcome_seq; eassumption.
Qed.
Lemma rgood_seq s r1 o1 (g : pfun) :
  outcome s r1 o1 -> rgood g r1 ->
  exists r o, (forall e, g r1 (app_err e o1) = Ok (r, app_err e o)) /\ outcome s r o.
Proof.
  intros H1 (r2 & o2 & A & B). exists r2, (orelse o1 o2). split.
  - intro e. rewrite A. do 2 f_equal. destruct H1 as (_ & H1 & _). eapply app_orelse; eassumption.
  - eapply outcome_seq; eassumption.
Qed.

Lemma number_good s : pgood parse_number s.
Proof.
  destruct (integer_good s) as (r & o & A & B). unfold pgood, parse_number.
  destruct r as [|c t].
  - exists [], o. split; [|exact B]. intro e. rewrite A. reflexivity.
  - destruct (c =? DOT) eqn:Ed.
    + destruct t as [|d t'].
      * destruct (pgood_seq s _ o (fun _ e => ([], cerr UnexpectedEndFragment None 0 e)) B) as (r' & o' & A' & B').
        { unfold pgood. perr. }
        exists r', o'. split; [|exact B']. intro e. rewrite A, Ed. apply A'.
      * destruct (is_digit d) eqn:Ec.
        -- destruct (exp_good (parse_digit (d :: t'))) as (r2 & o2 & A2 & B2).
           destruct (pgood_seq s _ o (fun _ e => parse_exp (parse_digit (d :: t')) e) B) as (r' & o' & A' & B').
           { exists r2, o2. split; [exact A2|].
             eapply outcome_weaken; [|exact B2]. apply suffix_cons, digit_suffix. }
           exists r', o'. split; [|exact B']. intro e. rewrite A, Ed, Ec. apply A'.
        -- destruct (pgood_seq s _ o (fun _ e => ([], cerr InvalidNumber None 0 e)) B) as (r' & o' & A' & B').
           { unfold pgood. perr. }
           exists r', o'. split; [|exact B']. intro e. rewrite A, Ed, Ec. apply A'.
    + destruct (pgood_seq s _ o parse_exp B (exp_good _)) as (r' & o' & A' & B').
      exists r', o'. split; [|exact B']. intro e. rewrite A, Ed. apply A'.
Qed.

Lemma hex_loop_good n : forall s, pgood (hex_loop n) s.
Proof.
  induction n as [|n IH]; intros s; unfold pgood; cbn [hex_loop]; [pok|].
  destruct s as [|c t]; [perr|]. destruct (is_hex c); [|perr].
  destruct (IH t) as (r & o & A & B). exists r, o. split; [exact A|].
  eapply outcome_weaken; [|exact B]; auto with suf.
Qed.
Lemma hex_good s : pgood parse_hex s.
Proof.
  destruct s as [|c t]; [unfold pgood, parse_hex; perr|exact (hex_loop_good 4 (c :: t))].
Qed.
Lemma utf8_part_good n : forall s, pgood (utf8_part n) s.
Proof.
  induction n as [|n IH]; intros s; unfold pgood; cbn [utf8_part]; [pok|].
  destruct s as [|c t]; [perr|]. destruct (Z.land c 192 =? 128); [|perr].
  destruct (IH t) as (r & o & A & B). exists r, o. split; [exact A|].
  eapply outcome_weaken; [|exact B]; auto with suf.
Qed.
Lemma utf8_good c t : exists r o, (forall e, parse_utf8 c t e = (r, app_err e o)) /\ outcome (c :: t) r o
   /\ (length r <= length t)%nat.
Proof.
  unfold parse_utf8. destruct (utf8_conts c) as [n|].
  - destruct (utf8_part_good n t) as (r & o & A & B). exists r, o. split; [exact A|].
    split; [eapply outcome_weaken; [|exact B]; auto with suf|].
    apply suffix_len, (proj1 B).
  - exists [], (Some (mkerr InvalidString None (dist (c :: t)))). split; [reflexivity|].
    split; [|cbn; lia]. apply outcome_err; [discriminate|]. pose proof (dist_nonneg (c::t)); lia.
Qed.

Definition sloop_good (n : nat) (s : buf) : Prop :=
  exists (side : bool) r o,
    (forall e, string_loop n s e = Ok (if side then inl (r, app_err e o) else inr (r, app_err e o)))
    /\ outcome s r o
    /\ (side = true -> r = [] \/ starts QT r = true)
    /\ (side = false -> o <> None).

Lemma string_loop_good n : forall s, (length s < n)%nat -> sloop_good n s.
Proof.
  induction n as [|n IH]; intros s Hn; [lia|]. unfold sloop_good. cbn [string_loop].
  destruct s as [|c t].
  { exists true, [], None. split; [intro; reflexivity|]. split; [apply outcome_ok, suffix_refl|].
    split; [now left|discriminate]. }
  destruct (c =? QT) eqn:Eq.
  { exists true, (c :: t), None. split; [intro; reflexivity|]. split; [apply outcome_ok, suffix_refl|].
    split; [right; exact Eq|discriminate]. }
  cbn [length] in Hn.
  destruct (c =? BSL).
  - destruct t as [|d t'].
    { exists false, [], (Some (mkerr UnexpectedEndFragment None 0)).
      split; [intro; reflexivity|]. split; [apply outcome_err; [discriminate|pose proof (dist_nonneg [c]); lia]|].
      split; [discriminate|congruence]. }
    destruct (esc_ok d) eqn:Ee; cbn [negb].
    2:{ exists false, [], (Some (mkerr InvalidString None (dist (d :: t')))).
        split; [intro; reflexivity|].
        split; [apply outcome_err; [discriminate|]; rewrite !dist_cons; pose proof (dist_nonneg t'); lia|].
        split; [discriminate|congruence]. }
    cbn [length] in Hn.
    destruct (d =? 117).
    + destruct (hex_good t') as (r & o & A & B).
      destruct (IH r) as (side & r2 & o2 & A2 & B2 & C2 & D2).
      { pose proof (suffix_len _ _ (proj1 B)). lia. }
      exists side, r2, (orelse o o2). split.
      { intro e. rewrite A, A2. rewrite (app_orelse t') by apply B. reflexivity. }
      split; [eapply outcome_seq; [|exact B2]; eapply outcome_weaken; [|exact B]; auto with suf|].
      split; [exact C2|]. intros Hs. specialize (D2 Hs). destruct o; cbn; [congruence|exact D2].
    + destruct (IH t') as (side & r2 & o2 & A2 & B2 & C2); [lia|].
      exists side, r2, o2. split; [exact A2|]. split; [eapply outcome_weaken; [|exact B2]; auto with suf|exact C2].
  - destruct (utf8_good c t) as (r & o & A & B & L).
    destruct (IH r) as (side & r2 & o2 & A2 & B2 & C2 & D2); [lia|].
    exists side, r2, (orelse o o2). split.
    { intro e. rewrite A, A2. rewrite (app_orelse (c :: t)) by apply B. reflexivity. }
    split; [eapply outcome_seq; eassumption|]. split; [exact C2|].
    intros Hs. specialize (D2 Hs). destruct o; cbn; [congruence|exact D2].
Qed.

Lemma string_good s : rgood parse_string s.
Proof.
  destruct s as [|c t]; unfold rgood, parse_string; [perr|].
  destruct (c =? QT); cbn [negb]; [|perr].
  destruct (string_loop_good (S (length t)) t ltac:(lia)) as (side & r & o & A & B & C & D).
  destruct side.
  - destruct (C eq_refl) as [->|Hr].
    + exists [], (orelse o (Some (mkerr UnexpectedEndFragment None 0))). split.
      * intro e. rewrite A. cbn [bind]. rewrite cerr_app. rewrite (app_orelse t) by apply B. reflexivity.
      * eapply outcome_seq; [eapply outcome_weaken; [|exact B]; auto with suf|].
        apply outcome_err; [discriminate|cbn; lia].
    + destruct r as [|d t1]; [discriminate Hr|]. cbn in Hr.
      exists t1, (orelse o None). split.
      * intro e. rewrite A. cbn [bind]. rewrite Hr. cbn [negb].
        destruct o; reflexivity.
      * eapply outcome_seq; [eapply outcome_weaken; [|exact B]; auto with suf|].
        apply outcome_ok; auto with suf.
  - exists r, o. split; [intro e; rewrite A; reflexivity|].
    eapply outcome_weaken; [|exact B]; auto with suf.
Qed.

Lemma starts_inv c s : starts c s = true -> exists t, s = c :: t.
Proof. destruct s as [|d t]; cbn; [discriminate|]. intros H. apply Z.eqb_eq in H. subst. eauto. Qed.

Lemma rgood_err s c m t : c <> ValidJSON -> 0 <= t <= dist s ->
  rgood (fun _ e => Ok ([], cerr c m t e)) s.
Proof.
  intros. exists [], (Some (mkerr c m t)). split; [reflexivity|]. now apply outcome_err.
Qed.

Lemma string_strict s r o : (forall e, parse_string s e = Ok (r, app_err e o)) -> o = None ->
  exists c t, s = c :: t /\ suffix r t.
Proof.
  intros H ->. destruct s as [|c t].
  { specialize (H (Some no_error)). cbn in H. discriminate. }
  exists c, t. split; [reflexivity|].
  specialize (H (Some no_error)). unfold parse_string in H.
  destruct (c =? QT); cbn [negb] in H; [|discriminate].
  destruct (string_loop_good (S (length t)) t ltac:(lia)) as (side & r' & o' & A & B & C & D).
  rewrite A in H. cbn [bind] in H. destruct side.
  - destruct r' as [|d t1]; [destruct o' as [j|]|].
    + cbn in H. destruct B as (_ & (B & _) & _). rewrite B in H. injection H as <- ->. discriminate.
    + discriminate.
    + destruct (negb (d =? QT)); [rewrite cerr_app in H; injection H as <- H|].
      * exfalso. destruct o' as [j|]; [destruct B as (_ & (B & _) & _)|]; cbn in H.
        -- rewrite B in H. injection H as ->. discriminate.
        -- discriminate.
      * injection H as -> _. destruct B as (B & _). eapply suffix_trans; [|exact B]. auto with suf.
  - exfalso. injection H as _ H. specialize (D eq_refl). destruct o' as [j|]; [|congruence].
    destruct B as (_ & (B & _) & _). cbn in H. injection H as ->. discriminate.
Qed.

(** a strict version of rgood: without report something is consumed *)
Definition strict (s r : buf) (o : report) : Prop := o = None -> exists c t, s = c :: t /\ suffix r t.
Definition rgoodS (f : pfun) (s : buf) : Prop :=
  exists r o, (forall e, f s e = Ok (r, app_err e o)) /\ outcome s r o /\ strict s r o.
Definition rlawS (sn : option Z) (f : pfun) (s : buf) : Prop :=
  rgoodS f s \/ (sn = None /\ forall e, f s e = UB).

Lemma strict_len s r o : strict s r o -> outcome s r o -> s <> [] -> (length r < length s)%nat.
Proof.
  intros H1 (H2 & _ & H3) Hs. destruct o as [j|].
  - rewrite H3 by congruence. destruct s; [congruence|cbn; lia].
  - destruct (H1 eq_refl) as (c & t & -> & Hr). apply suffix_len in Hr. cbn. lia.
Qed.

Lemma member_law sn pv s (IH : forall s', (length s' < length s)%nat -> rlawS sn pv s') :
  rlawS sn (parse_member pv) s.
Proof.
  unfold rlawS, rgoodS, parse_member. destruct (is_string s) eqn:Es; cbn [negb].
  2:{ left. exists [], (Some (mkerr InvalidMember None (dist s))). split; [reflexivity|].
      split; [apply outcome_err; [discriminate|pose proof (dist_nonneg s); lia]|].
      intro; discriminate. }
  destruct (string_good s) as (r1 & o1 & A1 & B1).
  assert (S1 : o1 = None -> (length r1 < length s)%nat /\ exists c t, s = c :: t /\ suffix r1 t).
  { intros Ho. destruct (string_strict s r1 o1 A1 Ho) as (c & t & -> & Hs).
    split; [apply suffix_len in Hs; cbn; lia|eauto]. }
  assert (E : forall r o c m t, outcome s r o -> c <> ValidJSON -> 0 <= t <= dist r ->
     exists o', (forall e, Ok (@nil Z, cerr c m t (app_err e o)) = Ok ([], app_err e o')) /\ outcome s [] o' /\ strict s [] o').
  { intros r o c m t Ho Hc Ht. exists (orelse o (Some (mkerr c m t))). split.
    - intro e. rewrite cerr_app, (app_orelse s) by apply Ho. reflexivity.
    - split; [eapply outcome_seq; [exact Ho|apply outcome_err; assumption]|].
      intros H; destruct o; discriminate. }
  destruct r1 as [|c1 r1'].
  { left. exists []. destruct (E _ _ UnexpectedEndFragment None 0 B1) as (o' & A & B & C); [discriminate|cbn; lia|].
    exists o'. split; [|split; assumption]. intro e. rewrite A1. cbn [bind]. apply A. }
  assert (Ho1 : o1 = None) by (destruct o1; [destruct B1 as (_ & _ & B1); discriminate B1; congruence|reflexivity]).
  destruct (space_good (c1 :: r1')) as (r2 & o2 & A2 & B2).
  pose proof (outcome_seq _ _ _ _ _ B1 B2) as B12.
  assert (Q2 : forall e, app_err (app_err e o1) o2 = app_err e (orelse o1 o2)).
  { intro e. apply (app_orelse s), B1. }
  destruct r2 as [|c2 r2'].
  { left. exists []. destruct (E _ _ UnexpectedEndFragment None 0 B12) as (o' & A & B & C); [discriminate|cbn; lia|].
    exists o'. split; [|split; assumption]. intro e. rewrite A1. cbn [bind]. rewrite A2, Q2. apply A. }
  destruct (c2 =? COLON) eqn:Ec.
  2:{ left. exists []. destruct (E _ _ ExpectedOf (Some [COLON]) (dist r2') B12) as (o' & A & B & C); [discriminate|rewrite dist_cons; pose proof (dist_nonneg r2'); lia|].
      exists o'. split; [|split; assumption]. intro e. rewrite A1. cbn [bind]. rewrite A2, Q2, Ec. cbn [negb]. apply A. }
  assert (B12' : outcome s r2' (orelse o1 o2)).
  { rewrite <- (app_nil_l r2'). destruct (orelse o1 o2) as [j|] eqn:Ej.
    - destruct B12 as (_ & _ & B12). discriminate B12; congruence.
    - apply outcome_ok. destruct B12 as (B12 & _). eapply suffix_trans; [|exact B12]. auto with suf. }
  destruct r2' as [|c3 r3].
  { left. exists []. destruct (E _ _ UnexpectedEndFragment None 0 B12') as (o' & A & B & C); [discriminate|cbn; lia|].
    exists o'. split; [|split; assumption]. intro e. rewrite A1. cbn [bind]. rewrite A2, Q2, Ec. cbn [negb]. apply A. }
  destruct (space_good (c3 :: r3)) as (r4 & o4 & A4 & B4).
  pose proof (outcome_seq _ _ _ _ _ B12' B4) as B14.
  assert (Q4 : forall e, app_err (app_err e (orelse o1 o2)) o4 = app_err e (orelse (orelse o1 o2) o4)).
  { intro e. apply (app_orelse s), B12'. }
  destruct r4 as [|c4 r4'].
  { left. exists []. destruct (E _ _ UnexpectedEndFragment None 0 B14) as (o' & A & B & C); [discriminate|cbn; lia|].
    exists o'. split; [|split; assumption]. intro e. rewrite A1. cbn [bind]. rewrite A2, Q2, Ec. cbn [negb]. rewrite A4, Q4. apply A. }
  assert (L4 : (length (c4 :: r4') < length s)%nat).
  { destruct (S1 Ho1) as (L1 & _).
    pose proof (suffix_len _ _ (proj1 B2)). pose proof (suffix_len _ _ (proj1 B4)). cbn [length] in *. lia. }
  destruct (IH (c4 :: r4') L4) as [(r5 & o5 & A5 & B5 & C5)|(Hsn & Hub)].
  - left. exists r5, (orelse (orelse (orelse o1 o2) o4) o5). split.
    + intro e. rewrite A1. cbn [bind]. rewrite A2, Q2, Ec. cbn [negb]. rewrite A4, Q4, A5.
      rewrite (app_orelse s) by apply B14. reflexivity.
    + split; [eapply outcome_seq; eassumption|]. intros Hn.
      destruct (S1 Ho1) as (_ & c & t & -> & Ht). exists c, t. split; [reflexivity|].
      apply (suffix_trans _ (c1 :: r1')); [|exact Ht].
      eapply suffix_trans; [apply B5|]. eapply suffix_trans; [apply B4|].
      eapply suffix_trans; [|apply B2]. auto with suf.
  - right. split; [exact Hsn|]. intro e. rewrite A1. cbn [bind]. rewrite A2, Q2, Ec. cbn [negb]. rewrite A4, Q4. apply Hub.
Qed.

Lemma close_good cl s : pgood (close_with cl) s.
Proof.
  unfold pgood, close_with. destruct s as [|c t]; [perr|].
  destruct (negb (c =? cl)); [perr|pok].
Qed.

Lemma items_law sn close item : forall n s,
  (length s < n)%nat ->
  (forall s', (length s' <= length s)%nat -> rlawS sn item s') ->
  rlaw sn (items_loop sn close item n) s.
Proof.
  induction n as [|n IH]; intros s Hn Hit; [lia|].
  unfold rlaw, rgood. cbn [items_loop].
  destruct s as [|c0 s0].
  { left. destruct (close_good close []) as (r & o & A & B). exists r, o.
    split; [intro e; rewrite A; reflexivity|exact B]. }
  destruct (c0 =? close).
  { left. destruct (close_good close (c0 :: s0)) as (r & o & A & B). exists r, o.
    split; [intro e; rewrite A; reflexivity|exact B]. }
  remember (c0 :: s0) as s eqn:Hs.
  destruct (space_good s) as (s1 & o1 & A1 & B1).
  destruct (deref sn s1) as [c1| |] eqn:Ed.
  2:{ right. split.
      - destruct s1; cbn in Ed; [|discriminate]. destruct sn; [discriminate|reflexivity].
      - intro e. rewrite A1, Ed. reflexivity. }
  2:{ destruct s1; cbn in Ed; [destruct sn|]; discriminate. }
  destruct (c1 =? close) eqn:Ec1.
  { left. destruct (pgood_seq s s1 o1 _ B1 (close_good close s1)) as (r & o & A & B).
    exists r, o. split; [|exact B]. intro e. rewrite A1, Ed. cbn [bind]. rewrite Ec1, A. reflexivity. }
  assert (L1 : (length s1 <= length s)%nat) by (apply suffix_len, B1).
  destruct (Hit s1 L1) as [(s2 & o2 & A2 & B2 & C2)|(Hsn & Hub)].
  2:{ right. split; [exact Hsn|]. intro e. rewrite A1, Ed. cbn [bind]. rewrite Ec1, Hub. reflexivity. }
  pose proof (outcome_seq _ _ _ _ _ B1 B2) as B12.
  destruct (pgood_seq s s2 (orelse o1 o2) _ B12 (space_good s2)) as (s3 & o3 & A3 & B3).
  assert (Q : forall e, app_err (app_err e o1) o2 = app_err e (orelse o1 o2)).
  { intro e. apply (app_orelse s), B1. }
  destruct s3 as [|c3 t3].
  { left. exists [], (orelse o3 (Some (mkerr ExpectedOf (Some [close]) 0))). split.
    - intro e. rewrite A1, Ed. cbn [bind]. rewrite Ec1, A2. cbn [bind]. rewrite Q, A3.
      rewrite cerr_app, (app_orelse s) by apply B3. reflexivity.
    - eapply outcome_seq; [exact B3|]. apply outcome_err; [discriminate|cbn; lia]. }
  destruct (negb (c3 =? COMMA) && negb (c3 =? close)) eqn:Ec3.
  { left. exists [], (orelse o3 (Some (mkerr ExpectedOf (Some [close]) (dist (c3 :: t3))))). split.
    - intro e. rewrite A1, Ed. cbn [bind]. rewrite Ec1, A2. cbn [bind]. rewrite Q, A3, Ec3.
      rewrite cerr_app, (app_orelse s) by apply B3. reflexivity.
    - eapply outcome_seq; [exact B3|]. apply outcome_err; [discriminate|].
      pose proof (dist_nonneg (c3 :: t3)); lia. }
  assert (Ho3 : o3 = None).
  { destruct o3; [|reflexivity]. destruct B3 as (_ & _ & B3). discriminate B3; congruence. }
  assert (L3 : (length (c3 :: t3) <= length s)%nat) by (apply suffix_len, B3).
  destruct (c3 =? COMMA) eqn:Ecm.
  - assert (B3' : outcome s t3 o3).
    { subst o3. apply outcome_ok. destruct B3 as (B3 & _). eapply suffix_trans; [|exact B3]. auto with suf. }
    cbn [length] in L3.
    destruct (IH t3) as [G|(Hsn & Hub)]; [lia| | |].
    + intros s' Hs'. apply Hit. lia.
    + left. destruct (rgood_seq s t3 o3 _ B3' G) as (r & o & A & B).
      exists r, o. split; [|exact B]. intro e. rewrite A1, Ed. cbn [bind]. rewrite Ec1, A2. cbn [bind].
      rewrite Q, A3, Ecm, Ec3. apply A.
    + right. split; [exact Hsn|]. intro e. rewrite A1, Ed. cbn [bind]. rewrite Ec1, A2. cbn [bind].
      rewrite Q, A3, Ecm, Ec3. apply Hub.
  - assert (L3' : (length (c3 :: t3) < length s)%nat).
    { assert (Hs1 : s1 = [] \/ s1 <> []) by (destruct s1; [now left|right; discriminate]).
      destruct Hs1 as [->|Hs1].
      - destruct B2 as (B2 & _). destruct B2 as [p B2]. symmetry in B2. apply app_eq_nil in B2.
        destruct B2 as [_ ->]. 
        destruct (space_good []) as (x & y & Ax & Bx).
        specialize (A3 None). unfold parse_space in A3. cbn in A3. discriminate.
      - pose proof (strict_len _ _ _ C2 B2 Hs1).
        destruct (space_good s2) as (x & y & Ax & Bx).
        assert (x = c3 :: t3) by (specialize (A3 None); rewrite Ax in A3; congruence).
        subst x. pose proof (suffix_len _ _ (proj1 Bx)). lia. }
    destruct (IH (c3 :: t3)) as [G|(Hsn & Hub)]; [lia| | |].
    + intros s' Hs'. apply Hit. lia.
    + left. destruct (rgood_seq s _ o3 _ B3 G) as (r & o & A & B).
      exists r, o. split; [|exact B]. intro e. rewrite A1, Ed. cbn [bind]. rewrite Ec1, A2. cbn [bind].
      rewrite Q, A3, Ecm, Ec3. apply A.
    + right. split; [exact Hsn|]. intro e. rewrite A1, Ed. cbn [bind]. rewrite Ec1, A2. cbn [bind].
      rewrite Q, A3, Ecm, Ec3. apply Hub.
Qed.

(** from a law on the tail after the opening bracket to a strict law *)
Lemma rlaw_open sn (f : pfun) (g : pfun) c t :
  rlaw sn g t -> (forall e, f (c :: t) e = g t e) -> rlawS sn f (c :: t).
Proof.
  intros [(r & o & A & B)|(Hsn & Hub)] H; [left|right].
  - exists r, o. split; [intro e; rewrite H; apply A|]. split.
    + eapply outcome_weaken; [|exact B]; auto with suf.
    + intros _. exists c, t. split; [reflexivity|apply B].
  - split; [exact Hsn|]. intro e. rewrite H. apply Hub.
Qed.

Lemma object_law sn pv s :
  is_object s = true ->
  (forall s', (length s' < length s)%nat -> rlawS sn pv s') ->
  rlawS sn (parse_object sn pv) s.
Proof.
  intros Ho Hpv. destruct s as [|c t]; [discriminate|].
  apply (rlaw_open sn _ (fun s0 e => let '(s1, e1) := parse_space s0 e in
    if starts RBR s1 then let* s2 := step s1 in Ok (s2, e1)
    else items_loop sn RCB (parse_member pv) (S (length s1)) s1 e1)).
  2:{ intro e. unfold parse_object. rewrite Ho. cbn [negb]. reflexivity. }
  cbn [length] in Hpv.
  destruct (space_good t) as (s1 & o1 & A1 & B1).
  destruct (starts RBR s1) eqn:Es.
  - left. destruct (starts_inv _ _ Es) as (t1 & ->). exists t1, o1. split.
    + intro e. rewrite A1, Es. reflexivity.
    + assert (o1 = None) as ->.
      { destruct o1; [|reflexivity]. destruct B1 as (_ & _ & B1). discriminate B1; congruence. }
      apply outcome_ok. eapply suffix_trans; [|apply B1]. auto with suf.
  - assert (L1 : (length s1 <= length t)%nat) by (apply suffix_len, B1).
    destruct (items_law sn RCB (parse_member pv) (S (length s1)) s1 ltac:(lia)) as [G|(Hsn & Hub)].
    + intros s' Hs'. apply member_law. intros s'' Hs''. apply Hpv. lia.
    + left. destruct (rgood_seq t s1 o1 _ B1 G) as (r & o & A & B).
      exists r, o. split; [|exact B]. intro e. rewrite A1, Es. apply A.
    + right. split; [exact Hsn|]. intro e. rewrite A1, Es. apply Hub.
Qed.

Lemma array_law sn pv s :
  is_array s = true ->
  (forall s', (length s' < length s)%nat -> rlawS sn pv s') ->
  rlawS sn (parse_array sn pv) s.
Proof.
  intros Ho Hpv. destruct s as [|c t]; [discriminate|].
  apply (rlaw_open sn _ (fun s0 e => items_loop sn RBR pv (S (length s0)) s0 e)).
  2:{ intro e. unfold parse_array. rewrite Ho. reflexivity. }
  cbn [length] in Hpv. apply items_law; [lia|]. intros s' Hs'. apply Hpv. lia.
Qed.

Lemma pgood_lit_strict c t f : pgood f (c :: t) ->
  (forall r e, f (c :: t) e = (r, e) -> e = Some no_error -> suffix r t) ->
  rgoodS (fun s e => Ok (f s e)) (c :: t).
Proof.
  intros (r & o & A & B) H. exists r, o. split; [intro e; rewrite A; reflexivity|].
  split; [exact B|]. intros ->. exists c, t. split; [reflexivity|].
  apply (H r (Some no_error)); [apply A|reflexivity].
Qed.

Lemma finish_lit_clean lit nm t r : finish_lit (lit_chain lit 0 t) nm (Some no_error) = (r, Some no_error) ->
  t = lit ++ r.
Proof.
  pose proof (lit_chain_spec lit 0 t ltac:(lia)) as H.
  unfold finish_lit. destruct (lit_chain lit 0 t); cbn; intros E; [|discriminate|discriminate].
  injection E as ->. exact H.
Qed.

Lemma parse_value_law sn : forall n s, (length s < n)%nat -> rlawS sn (parse_value_f sn n) s.
Proof.
  induction n as [|n IH]; intros s Hn; [lia|].
  unfold rlawS, rgoodS. cbn [parse_value_f].
  destruct (is_null s) eqn:E1.
  { left. destruct s as [|c t]; [discriminate|].
    destruct (null_good (c :: t)) as (r & o & A & B). exists r, o.
    split; [intro e; rewrite A; reflexivity|]. split; [exact B|]. intros ->.
    exists c, t. split; [reflexivity|]. specialize (A (Some no_error)). unfold parse_null in A.
    destruct (c =? 110); [|discriminate]. apply finish_lit_clean in A. subst t. apply suffix_app. }
  destruct (is_bool s) eqn:E2.
  { left. destruct s as [|c t]; [discriminate|].
    destruct (bool_good (c :: t)) as (r & o & A & B). exists r, o.
    split; [intro e; rewrite A; reflexivity|]. split; [exact B|]. intros ->.
    exists c, t. split; [reflexivity|]. specialize (A (Some no_error)). unfold parse_bool in A.
    destruct (c =? 116); [|destruct (c =? 102); [|discriminate]];
      apply finish_lit_clean in A; subst t; apply suffix_app. }
  destruct (is_number s) eqn:E3.
  { left. destruct (number_good s) as (r & o & A & B). exists r, o.
    split; [intro e; rewrite A; reflexivity|]. split; [exact B|]. intros ->.
    destruct s as [|c t]; [discriminate|].
    exists c, t. split; [reflexivity|].
    assert (K : forall s1 e1, parse_integer (c :: t) (Some no_error) = (s1, e1) -> is_digit c = true \/ c = MINUS -> suffix s1 t \/ e1 <> Some no_error).
    { unfold parse_integer. intros s1 e1 H Hc. destruct (c =? MINUS) eqn:Em.
      - destruct t as [|c1 t1]; [injection H as <- <-; right; discriminate|].
        destruct (c1 =? 48); [injection H as <- <-; left; auto with suf|].
        destruct ((49 <=? c1) && (c1 <=? 57)); [|injection H as <- <-; right; discriminate].
        injection H as <- <-. left. exact (digit_suffix (c1 :: t1)).
      - destruct (c =? 48) eqn:E48; [injection H as <- <-; left; auto with suf|].
        destruct ((49 <=? c) && (c <=? 57)) eqn:Er; [|injection H as <- <-; right; discriminate].
        injection H as <- <-. left.
        assert (is_digit c = true) as -> by (unfold is_digit; lia). apply digit_suffix. }
    assert (Hc : is_digit c = true \/ c = MINUS).
    { cbn in E3. destruct (is_digit c); [now left|right; lia]. }
    specialize (A (Some no_error)). unfold parse_number in A.
    destruct (integer_good (c :: t)) as (r1 & o1 & A1 & B1). pose proof (A1 (Some no_error)) as A1'.
    destruct (K _ _ A1' Hc) as [Hsuf|Hne]; rewrite A1' in A.
    - destruct r1 as [|d t1]; [injection A as <- _; apply suffix_nil|].
      destruct (d =? DOT).
      + destruct t1 as [|d1 t2]; [injection A as <- _; apply suffix_nil|].
        destruct (is_digit d1); [|injection A as <- _; apply suffix_nil].
        destruct (exp_good (parse_digit (d1 :: t2))) as (r2 & o2 & A2 & B2).
        rewrite A2 in A. injection A as <- _. eapply suffix_trans; [apply B2|].
        eapply suffix_trans; [apply digit_suffix|].
        eapply suffix_trans; [|exact Hsuf]. auto with suf.
      + destruct (exp_good (d :: t1)) as (r2 & o2 & A2 & B2). rewrite A2 in A. injection A as <- _.
        eapply suffix_trans; [apply B2|exact Hsuf].
    - exfalso. destruct o1 as [j|]; [|apply Hne; reflexivity]. destruct B1 as (_ & (B1 & _) & B1').
      rewrite B1' in A by congruence. cbn in A. injection A as <- ->. discriminate. }
  destruct (is_string s) eqn:E4.
  { left. destruct (string_good s) as (r & o & A & B). exists r, o. split; [exact A|]. split; [exact B|].
    intros Ho. eapply string_strict; eassumption. }
  destruct (is_object s) eqn:E5.
  { apply object_law; [exact E5|]. intros s' Hs'. apply IH. lia. }
  destruct (is_array s) eqn:E6.
  { apply array_law; [exact E6|]. intros s' Hs'. apply IH. lia. }
  left. exists [], (Some (mkerr InvalidJSON None (dist s))). split; [reflexivity|].
  split; [apply outcome_err; [discriminate|pose proof (dist_nonneg s); lia]|]. intro; discriminate.
Qed.

Theorem parse_law sn s : rlawS sn (parse sn) s.
Proof. unfold parse, parse_value. apply parse_value_law. lia. Qed.

(** fuel independence *)
Lemma items_fuel sn close item item' : forall n m s e,
  (length s < n)%nat -> (length s < m)%nat ->
  (forall s', (length s' <= length s)%nat -> rlawS sn item s') ->
  (forall s' e', (length s' <= length s)%nat -> item s' e' = item' s' e') ->
  items_loop sn close item n s e = items_loop sn close item' m s e.
Proof.
  induction n as [|n IH]; intros m s e Hn Hm Hlaw Heq; [lia|].
  destruct m as [|m]; [lia|]. cbn [items_loop].
  destruct s as [|c0 s0]; [reflexivity|].
  destruct (c0 =? close); [reflexivity|].
  remember (c0 :: s0) as s eqn:Hs.
  destruct (space_good s) as (s1 & o1 & A1 & B1). rewrite A1.
  destruct (deref sn s1) as [c1| |] eqn:Ed; cbn [bind]; [|reflexivity|reflexivity].
  destruct (c1 =? close); [reflexivity|].
  assert (L1 : (length s1 <= length s)%nat) by (apply suffix_len, B1).
  rewrite <- Heq by exact L1.
  destruct (Hlaw s1 L1) as [(s2 & o2 & A2 & B2 & C2)|(Hsn & Hub)].
  2:{ rewrite Hub. reflexivity. }
  rewrite A2. cbn [bind].
  destruct (space_good s2) as (s3 & o3 & A3 & B3). rewrite A3.
  destruct s3 as [|c3 t3]; [reflexivity|].
  destruct (negb (c3 =? COMMA) && negb (c3 =? close)); [reflexivity|].
  assert (Hs1 : s1 <> []).
  { intros ->. apply proj1, suffix_of_nil in B2. subst s2. apply proj1, suffix_of_nil in B3. discriminate. }
  pose proof (strict_len _ _ _ C2 B2 Hs1). pose proof (suffix_len _ _ (proj1 B3)).
  cbn [length] in *.
  destruct (c3 =? COMMA); apply IH; cbn [length]; try lia;
    intros; (apply Hlaw || apply Heq); lia.
Qed.

Lemma member_fuel pv pv' s e :
  (forall s' e', (length s' < length s)%nat -> pv s' e' = pv' s' e') ->
  parse_member pv s e = parse_member pv' s e.
Proof.
  intros Heq. unfold parse_member. destruct (negb (is_string s)) eqn:Es; [reflexivity|].
  destruct (string_good s) as (s1 & o1 & A1 & B1). rewrite A1. cbn [bind].
  destruct s1 as [|c1 t1]; [reflexivity|].
  destruct (space_good (c1 :: t1)) as (s2 & o2 & A2 & B2). rewrite A2.
  destruct s2 as [|c2 t2]; [reflexivity|]. destruct (negb (c2 =? COLON)); [reflexivity|].
  destruct t2 as [|c3 t3]; [reflexivity|].
  destruct (space_good (c3 :: t3)) as (s4 & o4 & A4 & B4). rewrite A4.
  destruct s4 as [|c4 t4]; [reflexivity|]. apply Heq.
  pose proof (suffix_len _ _ (proj1 B1)). pose proof (suffix_len _ _ (proj1 B2)).
  pose proof (suffix_len _ _ (proj1 B4)). cbn [length] in *. lia.
Qed.

Lemma parse_value_fuel sn : forall n m s e, (length s < n)%nat -> (length s < m)%nat ->
  parse_value_f sn n s e = parse_value_f sn m s e.
Proof.
  induction n as [|n IH]; intros m s e Hn Hm; [lia|]. destruct m as [|m]; [lia|].
  cbn [parse_value_f].
  destruct (is_null s); [reflexivity|]. destruct (is_bool s); [reflexivity|].
  destruct (is_number s); [reflexivity|]. destruct (is_string s); [reflexivity|].
  destruct (is_object s) eqn:Eo.
  { unfold parse_object. rewrite Eo. cbn [negb]. destruct s as [|c t]; [reflexivity|]. cbn [step bind].
    cbn [length] in *.
    destruct (space_good t) as (s1 & o1 & A1 & B1). rewrite A1.
    pose proof (suffix_len _ _ (proj1 B1)).
    destruct (starts RBR s1); [reflexivity|].
    apply items_fuel; try lia.
    - intros s' Hs'. apply member_law. intros s'' Hs''. apply parse_value_law. lia.
    - intros s' e' Hs'. apply member_fuel. intros s'' e'' Hs''. apply IH; lia. }
  destruct (is_array s) eqn:Ea; [|reflexivity].
  unfold parse_array. rewrite Ea. cbn [negb]. destruct s as [|c t]; [reflexivity|]. cbn [step bind].
  cbn [length] in *. apply items_fuel; try lia.
  - intros s' Hs'. apply parse_value_law. lia.
  - intros s' e' Hs'. apply IH; lia.
Qed.
