From Coq Require Import Sorting.Permutation.
From Verif Require Import Base SpecString Parser SpecJson ParserFacts Grammar1 Grammar2 Out CodecLaws SpecSeq Array ArrayProofs Object SpecObject.

(** ---- laws ---- *)
Definition pg (s : buf) (e : eptr) (x : res (buf * eptr)) : Prop :=
  match x with Ok (r, e') => suffix r s /\ estep s e e' | UB => True | Fuel => False end.
Lemma pg_lift {B} s e x (v : B) : pg s e x -> dgood s e (let* (r, e') := x in Ok (v, r, e')).
Proof. destruct x as [[r e']| |]; exact (fun H => H). Qed.
Lemma pg_weaken s s' e e' x : suffix s' s -> estep s e e' -> pg s' e' x -> pg s e x.
Proof.
  intros Hs He. destruct x as [[r e2]| |]; cbn; [|tauto|tauto].
  intros (H1 & H2). split; [now apply suffix_trans with s'|]. eapply estep_trans; [exact He|].
  now apply (estep_weaken _ s').
Qed.
Lemma pg_bind s e (x : res (buf * eptr)) (f : buf * eptr -> res (buf * eptr)) :
  pg s e x -> (forall r e', suffix r s -> estep s e e' -> x = Ok (r, e') -> pg s e (f (r, e'))) -> pg s e (bind x f).
Proof. destruct x as [[r e']| |]; cbn [bind pg]; intros H1 H2; [|exact I|exact H1]. apply H2; tauto. Qed.
Lemma pg_err s e c m t e' : c <> ValidJSON -> 0 <= t <= dist s -> estep s e e' -> pg s e (Ok ([], cerr c m t e')).
Proof. intros. split; [apply suffix_nil|]. eapply estep_trans; [eassumption|now apply estep_cerr]. Qed.
Lemma dg_err {B} s e (v : B) c m t e' : c <> ValidJSON -> 0 <= t <= dist s -> estep s e e' -> dgood s e (Ok (v, [], cerr c m t e')).
Proof. intros. split; [apply suffix_nil|]. eapply estep_trans; [eassumption|now apply estep_cerr]. Qed.
Lemma pv_law sn s : rlawS sn (parse_value sn) s.
Proof. unfold parse_value. destruct (parse_value_law sn (S (length s)) s (le_n _)) as [H|H]; [left|right]; exact H. Qed.
Lemma pmember_law sn s : rlawS sn (parse_member (parse_value sn)) s.
Proof. apply member_law. intros. apply pv_law. Qed.
Lemma pmember_pg sn s e : pg s e (parse_member (parse_value sn) s e).
Proof.
  destruct (pmember_law sn s) as [(r & o & H & Ho & _)|(_ & H)]; rewrite H; [|exact I].
  destruct Ho as (H1 & H2 & _). split; [exact H1|now apply estep_app].
Qed.
Lemma pmember_safe sn s e : sn <> None -> parse_member (parse_value sn) s e <> UB.
Proof. intros Hs. destruct (pmember_law sn s) as [(r & o & H & _)|(H & _)]; [rewrite H; discriminate|contradiction]. Qed.
Lemma space_pg s e s0 e0 : suffix s s0 -> estep s0 e0 e -> suffix (fst (parse_space s e)) s0 /\ estep s0 e0 (snd (parse_space s e)).
Proof.
  intros Hs He. destruct (parse_space s e) as [r e'] eqn:E. destruct (space_estep _ _ _ _ E) as (A & B). cbn.
  split; [now apply suffix_trans with s|]. eapply estep_trans; [exact He|now apply (estep_weaken _ s)].
Qed.
(** step through [let '(r, e') := parse_space s e in _] *)
Ltac sp A B := match goal with
  | HA : suffix ?s ?s0, HB : estep ?s0 ?e0 ?e |- context [parse_space ?s ?e] =>
    let H := fresh in pose proof (space_pg s e s0 e0 HA HB) as H; destruct (parse_space s e) as [? ?]; cbn [fst snd] in H; destruct H as [A B]
  end.
Lemma suffix_tl c t s : suffix (c :: t) s -> suffix t s.
Proof. intros H. eapply suffix_trans; [|exact H]. auto with suf. Qed.
Ltac dle := match goal with H : suffix ?a ?b |- context [dist ?a] => apply suffix_dist in H end;
  repeat match goal with |- context [dist ?a] => pose proof (dist_pos a); generalize dependent (dist a); intros end.

Lemma name_loop_suffix s : forall name, suffix (snd (name_loop name s)) s.
Proof.
  induction s as [|c t IH]; intros name; destruct name as [|n name]; cbn; auto with suf.
  destruct ((c =? n) && negb (c =? QT)); [|auto with suf]. eapply suffix_trans; [apply IH|auto with suf].
Qed.
Lemma unser_name_good name s u e r e' u' : unser_name name s u e = (r, e', u') -> suffix r s /\ estep s e e'.
Proof.
  unfold unser_name. destruct (negb (is_string s)).
  { intros [= <- <- <-]. apply (dgood_err s e tt); [discriminate|]. pose proof (dist_pos s). lia. }
  pose proof (name_loop_suffix (tl s) name) as Hn. destruct (name_loop name (tl s)) as [n' s1]. cbn [snd] in Hn.
  assert (Hs : suffix s1 s) by (destruct s; [exact Hn|eapply suffix_trans; [exact Hn|cbn; auto with suf]]).
  destruct s1 as [|c t1]. { intros [= <- <- <-]. split; [apply suffix_nil|apply estep_end]. }
  destruct (_ || _). { intros [= <- <- <-]. split; [apply suffix_refl|apply estep_refl]. }
  assert (H1 : suffix t1 s) by (now apply suffix_tl with c). pose proof (estep_refl s e) as He.
  sp A2 B2. rename b into s2, e0 into e2. destruct s2 as [|d t2].
  { intros [= <- <- <-]. apply (dg_err s e tt); [discriminate|pose proof (dist_pos s); lia|exact B2]. }
  destruct (negb (d =? COLON)).
  { intros [= <- <- <-]. apply (dg_err s e tt); [discriminate| |exact B2]. apply suffix_dist in A2. pose proof (dist_pos (d :: t2)). lia. }
  apply suffix_tl in A2. sp A3 B3. destruct b as [|x b]; intros [= <- <- <-]; [|now split].
  apply (dg_err s e tt); [discriminate|pose proof (dist_pos s); lia|exact B3].
Qed.

Section MemLaw.
  Context {T : Type}.
  Lemma mem_des_good (m : mem T) sn t s u e : dlaw (des (m_codec m)) -> dgood s e (mem_des m sn t s u e).
  Proof.
    intros H. unfold mem_des. destruct (unser_name _ s u e) as [[s1 e1] u1] eqn:E. destruct (unser_name_good _ _ _ _ _ _ _ E) as (A & B).
    destruct (negb u1); [now split|]. apply dgood_bind.
    - eapply dgood_weaken; [exact A|exact B|apply H].
    - intros v r e' A1 B1 _. now split.
  Qed.
  Lemma mem_p_des_good (m : mem T) i sn t s u e : dlaw (des (m_codec m)) -> dgood s e (mem_p_des m i sn t s u e).
  Proof.
    intros H. unfold mem_p_des. destruct (unser_name _ s u e) as [[s1 e1] u1] eqn:E. destruct (unser_name_good _ _ _ _ _ _ _ E) as (A & B).
    destruct (negb u1); [now split|]. apply dgood_bind.
    - eapply dgood_weaken; [exact A|exact B|apply H].
    - intros v r e' A1 B1 _. now split.
  Qed.
  Lemma mem_reset_nofuel (m : mem T) t : dlaw (des (m_codec m)) -> mem_reset m t <> Fuel.
  Proof.
    intros H. unfold mem_reset. pose proof (H (Some 0) (m_get m t) (text "null") None) as G.
    destruct (des _ _ _ _ _) as [[[x r] e]| |]; cbn; [discriminate|discriminate|contradiction].
  Qed.
  Lemma mem_reset_safe (m : mem T) t : dsafe (des (m_codec m)) -> mem_reset m t <> UB.
  Proof.
    intros H. unfold mem_reset. pose proof (H (Some 0) (m_get m t) (text "null") None) as G.
    destruct (des _ _ _ _ _) as [[[x r] e]| |]; cbn; [discriminate| |discriminate].
    exfalso; apply G; [exists 0; repeat split; lia|reflexivity].
  Qed.
  Lemma memb_des_good (b : memb T) sn t s u e : memb_all (fun _ c => dlaw (des c)) b -> dgood s e (memb_des b sn t s u e).
  Proof.
    destruct b as [m|m i|ru l r d]; cbn [memb_all memb_des]; intros H; [now apply mem_des_good|now apply mem_p_des_good|].
    assert (Hf : dlaw (des (m_codec (if ru then r else l)))) by (destruct ru; tauto).
    assert (Hs : dlaw (des (m_codec (if ru then l else r)))) by (destruct ru; tauto).
    set (f := if ru then r else l) in *. set (g := if ru then l else r) in *.
    pose proof (mem_des_good f sn t s u (Some no_error) Hf) as G. destruct (mem_des f sn t s u (Some no_error)) as [[[[t1 u1] itr] ee]| |]; cbn [bind]; [|exact I|exact G].
    destruct G as (A & _). destruct (no_err_yet ee).
    - pose proof (mem_reset_nofuel g t1 Hs). destruct (mem_reset g t1); cbn [bind]; [split; [exact A|apply estep_refl]|exact I|contradiction].
    - pose proof (mem_reset_nofuel f t1 Hf). destruct (mem_reset f t1); cbn [bind]; [now apply mem_des_good|exact I|contradiction].
  Qed.
  Lemma memb_des_safe (b : memb T) sn t s u e : memb_all (fun _ c => dsafe (des c)) b -> good_sn sn -> memb_des b sn t s u e <> UB.
  Proof.
    assert (M : forall m sn t s u e, dsafe (des (m_codec m)) -> good_sn sn -> mem_des (T:=T) m sn t s u e <> UB).
    { intros m sn0 t0 s0 u0 e0 H Hsn. unfold mem_des. destruct (unser_name _ s0 u0 e0) as [[s1 e1] u1]. destruct (negb u1); [discriminate|].
      intros K. apply bind_ub in K. destruct K as [K|([[x s2] e2] & _ & K)]; [|discriminate]. now apply (H _ _ _ _ Hsn K). }
    destruct b as [m|m i|ru l r d]; cbn [memb_all memb_des]; intros H Hsn; [now apply M| |].
    - unfold mem_p_des. destruct (unser_name _ s u e) as [[s1 e1] u1]. destruct (negb u1); [discriminate|].
      intros K. apply bind_ub in K. destruct K as [K|([[x s2] e2] & _ & K)]; [|discriminate]. now apply (H _ _ _ _ Hsn K).
    - assert (Hf : dsafe (des (m_codec (if ru then r else l)))) by (destruct ru; tauto).
      assert (Hs : dsafe (des (m_codec (if ru then l else r)))) by (destruct ru; tauto).
      intros K. apply bind_ub in K. destruct K as [K|([[[t1 u1] itr] ee] & _ & K)]; [now apply M in K|].
      destruct (no_err_yet ee); apply bind_ub in K; destruct K as [K|(t2 & _ & K)];
        try (now apply mem_reset_safe in K); [discriminate|now apply M in K].
  Qed.

  Variable mode : omode.
  Lemma rest_loop_good sn fuel : forall s e, (length s < fuel)%nat -> pg s e (rest_loop mode sn fuel s e).
  Proof.
    induction fuel as [|n IH]; intros s e Hn; [lia|]. cbn [rest_loop]. apply pg_bind; [apply pmember_pg|].
    intros s1 e1 A1 B1 _. sp A2 B2. rename b into s2, e0 into e2. destruct s2 as [|c t2].
    { apply pg_err; [discriminate|pose proof (dist_pos s); lia|exact B2]. }
    destruct (c =? RCB).
    { destruct mode; [now split|]. apply pg_err; [discriminate|pose proof (dist_pos s); lia|exact B2]. }
    destruct (negb (c =? COMMA)).
    { apply pg_err; [discriminate| |exact B2]. apply suffix_dist in A2. pose proof (dist_pos (c :: t2)). lia. }
    pose proof (suffix_len _ _ A2) as L2. cbn [length] in L2. apply suffix_tl in A2. pose proof (space_good t2) as _.
    destruct (parse_space t2 e2) as [s3 e3] eqn:E3. destruct (space_estep _ _ _ _ E3) as (A3 & B3). apply suffix_len in A3 as L3.
    eapply (pg_weaken s s3 e e3).
    - now apply suffix_trans with t2.
    - eapply estep_trans; [exact B2|now apply (estep_weaken _ t2)].
    - apply IH. lia.
  Qed.
  Lemma rest_members_good sn s e : pg s e (rest_members mode sn s e).
  Proof.
    unfold rest_members. pose proof (suffix_refl s) as A0. pose proof (estep_refl s e) as B0. sp A1 B1. destruct b as [|c t].
    { apply pg_err; [discriminate|pose proof (dist_pos s); lia|exact B1]. }
    destruct (c =? RCB); [now split|]. eapply pg_weaken; [exact A1|exact B1|]. apply rest_loop_good. lia.
  Qed.
  Lemma search_end_good sn s e : pg s e (search_end mode sn s e).
  Proof.
    unfold search_end. destruct mode.
    - apply pg_bind; [apply pmember_pg|]. intros r e' A B _. apply (space_pg _ _ _ _ A) in B.
      destruct (parse_space r e'); exact B.
    - destruct s as [|c t]; [apply pg_err; [discriminate|cbn; lia|apply estep_refl]|].
      destruct (c =? RCB); [split; [apply suffix_refl|apply estep_refl]|].
      apply pg_err; [discriminate|pose proof (dist_pos (c :: t)); lia|apply estep_refl].
  Qed.
  Lemma search_good sn (L : list (memb T)) : Forall (memb_all (fun _ c => dlaw (des c))) L -> forall t s e, dgood s e (search_members mode sn L t s e).
  Proof.
    induction 1 as [|c R Hc HR IH]; intros t s e; cbn [search_members]; [apply pg_lift, search_end_good|].
    apply dgood_bind; [now apply memb_des_good|]. intros [t1 u] s1 e1 A B _. destruct (negb u); [|now split].
    eapply dgood_weaken; [exact A|exact B|apply IH].
  Qed.
  Lemma at_close_good (t : T) s e : dgood s e (at_close t s e).
  Proof.
    unfold at_close. destruct s as [|c s']; [apply dg_err; [discriminate|cbn; lia|apply estep_refl]|].
    destruct (negb (c =? RCB)); [|split; [apply suffix_refl|apply estep_refl]].
    apply dg_err; [discriminate|pose proof (dist_pos (c :: s')); lia|apply estep_refl].
  Qed.
  Lemma members_good sn (L : list (memb T)) : Forall (memb_all (fun _ c => dlaw (des c))) L ->
    forall fuel R t s e, Forall (memb_all (fun _ c => dlaw (des c))) R -> (length s < fuel)%nat -> dgood s e (members_loop mode sn L fuel R t s e).
  Proof.
    intros HL. induction fuel as [|n IH]; intros R t s e HR Hn; [lia|]. cbn [members_loop]. destruct R as [|c R'].
    { apply pg_lift, rest_members_good. }
    apply dgood_bind; [apply memb_des_good; now inversion HR|]. intros [t1 u] s1 e1 A1 B1 _.
    apply dgood_bind. { destruct (negb u); [|now split]. eapply dgood_weaken; [exact A1|exact B1|now apply search_good]. }
    intros t2 s2 e2 A2 B2 _. sp A3 B3. rename b into s3, e0 into e3. destruct s3 as [|d t3].
    { apply dg_err; [discriminate|pose proof (dist_pos s); lia|exact B3]. }
    destruct (d =? COMMA); [|eapply dgood_weaken; [exact A3|exact B3|apply at_close_good]].
    pose proof (suffix_len _ _ A3) as L3. cbn [length] in L3. apply suffix_tl in A3.
    destruct (parse_space t3 e3) as [s4 e4] eqn:E4. destruct (space_estep _ _ _ _ E4) as (A4 & B4). apply suffix_len in A4 as L4.
    assert (A4' : suffix s4 s) by (now apply suffix_trans with t3).
    assert (B4' : estep s e e4) by (eapply estep_trans; [exact B3|now apply (estep_weaken _ t3)]).
    apply dgood_bind.
    - eapply dgood_weaken; [exact A4'|exact B4'|]. apply IH; [|lia]. destruct u; [now inversion HR|exact HR].
    - intros t5 s5 e5 A5 B5 _. eapply dgood_weaken; [exact A5|exact B5|apply at_close_good].
  Qed.

  Theorem object_dlaw (L : list (memb T)) t0 : Forall (memb_all (fun _ c => dlaw (des c))) L -> dlaw (des (object_codec mode L t0)).
  Proof.
    intros HL sn old s e. cbn [des object_codec]. unfold object_des. destruct (is_null s).
    { apply (dgood_pair s e parse_null (fun _ => t0)). apply null_good. }
    pose proof (estep_refl s e) as B0. destruct s as [|c t]; [apply dg_err; [discriminate|cbn; lia|exact B0]|].
    assert (A0 : suffix t (c :: t)) by auto with suf. destruct (negb (c =? LCB)).
    { destruct (c =? LBR); [|apply dg_err; [discriminate|pose proof (dist_pos (c :: t)); lia|exact B0]].
      sp A1 B1. destruct b as [|d t1]; cbn [deref].
      - destruct sn as [x|]; [cbn [bind]|exact I]. destruct (negb (x =? RBR)); [|exact I].
        apply dg_err; [discriminate|pose proof (dist_pos (c :: t)); cbn; lia|exact B1].
      - cbn [bind step]. destruct (negb (d =? RBR)); [|split; [now apply suffix_tl with d|exact B1]].
        apply dg_err; [discriminate| |exact B1]. apply suffix_dist in A1. pose proof (dist_pos (d :: t1)). lia. }
    sp A1 B1. rename b into s1, e0 into e1. destruct s1 as [|d t1].
    { apply dg_err; [discriminate|pose proof (dist_pos (c :: t)); lia|exact B1]. }
    destruct (negb (d =? RCB)); [|split; [now apply suffix_tl with d|exact B1]].
    apply dgood_bind. { eapply dgood_weaken; [exact A1|exact B1|]. apply members_good; auto. }
    intros v s2 e2 A2 B2 _. destruct s2 as [|x s2]; [apply dg_err; [discriminate|pose proof (dist_pos (c :: t)); lia|exact B2]|].
    sp A3 B3. destruct b as [|f t3]; [apply dg_err; [discriminate|pose proof (dist_pos (c :: t)); lia|exact B3]|].
    destruct (negb (f =? RCB)); [|split; [now apply suffix_tl with f|exact B3]].
    apply dg_err; [discriminate| |exact B3]. apply suffix_dist in A3. rewrite dist_cons in A3. pose proof (dist_pos t3). lia.
  Qed.

  Lemma rest_loop_safe sn fuel : sn <> None -> forall s e, rest_loop mode sn fuel s e <> UB.
  Proof.
    intros Hs. induction fuel as [|n IH]; intros s e; [discriminate|]. cbn [rest_loop]. intros K. apply bind_ub in K.
    destruct K as [K|([s1 e1] & _ & K)]; [now apply pmember_safe in K|].
    destruct (parse_space s1 e1) as [[|c t2] e2]; [discriminate|]. destruct (c =? RCB); [destruct mode; discriminate|].
    destruct (negb (c =? COMMA)); [discriminate|]. destruct (parse_space t2 e2) as [s3 e3]. now apply IH in K.
  Qed.
  Lemma rest_members_safe sn s e : sn <> None -> rest_members mode sn s e <> UB.
  Proof.
    intros Hs. unfold rest_members. destruct (parse_space s e) as [[|c t] e1]; [discriminate|]. destruct (c =? RCB); [discriminate|].
    now apply rest_loop_safe.
  Qed.
  Lemma search_safe sn (L : list (memb T)) : good_sn sn -> Forall (memb_all (fun _ c => dsafe (des c))) L -> forall t s e, search_members mode sn L t s e <> UB.
  Proof.
    intros Hs. assert (Hn : sn <> None) by (destruct Hs as (c & -> & _); discriminate).
    induction 1 as [|c R Hc HR IH]; intros t s e; cbn [search_members]; intros K; apply bind_ub in K.
    - destruct K as [K|([s1 e1] & _ & K)]; [|discriminate]. unfold search_end in K. destruct mode.
      + apply bind_ub in K. destruct K as [K|([s1 e1] & _ & K)]; [now apply pmember_safe in K|discriminate].
      + destruct s as [|c t1]; [discriminate|]. destruct (c =? RCB); discriminate.
    - destruct K as [K|([[[t1 u] s1] e1] & _ & K)]; [now apply memb_des_safe in K|]. destruct (negb u); [now apply IH in K|discriminate].
  Qed.
  Lemma members_safe sn (L : list (memb T)) : good_sn sn -> Forall (memb_all (fun _ c => dsafe (des c))) L ->
    forall fuel R t s e, Forall (memb_all (fun _ c => dsafe (des c))) R -> members_loop mode sn L fuel R t s e <> UB.
  Proof.
    intros Hs HL. assert (Hn : sn <> None) by (destruct Hs as (c & -> & _); discriminate).
    induction fuel as [|n IH]; intros R t s e HR; [discriminate|]. cbn [members_loop]. destruct R as [|c R']; intros K; apply bind_ub in K.
    { destruct K as [K|([s1 e1] & _ & K)]; [now apply rest_members_safe in K|discriminate]. }
    destruct K as [K|([[[t1 u] s1] e1] & _ & K)]; [apply memb_des_safe in K; auto; now inversion HR|]. apply bind_ub in K.
    destruct K as [K|([[t2 s2] e2] & _ & K)]. { destruct (negb u); [now apply search_safe in K|discriminate]. }
    destruct (parse_space s2 e2) as [[|d t3] e3]; [discriminate|]. destruct (d =? COMMA).
    - destruct (parse_space t3 e3) as [s4 e4]. apply bind_ub in K. destruct K as [K|([[t5 s5] e5] & _ & K)].
      + apply IH in K; auto. destruct u; [now inversion HR|exact HR].
      + unfold at_close in K. destruct s5 as [|x s5]; [discriminate|]. destruct (negb (x =? RCB)); discriminate.
    - unfold at_close in K. destruct (negb (d =? RCB)); discriminate.
  Qed.
  Theorem object_dsafe (L : list (memb T)) t0 : Forall (memb_all (fun _ c => dsafe (des c))) L -> dsafe (des (object_codec mode L t0)).
  Proof.
    intros HL sn old s e Hs. cbn [des object_codec]. unfold object_des. destruct (is_null s); [destruct (parse_null s e); discriminate|].
    destruct s as [|c t]; [discriminate|]. destruct (negb (c =? LCB)).
    { destruct (c =? LBR); [|discriminate]. destruct (parse_space t e) as [s1 e1]. destruct Hs as (x & -> & Hx & _). destruct s1 as [|d t1]; cbn [deref bind].
      - destruct (x =? RBR) eqn:E; [lia|discriminate].
      - destruct (negb (d =? RBR)); discriminate. }
    destruct (parse_space t e) as [[|d t1] e1]; [discriminate|]. destruct (negb (d =? RCB)); [|discriminate].
    intros K. apply bind_ub in K. destruct K as [K|([[v s2] e2] & _ & K)]; [now apply members_safe in K|].
    destruct s2 as [|x s2]; [discriminate|]. destruct (parse_space (x :: s2) e2) as [[|f t3] e3]; [discriminate|]. destruct (negb (f =? RCB)); discriminate.
  Qed.
End MemLaw.

(** ---- matching names ---- *)
Definition quoted_name (nm x : buf) : buf := QT :: nm ++ QT :: x.
Lemma name_loop_hit nm : plain_name nm -> forall x, name_loop nm (nm ++ QT :: x) = ([], QT :: x).
Proof.
  induction 1 as [|c nm (H1 & H2) _ IH]; intros x; [reflexivity|]. cbn [app name_loop].
  rewrite Z.eqb_refl. assert (c =? QT = false) as -> by lia. apply IH.
Qed.
(** in a string body a quote comes only after a backslash *)
Lemma wchars_quote nm : wchars nm -> forall p q, nm = p ++ QT :: q -> In BSL p.
Proof.
  induction 1 as [|c l Hc _ IH]; intros p q E; [destruct p; discriminate|].
  assert (Hq : In QT c -> exists a, c = BSL :: a).
  { destruct Hc as [c H H1 H2|c H|a b c d Ha Hb Hcc Hd|c n l' Hl _ Hl']; cbn; intros HI.
    - destruct HI as [HI|[]]; lia.
    - eauto.
    - eauto.
    - exfalso. destruct HI as [HI|HI]; [inversion Hl; lia|]. rewrite Forall_forall in Hl'. apply Hl' in HI. unfold s_cont in HI. lia. }
  destruct (Nat.lt_ge_cases (length p) (length c)) as [L|L].
  - assert (exists c2, c = p ++ QT :: c2) as (c2 & E2).
    { apply app_eq_app in E. destruct E as (m & [(E1 & E2)|(E1 & E2)]).
      - destruct m as [|z m]; [rewrite E1, app_length in L; cbn in L; lia|]. injection E2 as <- E2. eauto.
      - exfalso. rewrite E1, app_length in L. lia. }
    destruct (Hq ltac:(rewrite E2; apply in_elt)) as (a & Ea).
    destruct p as [|z p]; [rewrite Ea in E2; discriminate|]. rewrite Ea in E2. injection E2 as E2 _. left. exact (eq_sym E2).
  - apply app_eq_app in E. destruct E as (m & [(E1 & E2)|(E1 & E2)]).
    + rewrite E1, app_length in L. destruct m as [|z m]; [|cbn in L; lia]. cbn in E2. rewrite app_nil_r in E1. subst p.
      exfalso. specialize (IH [] q (eq_sym E2)). exact IH.
    + rewrite E1. apply in_or_app. right. exact (IH m q E2).
Qed.
Lemma name_loop_miss name : plain_name name -> forall nm x, (forall p q, nm = p ++ QT :: q -> In BSL p) -> nm <> name ->
  exists n' c t, name_loop name (nm ++ QT :: x) = (n', c :: t) /\ (c <> QT \/ n' <> []).
Proof.
  induction 1 as [|n name (H1 & H2) _ IH]; intros nm x Hq Hne.
  - destruct nm as [|c nm]; [congruence|]. cbn. exists [], c, (nm ++ QT :: x). split; [reflexivity|]. left. intros ->. exact (Hq [] nm eq_refl).
  - destruct nm as [|c nm]; cbn [app name_loop].
    + assert (QT =? n = false) as -> by lia. cbn [andb]. exists (n :: name), QT, x. split; [reflexivity|]. right; discriminate.
    + destruct ((c =? n) && negb (c =? QT)) eqn:E.
      * apply IH; [|congruence || (intros ->; apply Hne; f_equal; lia)].
        intros p q ->. specialize (Hq (c :: p) q eq_refl). destruct Hq as [Hq|Hq]; [lia|exact Hq].
      * exists (n :: name), c, (nm ++ QT :: x). split; [reflexivity|]. right; discriminate.
Qed.
Lemma unser_name_hit nm g1 g2 s u e : plain_name nm -> gap g1 -> gap g2 -> (exists h t, s = h :: t /\ vstart h) ->
  unser_name nm (quoted_name nm (g1 ++ COLON :: g2 ++ s)) u e = (s, e, true).
Proof.
  intros Hn Hg1 Hg2 (h & t & -> & Hh). unfold unser_name, quoted_name. cbn [is_string starts]. rewrite Z.eqb_refl. cbn [negb tl].
  rewrite name_loop_hit by exact Hn. cbn [orb negb]. rewrite Z.eqb_refl. cbn [negb orb].
  rewrite gap_parse_space; [|exact Hg1|apply closer_stop; unfold closer; lia]. rewrite Z.eqb_refl. cbn [negb].
  rewrite gap_parse_space; [reflexivity|exact Hg2|now apply vstart_stop].
Qed.
(** a name body: quotes only after a backslash *)
Definition qsafe (nm : buf) : Prop := forall p q, nm = p ++ QT :: q -> In BSL p.
Lemma wchars_qsafe nm : wchars nm -> qsafe nm. Proof. exact (wchars_quote nm). Qed.
Lemma plain_qsafe nm : plain_name nm -> qsafe nm.
Proof. intros H p q ->. exfalso. apply Forall_elt in H. lia. Qed.
Lemma unser_name_miss name nm x u e : plain_name name -> qsafe nm -> nm <> name ->
  unser_name name (quoted_name nm x) u e = (quoted_name nm x, e, false).
Proof.
  intros Hn Hw Hne. unfold unser_name, quoted_name. cbn [is_string starts]. rewrite Z.eqb_refl. cbn [negb tl].
  destruct (name_loop_miss name Hn nm x Hw Hne) as (n' & c & t & -> & H).
  destruct (c =? QT) eqn:E; cbn [negb orb]; [|reflexivity]. destruct n'; [lia || (destruct H; [lia|congruence])|reflexivity].
Qed.

(** ---- what one element of the list does ---- *)
Section Reads.
  Context {T : Type}.
  Definition reads_as (b : memb T) (it : item) (t t' : T) : Prop :=
    forall sn txt r u e, member_text it txt -> follow r -> no_err_yet e = true -> memb_des b sn t (txt ++ r) u e = Ok (t', true, r, e).
  Definition skips (b : memb T) (nm : buf) (t t' : T) : Prop :=
    forall sn x e, no_err_yet e = true -> memb_des b sn t (quoted_name nm x) false e = Ok (t', false, quoted_name nm x, e).
  Lemma member_text_app nm vt txt r : member_text (nm, vt) txt -> exists g1 g2, gap g1 /\ gap g2 /\
    txt ++ r = quoted_name nm (g1 ++ COLON :: g2 ++ vt ++ r).
  Proof.
    intros H. inversion H as [a b g1 g2 H1 H2 H3]; subst. exists g1, g2. split; [exact H1|]. split; [exact H2|].
    unfold quoted_name. cbn [app]. rewrite <- app_assoc. cbn [app]. rewrite <- app_assoc. cbn [app]. now rewrite <- app_assoc.
  Qed.
  Lemma rdf_head_app {A} (c : codec A) vt F r : rdf c vt F -> exists h t, vt ++ r = h :: t /\ vstart h.
  Proof. intros ((h & t & -> & H) & _). exists h, (t ++ r). now split. Qed.
  Lemma rd_head_app {A} (c : codec A) vt v r : rd c vt v -> exists h t, vt ++ r = h :: t /\ vstart h.
  Proof. intros ((h & t & -> & H) & _). exists h, (t ++ r). now split. Qed.
  Lemma mem_des_hitf (m : mem T) vt F sn t nm txt r u e : nm = m_name m -> plain_name nm -> rdf (m_codec m) vt F -> member_text (nm, vt) txt ->
    follow r -> no_err_yet e = true -> mem_des m sn t (txt ++ r) u e = Ok (m_set m t (F (m_get m t)), true, r, e).
  Proof.
    intros -> Hn Hv Ht Hr He. destruct (member_text_app _ _ _ r Ht) as (g1 & g2 & H1 & H2 & ->). unfold mem_des.
    rewrite unser_name_hit; [|assumption..|now apply (rdf_head_app _ _ F) with (1:=Hv)]. cbn [negb]. destruct Hv as (_ & Hv). now rewrite Hv.
  Qed.
  Lemma mem_des_hit (m : mem T) vt v sn t nm txt r u e : nm = m_name m -> plain_name nm -> rd (m_codec m) vt v -> member_text (nm, vt) txt ->
    follow r -> no_err_yet e = true -> mem_des m sn t (txt ++ r) u e = Ok (m_set m t v, true, r, e).
  Proof. intros H1 H2 H3. exact (mem_des_hitf m vt (fun _ => v) sn t nm txt r u e H1 H2 H3). Qed.
  Lemma ref_reads (m : mem T) vt F t : plain_name (m_name m) -> rdf (m_codec m) vt F -> reads_as (MRef m) (m_name m, vt) t (m_set m t (F (m_get m t))).
  Proof. intros Hn Hv sn txt r u e Ht Hr He. cbn [memb_des]. now apply (mem_des_hitf m vt F) with (nm := m_name m). Qed.
  Lemma prop_reads (m : mem T) i vt F t : plain_name (m_name m) -> rdf (m_codec m) vt F -> reads_as (MProp m i) (m_name m, vt) t (m_set m t (F i)).
  Proof.
    intros Hn Hv sn txt r u e Ht Hr He. cbn [memb_des]. destruct (member_text_app _ _ _ r Ht) as (g1 & g2 & H1 & H2 & ->). unfold mem_p_des.
    rewrite unser_name_hit; [|assumption..|now apply (rdf_head_app _ _ F) with (1:=Hv)]. cbn [negb]. destruct Hv as (_ & Hv). now rewrite Hv.
  Qed.
  Lemma mem_des_miss (m : mem T) nm x sn t u e : plain_name (m_name m) -> qsafe nm -> nm <> m_name m ->
    mem_des m sn t (quoted_name nm x) u e = Ok (t, false, quoted_name nm x, e).
  Proof. intros. unfold mem_des. now rewrite unser_name_miss. Qed.
  Lemma noif_skips (b : memb T) nm t : no_if b -> plain_name (memb_name b) -> qsafe nm -> nm <> memb_name b -> skips b nm t t.
  Proof.
    intros Hb Hn Hw Hne sn x e He. destruct b as [m|m i|ru l r d]; cbn [memb_des no_if memb_name memb_mem] in *; [now apply mem_des_miss| |contradiction].
    unfold mem_p_des. now rewrite unser_name_miss.
  Qed.
  Lemma noif_reads (b : memb T) vt F t : no_if b -> plain_name (memb_name b) -> rdf (m_codec (memb_mem b)) vt F ->
    reads_as b (memb_name b, vt) t (m_set (memb_mem b) t (F (memb_old b t))).
  Proof. destruct b as [m|m i|ru l r d]; cbn; intros Hb Hn Hv; [now apply ref_reads|now apply prop_reads|contradiction]. Qed.
  Lemma noif_reads1 (b : memb T) vt v t : no_if b -> plain_name (memb_name b) -> rd (m_codec (memb_mem b)) vt v ->
    reads_as b (memb_name b, vt) t (m_set (memb_mem b) t v).
  Proof. intros H1 H2 H3. exact (noif_reads b vt (fun _ => v) t H1 H2 H3). Qed.

  (** member_if *)
  Lemma reset_ok (m : mem T) t (d : m_ty m) : null_reads (m_codec m) (fun _ => d) -> mem_reset m t = Ok (m_set m t d).
  Proof. intros H. unfold mem_reset. specialize (H (Some 0) (m_get m t) [] None). rewrite app_nil_r in H. now rewrite H. Qed.
  Lemma if_skips ru (l r : mem T) (d : m_ty l -> bool) (nm : buf) (t : T) (dl : m_ty l) (dr : m_ty r) : plain_name (m_name l) -> plain_name (m_name r) -> qsafe nm -> nm <> m_name l -> nm <> m_name r ->
    null_reads (m_codec l) (fun _ => dl) -> null_reads (m_codec r) (fun _ => dr) ->
    skips (MIf ru l r d) nm t (if ru then m_set l t dl else m_set r t dr).
  Proof.
    intros Hl Hr Hw H1 H2 Nl Nr sn x e He. cbn [memb_des]. destruct ru; rewrite mem_des_miss by assumption; cbn [bind no_err_yet is_err code no_error negb].
    - now rewrite (reset_ok l t dl).
    - now rewrite (reset_ok r t dr).
  Qed.
  (** first alternative accepted *)
  Lemma if_reads_first (ru : bool) (l r : mem T) (d : m_ty l -> bool) (vt : buf) (t : T) (f := if ru then r else l) (g := if ru then l else r) (v : m_ty f) (dg : m_ty g) :
    plain_name (m_name f) -> rd (m_codec f) vt v -> null_reads (m_codec g) (fun _ => dg) ->
    reads_as (MIf ru l r d) (m_name f, vt) t (m_set g (m_set f t v) dg).
  Proof.
    intros Hn Hv Ng sn txt r0 u e Ht Hr He. cbn [memb_des]. fold f g. rewrite (mem_des_hit f vt v) with (nm := m_name f); auto.
    cbn [bind no_err_yet is_err code no_error negb]. now rewrite (reset_ok g _ dg).
  Qed.
  (** first alternative rejects *)
  Lemma if_reads_second (ru : bool) (l r : mem T) (d : m_ty l -> bool) (vt : buf) (t : T) (f := if ru then r else l) (g := if ru then l else r) (v : m_ty g) (df : m_ty f) :
    m_name f = m_name g -> plain_name (m_name g) -> rejects (m_codec f) vt -> rd (m_codec g) vt v ->
    null_reads (m_codec f) (fun _ => df) -> set_set f ->
    reads_as (MIf ru l r d) (m_name g, vt) t (m_set g (m_set f t df) v).
  Proof.
    intros En Hn Hf Hv Nf Hs sn txt r0 u e Ht Hr He. cbn [memb_des]. fold f g.
    assert (exists x r' j, mem_des f sn t (txt ++ r0) u (Some no_error) = Ok (m_set f t x, true, r', Some j) /\ is_err j = true) as (x & r' & j & E & Ej).
    { destruct (member_text_app _ _ _ r0 Ht) as (g1 & g2 & H1 & H2 & ->). unfold mem_des. rewrite En.
      rewrite unser_name_hit; [|assumption..|now apply (rd_head_app _ _ v) with (1:=Hv)]. cbn [negb].
      destruct (Hf sn (m_get f t) r0 Hr) as (x & r' & j & -> & Ej). cbn [bind]. eauto. }
    rewrite E. cbn [bind no_err_yet]. rewrite Ej. cbn [negb]. rewrite (reset_ok f _ df Nf). cbn [bind]. rewrite Hs.
    now apply (mem_des_hit g vt v) with (nm := m_name g).
  Qed.
End Reads.

(** ---- reading a whole object ---- *)
Definition item_wf (it : item) : Prop := wchars (fst it) /\ wvalue (snd it).
Lemma member_wf it txt : item_wf it -> member_text it txt -> exists k g2 g3, wstring k /\ gap g2 /\ gap g3 /\ txt = k ++ g2 ++ COLON :: g3 ++ snd it.
Proof.
  intros (Hn & Hv) H. destruct H as [nm vt g1 g2 H1 H2]. cbn [fst snd] in *. exists (QT :: nm ++ [QT]), g1, g2. split; [now constructor|].
  split; [exact H1|]. split; [exact H2|]. cbn [app]. now rewrite <- app_assoc.
Qed.
Lemma parse_member_app sn it txt r e : item_wf it -> member_text it txt -> follow r -> parse_member (parse_value sn) (txt ++ r) e = Ok (r, e).
Proof.
  intros Hw Ht Hr. destruct (member_wf it txt Hw Ht) as (k & g2 & g3 & Hk & H2 & H3 & ->). destruct Hw as (_ & Hv).
  replace ((k ++ g2 ++ COLON :: g3 ++ snd it) ++ r) with (k ++ g2 ++ COLON :: g3 ++ snd it ++ r)
    by (repeat (rewrite <- ?app_assoc; cbn [app]); reflexivity).
  apply member_app; auto; [now apply wvalue_head|]. change (parse sn (snd it ++ r) e = Ok (r, e)). apply parse_complete.
  split; [exact Hv|]. intros _. now apply follow_num_stop.
Qed.
Lemma member_text_head it txt : member_text it txt -> exists x, txt = QT :: x.
Proof. intros [nm vt g1 g2 _ _]. eauto. Qed.
Lemma qt_vstart : vstart QT. Proof. unfold vstart; lia. Qed.

Section ORead.
  Context {T : Type} (mode : omode) (L : list (memb T)).
  Inductive osearch : list (memb T) -> T -> item -> T -> Prop :=
  | os_hit b R t it t' : reads_as b it t t' -> osearch (b :: R) t it t'
  | os_miss b R t t1 it t' : skips b (fst it) t t1 -> osearch R t1 it t' -> osearch (b :: R) t it t'
  | os_none t it : mode = Nonstrict -> item_wf it -> osearch [] t it t.
  Inductive oread : list (memb T) -> T -> list item -> T -> Prop :=
  | or_nil R t : oread R t [] t
  | or_hit b R t it t1 its t' : reads_as b it t t1 -> oread R t1 its t' -> oread (b :: R) t (it :: its) t'
  | or_miss b R t it t1 t2 its t' : skips b (fst it) t t1 -> osearch L t1 it t2 -> oread (b :: R) t2 its t' -> oread (b :: R) t (it :: its) t'
  | or_rest t its : mode = Nonstrict -> Forall item_wf its -> oread [] t its t.

  Lemma osearch_run sn R t it t' : osearch R t it t' -> forall txt g c r e, member_text it txt -> gap g -> closer c -> no_err_yet e = true ->
    exists g', gap g' /\ search_members mode sn R t (txt ++ g ++ c :: r) e = Ok (t', g' ++ c :: r, e).
  Proof.
    induction 1 as [b R t it t' H|b R t t1 it t' H _ IH|t it Hm Hw]; intros txt g c r e Ht Hg Hc He; cbn [search_members].
    - exists g. split; [exact Hg|]. rewrite H; auto. now apply gap_follow.
    - destruct it as [nm vt]. destruct (member_text_app nm vt txt (g ++ c :: r) Ht) as (g1 & g2 & H1 & H2 & E).
      destruct (IH _ g c r e Ht Hg Hc He) as (g' & Hg' & IH'). exists g'. split; [exact Hg'|].
      rewrite E in *. rewrite H by exact He. cbn [bind negb]. exact IH'.
    - exists []. split; [constructor|]. unfold search_end. rewrite Hm. rewrite (parse_member_app _ it); auto; [|now apply gap_follow].
      cbn [bind]. rewrite gap_parse_space; [reflexivity|exact Hg|now apply closer_stop].
  Qed.

  Lemma rest_loop_run sn ts b : ebody false ts b -> exists g b', b = g ++ b' /\ gap g /\
    forall its, Forall2 member_text its ts -> Forall item_wf its -> mode = Nonstrict -> (exists x, b' = QT :: x) /\
    forall n r e, (length (b' ++ RCB :: r) < n)%nat -> no_err_yet e = true -> rest_loop mode sn n (b' ++ RCB :: r) e = Ok (RCB :: r, e).
  Proof.
    induction 1 as [g1 t g2 H1 H2|g1 t g2 g3 F|g1 t g2 ts b H1 H2 HE IH]; [|discriminate|].
    - exists g1, (t ++ g2). split; [reflexivity|]. split; [exact H1|]. intros its Ht Hw Hm.
      inversion Ht as [|it ? its' ? Hit Hn E1]; subst. inversion Hn; subst. inversion Hw; subst.
      destruct (member_text_head _ _ Hit) as (x & Ex). split; [exists (x ++ g2); now rewrite Ex|].
      intros n r e Hl He. destruct n as [|n]; [lia|]. cbn [rest_loop]. rewrite <- app_assoc, (parse_member_app _ it); auto; [|apply gap_follow; auto using rcstop].
      cbn [bind]. rewrite gap_parse_space; [|exact H2|apply closer_stop, rcstop]. now rewrite Z.eqb_refl.
    - destruct IH as (g & b' & -> & Hg & IH). exists g1, (t ++ g2 ++ COMMA :: g ++ b'). split; [reflexivity|]. split; [exact H1|].
      intros its Ht Hw Hm. inversion Ht as [|it ? its' ? Hit Hn E1]; subst. inversion Hw; subst. destruct (IH its' Hn ltac:(assumption) eq_refl) as ((y & Ey) & IH').
      destruct (member_text_head _ _ Hit) as (x & Ex). split; [exists (x ++ g2 ++ COMMA :: g ++ b'); now rewrite Ex|].
      intros n r e Hl He. destruct n as [|n]; [lia|]. cbn [rest_loop].
      replace ((t ++ g2 ++ COMMA :: g ++ b') ++ RCB :: r) with (t ++ g2 ++ COMMA :: g ++ b' ++ RCB :: r) in *
        by (repeat (rewrite <- ?app_assoc; cbn [app]); reflexivity).
      rewrite (parse_member_app _ it); auto; [|apply gap_follow; auto using cstop].
      cbn [bind]. rewrite gap_parse_space; [|exact H2|apply closer_stop, cstop]. change (COMMA =? RCB) with false. change (COMMA =? COMMA) with true. cbn [negb].
      rewrite gap_parse_space; [|exact Hg|rewrite Ey; apply vstart_stop, qt_vstart].
      apply IH'; [|exact He]. rewrite !app_length in *. cbn [length] in *. rewrite !app_length in *. cbn [length] in *. lia.
  Qed.

  Lemma at_close_ok (t : T) r e : at_close t (RCB :: r) e = Ok (t, RCB :: r, e). Proof. reflexivity. Qed.
  Lemma members_run sn ts b : ebody false ts b -> exists g b', b = g ++ b' /\ gap g /\ 
    forall its, Forall2 member_text its ts -> (exists x, b' = QT :: x) /\
    forall R t t' n r e, oread R t its t' -> (length (b' ++ RCB :: r) < n)%nat -> no_err_yet e = true ->
    members_loop mode sn L n R t (b' ++ RCB :: r) e = Ok (t', RCB :: r, e).
  Proof.
    induction 1 as [g1 t g2 H1 H2|g1 t g2 g3 F|g1 t g2 ts b H1 H2 HE IH]; [|discriminate|].
    - exists g1, (t ++ g2). split; [reflexivity|]. split; [exact H1|]. intros its Ht.
      inversion Ht as [|it ? its' ? Hit Hn E1]; subst. inversion Hn; subst.
      pose proof (member_text_head _ _ Hit) as Hx. split; [destruct Hx as (x & ->); exists (x ++ g2); reflexivity|].
      intros R t0 t' n r e Ho Hl He. destruct n as [|n]; [lia|]. cbn [members_loop].
      inversion Ho as [|b R' ? ? t1 ? ? Hr Ho'|b R' ? ? t1 t2 ? ? Hs Hos Ho'|? ? Hm Hw]; subst.
      + inversion Ho'; subst; rewrite <- app_assoc, (Hr sn t (g2 ++ RCB :: r) false e Hit (gap_follow _ _ _ H2 rcstop) He); cbn [bind negb];
        (rewrite gap_parse_space; [|exact H2|apply closer_stop, rcstop]); reflexivity.
      + inversion Ho'; subst. destruct (osearch_run sn _ _ _ _ Hos t g2 RCB r e Hit H2 rcstop He) as (g' & Hg' & E).
        rewrite <- app_assoc. destruct it as [nm vt]. destruct (member_text_app nm vt t (g2 ++ RCB :: r) Hit) as (ga & gb & Ha & Hb & Eq).
        rewrite Eq in *. rewrite Hs by exact He. cbn [bind negb fst]. rewrite E. cbn [bind].
        rewrite gap_parse_space; [|exact Hg'|apply closer_stop, rcstop]. reflexivity.
      + destruct Hx as (x & Ex). unfold rest_members. rewrite Ex. cbn [app]. rewrite space_stop by (apply vstart_stop, qt_vstart).
        change (QT =? RCB) with false. cbn [orb].
        destruct (rest_loop_run sn _ _ (eb_one false [] t g2 g_nil H2)) as (g & b' & Eb & Hg & Hr).
        destruct (Hr [it] ltac:(repeat constructor; exact Hit) Hw Hm) as ((y & Ey) & Hr').
        assert (g = []) as ->. { destruct (gap_head g Hg) as [->|(c & z & -> & Hc)]; [reflexivity|]. cbn [app] in Eb. rewrite Ex in Eb. injection Eb as Ec _. subst c. unfold s_ws in Hc. lia. }
        cbn [app] in Eb. assert (Eb' : 34 :: (x ++ g2) ++ 125 :: r = b' ++ RCB :: r) by (rewrite <- Eb, Ex; reflexivity).
        rewrite Eb'. rewrite Hr'; [reflexivity|lia|exact He].
    - destruct IH as (g & b' & -> & Hg & IH). exists g1, (t ++ g2 ++ COMMA :: g ++ b'). split; [reflexivity|]. split; [exact H1|].
      intros its Ht. inversion Ht as [|it ? its' ? Hit Hn E1]; subst. destruct (IH its' Hn) as (Hy & IH').
      pose proof (member_text_head _ _ Hit) as Hx. split; [destruct Hx as (x & ->); exists (x ++ g2 ++ COMMA :: g ++ b'); reflexivity|].
      intros R t0 t' n r e Ho Hl He. destruct n as [|n]; [lia|]. cbn [members_loop].
      assert (Es : (t ++ g2 ++ COMMA :: g ++ b') ++ RCB :: r = t ++ g2 ++ COMMA :: g ++ b' ++ RCB :: r)
        by (repeat (rewrite <- ?app_assoc; cbn [app]); reflexivity).
      assert (Hl' : (length (b' ++ RCB :: r) < n)%nat).
      { rewrite Es in Hl. rewrite !app_length in *. cbn [length] in *. rewrite !app_length in *. cbn [length] in *. lia. }
      assert (Hst : stop (b' ++ RCB :: r)) by (destruct Hy as (y & ->); apply vstart_stop, qt_vstart).
      inversion Ho as [|b R' ? ? t1 ? ? Hr Ho'|b R' ? ? t1 t2 ? ? Hs Hos Ho'|? ? Hm Hw]; subst R.
      + subst. rewrite Es. rewrite (Hr sn t _ false e Hit (gap_follow _ _ _ H2 cstop) He); cbn [bind negb].
        rewrite gap_parse_space; [|exact H2|apply closer_stop, cstop]. change (COMMA =? COMMA) with true. cbv iota.
        rewrite gap_parse_space; [|exact Hg|exact Hst]. rewrite (IH' _ _ _ _ _ _ Ho' Hl' He). reflexivity.
      + subst. rewrite Es. destruct (osearch_run sn _ _ _ _ Hos t g2 COMMA (g ++ b' ++ RCB :: r) e Hit H2 cstop He) as (g' & Hg' & E).
        destruct it as [nm vt]. destruct (member_text_app nm vt t (g2 ++ COMMA :: g ++ b' ++ RCB :: r) Hit) as (ga & gb & Ha & Hb & Eq).
        rewrite Eq in *. rewrite Hs by exact He. cbn [bind negb fst]. rewrite E. cbn [bind].
        rewrite gap_parse_space; [|exact Hg'|apply closer_stop, cstop]. change (COMMA =? COMMA) with true. cbv iota.
        rewrite gap_parse_space; [|exact Hg|exact Hst]. rewrite (IH' _ _ _ _ _ _ Ho' Hl' He). reflexivity.
      + subst. destruct Hx as (x & Ex). unfold rest_members.
        destruct (rest_loop_run sn _ _ (eb_more false [] t g2 _ _ g_nil H2 HE)) as (g0 & b0 & Eb & Hg0 & Hrr).
        destruct (Hrr (it :: its') Ht Hw Hm) as ((z & Ez) & Hr').
        assert (g0 = []) as ->. { destruct (gap_head g0 Hg0) as [->|(c & z' & -> & Hc)]; [reflexivity|]. cbn [app] in Eb. rewrite Ex in Eb. injection Eb as Ec _. subst c. unfold s_ws in Hc. lia. }
        cbn [app] in Eb. rewrite Eb, Ez. cbn [app]. rewrite space_stop by (apply vstart_stop, qt_vstart). change (QT =? RCB) with false. cbv iota.
        change (QT :: z ++ RCB :: r) with ((QT :: z) ++ RCB :: r). rewrite <- Ez. rewrite Hr'; [reflexivity|lia|exact He].
  Qed.

  Theorem object_run t0 its txt t t' : object_text its txt -> oread L t its t' -> (its = [] -> t = t') ->
    forall sn r e, no_err_yet e = true -> des (object_codec mode L t0) sn t (txt ++ r) e = Ok (t', r, e).
  Proof.
    intros [ts b Hts Hsp] Ho H0 sn r e He. cbn [des object_codec]. unfold object_des.
    cbn [app]. change (is_null (LCB :: (b ++ [RCB]) ++ r)) with false. change (LCB =? LCB) with true. cbv iota. cbn [negb].
    replace ((b ++ [RCB]) ++ r) with (b ++ RCB :: r) by (now rewrite <- app_assoc).
    destruct Hsp as [g Hg|ts b Hb].
    - inversion Hts; subst. rewrite gap_parse_space; [|exact Hg|apply closer_stop, rcstop]. change (RCB =? RCB) with true. cbn [negb]. now rewrite H0.
    - destruct (members_run sn ts b Hb) as (g & b' & -> & Hg & H). destruct (H its Hts) as ((x & Ex) & H'). rewrite <- app_assoc.
      rewrite gap_parse_space; [|exact Hg|rewrite Ex; apply vstart_stop, qt_vstart]. rewrite Ex. cbn [app]. change (QT =? RCB) with false. cbn [negb].
      change (QT :: x ++ RCB :: r) with ((QT :: x) ++ RCB :: r). rewrite <- Ex. rewrite (H' _ _ _ _ _ _ Ho); [|lia|exact He]. cbn [bind].
      rewrite space_stop by (apply closer_stop, rcstop). reflexivity.
  Qed.
End ORead.

(** ---- objects without member_if ---- *)
Lemma known_in {T} (L : list (memb T)) it : known L it = true <-> In (fst it) (names L).
Proof.
  unfold known. rewrite existsb_exists. split.
  - intros (n & H & E). destruct (name_dec n (fst it)) as [<-|]; [exact H|discriminate].
  - intros H. exists (fst it). split; [exact H|]. now destruct (name_dec (fst it) (fst it)).
Qed.
Section Sem.
  Context {T : Type} (mode : omode) (L : list (memb T)).
  Hypothesis HL : names_ok L.
  Hypothesis Hif : Forall no_if L.

  Lemma name_plain b : In b L -> plain_name (memb_name b).
  Proof. intros H. destruct HL as (_ & H2). unfold names in H2. rewrite Forall_map, Forall_forall in H2. now apply H2. Qed.
  Lemma noif_in b : In b L -> no_if b.
  Proof. intros H. pose proof Hif as H2. rewrite Forall_forall in H2. now apply H2. Qed.
  Lemma NoDup_map_inj {A B} (f : A -> B) l : NoDup (map f l) -> forall x y, In x l -> In y l -> f x = f y -> x = y.
  Proof.
    induction l as [|a l IH]; intros H x y Hx Hy E; [contradiction|]. inversion H as [|? ? Hn Hd]; subst.
    destruct Hx as [->|Hx], Hy as [->|Hy]; [reflexivity| | |now apply IH].
    - exfalso. apply Hn. rewrite E. now apply in_map.
    - exfalso. apply Hn. rewrite <- E. now apply in_map.
  Qed.
  Lemma same_name a b : In a L -> In b L -> memb_name a = memb_name b -> a = b.
  Proof. apply NoDup_map_inj. apply HL. Qed.
  Lemma sem_qsafe it f : item_sem mode L it f -> qsafe (fst it).
  Proof. intros [b vt v H _|nm vt _ _ H _]; cbn; [now apply plain_qsafe, name_plain|now apply wchars_qsafe]. Qed.

  Lemma search_sem it f t : item_sem mode L it f -> osearch mode L t it (f t).
  Proof.
    intros H. assert (G : forall R, incl R L -> (In (fst it) (names L) -> In (fst it) (names R)) -> osearch mode R t it (f t)).
    { induction R as [|b R IH]; intros Hi Hn.
      - destruct H as [b vt v Hb _|nm vt Hm Hnn Hw Hv].
        + exfalso. apply Hn. cbn. now apply in_map.
        + constructor; [exact Hm|now split].
      - destruct (name_dec (fst it) (memb_name b)) as [E|E].
        + constructor. destruct H as [c vt v Hc Hv|nm vt Hm Hnn Hw Hv].
          * cbn [fst] in E. apply same_name in E; [|exact Hc|apply Hi; now left]. subst c. apply noif_reads; [apply noif_in|apply name_plain|]; assumption.
          * exfalso. apply Hnn. cbn in E. rewrite E. apply in_map, Hi. now left.
        + apply os_miss with t.
          * apply noif_skips; [apply noif_in, Hi; now left|apply name_plain, Hi; now left|now apply sem_qsafe with f|exact E].
          * apply IH; [intros x Hx; apply Hi; now right|]. intros K. destruct (Hn K) as [K2|K2]; [congruence|exact K2]. }
    apply G; [apply incl_refl|auto].
  Qed.

  Section Inv.
    Variable Inv : list (memb T) -> list item -> Prop.
    Hypothesis Ihit : forall b R vt its, Inv (b :: R) ((memb_name b, vt) :: its) -> Inv R its.
    Hypothesis Imiss : forall b R nm vt its, nm <> memb_name b -> Inv (b :: R) ((nm, vt) :: its) -> Inv (b :: R) its.
    Hypothesis Iend : forall its, Inv [] its -> Forall (fun it => ~ In (fst it) (names L)) its.
    Lemma sem_oread its fs : Forall2 (item_sem mode L) its fs -> forall R t, incl R L -> Inv R its -> oread mode L R t its (run_all fs t).
    Proof.
      induction 1 as [|it f its fs Hf Hfs IH]; intros R t Hi HI; [constructor|]. destruct R as [|b R].
      - assert (G : forall its fs, Forall2 (item_sem mode L) its fs -> Forall (fun it => ~ In (fst it) (names L)) its ->
            (its = [] \/ mode = Nonstrict) /\ Forall item_wf its /\ forall t, run_all fs t = t).
        { clear. induction 1 as [|it f its fs Hf _ IH]; intros Hn; [repeat split; auto|]. inversion Hn as [|? ? H1 H2]; subst.
          destruct (IH H2) as (_ & I2 & I3). destruct Hf as [b vt v Hb _|nm vt Hm Hnn Hw Hv].
          - exfalso. apply H1. cbn. now apply in_map.
          - split; [now right|]. split; [constructor; [now split|exact I2]|]. intros t. cbn. apply I3. }
        destruct (G _ _ (Forall2_cons _ _ Hf Hfs) (Iend _ HI)) as (G1 & G2 & G3). rewrite G3. apply or_rest; [|exact G2].
        destruct G1; [discriminate|assumption].
      - assert (Hb : In b L) by (apply Hi; now left). destruct (name_dec (fst it) (memb_name b)) as [E|E].
        + apply or_hit with (f t).
          * destruct Hf as [c vt v Hc Hv|nm vt Hm Hnn Hw Hv].
            -- cbn [fst] in E. apply same_name in E; [|exact Hc|exact Hb]. subst c. apply noif_reads; [apply noif_in|apply name_plain|]; assumption.
            -- exfalso. apply Hnn. cbn in E. rewrite E. now apply in_map.
          * apply (IH R (f t)); [intros x Hx; apply Hi; now right|]. destruct it as [nm vt]. cbn in E. subst nm. eapply Ihit; exact HI.
        + apply or_miss with t (f t).
          * apply noif_skips; [now apply noif_in|now apply name_plain|now apply sem_qsafe with f|exact E].
          * now apply search_sem.
          * apply (IH (b :: R) (f t)); [exact Hi|]. destruct it as [nm vt]. eapply Imiss; [exact E|exact HI].
    Qed.
  End Inv.

  (** distinct keys: the dropped part of the list no longer occurs *)
  Lemma once_tail it its : once L (it :: its) -> once L its /\ (In (fst it) (names L) -> ~ In (fst it) (map fst its)).
  Proof.
    unfold once. cbn [filter]. destruct (known L it) eqn:E.
    - cbn [map]. intros H. inversion H as [|? ? Hn Hd]; subst. split; [exact Hd|]. intros Hk K. apply Hn. apply in_map_iff in K.
      destruct K as (x & E2 & Hx). rewrite <- E2. apply in_map. apply filter_In. split; [exact Hx|]. apply known_in. now rewrite E2.
    - intros H. split; [exact H|]. intros Hk. apply known_in in Hk. congruence.
  Qed.
  Lemma NoDup_once its : NoDup (map fst its) -> once L its.
  Proof.
    unfold once. induction its as [|it its IH]; intros H; [constructor|]. cbn in H. inversion H as [|? ? Hn Hd]; subst. cbn [filter].
    destruct (known L it); [|now apply IH]. cbn. constructor; [|now apply IH]. intros K. apply Hn. apply in_map_iff in K. destruct K as (x & E & Hx).
    apply filter_In in Hx. rewrite <- E. now apply in_map.
  Qed.
  Lemma sem_distinct its fs t : once L its -> Forall2 (item_sem mode L) its fs -> oread mode L L t its (run_all fs t).
  Proof.
    intros Hd Hf. pose (Inv := fun (R : list (memb T)) (its : list item) => once L its /\
      exists D, L = D ++ R /\ forall b, In b D -> ~ In (memb_name b) (map fst its)).
    apply (sem_oread Inv).
    - intros b R vt its0 (H1 & D & E & H2). apply once_tail in H1. destruct H1 as (H1 & H3). split; [exact H1|].
      exists (D ++ [b]). split; [now rewrite <- app_assoc|]. intros c Hc. apply in_app_or in Hc. destruct Hc as [Hc|[->|[]]].
      + specialize (H2 c Hc). cbn in H2. tauto.
      + apply H3. cbn [fst]. apply in_map. rewrite E. apply in_or_app. right. now left.
    - intros b R nm vt its0 _ (H1 & D & E & H2). apply once_tail in H1. destruct H1 as (H1 & _). split; [exact H1|].
      exists D. split; [exact E|]. intros c Hc. specialize (H2 c Hc). cbn in H2. tauto.
    - intros its0 (_ & D & E & H2). apply Forall_forall. intros it Hit K. rewrite app_nil_r in E. unfold names in K. apply in_map_iff in K.
      destruct K as (b & E2 & Hb). rewrite E in Hb. apply (H2 b Hb). rewrite E2. now apply in_map.
    - exact Hf.
    - apply incl_refl.
    - split; [exact Hd|]. exists []. split; [reflexivity|]. intros b [].
  Qed.
  (** some listed member does not occur *)
  Lemma sem_absent its fs t : (exists b, In b L /\ ~ In (memb_name b) (map fst its)) -> Forall2 (item_sem mode L) its fs -> oread mode L L t its (run_all fs t).
  Proof.
    intros Hd Hf. pose (Inv := fun (R : list (memb T)) (its : list item) => exists b, In b R /\ ~ In (memb_name b) (map fst its)).
    apply (sem_oread Inv).
    - intros b R vt its0 (c & H1 & H2). cbn in H2. exists c. split; [|tauto]. destruct H1 as [->|H1]; [exfalso; tauto|exact H1].
    - intros b R nm vt its0 _ (c & H1 & H2). exists c. cbn in H2. tauto.
    - intros its0 (c & [] & _).
    - exact Hf.
    - apply incl_refl.
    - exact Hd.
  Qed.

  Theorem object_reads t0 its fs txt : once L its \/ (exists b, In b L /\ ~ In (memb_name b) (map fst its)) ->
    Forall2 (item_sem mode L) its fs -> object_text its txt ->
    forall sn old r e, no_err_yet e = true -> des (object_codec mode L t0) sn old (txt ++ r) e = Ok (run_all fs old, r, e).
  Proof.
    intros Hd Hf Ht sn old r e He. apply object_run with (its := its); auto.
    - destruct Hd as [Hd|Hd]; [now apply sem_distinct|now apply sem_absent].
    - intros ->. inversion Hf. reflexivity.
  Qed.
End Sem.

(** commuting effects *)
Lemma filter_perm {A} (p : A -> bool) l l' : Permutation l l' -> Permutation (filter p l) (filter p l').
Proof.
  induction 1 as [|x l l' H IH|x y l|l l' l'' H1 IH1 H2 IH2]; cbn; [constructor| | |now apply perm_trans with (filter p l')].
  - destruct (p x); [now constructor|exact IH].
  - destruct (p x), (p y); try constructor; apply Permutation_refl.
Qed.
Lemma once_perm {T} (L : list (memb T)) l l' : Permutation l l' -> once L l -> once L l'.
Proof. intros HP H. eapply Permutation_NoDup; [|exact H]. apply Permutation_map. now apply filter_perm. Qed.
Lemma indep_old {T} (L : list (memb T)) : indep L -> forall a b, In a L -> In b L -> memb_name a <> memb_name b ->
  forall t y, memb_old a (m_set (memb_mem b) t y) = memb_old a t.
Proof.
  intros H a b Ha Hb Hn t y. assert (G : forall x, m_get (memb_mem a) (m_set (memb_mem b) t y) = m_get (memb_mem a) t) by (intros x; now apply (H a b Ha Hb Hn t x y)).
  destruct a as [m|m i|ru l r d]; cbn [memb_old memb_mem] in *; [apply G, (m_get m t)|reflexivity|apply G, (m_get l t)].
Qed.
Lemma run_perm {T} (L : list (memb T)) mode l1 l2 : indep L -> Permutation l1 l2 ->
  Forall (fun p => item_sem mode L (fst p) (snd p)) l1 -> once L (map fst l1) ->
  forall t, run_all (map snd l1) t = run_all (map snd l2) t.
Proof.
  intros HI HP. induction HP as [|x l1 l2 HP IH|x y l|l1 l2 l3 H1 IH1 H2 IH2]; intros Hf Hd t.
  - reflexivity.
  - cbn. inversion Hf; subst. cbn [map] in Hd. apply once_tail in Hd. now apply IH.
  - cbn. f_equal. inversion Hf as [|? ? Hy Hf']; subst. inversion Hf' as [|? ? Hx _]; subst. cbn [map] in Hd. apply once_tail in Hd. destruct Hd as (_ & Hd).
    destruct x as [itx fx], y as [ity fy]. cbn [fst snd] in *.
    destruct Hx as [a vt v Ha Hv|nm vt Hm Hnn Hw Hv]; destruct Hy as [a' vt' v' Ha' Hv'|nm' vt' Hm' Hnn' Hw' Hv']; try reflexivity.
    assert (En : memb_name a <> memb_name a') by (intros E; apply Hd; [cbn [fst]; now apply in_map|cbn; now left]).
    assert (En' : memb_name a' <> memb_name a) by (intros E; now apply En).
    rewrite (indep_old L HI a a' Ha Ha' En), (indep_old L HI a' a Ha' Ha En'). now apply HI.
  - rewrite IH1 by assumption. apply IH2.
    + eapply Permutation_Forall; [exact H1|exact Hf].
    + eapply once_perm; [|exact Hd]. now apply Permutation_map.
Qed.
Lemma Forall2_combine_ex {A B} (P : A -> B -> Prop) l m : Forall2 P l m -> exists z, map fst z = l /\ map snd z = m /\ Forall (fun p => P (fst p) (snd p)) z.
Proof.
  induction 1 as [|a b l m H _ (z & E1 & E2 & E3)]; [exists []; repeat split; constructor|].
  exists ((a, b) :: z). cbn. rewrite E1, E2. repeat split. now constructor.
Qed.
Lemma Forall_Forall2 {A B} (P : A -> B -> Prop) z : Forall (fun p => P (fst p) (snd p)) z -> Forall2 P (map fst z) (map snd z).
Proof. induction 1; constructor; auto. Qed.
Lemma perm_map_inv {A B} (f : A -> B) l : forall z, Permutation (map f z) l -> exists z', l = map f z' /\ Permutation z z'.
Proof. intros z H. apply Permutation_sym in H. apply Permutation_map_inv in H. destruct H as (z' & E & P). exists z'. split; [exact E|now apply Permutation_sym]. Qed.

Theorem object_any_order {T} mode (L : list (memb T)) t0 its1 its2 fs txt1 txt2 : names_ok L -> Forall no_if L -> indep L ->
  Permutation its1 its2 -> once L its1 -> Forall2 (item_sem mode L) its1 fs -> object_text its1 txt1 -> object_text its2 txt2 ->
  forall sn old r1 r2 e, no_err_yet e = true ->
    des (object_codec mode L t0) sn old (txt1 ++ r1) e = Ok (run_all fs old, r1, e) /\
    des (object_codec mode L t0) sn old (txt2 ++ r2) e = Ok (run_all fs old, r2, e).
Proof.
  intros HN Hif HI HP Hd Hf Ht1 Ht2 sn old r1 r2 e He. split; [eapply object_reads; eauto|].
  destruct (Forall2_combine_ex _ _ _ Hf) as (z & E1 & E2 & E3). subst its1 fs. destruct (perm_map_inv fst _ z HP) as (z' & -> & P).
  rewrite (run_perm L mode z z' HI P E3 Hd).
  eapply object_reads; [exact HN|exact Hif| | |exact Ht2|exact He].
  - left. now apply once_perm with (map fst z).
  - apply Forall_Forall2. eapply Permutation_Forall; eassumption.
Qed.

(** untouched observations *)
Lemma run_obs {T X} mode (L : list (memb T)) (obs : T -> X) its fs : Forall2 (item_sem mode L) its fs ->
  (forall b, In b L -> In (memb_name b) (map fst its) -> forall t x, obs (m_set (memb_mem b) t x) = obs t) -> forall t, obs (run_all fs t) = obs t.
Proof.
  induction 1 as [|it f its fs Hf _ IH]; intros Ho t; [reflexivity|]. change (run_all (f :: fs) t) with (run_all fs (f t)). rewrite IH.
  - destruct Hf as [b vt v Hb Hv|nm vt Hm Hn Hw Hv]; [|reflexivity]. apply Ho; [exact Hb|now left].
  - intros b Hb Hn. apply Ho; [exact Hb|now right].
Qed.

(** the field of a member that occurs once *)
Lemma member_result {T} mode (L : list (memb T)) t0 (b : memb T) vt F pre post fs fs' txt : names_ok L -> Forall no_if L ->
  In b L -> rdf (m_codec (memb_mem b)) vt F ->
  (forall t x, m_get (memb_mem b) (m_set (memb_mem b) t x) = x) ->
  (forall c, In c L -> memb_name c <> memb_name b -> forall t x, m_get (memb_mem b) (m_set (memb_mem c) t x) = m_get (memb_mem b) t) ->
  Forall2 (item_sem mode L) pre fs -> Forall2 (item_sem mode L) post fs' -> once L (pre ++ (memb_name b, vt) :: post) ->
  object_text (pre ++ (memb_name b, vt) :: post) txt -> forall sn old r e, no_err_yet e = true ->
  exists v, des (object_codec mode L t0) sn old (txt ++ r) e = Ok (v, r, e) /\ m_get (memb_mem b) v = F (memb_old b old).
Proof.
  intros HN Hif Hb Hv Hgs Hgo Hp Hq Hd Ht sn old r e He.
  exists (run_all (fs ++ (fun t => m_set (memb_mem b) t (F (memb_old b t))) :: fs') old). split.
  - eapply object_reads with (its := pre ++ (memb_name b, vt) :: post); eauto. apply Forall2_app; [exact Hp|]. constructor; [now apply is_known|exact Hq].
  - assert (Hk : known L (memb_name b, vt) = true) by (apply known_in; cbn; now apply in_map).
    assert (Hn : ~ In (memb_name b) (map fst pre) /\ ~ In (memb_name b) (map fst post)).
    { unfold once in Hd. rewrite filter_app in Hd. cbn [filter] in Hd. rewrite Hk in Hd. rewrite map_app in Hd. cbn [map fst] in Hd.
      apply NoDup_remove_2 in Hd. assert (G : forall l, In (memb_name b) (map fst l) -> In (memb_name b) (map fst (filter (known L) l))).
      { intros l K. apply in_map_iff in K. destruct K as (x & E & Hx). rewrite <- E. apply in_map. apply filter_In. split; [exact Hx|]. apply known_in. rewrite E. now apply in_map. }
      split; intros K; apply Hd, in_or_app; [left|right]; now apply G. }
    destruct Hn as (Hn1 & Hn2). unfold run_all. rewrite fold_left_app. cbn [fold_left]. fold (run_all fs' (m_set (memb_mem b) (fold_left (fun t f => f t) fs old) (F (memb_old b (fold_left (fun t f => f t) fs old))))).
    rewrite (run_obs mode L (m_get (memb_mem b)) post fs' Hq) by (intros c Hc Hi; apply Hgo; [exact Hc|intros E; rewrite E in Hi; contradiction]).
    rewrite Hgs. f_equal. apply (run_obs mode L (memb_old b) pre fs Hp). intros c Hc Hi t x.
    assert (Hne : memb_name c <> memb_name b) by (intros E; rewrite E in Hi; contradiction). specialize (Hgo c Hc Hne t x).
    destruct b as [m|m i|ru l r' d]; cbn [memb_old memb_mem] in *; [exact Hgo|reflexivity|exact Hgo].
Qed.

(** unknown members do not matter *)
Lemma known_only {T} (L : list (memb T)) mode its fs : Forall2 (item_sem mode L) its fs ->
  exists fs', Forall2 (item_sem mode L) (filter (known L) its) fs' /\ forall t, run_all fs' t = run_all fs t.
Proof.
  induction 1 as [|it f its fs Hf _ (fs' & I1 & I2)]; [exists []; split; [constructor|reflexivity]|]. cbn [filter].
  destruct (known L it) eqn:E.
  - exists (f :: fs'). split; [now constructor|]. intros t. cbn. apply I2.
  - exists fs'. split; [exact I1|]. intros t. cbn. destruct Hf as [b vt v Hb Hv|nm vt Hm Hn Hw Hv].
    + exfalso. assert (K : In (fst (memb_name b, vt)) (names L)) by (cbn; now apply in_map). apply known_in in K. congruence.
    + apply I2.
Qed.

(** strict mode *)
(** members read so far, each followed by a comma *)
Inductive prefix_text : list item -> buf -> Prop :=
| px_nil : prefix_text [] []
| px_cons it its t g1 g2 b : gap g1 -> member_text it t -> gap g2 -> prefix_text its b -> prefix_text (it :: its) (g1 ++ t ++ g2 ++ COMMA :: b).
Lemma prefix_head its b : prefix_text its b -> forall g s, gap g -> exists g' s', b ++ g ++ QT :: s = g' ++ QT :: s' /\ gap g'.
Proof.
  intros [|it its' t g1 g2 b' H1 Ht H2 Hp] g s Hg; [exists g, s; auto|]. destruct (member_text_head _ _ Ht) as (x & ->).
  exists g1. eexists. split; [|exact H1]. repeat (rewrite <- ?app_assoc; cbn [app]). reflexivity.
Qed.
Section StrictMode.
  Context {T : Type} (L : list (memb T)) (sn : option Z).
  Hypothesis HL : names_ok L.
  Hypothesis Hif : Forall no_if L.
  Hypothesis Hsn : sn <> None.
  Lemma has_err_bad e : has_err e = true -> exists j, e = Some j /\ is_err j = true.
  Proof. unfold has_err, no_err_yet. destruct e as [j|]; [|discriminate]. rewrite negb_involutive. eauto. Qed.
  Definition failed {B} (x : res (B * buf * eptr)) : Prop := exists v r j, x = Ok (v, r, Some j) /\ is_err j = true.
  Lemma cerr_bad c m t k : c <> ValidJSON -> exists j, cerr c m t (Some k) = Some j /\ is_err j = true.
  Proof. intros Hc. unfold cerr. destruct (is_err k) eqn:E; [eauto|]. eexists. split; [reflexivity|]. destruct c; congruence || reflexivity. Qed.
  Lemma space_some s k : exists r k', parse_space s (Some k) = (r, Some k').
  Proof. destruct (space_eq s) as (r & o & H & _). rewrite H. destruct o as [j|]; cbn; [destruct (is_err k)|]; eauto. Qed.
  Lemma space_bad s k : is_err k = true -> exists r, parse_space s (Some k) = (r, Some k).
  Proof. intros Hk. destruct (space_eq s) as (r & o & H & _). rewrite H. destruct o as [j|]; cbn; [rewrite Hk|]; eauto. Qed.
  Lemma rest_strict fuel : forall s k, (length s < fuel)%nat -> exists r j, rest_loop Strict sn fuel s (Some k) = Ok (r, Some j) /\ is_err j = true.
  Proof.
    induction fuel as [|n IH]; intros s k Hn; [lia|]. cbn [rest_loop].
    destruct (pmember_law sn s) as [(r & o & H & Ho & _)|(H & _)]; [|contradiction]. rewrite H. cbn [bind].
    assert (exists k1, app_err (Some k) o = Some k1) as (k1 & ->) by (destruct o as [j|]; cbn; [destruct (is_err k)|]; eauto).
    destruct (parse_space r (Some k1)) as [s2 e2] eqn:E2. destruct (space_some r k1) as (s2' & k2 & E2'). rewrite E2' in E2. injection E2 as <- <-.
    destruct (space_estep _ _ _ _ E2') as (A2 & _).
    destruct s2' as [|c t2]; [destruct (cerr_bad UnexpectedEndFragment None 0 k2) as (j & -> & Hj); [discriminate|eauto]|].
    destruct (c =? RCB); [destruct (cerr_bad InvalidMember None (dist s) k2) as (j & -> & Hj); [discriminate|eauto]|].
    destruct (negb (c =? COMMA)); [destruct (cerr_bad ExpectedOf (Some [COMMA]) (dist (c :: t2)) k2) as (j & -> & Hj); [discriminate|eauto]|].
    destruct (space_some t2 k2) as (s3 & k3 & E3). rewrite E3. apply IH. destruct (space_estep _ _ _ _ E3) as (A3 & _).
    destruct Ho as (Ho & _). apply suffix_len in Ho, A2, A3. cbn [length] in A2. lia.
  Qed.
  Lemma at_close_bad (t : T) s k : is_err k = true -> exists r, at_close t s (Some k) = Ok (t, r, Some k).
  Proof.
    intros Hk. unfold at_close. destruct s as [|c s]; [cbn; rewrite Hk; eauto|]. destruct (negb (c =? RCB)); [cbn; rewrite Hk|]; eauto.
  Qed.
  Lemma search_none nm x : ~ In nm (names L) -> qsafe nm -> forall R t k, incl R L -> is_err k = false -> exists j,
    search_members Strict sn R t (quoted_name nm x) (Some k) = Ok (t, [], Some j) /\ is_err j = true.
  Proof.
    intros Hn Hq. induction R as [|b R IH]; intros t k Hi Hk; cbn [search_members].
    - unfold search_end, quoted_name. change (QT =? RCB) with false. cbn [bind]. unfold cerr. rewrite Hk. eexists. split; reflexivity.
    - rewrite (noif_skips b nm t); [|apply (noif_in L Hif), Hi; now left|apply (name_plain L HL), Hi; now left|exact Hq| |cbn; now rewrite Hk].
      + cbn [bind negb]. apply IH; [|exact Hk]. intros y Hy; apply Hi; now right.
      + intros ->. apply Hn. apply in_map, Hi. now left.
  Qed.
  Lemma members_strict pre fs : Forall2 (item_sem Strict L) pre fs -> forall p nm x, prefix_text pre p -> ~ In nm (names L) -> qsafe nm ->
    forall g, gap g -> forall n R t k g' s', incl R L -> p ++ g ++ quoted_name nm x = g' ++ QT :: s' -> gap g' -> (length (QT :: s') < n)%nat -> is_err k = false ->
    failed (members_loop Strict sn L n R t (QT :: s') (Some k)).
  Proof.
    induction 1 as [|it f pre fs Hf Hfs IH]; intros p nm x Hp Hn Hq g Hg n R t k g' s' Hi Es Hg' Hl Hk; (destruct n as [|n]; [lia|]); cbn [members_loop].
    all: assert (He : no_err_yet (Some k) = true) by (cbn; now rewrite Hk).
    all: destruct R as [|b R];
      [unfold rest_members; rewrite space_stop by (apply vstart_stop, qt_vstart); change (QT =? RCB) with false; cbv iota;
       destruct (rest_strict (S (length (QT :: s'))) (QT :: s') k ltac:(lia)) as (r & j & -> & Hj); cbn [bind]; unfold failed; eauto|].
    - inversion Hp; subst. cbn [app] in Es.
      assert (QT :: s' = quoted_name nm x) as E.
      { pose proof (f_equal (fun l => fst (parse_space l None)) Es) as E. cbv beta in E.
        rewrite (gap_parse_space g), (gap_parse_space g') in E; auto; try (apply vstart_stop, qt_vstart). }
      rewrite E. clear Es E. assert (Hb : In b L) by (apply Hi; now left).
      rewrite (noif_skips b nm t); [|now apply (noif_in L Hif)|now apply (name_plain L HL)|exact Hq| |exact He].
      + cbn [bind negb]. destruct (search_none nm x Hn Hq L t k (incl_refl _) Hk) as (j & -> & Hj). cbn [bind].
        destruct (space_bad [] j Hj) as (r & Er). rewrite space_stop by exact I. cbn. rewrite Hj. unfold failed; eauto.
      + intros ->. apply Hn. now apply in_map.
    - inversion Hp as [|? ? txt g1 g2 b0 H1 Ht H2 Hp']; subst.
      assert (QT :: s' = txt ++ g2 ++ COMMA :: b0 ++ g ++ quoted_name nm x) as E.
      { pose proof (f_equal (fun l => fst (parse_space l None)) Es) as E. cbv beta in E. repeat (rewrite <- ?app_assoc in E; cbn [app] in E).
        rewrite (gap_parse_space g1), (gap_parse_space g') in E; auto; try (apply vstart_stop, qt_vstart).
        destruct (member_text_head _ _ Ht) as (y & ->). apply vstart_stop, qt_vstart. }
      assert (Hb : In b L) by (apply Hi; now left).
      destruct (prefix_head _ _ Hp' g (nm ++ QT :: x) Hg) as (g3 & s3 & E3 & Hg3). change (QT :: nm ++ QT :: x) with (quoted_name nm x) in E3.
      assert (Hl3 : (length (QT :: s3) < n)%nat).
      { rewrite E, E3 in Hl. rewrite !app_length in Hl. cbn [length] in *. rewrite !app_length in Hl. cbn [length] in *.
        destruct (member_text_head _ _ Ht) as (y & ->). cbn [length] in Hl. lia. }
      assert (Hfin : forall R' t2, incl R' L -> failed (let* (t5, s5, e5) := members_loop Strict sn L n R' t2 (QT :: s3) (Some k) in at_close t5 s5 e5)).
      { intros R' t2 Hi'. destruct (IH b0 nm x Hp' Hn Hq g Hg n R' t2 k g3 s3 Hi' E3 Hg3 Hl3 Hk) as (v & r & j & -> & Hj). cbn [bind].
        destruct (at_close_bad v r j Hj) as (r' & ->). unfold failed; eauto. }
      rewrite E. destruct (name_dec (fst it) (memb_name b)) as [En|En].
      + inversion Hf as [c vt v Hc Hv|nm0 vt Hm]; subst; [|discriminate]. cbn [fst] in En. apply (same_name L HL) in En; [|exact Hc|exact Hb]. subst c.
        rewrite (noif_reads b vt v t (noif_in L Hif b Hb) (name_plain L HL b Hb) Hv sn txt _ false (Some k) Ht); [|apply gap_follow; auto using cstop|exact He].
        cbn [bind negb]. rewrite gap_parse_space; [|exact H2|apply closer_stop, cstop]. change (COMMA =? COMMA) with true. cbv iota.
        rewrite E3. rewrite gap_parse_space; [|exact Hg3|apply vstart_stop, qt_vstart]. apply Hfin. intros y Hy. apply Hi. now right.
      + destruct it as [nm0 vt]. cbn [fst] in En. pose proof (search_sem Strict L HL Hif _ _ t Hf) as Hs.
        destruct (osearch_run Strict sn L t _ _ Hs txt g2 COMMA (b0 ++ g ++ quoted_name nm x) (Some k) Ht H2 cstop He) as (g4 & Hg4 & E4).
        destruct (member_text_app nm0 vt txt (g2 ++ COMMA :: b0 ++ g ++ quoted_name nm x) Ht) as (ga & gb & Ha & Hb' & Eq).
        rewrite Eq in *. rewrite (noif_skips b nm0 t); [|now apply (noif_in L Hif)|now apply (name_plain L HL)|exact (sem_qsafe Strict L HL _ _ Hf)|exact En|exact He].
        cbn [bind negb]. rewrite E4. cbn [bind]. rewrite gap_parse_space; [|exact Hg4|apply closer_stop, cstop]. change (COMMA =? COMMA) with true. cbv iota.
        rewrite E3. rewrite gap_parse_space; [|exact Hg3|apply vstart_stop, qt_vstart]. now apply Hfin.
  Qed.
  Theorem object_strict t0 pre fs p nm x g old k : Forall2 (item_sem Strict L) pre fs -> prefix_text pre p -> gap g ->
    ~ In nm (names L) -> qsafe nm -> is_err k = false ->
    failed (des (object_codec Strict L t0) sn old (LCB :: p ++ g ++ QT :: nm ++ QT :: x) (Some k)).
  Proof.
    intros Hf Hp Hg Hn Hq Hk. cbn [des object_codec]. unfold object_des. change (is_null (LCB :: p ++ g ++ QT :: nm ++ QT :: x)) with false.
    change (LCB =? LCB) with true. cbv iota. cbn [negb]. destruct (prefix_head _ _ Hp g (nm ++ QT :: x) Hg) as (g3 & s3 & E3 & Hg3). rewrite E3.
    rewrite gap_parse_space; [|exact Hg3|apply vstart_stop, qt_vstart]. change (QT =? RCB) with false. cbn [negb].
    destruct (members_strict pre fs Hf p nm x Hp Hn Hq g Hg (S (length (QT :: s3))) L old k g3 s3 (incl_refl _) E3 Hg3 ltac:(lia) Hk) as (v & r & j & -> & Hj).
    cbn [bind]. destruct r as [|c r]; [cbn; rewrite Hj; unfold failed; eauto|]. destruct (space_bad (c :: r) j Hj) as (r' & ->).
    destruct r' as [|f t3]; [cbn; rewrite Hj; unfold failed; eauto|]. destruct (negb (f =? RCB)); [cbn; rewrite Hj|]; unfold failed; eauto.
  Qed.
End StrictMode.

(** ---- round trip ---- *)
Section ObjRT.
  Context {T : Type}.
  (** reading back what was written copies the described fields *)
  Definition memb_rt (b : memb T) (dom : T -> Prop) : Prop :=
    plain_name (memb_name b) /\ forall v, dom v -> exists ops vt, memb_ser b v = Ok ops /\ flat ops = QT :: memb_name b ++ QT :: COLON :: vt /\
      (exists h x, vt = h :: x /\ vstart h) /\ forall old, reads_as b (memb_name b, vt) old (copy v old b).
  Lemma mem_ser_ok (m : mem T) t o : ser (m_codec m) (m_get m t) = Ok o ->
    exists ops, mem_ser m t = Ok ops /\ flat ops = QT :: m_name m ++ QT :: COLON :: flat o.
  Proof.
    intros E. unfold mem_ser. rewrite E. cbn [bind]. eexists. split; [reflexivity|]. cbn [flat flat1 app]. rewrite flat_app, flat_wr. reflexivity.
  Qed.
  Lemma noif_rt (b : memb T) dm : no_if b -> plain_name (memb_name b) -> rt (m_codec (memb_mem b)) dm ->
    memb_rt b (fun t => dm (m_get (memb_mem b) t)).
  Proof.
    intros Hb Hn Hrt. split; [exact Hn|]. intros v Hv. destruct (proj1 (rt_rd _ _) Hrt _ Hv) as (o & Eo & Hrd).
    destruct (mem_ser_ok (memb_mem b) v o Eo) as (ops & E1 & E2). exists ops, (flat o).
    split; [destruct b; cbn in *; tauto|]. split; [exact E2|]. split; [now apply rd_head in Hrd|]. intros old.
    replace (copy v old b) with (m_set (memb_mem b) old (m_get (memb_mem b) v)) by (destruct b; cbn in *; tauto). now apply noif_reads1.
  Qed.
  (** member_if: values in which one alternative is at its reset value *)
  Lemma if_rt ru (l r : mem T) (isdef : m_ty l -> bool) (doml : m_ty l -> Prop) (domr : m_ty r -> Prop) (dl : m_ty l) (dr : m_ty r) :
    m_name l = m_name r -> plain_name (m_name l) -> rt (m_codec l) doml -> rt (m_codec r) domr ->
    null_reads (m_codec l) (fun _ => dl) -> null_reads (m_codec r) (fun _ => dr) -> set_set l -> set_set r ->
    (forall t x y, m_set l (m_set r t y) x = m_set r (m_set l t x) y) ->
    (ru = false -> forall v o, domr v -> ser (m_codec r) v = Ok o -> rejects (m_codec l) (flat o)) ->
    (ru = true -> forall v o, doml v -> ser (m_codec l) v = Ok o -> rejects (m_codec r) (flat o)) ->
    memb_rt (MIf ru l r isdef) (fun t =>
      if isdef (m_get l t) then domr (m_get r t) /\ m_get l t = dl else doml (m_get l t) /\ m_get r t = dr).
  Proof.
    intros En Hn Hl Hr Nl Nr Sl Sr Hc Hlr Hrl. split; [exact Hn|]. intros t Ht. unfold memb_name. cbn [memb_mem memb_ser].
    destruct (isdef (m_get l t)); cbn [negb]; destruct Ht as (Hd & Hz).
    - destruct (proj1 (rt_rd _ _) Hr _ Hd) as (o & Eo & Hrd). destruct (mem_ser_ok r t o Eo) as (ops & E1 & E2). rewrite <- En in E2.
      exists ops, (flat o). split; [exact E1|]. split; [exact E2|]. split; [now apply rd_head in Hrd|]. intros old. unfold copy. rewrite Hz.
      destruct ru.
      + pose proof (if_reads_first true l r isdef (flat o) old (m_get r t) dl) as H. cbv iota zeta in H. rewrite <- En in H. rewrite <- Hc. now apply H.
      + pose proof (if_reads_second false l r isdef (flat o) old (m_get r t) dl) as H. cbv iota zeta in H. rewrite <- En in H. apply H; eauto.
    - destruct (proj1 (rt_rd _ _) Hl _ Hd) as (o & Eo & Hrd). destruct (mem_ser_ok l t o Eo) as (ops & E1 & E2).
      exists ops, (flat o). split; [exact E1|]. split; [exact E2|]. split; [now apply rd_head in Hrd|]. intros old. unfold copy. rewrite Hz.
      destruct ru.
      + pose proof (if_reads_second true l r isdef (flat o) old (m_get l t) dr) as H. cbv iota zeta in H. rewrite <- En in H. rewrite <- Hc. apply H; eauto.
      + pose proof (if_reads_first false l r isdef (flat o) old (m_get l t) dr) as H. cbv iota zeta in H. now apply H.
  Qed.

  Lemma members_ser_items (L : list (memb T)) t : members_ser L t = items_ser (fun b => memb_ser b t) L.
  Proof. induction L as [|b L IH]; [reflexivity|]. cbn [members_ser items_ser]. destruct L; [reflexivity|]. now rewrite IH. Qed.
  Theorem object_rt mode (L : list (memb T)) t0 (dom : T -> Prop) : covers L ->
    (forall v, dom v -> Forall (fun b => exists dm, memb_rt b dm /\ dm v) L) -> rt (object_codec mode L t0) dom.
  Proof.
    intros Hc Hm v Hv. specialize (Hm v Hv).
    destruct (items_ser_ok (fun b => memb_ser b v) L (fun b o => exists vt, flat o = QT :: memb_name b ++ QT :: COLON :: vt /\
       forall old, reads_as b (memb_name b, vt) old (copy v old b))) as (opss & ops & F & E & Ef & _).
    { eapply Forall_impl; [|exact Hm]. intros b (dm & (Hn & H) & Hd). destruct (H v Hd) as (o & vt & H1 & H2 & _ & H3). eauto. }
    exists (W LCB :: ops ++ [W RCB]). split; [cbn [ser object_codec]; unfold object_ser; rewrite members_ser_items, E; reflexivity|].
    cbn [flat flat1 app]. rewrite flat_app, Ef. cbn [flat flat1 app]. split; [exists LCB; eexists; split; [reflexivity|unfold vstart; lia]|].
    intros sn old r e Hr He.
    assert (exists its, Forall2 member_text its (map flat opss) /\ oread mode L L old its v /\ (its = [] -> old = v)) as (its & H1 & H2 & H3).
    { assert (Hn : L = [] -> old = v) by (intros ->; exact (Hc v old)).
      assert (G : forall R opss, Forall2 (fun b o => memb_ser b v = Ok o /\ exists vt, flat o = QT :: memb_name b ++ QT :: COLON :: vt /\
         forall old, reads_as b (memb_name b, vt) old (copy v old b)) R opss ->
         forall old, exists its, length its = length R /\ Forall2 member_text its (map flat opss) /\ oread mode L R old its (fold_left (copy v) R old)).
      { clear. induction 1 as [|b o R opss (_ & vt & E & H) _ IH]; intros old; [exists []; repeat constructor|].
        destruct (IH (copy v old b)) as (its & I0 & I1 & I2). exists ((memb_name b, vt) :: its). split; [cbn; now rewrite I0|].
        split; [|cbn [fold_left]; now apply or_hit with (copy v old b)]. cbn [map]. constructor; [|exact I1]. rewrite E.
        exact (mt (memb_name b) vt [] [] g_nil g_nil). }
      destruct (G L opss F old) as (its & I0 & I1 & I2). rewrite (Hc v old) in I2. exists its. repeat split; auto. intros ->. apply Hn. destruct L; [reflexivity|discriminate]. }
    change (LCB :: (join (map flat opss) ++ [RCB]) ++ r) with ((LCB :: join (map flat opss) ++ [RCB]) ++ r).
    apply object_run with (its := its); auto. apply ot with (ts := map flat opss); [exact H1|apply join_spaced].
  Qed.

  (** output *)
  Definition name_rfc (b : memb T) : Prop := match b with MIf _ l r _ => rstring (QT :: m_name l ++ [QT]) /\ rstring (QT :: m_name r ++ [QT])
    | _ => rstring (QT :: memb_name b ++ [QT]) end.
  Definition memb_dom (P : forall A, codec A -> (A -> Prop) -> Prop) (b : memb T) (v : T) : Prop :=
    match b with
    | MRef m => exists d, P _ (m_codec m) d /\ d (m_get m v)
    | MProp m _ => exists d, P _ (m_codec m) d /\ d (m_get m v)
    | MIf _ l r isdef => if isdef (m_get l v) then exists d, P _ (m_codec r) d /\ d (m_get r v) else exists d, P _ (m_codec l) d /\ d (m_get l v)
    end.
  Theorem object_jout mode (L : list (memb T)) t0 (dom : T -> Prop) : Forall name_rfc L ->
    (forall v, dom v -> Forall (fun b => memb_dom (@jout) b v) L) -> jout (object_codec mode L t0) dom.
  Proof.
    intros HN Hm v Hv. specialize (Hm v Hv).
    assert (M : forall (m : mem T) d, jout (m_codec m) d -> d (m_get m v) -> rstring (QT :: m_name m ++ [QT]) -> exists o, mem_ser m v = Ok o /\ rfield (flat o)).
    { intros m d Hj Hd Hr. destruct (Hj _ Hd) as (o & Eo & Hvv). destruct (mem_ser_ok m v o Eo) as (ops & E1 & E2). exists ops. split; [exact E1|].
      rewrite E2. replace (QT :: m_name m ++ QT :: COLON :: flat o) with ((QT :: m_name m ++ [QT]) ++ COLON :: flat o) by (cbn [app]; now rewrite <- app_assoc). now constructor. }
    destruct (items_ser_ok (fun b => memb_ser b v) L (fun b o => rfield (flat o))) as (opss & ops & F & E & Ef & _).
    { rewrite Forall_forall in *. intros b Hb. specialize (HN b Hb). specialize (Hm b Hb). destruct b as [m|m i|ru l r isdef]; cbn in *.
      - destruct Hm as (d & H1 & H2). now apply (M m d).
      - destruct Hm as (d & H1 & H2). now apply (M m d).
      - destruct (isdef (m_get l v)); cbn [negb]; destruct Hm as (d & H1 & H2); eapply M; eauto; tauto. }
    exists (W LCB :: ops ++ [W RCB]). split; [cbn [ser object_codec]; unfold object_ser; rewrite members_ser_items, E; reflexivity|].
    cbn [flat flat1 app]. rewrite flat_app, Ef. cbn [flat flat1 app].
    assert (Hf : Forall rfield (map flat opss)). { clear -F. induction F as [|b o L opss (_ & H) _ IH]; cbn; constructor; auto. }
    destruct (map flat opss) as [|t ts]; [apply (rv_obj0 []); constructor|]. apply rv_obj. apply join_rmembers; [discriminate|exact Hf].
  Qed.
  Theorem object_wout mode (L : list (memb T)) t0 (dom : T -> Prop) :
    (forall v, dom v -> Forall (fun b => memb_dom (@wout) b v) L) -> wout (object_codec mode L t0) dom.
  Proof.
    intros Hm v Hv. specialize (Hm v Hv).
    assert (M : forall (m : mem T) d, wout (m_codec m) d -> d (m_get m v) -> exists o, mem_ser m v = Ok o /\ exists b, o = wr b).
    { intros m d Hj Hd. destruct (Hj _ Hd) as (b & Eo). unfold mem_ser. rewrite Eo. cbn [bind]. eexists. split; [reflexivity|].
      exists (QT :: m_name m ++ QT :: COLON :: b). unfold wr. cbn [map]. now rewrite map_app. }
    destruct (items_ser_ok (fun b => memb_ser b v) L (fun b o => exists b, o = wr b)) as (opss & ops & F & E & _ & Ew).
    { rewrite Forall_forall in *. intros b Hb. specialize (Hm b Hb). destruct b as [m|m i|ru l r isdef]; cbn in *.
      - destruct Hm as (d & H1 & H2). now apply (M m d).
      - destruct Hm as (d & H1 & H2). now apply (M m d).
      - destruct (isdef (m_get l v)); cbn [negb]; destruct Hm as (d & H1 & H2); eapply M; eauto. }
    rewrite (Ew (fun _ _ H => H)) in E. exists (LCB :: join (map flat opss) ++ [RCB]). cbn [ser object_codec]. unfold object_ser.
    rewrite members_ser_items, E. cbn [bind]. unfold wr. cbn [map]. now rewrite map_app.
  Qed.
  Theorem object_null mode (L : list (memb T)) t0 : null_reads (object_codec mode L t0) (fun _ => t0).
  Proof. intros sn old r e. reflexivity. Qed.
End ObjRT.

(** ---- names are compared as raw bytes ---- *)
Lemma cmean_raw c t : cmean c t -> ~ In BSL c -> c = t.
Proof. destruct 1; intros H'; [reflexivity|exfalso; apply H'; now left..]. Qed.
Lemma lmean_raw l t : lmean l t -> ~ In BSL l -> l = t.
Proof.
  induction 1 as [|c t l m Hc _ IH]; intros H; [reflexivity|].
  rewrite (cmean_raw c t Hc) in * by (intros K; apply H, in_or_app; now left). f_equal. apply IH. intros K; apply H, in_or_app; now right.
Qed.
Lemma plain_no_bsl n : plain_name n -> ~ In BSL n.
Proof. intros H K. unfold plain_name in H. rewrite Forall_forall in H. apply H in K. lia. Qed.

(** ---- member_if and members that are not its own ---- *)
Lemma if_skips_other {T} (sn : option Z) (ru : bool) (l r : mem T) isdef nm x t e y z e' :
  let a := if ru then r else l in let b := if ru then l else r in
  plain_name (m_name a) -> qsafe nm -> nm <> m_name a ->
  des (m_codec b) (Some 0) (m_get b t) (text "null") None = Ok (y, z, e') ->
  memb_des (MIf ru l r isdef) sn t (quoted_name nm x) false e = Ok (m_set b t y, false, quoted_name nm x, e).
Proof.
  intros a b Hp Hq Hn Hd. cbn [memb_des]. fold a b. rewrite mem_des_miss by assumption. cbn [bind no_err_yet is_err no_error code negb].
  unfold mem_reset. rewrite Hd. reflexivity.
Qed.
(** members in the order of the list, as far as the object goes *)
Lemma elems_oread {T} mode (L L1 : list (memb T)) ts fs : elems L1 ts fs -> Forall no_if L1 -> Forall plain_name (names L1) ->
  forall L2 t, oread mode L (L1 ++ L2) t (combine (names L1) ts) (run_all fs t).
Proof.
  induction 1 as [|b L1 vt v ts fs Hrd _ IH]; intros Hi Hp L2 t; [constructor|].
  inversion Hi; subst. cbn in Hp. inversion Hp; subst. cbn [app names map combine]. apply or_hit with (m_set (memb_mem b) t (v (memb_old b t))).
  - now apply noif_reads.
  - now apply IH.
Qed.
Lemma prefix_reads {T} mode (L1 L2 : list (memb T)) t0 ts fs txt : elems L1 ts fs -> Forall no_if L1 -> Forall plain_name (names L1) ->
  object_text (combine (names L1) ts) txt -> forall sn old r e, no_err_yet e = true ->
  des (object_codec mode (L1 ++ L2) t0) sn old (txt ++ r) e = Ok (run_all fs old, r, e).
Proof.
  intros H H1 H2 Ht sn old r e He. apply object_run with (its := combine (names L1) ts); auto; [now apply elems_oread|].
  intros E. destruct H; [reflexivity|discriminate].
Qed.
Lemma elems_obs {T X} (obs : T -> X) (L : list (memb T)) ts fs : elems L ts fs ->
  (forall b, In b L -> forall t x, obs (m_set (memb_mem b) t x) = obs t) -> forall t, obs (run_all fs t) = obs t.
Proof.
  induction 1 as [|b L vt v ts fs _ _ IH]; intros H t; [reflexivity|]. unfold run_all in *. cbn [fold_left]. rewrite IH; [apply H; now left|].
  intros c Hc. apply H. now right.
Qed.
