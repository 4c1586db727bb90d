From Coq Require Import Sorting.Permutation.
From Verif Require Import Base Parser SpecJson ParserFacts Grammar1 Grammar2 Out CodecLaws SpecSeq Array.

Lemma rt_rd {A} (c : codec A) dom : rt c dom <-> forall v, dom v -> exists ops, ser c v = Ok ops /\ rd c (flat ops) v.
Proof. split; intros H v Hv; destruct (H v Hv) as (ops & H1 & H2); exists ops; split; auto. Qed.

Lemma rd_stop {A} (c : codec A) t v r : rd c t v -> stop (t ++ r).
Proof. intros ((h & x & -> & Hh) & _). cbn [app]. now apply (vstart_stop h). Qed.
Lemma rd_head {A} (c : codec A) t v : rd c t v -> exists h x, t = h :: x /\ vstart h.
Proof. now intros (H & _). Qed.

Lemma gap_closer_nonempty (g : buf) c r : g ++ c :: r <> []. Proof. destruct g; discriminate. Qed.

(** ---- laws of the sequence deserializer ---- *)
Section SeqLaw.
  Context {A S : Type} (item : A -> buf -> eptr -> res (A * buf * eptr)) (ins : S -> A -> S) (d0 : A) (R : Z).
  Hypothesis Hitem : forall s e, dgood s e (item d0 s e).

  Lemma seq_loop_good fuel : forall st s e, (length s < fuel)%nat ->
    dgood s e (seq_loop item ins d0 R fuel st s e).
  Proof.
    induction fuel as [|n IH]; intros st s e Hn; [lia|]. cbn [seq_loop].
    destruct s as [|c0 t0] eqn:Es; [apply dgood_err; [discriminate|cbn; lia]|]. rewrite <- Es in *. clear Es c0 t0.
    destruct (parse_space s e) as [s1 e1] eqn:E1. destruct (space_estep _ _ _ _ E1) as (A1 & B1).
    destruct s1 as [|c t1].
    { split; [apply suffix_nil|]. eapply estep_trans; [exact B1|apply estep_end]. }
    destruct (c =? R).
    { split; [|exact B1]. eapply suffix_trans; [|exact A1]. auto with suf. }
    apply dgood_bind.
    { eapply dgood_weaken; [exact A1|exact B1|apply Hitem]. }
    intros x s2 e2 A2 B2 E2. destruct (parse_space s2 e2) as [s3 e3] eqn:E3.
    destruct (space_estep _ _ _ _ E3) as (A3 & B3).
    assert (A3' : suffix s3 s) by (now apply suffix_trans with s2).
    assert (B3' : estep s e e3) by (eapply estep_trans; [exact B2|now apply (estep_weaken _ s2)]).
    (* one byte has been consumed by the item only through s3 = d :: t3 *)
    destruct s3 as [|d t3].
    { split; [apply suffix_nil|]. eapply estep_trans; [exact B3'|apply estep_end]. }
    assert (A4 : suffix t3 s) by (eapply suffix_trans; [|exact A3']; auto with suf).
    destruct (d =? R); [now split|].
    destruct (negb (d =? COMMA)).
    { split; [apply suffix_nil|]. eapply estep_trans; [exact B3'|]. apply estep_cerr; [discriminate|].
      apply suffix_dist in A3'. pose proof (dist_pos (d :: t3)). lia. }
    apply suffix_len in A3' as L3. cbn [length] in L3.
    eapply dgood_weaken; [exact A4|exact B3'|]. apply IH. lia.
  Qed.
  Lemma seq_loop_ok_good fuel : forall st s e st' r e',
    seq_loop item ins d0 R fuel st s e = Ok (st', r, e') -> suffix r s /\ estep s e e'.
  Proof.
    induction fuel as [|n IH]; intros st s e st' r e'; [discriminate|]. intros H.
    destruct (Nat.lt_ge_cases (length s) (Datatypes.S n)) as [L|L].
    { pose proof (seq_loop_good (Datatypes.S n) st s e L) as G. rewrite H in G. exact G. }
    cbn [seq_loop] in H.
    destruct s as [|c0 t0] eqn:Es; [cbn in L; lia|]. rewrite <- Es in *. clear Es c0 t0.
    destruct (parse_space s e) as [s1 e1] eqn:E1. destruct (space_estep _ _ _ _ E1) as (A1 & B1).
    destruct s1 as [|c t1].
    { injection H as _ <- <-. split; [apply suffix_nil|]. eapply estep_trans; [exact B1|apply estep_end]. }
    destruct (c =? R).
    { injection H as _ <- <-. split; [|exact B1]. eapply suffix_trans; [|exact A1]. auto with suf. }
    pose proof (Hitem (c :: t1) e1) as G2. destruct (item d0 (c :: t1) e1) as [[[x s2] e2]| |]; cbn [bind] in H; [|discriminate|discriminate].
    destruct G2 as (A2 & B2). destruct (parse_space s2 e2) as [s3 e3] eqn:E3.
    destruct (space_estep _ _ _ _ E3) as (A3 & B3).
    assert (A3' : suffix s3 s) by (eapply suffix_trans; [exact A3|]; eapply suffix_trans; [exact A2|exact A1]).
    assert (B3' : estep s e e3).
    { eapply estep_trans; [exact B1|]. eapply estep_trans; [apply (estep_weaken _ (c :: t1)); eassumption|].
      apply (estep_weaken _ s2); [|exact B3]. now apply suffix_trans with (c :: t1). }
    destruct s3 as [|d t3].
    { injection H as _ <- <-. split; [apply suffix_nil|]. eapply estep_trans; [exact B3'|apply estep_end]. }
    assert (A4 : suffix t3 s) by (eapply suffix_trans; [|exact A3']; auto with suf).
    destruct (d =? R); [injection H as _ <- <-; now split|].
    destruct (negb (d =? COMMA)).
    { injection H as _ <- <-. split; [apply suffix_nil|]. eapply estep_trans; [exact B3'|]. apply estep_cerr; [discriminate|].
      apply suffix_dist in A3'. pose proof (dist_pos (d :: t3)). lia. }
    destruct (IH _ _ _ _ _ _ H) as (A5 & B5). split; [now apply suffix_trans with t3|].
    eapply estep_trans; [exact B3'|now apply (estep_weaken _ t3)].
  Qed.
End SeqLaw.

Theorem seq_dlaw {A C S} (k : container A C S) L R (item : codec A) d0 : dlaw (des item) -> dlaw (des (seq_codec k L R item d0)).
Proof.
  intros H sn old s e. cbn [des seq_codec]. unfold seq_des. destruct (is_null s).
  { apply (dgood_pair s e parse_null (fun _ => c_get k (c_new k))). apply null_good. }
  destruct s as [|c t]; [apply dgood_err; [discriminate|cbn; lia]|].
  destruct (negb (c =? L)).
  { apply dgood_err; [discriminate|]. rewrite dist_cons. pose proof (dist_pos t). lia. }
  apply dgood_bind.
  - apply (dgood_weaken _ t _ e); [auto with suf|apply estep_refl|]. apply seq_loop_good; [intros; apply H|lia].
  - intros v r e' A1 B1 _. now split.
Qed.

Lemma bind_ub {A B} (x : res A) (f : A -> res B) : bind x f = UB -> x = UB \/ exists v, x = Ok v /\ f v = UB.
Proof. destruct x; cbn; intros H; [right; eauto|now left|discriminate]. Qed.

Lemma seq_loop_safe {A S} (item : A -> buf -> eptr -> res (A * buf * eptr)) (ins : S -> A -> S) d0 R :
  (forall s e, item d0 s e <> UB) -> forall fuel st s e, seq_loop item ins d0 R fuel st s e <> UB.
Proof.
  intros Hi. induction fuel as [|n IH]; intros st s e; [discriminate|]. cbn [seq_loop].
  destruct s; [discriminate|]. destruct (parse_space _ e) as [[|c t1] e1]; [discriminate|].
  destruct (c =? R); [discriminate|]. intros H. apply bind_ub in H. destruct H as [H|([[x s2] e2] & _ & H)]; [now apply (Hi _ _ H)|].
  destruct (parse_space s2 e2) as [[|d t3] e3]; [discriminate|]. destruct (d =? R); [discriminate|].
  destruct (negb (d =? COMMA)); [discriminate|]. now apply (IH _ _ _ H).
Qed.
Theorem seq_dsafe {A C S} (k : container A C S) L R (item : codec A) d0 : dsafe (des item) -> dsafe (des (seq_codec k L R item d0)).
Proof.
  intros H sn old s e Hsn. cbn [des seq_codec]. unfold seq_des. destruct (is_null s); [destruct (parse_null s e); discriminate|].
  destruct s as [|c t]; [discriminate|]. destruct (negb (c =? L)); [discriminate|].
  intros K. apply bind_ub in K. destruct K as [K|([[x s2] e2] & _ & K)]; [|discriminate].
  revert K. apply seq_loop_safe. intros; now apply H.
Qed.

(** ---- reading a list of texts ---- *)
Lemma R_closer R : R = RBR \/ R = RCB -> closer R. Proof. unfold closer; lia. Qed.
Lemma R_comma R : R = RBR \/ R = RCB -> R <> COMMA. Proof. lia. Qed.
Section SeqRead.
  Context {A S : Type} (ins : S -> A -> S) (d0 : A) (R : Z) (item : codec A) (sn : option Z).
  Hypothesis HR : R = RBR \/ R = RCB.

  Lemma seq_loop_end n g r st e : gap g -> seq_loop (des item sn) ins d0 R (Datatypes.S n) st (g ++ R :: r) e = Ok (st, r, e).
  Proof.
    intros Hg. cbn [seq_loop]. destruct (g ++ R :: r) eqn:E; [now apply gap_closer_nonempty in E|]. rewrite <- E.
    rewrite gap_parse_space; [|exact Hg|apply closer_stop, (R_closer R HR)]. now rewrite Z.eqb_refl.
  Qed.
  Lemma seq_loop_one n g1 t v g2 c r st e : gap g1 -> gap g2 -> rd item t v -> c = R \/ c = COMMA -> no_err_yet e = true ->
    seq_loop (des item sn) ins d0 R (Datatypes.S n) st (g1 ++ t ++ g2 ++ c :: r) e =
    if c =? COMMA then seq_loop (des item sn) ins d0 R n (ins st v) r e else Ok (ins st v, r, e).
  Proof.
    intros Hg1 Hg2 Hv Hc He. cbn [seq_loop].
    assert (Hcc : closer c) by (unfold closer; lia).
    destruct (g1 ++ t ++ g2 ++ c :: r) eqn:E.
    { destruct (rd_head _ _ _ Hv) as (h & x & -> & _). destruct g1; discriminate. }
    rewrite <- E. clear E. rewrite gap_parse_space; [|exact Hg1|now apply rd_stop with item v].
    destruct Hv as ((h & x & -> & Hh) & Hrd). cbn [app].
    assert (h =? R = false) as -> by (unfold vstart, s_digit in Hh; lia).
    change (h :: x ++ g2 ++ c :: r) with ((h :: x) ++ g2 ++ c :: r).
    rewrite Hrd; [|now apply gap_follow|exact He]. cbn [bind].
    rewrite gap_parse_space; [|exact Hg2|now apply closer_stop].
    destruct Hc as [->| ->].
    - rewrite Z.eqb_refl. pose proof (R_comma R HR). destruct (R =? COMMA) eqn:E; [lia|reflexivity].
    - pose proof (R_comma R HR). destruct (COMMA =? R) eqn:E; [lia|]. reflexivity.
  Qed.

  Lemma seq_loop_body tc ts b : ebody tc ts b -> forall vs, Forall2 (rd item) ts vs ->
    forall n st r e, (length b < n)%nat -> no_err_yet e = true ->
    seq_loop (des item sn) ins d0 R n st (b ++ R :: r) e = Ok (fold_left ins vs st, r, e).
  Proof.
    induction 1 as [g1 t g2 Hg1 Hg2|g1 t g2 g3 Htc Hg1 Hg2 Hg3|g1 t g2 ts b Hg1 Hg2 Hb IH]; intros vs Hvs n st r e Hn He.
    - inversion Hvs as [|? v ? vs' Hv Hnil]; subst. inversion Hnil; subst. destruct n; [lia|].
      rewrite <- !app_assoc. rewrite (seq_loop_one n g1 t v g2 R r st e); auto.
      pose proof (R_comma R HR). destruct (R =? COMMA) eqn:E; [lia|reflexivity].
    - inversion Hvs as [|? v ? vs' Hv Hnil]; subst. inversion Hnil; subst. destruct n; [lia|].
      rewrite <- !app_assoc. cbn [app]. rewrite (seq_loop_one n g1 t v g2 COMMA (g3 ++ R :: r) st e); auto.
      change (COMMA =? COMMA) with true. cbv iota.
      rewrite !app_length in Hn. cbn [length] in Hn. destruct n; [lia|]. now apply seq_loop_end.
    - inversion Hvs as [|? v ? vs' Hv Hvs']; subst. destruct n; [lia|].
      rewrite <- !app_assoc. cbn [app]. rewrite (seq_loop_one n g1 t v g2 COMMA (b ++ R :: r) st e); auto.
      change (COMMA =? COMMA) with true. cbv iota. cbn [fold_left]. apply IH; auto.
      rewrite !app_length in Hn. cbn [length] in Hn. lia.
  Qed.
  Lemma seq_loop_spaced tc ts b : spaced tc ts b -> forall vs, Forall2 (rd item) ts vs ->
    forall n st r e, (length b < n)%nat -> no_err_yet e = true ->
    seq_loop (des item sn) ins d0 R n st (b ++ R :: r) e = Ok (fold_left ins vs st, r, e).
  Proof.
    destruct 1 as [g Hg|ts b Hb]; intros vs Hvs n st r e Hn He.
    - inversion Hvs; subst. destruct n; [lia|]. now apply seq_loop_end.
    - now apply (seq_loop_body tc ts b).
  Qed.
End SeqRead.

Definition brackets (L R : Z) : Prop := (L = LBR /\ R = RBR) \/ (L = LCB /\ R = RCB).
Lemma brackets_facts L R : brackets L R -> vstart L /\ L <> 110 /\ (R = RBR \/ R = RCB).
Proof. unfold brackets, vstart. lia. Qed.

Theorem seq_rd {A C S} (k : container A C S) L R (item : codec A) d0 tc ts b vs :
  brackets L R -> spaced tc ts b -> Forall2 (rd item) ts vs ->
  rd (seq_codec k L R item d0) (L :: b ++ [R]) (c_get k (fold_left (c_ins k) vs (c_new k))).
Proof.
  intros HB Hs Hvs. destruct (brackets_facts L R HB) as (HL & HLn & HR).
  split; [exists L, (b ++ [R]); auto|]. intros sn old r e Hr He. cbn [des seq_codec app]. unfold seq_des.
  unfold is_null, starts. destruct (L =? 110) eqn:E; [lia|]. rewrite Z.eqb_refl. cbn [negb].
  rewrite <- app_assoc. cbn [app].
  rewrite (seq_loop_spaced _ _ R item sn HR tc ts b Hs vs Hvs); [reflexivity| |exact He].
  rewrite app_length. cbn. lia.
Qed.

(** ---- serialization ---- *)
Fixpoint join (ts : list buf) : buf :=
  match ts with [] => [] | [t] => t | t :: r => t ++ COMMA :: join r end.
Lemma join_spaced tc ts : spaced tc ts (join ts).
Proof.
  destruct ts as [|t ts]; [apply sp_nil; constructor|]. apply sp_body. revert t.
  induction ts as [|u ts IH]; intros t.
  - replace (join [t]) with ([] ++ t ++ []) by (cbn; apply app_nil_r). apply eb_one; constructor.
  - change (join (t :: u :: ts)) with ([] ++ t ++ [] ++ COMMA :: join (u :: ts)). apply eb_more; try constructor. apply IH.
Qed.

(** texts produced for a list *)
Lemma items_ser_ok {A} (item : A -> res (list op)) l (P : A -> list op -> Prop) :
  Forall (fun x => exists ops, item x = Ok ops /\ P x ops) l ->
  exists opss ops, Forall2 (fun x o => item x = Ok o /\ P x o) l opss /\ items_ser item l = Ok ops /\
    flat ops = join (map flat opss) /\
    ((forall x o, P x o -> exists b, o = wr b) -> ops = wr (join (map flat opss))).
Proof.
  induction 1 as [|x l (o & E & Hx) Hl IH].
  - exists [], []. split; [constructor|]. repeat split; auto.
  - destruct IH as (opss & ops & F & E2 & E3 & E4). exists (o :: opss).
    destruct l as [|y l].
    + inversion F; subst. exists o. split; [repeat constructor; auto|]. split; [exact E|]. split; [reflexivity|].
      intros Hw. cbn. destruct (Hw x o Hx) as (b & ->). now rewrite flat_wr.
    + exists (o ++ W COMMA :: ops). split; [constructor; auto|].
      split; [change (items_ser item (x :: y :: l)) with (let* a := item x in let* b := items_ser item (y :: l) in Ok (a ++ W COMMA :: b)); rewrite E, E2; reflexivity|].
      inversion F as [|? o2 ? opss2 _ _]; subst opss.
      change (join (map flat (o :: o2 :: opss2))) with (flat o ++ COMMA :: join (map flat (o2 :: opss2))).
      split; [rewrite flat_app; cbn [flat flat1 app]; now rewrite E3|].
      intros Hw. rewrite (E4 Hw) at 1. destruct (Hw x o Hx) as (b & ->). rewrite flat_wr, wr_app. reflexivity.
Qed.

Lemma Forall2_map_r {A B C} (P : A -> C -> Prop) (f : B -> C) l m : Forall2 (fun a b => P a (f b)) l m -> Forall2 P l (map f m).
Proof. induction 1; constructor; auto. Qed.
Lemma Forall2_flip' {A B} (P : A -> B -> Prop) l m : Forall2 P l m -> Forall2 (fun b a => P a b) m l.
Proof. induction 1; constructor; auto. Qed.
Lemma Forall2_impl {A B} (P Q : A -> B -> Prop) l m : (forall a b, P a b -> Q a b) -> Forall2 P l m -> Forall2 Q l m.
Proof. induction 2; constructor; auto. Qed.

Theorem seq_rt {A C S} (k : container A C S) L R (item : codec A) d0 dom (cdom : C -> Prop) :
  brackets L R -> rt item dom ->
  (forall c, cdom c -> Forall dom (c_list k c) /\ c_get k (fold_left (c_ins k) (c_list k c) (c_new k)) = c) ->
  rt (seq_codec k L R item d0) cdom.
Proof.
  intros HB Hi Hc. apply rt_rd. intros c Hd. destruct (Hc c Hd) as (Hl & Hf).
  destruct (items_ser_ok (ser item) (c_list k c) (fun v o => rd item (flat o) v)) as (opss & ops & F & E & Ef & _).
  { eapply Forall_impl; [|exact Hl]. intros v Hv. exact (proj1 (rt_rd item dom) Hi v Hv). }
  exists (W L :: ops ++ [W R]). split; [cbn [ser seq_codec]; unfold seq_ser; rewrite E; reflexivity|].
  cbn [flat flat1 app]. rewrite flat_app, Ef. cbn [flat flat1 app].
  rewrite <- Hf. apply seq_rd with (tc := false) (ts := map flat opss); auto.
  - apply join_spaced.
  - apply Forall2_flip' in F. clear - F. induction F as [|o v os vs (_ & H) F IH]; cbn; constructor; auto.
Qed.

(** ---- RFC output ---- *)
Lemma join_relems ts : ts <> [] -> Forall rvalue ts -> relems (join ts).
Proof.
  intros Hne H. induction H as [|t ts Ht Hts IH]; [congruence|]. destruct ts as [|u ts].
  - replace (join [t]) with ([] ++ t ++ []) by (cbn; apply app_nil_r). apply rel_one; auto; constructor.
  - change (join (t :: u :: ts)) with ([] ++ t ++ [] ++ COMMA :: join (u :: ts)). apply rel_more; auto; try constructor.
    apply IH. discriminate.
Qed.
Lemma seq_out {A} (item : codec A) dom L R l : jout item dom -> Forall dom l ->
  exists ops ts, seq_ser L R (ser item) l = Ok ops /\ flat ops = L :: join ts ++ [R] /\ Forall rvalue ts.
Proof.
  intros Hi Hl. destruct (items_ser_ok (ser item) l (fun _ o => rvalue (flat o))) as (opss & ops & F & E & Ef & _).
  { eapply Forall_impl; [|exact Hl]. intros v Hv. exact (Hi v Hv). }
  exists (W L :: ops ++ [W R]), (map flat opss). unfold seq_ser. rewrite E. split; [reflexivity|].
  cbn [flat flat1 app]. rewrite flat_app, Ef. split; [reflexivity|].
  apply Forall2_flip' in F. clear - F. induction F as [|o v os vs (_ & H) F IH]; cbn; constructor; auto.
Qed.
Lemma join_nil_arr ts : Forall rvalue ts -> rvalue (LBR :: join ts ++ [RBR]).
Proof.
  destruct ts as [|t ts]; intros H; [apply (rv_arr0 []); constructor|]. apply rv_arr, join_relems; [discriminate|exact H].
Qed.
Theorem arr_jout {A C S} (k : container A C S) (item : codec A) d0 dom (cdom : C -> Prop) :
  jout item dom -> (forall c, cdom c -> Forall dom (c_list k c)) -> jout (seq_codec k LBR RBR item d0) cdom.
Proof.
  intros Hi Hc c Hd. destruct (seq_out item dom LBR RBR (c_list k c) Hi (Hc c Hd)) as (ops & ts & E & Ef & Ht).
  exists ops. split; [exact E|]. rewrite Ef. now apply join_nil_arr.
Qed.
Theorem fix_jout {A} (item : codec A) dom d : jout item dom -> jout (mkcodec (seq_ser LBR RBR (ser item)) d) (Forall dom).
Proof.
  intros Hi l Hl. destruct (seq_out item dom LBR RBR l Hi Hl) as (ops & ts & E & Ef & Ht).
  exists ops. split; [exact E|]. rewrite Ef. now apply join_nil_arr.
Qed.
Lemma seq_wr {A} (item : codec A) dom L R l : wout item dom -> Forall dom l -> exists b, seq_ser L R (ser item) l = Ok (wr b).
Proof.
  intros Hi Hl. destruct (items_ser_ok (ser item) l (fun _ o => exists b, o = wr b)) as (opss & ops & F & E & _ & Ew).
  { eapply Forall_impl; [|exact Hl]. intros v Hv. destruct (Hi v Hv) as (b & Hb). eauto. }
  unfold seq_ser. rewrite E. cbn [bind]. rewrite Ew by auto. exists (L :: join (map flat opss) ++ [R]).
  change (wr (L :: join (map flat opss) ++ [R])) with (W L :: wr (join (map flat opss) ++ [R])). now rewrite wr_app.
Qed.
Theorem seq_wout {A C S} (k : container A C S) L R (item : codec A) d0 dom (cdom : C -> Prop) :
  wout item dom -> (forall c, cdom c -> Forall dom (c_list k c)) -> wout (seq_codec k L R item d0) cdom.
Proof. intros Hi Hc c Hd. apply (seq_wr item dom L R); auto. Qed.
Theorem fix_wout {A} (item : codec A) dom d : wout item dom -> wout (mkcodec (seq_ser LBR RBR (ser item)) d) (Forall dom).
Proof. intros Hi l Hl. now apply (seq_wr item dom LBR RBR). Qed.

(** ---- field ---- *)
Theorem field_dlaw {K V} (kc : codec K) (vc : codec V) : dlaw (des kc) -> dlaw (des vc) -> dlaw (des (field_codec kc vc)).
Proof.
  intros Hk Hv sn old s e. cbn [des field_codec]. unfold field_des. apply dgood_bind; [apply Hk|].
  intros k s1 e1 A1 B1 _. destruct (parse_space s1 e1) as [s2 e2] eqn:E2. destruct (space_estep _ _ _ _ E2) as (A2 & B2).
  assert (A2' : suffix s2 s) by (now apply suffix_trans with s1).
  assert (B2' : estep s e e2) by (eapply estep_trans; [exact B1|now apply (estep_weaken _ s1)]).
  destruct s2 as [|c t].
  { split; [apply suffix_nil|]. eapply estep_trans; [exact B2'|apply estep_end]. }
  destruct (negb (c =? COLON)).
  { split; [apply suffix_nil|]. eapply estep_trans; [exact B2'|]. apply estep_cerr; [discriminate|].
    apply suffix_dist in A2'. rewrite dist_cons in A2'. pose proof (dist_pos t). lia. }
  destruct (parse_space t e2) as [s3 e3] eqn:E3. destruct (space_estep _ _ _ _ E3) as (A3 & B3).
  assert (At : suffix t s) by (eapply suffix_trans; [|exact A2']; auto with suf).
  assert (A3' : suffix s3 s) by (now apply suffix_trans with t).
  assert (B3' : estep s e e3) by (eapply estep_trans; [exact B2'|now apply (estep_weaken _ t)]).
  destruct s3 as [|d t3] eqn:Es3.
  { split; [apply suffix_nil|]. eapply estep_trans; [exact B3'|apply estep_end]. }
  rewrite <- Es3 in *. apply dgood_bind.
  - eapply dgood_weaken; [exact A3'|exact B3'|apply Hv].
  - intros v s4 e4 A4 B4 _. now split.
Qed.
Theorem field_dsafe {K V} (kc : codec K) (vc : codec V) : dsafe (des kc) -> dsafe (des vc) -> dsafe (des (field_codec kc vc)).
Proof.
  intros Hk Hv sn old s e Hsn. cbn [des field_codec]. unfold field_des. intros H. apply bind_ub in H.
  destruct H as [H|([[k s1] e1] & _ & H)]; [now apply (Hk _ _ _ _ Hsn H)|].
  destruct (parse_space s1 e1) as [[|c t] e2]; [discriminate|]. destruct (negb (c =? COLON)); [discriminate|].
  destruct (parse_space t e2) as [[|d t3] e3]; [discriminate|]. apply bind_ub in H.
  destruct H as [H|([[v s4] e4] & _ & H)]; [now apply (Hv _ _ _ _ Hsn H)|discriminate].
Qed.
Theorem field_rd {K V} (kc : codec K) (vc : codec V) kt k vt v g1 g2 : rd kc kt k -> rd vc vt v -> gap g1 -> gap g2 ->
  rd (field_codec kc vc) (kt ++ g1 ++ COLON :: g2 ++ vt) (k, v).
Proof.
  intros Hk Hv Hg1 Hg2. split.
  { destruct (rd_head _ _ _ Hk) as (h & x & -> & Hh). exists h, (x ++ g1 ++ COLON :: g2 ++ vt). auto. }
  intros sn old r e Hr He. cbn [des field_codec]. unfold field_des.
  assert (Hcol : closer COLON) by (unfold closer; lia).
  rewrite <- app_assoc. rewrite <- app_assoc. cbn [app]. rewrite <- app_assoc.
  destruct Hk as (_ & Hk). rewrite Hk; [|now apply gap_follow|exact He]. cbn [bind].
  rewrite gap_parse_space; [|exact Hg1|now apply closer_stop]. change (COLON =? COLON) with true. cbn [negb].
  rewrite gap_parse_space; [|exact Hg2|now apply rd_stop with vc v].
  destruct (rd_head _ _ _ Hv) as (h & x & -> & Hh). cbn [app]. change (h :: x ++ r) with ((h :: x) ++ r).
  destruct Hv as (_ & Hv). rewrite Hv by assumption. reflexivity.
Qed.
Definition pair_dom {K V} (dk : K -> Prop) (dv : V -> Prop) (p : K * V) : Prop := dk (fst p) /\ dv (snd p).
Theorem field_rt {K V} (kc : codec K) (vc : codec V) dk dv : rt kc dk -> rt vc dv -> rt (field_codec kc vc) (pair_dom dk dv).
Proof.
  intros Hk Hv. apply rt_rd. intros (k & v) (Dk & Dv). cbn in Dk, Dv.
  destruct (proj1 (rt_rd kc dk) Hk k Dk) as (ok & Ek & Rk). destruct (proj1 (rt_rd vc dv) Hv v Dv) as (ov & Ev & Rv).
  exists (ok ++ W COLON :: ov). split; [cbn [ser field_codec]; unfold field_ser; cbn [fst snd]; rewrite Ek, Ev; reflexivity|].
  rewrite flat_app. cbn [flat flat1 app]. apply (field_rd kc vc (flat ok) k (flat ov) v [] []); auto; constructor.
Qed.
Theorem field_wout {K V} (kc : codec K) (vc : codec V) dk dv : wout kc dk -> wout vc dv -> wout (field_codec kc vc) (pair_dom dk dv).
Proof.
  intros Hk Hv (k & v) (Dk & Dv). destruct (Hk k Dk) as (bk & Ek). destruct (Hv v Dv) as (bv & Ev).
  exists (bk ++ COLON :: bv). cbn [ser field_codec]. unfold field_ser. cbn [fst snd] in *. rewrite Ek, Ev. cbn [bind].
  now rewrite wr_app.
Qed.
(** keys written as RFC strings *)
Definition sout {A} (c : codec A) (dom : A -> Prop) : Prop :=
  forall v, dom v -> exists ops, ser c v = Ok ops /\ rstring (flat ops).
Inductive rfield : buf -> Prop := rfl k v : rstring k -> rvalue v -> rfield (k ++ COLON :: v).
Lemma join_rmembers ts : ts <> [] -> Forall rfield ts -> rmembers (join ts).
Proof.
  intros Hne H. induction H as [|t ts Ht Hts IH]; [congruence|]. destruct Ht as [k v Hk Hv]. destruct ts as [|u ts].
  - cut (rmembers ([] ++ k ++ [] ++ COLON :: [] ++ v ++ [])); [cbn [app join]; now rewrite app_nil_r|].
    apply rme_one; auto; constructor.
  - cut (rmembers ([] ++ k ++ [] ++ COLON :: [] ++ v ++ [] ++ COMMA :: join (u :: ts))).
    + cbn [app]. change (join ((k ++ COLON :: v) :: u :: ts)) with ((k ++ COLON :: v) ++ COMMA :: join (u :: ts)).
      now rewrite <- app_assoc.
    + apply rme_more; auto; try constructor. apply IH. discriminate.
Qed.
Theorem dict_jout {K V C S} (k : container (K * V) C S) (kc : codec K) (vc : codec V) d0 dk dv (cdom : C -> Prop) :
  sout kc dk -> jout vc dv -> (forall c, cdom c -> Forall (pair_dom dk dv) (c_list k c)) ->
  jout (seq_codec k LCB RCB (field_codec kc vc) d0) cdom.
Proof.
  intros Hk Hv Hc c Hd.
  destruct (items_ser_ok (ser (field_codec kc vc)) (c_list k c) (fun _ o => rfield (flat o))) as (opss & ops & F & E & Ef & _).
  { eapply Forall_impl; [|exact (Hc c Hd)]. intros (x & v) (Dx & Dv). cbn in Dx, Dv.
    destruct (Hk x Dx) as (ok & Ek & Rk). destruct (Hv v Dv) as (ov & Ev & Rv).
    exists (ok ++ W COLON :: ov). split; [cbn [ser field_codec]; unfold field_ser; cbn [fst snd]; rewrite Ek, Ev; reflexivity|].
    rewrite flat_app. cbn [flat flat1 app]. now constructor. }
  exists (W LCB :: ops ++ [W RCB]). split; [cbn [ser seq_codec]; unfold seq_ser; rewrite E; reflexivity|].
  cbn [flat flat1 app]. rewrite flat_app, Ef. cbn [flat flat1 app].
  assert (G : Forall rfield (map flat opss)).
  { apply Forall2_flip' in F. clear - F. induction F as [|o v os vs (_ & H) F IH]; cbn; constructor; auto. }
  destruct opss as [|o opss]; [apply (rv_obj0 []); constructor|]. apply rv_obj, join_rmembers; [discriminate|exact G].
Qed.

(** ---- vectors ---- *)
Lemma fold_snoc {A} (l acc : list A) : fold_left (fun l x => l ++ [x]) l acc = acc ++ l.
Proof. revert acc. induction l as [|x l IH]; intros acc; cbn; [now rewrite app_nil_r|]. rewrite IH, <- app_assoc. reflexivity. Qed.

(** ---- sorted containers ---- *)
Section Sorted.
  Context {A : Type} (lt : A -> A -> bool) (W : swo lt).
  Fixpoint slt (l : list A) : Prop :=
    match l with [] => True | x :: t => (forall y, In y t -> lt x y = true) /\ slt t end.
  Fixpoint sle (l : list A) : Prop :=
    match l with [] => True | x :: t => (forall y, In y t -> lt y x = false) /\ sle t end.
  Lemma slt_sorted l : slt l <-> sorted_lt lt l.
  Proof.
    induction l as [|x l IH]; cbn.
    - split; [|auto]. intros _ i j y z _ H. destruct i; discriminate.
    - rewrite IH. unfold sorted_lt. split.
      + intros (H1 & H2) i j y z Hij Hi Hj. destruct i as [|i]; destruct j as [|j]; try lia; cbn in *.
        * injection Hi as <-. apply H1. now apply nth_error_In in Hj.
        * apply (H2 i j); auto; lia.
      + intros H. split.
        * intros y Hy. apply In_nth_error in Hy. destruct Hy as (j & Hj). apply (H 0%nat (Datatypes.S j)); auto; lia.
        * intros i j y z Hij Hi Hj. apply (H (Datatypes.S i) (Datatypes.S j)); auto; lia.
  Qed.
  Lemma sle_sorted l : sle l <-> sorted_le lt l.
  Proof.
    induction l as [|x l IH]; cbn.
    - split; [|auto]. intros _ i j y z _ H. destruct i; discriminate.
    - rewrite IH. unfold sorted_le. split.
      + intros (H1 & H2) i j y z Hij Hi Hj. destruct i as [|i]; destruct j as [|j]; try lia; cbn in *.
        * injection Hi as <-. apply H1. now apply nth_error_In in Hj.
        * apply (H2 i j); auto; lia.
      + intros H. split.
        * intros y Hy. apply In_nth_error in Hy. destruct Hy as (j & Hj). apply (H 0%nat (Datatypes.S j)); auto; lia.
        * intros i j y z Hij Hi Hj. apply (H (Datatypes.S i) (Datatypes.S j)); auto; lia.
  Qed.

  Lemma set_insert_in x l y : In y (set_insert lt x l) -> y = x \/ In y l.
  Proof.
    induction l as [|z l IH]; cbn; [intuition|]. destruct (lt x z); cbn; [intuition|]. destruct (lt z x); cbn; [|intuition].
    intros [H|H]; [intuition|]. destruct (IH H); intuition.
  Qed.
  Lemma set_insert_slt x l : slt l -> slt (set_insert lt x l).
  Proof.
    induction l as [|z l IH]; cbn; [intuition|]. intros (H1 & H2). destruct (lt x z) eqn:E1.
    - cbn. split; [|auto]. intros y [->|Hy]; [exact E1|]. eapply swo_trans; eauto.
    - destruct (lt z x) eqn:E2; cbn; [|auto]. split; [|auto]. intros y Hy. apply set_insert_in in Hy. destruct Hy as [->|Hy]; auto.
  Qed.
  Lemma set_fold_slt vs : forall l, slt l -> slt (fold_left (fun l x => set_insert lt x l) vs l).
  Proof. induction vs as [|v vs IH]; cbn; auto using set_insert_slt. Qed.

  Lemma eqv_refl x : eqv lt x x = true.
  Proof. unfold eqv. now rewrite (swo_irr lt W). Qed.
  Lemma eqv_sym x y : eqv lt x y = eqv lt y x.
  Proof. unfold eqv. apply andb_comm. Qed.
  Lemma eqv_lt x y z : eqv lt x y = true -> lt x z = lt y z.
  Proof.
    unfold eqv. intros H. apply andb_prop in H. destruct H as (H1 & H2). apply negb_true_iff in H1, H2.
    destruct (lt x z) eqn:E1, (lt y z) eqn:E2; auto.
    - destruct (swo_neg lt W x z y E1); congruence.
    - destruct (swo_neg lt W y z x E2); congruence.
  Qed.
  Lemma eqv_lt' x y z : eqv lt x y = true -> lt z x = lt z y.
  Proof.
    unfold eqv. intros H. apply andb_prop in H. destruct H as (H1 & H2). apply negb_true_iff in H1, H2.
    destruct (lt z x) eqn:E1, (lt z y) eqn:E2; auto.
    - destruct (swo_neg lt W z x y E1); congruence.
    - destruct (swo_neg lt W z y x E2); congruence.
  Qed.
  Lemma eqv_eqv x y z : eqv lt x y = true -> eqv lt x z = eqv lt y z.
  Proof. intros H. unfold eqv at 1 2. now rewrite (eqv_lt x y z H), (eqv_lt' x y z H). Qed.

  (** lookup after an insertion: the new element only if nothing equivalent was there *)
  Lemma set_insert_find x l y : slt l ->
    find (eqv lt y) (set_insert lt x l) =
    match find (eqv lt y) l with Some z => Some z | None => if eqv lt y x then Some x else None end.
  Proof.
    induction l as [|z l IH]; cbn [slt set_insert find]; [reflexivity|]. intros (H1 & H2).
    destruct (lt x z) eqn:E1.
    - cbn [find]. destruct (eqv lt y x) eqn:Ex; [|destruct (eqv lt y z); [reflexivity|]; destruct (find (eqv lt y) l); reflexivity].
      (* y ~ x < z <= everything: nothing equivalent to y in z :: l *)
      assert (N : forall w, In w (z :: l) -> eqv lt y w = false).
      { intros w Hw. rewrite (eqv_eqv y x w Ex). unfold eqv.
        assert (lt x w = true) as ->; [|reflexivity]. destruct Hw as [<-|Hw]; [exact E1|]. eapply swo_trans; eauto. }
      rewrite (N z) by now left. destruct (find (eqv lt y) l) as [w|] eqn:F; [|reflexivity].
      apply find_some in F. rewrite (N w) in F; [destruct F; discriminate|now right; apply F].
    - destruct (lt z x) eqn:E2; cbn [find].
      + destruct (eqv lt y z); [reflexivity|]. now apply IH.
      + destruct (eqv lt y z) eqn:Ez; [reflexivity|].
        assert (Exz : eqv lt x z = true) by (unfold eqv; now rewrite E1, E2).
        assert (eqv lt y x = false) as ->.
        { rewrite eqv_sym, (eqv_eqv x z y Exz), eqv_sym. exact Ez. }
        destruct (find (eqv lt y) l); reflexivity.
  Qed.
  Lemma set_fold_find vs : forall l y, slt l ->
    find (eqv lt y) (fold_left (fun l x => set_insert lt x l) vs l) =
    match find (eqv lt y) l with Some z => Some z | None => find (eqv lt y) vs end.
  Proof.
    induction vs as [|v vs IH]; intros l y Hl; cbn [fold_left find]; [destruct (find (eqv lt y) l); reflexivity|].
    rewrite IH by now apply set_insert_slt. rewrite set_insert_find by exact Hl.
    destruct (find (eqv lt y) l); [reflexivity|]. destruct (eqv lt y v); reflexivity.
  Qed.

  Lemma set_insert_end x l : (forall y, In y l -> lt y x = true) -> set_insert lt x l = l ++ [x].
  Proof.
    induction l as [|z l IH]; cbn; [reflexivity|]. intros H. rewrite (H z) by now left.
    assert (lt x z = false) as ->.
    { destruct (lt x z) eqn:E; [|reflexivity]. pose proof (swo_trans lt W x z x E (H z (or_introl eq_refl))) as K.
      rewrite (swo_irr lt W) in K. discriminate. }
    f_equal. apply IH. intros; apply H; now right.
  Qed.
  Lemma slt_app l x t : slt (l ++ x :: t) -> forall y, In y l -> lt y x = true.
  Proof.
    induction l as [|z l IH]; cbn; [contradiction|]. intros (H1 & H2) y [->|Hy]; [|now apply IH].
    apply H1. apply in_or_app. right. now left.
  Qed.
  Lemma set_fold_id vs : forall l, slt (l ++ vs) -> fold_left (fun l x => set_insert lt x l) vs l = l ++ vs.
  Proof.
    induction vs as [|v vs IH]; intros l H; cbn [fold_left]; [now rewrite app_nil_r|].
    rewrite set_insert_end by (now apply slt_app with vs). rewrite IH; rewrite <- app_assoc; [reflexivity|exact H].
  Qed.

  (** multi containers *)
  Lemma lower_le_upper x l : sle l -> (lower_bound lt x l <= upper_bound lt x l)%nat.
  Proof.
    induction l as [|y l IH]; cbn; [lia|]. intros (H1 & H2). destruct (lt y x) eqn:E1; [|lia].
    destruct (lt x y) eqn:E2; [|specialize (IH H2); lia].
    pose proof (swo_trans lt W _ _ _ E1 E2) as K. rewrite (swo_irr lt W) in K. discriminate.
  Qed.
  Lemma upper_len x l : (upper_bound lt x l <= length l)%nat.
  Proof. induction l as [|y l IH]; cbn; [lia|]. destruct (lt x y); lia. Qed.
  Lemma insert_at_perm n (x : A) l : Permutation (x :: l) (insert_at n x l).
  Proof. unfold insert_at. rewrite <- (firstn_skipn n l) at 1. apply Permutation_middle. Qed.
  Lemma insert_at_sle x : forall l p, sle l -> (lower_bound lt x l <= p <= upper_bound lt x l)%nat -> sle (insert_at p x l).
  Proof.
    induction l as [|y l IH]; intros p Hs Hp.
    - cbn in Hp. assert (p = 0)%nat as -> by lia. cbn. intuition.
    - cbn [sle] in Hs. destruct Hs as (H1 & H2). cbn [lower_bound upper_bound] in Hp.
      destruct p as [|p].
      + unfold insert_at. cbn. destruct (lt y x) eqn:E; [lia|]. split; [|auto]. intros z [<-|Hz]; [exact E|].
        destruct (lt z x) eqn:Ez; [|reflexivity]. destruct (swo_neg lt W z x y Ez); [|congruence].
        rewrite (H1 z Hz) in H. discriminate.
      + destruct (lt x y) eqn:E2; [lia|]. change (insert_at (Datatypes.S p) x (y :: l)) with (y :: insert_at p x l).
        cbn [sle]. split.
        * intros z Hz. apply (Permutation_in z (Permutation_sym (insert_at_perm p x l))) in Hz. destruct Hz as [<-|Hz]; auto.
        * apply IH; [exact H2|]. destruct (lt y x) eqn:E1; [lia|]. split; [|lia].
          (* y is equivalent to x, so the lower bound of the sorted rest is 0 *)
          assert (lower_bound lt x l = 0%nat) as ->; [|lia]. destruct l as [|z l']; [reflexivity|]. cbn.
          destruct (lt z x) eqn:Ez; [|reflexivity]. destruct (swo_neg lt W z x y Ez); [|congruence].
          rewrite (H1 z) in H; [discriminate|now left].
  Qed.
  Lemma multi_insert_ok st x : sle (fst st) -> sle (fst (multi_insert lt st x)) /\ Permutation (x :: fst st) (fst (multi_insert lt st x)).
  Proof.
    destruct st as [l h]. cbn [fst multi_insert]. intros H. pose proof (lower_le_upper x l H).
    split; [apply insert_at_sle; [exact H|lia]|apply insert_at_perm].
  Qed.
  Lemma multi_fold vs : forall st, sle (fst st) ->
    sle (fst (fold_left (multi_insert lt) vs st)) /\ Permutation (fst st ++ vs) (fst (fold_left (multi_insert lt) vs st)).
  Proof.
    induction vs as [|v vs IH]; intros st H; cbn [fold_left]; [rewrite app_nil_r; auto|].
    destruct (multi_insert_ok st v H) as (H1 & H2). destruct (IH _ H1) as (H3 & H4). split; [exact H3|].
    eapply perm_trans; [|exact H4]. eapply perm_trans; [apply Permutation_sym, Permutation_middle|].
    now apply (Permutation_app_tail vs) in H2.
  Qed.
  Lemma sle_app l x t : sle (l ++ x :: t) -> forall y, In y l -> lt x y = false.
  Proof.
    induction l as [|z l IH]; cbn; [contradiction|]. intros (H1 & H2) y [->|Hy]; [|now apply IH].
    apply H1. apply in_or_app. right. now left.
  Qed.
  Lemma upper_end x l : (forall y, In y l -> lt x y = false) -> upper_bound lt x l = length l.
  Proof.
    induction l as [|z l IH]; cbn; [reflexivity|]. intros H. rewrite (H z) by now left. f_equal. apply IH. intros; apply H; now right.
  Qed.
  Lemma sle_front l t : sle (l ++ t) -> sle l.
  Proof.
    induction l as [|z l IH]; cbn; [auto|]. intros (H1 & H2). split; [|auto]. intros y Hy. apply H1, in_or_app. now left.
  Qed.
  Lemma multi_fold_id vs : forall l, sle (l ++ vs) ->
    fold_left (multi_insert lt) vs (l, length l) = (l ++ vs, length (l ++ vs)).
  Proof.
    induction vs as [|v vs IH]; intros l H; cbn [fold_left]; [now rewrite app_nil_r|].
    assert (E : multi_insert lt (l, length l) v = (l ++ [v], length (l ++ [v]))).
    { cbn [multi_insert]. pose proof (lower_le_upper v l (sle_front _ _ H)).
      rewrite (upper_end v l) in * by (now apply sle_app with vs).
      replace (Nat.max (lower_bound lt v l) (Nat.min (length l) (length l))) with (length l) by lia.
      unfold insert_at. rewrite firstn_all, skipn_all, app_length. cbn [length]. f_equal. lia. }
    rewrite E, IH; rewrite <- app_assoc; [reflexivity|exact H].
  Qed.
End Sorted.

Lemma Forall_app_l {A} (P : A -> Prop) l m : Forall P (l ++ m) -> Forall P l.
Proof. intros H. apply Forall_app in H. tauto. Qed.

(** round trips *)
Theorem vector_rt {A} (item : codec A) d0 dom : rt item dom -> rt (vector_codec item d0) (Forall dom).
Proof.
  intros H. apply (seq_rt vec_cont LBR RBR item d0 dom); [now left|exact H|].
  intros l Hl. split; [exact Hl|]. cbn [c_get c_ins c_new c_list vec_cont]. apply (fold_snoc l []).
Qed.
Theorem dict_vec_rt {K V} (kc : codec K) (vc : codec V) d0 dk dv : rt kc dk -> rt vc dv ->
  rt (dict_vec_codec kc vc d0) (Forall (pair_dom dk dv)).
Proof.
  intros Hk Hv. apply (seq_rt vec_cont LCB RCB (field_codec kc vc) d0 (pair_dom dk dv)); [now right|now apply field_rt|].
  intros l Hl. split; [exact Hl|]. cbn [c_get c_ins c_new c_list vec_cont]. apply (fold_snoc l []).
Qed.
Theorem set_rt {A} lt (item : codec A) d0 dom : swo lt -> rt item dom ->
  rt (set_codec lt item d0) (fun l => Forall dom l /\ sorted_lt lt l).
Proof.
  intros W H. apply (seq_rt (set_cont lt) LBR RBR item d0 dom); [now left|exact H|].
  intros l (Hl & Hs). split; [exact Hl|]. apply slt_sorted in Hs. exact (set_fold_id lt W l [] Hs).
Qed.
Theorem multiset_rt {A} lt (item : codec A) d0 dom : swo lt -> rt item dom ->
  rt (multiset_codec lt item d0) (fun l => Forall dom l /\ sorted_le lt l).
Proof.
  intros W H. apply (seq_rt (multi_cont lt) LBR RBR item d0 dom); [now left|exact H|].
  intros l (Hl & Hs). split; [exact Hl|]. apply sle_sorted in Hs.
  cbn [c_get c_ins c_new c_list multi_cont]. pose proof (multi_fold_id lt W l [] Hs) as K. cbn [app length] in K. now rewrite K.
Qed.
Lemma klt_swo {K V} (lt : K -> K -> bool) : swo lt -> swo (@klt K V lt).
Proof.
  intros [H1 H2 H3]. split; unfold klt; intros; eauto.
Qed.
Theorem map_rt {K V} lt (kc : codec K) (vc : codec V) d0 dk dv : swo lt -> rt kc dk -> rt vc dv ->
  rt (map_codec lt kc vc d0) (fun l => Forall (pair_dom dk dv) l /\ sorted_lt (klt lt) l).
Proof.
  intros W Hk Hv. apply (seq_rt (set_cont (klt lt)) LCB RCB (field_codec kc vc) d0 (pair_dom dk dv)); [now right|now apply field_rt|].
  intros l (Hl & Hs). split; [exact Hl|]. apply slt_sorted in Hs. exact (set_fold_id (klt lt) (klt_swo lt W) l [] Hs).
Qed.
Theorem multimap_rt {K V} lt (kc : codec K) (vc : codec V) d0 dk dv : swo lt -> rt kc dk -> rt vc dv ->
  rt (multimap_codec lt kc vc d0) (fun l => Forall (pair_dom dk dv) l /\ sorted_le (klt lt) l).
Proof.
  intros W Hk Hv. apply (seq_rt (multi_cont (klt lt)) LCB RCB (field_codec kc vc) d0 (pair_dom dk dv)); [now right|now apply field_rt|].
  intros l (Hl & Hs). split; [exact Hl|]. apply sle_sorted in Hs.
  cbn [c_get c_ins c_new c_list multi_cont]. pose proof (multi_fold_id (klt lt) (klt_swo lt W) l [] Hs) as K0. cbn [app length] in K0. now rewrite K0.
Qed.

(** whatever the input, set/map contents are sorted and duplicate free,
    multiset/multimap contents are sorted *)
Lemma seq_loop_inv {A S} item (ins : S -> A -> S) d0 R (P : S -> Prop) : (forall st x, P st -> P (ins st x)) ->
  forall fuel st s e st' r e', P st -> seq_loop item ins d0 R fuel st s e = Ok (st', r, e') -> P st'.
Proof.
  intros Hi. induction fuel as [|n IH]; intros st s e st' r e' Hp; [discriminate|]. cbn [seq_loop].
  destruct s; [intros H; injection H as <- _ _; exact Hp|].
  destruct (parse_space _ e) as [[|c t1] e1]; [intros H; injection H as <- _ _; exact Hp|].
  destruct (c =? R); [intros H; injection H as <- _ _; exact Hp|].
  destruct (item d0 (c :: t1) e1) as [[[x s2] e2]| |]; cbn [bind]; [|discriminate|discriminate].
  destruct (parse_space s2 e2) as [[|d t3] e3]; [intros H; injection H as <- _ _; auto|].
  destruct (d =? R); [intros H; injection H as <- _ _; auto|].
  destruct (negb (d =? COMMA)); [intros H; injection H as <- _ _; auto|]. apply IH. auto.
Qed.
Lemma seq_des_inv {A C S} (k : container A C S) L R item d0 (P : S -> Prop) : P (c_new k) ->
  (forall st x, P st -> P (c_ins k st x)) ->
  forall sn old s e v r e', des (seq_codec k L R item d0) sn old s e = Ok (v, r, e') -> exists st, P st /\ v = c_get k st.
Proof.
  intros H0 Hi sn old s e v r e'. cbn [des seq_codec]. unfold seq_des. destruct (is_null s).
  { destruct (parse_null s e). intros H. injection H as <- _ _. eauto. }
  destruct s as [|c t]; [intros H; injection H as <- _ _; eauto|].
  destruct (negb (c =? L)); [intros H; injection H as <- _ _; eauto|].
  destruct (seq_loop _ _ _ _ _ _ _ _) as [[[st r1] e1]| |] eqn:E; cbn [bind]; [|discriminate|discriminate].
  intros H. injection H as <- _ _. exists st. split; [|reflexivity].
  exact (seq_loop_inv _ _ _ _ P Hi _ _ _ _ _ _ _ H0 E).
Qed.
Theorem set_sorted {A} lt (item : codec A) L R d0 sn old s e v r e' : swo lt ->
  des (seq_codec (set_cont lt) L R item d0) sn old s e = Ok (v, r, e') -> sorted_lt lt v.
Proof.
  intros W H. destruct (seq_des_inv (set_cont lt) L R item d0 (slt lt) I (fun st x => set_insert_slt lt W x st) _ _ _ _ _ _ _ H) as (st & Hs & ->).
  now apply slt_sorted.
Qed.
Theorem multi_sorted {A} lt (item : codec A) L R d0 sn old s e v r e' : swo lt ->
  des (seq_codec (multi_cont lt) L R item d0) sn old s e = Ok (v, r, e') -> sorted_le lt v.
Proof.
  intros W H. destruct (seq_des_inv (multi_cont lt) L R item d0 (fun st => sle lt (fst st)) I (fun st x => fun P => proj1 (multi_insert_ok lt W st x P)) _ _ _ _ _ _ _ H) as (st & Hs & ->).
  now apply sle_sorted.
Qed.

(** ---- fixed arrays ---- *)
Lemma fix_close_good R s e s0 e0 : suffix s s0 -> estep s0 e0 e ->
  let '(r, e') := fix_close R s e in suffix r s0 /\ estep s0 e0 e'.
Proof.
  intros Hs He. unfold fix_close. destruct s as [|c t].
  { split; [apply suffix_nil|]. eapply estep_trans; [exact He|apply estep_end]. }
  destruct (negb (c =? R)).
  - split; [apply suffix_nil|]. eapply estep_trans; [exact He|]. apply estep_cerr; [discriminate|].
    apply suffix_dist in Hs. rewrite dist_cons in Hs. pose proof (dist_pos t). lia.
  - split; [|exact He]. eapply suffix_trans; [|exact Hs]. auto with suf.
Qed.
Section FixLaw.
  Context {A : Type} (item : A -> buf -> eptr -> res (A * buf * eptr)) (fresh : option A) (ex : buf) (R : Z).
  Hypothesis Hitem : forall old s e, dgood s e (item old s e).
  Lemma fix_loop_good todo : forall s e, dgood s e (fix_loop item fresh ex R todo s e).
  Proof.
    induction todo as [|x todo IH]; intros s e; cbn [fix_loop].
    { pose proof (fix_close_good R s e s e (suffix_refl s) (estep_refl s e)) as G. destruct (fix_close R s e). exact G. }
    destruct s as [|c0 t0] eqn:Es; [apply dgood_err; [discriminate|cbn; lia]|]. rewrite <- Es in *. clear Es c0 t0.
    destruct (parse_space s e) as [s1 e1] eqn:E1. destruct (space_estep _ _ _ _ E1) as (A1 & B1).
    destruct s1 as [|c t1] eqn:Es1.
    { split; [apply suffix_nil|]. eapply estep_trans; [exact B1|apply estep_end]. }
    rewrite <- Es1 in *.
    destruct (c =? R).
    { pose proof (fix_close_good R s1 e1 s e A1 B1) as G. destruct (fix_close R s1 e1). exact G. }
    apply dgood_bind.
    { eapply dgood_weaken; [exact A1|exact B1|apply Hitem]. }
    intros y s2 e2 A2 B2 E2. destruct (parse_space s2 e2) as [s3 e3] eqn:E3.
    destruct (space_estep _ _ _ _ E3) as (A3 & B3).
    assert (A3' : suffix s3 s) by (now apply suffix_trans with s2).
    assert (B3' : estep s e e3) by (eapply estep_trans; [exact B2|now apply (estep_weaken _ s2)]).
    destruct s3 as [|d t3].
    { split; [apply suffix_nil|]. eapply estep_trans; [exact B3'|apply estep_end]. }
    assert (A4 : suffix t3 s) by (eapply suffix_trans; [|exact A3']; auto with suf).
    destruct (d =? R).
    { pose proof (fix_close_good R (d :: t3) e3 s e A3' B3') as G. destruct (fix_close R (d :: t3) e3). exact G. }
    destruct (negb (d =? COMMA)).
    { split; [apply suffix_nil|]. eapply estep_trans; [exact B3'|]. apply estep_cerr; [discriminate|].
      apply suffix_dist in A3'. pose proof (dist_pos (d :: t3)). lia. }
    apply dgood_bind.
    - eapply dgood_weaken; [exact A4|exact B3'|]. apply IH.
    - intros l r e' A5 B5 _. now split.
  Qed.
  Lemma fix_null_good s l : forall s0 e0 e, suffix s s0 -> estep s0 e0 e ->
    match fix_null item l s e with Ok (_, e') => estep s0 e0 e' | UB => True | Fuel => False end.
  Proof.
    induction l as [|x l IH]; intros s0 e0 e Hs He; cbn [fix_null]; [exact He|].
    pose proof (Hitem x s e) as G. destruct (item x s e) as [[[y r] e1]| |]; cbn [bind]; [|exact I|exact G].
    destruct G as (G1 & G2). specialize (IH s0 e0 e1 Hs).
    assert (B : estep s0 e0 e1) by (eapply estep_trans; [exact He|now apply (estep_weaken _ s)]). specialize (IH B).
    destruct (fix_null item l s e1) as [[t' e2]| |]; cbn [bind]; auto.
  Qed.
End FixLaw.
Theorem fix_dlaw {A} fresh ex L R (item : codec A) : dlaw (des item) -> dlaw (fix_des fresh ex L R item).
Proof.
  intros H sn old s e. unfold fix_des. destruct (is_null s).
  { pose proof (fix_null_good (des item sn) (fun old s e => H sn old s e) s old s e e (suffix_refl s) (estep_refl s e)) as G.
    destruct (fix_null (des item sn) old s e) as [[l e1]| |]; cbn [bind]; [|exact I|exact G].
    destruct (null_good s) as (r & o & A1 & B1 & B2 & _). rewrite A1. split; [exact B1|]. eapply estep_trans; [exact G|now apply estep_app]. }
  destruct s as [|c t]; [apply dgood_err; [discriminate|cbn; lia]|].
  destruct (negb (c =? L)).
  { apply dgood_err; [discriminate|]. rewrite dist_cons. pose proof (dist_pos t). lia. }
  apply (dgood_weaken _ t _ e); [auto with suf|apply estep_refl|]. apply fix_loop_good. intros; apply H.
Qed.
Lemma fix_loop_safe {A} (item : A -> buf -> eptr -> res (A * buf * eptr)) fresh ex R :
  (forall x s e, item x s e <> UB) -> forall todo s e, fix_loop item fresh ex R todo s e <> UB.
Proof.
  intros Hi. induction todo as [|x todo IH]; intros s e; cbn [fix_loop]; [destruct (fix_close R s e); discriminate|].
  destruct s; [discriminate|]. destruct (parse_space _ e) as [[|c t1] e1]; [discriminate|].
  destruct (c =? R); [destruct (fix_close _ _ _); discriminate|].
  intros H. apply bind_ub in H. destruct H as [H|([[y s2] e2] & _ & H)]; [now apply (Hi _ _ _ H)|].
  destruct (parse_space s2 e2) as [[|d t3] e3]; [discriminate|]. destruct (d =? R); [destruct (fix_close _ _ _); discriminate|].
  destruct (negb (d =? COMMA)); [discriminate|]. apply bind_ub in H. destruct H as [H|([[l r] e4] & _ & H)]; [now apply (IH _ _ H)|discriminate].
Qed.
Lemma fix_null_safe {A} (item : A -> buf -> eptr -> res (A * buf * eptr)) :
  (forall x s e, item x s e <> UB) -> forall l s e, fix_null item l s e <> UB.
Proof.
  intros Hi. induction l as [|x l IH]; intros s e; cbn [fix_null]; [discriminate|].
  intros H. apply bind_ub in H. destruct H as [H|([[y s2] e2] & _ & H)]; [now apply (Hi _ _ _ H)|].
  apply bind_ub in H. destruct H as [H|([l' e4] & _ & H)]; [now apply (IH _ _ H)|discriminate].
Qed.
Theorem fix_dsafe {A} fresh ex L R (item : codec A) : dsafe (des item) -> dsafe (fix_des fresh ex L R item).
Proof.
  intros H sn old s e Hsn. unfold fix_des. destruct (is_null s).
  { intros K. apply bind_ub in K. destruct K as [K|([l e1] & _ & K)]; [|destruct (parse_null s e1); discriminate].
    revert K. apply fix_null_safe. intros; now apply H. }
  destruct s as [|c t]; [discriminate|]. destruct (negb (c =? L)); [discriminate|]. apply fix_loop_safe. intros; now apply H.
Qed.

(** never more than N elements *)
Lemma fix_loop_len {A} (item : A -> buf -> eptr -> res (A * buf * eptr)) fresh ex R : forall todo s e l r e',
  fix_loop item fresh ex R todo s e = Ok (l, r, e') -> length l = length todo.
Proof.
  induction todo as [|x todo IH]; intros s e l r e'; cbn [fix_loop].
  { destruct (fix_close R s e). intros H. injection H as <- _ _. reflexivity. }
  destruct s; [intros H; injection H as <- _ _; reflexivity|].
  destruct (parse_space _ e) as [[|c t1] e1]; [intros H; injection H as <- _ _; reflexivity|].
  destruct (c =? R); [destruct (fix_close _ _ _); intros H; injection H as <- _ _; reflexivity|].
  destruct (item _ _ _) as [[[y s2] e2]| |]; cbn [bind]; [|discriminate|discriminate].
  destruct (parse_space s2 e2) as [[|d t3] e3]; [intros H; injection H as <- _ _; reflexivity|].
  destruct (d =? R); [destruct (fix_close _ _ _); intros H; injection H as <- _ _; reflexivity|].
  destruct (negb (d =? COMMA)); [intros H; injection H as <- _ _; reflexivity|].
  destruct (fix_loop item fresh ex R todo t3 e3) as [[[l' r'] e4]| |] eqn:E; cbn [bind]; [|discriminate|discriminate].
  intros H. injection H as <- _ _. cbn. f_equal. exact (IH _ _ _ _ _ E).
Qed.
Lemma fix_null_len {A} (item : A -> buf -> eptr -> res (A * buf * eptr)) : forall l s e l' e',
  fix_null item l s e = Ok (l', e') -> length l' = length l.
Proof.
  induction l as [|x l IH]; intros s e l' e'; cbn [fix_null]; [intros H; injection H as <- _; reflexivity|].
  destruct (item x s e) as [[[y r] e1]| |]; cbn [bind]; [|discriminate|discriminate].
  destruct (fix_null item l s e1) as [[t' e2]| |] eqn:E; cbn [bind]; [|discriminate|discriminate].
  intros H. injection H as <- _. cbn. f_equal. exact (IH _ _ _ _ E).
Qed.
Theorem fix_len {A} fresh ex L R (item : codec A) sn old s e l r e' :
  fix_des fresh ex L R item sn old s e = Ok (l, r, e') -> length l = length old.
Proof.
  unfold fix_des. destruct (is_null s).
  { destruct (fix_null (des item sn) old s e) as [[l1 e1]| |] eqn:E; cbn [bind]; [|discriminate|discriminate].
    destruct (parse_null s e1). intros H. injection H as <- _ _. exact (fix_null_len _ _ _ _ _ _ E). }
  destruct s as [|c t]; [intros H; injection H as <- _ _; reflexivity|].
  destruct (negb (c =? L)); [intros H; injection H as <- _ _; reflexivity|]. apply fix_loop_len.
Qed.

(** reading at most N texts *)
Section FixRead.
  Context {A : Type} (fresh : option A) (ex : buf) (R : Z) (item : codec A) (sn : option Z).
  Hypothesis HR : R = RBR \/ R = RCB.
  Lemma fix_loop_end g r e todo : gap g -> g = [] \/ todo <> [] -> fix_loop (des item sn) fresh ex R todo (g ++ R :: r) e = Ok (todo, r, e).
  Proof.
    intros Hg H. destruct todo as [|x todo]; cbn [fix_loop].
    - destruct H as [->|H]; [|congruence]. cbn [app fix_close]. rewrite Z.eqb_refl. reflexivity.
    - destruct (g ++ R :: r) eqn:E; [now apply gap_closer_nonempty in E|]. rewrite <- E.
      rewrite gap_parse_space; [|exact Hg|apply closer_stop, (R_closer R HR)]. rewrite Z.eqb_refl. cbn [fix_close].
      rewrite Z.eqb_refl. reflexivity.
  Qed.
  Lemma fix_loop_one g1 t v g2 c r x todo e : gap g1 -> gap g2 -> rd item t v -> c = R \/ c = COMMA -> no_err_yet e = true ->
    fix_loop (des item sn) fresh ex R (x :: todo) (g1 ++ t ++ g2 ++ c :: r) e =
    if c =? COMMA then let* (l, r', e') := fix_loop (des item sn) fresh ex R todo r e in Ok (v :: l, r', e')
    else Ok (v :: todo, r, e).
  Proof.
    intros Hg1 Hg2 Hv Hc He. cbn [fix_loop].
    assert (Hcc : closer c) by (unfold closer; lia).
    destruct (g1 ++ t ++ g2 ++ c :: r) eqn:E.
    { destruct (rd_head _ _ _ Hv) as (h & y & -> & _). destruct g1; discriminate. }
    rewrite <- E. clear E. rewrite gap_parse_space; [|exact Hg1|now apply rd_stop with item v].
    destruct Hv as ((h & y & -> & Hh) & Hrd). cbn [app].
    assert (h =? R = false) as -> by (unfold vstart, s_digit in Hh; lia).
    change (h :: y ++ g2 ++ c :: r) with ((h :: y) ++ g2 ++ c :: r).
    rewrite Hrd; [|now apply gap_follow|exact He]. cbn [bind].
    rewrite gap_parse_space; [|exact Hg2|now apply closer_stop].
    pose proof (R_comma R HR). destruct Hc as [->| ->].
    - rewrite Z.eqb_refl. destruct (R =? COMMA) eqn:E; [lia|]. cbn [fix_close]. rewrite Z.eqb_refl. reflexivity.
    - destruct (COMMA =? R) eqn:E; [lia|]. reflexivity.
  Qed.
  Lemma fix_loop_body ts b : ebody false ts b -> forall vs, Forall2 (rd item) ts vs ->
    forall todo r e, (length vs <= length todo)%nat -> no_err_yet e = true ->
    fix_loop (des item sn) fresh ex R todo (b ++ R :: r) e = Ok (vs ++ skipn (length vs) todo, r, e).
  Proof.
    induction 1 as [g1 t g2 Hg1 Hg2|g1 t g2 g3 Htc Hg1 Hg2 Hg3|g1 t g2 ts b Hg1 Hg2 Hb IH]; intros vs Hvs todo r e Hn He; [|discriminate|].
    - inversion Hvs as [|? v ? vs' Hv Hnil]; subst. inversion Hnil; subst. destruct todo as [|x todo]; [cbn in Hn; lia|].
      rewrite <- !app_assoc. rewrite (fix_loop_one g1 t v g2 R r x todo e); auto.
      pose proof (R_comma R HR). destruct (R =? COMMA) eqn:E; [lia|reflexivity].
    - inversion Hvs as [|? v ? vs' Hv Hvs']; subst. destruct todo as [|x todo]; [cbn in Hn; lia|].
      rewrite <- !app_assoc. cbn [app]. rewrite (fix_loop_one g1 t v g2 COMMA (b ++ R :: r) x todo e); auto.
      change (COMMA =? COMMA) with true. cbv iota. rewrite (IH vs' Hvs' todo r e); [reflexivity|cbn in Hn; lia|exact He].
  Qed.
  (** more texts than elements: an error *)
  Lemma fix_loop_too_many ts b : ebody false ts b -> forall vs, Forall2 (rd item) ts vs ->
    forall todo r k, (length todo < length vs)%nat -> is_err k = false -> todo <> [] ->
    exists l j, fix_loop (des item sn) fresh ex R todo (b ++ R :: r) (Some k) = Ok (l, [], Some j) /\ is_err j = true /\ l = firstn (length todo) vs.
  Proof.
    induction 1 as [g1 t g2 Hg1 Hg2|g1 t g2 g3 Htc Hg1 Hg2 Hg3|g1 t g2 ts b Hg1 Hg2 Hb IH]; intros vs Hvs todo r k Hn Hk Ht; [|discriminate|].
    - inversion Hvs as [|? v ? vs' Hv Hnil]; subst. inversion Hnil; subst. destruct todo; [congruence|cbn in Hn; lia].
    - inversion Hvs as [|? v ? vs' Hv Hvs']; subst. destruct todo as [|x todo]; [congruence|].
      rewrite <- !app_assoc. cbn [app]. rewrite (fix_loop_one g1 t v g2 COMMA (b ++ R :: r) x todo (Some k)); auto; [|cbn; now rewrite Hk].
      change (COMMA =? COMMA) with true. cbv iota. cbn [length] in Hn. destruct todo as [|y todo].
      + cbn [fix_loop].
        assert (exists c z, b ++ R :: r = c :: z /\ c <> R) as (c & z & -> & Hc).
        { assert (G : forall g (t : buf) (v : A) z, gap g -> rd item t v -> exists c y, g ++ t ++ z = c :: y /\ c <> R).
          { intros g t0 v0 z Hg Hr. destruct (gap_head g Hg) as [->|(c & y & -> & Hc)].
            - destruct (rd_head _ _ _ Hr) as (h & y & -> & Hh). exists h, (y ++ z). split; [reflexivity|].
              unfold vstart, s_digit in Hh. lia.
            - exists c, (y ++ t0 ++ z). split; [reflexivity|]. unfold s_ws in Hc. lia. }
          remember ts as ts' eqn:Ets. destruct Hb as [g1' t' g2' ? ?|? ? ? ? Htc|g1' t' g2' ts0 b0 ? ? ?]; [|discriminate|];
            inversion Hvs'; subst; rewrite <- !app_assoc; eapply G; eauto. }
        cbn [fix_close]. destruct (c =? R) eqn:E; [lia|]. cbn [negb bind]. unfold cerr. rewrite Hk.
        eexists _, _. split; [reflexivity|]. split; reflexivity.
      + destruct (IH vs' Hvs' (y :: todo) r k) as (l & j & E & Hj & El); [cbn [length] in *; lia|exact Hk|discriminate|].
        rewrite E. cbn [bind]. eexists _, _. split; [reflexivity|]. split; [exact Hj|]. subst l. reflexivity.
  Qed.
  (** what the targets contain *)
  Definition tgt (x : A) : A := match fresh with Some d0 => d0 | None => x end.
  Lemma fix_loop_into g1 t v g2 c r x todo e : gap g1 -> gap g2 -> rd_into item (tgt x) t v -> c = R \/ c = COMMA -> no_err_yet e = true ->
    fix_loop (des item sn) fresh ex R (x :: todo) (g1 ++ t ++ g2 ++ c :: r) e =
    if c =? COMMA then let* (l, r', e') := fix_loop (des item sn) fresh ex R todo r e in Ok (v :: l, r', e')
    else Ok (v :: todo, r, e).
  Proof.
    intros Hg1 Hg2 ((h & y & -> & Hh) & Hrd) Hc He. cbn [fix_loop]. fold (tgt x). cbn [app].
    assert (Hcc : closer c) by (unfold closer; lia).
    destruct (g1 ++ h :: y ++ g2 ++ c :: r) eqn:E; [destruct g1; discriminate|].
    rewrite <- E. clear E. rewrite gap_parse_space; [|exact Hg1|now apply vstart_stop].
    assert (h =? R = false) as -> by (unfold vstart, s_digit in Hh; lia).
    change (h :: y ++ g2 ++ c :: r) with ((h :: y) ++ g2 ++ c :: r).
    rewrite Hrd; [|now apply gap_follow|exact He]. cbn [bind].
    rewrite gap_parse_space; [|exact Hg2|now apply closer_stop].
    pose proof (R_comma R HR). destruct Hc as [->| ->].
    - rewrite Z.eqb_refl. destruct (R =? COMMA) eqn:E; [lia|]. cbn [fix_close]. rewrite Z.eqb_refl. reflexivity.
    - destruct (COMMA =? R) eqn:E; [lia|]. reflexivity.
  Qed.
  Lemma fix_loop_filled ts b : ebody false ts b -> forall old new, filled item tgt old ts new ->
    forall r e, no_err_yet e = true -> fix_loop (des item sn) fresh ex R old (b ++ R :: r) e = Ok (new, r, e).
  Proof.
    induction 1 as [g1 t g2 Hg1 Hg2|g1 t g2 g3 Htc Hg1 Hg2 Hg3|g1 t g2 ts b Hg1 Hg2 Hb IH]; intros old new Hf r e He; [|discriminate|].
    - inversion Hf as [|x l ? ? v vs Hv Hl]; subst. inversion Hl; subst.
      rewrite <- !app_assoc. rewrite (fix_loop_into g1 t v g2 R r x vs e); auto.
      pose proof (R_comma R HR). destruct (R =? COMMA) eqn:E; [lia|reflexivity].
    - inversion Hf as [|x l ? ? v vs Hv Hl]; subst.
      rewrite <- !app_assoc. cbn [app]. rewrite (fix_loop_into g1 t v g2 COMMA (b ++ R :: r) x l e); auto.
      change (COMMA =? COMMA) with true. cbv iota. rewrite (IH l vs Hl r e); [reflexivity|exact He].
  Qed.
End FixRead.
Theorem fix_filled {A} fresh ex L R (item : codec A) ts b new sn old r e :
  brackets L R -> spaced false ts b -> filled item (tgt fresh) old ts new -> old <> [] -> no_err_yet e = true ->
  fix_des fresh ex L R item sn old (L :: b ++ R :: r) e = Ok (new, r, e).
Proof.
  intros HB Hs Hf Hz He. destruct (brackets_facts L R HB) as (HL & HLn & HR).
  unfold fix_des, is_null, starts. destruct (L =? 110) eqn:E; [lia|]. rewrite Z.eqb_refl. cbn [negb].
  destruct Hs as [g Hg|ts b Hb].
  - inversion Hf; subst. apply fix_loop_end; auto.
  - now apply (fix_loop_filled _ _ _ _ _ HR ts b).
Qed.

Theorem fix_rd {A} fresh ex L R (item : codec A) ts b vs sn old r e :
  brackets L R -> spaced false ts b -> Forall2 (rd item) ts vs -> (length vs <= length old)%nat ->
  ts <> [] \/ b = [] \/ old <> [] -> no_err_yet e = true ->
  fix_des fresh ex L R item sn old (L :: b ++ R :: r) e = Ok (vs ++ skipn (length vs) old, r, e).
Proof.
  intros HB Hs Hvs Hn Hz He. destruct (brackets_facts L R HB) as (HL & HLn & HR).
  unfold fix_des, is_null, starts. destruct (L =? 110) eqn:E; [lia|]. rewrite Z.eqb_refl. cbn [negb].
  destruct Hs as [g Hg|ts b Hb].
  - inversion Hvs; subst. apply fix_loop_end; auto. tauto.
  - now apply (fix_loop_body _ _ _ _ _ HR ts b).
Qed.
Theorem fix_too_many {A} fresh ex L R (item : codec A) ts b vs sn old r k :
  brackets L R -> spaced false ts b -> Forall2 (rd item) ts vs -> (length old < length vs)%nat -> old <> [] -> is_err k = false ->
  exists j, fix_des fresh ex L R item sn old (L :: b ++ R :: r) (Some k) = Ok (firstn (length old) vs, [], Some j) /\ is_err j = true.
Proof.
  intros HB Hs Hvs Hn Hz Hk. destruct (brackets_facts L R HB) as (HL & HLn & HR).
  unfold fix_des, is_null, starts. destruct (L =? 110) eqn:E; [lia|]. rewrite Z.eqb_refl. cbn [negb].
  destruct Hs as [g Hg|ts b Hb]; [inversion Hvs; subst; cbn in Hn; lia|].
  destruct (fix_loop_too_many fresh ex R item sn HR ts b Hb vs Hvs old r k Hn Hk Hz) as (l & j & E2 & Hj & ->). eauto.
Qed.

(** Round trip needs the target to have the same number of elements, which its
    type guarantees. *)
Definition rtN {A} (c : codec (list A)) (N : nat) (dom : A -> Prop) : Prop :=
  forall v, Forall dom v -> length v = N -> exists ops, ser c v = Ok ops /\
    (exists h t, flat ops = h :: t /\ vstart h) /\
    forall sn old r e, length old = N -> follow r -> no_err_yet e = true -> des c sn old (flat ops ++ r) e = Ok (v, r, e).
Theorem fix_rt {A} fresh ex (item : codec A) N dom : rt item dom ->
  rtN (mkcodec (seq_ser LBR RBR (ser item)) (fix_des fresh ex LBR RBR item)) N dom.
Proof.
  intros Hi v Hv HN.
  destruct (items_ser_ok (ser item) v (fun v o => rd item (flat o) v)) as (opss & ops & F & E & Ef & _).
  { eapply Forall_impl; [|exact Hv]. intros x Hx. exact (proj1 (rt_rd item dom) Hi x Hx). }
  exists (W LBR :: ops ++ [W RBR]). split; [cbn [ser]; unfold seq_ser; rewrite E; reflexivity|].
  cbn [flat flat1 app]. rewrite flat_app, Ef. cbn [flat flat1 app].
  split; [eexists _, _; split; [reflexivity|unfold vstart; lia]|].
  intros sn old r e Ho Hr He. cbn [des]. rewrite <- app_assoc. cbn [app].
  rewrite (fix_rd fresh ex LBR RBR item (map flat opss) (join (map flat opss)) v).
  - rewrite skipn_all2 by lia. now rewrite app_nil_r.
  - now left.
  - apply join_spaced.
  - apply Forall2_flip' in F. clear - F. induction F as [|o x os vs (_ & H) F IH]; cbn; constructor; auto.
  - lia.
  - destruct opss; [right; left; reflexivity|left; discriminate].
  - exact He.
Qed.

(** ---- fixed arrays as types with exactly N elements ---- *)
Lemma vlist_len {A n} (v : vec A n) : length (vlist v) = n.
Proof. revert v. induction n as [|n IH]; intros v; cbn; [reflexivity|]. now rewrite IH. Qed.
Lemma vfill_vlist {A n} (v w : vec A n) : vfill w (vlist v) = v.
Proof.
  revert v w. induction n as [|n IH]; cbn; intros v w; [now destruct v, w|]. rewrite IH. now destruct v.
Qed.
Lemma vlist_vfill {A n} (v : vec A n) l : length l = n -> vlist (vfill v l) = l.
Proof.
  revert v l. induction n as [|n IH]; cbn; intros v l Hl; [now destruct l|]. destruct l as [|x l]; [discriminate|].
  cbn. rewrite IH; [reflexivity|]. now injection Hl.
Qed.
Theorem vec_rt {A} (c : codec (list A)) N dom : rtN c N dom -> rt (vec_codec c N) (fun v => Forall dom (vlist v)).
Proof.
  intros H v Hv. destruct (H (vlist v) Hv (vlist_len v)) as (ops & E & Hh & Hd). exists ops. split; [exact E|]. split; [exact Hh|].
  intros sn old r e Hr He. cbn [des vec_codec]. rewrite Hd; [|apply vlist_len|exact Hr|exact He]. cbn [bind]. now rewrite vfill_vlist.
Qed.
Theorem vec_dlaw {A} (c : codec (list A)) N : dlaw (des c) -> dlaw (des (vec_codec c N)).
Proof. intros H sn old s e. cbn [des vec_codec]. apply dgood_bind; [apply H|]. intros v r e' A1 B1 _. now split. Qed.
Theorem vec_dsafe {A} (c : codec (list A)) N : dsafe (des c) -> dsafe (des (vec_codec c N)).
Proof.
  intros H sn old s e Hsn. cbn [des vec_codec]. intros K. apply bind_ub in K. destruct K as [K|([[l r] e'] & _ & K)]; [|discriminate].
  now apply (H _ _ _ _ Hsn K).
Qed.
Theorem vec_jout {A} (c : codec (list A)) N dom : jout c (Forall dom) -> jout (vec_codec c N) (fun v => Forall dom (vlist v)).
Proof. intros H v Hv. exact (H (vlist v) Hv). Qed.
Theorem vec_wout {A} (c : codec (list A)) N dom : wout c (Forall dom) -> wout (vec_codec c N) (fun v => Forall dom (vlist v)).
Proof. intros H v Hv. exact (H (vlist v) Hv). Qed.

(** ---- null ---- *)
Definition null_reads {A} (c : codec A) (d : A -> A) : Prop :=
  forall sn old r e, des c sn old (text "null" ++ r) e = Ok (d old, r, e).
Lemma parse_null_app r e : parse_null (text "null" ++ r) e = (r, e).
Proof. reflexivity. Qed.
Theorem seq_null {A C S} (k : container A C S) L R (item : codec A) d0 : null_reads (seq_codec k L R item d0) (fun _ => c_get k (c_new k)).
Proof. intros sn old r e. reflexivity. Qed.
Lemma fix_null_all {A} (item : codec A) d sn r : null_reads item d -> forall l e,
  fix_null (des item sn) l (text "null" ++ r) e = Ok (map d l, e).
Proof. intros H. induction l as [|x l IH]; intros e; cbn [fix_null map]; [reflexivity|]. rewrite H. cbn [bind]. rewrite IH. reflexivity. Qed.
Theorem fix_des_null {A} fresh ex L R (item : codec A) d : null_reads item d ->
  null_reads (mkcodec (seq_ser L R (ser item)) (fix_des fresh ex L R item)) (map d).
Proof. intros H sn old r e. cbn [des]. unfold fix_des. change (is_null (text "null" ++ r)) with true. cbv iota. rewrite (fix_null_all item d sn r H). reflexivity. Qed.
Theorem vec_null {A} (c : codec (list A)) N d : null_reads c (map d) -> null_reads (vec_codec c N) (fun v => vfill v (map d (vlist v))).
Proof. intros H sn old r e. cbn [des vec_codec]. rewrite H. reflexivity. Qed.

(** what reading any list of texts gives for maps and multimaps *)
Theorem map_first_wins {A} lt (item : codec A) d0 L R tc ts b vs : swo lt -> brackets L R -> spaced tc ts b -> Forall2 (rd item) ts vs ->
  exists m, rd (seq_codec (set_cont lt) L R item d0) (L :: b ++ [R]) m /\ sorted_lt lt m /\
    forall y, find (eqv lt y) m = find (eqv lt y) vs.
Proof.
  intros W HB Hs Hv. eexists. split; [now apply (seq_rd (set_cont lt) L R item d0 tc ts b vs)|].
  cbn [c_get c_ins c_new set_cont]. split.
  - apply slt_sorted. apply set_fold_slt; [exact W|exact I].
  - intros y. rewrite set_fold_find; [reflexivity|exact W|exact I].
Qed.
Theorem multi_keeps_all {A} lt (item : codec A) d0 L R tc ts b vs : swo lt -> brackets L R -> spaced tc ts b -> Forall2 (rd item) ts vs ->
  exists m, rd (seq_codec (multi_cont lt) L R item d0) (L :: b ++ [R]) m /\ sorted_le lt m /\ Permutation vs m.
Proof.
  intros W HB Hs Hv. eexists. split; [now apply (seq_rd (multi_cont lt) L R item d0 tc ts b vs)|].
  cbn [c_get c_ins c_new multi_cont]. destruct (multi_fold lt W vs ([], O) I) as (H1 & H2). split; [now apply sle_sorted|exact H2].
Qed.

(** orders actually used: built-in integers, std::string (unsigned bytes) *)
Lemma Zltb_swo : swo Z.ltb.
Proof. split; intros; lia. Qed.
Lemma str_lt_swo : swo str_lt.
Proof.
  split.
  - induction x as [|c x IH]; cbn; [reflexivity|]. rewrite Z.ltb_irrefl. exact IH.
  - induction x as [|a x IH]; intros [|b y] [|c z]; cbn; try discriminate; auto.
    destruct (Z.ltb_spec a b), (Z.ltb_spec b a), (Z.ltb_spec b c), (Z.ltb_spec c b), (Z.ltb_spec a c), (Z.ltb_spec c a); try lia; try discriminate; auto; apply IH.
  - induction x as [|a x IH]; intros [|b y] [|c z]; cbn; try discriminate; auto.
    destruct (Z.ltb_spec a b), (Z.ltb_spec b a), (Z.ltb_spec b c), (Z.ltb_spec c b), (Z.ltb_spec a c), (Z.ltb_spec c a); try lia; try discriminate; auto; try (intros; now left); try (intros; now right); apply IH.
Qed.

(** ---- what an accepted list looks like ---- *)
Lemma estep_clean s e e' : estep s e e' -> no_err_yet e' = true -> e = e'.
Proof. intros [->|(k & j & -> & B & -> & D & _)] H; [reflexivity|]. cbn in H. rewrite D in H. discriminate. Qed.
Lemma cerr_clean c m t k : c <> ValidJSON -> no_err_yet (cerr c m t (Some k)) = false.
Proof. intros Hc. unfold cerr. destruct (is_err k) eqn:E; cbn; [now rewrite E|]. destruct c; congruence || reflexivity. Qed.

Lemma seq_loop_sound {A S} (item : codec A) (ins : S -> A -> S) d0 R sn : dlaw (des item) -> forall fuel st s st' r,
  seq_loop (des item sn) ins d0 R fuel st s (Some no_error) = Ok (st', r, Some no_error) ->
  exists vs, items_read (fun s v r => des item sn d0 s (Some no_error) = Ok (v, r, Some no_error)) R s vs r /\ st' = fold_left ins vs st.
Proof.
  intros Hl. induction fuel as [|n IH]; intros st s st' r; [discriminate|]. cbn [seq_loop].
  destruct s as [|c0 t0] eqn:Es; [intros H; discriminate|]. rewrite <- Es. clear Es c0 t0.
  destruct (parse_space s (Some no_error)) as [s1 e1] eqn:E1. destruct (space_estep _ _ _ _ E1) as (_ & B1).
  destruct s1 as [|c t1] eqn:Es1.
  { intros H. injection H as _ _ H. destruct B1 as [->|(k & j & _ & _ & -> & D & _)]; [discriminate|].
    unfold cerr in H. rewrite D in H. injection H as ->. discriminate. }
  rewrite <- Es1 in *.
  destruct (c =? R) eqn:Ec.
  { intros H. injection H as <- <- ->. apply space_ok_inv in E1. destruct E1 as (g & -> & Hg & _).
    exists []. split; [|reflexivity]. rewrite Es1. assert (c = R) as -> by lia. now apply ir_end. }
  pose proof (Hl sn d0 s1 e1) as G2. destruct (des item sn d0 s1 e1) as [[[x s2] e2]| |] eqn:E2; cbn [bind]; [|discriminate|discriminate].
  destruct G2 as (_ & B2). destruct (parse_space s2 e2) as [s3 e3] eqn:E3. destruct (space_estep _ _ _ _ E3) as (_ & B3).
  assert (K : e3 = Some no_error -> exists g1 g2, s = g1 ++ s1 /\ gap g1 /\ s2 = g2 ++ s3 /\ gap g2 /\
            des item sn d0 s1 (Some no_error) = Ok (x, s2, Some no_error)).
  { intros ->. pose proof (estep_clean _ _ _ B3 eq_refl). subst e2. pose proof (estep_clean _ _ _ B2 eq_refl). subst e1.
    apply space_ok_inv in E1, E3. destruct E1 as (g1 & -> & Hg1 & _), E3 as (g2 & -> & Hg2 & _). exists g1, g2. auto. }
  destruct s3 as [|d t3].
  { intros H. injection H as _ _ H. destruct e3 as [k3|]; [|discriminate].
    pose proof (cerr_clean UnexpectedEndFragment None 0 k3 ltac:(discriminate)) as N. rewrite H in N. discriminate. }
  destruct (d =? R) eqn:Ed.
  { intros H. injection H as <- <- H. destruct (K H) as (g1 & g2 & -> & Hg1 & -> & Hg2 & Hx).
    exists [x]. split; [|reflexivity]. assert (d = R) as -> by lia. now apply ir_last with (g2 ++ R :: t3) g2. }
  destruct (negb (d =? COMMA)) eqn:Ed2.
  { intros H. injection H as _ _ H. destruct e3 as [k3|]; [|discriminate].
    pose proof (cerr_clean ExpectedOf (Some [COMMA]) (dist (d :: t3)) k3 ltac:(discriminate)) as N. rewrite H in N. discriminate. }
  intros H. assert (e3 = Some no_error) as ->.
  { assert (G : dgood t3 e3 (seq_loop (des item sn) ins d0 R n (ins st x) t3 e3)).
    { destruct (Nat.lt_ge_cases (length t3) n) as [L|L]; [apply seq_loop_good; [intros; apply Hl|exact L]|].
      (* not enough fuel cannot give Ok: weaken through the inductive law *)
      rewrite H. clear - H L Hl. exact (seq_loop_ok_good (des item sn) ins d0 R (fun s e => Hl sn d0 s e) n _ _ _ _ _ _ H). }
    rewrite H in G. destruct G as (_ & G). exact (estep_clean _ _ _ G eq_refl). }
  destruct (IH _ _ _ _ H) as (vs & Hvs & ->). destruct (K eq_refl) as (g1 & g2 & -> & Hg1 & -> & Hg2 & Hx).
  exists (x :: vs). split; [|reflexivity]. assert (d = COMMA) as -> by lia. now apply ir_more with (g2 ++ COMMA :: t3) g2 t3.
Qed.
Theorem seq_sound {A C S} (k : container A C S) L R (item : codec A) d0 sn old s v r : L <> 110 -> dlaw (des item) -> starts 110 s = false ->
  des (seq_codec k L R item d0) sn old s (Some no_error) = Ok (v, r, Some no_error) ->
  exists t vs, s = L :: t /\ items_read (fun s v r => des item sn d0 s (Some no_error) = Ok (v, r, Some no_error)) R t vs r /\
    v = c_get k (fold_left (c_ins k) vs (c_new k)).
Proof.
  intros HL Hl Hn. cbn [des seq_codec]. unfold seq_des. unfold is_null. rewrite Hn.
  destruct s as [|c t]; [discriminate|]. destruct (negb (c =? L)) eqn:E; [discriminate|].
  destruct (seq_loop _ _ _ _ _ _ _ _) as [[[st r1] e1]| |] eqn:E2; cbn [bind]; [|discriminate|discriminate].
  intros H. injection H as <- <- ->. destruct (seq_loop_sound item (c_ins k) d0 R sn Hl _ _ _ _ _ E2) as (vs & Hvs & ->).
  exists t, vs. split; [f_equal; lia|]. auto.
Qed.
