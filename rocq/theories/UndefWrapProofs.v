(** Proofs: when reading values and wrapped values is undefined behaviour. *)
From Verif Require Import Base Parser SpecJson SpecNum SpecString SpecEnum ParserFacts Grammar1 Grammar2 Out Number Float StringS Array Object Wrap TimeSize Enum CodecLaws
  NumberProofs StringProofs ArrayProofs EnumProofs FloatProofs WrapProofs AcceptProofs SpecReport SpecExact ExactProofs ObjExactProofs WrapExactProofs SpecRefuse RefuseProofs SpecRun RunProofs SpecUndef UndefProofs SpecUndefAll UndefAllProofs.

Ltac ub2 := solve [split; (discriminate || reflexivity)].
Lemma err_keeps A (d : option Z -> A -> buf -> eptr -> res (A * buf * eptr)) sn old s e v r x : dlaw d -> is_err e = true -> d sn old s (Some e) = Ok (v, r, x) -> x = Some e.
Proof. intros D He E. specialize (D sn old s (Some e)). rewrite E in D. destruct D as (_ & [D|(k & j & Q & Hk & _)]); [exact D|]. injection Q as <-. congruence. Qed.
(** behind an error only the first number is read *)
Theorem time_ub_err t fr sn old e s : ity_ok t -> is_err e = true -> time_des t fr sn old s (Some e) = UB <-> too_big t s \/ exists x, s = QT :: x /\ too_big t x.
Proof.
  intros Ht He. unfold time_des. destruct s as [|c s0]; [split; [discriminate|]; intros [H|(x & H & _)]; [apply too_big_head in H; destruct H; discriminate|discriminate]|].
  destruct (is_null (c :: s0)) eqn:En.
  { destruct (parse_null (c :: s0) (Some e)). split; [discriminate|]. intros [H|(x & H & _)]; [apply too_big_head in H; destruct H; congruence|]. injection H as -> ->. discriminate. }
  destruct (is_number (c :: s0)) eqn:Em.
  { rewrite (int_ub t sn 0 (c :: s0) (Some e) Ht). split; [now left|]. intros [H|(x & H & _)]; [exact H|]. injection H as -> ->. discriminate. }
  assert (NB : ~ too_big t (c :: s0)) by (intros B; apply too_big_head in B; destruct B; congruence).
  destruct (is_string (c :: s0)) eqn:Es; cbn [negb].
  2: { split; [discriminate|]. intros [H|(x & H & _)]; [contradiction|]. injection H as -> ->. discriminate. }
  destruct (is_string_qt _ Es) as (z & Ez). injection Ez as -> ->. transitivity (too_big t z); [|split; [intros H; right; now exists z|]; intros [H|(x & H & K)]; [contradiction|]; now injection H as <-].
  cbn [time_loop]. destruct z as [|c z]; [split; [discriminate|]; intros H; apply too_big_head in H; destruct H; discriminate|].
  destruct (c =? QT) eqn:Ec. { assert (c = QT) by lia. subst c. cbn [bind]. split; [discriminate|]. intros H; apply too_big_head in H; destruct H; discriminate. }
  rewrite <- (int_ub t sn 0 (c :: z) (Some e) Ht). destruct (int_des t sn 0 (c :: z) (Some e)) as [[[cur s1] e1]| |] eqn:E; cbn [bind]; [| ub2 | ub2 ].
  apply (err_keeps _ _ _ _ _ _ _ _ _ (int_dlaw t) He) in E. subst e1. unfold has_err. rewrite ObjRunProofs.no_err_some, He. cbn [negb bind]. split; discriminate.
Qed.
Theorem size_ub_err t metric sn old e s : ity_ok t -> is_err e = true -> size_des t metric sn old s (Some e) = UB <-> too_big t s.
Proof.
  intros Ht He. unfold size_des. destruct s as [|c s0]; [split; [discriminate|]; intros H; apply too_big_head in H; destruct H; discriminate|].
  destruct (is_null (c :: s0)) eqn:En. { destruct (parse_null (c :: s0) (Some e)). split; [discriminate|]. intros H; apply too_big_head in H; destruct H; congruence. }
  destruct (is_number (c :: s0)) eqn:Em; [apply (int_ub t sn 0 (c :: s0) (Some e) Ht)|].
  assert (NB : ~ too_big t (c :: s0)) by (intros B; apply too_big_head in B; destruct B; congruence).
  destruct (is_string (c :: s0)) eqn:Es; cbn [negb]; [|split; [discriminate|contradiction]].
  destruct (chars_total 32 sn [] (c :: s0) (Some e)) as (w & r & e1 & _ & E & _). rewrite E. apply (err_keeps _ _ _ _ _ _ _ _ _ (chars_dlaw 32) He) in E. subst e1. cbn [bind].
  unfold has_err. rewrite ObjRunProofs.no_err_some, He. cbn [negb]. split; [discriminate|contradiction].
Qed.

(** ---- wrappers ---- *)
Theorem ptr_undef {A} (J : codec A) d0 sn old e s : undefined (ptr_codec J d0) sn old e s <-> s <> [] /\ ~ heads 110 s /\ undefined J sn d0 e s.
Proof.
  unfold undefined. cbn [des ptr_codec]. unfold ptr_des. destruct s as [|c t]; [split; [discriminate|intros (H & _); congruence]|]. destruct (c =? 110) eqn:Ec; cbn [negb].
  - split; [discriminate|]. intros (_ & H & _). exfalso. apply H. assert (c = 110) by lia. subst c. now exists t.
  - destruct (des J sn d0 (c :: t) (Some e)) as [[[v r] x]| |]; cbn [bind]; (split; [try discriminate|intros (_ & _ & H); try discriminate; reflexivity]).
    intros _. split; [discriminate|]. split; [now apply not_heads|reflexivity].
Qed.
Lemma value_undef sn e s : bytes s -> parse_value sn s (Some e) = UB <-> fails sn s None.
Proof. exact (parse_overreads sn s (Some e)). Qed.
Theorem raw_undef sn old e s : bytes s -> (undefined raw_codec sn old e s <-> fails sn s None) /\ (undefined ipair_codec sn old e s <-> fails sn s None).
Proof.
  intros Hb. assert (Q : undefined raw_codec sn old e s <-> fails sn s None); [|split; exact Q].
  rewrite <- (value_undef sn e s Hb). unfold undefined. cbn [des raw_codec]. unfold raw_des. destruct (parse_value sn s (Some e)) as [[r x]| |]; cbn [bind]; split; (discriminate || reflexivity).
Qed.
Theorem rquoted_undef serq reqq sn old e s : bytes s ->
  (undefined (rquoted_codec serq reqq) sn old e s <-> if reqq then exists t, s = QT :: t /\ fails sn t None else s <> [] /\ fails sn s None).
Proof.
  intros Hb. unfold undefined. cbn [des rquoted_codec]. unfold rquoted_des. destruct s as [|c t]; [split; [discriminate|]; destruct reqq; [intros (t & H & _); discriminate|intros (H & _); congruence]|].
  assert (Hbt : bytes t) by now inversion Hb. destruct reqq; cbn [andb].
  - destruct (c =? QT) eqn:Ec; cbn [negb]; [|split; [discriminate|]; intros (t' & H & _); injection H as -> _; lia]. assert (c = QT) by lia. subst c. transitivity (fails sn t None); [|split; [eauto|]; intros (t' & H & K); now injection H as <-].
    rewrite <- (value_undef sn e t Hbt). destruct (parse_value sn t (Some e)) as [[r x]| |]; cbn [bind]; [| ub2 | ub2 ]. split; [|discriminate]. destruct (has_err x); [discriminate|]. destruct r as [|d r]; [discriminate|]. destruct (d =? QT); discriminate.
  - transitivity (fails sn (c :: t) None); [|split; [intros H; split; [discriminate|exact H]|tauto]]. rewrite <- (value_undef sn e (c :: t) Hb). destruct (parse_value sn (c :: t) (Some e)) as [[r x]| |]; cbn [bind]; [| ub2 | ub2 ].
    split; [|discriminate]. destruct (has_err x); discriminate.
Qed.
Lemma quoted1_undef {A} (J : codec A) sn old e s : quoted_des1 J sn old s (Some e) = UB <-> inside_undef J sn old e s.
Proof.
  unfold quoted_des1, inside_undef. destruct (string_des sn [] s (Some e)) as [[[b r] x]| |] eqn:E; cbn [bind].
  - destruct (law_some _ _ _ _ _ _ _ _ string_dlaw E) as (e1 & -> & _). unfold has_err. rewrite ObjRunProofs.no_err_some. destruct (is_err e1) eqn:Ee; cbn [negb].
    + split; [discriminate|]. intros (b' & r' & e2 & H & He & _). unfold runs in H. cbn [des string_codec] in H. rewrite E in H. injection H as _ _ ->. congruence.
    + unfold undefined. destruct (des J (Some 0) old b (Some no_error)) as [[[v q] e2]| |] eqn:E2; cbn [bind].
      * split; [destruct e2 as [k|]; [destruct (is_err k)|]; discriminate|]. intros (b' & r' & e3 & H & _ & K). unfold runs in H. cbn [des string_codec] in H. rewrite E in H. injection H as <- _ _. congruence.
      * split; [intros _|reflexivity]. exists b, r, e1. auto.
      * split; [discriminate|]. intros (b' & r' & e3 & H & _ & K). unfold runs in H. cbn [des string_codec] in H. rewrite E in H. injection H as <- _ _. congruence.
  - split; [intros _|reflexivity]. now apply string_dsafe in E.
  - split; [discriminate|]. intros (b' & r' & e3 & H & _ & K). unfold runs in H. cbn [des string_codec] in H. congruence.
Qed.
Theorem quoted_undef {A} (J : codec A) serq reqq sn old e s :
  undefined (quoted_codec J serq reqq) sn old e s <->
    (reqq = true \/ heads QT s) /\ inside_undef J sn old e s \/ reqq = false /\ ~ heads QT s /\ undefined J sn old e s.
Proof.
  unfold undefined at 1. cbn [des quoted_codec]. unfold quoted_des. destruct reqq.
  - rewrite quoted1_undef. split; [auto|]. intros [(_ & H)|(H & _)]; [exact H|discriminate].
  - destruct (is_string s) eqn:Es.
    + rewrite quoted1_undef. apply is_string_heads in Es. split; [auto|]. intros [(_ & H)|(_ & H & _)]; [exact H|contradiction].
    + assert (N : ~ heads QT s) by (intros H; apply is_string_heads in H; congruence). split; [intros H; right; auto|]. intros [([H|H] & _)|(_ & _ & H)]; [discriminate|contradiction|exact H].
Qed.

(** ---- flags: with an empty list of names the array form reads [*end]; otherwise never ---- *)
Lemma arr_ready mode sn L : forall v s e, one_arr mode sn L v s e true <> UB.
Proof.
  induction L as [|[n x] L IH]; intros v s e; cbn [one_arr]; [discriminate|]. destruct (parse_space s e) as [[|c t1] e1]; [discriminate|]. destruct (c =? RBR); [discriminate|]. destruct (negb (c =? QT)); [discriminate|].
  destruct (pre_match n t1) as [[|d t]|]; [apply IH| |apply IH]. destruct (d =? QT); [|apply IH].
  destruct (parse_space t e1) as [[|f t2] e2]; [discriminate|]. destruct (negb (f =? COMMA)); [discriminate|]. destruct (parse_space t2 e2) as [s3 e3]. apply IH.
Qed.
Lemma arr_at_quote mode sn L : forall v t e rdy, one_arr mode sn L v (QT :: t) e rdy <> UB.
Proof.
  assert (SQ : forall t e, parse_space (QT :: t) e = (QT :: t, e)) by (intros; reflexivity).
  induction L as [|[n x] L IH]; intros v t e rdy; cbn [one_arr].
  - destruct (_ || _); [discriminate|]. rewrite SQ. cbn [deref bind Z.eqb]. replace (QT =? RBR) with false by reflexivity. destruct (string_good (QT :: t)) as (r & o & H & _). rewrite H. cbn [bind].
    destruct (parse_space r _) as [[|f s3] e3]; [discriminate|]. destruct (parse_space (skip1 COMMA (f :: s3)) e3). discriminate.
  - rewrite SQ. replace (QT =? RBR) with false by reflexivity. rewrite Z.eqb_refl. cbn [negb]. destruct (pre_match n t) as [[|d u]|]; [apply IH| |apply IH]. destruct (d =? QT); [|apply IH].
    destruct (parse_space u e) as [[|f t2] e2]; [discriminate|]. destruct (negb (f =? COMMA)); [discriminate|]. destruct (parse_space t2 e2) as [s3 e3]. apply arr_ready.
Qed.
Lemma arr_named mode sn L v s e rdy : L <> [] -> one_arr mode sn L v s e rdy <> UB.
Proof.
  intros HL. destruct L as [|[n x] L]; [congruence|]. cbn [one_arr]. destruct (parse_space s e) as [[|c t1] e1]; [discriminate|]. destruct (c =? RBR); [discriminate|]. destruct (c =? QT) eqn:Ec; cbn [negb]; [|discriminate].
  assert (c = QT) by lia. subst c.
  destruct (pre_match n t1) as [[|d t]|]; [apply arr_at_quote| |apply arr_at_quote]. destruct (d =? QT); [|apply arr_at_quote].
  destruct (parse_space t e1) as [[|f t2] e2]; [discriminate|]. destruct (negb (f =? COMMA)); [discriminate|]. destruct (parse_space t2 e2) as [s3 e3]. apply arr_ready.
Qed.
Theorem flags_undef sep mode L sn old e s : L <> [] -> ~ undefined (flags_codec sep mode L) sn old e s.
Proof.
  intros HL H. unfold undefined in H. cbn [des flags_codec] in H. unfold flags_des in H. destruct s as [|c t]; [discriminate|]. destruct (negb (c =? LBR) && negb (c =? QT)); [discriminate|].
  apply ArrayProofs.bind_ub in H. destruct H as [H|([[v s1] e1] & _ & H)]; [|destruct s1; [|destruct (_ && _)]; discriminate].
  destruct (c =? LBR); apply flags_loop_safe in H; auto; intros; [now apply arr_named|discriminate].
Qed.

(** ---- readers that never look behind the text ---- *)
Lemma good0 : good_sn (Some 0).
Proof. exists 0. repeat split; discriminate. Qed.
Lemma bool_undef sn old e s : ~ undefined bool_codec sn old e s.
Proof. intros H. exact (bool_dsafe (Some 0) old s (Some e) good0 H). Qed.
Lemma enum_undef mode L sn old e s : ~ undefined (enum_codec mode L) sn old e s.
Proof. intros H. exact (enum_dsafe mode L (Some 0) old s (Some e) good0 H). Qed.
Lemma chars_undef N sn old e s : ~ undefined (chars_codec N) sn old e s.
Proof. intros H. destruct (chars_total N sn old s (Some e)) as (w & r & e1 & _ & E & _). unfold undefined in H. cbn [des chars_codec] in H. congruence. Qed.
Lemma string_undef sn old e s : ~ undefined string_codec sn old e s.
Proof. intros H. exact (string_dsafe sn old s (Some e) H). Qed.
Lemma float_undef {A} R fmt scan (zero : A) sn old e s : ~ undefined (float_codec R fmt scan zero) sn old e s.
Proof. intros H. exact (float_dsafe R fmt scan zero (Some 0) old s (Some e) good0 H). Qed.
Lemma member_value_undef {T A} (get : T -> A) set (c : codec A) sn old e s : undefined (member_value_codec get set c) sn old e s <-> undefined c sn (get old) e s.
Proof. unfold undefined. cbn [des member_value_codec]. destruct (des c sn (get old) s (Some e)) as [[[v r] x]| |]; cbn [bind]; ub2. Qed.
