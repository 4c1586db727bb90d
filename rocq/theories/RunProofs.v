(** Proofs: every outcome of reading containers, structs and arrays of members. *)
From Verif Require Import Base Parser SpecJson ParserFacts Out Array Object SpecObject ObjectArray CodecLaws ArrayProofs ObjectProofs ObjectArrayProofs
  SpecReport SpecExact ExactProofs ObjExactProofs SpecRefuse RefuseProofs SpecFail FailProofs FlagProofs SpecRun.

(** ---- error records ---- *)
Lemma cerr_first c m t e : cerr c m t (Some e) = Some (first e (mkerr c m t)).
Proof. unfold cerr, first. now destruct (is_err e). Qed.
Lemma first_err e j : is_err j = true -> is_err (first e j) = true.
Proof. intros H. unfold first. destruct (is_err e) eqn:E; assumption. Qed.
Lemma first_first e j k : is_err j = true -> first (first e j) k = first e j.
Proof. intros H. unfold first at 1. now rewrite (first_err e j H). Qed.
Lemma first_id e j : is_err e = true -> first e j = e.
Proof. intros H. unfold first. now rewrite H. Qed.
Lemma app_first e o : app_err (Some e) o = Some (match o with None => e | Some j => first e j end).
Proof. destruct o as [j|]; [|reflexivity]. unfold app_err, first. now destruct (is_err e). Qed.
Lemma step_some s e x : estep s (Some e) x -> exists e', x = Some e'.
Proof. intros [->|(k & j & _ & _ & -> & _)]; eauto. Qed.
Lemma law_some {A} (d : option Z -> A -> buf -> eptr -> res (A * buf * eptr)) sn old s e v r x : dlaw d -> d sn old s (Some e) = Ok (v, r, x) ->
  exists e', x = Some e' /\ suffix r s.
Proof. intros H E. pose proof (H sn old s (Some e)) as G. rewrite E in G. destruct G as [G1 G2]. destruct (step_some _ _ _ G2) as (e' & ->). eauto. Qed.

(** ---- gaps and null ---- *)
Lemma space_run s e : (exists r, after_gap s r /\ parse_space s (Some e) = (r, Some e)) \/
  (open_comment s /\ parse_space s (Some e) = ([], Some (first e comment_error))).
Proof.
  destruct (space_eq s) as (r & o & A & _ & B & _). pose proof (A C0) as A0. rewrite (A (Some e)), app_first. destruct (RefuseProofs.space_cases s) as [(r' & E & G)|(E & G)]; rewrite E in A0; [left|right].
  - exists r'. split; [exact G|]. destruct o as [j|]; cbn [app_err C0 is_err no_error code] in A0; [|now injection A0 as ->]. exfalso. injection A0 as _ E0. subst j. destruct B as [B _]. discriminate B.
  - split; [exact G|]. destruct o as [j|]; cbn [app_err C0 is_err no_error code] in A0; [|discriminate A0]. now injection A0 as <- <-.
Qed.
Lemma gap_eq e s r e' : gap_run e s r e' -> parse_space s (Some e) = (r, Some e').
Proof.
  intros G. destruct (space_run s e) as [(q & A & E)|(A & E)]; rewrite E; destruct G as [(G & ->)|(G & -> & ->)].
  - now rewrite (gap_det _ _ _ A G).
  - destruct (gap_not_open _ _ A G).
  - destruct (gap_not_open _ _ G A).
  - reflexivity.
Qed.
Lemma gap_some s e r x : parse_space s (Some e) = (r, x) -> exists e', x = Some e' /\ gap_run e s r e'.
Proof.
  intros H. destruct (space_run s e) as [(q & A & E)|(A & E)]; rewrite E in H; injection H as <- <-; eexists; (split; [reflexivity|]); [left|right]; auto.
Qed.
Lemma gap_ok e s r : after_gap s r -> gap_run e s r e. Proof. now left. Qed.
Lemma gap_at e s r : after_gap s r -> parse_space s (Some e) = (r, Some e). Proof. intros H. now apply gap_eq, gap_ok. Qed.
Lemma gap_cons e s c t e' : gap_run e s (c :: t) e' -> after_gap s (c :: t) /\ e' = e.
Proof. intros [H|(_ & E & _)]; [exact H|discriminate E]. Qed.
Lemma gap_suffix e s r e' : gap_run e s r e' -> suffix r s.
Proof. intros [[H _]|(_ & -> & _)]; [exact (after_gap_suffix _ _ H)|exists s; now rewrite app_nil_r]. Qed.
Lemma gap_len e s r e' : gap_run e s r e' -> (length r <= length s)%nat.
Proof. intros H. exact (suffix_len _ _ (gap_suffix _ _ _ _ H)). Qed.

Lemma lit_heads e s r e' : lit_run (text "null") e s r e' -> heads 110 s.
Proof. intros [[-> _]|(j & H & _)]; [|exact (lit_null_heads _ _ H)]. eexists. reflexivity. Qed.
Lemma null_run s e r x : heads 110 s -> (parse_null s (Some e) = (r, x) <-> exists e', x = Some e' /\ lit_run (text "null") e s r e').
Proof.
  intros Hs. destruct (null_good s) as (q & o & A & B1 & B2 & B3). pose proof (A C0) as A0. rewrite (A (Some e)), app_first. destruct o as [j|]; cbn [app_err] in A0.
  - destruct B2 as [B2 _]. assert (q = []) as -> by (apply B3; discriminate). assert (L : lit_refuses (text "null") s j) by (apply null_pends; [exact Hs|split; [exact B2|exact A0]]). split.
    + intros E. injection E as <- <-. eexists. split; [reflexivity|]. right. exists j. auto.
    + intros (e' & -> & [[-> ->]|(k & Hk & -> & ->)]).
      * exfalso. rewrite (proj2 (null_exact _ r) eq_refl) in A0. injection A0 as _ A0. subst j. discriminate B2.
      * apply null_pends in Hk; [|exact Hs]. destruct Hk as [_ Hk]. rewrite Hk in A0. injection A0 as ->. reflexivity.
  - split.
    + intros E. injection E as <- <-. eexists. split; [reflexivity|]. left. split; [|reflexivity]. now apply null_exact.
    + intros (e' & -> & [[-> ->]|(k & Hk & -> & ->)]).
      * rewrite (proj2 (null_exact _ r) eq_refl) in A0. now injection A0 as ->.
      * exfalso. apply null_pends in Hk; [|exact Hs]. destruct Hk as [Hj Hk]. rewrite Hk in A0. injection A0 as _ A0. subst k. discriminate Hj.
Qed.

Ltac gp E := let e1 := fresh "e" in let G := fresh "G" in apply gap_some in E; destruct E as (e1 & -> & G).
Ltac inv H := injection H; clear H; intros; subst.
Lemma some_inj (a b : json_error) : Some a = Some b -> a = b. Proof. congruence. Qed.
Lemma not_heads c d t : (d =? c) = false -> ~ heads c (d :: t). Proof. intros H K. apply heads_inv in K. lia. Qed.
Lemma heads_neq c d t : ~ heads c (d :: t) -> (d =? c) = false. Proof. intros H. apply Z.eqb_neq. intros ->. apply H. apply heads_refl. Qed.

(** ---- containers ---- *)
Section Seq.
  Context {A S : Type} (item : codec A) (ins : S -> A -> S) (d0 : A) (R : Z) (sn : option Z).
  Hypothesis Hd : dlaw (des item).
  Hypothesis HR : R <> COMMA.
  Let I := runs item sn d0.
  Lemma seq_forward n : forall st s e st' r e', seq_loop (des item sn) ins d0 R n st s (Some e) = Ok (st', r, Some e') ->
    exists l, st' = fold_left ins l st /\ seq_run I R e s l r e'.
  Proof.
    induction n as [|n IH]; intros st s e st' r e'; cbn [seq_loop]; [discriminate|]. destruct s as [|c0 t0].
    { rewrite cerr_first. intros H. inv H. exists []. split; [reflexivity|]. apply sq_end, gap_ok, gap_nil_nil. }
    set (s := c0 :: t0). clearbody s. destruct (parse_space s (Some e)) as [s1 x] eqn:E1. gp E1. destruct s1 as [|c t1].
    { rewrite cerr_first. intros H. inv H. exists []. split; [reflexivity|]. now apply sq_end. }
    apply gap_cons in G. destruct G as [G ->]. destruct (c =? R) eqn:Ec.
    { intros H. inv H. exists []. split; [reflexivity|]. apply sq_close. assert (c = R) by lia. now subst c. }
    destruct (des item sn d0 (c :: t1) (Some e)) as [[[y s2] x]| |] eqn:E2; cbn [bind]; try discriminate.
    destruct (law_some _ _ _ _ _ _ _ _ Hd E2) as (e2 & -> & _). destruct (parse_space s2 (Some e2)) as [s3 x] eqn:E3. gp E3. destruct s3 as [|d t3].
    { rewrite cerr_first. intros H. inv H. exists [y]. split; [reflexivity|]. eapply sq_last; [exact G|discriminate|now apply not_heads|exact E2|]. now apply tr_end. }
    apply gap_cons in G0. destruct G0 as [G0 ->]. destruct (d =? R) eqn:Er.
    { intros H. inv H. exists [y]. split; [reflexivity|]. eapply sq_last; [exact G|discriminate|now apply not_heads|exact E2|]. apply tr_close. assert (d = R) by lia. now subst d. }
    destruct (d =? COMMA) eqn:Ed; cbn [negb].
    - intros H. apply IH in H. destruct H as (l & -> & H). exists (y :: l). split; [reflexivity|]. eapply sq_more; [exact G|discriminate|now apply not_heads|exact E2| |exact H].
      assert (d = COMMA) by lia. now subst d.
    - rewrite cerr_first. intros H. inv H. exists [y]. split; [reflexivity|]. eapply sq_last; [exact G|discriminate|now apply not_heads|exact E2|].
      refine (tr_other _ _ _ _ d t3 G0 _ _); lia.
  Qed.
  Lemma seq_backward e s l r e' : seq_run I R e s l r e' -> forall n st, (length s < n)%nat ->
    seq_loop (des item sn) ins d0 R n st s (Some e) = Ok (fold_left ins l st, r, Some e').
  Proof.
    induction 1 as [e s e1 G|e s r G|e s s1 x s2 e2 r e3 G N1 N2 HI HT|e s s1 x s2 e2 s3 l r e3 G N1 N2 HI G2 HS IH]; intros n st Hn; (destruct n as [|n]; [lia|]); cbn [seq_loop].
    - destruct s as [|c t]. { apply gap_eq in G. cbn in G. injection G as ->. rewrite cerr_first. reflexivity. }
      rewrite (gap_eq _ _ _ _ G), cerr_first. reflexivity.
    - destruct s as [|c t]; [apply after_gap_nil in G; discriminate|]. rewrite (gap_at _ _ _ G), Z.eqb_refl. reflexivity.
    - destruct s as [|c t]; [apply after_gap_nil in G; congruence|]. rewrite (gap_at _ _ _ G). destruct s1 as [|c1 t1]; [congruence|]. rewrite (heads_neq _ _ _ N2).
      unfold I, runs in HI. rewrite HI. cbn [bind]. destruct HT as [e2 s2 e4 K|e2 s2 r K|e2 s2 d t3 K D1 D2].
      + rewrite (gap_eq _ _ _ _ K), cerr_first. reflexivity.
      + rewrite (gap_at _ _ _ K), Z.eqb_refl. reflexivity.
      + rewrite (gap_at _ _ _ K). apply Z.eqb_neq in D1, D2. rewrite D1, D2. cbn [negb]. rewrite cerr_first. reflexivity.
    - destruct s as [|c t]; [apply after_gap_nil in G; congruence|]. rewrite (gap_at _ _ _ G). pose proof (after_gap_len _ _ G) as L1. destruct s1 as [|c1 t1]; [congruence|]. rewrite (heads_neq _ _ _ N2).
      unfold I, runs in HI. destruct (law_some _ _ _ _ _ _ _ _ Hd HI) as (e4 & _ & Hs). rewrite HI. cbn [bind]. rewrite (gap_at _ _ _ G2).
      assert (R0 : (COMMA =? R) = false) by lia. rewrite R0. cbn [negb]. apply IH. apply suffix_len in Hs. pose proof (after_gap_len _ _ G2) as L2. cbn [length] in *. lia.
  Qed.
End Seq.
Lemma seq_text_items {A} (item : json_error -> buf -> A -> buf -> json_error -> Prop) Lb R e t l r e' : ~ heads 110 (Lb :: t) -> seq_text item Lb R e (Lb :: t) l r e' -> seq_run item R e t l r e'.
Proof. intros N H. inversion H; subst; [|congruence|assumption]. exfalso. eapply N, lit_heads; eassumption. Qed.
Theorem seq_runs {A C S} (k : container A C S) Lb R (item : codec A) d0 sn old e s v r e' : dlaw (des item) -> brackets Lb R ->
  (runs (seq_codec k Lb R item d0) sn old e s v r e' <-> exists l, v = c_get k (fold_left (c_ins k) l (c_new k)) /\ seq_text (runs item sn d0) Lb R e s l r e').
Proof.
  intros Hd HB. assert (HR : R <> COMMA /\ Lb <> 110) by (destruct HB as [[-> ->]|[-> ->]]; split; discriminate). destruct HR as [HR HL].
  unfold runs at 1. cbn [des seq_codec]. unfold seq_des. destruct (is_null s) eqn:En.
  - apply is_null_heads in En. destruct (parse_null s (Some e)) as [r0 x] eqn:E. apply null_run in E; [|exact En]. destruct E as (e0 & -> & E). split.
    + intros H. inv H. exists []. split; [reflexivity|]. now apply qt_null.
    + intros (l & -> & H). destruct H as [e s r' e' H|e|e c t N1 N2|e t xs r' e' H].
      * assert (K : exists e2, Some e0 = Some e2 /\ lit_run (text "null") e s r0 e2) by eauto. apply null_run in K; [|exact En].
        assert (K' : exists e2, Some e' = Some e2 /\ lit_run (text "null") e s r' e2) by eauto. apply null_run in K'; [|exact En]. rewrite K in K'. inv K'. reflexivity.
      * destruct (heads_nil _ En).
      * apply heads_inv in En. congruence.
      * apply heads_inv in En. congruence.
  - apply not_null_heads in En. destruct s as [|c t].
    + rewrite cerr_first. split.
      * intros H. inv H. exists []. split; [reflexivity|apply qt_end].
      * intros (l & -> & H). inversion H; subst; [|reflexivity]. destruct (En (lit_heads _ _ _ _ H0)).
    + destruct (c =? Lb) eqn:Ec; cbn [negb].
      * assert (c = Lb) by lia. subst c. destruct (seq_loop _ _ _ _ _ _ _ _) as [[[st r0] x]| |] eqn:E; cbn [bind]; split; try discriminate.
        -- intros H. injection H as <- <- ->. apply seq_forward in E; [|exact Hd|exact HR]. destruct E as (l & -> & E). exists l. split; [reflexivity|]. now apply qt_items.
        -- intros (l & -> & H). apply seq_text_items in H; [|exact En]. rewrite (seq_backward item (c_ins k) d0 R sn Hd HR _ _ _ _ _ H) in E by lia. inv E. reflexivity.
        -- intros (l & -> & H). apply seq_text_items in H; [|exact En]. rewrite (seq_backward item (c_ins k) d0 R sn Hd HR _ _ _ _ _ H) in E by lia. discriminate E.
        -- intros (l & -> & H). apply seq_text_items in H; [|exact En]. rewrite (seq_backward item (c_ins k) d0 R sn Hd HR _ _ _ _ _ H) in E by lia. discriminate E.
      * replace (dist t + 1) with (Z.of_nat (length (c :: t))) by (unfold dist; cbn [length]; lia). rewrite cerr_first. split.
        -- intros H. inv H. exists []. split; [reflexivity|]. apply qt_other; [|lia]. intros ->. apply En, heads_refl.
        -- intros (l & -> & H). inversion H; subst; [destruct (En (lit_heads _ _ _ _ H0))|reflexivity|lia].
Qed.

(** ---- members of dictionaries ---- *)
Theorem field_runs {K V} (kc : codec K) (vc : codec V) sn k0 v0 e s p r e' : dlaw (des kc) -> dlaw (des vc) ->
  (runs (field_codec kc vc) sn (k0, v0) e s p r e' <-> field_run (runs kc sn k0) (runs vc sn v0) v0 e s p r e').
Proof.
  intros Hk Hv. unfold runs at 1. cbn [des field_codec]. unfold field_des. cbn [fst snd]. split.
  - destruct (des kc sn k0 s (Some e)) as [[[k s1] x]| |] eqn:E1; cbn [bind]; try discriminate. destruct (law_some _ _ _ _ _ _ _ _ Hk E1) as (e1 & -> & _).
    destruct (parse_space s1 (Some e1)) as [s2 x] eqn:E2. gp E2. destruct s2 as [|c t]. { rewrite cerr_first. intros H. inv H. eapply fd_end; [exact E1|exact G]. }
    apply gap_cons in G. destruct G as [G ->]. destruct (c =? COLON) eqn:Ec; cbn [negb].
    + assert (c = COLON) by lia. subst c. destruct (parse_space t (Some e1)) as [s3 x] eqn:E3. gp E3. destruct s3 as [|c t3]. { rewrite cerr_first. intros H. inv H. eapply fd_end2; [exact E1|exact G|exact G0]. }
      apply gap_cons in G0. destruct G0 as [G0 ->]. destruct (des vc sn v0 (c :: t3) (Some e1)) as [[[v s4] x]| |] eqn:E4; cbn [bind]; try discriminate.
      intros H. injection H as <- <- ->. eapply fd_value; [exact E1|exact G|exact G0|discriminate|exact E4].
    + replace (dist t + 1) with (Z.of_nat (length (c :: t))) by (unfold dist; cbn [length]; lia). rewrite cerr_first. intros H. inv H. eapply fd_colon; [exact E1|exact G|lia].
  - intros H. destruct H as [e s k s1 e1 e2 H1 G|e s k s1 e1 c t H1 G N|e s k s1 e1 s2 e2 H1 G G2|e s k s1 e1 s2 s3 v r e2 H1 G G2 N H2]; unfold runs in H1; rewrite H1; cbn [bind].
    + rewrite (gap_eq _ _ _ _ G), cerr_first. reflexivity.
    + rewrite (gap_at _ _ _ G). apply Z.eqb_neq in N. rewrite N. cbn [negb]. replace (dist t + 1) with (Z.of_nat (length (c :: t))) by (unfold dist; cbn [length]; lia). rewrite cerr_first. reflexivity.
    + rewrite (gap_at _ _ _ G), Z.eqb_refl. cbn [negb]. rewrite (gap_eq _ _ _ _ G2), cerr_first. reflexivity.
    + rewrite (gap_at _ _ _ G), Z.eqb_refl. cbn [negb]. rewrite (gap_at _ _ _ G2). destruct s3; [congruence|]. unfold runs in H2. rewrite H2. reflexivity.
Qed.

(** ---- fixed-size arrays ---- *)
Section Fix.
  Context {A : Type} (item : codec A) (fresh : option A) (ex : buf) (sn : option Z).
  Hypothesis Hd : dlaw (des item).
  Let R := RBR.
  Let I := fun x => runs item sn (match fresh with Some d0 => d0 | None => x end).
  Lemma close_forward s e r x : fix_close R s (Some e) = (r, x) -> exists e', x = Some e' /\ slots_run I ex R [] e s [] r e'.
  Proof.
    unfold fix_close. destruct s as [|c t]. { rewrite cerr_first. intros H. inv H. eexists. split; [reflexivity|constructor]. }
    destruct (c =? R) eqn:Ec; cbn [negb].
    - intros H. inv H. eexists. split; [reflexivity|]. assert (c = R) by lia. subst c. constructor.
    - replace (dist t + 1) with (Z.of_nat (length (c :: t))) by (unfold dist; cbn [length]; lia). rewrite cerr_first. intros H. inv H. eexists. split; [reflexivity|]. apply so_extra. lia.
  Qed.
  Lemma close_hit r e : fix_close R (R :: r) e = (r, e). Proof. unfold fix_close. now rewrite Z.eqb_refl. Qed.
  Lemma fix_forward o : forall e s l r e', fix_loop (des item sn) fresh ex R o s (Some e) = Ok (l, r, Some e') -> slots_run I ex R o e s l r e'.
  Proof.
    induction o as [|x0 o IH]; intros e s l r e'; cbn [fix_loop].
    { destruct (fix_close R s (Some e)) as [r0 x] eqn:E. intros H. injection H as <- <- ->. apply close_forward in E. destruct E as (e1 & E & H). injection E as <-. exact H. }
    destruct s as [|c0 t0].
    { cbn [fix_close]. rewrite cerr_first. intros H. inv H. apply so_end, gap_ok, gap_nil_nil. }
    set (s := c0 :: t0). clearbody s. destruct (parse_space s (Some e)) as [s1 x] eqn:E1. gp E1. destruct s1 as [|c t1]. { rewrite cerr_first. intros H. inv H. now apply so_end. }
    apply gap_cons in G. destruct G as [G ->]. destruct (c =? R) eqn:Ec.
    { assert (c = R) by lia. subst c. rewrite close_hit. intros H. inv H. now apply so_close. }
    destruct (des item sn _ (c :: t1) (Some e)) as [[[y s2] x]| |] eqn:E2; cbn [bind]; try discriminate.
    destruct (law_some _ _ _ _ _ _ _ _ Hd E2) as (e2 & -> & _). destruct (parse_space s2 (Some e2)) as [s3 x] eqn:E3. gp E3. destruct s3 as [|d t3].
    { rewrite cerr_first. intros H. inv H. eapply so_last; [exact G|discriminate|now apply not_heads|exact E2|]. now apply tr_end. }
    apply gap_cons in G0. destruct G0 as [G0 ->]. destruct (d =? R) eqn:Er.
    { assert (d = R) by lia. subst d. rewrite close_hit. intros H. inv H. eapply so_last; [exact G|discriminate|now apply not_heads|exact E2|]. now apply tr_close. }
    destruct (d =? COMMA) eqn:Ed; cbn [negb].
    - destruct (fix_loop _ _ _ _ o t3 (Some e2)) as [[[l0 r0] x]| |] eqn:E4; cbn [bind]; try discriminate. intros H. injection H as <- <- ->.
      eapply so_more; [exact G|discriminate|now apply not_heads|exact E2| |exact (IH _ _ _ _ _ E4)]. assert (d = COMMA) by lia. now subst d.
    - rewrite cerr_first. intros H. inv H. eapply so_last; [exact G|discriminate|now apply not_heads|exact E2|]. refine (tr_other _ _ _ _ d t3 G0 _ _); lia.
  Qed.
  Lemma fix_backward o e s l r e' : slots_run I ex R o e s l r e' -> fix_loop (des item sn) fresh ex R o s (Some e) = Ok (l, r, Some e').
  Proof.
    induction 1 as [e r|e|e c t N|x o e s e1 G|x o e s r G|x o e s s1 y s2 e2 r e3 G N1 N2 HI HT|x o e s s1 y s2 e2 s3 l r e3 G N1 N2 HI G2 HS IH]; cbn [fix_loop].
    - now rewrite close_hit.
    - cbn [fix_close]. now rewrite cerr_first.
    - unfold fix_close. apply Z.eqb_neq in N. rewrite N. cbn [negb]. replace (dist t + 1) with (Z.of_nat (length (c :: t))) by (unfold dist; cbn [length]; lia). now rewrite cerr_first.
    - destruct s as [|c t]. { apply gap_eq in G. cbn in G. injection G as ->. cbn [fix_close]. now rewrite cerr_first. } now rewrite (gap_eq _ _ _ _ G), cerr_first.
    - destruct s as [|c t]; [apply after_gap_nil in G; discriminate|]. now rewrite (gap_at _ _ _ G), Z.eqb_refl, close_hit.
    - destruct s as [|c t]; [apply after_gap_nil in G; congruence|]. rewrite (gap_at _ _ _ G). destruct s1 as [|c1 t1]; [congruence|]. rewrite (heads_neq _ _ _ N2).
      unfold I, runs in HI. rewrite HI. cbn [bind]. destruct HT as [e2 s2 e4 K|e2 s2 r K|e2 s2 d t3 K D1 D2].
      + now rewrite (gap_eq _ _ _ _ K), cerr_first.
      + now rewrite (gap_at _ _ _ K), Z.eqb_refl, close_hit.
      + rewrite (gap_at _ _ _ K). apply Z.eqb_neq in D1, D2. rewrite D1, D2. cbn [negb]. now rewrite cerr_first.
    - destruct s as [|c t]; [apply after_gap_nil in G; congruence|]. rewrite (gap_at _ _ _ G). destruct s1 as [|c1 t1]; [congruence|]. rewrite (heads_neq _ _ _ N2).
      unfold I, runs in HI. rewrite HI. cbn [bind]. rewrite (gap_at _ _ _ G2). replace (COMMA =? R) with false by reflexivity. rewrite Z.eqb_refl. cbn [negb]. now rewrite IH.
  Qed.
  Lemma each_forward s : forall o e l x, fix_null (des item sn) o s (Some e) = Ok (l, x) -> exists e', x = Some e' /\ each_run (fun x => runs item sn x) s e o l e'.
  Proof.
    induction o as [|a o IH]; intros e l x; cbn [fix_null]. { intros H. inv H. eexists. split; [reflexivity|constructor]. }
    destruct (des item sn a s (Some e)) as [[[y r] z]| |] eqn:E; cbn [bind]; try discriminate. destruct (law_some _ _ _ _ _ _ _ _ Hd E) as (e1 & -> & _).
    destruct (fix_null _ o s (Some e1)) as [[l' z]| |] eqn:E2; cbn [bind]; try discriminate. intros H. inv H. apply IH in E2. destruct E2 as (e2 & -> & H). eexists. split; [reflexivity|].
    eapply er_cons; [exact E|exact H].
  Qed.
  Lemma each_backward s e o l e' : each_run (fun x => runs item sn x) s e o l e' -> fix_null (des item sn) o s (Some e) = Ok (l, Some e').
  Proof. induction 1 as [e|e x y r e1 l m e2 H1 H2 IH]; cbn [fix_null]; [reflexivity|]. unfold runs in H1. rewrite H1. cbn [bind]. now rewrite IH. Qed.
  Theorem fix_runs old e s v r e' : fix_des fresh ex LBR R item sn old s (Some e) = Ok (v, r, Some e') <-> slots_text (fun x => runs item sn x) I ex old e s v r e'.
  Proof.
    unfold fix_des. split.
    - destruct (is_null s) eqn:En.
      + apply is_null_heads in En. destruct (fix_null _ old s (Some e)) as [[l x]| |] eqn:E; cbn [bind]; try discriminate. apply each_forward in E. destruct E as (e1 & -> & E).
        destruct (parse_null s (Some e1)) as [r0 x] eqn:E2. intros H. injection H as <- <- ->. apply null_run in E2; [|exact En]. destruct E2 as (e2 & Q & E2). injection Q as <-. eapply st_null; [exact E|exact E2].
      + apply not_null_heads in En. destruct s as [|c t]. { rewrite cerr_first. intros H. inv H. apply st_end. }
        destruct (c =? LBR) eqn:Ec; cbn [negb].
        * assert (c = LBR) by lia. subst c. intros H. apply st_items, fix_forward, H.
        * replace (dist t + 1) with (Z.of_nat (length (c :: t))) by (unfold dist; cbn [length]; lia). rewrite cerr_first. intros H. inv H. apply st_other; [|lia]. intros ->. apply En, heads_refl.
    - intros H. destruct H as [e s l e1 r e' H1 H2|e|e c t N1 N2|e t l r e' H].
      + pose proof (lit_heads _ _ _ _ H2) as En. rewrite (proj2 (is_null_heads s) En), (each_backward _ _ _ _ _ H1). cbn [bind].
        rewrite (proj2 (null_run s e1 r (Some e') En)) by eauto. reflexivity.
      + cbn [is_null starts]. now rewrite cerr_first.
      + assert (En : is_null (c :: t) = false) by (apply not_null_heads; intros K; apply heads_inv in K; congruence). rewrite En. apply Z.eqb_neq in N2. rewrite N2. cbn [negb].
        replace (dist t + 1) with (Z.of_nat (length (c :: t))) by (unfold dist; cbn [length]; lia). now rewrite cerr_first.
      + cbn [is_null starts]. replace (LBR =? 110) with false by reflexivity. rewrite Z.eqb_refl. cbn [negb]. now apply fix_backward.
  Qed.
End Fix.

(** the types target[N] and std::array<target, N> *)
Lemma slots_run_len {A} (item : A -> json_error -> buf -> A -> buf -> json_error -> Prop) ex R o e s l r e' : slots_run item ex R o e s l r e' -> length l = length o.
Proof. induction 1; cbn [length]; congruence. Qed.
Lemma each_run_len {A} (item : A -> json_error -> buf -> A -> buf -> json_error -> Prop) s e o l e' : each_run item s e o l e' -> length l = length o.
Proof. induction 1; cbn [length]; congruence. Qed.
Lemma slots_text_len {A} (item slot : A -> json_error -> buf -> A -> buf -> json_error -> Prop) ex o e s l r e' : slots_text item slot ex o e s l r e' -> length l = length o.
Proof. intros [? ? ? ? ? ? H _|?|? ? ? _ _|? ? ? ? ? H]; [exact (each_run_len _ _ _ _ _ _ H)|reflexivity|reflexivity|exact (slots_run_len _ _ _ _ _ _ _ _ _ H)]. Qed.
Lemma vec_runs {A} (c : codec (list A)) N sn old e s v r e' : (forall l, runs c sn (vlist old) e s l r e' -> length l = length (vlist old)) ->
  (runs (vec_codec c N) sn old e s v r e' <-> runs c sn (vlist old) e s (vlist v) r e').
Proof.
  intros HN. unfold runs in *. cbn [des vec_codec]. destruct (des c sn (vlist old) s (Some e)) as [[[l q] x]| |]; cbn [bind]; split; try discriminate.
  - intros H. injection H as <- <- ->. specialize (HN l eq_refl). rewrite vlist_len in HN. now rewrite vlist_vfill.
  - intros H. injection H as -> <- ->. now rewrite vfill_vlist.
Qed.
