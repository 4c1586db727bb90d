(** Proofs: when reading containers, structs and wrappers is undefined behaviour. *)
From Verif Require Import Base Parser SpecJson ParserFacts Out Array Object SpecObject ObjectArray CodecLaws ArrayProofs ObjectProofs ObjectArrayProofs
  SpecReport SpecExact ExactProofs ObjExactProofs SpecRefuse RefuseProofs SpecFail FailProofs FlagProofs SpecRun RunProofs ObjRunProofs SpecUndefAll.

Lemma law_fuel {A} (d : option Z -> A -> buf -> eptr -> res (A * buf * eptr)) sn old s e : dlaw d -> d sn old s e <> Fuel.
Proof. intros H K. specialize (H sn old s e). now rewrite K in H. Qed.

(** ---- containers ---- *)
Section Seq.
  Context {A S : Type} (item : codec A) (ins : S -> A -> S) (d0 : A) (R : Z) (sn : option Z).
  Hypothesis Hd : dlaw (des item).
  Hypothesis HR : R <> COMMA.
  Let I := runs item sn d0.
  Let B := undefined item sn d0.
  Lemma seq_bad_forward n : forall st s e, seq_loop (des item sn) ins d0 R n st s (Some e) = UB -> seq_bad I B R e s.
  Proof.
    induction n as [|n IH]; intros st s e; cbn [seq_loop]; [discriminate|]. destruct s as [|c0 t0]; [discriminate|].
    set (s := c0 :: t0). clearbody s. destruct (parse_space s (Some e)) as [s1 x] eqn:E1. gp E1. destruct s1 as [|c t1]; [discriminate|].
    apply gap_cons in G. destruct G as [G ->]. destruct (c =? R) eqn:Ec; [discriminate|].
    destruct (des item sn d0 (c :: t1) (Some e)) as [[[y s2] x]| |] eqn:E2; cbn [bind]; [| |discriminate].
    2: { intros _. eapply sb_here; [exact G|discriminate|now apply not_heads|exact E2]. }
    destruct (law_some _ _ _ _ _ _ _ _ Hd E2) as (e2 & -> & _). destruct (parse_space s2 (Some e2)) as [s3 x] eqn:E3. gp E3. destruct s3 as [|d t3]; [discriminate|].
    apply gap_cons in G0. destruct G0 as [G0 ->]. destruct (d =? R) eqn:Er; [discriminate|]. destruct (d =? COMMA) eqn:Ed; cbn [negb]; [|discriminate].
    intros H. apply IH in H. eapply sb_later; [exact G|discriminate|now apply not_heads|exact E2| |exact H]. assert (d = COMMA) by lia. now subst d.
  Qed.
  Lemma seq_bad_backward e s : seq_bad I B R e s -> forall n st, (length s < n)%nat -> seq_loop (des item sn) ins d0 R n st s (Some e) = UB.
  Proof.
    induction 1 as [e s s1 G N1 N2 HB|e s s1 x s2 e2 s3 G N1 N2 HI G2 HS IH]; intros n st Hn; (destruct n as [|n]; [lia|]); cbn [seq_loop].
    - destruct s as [|c t]; [apply after_gap_nil in G; congruence|]. rewrite (gap_at _ _ _ G). destruct s1 as [|c1 t1]; [congruence|]. rewrite (heads_neq _ _ _ N2). unfold B, undefined in HB. now rewrite HB.
    - destruct s as [|c t]; [apply after_gap_nil in G; congruence|]. rewrite (gap_at _ _ _ G). pose proof (after_gap_len _ _ G) as L1. destruct s1 as [|c1 t1]; [congruence|]. rewrite (heads_neq _ _ _ N2).
      unfold I, runs in HI. destruct (law_some _ _ _ _ _ _ _ _ Hd HI) as (e4 & _ & Hs). rewrite HI. cbn [bind]. rewrite (gap_at _ _ _ G2).
      assert (R0 : (COMMA =? R) = false) by lia. rewrite R0. cbn [negb]. apply IH. apply suffix_len in Hs. pose proof (after_gap_len _ _ G2) as L2. cbn [length] in *. lia.
  Qed.
End Seq.
Theorem seq_undef {A C S} (k : container A C S) Lb R (item : codec A) d0 sn old e s : dlaw (des item) -> brackets Lb R ->
  (undefined (seq_codec k Lb R item d0) sn old e s <-> exists t, s = Lb :: t /\ seq_bad (runs item sn d0) (undefined item sn d0) R e t).
Proof.
  intros Hd HB. assert (HR : R <> COMMA /\ Lb <> 110) by (destruct HB as [[-> ->]|[-> ->]]; split; discriminate). destruct HR as [HR HL].
  unfold undefined at 1. cbn [des seq_codec]. unfold seq_des. destruct (is_null s) eqn:En.
  - apply is_null_heads in En. destruct (parse_null s (Some e)). split; [discriminate|]. intros (t & -> & _). apply heads_inv in En. congruence.
  - destruct s as [|c t]; [split; [discriminate|]; intros (t & H & _); discriminate|]. destruct (c =? Lb) eqn:Ec; cbn [negb]; [|split; [discriminate|]; intros (t' & H & _); injection H as -> _; lia].
    assert (c = Lb) by lia. subst c. destruct (seq_loop _ _ _ _ _ _ _ _) as [[[st r] x]| |] eqn:E; cbn [bind].
    + split; [discriminate|]. intros (t' & H & K). injection H as <-. rewrite (seq_bad_backward item (c_ins k) d0 R sn Hd HR _ _ K) in E by lia. discriminate.
    + split; [intros _|reflexivity]. exists t. split; [reflexivity|]. eapply seq_bad_forward; [exact Hd|exact HR|exact E].
    + split; [discriminate|]. intros (t' & H & K). injection H as <-. rewrite (seq_bad_backward item (c_ins k) d0 R sn Hd HR _ _ K) in E by lia. discriminate.
Qed.
Theorem field_undef {K V} (kc : codec K) (vc : codec V) sn k0 v0 e s : dlaw (des kc) -> dlaw (des vc) ->
  (undefined (field_codec kc vc) sn (k0, v0) e s <-> field_bad (runs kc sn k0) (undefined kc sn k0) (undefined vc sn v0) e s).
Proof.
  intros Hk Hv. unfold undefined at 1. cbn [des field_codec]. unfold field_des. cbn [fst snd]. split.
  - destruct (des kc sn k0 s (Some e)) as [[[k s1] x]| |] eqn:E1; cbn [bind]; [| |discriminate]. 2: { intros _. now apply fb_name. }
    destruct (law_some _ _ _ _ _ _ _ _ Hk E1) as (e1 & -> & _). destruct (parse_space s1 (Some e1)) as [s2 x] eqn:E2. gp E2. destruct s2 as [|c t]; [discriminate|].
    apply gap_cons in G. destruct G as [G ->]. destruct (c =? COLON) eqn:Ec; cbn [negb]; [|discriminate].
    assert (c = COLON) by lia. subst c. destruct (parse_space t (Some e1)) as [s3 x] eqn:E3. gp E3. destruct s3 as [|c t3]; [discriminate|].
    apply gap_cons in G0. destruct G0 as [G0 ->]. destruct (des vc sn v0 (c :: t3) (Some e1)) as [[[v s4] x]| |] eqn:E4; cbn [bind]; [discriminate| |discriminate].
    intros _. eapply fb_value; [exact E1|exact G|exact G0|discriminate|exact E4].
  - intros [H|k s1 e1 s2 s3 H1 G G2 N H2]; [unfold undefined in H; now rewrite H|]. unfold runs in H1. rewrite H1. cbn [bind]. rewrite (gap_at _ _ _ G), Z.eqb_refl. cbn [negb].
    rewrite (gap_at _ _ _ G2). destruct s3; [congruence|]. unfold undefined in H2. now rewrite H2.
Qed.
(** ---- fixed-size arrays ---- *)
Section Fix.
  Context {A : Type} (item : codec A) (fresh : option A) (ex : buf) (sn : option Z).
  Hypothesis Hd : dlaw (des item).
  Let R := RBR.
  Let I := fun x => runs item sn (match fresh with Some d0 => d0 | None => x end).
  Let B := fun x => undefined item sn (match fresh with Some d0 => d0 | None => x end).
  Lemma fix_bad_forward o : forall e s, fix_loop (des item sn) fresh ex R o s (Some e) = UB -> slots_bad I B R o e s.
  Proof.
    induction o as [|x0 o IH]; intros e s; cbn [fix_loop]; [destruct (fix_close R s (Some e)); discriminate|]. destruct s as [|c0 t0]; [destruct (fix_close R [] (Some e)); discriminate|].
    set (s := c0 :: t0). clearbody s. destruct (parse_space s (Some e)) as [s1 x] eqn:E1. gp E1. destruct s1 as [|c t1]; [discriminate|].
    apply gap_cons in G. destruct G as [G ->]. destruct (c =? R) eqn:Ec; [destruct (fix_close R (c :: t1) (Some e)); discriminate|].
    destruct (des item sn _ (c :: t1) (Some e)) as [[[y s2] x]| |] eqn:E2; cbn [bind]; [| |discriminate].
    2: { intros _. eapply lb_here; [exact G|discriminate|now apply not_heads|exact E2]. }
    destruct (law_some _ _ _ _ _ _ _ _ Hd E2) as (e2 & -> & _). destruct (parse_space s2 (Some e2)) as [s3 x] eqn:E3. gp E3. destruct s3 as [|d t3]; [discriminate|].
    apply gap_cons in G0. destruct G0 as [G0 ->]. destruct (d =? R) eqn:Er; [destruct (fix_close R (d :: t3) (Some e2)); discriminate|]. destruct (d =? COMMA) eqn:Ed; cbn [negb]; [|discriminate].
    destruct (fix_loop _ _ _ _ o t3 (Some e2)) as [[[l0 r0] x]| |] eqn:E4; cbn [bind]; [discriminate| |discriminate]. intros _.
    eapply lb_later; [exact G|discriminate|now apply not_heads|exact E2| |exact (IH _ _ E4)]. assert (d = COMMA) by lia. now subst d.
  Qed.
  Lemma fix_bad_backward o e s : slots_bad I B R o e s -> fix_loop (des item sn) fresh ex R o s (Some e) = UB.
  Proof.
    induction 1 as [x o e s s1 G N1 N2 HB|x o e s s1 y s2 e2 s3 G N1 N2 HI G2 HS IH]; cbn [fix_loop].
    - destruct s as [|c t]; [apply after_gap_nil in G; congruence|]. rewrite (gap_at _ _ _ G). destruct s1 as [|c1 t1]; [congruence|]. rewrite (heads_neq _ _ _ N2). unfold B, undefined in HB. now rewrite HB.
    - destruct s as [|c t]; [apply after_gap_nil in G; congruence|]. rewrite (gap_at _ _ _ G). destruct s1 as [|c1 t1]; [congruence|]. rewrite (heads_neq _ _ _ N2).
      unfold I, runs in HI. rewrite HI. cbn [bind]. rewrite (gap_at _ _ _ G2). replace (COMMA =? R) with false by reflexivity. rewrite Z.eqb_refl. cbn [negb]. now rewrite IH.
  Qed.
  Lemma each_bad_at s : forall o e, fix_null (des item sn) o s (Some e) = UB <-> each_bad (fun x => runs item sn x) (fun x => undefined item sn x) s e o.
  Proof.
    induction o as [|a o IH]; intros e; cbn [fix_null]; [split; [discriminate|]; intros H; inversion H|]. destruct (des item sn a s (Some e)) as [[[y r] z]| |] eqn:E; cbn [bind].
    - destruct (law_some _ _ _ _ _ _ _ _ Hd E) as (e1 & -> & _). specialize (IH e1). split.
      + destruct (fix_null _ o s (Some e1)) as [[l' z]| |] eqn:E2; cbn [bind]; [discriminate| |discriminate]. intros _. eapply eb_later; [exact E|now apply IH].
      + intros H. inversion H as [e0 x0 o0 Hb|e0 x0 y0 r0 e2 o0 Hr Hl]; subst; [unfold undefined in Hb; congruence|]. unfold runs in Hr. rewrite E in Hr. injection Hr as <- <- <-. apply IH in Hl. now rewrite Hl.
    - split; [intros _; now apply eb_here|reflexivity].
    - destruct (law_fuel _ _ _ _ _ Hd E).
  Qed.
  Theorem fix_undef old e s : fix_des fresh ex LBR R item sn old s (Some e) = UB <->
    heads 110 s /\ each_bad (fun x => runs item sn x) (fun x => undefined item sn x) s e old \/ exists t, s = LBR :: t /\ slots_bad I B R old e t.
  Proof.
    unfold fix_des. destruct (is_null s) eqn:En.
    - apply is_null_heads in En. rewrite <- each_bad_at. split.
      + destruct (fix_null _ old s (Some e)) as [[l x]| |]; cbn [bind]; [destruct (parse_null s x); discriminate| |discriminate]. auto.
      + intros [(_ & ->)|(t & -> & _)]; [reflexivity|]. apply heads_inv in En. discriminate.
    - apply not_null_heads in En. destruct s as [|c t]; [split; [discriminate|]; intros [(H & _)|(t & H & _)]; [contradiction|discriminate]|]. destruct (c =? LBR) eqn:Ec; cbn [negb].
      + assert (c = LBR) by lia. subst c. split; [intros H; right; exists t; split; [reflexivity|now apply fix_bad_forward]|]. intros [(H & _)|(t' & H & K)]; [contradiction|]. injection H as <-. now apply fix_bad_backward.
      + split; [discriminate|]. intros [(H & _)|(t' & H & K)]; [contradiction|]. injection H as -> _. lia.
  Qed.
End Fix.
Lemma vec_undef {A} (c : codec (list A)) N sn (old : vec A N) e s : undefined (vec_codec c N) sn old e s <-> undefined c sn (vlist old) e s.
Proof. unfold undefined. cbn [des vec_codec]. destruct (des c sn (vlist old) s (Some e)) as [[[l q] x]| |]; cbn [bind]; split; (discriminate || reflexivity). Qed.

(** ---- structs ---- *)
Lemma skip_bad_at sn e s : bytes s -> parse_member (parse_value sn) s (Some e) = UB <-> skip_bad sn s.
Proof.
  intros Hb. transitivity (ends None (parse_member (parse_value sn) s C0)).
  - cbn [ends]. destruct (pmember_law sn s) as [(q & o & A & _)|(_ & A)]; rewrite !A; split; (discriminate || reflexivity).
  - rewrite (member_fails_at sn s None Hb). unfold skip_bad. split.
    + intros [(j & Q & _)|H]; [discriminate|exact H].
    + intros H. right. exact H.
Qed.
Section Obj.
  Context {T : Type} (mode : omode) (sn : option Z).
  Implicit Types (b : memb T) (t : T).
  Lemma mem_bad_at m old t e s : mgood m -> mem_p_des m old sn t s false (Some e) = UB <-> mem_bad sn m old e s.
  Proof.
    intros [Hd Hn]. unfold mem_p_des, mem_bad. destruct (name_total (m_name m) e s Hn) as (u & s1 & e1 & N). rewrite (name_eq _ _ _ _ _ _ Hn N). destruct u; cbn [negb].
    - split.
      + intros H. exists s1, e1. split; [exact N|]. unfold undefined. destruct (des _ _ _ _ _) as [[[y r] x]| |]; cbn [bind] in H; [discriminate|reflexivity|discriminate].
      + intros (s2 & e2 & N2 & H). apply name_eq in N, N2; auto. rewrite N in N2. injection N2 as <- <-. unfold undefined in H. now rewrite H.
    - split; [discriminate|]. intros (s2 & e2 & N2 & H). apply name_eq in N, N2; auto. congruence.
  Qed.
  Lemma reset_fuel m t : mgood m -> mem_reset m t <> Fuel.
  Proof. intros [Hd _]. unfold mem_reset. pose proof (law_fuel _ (Some 0) (m_get m t) (text "null") None Hd) as K. destruct (des _ _ _ _ _) as [[[y r] x]| |]; cbn [bind]; congruence. Qed.
  Lemma reset_bad_at m t : mem_reset m t = UB <-> reset_bad m t.
  Proof. unfold mem_reset, reset_bad. destruct (des _ _ _ _ _) as [[[y r] x]| |]; cbn [bind]; split; (discriminate || reflexivity). Qed.
  Lemma mem_fuel m old t s e : mgood m -> mem_p_des m old sn t s false (Some e) <> Fuel.
  Proof.
    intros [Hd Hn]. unfold mem_p_des. destruct (unser_name _ s false (Some e)) as [[s1 x1] u1]. destruct u1; cbn [negb]; [|discriminate]. pose proof (law_fuel _ sn old s1 x1 Hd) as K.
    destruct (des _ _ _ _ _) as [[[y r] x]| |]; cbn [bind]; congruence.
  Qed.
  Lemma mem_fun m old t e s t1 u1 r1 e1 t2 u2 r2 e2 : mgood m -> mem_run sn m old t e s t1 u1 r1 e1 -> mem_run sn m old t e s t2 u2 r2 e2 -> t1 = t2 /\ e1 = e2.
  Proof. intros Hg H K. apply mem_backward in H, K; auto. rewrite H in K. injection K; auto. Qed.
  Lemma memb_bad_inv b t e s : memb_bad sn b t e s ->
    match b with
    | MRef m => mem_bad sn m (m_get m t) e s
    | MProp m i => mem_bad sn m i e s
    | MIf ru l r0 _ => mem_bad sn (if ru then r0 else l) (m_get (if ru then r0 else l) t) no_error s \/
      exists t1 hit r e1, mem_run sn (if ru then r0 else l) (m_get (if ru then r0 else l) t) t no_error s t1 hit r e1 /\
        (is_err e1 = false /\ reset_bad (if ru then l else r0) t1 \/ is_err e1 = true /\ reset_bad (if ru then r0 else l) t1 \/
         is_err e1 = true /\ exists t2, reset (if ru then r0 else l) t1 t2 /\ mem_bad sn (if ru then l else r0) (m_get (if ru then l else r0) t2) e s)
    end.
  Proof. intros []; auto; right; do 4 eexists; (split; [eassumption|]); eauto 8. Qed.
  Lemma memb_bad_at b t e s : bgood b -> memb_des b sn t s false (Some e) = UB <-> memb_bad sn b t e s.
  Proof.
    destruct b as [m|m i|ru l r0 d]; intros Hg; cbn [memb_des].
    - rewrite mem_des_p, mem_bad_at by exact Hg. split; [now apply bb_ref|]. exact (memb_bad_inv (MRef m) t e s).
    - rewrite mem_bad_at by exact Hg. split; [now apply bb_prop|]. exact (memb_bad_inv (MProp m i) t e s).
    - destruct (alt_good _ _ _ _ Hg) as [H1 H2]. rewrite mem_des_p. set (M1 := if ru then r0 else l) in *. set (M2 := if ru then l else r0) in *. split.
      + destruct (mem_p_des _ _ _ _ _ _ _) as [[[[t1 u1] itr] y]| |] eqn:E; cbn [bind]; [| |discriminate]. 2: { intros _. apply bb_first. now apply mem_bad_at in E. }
        apply mem_forward in E; [|exact H1]. destruct E as (e1 & -> & E). rewrite no_err_some. destruct (is_err e1) eqn:Ee; cbn [negb].
        * destruct (mem_reset _ t1) as [t2| |] eqn:Er; cbn [bind]; [| |discriminate]. 2: { intros _. apply reset_bad_at in Er. eapply bb_reset2; [exact E|exact Ee|exact Er]. }
          apply reset_at in Er. rewrite mem_des_p, mem_u by exact (hit_string _ _ _ _ _ _ _ _ _ _ E). intros H. apply mem_bad_at in H; [|exact H2]. eapply bb_second; [exact E|exact Ee|exact Er|exact H].
        * destruct (mem_reset _ t1) as [t2| |] eqn:Er; cbn [bind]; [discriminate| |discriminate]. intros _. apply reset_bad_at in Er. eapply bb_reset; [exact E|exact Ee|exact Er].
      + intros H. apply memb_bad_inv in H. fold M1 M2 in H. destruct H as [H|(t1 & hit & r & e1 & H & [(Ee & Hr)|[(Ee & Hr)|(Ee & t2 & Hr & H3)]])].
        * apply (mem_bad_at _ _ t) in H; [|exact H1]. now rewrite H.
        * rewrite (mem_backward _ _ _ _ _ _ _ _ _ _ H1 H). cbn [bind]. rewrite no_err_some, Ee. cbn [negb]. apply reset_bad_at in Hr. now rewrite Hr.
        * rewrite (mem_backward _ _ _ _ _ _ _ _ _ _ H1 H). cbn [bind]. rewrite no_err_some, Ee. cbn [negb]. apply reset_bad_at in Hr. now rewrite Hr.
        * rewrite (mem_backward _ _ _ _ _ _ _ _ _ _ H1 H). cbn [bind]. rewrite no_err_some, Ee. cbn [negb]. apply reset_at in Hr. rewrite Hr. cbn [bind].
          rewrite mem_des_p, mem_u by exact (hit_string _ _ _ _ _ _ _ _ _ _ H). now apply mem_bad_at.
  Qed.
  Lemma search_bad_forward L : Forall bgood L -> forall t e s, bytes s -> search_members mode sn L t s (Some e) = UB -> search_bad mode sn L t e s.
  Proof.
    induction 1 as [|b L Hg HL IH]; intros t e s Hb; cbn [search_members].
    - destruct (search_end mode sn s (Some e)) as [[s1 y]| |] eqn:E; cbn [bind]; [discriminate| |discriminate]. intros _. unfold search_end in E. destruct mode eqn:Em.
      + destruct (parse_member _ s (Some e)) as [[s2 y]| |] eqn:E2; cbn [bind] in E; [discriminate| |discriminate]. apply hb_skip; [reflexivity|]. now apply (skip_bad_at sn e s Hb).
      + destruct s as [|c s]; [discriminate|]. destruct (c =? RCB); discriminate.
    - destruct (memb_des b sn t s false (Some e)) as [[[[t1 u] s1] y]| |] eqn:E; cbn [bind]; [| |discriminate]. 2: { intros _. apply hb_here. now apply memb_bad_at. }
      apply memb_forward in E; [|exact Hg]. destruct E as (e1 & -> & E). destruct u; cbn [negb]; [discriminate|].
      intros H. apply IH in H; [|eapply bytes_suffix; [exact (memb_suffix _ _ _ _ _ _ _ _ _ Hg E)|exact Hb]]. eapply hb_next; eassumption.
  Qed.
  Lemma search_bad_backward L t e s : search_bad mode sn L t e s -> Forall bgood L -> bytes s -> search_members mode sn L t s (Some e) = UB.
  Proof.
    induction 1 as [b L t e s H|b L t e s t1 s1 e1 H HS IH|t e s Em H]; intros HL Hb; cbn [search_members].
    - inversion HL as [|? ? Hg HL']; subst. apply memb_bad_at in H; [|exact Hg]. now rewrite H.
    - inversion HL as [|? ? Hg HL']; subst. rewrite (memb_backward _ _ _ _ _ _ _ _ _ Hg H). cbn [bind negb]. apply IH; [exact HL'|]. eapply bytes_suffix; [exact (memb_suffix _ _ _ _ _ _ _ _ _ Hg H)|exact Hb].
    - unfold search_end. rewrite Em. now rewrite (proj2 (skip_bad_at sn e s Hb) H).
  Qed.
  Lemma rest_bad_forward n : forall e s, bytes s -> rest_loop mode sn n s (Some e) = UB -> rest_bad sn e s.
  Proof.
    induction n as [|n IH]; intros e s Hb; cbn [rest_loop]; [discriminate|].
    destruct (parse_member _ s (Some e)) as [[s1 y]| |] eqn:E; cbn [bind]; [| |discriminate]. 2: { intros _. apply rb_here. now apply (skip_bad_at sn e s Hb). }
    apply skip_at in E; [|exact Hb]. destruct E as (e1 & -> & E). destruct (parse_space s1 (Some e1)) as [s2 y] eqn:E2. gp E2. destruct s2 as [|c t2]; [discriminate|].
    apply gap_cons in G. destruct G as [G ->]. destruct (c =? RCB) eqn:Ec; [destruct mode; discriminate|]. destruct (c =? COMMA) eqn:Ed; cbn [negb]; [|discriminate].
    assert (c = COMMA) by lia. subst c. destruct (parse_space t2 (Some e1)) as [s3 y] eqn:E3. gp E3. intros H. apply IH in H.
    - eapply rb_more; eassumption.
    - eapply bytes_suffix; [exact (gap_suffix _ _ _ _ G0)|]. pose proof (bytes_suffix _ _ (after_gap_suffix _ _ G) (bytes_suffix _ _ (skip_suffix _ _ _ _ _ Hb E) Hb)) as K. now inversion K.
  Qed.
  Lemma rest_bad_backward e s : rest_bad sn e s -> bytes s -> forall n, (length s < n)%nat -> rest_loop mode sn n s (Some e) = UB.
  Proof.
    induction 1 as [e s H|e s s1 e1 s2 s3 e3 K G G2 HR IH]; intros Hb n Hn; (destruct n as [|n]; [lia|]); cbn [rest_loop].
    - now rewrite (proj2 (skip_bad_at sn e s Hb) H).
    - pose proof (skip_suffix _ _ _ _ _ Hb K) as Hs. rewrite (proj2 (skip_at sn e s s1 (Some e1) Hb)) by eauto. cbn [bind]. rewrite (gap_at _ _ _ G). replace (COMMA =? RCB) with false by reflexivity. rewrite Z.eqb_refl. cbn [negb]. rewrite (gap_eq _ _ _ _ G2).
      apply IH.
      + eapply bytes_suffix; [exact (gap_suffix _ _ _ _ G2)|]. pose proof (bytes_suffix _ _ (after_gap_suffix _ _ G) (bytes_suffix _ _ Hs Hb)) as K2. now inversion K2.
      + pose proof (gap_len _ _ _ _ G2). pose proof (after_gap_len _ _ G) as L1. apply suffix_len in Hs. cbn [length] in L1. lia.
  Qed.
  Context (L : list (memb T)).
  Hypothesis HL : Forall bgood L.
  Lemma close_ub t s e : at_close t s e <> UB. Proof. unfold at_close. destruct s as [|c s]; [discriminate|]. destruct (negb (c =? RCB)); discriminate. Qed.
  Lemma members_bad_forward n : forall R t e s, Forall bgood R -> bytes s -> members_loop mode sn L n R t s (Some e) = UB -> members_bad mode sn L R t e s.
  Proof.
    induction n as [|n IH]; intros R t e s HR Hb; cbn [members_loop]; [discriminate|]. destruct R as [|b R].
    - destruct (rest_members mode sn s (Some e)) as [[s1 y]| |] eqn:E; cbn [bind]; [discriminate| |discriminate]. intros _. unfold rest_members in E.
      destruct (parse_space s (Some e)) as [s1 y] eqn:E1. gp E1. destruct s1 as [|c t1]; [discriminate|]. apply gap_cons in G. destruct G as [G ->]. destruct (c =? RCB) eqn:Ec; [discriminate|].
      apply rest_bad_forward in E; [|exact (bytes_suffix _ _ (after_gap_suffix _ _ G) Hb)]. eapply ms_rest; [exact G|discriminate|now apply not_heads|exact E].
    - inversion HR as [|? ? Hg HR']; subst. pose proof (step_forward mode sn L HL b t e s) as F.
      destruct (memb_des b sn t s false (Some e)) as [[[[t1 u] s1] y]| |] eqn:E; cbn [bind] in *; [| |discriminate]. 2: { intros _. apply ms_here, pb_next. now apply memb_bad_at. }
      destruct (if negb u then search_members mode sn L t1 s1 y else Ok (t1, s1, y)) as [[[t2 s2] y2]| |] eqn:E2; cbn [bind] in *; [| |discriminate].
      2: { intros _. destruct u; cbn [negb] in E2; [discriminate|]. apply memb_forward in E; [|exact Hg]. destruct E as (e1 & -> & E). apply ms_here. eapply pb_search; [exact E|]. apply search_bad_forward; [exact HL|exact (bytes_suffix _ _ (memb_suffix _ _ _ _ _ _ _ _ _ Hg E) Hb)|exact E2]. }
      specialize (F t2 u s2 y2 Hg Hb eq_refl). destruct F as (e2 & -> & F). pose proof (step_suffix mode sn L HL _ _ _ _ _ _ _ _ Hg Hb F) as Hs. pose proof (bytes_suffix _ _ Hs Hb) as Hb2.
      destruct (parse_space s2 (Some e2)) as [s3 y3] eqn:E3. gp E3. destruct s3 as [|d t3]; [discriminate|].
      apply gap_cons in G. destruct G as [G ->]. destruct (d =? COMMA) eqn:Ed; [|intros H; now apply close_ub in H].
      assert (d = COMMA) by lia. subst d. destruct (parse_space t3 (Some e2)) as [s4 y4] eqn:E4. gp E4.
      destruct (members_loop mode sn L n _ t2 s4 (Some e0)) as [[[t5 s5] y5]| |] eqn:E5; cbn [bind]; [intros H; now apply close_ub in H| |discriminate]. intros _. apply IH in E5.
      + eapply ms_more; eassumption.
      + destruct u; [exact HR'|exact HR].
      + eapply bytes_suffix; [exact (gap_suffix _ _ _ _ G0)|]. pose proof (bytes_suffix _ _ (after_gap_suffix _ _ G) Hb2) as K. now inversion K.
  Qed.
  Ltac byq Q := match type of Q with _ = ?rhs => match goal with |- bind ?w _ = _ => replace w with rhs by (symmetry; exact Q) end end.
  Lemma members_bad_backward R t e s : members_bad mode sn L R t e s -> Forall bgood R -> bytes s -> forall n, (length s < n)%nat -> members_loop mode sn L n R t s (Some e) = UB.
  Proof.
    induction 1 as [t e s s1 G N1 N2 HS|b R t e s K|b R t e s t1 u s1 e1 s2 s3 e3 K G G2 HM IH]; intros HR Hb n Hn; (destruct n as [|n]; [lia|]); cbn [members_loop].
    - unfold rest_members. rewrite (gap_at _ _ _ G). destruct s1 as [|c t1]; [congruence|]. rewrite (heads_neq _ _ _ N2).
      assert (K : rest_loop mode sn (Datatypes.S (length (c :: t1))) (c :: t1) (Some e) = UB) by (apply rest_bad_backward; [exact HS|exact (bytes_suffix _ _ (after_gap_suffix _ _ G) Hb)|lia]). now rewrite K.
    - inversion HR as [|? ? Hg HR']; subst. destruct K as [K|t1 s1 e1 K K2]; [apply memb_bad_at in K; [|exact Hg]; now rewrite K|].
      rewrite (memb_backward _ _ _ _ _ _ _ _ _ Hg K). cbn [bind negb]. rewrite (search_bad_backward L _ _ _ K2 HL (bytes_suffix _ _ (memb_suffix _ _ _ _ _ _ _ _ _ Hg K) Hb)). reflexivity.
    - inversion HR as [|? ? Hg HR']; subst. pose proof (step_suffix mode sn L HL _ _ _ _ _ _ _ _ Hg Hb K) as Hs. destruct (step_backward mode sn L HL _ _ _ _ _ _ _ _ Hg Hb K) as (t2 & s4 & e4 & -> & Q). cbn [bind]. byq Q. cbn [bind]. rewrite (gap_at _ _ _ G).
      rewrite Z.eqb_refl, (gap_eq _ _ _ _ G2). assert (IH' : members_loop mode sn L n (if u then R else b :: R) t1 s3 (Some e3) = UB).
      { apply IH.
        - destruct u; assumption.
        - eapply bytes_suffix; [exact (gap_suffix _ _ _ _ G2)|]. pose proof (bytes_suffix _ _ (after_gap_suffix _ _ G) (bytes_suffix _ _ Hs Hb)) as K2. now inversion K2.
        - pose proof (gap_len _ _ _ _ G2). pose proof (after_gap_len _ _ G) as L1. apply suffix_len in Hs. cbn [length] in L1. lia. }
      now rewrite IH'.
  Qed.
  Theorem object_undef t0 old e s : bytes s -> (undefined (object_codec mode L t0) sn old e s <-> struct_bad mode sn L old e s).
  Proof.
    intros Hb. unfold undefined. cbn [des object_codec]. unfold object_des. split.
    - destruct (is_null s) eqn:En; [destruct (parse_null s (Some e)); discriminate|]. destruct s as [|c t]; [discriminate|]. assert (Hbt : bytes t) by now inversion Hb. destruct (c =? LCB) eqn:Ec; cbn [negb].
      + assert (c = LCB) by lia. subst c. destruct (parse_space t (Some e)) as [s1 y] eqn:E1. gp E1. destruct s1 as [|d t1]; [discriminate|].
        apply gap_cons in G. destruct G as [G ->]. destruct (d =? RCB) eqn:Ed; cbn [negb]; [discriminate|].
        destruct (members_loop _ _ _ _ _ _ _ _) as [[[w s2] y]| |] eqn:E2; cbn [bind]; [| |discriminate].
        * destruct s2 as [|q s2]; [discriminate|]. destruct (parse_space (q :: s2) y) as [s3 y3]. destruct s3 as [|f t3]; [discriminate|]. destruct (negb (f =? RCB)); discriminate.
        * intros _. apply members_bad_forward in E2; [|exact HL|exact (bytes_suffix _ _ (after_gap_suffix _ _ G) Hbt)]. eapply tb_members; [exact G|discriminate|now apply not_heads|exact E2].
      + destruct (c =? LBR) eqn:El; [|discriminate]. assert (c = LBR) by lia. subst c. destruct (parse_space t (Some e)) as [s1 y] eqn:E1. gp E1. destruct s1 as [|d t1].
        * cbn [deref]. destruct sn as [d|] eqn:Es; cbn [bind]; [|intros _; apply tb_end with e0; [exact G|now left]]. destruct (d =? RBR) eqn:Ed; cbn [negb]; [|discriminate]. intros _. apply tb_end with e0; [exact G|]. right. f_equal. lia.
        * cbn [deref bind]. destruct (d =? RBR); cbn [negb bind step]; discriminate.
    - intros H. destruct H as [e t e1 G Hsn|e t s G N1 N2 HM].
      + replace (is_null (LBR :: t)) with false by reflexivity. replace (LBR =? LCB) with false by reflexivity. rewrite Z.eqb_refl. cbn [negb]. rewrite (gap_eq _ _ _ _ G). destruct Hsn as [->| ->]; reflexivity.
      + replace (is_null (LCB :: t)) with false by reflexivity. rewrite Z.eqb_refl. cbn [negb]. rewrite (gap_at _ _ _ G). destruct s as [|d t1]; [congruence|]. rewrite (heads_neq _ _ _ N2). cbn [negb].
        assert (K : members_loop mode sn L (Datatypes.S (length (d :: t1))) L old (d :: t1) (Some e) = UB).
        { apply members_bad_backward; [exact HM|exact HL| |lia]. eapply bytes_suffix; [exact (after_gap_suffix _ _ G)|now inversion Hb]. }
        now rewrite K.
  Qed.
End Obj.

(** ---- structs as arrays ---- *)
Section Arr.
  Context {T : Type} (sn : option Z) (L : list (memb T)).
  Implicit Types (b : memb T) (t : T).
  Notation alaw := (memb_all (fun _ c => dlaw (des c))).
  Hypothesis HL : Forall alaw L.
  Lemma amem_bad_at m t e s : amem_des m sn t s (Some e) = UB <-> undefined (m_codec m) sn (m_get m t) e s.
  Proof. unfold amem_des, undefined. destruct (des _ _ _ _ _) as [[[y r] x]| |]; cbn [bind]; split; (discriminate || reflexivity). Qed.
  Lemma amemb_bad_inv b t e s : amemb_bad sn b t e s ->
    match b with
    | MRef m => undefined (m_codec m) sn (m_get m t) e s
    | MProp m i => undefined (m_codec m) sn i e s
    | MIf ru l r0 _ => let m := if ru then r0 else l in let o := if ru then l else r0 in undefined (m_codec m) sn (m_get m t) no_error s \/
      exists x r e1, runs (m_codec m) sn (m_get m t) no_error s x r e1 /\
        (reset_bad (if is_err e1 then m else o) (m_set m t x) \/ is_err e1 = true /\ exists t2, reset m (m_set m t x) t2 /\ undefined (m_codec o) sn (m_get o t2) e s)
    end.
  Proof. intros []; cbv zeta; subst; auto; right; do 3 eexists; (split; [eassumption|]); eauto 8. Qed.
  Lemma amemb_bad_at b t e s : alaw b -> amemb_des b sn t s (Some e) = UB <-> amemb_bad sn b t e s.
  Proof.
    destruct b as [m|m i|ru l r0 d]; intros Hg; cbn [amemb_des].
    - rewrite amem_bad_at. split; [now apply ax_ref|]. exact (amemb_bad_inv (MRef m) t e s).
    - assert (Q : (let* (x, r, e') := des (m_codec m) sn i s (Some e) in Ok (m_set m t x, r, e')) = UB <-> undefined (m_codec m) sn i e s) by (unfold undefined; destruct (des _ _ _ _ _) as [[[y r] x]| |]; cbn [bind]; split; (discriminate || reflexivity)).
      rewrite Q. split; [now apply ax_prop|]. exact (amemb_bad_inv (MProp m i) t e s).
    - destruct (alt_law _ _ _ _ Hg) as [H1 H2]. split.
      + destruct (amem_des _ _ _ _ _) as [[[t1 itr] y]| |] eqn:E; cbn [bind]; [| |discriminate]. 2: { intros _. eapply ax_first; [reflexivity|]. now apply amem_bad_at in E. }
        apply amem_forward in E; [|exact H1]. destruct E as (w & e1 & -> & -> & E). rewrite no_err_some. destruct (is_err e1) eqn:Ee; cbn [negb].
        * destruct (mem_reset _ _) as [t2| |] eqn:Er; cbn [bind]; [| |discriminate]. 2: { intros _. apply reset_bad_at in Er. eapply ax_reset; [reflexivity|reflexivity|exact E|]. now rewrite Ee. }
          apply reset_at in Er. intros H. apply amem_bad_at in H. eapply ax_second; [reflexivity|reflexivity|exact E|exact Ee|exact Er|exact H].
        * destruct (mem_reset _ _) as [t2| |] eqn:Er; cbn [bind]; [discriminate| |discriminate]. intros _. apply reset_bad_at in Er. eapply ax_reset; [reflexivity|reflexivity|exact E|]. now rewrite Ee.
      + intros H. apply amemb_bad_inv in H. cbv zeta in H. destruct H as [H|(w & r & e1 & H & K)].
        * apply amem_bad_at in H. now rewrite H.
        * unfold amem_des at 1. unfold runs in H. rewrite H. cbn [bind]. rewrite no_err_some. destruct K as [K|(Ee & t2 & Hr & K)].
          -- apply reset_bad_at in K. destruct (is_err e1); cbn [negb]; now rewrite K.
          -- rewrite Ee. cbn [negb]. apply reset_at in Hr. rewrite Hr. cbn [bind]. now apply amem_bad_at.
  Qed.
  Lemma places_bad_at M : Forall alaw M -> forall t e s, amembers_des sn M t s (Some e) = UB <-> places_bad sn M t e s.
  Proof.
    induction 1 as [|b M Hg HM IH]; intros t e s; cbn [amembers_des]; [split; [discriminate|]; intros H; inversion H|]. split.
    - destruct (amemb_des b sn t s (Some e)) as [[[t1 s1] y]| |] eqn:E; cbn [bind]; [| |discriminate]. 2: { intros _. apply xb_here. now apply amemb_bad_at. }
      apply amemb_forward in E; [|exact Hg]. destruct E as (e1 & -> & E). destruct (parse_space s1 (Some e1)) as [s2 y] eqn:E2. gp E2. destruct s2 as [|d t2]; [discriminate|].
      apply gap_cons in G. destruct G as [G ->]. destruct (d =? COMMA) eqn:Ed.
      + assert (d = COMMA) by lia. subst d. destruct (parse_space t2 (Some e1)) as [s4 y] eqn:E4. gp E4. destruct (amembers_des sn M t1 s4 (Some e0)) as [[[t3 s3] y]| |] eqn:E3; cbn [bind]; [| |discriminate].
        * destruct s3 as [|f s3]; [discriminate|]. destruct (negb (f =? RBR)); discriminate.
        * intros _. apply IH in E3. eapply xb_more; eassumption.
      + cbn [bind]. destruct (negb (d =? RBR)); discriminate.
    - intros H. remember (b :: M) as bM eqn:Q. destruct H as [b' M' t e s H|b' M' t e s t1 s1 e1 s2 s3 e3 K G G2 HP]; injection Q as -> ->.
      + apply amemb_bad_at in H; [|exact Hg]. now rewrite H.
      + rewrite (amemb_backward _ _ _ _ _ _ _ _ K). cbn [bind]. rewrite (gap_at _ _ _ G), Z.eqb_refl, (gap_eq _ _ _ _ G2). apply IH in HP. now rewrite HP.
  Qed.
  Theorem oarray_undef t0 old e s : undefined (oarray_codec L t0) sn old e s <->
    exists (t s1 : buf), s = LBR :: t /\ after_gap t s1 /\ s1 <> [] /\ ~ heads RBR s1 /\ places_bad sn L old e s1.
  Proof.
    unfold undefined. cbn [des oarray_codec]. unfold oarray_des. split.
    - destruct (is_null s) eqn:En; [destruct (parse_null s (Some e)); discriminate|]. destruct s as [|c t]; [discriminate|]. destruct (c =? LBR) eqn:Ec; cbn [negb]; [|discriminate].
      assert (c = LBR) by lia. subst c. destruct (parse_space t (Some e)) as [s1 y] eqn:E1. gp E1. destruct s1 as [|d t1]; [discriminate|].
      apply gap_cons in G. destruct G as [G ->]. destruct (d =? RBR) eqn:Ed; cbn [negb]; [discriminate|].
      destruct (amembers_des sn L old (d :: t1) (Some e)) as [[[w s2] y]| |] eqn:E2; cbn [bind]; [| |discriminate].
      + destruct s2 as [|q s2]; [discriminate|]. destruct (parse_space (q :: s2) y) as [s3 y3]. destruct s3 as [|f t3]; [discriminate|]. destruct (negb (f =? RBR)); discriminate.
      + intros _. apply places_bad_at in E2; [|exact HL]. exists t, (d :: t1). split; [reflexivity|]. split; [exact G|]. split; [discriminate|]. split; [now apply not_heads|exact E2].
    - intros (t & s1 & -> & G & N1 & N2 & HP). replace (is_null (LBR :: t)) with false by reflexivity. rewrite Z.eqb_refl. cbn [negb]. rewrite (gap_at _ _ _ G). destruct s1 as [|d t1]; [congruence|].
      rewrite (heads_neq _ _ _ N2). cbn [negb]. apply places_bad_at in HP; [|exact HL]. now rewrite HP.
  Qed.
End Arr.
