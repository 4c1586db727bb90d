(** Proofs: what structs with member_if hold after a successful reading. *)
From Verif Require Import Base Parser SpecJson SpecNum SpecString SpecEnum ParserFacts Grammar1 Grammar2 Out Number StringS Array Object ObjectArray SpecObject Enum Float CodecLaws
  NumberProofs StringProofs ArrayProofs EnumProofs ObjectProofs ObjectArrayProofs AcceptProofs SpecExact ExactProofs ObjExactProofs SpecSettle SettleProofs SpecIf.

Lemma bind_ok {A B} (x : res A) (f : A -> res B) y : bind x f = Ok y -> exists a, x = Ok a /\ f a = Ok y.
Proof. destruct x as [a| |]; [|discriminate..]. intros H. now exists a. Qed.
Lemma estep_C0 s e : estep s C0 e -> no_err_yet e = true -> e = C0.
Proof. intros H K. symmetry. exact (estep_clean _ _ _ H K). Qed.

Section Hold.
  Variable T : buf -> Prop.
  Hypothesis HT : closed T.
  Context {S : Type} (I : S -> Prop) (om dm : forall m : mem S, m_ty m -> Prop).
  Definition all_hold (b : memb S) : Prop :=
    match b with MRef m => holds T (m_codec m) (om m) (dm m) | MProp m _ => holds T (m_codec m) (om m) (dm m)
    | MIf _ l r _ => holds T (m_codec l) (om l) (dm l) /\ holds T (m_codec r) (om r) (dm r) end.
  Lemma hold_all b : all_hold b -> memb_all (fun _ c => dlaw (des c)) b.
  Proof. destruct b; cbn; [intros H; apply H..|intros [[H1 _] [H2 _]]; now split]. Qed.
  Lemma mem_cases (m : mem S) sn t s u e t' u' r : holds T (m_codec m) (om m) (dm m) -> om m (m_get m t) -> fit T s -> mem_des m sn t s u e = Ok (t', u', r, C0) ->
    t' = t \/ exists x, dm m x /\ t' = m_set m t x.
  Proof.
    intros [HD HR] Ho Hf. unfold mem_des. destruct (unser_name (m_name m) s u e) as [[s1 e1] u1] eqn:En. destruct (unser_name_good _ _ _ _ _ _ _ En) as (A & _).
    destruct (negb u1); [intros [= <- _ _ _]; now left|]. intros E. apply bind_ok in E as ([[x r1] e2] & E1 & E2). injection E2 as <- _ <- ->.
    pose proof (dl_C0 _ _ _ _ _ _ _ _ HD E1) as ->. right. exists x. split; [|reflexivity]. apply (fit_suffix T HT _ _ A) in Hf. now apply (HR sn (m_get m t) s1 x r1); try apply Hf.
  Qed.
  Lemma mem_tried (m : mem S) sn t s u e t' u' r e' : mem_des m sn t s u e = Ok (t', u', r, e') -> tried m t t'.
  Proof.
    unfold mem_des. destruct (unser_name (m_name m) s u e) as [[s1 e1] u1]. destruct (negb u1); [intros [= <- _ _ _]; now left|].
    intros E. apply bind_ok in E as ([[x r1] e2] & E1 & E2). injection E2 as <- _ _ _. right. now exists x.
  Qed.
  Lemma reset_gives (m : mem S) t t' : mem_reset m t = Ok t' -> exists n, null_gives (m_codec m) n /\ t' = m_set m t n.
  Proof. unfold mem_reset. intros E. apply bind_ok in E as ([[x r1] e2] & E1 & E2). injection E2 as <-. exists x. split; [|reflexivity]. now exists (m_get m t), r1, e2. Qed.
  Lemma if_keeps (f g : mem S) sn t s u e t' u' r : holds T (m_codec f) (om f) (dm f) -> holds T (m_codec g) (om g) (dm g) -> alt_keeps I f g (dm f) (dm g) ->
    (forall t, I t -> om f (m_get f t) /\ om g (m_get g t)) -> I t -> fit T s ->
    (let* (t1, u1, itr, ee) := mem_des f sn t s u (Some no_error) in
     if no_err_yet ee then let* t2 := mem_reset g t1 in Ok (t2, u1, itr, e) else let* t2 := mem_reset f t1 in mem_des g sn t2 s u1 e) = Ok (t', u', r, C0) -> I t'.
  Proof.
    intros Hf Hg (K1 & K2 & K3) Ho Ht Fs E. apply bind_ok in E as ([[[t1 u1] itr] ee] & E1 & E2). destruct (no_err_yet ee) eqn:Ne.
    - apply bind_ok in E2 as (t2 & E2 & E3). injection E3 as -> _ _ _. apply reset_gives in E2 as (n & Hn & ->).
      pose proof (mem_des_good f sn t s u (Some no_error) (proj1 Hf)) as G. rewrite E1 in G. destruct G as [_ G]. apply estep_C0 in G; [|exact Ne]. subst ee.
      destruct (mem_cases f sn t s u _ t1 u1 itr Hf (proj1 (Ho t Ht)) Fs E1) as [->|(x & Hx & ->)]; auto.
    - apply bind_ok in E2 as (t2 & E2 & E3). apply reset_gives in E2 as (n & Hn & ->). apply mem_tried in E1.
      destruct (K3 t t1 n Ht E1 Hn) as [Ka Kb]. apply (mem_cases g sn _ s u1 e t' u' r Hg) in E3; [|apply Ho, Ka|exact Fs].
      destruct E3 as [->|(y & Hy & ->)]; auto.
  Qed.
  Lemma memb_I b sn t s u e t' u' r : all_hold b -> memb_keeps I om dm b -> I t -> fit T s -> memb_des b sn t s u e = Ok (t', u', r, C0) -> I t'.
  Proof.
    destruct b as [m|m i|ru l rr d]; cbn [all_hold memb_keeps memb_des].
    - intros H K Ht Fs E. destruct (K t Ht) as [Ho Kd]. apply (mem_cases m sn t s u e t' u' r H Ho Fs) in E as [->|(x & Hx & ->)]; auto.
    - intros [HD HR] [Ho K] Ht Fs. unfold mem_p_des. destruct (unser_name (m_name m) s u e) as [[s1 e1] u1] eqn:En. destruct (unser_name_good _ _ _ _ _ _ _ En) as (A & _).
      destruct (negb u1); [intros [= <- _ _ _]; exact Ht|]. intros E. apply bind_ok in E as ([[x r1] e2] & E1 & E2). injection E2 as <- _ <- ->.
      pose proof (dl_C0 _ _ _ _ _ _ _ _ HD E1) as ->. apply K; [exact Ht|]. apply (fit_suffix T HT _ _ A) in Fs. now apply (HR sn i s1 x r1); try apply Fs.
    - intros [Hl Hr] [Ho K] Ht Fs. destruct ru; apply if_keeps; auto. intros t2 Ht2. destruct (Ho t2 Ht2). now split.
  Qed.

  (** ---- arrays of members ---- *)
  Lemma amem_cases (m : mem S) sn t s e t' r : holds T (m_codec m) (om m) (dm m) -> om m (m_get m t) -> fit T s -> amem_des m sn t s e = Ok (t', r, C0) ->
    exists x, dm m x /\ t' = m_set m t x.
  Proof.
    intros [HD HR] Ho Hf E. unfold amem_des in E. apply bind_ok in E as ([[x r1] e2] & E1 & E2). injection E2 as <- <- ->.
    pose proof (dl_C0 _ _ _ _ _ _ _ _ HD E1) as ->. exists x. split; [|reflexivity]. now apply (HR sn (m_get m t) s x r1); try apply Hf.
  Qed.
  Lemma amem_tried (m : mem S) sn t s e t' r e' : amem_des m sn t s e = Ok (t', r, e') -> tried m t t'.
  Proof. unfold amem_des. intros E. apply bind_ok in E as ([[x r1] e2] & E1 & E2). injection E2 as <- _ _. right. now exists x. Qed.
  Lemma aif_keeps (f g : mem S) sn t s e t' r : holds T (m_codec f) (om f) (dm f) -> holds T (m_codec g) (om g) (dm g) -> alt_keeps I f g (dm f) (dm g) ->
    (forall t, I t -> om f (m_get f t) /\ om g (m_get g t)) -> I t -> fit T s ->
    (let* (t1, itr, ee) := amem_des f sn t s (Some no_error) in
     if no_err_yet ee then let* t2 := mem_reset g t1 in Ok (t2, itr, e) else let* t2 := mem_reset f t1 in amem_des g sn t2 s e) = Ok (t', r, C0) -> I t'.
  Proof.
    intros Hf Hg (K1 & K2 & K3) Ho Ht Fs E. apply bind_ok in E as ([[t1 itr] ee] & E1 & E2). destruct (no_err_yet ee) eqn:Ne.
    - apply bind_ok in E2 as (t2 & E2 & E3). injection E3 as -> _ _. apply reset_gives in E2 as (n & Hn & ->).
      pose proof (amem_des_good f sn t s (Some no_error) (proj1 Hf)) as G. rewrite E1 in G. destruct G as [_ G]. apply estep_C0 in G; [|exact Ne]. subst ee.
      destruct (amem_cases f sn t s _ t1 itr Hf (proj1 (Ho t Ht)) Fs E1) as (x & Hx & ->); auto.
    - apply bind_ok in E2 as (t2 & E2 & E3). apply reset_gives in E2 as (n & Hn & ->). apply amem_tried in E1.
      destruct (K3 t t1 n Ht E1 Hn) as [Ka Kb]. apply (amem_cases g sn _ s e t' r Hg) in E3; [|apply Ho, Ka|exact Fs].
      destruct E3 as (y & Hy & ->); auto.
  Qed.
  Lemma amemb_I b sn t s e t' r : all_hold b -> memb_keeps I om dm b -> I t -> fit T s -> amemb_des b sn t s e = Ok (t', r, C0) -> I t'.
  Proof.
    destruct b as [m|m i|ru l rr d]; cbn [all_hold memb_keeps amemb_des].
    - intros H K Ht Fs E. destruct (K t Ht) as [Ho Kd]. apply (amem_cases m sn t s e t' r H Ho Fs) in E as (x & Hx & ->); auto.
    - intros [HD HR] [Ho K] Ht Fs E. apply bind_ok in E as ([[x r1] e2] & E1 & E2). injection E2 as <- <- ->.
      pose proof (dl_C0 _ _ _ _ _ _ _ _ HD E1) as ->. apply K; [exact Ht|]. now apply (HR sn i s x r1); try apply Fs.
    - intros [Hl Hr] [Ho K] Ht Fs. destruct ru; apply aif_keeps; auto. intros t2 Ht2. destruct (Ho t2 Ht2). now split.
  Qed.

  Variables (mode : omode) (L : list (memb S)).
  Hypothesis HL : Forall all_hold L.
  Hypothesis HK : Forall (memb_keeps I om dm) L.
  Lemma all_L : Forall (memb_all (fun _ c => dlaw (des c))) L.
  Proof. eapply Forall_impl; [|exact HL]. intros b. apply hold_all. Qed.
  Lemma search_I sn R t s e t' r : incl R L -> I t -> fit T s -> search_members mode sn R t s e = Ok (t', r, C0) -> I t'.
  Proof.
    revert t s e. induction R as [|b R IH]; intros t s e Hi Ht Fs; cbn [search_members]; intros E.
    - apply bind_ok in E as ([s1 e1] & _ & E). injection E as <- _ _. exact Ht.
    - assert (Hb : In b L) by (apply Hi; now left). apply bind_ok in E as ([[[t1 u] s1] e1] & E1 & E2).
      pose proof (memb_des_good b sn t s false e (proj1 (Forall_forall _ _) all_L b Hb)) as G. rewrite E1 in G. destruct G as [A _].
      assert (KI : e1 = C0 -> I t1) by (intros ->; apply (memb_I b sn t s false e t1 u s1); auto; [now apply (proj1 (Forall_forall _ _) HL)|now apply (proj1 (Forall_forall _ _) HK)]).
      destruct (negb u); [|injection E2 as <- _ ->; now apply KI].
      assert (HR : Forall (memb_all (fun _ c => dlaw (des c))) R) by (apply Forall_forall; intros y Hy; apply (proj1 (Forall_forall _ _) all_L); apply Hi; now right).
      pose proof (search_good mode sn R HR t1 s1 e1) as G. destruct (dg_C0 _ _ _ _ _ G E2) as [-> _].
      apply (IH t1 s1 C0); auto; [intros y Hy; apply Hi; now right|]. now apply (fit_suffix T HT s).
  Qed.
  Lemma close_C0 (t : S) s e t' r : at_close t s e = Ok (t', r, C0) -> t' = t /\ e = C0.
  Proof.
    unfold at_close. destruct s as [|c s]; [intros E; injection E as _ _ E; now apply C0_cerr in E|].
    destruct (negb (c =? RCB)); [intros E; injection E as _ _ E; now apply C0_cerr in E|]. intros [= -> _ ->]. now split.
  Qed.
  Lemma loop_I sn n : forall R t s e t' r, incl R L -> I t -> fit T s -> (length s < n)%nat -> members_loop mode sn L n R t s e = Ok (t', r, C0) -> I t'.
  Proof.
    induction n as [|n IH]; intros R t s e t' r Hi Ht Fs Hn; [lia|]. cbn [members_loop]. destruct R as [|b R].
    { intros E. apply bind_ok in E as ([s1 e1] & _ & E). injection E as <- _ _. exact Ht. }
    intros E. assert (Hb : In b L) by (apply Hi; now left). apply bind_ok in E as ([[[t1 u] s1] e1] & E1 & E).
    pose proof (memb_des_good b sn t s false e (proj1 (Forall_forall _ _) all_L b Hb)) as G. rewrite E1 in G. destruct G as [A1 _].
    assert (KI : e1 = C0 -> I t1) by (intros ->; apply (memb_I b sn t s false e t1 u s1); auto; [now apply (proj1 (Forall_forall _ _) HL)|now apply (proj1 (Forall_forall _ _) HK)]).
    apply bind_ok in E as ([[t2 s2] e2] & E2 & E).
    assert (K2 : (e2 = C0 -> I t2) /\ suffix s2 s).
    { destruct (negb u).
      - pose proof (search_good mode sn L all_L t1 s1 e1) as G. split.
        + intros ->. destruct (dg_C0 _ _ _ _ _ G E2) as [-> _]. apply (search_I sn L t1 s1 C0 t2 s2 (incl_refl L)); auto. now apply (fit_suffix T HT s).
        + rewrite E2 in G. destruct G as [G _]. now apply suffix_trans with s1.
      - injection E2 as <- <- <-. now split. }
    destruct K2 as [K2 A2]. destruct (parse_space s2 e2) as [s3 e3] eqn:E3. destruct s3 as [|d t3]; [injection E as _ _ E; now apply C0_cerr in E|].
    assert (A3 : suffix (d :: t3) s2) by (pose proof (space_good s2) as (q & o & Ga & Gb & _); rewrite Ga in E3; now injection E3 as <- _).
    destruct (d =? COMMA).
    - destruct (parse_space t3 e3) as [s4 e4] eqn:E4. apply bind_ok in E as ([[t5 s5] e5] & E5 & E). apply close_C0 in E as [-> ->].
      assert (A4 : suffix s4 t3) by (pose proof (space_good t3) as (q & o & Ga & Gb & _); rewrite Ga in E4; now injection E4 as <- _).
      assert (A5 : suffix t3 s) by (apply suffix_trans with s2; [now apply suffix_tl with d|exact A2]).
      assert (HR : incl (if u then R else b :: R) L) by (destruct u; [intros y Hy; apply Hi; now right|exact Hi]).
      assert (Hl : (length s4 < n)%nat).
      { apply suffix_len in A4. apply (suffix_trans _ _ _ A3) in A2. apply suffix_len in A2. cbn [length] in A2. lia. }
      assert (HA : Forall (memb_all (fun _ c => dlaw (des c))) (if u then R else b :: R)) by (apply Forall_forall; intros y Hy; apply (proj1 (Forall_forall _ _) all_L); now apply HR).
      pose proof (members_good mode sn L all_L n (if u then R else b :: R) t2 s4 e4 HA Hl) as G. destruct (dg_C0 _ _ _ _ _ G E5) as [-> _].
      apply space_C0 in E4 as [-> _]. apply space_C0 in E3 as [-> _]. eapply IH; [exact HR| | |exact Hl|exact E5]; [now apply K2|].
      apply (fit_suffix T HT s); [now apply suffix_trans with t3|exact Fs].
    - apply close_C0 in E as [-> ->]. apply space_C0 in E3 as [-> _]. now apply K2.
  Qed.
  Theorem object_keeps t0 : I t0 -> holds T (object_codec mode L t0) I I.
  Proof.
    intros H0. split; [apply object_dlaw, all_L|]. intros sn old s v r Hb Ht Ho E. unfold reads in E. fold C0 in E. cbn [des object_codec] in E. unfold object_des in E.
    destruct (is_null s); [destruct (parse_null s C0); now injection E as <- _ _|].
    destruct s as [|c s]; [now injection E as <- _ _|]. destruct (negb (c =? LCB)).
    { destruct (c =? LBR); [|now injection E as <- _ _]. destruct (parse_space s C0) as [s1 e1]. apply bind_ok in E as (d & _ & E).
      destruct (negb (d =? RBR)); [now injection E as <- _ _|]. apply bind_ok in E as (s2 & _ & E). now injection E as <- _ _. }
    destruct (parse_space s C0) as [s1 e1] eqn:E1. destruct s1 as [|d t1]; [now injection E as <- _ _|]. destruct (negb (d =? RCB)); [|now injection E as <- _ _].
    assert (A1 : suffix (d :: t1) s) by (pose proof (space_good s) as (q & o & Ga & Gb & _); rewrite Ga in E1; now injection E1 as <- _).
    apply bind_ok in E as ([[v1 s2] e2] & E2 & E).
    assert (K : e2 = C0 -> I v1).
    { intros ->. apply (loop_I sn _ L old (d :: t1) e1 v1 s2 (incl_refl L) Ho) in E2; [exact E2| |lia]. apply (fit_suffix T HT s); [exact A1|]. apply (fit_tl T HT c). now split. }
    destruct s2 as [|x s2]; [injection E as _ _ E; now apply C0_cerr in E|]. destruct (parse_space (x :: s2) e2) as [s3 e3] eqn:E3.
    destruct s3 as [|y s3]; [injection E as _ _ E; now apply C0_cerr in E|]. destruct (negb (y =? RCB)); [injection E as _ _ E; now apply C0_cerr in E|].
    injection E as <- _ ->. apply space_C0 in E3 as [-> _]. now apply K.
  Qed.
  Lemma aloop_I sn R : incl R L -> forall t s e t' r, I t -> fit T s -> amembers_des sn R t s e = Ok (t', r, C0) -> I t'.
  Proof.
    induction R as [|b R IH]; intros Hi t s e t' r Ht Fs; cbn [amembers_des]; intros E; [now injection E as <- _ _|].
    assert (Hb : In b L) by (apply Hi; now left). apply bind_ok in E as ([[t1 s1] e1] & E1 & E).
    pose proof (amemb_des_good b sn t s e (proj1 (Forall_forall _ _) all_L b Hb)) as G. rewrite E1 in G. destruct G as [A1 _].
    assert (KI : e1 = C0 -> I t1) by (intros ->; apply (amemb_I b sn t s e t1 s1); auto; [now apply (proj1 (Forall_forall _ _) HL)|now apply (proj1 (Forall_forall _ _) HK)]).
    destruct (parse_space s1 e1) as [s2 e2] eqn:E2. destruct s2 as [|d t2]; [injection E as _ _ E; now apply C0_cerr in E|].
    assert (A2 : suffix (d :: t2) s1) by (pose proof (space_good s1) as (q & o & Ga & Gb & _); rewrite Ga in E2; now injection E2 as <- _).
    apply bind_ok in E as ([[t3 s3] e3] & E3 & E).
    assert (Ec : t' = t3 /\ e3 = C0).
    { destruct s3 as [|f s3]; [injection E as _ _ E; now apply C0_cerr in E|]. destruct (negb (f =? RBR)); [injection E as _ _ E; now apply C0_cerr in E|]. injection E as -> _ ->. now split. }
    destruct Ec as [-> ->]. destruct (d =? COMMA); [|injection E3 as <- _ ->; apply space_C0 in E2 as [-> _]; now apply KI].
    destruct (parse_space t2 e2) as [s4 e4] eqn:E4. assert (A4 : suffix s4 t2) by (pose proof (space_good t2) as (q & o & Ga & Gb & _); rewrite Ga in E4; now injection E4 as <- _).
    assert (HR : incl R L) by (intros y Hy; apply Hi; now right).
    assert (HA : Forall (memb_all (fun _ c => dlaw (des c))) R) by (apply Forall_forall; intros y Hy; apply (proj1 (Forall_forall _ _) all_L); now apply HR).
    pose proof (amembers_good sn R HA t1 s4 e4) as G. destruct (dg_C0 _ _ _ _ _ G E3) as [-> _]. apply space_C0 in E4 as [-> _]. apply space_C0 in E2 as [-> _].
    apply (IH HR t1 s4 C0 t3 s3); [now apply KI| |exact E3]. apply (fit_suffix T HT s); [|exact Fs].
    apply suffix_trans with t2; [exact A4|]. apply suffix_trans with s1; [now apply suffix_tl with d|exact A1].
  Qed.
  Theorem oarray_keeps t0 : I t0 -> holds T (oarray_codec L t0) I I.
  Proof.
    intros H0. split; [apply oarray_dlaw, all_L|]. intros sn old s v r Hb Ht Ho E. unfold reads in E. fold C0 in E. cbn [des oarray_codec] in E. unfold oarray_des in E.
    destruct (is_null s); [destruct (parse_null s C0); now injection E as <- _ _|].
    destruct s as [|c s]; [now injection E as <- _ _|]. destruct (negb (c =? LBR)); [now injection E as <- _ _|].
    destruct (parse_space s C0) as [s1 e1] eqn:E1. destruct s1 as [|d t1]; [now injection E as <- _ _|]. destruct (negb (d =? RBR)); [|now injection E as <- _ _].
    assert (A1 : suffix (d :: t1) s) by (pose proof (space_good s) as (q & o & Ga & Gb & _); rewrite Ga in E1; now injection E1 as <- _).
    apply bind_ok in E as ([[v1 s2] e2] & E2 & E).
    assert (K : e2 = C0 -> I v1).
    { intros ->. apply (aloop_I sn L (incl_refl L) old (d :: t1) e1 v1 s2 Ho) in E2; [exact E2|]. apply (fit_suffix T HT s); [exact A1|]. apply (fit_tl T HT c). now split. }
    destruct s2 as [|x s2]; [injection E as _ _ E; now apply C0_cerr in E|]. destruct (parse_space (x :: s2) e2) as [s3 e3] eqn:E3.
    destruct s3 as [|y s3]; [injection E as _ _ E; now apply C0_cerr in E|]. destruct (negb (y =? RBR)); [injection E as _ _ E; now apply C0_cerr in E|].
    injection E as <- _ ->. apply space_C0 in E3 as [-> _]. now apply K.
  Qed.
End Hold.
