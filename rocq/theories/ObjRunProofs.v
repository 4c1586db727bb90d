(** Proofs: every outcome of reading structs and arrays of members. *)
From Verif Require Import Base Parser SpecJson ParserFacts Out Array Object SpecObject ObjectArray CodecLaws ArrayProofs ObjectProofs ObjectArrayProofs
  SpecReport SpecExact ExactProofs ObjExactProofs SpecRefuse RefuseProofs SpecFail FailProofs FlagProofs SpecRun RunProofs.

(** ---- names ---- *)
Lemma name_loop_cases : forall t n, plain_name n ->
  (exists x n', n = t ++ x /\ name_loop n t = (n', [])) \/ (exists y, t = n ++ QT :: y /\ name_loop n t = ([], QT :: y)) \/
  ((forall x, n <> t ++ x) /\ (forall y, t <> n ++ QT :: y) /\
   exists n' c t1, name_loop n t = (n', c :: t1) /\ (negb (c =? QT) || match n' with [] => false | _ => true end) = true).
Proof.
  induction t as [|c t IH]; intros n Hn.
  - left. exists n, n. split; [reflexivity|]. now destruct n.
  - destruct n as [|m n]; cbn [name_loop].
    + right. destruct (c =? QT) eqn:E.
      * left. exists t. assert (c = QT) by lia. subst c. auto.
      * right. split; [discriminate|]. split; [cbn; intros y Q; injection Q as -> _; discriminate E|]. exists [], c, t. split; [reflexivity|]. now rewrite E.
    + unfold plain_name in Hn. inversion Hn as [|? ? [Hm _] Hn']; subst. destruct (c =? m) eqn:Em; cbn [andb].
      * assert (c = m) by lia. subst c. assert (Q : (m =? QT) = false) by lia. rewrite Q. cbn [negb]. destruct (IH n Hn') as [(x & n' & -> & E)|[(y & -> & E)|(A & B & n' & d & t1 & E & D)]]; rewrite E.
        -- left. exists x, n'. auto.
        -- right. left. exists y. auto.
        -- right. right. split; [intros x K; injection K as K; exact (A x K)|]. split; [intros y K; injection K as K; exact (B y K)|]. exists n', d, t1. auto.
      * right. right. split; [intros x K; injection K as K _; lia|]. split; [intros y K; injection K as K _; lia|]. exists (m :: n), c, t. split; [reflexivity|]. now rewrite orb_true_r.
Qed.
Lemma name_string n s u v e : heads QT s -> unser_name n s u e = unser_name n s v e.
Proof. intros H. apply is_string_heads in H. unfold unser_name. now rewrite H. Qed.
Lemma name_none n s u e : ~ heads QT s -> unser_name n s u (Some e) = ([], Some (first e (expected [QT] s)), u).
Proof. intros H. unfold unser_name. destruct (is_string s) eqn:E; [apply is_string_heads in E; tauto|]. cbn [negb]. now rewrite cerr_first. Qed.
Lemma qt_string t : is_string (QT :: t) = true. Proof. reflexivity. Qed.
Lemma name_eq n e s b r e' : plain_name n -> name_run n e s b r e' -> unser_name n s false (Some e) = (r, Some e', b).
Proof.
  intros Hn H. destruct H as [e s H|e t x H|e t H1 H2|e s e1 G|e s c t G N|e s s1 e1 G G2|e s s1 s2 G G2 N].
  - now apply name_none.
  - unfold unser_name. rewrite qt_string. cbn [negb tl]. destruct (name_loop_cases t n Hn) as [(y & n' & _ & E)|[(y & -> & _)|(A & _)]]; [|exfalso|destruct (A x H)].
    + rewrite E. now rewrite cerr_first.
    + apply (f_equal (@length Z)) in H. rewrite !app_length in H. cbn in H. lia.
  - unfold unser_name. rewrite qt_string. cbn [negb tl]. destruct (name_loop_cases t n Hn) as [(y & n' & Q & _)|[(y & Q & _)|(_ & _ & n' & c & t1 & E & D)]]; [destruct (H1 y Q)|destruct (H2 y Q)|]. rewrite E, D. reflexivity.
  - unfold unser_name. rewrite qt_string. cbn [negb tl]. rewrite name_loop_hit by exact Hn. rewrite Z.eqb_refl. cbn [negb orb]. now rewrite (gap_eq _ _ _ _ G), cerr_first.
  - unfold unser_name. rewrite qt_string. cbn [negb tl]. rewrite name_loop_hit by exact Hn. rewrite Z.eqb_refl. cbn [negb orb]. rewrite (gap_at _ _ _ G). apply Z.eqb_neq in N. rewrite N. cbn [negb]. now rewrite cerr_first.
  - unfold unser_name. rewrite qt_string. cbn [negb tl]. rewrite name_loop_hit by exact Hn. rewrite Z.eqb_refl. cbn [negb orb]. rewrite (gap_at _ _ _ G), Z.eqb_refl. cbn [negb]. now rewrite (gap_eq _ _ _ _ G2), cerr_first.
  - unfold unser_name. rewrite qt_string. cbn [negb tl]. rewrite name_loop_hit by exact Hn. rewrite Z.eqb_refl. cbn [negb orb]. rewrite (gap_at _ _ _ G), Z.eqb_refl. cbn [negb]. rewrite (gap_at _ _ _ G2). now destruct s2.
Qed.
Lemma name_total n e s : plain_name n -> exists b r e', name_run n e s b r e'.
Proof.
  intros Hn. destruct (is_string s) eqn:Es. 2:{ exists false, [], (first e (expected [QT] s)). apply nm_none. intros K. apply is_string_heads in K. congruence. }
  apply is_string_heads in Es. destruct Es as (t & ->). destruct (name_loop_cases t n Hn) as [(x & n' & Q & _)|[(y & -> & _)|(A & B & _)]].
  - do 3 eexists. exact (nm_cut n e t x Q).
  - destruct (parse_space y (Some e)) as [s1 x] eqn:E. gp E. destruct s1 as [|c t1]; [do 3 eexists; apply nm_end; exact G|]. apply gap_cons in G. destruct G as [G ->].
    destruct (Z.eq_dec c COLON) as [->|N]; [|do 3 eexists; exact (nm_colon n e y c t1 G N)].
    destruct (parse_space t1 (Some e)) as [s2 x] eqn:E2. gp E2. destruct s2 as [|d t2]; [do 3 eexists; eapply nm_end2; [exact G|exact G0]|]. apply gap_cons in G0. destruct G0 as [G0 ->].
    do 3 eexists. eapply nm_hit; [exact G|exact G0|discriminate].
  - do 3 eexists. exact (nm_other n e t A B).
Qed.
Lemma name_at n e s r x b : plain_name n -> unser_name n s false (Some e) = (r, x, b) -> exists e', x = Some e' /\ name_run n e s b r e'.
Proof. intros Hn H. destruct (name_total n e s Hn) as (b' & r' & e' & K). rewrite (name_eq _ _ _ _ _ _ Hn K) in H. inv H. eauto. Qed.
Lemma name_suffix n e s b r e' : plain_name n -> name_run n e s b r e' -> suffix r s.
Proof. intros Hn H. apply name_eq in H; [|exact Hn]. now apply unser_name_good in H. Qed.

(** ---- skipped members ---- *)
Lemma good_run sn f s e r x : rlawS sn f s -> (f s (Some e) = Ok (r, x) <-> (f s C0 = Ok (r, C0) /\ x = Some e) \/ (exists j, ends (Some j) (f s C0) /\ r = [] /\ x = Some (first e j))).
Proof.
  intros [(q & o & A & (B1 & B2 & B3) & _)|(_ & A)].
  - pose proof (A C0) as A0. rewrite (A (Some e)), app_first. destruct o as [j|]; cbn [app_err] in A0.
    + destruct B2 as [B2 _]. assert (q = []) as -> by (apply B3; discriminate). rewrite A0. cbn. split.
      * intros H. inv H. right. exists j. auto.
      * intros [[H _]|(k & [Hk H] & -> & ->)]; inv H; [discriminate B2|reflexivity].
    + rewrite A0. split.
      * intros H. inv H. now left.
      * intros [[H ->]|(k & H & _)]; [now inv H|]. destruct (ends_not_clean _ _ H).
  - rewrite (A (Some e)), (A C0). split; [discriminate|]. intros [[H _]|(k & [_ H] & _)]; discriminate H.
Qed.
Lemma skip_at sn e s r x : bytes s -> (parse_member (parse_value sn) s (Some e) = Ok (r, x) <-> exists e', x = Some e' /\ skip_run sn e s r e').
Proof.
  intros Hb. rewrite (good_run sn _ s e r x (pmember_law sn s)). rewrite (member_takes_at sn s r Hb). split.
  - intros [[H ->]|(j & H & -> & ->)]; [eexists; split; [reflexivity|now apply sk_good]|]. apply member_fails_at in H; [|exact Hb]. eexists. split; [reflexivity|].
    destruct H as [(j' & Q & H)|(s3 & s4 & s5 & H1 & H2 & H3 & H4 & H5)]; [injection Q as <-; now apply sk_bad|eapply sk_value; eassumption].
  - intros (e' & -> & H). destruct H as [e s r H|e s j H|e s s1 s2 s3 j H1 H2 H3 H4 H5]; [now left| |]; right; exists j; (split; [|auto]); apply member_fails_at; auto; [left; eauto|].
    right. exists s1, s2, s3. auto.
Qed.
Lemma skip_suffix sn e s r e' : bytes s -> skip_run sn e s r e' -> suffix r s.
Proof. intros Hb H. assert (K : exists x, Some e' = Some x /\ skip_run sn e s r x) by eauto. apply skip_at in K; [|exact Hb]. pose proof (pmember_pg sn s (Some e)) as G. rewrite K in G. apply G. Qed.

(** ---- the outcome of a list: the closing bracket, or the end and an error ---- *)
Definition closed (c : Z) {B} (x : res (B * buf * eptr)) (v : B) (r : buf) (e : json_error) : Prop :=
  x = Ok (v, c :: r, Some e) \/ r = [] /\ is_err e = true /\ x = Ok (v, [], Some e).
Definition shape (c : Z) (s r : buf) (e : json_error) : Prop := s = c :: r \/ s = [] /\ r = [] /\ is_err e = true.
Lemma shape_err c e j : is_err j = true -> shape c [] [] (first e j). Proof. right. auto using first_err. Qed.
Lemma closed_err c {B} (v : B) e j : is_err j = true -> closed c (Ok (v, [], Some (first e j))) v [] (first e j). Proof. right. auto using first_err. Qed.

Section Obj.
  Context {T : Type} (mode : omode) (sn : option Z).
  Implicit Types (b : memb T) (t : T).
  Definition mgood (m : mem T) : Prop := dlaw (des (m_codec m)) /\ plain_name (m_name m).
  Definition bgood b : Prop := match b with MRef m => mgood m | MProp m _ => mgood m | MIf _ l r _ => mgood l /\ mgood r end.
  Lemma bgood_all b : bgood b -> memb_all (fun _ c => dlaw (des c)) b.
  Proof. destruct b; cbn; unfold mgood; tauto. Qed.
  Lemma mem_forward m old t e s t' u r x : mgood m -> mem_p_des m old sn t s false (Some e) = Ok (t', u, r, x) -> exists e', x = Some e' /\ mem_run sn m old t e s t' u r e'.
  Proof.
    intros [Hd Hn]. unfold mem_p_des. destruct (unser_name _ s false (Some e)) as [[s1 x1] u1] eqn:E. apply name_at in E; [|exact Hn]. destruct E as (e1 & -> & E). destruct u1; cbn [negb].
    - destruct (des _ _ _ _ _) as [[[y r1] x2]| |] eqn:E2; cbn [bind]; try discriminate. destruct (law_some _ _ _ _ _ _ _ _ Hd E2) as (e2 & -> & _). intros H. inv H. eexists. split; [reflexivity|]. eapply mu_hit; [exact E|exact E2].
    - intros H. inv H. eexists. split; [reflexivity|]. now apply mu_miss.
  Qed.
  Lemma mem_backward m old t e s t' u r e' : mgood m -> mem_run sn m old t e s t' u r e' -> mem_p_des m old sn t s false (Some e) = Ok (t', u, r, Some e').
  Proof.
    intros [Hd Hn] H. unfold mem_p_des. destruct H as [e s r e' H|e s s1 e1 y r e' H H2]; rewrite (name_eq _ _ _ _ _ _ Hn H); cbn [negb]; [reflexivity|]. unfold runs in H2. now rewrite H2.
  Qed.
  Lemma mem_des_p m t s u e : mem_des m sn t s u e = mem_p_des m (m_get m t) sn t s u e. Proof. reflexivity. Qed.
  Lemma mem_u m i t s u e : (u = false \/ heads QT s) -> mem_p_des m i sn t s u e = mem_p_des m i sn t s false e.
  Proof. intros [->|H]; [reflexivity|]. unfold mem_p_des. now rewrite (name_string _ _ u false _ H). Qed.
  Lemma hit_string m old t e s t' u r e' : mem_run sn m old t e s t' u r e' -> u = false \/ heads QT s.
  Proof. intros H. destruct H as [e s r e' H|e s s1 e1 y r e' H H2]; [now left|right]. remember true as b0 eqn:Eb in H. destruct H; try discriminate Eb; apply heads_refl. Qed.
  Lemma reset_at m t t' : mem_reset m t = Ok t' <-> reset m t t'.
  Proof.
    unfold mem_reset, reset. destruct (des _ _ _ _ _) as [[[y r] x]| |]; cbn [bind]; split; try discriminate; try (intros (? & ? & ? & H & _); discriminate H).
    - intros H. inv H. do 3 eexists. split; reflexivity.
    - intros (y' & r' & x' & H & ->). now inv H.
  Qed.
  Lemma alt_good (ru : bool) (l r0 : mem T) d : bgood (MIf ru l r0 d) -> mgood (if ru then r0 else l) /\ mgood (if ru then l else r0).
  Proof. cbn. destruct ru; tauto. Qed.
  Lemma no_err_some e : no_err_yet (Some e) = negb (is_err e). Proof. reflexivity. Qed.
  Lemma memb_forward b t e s t' u r x : bgood b -> memb_des b sn t s false (Some e) = Ok (t', u, r, x) -> exists e', x = Some e' /\ memb_run sn b t e s t' u r e'.
  Proof.
    destruct b as [m|m i|ru l r0 d]; intros Hg; cbn [memb_des].
    - rewrite mem_des_p. intros H. apply mem_forward in H; [|exact Hg]. destruct H as (e' & -> & H). eexists. split; [reflexivity|]. now apply mb_ref.
    - intros H. apply mem_forward in H; [|exact Hg]. destruct H as (e' & -> & H). eexists. split; [reflexivity|]. now apply mb_prop.
    - destruct (alt_good _ _ _ _ Hg) as [H1 H2]. rewrite mem_des_p. destruct (mem_p_des _ _ _ _ _ _ _) as [[[[t1 u1] itr] y]| |] eqn:E; cbn [bind]; try discriminate.
      apply mem_forward in E; [|exact H1]. destruct E as (e1 & -> & E). rewrite no_err_some. destruct (is_err e1) eqn:Ee; cbn [negb].
      + destruct (mem_reset _ t1) as [t2| |] eqn:Er; cbn [bind]; try discriminate. apply reset_at in Er. rewrite mem_des_p, mem_u by exact (hit_string _ _ _ _ _ _ _ _ _ E).
        intros H. apply mem_forward in H; [|exact H2]. destruct H as (e' & -> & H). eexists. split; [reflexivity|]. eapply mb_else; eassumption.
      + destruct (mem_reset _ t1) as [t2| |] eqn:Er; cbn [bind]; try discriminate. apply reset_at in Er. intros H. inv H. eexists. split; [reflexivity|]. eapply mb_if; eassumption.
  Qed.
  Lemma memb_backward b t e s t' u r e' : bgood b -> memb_run sn b t e s t' u r e' -> memb_des b sn t s false (Some e) = Ok (t', u, r, Some e').
  Proof.
    intros Hg H. destruct H as [m t e s t' u r e' H|m i t e s t' u r e' H|ru l r0 d t e s t1 t2 u r e1 H Ee Hr|ru l r0 d t e s t1 u1 r1 e1 t2 t' u r e' H Ee Hr H3]; cbn [memb_des].
    - rewrite mem_des_p. now apply mem_backward.
    - now apply mem_backward.
    - destruct (alt_good _ _ _ _ Hg) as [H1 H2]. rewrite mem_des_p, (mem_backward _ _ _ _ _ _ _ _ _ H1 H). cbn [bind]. rewrite no_err_some, Ee. cbn [negb]. apply reset_at in Hr. now rewrite Hr.
    - destruct (alt_good _ _ _ _ Hg) as [H1 H2]. rewrite mem_des_p, (mem_backward _ _ _ _ _ _ _ _ _ H1 H). cbn [bind]. rewrite no_err_some, Ee. cbn [negb]. apply reset_at in Hr. rewrite Hr. cbn [bind].
      rewrite mem_des_p, mem_u by exact (hit_string _ _ _ _ _ _ _ _ _ H). now apply mem_backward.
  Qed.
  Lemma memb_suffix b t e s t' u r e' : bgood b -> memb_run sn b t e s t' u r e' -> suffix r s.
  Proof. intros Hg H. apply memb_backward in H; [|exact Hg]. pose proof (memb_des_good b sn t s false (Some e) (bgood_all _ Hg)) as G. rewrite H in G. apply G. Qed.

  (** ---- search ---- *)
  Lemma search_forward L : Forall bgood L -> forall t e s t' r x, bytes s -> search_members mode sn L t s (Some e) = Ok (t', r, x) -> exists e', x = Some e' /\ search_run mode sn L t e s t' r e'.
  Proof.
    induction 1 as [|b L Hg HL IH]; intros t e s t' r x Hb; cbn [search_members].
    - destruct (search_end mode sn s (Some e)) as [[s1 y]| |] eqn:E; cbn [bind]; try discriminate. intros H. inv H. unfold search_end in E. destruct mode eqn:Em.
      + destruct (parse_member _ s (Some e)) as [[s2 y]| |] eqn:E2; cbn [bind] in E; try discriminate. apply skip_at in E2; [|exact Hb]. destruct E2 as (e2 & -> & E2). injection E as E. gp E. eexists. split; [reflexivity|].
        eapply sh_skip; [reflexivity|exact E2|exact G].
      + destruct s as [|c s]. { rewrite cerr_first in E. inv E. eexists. split; [reflexivity|]. now apply sh_end. }
        destruct (c =? RCB) eqn:Ec.
        * inv E. eexists. split; [reflexivity|]. apply sh_close; [reflexivity|]. assert (c = RCB) by lia. subst c. apply heads_refl.
        * rewrite cerr_first in E. inv E. eexists. split; [reflexivity|]. apply sh_strict; [reflexivity|lia].
    - destruct (memb_des b sn t s false (Some e)) as [[[[t1 u] s1] y]| |] eqn:E; cbn [bind]; try discriminate. apply memb_forward in E; [|exact Hg]. destruct E as (e1 & -> & E). destruct u; cbn [negb].
      + intros H. inv H. eexists. split; [reflexivity|]. now apply sh_hit.
      + intros H. apply IH in H; [|eapply bytes_suffix; [exact (memb_suffix _ _ _ _ _ _ _ _ Hg E)|exact Hb]]. destruct H as (e' & -> & H). eexists. split; [reflexivity|]. eapply sh_next; eassumption.
  Qed.
  Lemma search_backward L t e s t' r e' : search_run mode sn L t e s t' r e' -> Forall bgood L -> bytes s -> search_members mode sn L t s (Some e) = Ok (t', r, Some e').
  Proof.
    induction 1 as [b L t e s t' r e' H|b L t e s t1 s1 e1 t' r e' H HS IH|t e s s1 e1 r e' Em H G|t e Em|t e s Em H|t e c s Em N]; intros HL Hb; cbn [search_members].
    - inversion HL as [|? ? Hg HL']; subst. rewrite (memb_backward _ _ _ _ _ _ _ _ Hg H). reflexivity.
    - inversion HL as [|? ? Hg HL']; subst. rewrite (memb_backward _ _ _ _ _ _ _ _ Hg H). cbn [bind negb]. apply IH; [exact HL'|]. eapply bytes_suffix; [exact (memb_suffix _ _ _ _ _ _ _ _ Hg H)|exact Hb].
    - unfold search_end. rewrite Em. rewrite (proj2 (skip_at sn e s s1 (Some e1) Hb)) by eauto. cbn [bind]. now rewrite (gap_eq _ _ _ _ G).
    - unfold search_end. rewrite Em. now rewrite cerr_first.
    - unfold search_end. rewrite Em. destruct H as (z & ->). now rewrite Z.eqb_refl.
    - unfold search_end. rewrite Em. apply Z.eqb_neq in N. rewrite N. now rewrite cerr_first.
  Qed.
  Lemma search_suffix L t e s t' r e' : Forall bgood L -> bytes s -> search_run mode sn L t e s t' r e' -> suffix r s.
  Proof.
    intros HL Hb H. apply search_backward in H; auto. assert (G : dgood s (Some e) (search_members mode sn L t s (Some e))).
    { apply search_good. eapply Forall_impl; [|exact HL]. exact bgood_all. } rewrite H in G. apply G.
  Qed.

  (** ---- the rest ---- *)
  Lemma rest_forward n : forall e s s' x, bytes s -> rest_loop mode sn n s (Some e) = Ok (s', x) -> exists r e', x = Some e' /\ shape RCB s' r e' /\ rest_run mode sn e s r e'.
  Proof.
    induction n as [|n IH]; intros e s s' x Hb; cbn [rest_loop]; [discriminate|].
    destruct (parse_member _ s (Some e)) as [[s1 y]| |] eqn:E; cbn [bind]; try discriminate. apply skip_at in E; [|exact Hb]. destruct E as (e1 & -> & E).
    destruct (parse_space s1 (Some e1)) as [s2 y] eqn:E2. gp E2. destruct s2 as [|c t2]. { rewrite cerr_first. intros H. inv H. do 2 eexists. split; [reflexivity|]. split; [now apply shape_err|]. eapply rr_end; eassumption. }
    apply gap_cons in G. destruct G as [G ->]. destruct (c =? RCB) eqn:Ec.
    - assert (c = RCB) by lia. subst c. destruct mode eqn:Em.
      + intros H. inv H. do 2 eexists. split; [reflexivity|]. split; [now left|]. eapply rr_close; [reflexivity|eassumption|exact G].
      + rewrite cerr_first. intros H. inv H. do 2 eexists. split; [reflexivity|]. split; [now apply shape_err|]. eapply rr_strict; [reflexivity|eassumption|exact G].
    - destruct (c =? COMMA) eqn:Ed; cbn [negb].
      + assert (c = COMMA) by lia. subst c. destruct (parse_space t2 (Some e1)) as [s3 y] eqn:E3. gp E3. intros H. apply IH in H.
        * destruct H as (r & e' & -> & Hs & H). do 2 eexists. split; [reflexivity|]. split; [exact Hs|]. eapply rr_more; eassumption.
        * eapply bytes_suffix; [exact (gap_suffix _ _ _ _ G0)|]. pose proof (bytes_suffix _ _ (after_gap_suffix _ _ G) (bytes_suffix _ _ (skip_suffix _ _ _ _ _ Hb E) Hb)) as K. now inversion K.
      + rewrite cerr_first. intros H. inv H. do 2 eexists. split; [reflexivity|]. split; [now apply shape_err|]. eapply (rr_other mode sn e s s1 e1 c t2); [exact E|exact G|lia|lia].
  Qed.
  Definition rclosed (x : res (buf * eptr)) (r : buf) (e : json_error) : Prop := x = Ok (RCB :: r, Some e) \/ r = [] /\ is_err e = true /\ x = Ok ([], Some e).
  Lemma rclosed_err e j : is_err j = true -> rclosed (Ok ([], Some (first e j))) [] (first e j). Proof. right. auto using first_err. Qed.
  Lemma rest_backward e s r e' : rest_run mode sn e s r e' -> bytes s -> forall n, (length s < n)%nat -> rclosed (rest_loop mode sn n s (Some e)) r e'.
  Proof.
    induction 1 as [e s s1 e1 e2 K G|e s s1 e1 r Em K G|e s s1 e1 r Em K G|e s s1 e1 c t K G N1 N2|e s s1 e1 s2 s3 e3 r e' K G G2 HR IH]; intros Hb n Hn; (destruct n as [|n]; [lia|]); cbn [rest_loop];
    pose proof (skip_suffix _ _ _ _ _ Hb K) as Hs; rewrite (proj2 (skip_at sn e s s1 (Some e1) Hb)) by eauto; cbn [bind].
    - rewrite (gap_eq _ _ _ _ G), cerr_first. now apply rclosed_err.
    - rewrite (gap_at _ _ _ G), Z.eqb_refl, Em. now left.
    - rewrite (gap_at _ _ _ G), Z.eqb_refl, Em, cerr_first. now apply rclosed_err.
    - rewrite (gap_at _ _ _ G). apply Z.eqb_neq in N1, N2. rewrite N1, N2. cbn [negb]. rewrite cerr_first. now apply rclosed_err.
    - rewrite (gap_at _ _ _ G). replace (COMMA =? RCB) with false by reflexivity. rewrite Z.eqb_refl. cbn [negb]. rewrite (gap_eq _ _ _ _ G2).
      apply IH.
      + eapply bytes_suffix; [exact (gap_suffix _ _ _ _ G2)|]. pose proof (bytes_suffix _ _ (after_gap_suffix _ _ G) (bytes_suffix _ _ Hs Hb)) as K2. now inversion K2.
      + pose proof (gap_len _ _ _ _ G2). pose proof (after_gap_len _ _ G) as L1. apply suffix_len in Hs. cbn [length] in L1. lia.
  Qed.

  (** ---- the list ---- *)
  Context (L : list (memb T)).
  Hypothesis HL : Forall bgood L.
  Lemma step_suffix b t e s t' u r e' : bgood b -> bytes s -> step_run mode sn L b t e s t' u r e' -> suffix r s.
  Proof.
    intros Hg Hb H. destruct H as [t' r e' H|t1 s1 e1 t' r e' H H2]; [exact (memb_suffix _ _ _ _ _ _ _ _ Hg H)|]. pose proof (memb_suffix _ _ _ _ _ _ _ _ Hg H) as K.
    eapply suffix_trans; [|exact K]. eapply search_suffix; [exact HL|exact (bytes_suffix _ _ K Hb)|exact H2].
  Qed.
  Lemma step_forward b t e s t2 u s2 x : bgood b -> bytes s ->
    (let* (t1, u, s1, e1) := memb_des b sn t s false (Some e) in let* (t2, s2, e2) := if negb u then search_members mode sn L t1 s1 e1 else Ok (t1, s1, e1) in Ok (t2, u, s2, e2)) = Ok (t2, u, s2, x) ->
    exists e2, x = Some e2 /\ step_run mode sn L b t e s t2 u s2 e2.
  Proof.
    intros Hg Hb. destruct (memb_des b sn t s false (Some e)) as [[[[t1 u1] s1] y]| |] eqn:E; cbn [bind]; try discriminate. apply memb_forward in E; [|exact Hg]. destruct E as (e1 & -> & E). destruct u1; cbn [negb bind].
    - intros H. inv H. eexists. split; [reflexivity|]. now apply sp_next.
    - destruct (search_members _ _ _ _ _ _) as [[[t3 s3] y]| |] eqn:E2; cbn [bind]; try discriminate. intros H. inv H. apply search_forward in E2; [|exact HL|exact (bytes_suffix _ _ (memb_suffix _ _ _ _ _ _ _ _ Hg E) Hb)].
      destruct E2 as (e2 & -> & E2). eexists. split; [reflexivity|]. eapply sp_search; eassumption.
  Qed.
  Lemma step_backward b t e s t2 u s2 e2 : bgood b -> bytes s -> step_run mode sn L b t e s t2 u s2 e2 ->
    exists t1 s1 e1, memb_des b sn t s false (Some e) = Ok (t1, u, s1, Some e1) /\ (if negb u then search_members mode sn L t1 s1 (Some e1) else Ok (t1, s1, Some e1)) = Ok (t2, s2, Some e2).
  Proof.
    intros Hg Hb H. destruct H as [t' r e' H|t1 s1 e1 t' r e' H H2].
    - do 3 eexists. split; [exact (memb_backward _ _ _ _ _ _ _ _ Hg H)|reflexivity].
    - do 3 eexists. split; [exact (memb_backward _ _ _ _ _ _ _ _ Hg H)|]. cbn [negb]. apply search_backward; [exact H2|exact HL|exact (bytes_suffix _ _ (memb_suffix _ _ _ _ _ _ _ _ Hg H) Hb)].
  Qed.
  Lemma close_shape t s e r e' : shape RCB s r e' -> e = Some e' -> at_close t s e = Ok (t, s, e).
  Proof. intros [->|(-> & _ & H)] ->; cbn [at_close]; [now rewrite Z.eqb_refl|]. rewrite cerr_first. now rewrite first_id. Qed.
  Lemma members_forward n : forall R t e s v s' x, Forall bgood R -> bytes s -> members_loop mode sn L n R t s (Some e) = Ok (v, s', x) ->
    exists r e', x = Some e' /\ shape RCB s' r e' /\ members_run mode sn L R t e s v r e'.
  Proof.
    induction n as [|n IH]; intros R t e s v s' x HR Hb; cbn [members_loop]; [discriminate|]. destruct R as [|b R].
    - destruct (rest_members mode sn s (Some e)) as [[s1 y]| |] eqn:E; cbn [bind]; try discriminate. intros H. inv H. unfold rest_members in E.
      destruct (parse_space s (Some e)) as [s1 y] eqn:E1. gp E1. destruct s1 as [|c t1]. { rewrite cerr_first in E. inv E. do 2 eexists. split; [reflexivity|]. split; [now apply shape_err|]. now apply mr_end. }
      apply gap_cons in G. destruct G as [G ->]. destruct (c =? RCB) eqn:Ec.
      + assert (c = RCB) by lia. subst c. inv E. do 2 eexists. split; [reflexivity|]. split; [now left|]. now apply mr_close.
      + apply rest_forward in E; [|exact (bytes_suffix _ _ (after_gap_suffix _ _ G) Hb)]. destruct E as (r & e' & -> & Hs & E). do 2 eexists. split; [reflexivity|]. split; [exact Hs|].
        eapply mr_rest; [exact G|discriminate|now apply not_heads|exact E].
    - inversion HR as [|? ? Hg HR']; subst. pose proof (step_forward b t e s) as F.
      destruct (memb_des b sn t s false (Some e)) as [[[[t1 u] s1] y]| |]; cbn [bind] in *; try discriminate.
      destruct (if negb u then search_members mode sn L t1 s1 y else Ok (t1, s1, y)) as [[[t2 s2] y2]| |]; cbn [bind] in *; try discriminate.
      specialize (F t2 u s2 y2 Hg Hb eq_refl). destruct F as (e2 & -> & F). pose proof (step_suffix _ _ _ _ _ _ _ _ Hg Hb F) as Hs. pose proof (bytes_suffix _ _ Hs Hb) as Hb2.
      destruct (parse_space s2 (Some e2)) as [s3 y3] eqn:E3. gp E3. destruct s3 as [|d t3]. { rewrite cerr_first. intros H. inv H. do 2 eexists. split; [reflexivity|]. split; [now apply shape_err|]. eapply mr_cut; eassumption. }
      apply gap_cons in G. destruct G as [G ->]. destruct (d =? COMMA) eqn:Ed.
      + assert (d = COMMA) by lia. subst d. destruct (parse_space t3 (Some e2)) as [s4 y4] eqn:E4. gp E4.
        destruct (members_loop mode sn L n _ t2 s4 (Some e0)) as [[[t5 s5] y5]| |] eqn:E5; cbn [bind]; try discriminate. apply IH in E5.
        * destruct E5 as (r & e' & -> & Hs5 & E5). rewrite (close_shape t5 s5 _ r e' Hs5 eq_refl). intros H. inv H. do 2 eexists. split; [reflexivity|]. split; [exact Hs5|]. eapply mr_more; eassumption.
        * destruct u; [exact HR'|exact HR].
        * eapply bytes_suffix; [exact (gap_suffix _ _ _ _ G0)|]. pose proof (bytes_suffix _ _ (after_gap_suffix _ _ G) Hb2) as K. now inversion K.
      + unfold at_close. destruct (d =? RCB) eqn:Er; cbn [negb].
        * assert (d = RCB) by lia. subst d. intros H. inv H. do 2 eexists. split; [reflexivity|]. split; [now left|]. eapply mr_last; eassumption.
        * rewrite cerr_first. intros H. inv H. do 2 eexists. split; [reflexivity|]. split; [now apply shape_err|]. eapply (mr_other mode sn L b R t e s v u s2 e2 d t3); [exact F|exact G|lia|lia].
  Qed.
  Lemma closed_shape c {B} (x : res (B * buf * eptr)) v r e : closed c x v r e <-> exists s, x = Ok (v, s, Some e) /\ shape c s r e.
  Proof.
    split.
    - intros [H|(-> & H1 & H2)]; eexists; (split; [eassumption|]); [now left|right; auto].
    - intros (s & -> & [->|(-> & -> & H)]); [now left|right; auto].
  Qed.
  Ltac byq Q := match type of Q with _ = ?rhs => match goal with |- closed _ (bind ?w _) _ _ _ => replace w with rhs by (symmetry; exact Q) end end.
  Lemma members_backward R t e s v r e' : members_run mode sn L R t e s v r e' -> Forall bgood R -> bytes s -> forall n, (length s < n)%nat -> closed RCB (members_loop mode sn L n R t s (Some e)) v r e'.
  Proof.
    induction 1 as [t e s e1 G|t e s r G|t e s s1 r e' G N1 N2 HS|b R t e s t1 u s1 e1 e2 K G|b R t e s t1 u s1 e1 r K G|b R t e s t1 u s1 e1 c x K G N1 N2|b R t e s t1 u s1 e1 s2 s3 e3 t' r e' K G G2 HM IH];
    intros HR Hb n Hn; (destruct n as [|n]; [lia|]); cbn [members_loop].
    - unfold rest_members. rewrite (gap_eq _ _ _ _ G), cerr_first. now apply closed_err.
    - unfold rest_members. rewrite (gap_at _ _ _ G), Z.eqb_refl. now left.
    - unfold rest_members. rewrite (gap_at _ _ _ G). destruct s1 as [|c t1]; [congruence|]. rewrite (heads_neq _ _ _ N2).
      assert (K : rclosed (rest_loop mode sn (Datatypes.S (length (c :: t1))) (c :: t1) (Some e)) r e') by (apply rest_backward; [exact HS|exact (bytes_suffix _ _ (after_gap_suffix _ _ G) Hb)|lia]).
      destruct K as [->|(-> & He & ->)]; [now left|right; auto].
    - inversion HR as [|? ? Hg HR']; subst. destruct (step_backward _ _ _ _ _ _ _ _ Hg Hb K) as (t2 & s2 & e3 & -> & Q). cbn [bind]. byq Q. cbn [bind]. rewrite (gap_eq _ _ _ _ G), cerr_first. now apply closed_err.
    - inversion HR as [|? ? Hg HR']; subst. destruct (step_backward _ _ _ _ _ _ _ _ Hg Hb K) as (t2 & s2 & e3 & -> & Q). cbn [bind]. byq Q. cbn [bind]. rewrite (gap_at _ _ _ G).
      replace (RCB =? COMMA) with false by reflexivity. cbn [at_close]. rewrite Z.eqb_refl. now left.
    - inversion HR as [|? ? Hg HR']; subst. destruct (step_backward _ _ _ _ _ _ _ _ Hg Hb K) as (t2 & s2 & e3 & -> & Q). cbn [bind]. byq Q. cbn [bind]. rewrite (gap_at _ _ _ G).
      apply Z.eqb_neq in N1, N2. rewrite N2. cbn [at_close]. rewrite N1. cbn [negb]. rewrite cerr_first. now apply closed_err.
    - inversion HR as [|? ? Hg HR']; subst. pose proof (step_suffix _ _ _ _ _ _ _ _ Hg Hb K) as Hs. destruct (step_backward _ _ _ _ _ _ _ _ Hg Hb K) as (t2 & s4 & e4 & -> & Q). cbn [bind]. byq Q. cbn [bind]. rewrite (gap_at _ _ _ G).
      rewrite Z.eqb_refl, (gap_eq _ _ _ _ G2). assert (IH' : closed RCB (members_loop mode sn L n (if u then R else b :: R) t1 s3 (Some e3)) t' r e').
      { apply IH.
        - destruct u; assumption.
        - eapply bytes_suffix; [exact (gap_suffix _ _ _ _ G2)|]. pose proof (bytes_suffix _ _ (after_gap_suffix _ _ G) (bytes_suffix _ _ Hs Hb)) as K2. now inversion K2.
        - pose proof (gap_len _ _ _ _ G2). pose proof (after_gap_len _ _ G) as L1. apply suffix_len in Hs. cbn [length] in L1. lia. }
      apply closed_shape in IH'. destruct IH' as (s5 & -> & Hs5). cbn [bind]. rewrite (close_shape t' s5 _ r e' Hs5 eq_refl). apply closed_shape. eauto.
  Qed.

  Lemma gap_rcb r : after_gap (RCB :: r) (RCB :: r). Proof. exists []. split; [reflexivity|]. split; [constructor|]. unfold s_ws. repeat split; lia. Qed.
  Lemma gap_rbr r : after_gap (RBR :: r) (RBR :: r). Proof. exists []. split; [reflexivity|]. split; [constructor|]. unfold s_ws. repeat split; lia. Qed.
  (** what object_des does behind the list *)
  Lemma object_end {B} c (v : B) s r e : (forall r, after_gap (c :: r) (c :: r)) -> shape c s r e ->
    match s with
    | [] => Ok (v, [], cerr UnexpectedEndFragment None 0 (Some e))
    | _ => let '(s3, e3) := parse_space s (Some e) in
      match s3 with [] => Ok (v, [], cerr UnexpectedEndFragment None 0 e3) | f :: t3 => if negb (f =? c) then Ok (v, [], cerr ExpectedOf (Some [c]) (dist t3 + 1) e3) else Ok (v, t3, e3) end
    end = Ok (v, r, Some e).
  Proof.
    intros Hc [->|(-> & -> & H)].
    - rewrite (gap_at _ _ _ (Hc r)), Z.eqb_refl. reflexivity.
    - rewrite cerr_first. now rewrite first_id.
  Qed.
  Theorem object_runs t0 old e s v r e' : bytes s -> (runs (object_codec mode L t0) sn old e s v r e' <-> struct_text mode sn L t0 old e s v r e').
  Proof.
    intros Hb. unfold runs. cbn [des object_codec]. unfold object_des. split.
    - destruct (is_null s) eqn:En.
      { apply is_null_heads in En. destruct (parse_null s (Some e)) as [r0 y] eqn:E. intros H. inv H. apply null_run in E; [|exact En]. destruct E as (e0 & Q & E). injection Q as <-. now apply ob_null. }
      apply not_null_heads in En. destruct s as [|c t]. { rewrite cerr_first. intros H. inv H. apply ob_end. }
      assert (Hbt : bytes t) by now inversion Hb. destruct (c =? LCB) eqn:Ec; cbn [negb].
      + assert (c = LCB) by lia. subst c. destruct (parse_space t (Some e)) as [s1 y] eqn:E1. gp E1. destruct s1 as [|d t1]. { rewrite cerr_first. intros H. inv H. now apply ob_cut. }
        apply gap_cons in G. destruct G as [G ->]. destruct (d =? RCB) eqn:Ed; cbn [negb]. { assert (d = RCB) by lia. subst d. intros H. inv H. now apply ob_empty. }
        destruct (members_loop _ _ _ _ _ _ _ _) as [[[w s2] y]| |] eqn:E2; cbn [bind]; try discriminate. apply members_forward in E2; [|exact HL|exact (bytes_suffix _ _ (after_gap_suffix _ _ G) Hbt)].
        destruct E2 as (r2 & e2 & -> & Hs & E2). rewrite (object_end RCB w s2 r2 e2 gap_rcb Hs). intros H. inv H. eapply ob_members; [exact G|discriminate|now apply not_heads|exact E2].
      + destruct (c =? LBR) eqn:El.
        * assert (c = LBR) by lia. subst c. destruct (parse_space t (Some e)) as [s1 y] eqn:E1. gp E1. destruct s1 as [|d t1].
          -- cbn [deref]. destruct sn as [d|] eqn:Es; cbn [bind]; [|discriminate]. destruct (d =? RBR) eqn:Ed; cbn [negb bind step]; [discriminate|]. rewrite cerr_first. intros H. inv H. eapply ob_arr_end; [exact G|reflexivity|lia].
          -- apply gap_cons in G. destruct G as [G ->]. cbn [deref bind]. destruct (d =? RBR) eqn:Ed; cbn [negb bind step].
             ++ assert (d = RBR) by lia. subst d. intros H. inv H. now apply ob_arr.
             ++ rewrite cerr_first. intros H. inv H. refine (ob_arr_other mode sn L t0 _ e t d t1 G _); lia.
        * rewrite cerr_first. intros H. inv H. apply ob_other; [|lia|lia]. intros ->. apply En, heads_refl.
    - intros H. destruct H as [e s r e' H|e|e c t N1 N2 N3|e t r G|e t c u G N|e t e1 d G Hsn N|e t e1 G|e t r G|e t s v r e' G N1 N2 HM].
      + pose proof (lit_heads _ _ _ _ H) as En. rewrite (proj2 (is_null_heads s) En). rewrite (proj2 (null_run s e r (Some e') En)) by eauto. reflexivity.
      + cbn [is_null starts]. now rewrite cerr_first.
      + assert (En : is_null (c :: t) = false) by (apply not_null_heads; intros K; apply heads_inv in K; congruence). rewrite En. apply Z.eqb_neq in N2, N3. rewrite N2, N3. cbn [negb]. now rewrite cerr_first.
      + replace (is_null (LBR :: t)) with false by reflexivity. replace (LBR =? LCB) with false by reflexivity. rewrite Z.eqb_refl. cbn [negb]. rewrite (gap_at _ _ _ G). cbn [deref bind]. rewrite Z.eqb_refl. reflexivity.
      + replace (is_null (LBR :: t)) with false by reflexivity. replace (LBR =? LCB) with false by reflexivity. rewrite Z.eqb_refl. cbn [negb]. rewrite (gap_at _ _ _ G). cbn [deref bind]. apply Z.eqb_neq in N. rewrite N. cbn [negb]. now rewrite cerr_first.
      + replace (is_null (LBR :: t)) with false by reflexivity. replace (LBR =? LCB) with false by reflexivity. rewrite Z.eqb_refl. cbn [negb]. rewrite (gap_eq _ _ _ _ G), Hsn. cbn [deref bind]. apply Z.eqb_neq in N. rewrite N. cbn [negb]. now rewrite cerr_first.
      + replace (is_null (LCB :: t)) with false by reflexivity. rewrite Z.eqb_refl. cbn [negb]. rewrite (gap_eq _ _ _ _ G). now rewrite cerr_first.
      + replace (is_null (LCB :: t)) with false by reflexivity. rewrite Z.eqb_refl. cbn [negb]. rewrite (gap_at _ _ _ G). now rewrite Z.eqb_refl.
      + replace (is_null (LCB :: t)) with false by reflexivity. rewrite Z.eqb_refl. cbn [negb]. rewrite (gap_at _ _ _ G). destruct s as [|d t1]; [congruence|]. rewrite (heads_neq _ _ _ N2). cbn [negb].
        assert (K : closed RCB (members_loop mode sn L (Datatypes.S (length (d :: t1))) L old (d :: t1) (Some e)) v r e').
        { apply members_backward; [exact HM|exact HL| |lia]. eapply bytes_suffix; [exact (after_gap_suffix _ _ G)|now inversion Hb]. }
        apply closed_shape in K. destruct K as (s2 & -> & Hs). cbn [bind]. exact (object_end RCB v s2 r e' gap_rcb Hs).
  Qed.

End Obj.

(** ---- arrays of members ---- *)
Section Arr.
  Context {T : Type} (sn : option Z) (L : list (memb T)).
  Implicit Types (b : memb T) (t : T).
  Notation alaw := (memb_all (fun _ c => dlaw (des c))).
  Hypothesis HL : Forall alaw L.
  Lemma alt_law (ru : bool) (l r0 : mem T) d : alaw (MIf ru l r0 d) -> dlaw (des (m_codec (if ru then r0 else l))) /\ dlaw (des (m_codec (if ru then l else r0))).
  Proof. cbn. destruct ru; tauto. Qed.
  Lemma amem_forward m t e s t' r x : dlaw (des (m_codec m)) -> amem_des m sn t s (Some e) = Ok (t', r, x) -> exists y e', x = Some e' /\ t' = m_set m t y /\ runs (m_codec m) sn (m_get m t) e s y r e'.
  Proof.
    intros Hd. unfold amem_des. destruct (des _ _ _ _ _) as [[[y r1] x2]| |] eqn:E2; cbn [bind]; try discriminate. destruct (law_some _ _ _ _ _ _ _ _ Hd E2) as (e2 & -> & _). intros H. inv H. eauto.
  Qed.
  Lemma amemb_forward b t e s t' r x : alaw b -> amemb_des b sn t s (Some e) = Ok (t', r, x) -> exists e', x = Some e' /\ amemb_run sn b t e s t' r e'.
  Proof.
    destruct b as [m|m i|ru l r0 d]; intros Hg; cbn [amemb_des].
    - intros H. apply amem_forward in H; [|exact Hg]. destruct H as (y & e' & -> & -> & H). eexists. split; [reflexivity|]. now apply ab_ref.
    - destruct (des _ _ _ _ _) as [[[y r1] x2]| |] eqn:E2; cbn [bind]; try discriminate. destruct (law_some _ _ _ _ _ _ _ _ Hg E2) as (e2 & -> & _). intros H. inv H. eexists. split; [reflexivity|]. now apply ab_prop.
    - destruct (alt_law _ _ _ _ Hg) as [H1 H2]. destruct (amem_des _ _ _ _ _) as [[[t1 itr] y]| |] eqn:E; cbn [bind]; try discriminate.
      apply amem_forward in E; [|exact H1]. destruct E as (w & e1 & -> & -> & E). rewrite no_err_some. destruct (is_err e1) eqn:Ee; cbn [negb].
      + destruct (mem_reset _ _) as [t2| |] eqn:Er; cbn [bind]; try discriminate. apply reset_at in Er. intros H. apply amem_forward in H; [|exact H2]. destruct H as (w2 & e' & -> & -> & H). eexists. split; [reflexivity|].
        eapply ab_else; [reflexivity|reflexivity|exact E|exact Ee|exact Er|exact H].
      + destruct (mem_reset _ _) as [t2| |] eqn:Er; cbn [bind]; try discriminate. apply reset_at in Er. intros H. inv H. eexists. split; [reflexivity|]. eapply ab_if; [reflexivity|reflexivity|exact E|exact Ee|exact Er].
  Qed.
  Lemma amemb_backward b t e s t' r e' : amemb_run sn b t e s t' r e' -> amemb_des b sn t s (Some e) = Ok (t', r, Some e').
  Proof.
    intros H. destruct H as [m t e s y r e' H|m i t e s y r e' H|ru l r0 d t e s m o y t2 r e1 -> -> H Ee Hr|ru l r0 d t e s m o y r1 e1 t2 w r e' -> -> H Ee Hr H2]; cbn [amemb_des]; unfold amem_des; unfold runs in H; rewrite H; cbn [bind]; try reflexivity.
    - rewrite no_err_some, Ee. cbn [negb]. apply reset_at in Hr. now rewrite Hr.
    - rewrite no_err_some, Ee. cbn [negb]. apply reset_at in Hr. rewrite Hr. cbn [bind]. unfold runs in H2. now rewrite H2.
  Qed.
  (** the list and the check of what follows *)
  Definition acheck (M : list (memb T)) t (s : buf) (e : eptr) : res (T * buf * eptr) :=
    let* (t3, s3, e3) := amembers_des sn M t s e in
    match s3 with
    | [] => Ok (t3, [], cerr UnexpectedEndFragment None 0 e3)
    | f :: _ => if negb (f =? RBR) then Ok (t3, [], cerr ExpectedOf (Some [RBR]) (dist s3) e3) else Ok (t3, s3, e3)
    end.
  Lemma acheck_nil t s e r x v : acheck [] t s (Some e) = Ok (v, r, x) -> exists r' e', x = Some e' /\ shape RBR r r' e' /\ places_run sn [] t e s v r' e'.
  Proof.
    unfold acheck. cbn [amembers_des bind]. destruct s as [|f s]. { rewrite cerr_first. intros H. inv H. do 2 eexists. split; [reflexivity|]. split; [now apply shape_err|constructor]. }
    destruct (f =? RBR) eqn:E; cbn [negb].
    - assert (f = RBR) by lia. subst f. intros H. inv H. do 2 eexists. split; [reflexivity|]. split; [now left|constructor].
    - rewrite cerr_first. intros H. inv H. do 2 eexists. split; [reflexivity|]. split; [now apply shape_err|]. apply (pr_extra sn v e f s). lia.
  Qed.
  Lemma acheck_cons b M t s e : acheck (b :: M) t s e = let* (t1, s1, e1) := amemb_des b sn t s e in
    let '(s2, e2) := parse_space s1 e1 in
    let* (t3, s3, e3) := match s2 with
      | [] => Ok (t1, [], cerr UnexpectedEndFragment None 0 e2)
      | d :: t2 => if d =? COMMA then let '(s4, e4) := parse_space t2 e2 in acheck M t1 s4 e4 else
          if negb (d =? RBR) then Ok (t1, [], cerr ExpectedOf (Some [RBR]) (dist s2) e2) else Ok (t1, s2, e2) end in
    match s3 with
    | [] => Ok (t3, [], cerr UnexpectedEndFragment None 0 e3)
    | f :: _ => if negb (f =? RBR) then Ok (t3, [], cerr ExpectedOf (Some [RBR]) (dist s3) e3) else Ok (t3, s3, e3)
    end.
  Proof.
    unfold acheck at 1. cbn [amembers_des]. destruct (amemb_des b sn t s e) as [[[t1 s1] e1]| |]; cbn [bind]; try reflexivity. destruct (parse_space s1 e1) as [s2 e2]. destruct s2 as [|d t2]; [reflexivity|].
    destruct (d =? COMMA); [|reflexivity]. destruct (parse_space t2 e2) as [s4 e4]. reflexivity.
  Qed.
  Definition check (v : T) (s : buf) (x : eptr) : res (T * buf * eptr) :=
    match s with
    | [] => Ok (v, [], cerr UnexpectedEndFragment None 0 x)
    | f :: _ => if negb (f =? RBR) then Ok (v, [], cerr ExpectedOf (Some [RBR]) (dist s) x) else Ok (v, s, x)
    end.
  Lemma check_shape v s r e x : shape RBR s r e -> x = Some e -> check v s x = Ok (v, s, x).
  Proof. intros H0 ->. revert H0. unfold check. intros [->|(-> & _ & H)]; [now rewrite Z.eqb_refl|]. rewrite cerr_first. now rewrite first_id. Qed.
  Lemma places_forward M : Forall alaw M -> forall t e s v s' x, acheck M t s (Some e) = Ok (v, s', x) -> exists r e', x = Some e' /\ shape RBR s' r e' /\ places_run sn M t e s v r e'.
  Proof.
    induction 1 as [|b M Hg HM IH]; intros t e s v s' x; [apply acheck_nil|]. rewrite acheck_cons.
    destruct (amemb_des b sn t s (Some e)) as [[[t1 s1] y]| |] eqn:E; cbn [bind]; try discriminate. apply amemb_forward in E; [|exact Hg]. destruct E as (e1 & -> & E).
    destruct (parse_space s1 (Some e1)) as [s2 y] eqn:E2. gp E2. destruct s2 as [|d t2].
    { cbn [bind]. rewrite cerr_first, cerr_first, first_first by reflexivity. intros H. inv H. do 2 eexists. split; [reflexivity|]. split; [now apply shape_err|]. eapply pr_end; eassumption. }
    apply gap_cons in G. destruct G as [G ->]. destruct (d =? COMMA) eqn:Ed.
    - assert (d = COMMA) by lia. subst d. destruct (parse_space t2 (Some e1)) as [s4 y] eqn:E4. gp E4. destruct (acheck M t1 s4 (Some e0)) as [[[t3 s3] y]| |] eqn:E3; cbn [bind]; try discriminate.
      apply IH in E3. destruct E3 as (r & e' & -> & Hs & E3). change (check t3 s3 (Some e') = Ok (v, s', x) -> exists (r0 : buf) (e'0 : json_error), x = Some e'0 /\ shape RBR s' r0 e'0 /\ places_run sn (b :: M) t e s v r0 e'0). rewrite (check_shape t3 s3 r e' _ Hs eq_refl). intros H. inv H. do 2 eexists. split; [reflexivity|]. split; [exact Hs|]. eapply pr_more; eassumption.
    - destruct (d =? RBR) eqn:Er; cbn [negb bind].
      + assert (d = RBR) by lia. subst d. rewrite Z.eqb_refl. cbn [negb]. intros H. inv H. do 2 eexists. split; [reflexivity|]. split; [now left|]. eapply pr_close; eassumption.
      + rewrite cerr_first, cerr_first, first_first by reflexivity. intros H. inv H. do 2 eexists. split; [reflexivity|]. split; [now apply shape_err|]. eapply (pr_other sn b M t e s v s1 e1 d t2); [exact E|exact G|lia|lia].
  Qed.
  Lemma places_backward M t e s v r e' : places_run sn M t e s v r e' -> closed RBR (acheck M t s (Some e)) v r e'.
  Proof.
    induction 1 as [t e r|t e|t e c s N|b M t e s t1 s1 e1 e2 K G|b M t e s t1 s1 e1 r K G|b M t e s t1 s1 e1 c u K G N1 N2|b M t e s t1 s1 e1 s2 s3 e3 t' r e' K G G2 HP IH].
    - unfold acheck. cbn [amembers_des bind]. rewrite Z.eqb_refl. now left.
    - unfold acheck. cbn [amembers_des bind]. rewrite cerr_first. now apply closed_err.
    - unfold acheck. cbn [amembers_des bind]. apply Z.eqb_neq in N. rewrite N. cbn [negb]. rewrite cerr_first. now apply closed_err.
    - rewrite acheck_cons, (amemb_backward _ _ _ _ _ _ _ K). cbn [bind]. rewrite (gap_eq _ _ _ _ G). cbn [bind]. rewrite cerr_first, cerr_first, first_first by reflexivity. now apply closed_err.
    - rewrite acheck_cons, (amemb_backward _ _ _ _ _ _ _ K). cbn [bind]. rewrite (gap_at _ _ _ G). replace (RBR =? COMMA) with false by reflexivity. rewrite Z.eqb_refl. cbn [negb bind]. rewrite Z.eqb_refl. now left.
    - rewrite acheck_cons, (amemb_backward _ _ _ _ _ _ _ K). cbn [bind]. rewrite (gap_at _ _ _ G). apply Z.eqb_neq in N1, N2. rewrite N2, N1. cbn [negb bind]. rewrite cerr_first, cerr_first, first_first by reflexivity. now apply closed_err.
    - rewrite acheck_cons, (amemb_backward _ _ _ _ _ _ _ K). cbn [bind]. rewrite (gap_at _ _ _ G), Z.eqb_refl, (gap_eq _ _ _ _ G2). apply closed_shape in IH. destruct IH as (s5 & -> & Hs). cbn [bind]. change (closed RBR (check t' s5 (Some e')) t' r e'). rewrite (check_shape t' s5 r e' _ Hs eq_refl). apply closed_shape. eauto.
  Qed.
  (** the end of oarray_des is the check *)
  Lemma oarray_end M t s e : after_gap s s -> s <> [] -> Forall alaw M ->
    (let* (v, s2, e2) := amembers_des sn M t s (Some e) in
     match s2 with
     | [] => Ok (v, [], cerr UnexpectedEndFragment None 0 e2)
     | _ => let '(s3, e3) := parse_space s2 e2 in
       match s3 with [] => Ok (v, [], cerr UnexpectedEndFragment None 0 e3) | f :: t3 => if negb (f =? RBR) then Ok (v, [], cerr ExpectedOf (Some [RBR]) (dist t3 + 1) e3) else Ok (v, t3, e3) end
     end) = let* (v, s2, e2) := acheck M t s (Some e) in Ok (v, match s2 with [] => [] | _ :: q => q end, e2).
  Proof.
    intros Hs Ns HM. destruct M as [|b M].
    - unfold acheck. cbn [amembers_des bind]. destruct s as [|c s]; [congruence|]. rewrite (gap_at _ _ _ Hs). destruct (c =? RBR); cbn [negb bind]; [reflexivity|].
      replace (dist s + 1) with (dist (c :: s)) by (unfold dist; cbn [length]; lia). reflexivity.
    - assert (Q : acheck (b :: M) t s (Some e) = amembers_des sn (b :: M) t s (Some e)).
      { destruct (acheck (b :: M) t s (Some e)) as [[[v s2] x]| |] eqn:E.
        - pose proof E as E'. apply places_forward in E; [|exact HM]. destruct E as (r & e' & -> & Hsh & _). unfold acheck in E'. destruct (amembers_des sn (b :: M) t s (Some e)) as [[[v' s'] x']| |] eqn:E2; cbn [bind] in E'; try discriminate.
          clear -E' E2 HM. cbn [amembers_des] in E2. destruct (amemb_des b sn t s (Some e)) as [[[t1 s1] y]| |] eqn:E; cbn [bind] in E2; try discriminate. inversion HM as [|? ? Hg HM']; subst. apply amemb_forward in E; [|exact Hg]. destruct E as (e1 & -> & E).
          destruct (parse_space s1 (Some e1)) as [s3 y]. destruct s3 as [|d t3]; [inv E2|].
          + destruct y; [|inv E'; discriminate]. rewrite cerr_first in E'. rewrite cerr_first, first_first in E' by reflexivity. inv E'. now rewrite cerr_first.
          + match type of E2 with bind ?w _ = _ => destruct w as [[[t4 s4] e4]| |]; cbn [bind] in E2; try discriminate end. destruct s4 as [|f s4].
            * inv E2. destruct e4; [|inv E'; discriminate]. rewrite cerr_first in E'. rewrite cerr_first, first_first in E' by reflexivity. inv E'. now rewrite cerr_first.
            * destruct (f =? RBR) eqn:Ef; cbn [negb] in E2; inv E2; [rewrite Ef in E'; now inv E'|]. destruct e4; [|inv E'; discriminate]. rewrite cerr_first in E'. rewrite cerr_first, first_first in E' by reflexivity. inv E'. now rewrite cerr_first.
        - unfold acheck in E. destruct (amembers_des sn (b :: M) t s (Some e)) as [[[v' s'] x']| |]; cbn [bind] in E; try congruence. destruct s' as [|f s']; [discriminate|destruct (negb (f =? RBR)); discriminate].
        - unfold acheck in E. destruct (amembers_des sn (b :: M) t s (Some e)) as [[[v' s'] x']| |]; cbn [bind] in E; try congruence. destruct s' as [|f s']; [discriminate|destruct (negb (f =? RBR)); discriminate]. }
      rewrite <- Q. destruct (acheck (b :: M) t s (Some e)) as [[[v s2] x]| |] eqn:E; cbn [bind]; try reflexivity. apply places_forward in E; [|exact HM]. destruct E as (r & e' & -> & Hsh & _).
      rewrite (object_end RBR v s2 r e' gap_rbr Hsh). destruct Hsh as [->|(-> & -> & _)]; reflexivity.
  Qed.
  Theorem oarray_runs t0 old e s v r e' : runs (oarray_codec L t0) sn old e s v r e' <-> oarray_text sn L t0 old e s v r e'.
  Proof.
    unfold runs. cbn [des oarray_codec]. unfold oarray_des. split.
    - destruct (is_null s) eqn:En.
      { apply is_null_heads in En. destruct (parse_null s (Some e)) as [r0 y] eqn:E. intros H. inv H. apply null_run in E; [|exact En]. destruct E as (e0 & Q & E). injection Q as <-. now apply oa_null. }
      apply not_null_heads in En. destruct s as [|c t]. { rewrite cerr_first. intros H. inv H. apply oa_end. }
      destruct (c =? LBR) eqn:Ec; cbn [negb].
      + assert (c = LBR) by lia. subst c. destruct (parse_space t (Some e)) as [s1 y] eqn:E1. gp E1. destruct s1 as [|d t1]. { rewrite cerr_first. intros H. inv H. now apply oa_cut. }
        apply gap_cons in G. destruct G as [G ->]. destruct (d =? RBR) eqn:Ed; cbn [negb]. { assert (d = RBR) by lia. subst d. intros H. inv H. now apply oa_empty. }
        rewrite (oarray_end L old (d :: t1) e (gap_idem _ _ G) ltac:(discriminate) HL). destruct (acheck L old (d :: t1) (Some e)) as [[[w s2] y]| |] eqn:E2; cbn [bind]; try discriminate.
        apply places_forward in E2; [|exact HL]. destruct E2 as (r2 & e2 & -> & Hs & E2). intros H. inv H. eapply oa_places; [exact G|discriminate|now apply not_heads|]. destruct Hs as [->|(-> & -> & _)]; exact E2.
      + rewrite cerr_first. intros H. inv H. apply oa_other; [|lia]. intros ->. apply En, heads_refl.
    - intros H. destruct H as [e s r e' H|e|e c t N1 N2|e t e1 G|e t r G|e t s v r e' G N1 N2 HM].
      + pose proof (lit_heads _ _ _ _ H) as En. rewrite (proj2 (is_null_heads s) En). rewrite (proj2 (null_run s e r (Some e') En)) by eauto. reflexivity.
      + cbn [is_null starts]. now rewrite cerr_first.
      + assert (En : is_null (c :: t) = false) by (apply not_null_heads; intros K; apply heads_inv in K; congruence). rewrite En. apply Z.eqb_neq in N2. rewrite N2. cbn [negb]. now rewrite cerr_first.
      + replace (is_null (LBR :: t)) with false by reflexivity. rewrite Z.eqb_refl. cbn [negb]. rewrite (gap_eq _ _ _ _ G). now rewrite cerr_first.
      + replace (is_null (LBR :: t)) with false by reflexivity. rewrite Z.eqb_refl. cbn [negb]. rewrite (gap_at _ _ _ G). now rewrite Z.eqb_refl.
      + replace (is_null (LBR :: t)) with false by reflexivity. rewrite Z.eqb_refl. cbn [negb]. rewrite (gap_at _ _ _ G). destruct s as [|d t1]; [congruence|]. rewrite (heads_neq _ _ _ N2). cbn [negb].
        rewrite (oarray_end L old (d :: t1) e (gap_idem _ _ G) N1 HL). apply places_backward, closed_shape in HM. destruct HM as (s2 & -> & Hs). cbn [bind]. destruct Hs as [->|(-> & -> & _)]; reflexivity.
  Qed.
End Arr.
