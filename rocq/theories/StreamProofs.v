(** Values one after another. *)
From Verif Require Import Base Parser SpecJson SpecObject ParserFacts Grammar1 Grammar2 Out Number StringS Array Object ObjectArray Enum Wrap TimeSize CodecLaws
  AcceptProofs Desc DescProofs SpecExact ExactProofs SpecNear NearProofs SpecStream CutProofs.
Notation C0 := (Some no_error).

Lemma cuttable_cut A (c : codec A) : cuttable A c -> cut c.
Proof.
  induction 1 as [t Ht| | |N|mode L| | |serq reqq|t metric Ht|A C S k l r c d0 _ IH|K V C S k l r kc vc d0 _ IHk _ IHv|A c d0 N Hn _ IH|A c N Hn _ IH|T mode L t0 HL _ IH|T L t0 HL _ IH|T A get set c _ IH|A c serq reqq _ IH|A c d0 _ IH].
  - now apply int_codec_cut.
  - exact bool_codec_cut.
  - exact string_codec_cut.
  - exact (chars_codec_cut N).
  - exact (enum_codec_cut mode L).
  - exact raw_codec_cut.
  - exact raw_codec_cut.
  - exact (rquoted_codec_cut serq reqq).
  - now apply size_codec_cut.
  - apply seq_codec_cut. exact (proj2 (proj2 IH)).
  - apply seq_codec_cut. apply field_codec_cut; [exact (proj2 (proj2 IHk))|exact (proj2 (proj2 IHv))].
  - now apply vec_fix_cut.
  - now apply vec_fix_cut.
  - apply object_codec_cut. apply Forall_forall. intros b Hb. rewrite Forall_forall in HL. specialize (IH b Hb). specialize (HL b Hb). destruct b; [exact IH|exact IH|easy].
  - apply oarray_codec_cut. apply Forall_forall. intros b Hb. rewrite Forall_forall in HL. specialize (IH b Hb). specialize (HL b Hb). destruct b; [exact IH|exact IH|easy].
  - now apply member_value_cut.
  - now apply quoted_codec_cut.
  - now apply ptr_codec_cut.
Qed.
Lemma space_ex s r : parse_space s C0 = (r, C0) <-> after_gap s r. Proof. exact (space_exact s r). Qed.
Lemma eok0 : eok C0 C0. Proof. now exists no_error, no_error. Qed.
Lemma has_clean s k e : estep s C0 (Some k) -> e = Some k -> has_err e = false -> e = C0.
Proof. intros [H|(a & j & _ & _ & E & Ej & _)] He Hh; [congruence|]. subst e. injection E as ->. unfold has_err in Hh. cbn [no_err_yet] in Hh. rewrite Ej in Hh. discriminate. Qed.
Lemma des_clean {A} (c : codec A) sn old s v r e : dlaw (des c) -> des c sn old s C0 = Ok (v, r, e) -> has_err e = false -> e = C0.
Proof.
  intros HD E H. specialize (HD sn old s C0). rewrite E in HD. destruct HD as [_ [-> |(a & j & _ & _ & -> & Ej & _)]]; [reflexivity|]. unfold has_err in H. cbn [no_err_yet] in H. rewrite Ej in H. discriminate.
Qed.
Lemma space_clean s r e : parse_space s C0 = (r, e) -> has_err e = false -> e = C0.
Proof. unfold parse_space. destruct (space_loop false s) as [sc r']. destruct sc; intros E H; injection E as <- <-; [discriminate|reflexivity]. Qed.
Lemma gap_fun s r r' : after_gap s r -> after_gap s r' -> r = r'.
Proof. intros H1 H2. apply space_ex in H1, H2. congruence. Qed.

Section Drain.
  Context {A : Type} (c : codec A) (sn : option Z) (d0 : A) (d : bool) (Ht : tight d A c).
  Let near := tight_near _ _ _ Ht.
  Lemma drain_fuel : forall n s, bytes s -> (length s < n)%nat -> drain c sn d0 n s <> Fuel.
  Proof.
    destruct near as (HD & HE & _). induction n as [|n IH]; intros s Hb Hn E; [lia|]. cbn [drain] in E. destruct (parse_space s C0) as [s1 e1] eqn:E1. destruct (has_err e1) eqn:H1; [discriminate|].
    pose proof (space_clean _ _ _ E1 H1) as ->. apply space_ex in E1. destruct s1 as [|a s1]; [discriminate|]. pose proof (HD sn d0 (a :: s1) C0) as L. destruct (des c sn d0 (a :: s1) C0) as [[[v r] e2]| |] eqn:E2; cbn [bind] in E; [|discriminate|easy].
    destruct (has_err e2) eqn:H2; [discriminate|]. pose proof (des_clean c _ _ _ _ _ _ HD E2 H2) as ->. pose proof (gap_bytes _ _ E1 Hb) as Hb1. destruct (HE sn d0 _ _ _ Hb1 ltac:(right; discriminate) E2) as (a' & p & Ep).
    pose proof (after_gap_len _ _ E1) as L1. rewrite Ep in L1. cbn [length] in L1. rewrite app_length in L1. destruct (drain c sn d0 n r) as [[l e3]| |] eqn:E3; cbn [bind] in E; [discriminate|discriminate|].
    apply (IH r); [|lia|exact E3]. rewrite Ep in Hb1. inversion Hb1 as [|? ? _ Hb2]; subst. apply bytes_app in Hb2. tauto.
  Qed.
  Lemma drain_exact : forall n s l, bytes s -> (length s < n)%nat -> (drain c sn d0 n s = Ok (l, C0) <-> complete (fun s v r => reads c sn d0 s v r) s l).
  Proof.
    destruct near as (HD & HE & _). induction n as [|n IH]; intros s l Hb Hn; [lia|]. cbn [drain]. split.
    - destruct (parse_space s C0) as [s1 e1] eqn:E1. destruct (has_err e1) eqn:H1; [intros E; injection E as <- ->; discriminate|].
      pose proof (space_clean _ _ _ E1 H1) as ->. apply space_ex in E1. destruct s1 as [|a s1]; [intros E; injection E as <-; exists s; split; [constructor|exact E1]|].
      destruct (des c sn d0 (a :: s1) C0) as [[[v r] e2]| |] eqn:E2; cbn [bind]; [|discriminate|discriminate]. destruct (has_err e2) eqn:H2; [intros E; injection E as <- ->; discriminate|]. pose proof (des_clean c _ _ _ _ _ _ HD E2 H2) as ->.
      pose proof (gap_bytes _ _ E1 Hb) as Hb1. destruct (HE sn d0 _ _ _ Hb1 ltac:(right; discriminate) E2) as (a' & p & Ep). pose proof (after_gap_len _ _ E1) as L1. rewrite Ep in L1, Hb1. cbn [length] in L1. rewrite app_length in L1.
      destruct (drain c sn d0 n r) as [[l' e3]| |] eqn:E3; cbn [bind]; [|discriminate|discriminate]. intros E. injection E as <- ->. apply IH in E3; [|inversion Hb1 as [|? ? _ Hb2]; subst; apply bytes_app in Hb2; tauto|lia].
      destruct E3 as (q & R & G). exists q. split; [|exact G]. now apply rc_more with (a :: s1) r.
    - intros (q & R & G). destruct R as [s|s s1 v s2 l r G1 N H2 R].
      + apply space_ex in G. rewrite G. reflexivity.
      + pose proof (gap_bytes _ _ G1 Hb) as Hb1. destruct (HE sn d0 _ _ _ Hb1 ltac:(now right) H2) as (a' & p & Ep). pose proof (after_gap_len _ _ G1) as L1. rewrite Ep in L1, Hb1. cbn [length] in L1. rewrite app_length in L1.
        apply space_ex in G1. rewrite G1. cbn [has_err no_err_yet is_err]. replace (has_err C0) with false by reflexivity. destruct s1 as [|a s1]; [easy|]. unfold reads in H2. rewrite H2. cbn [bind]. replace (has_err C0) with false by reflexivity.
        assert (E3 : drain c sn d0 n s2 = Ok (l, C0)). { apply IH; [inversion Hb1 as [|? ? _ Hb2]; subst; apply bytes_app in Hb2; tauto|lia|]. now exists r. } rewrite E3. reflexivity.
  Qed.
End Drain.

(** ---- logs written by the library ---- *)
Lemma ws_gap g : Forall s_ws g -> gap g. Proof. induction 1; now constructor. Qed.
Lemma ws_no_slash (g g' : buf) : Forall s_ws g -> g <> g' ++ [SLASH].
Proof. intros H ->. apply Forall_app in H. destruct H as [_ H]. inversion H as [|? ? H1]; subst. unfold s_ws in H1. lia. Qed.
Lemma ws_vstart g h t : Forall s_ws g -> vstart h -> after_gap (g ++ h :: t) (h :: t).
Proof.
  intros Hg Hh. exists g. split; [reflexivity|]. split; [now apply ws_gap|]. unfold vstart, s_digit, s_ws in *. split; [lia|]. split; [lia|]. intros _ g'. now apply ws_no_slash.
Qed.
Lemma log_drain A (c : codec A) dom d sn d0 l s : rt c dom -> (d = true -> tight true A c) -> bytes s -> Forall dom l -> log_of d c l s -> forall n, (length s < n)%nat -> drain c sn d0 n s = Ok (l, C0).
Proof.
  intros Hrt Hd Hb Hl H. induction H as [g Hg|g v ops l s Hg Hs H IH Hf]; intros n Hn; (destruct n as [|n]; [lia|]); cbn [drain].
  - assert (G : after_gap g []) by (exists g; split; [now rewrite app_nil_r|split; [now apply ws_gap|exact I]]). apply space_ex in G. now rewrite G.
  - inversion Hl as [|? ? Hv Hl']; subst. destruct (Hrt v Hv) as (ops' & Hs' & (h & t & Ef & Hh) & Hr). rewrite Hs in Hs'. injection Hs' as <-. 
    rewrite Ef. cbn [app]. pose proof (ws_vstart g h (t ++ s) Hg Hh) as G. apply space_ex in G. rewrite G. replace (has_err C0) with false by reflexivity. change (h :: t ++ s) with ((h :: t) ++ s). rewrite <- Ef.
    apply bytes_app in Hb. destruct Hb as [_ Hb]. assert (Hb' := Hb). apply bytes_app in Hb'. destruct Hb' as [Hb1 Hb2].
    assert (E : des c sn d0 (flat ops ++ s) C0 = Ok (v, s, C0)).
    { destruct Hf as [-> |Hf].
      - specialize (Hd eq_refl). apply tight_near in Hd. destruct Hd as (_ & _ & _ & _ & HL). assert (K : reads c sn d0 (flat ops ++ [] ++ []) v ([] ++ [])) by (apply Hr; [exact I|reflexivity]).
        exact (HL sn sn d0 (flat ops) [] [] s v ltac:(rewrite app_nil_r; exact Hb1) Hb2 ltac:(discriminate) K).
      - apply Hr; [|reflexivity]. destruct Hf as [-> |(w & t' & -> & Hw)]; [exact I|]. unfold follow, s_ws, s_digit in *. lia. }
    rewrite Ef in E |- *. cbn [app] in E |- *. rewrite E. cbn [bind]. replace (has_err C0) with false by reflexivity. rewrite (IH Hb2 Hl'); [reflexivity|]. rewrite !app_length in Hn. rewrite Ef in Hn. cbn [length] in Hn. lia.
Qed.

(** ---- cut short ---- *)
Lemma records_suffix {A} (item : buf -> A -> buf -> Prop) : (forall s v r, item s v r -> suffix r s) -> forall s l r, records item s l r -> suffix r s.
Proof. intros Hi s l r H. induction H as [s|s s1 v s2 l r H1 _ H2 _ IH]; [now exists []|]. eapply suffix_trans; [exact IH|]. eapply suffix_trans; [eapply Hi, H2|now apply after_gap_suffix]. Qed.
Lemma records_inv {A} (item : buf -> A -> buf -> Prop) s l r : records item s l r ->
  (l = [] /\ s = r) \/ exists s1 v s2 l2, l = v :: l2 /\ after_gap s s1 /\ s1 <> [] /\ item s1 v s2 /\ records item s2 l2 r.
Proof. intros [s'|s' s1 v s2 l2 r' H1 H2 H3 H4]; [now left|right; eauto 10]. Qed.
Section Torn.
  Context {A : Type} (c : codec A) (sn : option Z) (b : Z) (d0 : A) (x : buf).
  Context (Ht : tight true A c) (Hc : cuttable A c) (Hb1 : b <> RBR) (Hb2 : b <> RCB).
  Notation I := (fun s v r => reads c sn d0 s v r).
  (** reading starts in front of the cut only if [z] is not empty *)
  Lemma whole_in (t s1 s2 q : buf) v : bytes (t ++ x) -> after_gap (t ++ x) s1 -> s1 <> [] -> reads c sn d0 s1 v s2 -> s2 = q ++ x ->
    exists z, z <> [] /\ s1 = z ++ x /\ after_gap t z /\ forall sn', reads c sn' d0 z v q.
  Proof.
    intros Hb G N R ->. destruct (tight_near _ _ _ Ht) as (HD & HE & _ & _ & HL). pose proof (gap_bytes _ _ G Hb) as B1. destruct (HE sn d0 _ _ _ B1 ltac:(now right) R) as (a & p & E).
    assert (E1 : s1 = (a :: p ++ q) ++ x) by (rewrite E; cbn [app]; now rewrite <- app_assoc). exists (a :: p ++ q). split; [discriminate|]. split; [exact E1|]. split.
    - rewrite E1 in G. destruct (gap_swap _ (a :: p ++ q) x [] ltac:(discriminate) G) as (g & Eg & G'). rewrite !app_nil_r in G'. rewrite app_assoc in Eg. apply app_inv_tail in Eg. now subst t.
    - intros sn'. rewrite E in R, B1. assert (K : reads c sn d0 ((a :: p) ++ [] ++ (q ++ x)) v ([] ++ (q ++ x))) by exact R. change (bytes ((a :: p) ++ [] ++ (q ++ x))) in B1. refine (HL sn sn' d0 (a :: p) [] (q ++ x) q v B1 _ _ K); [|discriminate].
      rewrite !bytes_app in B1. tauto.
  Qed.
  Lemma torn n : forall t l, (length t < n)%nat -> bytes (t ++ x) -> complete I (t ++ x) l ->
    exists l1 e q, drain c (Some b) d0 n t = Ok (l1, e) /\ records I (t ++ x) l1 (q ++ x) /\ (has_err e = false <-> after_gap q []) /\
      forall l' q', records I (t ++ x) l' (q' ++ x) -> exists m, l1 = l' ++ m.
  Proof.
    destruct (tight_near _ _ _ Ht) as (HD & HE & _ & _ & HL). destruct (cuttable_cut _ _ Hc) as (_ & _ & K3). induction n as [|n IH]; intros t l Hn Hb (r0 & R & Ge); [lia|]. cbn [drain].
    destruct (parse_space t C0) as [s1 e1] eqn:E1. destruct (has_err e1) eqn:H1.
    { exists [], e1, t. split; [reflexivity|]. split; [constructor|]. split.
      - split; [intros; congruence|]. intros G. apply space_ex in G. rewrite G in E1. injection E1 as <- <-. discriminate.
      - intros l' q' R'. destruct (records_inv _ _ _ _ R') as [[-> _]|(s2 & v & s3 & l3 & -> & G2 & N & H2 & R2)]; [now exists []|]. exfalso. clear R'. rename R2 into R'. destruct (records_suffix I (fun s v r => reads_suffix c sn d0 s v r HD) _ _ _ R') as (p & Ep). rewrite app_assoc in Ep.
        destruct (whole_in _ _ _ _ _ Hb G2 N H2 Ep) as (w & _ & _ & G & _). apply space_ex in G. rewrite G in E1. injection E1 as <- <-. discriminate. }
    pose proof (space_clean _ _ _ E1 H1) as ->. assert (G1 := E1). apply space_ex in G1. destruct s1 as [|a s1].
    { exists [], C0, t. split; [reflexivity|]. split; [constructor|]. split; [split; auto|].
      intros l' q' R'. destruct (records_inv _ _ _ _ R') as [[-> _]|(s2 & v & s3 & l3 & -> & G2 & N & H2 & R2)]; [now exists []|]. exfalso. clear R'. rename R2 into R'. destruct (records_suffix I (fun s v r => reads_suffix c sn d0 s v r HD) _ _ _ R') as (p & Ep). rewrite app_assoc in Ep.
      destruct (whole_in _ _ _ _ _ Hb G2 N H2 Ep) as (w & Nw & _ & G & _). now apply Nw, (gap_fun t). }
    destruct (gap_swap t (a :: s1) [] x ltac:(discriminate) ltac:(now rewrite app_nil_r)) as (g & Eg & GX). rewrite app_nil_r in Eg. assert (GT : after_gap (t ++ x) ((a :: s1) ++ x)) by (rewrite Eg, <- app_assoc; exact GX). clear GX Eg g.
    (* the first record of the whole *)
    assert (F : exists v s2 l2, reads c sn d0 ((a :: s1) ++ x) v s2 /\ records I s2 l2 r0 /\ l = v :: l2).
    { destruct (records_inv _ _ _ _ R) as [[_ <-]|(s3 & v & s2 & l2 & -> & G2 & N & H2 & R2)]; [pose proof (gap_fun _ _ _ Ge GT); discriminate|]. pose proof (gap_fun _ _ _ G2 GT) as ->. eauto 6. }
    destruct F as (v & s2 & l2 & R1 & R2 & El). clear R. pose proof (gap_bytes _ _ GT Hb) as B1. pose proof (after_gap_len _ _ G1) as L1. cbn [length] in L1.
    pose proof (K3 b Hb1 Hb2 sn x d0 (a :: s1) C0 C0 eok0) as Q. pose proof (HD (Some b) d0 (a :: s1) C0) as D. destruct (des c (Some b) d0 (a :: s1) C0) as [[[w r] e2]| |] eqn:E2; cbn [gsim bind] in *; [|unfold reads in R1; congruence|easy].
    assert (M : forall l' q', records I (t ++ x) l' (q' ++ x) -> l' = [] \/ exists l3 y, l' = v :: l3 /\ s2 = y ++ x /\ records I s2 l3 (q' ++ x) /\ reads c (Some b) d0 (a :: s1) v y).
    { intros l' q' R'. destruct (records_inv _ _ _ _ R') as [[-> _]|(s3 & v' & s4 & l3 & -> & G2 & N & H2 & R3)]; [now left|]. right. clear R'. rename R3 into R'. assert (s3 = (a :: s1) ++ x) as -> by exact (gap_fun _ _ _ G2 GT). unfold reads in H2, R1. rewrite R1 in H2. injection H2 as <- <-.
      destruct (records_suffix I (fun s v r => reads_suffix c sn d0 s v r HD) _ _ _ R') as (p & Ep). rewrite app_assoc in Ep. destruct (whole_in _ _ _ _ _ Hb GT ltac:(discriminate) R1 Ep) as (z & _ & E & _ & H). apply app_inv_tail in E. subst z. eauto 8. }
    destruct (has_err e2) eqn:H2.
    { exists [], e2, t. split; [reflexivity|]. split; [constructor|]. split.
      - split; [intros; congruence|]. intros G. pose proof (gap_fun _ _ _ G G1). discriminate.
      - intros l' q' R'. destruct (M _ _ R') as [-> |(l3 & y & _ & _ & _ & H)]; [now exists []|]. exfalso. unfold reads in H. rewrite H in E2. injection E2 as <- <- <-. discriminate. }
    pose proof (des_clean c _ _ _ _ _ _ HD E2 H2) as ->.
    (* it lies in front of the cut *)
    assert (F : w = v /\ s2 = r ++ x).
    { clear Q D M. destruct (reads_suffix _ _ _ _ _ _ HD E2) as (p & Ep). rewrite Ep in E2, R1, B1. rewrite <- app_assoc in R1, B1. assert (H : reads c sn d0 (p ++ [] ++ (r ++ x)) w ([] ++ (r ++ x))).
      { refine (HL (Some b) sn d0 p [] r (r ++ x) w _ _ _ E2); [|apply bytes_app in B1; tauto|discriminate]. cbn [app]. rewrite !bytes_app in *. tauto. }
      cbn [app] in H. unfold reads in H, R1. rewrite H in R1. injection R1 as -> <-. now split. }
    destruct F as [-> ->]. assert (BA : bytes (a :: s1)) by (apply bytes_app in B1; tauto). destruct (HE (Some b) d0 _ _ _ BA ltac:(right; discriminate) E2) as (a' & p & Ep). assert (L2 := f_equal (@length Z) Ep). cbn [length] in L2. rewrite app_length in L2.
    destruct (IH r l2) as (l1 & e3 & q & D1 & D2 & D3 & D4); [lia| |now exists r0|].
    { apply bytes_app. split; [|apply bytes_app in B1; tauto]. apply bytes_app in B1. destruct B1 as [B1 _]. rewrite Ep in B1. inversion B1 as [|? ? _ B2]; subst. apply bytes_app in B2. tauto. }
    exists (v :: l1), e3, q. rewrite D1. split; [reflexivity|]. split; [exact (rc_more _ _ _ _ _ _ _ GT ltac:(discriminate) R1 D2)|]. split; [exact D3|].
    intros l' q' R'. destruct (M _ _ R') as [-> |(l3 & y & -> & Ey & H & _)]; [now exists (v :: l1)|]. destruct (D4 _ _ H) as (m & ->). now exists m.
  Qed.
End Torn.
