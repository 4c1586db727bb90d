(** Exactness of the readers of structs. *)
From Verif Require Import Base Parser SpecJson SpecNum SpecString SpecEnum ParserFacts Grammar1 Grammar2 Out Number StringS Array Object ObjectArray SpecObject Enum Float CodecLaws
  NumberProofs StringProofs ArrayProofs EnumProofs ObjectProofs ObjectArrayProofs AcceptProofs SpecExact ExactProofs.

Lemma dg_C0 {B} s e (x : res (B * buf * eptr)) v r : dgood s e x -> x = Ok (v, r, C0) -> e = C0 /\ suffix r s.
Proof. intros G ->. destruct G as [A G]. split; [exact (estep_clean _ _ _ G eq_refl)|exact A]. Qed.
Lemma pg_C0 s e x r : pg s e x -> x = Ok (r, C0) -> e = C0 /\ suffix r s.
Proof. intros G ->. destruct G as [A G]. split; [exact (estep_clean _ _ _ G eq_refl)|exact A]. Qed.
Lemma after_gap_refl s r : after_gap s r -> after_gap r r.
Proof. intros (g & -> & _ & H). exists []. split; [reflexivity|]. split; [constructor|]. destruct r as [|c r]; [exact I|]. destruct H as (A & B & C). repeat split; auto.
  intros _ g' E. now destruct g'. Qed.
Lemma bytes_suffix r s : suffix r s -> bytes s -> bytes r.
Proof. intros (p & ->) H. unfold bytes in *. rewrite Forall_app in H. apply H. Qed.

Lemma name_loop_eq nm : forall s t, name_loop nm s = ([], t) -> s = nm ++ t.
Proof.
  induction nm as [|n nm IH]; intros s t E; destruct s as [|c s]; cbn in E; try congruence.
  - now injection E.
  - now injection E.
  - destruct ((c =? n) && negb (c =? QT)) eqn:H; [|discriminate]. apply andb_true_iff in H. destruct H as [H _]. rewrite (IH _ _ E). cbn. f_equal. lia.
Qed.
Lemma is_string_qt s : is_string s = true -> exists t, s = QT :: t.
Proof. destruct s as [|c t]; cbn; [discriminate|]. intros H. exists t. f_equal. lia. Qed.
Lemma name_true nm s e r : unser_name nm s false e = (r, C0, true) -> e = C0 /\ named s nm r.
Proof.
  unfold unser_name. destruct (is_string s) eqn:Es; cbn [negb]; [|discriminate]. destruct (is_string_qt s Es) as (z & ->). cbn [tl].
  destruct (name_loop nm z) as [n' s1] eqn:En. destruct s1 as [|c t1]; [intros E; injection E as _ E; now apply C0_cerr in E|].
  destruct (c =? QT) eqn:Ec; cbn [negb orb]; [|discriminate]. destruct n'; [|discriminate]. apply name_loop_eq in En. assert (c = QT) by lia. subst c z.
  destruct (parse_space t1 e) as [s2 e2] eqn:E2. destruct s2 as [|d t2]; [intros E; injection E as _ E; now apply C0_cerr in E|].
  destruct (d =? COLON) eqn:Ed; cbn [negb]; [|intros E; injection E as _ E; now apply C0_cerr in E]. apply Z.eqb_eq in Ed. subst d.
  destruct (parse_space t2 e2) as [s3 e3] eqn:E3. destruct s3 as [|f t3]; [intros E; injection E as _ E; now apply C0_cerr in E|].
  intros E. injection E as <- ->. apply space_C0 in E3. destruct E3 as [-> H3]. apply space_C0 in E2. destruct E2 as [-> H2].
  split; [reflexivity|]. exists t1, t2. repeat split; auto. discriminate.
Qed.
Lemma name_hit nm s u r : plain_name nm -> named s nm r -> unser_name nm s u C0 = (r, C0, true).
Proof.
  intros Hn (s1 & s2 & -> & H1 & H2 & N). unfold unser_name. cbn [is_string starts]. rewrite Z.eqb_refl. cbn [negb tl].
  rewrite name_loop_hit by exact Hn. rewrite Z.eqb_refl. cbn [negb orb]. apply space_exact in H1, H2. rewrite H1, Z.eqb_refl. cbn [negb]. rewrite H2.
  now destruct r.
Qed.
Lemma name_false nm s e r e' : plain_name nm -> unser_name nm s false e = (r, e', false) -> OKE e' -> e' = e /\ r = s /\ heads QT s /\ forall x, s <> QT :: nm ++ QT :: x.
Proof.
  intros Hn. unfold unser_name. destruct (is_string s) eqn:Es; cbn [negb]. 2:{ intros E K. injection E as <- <-. exfalso. now apply OKE_cerr in K. }
  destruct (is_string_qt s Es) as (z & ->). cbn [tl].
  destruct (name_loop nm z) as [n' s1] eqn:En. destruct s1 as [|c t1]; [discriminate|].
  destruct (negb (c =? QT) || _) eqn:Ec.
  - intros E _. injection E as <- <-. repeat split; [now exists z|]. intros x E. injection E as ->. rewrite name_loop_hit in En by exact Hn. injection En as <- <- <-. rewrite Z.eqb_refl in Ec. cbn in Ec. discriminate.
  - destruct (parse_space t1 e) as [s2 e2]. destruct s2 as [|d t2]; [discriminate|]. destruct (negb (d =? COLON)); [discriminate|].
    destruct (parse_space t2 e2) as [s3 e3]. destruct s3; discriminate.
Qed.
Lemma name_miss nm n s x u e : plain_name nm -> qsafe n -> n <> nm -> named s n x -> unser_name nm s u e = (s, e, false).
Proof. intros Hn Hq Hne (s1 & s2 & -> & _). exact (unser_name_miss nm n s1 u e Hn Hq Hne). Qed.

(** ---- skipped members ---- *)
Lemma passes_sound sn s r : bytes s -> parse_member (parse_value sn) s C0 = Ok (r, C0) -> exists n, passes n s r.
Proof.
  intros Hb. unfold parse_member. destruct (negb (is_string s)); [discriminate|]. destruct (string_good s) as (s1 & o1 & A1 & B1). rewrite A1. cbn [bind].
  intros H. destruct (rgood_clean _ _ _ B1) as [->|[-> Hbad]].
  2:{ exfalso. injection H as _ H. now apply C0_cerr in H. }
  cbn [app_err] in H. pose proof (A1 C0) as A1'. cbn [app_err] in A1'.
  apply parse_string_inv in A1'; [|exact Hb]. destruct A1' as (k & E1 & Hk). destruct Hk as [n Hn].
  destruct s1 as [|c1 t1]; [discriminate|]. destruct (parse_space (c1 :: t1) C0) as [s2 e2] eqn:E2. destruct s2 as [|c2 t2]; [injection H as _ H; now apply C0_cerr in H|].
  destruct (c2 =? COLON) eqn:Ec; cbn [negb] in H; [|injection H as _ H; now apply C0_cerr in H]. apply Z.eqb_eq in Ec. subst c2.
  destruct t2 as [|c3 t3]; [injection H as _ H; now apply C0_cerr in H|]. destruct (parse_space (c3 :: t3) e2) as [s4 e4] eqn:E4. destruct s4 as [|c4 t4]; [injection H as _ H; now apply C0_cerr in H|].
  assert (Hb4 : bytes (c4 :: t4)).
  { apply (bytes_suffix _ s); [|exact Hb]. rewrite E1. eapply suffix_trans; [exact (proj1 (space_estep _ _ _ _ E4))|].
    eapply suffix_trans; [|eapply suffix_trans; [exact (proj1 (space_estep _ _ _ _ E2))|eexists; reflexivity]]. exists [COLON]. reflexivity. }
  assert (e4 = C0) as -> by exact (proj1 (value_ok _ _ _ _ _ Hb4 H C0_ok)).
  apply space_C0 in E4. destruct E4 as [-> H4]. apply space_C0 in E2. destruct E2 as [_ H2].
  apply (proj1 (parse_exact sn _ _ Hb4)) in H. destruct H as (v & Ev & Hv).
  exists n. split; [exact Hn|]. exists v. split; [|exact Hv]. exists (c1 :: t1), (c3 :: t3). rewrite <- Ev. split; [|repeat split; auto; discriminate].
  rewrite E1. cbn. now rewrite <- app_assoc.
Qed.
Lemma passes_complete sn n s r : passes n s r -> parse_member (parse_value sn) s C0 = Ok (r, C0).
Proof.
  intros (Hn & vt & (s1 & s2 & -> & H1 & H2 & N) & Hv). unfold parse_member. cbn [is_string starts]. rewrite Z.eqb_refl. cbn [negb].
  replace (QT :: n ++ QT :: s1) with ((QT :: n ++ [QT]) ++ s1) by (cbn; now rewrite <- app_assoc).
  rewrite (parse_string_app (QT :: n ++ [QT]) s1 C0) by now constructor. cbn [bind].
  destruct s1 as [|c1 t1]; [apply after_gap_nil in H1; discriminate|]. apply space_exact in H1. rewrite H1, Z.eqb_refl. cbn [negb].
  destruct s2 as [|c2 t2]; [apply after_gap_nil in H2; congruence|]. apply space_exact in H2. rewrite H2. destruct (vt ++ r) eqn:E; [congruence|]. rewrite <- E.
  exact (parse_complete sn vt r C0 Hv).
Qed.
Lemma passes_suffix n s r : passes n s r -> suffix r s.
Proof. intros H. apply (passes_complete None) in H. exact (proj2 (pg_C0 _ _ _ _ (pmember_pg None s C0) H)). Qed.
Lemma passes_qt n s r : passes n s r -> heads QT s. Proof. intros (_ & vt & (s1 & s2 & -> & _) & _). now eexists. Qed.
Lemma named_inj n n' s x y : wchars n -> plain_name n' -> named s n x -> named s n' y -> n = n'.
Proof.
  intros Hn Hp H H'. destruct (name_dec n n') as [E|E]; [exact E|]. exfalso. pose proof (name_miss n' n s x false C0 Hp (wchars_qsafe n Hn) E H) as K. rewrite (name_hit n' s false y Hp H') in K. discriminate.
Qed.

Section Obj.
  Context {T : Type} (mode : omode) (sn : option Z) (L : list (memb T)).
  Implicit Types (b : memb T) (t : T).
  Hypothesis HD : Forall (memb_all (fun _ c => dlaw (des c))) L.
  Hypothesis HI : Forall no_if L.
  Hypothesis HP : Forall plain_name (names L).
  Lemma takes_sound b t s e t' r : no_if b -> memb_all (fun _ c => dlaw (des c)) b -> plain_name (memb_name b) ->
    memb_des b sn t s false e = Ok (t', true, r, C0) -> e = C0 /\ takes sn b t s t' r.
  Proof.
    intros Hi Hd Hp. destruct b as [m|m i|]; [| |contradiction]; cbn [memb_des memb_all memb_name memb_mem] in *; unfold mem_des, mem_p_des;
    destruct (unser_name _ s false e) as [[s1 e1] u1] eqn:E; destruct u1; cbn [negb]; try discriminate; 
    destruct (des _ _ _ _ _) as [[[x r1] e2]| |] eqn:E2; cbn [bind]; try discriminate; intros H; injection H as <- <- ->;
    pose proof (dl_C0 _ _ _ _ _ _ _ _ Hd E2) as ->; apply name_true in E; destruct E as [-> Hn]; (split; [reflexivity|]); exists s1, x; repeat split; auto.
  Qed.
  Lemma takes_complete b t s t' r u : no_if b -> plain_name (memb_name b) -> takes sn b t s t' r -> memb_des b sn t s u C0 = Ok (t', true, r, C0).
  Proof.
    intros Hi Hp (s1 & x & Hn & Hr & ->). destruct b as [m|m i|]; [| |contradiction]; cbn [memb_des memb_name memb_mem memb_old] in *; unfold mem_des, mem_p_des;
    rewrite (name_hit _ _ _ _ Hp Hn); cbn [negb]; unfold reads in Hr; fold C0 in Hr; rewrite Hr; reflexivity.
  Qed.
  Lemma miss_sound b t s e t' r e' : no_if b -> plain_name (memb_name b) -> memb_des b sn t s false e = Ok (t', false, r, e') -> OKE e' ->
    e' = e /\ r = s /\ t' = t /\ heads QT s /\ forall x, ~ named s (memb_name b) x.
  Proof.
    intros Hi Hp. destruct b as [m|m i|]; [| |contradiction]; cbn [memb_des memb_name memb_mem] in *; unfold mem_des, mem_p_des;
    destruct (unser_name _ s false e) as [[s1 e1] u1] eqn:E; (destruct u1; cbn [negb]; [destruct (des _ _ _ _ _) as [[[x r1] e2]| |]; cbn [bind]; discriminate|]);
    intros H K; injection H as <- <- <-; apply name_false in E; auto; destruct E as (-> & -> & Hq & N); repeat split; auto; intros x (y & y' & Ey & _); now apply N in Ey.
  Qed.
  Lemma miss_complete b t s n x u e : no_if b -> plain_name (memb_name b) -> qsafe n -> n <> memb_name b -> named s n x -> memb_des b sn t s u e = Ok (t, false, s, e).
  Proof.
    intros Hi Hp Hq Hne Hn. destruct b as [m|m i|]; [| |contradiction]; cbn [memb_des memb_name memb_mem] in *; unfold mem_des, mem_p_des;
    rewrite (name_miss _ n _ x _ _ Hp Hq Hne Hn); reflexivity.
  Qed.
  Lemma in_L b : In b L -> no_if b /\ memb_all (fun _ c => dlaw (des c)) b /\ plain_name (memb_name b).
  Proof. intros H. rewrite Forall_forall in HD, HI, HP. repeat split; auto. apply HP. now apply in_map. Qed.
  Lemma takes_named b t s t' r : takes sn b t s t' r -> exists x, named s (memb_name b) x.
  Proof. intros (s1 & x & H & _). now exists s1. Qed.
  Lemma takes_suffix b t s t' r : In b L -> takes sn b t s t' r -> suffix r s.
  Proof. intros Hb H. destruct (in_L b Hb) as (A & B & C). apply (takes_complete b t s t' r false A C) in H. exact (proj2 (dg_C0 _ _ _ _ _ (memb_des_good b sn t s false C0 B) H)). Qed.

  (** search: an element of L, or a skipped member followed by a gap *)
  Lemma search_sound B : forall A t s t' r, bytes s -> L = A ++ B -> (forall n x, In n (names A) -> ~ named s n x) ->
    search_members mode sn B t s C0 = Ok (t', r, C0) ->
    (exists A' b B', L = A' ++ b :: B' /\ ~ In (memb_name b) (names A') /\ takes sn b t s t' r) \/
    (mode = Nonstrict /\ t' = t /\ exists n s1, ~ In n (names L) /\ passes n s s1 /\ after_gap s1 r) \/
    (mode = Strict /\ t' = t /\ heads RCB s).
  Proof.
    induction B as [|b B IH]; intros A t s t' r Hb EL HA; cbn [search_members].
    - destruct (search_end mode sn s C0) as [[s1 e1]| |] eqn:E; cbn [bind]; try discriminate. intros H. injection H as <- <- ->. right. rewrite app_nil_r in EL. subst A.
      unfold search_end in E. destruct mode.
      + left. repeat split. destruct (parse_member _ s C0) as [[s2 e2]| |] eqn:Em; cbn [bind] in E; try discriminate. injection E as E. apply space_C0 in E. destruct E as [-> H2].
        destruct (passes_sound _ _ _ Hb Em) as (n & Hn). exists n, s2. split; [|now split]. intros Hin. destruct Hn as (_ & vt & Hn & _). exact (HA n _ Hin Hn).
      + right. repeat split. destruct s as [|c t2]; [discriminate|]. destruct (c =? RCB) eqn:Ec; [|discriminate]. exists t2. f_equal. lia.
    - destruct (memb_des b sn t s false C0) as [[[[t1 u] s1] e1]| |] eqn:E; cbn [bind]; try discriminate.
      destruct (in_L b) as (Bi & Bd & Bp); [rewrite EL; apply in_elt|]. destruct u; cbn [negb].
      + intros H. injection H as <- <- ->. left. exists A, b, B. apply takes_sound in E; auto. destruct E as [_ E]. repeat split; auto. destruct (takes_named _ _ _ _ _ E) as (x & Hx). intros Hin. exact (HA _ _ Hin Hx).
      + intros H. pose proof (search_good mode sn B) as G. assert (HB : Forall (memb_all (fun _ c => dlaw (des c))) B) by (rewrite EL, Forall_app in HD; destruct HD as [_ HD2]; now inversion HD2).
        destruct (dg_C0 _ _ _ _ _ (G HB t1 s1 e1) H) as [-> _]. apply miss_sound in E; auto using C0_ok. destruct E as (_ & -> & -> & _ & Nb).
        apply (IH (A ++ [b])) in H; auto; [now rewrite <- app_assoc|]. intros n x Hin. unfold names in Hin. rewrite map_app, in_app_iff in Hin. cbn in Hin. destruct Hin as [Hin|[<-|[]]]; [now apply HA|apply Nb].
  Qed.

  Lemma search_hit A b B t s t' r : L = A ++ b :: B -> ~ In (memb_name b) (names A) -> takes sn b t s t' r -> search_members mode sn L t s C0 = Ok (t', r, C0).
  Proof.
    intros EL NA Ht. destruct (takes_named _ _ _ _ _ Ht) as (x & Hx). destruct (in_L b) as (Bi & _ & Bp); [rewrite EL; apply in_elt|].
    assert (HA : Forall (fun a => no_if a /\ plain_name (memb_name a)) A).
    { apply Forall_forall. intros a Ha. destruct (in_L a) as (? & _ & ?); [rewrite EL; apply in_or_app; now left|now split]. }
    rewrite EL. clear EL. induction A as [|a A IH]; cbn [app search_members].
    - rewrite (takes_complete b t s t' r false Bi Bp Ht). reflexivity.
    - inversion HA as [|? ? [Ai Ap] HA']; subst. cbn in NA. rewrite (miss_complete a t s (memb_name b) x false C0 Ai Ap (plain_qsafe _ Bp)); [|intros E; apply NA; now left|exact Hx].
      cbn [bind negb]. apply IH; [intros H; apply NA; now right|exact HA'].
  Qed.
  Lemma search_skip n t s r r' : mode = Nonstrict -> ~ In n (names L) -> passes n s r -> after_gap r r' -> search_members mode sn L t s C0 = Ok (t, r', C0).
  Proof.
    intros HM NL Hp Hg. assert (HL : Forall (fun a => no_if a /\ plain_name (memb_name a)) L).
    { apply Forall_forall. intros a Ha. destruct (in_L a Ha) as (? & _ & ?). now split. }
    clear HD HI HP. induction L as [|a A IH]; cbn [search_members].
    - unfold search_end. rewrite HM, (passes_complete sn n s r Hp). cbn [bind]. apply space_exact in Hg. rewrite Hg. reflexivity.
    - inversion HL as [|? ? [Ai Ap] HA']; subst. cbn in NL. destruct Hp as (Hw & vt & Hn & Hv).
      rewrite (miss_complete a t s n _ false C0 Ai Ap (wchars_qsafe _ Hw) (fun E => NL (or_introl (eq_sym E))) Hn). cbn [bind negb]. apply IH; [intros H; apply NL; now right|exact HA'].
  Qed.

  Lemma rest_sound f : forall s e r, bytes s -> rest_loop mode sn f s e = Ok (r, C0) -> e = C0 /\ mode = Nonstrict /\ exists z, r = RCB :: z /\ leftover s z.
  Proof.
    induction f as [|f IH]; intros s e r Hb; cbn [rest_loop]; [discriminate|].
    destruct (parse_member _ s e) as [[s1 e1]| |] eqn:E1; cbn [bind]; try discriminate. pose proof (pmember_pg sn s e) as G. rewrite E1 in G.
    destruct (parse_space s1 e1) as [s2 e2] eqn:E2.
    destruct s2 as [|c t2]; [intros H; injection H as _ H; now apply C0_cerr in H|]. destruct (c =? RCB) eqn:Ec.
    { apply Z.eqb_eq in Ec. subst c. destruct mode; [|intros H; injection H as _ H; now apply C0_cerr in H]. intros H. injection H as <- ->.
      apply space_C0 in E2. destruct E2 as [-> H2]. destruct (pg_C0 _ _ _ _ G eq_refl) as [-> _]. repeat split. exists t2. split; [reflexivity|].
      destruct (passes_sound _ _ _ Hb E1) as (n & Hn). now apply lo_last with n s1. }
    destruct (c =? COMMA) eqn:Ec2; cbn [negb]; [|intros H; injection H as _ H; now apply C0_cerr in H]. apply Z.eqb_eq in Ec2. subst c.
    destruct (parse_space t2 e2) as [s3 e3] eqn:E3. intros H.
    assert (Hb3 : bytes s3). { apply (bytes_suffix _ s); [|exact Hb]. eapply suffix_trans; [exact (proj1 (space_estep _ _ _ _ E3))|]. eapply suffix_trans; [|eapply suffix_trans; [exact (proj1 (space_estep _ _ _ _ E2))|apply G]]. exists [COMMA]. reflexivity. }
    destruct (IH _ _ _ Hb3 H) as (-> & HM & z & -> & Hz). apply space_C0 in E3. destruct E3 as [-> H3]. apply space_C0 in E2. destruct E2 as [-> H2]. destruct (pg_C0 _ _ _ _ G eq_refl) as [-> _].
    destruct (passes_sound _ _ _ Hb E1) as (n & Hn). repeat split; [exact HM|]. exists z. split; [reflexivity|]. now apply lo_more with n s1 t2 s3.
  Qed.
  Lemma rest_complete s z : leftover s z -> mode = Nonstrict -> forall f, (length s < f)%nat -> rest_loop mode sn f s C0 = Ok (RCB :: z, C0).
  Proof.
    induction 1 as [n s s1 r Hp Hg|n s s1 s2 s3 r Hp Hg1 Hg2 Hl IH]; intros HM f Hf; (destruct f as [|f]; [lia|]); cbn [rest_loop];
      rewrite (passes_complete sn n s s1 Hp); cbn [bind]; pose proof (suffix_len _ _ (passes_suffix _ _ _ Hp)) as L1.
    - apply space_exact in Hg. rewrite Hg, Z.eqb_refl, HM. reflexivity.
    - pose proof (after_gap_len _ _ Hg1) as L2. pose proof (after_gap_len _ _ Hg2) as L3. cbn [length] in L2. apply space_exact in Hg1, Hg2. rewrite Hg1. change (COMMA =? RCB) with false.
      change (COMMA =? COMMA) with true. cbn [negb]. rewrite Hg2. apply IH; [exact HM|lia].
  Qed.

  Lemma one_suffix R t s R' t' r : incl R L -> one_member mode L sn R t s R' t' r -> suffix r s /\ incl R' L.
  Proof.
    intros HR H. destruct H as [b R t s t' r H|b R A b' B t s t' r EL N1 N2 H|b R n t s r HM N1 N2 H].
    - split; [apply (takes_suffix b t s t' r); [apply HR; now left|exact H]|]. intros x Hx. apply HR. now right.
    - split; [apply (takes_suffix b' t s t' r); [rewrite EL; apply in_elt|exact H]|exact HR].
    - split; [now apply passes_suffix with n|exact HR].
  Qed.
  Lemma members_sound f : forall R t s e t' r, incl R L -> bytes s -> members_loop mode sn L f R t s e = Ok (t', r, C0) ->
    e = C0 /\ exists z, r = RCB :: z /\ members mode L sn R t s t' z.
  Proof.
    induction f as [|f IH]; intros R t s e t' r HR Hb; cbn [members_loop]; [discriminate|]. destruct R as [|b R].
    - destruct (rest_members mode sn s e) as [[s1 e1]| |] eqn:E; cbn [bind]; try discriminate. intros H. injection H as <- <- ->. unfold rest_members in E.
      destruct (parse_space s e) as [s2 e2] eqn:E2. destruct s2 as [|c t2]; [injection E as _ E; now apply C0_cerr in E|]. destruct (c =? RCB) eqn:Ec.
      + apply Z.eqb_eq in Ec. subst c. injection E as <- ->. apply space_C0 in E2. destruct E2 as [-> H2]. split; [reflexivity|]. exists t2. split; [reflexivity|]. now apply ms_close.
      + apply rest_sound in E; [|exact (bytes_suffix _ _ (proj1 (space_estep _ _ _ _ E2)) Hb)]. destruct E as (-> & HM & z & -> & Hz). apply space_C0 in E2. destruct E2 as [-> H2]. split; [reflexivity|]. exists z. split; [reflexivity|].
        now apply ms_rest with (c :: t2).
    - destruct (in_L b) as (Bi & Bd & Bp); [apply HR; now left|].
      destruct (memb_des b sn t s false e) as [[[[t1 u] s1] e1]| |] eqn:Eb; cbn [bind]; try discriminate.
      pose proof (memb_des_good b sn t s false e Bd) as Gb. rewrite Eb in Gb.
      destruct (if negb u then search_members mode sn L t1 s1 e1 else Ok (t1, s1, e1)) as [[[t2 s2] e2]| |] eqn:Es; cbn [bind]; try discriminate.
      assert (S2 : suffix s2 s1). { destruct u; cbn [negb] in Es; [injection Es as _ <- _; apply suffix_refl|]. pose proof (search_good mode sn L HD t1 s1 e1) as G. rewrite Es in G. apply G. }
      assert (K : e2 = C0 -> e = C0 /\ exists s2', one_member mode L sn (b :: R) t s (if u then R else b :: R) t2 s2' /\ (after_gap s2' s2 \/ s2' = s2)).
      { intros ->. destruct u; cbn [negb] in Es.
        - injection Es as <- <- ->. apply takes_sound in Eb; auto. destruct Eb as [-> Ht]. split; [reflexivity|]. exists s1. split; [now apply om_next|now right].
        - destruct (dg_C0 _ _ _ _ _ (search_good mode sn L HD t1 s1 e1) Es) as [-> _]. destruct (dg_C0 _ _ _ _ _ Gb eq_refl) as [-> _].
          apply miss_sound in Eb; auto using C0_ok. destruct Eb as (_ & -> & -> & Hq & Nb). split; [reflexivity|].
          apply (search_sound L []) in Es; auto. destruct Es as [(A & b' & B & EL & NA & Ht)|[(HM & -> & n & s3 & NL & Hp & Hg)|(_ & _ & Hh)]].
          + exists s2. split; [|now right]. apply om_other with A b' B; auto. intros E. destruct (takes_named _ _ _ _ _ Ht) as (x & Hx). rewrite E in Hx. now apply Nb in Hx.
          + exists s3. split; [|now left]. apply om_none with n; auto. intros ->. destruct Hp as (_ & vt & Hn & _). now apply Nb in Hn.
          + exfalso. destruct Hh as (x & ->), Hq as (y & Hq). discriminate. }
      destruct (parse_space s2 e2) as [s3 e3] eqn:E3. destruct s3 as [|d t3]; [intros H; injection H as _ _ H; now apply C0_cerr in H|].
      assert (S3 : suffix (d :: t3) s). { eapply suffix_trans; [exact (proj1 (space_estep _ _ _ _ E3))|]. eapply suffix_trans; [exact S2|apply Gb]. }
      assert (K3 : e3 = C0 -> e = C0 /\ exists s2', one_member mode L sn (b :: R) t s (if u then R else b :: R) t2 s2' /\ after_gap s2' (d :: t3)).
      { intros ->. apply space_C0 in E3. destruct E3 as [E3 Hg]. destruct (K E3) as [-> (s2' & Ho & [H2| -> ])]; (split; [reflexivity|]).
        - exists s2'. split; [exact Ho|]. pose proof (after_gap_refl _ _ H2) as H3. apply space_exact in H3, Hg. rewrite H3 in Hg. injection Hg as ->. exact H2.
        - now exists s2. }
      destruct (d =? COMMA) eqn:Ed.
      + apply Z.eqb_eq in Ed. subst d. destruct (parse_space t3 e3) as [s4 e4] eqn:E4.
        destruct (members_loop mode sn L f (if u then R else b :: R) t2 s4 e4) as [[[t5 s5] e5]| |] eqn:E5; cbn [bind]; try discriminate.
        unfold at_close. destruct s5 as [|c5 t5']; [intros H; injection H as _ _ H; now apply C0_cerr in H|]. destruct (c5 =? RCB) eqn:Ec5; cbn [negb]; [|intros H; injection H as _ _ H; now apply C0_cerr in H].
        intros H. injection H as <- <- ->.
        apply IH in E5; [|destruct u; [intros x Hx; apply HR; now right|exact HR]|exact (bytes_suffix _ _ (suffix_trans _ _ _ (proj1 (space_estep _ _ _ _ E4)) (suffix_tl _ _ _ S3)) Hb)].
        destruct E5 as (-> & z & Ez & Hm). apply space_C0 in E4. destruct E4 as [-> H4]. destruct (K3 eq_refl) as (-> & s2' & Ho & Hg). split; [reflexivity|]. exists z. split; [exact Ez|].
        now apply ms_more with (if u then R else b :: R) t2 s2' t3 s4.
      + unfold at_close. destruct (d =? RCB) eqn:Ec; cbn [negb]; [|intros H; injection H as _ _ H; now apply C0_cerr in H]. apply Z.eqb_eq in Ec. subst d. intros H. injection H as <- <- ->.
        destruct (K3 eq_refl) as (-> & s2' & Ho & Hg). split; [reflexivity|]. exists t3. split; [reflexivity|]. now apply ms_last with (if u then R else b :: R) s2'.
  Qed.
  Lemma one_complete b R t s R' t' r : incl (b :: R) L -> one_member mode L sn (b :: R) t s R' t' r ->
    exists t1 u s1 e1, memb_des b sn t s false C0 = Ok (t1, u, s1, e1) /\ R' = (if u then R else b :: R) /\
    (u = true /\ t1 = t' /\ s1 = r /\ e1 = C0 \/ u = false /\ forall r', after_gap r r' -> exists s2, search_members mode sn L t1 s1 e1 = Ok (t', s2, C0) /\ after_gap s2 r').
  Proof.
    intros HR H. destruct (in_L b) as (Bi & Bd & Bp); [apply HR; now left|]. remember (b :: R) as R0 eqn:ER.
    destruct H as [b0 R0 t s t' r Ht|b0 R0 A b' B t s t' r EL N1 N2 Ht|b0 R0 n t s r HM N1 N2 Hp]; injection ER as -> ->.
    - exists t', true, r, C0. split; [now apply takes_complete|]. split; [reflexivity|]. now left.
    - destruct (takes_named _ _ _ _ _ Ht) as (x & Hx). destruct (in_L b') as (Bi' & _ & Bp'); [rewrite EL; apply in_elt|].
      exists t, false, s, C0. split; [now apply miss_complete with (memb_name b') x; auto using plain_qsafe|]. split; [reflexivity|]. right. split; [reflexivity|]. intros r' Hg.
      exists r. split; [now apply search_hit with A b' B|exact Hg].
    - exists t, false, s, C0. destruct Hp as (Hw & vt & Hn & Hv) eqn:E. clear E. split; [now apply miss_complete with n (vt ++ r); auto using wchars_qsafe|]. split; [reflexivity|]. right. split; [reflexivity|]. intros r' Hg.
      exists r'. split; [|now apply after_gap_refl with r]. apply search_skip with n r; auto.
  Qed.
  Lemma members_complete R t s t' z : members mode L sn R t s t' z -> incl R L -> forall f, (length s < f)%nat -> members_loop mode sn L f R t s C0 = Ok (t', RCB :: z, C0).
  Proof.
    induction 1 as [t s r Hg|t s s1 r HM Hg Hl|b R R' t s t' s1 r Ho Hg|b R R' t s t' s1 s2 s3 t'' r Ho Hg1 Hg2 Hm IH]; intros HR f Hf; (destruct f as [|f]; [lia|]); cbn [members_loop].
    - unfold rest_members. apply space_exact in Hg. rewrite Hg, Z.eqb_refl. reflexivity.
    - unfold rest_members. apply space_exact in Hg. rewrite Hg. destruct s1 as [|c t1]; [exfalso; inversion Hl as [n ? ? ? Hp _|n ? ? ? ? ? Hp _ _ _]; subst; destruct (passes_qt _ _ _ Hp) as (? & ?); discriminate|].
      assert (c =? RCB = false) as ->. { inversion Hl as [n ? ? ? Hp _|n ? ? ? ? ? Hp _ _ _]; subst; destruct (passes_qt _ _ _ Hp) as (y & Hy); injection Hy as -> _; reflexivity. }
      rewrite (rest_complete _ _ Hl HM) by lia. reflexivity.
    - destruct (one_complete _ _ _ _ _ _ _ HR Ho) as (t1 & u & s1' & e1 & -> & -> & [(-> & -> & -> & ->)|(-> & K)]); cbn [bind negb].
      + apply space_exact in Hg. rewrite Hg. change (RCB =? COMMA) with false. unfold at_close. rewrite Z.eqb_refl. reflexivity.
      + destruct (K _ Hg) as (s2 & -> & Hg2). cbn [bind]. apply space_exact in Hg2. rewrite Hg2. change (RCB =? COMMA) with false. unfold at_close. rewrite Z.eqb_refl. reflexivity.
    - destruct (one_suffix _ _ _ _ _ _ HR Ho) as [Sf HR']. apply suffix_len in Sf. pose proof (after_gap_len _ _ Hg1) as L2. pose proof (after_gap_len _ _ Hg2) as L3. cbn [length] in L2.
      specialize (IH HR' f ltac:(lia)).
      destruct (one_complete _ _ _ _ _ _ _ HR Ho) as (t1 & u & s1' & e1 & -> & -> & [(-> & -> & -> & ->)|(-> & K)]); cbn [bind negb].
      + apply space_exact in Hg1, Hg2. rewrite Hg1. change (COMMA =? COMMA) with true. cbv iota. rewrite Hg2, IH. cbn [bind]. unfold at_close. rewrite Z.eqb_refl. reflexivity.
      + destruct (K _ Hg1) as (s2' & -> & Hg3). cbn [bind]. apply space_exact in Hg3, Hg2. rewrite Hg3. change (COMMA =? COMMA) with true. cbv iota. rewrite Hg2, IH. cbn [bind]. unfold at_close. rewrite Z.eqb_refl. reflexivity.
  Qed.
  Lemma object_exact t0 old s v r : bytes s -> reads (object_codec mode L t0) sn old s v r <->
    s = text "null" ++ r /\ v = t0 \/ (exists (t : buf), s = LCB :: t /\ after_gap t (RCB :: r) /\ v = old) \/
    (exists (t : buf), s = LBR :: t /\ after_gap t (RBR :: r) /\ v = old) \/ exists (t s1 : buf), s = LCB :: t /\ after_gap t s1 /\ members mode L sn L old s1 v r.
  Proof.
    intros Hb. unfold reads. cbn [des object_codec]. unfold object_des. fold C0. split.
    - destruct (is_null s) eqn:En.
      { destruct (parse_null s C0) as [r' e'] eqn:E1. intros E. injection E as <- <- ->. left. split; [now apply null_exact|reflexivity]. }
      destruct s as [|c t]; [discriminate|]. intros E. right. destruct (c =? LCB) eqn:Ec; cbn [negb] in E.
      + apply Z.eqb_eq in Ec. subst c. destruct (parse_space t C0) as [s1 e1] eqn:E1. destruct s1 as [|d t1]; [injection E as _ _ E; now apply C0_cerr in E|]. destruct (d =? RCB) eqn:Ed; cbn [negb] in E.
        * apply Z.eqb_eq in Ed. subst d. injection E as -> -> ->. left. exists t. split; [reflexivity|]. split; [now apply space_exact|reflexivity].
        * right. right. destruct (members_loop _ _ _ _ _ _ _ _) as [[[v2 s2] e2]| |] eqn:E2; cbn [bind] in E; try discriminate.
          assert (K : e2 = C0 -> e1 = C0 /\ exists z, s2 = RCB :: z /\ members mode L sn L old (d :: t1) v2 z).
          { intros ->. apply members_sound in E2; [exact E2|apply incl_refl|]. inversion Hb; subst. exact (bytes_suffix _ _ (proj1 (space_estep _ _ _ _ E1)) H2). }
          destruct s2 as [|c2 t2]; [injection E as _ _ E; now apply C0_cerr in E|]. destruct (parse_space (c2 :: t2) e2) as [s3 e3] eqn:E3.
          destruct s3 as [|f t3]; [injection E as _ _ E; now apply C0_cerr in E|]. destruct (f =? RCB) eqn:Ef; cbn [negb] in E; [|injection E as _ _ E; now apply C0_cerr in E].
          injection E as -> -> ->. apply space_C0 in E3. destruct E3 as [-> H3]. destruct (K eq_refl) as (-> & z & Ez & Hm). rewrite Ez in H3.
          assert (after_gap (RCB :: z) (RCB :: z)) as Hz. { exists []. split; [reflexivity|]. split; [constructor|]. unfold s_ws. repeat split; try lia. }
          apply space_exact in Hz, H3. rewrite Hz in H3. injection H3 as <- <-. exists t, (d :: t1). repeat split; auto. now apply space_exact.
      + destruct (c =? LBR) eqn:Ec2; [|discriminate]. apply Z.eqb_eq in Ec2. subst c. destruct (parse_space t C0) as [s1 e1] eqn:E1.
        destruct (deref sn s1) as [d| |] eqn:Ed; cbn [bind] in E; try discriminate. destruct (d =? RBR) eqn:Edb; cbn [negb] in E; [|injection E as _ _ E; now apply C0_cerr in E].
        destruct s1 as [|c1 t1]; [discriminate|]. injection Ed as ->. cbn [step bind] in E. injection E as -> -> ->. right. left. exists t. split; [reflexivity|]. split; [|reflexivity].
        apply Z.eqb_eq in Edb. subst d. now apply space_exact.
    - intros [[-> ->]|[(t & -> & Hg & ->)|[(t & -> & Hg & ->)|(t & s1 & -> & Hg & Hm)]]].
      + reflexivity.
      + apply space_exact in Hg. cbn [is_null starts]. change (LCB =? 110) with false. cbv iota. change (LCB =? LCB) with true. cbn [negb]. rewrite Hg, Z.eqb_refl. reflexivity.
      + apply space_exact in Hg. cbn [is_null starts]. change (LBR =? 110) with false. cbv iota. change (LBR =? LCB) with false. change (LBR =? LBR) with true. cbn [negb]. rewrite Hg. cbn [deref bind]. rewrite Z.eqb_refl. reflexivity.
      + cbn [is_null starts]. change (LCB =? 110) with false. cbv iota. change (LCB =? LCB) with true. cbn [negb]. pose proof (after_gap_refl _ _ Hg) as Hr. apply space_exact in Hg. rewrite Hg.
        destruct s1 as [|d t1].
        { exfalso. clear - Hm. inversion Hm as [? ? ? Hg|? ? ? ? ? Hg Hl|? ? ? ? ? ? ? ? Ho _|? ? ? ? ? ? ? ? ? ? ? Ho _ _ _]; subst.
          - apply after_gap_nil in Hg. discriminate.
          - apply after_gap_nil in Hg. subst. inversion Hl as [n ? ? ? Hp _|n ? ? ? ? ? Hp _ _ _]; subst; destruct (passes_qt _ _ _ Hp) as (? & ?); discriminate.
          - inversion Ho as [? ? ? ? ? ? Ht|? ? ? ? ? ? ? ? ? _ _ _ Ht|? ? ? ? ? ? _ _ _ Hp]; subst; [destruct (takes_named _ _ _ _ _ Ht) as (x & ? & ? & ? & _)..|destruct (passes_qt _ _ _ Hp) as (? & ?)]; discriminate.
          - inversion Ho as [? ? ? ? ? ? Ht|? ? ? ? ? ? ? ? ? _ _ _ Ht|? ? ? ? ? ? _ _ _ Hp]; subst; [destruct (takes_named _ _ _ _ _ Ht) as (x & ? & ? & ? & _)..|destruct (passes_qt _ _ _ Hp) as (? & ?)]; discriminate. }
        destruct (d =? RCB) eqn:Ed; cbn [negb].
        * apply Z.eqb_eq in Ed. subst d. clear - Hm Hr. inversion Hm as [? ? ? Hg|? ? ? ? ? Hg Hl|? ? ? ? ? ? ? ? Ho _|? ? ? ? ? ? ? ? ? ? ? Ho _ _ _]; subst.
          -- apply space_exact in Hg, Hr. rewrite Hr in Hg. injection Hg as <-. reflexivity.
          -- exfalso. apply space_exact in Hg, Hr. rewrite Hr in Hg. injection Hg as <-. inversion Hl as [n ? ? ? Hp _|n ? ? ? ? ? Hp _ _ _]; subst; destruct (passes_qt _ _ _ Hp) as (? & ?); discriminate.
          -- exfalso. inversion Ho as [? ? ? ? ? ? Ht|? ? ? ? ? ? ? ? ? _ _ _ Ht|? ? ? ? ? ? _ _ _ Hp]; subst; [destruct (takes_named _ _ _ _ _ Ht) as (x & ? & ? & ? & _)..|destruct (passes_qt _ _ _ Hp) as (? & ?)]; discriminate.
          -- exfalso. inversion Ho as [? ? ? ? ? ? Ht|? ? ? ? ? ? ? ? ? _ _ _ Ht|? ? ? ? ? ? _ _ _ Hp]; subst; [destruct (takes_named _ _ _ _ _ Ht) as (x & ? & ? & ? & _)..|destruct (passes_qt _ _ _ Hp) as (? & ?)]; discriminate.
        * rewrite (members_complete _ _ _ _ _ Hm (incl_refl _)) by lia. cbn [bind]. reflexivity.
  Qed.
End Obj.

(** ---- arrays as structs ---- *)
Section OArr.
  Context {T : Type} (sn : option Z).
  Implicit Types (b : memb T) (t : T).
  Lemma amemb_exact b t s e t' r : no_if b -> memb_all (fun _ c => dlaw (des c)) b -> amemb_des b sn t s e = Ok (t', r, C0) <->
    e = C0 /\ exists x, reads (m_codec (memb_mem b)) sn (memb_old b t) s x r /\ t' = m_set (memb_mem b) t x.
  Proof.
    intros Hi Hd. destruct b as [m|m i|]; [| |contradiction]; cbn [amemb_des memb_all memb_mem memb_old] in *; unfold amem_des, reads; fold C0; split.
    - destruct (des _ _ _ _ _) as [[[x r1] e2]| |] eqn:E2; cbn [bind]; try discriminate; intros H; injection H as <- <- ->. pose proof (dl_C0 _ _ _ _ _ _ _ _ Hd E2) as ->. split; [reflexivity|]. exists x. now split.
    - intros (-> & x & -> & ->). reflexivity.
    - destruct (des _ _ _ _ _) as [[[x r1] e2]| |] eqn:E2; cbn [bind]; try discriminate; intros H; injection H as <- <- ->. pose proof (dl_C0 _ _ _ _ _ _ _ _ Hd E2) as ->. split; [reflexivity|]. exists x. now split.
    - intros (-> & x & -> & ->). reflexivity.
  Qed.
  Lemma places_sound L : Forall (memb_all (fun _ c => dlaw (des c))) L -> Forall no_if L -> forall t s e t' z, amembers_des sn L t s e = Ok (t', RBR :: z, C0) -> e = C0 /\ places sn L t s t' z.
  Proof.
    induction L as [|b L IH]; intros HD HI t s e t' z; cbn [amembers_des].
    - intros H. injection H as -> -> ->. split; [reflexivity|constructor].
    - inversion HD as [|? ? Bd HD']; inversion HI as [|? ? Bi HI']; subst.
      destruct (amemb_des b sn t s e) as [[[t1 s1] e1]| |] eqn:Eb; cbn [bind]; try discriminate. destruct (parse_space s1 e1) as [s2 e2] eqn:E2.
      destruct s2 as [|d t2]; [discriminate|]. destruct (d =? COMMA) eqn:Ed.
      + apply Z.eqb_eq in Ed. subst d. destruct (parse_space t2 e2) as [s4 e4] eqn:E4. destruct (amembers_des sn L t1 s4 e4) as [[[t3 s3] e3]| |] eqn:E5; cbn [bind]; try discriminate.
        destruct s3 as [|f s3]; [discriminate|]. destruct (f =? RBR) eqn:Ef; cbn [negb]; [|discriminate]. intros H. injection H as -> -> -> ->. apply IH in E5; auto. destruct E5 as [-> Hp].
        apply space_C0 in E4. destruct E4 as [-> H4]. apply space_C0 in E2. destruct E2 as [-> H2]. apply amemb_exact in Eb; auto. destruct Eb as (-> & x & Hx & ->). split; [reflexivity|].
        now apply pl_more with x s1 t2 s4.
      + cbn [bind]. destruct (d =? RBR) eqn:Ef; cbn [negb]; [|discriminate]. intros H. injection H as -> -> -> ->. apply space_C0 in E2. destruct E2 as [-> H2]. apply amemb_exact in Eb; auto. destruct Eb as (-> & x & Hx & ->). split; [reflexivity|].
        now apply pl_last with s1.
  Qed.
  Lemma places_complete L t s t' z : places sn L t s t' z -> Forall (memb_all (fun _ c => dlaw (des c))) L -> Forall no_if L -> amembers_des sn L t s C0 = Ok (t', RBR :: z, C0).
  Proof.
    induction 1 as [t r|b L t s x s1 r Hx Hg|b L t s x s1 s2 s3 t' r Hx Hg1 Hg2 Hp IH]; intros HD HI; cbn [amembers_des]; [reflexivity| |];
      inversion HD as [|? ? Bd HD']; inversion HI as [|? ? Bi HI']; subst; rewrite (proj2 (amemb_exact b t s C0 (m_set (memb_mem b) t x) s1 Bi Bd)) by (split; [reflexivity|now exists x]); cbn [bind].
    - apply space_exact in Hg. rewrite Hg. change (RBR =? COMMA) with false. cbn [bind]. rewrite Z.eqb_refl. reflexivity.
    - apply space_exact in Hg1, Hg2. rewrite Hg1. change (COMMA =? COMMA) with true. cbv iota. rewrite Hg2, IH by assumption. cbn [bind]. rewrite Z.eqb_refl. reflexivity.
  Qed.
  Lemma amembers_close L : forall t s e t' r x, amembers_des sn L t s e = Ok (t', r, x) -> L = [] /\ r = s \/ r = [] /\ (exists c m k e0, c <> ValidJSON /\ x = cerr c m k e0) \/ heads RBR r.
  Proof.
    destruct L as [|b L]; intros t s e t' r x; cbn [amembers_des]; [intros H; injection H as <- <- <-; now left|]. intros H. right.
    destruct (amemb_des b sn t s e) as [[[t1 s1] e1]| |]; cbn [bind] in H; try discriminate. destruct (parse_space s1 e1) as [s2 e2].
    destruct s2 as [|d t2]; [injection H as <- <- <-; left; split; [reflexivity|]; eexists _, _, _, _; split; [|reflexivity]; discriminate|].
    destruct (if d =? COMMA then _ else _) as [[[t3 s3] e3]| |]; cbn [bind] in H; try discriminate. destruct s3 as [|f s3]; [injection H as <- <- <-; left; split; [reflexivity|]; eexists _, _, _, _; split; [|reflexivity]; discriminate|].
    destruct (f =? RBR) eqn:Ef; cbn [negb] in H; injection H as <- <- <-; [right; exists s3; f_equal; lia|left; split; [reflexivity|]; eexists _, _, _, _; split; [|reflexivity]; discriminate].
  Qed.
  Lemma oarray_exact L t0 old s v r : Forall (memb_all (fun _ c => dlaw (des c))) L -> Forall no_if L -> reads (oarray_codec L t0) sn old s v r <->
    s = text "null" ++ r /\ v = t0 \/ (exists (t : buf), s = LBR :: t /\ after_gap t (RBR :: r) /\ v = old) \/
    exists (t s1 : buf), s = LBR :: t /\ after_gap t s1 /\ ~ heads RBR s1 /\ s1 <> [] /\ places sn L old s1 v r.
  Proof.
    intros HD HI. unfold reads. cbn [des oarray_codec]. unfold oarray_des. fold C0. split.
    - destruct (is_null s) eqn:En.
      { destruct (parse_null s C0) as [r' e'] eqn:E1. intros E. injection E as <- <- ->. left. split; [now apply null_exact|reflexivity]. }
      destruct s as [|c t]; [discriminate|]. intros E. right. destruct (c =? LBR) eqn:Ec; cbn [negb] in E; [|discriminate].
      apply Z.eqb_eq in Ec. subst c. destruct (parse_space t C0) as [s1 e1] eqn:E1. destruct s1 as [|d t1]; [injection E as _ _ E; now apply C0_cerr in E|]. destruct (d =? RBR) eqn:Ed; cbn [negb] in E.
      + apply Z.eqb_eq in Ed. subst d. injection E as -> -> ->. left. exists t. split; [reflexivity|]. split; [now apply space_exact|reflexivity].
      + right. destruct (amembers_des _ _ _ _ _) as [[[v2 s2] e2]| |] eqn:E2; cbn [bind] in E; try discriminate.
        destruct s2 as [|c2 t2]; [injection E as _ _ E; now apply C0_cerr in E|]. destruct (parse_space (c2 :: t2) e2) as [s3 e3] eqn:E3.
        destruct s3 as [|f t3]; [injection E as _ _ E; now apply C0_cerr in E|]. destruct (f =? RBR) eqn:Ef; cbn [negb] in E; [|injection E as _ _ E; now apply C0_cerr in E].
        apply Z.eqb_eq in Ef. subst f. injection E as -> -> ->. apply space_C0 in E3. destruct E3 as [-> H3].
        destruct (amembers_close _ _ _ _ _ _ _ E2) as [[-> Es]|[[? _]|(z & Ez)]]; [|discriminate|].
        * exfalso. cbn [amembers_des] in E2. injection E2 as -> <- <- ->. apply space_exact in E1. apply after_gap_refl in E1. apply space_exact in E1, H3. rewrite E1 in H3. injection H3 as -> ->. now rewrite Z.eqb_refl in Ed.
        * rewrite Ez in *. assert (after_gap (RBR :: z) (RBR :: z)) as Hz. { exists []. split; [reflexivity|]. split; [constructor|]. unfold s_ws. repeat split; try lia. }
          apply space_exact in Hz, H3. rewrite Hz in H3. injection H3 as <-. apply places_sound in E2; auto. destruct E2 as [-> Hp]. exists t, (d :: t1). repeat split; auto; [now apply space_exact| |discriminate].
          intros (y & Ey). injection Ey as -> _. now rewrite Z.eqb_refl in Ed.
    - intros [[-> ->]|[(t & -> & Hg & ->)|(t & s1 & -> & Hg & N & Nn & Hm)]].
      + reflexivity.
      + apply space_exact in Hg. cbn [is_null starts]. change (LBR =? 110) with false. cbv iota. change (LBR =? LBR) with true. cbn [negb]. rewrite Hg, Z.eqb_refl. reflexivity.
      + cbn [is_null starts]. change (LBR =? 110) with false. cbv iota. change (LBR =? LBR) with true. cbn [negb]. apply space_exact in Hg. rewrite Hg.
        destruct s1 as [|d t1]; [congruence|]. destruct (d =? RBR) eqn:Ed; cbn [negb]; [exfalso; apply N; exists t1; f_equal; lia|].
        rewrite (places_complete _ _ _ _ _ Hm HD HI). cbn [bind]. reflexivity.
  Qed.
End OArr.
