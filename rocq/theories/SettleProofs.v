(** Proofs about the values that come out of a successful reading. *)
From Verif Require Import Base Parser SpecJson SpecNum SpecString SpecSeq ParserFacts Grammar1 Grammar2 Out StringS Number Array Object ObjectArray SpecObject Enum SpecEnum Wrap TimeSize Float CodecLaws
  NumberProofs StringProofs ArrayProofs ObjectProofs ObjectArrayProofs EnumProofs WrapProofs SpecExact ExactProofs ObjExactProofs WrapExactProofs Desc DescProofs SpecType TypeProofs SpecSettle.
Import ListNotations.

Lemma tdesc_desc A c P : tdesc A c P -> desc A c.
Proof.
  induction 1; try assumption; try (apply bt_base; constructor; fail).
  - now apply bt_vector. - now apply bt_set. - now apply bt_multiset. - now apply bt_field. - now apply bt_dict. - now apply bt_map. - now apply bt_multimap.
  - now apply bt_std_array. - now apply bt_c_array. - now apply bt_object. - now apply bt_object_array. - now apply bt_member_value. - now apply bt_quoted. - now apply bt_pointer.
  - now apply bt_unordered_set. - now apply bt_unordered_map.
Qed.

(** ---- strings ---- *)
Lemma mild_r a b : mild (a ++ b) -> mild b.
Proof. intros [H1 H2]. split; [now apply Forall_app in H1|]. intros u x y w ->. apply (H2 (a ++ u) x y w). now rewrite <- app_assoc. Qed.
Lemma calm_ascii c : 32 <= c < 248 -> calm c. Proof. now left. Qed.
Lemma esc_calm c t : esc_mean c t -> calm t.
Proof. intros H. unfold calm, short_ctl. destruct H; lia. Qed.
Lemma encode_calm n : 0 <= n < 65536 -> 32 <= n \/ short_ctl n -> Forall calm (utf8_encode n).
Proof.
  intros H K. unfold utf8_encode, calm. destruct (Z.ltb_spec n 128).
  - apply Forall_cons; [|apply Forall_nil]. destruct K; [left; lia|now right; right].
  - destruct (Z.ltb_spec n 2048); [|destruct (Z.ltb_spec n 65536); [|lia]];
    repeat (apply Forall_cons; [left; pose proof (Z.mod_pos_bound n 64); pose proof (Z.mod_pos_bound (n / 64) 64);
      pose proof (Z.div_pos n 64); pose proof (Z.div_pos n 4096); pose proof (Z.div_lt_upper_bound n 64 32); pose proof (Z.div_lt_upper_bound n 4096 16); lia|]); apply Forall_nil.
Qed.
Lemma hex4_range a b c d : s_hex a -> s_hex b -> s_hex c -> s_hex d -> 0 <= hex4 a b c d < 65536.
Proof.
  assert (G : forall x, s_hex x -> 0 <= hexv x <= 15).
  { intros x H. unfold s_hex in H. unfold hexv. repeat match goal with |- context [if ?b then _ else _] => destruct b eqn:? end; lia. }
  intros A B C D. apply G in A, B, C, D. unfold hex4. lia.
Qed.
Lemma hex_calm x : s_hex x -> calm x. Proof. unfold s_hex. intros H. left. lia. Qed.
Lemma kept_cases v : 0 <= v -> ~ kept v -> 32 <= v \/ short_ctl v.
Proof. unfold kept. intros H0 H. destruct (Z.le_gt_cases 32 v); [now left|]. right. unfold short_ctl in *. lia. Qed.
Lemma chunk_calm c w rest : chunk c w -> mild (c ++ rest) -> Forall calm w.
Proof.
  intros H [M1 M2]. apply Forall_app in M1. destruct M1 as [M1 _]. destruct H as [c H1 H2 H3|c k l H1 H2 H3|c t H|a b c d A B C D N|a b c d A B C D K|a b A B]; try exact M1.
  - apply Forall_cons; [now apply esc_calm with c|apply Forall_nil].
  - pose proof (hex4_range a b c d A B C D). apply encode_calm; [assumption|]. apply kept_cases; [lia|exact N].
  - apply Forall_cons; [|apply Forall_nil]. now apply (M2 [] a b rest).
Qed.
Lemma literal_calm n l v : literal n l v -> forall q, mild (l ++ q) -> Forall calm v.
Proof.
  induction 1 as [n|n c w l v H1 H2 H3 IH|n c k l H1 H2 H3 H4|n a b c d A B C D K Hn]; intros q M.
  - apply Forall_nil.
  - rewrite <- app_assoc in M. apply Forall_app. split; [now apply chunk_calm with c (l ++ q)|]. apply (IH q). now apply mild_r in M.
  - destruct M as [M _]. now apply Forall_app in M.
  - apply Forall_forall. intros x Hx. destruct M as [M _]. apply Forall_app in M. destruct M as [M _]. rewrite Forall_forall in M. apply M. revert Hx; generalize (Z.to_nat n); intros k Hx; rewrite <- (firstn_skipn k [BSL; 117; a; b; c; d]); apply in_or_app; now left.
Qed.
Lemma literal_dist n l v : literal n l v -> 0 <= n -> dist v <= n.
Proof.
  induction 1 as [n|n c w l v H1 H2 H3 IH|n c k l H1 H2 H3 H4|n a b c d A B C D K Hn]; intros H0.
  - exact H0.
  - rewrite dist_app. assert (0 <= n - dist w) by lia. specialize (IH H). lia.
  - lia.
  - unfold dist. rewrite firstn_length. lia.
Qed.

(** ---- combinators ---- *)
Definition closed (T : buf -> Prop) : Prop := forall p s, T (p ++ s) -> T s.
Definition holds {A} (T : buf -> Prop) (c : codec A) (O G : A -> Prop) : Prop :=
  dlaw (des c) /\ forall sn old s v r, bytes s -> T s -> O old -> reads c sn old s v r -> G v.
Section T.
  Variable T : buf -> Prop.
  Hypothesis HT : closed T.
  Definition fit (s : buf) : Prop := bytes s /\ T s.
  Lemma fit_suffix s r : suffix r s -> fit s -> fit r.
  Proof. intros (p & ->) [H1 H2]. split; [now apply Forall_app in H1|now apply HT in H2]. Qed.
  Lemma fit_gap s r : after_gap s r -> fit s -> fit r.
  Proof. intros H. apply fit_suffix. now apply after_gap_suffix. Qed.
  Lemma fit_tl c s : fit (c :: s) -> fit s. Proof. apply fit_suffix. now exists [c]. Qed.
  Lemma elements_hold {A} (item : buf -> A -> buf -> Prop) (G : A -> Prop) R s xs r :
    (forall s x r, item s x r -> suffix r s) -> (forall s x r, fit s -> item s x r -> G x) -> elements item R s xs r -> fit s -> Forall G xs.
  Proof.
    intros HS HI H. induction H as [s r H|s s1 v s2 r H1 N H2 H3|s s1 v s2 s3 l r H1 N H2 H3 _ IH]; intros Hs.
    - constructor.
    - constructor; [|constructor]. apply (HI s1 v s2); [now apply (fit_gap s)|exact H2].
    - pose proof (fit_gap _ _ H1 Hs) as F1. constructor; [now apply (HI s1 v s2)|]. apply IH. apply (fit_tl COMMA). apply (fit_gap s2); [exact H3|]. now apply (fit_suffix s1); [apply (HS s1 v)|].
  Qed.
  Lemma slots_hold {A} (item : A -> buf -> A -> buf -> Prop) (G : A -> Prop) R old s xs r :
    (forall o s x r, item o s x r -> suffix r s) -> (forall o s x r, G o -> fit s -> item o s x r -> G x) -> slots item R old s xs r -> Forall G old -> fit s -> Forall G xs.
  Proof.
    intros HS HI H. induction H as [r|x o s r H|x o s s1 v s2 r H1 N H2 H3|x o s s1 v s2 s3 l r H1 N H2 H3 _ IH]; intros Ho Hs.
    - constructor.
    - exact Ho.
    - inversion Ho; subst. constructor; [|assumption]. apply (HI x s1 v s2); [assumption|now apply (fit_gap s)|exact H2].
    - inversion Ho; subst. pose proof (fit_gap _ _ H1 Hs) as F1. constructor; [now apply (HI x s1 v s2)|]. apply IH; [assumption|]. apply (fit_tl COMMA). apply (fit_gap s2); [exact H3|]. now apply (fit_suffix s1); [apply (HS x s1 v)|].
  Qed.
  Lemma reads_suf {A} (c : codec A) sn old s v r : dlaw (des c) -> reads c sn old s v r -> suffix r s.
  Proof. intros HD H. exact (dl_suffix _ _ _ _ _ _ _ _ _ HD H). Qed.
  Lemma fold_holds {A S} (ins : S -> A -> S) (J : S -> Prop) (G : A -> Prop) xs : (forall st x, J st -> G x -> J (ins st x)) -> Forall G xs -> forall st, J st -> J (fold_left ins xs st).
  Proof. intros HI H. induction H as [|x xs Hx _ IH]; intros st Hst; [exact Hst|]. cbn [fold_left]. apply IH. now apply HI. Qed.
  Lemma seq_holds {A C S} (k : container A C S) (J : S -> Prop) (Q : C -> Prop) l r0 (c : codec A) d0 O G : brackets l r0 -> holds T c O G -> O d0 ->
    J (c_new k) -> (forall st x, J st -> G x -> J (c_ins k st x)) -> (forall st, J st -> Q (c_get k st)) -> holds T (seq_codec k l r0 c d0) (fun _ => True) Q.
  Proof.
    intros HB [HD HR] H0 J0 J1 J2. split; [now apply seq_dlaw|]. intros sn old s v r Hb Ht _ H. apply seq_exact in H; [|assumption..]. destruct H as [[_ ->]|(t & xs & -> & HE & ->)]; apply J2; [exact J0|].
    apply (fold_holds _ J G); [exact J1| |exact J0]. apply (elements_hold (fun s x r => reads c sn d0 s x r) G r0 t xs r); [|..|exact HE|].
    - intros s x r' K. now apply reads_suf in K.
    - intros s x r' [F1 F2] K. now apply (HR sn d0 s x r').
    - apply (fit_tl l). now split.
  Qed.
  Lemma set_holds {A} lt l r0 (c : codec A) d0 O G : swo lt -> brackets l r0 -> holds T c O G -> O d0 -> holds T (seq_codec (set_cont lt) l r0 c d0) (fun _ => True) (fun l => Forall G l /\ sorted_lt lt l).
  Proof.
    intros W HB Hc H0. apply (seq_holds (set_cont lt) (fun l => Forall G l /\ slt lt l)) with O G; cbn; try assumption.
    - split; constructor.
    - intros xs x [Hl1 Hl2] Hx. split; [|now apply set_insert_slt]. apply Forall_forall. intros y Hy. rewrite Forall_forall in Hl1. destruct (set_insert_in lt x xs y Hy) as [->|]; auto.
    - intros xs [Hl1 Hl2]. split; [exact Hl1|]. now apply slt_sorted.
  Qed.
  Lemma multi_holds {A} lt l r0 (c : codec A) d0 O G : swo lt -> brackets l r0 -> holds T c O G -> O d0 -> holds T (seq_codec (multi_cont lt) l r0 c d0) (fun _ => True) (fun l => Forall G l /\ sorted_le lt l).
  Proof.
    intros W HB Hc H0. apply (seq_holds (multi_cont lt) (fun st => Forall G (fst st) /\ sle lt (fst st))) with O G; cbn; try assumption.
    - split; constructor.
    - intros st x [Hl1 Hl2] Hx. destruct (multi_insert_ok lt W st x Hl2) as [M1 M2]. split; [|exact M1]. eapply Permutation.Permutation_Forall; [exact M2|]. now constructor.
    - intros st [Hl1 Hl2]. split; [exact Hl1|]. now apply sle_sorted.
  Qed.
  Lemma vector_holds {A} l r0 (c : codec A) d0 O G : brackets l r0 -> holds T c O G -> O d0 -> holds T (seq_codec vec_cont l r0 c d0) (fun _ => True) (Forall G).
  Proof.
    intros HB Hc H0. apply (seq_holds vec_cont (Forall G)) with O G; cbn; try assumption; [constructor| |auto]. intros st x H1 H2. apply Forall_app. split; [exact H1|]. now constructor.
  Qed.
  Lemma field_holds {K V} (kc : codec K) (vc : codec V) O G O' G' : holds T kc O G -> holds T vc O' G' ->
    holds T (field_codec kc vc) (fun p => O (fst p) /\ O' (snd p)) (fun p => G (fst p) /\ G' (snd p)).
  Proof.
    intros [D1 R1] [D2 R2]. split; [now apply field_dlaw|]. intros sn [k0 v0] s [k v] r Hb Ht [H1 H2] H. apply field_exact in H; [|assumption..].
    destruct H as (s1 & s2 & s3 & K1 & K2 & K3 & _ & K4). assert (F : fit s) by now split. cbn [fst snd] in *. split; [now apply (R1 sn k0 s k s1)|].
    assert (F3 : fit s3) by (apply (fit_gap s2); [exact K3|]; apply (fit_tl COLON); apply (fit_gap s1); [exact K2|]; apply (fit_suffix s); [now apply reads_suf in K1|exact F]).
    destruct F3. now apply (R2 sn v0 s3 v r).
  Qed.
  Lemma fix_holds {A} fresh ex (c : codec A) N (O G : A -> Prop) : holds T c O G -> match fresh with Some d0 => O d0 | None => True end -> (forall v, G v -> O v) ->
    holds T (vec_codec (mkcodec (seq_ser LBR RBR (ser c)) (fix_des fresh ex LBR RBR c)) N) (fun v => Forall G (vlist v)) (fun v => Forall G (vlist v)).
  Proof.
    intros [HD HR] H0 HG. split; [now apply vec_dlaw, fix_dlaw|]. intros sn old s v r Hb Ht Ho H. unfold reads in H. cbn [des vec_codec] in H.
    destruct (fix_des fresh ex LBR RBR c sn (vlist old) s (Some no_error)) as [[[l r1] e1]| |] eqn:E; cbn [bind] in H; try discriminate. injection H as <- <- ->. apply vfill_all; [exact Ho|].
    apply fix_exact in E; [|exact HD|now left]. destruct E as [[_ E]|(t & -> & E)].
    - revert Ho. induction E as [|x y xs ys (q & K) _ IH]; intros Ho; [constructor|]. inversion Ho; subst. constructor; [|now apply IH]. apply (HR sn x s y q); auto.
    - refine (slots_hold _ G RBR (vlist old) t l _ _ _ E Ho (fit_tl LBR t (conj Hb Ht))).
      + intros o s x q K. destruct fresh; now apply reads_suf in K.
      + intros o s x q Go [F1 F2] K. destruct fresh as [d|]; [now apply (HR sn d s x q)|apply (HR sn o s x q); auto].
  Qed.
  Section Struct.
    Context {S : Type} (sn : option Z) (L0 : list (memb S)) (I : S -> Prop) (om dm : forall m : mem S, m_ty m -> Prop).
    Hypothesis Hm : forall b, In b L0 -> holds T (m_codec (memb_mem b)) (om (memb_mem b)) (dm (memb_mem b)).
    Hypothesis Ho : forall b t, In b L0 -> I t -> om (memb_mem b) (memb_old b t).
    Hypothesis Hs : forall b t x, In b L0 -> I t -> dm (memb_mem b) x -> I (m_set (memb_mem b) t x).
    Lemma named_suffix s n s3 : named s n s3 -> suffix s3 s.
    Proof.
      intros (s1 & s2 & -> & K1 & K2 & _). apply suffix_trans with s2; [now apply after_gap_suffix|]. apply suffix_trans with (COLON :: s2); [now exists [COLON]|].
      apply suffix_trans with s1; [now apply after_gap_suffix|]. exists (QT :: n ++ [QT]). cbn [app]. now rewrite <- app_assoc.
    Qed.
    Lemma takes_holds b t s t' r : In b L0 -> I t -> fit s -> takes sn b t s t' r -> I t' /\ fit r.
    Proof.
      intros Hb Ht Hf (s1 & x & K1 & K2 & ->). apply named_suffix in K1. pose proof (fit_suffix _ _ K1 Hf) as [F1 F2]. destruct (Hm b Hb) as [HD HR]. split.
      - apply Hs; [exact Hb|exact Ht|]. apply (HR sn (memb_old b t) s1 x r); auto.
      - apply (fit_suffix s1); [now apply reads_suf in K2|now split].
    Qed.
    Lemma passes_fit n s r : fit s -> passes n s r -> fit r.
    Proof. intros Hf (_ & vt & K & _). apply named_suffix in K. apply (fit_suffix _ _ K) in Hf. now apply (fit_suffix (vt ++ r)); [exists vt|]. Qed.
    Lemma one_holds mode R t s R' t' r : one_member mode L0 sn R t s R' t' r -> incl R L0 -> I t -> fit s -> I t' /\ fit r /\ incl R' L0.
    Proof.
      intros H HR Ht Hf. destruct H as [b R t s t' r H|b R A b' B t s t' r E _ _ H|b R n t s r _ _ _ H].
      - destruct (takes_holds b t s t' r) as [K1 K2]; auto; [apply HR; now left|]. split; [exact K1|]. split; [exact K2|]. intros y Hy. apply HR. now right.
      - destruct (takes_holds b' t s t' r) as [K1 K2]; auto. rewrite E. apply in_or_app. right. now left.
      - split; [exact Ht|]. split; [now apply passes_fit in H|exact HR].
    Qed.
    Lemma members_hold mode R t s t' r : members mode L0 sn R t s t' r -> incl R L0 -> I t -> fit s -> I t'.
    Proof.
      induction 1 as [t s r H|t s s1 r H H1 H2|b R R' t s t' s1 r H1 H2|b R R' t s t' s1 s2 s3 t'' r H1 H2 H3 _ IH]; intros HR Ht Hf; try exact Ht.
      - now apply (one_holds _ _ _ _ _ _ _ H1).
      - destruct (one_holds _ _ _ _ _ _ _ H1 HR Ht Hf) as (K1 & K2 & K3). apply IH; auto. apply (fit_gap s2); [exact H3|]. apply (fit_tl COMMA). now apply (fit_gap s1).
    Qed.
    Lemma places_hold R t s t' r : places sn R t s t' r -> incl R L0 -> I t -> fit s -> I t'.
    Proof.
      induction 1 as [t r|b L t s x s1 r H1 H2|b L t s x s1 s2 s3 t' r H1 H2 H3 _ IH]; intros HR Ht Hf; [exact Ht|..]; assert (Hb : In b L0) by (apply HR; now left); destruct (Hm b Hb) as [HD HA]; destruct Hf as [F1 F2].
      - apply Hs; auto. apply (HA sn (memb_old b t) s x s1); auto.
      - apply IH; [intros y Hy; apply HR; now right| |].
        + apply Hs; auto. apply (HA sn (memb_old b t) s x s1); auto.
        + apply (fit_gap s2); [exact H3|]. apply (fit_tl COMMA). apply (fit_gap s1); [exact H2|]. apply (fit_suffix s); [now apply reads_suf in H1|now split].
    Qed.
  End Struct.
End T.

Lemma noif_all {S} (P : forall A, codec A -> Prop) (b : memb S) : no_if b -> P _ (m_codec (memb_mem b)) -> memb_all P b.
Proof. destruct b; cbn; try tauto. Qed.
Theorem hdesc_holds T A c O G : hdesc T A c O G -> closed T -> holds T c O G.
Proof.
  induction 1 as [T A c O O' G G' _ IH H1 H2|T A c P H|T H|T N H|T L|T|T|T serq reqq|T A c d0 O G _ IH H0|T A lt c d0 O G W _ IH H0|T A lt c d0 O G W _ IH H0|T K V kc vc d0 O G O' G' _ IH1 _ IH2 H1 H2|T K V lt kc vc d0 O G O' G' W _ IH1 _ IH2 H1 H2|T K V lt kc vc d0 O G O' G' W _ IH1 _ IH2 H1 H2|T A c d0 N O G _ IH H0 HG|T A c N O G _ IH HG|T S mode L t0 I om dm H0 HN HP HM IH Ho Hs|T S L t0 I om dm H0 HN HM IH Ho Hs|T S A get set c O G I _ IH H1 H2|T A c serq reqq O G _ IH|T A c d0 O G _ IH H0|T t Ht|T|T A c O G HD HK]; intros HT.
  - destruct (IH HT) as [HD HR]. split; [exact HD|]. intros sn old s v r Hb Ht Ho H. apply H2. apply (HR sn old s v r); auto.
  - split; [now apply desc_dlaw, tdesc_desc with P|]. intros sn old s v r Hb _ Ho E. unfold reads in E. pose proof (tdesc_typed A c P H sn old s (Some no_error) Ho Hb) as K. rewrite E in K. apply K.
  - split; [exact string_dlaw|]. intros sn old s v r Hb Ht _ E. pose proof (string_typed sn [] s (Some no_error) (Forall_nil _) Hb) as KB. change (des string_codec sn [] s (Some no_error)) with (string_des sn [] s (Some no_error)) in *.
    apply string_exact in E; [|exact Hb]. apply (string_exact sn [] s v r Hb) in E. unfold reads in E. cbn [des string_codec] in E. rewrite E in KB. apply (string_exact sn [] s v r Hb) in E.
    destruct E as [[_ ->]|(l & -> & E)]; [split; [constructor|split; [constructor|now cbn]]|]. split; [|split; [apply KB|now apply literal_dist in E]].
    apply (literal_calm _ _ _ E (QT :: r)). apply H in Ht. now apply (mild_r [QT]).
  - split; [exact (chars_dlaw N)|]. intros sn old s v r Hb Ht _ E.
    assert (KB : bytes v). { pose proof (chars_typed N sn (repeat 0 N) s (Some no_error) (conj (repeat0_bytes N) (repeat_length _ _)) Hb) as K. apply chars_exact in E; [|exact Hb]. apply (chars_exact N sn (repeat 0 N) s v r Hb) in E. unfold reads in E. cbn [des chars_codec] in E. rewrite E in K. apply K. }
    apply chars_exact in E; [|exact Hb]. destruct E as [[_ ->]|(l & w & -> & E & ->)].
    + exists []. split; [cbn; lia|]. split; [constructor|]. split; [constructor|]. cbn. now rewrite Nat.sub_0_r.
    + exists w. split; [apply literal_dist in E; [unfold dist in E; lia|lia]|]. split; [|split; [now apply Forall_app in KB|reflexivity]].
      apply (literal_calm _ _ _ E (QT :: r)). apply H in Ht. now apply (mild_r [QT]).
  - split; [exact (enum_dlaw Strict L)|]. intros sn old s v r _ _ _ E. apply enum_exact in E. destruct E as (g & n & _ & _ & _ & [(a & b & -> & _)|(K & _)]); [|discriminate].
    unfold evals. rewrite map_app. apply in_or_app. right. now left.
  - split; [exact WrapProofs.raw_dlaw|]. intros sn old s v r Hb _ _ E. apply WrapExactProofs.raw_exact in E; [|exact Hb]. apply E.
  - split; [exact WrapProofs.raw_dlaw|]. intros sn old s v r Hb _ _ E. apply WrapExactProofs.raw_exact in E; [|exact Hb]. apply E.
  - split; [exact (rquoted_dlaw reqq)|]. intros sn old s v r Hb _ _ E. apply rquoted_exact in E; [|exact Hb]. destruct reqq; apply E.
  - apply vector_holds with O; auto. now left.
  - apply set_holds with O; auto. now left.
  - apply multi_holds with O; auto. now left.
  - apply (vector_holds T HT LCB RCB (field_codec kc vc) d0 (fun p => O (fst p) /\ O' (snd p))); [now right|now apply field_holds; auto|now split].
  - apply (set_holds T HT (klt lt) LCB RCB (field_codec kc vc) d0 (fun p => O (fst p) /\ O' (snd p))); [now apply klt_swo|now right|now apply field_holds; auto|now split].
  - apply (multi_holds T HT (klt lt) LCB RCB (field_codec kc vc) d0 (fun p => O (fst p) /\ O' (snd p))); [now apply klt_swo|now right|now apply field_holds; auto|now split].
  - apply (fix_holds T HT (Some d0) [] c N O G); auto.
  - apply (fix_holds T HT None [COMMA] c N O G); auto.
  - assert (HA : Forall (memb_all (fun _ c => dlaw (des c))) L).
    { apply Forall_forall. intros b Hb. rewrite Forall_forall in HN. apply noif_all; [now apply HN|]. apply (IH b Hb HT). }
    split; [now apply object_dlaw|]. intros sn old s v r Hb Ht HI E. apply object_exact in E; [|assumption..].
    destruct E as [[_ ->]|[(t & _ & _ & ->)|[(t & _ & _ & ->)|(t & s1 & -> & K1 & K2)]]]; try assumption.
    refine (members_hold T HT sn L I om dm (fun b H => IH b H HT) Ho Hs mode L old s1 v r K2 (incl_refl L) HI _). apply (fit_gap T HT t); [exact K1|]. apply (fit_tl T HT LCB). now split.
  - assert (HA : Forall (memb_all (fun _ c => dlaw (des c))) L).
    { apply Forall_forall. intros b Hb. rewrite Forall_forall in HN. apply noif_all; [now apply HN|]. apply (IH b Hb HT). }
    split; [now apply oarray_dlaw|]. intros sn old s v r Hb Ht HI E. apply oarray_exact in E; [|assumption..].
    destruct E as [[_ ->]|[(t & _ & _ & ->)|(t & s1 & -> & K1 & _ & _ & K2)]]; try assumption.
    refine (places_hold T HT sn L I om dm (fun b H => IH b H HT) Ho Hs L old s1 v r K2 (incl_refl L) HI _). apply (fit_gap T HT t); [exact K1|]. apply (fit_tl T HT LBR). now split.
  - destruct (IH HT) as [HD HR]. split; [now apply member_value_dlaw|]. intros sn old s v r Hb Ht HI E. apply member_value_exact in E. destruct E as (x & E & ->). apply H2; [exact HI|]. apply (HR sn (get old) s x r); auto.
  - destruct IH as [HD HR]; [intros p s _; exact Logic.I|]. split; [now apply quoted_dlaw|]. intros sn old s v r Hb Ht Ho E. apply quoted_exact in E; [|exact HD]. destruct E as [(_ & b & r' & E1 & E2)|(_ & _ & E)].
    + apply (HR (Some 0) old b v r'); auto. pose proof (string_typed sn [] s (Some no_error) (Forall_nil _) Hb) as KB. unfold reads in E1. cbn [des string_codec] in E1. rewrite E1 in KB. apply KB.
    + apply (HR sn old s v r); auto.
  - destruct (IH HT) as [HD HR]. split; [now apply ptr_dlaw|]. intros sn old s v r Hb Ht Ho E. apply ptr_exact in E. destruct E as [(_ & -> & _)|(x & -> & _ & _ & E)]; [exact Logic.I|]. apply (HR sn d0 s x r); auto.
  - split; [exact (int_dlaw t)|]. intros sn old s v r Hb _ _ E. apply int_exact in E; [|exact Ht]. apply (int_exact t sn 0 s v r Ht) in E. unfold reads in E. cbn [des int_codec] in E.
    assert (P0 : irange t 0 /\ (isize t < 4 \/ isigned t = false \/ 0 <> imin t)).
    { split; [now apply irange0|]. destruct (isigned t) eqn:Sg; [|now right; left]. right; right. unfold imin. rewrite Sg. pose proof (half_cases t Ht). lia. }
    pose proof (int_kept_typed t Ht sn 0 s (Some no_error) P0 Hb) as K. rewrite E in K. apply K.
  - split; [exact bool_dlaw|]. intros; exact Logic.I.
  - split; [exact HD|exact HK].
Qed.
Lemma mild_closed : closed mild. Proof. intros p s. apply mild_r. Qed.
Lemma calm_str v : Forall calm v -> bytes v -> Forall str_char v.
Proof. intros H1 H2. apply Forall_forall. intros x Hx. rewrite Forall_forall in H1. unfold bytes in H2. rewrite Forall_forall in H2. specialize (H1 x Hx). specialize (H2 x Hx). unfold calm in H1. unfold str_char. cbn in H2. lia || (destruct H1 as [H1|[H1|H1]]; [left; lia|right; left; lia|now right; right]). Qed.
