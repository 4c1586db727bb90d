(** C69 for structs with member_if. *)
From Verif Require Import Base Parser SpecJson SpecNum SpecSeq SpecString ParserFacts Out Number StringS Array Object ObjectArray SpecObject Enum SpecEnum
  CodecLaws NumberProofs StringProofs ArrayProofs ObjectProofs ObjectArrayProofs SpecExact Desc DescProofs SpecType SpecSettle SettleProofs SpecIf IfHoldProofs Properties_Seq Properties_Object Properties_Desc Properties_Enum Properties_Settle.
Import ListNotations.

(** ---- C69 ---- *)
(** What every member and every alternative preserves holds of the struct after a
    reading without error, as an object and as an array. *)
Theorem C69_if : forall S (T : buf -> Prop) mode (L : list (memb S)) t0 (I : S -> Prop) (om dm : forall m : mem S, m_ty m -> Prop),
  (forall p s, T (p ++ s) -> T s) -> I t0 -> (forall b m, In b L -> In m (parts b) -> hdesc T _ (m_codec m) (om m) (dm m)) -> Forall (memb_keeps I om dm) L ->
  hdesc T S (object_codec mode L t0) I I /\ hdesc T S (oarray_codec L t0) I I.
Proof.
  intros S T mode L t0 I om dm HT H0 HD HK.
  assert (HL : Forall (all_hold T om dm) L).
  { apply Forall_forall. intros b Hb. assert (K : forall m, In m (parts b) -> holds T (m_codec m) (om m) (dm m)) by (intros m Hm; apply hdesc_holds; [now apply (HD b)|exact HT]).
    destruct b as [m|m i|ru l r d]; cbn [all_hold parts] in *; [apply K; now left..|]. split; apply K; [now left|right; now left]. }
  split; apply hd_known; [apply object_dlaw| |apply oarray_dlaw|]; try (apply (all_L T om dm L HL)).
  - apply (object_keeps T HT I om dm mode L HL HK t0 H0).
  - apply (oarray_keeps T HT I om dm L HL HK t0 H0).
Qed.
Print Assumptions C69_if.
(** int or string: of the two alternatives at most one is set *)
Definition fields (v : foo) : Prop := int_dom i32 (fb v) /\ int_dom i32 (fa v) /\ str_dom (fs v).
Definition one_set (v : foo) : Prop := fields v /\ (fa v = 0 \/ fs v = []).
Lemma null_int n : null_gives int32 n -> n = 0.
Proof. intros (o & r & e & E). cbn in E. now injection E as <- _ _. Qed.
Lemma null_string n : null_gives string_codec n -> n = [].
Proof. intros (o & r & e & E). cbn in E. now injection E as <- _ _. Qed.
Theorem C69_int_or_string_held : forall (ru : bool) mode, hdesc mild foo (object_codec mode (Lif ru) foo0) one_set one_set /\ hdesc mild foo (oarray_codec (Lif ru) foo0) one_set one_set.
Proof.
  intros ru mode. apply (C69_if foo mild mode (Lif ru) foo0 one_set (fun _ _ => True) (fun m x => forall t, fields t -> fields (m_set m t x))).
  - intros p s. apply mild_closed.
  - split; [|now left]. split; [|split]; [split; [split; discriminate|right; discriminate]..|]. split; [constructor|discriminate].
  - assert (HI : hdesc mild Z int32 (fun _ => True) (int_dom i32)) by (eapply hd_conv; [exact (hd_int mild i32 i32_ok)|auto|intros v Hv; split; [apply Hv|destruct Hv as (_ & [H|[H|H]]); [left; now left|left; now right|now right]]]).
    intros b m [<-|[<-|[]]]; [intros [<-|[]]|intros [<-|[<-|[]]]]; cbn.
    + eapply hd_conv; [exact HI|auto|]. intros v Hv t (H1 & H2 & H3). now split.
    + eapply hd_conv; [exact HI|auto|]. intros v Hv t (H1 & H2 & H3). now split.
    + eapply hd_conv; [exact (proj1 (C69_mild_strings mild (fun s H => H)))|auto|]. intros v Hv t (H1 & H2 & H3). now split.
  - assert (Z0 : int_dom i32 0) by (split; [split; discriminate|right; discriminate]). assert (S0 : str_dom []) by (split; [constructor|discriminate]).
    apply Forall_cons; [|apply Forall_cons; [|apply Forall_nil]]; cbn [memb_keeps].
    + intros t [Hf Ho]. split; [exact I|]. intros x Hx. split; [now apply Hx|exact Ho].
    + split; [now split|]. destruct ru; (split; [|split]).
      * intros t x n [Hf _] Hx Hn. apply null_int in Hn as ->. destruct (Hx t Hf) as (H1 & H2 & H3). split; [|now left]. now split.
      * intros t n [Hf _] Hn. apply null_int in Hn as ->. destruct Hf as (H1 & H2 & H3). split; [|now left]. now split.
      * intros t t1 n [Hf _] Ht Hn. apply null_string in Hn as ->. assert (F : fields (m_set ms t1 [])) by (destruct Hf as (H1 & H2 & H3); destruct Ht as [->|[x ->]]; now split).
        split; [split; [exact F|now right]|]. intros y Hy. split; [now apply Hy|now right].
      * intros t x n [Hf _] Hx Hn. apply null_string in Hn as ->. destruct (Hx t Hf) as (H1 & H2 & H3). split; [|now right]. now split.
      * intros t n [Hf _] Hn. apply null_string in Hn as ->. destruct Hf as (H1 & H2 & H3). split; [|now right]. now split.
      * intros t t1 n [Hf _] Ht Hn. apply null_int in Hn as ->. assert (F : fields (m_set sa t1 0)) by (destruct Hf as (H1 & H2 & H3); destruct Ht as [->|[x ->]]; now split).
        split; [split; [exact F|now left]|]. intros y Hy. split; [now apply Hy|now left].
Qed.
Print Assumptions C69_int_or_string_held.
(** ... so what was read without error is read back after being written. *)
Theorem C69_int_or_string : forall mode sn old s v r, bytes s -> mild s -> one_set old -> SpecExact.reads (object_codec mode (Lif false) foo0) sn old s v r ->
  exists ops, ser (object_codec mode (Lif false) foo0) v = Ok ops /\
  forall sn' old' r' e', follow r' -> no_err_yet e' = true -> des (object_codec mode (Lif false) foo0) sn' old' (flat ops ++ r') e' = Ok (v, r', e').
Proof.
  intros mode sn old s v r Hb Hm Ho E. destruct (hdesc_holds mild foo _ _ _ (proj1 (C69_int_or_string_held false mode)) mild_closed) as [_ HR].
  destruct (HR sn old s v r Hb Hm Ho E) as [(H1 & H2 & H3) H4].
  destruct (C40_int_or_string mode v) as (ops & E1 & _ & E2); [|now exists ops].
  split; [exact H1|]. destruct (Z.eqb_spec 0 (fa v)) as [Z0|Z0]; [now split|]. split; [exact H2|]. destruct H4 as [H4|H4]; [now elim Z0|exact H4].
Qed.
Print Assumptions C69_int_or_string.
(** A target in which both are set already may keep both, and then one is lost. *)
Theorem C69_both_set_refuted : exists old s v ops, bytes s /\ mild s /\ fields old /\ SpecExact.reads (object_codec Nonstrict (Lif false) foo0) None old s v [] /\
  ser (object_codec Nonstrict (Lif false) foo0) v = Ok ops /\ forall sn old', ~ SpecExact.reads (object_codec Nonstrict (Lif false) foo0) sn old' (flat ops) v [].
Proof.
  exists (mkfoo 1 2 (text "x")), (text "{}"), (mkfoo 1 2 (text "x")). eexists. split; [vm_compute; repeat (apply Forall_cons; [split; discriminate|]); apply Forall_nil|].
  split; [split; [repeat constructor; vm_compute; intuition discriminate|]|].
  { intros a x y b E. apply (f_equal (@length Z)) in E. rewrite app_length in E. cbn in E. lia. }
  split; [split; [|split]; [split; [split; discriminate|right; discriminate]..|]; split; [repeat constructor; vm_compute; intuition discriminate|discriminate]|].
  split; [unfold SpecExact.reads; exq|]. split; [exq|]. intros sn [a b t]. unfold SpecExact.reads. vm_compute. discriminate.
Qed.
Print Assumptions C69_both_set_refuted.
Example C69_ex_if : SpecExact.reads (object_codec Nonstrict (Lif false) foo0) None (mkfoo 7 0 []) (jt "{'b':1, 'foo': 'abc'}") (mkfoo 0 1 (text "abc")) [] /\
  SpecExact.reads (oarray_codec (Lif true) foo0) None (mkfoo 0 0 (text "old")) (jt "[1, 5]") (mkfoo 5 1 []) [].
Proof. split; unfold SpecExact.reads; exq. Qed.
(** In a vector every element starts from an empty struct, so there is no
    condition on the target; also for structs written as arrays. *)
Theorem C69_if_nested : forall mode c, c = object_codec mode (Lif false) foo0 \/ c = oarray_codec (Lif false) foo0 ->
  forall sn old s v r, bytes s -> mild s -> SpecExact.reads (vector_codec c foo0) sn old s v r ->
  exists ops, ser (vector_codec c foo0) v = Ok ops /\
  forall sn' old' r' e', follow r' -> e' = None \/ e' = clean -> des (vector_codec c foo0) sn' old' (flat ops ++ r') e' = Ok (v, r', e').
Proof.
  intros mode c Hc sn old s v r Hb Hm E.
  assert (H0 : one_set foo0) by (split; [|now left]; split; [|split]; [split; [split; discriminate|right; discriminate]..|]; split; [constructor|discriminate]).
  assert (HI : forall v, one_set v -> alt_dom v).
  { intros w [(H1 & H2 & H3) H4]. split; [exact H1|]. destruct (Z.eqb_spec 0 (fa w)) as [Z0|Z0]; [exact H3|]. split; [exact H2|]. destruct H4 as [H4|H4]; [now elim Z0|exact H4]. }
  assert (HV : hdesc mild foo c one_set one_set /\ rdesc _ (vector_codec c foo0) (Forall alt_dom)).
  { destruct (C69_int_or_string_held false mode) as [K1 K2]. destruct (C64_member_if_nested mode) as [R1 R2]. destruct Hc as [->| ->]; now split. }
  destruct HV as [HV HR]. apply (C69_success _ _ mild (fun _ => True) (Forall one_set)) with sn old s r; auto.
  - now apply hd_vector with one_set.
  - apply rd_sub with (Forall alt_dom); [exact HR|]. intros w. apply Forall_impl. exact HI.
  - exact mild_closed.
Qed.
Print Assumptions C69_if_nested.
Example C69_ex_nested : SpecExact.reads (vector_codec (object_codec Nonstrict (Lif false) foo0) foo0) None [] (jt "[{'foo':'x','b':3,'foo': 4},{'foo':5,'foo':'y'},null]")
  [mkfoo 4 3 []; mkfoo 0 0 (text "y"); foo0] [].
Proof. unfold SpecExact.reads. exq. Qed.
