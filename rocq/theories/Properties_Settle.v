(** C69, continued: values read without error. *)
From Verif Require Import Base Parser SpecJson SpecNum SpecSeq SpecString ParserFacts Out Number StringS Array Object ObjectArray SpecObject Enum SpecEnum Wrap TimeSize Float
  CodecLaws NumberProofs StringProofs ArrayProofs TimeProofs SizeProofs SpecExact Desc DescProofs SpecType SpecSettle SettleProofs Properties_Seq Properties_Object Properties_Desc Properties_Enum Properties_TimeSize.

(** If all that can come out of a successful reading is in the round-trip domain,
    the value survives being written and read. *)
Theorem C69_success : forall A (c : codec A) T O G, hdesc T A c O G -> rdesc A c G -> (forall p s, T (p ++ s) -> T s) ->
  forall sn old s v r, bytes s -> T s -> O old -> SpecExact.reads c sn old s v r ->
  exists ops, ser c v = Ok ops /\ forall sn' old' r' e', follow r' -> e' = None \/ e' = clean -> des c sn' old' (flat ops ++ r') e' = Ok (v, r', e').
Proof.
  intros A c T O G Hh Hr HT sn old s v r Hb Ht Ho E. apply (C64_all_roundtrip A c G Hr v). destruct (hdesc_holds T A c O G Hh HT) as [_ HR]. exact (HR sn old s v r Hb Ht Ho E).
Qed.
Print Assumptions C69_success.
(** Strings read from a text without control characters, 0xF8 to 0xFD and \x escapes of those *)
Theorem C69_mild_strings : forall T : buf -> Prop, (forall s, T s -> mild s) -> hdesc T _ string_codec (fun _ => True) str_dom /\ rdesc _ string_codec str_dom.
Proof.
  intros T H. split; [|apply rd_string]. apply hd_conv with (fun _ => True) (fun v => Forall calm v /\ bytes v /\ dist v <= 2147483647); [now apply hd_string|auto|].
  intros v (H1 & H2 & H3). split; [now apply calm_str|exact H3].
Qed.
Print Assumptions C69_mild_strings.
Theorem C69_mild_chars : forall (T : buf -> Prop) N, (forall s, T s -> mild s) -> Z.of_nat N <= INT_MAX -> hdesc T _ (chars_codec N) (fun _ => True) (chars_dom N) /\ rdesc _ (chars_codec N) (chars_dom N).
Proof.
  intros T N H HN. split; [|now apply rd_chars]. eapply hd_conv; [now apply hd_chars|auto|].
  intros v (t & H1 & H2 & H3 & ->). exists t. split; [exact H1|]. split; [now apply calm_str|reflexivity].
Qed.
Print Assumptions C69_mild_chars.
(** Enumerators and raw values, whatever the text *)
Theorem C69_enumerators : forall T L, NoDup (map fst L) -> Forall no_quote (map fst L) ->
  hdesc T _ (enum_codec Strict L) (fun _ => True) (fun v => In v (map snd L)) /\ rdesc _ (enum_codec Strict L) (fun v => In v (map snd L)).
Proof. intros T L H1 H2. split; [exact (hd_enum T L)|now apply rd_enum]. Qed.
Print Assumptions C69_enumerators.
Theorem C69_raw : forall T b, hdesc T _ raw_codec (fun _ => True) wvalue /\ rdesc _ raw_codec wvalue /\
  hdesc T _ (rquoted_codec b b) (fun _ => True) wvalue /\ rdesc _ (rquoted_codec b b) wvalue.
Proof. intros T b. repeat split; constructor. Qed.
Print Assumptions C69_raw.
(** Seconds of any type, and bytes in a signed type *)
Theorem C69_seconds : forall T t, ity_ok t -> hdesc T _ (time_codec t 1) (irange t) (irange t) /\ rdesc _ (time_codec t 1) (irange t).
Proof.
  intros T t Ht. split; [now apply hd_typed, td_time|]. assert (R : irange t 1) by (unfold irange, imin, imax; destruct (NumberProofs.half_cases t Ht) as [H|[H|[H|H]]]; destruct H as (A & B & C); destruct (isigned t); lia).
  apply rd_sub with (time_dom t 1); [apply rd_time; [exact Ht|lia|exact R]|]. intros v Hv. split; [exact Hv|]. left. apply Z.rem_1_r.
Qed.
Print Assumptions C69_seconds.
Theorem C69_bytes : forall T t, ity_ok t -> 2 <= isize t -> isigned t = true -> hdesc T _ (size_codec t 1) (irange t) (irange t) /\ rdesc _ (size_codec t 1) (irange t).
Proof.
  intros T t Ht H2 Hs. split; [now apply hd_typed, td_size|]. apply rd_sub with (size_dom t 1); [apply rd_size; [exact Ht|exact H2|lia|]|].
  - unfold irange. vm_compute. intuition discriminate.
  - intros v Hv. split; [exact Hv|]. rewrite Z.mul_1_r. unfold irange, imin, imax in *. rewrite Hs in Hv. cbn [isigned i64]. pose proof (NumberProofs.half_cases t Ht). change (imod i64 / 2) with 9223372036854775808. lia.
Qed.
Print Assumptions C69_bytes.

(** Each condition is needed, and times and sizes are not stable: \x, a negative
    number of milliseconds, a size beyond int64_t. *)
Definition unstable {A} (c : codec A) : Prop := exists s v ops, bytes s /\ (forall sn old, SpecExact.reads c sn old s v []) /\ ser c v = Ok ops /\
  forall sn old, ~ SpecExact.reads c sn old (flat ops) v [].
Theorem C69_xescape_refuted : ~ (forall s v sn old ops, bytes s -> Forall calm s -> SpecExact.reads string_codec sn old s v [] -> ser string_codec v = Ok ops ->
  SpecExact.reads string_codec sn old (flat ops) v []).
Proof.
  intros H. assert (E : exists ops, ser string_codec [1] = Ok ops /\ des string_codec None [] (flat ops) clean <> Ok ([1], [], clean)).
  { eexists. split; [exq|]. vm_compute. discriminate. }
  destruct E as (ops & E1 & E2). apply E2. apply (H [34; 92; 120; 48; 49; 34] [1]); [| |exq|exact E1].
  - repeat (apply Forall_cons; [split; discriminate|]). apply Forall_nil.
  - repeat (apply Forall_cons; [left; lia|]). apply Forall_nil.
Qed.
Print Assumptions C69_xescape_refuted.
Theorem C69_time_refuted : unstable (time_codec i64 1000).
Proof.
  exists (text "-1"), (-1). eexists. split; [repeat (apply Forall_cons; [split; discriminate|]); apply Forall_nil|]. split; [intros; unfold SpecExact.reads; exq|]. split; [exq|].
  intros sn old. unfold SpecExact.reads. vm_compute. discriminate.
Qed.
Print Assumptions C69_time_refuted.
Theorem C69_size_refuted : unstable (size_codec u64 1).
Proof.
  exists (text "10000000000000000000"), 10000000000000000000. eexists. split; [repeat (apply Forall_cons; [split; discriminate|]); apply Forall_nil|]. split; [intros; unfold SpecExact.reads; exq|]. split; [exq|].
  intros sn old. unfold SpecExact.reads. vm_compute. discriminate.
Qed.
Print Assumptions C69_size_refuted.

(** ---- concrete cases ---- *)
(** a struct of a string, an enumerator and a raw value *)
Record tag := mktag { tname : buf; tcol : Z; traw : buf }.
Definition tn : mem tag := mkmem (text "n") tname (fun t x => mktag x (tcol t) (traw t)) string_codec.
Definition tc : mem tag := mkmem (text "c") tcol (fun t x => mktag (tname t) x (traw t)) (enum_codec Strict colors).
Definition tr : mem tag := mkmem (text "r") traw (fun t x => mktag (tname t) (tcol t) x) raw_codec.
Definition Ltag := [MRef tn; MRef tc; MRef tr].
Definition tag0 := mktag [] 1 (text "null").
Definition tag_codec := object_codec Nonstrict Ltag tag0.
Definition tag_in (v : tag) : Prop := str_dom (tname v) /\ In (tcol v) (map snd colors) /\ wvalue (traw v).
Lemma null_wvalue : wvalue (text "null").
Proof. exact wv_null. Qed.
Lemma tag0_in : tag_in tag0.
Proof. split; [split; [constructor|discriminate]|]. split; [now left|exact null_wvalue]. Qed.
Lemma tag_hdesc : hdesc mild tag tag_codec tag_in tag_in.
Proof.
  apply (hd_object mild tag Nonstrict Ltag tag0 tag_in (fun _ _ => True) (fun m x => forall t, tag_in t -> tag_in (m_set m t x))).
  - exact tag0_in.
  - repeat (apply Forall_cons; [exact I|]). apply Forall_nil.
  - repeat (apply Forall_cons; [repeat (apply Forall_cons; [split; discriminate|]); apply Forall_nil|]). apply Forall_nil.
  - intros b [<-|[<-|[<-|[]]]]; cbn.
    + eapply hd_conv; [exact (proj1 (C69_mild_strings mild (fun s H => H)))|auto|]. intros v Hv t (_ & H2 & H3). now split.
    + eapply hd_conv; [exact (proj1 (C69_enumerators mild colors colors_nodup colors_nq))|auto|]. intros v Hv t (H1 & _ & H3). now split.
    + eapply hd_conv; [exact (proj1 (C69_raw mild true))|auto|]. intros v Hv t (H1 & H2 & _). now split.
  - auto.
  - auto.
Qed.
Lemma tag_rdesc : rdesc tag tag_codec tag_in.
Proof.
  set (dm := fun (m : mem tag) (x : m_ty m) => forall t, tag_in t -> tag_in (m_set m t x)).
  apply rd_sub with (fun v => Forall (memb_rin dm v) Ltag).
  - apply rd_object; [intros [? ? ?] [? ? ?]; reflexivity|repeat constructor|repeat constructor| |].
    + intros b [<-|[<-|[<-|[]]]]; repeat (apply Forall_cons; [split; discriminate|]); apply Forall_nil.
    + intros b m [<-|[<-|[<-|[]]]] [<-|[]]; cbn.
      * apply rd_sub with str_dom; [apply rd_string|]. intros v Hv. exact (proj1 (Hv tag0 tag0_in)).
      * apply rd_sub with (fun v => In v (map snd colors)); [apply rd_enum; [exact colors_nodup|exact colors_nq]|]. intros v Hv. exact (proj1 (proj2 (Hv tag0 tag0_in))).
      * apply rd_sub with wvalue; [apply rd_raw|]. intros v Hv. exact (proj2 (proj2 (Hv tag0 tag0_in))).
  - intros v (H1 & H2 & H3). unfold Ltag. repeat (apply Forall_cons; [split; [|exact I]; cbn; intros t (A & B & C); split; [|split]; assumption|]). apply Forall_nil.
Qed.
(** so vectors of such structs are stable on texts without the bytes in question *)
Example C69_ex_tags : hdesc mild _ (vector_codec tag_codec tag0) (fun _ => True) (Forall tag_in) /\ rdesc _ (vector_codec tag_codec tag0) (Forall tag_in) /\
  exists ops, let s := jt "[{'r':[1, {'x':2}],'c':'blue','n':'aA\n/'}, {} ] " in
    mild s /\ SpecExact.reads (vector_codec tag_codec tag0) None [] s [mktag (text "aA" ++ [10; 47]) 4 (jt "[1, {'x':2}]"); tag0] (text " ") /\
    ser (vector_codec tag_codec tag0) [mktag (text "aA" ++ [10; 47]) 4 (jt "[1, {'x':2}]"); tag0] = Ok ops /\
    flat ops = jt "[{'n':'aA\n\/','c':'blue','r':[1, {'x':2}]},{'n':'','c':'red','r':null}]".
Proof.
  split; [apply hd_vector with tag_in; [exact tag_hdesc|exact tag0_in]|]. split; [apply rd_vector, tag_rdesc|]. eexists. split; [|split; [unfold SpecExact.reads; exq|split; exq]].
  split; [match goal with |- Forall _ ?x => let l := eval vm_compute in x in change (Forall calm l) end; repeat (apply Forall_cons; [first [left; lia|right; right; vm_compute; tauto]|]); apply Forall_nil|].
  intros a x y b E. exfalso. assert (K : (fix go (s : buf) : bool := match s with [] => false | c :: t => match t with d :: _ => (c =? 92) && (d =? 120) || go t | [] => false end end) (a ++ BSL :: 120 :: x :: y :: b) = true).
  { clear E. induction a as [|u a IH]; [reflexivity|]. cbn. destruct (a ++ 92 :: 120 :: x :: y :: b) as [|d t] eqn:E; [destruct a; discriminate|]. apply orb_true_intro. now right. }
  rewrite <- E in K. vm_compute in K. discriminate K.
Qed.
