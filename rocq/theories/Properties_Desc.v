(** Theorems about every description built from the library's types
    (C07, C09, C21, C52, C59, C64). *)
From Verif Require Import Base Parser SpecJson SpecNum SpecSeq SpecString ParserFacts Grammar2 ParserProps Out Number StringS Array Object ObjectArray SpecObject Enum SpecEnum Wrap SpecWrap
  TimeSize SpecTime Float SpecMisc Misc CodecLaws NumberProofs StringProofs ArrayProofs ObjectProofs EnumProofs WrapProofs TimeProofs SizeProofs FloatProofs Desc DescProofs
  Properties_Seq Properties_Object Properties_Misc.

(** C07.  An error, or the absence of a json_error, is left as it is. *)
Theorem C07_all_descriptions : forall A (c : codec A), desc A c -> forall sn old s e v r e',
  e = None \/ (exists k, e = Some k /\ is_err k = true) -> des c sn old s e = Ok (v, r, e') -> e' = e.
Proof.
  intros A c Hc sn old s e v r e' He E. pose proof (desc_dlaw A c Hc sn old s e) as L. rewrite E in L.
  destruct L as [_ [H|(k & j & H1 & H2 & _)]]; [exact H|]. destruct He as [->|(k' & -> & Hk)]; congruence.
Qed.
Print Assumptions C07_all_descriptions.
(** without an error the object is untouched too *)
Theorem C07_success_untouched : forall A (c : codec A), desc A c -> forall sn old s e v r e',
  des c sn old s e = Ok (v, r, e') -> has_err e' = false -> e' = e.
Proof.
  intros A c Hc sn old s e v r e' E N. pose proof (desc_dlaw A c Hc sn old s e) as L. rewrite E in L.
  destruct L as [_ [H|(k & j & _ & _ & -> & H & _)]]; [exact H|]. unfold has_err in N. cbn [no_err_yet] in N. rewrite H in N. discriminate.
Qed.
Print Assumptions C07_success_untouched.

(** C09 *)
Theorem C09_all_descriptions : forall A (c : codec A), desc A c -> forall sn old s k v r j, is_err k = false ->
  des c sn old s (Some k) = Ok (v, r, Some j) -> is_err j = true -> 0 <= tail_of j <= dist s.
Proof.
  intros A c Hc sn old s k v r j Hk E N. pose proof (desc_dlaw A c Hc sn old s (Some k)) as L. rewrite E in L.
  destruct L as [_ [H|(k' & j' & _ & _ & H & _ & T)]]; [congruence|]. injection H as <-. exact T.
Qed.
Print Assumptions C09_all_descriptions.
Theorem C09_all_strerror : forall A (c : codec A), desc A c -> forall sn old s v r j,
  des c sn old s clean = Ok (v, r, Some j) -> is_err j = true ->
  where_ j s = dist s - tail_of j /\ exists a m b, trace j s = Ok (a ++ m ++ b) /\ s = a ++ b /\ dist a = where_ j s /\
    message_trace j s = Ok (message j ++ text ": " ++ a ++ m ++ b).
Proof. intros A c Hc. apply C09_strerror_defined, desc_dlaw, Hc. Qed.
Print Assumptions C09_all_strerror.

(** C59 *)
Theorem C59_all_terminate : forall A (c : codec A), desc A c -> forall sn old s e, des c sn old s e <> Fuel.
Proof. intros A c Hc sn old s e E. pose proof (desc_dlaw A c Hc sn old s e) as L. now rewrite E in L. Qed.
Theorem C59_all_in_range : forall A (c : codec A), desc A c -> forall sn old s e v r e',
  des c sn old s e = Ok (v, r, e') -> exists p, s = p ++ r.
Proof. intros A c Hc sn old s e v r e' E. pose proof (desc_dlaw A c Hc sn old s e) as L. rewrite E in L. apply L. Qed.
(** Without wide signed integers, time_interval and size_value there is no
    undefined behaviour either, provided *end is readable and no bracket. *)
Theorem C59_all_defined : forall A (c : codec A), safe_desc A c -> forall b old s e, b <> RBR -> b <> RCB ->
  exists v r e', des c (Some b) old s e = Ok (v, r, e') /\ exists p, s = p ++ r.
Proof.
  intros A c Hc b old s e H1 H2. assert (Hd : desc A c).
  { clear -Hc. induction Hc; try (constructor; assumption). apply bt_base. destruct H; constructor. }
  pose proof (desc_dsafe A c Hc (Some b) old s e ltac:(now exists b)) as NU. pose proof (C59_all_terminate A c Hd (Some b) old s e) as NF.
  destruct (des c (Some b) old s e) as [[[v r] e']| |] eqn:E; [|congruence|congruence]. exists v, r, e'. split; [reflexivity|].
  exact (C59_all_in_range A c Hd _ _ _ _ _ _ _ E).
Qed.
Print Assumptions C59_all_terminate.
Print Assumptions C59_all_in_range.
Print Assumptions C59_all_defined.

(** C21: accepted by parser::parse and consumed whole, whatever follows. *)
Theorem C21_all_descriptions : forall A (c : codec A) dom, jdesc A c dom -> forall v, dom v ->
  exists ops, ser c v = Ok ops /\ rvalue (flat ops) /\ forall sn r e, follow r -> parse sn (flat ops ++ r) e = Ok (r, e).
Proof.
  intros A c dom Hc v Hv. destruct (jdesc_jout A c dom Hc v Hv) as (ops & E & Hr). exists ops. split; [exact E|]. split; [exact Hr|].
  intros sn r e Hf. now apply rfc_accept.
Qed.
Print Assumptions C21_all_descriptions.

(** C52: through a char* the bytes given to a back_inserter are stored one
    after the other, nothing else is written, and the returned pointer is behind
    the last one. *)
Theorem C52_all_plain : forall A (c : codec A), plain_desc A c -> forall v ops m a, ser c v = Ok ops ->
  snd (ptr_run ops m a) = a + dist (flat ops) /\ forall x, fst (ptr_run ops m a) x = stored m a (flat ops) x.
Proof.
  intros A c Hc v ops m a E. destruct (plain_wonly A c Hc v ops E) as (b & ->). rewrite flat_wr. apply ptr_run_wr.
Qed.
Print Assumptions C52_all_plain.

(** C64 *)
Theorem C64_all_roundtrip : forall A (c : codec A) dom, rdesc A c dom -> forall v, dom v ->
  exists ops, ser c v = Ok ops /\ forall sn old r e, follow r -> e = None \/ e = clean -> des c sn old (flat ops ++ r) e = Ok (v, r, e).
Proof.
  intros A c dom Hc v Hv. destruct (rdesc_rt A c dom Hc v Hv) as (ops & E & _ & Hd). exists ops. split; [exact E|].
  intros sn old r e Hr He. apply Hd; [exact Hr|]. destruct He as [-> | ->]; reflexivity.
Qed.
Print Assumptions C64_all_roundtrip.
(** so two different values are never written alike *)
Theorem C64_injective : forall A (c : codec A) dom, rdesc A c dom -> forall v w a b, dom v -> dom w ->
  ser c v = Ok a -> ser c w = Ok b -> flat a = flat b -> v = w.
Proof.
  intros A c dom Hc v w a b Hv Hw Ea Eb E. destruct (C64_all_roundtrip A c dom Hc v Hv) as (x & Ex & Dx), (C64_all_roundtrip A c dom Hc w Hw) as (y & Ey & Dy).
  assert (X : x = a) by congruence. assert (W : y = b) by congruence. subst x y.
  specialize (Dx None v [] None I (or_introl eq_refl)). specialize (Dy None v [] None I (or_introl eq_refl)). rewrite E in Dx. congruence.
Qed.
Print Assumptions C64_injective.

(** A description for the examples: a struct with a map from strings to
    vectors of optional shorts, an enumerator, and a quoted nested struct. *)
Definition i16 := mkity 2 true.
Lemma i16_ok : ity_ok i16. Proof. right; now left. Qed.
Record bar := mkbar { bm : list (buf * list (option Z)); be : Z; bq : foo }.
Definition colors : elist := [(text "red", 1); (text "green", 2)].
Definition mapc := map_codec str_lt string_codec (vector_codec (ptr_codec (int_codec i16) 0) None) ([], []).
Definition bmm : mem bar := mkmem (text "m") bm (fun t x => mkbar x (be t) (bq t)) mapc.
Definition bem : mem bar := mkmem (text "e") be (fun t x => mkbar (bm t) x (bq t)) (enum_codec Strict colors).
Definition bqm : mem bar := mkmem (text "q") bq (fun t x => mkbar (bm t) (be t) x) (quoted_codec (foo_codec Nonstrict) true true).
Definition Lbar : list (memb bar) := [MRef bmm; MRef bem; MRef bqm].
Definition bar_codec := object_codec Nonstrict Lbar (mkbar [] 0 foo0).
Definition bar1 := mkbar [(text "x", [Some 1; None]); (text "y", [])] 2 (mkfoo 3 4 (text "z")).

Example C07_ex_desc : desc bar bar_codec.
Proof.
  apply bt_object. intros b m [<-|[<-|[<-|[]]]] [<-|[]]; cbn.
  - apply bt_map; [apply bt_base; constructor|]. apply bt_vector, bt_pointer, bt_base. constructor.
  - apply bt_base. constructor.
  - apply bt_quoted, bt_object. intros b m [<-|[<-|[<-|[]]]] [<-|[]]; apply bt_base; constructor.
Qed.
Definition bar1_text : buf := jt "{'m':{'x':[1,null],'y':[]},'e':'green','q':'{\'a\':3,\'b\':4,\'foo\':\'z\'}'}".
Example C64_ex : exists ops, ser bar_codec bar1 = Ok ops /\ flat ops = bar1_text /\
  des bar_codec None (mkbar [] 1 foo0) (bar1_text ++ [COMMA]) clean = Ok (bar1, [COMMA], clean).
Proof. eexists. split; [exq|]. split; exq. Qed.
Example C07_ex_all : des bar_codec None (mkbar [] 1 foo0) (jt "{'e':'blue'}") (Some (mkerr InvalidNumber None 3)) =
  Ok (mkbar [] 0 foo0, [], Some (mkerr InvalidNumber None 3)).
Proof. exq. Qed.
Example C09_ex_all : exists v r j, des bar_codec None (mkbar [] 1 foo0) (jt "{'e':'blue'}") clean = Ok (v, r, Some j) /\ trace j (jt "{'e':'blue'}") = Ok (jt "{'e':'>>>blue'}").
Proof. eexists _, _, _. split; exq. Qed.

(** bar_codec satisfies the hypotheses of C21 and C64 *)
Definition opt_dom {A} (P : A -> Prop) (o : option A) : Prop := match o with None => True | Some v => P v end.
Definition bar_dom (v : bar) : Prop :=
  Forall (fun p => utf8 (fst p) /\ Forall (opt_dom (irange i16)) (snd p)) (bm v) /\
  irange i32 (fa (bq v)) /\ irange i32 (fb (bq v)) /\ utf8 (fs (bq v)).
Lemma rchars_ascii t : forallb (fun c => (32 <=? c) && (c <=? 126) && negb (c =? QT) && negb (c =? BSL)) t = true -> rchars t.
Proof.
  induction t as [|c t IH]; intros H; [constructor|]. cbn in H. apply andb_prop in H. destruct H as (H & Ht).
  change (c :: t) with ([c] ++ t). apply rcs_cons; [|auto]. assert (E : [c] = utf8_encode c) by (unfold utf8_encode; destruct (Z.ltb_spec c 128); [reflexivity|lia]).
  rewrite E. apply rc_plain; try lia. split; lia.
Qed.
Lemma foo_jdesc mode : jdesc foo (foo_codec mode) (fun v => irange i32 (fa v) /\ irange i32 (fb v) /\ utf8 (fs v)).
Proof.
  set (dm := fun (m : mem foo) (x : m_ty m) => exists v, m_get m v = x /\ irange i32 (fa v) /\ irange i32 (fb v) /\ utf8 (fs v)).
  apply jd_sub with (dom := fun v => Forall (memb_in dm v) Lfoo).
  - apply jd_object.
    + intros b m [<-|[<-|[<-|[]]]] [<-|[]]; apply rchars_ascii; reflexivity.
    + intros b m [<-|[<-|[<-|[]]]] [<-|[]].
      * apply jd_sub with (irange i32); [apply jd_int, i32_ok|]. intros x (v & <- & H). apply H.
      * apply jd_sub with (irange i32); [apply jd_int, i32_ok|]. intros x (v & <- & H). apply H.
      * apply jd_sub with utf8; [apply jd_key, kd_string|]. intros x (v & <- & H). apply H.
  - intros v Hv. repeat constructor; exists v; split; auto.
Qed.
Theorem C21_bar : jdesc bar bar_codec bar_dom.
Proof.
  set (dm := fun (m : mem bar) (x : m_ty m) => exists v, m_get m v = x /\ bar_dom v).
  apply jd_sub with (dom := fun v => Forall (memb_in dm v) Lbar).
  - apply jd_object.
    + intros b m [<-|[<-|[<-|[]]]] [<-|[]]; apply rchars_ascii; reflexivity.
    + intros b m [<-|[<-|[<-|[]]]] [<-|[]].
      * apply jd_sub with (Forall (fun p => utf8 (fst p) /\ Forall (opt_dom (irange i16)) (snd p))).
        -- apply jd_map; [apply kd_string|]. apply jd_vector. apply (jd_pointer _ _ 0 (irange i16)). apply jd_int, i16_ok.
        -- intros x (v & <- & H). apply H.
      * apply jd_sub with (fun _ => True); [|auto]. apply jd_key, kd_enum. repeat constructor; apply rchars_ascii; reflexivity.
      * eapply jd_sub; [apply jd_quoted, foo_jdesc|]. intros x (v & <- & H). apply H.
  - intros v Hv. repeat constructor; exists v; split; auto.
Qed.
Print Assumptions C21_bar.
Lemma utf8_ascii t : forallb (fun c => (0 <=? c) && (c <=? 127)) t = true -> utf8 t.
Proof.
  induction t as [|c t IH]; intros H; [constructor|]. cbn in H. apply andb_prop in H. destruct H as (H & Ht).
  assert (E : [c] = utf8_encode c) by (unfold utf8_encode; destruct (Z.ltb_spec c 128); [reflexivity|lia]).
  change (c :: t) with ([c] ++ t). rewrite E. constructor; [split; lia|auto].
Qed.
Example C21_ex_all : bar_dom bar1.
Proof.
  split; [|split; [|split]].
  - repeat constructor; try (apply utf8_ascii; reflexivity); vm_compute; intuition discriminate.
  - vm_compute; intuition discriminate.
  - vm_compute; intuition discriminate.
  - apply utf8_ascii. reflexivity.
Qed.
Definition bar_rdom (v : bar) : Prop :=
  Forall (fun p => str_dom (fst p) /\ Forall (opt_dom (irange i16)) (snd p)) (bm v) /\ sorted_lt (klt str_lt) (bm v) /\
  In (be v) [1; 2] /\ (int_dom i32 (fa (bq v)) /\ int_dom i32 (fb (bq v)) /\ str_dom (fs (bq v)) /\ utf8 (fs (bq v))) /\
  (forall txt, writes (foo_codec Nonstrict) (bq v) txt -> dist txt <= INT_MAX).
Lemma foo_rdesc mode : rdesc foo (foo_codec mode) foo_dom.
Proof.
  set (dm := fun (m : mem foo) (x : m_ty m) => exists v, m_get m v = x /\ foo_dom v).
  apply rd_sub with (dom := fun v => Forall (memb_rin dm v) Lfoo).
  - apply rd_object; [exact Lfoo_covers|repeat constructor|repeat constructor| |].
    + intros b Hb. destruct Lfoo_ok as (_ & H). unfold names in H. rewrite Forall_map, Forall_forall in H. now apply H.
    + intros b m [<-|[<-|[<-|[]]]] [<-|[]].
      * apply rd_sub with (int_dom i32); [apply rd_int, i32_ok|]. intros x (v & <- & H). apply H.
      * apply rd_sub with (int_dom i32); [apply rd_int, i32_ok|]. intros x (v & <- & H). apply H.
      * apply rd_sub with str_dom; [apply rd_string|]. intros x (v & <- & H). apply H.
  - intros v Hv. repeat constructor; exists v; split; auto.
Qed.
Lemma int_not_null t v : ity_ok t -> irange t v -> not_starting (int_codec t) 110 v.
Proof.
  intros Ht Hv txt (ops & E & <-) (z & Z). destruct (int_ser_numeral t v Ht Hv) as (s & Es & Hn). cbn [ser int_codec] in E.
  assert (X : ops = wr s) by congruence. rewrite X, flat_wr in Z. destruct (rnumber_head s (numeral_rnumber v s Hn)) as (h & y & -> & Hh).
  injection Z as Z1 Z2. unfold s_digit in Hh. lia.
Qed.
Theorem C64_bar : rdesc bar bar_codec bar_rdom.
Proof.
  set (dm := fun (m : mem bar) (x : m_ty m) => exists v, m_get m v = x /\ bar_rdom v).
  apply rd_sub with (dom := fun v => Forall (memb_rin dm v) Lbar).
  - apply rd_object.
    + intros [? ? ?] [? ? ?]. reflexivity.
    + repeat constructor.
    + repeat constructor.
    + intros b [<-|[<-|[<-|[]]]]; repeat constructor; cbn; discriminate.
    + intros b m [<-|[<-|[<-|[]]]] [<-|[]].
      * apply rd_sub with (fun l => Forall (fun p => str_dom (fst p) /\ Forall (opt_dom (irange i16)) (snd p)) l /\ sorted_lt (klt str_lt) l).
        -- apply rd_map; [exact str_lt_swo|apply rd_string|]. apply rd_vector. eapply rd_sub; [apply (rd_pointer _ _ 0 (int_dom i16)), rd_int, i16_ok|].
           intros [x|] Hx; [|exact I]. cbn in Hx. split; [|apply int_not_null; [apply i16_ok|exact Hx]]. split; [exact Hx|]. left. left. reflexivity.
        -- intros x (v & <- & H1 & H2 & _). now split.
      * eapply rd_sub; [apply rd_enum|].
        -- repeat constructor; cbn; intuition discriminate.
        -- repeat constructor; cbn; lia.
        -- intros x (v & <- & _ & _ & H & _). exact H.
      * eapply rd_sub; [apply rd_quoted_json with (dom := fun v => foo_dom v /\ utf8 (fs v))|].
        -- eapply rd_sub; [apply foo_rdesc|]. intros v Hv. exact (proj1 Hv).
        -- eapply jd_sub; [apply foo_jdesc|]. intros v ((A & B & _) & D). exact (conj (proj1 A) (conj (proj1 B) D)).
        -- intros x (v & <- & _ & _ & _ & (A & B & C & D) & E). split; [|exact E]. exact (conj (conj A (conj B C)) D).
  - intros v Hv. repeat constructor; exists v; split; auto.
Qed.
Print Assumptions C64_bar.
(** a member_if (int or string under one name) inside objects inside a vector,
    and the same struct written as an array *)
Definition alt_dom (v : foo) : Prop :=
  int_dom i32 (fb v) /\ if Z.eqb 0 (fa v) then str_dom (fs v) else int_dom i32 (fa v) /\ fs v = [].
Theorem C64_member_if_nested : forall mode,
  rdesc _ (vector_codec (object_codec mode (Lif false) foo0) foo0) (Forall alt_dom) /\
  rdesc _ (vector_codec (oarray_codec (Lif false) foo0) foo0) (Forall alt_dom).
Proof.
  intros mode. set (dm := fun (m : mem foo) (x : m_ty m) => exists v, m_get m v = x /\ alt_dom v).
  assert (S0 : str_dom []) by (split; [constructor|unfold dist; cbn; discriminate]).
  assert (Hs : forall v, alt_dom v -> str_dom (fs v)).
  { intros v (_ & H). destruct (Z.eqb 0 (fa v)); [exact H|]. destruct H as (_ & ->). exact S0. }
  assert (Hi : forall v, alt_dom v -> int_dom i32 (fa v)).
  { intros v (_ & H). destruct (Z.eqb 0 (fa v)) eqn:E; [|apply H]. assert (fa v = 0) as -> by lia. split; [vm_compute; intuition discriminate|right; vm_compute; discriminate]. }
  assert (Hd : forall v, alt_dom v -> Forall (memb_rin dm v) (Lif false)).
  { intros v Hv. constructor; [split; [now exists v|exact I]|]. constructor; [|constructor].
    unfold memb_rin, memb_in. cbn [m_get sa ms m_codec]. destruct Hv as (Hv1 & H).
    split; [destruct (Z.eqb 0 (fa v)) eqn:E; exists v; unfold alt_dom; rewrite E; auto|]. destruct (Z.eqb 0 (fa v)) eqn:E.
    - intros sn old r e. assert (fa v = 0) as -> by lia. reflexivity.
    - destruct H as (_ & ->). intros sn old r e. reflexivity. }
  assert (Ha : Forall (alts_ok dm) (Lif false)).
  { constructor; [exact I|]. constructor; [|constructor]. cbn. split; [exists 0; intros sn old r e; reflexivity|].
    split; [exists []; intros sn old r e; reflexivity|]. split; [intros t x y; reflexivity|]. split; [intros t x y; reflexivity|].
    split; [reflexivity|]. split; [|discriminate]. intros _ v txt _ (o & E & <-).
    cbn [ser string_codec] in E. unfold str_ser in E. apply bind_ok in E. destruct E as (b & _ & E).
    assert (X : flat o = QT :: flat (tl o)) by (injection E as <-; reflexivity). rewrite X. intros sn old r Hr. cbn [app].
    unfold int32. cbn [des int_codec]. unfold int_des. cbn. do 3 eexists. split; reflexivity. }
  assert (Hm : forall b m, In b (Lif false) -> In m (mems_of b) -> rdesc _ (m_codec m) (dm m)).
  { assert (Ri : rdesc _ int32 (int_dom i32)) by apply rd_int, i32_ok. intros b m [<-|[<-|[]]].
    - intros [<-|[]]. apply (rd_sub _ _ _ _ Ri). intros x (v & <- & H & _). exact H.
    - intros [<-|[<-|[]]].
      + apply (rd_sub _ _ _ _ Ri). intros x (v & <- & H). apply Hi, H.
      + apply (rd_sub _ _ _ _ rd_string). intros x (v & <- & H). apply Hs, H. }
  assert (Hc : covers (Lif false)) by (intros [? ? ?] [? ? ?]; reflexivity).
  split; apply rd_vector.
  - apply rd_sub with (fun v => Forall (memb_rin dm v) (Lif false)); [|exact Hd]. apply rd_object; [exact Hc|exact Ha|repeat constructor| |exact Hm].
    intros b [<-|[<-|[]]]; repeat constructor; cbn; discriminate.
  - apply rd_sub with (fun v => Forall (memb_rin dm v) (Lif false)); [|exact Hd]. apply rd_object_array; [exact Hc|exact Ha|exact Hm].
Qed.
Print Assumptions C64_member_if_nested.
Example C64_ex_if : let c := vector_codec (object_codec Nonstrict (Lif false) foo0) foo0 in
  let v := [mkfoo 0 3 (text "x"); mkfoo 4 5 []] in
  exists ops, ser c v = Ok ops /\ flat ops = jt "[{'b':3,'foo':'x'},{'b':5,'foo':4}]" /\ des c None [] (flat ops) clean = Ok (v, [], clean).
Proof. eexists. split; [exq|]. split; exq. Qed.
Example C52_ex_all : plain_desc _ (vector_codec (quoted_codec (ptr_codec int32 0) true true) None) /\
  exists ops, ser (vector_codec (quoted_codec (ptr_codec int32 0) true true) None) [None; Some 7] = Ok ops /\
    flat ops = jt "['null','7']" /\ snd (ptr_run ops (fun _ => None) 100) = 112 /\ fst (ptr_run ops (fun _ => None) 100) 102 = Some 110.
Proof. split; [apply pd_vector, pd_quoted|]. eexists. split; [exq|]. split; [exq|]. split; exq. Qed.
Example C59_ex_all : safe_desc _ (vector_codec (ptr_codec (int_codec i16) 0) None) /\
  des (vector_codec (ptr_codec (int_codec i16) 0) None) (Some 0) [] (text "[99999, nu") clean =
  Ok ([Some (-31073); None], [], Some (mkerr UnexpectedEndFragment None 0)).
Proof. split; [|exq]. apply bt_vector, bt_pointer, bt_base, sl_int; [apply i16_ok|left; reflexivity]. Qed.
