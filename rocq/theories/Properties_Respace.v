(** C75: the gaps between the tokens do not influence a typed reading. *)
From Verif Require Import Base Parser SpecJson Grammar1 Grammar2 SpecDespace Out Number StringS SpecString Array Object ObjectArray SpecObject Enum Wrap Float TimeSize SpecMisc
  FloatProofs Desc CodecLaws SpecSeq SpecEnd SpecReport DespaceProofs SpecRespace RespaceProofs Properties_Seq Properties_Object Properties_Misc Properties_Desc.

(** Two texts with the same tokens ([layout]: tokens with any gaps between
    them; well-formed or not) are read alike: same value, same rest, or both
    report an error. *)
Theorem C75_gaps : forall (fx : Prop) A (c : codec A), gdesc fx A c -> forall ts s s' b old,
  apart ts -> (fx -> no_trailing ts) -> layout s ts -> layout s' ts -> at_token s -> at_token s' ->
  same_reading (des c (Some b) old s clean) (des c (Some b) old s' clean).
Proof.
  intros fx A c Hc ts s s' b old HA HN HL HL' H0 H0'. apply (rr_reading fx _ s s').
  - apply (gdesc_sim fx A c Hc b). left. split; [now split|]. apply (twin_at fx ts); auto. now apply layout_twin.
  - apply C59_all_terminate. now apply (gdesc_desc fx).
Qed.
Print Assumptions C75_gaps.

(** In particular removing the gaps with parser::despace before a typed reading
    changes nothing, for every document the parser accepts. *)
Theorem C75_despace : forall A (c : codec A), gdesc False A c -> forall g1 v g2 b old, wvalue v -> gap g1 -> gap g2 ->
  exists w, despace (g1 ++ v ++ g2) clean = Ok ([], w, clean) /\ same_reading (des c (Some b) old (v ++ g2) clean) (des c (Some b) old w clean).
Proof.
  intros A c Hc g1 v g2 b old Hv H1 H2. destruct (proj1 doc_apart v Hv) as (ts & L1 & L2 & HA). exists (concat ts).
  assert (wvalue (concat ts)) as Hw.
  { destruct (despace_document g1 v g2 clean Hv H1 H2 eq_refl) as (w & D & W & _). rewrite (despace_tokens _ ts) in D; [congruence| |reflexivity].
    now apply lay_doc. }
  split; [apply despace_tokens; [now apply lay_doc|reflexivity]|].
  apply (C75_gaps False A c Hc ts); [exact HA|intros []|now apply (lay_doc v ts [] g2 L1 g_nil)|now apply lay_at| |now apply (lay_at _ ts)].
  destruct (wvalue_head v Hv) as (d & t & -> & Hd). cbn. unfold vstart, s_ws, s_digit in *. lia.
Qed.
Print Assumptions C75_despace.
(** With std::array and C arrays too when the document is RFC 8259 JSON. *)
Theorem C75_despace_rfc : forall A (c : codec A), gdesc True A c -> forall g1 v g2 b old, rvalue v -> gap g1 -> gap g2 ->
  exists w, despace (g1 ++ v ++ g2) clean = Ok ([], w, clean) /\ same_reading (des c (Some b) old (v ++ g2) clean) (des c (Some b) old w clean).
Proof.
  intros A c Hc g1 v g2 b old Hv H1 H2. destruct (proj1 rfc_fine v Hv) as (ts & L1 & L2 & HA & HF). exists (concat ts).
  apply rfc_wjson in Hv. assert (wvalue (concat ts)) as Hw.
  { destruct (despace_document g1 v g2 clean Hv H1 H2 eq_refl) as (w & D & W & _). rewrite (despace_tokens _ ts) in D; [congruence| |reflexivity].
    now apply lay_doc. }
  split; [apply despace_tokens; [now apply lay_doc|reflexivity]|].
  apply (C75_gaps True A c Hc ts); [exact HA|intros _; apply HF|now apply (lay_doc v ts [] g2 L1 g_nil)|now apply lay_at| |now apply (lay_at _ ts)].
  destruct (wvalue_head v Hv) as (d & t & -> & Hd). cbn. unfold vstart, s_ws, s_digit in *. lia.
Qed.
Print Assumptions C75_despace_rfc.

(** A struct with a vector of doubles, an optional and a fixed-size array. *)
Record deal := mkdeal { dl_p : list buf; dl_o : option Z; dl_a : vec Z 2 }.
Definition Ldeal : list (memb deal) :=
  [MRef (mkmem (text "p") dl_p (fun t x => mkdeal x (dl_o t) (dl_a t)) (vector_codec (dbl 2) []));
   MRef (mkmem (text "o") dl_o (fun t x => mkdeal (dl_p t) x (dl_a t)) (ptr_codec int32 0));
   MRef (mkmem (text "a") dl_a (fun t x => mkdeal (dl_p t) (dl_o t) x) (std_array_codec int32 0 2))].
Definition deal_codec := object_codec Strict Ldeal (mkdeal [] None (0, (0, tt))).
Lemma C75_deal : gdesc True _ deal_codec.
Proof.
  apply gd_object.
  - intros b m [<-|[<-|[<-|[]]]] [<-|[]]; (apply (wcs_cons [_] []); [apply wc_plain; vm_compute; intuition congruence|constructor]).
  - intros b m [<-|[<-|[<-|[]]]] [<-|[]].
    + apply gd_vector. apply (gd_float _ _ _ _ _ (fun t => t)). exact scan_text_law.
    + apply gd_pointer. apply gd_int.
    + apply gd_std_array; [exact I|lia| |apply gd_int]. intros sn old r e. eexists _, _. reflexivity.
Qed.
Example C75_ex_read :
  let v := jt "{ 'p' : [1.5 , -2e3],/* nothing */ 'o':null , 'a' : [ 7 ,8 ]}" in
  let w := jt "{'p':[1.5,-2e3],'o':null,'a':[7,8]}" in
  despace v clean = Ok ([], w, clean) /\
  des deal_codec (Some 0) (mkdeal [] (Some 4) (1, (2, tt))) v clean = Ok (mkdeal [text "1.5"; text "-2e3"] None (7, (8, tt)), [], clean) /\
  des deal_codec (Some 0) (mkdeal [] (Some 4) (1, (2, tt))) w clean = Ok (mkdeal [text "1.5"; text "-2e3"] None (7, (8, tt)), [], clean).
Proof. repeat split; exq. Qed.
(** malformed texts: both report an error and leave the same value *)
Example C75_ex_fail :
  des (vector_codec int32 0) (Some 0) [] (text "[1 2") clean = Ok ([1], [], Some (expected [COMMA] (text "2"))) /\
  des (vector_codec int32 0) (Some 0) [] (text "[ 1/**/2 ") clean = Ok ([1], [], Some (expected [COMMA] (text "2 "))).
Proof. repeat split; exq. Qed.

(** Every condition is needed.  The witnesses have the same tokens. *)
Definition differ {A} (c : codec A) old (s s' : buf) : Prop := ~ same_reading (des c (Some 0) old s clean) (des c (Some 0) old s' clean).
Lemma lay_p c s ts : punct c -> layout s ts -> layout (c :: s) ([c] :: ts).
Proof. intros Hc H. apply (lay_tok [] [c] s ts g_nil (tk_punct c Hc)); [|exact H]. intros X. now apply punct_not_num in X. Qed.
Lemma lay_d d s ts : s_digit d -> num_stop [d] s -> layout s ts -> layout (d :: s) ([d] :: ts).
Proof.
  intros Hd Hs H. apply (lay_tok [] [d] s ts g_nil); [|intros _; exact Hs|exact H]. apply tk_num.
  apply (rnum [] [d] [] []); [constructor| |constructor|constructor]. unfold s_digit in Hd. destruct (Z.eq_dec d 48) as [E|N]; [rewrite E; constructor|].
  apply (ri_pos d []); [lia|constructor].
Qed.
Lemma lay_sp s ts : layout s ts -> layout (32 :: s) ts.
Proof.
  intros H. assert (s_ws 32) as W by (unfold s_ws; lia). destruct H as [g Hg|g t s ts Hg Ht Hn HL].
  - apply lay_end. now apply g_ws.
  - apply (lay_tok (32 :: g)); auto. now apply g_ws.
Qed.
Ltac pin := unfold punct; cbn; tauto.
Ltac dg := apply lay_d; [unfold s_digit; lia|apply follow_num_stop; cbn; unfold s_digit; lia|].
Lemma apart_n d c ts : punct c -> apart ([c] :: ts) -> apart (d :: [c] :: ts).
Proof. intros Hc H. split; [intros _; now exists c|exact H]. Qed.
Ltac lays := repeat first [apply lay_end; constructor|apply lay_sp|apply lay_p; [pin|]|dg].
Ltac aparts := repeat first [apply apart_first; [pin|]|apply apart_n; [pin|]|exact I].
Ltac differs := unfold differ; vm_compute; intros H; decompose [and or] H; try discriminate.
(** fixed-size arrays: a trailing comma only directly in front of the bracket *)
Theorem C75_trailing_refuted : exists ts s s', apart ts /\ layout s ts /\ layout s' ts /\ at_token s /\ at_token s' /\
  differ (std_array_codec int32 0 2) (0, (0, tt)) s s' /\ differ (c_array_codec int32 2) (0, (0, tt)) s s'.
Proof.
  exists [[LBR]; [49]; [COMMA]; [50]; [COMMA]; [RBR]], (text "[1,2,]"), (text "[1,2, ]").
  split; [aparts|]. split; [lays|]. split; [lays|]. split; [cbn; unfold s_ws; lia|]. split; [cbn; unfold s_ws; lia|]. split; differs.
Qed.
Print Assumptions C75_trailing_refuted.
(** an array without elements: no gap between its brackets *)
Theorem C75_no_elements_refuted : exists ts s s', apart ts /\ no_trailing ts /\ layout s ts /\ layout s' ts /\ at_token s /\ at_token s' /\
  differ (std_array_codec int32 0 0) tt s s'.
Proof.
  exists [[LBR]; [RBR]], (text "[]"), (text "[ ]").
  split; [aparts|]. split; [split; [discriminate|exact I]|]. split; [lays|]. split; [lays|]. split; [cbn; unfold s_ws; lia|]. split; [cbn; unfold s_ws; lia|]. differs.
Qed.
Print Assumptions C75_no_elements_refuted.
(** raw values keep the gaps *)
Theorem C75_raw_refuted : exists ts s s', apart ts /\ no_trailing ts /\ layout s ts /\ layout s' ts /\ at_token s /\ at_token s' /\
  differ raw_codec [] s s'.
Proof.
  exists [[LBR]; [49]; [RBR]], (text "[1]"), (text "[1 ]").
  split; [aparts|]. split; [split; [discriminate|split; [discriminate|exact I]]|]. split; [lays|]. split; [lays|]. split; [cbn; unfold s_ws; lia|]. split; [cbn; unfold s_ws; lia|]. differs.
Qed.
Print Assumptions C75_raw_refuted.
(** floating-point numbers see the digits behind a zero *)
Theorem C75_apart_refuted : exists ts s s', layout s ts /\ layout s' ts /\ at_token s /\ at_token s' /\ differ (dbl 2) [] s s'.
Proof.
  exists [[48]; [53]], (text "05"), (text "0 5").
  split; [apply lay_d; [unfold s_digit; lia|cbn; split; [now left|split; [discriminate|intros [X|X]; discriminate]]|lays]|]. split; [lays|]. split; [cbn; unfold s_ws; lia|]. split; [cbn; unfold s_ws; lia|]. differs.
Qed.
Print Assumptions C75_apart_refuted.
(** the caller skips the gap in front of the value *)
Theorem C75_start_refuted : exists ts s s', apart ts /\ layout s ts /\ layout s' ts /\ differ int32 0 s s'.
Proof. exists [[49]], (text "1"), (text " 1"). split; [exact I|]. split; [lays|]. split; [lays|]. differs. Qed.
Print Assumptions C75_start_refuted.

(** The left-out readers look for the next quote, escaped or not, and read on
    behind the string. *)
Lemma lay_str l s ts : wchars l -> layout s ts -> layout (QT :: l ++ QT :: s) ((QT :: l ++ [QT]) :: ts).
Proof.
  intros Hl H. replace (QT :: l ++ QT :: s) with ([] ++ (QT :: l ++ [QT]) ++ s) by (cbn [app]; now rewrite <- app_assoc).
  apply lay_tok; [constructor|apply tk_str; now constructor| |exact H]. intros N. destruct (rnumber_head _ N) as (c & t & E & Hc). injection E as <- _. destruct Hc as [Hc|Hc]; [discriminate|unfold s_digit in Hc; lia].
Qed.
Lemma lay_true s ts : layout s ts -> layout (text "true" ++ s) (text "true" :: ts).
Proof.
  intros H. apply (lay_tok []); [constructor|constructor| |exact H]. intros N. destruct (rnumber_head _ N) as (c & t & E & Hc). injection E as <- _. destruct Hc as [Hc|Hc]; [discriminate|unfold s_digit in Hc; lia].
Qed.
Ltac wc := repeat first [apply wcs_nil|apply (wcs_cons [BSL; _]); [apply wc_esc; unfold s_esc; cbn; tauto|]|apply (wcs_cons [_]); [apply wc_plain; lia|]].
Definition esc_tok : buf := [97; BSL; QT; COMMA].
Lemma esc_tok_wchars : wchars esc_tok. Proof. unfold esc_tok. wc. Qed.
Lemma comma_wchars : wchars [COMMA]. Proof. wc. Qed.
Theorem C75_nonstrict_enum_refuted : exists ts s s', apart ts /\ no_trailing ts /\ layout s ts /\ layout s' ts /\ at_token s /\ at_token s' /\
  differ (vector_codec (enum_codec Nonstrict [([COMMA], 1)]) 0) [] s s'.
Proof.
  exists [[LBR]; QT :: esc_tok ++ [QT]; [COMMA]; QT :: [COMMA] ++ [QT]; [RBR]], (jt "['a\',',',']"), (jt "['a\',' ,',']").
  split; [repeat split; intros N; apply rnumber_head in N; destruct N as (? & ? & E & [Hc|Hc]); injection E as <- _; try discriminate; unfold s_digit in Hc; lia|]. split; [repeat split; discriminate|].
  split; [apply lay_p; [pin|]; apply (lay_str esc_tok); [apply esc_tok_wchars|]; apply lay_p; [pin|]; apply (lay_str [COMMA]); [apply comma_wchars|lays]|].
  split; [apply lay_p; [pin|]; apply (lay_str esc_tok); [apply esc_tok_wchars|]; apply lay_sp; apply lay_p; [pin|]; apply (lay_str [COMMA]); [apply comma_wchars|lays]|].
  split; [cbn; unfold s_ws; lia|]. split; [cbn; unfold s_ws; lia|]. differs.
Qed.
Print Assumptions C75_nonstrict_enum_refuted.
Theorem C75_flags_refuted : exists ts s s', apart ts /\ no_trailing ts /\ layout s ts /\ layout s' ts /\ at_token s /\ at_token s' /\
  differ (vector_codec (flags_codec COMMA Nonstrict [(text "true:", 1)]) 0) [] s s'.
Proof.
  exists [[LBR]; QT :: esc_tok ++ [QT]; text "true"; [COLON]; QT :: [COMMA] ++ [QT]; [RBR]], (jt "['a\','true:',']"), (jt "['a\','true :',']").
  split; [repeat split; intros N; apply rnumber_head in N; destruct N as (? & ? & E & [Hc|Hc]); injection E as <- _; try discriminate; unfold s_digit in Hc; lia|]. split; [repeat split; discriminate|].
  split; [apply lay_p; [pin|]; apply (lay_str esc_tok); [apply esc_tok_wchars|]; apply (lay_true (COLON :: jt "',']")), lay_p; [pin|]; apply (lay_str [COMMA]); [apply comma_wchars|lays]|].
  split; [apply lay_p; [pin|]; apply (lay_str esc_tok); [apply esc_tok_wchars|]; apply (lay_true (32 :: COLON :: jt "',']")), lay_sp, lay_p; [pin|]; apply (lay_str [COMMA]); [apply comma_wchars|lays]|].
  split; [cbn; unfold s_ws; lia|]. split; [cbn; unfold s_ws; lia|]. differs.
Qed.
Print Assumptions C75_flags_refuted.
Theorem C75_time_refuted : exists ts s s', apart ts /\ no_trailing ts /\ layout s ts /\ layout s' ts /\ at_token s /\ at_token s' /\
  differ (time_codec (mkity 8 true) 1000) 0 s s'.
Proof.
  exists [QT :: text "5mk" ++ [QT]; QT :: text "s" ++ [QT]], (jt "'5mk''s'"), (jt "'5mk' 's'").
  assert (W1 : wchars (text "5mk")) by (change (text "5mk") with [53; 109; 107]; wc). assert (W2 : wchars (text "s")) by (change (text "s") with [115]; wc).
  split; [repeat split; intros N; apply rnumber_head in N; destruct N as (? & ? & E & [Hc|Hc]); injection E as <- _; try discriminate; unfold s_digit in Hc; lia|]. split; [repeat split; discriminate|].
  split; [apply (lay_str (text "5mk")); [exact W1|]; apply (lay_str (text "s")); [exact W2|lays]|].
  split; [apply (lay_str (text "5mk")); [exact W1|]; apply lay_sp; apply (lay_str (text "s")); [exact W2|lays]|].
  split; [cbn; unfold s_ws; lia|]. split; [cbn; unfold s_ws; lia|]. differs.
Qed.
Print Assumptions C75_time_refuted.

(** size_value keeps its place when the number inside its quotes is missing:
    it reports an error without going to the end. *)
Definition loosely_same {A} (x y : res (A * buf * eptr)) : Prop :=
  match x, y with
  | Ok (v, r, e), Ok (v', r', e') => v = v' /\ has_err e = has_err e' /\ ((r = [] /\ r' = []) \/ same_rest r r')
  | UB, UB => True
  | _, _ => False
  end.
Lemma same_loosely A (x y : res (A * buf * eptr)) : same_reading x y -> loosely_same x y.
Proof.
  destruct x as [[[v r] e]| |], y as [[[v' r'] e']| |]; cbn; auto. intros (E & [(-> & -> & H)|(H1 & H2 & H3 & H4)]).
  - auto.
  - split; [exact E|]. split; [congruence|]. now left.
Qed.
Lemma strlen_not_fuel b : strlen b <> Fuel.
Proof. induction b as [|c b IH]; cbn [strlen]; [discriminate|]. destruct (c =? 0); [discriminate|]. destruct (strlen b); cbn [bind]; congruence. Qed.
Theorem C75_size : forall t metric ts s s' b old,
  apart ts -> layout s ts -> layout s' ts -> at_token s -> at_token s' ->
  loosely_same (des (size_codec t metric) (Some b) old s clean) (des (size_codec t metric) (Some b) old s' clean).
Proof.
  intros t metric ts s s' b old HA HL HL' H0 H0'.
  assert (twin0 False s s') as H by (apply (twin_at False ts); auto; apply layout_twin; auto; intros []).
  pose proof (C75_gaps False _ _ (gd_int False t) ts s s' b 0 HA (fun x : False => match x with end) HL HL' H0 H0') as HI.
  destruct H as [|tk ts' z z' Ht Hn _ H].
  { cbn. split; [reflexivity|]. split; [reflexivity|]. now left. }
  cbn [des size_codec]. destruct Ht as [c Hc| | | |n Hn'|l Hl].
  - apply punct_cases in Hc. destruct Hc as [->|[->|[->|[->|[-> | ->]]]]]; cbn; (split; [reflexivity|]; split; [reflexivity|]; now left).
  - cbn. split; [reflexivity|]. split; [reflexivity|]. right. left. exists ts'. now apply (twin_layout False).
  - cbn. split; [reflexivity|]. split; [reflexivity|]. now left.
  - cbn. split; [reflexivity|]. split; [reflexivity|]. now left.
  - destruct (num_first n Hn') as (c & w & -> & _ & F). destruct (F z) as (F1 & F2 & _). destruct (F z') as (F1' & F2' & _).
    unfold size_des. rewrite F1, F2, F1', F2'. cbn [app] in *. now apply same_loosely.
  - destruct Hl as [l Hl]. rewrite !quote_assoc. unfold size_des, chars_des.
    change (is_null (QT :: l ++ QT :: z)) with false. change (is_null (QT :: l ++ QT :: z')) with false.
    change (is_number (QT :: l ++ QT :: z)) with false. change (is_number (QT :: l ++ QT :: z')) with false.
    change (is_string (QT :: l ++ QT :: z)) with true. change (is_string (QT :: l ++ QT :: z')) with true. cbn [negb].
    assert (same_rest z z') as SR by (left; exists ts'; now apply (twin_layout False)).
    destruct (str_unser_fine l (Z.of_nat 32) Hl) as [(w & K)|(w & K)].
    + change clean with clean0. rewrite !K. cbn [bind]. destruct (32 <? length w)%nat; [exact I|]. cbn [bind]. change (has_err clean0) with false. cbv iota.
      destruct (strlen (chars_fill 32 w)) as [x| |] eqn:X; cbn [bind]; [|exact I|now apply strlen_not_fuel in X].
      destruct (int_des i64 (Some 0) 0 x clean0) as [[[v q] e2]| |] eqn:Y; cbn [bind]; [|exact I|now destruct (C59_all_terminate _ _ (bt_base leaf _ _ (lf_int i64)) (Some 0) 0 x clean0)].
      destruct (has_err e2) eqn:Z; [split; [reflexivity|]; split; [reflexivity|]; now right|].
      destruct q as [|c1 q]; [split; [reflexivity|]; split; [reflexivity|]; now right|].
      destruct (size_mult c1 _); [|split; [reflexivity|]; split; [reflexivity|]; now left].
      destruct (iarith i64 (v * z0)) eqn:V; cbn [bind]; [|exact I|now apply iarith_fuel in V]. split; [reflexivity|]. split; [reflexivity|]. now right.
    + change clean with clean0. destruct (K z) as (e & -> & E). destruct (K z') as (e' & -> & E'). cbn [bind].
      destruct (32 <? length w)%nat; [exact I|]. cbn [bind]. rewrite E, E'. split; [reflexivity|]. split; [congruence|]. now left.
Qed.
Print Assumptions C75_size.
(** So two readings of it that fail need not end at the end of the text, and
    containers go on behind it. *)
Theorem C75_size_refuted : exists ts s s', apart ts /\ no_trailing ts /\ layout s ts /\ layout s' ts /\ at_token s /\ at_token s' /\
  differ (size_codec (mkity 8 true) 1) 0 s s' /\
  (exists e, des (size_codec (mkity 8 true) 1) (Some 0) 0 s clean = Ok (0, [COMMA], e) /\ has_err e = true).
Proof.
  exists [QT :: text "x" ++ [QT]; [COMMA]], (jt "'x',"), (jt "'x' ,").
  assert (W1 : wchars (text "x")) by (change (text "x") with [120]; wc).
  split; [repeat split; intros N; apply rnumber_head in N; destruct N as (? & ? & E & [Hc|Hc]); injection E as <- _; try discriminate; unfold s_digit in Hc; lia|]. split; [repeat split; discriminate|].
  split; [apply (lay_str (text "x")); [exact W1|lays]|]. split; [apply (lay_str (text "x")); [exact W1|lays]|].
  split; [cbn; unfold s_ws; lia|]. split; [cbn; unfold s_ws; lia|]. split; [differs|]. eexists. split; exq.
Qed.
Print Assumptions C75_size_refuted.
Example C75_ex_size :
  loosely_same (des (size_codec (mkity 8 true) 1) (Some 0) 0 (jt "'5KiB',7") clean) (des (size_codec (mkity 8 true) 1) (Some 0) 0 (jt "'5KiB' , 7") clean) /\
  des (size_codec (mkity 8 true) 1) (Some 0) 0 (jt "'5KiB' , 7") clean = Ok (5120, text " , 7", clean).
Proof.
  split; [|exq].
  assert (W1 : wchars (text "5KiB")) by (change (text "5KiB") with [53; 75; 105; 66]; wc).
  apply (C75_size _ _ [QT :: text "5KiB" ++ [QT]; [COMMA]; [55]]).
  - repeat split; intros N; apply rnumber_head in N; destruct N as (? & ? & E & [Hc|Hc]); injection E as <- _; try discriminate; unfold s_digit in Hc; lia.
  - apply (lay_str (text "5KiB")); [exact W1|]. apply lay_p; [pin|]. apply lay_d; [unfold s_digit; lia|exact (follow_num_stop [55] [] I)|lays].
  - apply (lay_str (text "5KiB")); [exact W1|]. apply lay_sp, lay_p; [pin|]. apply lay_sp, lay_d; [unfold s_digit; lia|exact (follow_num_stop [55] [] I)|lays].
  - cbn; unfold s_ws; lia.
  - cbn; unfold s_ws; lia.
Qed.
