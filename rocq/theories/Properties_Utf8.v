(** C115: texts in UTF-8. *)
From Verif Require Import Base Parser SpecJson SpecNum SpecSeq SpecString ParserFacts Out Number StringS Array Object ObjectArray SpecObject Enum SpecEnum Wrap TimeSize Float
  CodecLaws NumberProofs StringProofs ArrayProofs WrapProofs ExactProofs WrapExactProofs SpecExact Desc DescProofs SpecType SpecSettle SettleProofs SpecUtf8 Utf8Proofs Properties_Seq Properties_Object Properties_Desc Properties_Enum Properties_Settle.
Import ListNotations.

(** ---- C115 ---- *)
(** A string read from a text in UTF-8 is UTF-8, and so is what is left of the
    text, unless an escape stands for half of a surrogate pair or for a byte. *)
Theorem C115_string : forall sn old s v r, bytes s -> text8 s -> SpecExact.reads string_codec sn old s v r -> utf8 v /\ utf8 r.
Proof. exact string_utf8. Qed.
Print Assumptions C115_string.
(** So is the text in a char array: what does not fit is refused. *)
Theorem C115_chars : forall N sn old s v r, bytes s -> text8 s -> SpecExact.reads (chars_codec N) sn old s v r -> utf8 v /\ utf8 r.
Proof. exact chars_utf8. Qed.
Print Assumptions C115_chars.
(** What a raw value keeps of a text in UTF-8 is UTF-8. *)
Theorem C115_raw : forall sn old s v r, bytes s -> text8 s -> SpecExact.reads raw_codec sn old s v r -> utf8 v /\ utf8 r.
Proof. intros sn old s v r Hb Ht E. apply raw_exact in E; [|exact Hb]. destruct E as (-> & Hv & _). now apply raw_utf8. Qed.
Print Assumptions C115_raw.
(** So are the strings and raw values anywhere inside what any description reads
    from such a text ... *)
Theorem C115_leaves : hdesc text8 _ string_codec (fun _ => True) utf8 /\ hdesc text8 _ raw_codec (fun _ => True) (fun v => wvalue v /\ utf8 v) /\
  forall N, hdesc text8 _ (chars_codec N) (fun _ => True) utf8.
Proof.
  split; [|split; [|intros N]]; apply hd_known; [exact string_dlaw| |exact WrapProofs.raw_dlaw| |exact (chars_dlaw N)|].
  - intros sn old s v r Hb Ht _ E. now apply (C115_string sn old s v r).
  - intros sn old s v r Hb Ht _ E. split; [|now apply (C115_raw sn old s v r)]. apply raw_exact in E; [|exact Hb]. apply E.
  - intros sn old s v r Hb Ht _ E. now apply (C115_chars N sn old s v r).
Qed.
Print Assumptions C115_leaves.
Theorem C115_read : forall A (c : codec A) O G, hdesc text8 A c O G ->
  forall sn old s v r, bytes s -> utf8 s -> no_half s -> O old -> SpecExact.reads c sn old s v r -> G v.
Proof.
  intros A c O G H sn old s v r Hb Hu Hn Ho E. destruct (hdesc_holds text8 A c O G H text8_closed) as [_ HR]. apply (HR sn old s v r Hb); auto.
  split; [now exists []|exact Hn].
Qed.
Print Assumptions C115_read.
(** ... and the text written for it afterwards. *)
Theorem C115_written : forall A (c : codec A) dom, jdesc A c dom -> forall v, dom v -> exists ops, ser c v = Ok ops /\ utf8 (flat ops).
Proof. intros A c dom H v Hv. destruct (C21_all_descriptions A c dom H v Hv) as (ops & E & K & _). exists ops. split; [exact E|]. now apply (proj1 rjson_utf8). Qed.
Print Assumptions C115_written.
Theorem C115_exchange : forall A (c : codec A) O G, hdesc text8 A c O G -> jdesc A c G ->
  forall sn old s v r, bytes s -> utf8 s -> no_half s -> O old -> SpecExact.reads c sn old s v r ->
  exists ops, ser c v = Ok ops /\ utf8 (flat ops).
Proof. intros A c O G H J sn old s v r Hb Hu Hn Ho E. apply (C115_written A c G J). now apply (C115_read A c O G H sn old s v r). Qed.
Print Assumptions C115_exchange.
(** A surrogate pair is read as two halves, which are not UTF-8 ... *)
Theorem C115_pair_refuted : exists s v, bytes s /\ utf8 s /\ smean s (utf8_encode 128512) /\ SpecExact.reads string_codec None [] s v [] /\ ~ utf8 v.
Proof.
  exists (jt "'\ud83d\ude00'"), [237; 160; 189; 237; 184; 128]. split; [vm_compute; repeat (apply Forall_cons; [split; discriminate|]); apply Forall_nil|].
  split; [apply low_utf8; vm_compute; repeat (apply Forall_cons; [split; [discriminate|reflexivity]|]); apply Forall_nil|].
  split; [|split; [exq|apply not_utf8; lia]].
  change (smean (QT :: (text "\ud83d\ude00" ++ []) ++ [QT]) (utf8_encode 128512)). constructor. rewrite <- (app_nil_r (utf8_encode 128512)).
  apply lm_cons; [|constructor]. apply (cm_pair 100 56 51 100 100 101 48 48); unfold s_hex, hex4; cbn; lia.
Qed.
Print Assumptions C115_pair_refuted.
(** ... an \x escape as one byte ... *)
Theorem C115_byte_refuted : exists s v, bytes s /\ utf8 s /\ SpecExact.reads string_codec None [] s v [] /\ ~ utf8 v.
Proof.
  exists (jt "'\xe9'"), [233]. split; [vm_compute; repeat (apply Forall_cons; [split; discriminate|]); apply Forall_nil|].
  split; [apply low_utf8; vm_compute; repeat (apply Forall_cons; [split; [discriminate|reflexivity]|]); apply Forall_nil|].
  split; [exq|]. apply not_utf8_cut with 2%nat; [constructor; lia|cbn; lia].
Qed.
Print Assumptions C115_byte_refuted.
(** A char array that is too short keeps part of a character; that is reported. *)
Example C115_ex_short : des (chars_codec 2) None [0; 0] (QT :: [226; 130; 172] ++ [QT]) clean = Ok ([226; 130], [], Some (mkerr ExpectedOf (Some [QT]) 2)) /\ ~ utf8 [226; 130].
Proof. split; [exq|]. apply not_utf8_cut with 2%nat; [constructor; lia|cbn; lia]. Qed.
(** Bytes that are not UTF-8 may be read, kept and written without an error. *)
Theorem C115_overlong_refuted : exists s v ops, bytes s /\ SpecExact.reads string_codec None [] s v [] /\ ~ utf8 v /\ ser string_codec v = Ok ops /\ flat ops = s /\ ~ utf8 s.
Proof.
  exists (QT :: [192; 128] ++ [QT]), [192; 128]. eexists. split; [repeat (apply Forall_cons; [split; discriminate|]); apply Forall_nil|].
  split; [exq|]. split; [apply not_utf8; lia|]. split; [exq|]. split; [exq|]. cbn [app]. intros H. apply utf8_low in H; [|lia]. revert H. intros [_ H]. revert H. apply not_utf8; lia.
Qed.
Print Assumptions C115_overlong_refuted.
(** a concrete case: a map of lists of strings *)
Definition words_codec := map_codec str_lt string_codec (vector_codec string_codec []) ([], []).
Definition words_in (l : list (buf * list buf)) : Prop := Forall (fun p => utf8 (fst p) /\ Forall utf8 (snd p)) l.
Lemma words_hdesc : hdesc text8 _ words_codec (fun _ => True) words_in.
Proof.
  eapply hd_conv; [apply (hd_map text8 _ _ str_lt string_codec (vector_codec string_codec []) ([], []) (fun _ => True) utf8 (fun _ => True) (Forall utf8))|auto|intros v H; apply H]; auto.
  - exact str_lt_swo.
  - exact (proj1 C115_leaves).
  - apply hd_vector with (fun _ => True); [exact (proj1 C115_leaves)|exact I].
Qed.
Lemma words_jdesc : jdesc _ words_codec words_in.
Proof. apply jd_map; [apply kd_string|]. apply jd_vector. apply jd_key, kd_string. Qed.
Definition words := LCB :: QT :: 226 :: 130 :: 172 :: QT :: jt ":['\u20ac\n\u0001',null]}".
Example C115_ex : bytes words /\ utf8 words /\ no_half words /\
  SpecExact.reads words_codec None [] words [([226; 130; 172], [[226; 130; 172; 10] ++ text "\u0001"; []])] [] /\
  exists ops, ser words_codec [([226; 130; 172], [[226; 130; 172; 10] ++ text "\u0001"; []])] = Ok ops /\ utf8 (flat ops).
Proof.
  assert (B : bytes words) by (vm_compute; repeat (apply Forall_cons; [split; discriminate|]); apply Forall_nil).
  assert (U : utf8 words).
  { apply utf8_cons; [lia|]. apply utf8_cons; [lia|]. apply (u8_cons 8364 (QT :: jt ":['\u20ac\n\u0001',null]}")); [unfold scalar; lia|]. apply low_utf8. vm_compute. repeat (apply Forall_cons; [split; [discriminate|reflexivity]|]). apply Forall_nil. }
  assert (N : no_half words) by now apply halves_no.
  assert (E : SpecExact.reads words_codec None [] words [([226; 130; 172], [[226; 130; 172; 10] ++ text "\u0001"; []])] []) by (unfold SpecExact.reads; exq).
  split; [exact B|]. split; [exact U|]. split; [exact N|]. split; [exact E|]. exact (C115_exchange _ _ _ _ words_hdesc words_jdesc None [] words _ [] B U N I E).
Qed.
