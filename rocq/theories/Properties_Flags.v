(** C87: which texts flags are read from, which are refused and what is reported. *)
From Verif Require Import Base Parser SpecJson SpecNum SpecString Out Number Object Enum SpecEnum CodecLaws SpecReport SpecExact SpecRefuse SpecFail
  ExactProofs EnumProofs SpecFlags FlagProofs Properties_Seq Properties_Object Properties_Enum Properties_Refuse.

(** The domain of the theorems: a nonempty list of distinct names, none of which
    has quotes, spaces, slashes or the separator in it. *)
Definition flag_list (sep : Z) (L : elist) : Prop := L <> [] /\ NoDup (enames L) /\ sep <> QT /\ Forall (flag_name sep) (enames L).
Theorem C87_reads : forall sep mode L sn old s v r, flag_list sep L -> bytes s ->
  (reads (flags_codec sep mode L) sn old s v r <-> flag_text sep mode L s v (inl r)).
Proof. intros sep mode L sn old s v r (H1 & H2 & H3 & H4). now apply flags_reads. Qed.
Print Assumptions C87_reads.
Theorem C87_faults : forall sep mode L sn old s v r j, flag_list sep L -> bytes s ->
  (faults (flags_codec sep mode L) sn old s v r j <-> flag_text sep mode L s v (inr j) /\ r = []).
Proof. intros sep mode L sn old s v r j (H1 & H2 & H3 & H4). now apply flags_faults. Qed.
Print Assumptions C87_faults.
(** every text has exactly one description *)
Theorem C87_total : forall sep mode L s, flag_list sep L -> bytes s -> exists v o, flag_text sep mode L s v o /\
  forall v' o', flag_text sep mode L s v' o' -> v' = v /\ o' = o.
Proof.
  intros sep mode L s (H1 & H2 & H3 & H4) Hb. destruct (flags_runs sep mode L H1 H3 H4 None 0 s Hb) as (v & o & H & _). exists v, o. split; [exact H|].
  intros v' o'. now apply text_det.
Qed.
Print Assumptions C87_total.

(** ---- concrete cases ---- *)
Example C87_ex_dom : flag_list 32 colors /\ flag_list BAR colors /\ flag_list COMMA colors.
Proof.
  assert (K : Forall (flag_name COMMA) (enames colors)) by (cbn; unfold flag_name, s_ws; repeat constructor; cbn; try discriminate; lia).
  unfold flag_list. repeat split; try discriminate; try exact colors_nodup; try exact K; apply colors_fn; auto.
Qed.
(** missing and trailing commas, unknown names *)
Example C87_ex_items : flag_text COMMA Nonstrict colors (jt "['red' 'pink',  'blue',] x") 5 (inl (text " x")).
Proof. apply (C87_reads COMMA Nonstrict colors None 0); [apply C87_ex_dom|byt|exq]. Qed.
(** unknown words and nothing between two separators *)
Example C87_ex_words : flag_text BAR Nonstrict colors (jt "'red | pink||blue '") 5 (inl []).
Proof. apply (C87_reads BAR Nonstrict colors None 0); [apply C87_ex_dom|byt|exq]. Qed.
Example C87_ex_strict : flag_text BAR Strict colors (jt "'red|redish'") 1 (inr (mkerr InvalidEnum None 7)) /\
  flag_text COMMA Strict colors (jt "['red','pink']") 1 (inr (mkerr InvalidEnum None 7)) /\
  flag_text BAR Strict colors (jt "'red||blue'") 1 (inr (mkerr InvalidEnum None 6)).
Proof.
  split; [|split].
  - refine (proj1 (proj1 (C87_faults BAR Strict colors None 0 _ _ [] _ _ _) _)); [apply C87_ex_dom|byt|split; [reflexivity|exq]].
  - refine (proj1 (proj1 (C87_faults COMMA Strict colors None 0 _ _ [] _ _ _) _)); [apply C87_ex_dom|byt|split; [reflexivity|exq]].
  - refine (proj1 (proj1 (C87_faults BAR Strict colors None 0 _ _ [] _ _ _) _)); [apply C87_ex_dom|byt|split; [reflexivity|exq]].
Qed.
(** what has been read is left in the target; a name cut off by the end does not count *)
Example C87_ex_cut : faults (flags_codec BAR Nonstrict colors) None 77 (jt "'red|blue") 1 [] unexpected_end /\
  faults (flags_codec COMMA Nonstrict colors) None 77 (jt "['red',4]") 1 [] (mkerr ExpectedOf (Some [QT]) 2) /\
  faults (flags_codec BAR Nonstrict colors) None 77 (jt "red") 0 [] (mkerr ExpectedOf (Some [QT]) 3).
Proof. repeat split; exq. Qed.
(** The description used from left to right. *)
Example C87_ex_by_hand : reads (flags_codec BAR Nonstrict colors) None 77 (jt "'blue'") 4 [].
Proof.
  apply C87_reads; [apply C87_ex_dom|byt|]. apply ft_words. refine (fw_known BAR Nonstrict colors 0 _ (text "blue") 4 [QT] [QT] 4 (inl []) _ _ _ _ _).
  - apply space_exact. exq.
  - cbn. auto.
  - left. apply heads_refl.
  - left. exists [QT]. split; [apply space_exact; exq|]. right. split; [|reflexivity]. intros H. apply heads_inv in H. discriminate.
  - apply fw_close. apply space_exact. exq.
Qed.

(** When the separator is a space, a listed name behind two of them is lost: the
    second space is taken for an unknown name and skipped with what follows. *)
Theorem C87_words_refuted : ~ (forall L n m x y v, flag_list 32 L -> In (n, x) L -> In (m, y) L ->
  reads (flags_codec 32 Nonstrict L) None 0 (QT :: n ++ 32 :: 32 :: m ++ [QT]) v [] -> v = Z.lor x y).
Proof.
  intros H. specialize (H colors (text "red") (text "blue") 1 4 1 (proj1 C87_ex_dom)). assert (E : 1 = Z.lor 1 4); [|discriminate].
  apply H; [cbn; auto|cbn; auto|exq].
Qed.
Print Assumptions C87_words_refuted.
