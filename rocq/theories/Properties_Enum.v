(** Theorems about enumerators and flags (C42, C43). *)
From Verif Require Import Base Parser SpecJson SpecSeq ParserFacts Grammar1 Grammar2 Out Array Object CodecLaws ArrayProofs ObjectProofs
  Enum SpecEnum EnumProofs Properties_Seq Properties_Object.

Definition colors : elist := [(text "red", 1); (text "green", 2); (text "blue", 4)].
Lemma colors_nodup : NoDup (enames colors).
Proof. cbn. repeat constructor; cbn; intuition discriminate. Qed.
Lemma colors_nq : Forall no_quote (enames colors).
Proof. cbn. repeat constructor; cbn; discriminate. Qed.
Lemma colors_fn sep : sep = 32 \/ sep = BAR -> Forall (flag_name sep) (enames colors).
Proof. intros H. cbn. unfold flag_name, s_ws. repeat constructor; cbn; try discriminate; lia. Qed.

(** C42 *)
Theorem C42_enum_roundtrip : forall mode L, NoDup (enames L) -> Forall no_quote (enames L) -> rt (enum_codec mode L) (fun v => In v (evals L)).
Proof. exact enum_rt. Qed.
Print Assumptions C42_enum_roundtrip.
Example C42_ex : exists ops, ser (enum_codec Strict colors) 2 = Ok ops /\ flat ops = jt "'green'" /\ des (enum_codec Strict colors) None 77 (flat ops ++ text ",") clean = Ok (2, text ",", clean).
Proof. eexists. split; [exq|]. split; exq. Qed.
Theorem C42_known_name : forall mode L n x sn old r e, NoDup (enames L) -> no_quote n -> In (n, x) L ->
  des (enum_codec mode L) sn old (quoted_name n ++ r) e = Ok (x, r, e).
Proof.
  intros mode L n x sn old r e Hd Hq Hi. unfold quoted_name. cbn [app]. rewrite <- app_assoc. cbn [app]. cbn [des enum_codec]. rewrite enum_run by exact Hq.
  now rewrite (enum_find_in mode L 0 n x Hd Hi).
Qed.
Print Assumptions C42_known_name.
Theorem C42_strict_unknown : forall L n sn old r e, no_quote n -> ~ In n (enames L) ->
  des (enum_codec Strict L) sn old (quoted_name n ++ r) e = Ok (0, [], cerr InvalidEnum None (dist (n ++ [QT] ++ r)) e).
Proof.
  intros L n sn old r e Hq Hi. unfold quoted_name. cbn [app]. rewrite <- app_assoc. cbn [app]. cbn [des enum_codec]. rewrite enum_run by exact Hq.
  now rewrite (enum_find_out Strict L 0 n Hi).
Qed.
Print Assumptions C42_strict_unknown.
Theorem C42_nonstrict_unknown : forall L n sn old r e, no_quote n -> ~ In n (enames L) ->
  des (enum_codec Nonstrict L) sn old (quoted_name n ++ r) e = Ok (0, r, e).
Proof.
  intros L n sn old r e Hq Hi. unfold quoted_name. cbn [app]. rewrite <- app_assoc. cbn [app]. cbn [des enum_codec]. rewrite enum_run by exact Hq.
  now rewrite (enum_find_out Nonstrict L 0 n Hi).
Qed.
Print Assumptions C42_nonstrict_unknown.
Example C42_ex2 : des (enum_codec Strict colors) None 77 (jt "'gree'") clean = Ok (0, [], Some (mkerr InvalidEnum None 5)) /\
  des (enum_codec Nonstrict colors) None 77 (jt "'greenish' ") clean = Ok (0, text " ", clean).
Proof. split; exq. Qed.
(** the other laws, for C07, C09, C21, C52, C59 *)
Theorem C59_enum : forall mode L, dlaw (des (enum_codec mode L)).
Proof. exact enum_dlaw. Qed.
Theorem C59_enum_safe : forall mode L, dsafe (des (enum_codec mode L)).
Proof. exact enum_dsafe. Qed.
Theorem C21_enum : forall mode L, Forall rchars (enames L) -> jout (enum_codec mode L) (fun _ => True).
Proof. exact enum_jout. Qed.
Theorem C52_enum : forall mode L, wout (enum_codec mode L) (fun _ => True).
Proof. exact enum_wout. Qed.
Print Assumptions C59_enum.
Print Assumptions C59_enum_safe.
Print Assumptions C21_enum.
Print Assumptions C52_enum.

(** C43 *)
Theorem C43_flags_string_roundtrip : forall sep mode L, sep_ok sep -> NoDup (enames L) -> Forall (flag_name sep) (enames L) ->
  rt (flags_codec sep mode L) (flag_union L).
Proof. exact flags_str_rt. Qed.
Print Assumptions C43_flags_string_roundtrip.
Theorem C43_flags_array_roundtrip : forall mode L, NoDup (enames L) -> Forall no_quote (enames L) -> rt (flags_codec COMMA mode L) (flag_union L).
Proof. exact flags_arr_rt. Qed.
Print Assumptions C43_flags_array_roundtrip.
(** any list of known names, in any order and with repetitions, reads as the union *)
Theorem C43_flags_string_any_order : forall sep mode L sn old ns r e, sep_ok sep -> NoDup (enames L) -> Forall (flag_name sep) (enames L) -> incl ns L ->
  des (flags_codec sep mode L) sn old (QT :: jsep sep (map fst ns) ++ QT :: r) e = Ok (union_of ns, r, e).
Proof. exact flags_str_any. Qed.
Print Assumptions C43_flags_string_any_order.
Theorem C43_flags_array_any_order : forall sep mode L sn old ns r e, NoDup (enames L) -> Forall no_quote (enames L) -> incl ns L ->
  des (flags_codec sep mode L) sn old (LBR :: jsep COMMA (map (fun p => quoted_name (fst p)) ns) ++ RBR :: r) e = Ok (union_of ns, r, e).
Proof. exact flags_arr_any. Qed.
Print Assumptions C43_flags_array_any_order.
Example C43_ex_sep : exists ops, ser (flags_codec BAR Strict colors) 5 = Ok ops /\ flat ops = jt "'red|blue'" /\
  des (flags_codec BAR Strict colors) None 77 (flat ops) clean = Ok (5, [], clean).
Proof. eexists. split; [exq|]. split; exq. Qed.
Example C43_ex_array : exists ops, ser (flags_codec COMMA Strict colors) 6 = Ok ops /\ flat ops = jt "['green','blue']" /\
  des (flags_codec COMMA Strict colors) None 77 (flat ops) clean = Ok (6, [], clean).
Proof. eexists. split; [exq|]. split; exq. Qed.
Example C43_ex_order : des (flags_codec 32 Strict colors) None 77 (jt "'blue red blue'") clean = Ok (5, [], clean) /\
  des (flags_codec 32 Strict colors) None 77 (jt "['blue','red','blue']") clean = Ok (5, [], clean).
Proof. split; exq. Qed.
Example C43_ex_dom : flag_union colors 6 /\ sep_ok 32 /\ sep_ok BAR /\ NoDup (enames colors) /\ Forall (flag_name BAR) (enames colors) /\ Forall no_quote (enames colors).
Proof.
  split; [exists [2; 4]; split; [intros x [<-|[<-|[]]]; cbn; tauto|reflexivity]|]. unfold sep_ok, s_ws. repeat split; try lia; [exact colors_nodup|apply colors_fn; tauto|exact colors_nq].
Qed.
(** a separator-free name that is a prefix of another one is not confused with it; an unknown name is reported by strict flags *)
Example C43_ex_strict : des (flags_codec 32 Strict colors) None 77 (jt "'red pink'") clean = Ok (1, [], Some (mkerr InvalidEnum None 5)) /\
  des (flags_codec 32 Nonstrict colors) None 77 (jt "'red pink blue'") clean = Ok (5, [], clean).
Proof. split; exq. Qed.
(** a comma is not needed between the names of the array form *)
Theorem C43_flags_missing_comma_refuted : exists L, des (flags_codec COMMA Strict L) None 0 (jt "['red' 'blue']") clean = Ok (5, [], clean).
Proof. exists colors. exq. Qed.
Print Assumptions C43_flags_missing_comma_refuted.
Theorem C59_flags : forall sep mode L, dlaw (des (flags_codec sep mode L)).
Proof. exact flags_dlaw. Qed.
Theorem C59_flags_safe : forall sep mode L, dsafe (des (flags_codec sep mode L)).
Proof. exact flags_dsafe. Qed.
Theorem C21_flags : forall sep mode L, sep = COMMA \/ rchars [sep] -> Forall rchars (enames L) -> jout (flags_codec sep mode L) (fun _ => True).
Proof. exact flags_jout. Qed.
Theorem C52_flags : forall sep mode L, wout (flags_codec sep mode L) (fun _ => True).
Proof. exact flags_wout. Qed.
Print Assumptions C59_flags.
Print Assumptions C59_flags_safe.
Print Assumptions C21_flags.
Print Assumptions C52_flags.
