(** C67: a reported error leaves the iterator at the end of the input. *)
From Verif Require Import Base Parser SpecJson ParserFacts Out Number StringS Array Unord Object ObjectArray Enum Wrap TimeSize Float CodecLaws
  Misc Desc DescProofs SpecPtr SpecEnd EndProofs Properties_Seq Properties_Object.

(** C67.  If the call reports an error, it returns end; the only exception is a
    text with a bad \u or \x escape, reported as InvalidString at the end. *)
Theorem C67_end_partial : forall A (c : codec A), end_desc A c -> forall sn old s e v r x j,
  des c sn old s e = Ok (v, r, x) -> reported e x j ->
  r = [] \/ (bad_hex s /\ code j = InvalidString /\ tail_of j = 0).
Proof.
  intros A c Hc sn old s e v r x j E (k & -> & Hk & -> & Hj).
  pose proof (proj2 (end_desc_ends A c Hc) sn old s (Some k)) as P. rewrite E in P.
  destruct P as [_ [P|[P|(B & j' & P1 & P2 & P3)]]]; [congruence|now left|]. right. injection P1 as <-. auto.
Qed.
Print Assumptions C67_end_partial.
(** So a call that returns an iterator before the end of an escape-clean text succeeded. *)
Theorem C67_success_partial : forall A (c : codec A), end_desc A c -> forall sn old s k v r x,
  is_err k = false -> ~ bad_hex s -> des c sn old s (Some k) = Ok (v, r, x) -> r <> [] -> x = Some k.
Proof.
  intros A c Hc sn old s k v r x Hk Hb E Hr.
  pose proof (proj2 (end_desc_ends A c Hc) sn old s (Some k)) as P. rewrite E in P.
  destruct P as [_ [P|[P|(B & _)]]]; [exact P|contradiction|contradiction].
Qed.
Print Assumptions C67_success_partial.
Example C67_ex : let c := vector_codec (ptr_codec (object_codec Nonstrict Lfoo foo0) foo0) None in
  end_desc _ c /\
  des c None [] (jt "[{'a':1}, null, {'a':2 'b':3}, 7]") clean =
  Ok ([Some (mkfoo 1 0 []); None; Some (mkfoo 2 0 [])], [], Some (mkerr ExpectedOf (Some [RCB]) 10)).
Proof.
  split; [|exq]. apply en_vector, en_pointer, en_object. intros b m [<-|[<-|[<-|[]]]] [<-|[]]; constructor.
Qed.
(** a fixed-size array whose elements take null *)
Example C67_ex_array : end_desc _ (c_array_codec int32 2) /\
  des (c_array_codec int32 2) None (5, (6, tt)) (text "null,") clean = Ok ((0, (0, tt)), text ",", clean) /\
  des (c_array_codec int32 2) None (5, (6, tt)) (text "nul,") clean = Ok ((0, (0, tt)), [], Some (mkerr ExpectedOf (Some (text "null")) 3)).
Proof. split; [|split; exq]. apply en_c_array; [|constructor]. intros sn old r e. do 2 eexists. reflexivity. Qed.

(** The exceptions. A bad escape is reported, but the reading goes on ... *)
Theorem C67_string_refuted : exists s v r j, bad_hex s /\ r <> [] /\ is_err j = true /\
  des string_codec None [] s clean = Ok (v, r, Some j).
Proof.
  exists (jt "'\uZZZZ',"). do 3 eexists. split; [|split; [|split; [|exq]]]; [|discriminate|reflexivity].
  exists [QT], 117, [], 90. eexists. split; [reflexivity|]. split; [unfold s_hex; lia|]. left. cbn. lia.
Qed.
(** ... so an element behind it can be stored although the call failed *)
Theorem C67_container_refuted : exists v r j, is_err j = true /\ r <> [] /\
  des (vector_codec string_codec []) None [] (jt "['\xZZ','a'] ") clean = Ok (v, r, Some j) /\ length v = 2%nat.
Proof. do 3 eexists. split; [|split; [|split; [exq|]]]; [reflexivity|discriminate|reflexivity]. Qed.
(** size_value returns the position behind the string when its number is bad *)
Theorem C67_size_refuted : exists v r j, is_err j = true /\ r <> [] /\
  des (size_codec (mkity 4 true) 1) None 0 (jt "'x',") clean = Ok (v, r, Some j).
Proof. do 3 eexists. split; [|split; [|exq]]; [reflexivity|discriminate]. Qed.
(** fixed-size arrays of elements that reject null: null is reported and skipped *)
Theorem C67_array_refuted : exists v r j, is_err j = true /\ r <> [] /\
  des (c_array_codec (enum_codec Strict [(text "on", 1)]) 1) None (1, tt) (text "null,") clean = Ok (v, r, Some j).
Proof. do 3 eexists. split; [|split; [|exq]]; [reflexivity|discriminate]. Qed.
