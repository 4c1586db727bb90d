(** C66: reading does not depend on the json_error that is passed. *)
From Verif Require Import Base Parser SpecJson ParserFacts Out Number StringS Array Unord Object ObjectArray Enum Wrap TimeSize Float CodecLaws
  Desc DescProofs SpecPtr PtrProofs Properties_Seq Properties_Object.

(** C66.  The value and the iterator do not depend on the json_error: not on
    whether there is one, nor on what it holds.  Two clean records receive the same
    report; no record, or one that already holds an error, stays as it is. *)
Theorem C66_same_result_partial : forall A (c : codec A), pure_desc A c -> forall sn old s e v r x,
  des c sn old s e = Ok (v, r, x) -> forall e', exists x', des c sn old s e' = Ok (v, r, x') /\
  (e' = None -> x' = None) /\ (has_err e' = true -> x' = e') /\
  (forall k k', e = Some k -> is_err k = false -> e' = Some k' -> is_err k' = false ->
     (x = e /\ x' = e') \/ exists j, reported e x j /\ reported e' x' j).
Proof.
  intros A c Hc sn old s e v r x E e'.
  pose proof (pure_desc_pure A c Hc e e' sn old s e e' (R_init e e')) as P. rewrite E in P.
  inversion P as [[v0 r0] x0 y Hr| |]; subst. exists y. split; [reflexivity|]. now apply R_reports.
Qed.
Print Assumptions C66_same_result_partial.
(** nor does undefined behaviour *)
Theorem C66_same_ub_partial : forall A (c : codec A), pure_desc A c -> forall sn old s e e',
  des c sn old s e = UB -> des c sn old s e' = UB.
Proof.
  intros A c Hc sn old s e e' E.
  pose proof (pure_desc_pure A c Hc e e' sn old s e e' (R_init e e')) as P. rewrite E in P. now inversion P.
Qed.
Print Assumptions C66_same_ub_partial.
(** Hence, without a json_error, "the iterator and value of a failed reading" is
    all a caller sees; a clean record tells failure apart without changing them. *)
Theorem C66_probe_partial : forall A (c : codec A), pure_desc A c -> forall sn old s v r,
  des c sn old s None = Ok (v, r, None) ->
  des c sn old s clean = Ok (v, r, clean) \/
  exists j, is_err j = true /\ des c sn old s clean = Ok (v, r, Some j).
Proof.
  intros A c Hc sn old s v r E.
  destruct (C66_same_result_partial A c Hc sn old s None v r None E clean) as (x & Ex & _).
  destruct (C66_same_result_partial A c Hc sn old s clean v r x Ex clean) as (x' & Ex' & _ & _ & H).
  assert (x' = x) as -> by congruence.
  destruct (H no_error no_error eq_refl eq_refl eq_refl eq_refl) as [(-> & _)|(j & (k & Hk & _ & -> & Hj) & _)]; [left; exact Ex|].
  right. exists j. split; [exact Hj|exact Ex].
Qed.
Print Assumptions C66_probe_partial.

(** a vector of optional structs, bad input, three kinds of error records *)
Example C66_ex : let c := vector_codec (ptr_codec (object_codec Nonstrict Lfoo foo0) foo0) None in
  let s := jt "[{'a':1}, null, {'a':2 'b':3}, 7]" in
  let v := [Some (mkfoo 1 0 []); None; Some (mkfoo 2 0 [])] in
  let old := mkerr InvalidNumber None 5 in
  pure_desc _ c /\
  des c None [] s None = Ok (v, [], None) /\
  des c None [] s clean = Ok (v, [], Some (mkerr ExpectedOf (Some [RCB]) 10)) /\
  des c None [] s (Some old) = Ok (v, [], Some old).
Proof.
  split; [|split; [exq|split; exq]].
  apply pu_vector, pu_pointer, pu_object. intros b m [<-|[<-|[<-|[]]]] [<-|[]]; constructor.
Qed.

(** time_interval: no record behaves like a clean one ... *)
Theorem C66_time_partial : forall t fr sn old s k v r, is_err k = false ->
  des (time_codec t fr) sn old s None = Ok (v, r, None) <->
  exists x, des (time_codec t fr) sn old s (Some k) = Ok (v, r, x).
Proof.
  intros t fr sn old s k v r Hk. cbn [des time_codec]. pose proof (time_null t fr k sn old s Hk) as P. split.
  - intros E. rewrite E in P. inversion P; subst. eauto.
  - intros (x & E). rewrite E in P. inversion P as [[v0 r0] x0 y Hr H| |]; subst.
    destruct Hr as ([j|] & _ & -> & _); reflexivity.
Qed.
Print Assumptions C66_time_partial.
(** ... but an earlier error makes it stop after the first number *)
Theorem C66_time_refuted : exists s k v v' r r',
  des (time_codec (mkity 4 true) 1) None 0 s clean = Ok (v, r, clean) /\
  des (time_codec (mkity 4 true) 1) None 0 s (Some k) = Ok (v', r', Some k) /\ v <> v' /\ r <> r'.
Proof.
  exists (jt "'1h30m'"), (mkerr InvalidNumber None 0). do 4 eexists. split; [exq|]. split; [exq|]. split; discriminate.
Qed.
(** quoted: without a json_error an error inside the quotes does not stop the reading *)
Theorem C66_quoted_refuted : exists s v r r' j,
  des (quoted_codec int32 true true) None 0 s None = Ok (v, r, None) /\
  des (quoted_codec int32 true true) None 0 s clean = Ok (v, r', Some j) /\ r <> r'.
Proof. exists (jt "'x',"). do 4 eexists. split; [exq|]. split; [exq|]. discriminate. Qed.
(** raw_quoted, size_value: without a json_error a value is stored *)
Theorem C66_raw_quoted_refuted : exists s v v' r j,
  des (rquoted_codec true true) None [] s None = Ok (v, r, None) /\
  des (rquoted_codec true true) None [] s clean = Ok (v', r, Some j) /\ v <> v'.
Proof. exists (jt "'x'"). do 4 eexists. split; [exq|]. split; [exq|]. discriminate. Qed.
Theorem C66_size_refuted : exists s v v' r r' j,
  des (size_codec (mkity 4 true) 1) None 0 s None = Ok (v, r, None) /\
  des (size_codec (mkity 4 true) 1) None 0 s clean = Ok (v', r', Some j) /\ v <> v'.
Proof.
  exists (jt "'12B\uZZZZ'"). do 5 eexists. split; [exq|]. split; [exq|]. discriminate.
Qed.
