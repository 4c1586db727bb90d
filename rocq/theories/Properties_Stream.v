(** C107: values one after another, and texts that are cut short. *)
From Verif Require Import Base Parser SpecJson SpecObject Out Number StringS Array Object ObjectArray Enum Wrap TimeSize CodecLaws Desc DescProofs SpecExact SpecNear NearProofs SpecStream CutProofs StreamProofs
  NumberProofs StringProofs SpecNum SpecString Properties_Seq Properties_Object Properties_Near Properties_Desc.

(** Values written with whitespace in between are read back in turn. *)
Theorem C107_lines : forall A (c : codec A) dom sn d0 l s n, rdesc A c dom -> Forall dom l -> log_of false c l s -> bytes s -> (length s < n)%nat ->
  drain c sn d0 n s = Ok (l, Some no_error).
Proof. intros A c dom sn d0 l s n Hr Hl Hs Hb. apply (log_drain A c dom false sn d0 l s); [now apply rdesc_rt|discriminate|exact Hb|exact Hl|exact Hs]. Qed.
Print Assumptions C107_lines.
(** Those that tell where they end need nothing in between. *)
Theorem C107_joined : forall A (c : codec A) dom sn d0 l s n, rdesc A c dom -> tight true A c -> Forall dom l -> log_of true c l s -> bytes s -> (length s < n)%nat ->
  drain c sn d0 n s = Ok (l, Some no_error).
Proof. intros A c dom sn d0 l s n Hr Ht Hl Hs Hb. apply (log_drain A c dom true sn d0 l s); [now apply rdesc_rt|auto|exact Hb|exact Hl|exact Hs]. Qed.
Print Assumptions C107_joined.
(** Whoever wrote it: the loop gives l without an error exactly if the text
    consists of gaps and values that are read as l. *)
Theorem C107_exact : forall d A (c : codec A) sn d0 n s l, tight d A c -> bytes s -> (length s < n)%nat ->
  (drain c sn d0 n s = Ok (l, Some no_error) <-> complete (fun s v r => reads c sn d0 s v r) s l).
Proof. intros d A c sn d0 n s l Ht. exact (drain_exact c sn d0 d Ht n s l). Qed.
Print Assumptions C107_exact.
(** The loop ends: every turn but the last consumes something. *)
Theorem C107_ends : forall d A (c : codec A) sn d0 n s, tight d A c -> bytes s -> (length s < n)%nat -> drain c sn d0 n s <> Fuel.
Proof. intros d A c sn d0 n s Ht. exact (drain_fuel c sn d0 d Ht n s). Qed.
Print Assumptions C107_ends.

(** A log t ++ x torn behind t gives exactly the records that lie in t; there is
    an error exactly if something other than a gap is left of t. *)
Theorem C107_torn : forall A (c : codec A) sn b d0 t x l n, tight true A c -> cuttable A c -> b <> RBR -> b <> RCB -> bytes (t ++ x) -> (length t < n)%nat ->
  complete (fun s v r => reads c sn d0 s v r) (t ++ x) l ->
  exists l1 e q, drain c (Some b) d0 n t = Ok (l1, e) /\
    records (fun s v r => reads c sn d0 s v r) (t ++ x) l1 (q ++ x) /\ (has_err e = false <-> after_gap q []) /\
    forall l' q', records (fun s v r => reads c sn d0 s v r) (t ++ x) l' (q' ++ x) -> exists m, l1 = l' ++ m.
Proof. intros A c sn b d0 t x l n Ht Hc H1 H2 Hb Hn. exact (torn c sn b d0 x Ht Hc H1 H2 n t l Hn Hb). Qed.
Print Assumptions C107_torn.
(** A text cut short is not the worse for it: if reading it is undefined, so is
    reading the whole. *)
Theorem C107_prefix_defined : forall A (c : codec A) b sn old p x, cuttable A c -> b <> RBR -> b <> RCB ->
  des c (Some b) old p (Some no_error) = UB -> des c sn old (p ++ x) (Some no_error) = UB.
Proof. intros A c b sn old p x Hc H1 H2 E. destruct (cuttable_cut _ _ Hc) as (_ & _ & K). specialize (K b H1 H2 sn x old p _ _ eok0). now rewrite E in K. Qed.
Print Assumptions C107_prefix_defined.
(** A reader that stops in front of the end of what has arrived is done: more
    text changes neither the value nor what is left. *)
Theorem C107_final : forall A (c : codec A) b sn old p x v r e, cuttable A c -> b <> RBR -> b <> RCB ->
  des c (Some b) old p (Some no_error) = Ok (v, r, e) -> r <> [] -> exists e', des c sn old (p ++ x) (Some no_error) = Ok (v, r ++ x, e') /\ has_err e' = has_err e.
Proof.
  intros A c b sn old p x v r e Hc H1 H2 E N. destruct (cuttable_cut _ _ Hc) as (_ & _ & K). specialize (K b H1 H2 sn x old p _ _ eok0). rewrite E in K. destruct K as [K|([[v2 r2] e2] & K & K1 & K2 & K3)]; [now destruct N|].
  cbn [fst snd] in *. subst. exists e2. split; [exact K|now apply eok_has].
Qed.
Print Assumptions C107_final.
(** time_interval has to stay out: a text cut behind "mk" makes it step over the end. *)
Theorem C107_time_refuted : ~ (forall t fr b sn old p x, ity_ok t -> b <> RBR -> b <> RCB ->
  des (time_codec t fr) (Some b) old p (Some no_error) = UB -> des (time_codec t fr) sn old (p ++ x) (Some no_error) = UB).
Proof.
  intros H. assert (K : ity_ok (mkity 8 true)) by (unfold ity_ok; cbn; lia). specialize (H (mkity 8 true) 1000000 0 (Some 0) 0 (QT :: text "5mk") (text "s" ++ [QT]) K ltac:(discriminate) ltac:(discriminate)).
  assert (E : des (time_codec (mkity 8 true) 1000000) (Some 0) 0 (QT :: text "5mk") (Some no_error) = UB) by exq. specialize (H E). vm_compute in H. discriminate.
Qed.
Print Assumptions C107_time_refuted.

Lemma foo_cuttable mode : cuttable foo (foo_codec mode).
Proof. refine (ct_object foo mode Lfoo foo0 Lfoo_noif _). intros b [<-|[<-|[<-|[]]]]; [exact (ct_int i32 i32_ok)|exact (ct_int i32 i32_ok)|exact ct_string]. Qed.
Example C107_ex_lines : drain (foo_codec Nonstrict) (Some 0) foo0 100 (jt "{'a':1,'b':2,'foo':'x'}" ++ [10] ++ jt "{'a':3,'b':4,'foo':''}" ++ [10]) = Ok ([mkfoo 1 2 (text "x"); mkfoo 3 4 []], Some no_error).
Proof. exq. Qed.
Example C107_ex_ints : drain int32 (Some 0) 0 100 (text "1 /* two */ 2" ++ [10] ++ text "-3") = Ok ([1; 2; -3], Some no_error).
Proof. exq. Qed.
(** torn in the middle of the second record *)
Example C107_ex_torn : tight true foo (foo_codec Nonstrict) /\ cuttable foo (foo_codec Nonstrict) /\
  drain (foo_codec Nonstrict) (Some 0) foo0 100 (jt "{'a':1,'b':2,'foo':'x'}" ++ jt "{'a':3,'b'") = Ok ([mkfoo 1 2 (text "x")], Some (mkerr UnexpectedEndFragment None 0)).
Proof. split; [exact foo_tight|]. split; [exact (foo_cuttable _)|exq]. Qed.
(** torn between records: nothing is missing as far as the reader can tell *)
Example C107_ex_between : drain (foo_codec Nonstrict) (Some 0) foo0 100 (jt "{'a':1,'b':2,'foo':'x'}" ++ [10]) = Ok ([mkfoo 1 2 (text "x")], Some no_error).
Proof. exq. Qed.
(** an overflowing number in front of the cut is undefined with or without it *)
Example C107_ex_ub : des (foo_codec Nonstrict) (Some 0) foo0 (jt "{'a':99999999999") (Some no_error) = UB.
Proof. exq. Qed.
Example C107_ex_log : rdesc foo (foo_codec Strict) foo_dom /\ Forall foo_dom [mkfoo 1 2 (text "x"); mkfoo 3 4 []] /\
  log_of true (foo_codec Strict) [mkfoo 1 2 (text "x"); mkfoo 3 4 []] (jt "{'a':1,'b':2,'foo':'x'}{'a':3,'b':4,'foo':''}" ++ [10]).
Proof.
  split; [apply foo_rdesc|]. split.
  - repeat (apply Forall_cons; [unfold foo_dom, int_dom, str_dom; cbn [fa fb fs]; repeat split; try (vm_compute; intuition discriminate)|]); [|apply Forall_nil..]; try apply Forall_nil. all: try (vm_compute; intuition discriminate).
  - assert (E1 : exists o, ser (foo_codec Strict) (mkfoo 1 2 (text "x")) = Ok o /\ flat o = jt "{'a':1,'b':2,'foo':'x'}") by (eexists; split; [exq|]; exq). destruct E1 as (o1 & E1 & F1).
    assert (E2 : exists o, ser (foo_codec Strict) (mkfoo 3 4 []) = Ok o /\ flat o = jt "{'a':3,'b':4,'foo':''}") by (eexists; split; [exq|]; exq). destruct E2 as (o2 & E2 & F2).
    replace (jt "{'a':1,'b':2,'foo':'x'}{'a':3,'b':4,'foo':''}" ++ [10]) with ([] ++ flat o1 ++ [] ++ flat o2 ++ [10]) by (rewrite F1, F2; exq).
    apply lo_more; [apply Forall_nil|exact E1| |now left]. apply lo_more; [apply Forall_nil|exact E2| |now left]. apply lo_end. apply Forall_cons; [unfold s_ws; lia|apply Forall_nil].
Qed.
