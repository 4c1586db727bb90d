(** C108: parsing recurses exactly as deep as the text nests.

    [parse_value_f sn n] is parse_value (parser.hpp:533-544) allowed [n] nested
    calls of itself; it ends in [Fuel] when a call would go deeper.  The loops
    of parse_array and parse_object are iterations and take no level. *)
From Verif Require Import Base Parser SpecJson ParserFacts Grammar2 SpecDepth DepthProofs
  Properties_Object Properties_Seq.

(** Every value the parser takes has a depth, and only one; it is at most the
    number of its opening brackets and below half of its length. *)
Theorem C108_depth v : wvalue v <-> exists d, nests v d.
Proof.
  split; [apply (proj1 nests_complete)|]. intros (d & H). exact (proj1 nests_sound _ _ H).
Qed.
Print Assumptions C108_depth.

(** The value is read when more levels than its depth are allowed, whatever
    follows it, and runs out of levels when not: depth + 1 calls are made. *)
Theorem C108_levels sn v d r e n :
  nests v d -> (rnumber v -> num_stop v r) ->
  parse_value_f sn n (v ++ r) e = if (d <? n)%nat then Ok (r, e) else Fuel.
Proof. intros H. now apply (proj1 (depth_law sn) v d H). Qed.
Print Assumptions C108_levels.

Theorem C108_one v d d' : nests v d -> nests v d' -> d = d'.
Proof.
  intros H H'.
  assert (S1 : rnumber v -> num_stop v []) by (intros _; exact I).
  pose proof (C108_levels None v d [] None d' H S1) as A.
  pose proof (C108_levels None v d' [] None d' H' S1) as B. rewrite A in B.
  pose proof (C108_levels None v d [] None d H S1) as A'.
  pose proof (C108_levels None v d' [] None d H' S1) as B'. rewrite A' in B'.
  destruct (Nat.ltb_spec d d'), (Nat.ltb_spec d' d'), (Nat.ltb_spec d d), (Nat.ltb_spec d' d);
    try discriminate; lia.
Qed.
Print Assumptions C108_one.

Theorem C108_shallow v d : nests v d -> (d <= opens v)%nat /\ (2 * d < length v)%nat.
Proof.
  intros H. split.
  - pose proof (C108_levels None v d [] None (S (opens v)) H (fun _ => I)) as A.
    pose proof (value_nofuel None (S (opens v)) v None ltac:(lia)) as B.
    rewrite app_nil_r in A. destruct (Nat.ltb_spec d (S (opens v))); [lia|]. now rewrite A in B.
  - revert v d H.
    enough ((forall v d, nests v d -> (2 * d < length v)%nat) /\
            (forall l d, nelems l d -> (2 * d < length l)%nat) /\
            (forall l d, nmembers l d -> (2 * d < length l)%nat)) by tauto.
    apply nest_ind; intros; repeat (rewrite ?app_length in *; cbn [length] in *); try lia.
    + cbn. lia.
    + cbn. lia.
    + cbn. lia.
    + destruct (rnumber_head _ r) as (c & t & -> & _). cbn [length]. lia.
    + destruct w. cbn [length]. lia.
Qed.
Print Assumptions C108_shallow.

(** Of any text at all - accepted, refused or cut short, with or without a byte
    behind its end - one level more than its opening brackets (those inside of
    strings and comments counted) is always enough, and further levels change
    nothing. *)
Theorem C108_any sn s e n : (opens s < n)%nat ->
  parse_value_f sn n s e = parse_value sn s e /\ parse_value_f sn n s e <> Fuel.
Proof. intros H. split; [now apply value_levels|now apply value_nofuel]. Qed.
Print Assumptions C108_any.

(** No number of levels is enough for all texts: a text of 2 n + 2 bytes needs
    more than n.  The stack is not guarded. *)
Theorem C108_bounded_refuted :
  ~ (exists N, forall v, wvalue v -> parse_value_f None N v (Some no_error) <> Fuel) /\
  forall n sn e, exists v, wvalue v /\ length v = (2 * n + 2)%nat /\
    parse_value_f sn n v e = Fuel /\ parse sn v e = Ok ([], e).
Proof.
  assert (K : forall n sn e, exists v, wvalue v /\ length v = (2 * n + 2)%nat /\
    parse_value_f sn n v e = Fuel /\ parse sn v e = Ok ([], e)).
  { intros n sn e. exists (tower n). pose proof (tower_nests n) as H.
    pose proof (proj1 nests_sound _ _ H) as Hw.
    split; [exact Hw|]. split; [apply tower_length|]. split.
    - pose proof (C108_levels sn _ _ [] e n H (fun _ => I)) as A. rewrite app_nil_r in A.
      rewrite A. now rewrite Nat.ltb_irrefl.
    - pose proof (parse_complete sn (tower n) [] e) as A. rewrite app_nil_r in A. apply A.
      split; [exact Hw|intros _; exact I]. }
  split; [|exact K]. intros (N & HN). destruct (K N None (Some no_error)) as (v & Hw & _ & Hf & _).
  exact (HN v Hw Hf).
Qed.
Print Assumptions C108_bounded_refuted.

(** [ [1], {'k' : [[ ]] } ]: three levels below the outermost call *)
Example C108_ex_text :
  parse_value_f None 3 (jt "[ [1], {'k' : [[ ]] } ]") clean = Fuel /\
  parse_value_f None 4 (jt "[ [1], {'k' : [[ ]] } ]") clean = Ok ([], clean).
Proof. split; exq. Qed.
Example C108_ex_nests : nests (jt "[ [1], {'k' : [[ ]] } ]") 3.
Proof.
  destruct (proj1 (C108_depth (jt "[ [1], {'k' : [[ ]] } ]"))) as (d & H).
  { destruct (proj1 (parse_exact None (jt "[ [1], {'k' : [[ ]] } ]") [] ltac:(repeat (apply Forall_cons; [split; discriminate|]); apply Forall_nil))) as (v & E & Hv & _); [exq|].
    rewrite app_nil_r in E. now rewrite E. }
  pose proof (C108_levels None _ d [] clean 3 H (fun _ => I)) as A.
  pose proof (C108_levels None _ d [] clean 4 H (fun _ => I)) as B.
  rewrite app_nil_r in A, B. rewrite (proj1 C108_ex_text) in A. rewrite (proj2 C108_ex_text) in B.
  destruct (Nat.ltb_spec d 3), (Nat.ltb_spec d 4); try discriminate. replace 3%nat with d by lia. exact H.
Qed.
(** brackets in a string open nothing, but count as bytes *)
Example C108_ex_string :
  opens (jt "['[[[{']") = 5%nat /\ parse_value_f None 2 (jt "['[[[{']") clean = Ok ([], clean).
Proof. split; exq. Qed.
(** a refused text: the bound of C108_any is met *)
Example C108_ex_refused :
  parse_value_f None 3 (jt "[[[1") clean = Fuel /\
  parse_value_f (Some 0) 4 (jt "[[[1") clean = parse (Some 0) (jt "[[[1") clean.
Proof. split; exq. Qed.
Example C108_ex_tower :
  parse_value_f None 1000 (tower 1000) clean = Fuel /\
  parse_value_f None 1001 (tower 1000) clean = Ok ([], clean).
Proof. split; exq. Qed.
