(** C65: unordered containers, for every hash table that does what the C++
    standard requires. *)
From Coq Require Import Sorting.Permutation.
From Verif Require Import Base Parser SpecJson SpecNum SpecSeq Grammar2 Out Number StringS Array Unord SpecUnord
  CodecLaws NumberProofs StringProofs ArrayProofs UnordProofs.
Ltac exq := vm_compute; reflexivity.
Definition clean := Some no_error.
Definition int32 := int_codec (mkity 4 true).
Lemma i32_ok : ity_ok (mkity 4 true). Proof. right; right; now left. Qed.

(** unordered_set/map: the keys read, each once, with its first occurrence *)
Theorem C65_first_wins : forall A H (h : hashtab A H) (c : codec A) d0 L R eq tc ts b vs,
  brackets L R -> equivb eq -> unique_keys eq h -> spaced tc ts b -> Forall2 (rd c) ts vs ->
  forall sn old r e, follow r -> no_err_yet e = true -> exists t,
    des (hash_codec h L R c d0) sn old ((L :: b ++ [R]) ++ r) e = Ok (t, r, e) /\ distinct eq (h_list h t) /\
    forall y, find (eq y) (h_list h t) = find (eq y) vs.
Proof. intros. eapply unordered_first_wins; eauto. Qed.
(** unordered_multiset/multimap: all elements read *)
Theorem C65_keeps_all : forall A H (h : hashtab A H) (c : codec A) d0 L R tc ts b vs,
  brackets L R -> equiv_keys h -> spaced tc ts b -> Forall2 (rd c) ts vs ->
  rdp (des (hash_codec h L R c d0)) (h_list h) follow (L :: b ++ [R]) vs.
Proof. intros. eapply unordered_keeps_all; eauto. Qed.
(** no input produces two equal keys *)
Theorem C65_always_distinct : forall A H (h : hashtab A H) (c : codec A) d0 L R eq sn old s e t r e',
  equivb eq -> unique_keys eq h -> des (hash_codec h L R c d0) sn old s e = Ok (t, r, e') -> distinct eq (h_list h t).
Proof. intros A H h c d0 L R eq sn old s e t r e'. apply unordered_distinct. Qed.
(** round trips, up to the order of the elements *)
Theorem C65_unordered_set_roundtrip : forall A H (h : hashtab A H) (c : codec A) d0 eq dom t,
  equivb eq -> unique_keys eq h -> rt c dom -> Forall dom (h_list h t) -> distinct eq (h_list h t) ->
  exists ops, ser (unordered_set_codec h c d0) t = Ok ops /\
    rdp (des (unordered_set_codec h c d0)) (h_list h) follow (flat ops) (h_list h t).
Proof. intros. eapply unordered_roundtrip; eauto. now left. Qed.
Theorem C65_unordered_map_roundtrip : forall K V H (h : hashtab (K * V) H) (kc : codec K) (vc : codec V) d0 keq dk dv t,
  equivb keq -> unique_keys (fun a b => keq (fst a) (fst b)) h -> rt kc dk -> rt vc dv ->
  Forall (fun p => dk (fst p) /\ dv (snd p)) (h_list h t) -> distinct (fun a b => keq (fst a) (fst b)) (h_list h t) ->
  exists ops, ser (unordered_map_codec h kc vc d0) t = Ok ops /\
    rdp (des (unordered_map_codec h kc vc d0)) (h_list h) follow (flat ops) (h_list h t).
Proof.
  intros K V H h kc vc d0 keq dk dv t E U Hk Hv Hl Hd.
  apply (unordered_roundtrip h LCB RCB (field_codec kc vc) d0 (or_intror (conj eq_refl eq_refl)) (fun a b => keq (fst a) (fst b)) (pair_dom dk dv)); auto.
  - destruct E as [E1 E2 E3]. constructor; eauto.
  - now apply field_rt.
Qed.
Theorem C65_unordered_multiset_roundtrip : forall A H (h : hashtab A H) (c : codec A) d0 dom t,
  equiv_keys h -> rt c dom -> Forall dom (h_list h t) ->
  exists ops, ser (unordered_set_codec h c d0) t = Ok ops /\
    rdp (des (unordered_set_codec h c d0)) (h_list h) follow (flat ops) (h_list h t).
Proof. intros. eapply unordered_multi_roundtrip; eauto. now left. Qed.
Theorem C65_unordered_multimap_roundtrip : forall K V H (h : hashtab (K * V) H) (kc : codec K) (vc : codec V) d0 dk dv t,
  equiv_keys h -> rt kc dk -> rt vc dv -> Forall (fun p => dk (fst p) /\ dv (snd p)) (h_list h t) ->
  exists ops, ser (unordered_map_codec h kc vc d0) t = Ok ops /\
    rdp (des (unordered_map_codec h kc vc d0)) (h_list h) follow (flat ops) (h_list h t).
Proof.
  intros K V H h kc vc d0 dk dv t U Hk Hv Hl.
  apply (unordered_multi_roundtrip h LCB RCB (field_codec kc vc) d0 (or_intror (conj eq_refl eq_refl)) (pair_dom dk dv)); auto. now apply field_rt.
Qed.
Theorem C65_null_empties : forall A H (h : hashtab A H) (c : codec A) d0 L R sn old r e, (forall t, h_list h (h_clear h t) = []) ->
  exists t, des (hash_codec h L R c d0) sn old (text "null" ++ r) e = Ok (t, r, e) /\ h_list h t = [].
Proof. intros. now apply unordered_null. Qed.
Print Assumptions C65_first_wins.
Print Assumptions C65_keeps_all.
Print Assumptions C65_always_distinct.
Print Assumptions C65_unordered_set_roundtrip.
Print Assumptions C65_unordered_map_roundtrip.
Print Assumptions C65_unordered_multiset_roundtrip.
Print Assumptions C65_unordered_multimap_roundtrip.
Print Assumptions C65_null_empties.

(** A small hash table: even and odd numbers in separate chains, new elements in
    front; the order of the chains flips whenever the table is cleared. *)
Definition tab := (bool * list Z * list Z)%type.
Definition tab_list (t : tab) : list Z := let '(f, a, b) := t in if f then a ++ b else b ++ a.
Definition tab_hash : hashtab Z tab := mkhash
  (fun t => let '(f, _, _) := t in (negb f, [], []))
  (fun t x => let '(f, a, b) := t in
     if existsb (Z.eqb x) (a ++ b) then t else if Z.even x then (f, x :: a, b) else (f, a, x :: b))
  tab_list.
Lemma eqZ_equiv : equivb Z.eqb.
Proof. constructor; intros; lia. Qed.
Lemma ab_ba (f : Z -> bool) (a b : list Z) : existsb f (b ++ a) = existsb f (a ++ b).
Proof. rewrite !existsb_app. apply orb_comm. Qed.
Lemma tab_unique : unique_keys Z.eqb tab_hash.
Proof.
  constructor.
  - intros [[f a] b]. cbn. now destruct f.
  - intros [[f a] b] x Hx. cbn [h_list h_ins tab_hash tab_list] in *.
    assert (Hx' : existsb (Z.eqb x) (a ++ b) = true) by (destruct f; [exact Hx|rewrite ab_ba in Hx; exact Hx]).
    rewrite Hx'. reflexivity.
  - intros [[f a] b] x Hx. cbn [h_list h_ins tab_hash tab_list] in *.
    assert (Hx' : existsb (Z.eqb x) (a ++ b) = false) by (destruct f; [exact Hx|rewrite ab_ba in Hx; exact Hx]).
    rewrite Hx'. destruct (Z.even x), f; cbn [app]; try reflexivity; apply Permutation_middle.
Qed.
Example C65_ex_read : exists t, des (unordered_set_codec tab_hash int32 0) None (true, [8], [9]) (text "[3, 2,5,2 ,4,3]") clean = Ok (t, [], clean)
  /\ tab_list t = [5; 3; 4; 2]. Proof. eexists. split; exq. Qed.
Example C65_ex_roundtrip : exists ops, ser (unordered_set_codec tab_hash int32 0) (true, [4; 2], [5; 3]) = Ok ops /\ flat ops = text "[4,2,5,3]" /\
  exists t, des (unordered_set_codec tab_hash int32 0) None (true, [], []) (flat ops) clean = Ok (t, [], clean) /\ tab_list t = [3; 5; 2; 4].
Proof. eexists. split; [exq|]. split; [exq|]. eexists. split; exq. Qed.
Example C65_ex_apply : forall t, Forall (int_dom (mkity 4 true)) (tab_list t) -> distinct Z.eqb (tab_list t) ->
  exists ops, ser (unordered_set_codec tab_hash int32 0) t = Ok ops /\
    rdp (des (unordered_set_codec tab_hash int32 0)) tab_list follow (flat ops) (tab_list t).
Proof. intros t Ht Hd. apply (C65_unordered_set_roundtrip _ _ tab_hash int32 0 Z.eqb (int_dom (mkity 4 true))); auto using eqZ_equiv, tab_unique. apply int_rt, i32_ok. Qed.
