(** Containers of different kinds read the same texts. *)
From Coq Require Import Sorting.Permutation.
From Verif Require Import Base Parser SpecJson SpecSeq Out Number StringS Array Object CodecLaws ArrayProofs Unord SpecUnord UnordProofs SpecMulti MultiProofs SpecAlike SpecExact AlikeProofs Properties_Unord Properties_Seq Properties_Object.

(** C103. A set, a multiset and the unordered containers accept the same texts as
    a vector, stop at the same place, report the same errors and are undefined on
    the same texts; even if an error occurs, what they hold is made of the
    elements a vector would hold. *)
Theorem C103_set : forall A lt (c : codec A) d0 L R sn old old' s e, swo lt -> dlaw (des c) ->
  outcomes (as_set lt) (des (seq_codec vec_cont L R c d0) sn old s e) (des (seq_codec (set_cont lt) L R c d0) sn old' s e).
Proof.
  intros A lt c d0 L R sn old old' s e W HD. eapply outcomes_impl; [|apply (seq_alike (set_cont lt)); exact HD]. cbn [c_get c_ins c_new set_cont]. intros l v ->. split.
  - apply slt_sorted. apply set_fold_slt; [exact W|exact I].
  - intros y. rewrite set_fold_find; [reflexivity|exact W|exact I].
Qed.
Print Assumptions C103_set.
Theorem C103_multiset : forall A lt (c : codec A) d0 L R sn old old' s e, swo lt -> dlaw (des c) ->
  outcomes (fun l m => as_multiset lt l m /\ sorted_le lt m /\ Permutation l m) (des (seq_codec vec_cont L R c d0) sn old s e) (des (seq_codec (multi_cont lt) L R c d0) sn old' s e).
Proof.
  intros A lt c d0 L R sn old old' s e W HD. eapply outcomes_impl; [|apply (seq_alike (multi_cont lt)); exact HD]. cbn [c_get c_ins c_new multi_cont]. intros l v ->. split.
  - destruct l as [|x l]; [now left|right]. destruct (finger_fold lt W (x :: l) ltac:(discriminate)) as (a & u & b & E & Hf). rewrite E. now exists a, u, b.
  - destruct (multi_fold lt W l ([], O) I) as (H1 & H2). split; [now apply sle_sorted|exact H2].
Qed.
Print Assumptions C103_multiset.
Theorem C103_unordered : forall A H (h : hashtab A H) eq (c : codec A) d0 L R sn old old' s e, equivb eq -> unique_keys eq h -> dlaw (des c) ->
  outcomes (fun l t => as_unique eq l (h_list h t)) (des (seq_codec vec_cont L R c d0) sn old s e) (des (hash_codec h L R c d0) sn old' s e).
Proof.
  intros A H h eq c d0 L R sn old old' s e E U HD. eapply outcomes_impl; [|apply hash_alike; exact HD]. cbv beta. intros l t ->.
  destruct (uk_fold eq E h U l (h_clear h old')) as [H1 H2]; [rewrite (uk_clear eq h U); exact I|]. split; [now apply dst_distinct|]. intros y. now rewrite H2, (uk_clear eq h U).
Qed.
Print Assumptions C103_unordered.
Theorem C103_unordered_multi : forall A H (h : hashtab A H) (c : codec A) d0 L R sn old old' s e, equiv_keys h -> dlaw (des c) ->
  outcomes (fun l t => Permutation l (h_list h t)) (des (seq_codec vec_cont L R c d0) sn old s e) (des (hash_codec h L R c d0) sn old' s e).
Proof.
  intros A H h c d0 L R sn old old' s e U HD. eapply outcomes_impl; [|apply hash_alike; exact HD]. cbv beta. intros l t ->. rewrite <- (ek_fold h U l). now rewrite (ek_clear h U).
Qed.
Print Assumptions C103_unordered_multi.
(** Maps against vectors of pairs. *)
Theorem C103_map : forall K V lt (kc : codec K) (vc : codec V) d0 sn old old' s e, swo lt -> dlaw (des kc) -> dlaw (des vc) ->
  outcomes (as_set (klt lt)) (des (dict_vec_codec kc vc d0) sn old s e) (des (map_codec lt kc vc d0) sn old' s e) /\
  outcomes (fun l m => as_multiset (klt lt) l m /\ sorted_le (klt lt) m /\ Permutation l m) (des (dict_vec_codec kc vc d0) sn old s e) (des (multimap_codec lt kc vc d0) sn old' s e).
Proof.
  intros K V lt kc vc d0 sn old old' s e W HK HV. pose proof (klt_swo (V := V) lt W) as W'. pose proof (field_dlaw kc vc HK HV) as HF. split; [now apply C103_set|now apply C103_multiset].
Qed.
Print Assumptions C103_map.
(** What a std::array reads a vector reads; what it cannot keep is refused. A
    vector text of fewer than N elements is read by the array. *)
Theorem C103_from_array : forall A (c : codec A) d0 N sn (old : vec A N) s v r, dlaw (des c) -> heads LBR s -> reads (std_array_codec c d0 N) sn old s v r ->
  exists vs, reads (vector_codec c d0) sn [] s vs r /\ (length vs <= N)%nat /\ vlist v = vs ++ skipn (length vs) (vlist old).
Proof. exact @array_of_vector. Qed.
Print Assumptions C103_from_array.
Theorem C103_to_array : forall A (c : codec A) d0 N sn (old : vec A N) s vs r, dlaw (des c) -> heads LBR s -> reads (vector_codec c d0) sn [] s vs r -> (length vs < N)%nat ->
  exists v, reads (std_array_codec c d0 N) sn old s v r /\ vlist v = vs ++ skipn (length vs) (vlist old).
Proof. exact @vector_to_array. Qed.
Print Assumptions C103_to_array.
(** With exactly N elements a comma and a blank before the bracket are refused. *)
Theorem C103_full_refuted : ~ (forall sn (old : vec Z 1) s vs r, heads LBR s -> reads (vector_codec int32 0) sn [] s vs r -> (length vs <= 1)%nat -> exists v, reads (std_array_codec int32 0 1) sn old s v r).
Proof.
  intros H. destruct (H None (0, tt) (text "[1, ]") [1] []) as (v & E); [now eexists|unfold reads; exq|cbn; lia|]. unfold reads in E. vm_compute in E. discriminate.
Qed.
Print Assumptions C103_full_refuted.

Example C103_ex_set : des (set_codec Z.ltb int32 0) None [] (text "[3,1,3,2 x") clean = Ok ([1; 2; 3], [], Some (mkerr ExpectedOf (Some [COMMA]) 1)) /\
  des (vector_codec int32 0) None [] (text "[3,1,3,2 x") clean = Ok ([3; 1; 3; 2], [], Some (mkerr ExpectedOf (Some [COMMA]) 1)). Proof. split; exq. Qed.
Example C103_ex_map : des (map_codec str_lt string_codec int32 ([], 0)) None [] (jt "{'b':1,'a':2,'b':3}") clean = Ok ([(text "a", 2); (text "b", 1)], [], clean). Proof. exq. Qed.
Example C103_ex_multiset : des (multiset_codec Z.ltb int32 0) None [] (text "[3,1,3,]") clean = Ok ([1; 3; 3], [], clean). Proof. exq. Qed.
Example C103_ex_array : des (std_array_codec int32 0 3) None (7, (8, (9, tt))) (text "[1,2]") clean = Ok ((1, (2, (9, tt))), [], clean). Proof. exq. Qed.
Example C103_ex_unordered : exists t, des (unordered_set_codec tab_hash int32 0) None (true, [8], [9]) (text "[3,2,3,x]") clean = Ok (t, [], Some (mkerr InvalidNumber None 2)) /\
  des (vector_codec int32 0) None [] (text "[3,2,3,x]") clean = Ok ([3; 2; 3; 0], [], Some (mkerr InvalidNumber None 2)) /\ tab_list t = [3; 0; 2]. Proof. eexists. split; [exq|]. split; exq. Qed.
