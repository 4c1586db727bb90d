(** C98: what is written through one type is read through another. *)
From Coq Require Import Sorting.Permutation.
From Verif Require Import Base Parser SpecJson SpecNum SpecString SpecSeq Out Number StringS Array Object SpecObject Enum SpecEnum Wrap SpecWrap
  Grammar2 CodecLaws NumberProofs StringProofs ArrayProofs ObjectProofs Properties_Seq Properties_Object Properties_Enum SpecPass PassProofs SpecExact.

(** Through the same type, the value itself. *)
Theorem C98_same : forall A (c : codec A) dom, rt c dom -> forall v old, dom v -> gives c c old v v.
Proof. exact @rt_gives. Qed.
Print Assumptions C98_same.
(** There is at most one value that is read. *)
Theorem C98_deterministic : forall A B (c : codec A) (c' : codec B) old a b b', gives c c' old a b -> gives c c' old a b' -> b = b'.
Proof. exact @gives_det. Qed.
Print Assumptions C98_deterministic.
(** Any container is read as a vector of what its elements are read as, *)
Theorem C98_to_vector : forall A B C S (k : container A C S) (c : codec A) (c' : codec B) d d0 old x vs,
  Forall2 (gives c c' d0) (c_list k x) vs -> gives (seq_codec k LBR RBR c d) (vector_codec c' d0) old x vs.
Proof.
  intros A B C S k c c' d d0 old x vs H. pose proof (seq_gives k vec_cont LBR RBR c c' d d0 old x vs (or_introl (conj eq_refl eq_refl)) H) as G.
  cbn [c_get c_ins c_new vec_cont] in G. rewrite fold_snoc in G. exact G.
Qed.
Print Assumptions C98_to_vector.
(** as a set: sorted, of several equivalent elements the first, *)
Theorem C98_to_set : forall A B C S (k : container A C S) lt (c : codec A) (c' : codec B) d d0 old x vs m, swo lt ->
  Forall2 (gives c c' d0) (c_list k x) vs -> sorted_lt lt m -> (forall y, find (eqv lt y) m = find (eqv lt y) vs) ->
  gives (seq_codec k LBR RBR c d) (set_codec lt c' d0) old x m.
Proof.
  intros A B C S k lt c c' d d0 old x vs m W H Hs Hf. pose proof (seq_gives k (set_cont lt) LBR RBR c c' d d0 old x vs (or_introl (conj eq_refl eq_refl)) H) as G.
  cbn [c_get c_ins c_new set_cont] in G. replace m with (fold_left (fun l y => set_insert lt y l) vs []); [exact G|]. apply (sorted_same lt); auto.
  - apply slt_sorted. apply set_fold_slt; [exact W|exact I].
  - intros y. rewrite set_fold_find; [now rewrite Hf|exact W|exact I].
Qed.
Print Assumptions C98_to_set.
(** as a multiset: sorted, all elements. *)
Theorem C98_to_multiset : forall A B C S (k : container A C S) lt (c : codec A) (c' : codec B) d d0 old x vs, swo lt ->
  Forall2 (gives c c' d0) (c_list k x) vs -> exists m,
  gives (seq_codec k LBR RBR c d) (multiset_codec lt c' d0) old x m /\ sorted_le lt m /\ Permutation vs m.
Proof.
  intros A B C S k lt c c' d d0 old x vs W H. eexists. split; [exact (seq_gives k (multi_cont lt) LBR RBR c c' d d0 old x vs (or_introl (conj eq_refl eq_refl)) H)|].
  cbn [c_get c_ins c_new multi_cont]. destruct (multi_fold lt W vs ([], O) I) as (H1 & H2). split; [now apply sle_sorted|exact H2].
Qed.
Print Assumptions C98_to_multiset.
(** Dictionaries of any kind as a vector of pairs or as a map. *)
Theorem C98_to_dict : forall K V K' V' C S (k : container (K * V) C S) (kc : codec K) (vc : codec V) (kc' : codec K') (vc' : codec V') d k0 v0 old x vs,
  Forall2 (fun p q => gives kc kc' k0 (fst p) (fst q) /\ gives vc vc' v0 (snd p) (snd q)) (c_list k x) vs ->
  gives (seq_codec k LCB RCB (field_codec kc vc) d) (dict_vec_codec kc' vc' (k0, v0)) old x vs.
Proof.
  intros K V K' V' C S k kc vc kc' vc' d k0 v0 old x vs H.
  assert (Forall2 (gives (field_codec kc vc) (field_codec kc' vc') (k0, v0)) (c_list k x) vs) as H' by (eapply Forall2_impl; [|exact H]; intros [a b] [a' b'] [H1 H2]; now apply field_gives).
  pose proof (seq_gives k vec_cont LCB RCB _ _ d (k0, v0) old x vs (or_intror (conj eq_refl eq_refl)) H') as G.
  cbn [c_get c_ins c_new vec_cont] in G. rewrite fold_snoc in G. exact G.
Qed.
Print Assumptions C98_to_dict.
Theorem C98_to_map : forall K V K' V' C S (k : container (K * V) C S) lt (kc : codec K) (vc : codec V) (kc' : codec K') (vc' : codec V') d k0 v0 old x vs m, swo lt ->
  Forall2 (fun p q => gives kc kc' k0 (fst p) (fst q) /\ gives vc vc' v0 (snd p) (snd q)) (c_list k x) vs ->
  sorted_lt (klt lt) m -> (forall y, find (eqv (klt lt) y) m = find (eqv (klt lt) y) vs) ->
  gives (seq_codec k LCB RCB (field_codec kc vc) d) (map_codec lt kc' vc' (k0, v0)) old x m.
Proof.
  intros K V K' V' C S k lt kc vc kc' vc' d k0 v0 old x vs m W H Hs Hf. pose proof (klt_swo (V := V') lt W) as W'.
  assert (Forall2 (gives (field_codec kc vc) (field_codec kc' vc') (k0, v0)) (c_list k x) vs) as H' by (eapply Forall2_impl; [|exact H]; intros [a b] [a' b'] [H1 H2]; now apply field_gives).
  pose proof (seq_gives k (set_cont (klt lt)) LCB RCB _ _ d (k0, v0) old x vs (or_intror (conj eq_refl eq_refl)) H') as G.
  cbn [c_get c_ins c_new set_cont] in G. replace m with (fold_left (fun l y => set_insert (klt lt) y l) vs []); [exact G|]. apply (sorted_same (klt lt)); auto.
  - apply slt_sorted. apply set_fold_slt; [exact W'|exact I].
  - intros y. rewrite set_fold_find; [now rewrite Hf|exact W'|exact I].
Qed.
Print Assumptions C98_to_map.
(** A fixed array takes up to N elements and keeps the others; it is itself read
    as a vector. *)
Theorem C98_to_array : forall A B C S (k : container A C S) (c : codec A) (c' : codec B) d d0 N old x vs,
  Forall2 (gives c c' d0) (c_list k x) vs -> (length vs <= N)%nat -> (0 < N)%nat -> exists new,
  gives (seq_codec k LBR RBR c d) (std_array_codec c' d0 N) old x new /\ vlist new = vs ++ skipn (length vs) (vlist old).
Proof.
  intros A B C S k c c' d d0 N old x vs H L P. eexists. split; [exact (array_gives k c c' d d0 N old x vs H L P)|]. apply vlist_vfill.
  rewrite app_length, skipn_length, vlist_len. lia.
Qed.
Print Assumptions C98_to_array.
Theorem C98_from_array : forall A B (c : codec A) (c' : codec B) d d0 N old (x : vec A N) vs, Forall2 (gives c c' d0) (vlist x) vs ->
  gives (std_array_codec c d N) (vector_codec c' d0) old x vs /\ gives (c_array_codec c N) (vector_codec c' d0) old x vs.
Proof.
  intros A B c c' d d0 N old x vs H. pose proof (from_array_gives vec_cont c c' d d0 N old x vs H) as G.
  cbn [c_get c_ins c_new vec_cont] in G. rewrite fold_snoc in G. exact G.
Qed.
Print Assumptions C98_from_array.
(** A value can become a pointer to it and a pointer its value; an empty pointer
    becomes the empty value, if there is one. *)
Theorem C98_to_pointer : forall A B (c : codec A) (c' : codec B) d0 old a b, not_starting c 110 a -> gives c c' d0 a b -> gives c (ptr_codec c' d0) old a (Some b).
Proof. exact @to_ptr_gives. Qed.
Print Assumptions C98_to_pointer.
Theorem C98_from_pointer : forall A B (c : codec A) (c' : codec B) d old a b, gives c c' old a b -> gives (ptr_codec c d) c' old (Some a) b.
Proof. exact @ptr_to_gives. Qed.
Print Assumptions C98_from_pointer.
Theorem C98_from_null : forall A B (c : codec A) (c' : codec B) d f old, null_reads c' f -> gives (ptr_codec c d) c' old None (f old).
Proof. exact @null_gives. Qed.
Print Assumptions C98_from_null.
(** An integer is the same in another type that has it, *)
Theorem C98_int : forall t u old v, ity_ok t -> ity_ok u -> irange t v -> int_dom u v -> gives (int_codec t) (int_codec u) old v v.
Proof. exact int_gives. Qed.
Print Assumptions C98_int.
(** and in a short or unsigned type that does not have it another number,
    without any error. *)
Theorem C98_int_wraps : forall t u old v, ity_ok t -> ity_ok u -> irange t v -> wraps u -> exists w,
  gives (int_codec t) (int_codec u) old v w /\ irange u w /\ (w - v) mod 2 ^ (8 * isize u) = 0.
Proof.
  intros t u old v Ht Hu Hv Hw. exists (icast u v). split; [now apply int_wraps|]. split; [now apply icast_range|].
  destruct (icast_eq u v Hu) as (k & ->). replace (v + k * imod u - v) with (k * imod u) by lia. apply Z.mod_mul. unfold imod. pose proof (isize u) as _. destruct Hu as [E|[E|[E|E]]]; rewrite E; discriminate.
Qed.
Print Assumptions C98_int_wraps.
(** An enumerator is read as its name by a string reader. *)
Theorem C98_enum_string : forall mode L v old, In v (evals L) -> plain_text (enum_name L v) -> dist (enum_name L v) <= INT_MAX ->
  gives (enum_codec mode L) string_codec old v (enum_name L v).
Proof. exact enum_string_gives. Qed.
Print Assumptions C98_enum_string.
(** Any JSON text that is written is kept as it is by a raw value, and what a
    raw value holds is written for any reader that reads it. *)
Theorem C98_to_raw : forall A (c : codec A) old a ops, ser c a = Ok ops -> wvalue (flat ops) -> gives c raw_codec old a (flat ops).
Proof. exact @raw_gives. Qed.
Print Assumptions C98_to_raw.
Theorem C98_from_raw : forall B (c' : codec B) old txt b, rd_into c' old txt b -> gives raw_codec c' old txt b.
Proof. exact @from_raw_gives. Qed.
Print Assumptions C98_from_raw.
(** Strings and character arrays that are long enough. *)
Theorem C98_string_chars : forall N old old' t, (length t <= N)%nat -> Z.of_nat N <= INT_MAX -> Forall str_char t ->
  gives string_codec (chars_codec N) old t (t ++ repeat 0 (N - length t)) /\
  gives (chars_codec N) string_codec old' (t ++ repeat 0 (N - length t)) t.
Proof. intros. split; [now apply string_chars_gives|now apply chars_string_gives]. Qed.
Print Assumptions C98_string_chars.
(** A struct is read as another struct: members of the same name are handed
    over, everything else in the target stays, and a nonstrict reader leaves out
    members it does not know. *)
Theorem C98_struct : forall T U mode mode' (LT : list (memb T)) (LU : list (memb U)) t0 u0 (v : T) (old : U),
  Forall no_if LT -> Forall no_if LU -> NoDup (names LT) -> names_ok LU -> indep LU -> keeps LU ->
  Forall (member_goes mode' LU v) LT ->
  exists w, gives (object_codec mode LT t0) (object_codec mode' LU u0) old v w /\
    (forall (b : memb T) (c : memb U) F, In b LT -> In c LU -> memb_name c = memb_name b ->
       (forall o, gives (m_codec (memb_mem b)) (m_codec (memb_mem c)) o (m_get (memb_mem b) v) (F o)) ->
       m_get (memb_mem c) w = F (memb_old c old)) /\
    (forall X (obs : U -> X), (forall c, In c LU -> In (memb_name c) (names LT) -> forall t x, obs (m_set (memb_mem c) t x) = obs t) -> obs w = obs old).
Proof. exact @struct_gives. Qed.
Print Assumptions C98_struct.
(** Every member that is written as JSON can be left out so. *)
Theorem C98_left_out : forall T U (LU : list (memb U)) (v : T) (b : memb T) dom, jout (m_codec (memb_mem b)) dom -> dom (m_get (memb_mem b) v) ->
  plain_text (memb_name b) -> ~ In (memb_name b) (names LU) -> member_goes Nonstrict LU v b.
Proof.
  intros T U LU v b dom H Hd Hp Hn. destruct (H _ Hd) as (ops & E & R). apply (mg_skip _ _ _ _ ops); [reflexivity|exact Hn| |exact E|now apply rfc_wjson].
  revert Hp. generalize (memb_name b). intros n. induction 1 as [|c n Hc _ IH]; [constructor|]. change (c :: n) with ([c] ++ n). constructor; [|exact IH]. constructor; lia.
Qed.
Print Assumptions C98_left_out.
(** A struct is read as a dictionary of its members. *)
Theorem C98_struct_dict : forall T V mode (LT : list (memb T)) t0 (vc : codec V) d0 old (v : T) xs,
  Forall no_if LT -> Forall plain_text (names LT) -> Forall (fun n => dist n <= INT_MAX) (names LT) ->
  Forall2 (fun (b : memb T) x => gives (m_codec (memb_mem b)) vc (snd d0) (m_get (memb_mem b) v) x) LT xs ->
  gives (object_codec mode LT t0) (dict_vec_codec string_codec vc d0) old v (combine (names LT) xs).
Proof.
  intros T V mode LT t0 vc d0 old v xs H1 H2 H3 H4. pose proof (struct_dict_gives T V _ _ mode LT t0 vec_cont vc d0 old v xs H1 H2 H3 H4) as G.
  cbn [c_get c_ins c_new vec_cont] in G. rewrite fold_snoc in G. exact G.
Qed.
Print Assumptions C98_struct_dict.

(** Without the hypotheses it is not so: a strict reader refuses a struct with
    one more member, *)
Definition m2 : mem (Z * list Z) := mkmem (text "b") fst (fun t x => (x, snd t)) (int_codec (mkity 8 true)).
Definition m3 : mem (Z * list Z) := mkmem (text "c") snd (fun t x => (fst t, x)) (vector_codec int32 0).
Definition Lbar : list (memb (Z * list Z)) := [MRef m2; MRef m3].
Definition bar_codec mode := object_codec mode Lbar (0, []).
Theorem C98_strict_refuted : exists ops s j, ser (foo_codec Nonstrict) (mkfoo 1 2 (text "x")) = Ok ops /\
  (exists v, des (bar_codec Strict) None (0, [7]) (flat ops) clean = Ok (v, s, Some j)) /\ is_err j = true.
Proof. eexists _, _, _. split; [exq|]. split; [eexists; exq|reflexivity]. Qed.
Print Assumptions C98_strict_refuted.
(** an int64 that no int32 holds makes the int32 reader overflow, *)
Theorem C98_int_overflow_refuted : ser (int_codec (mkity 8 true)) 5000000000 = Ok (wr (text "5000000000")) /\ des int32 None 0 (text "5000000000") clean = UB.
Proof. split; exq. Qed.
Print Assumptions C98_int_overflow_refuted.
(** and a string that does not fit is not read by a character array. *)
Theorem C98_chars_refuted : exists ops s j v, ser string_codec (text "abcd") = Ok ops /\ des (chars_codec 3) None [0; 0; 0] (flat ops) clean = Ok (v, s, Some j) /\ is_err j = true.
Proof. eexists _, _, _, _. split; [exq|]. split; [exq|reflexivity]. Qed.
Print Assumptions C98_chars_refuted.

Lemma bar_indep : indep Lbar.
Proof. intros a b [<-|[<-|[]]] [<-|[<-|[]]] Hn t x y; try (split; reflexivity); now contradiction Hn. Qed.
Lemma bar_keeps : keeps Lbar.
Proof. intros c [<-|[<-|[]]] t x; reflexivity. Qed.
Lemma bar_names : names_ok Lbar.
Proof. split; [cbn; repeat constructor; cbn; intuition discriminate|cbn; repeat constructor; cbn; discriminate]. Qed.
(** {a, b, foo} is read as {b, c}: b becomes wider, c stays, a and foo are left
    out. *)
Example C98_ex_struct : forall v, int_dom i32 (fa v) -> int_dom i32 (fb v) -> utf8 (fs v) ->
  forall old, gives (foo_codec Strict) (bar_codec Nonstrict) old v (fb v, snd old).
Proof.
  intros v Ha Hb Hs old. destruct v as [a b s]. cbn [fa fb fs] in *.
  assert (I : forall o, gives int32 (int_codec (mkity 8 true)) o b b).
  { intros o. apply C98_int; [exact i32_ok|now right; right; right|apply Hb|]. destruct Hb as [[H1 H2] _].
    change (imin i32) with (-2147483648) in *. change (imax i32) with 2147483647 in *. unfold int_dom, irange.
    change (imin (mkity 8 true)) with (-9223372036854775808). change (imax (mkity 8 true)) with 9223372036854775807. lia. }
  destruct (C98_struct foo _ Strict Nonstrict Lfoo Lbar foo0 (0, []) (mkfoo a b s) old Lfoo_noif) as (w & G & H1 & H2).
  - repeat constructor.
  - apply Lfoo_ok.
  - exact bar_names.
  - exact bar_indep.
  - exact bar_keeps.
  - apply Forall_cons; [|apply Forall_cons; [|apply Forall_cons; [|apply Forall_nil]]].
    + apply (C98_left_out _ _ _ _ (MRef ma) (irange i32)); [apply int_jout, i32_ok|apply Ha|repeat constructor; discriminate|cbn; intuition discriminate].
    + apply (mg_read _ _ _ _ (MRef m2) (fun _ => b)); [now left|reflexivity|exact I].
    + apply (C98_left_out _ _ _ _ (MProp ms []) utf8); [exact string_jout|exact Hs|repeat constructor; discriminate|cbn; intuition discriminate].
  - assert (w = (b, snd old)) as ->; [|exact G]. rewrite (surjective_pairing w). f_equal.
    + exact (H1 (MRef mb) (MRef m2) (fun _ => b) (or_intror (or_introl eq_refl)) (or_introl eq_refl) eq_refl I).
    + apply (H2 _ snd). intros c [<-|[<-|[]]] K t x; [reflexivity|]. exfalso. cbn in K. intuition discriminate.
Qed.
Example C98_ex_struct_run : exists ops, ser (foo_codec Strict) (mkfoo 1 (-2) (text "x")) = Ok ops /\
  des (bar_codec Nonstrict) None (0, [7]) (flat ops) clean = Ok ((-2, [7]), [], clean).
Proof. eexists. split; [exq|]. exq. Qed.
Example C98_ex_dict : exists ops, ser (bar_codec Strict) (5, []) = Ok ops /\
  des (dict_vec_codec string_codec raw_codec ([], [])) None [] (flat ops) clean = Ok ([(text "b", text "5"); (text "c", text "[]")], [], clean).
Proof. eexists. split; [exq|]. exq. Qed.
Example C98_ex_set : exists ops, ser (vector_codec int32 0) [3; 1; 3; 2] = Ok ops /\
  des (set_codec Z.ltb (int_codec (mkity 8 true)) 0) None [9] (flat ops) clean = Ok ([1; 2; 3], [], clean) /\
  des (multiset_codec Z.ltb int32 0) None [9] (flat ops) clean = Ok ([1; 2; 3; 3], [], clean) /\
  des (std_array_codec int32 0 5) None (9, (9, (9, (9, (9, tt))))) (flat ops) clean = Ok ((3, (1, (3, (2, (9, tt))))), [], clean).
Proof. eexists. split; [exq|]. repeat split; exq. Qed.
Example C98_ex_narrow : exists ops, ser int32 300 = Ok ops /\ des (int_codec (mkity 1 false)) None 0 (flat ops) clean = Ok (44, [], clean).
Proof. eexists. split; [exq|]. exq. Qed.
Example C98_ex_enum : exists ops, ser (enum_codec Strict colors) 1 = Ok ops /\ exists s, des string_codec None [] (flat ops) clean = Ok (s, [], clean) /\ s = enum_name colors 1.
Proof. eexists. split; [exq|]. eexists. split; [exq|]. exq. Qed.
Example C98_ex_pointer : exists ops, ser (ptr_codec int32 0) None = Ok ops /\ des (vector_codec int32 0) None [5] (flat ops) clean = Ok ([], [], clean).
Proof. eexists. split; [exq|]. exq. Qed.
