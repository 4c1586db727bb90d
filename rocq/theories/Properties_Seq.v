(** Theorems about sequences, fixed arrays, ordered containers and
    dictionaries (C26-C32). *)
From Coq Require Import Sorting.Permutation.
From Verif Require Import Base Parser SpecJson SpecNum SpecSeq ParserFacts Grammar1 Grammar2 Out Number StringS Array
  CodecLaws NumberProofs StringProofs ArrayProofs.
Ltac exq := vm_compute; reflexivity.
Definition clean := Some no_error.
Definition i32 := mkity 4 true.
Definition int32 := int_codec i32.
Lemma i32_ok : ity_ok i32. Proof. right; right; now left. Qed.

(** C26.  [null_reads c d]: null is read, whatever follows, exactly 4 bytes are
    consumed, nothing is reported and the target becomes [d old]. *)
Theorem C26_null_int : forall t, null_reads (int_codec t) (fun _ => 0).
Proof. intros t sn old r e. reflexivity. Qed.
Theorem C26_null_bool : null_reads bool_codec (fun _ => false).
Proof. intros sn old r e. reflexivity. Qed.
Theorem C26_null_string : null_reads string_codec (fun _ => []).
Proof. intros sn old r e. reflexivity. Qed.
Theorem C26_null_char_array : forall N, null_reads (chars_codec N) (fun _ => repeat 0 N).
Proof. intros N sn old r e. reflexivity. Qed.
Theorem C26_null_vector : forall A (c : codec A) d0, null_reads (vector_codec c d0) (fun _ => []).
Proof. intros. apply (seq_null vec_cont). Qed.
Theorem C26_null_set : forall A lt (c : codec A) d0, null_reads (set_codec lt c d0) (fun _ => []).
Proof. intros. apply (seq_null (set_cont lt)). Qed.
Theorem C26_null_multiset : forall A lt (c : codec A) d0, null_reads (multiset_codec lt c d0) (fun _ => []).
Proof. intros. apply (seq_null (multi_cont lt)). Qed.
Theorem C26_null_dict : forall K V (kc : codec K) (vc : codec V) d0, null_reads (dict_vec_codec kc vc d0) (fun _ => []).
Proof. intros. apply (seq_null vec_cont). Qed.
Theorem C26_null_map : forall K V lt (kc : codec K) (vc : codec V) d0, null_reads (map_codec lt kc vc d0) (fun _ => []).
Proof. intros. apply (seq_null (set_cont _)). Qed.
Theorem C26_null_multimap : forall K V lt (kc : codec K) (vc : codec V) d0, null_reads (multimap_codec lt kc vc d0) (fun _ => []).
Proof. intros. apply (seq_null (multi_cont _)). Qed.
(** element-wise for fixed arrays *)
Theorem C26_null_std_array : forall A (c : codec A) d0 N d, null_reads c d ->
  null_reads (std_array_codec c d0 N) (fun v => vfill v (map d (vlist v))).
Proof. intros. apply vec_null. now apply fix_des_null. Qed.
Theorem C26_null_c_array : forall A (c : codec A) N d, null_reads c d ->
  null_reads (c_array_codec c N) (fun v => vfill v (map d (vlist v))).
Proof. intros. apply vec_null. now apply fix_des_null. Qed.
Print Assumptions C26_null_int.
Print Assumptions C26_null_c_array.
Example C26_ex : des (c_array_codec (vector_codec int32 7) 2) None ([1;2], ([3], tt)) (text "null]") clean
  = Ok (([], ([], tt)), text "]", clean). Proof. exq. Qed.

(** C27 *)
Theorem C27_vector_roundtrip : forall A (c : codec A) d0 dom, rt c dom -> rt (vector_codec c d0) (Forall dom).
Proof. exact @vector_rt. Qed.
Print Assumptions C27_vector_roundtrip.
Example C27_ex_nested : rt (vector_codec (vector_codec (vector_codec string_codec []) []) []) (Forall (Forall (Forall str_dom))).
Proof. apply C27_vector_roundtrip, C27_vector_roundtrip, C27_vector_roundtrip, string_rt. Qed.
Example C27_ex : let v := [[1; -2]; []; [3]] in
  exists ops, ser (vector_codec (vector_codec int32 0) [9]) v = Ok ops /\ flat ops = text "[[1,-2],[],[3]]" /\
  des (vector_codec (vector_codec int32 0) [9]) None [[5]] (text "[[1,-2],[],[3]],") clean = Ok (v, [COMMA], clean).
Proof. eexists. split; [exq|]. split; exq. Qed.

(** C28: element texts [ts] with gaps anywhere; [tc = true] allows the trailing
    comma the code tolerates. *)
Theorem C28_vector_reads_elements : forall A (c : codec A) d0 tc ts b vs, spaced tc ts b -> Forall2 (rd c) ts vs ->
  rd (vector_codec c d0) (LBR :: b ++ [RBR]) vs.
Proof.
  intros A c d0 tc ts b vs Hs Hv. pose proof (seq_rd vec_cont LBR RBR c d0 tc ts b vs (or_introl (conj eq_refl eq_refl)) Hs Hv) as H.
  cbn [c_get c_ins c_new vec_cont] in H. rewrite (fold_snoc vs []) in H. exact H.
Qed.
Print Assumptions C28_vector_reads_elements.
(** conversely nothing but such lists is accepted *)
Theorem C28_vector_accepts_only : forall A (c : codec A) d0 sn old s v r, dlaw (des c) -> starts 110 s = false ->
  des (vector_codec c d0) sn old s clean = Ok (v, r, clean) ->
  exists t, s = LBR :: t /\ items_read (fun s v r => des c sn d0 s clean = Ok (v, r, clean)) RBR t v r.
Proof.
  intros A c d0 sn old s v r Hl Hn H. destruct (seq_sound vec_cont LBR RBR c d0 sn old s v r ltac:(lia) Hl Hn H) as (t & vs & -> & Hi & ->).
  exists t. split; [reflexivity|]. cbn [c_get c_ins c_new vec_cont]. now rewrite (fold_snoc vs []).
Qed.
Print Assumptions C28_vector_accepts_only.
Example C28_ex : des (vector_codec int32 0) None [5; 5; 5] (text "[ 1 , /*x*/ 2,3 , ] tail") clean = Ok ([1; 2; 3], text " tail", clean).
Proof. exq. Qed.
Example C28_ex_spaced : spaced true [text "1"; text "23"] (text " 1 , 23,").
Proof.
  assert (G : gap [32]) by (apply g_ws; [unfold s_ws; lia|constructor]).
  apply sp_body. apply (eb_more true [32] (text "1") [32] [text "23"] (text " 23,")); auto.
  apply (eb_trail true [32] (text "23") [] []); auto; constructor.
Qed.
Example C28_ex_bad : exists j, des (vector_codec int32 0) None [] (text "[1 2]") clean = Ok ([1], [], Some j) /\ is_err j = true.
Proof. eexists. split; exq. Qed.

(** C29 *)
Theorem C29_array_bounds_std : forall A (c : codec A) d0 sn old s e l r e',
  des (stdarray_codec c d0) sn old s e = Ok (l, r, e') -> length l = length old.
Proof. intros A c d0 sn old s e l r e'. apply fix_len. Qed.
Theorem C29_array_bounds_c : forall A (c : codec A) sn old s e l r e',
  des (carray_codec c) sn old s e = Ok (l, r, e') -> length l = length old.
Proof. intros A c sn old s e l r e'. apply fix_len. Qed.
(** at most N elements: they are stored, the others keep their value *)
Theorem C29_array_reads_prefix : forall A (c : codec A) d0 ts b vs sn old r e,
  spaced false ts b -> Forall2 (rd c) ts vs -> (length vs <= length old)%nat -> old <> [] -> no_err_yet e = true ->
  des (carray_codec c) sn old (LBR :: b ++ RBR :: r) e = Ok (vs ++ skipn (length vs) old, r, e) /\
  des (stdarray_codec c d0) sn old (LBR :: b ++ RBR :: r) e = Ok (vs ++ skipn (length vs) old, r, e).
Proof. intros. split; apply (fix_rd _ _ _ _ _ ts); auto; now left. Qed.
(** std::array reads every element into a fresh target, J[N] into the present
    element *)
Theorem C29_array_targets : forall A (c : codec A) d0 ts b new sn old r e, spaced false ts b -> old <> [] -> no_err_yet e = true ->
  (filled c (fun x => x) old ts new -> des (carray_codec c) sn old (LBR :: b ++ RBR :: r) e = Ok (new, r, e)) /\
  (filled c (fun _ => d0) old ts new -> des (stdarray_codec c d0) sn old (LBR :: b ++ RBR :: r) e = Ok (new, r, e)).
Proof. intros. split; intros; apply (fix_filled _ _ _ _ _ ts); auto; now left. Qed.
Print Assumptions C29_array_targets.
(** more than N elements: an error *)
Theorem C29_array_too_many : forall A (c : codec A) d0 ts b vs sn old r k,
  spaced false ts b -> Forall2 (rd c) ts vs -> (length old < length vs)%nat -> old <> [] -> is_err k = false ->
  (exists j, des (carray_codec c) sn old (LBR :: b ++ RBR :: r) (Some k) = Ok (firstn (length old) vs, [], Some j) /\ is_err j = true) /\
  (exists j, des (stdarray_codec c d0) sn old (LBR :: b ++ RBR :: r) (Some k) = Ok (firstn (length old) vs, [], Some j) /\ is_err j = true).
Proof. intros. split; eapply fix_too_many; eauto; now left. Qed.
Print Assumptions C29_array_bounds_std.
Print Assumptions C29_array_bounds_c.
Print Assumptions C29_array_reads_prefix.
Print Assumptions C29_array_too_many.
Example C29_ex : des (carray_codec int32) None [7; 8; 9] (text "[1, 2]") clean = Ok ([1; 2; 9], [], clean). Proof. exq. Qed.
Example C29_ex_many : exists j, des (carray_codec int32) None [7; 8] (text "[1, 2,3]") clean = Ok ([1; 2], [], Some j) /\ is_err j = true.
Proof. eexists. split; exq. Qed.
(** inner arrays show what the targets contained *)
Example C29_ex_targets :
  des (carray_codec (carray_codec int32)) None [[1; 2]; [3; 4]] (text "[[9]]") clean = Ok ([[9; 2]; [3; 4]], [], clean) /\
  des (stdarray_codec (carray_codec int32) [5; 6]) None [[1; 2]; [3; 4]] (text "[[9]]") clean = Ok ([[9; 6]; [3; 4]], [], clean) /\
  rd_into (carray_codec int32) [5; 6] (text "[9]") [9; 6].
Proof.
  split; [exq|]. split; [exq|]. split; [exists LBR, (text "9]"); split; [reflexivity|]; unfold vstart; lia|]. intros sn r e Hf He.
  apply (C29_array_reads_prefix Z int32 0 [text "9"] (text "9") [9] sn [5; 6] r e); [| |cbn; lia|discriminate|exact He].
  - apply sp_body. apply (eb_one false [] (text "9") []); constructor.
  - constructor; [|constructor]. split; [exists 57, []; split; [reflexivity|]; unfold vstart, s_digit; lia|].
    intros sn' old' r' e' Hf' He'. destruct (int_rt i32 i32_ok 9) as (ops & E & _ & H); [split; [split; vm_compute; discriminate|vm_compute; intuition discriminate]|].
    vm_compute in E. injection E as <-. now apply (H sn' old' r' e').
Qed.
(** the code tolerates one trailing comma after element N only without space *)
Example C29_ex_trailing : des (carray_codec int32) None [7; 8] (text "[1,2,]") clean = Ok ([1; 2], [], clean). Proof. exq. Qed.

(** C30 *)
Theorem C30_std_array_roundtrip : forall A (c : codec A) d0 N dom, rt c dom ->
  rt (std_array_codec c d0 N) (fun v => Forall dom (vlist v)).
Proof. intros. apply vec_rt. now apply fix_rt. Qed.
Theorem C30_c_array_roundtrip : forall A (c : codec A) N dom, rt c dom ->
  rt (c_array_codec c N) (fun v => Forall dom (vlist v)).
Proof. intros. apply vec_rt. now apply fix_rt. Qed.
Print Assumptions C30_std_array_roundtrip.
Print Assumptions C30_c_array_roundtrip.
Example C30_ex : rt (c_array_codec (std_array_codec int32 0 3) 2) (fun v => Forall (fun w => Forall (int_dom i32) (vlist w)) (vlist v)).
Proof. apply C30_c_array_roundtrip, C30_std_array_roundtrip, int_rt, i32_ok. Qed.
Example C30_ex_run : exists ops, ser (c_array_codec (std_array_codec int32 0 3) 2) ((1, (2, (3, tt))), ((4, (5, (6, tt))), tt)) = Ok ops
  /\ flat ops = text "[[1,2,3],[4,5,6]]". Proof. eexists. split; exq. Qed.

(** C31: sorted whatever the input *)
Theorem C31_set_sorted : forall A lt (c : codec A) L R d0 sn old s e v r e', swo lt ->
  des (seq_codec (set_cont lt) L R c d0) sn old s e = Ok (v, r, e') -> sorted_lt lt v.
Proof. exact @set_sorted. Qed.
Theorem C31_multi_sorted : forall A lt (c : codec A) L R d0 sn old s e v r e', swo lt ->
  des (seq_codec (multi_cont lt) L R c d0) sn old s e = Ok (v, r, e') -> sorted_le lt v.
Proof. exact @multi_sorted. Qed.
(** set/map: exactly the keys read, each with its first occurrence *)
Theorem C31_first_wins : forall A lt (c : codec A) d0 L R tc ts b vs, swo lt -> brackets L R -> spaced tc ts b -> Forall2 (rd c) ts vs ->
  exists m, rd (seq_codec (set_cont lt) L R c d0) (L :: b ++ [R]) m /\ sorted_lt lt m /\
    forall y, find (eqv lt y) m = find (eqv lt y) vs.
Proof. exact @map_first_wins. Qed.
(** multiset/multimap: all elements read *)
Theorem C31_multi_keeps_all : forall A lt (c : codec A) d0 L R tc ts b vs, swo lt -> brackets L R -> spaced tc ts b -> Forall2 (rd c) ts vs ->
  exists m, rd (seq_codec (multi_cont lt) L R c d0) (L :: b ++ [R]) m /\ sorted_le lt m /\ Permutation vs m.
Proof. exact @multi_keeps_all. Qed.
Theorem C31_set_roundtrip : forall A lt (c : codec A) d0 dom, swo lt -> rt c dom ->
  rt (set_codec lt c d0) (fun l => Forall dom l /\ sorted_lt lt l).
Proof. exact @set_rt. Qed.
Theorem C31_multiset_roundtrip : forall A lt (c : codec A) d0 dom, swo lt -> rt c dom ->
  rt (multiset_codec lt c d0) (fun l => Forall dom l /\ sorted_le lt l).
Proof. exact @multiset_rt. Qed.
Theorem C31_map_roundtrip : forall K V lt (kc : codec K) (vc : codec V) d0 dk dv, swo lt -> rt kc dk -> rt vc dv ->
  rt (map_codec lt kc vc d0) (fun l => Forall (pair_dom dk dv) l /\ sorted_lt (klt lt) l).
Proof. exact @map_rt. Qed.
Theorem C31_multimap_roundtrip : forall K V lt (kc : codec K) (vc : codec V) d0 dk dv, swo lt -> rt kc dk -> rt vc dv ->
  rt (multimap_codec lt kc vc d0) (fun l => Forall (pair_dom dk dv) l /\ sorted_le (klt lt) l).
Proof. exact @multimap_rt. Qed.
(** the orders used for integers and strings are admissible *)
Theorem C31_int_order : swo Z.ltb. Proof. exact Zltb_swo. Qed.
Theorem C31_string_order : swo str_lt. Proof. exact str_lt_swo. Qed.
Print Assumptions C31_set_sorted.
Print Assumptions C31_multi_sorted.
Print Assumptions C31_first_wins.
Print Assumptions C31_multi_keeps_all.
Print Assumptions C31_set_roundtrip.
Print Assumptions C31_multiset_roundtrip.
Print Assumptions C31_map_roundtrip.
Print Assumptions C31_multimap_roundtrip.
Print Assumptions C31_string_order.
Example C31_ex_set : des (set_codec Z.ltb int32 0) None [] (text "[3,1,2,3,1]") clean = Ok ([1; 2; 3], [], clean). Proof. exq. Qed.
Example C31_ex_map : des (map_codec Z.ltb int32 int32 (0, 0)) None [] (text "{3:1,1:5,3:2}") clean = Ok ([(1, 5); (3, 1)], [], clean). Proof. exq. Qed.
Example C31_ex_multimap : des (multimap_codec Z.ltb int32 int32 (0, 0)) None [] (text "{3:1,1:5,3:2}") clean
  = Ok ([(1, 5); (3, 2); (3, 1)], [], clean). Proof. exq. Qed.

(** C32 *)
Theorem C32_dict_roundtrip : forall V (vc : codec V) d0 dv, rt vc dv ->
  rt (dict_vec_codec string_codec vc d0) (Forall (pair_dom str_dom dv)).
Proof. intros V vc d0 dv H. apply dict_vec_rt; [exact string_rt|exact H]. Qed.
Theorem C32_map_roundtrip : forall V (vc : codec V) d0 dv, rt vc dv ->
  rt (map_codec str_lt string_codec vc d0) (fun l => Forall (pair_dom str_dom dv) l /\ sorted_lt (klt str_lt) l).
Proof. intros V vc d0 dv H. apply map_rt; [exact str_lt_swo|exact string_rt|exact H]. Qed.
Print Assumptions C32_dict_roundtrip.
Print Assumptions C32_map_roundtrip.
(** ... and with any spacing *)
Theorem C32_field_reads : forall K V (kc : codec K) (vc : codec V) kt k vt v g1 g2, rd kc kt k -> rd vc vt v -> gap g1 -> gap g2 ->
  rd (field_codec kc vc) (kt ++ g1 ++ COLON :: g2 ++ vt) (k, v).
Proof. exact @field_rd. Qed.
Print Assumptions C32_field_reads.
Definition q (s : buf) : buf := QT :: s ++ [QT].
Example C32_ex : let v := [(text "b", [1]); (text "a", [])] in
  exists ops, ser (dict_vec_codec string_codec (vector_codec int32 0) ([], [])) v = Ok ops /\
    flat ops = LCB :: q (text "b") ++ text ":[1]," ++ q (text "a") ++ text ":[]" ++ [RCB] /\
    des (dict_vec_codec string_codec (vector_codec int32 0) ([], [])) None [] (flat ops) clean = Ok (v, [], clean).
Proof. eexists. split; [exq|]. split; exq. Qed.
