(** C90: what a read stores does not depend on what the target held before. *)
From Verif Require Import Base Parser SpecString Out Number StringS Array Unord Enum Object SpecObject Wrap TimeSize Float CodecLaws NumberProofs StringProofs
  SpecReport SpecExact Desc Properties_Seq Properties_Object SpecOld OldProofs.

(** Accepted texts: neither the old contents nor the contents of any local
    target (uninitialised for numbers) can be seen in the result. *)
Theorem C90_accepted : forall A (c c' : codec A), twin A c c' -> forall sn old old' s v r, reads c sn old s v r <-> reads c' sn old' s v r.
Proof. intros A c c' H sn old old' s v r. split; apply twin_reads; [exact H|now apply twin_sym]. Qed.
Print Assumptions C90_accepted.
(** All texts but the empty one: also what is stored, reported and left over
    after an error. *)
Theorem C90_always : forall A (c c' : codec A), bold_twin A c c' -> forall sn old old' s e, s <> [] -> des c sn old s e = des c' sn old' s e.
Proof. intros A c c' H sn old old' [|b s] e N; [congruence|]. now apply bold_des. Qed.
Print Assumptions C90_always.
(** std::array and the unordered containers keep parts of the target; the local
    target still cannot be seen *)
Theorem C90_std_array : forall A (c c' : codec A) d d' N, bold_twin A c c' -> forall sn old s e,
  des (std_array_codec c d N) sn old s e = des (std_array_codec c' d' N) sn old s e.
Proof. intros. now apply std_array_local. Qed.
Print Assumptions C90_std_array.
Theorem C90_unordered : forall A H (h : hashtab A H) l r (c c' : codec A) d d', bold_twin A c c' -> forall sn old s e,
  des (hash_codec h l r c d) sn old s e = des (hash_codec h l r c' d') sn old s e.
Proof. intros. now apply hash_local. Qed.
Print Assumptions C90_unordered.

(** Floating-point and quoted elements: a refused element is stored as whatever
    the local variable of the loop contained, for built-in types an
    indeterminate value. *)
Theorem C90_float_element_refuted : forall A R fmt scan (zero d0 : A), exists e,
  des (vector_codec (float_codec R fmt scan zero) d0) None [] (text "[x]") clean = Ok ([d0], [], Some e) /\ code e = InvalidNumber.
Proof. intros. eexists. split; reflexivity. Qed.
Print Assumptions C90_float_element_refuted.
Theorem C90_quoted_element_refuted : forall A (c : codec A) serq (d0 : A), exists e,
  des (vector_codec (quoted_codec c serq true) d0) None [] (text "[5]") clean = Ok ([d0], [], Some e) /\ code e = ExpectedOf.
Proof. intros. eexists. split; reflexivity. Qed.
Print Assumptions C90_quoted_element_refuted.
(** The same for the value of a dictionary's member without a colon (std::pair
    initialises it). *)
Theorem C90_member_refuted : forall A (c : codec A) (k0 : buf) (d0 : A), exists e,
  des (seq_codec (set_cont (fun a b => str_lt (fst a) (fst b))) LCB RCB (field_codec string_codec c) (k0, d0)) None [] (jt "{'a' 1}") clean = Ok ([(text "a", d0)], [], Some e) /\ is_err e = true.
Proof. intros. eexists. split; [vm_compute; reflexivity|reflexivity]. Qed.
Print Assumptions C90_member_refuted.
(** Structs keep the members the text does not mention. *)
Theorem C90_struct_refuted : forall mode x y, reads (foo_codec mode) None (mkfoo 0 x []) (jt "{'a':1}") (mkfoo 1 x []) [] /\
  reads (foo_codec mode) None (mkfoo 0 y []) (jt "{'a':1}") (mkfoo 1 y []) [].
Proof. intros [|] x y; split; reflexivity. Qed.
Print Assumptions C90_struct_refuted.

(** ---- concrete cases ---- *)
Definition pv (d : Z) (d0 : list Z) : codec (list (option (list Z))) := vector_codec (ptr_codec (vector_codec int32 d) d0) None.
Lemma C90_ex_bold : bold_twin _ (pv 7 [1]) (pv 8 []).
Proof. unfold pv, vector_codec. apply bt_seq, bt_ptr, bt_seq, bt_leaf. exact (bl_int _). Qed.
Lemma C90_ex_twin : twin _ (pv 7 [1]) (pv 8 []).
Proof. unfold pv, vector_codec. apply tw_seq; [now left|]. apply tw_pointer, tw_seq; [now left|]. apply tw_leaf. exact (lf_int _). Qed.
Example C90_ex_accepted : reads (pv 7 [1]) None [None] (text "[[1,null],null]") [Some [1; 0]; None] [] /\ reads (pv 8 []) None [] (text "[[1,null],null]") [Some [1; 0]; None] [].
Proof. split; reflexivity. Qed.
(** a refused number is stored as zero, whatever the target held *)
Example C90_ex_always : exists e, des (pv 7 [1]) None [None] (text "[[5,x],null]") clean = Ok ([Some [5; 0]], [], e) /\ des (pv 8 []) None [] (text "[[5,x],null]") clean = Ok ([Some [5; 0]], [], e) /\ e <> clean.
Proof. eexists. split; [|split]; [vm_compute; reflexivity|vm_compute; reflexivity|discriminate]. Qed.
(** the empty text leaves a number untouched *)
Example C90_ex_empty : exists e, des int32 None 5 [] clean = Ok (5, [], e) /\ des int32 None 6 [] clean = Ok (6, [], e).
Proof. eexists. split; reflexivity. Qed.
Example C90_ex_std_array : des (std_array_codec int32 7 3) None (1, (2, (3, tt))) (text "[9]") clean = Ok ((9, (2, (3, tt))), [], clean).
Proof. reflexivity. Qed.
