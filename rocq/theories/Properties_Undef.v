(** C95: exactly when reading is undefined behaviour. *)
From Verif Require Import Base Parser SpecJson SpecNum SpecString Out Number Float StringS Array Unord Object SpecObject ObjectArray Wrap TimeSize Enum CodecLaws NumberProofs StringProofs ArrayProofs ObjectProofs
  SpecReport SpecExact ExactProofs SpecRefuse SpecFail Properties_Seq Properties_Object Properties_Refuse SpecRun RunProofs ObjRunProofs Properties_Run SpecUndef UndefProofs SpecUndefAll UndefAllProofs UndefWrapProofs.

(** ---- values ---- *)
Theorem C95_integer : forall t sn old e s, ity_ok t -> (undefined (int_codec t) sn old e s <-> too_big t s).
Proof. intros t sn old e s Ht. exact (int_ub t sn old s (Some e) Ht). Qed.
Print Assumptions C95_integer.
Theorem C95_time : forall t fr sn old s, ity_ok t ->
  (undefined (time_codec t fr) sn old no_error s <-> too_big t s \/ exists x, s = QT :: x /\ time_over t fr sn 0 x).
Proof. intros t fr sn old s Ht. exact (time_ub t fr sn Ht old s). Qed.
Print Assumptions C95_time.
(** behind an error the first number only *)
Theorem C95_time_reported : forall t fr sn old e s, ity_ok t -> is_err e = true ->
  (undefined (time_codec t fr) sn old e s <-> too_big t s \/ exists x, s = QT :: x /\ too_big t x).
Proof. intros. now apply time_ub_err. Qed.
Print Assumptions C95_time_reported.
Theorem C95_size : forall t metric sn old s, ity_ok t -> bytes s ->
  (undefined (size_codec t metric) sn old no_error s <-> too_big t s \/ exists l w r, s = QT :: l ++ QT :: r /\ literal 32 l w /\ size_over sn w).
Proof. intros t metric sn old s Ht Hb. exact (size_ub t metric sn old s Ht Hb). Qed.
Print Assumptions C95_size.
Theorem C95_size_reported : forall t metric sn old e s, ity_ok t -> is_err e = true -> (undefined (size_codec t metric) sn old e s <-> too_big t s).
Proof. intros. now apply size_ub_err. Qed.
Print Assumptions C95_size_reported.
(** whatever stands behind the text *)
Theorem C95_never : forall sn e s,
  (forall old, ~ undefined bool_codec sn old e s) /\ (forall old, ~ undefined string_codec sn old e s) /\ (forall N old, ~ undefined (chars_codec N) sn old e s) /\
  (forall mode L old, ~ undefined (enum_codec mode L) sn old e s) /\ (forall sep mode L old, L <> [] -> ~ undefined (flags_codec sep mode L) sn old e s) /\
  (forall A R fmt scan (zero : A) old, ~ undefined (float_codec R fmt scan zero) sn old e s).
Proof.
  intros sn e s. split; [intros; apply bool_undef|]. split; [intros; apply string_undef|]. split; [intros; apply chars_undef|]. split; [intros; apply enum_undef|]. split; [intros; now apply flags_undef|]. intros. apply float_undef.
Qed.
Print Assumptions C95_never.

(** ---- containers, structs ---- *)
Theorem C95_container : forall A C S (k : container A C S) l r0 (c : codec A) d0 sn old e s, dlaw (des c) -> brackets l r0 ->
  (undefined (seq_codec k l r0 c d0) sn old e s <-> exists t, s = l :: t /\ seq_bad (runs c sn d0) (undefined c sn d0) r0 e t).
Proof. intros. now apply seq_undef. Qed.
Print Assumptions C95_container.
Theorem C95_unordered : forall A H (h : hashtab A H) l r0 (c : codec A) d0 sn old e s, dlaw (des c) -> brackets l r0 ->
  (undefined (hash_codec h l r0 c d0) sn old e s <-> exists t, s = l :: t /\ seq_bad (runs c sn d0) (undefined c sn d0) r0 e t).
Proof. intros A H h l r0 c d0 sn old e s Hd HB. exact (seq_undef (mkcont (h_clear h old) (h_ins h) (fun t => t) (h_list h)) l r0 c d0 sn old e s Hd HB). Qed.
Print Assumptions C95_unordered.
Theorem C95_field : forall K V (kc : codec K) (vc : codec V) sn k0 v0 e s, dlaw (des kc) -> dlaw (des vc) ->
  (undefined (field_codec kc vc) sn (k0, v0) e s <-> field_bad (runs kc sn k0) (undefined kc sn k0) (undefined vc sn v0) e s).
Proof. intros. now apply field_undef. Qed.
Print Assumptions C95_field.
Theorem C95_std_array : forall A (c : codec A) d0 N sn (old : vec A N) e s, dlaw (des c) ->
  (undefined (std_array_codec c d0 N) sn old e s <->
   heads 110 s /\ each_bad (runs c sn) (undefined c sn) s e (vlist old) \/
   exists t, s = LBR :: t /\ slots_bad (fun _ => runs c sn d0) (fun _ => undefined c sn d0) RBR (vlist old) e t).
Proof. intros A c d0 N sn old e s Hd. unfold std_array_codec. rewrite vec_undef. exact (fix_undef c (Some d0) [] sn Hd (vlist old) e s). Qed.
Print Assumptions C95_std_array.
Theorem C95_c_array : forall A (c : codec A) N sn (old : vec A N) e s, dlaw (des c) ->
  (undefined (c_array_codec c N) sn old e s <->
   heads 110 s /\ each_bad (runs c sn) (undefined c sn) s e (vlist old) \/
   exists t, s = LBR :: t /\ slots_bad (runs c sn) (undefined c sn) RBR (vlist old) e t).
Proof. intros A c N sn old e s Hd. unfold c_array_codec. rewrite vec_undef. exact (fix_undef c None [COMMA] sn Hd (vlist old) e s). Qed.
Print Assumptions C95_c_array.
Theorem C95_struct : forall T mode (L : list (memb T)) t0 sn old e s, run_list L -> bytes s ->
  (undefined (object_codec mode L t0) sn old e s <-> struct_bad mode sn L old e s).
Proof. intros T mode L t0 sn old e s HL Hb. apply object_undef; [now apply run_good|exact Hb]. Qed.
Print Assumptions C95_struct.
Theorem C95_object_array : forall T (L : list (memb T)) t0 sn old e s, Forall (memb_all (fun _ c => dlaw (des c))) L ->
  (undefined (oarray_codec L t0) sn old e s <-> exists t s1, s = LBR :: t /\ after_gap t s1 /\ s1 <> [] /\ ~ heads RBR s1 /\ places_bad sn L old e s1).
Proof. intros T L t0 sn old e s HL. now apply oarray_undef. Qed.
Print Assumptions C95_object_array.

(** ---- wrappers ---- *)
Theorem C95_pointer : forall A (c : codec A) d0 sn old e s, undefined (ptr_codec c d0) sn old e s <-> s <> [] /\ ~ heads 110 s /\ undefined c sn d0 e s.
Proof. intros. apply ptr_undef. Qed.
Print Assumptions C95_pointer.
Theorem C95_raw : forall sn old e s, bytes s -> (undefined raw_codec sn old e s <-> fails sn s None) /\ (undefined ipair_codec sn old e s <-> fails sn s None).
Proof. intros. now apply raw_undef. Qed.
Print Assumptions C95_raw.
Theorem C95_raw_quoted : forall serq reqq sn old e s, bytes s ->
  (undefined (rquoted_codec serq reqq) sn old e s <-> if reqq then exists t, s = QT :: t /\ fails sn t None else s <> [] /\ fails sn s None).
Proof. intros. now apply rquoted_undef. Qed.
Print Assumptions C95_raw_quoted.
Theorem C95_quoted : forall A (c : codec A) serq reqq sn old e s,
  undefined (quoted_codec c serq reqq) sn old e s <->
  (reqq = true \/ heads QT s) /\ inside_undef c sn old e s \/ reqq = false /\ ~ heads QT s /\ undefined c sn old e s.
Proof. intros. apply quoted_undef. Qed.
Print Assumptions C95_quoted.
Theorem C95_member_value : forall T A (get : T -> A) set (c : codec A) sn old e s, undefined (member_value_codec get set c) sn old e s <-> undefined c sn (get old) e s.
Proof. intros. apply member_value_undef. Qed.
Print Assumptions C95_member_value.

(** ---- concrete cases ---- *)
Ltac und := unfold undefined; exq.
Example C95_ex_integer : undefined int32 None 0 no_error (text "2147483648,") /\ undefined int32 None 0 no_error (text "-2147483648") /\ ~ undefined int32 None 0 no_error (text "2147483647") /\
  ~ undefined (int_codec (mkity 2 true)) None 0 no_error (text "2147483648").
Proof. split; [und|]. split; [und|]. split; unfold undefined; vm_compute; discriminate. Qed.
(** "mk" and nothing behind it; an hour too much *)
Example C95_ex_time : undefined (time_codec (mkity 8 true) 1000) None 0 no_error (jt "'5mk") /\ ~ undefined (time_codec (mkity 8 true) 1000) None 0 no_error (jt "'5mks'") /\
  undefined (time_codec (mkity 4 true) 1000) None 0 no_error (jt "'1s597h'") /\ ~ undefined (time_codec (mkity 4 true) 1000) None 0 bad_digit (jt "'1s597h'").
Proof. split; [und|]. split; [unfold undefined; vm_compute; discriminate|]. split; [und|]. unfold undefined; vm_compute; discriminate. Qed.
Example C95_ex_size : undefined (size_codec (mkity 8 true) 1024) None 0 no_error (jt "'00000000000000000000000000000001'") /\ undefined (size_codec (mkity 8 true) 1024) None 0 no_error (jt "'9223372036854775807K'") /\
  ~ undefined (size_codec (mkity 8 true) 1024) None 0 no_error (jt "'8191P'").
Proof. split; [und|]. split; [und|]. unfold undefined; vm_compute; discriminate. Qed.
(** the second element is reached, behind a wrong separator it is not *)
Example C95_ex_vector : undefined (vector_codec int32 0) None [] no_error (text "[1, 2147483648]") /\ ~ undefined (vector_codec int32 0) None [] no_error (text "[1; 2147483648]") /\
  undefined (vector_codec (vector_codec int32 0) []) None [] no_error (text "[[],[7,-99999999999]]").
Proof. split; [und|]. split; [unfold undefined; vm_compute; discriminate|]. und. Qed.
(** [*end] decides; a skipped member *)
Example C95_ex_struct : undefined (foo_codec Nonstrict) None (mkfoo 0 0 []) no_error (text "[ ") /\ undefined (foo_codec Nonstrict) (Some RBR) (mkfoo 0 0 []) no_error (text "[ ") /\
  ~ undefined (foo_codec Nonstrict) (Some 0) (mkfoo 0 0 []) no_error (text "[ ") /\ undefined (foo_codec Nonstrict) None (mkfoo 0 0 []) no_error (jt "{'a':4294967296}").
Proof. split; [und|]. split; [und|]. split; [unfold undefined; vm_compute; discriminate|]. und. Qed.
Example C95_ex_wrappers : undefined (ptr_codec int32 0) None None no_error (text "2147483648") /\ undefined (quoted_codec int32 true true) None 0 no_error (jt "'2147483648'") /\
  ~ undefined (quoted_codec int32 true true) None 0 no_error (text "2147483648") /\ undefined (quoted_codec int32 true false) None 0 no_error (text "2147483648").
Proof. split; [und|]. split; [und|]. split; [unfold undefined; vm_compute; discriminate|]. und. Qed.
