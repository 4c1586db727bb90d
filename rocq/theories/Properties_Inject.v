(** C96: different values are written differently. *)
From Verif Require Import Base Parser SpecJson SpecNum SpecString Out Number Float StringS Array Object SpecObject ObjectArray Enum Wrap SpecWrap TimeSize Desc
  Properties_Seq Properties_Object Properties_Enum Properties_TimeSize SpecInject InjectProofs.

(** The values described are written, *)
Theorem C96_written : forall A (c : codec A) dom, idesc A c dom -> forall v, dom v -> exists b, writes c v b.
Proof. intros A c dom H v Hv. destruct (idesc_tells A c dom H v Hv) as (o & E & _). now exists (flat o), o. Qed.
Print Assumptions C96_written.
(** different values as different texts, *)
Theorem C96_injective : forall A (c : codec A) dom, idesc A c dom -> forall v w b, dom v -> dom w -> writes c v b -> writes c w b -> v = w.
Proof.
  intros A c dom H v w b Hv Hw (o & E & <-) (o' & E' & T). destruct (idesc_tells A c dom H v Hv) as (x & Ex & _ & U). assert (x = o) by congruence. subst x.
  apply (U w o' [] [] Hw E' I I). now rewrite T.
Qed.
Print Assumptions C96_injective.
(** and the text also tells where it ends, unless a digit, a point or an e
    follows. *)
Theorem C96_prefix_free : forall A (c : codec A) dom, idesc A c dom -> forall v w a b r r', dom v -> dom w -> writes c v a -> writes c w b ->
  follow r -> follow r' -> a ++ r = b ++ r' -> v = w /\ a = b /\ r = r'.
Proof.
  intros A c dom H v w a b r r' Hv Hw (o & E & <-) (o' & E' & <-) Hr Hr' T. destruct (idesc_tells A c dom H v Hv) as (x & Ex & _ & U). assert (x = o) by congruence. subst x.
  destruct (U w o' r r' Hw E' Hr Hr' T) as [X Y]. subst r'. apply app_inv_tail in T. split; [exact X|]. split; [exact T|reflexivity].
Qed.
Print Assumptions C96_prefix_free.
(** Strings of any bytes, also those that are not read back (C91). *)
Theorem C96_string : forall v w b, bytes v -> bytes w -> writes string_codec v b -> writes string_codec w b -> v = w.
Proof. exact (C96_injective _ _ _ id_string). Qed.
Print Assumptions C96_string.
(** Character arrays up to their first zero. *)
Theorem C96_chars : forall N v w b, bytes v -> bytes w -> writes (chars_codec N) v b -> writes (chars_codec N) w b -> c_string v = c_string w.
Proof. exact chars_same. Qed.
Print Assumptions C96_chars.
(** Every integer, also the minimum that cannot be read. *)
Theorem C96_int : forall t v w b, ity_ok t -> irange t v -> irange t w -> writes (int_codec t) v b -> writes (int_codec t) w b -> v = w.
Proof. intros t v w b Ht. exact (C96_injective _ _ _ (id_int t Ht) v w b). Qed.
Print Assumptions C96_int.

(** ---- where it fails ---- *)
(** values that an enumerator does not list *)
Theorem C96_enum_refuted : forall mode L v w, ~ In v (map snd L) -> ~ In w (map snd L) -> exists b, writes (enum_codec mode L) v b /\ writes (enum_codec mode L) w b.
Proof.
  intros mode L v w Hv Hw. exists [QT; QT].
  assert (N : forall x, ~ In x (map snd L) -> enum_name L x = []).
  { clear Hv Hw. intros x. induction L as [|[n y] L IH]; intros H; [reflexivity|]. cbn in H. cbn [enum_name]. assert (y <> x) by tauto. rewrite (proj2 (Z.eqb_neq y x)) by assumption. apply IH; tauto. }
  split; (exists (wr [QT; QT]); split; [cbn [ser enum_codec]; unfold enum_ser; rewrite N by assumption; reflexivity|reflexivity]).
Qed.
Print Assumptions C96_enum_refuted.
(** no bytes and an empty JSON string, as raw values *)
Theorem C96_raw_refuted : exists b, writes raw_codec [] b /\ writes raw_codec [QT; QT] b.
Proof. exists [QT; QT]. split; eexists; (split; [reflexivity|reflexivity]). Qed.
Print Assumptions C96_raw_refuted.
(** no pointer, and a pointer to no pointer *)
Theorem C96_pointer_refuted : forall A (c : codec A) d0, exists b, writes (ptr_codec (ptr_codec c d0) None) None b /\ writes (ptr_codec (ptr_codec c d0) None) (Some None) b.
Proof. intros A c d0. exists (text "null"). split; eexists; (split; [reflexivity|reflexivity]). Qed.
Print Assumptions C96_pointer_refuted.
(** negative microseconds lose their fraction *)
Theorem C96_time_refuted : exists b, writes (time_codec i64 1000000) (-1000001) b /\ writes (time_codec i64 1000000) (-1000002) b.
Proof. eexists. split; eexists; (split; [vm_compute; reflexivity|vm_compute; reflexivity]). Qed.
Print Assumptions C96_time_refuted.
(** a member_if writes only one of its alternatives *)
Theorem C96_member_if_refuted : exists b, writes (object_codec Nonstrict [MIf false ma mb (Z.eqb 0)] foo0) (mkfoo 1 2 []) b /\
  writes (object_codec Nonstrict [MIf false ma mb (Z.eqb 0)] foo0) (mkfoo 1 3 []) b.
Proof. eexists. split; eexists; (split; [vm_compute; reflexivity|vm_compute; reflexivity]). Qed.
Print Assumptions C96_member_if_refuted.

(** ---- concrete cases ---- *)
(** The control character 1 and the six characters \u0001 are different strings;
    both are read back as the latter, but written differently. *)
Example C96_ex_control : writes string_codec [1] (jt "'\u0001'") /\ writes string_codec (text "\u0001") (jt "'\\u0001'").
Proof. split; eexists; (split; [vm_compute; reflexivity|vm_compute; reflexivity]). Qed.
(** Maps from arbitrary byte strings to vectors of structs. *)
Definition foo_all (v : foo) : Prop := irange i32 (fa v) /\ irange i32 (fb v) /\ bytes (fs v).
Lemma foo_idesc mode : idesc foo (foo_codec mode) foo_all.
Proof.
  set (dm := fun (m : mem foo) (x : m_ty m) => exists v, m_get m v = x /\ foo_all v).
  apply id_sub with (dom := fun v => forall b, In b Lfoo -> dm (memb_mem b) (m_get (memb_mem b) v)).
  - apply id_object; [exact Lfoo_covers|exact Lfoo_noif|]. intros b [<-|[<-|[<-|[]]]].
    + apply id_sub with (irange i32); [apply id_int, i32_ok|]. intros x (v & <- & H). apply H.
    + apply id_sub with (irange i32); [apply id_int, i32_ok|]. intros x (v & <- & H). apply H.
    + apply id_sub with bytes; [apply id_string|]. intros x (v & <- & H). apply H.
  - intros v Hv b _. exists v. split; [reflexivity|exact Hv].
Qed.
Example C96_ex_desc : idesc _ (map_codec str_lt string_codec (vector_codec (foo_codec Strict) foo0) ([], [])) (Forall (fun p => bytes (fst p) /\ Forall foo_all (snd p))).
Proof. apply (id_map _ _ _ _ _ _ bytes); [apply id_string|]. apply id_vector, foo_idesc. Qed.
Example C96_ex_written : foo_all (mkfoo (-2147483648) 5 [1; 255]) /\ writes (foo_codec Strict) (mkfoo (-2147483648) 5 [1; 255]) (jt "{'a':-2147483648,'b':5,'foo':'\u0001\xff'}").
Proof. split; [split; [vm_compute; intuition discriminate|split; [vm_compute; intuition discriminate|repeat constructor; lia]]|]. eexists. split; [vm_compute; reflexivity|vm_compute; reflexivity]. Qed.
(** Without a delimiter the end of a number cannot be told. *)
Example C96_ex_follow : writes int32 1 (text "1") /\ writes int32 12 (text "12") /\ text "1" ++ text "2" = text "12" ++ [].
Proof. split; [|split]; [eexists; (split; [vm_compute; reflexivity|vm_compute; reflexivity])..|reflexivity]. Qed.
