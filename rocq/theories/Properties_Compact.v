(** C97: what is written contains no whitespace between the tokens. *)
From Verif Require Import Base Parser SpecJson SpecDespace Out Number StringS Array Object SpecObject Wrap SpecWrap Desc Properties_Seq Properties_Object SpecCompact CompactProofs.

(** Compact texts are JSON, *)
Theorem C97_json : forall v, cvalue v -> rvalue v.
Proof. exact (proj1 cvalue_rvalue). Qed.
Print Assumptions C97_json.
(** and what is written is compact: *)
Theorem C97_output : forall A (c : codec A) dom, cdesc A c dom -> forall v, dom v -> exists b, writes c v b /\ cvalue b.
Proof. intros A c dom H v Hv. destruct (cdesc_cout A c dom H v Hv) as (o & E & C). exists (flat o). split; [now exists o|exact C]. Qed.
Print Assumptions C97_output.
(** removing the spaces leaves it as it is. *)
Theorem C97_despace_output : forall A (c : codec A) dom, cdesc A c dom -> forall v b e, dom v -> writes c v b -> e = None \/ e = clean -> despace b e = Ok ([], b, e).
Proof.
  intros A c dom H v b e Hv (o & E & <-) He. destruct (cdesc_cout A c dom H v Hv) as (o' & E' & C). assert (o' = o) by congruence. subst o'.
  apply despace_compact; [exact C|]. destruct He as [-> | ->]; reflexivity.
Qed.
Print Assumptions C97_despace_output.
(** Removing the spaces from a JSON text, with whitespace and comments around
    it, makes a compact one. *)
Theorem C97_despace : forall g1 v g2 e, rvalue v -> gap g1 -> gap g2 -> e = None \/ e = clean -> exists w, despace (g1 ++ v ++ g2) e = Ok ([], w, e) /\ cvalue w.
Proof. intros g1 v g2 e Hv H1 H2 He. apply despace_makes_compact; auto. destruct He as [-> | ->]; reflexivity. Qed.
Print Assumptions C97_despace.
(** The compact texts are exactly the JSON texts it leaves as they are. *)
Theorem C97_fixed : forall v, rvalue v -> (cvalue v <-> despace v clean = Ok ([], v, clean)).
Proof. exact compact_fixed. Qed.
Print Assumptions C97_fixed.
(** A raw value is written with its spaces. *)
Theorem C97_raw_refuted : exists v, rvalue v /\ writes raw_codec v v /\ ~ cvalue v.
Proof.
  exists (text "[ ]"). assert (R : rvalue (text "[ ]")) by (apply (rv_arr0 [32]); repeat constructor). split; [exact R|]. split; [eexists; split; [reflexivity|reflexivity]|].
  intros C. apply (compact_fixed _ R) in C. vm_compute in C. discriminate.
Qed.
Print Assumptions C97_raw_refuted.

(** ---- concrete cases ---- *)
Lemma foo_cdesc mode : cdesc foo (foo_codec mode) (fun v => irange i32 (fa v) /\ irange i32 (fb v) /\ SpecString.utf8 (fs v)).
Proof.
  set (P := fun v => irange i32 (fa v) /\ irange i32 (fb v) /\ SpecString.utf8 (fs v)).
  set (dm := fun (m : mem foo) (x : m_ty m) => exists v, m_get m v = x /\ P v).
  apply cd_sub with (dom := fun v => Forall (memb_in dm v) Lfoo).
  - apply cd_object.
    + intros b m [<-|[<-|[<-|[]]]] [<-|[]]; cbn; repeat (first [apply rcs_nil | match goal with |- rchars (?c :: ?l) => change (c :: l) with (SpecJson.utf8_encode c ++ l); apply rcs_cons; [apply rc_plain; unfold scalar; lia|] end]).
    + intros b m [<-|[<-|[<-|[]]]] [<-|[]].
      * apply cd_sub with (irange i32); [apply cd_int, i32_ok|]. intros x (v & <- & H). apply H.
      * apply cd_sub with (irange i32); [apply cd_int, i32_ok|]. intros x (v & <- & H). apply H.
      * apply cd_sub with SpecString.utf8; [apply cd_key, kd_string|]. intros x (v & <- & H). apply H.
  - intros v Hv. repeat constructor; exists v; split; auto.
Qed.
Example C97_ex_vector : forall mode d0, cdesc _ (vector_codec (ptr_codec (foo_codec mode) foo0) d0)
  (Forall (fun o => match o with None => True | Some v => irange i32 (fa v) /\ irange i32 (fb v) /\ SpecString.utf8 (fs v) end)).
Proof. intros mode d0. apply cd_vector. exact (cd_pointer _ _ foo0 _ (foo_cdesc mode)). Qed.
(** spaces inside strings stay *)
Example C97_ex_write : writes (vector_codec (ptr_codec (foo_codec Strict) foo0) None) [Some (mkfoo 1 (-2) (text "a b")); None] (jt "[{'a':1,'b':-2,'foo':'a b'},null]") /\
  despace (jt " [ { 'a' : 1 , 'b':-2 , 'foo':'a b' } /* x */, null ] ") clean = Ok ([], jt "[{'a':1,'b':-2,'foo':'a b'},null]", clean).
Proof. split; [eexists; split; [vm_compute; reflexivity|vm_compute; reflexivity]|vm_compute; reflexivity]. Qed.
