(** C36 for all texts. *)
From Verif Require Import Base Parser SpecJson Out SpecSeq Number StringS Array Object ObjectArray SpecObject SpecExact CodecLaws Desc DescProofs ExactProofs ParserFacts SpecIf IfHoldProofs IfExclProofs FrameProofs Properties_Seq Properties_Object.
Import ListNotations.

(** ---- C36 ---- *)
(** A field changes in a reading without error only if it is that of a member whose
    name stands in the text in quotes, or of an alternative of a member_if; or the
    text is null and the whole struct is reset. *)
Theorem C36_success : forall T X mode (L : list (memb T)) t0 (obs : T -> X) sn old s v r, (forall b m, In b L -> In m (parts b) -> desc _ (m_codec m)) ->
  (forall b m, In b L -> In m (parts b) -> (forall t x, obs (m_set m t x) = obs t) \/ no_if b /\ forall g q, s <> g ++ [QT] ++ m_name m ++ [QT] ++ q) ->
  SpecExact.reads (object_codec mode L t0) sn old s v r -> obs v = obs old \/ (exists q, s = 110 :: q) /\ v = t0.
Proof.
  intros T X mode L t0 obs sn old s v r HD HS E. apply or_comm.
  assert (HA : Forall (memb_all (fun _ c => dlaw (des c))) L).
  { apply Forall_forall. intros b Hb. pose proof (fun m Hm => desc_dlaw _ _ (HD b m Hb Hm)) as K. destruct b as [m|m i|ru f g d]; cbn [memb_all parts] in *; [apply K; now left..|]. split; apply K; [now left|right; now left]. }
  apply (object_frame (fun t => obs t = obs old) (fun q => suffix q s)) with (mode := mode) (L := L) (sn := sn) (old := old) (r := r); auto; [intros a b; apply suffix_trans| |apply suffix_refl].
  apply Forall_forall. intros b Hb. apply spares_keeps; [now apply (proj1 (Forall_forall _ _) HA)|]. unfold spares.
  assert (K : forall m, In m (parts b) -> (forall g q, s <> g ++ [QT] ++ m_name m ++ [QT] ++ q) -> forall a, suffix a s -> forall g q, a <> g ++ QT :: m_name m ++ QT :: q).
  { intros m Hm H a [h ->] g q ->. apply (H (h ++ g) q). now rewrite <- app_assoc. }
  destruct b as [m|m i|ru f g d].
  - destruct (HS _ m Hb (or_introl eq_refl)) as [H|[_ H]]; [left; intros m' [<-|[]]; exact H|right; apply (K m); [now left|exact H]].
  - destruct (HS _ m Hb (or_introl eq_refl)) as [H|[_ H]]; [left; intros m' [<-|[]]; exact H|right; apply (K m); [now left|exact H]].
  - left. intros m Hm. destruct (HS _ m Hb Hm) as [H|[[] _]]. exact H.
Qed.
Print Assumptions C36_success.
(** Fields that are not members are left alone by every reading, failed or not. *)
Theorem C36_not_members : forall T X mode (L : list (memb T)) t0 (obs : T -> X), (forall b m, In b L -> In m (parts b) -> forall t x, obs (m_set m t x) = obs t) ->
  forall sn old s e v r e', des (object_codec mode L t0) sn old s e = Ok (v, r, e') -> obs v = obs old \/ (exists q, s = 110 :: q) /\ v = t0.
Proof.
  intros T X mode L t0 obs H sn old s e v r e' E. destruct (is_null s) eqn:Ns.
  - right. cbn [des object_codec] in E. unfold object_des in E. rewrite Ns in E. destruct (parse_null s e). injection E as <- _ _. split; [|reflexivity].
    destruct s as [|c s]; [discriminate|]. exists s. unfold is_null, starts in Ns. f_equal. lia.
  - left. assert (E2 : des (object_codec mode L old) sn old s e = Ok (v, r, e')) by (cbn [des object_codec] in *; unfold object_des in *; now rewrite Ns in *).
    revert E2. intros E2. apply (object_x (fun t => obs t = obs old)) in E2; auto. apply Forall_forall. intros b Hb sn' t s' u e1 t' u' r' e2 E3 <-. apply (part_sees obs) in E3; [exact E3|]. intros m Hm. now apply (H b).
Qed.
Print Assumptions C36_not_members.
(** Where the name is cut off at the end the field may change (C36_missing_keep_malformed_refuted).
    A concrete case: a text with doubled, unknown and nested members, without "foo". *)
Example C36_ex_success : let s := jt "{ 'x':{'fo':1}, 'a':1,'a' :2, 'foo1':'z'} foo" in
  (forall g q, s <> g ++ [QT] ++ text "foo" ++ [QT] ++ q) /\ SpecExact.reads (foo_codec Nonstrict) None (mkfoo 7 8 (text "keep")) s (mkfoo 2 8 (text "keep")) (text " foo").
Proof.
  split; [|unfold SpecExact.reads; exq]. intros g q E.
  assert (F : forall s, (exists g q, s = g ++ [QT] ++ text "foo" ++ [QT] ++ q) -> (fix has (s : buf) := match s with 34 :: 102 :: 111 :: 111 :: 34 :: _ => true | _ :: t => has t | [] => false end) s = true).
  { intros s (a & b & ->). induction a as [|c a IH]; [reflexivity|]. cbn [app]. set (w := a ++ _) in *. clearbody w. revert IH. clear. intros IH.
    repeat match goal with |- context [match ?z with _ => _ end] => is_var z; destruct z; try exact IH; try reflexivity end. }
  specialize (F _ (ex_intro _ g (ex_intro _ q E))). vm_compute in F. discriminate.
Qed.
Example C36_ex_not_members : exists j, des (object_codec Nonstrict [MRef ma; MRef mb] foo0) None (mkfoo 7 8 (text "keep")) (jt "{'a':1,'b':-") clean = Ok (mkfoo 1 0 (text "keep"), [], Some j) /\ code j = InvalidNumber.
Proof. eexists. split; exq. Qed.
