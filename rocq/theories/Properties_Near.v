(** C92: how far behind a value its reader looks. *)
From Verif Require Import Base SpecJson SpecNum SpecObject Out Number StringS Array Object ObjectArray Enum Wrap TimeSize SpecExact Desc SpecNear SizeProofs NearProofs
  Properties_Seq Properties_Object.

(** One byte behind the value decides whether it ends there; nothing behind that byte matters. *)
Theorem C92_one_byte : forall d A (c : codec A) sn sn' old p b r r' v, tight d A c -> bytes (p ++ b :: r) -> bytes r' ->
  reads c sn old (p ++ b :: r) v (b :: r) -> reads c sn' old (p ++ b :: r') v (b :: r').
Proof. intros d A c sn sn' old p b r r' v H Hb Hr. apply tight_near in H. destruct H as (_ & _ & _ & _ & H). apply (H sn sn' old p [b] r r' v Hb Hr). discriminate. Qed.
Print Assumptions C92_one_byte.
(** Values that tell where they end are read the same whatever follows. *)
Theorem C92_closed : forall A (c : codec A) sn sn' old p r r' v, tight true A c -> bytes (p ++ r) -> bytes r' ->
  reads c sn old (p ++ r) v r -> reads c sn' old (p ++ r') v r'.
Proof. intros A c sn sn' old p r r' v H Hb Hr. apply tight_near in H. destruct H as (_ & _ & _ & _ & H). apply (H sn sn' old p [] r r' v Hb Hr). discriminate. Qed.
Print Assumptions C92_closed.
(** Cut short, such a value is never accepted. *)
Theorem C92_truncated : forall A (c : codec A) sn sn' old p x r v, tight true A c -> bytes (p ++ x ++ r) -> x <> [] ->
  reads c sn old (p ++ x ++ r) v r -> forall w q, ~ reads c sn' old p w q.
Proof.
  intros A c sn sn' old p x r v H Hb Hx E w q K. destruct (tight_near _ _ _ H) as (HD & _). destruct (reads_suffix _ _ _ _ _ _ HD K) as (p0 & ->).
  rewrite !bytes_app in Hb. assert (K' : reads c sn old (p0 ++ q ++ x ++ r) w (q ++ x ++ r)).
  { apply (C92_closed _ c sn' sn old p0 q (q ++ x ++ r) w H); [apply bytes_app; tauto|rewrite !bytes_app; tauto|exact K]. }
  rewrite <- app_assoc in E. unfold reads in E, K'. rewrite E in K'. injection K' as _ L. apply (f_equal (@length Z)) in L. rewrite !app_length in L. destruct x; [easy|]. cbn [length] in L. lia.
Qed.
Print Assumptions C92_truncated.
(** Every value consumes something, except that pointers are read as null from the empty text. *)
Theorem C92_progress : forall d A (c : codec A) sn old s v r, tight d A c -> bytes s -> d = true \/ s <> [] -> reads c sn old s v r -> exists a p, s = a :: p ++ r.
Proof. intros d A c sn old s v r H. apply tight_near in H. destruct H as (_ & H & _). apply H. Qed.
Print Assumptions C92_progress.

Lemma foo_tight : tight true foo (foo_codec Nonstrict).
Proof.
  refine (ti_object foo Nonstrict Lfoo foo0 (fun b => match b with MProp _ _ => true | _ => false end) Lfoo_noif (proj2 Lfoo_ok) _).
  intros b [<-|[<-|[<-|[]]]]; [exact (ti_int i32 i32_ok)|exact (ti_int i32 i32_ok)|exact ti_string].
Qed.
Definition foos := map_codec str_lt string_codec (vector_codec (foo_codec Nonstrict) foo0) ([], []).
Lemma foos_tight : tight true _ foos.
Proof. refine (ti_dict true true _ _ _ _ _ LCB RCB string_codec _ _ (or_intror (conj eq_refl eq_refl)) ti_string _). exact (ti_seq true _ _ _ vec_cont LBR RBR _ _ (or_introl (conj eq_refl eq_refl)) foo_tight). Qed.
Example C92_ex : tight true _ foos /\ reads foos None [] (jt "{'x':[{'a':1}, {}]}") [(text "x", [mkfoo 1 0 []; foo0])] [] /\
  reads foos None [] (jt "{'x':[{'a':1}, {}]}}{") [(text "x", [mkfoo 1 0 []; foo0])] (text "}{").
Proof. split; [exact foos_tight|]. split; exq. Qed.
Example C92_ex_cut : forall k w q, (k < 19)%nat -> ~ reads foos None [] (firstn k (jt "{'x':[{'a':1}, {}]}")) w q.
Proof.
  intros k w q Hk. pose proof (firstn_skipn k (jt "{'x':[{'a':1}, {}]}")) as E. assert (L : length (skipn k (jt "{'x':[{'a':1}, {}]}")) = (19 - k)%nat) by (rewrite skipn_length; reflexivity).
  apply (C92_truncated _ foos None None [] _ (skipn k (jt "{'x':[{'a':1}, {}]}")) [] [(text "x", [mkfoo 1 0 []; foo0])]); [exact foos_tight| | |].
  - rewrite app_nil_r, E. cbn. repeat (apply Forall_cons; [lia|]). apply Forall_nil.
  - intros H. rewrite H in L. cbn [length] in L. lia.
  - rewrite app_nil_r, E. exq.
Qed.
Example C92_ex_int : reads int32 None 0 (text "12,3") 12 (text ",3") /\ reads int32 None 0 (text "12,") 12 (text ",").
Proof. split; exq. Qed.

(** Numbers do not tell where they end. *)
Theorem C92_number_refuted : ~ (forall A (c : codec A) sn sn' old p x r v, tight false A c -> bytes (p ++ x ++ r) -> x <> [] ->
  reads c sn old (p ++ x ++ r) v r -> forall w q, ~ reads c sn' old p w q).
Proof.
  intros H. apply (H Z int32 None None 0 (text "1") (text "2") [] 12 (ti_int i32 i32_ok)) with (w := 1) (q := @nil Z); [cbn; repeat (apply Forall_cons; [lia|]); apply Forall_nil|discriminate|exq|exq].
Qed.
Print Assumptions C92_number_refuted.
(** Neither do pointers, which take a null for one when it is cut short, *)
Theorem C92_pointer_refuted : ~ (forall A (c : codec A) d0 sn old p x v, tight true A c -> bytes (p ++ x) -> x <> [] ->
  reads (ptr_codec c d0) sn old (p ++ x) v [] -> forall w q, ~ reads (ptr_codec c d0) sn old p w q).
Proof.
  intros H. apply (H buf string_codec [] None None (text "nu") (text "ll") None ti_string) with (w := None) (q := @nil Z); [cbn; repeat (apply Forall_cons; [lia|]); apply Forall_nil|discriminate|exq|exq].
Qed.
Print Assumptions C92_pointer_refuted.
(** nor times, though they are quoted: a text ending with a number loses it. *)
Theorem C92_time_refuted : ~ (forall t fr sn old x y v, ity_ok t -> bytes (x ++ y) -> y <> [] ->
  reads (time_codec t fr) sn old (QT :: x ++ y) v [] -> forall w q, ~ reads (time_codec t fr) sn old (QT :: x) w q).
Proof.
  intros H. apply (H i64 1 None 0 (text "1h5") (text "m" ++ [QT]) 3900 i64_ok) with (w := 3600) (q := @nil Z); [cbn; repeat (apply Forall_cons; [lia|]); apply Forall_nil|discriminate|exq|exq].
Qed.
Print Assumptions C92_time_refuted.
