(** Proofs about readers that do not look at what their target contained. *)
From Verif Require Import Base Parser Out Number StringS Array Unord Enum Wrap TimeSize Float CodecLaws Desc DescProofs NumberProofs StringProofs ArrayProofs WrapProofs SpecExact ExactProofs WrapExactProofs SpecOld.

Lemma leaf_old A (c : codec A) : leaf A c -> forall sn old old' s v r, reads c sn old s v r -> reads c sn old' s v r.
Proof.
  unfold reads. destruct 1; intros sn old old' s v r; cbn [des int_codec bool_codec float_codec string_codec chars_codec enum_codec flags_codec raw_codec ipair_codec rquoted_codec time_codec size_codec]; try exact (fun H => H).
  - unfold int_des, unserialize_integer. destruct (is_null s); [exact (fun H => H)|]. destruct s; [discriminate|exact (fun H => H)].
  - unfold bool_des. destruct s; [discriminate|exact (fun H => H)].
  - unfold float_des. destruct s; [discriminate|]. destruct (is_null _); [exact (fun H => H)|]. destruct (negb _); [discriminate|exact (fun H => H)].
  - unfold rquoted_des. destruct s as [|c t]; [discriminate|]. destruct (reqq && _); [discriminate|exact (fun H => H)].
  - unfold time_des. destruct s; [discriminate|exact (fun H => H)].
  - unfold size_des. destruct s; [discriminate|exact (fun H => H)].
Qed.
Lemma elements_mono {A} (P Q : buf -> A -> buf -> Prop) R : (forall s v r, P s v r -> Q s v r) -> forall s l r, elements P R s l r -> elements Q R s l r.
Proof. intros H s l r. induction 1; [eapply el_end|eapply el_last|eapply el_more]; eauto. Qed.
Lemma slots_mono {A} (P Q : A -> buf -> A -> buf -> Prop) R : (forall x s v r, P x s v r -> Q x s v r) -> forall o s l r, slots P R o s l r -> slots Q R o s l r.
Proof. intros H o s l r. induction 1; [eapply sl_full|eapply sl_end|eapply sl_last|eapply sl_more]; eauto. Qed.

Lemma twin_dlaw A (c c' : codec A) : twin A c c' -> dlaw (des c) /\ dlaw (des c').
Proof.
  induction 1 as [A c H|A C S k l r c c' d d' Hb H [I1 I2]|K V kc kc' vc vc' H1 [I1 I2] H2 [I3 I4]|A c c' serq reqq H [I1 I2]|A c c' d d' H [I1 I2]].
  - split; apply desc_dlaw; refine (bt_base _ _ _ H).
  - split; apply seq_dlaw; assumption.
  - split; apply field_dlaw; assumption.
  - split; apply quoted_dlaw; assumption.
  - split; apply ptr_dlaw; assumption.
Qed.
Lemma twin_sym A (c c' : codec A) : twin A c c' -> twin A c' c.
Proof.
  induction 1 as [A c H|A C S k l r c c' d d' Hb H I|K V kc kc' vc vc' H1 I1 H2 I2|A c c' serq reqq H I|A c c' d d' H I].
  - now apply tw_leaf.
  - now apply tw_seq.
  - now apply tw_field.
  - now apply tw_quoted.
  - now apply tw_pointer.
Qed.
Theorem twin_reads A (c c' : codec A) : twin A c c' -> forall sn old old' s v r, reads c sn old s v r -> reads c' sn old' s v r.
Proof.
  induction 1 as [A c H|A C S k l r c c' d d' Hb H I|K V kc kc' vc vc' H1 I1 H2 I2|A c c' serq reqq H I|A c c' d d' H I]; intros sn old old' s v q.
  - now apply leaf_old.
  - destruct (twin_dlaw _ _ _ H) as [D D']. intros R. apply (seq_exact _ _ _ _ _ _ _ _ _ _ D Hb) in R. apply (seq_exact _ _ _ _ _ _ _ _ _ _ D' Hb).
    destruct R as [R|(t & l0 & E & R & V)]; [now left|]. right. exists t, l0. split; [exact E|]. split; [|exact V]. revert R. apply elements_mono. intros ? ? ?. apply I.
  - destruct (twin_dlaw _ _ _ H1) as [D1 D1'], (twin_dlaw _ _ _ H2) as [D2 D2']. destruct old as [k0 v0], old' as [k0' v0'], v as [k1 v1]. intros R.
    apply (field_exact _ _ _ _ _ _ _ _ _ D1 D2) in R. apply (field_exact _ _ _ _ _ _ _ _ _ D1' D2'). destruct R as (s1 & s2 & s3 & R1 & G1 & G2 & N & R2).
    exists s1, s2, s3. repeat (split; [first [assumption|exact (I1 _ _ _ _ _ _ R1)]|]). exact (I2 _ _ _ _ _ _ R2).
  - destruct (twin_dlaw _ _ _ H) as [D D']. intros R. apply (quoted_exact _ _ _ _ _ _ _ _ D) in R. apply (quoted_exact _ _ _ _ _ _ _ _ D').
    destruct R as [(Q & b & r' & R1 & R2)|(Q & N & R)]; [left|right].
    + split; [exact Q|]. exists b, r'. split; [exact R1|]. exact (I _ _ _ _ _ _ R2).
    + repeat (split; [assumption|]). exact (I _ _ _ _ _ _ R).
  - intros R. apply ptr_exact in R. apply ptr_exact. destruct R as [R|(x & V & N & N2 & R)]; [now left|]. right. exists x.
    repeat (split; [assumption|]). exact (I _ _ _ _ _ _ R).
Qed.

(** ---- refused texts too ---- *)
Lemma seq_loop_ext {A S} (i1 i2 : A -> buf -> eptr -> res (A * buf * eptr)) (ins : S -> A -> S) d1 d2 R :
  (forall c t e, i1 d1 (c :: t) e = i2 d2 (c :: t) e) -> forall f st s e, seq_loop i1 ins d1 R f st s e = seq_loop i2 ins d2 R f st s e.
Proof.
  intros H. induction f as [|f IH]; intros st s e; [reflexivity|]. cbn [seq_loop]. destruct s as [|c t]; [reflexivity|].
  destruct (parse_space (c :: t) e) as [[|c1 t1] e1]; [reflexivity|]. destruct (c1 =? R); [reflexivity|]. rewrite H.
  destruct (i2 d2 (c1 :: t1) e1) as [[[x s2] e2]| |]; cbn [bind]; try reflexivity. cbv zeta. destruct (parse_space s2 e2) as [[|c3 t3] e3]; [reflexivity|].
  destruct (c3 =? R); [reflexivity|]. destruct (negb _); [reflexivity|]. apply IH.
Qed.
Theorem bold_des A (c c' : codec A) : bold_twin A c c' -> forall sn old old' b s e, des c sn old (b :: s) e = des c' sn old' (b :: s) e.
Proof.
  induction 1 as [A c H|A C S k l r c d|A C S k l r c c' d d' H I|A c d|A c c' d d' H I]; intros sn old old' b s e.
  - destruct H; try reflexivity.
  - reflexivity.
  - cbn [des seq_codec]. unfold seq_des. destruct (is_null (b :: s)); [reflexivity|]. destruct (negb (b =? l)); [reflexivity|].
    rewrite (seq_loop_ext (des c sn) (des c' sn) (c_ins k) d d' r); [reflexivity|]. intros. apply I.
  - reflexivity.
  - cbn [des ptr_codec]. unfold ptr_des. destruct (negb (b =? 110)); [|reflexivity]. rewrite (I _ d d'). reflexivity.
Qed.
Lemma fix_loop_ext {A} (i1 i2 : A -> buf -> eptr -> res (A * buf * eptr)) d1 d2 ex R :
  (forall c t e, i1 d1 (c :: t) e = i2 d2 (c :: t) e) -> forall todo s e, fix_loop i1 (Some d1) ex R todo s e = fix_loop i2 (Some d2) ex R todo s e.
Proof.
  intros H. induction todo as [|x todo IH]; intros s e; [reflexivity|]. cbn [fix_loop]. destruct s as [|c t]; [reflexivity|].
  destruct (parse_space (c :: t) e) as [[|c1 t1] e1]; [reflexivity|]. destruct (c1 =? R); [reflexivity|]. rewrite H.
  destruct (i2 d2 (c1 :: t1) e1) as [[[y s2] e2]| |]; cbn [bind]; try reflexivity. destruct (parse_space s2 e2) as [[|c3 t3] e3]; [reflexivity|].
  destruct (c3 =? R); [reflexivity|]. destruct (negb _); [reflexivity|]. now rewrite IH.
Qed.
Lemma fix_null_ext {A} (i1 i2 : A -> buf -> eptr -> res (A * buf * eptr)) s :
  (forall x e, i1 x s e = i2 x s e) -> forall l e, fix_null i1 l s e = fix_null i2 l s e.
Proof.
  intros H. induction l as [|x l IH]; intros e; [reflexivity|]. cbn [fix_null]. rewrite H. destruct (i2 x s e) as [[[y r] e1]| |]; cbn [bind]; try reflexivity. now rewrite IH.
Qed.
Theorem std_array_local A (c c' : codec A) d d' N : bold_twin A c c' -> forall sn old s e, des (std_array_codec c d N) sn old s e = des (std_array_codec c' d' N) sn old s e.
Proof.
  intros H sn old s e. unfold std_array_codec, vec_codec, stdarray_codec. cbn [des]. unfold fix_des. destruct s as [|b s]; [reflexivity|].
  rewrite (fix_null_ext (des c sn) (des c' sn) (b :: s)) by (intros; now apply bold_des).
  rewrite (fix_loop_ext (des c sn) (des c' sn) d d' [] RBR) by (intros; now apply bold_des). reflexivity.
Qed.
Theorem hash_local A H (h : hashtab A H) l r (c c' : codec A) d d' : bold_twin A c c' -> forall sn old s e, des (hash_codec h l r c d) sn old s e = des (hash_codec h l r c' d') sn old s e.
Proof.
  intros B sn old s e. unfold hash_codec. cbn [des]. unfold seq_des. destruct (is_null s); [reflexivity|]. destruct s as [|b s]; [reflexivity|].
  destruct (negb (b =? l)); [reflexivity|]. cbn [c_ins c_new]. rewrite (seq_loop_ext (des c sn) (des c' sn) (h_ins h) d d' r); [reflexivity|]. intros. now apply bold_des.
Qed.
