(** Proofs: containers differ only in how they store. *)
From Coq Require Import Sorting.Permutation.
From Verif Require Import Base Parser SpecJson SpecSeq Out Array Object CodecLaws ArrayProofs Unord SpecUnord UnordProofs SpecMulti SpecAlike SpecExact ExactProofs.

Section Loop.
  Context {A S : Type} (item : A -> buf -> eptr -> res (A * buf * eptr)) (ins : S -> A -> S) (d0 : A) (R : Z) (st0 : S).
  Lemma loop_alike f : forall acc s e,
    match seq_loop item (fun l x => l ++ [x]) d0 R f acc s e with
    | Ok (l, r, x) => seq_loop item ins d0 R f (fold_left ins acc st0) s e = Ok (fold_left ins l st0, r, x)
    | UB => seq_loop item ins d0 R f (fold_left ins acc st0) s e = UB
    | Fuel => seq_loop item ins d0 R f (fold_left ins acc st0) s e = Fuel
    end.
  Proof.
    induction f as [|f IH]; intros acc s e; [reflexivity|]. cbn [seq_loop]. destruct s as [|c t]; [reflexivity|].
    destruct (parse_space (c :: t) e) as [s1 e1]. destruct s1 as [|c1 t1]; [reflexivity|]. destruct (c1 =? R); [reflexivity|].
    destruct (item d0 (c1 :: t1) e1) as [[[x s2] e2]| |]; cbn [bind]; try reflexivity.
    destruct (parse_space s2 e2) as [s3 e3]. assert (E : ins (fold_left ins acc st0) x = fold_left ins (acc ++ [x]) st0) by (now rewrite fold_left_app).
    destruct s3 as [|d t3]; [now rewrite E|]. destruct (d =? R); [now rewrite E|]. destruct (negb (d =? COMMA)); [now rewrite E|]. rewrite E. apply IH.
  Qed.
End Loop.
Theorem seq_alike {A C S} (k : container A C S) L R (c : codec A) d0 sn old old' s e : dlaw (des c) ->
  outcomes (fun l v => v = c_get k (fold_left (c_ins k) l (c_new k))) (des (seq_codec vec_cont L R c d0) sn old s e) (des (seq_codec k L R c d0) sn old' s e).
Proof.
  intros HD. cbn [des seq_codec]. unfold seq_des. cbn [c_new c_ins c_get vec_cont]. destruct (is_null s); [destruct (parse_null s e); now constructor|].
  destruct s as [|a t]; [now constructor|]. destruct (negb (a =? L)); [now constructor|].
  pose proof (loop_alike (des c sn) (c_ins k) d0 R (c_new k) (Datatypes.S (length t)) [] t e) as H. cbn [fold_left] in H.
  pose proof (seq_loop_good (des c sn) (fun l x => l ++ [x]) d0 R (fun s e => HD sn d0 s e) (Datatypes.S (length t)) [] t e ltac:(lia)) as G.
  destruct (seq_loop (des c sn) (fun l x => l ++ [x]) d0 R _ [] t e) as [[[l r] x]| |]; [| |contradiction]; rewrite H; cbn [bind]; now constructor.
Qed.
Theorem hash_alike {A H} (h : hashtab A H) L R (c : codec A) d0 sn old old' s e : dlaw (des c) ->
  outcomes (fun l t => t = fold_left (h_ins h) l (h_clear h old')) (des (seq_codec vec_cont L R c d0) sn old s e) (des (hash_codec h L R c d0) sn old' s e).
Proof. intros HD. rewrite hash_des_seq. exact (seq_alike (mkcont (h_clear h old') (h_ins h) (fun t : H => t) (h_list h)) L R c d0 sn old old' s e HD). Qed.
Lemma outcomes_impl {A B} (K K' : A -> B -> Prop) x y : (forall a b, K a b -> K' a b) -> outcomes K x y -> outcomes K' x y.
Proof. intros H [a b r e Hk|]; constructor; auto. Qed.

(** std::array *)
Lemma gap_self R t : R = RBR \/ R = RCB -> after_gap (R :: t) (R :: t).
Proof. intros H. exists []. split; [reflexivity|]. split; [constructor|]. unfold s_ws. lia. Qed.
Lemma slots_elements {A} (item : buf -> A -> buf -> Prop) R o s l r : R = RBR \/ R = RCB -> slots (fun _ => item) R o s l r -> exists vs, elements item R s vs r /\ (length vs <= length o)%nat /\ l = vs ++ skipn (length vs) o.
Proof.
  intros HR. induction 1 as [r|x o s r H|x o s s1 v s2 r H1 N H2 H3|x o s s1 v s2 s3 l r H1 N H2 H3 _ IH].
  - exists []. split; [apply el_end; now apply gap_self|]. split; [cbn; lia|reflexivity].
  - exists []. split; [now apply el_end|]. split; [cbn; lia|reflexivity].
  - exists [v]. split; [now apply el_last with s1 s2|]. split; [cbn; lia|reflexivity].
  - destruct IH as (vs & I1 & I2 & ->). exists (v :: vs). split; [now apply el_more with s1 s2 s3|]. split; [cbn; lia|reflexivity].
Qed.
Lemma elements_slots {A} (item : buf -> A -> buf -> Prop) R s vs r : elements item R s vs r -> forall o, (length vs < length o)%nat -> slots (fun _ => item) R o s (vs ++ skipn (length vs) o) r.
Proof.
  induction 1 as [s r H|s s1 v s2 r H1 N H2 H3|s s1 v s2 s3 l r H1 N H2 H3 _ IH]; intros [|x o] Ho; try (cbn in Ho; lia); cbn [length skipn app].
  - now apply sl_end.
  - now apply sl_last with s1 s2.
  - apply sl_more with s1 s2 s3; auto. apply IH. cbn in Ho. lia.
Qed.
Theorem array_of_vector {A} (c : codec A) d0 N sn (old : vec A N) s v r : dlaw (des c) -> heads LBR s ->
  reads (std_array_codec c d0 N) sn old s v r -> exists vs, reads (vector_codec c d0) sn [] s vs r /\ (length vs <= N)%nat /\ vlist v = vs ++ skipn (length vs) (vlist old).
Proof.
  intros HD (z & Hz). unfold reads at 1. cbn [des std_array_codec vec_codec stdarray_codec]. destruct (fix_des (Some d0) [] LBR RBR c sn (vlist old) s (Some no_error)) as [[[l r1] e1]| |] eqn:E; cbn [bind]; try discriminate.
  intros K. injection K as <- <- ->. apply (fix_exact (Some d0) [] LBR RBR c sn (vlist old) s l r1 HD (or_introl (conj eq_refl eq_refl))) in E. destruct E as [[E _]|(t & -> & H)]; [subst; discriminate|].
  destruct (slots_elements (fun s v r => reads c sn d0 s v r) RBR _ _ _ _ (or_introl eq_refl) H) as (vs & H1 & H2 & ->). rewrite vlist_len in H2. exists vs. split; [|split; [exact H2|]].
  - apply seq_exact; [exact HD|now left|]. right. exists t, vs. split; [reflexivity|]. split; [exact H1|]. cbn. now rewrite fold_snoc.
  - apply vlist_vfill. rewrite app_length, skipn_length, vlist_len. lia.
Qed.
Theorem vector_to_array {A} (c : codec A) d0 N sn (old : vec A N) s vs r : dlaw (des c) -> heads LBR s ->
  reads (vector_codec c d0) sn [] s vs r -> (length vs < N)%nat -> exists v, reads (std_array_codec c d0 N) sn old s v r /\ vlist v = vs ++ skipn (length vs) (vlist old).
Proof.
  intros HD (z & Hz) H HN. apply seq_exact in H; [|exact HD|now left]. destruct H as [[H _]|(t & l & -> & H & E)]; [subst; discriminate|]. cbn in E. rewrite fold_snoc in E. cbn in E. subst l.
  apply elements_slots with (o := vlist old) in H; [|now rewrite vlist_len]. exists (vfill old (vs ++ skipn (length vs) (vlist old))). split.
  - unfold reads. cbn [des std_array_codec vec_codec stdarray_codec]. assert (fix_des (Some d0) [] LBR RBR c sn (vlist old) (LBR :: t) (Some no_error) = Ok (vs ++ skipn (length vs) (vlist old), r, Some no_error)) as ->; [|reflexivity].
    apply (fix_exact (Some d0) [] LBR RBR c sn (vlist old) (LBR :: t) _ r HD (or_introl (conj eq_refl eq_refl))). right. exists t. split; [reflexivity|exact H].
  - apply vlist_vfill. rewrite app_length, skipn_length, vlist_len. lia.
Qed.
