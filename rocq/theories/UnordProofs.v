(** Proofs about unordered containers. *)
From Coq Require Import Sorting.Permutation.
From Verif Require Import Base Parser SpecJson ParserFacts Grammar2 Out Array SpecSeq Unord SpecUnord CodecLaws ArrayProofs.

Section Hash.
  Context {A H : Type} (h : hashtab A H) (L R : Z) (item : codec A) (d0 : A).
  Let cont (old : H) := mkcont (h_clear h old) (h_ins h) (fun t : H => t) (h_list h).
  Lemma hash_des_seq sn old s e : des (hash_codec h L R item d0) sn old s e = des (seq_codec (cont old) L R item d0) sn old s e.
  Proof. reflexivity. Qed.
  Theorem hash_dlaw : dlaw (des item) -> dlaw (des (hash_codec h L R item d0)).
  Proof. intros Hi sn old s e. rewrite hash_des_seq. now apply seq_dlaw. Qed.
  Theorem hash_dsafe : dsafe (des item) -> dsafe (des (hash_codec h L R item d0)).
  Proof. intros Hi sn old s e Hs. rewrite hash_des_seq. now apply seq_dsafe. Qed.
  (** reading any list of texts *)
  Lemma hash_rd tc ts b vs sn old r e : brackets L R -> spaced tc ts b -> Forall2 (rd item) ts vs -> follow r -> no_err_yet e = true ->
    des (hash_codec h L R item d0) sn old ((L :: b ++ [R]) ++ r) e = Ok (fold_left (h_ins h) vs (h_clear h old), r, e).
  Proof.
    intros HB Hs Hv Hr He. rewrite hash_des_seq.
    destruct (seq_rd (cont old) L R item d0 tc ts b vs HB Hs Hv) as (_ & Hd). exact (Hd sn old r e Hr He).
  Qed.
  Lemma hash_texts dom l : rt item dom -> Forall dom l -> exists ops ts, seq_ser L R (ser item) l = Ok ops /\
    flat ops = L :: join ts ++ [R] /\ Forall2 (rd item) ts l.
  Proof.
    intros Hi Hl. destruct (items_ser_ok (ser item) l (fun v o => rd item (flat o) v)) as (opss & ops & F & E & Ef & _).
    { eapply Forall_impl; [|exact Hl]. intros v Hv. exact (proj1 (rt_rd item dom) Hi v Hv). }
    exists (W L :: ops ++ [W R]), (map flat opss). split; [unfold seq_ser; rewrite E; reflexivity|].
    split; [cbn [flat flat1 app]; rewrite flat_app, Ef; reflexivity|].
    apply Forall2_flip' in F. clear - F. induction F as [|o v os vs (_ & Hx) F IH]; cbn; constructor; auto.
  Qed.
  Lemma hash_inv (P : H -> Prop) : (forall t, P (h_clear h t)) -> (forall t x, P t -> P (h_ins h t x)) ->
    forall sn old s e v r e', des (hash_codec h L R item d0) sn old s e = Ok (v, r, e') -> P v.
  Proof.
    intros H0 Hi sn old s e v r e'. rewrite hash_des_seq. intros Hd.
    destruct (seq_des_inv (cont old) L R item d0 P (H0 old) Hi _ _ _ _ _ _ _ Hd) as (st & Hp & ->). exact Hp.
  Qed.
End Hash.

(** ---- pairwise distinct lists ---- *)
Section Distinct.
  Context {A : Type} (eq : A -> A -> bool) (E : equivb eq).
  Lemma eq_symb x y : eq x y = eq y x.
  Proof. destruct (eq x y) eqn:H1, (eq y x) eqn:H2; auto; [apply (eqb_sym' eq E) in H1|apply (eqb_sym' eq E) in H2]; congruence. Qed.
  Fixpoint dst (l : list A) : Prop := match l with [] => True | x :: t => existsb (eq x) t = false /\ dst t end.
  Lemma existsb_false (f : A -> bool) l : existsb f l = false <-> forall y, In y l -> f y = false.
  Proof.
    split.
    - intros Hf y Hy. destruct (f y) eqn:Ey; [|reflexivity]. rewrite <- Hf. symmetry. apply existsb_exists. eauto.
    - intros Hf. destruct (existsb f l) eqn:Ex; [|reflexivity]. apply existsb_exists in Ex. destruct Ex as (y & Hy & Ey). now rewrite <- Ey, Hf.
  Qed.
  Lemma dst_distinct l : dst l -> distinct eq l.
  Proof.
    induction l as [|z l IH]; intros Hd i j x y Hij Hi Hj; [destruct i; discriminate|]. destruct Hd as (Hz & Hd).
    destruct j as [|j]; [lia|]. cbn in Hj. destruct i as [|i].
    - cbn in Hi. injection Hi as ->. apply (proj1 (existsb_false _ _) Hz). eapply nth_error_In; eauto.
    - cbn in Hi. apply (IH Hd i j); auto. lia.
  Qed.
  Lemma distinct_dst l : distinct eq l -> dst l.
  Proof.
    induction l as [|z l IH]; intros Hd; [exact I|]. split.
    - apply existsb_false. intros y Hy. apply In_nth_error in Hy. destruct Hy as (n & Hn). apply (Hd 0%nat (S n) z y); [lia|reflexivity|exact Hn].
    - apply IH. intros i j x y Hij Hi Hj. apply (Hd (S i) (S j)); auto. lia.
  Qed.
  Lemma existsb_perm (f : A -> bool) l m : Permutation l m -> existsb f l = existsb f m.
  Proof.
    induction 1 as [|x l m _ IH|x y l|l m n _ IH1 _ IH2]; cbn; [reflexivity|now rewrite IH| |congruence].
    destruct (f x), (f y); reflexivity.
  Qed.
  Lemma dst_perm l m : Permutation l m -> dst l -> dst m.
  Proof.
    induction 1 as [|x l m P IH|x y l|l m n _ IH1 _ IH2]; intros Hd; [exact I| | |auto].
    - destruct Hd as (Hx & Hd). split; [rewrite <- (existsb_perm _ _ _ P); exact Hx|auto].
    - destruct Hd as (Hy & Hx & Hd). cbn in Hy. apply orb_false_iff in Hy. destruct Hy as (Hyx & Hy).
      split; [|split; auto]. cbn. rewrite (eq_symb x y), Hyx. exact Hx.
  Qed.
  Lemma find_app (f : A -> bool) l m : find f (l ++ m) = match find f l with Some x => Some x | None => find f m end.
  Proof. induction l as [|x l IH]; cbn; [reflexivity|]. destruct (f x); [reflexivity|exact IH]. Qed.
  Lemma find_existsb (f : A -> bool) l : (find f l = None) <-> existsb f l = false.
  Proof. induction l as [|x l IH]; cbn; [tauto|]. destruct (f x); cbn; [split; discriminate|exact IH]. Qed.
  (** in a distinct list lookup does not depend on the order *)
  Lemma find_perm y l m : Permutation l m -> dst l -> find (eq y) l = find (eq y) m.
  Proof.
    induction 1 as [|x l m P IH|x z l|l m n P1 IH1 P2 IH2]; intros Hd; [reflexivity| | |].
    - cbn. destruct (eq y x); [reflexivity|]. apply IH, Hd.
    - cbn. destruct (eq y z) eqn:E1, (eq y x) eqn:E2; try reflexivity. exfalso.
      destruct Hd as (Hz & _). cbn in Hz. apply orb_false_iff in Hz. destruct Hz as (Hzx & _).
      rewrite eq_symb in E1. rewrite (eqb_trans' eq E z y x E1 E2) in Hzx. discriminate.
    - rewrite IH1 by exact Hd. apply IH2. now apply (dst_perm l).
  Qed.
  Lemma find_some_exists y l x : find (eq y) l = Some x -> existsb (eq y) l = true.
  Proof. intros Hf. destruct (existsb (eq y) l) eqn:Ex; [reflexivity|]. apply find_existsb in Ex. congruence. Qed.
  Lemma existsb_eq y x l : eq y x = true -> existsb (eq y) l = existsb (eq x) l.
  Proof.
    intros Hyx. induction l as [|z l IH]; [reflexivity|]. cbn. rewrite IH. f_equal. destruct (eq x z) eqn:E1.
    - exact (eqb_trans' eq E y x z Hyx E1).
    - destruct (eq y z) eqn:E2; [|reflexivity]. rewrite eq_symb in Hyx. rewrite (eqb_trans' eq E x y z Hyx E2) in E1. discriminate.
  Qed.

  Context {H : Type} (h : hashtab A H) (U : unique_keys eq h).
  Lemma uk_ins_dst t x : dst (h_list h t) -> dst (h_list h (h_ins h t x)).
  Proof.
    intros Hd. destruct (existsb (eq x) (h_list h t)) eqn:Ex.
    - now apply (dst_perm (h_list h t)); [apply (uk_old eq h U)|].
    - apply (dst_perm (x :: h_list h t)); [now apply (uk_new eq h U)|]. now split.
  Qed.
  Lemma uk_ins_find t x y : dst (h_list h t) -> find (eq y) (h_list h (h_ins h t x)) = find (eq y) (h_list h t ++ [x]).
  Proof.
    intros Hd. rewrite find_app. cbn [find]. destruct (existsb (eq x) (h_list h t)) eqn:Ex.
    - rewrite <- (find_perm y (h_list h t)); [|now apply (uk_old eq h U)|exact Hd].
      destruct (find (eq y) (h_list h t)) eqn:Ef; [reflexivity|]. destruct (eq y x) eqn:Eyx; [|reflexivity].
      apply find_existsb in Ef. rewrite (existsb_eq y x _ Eyx) in Ef. congruence.
    - rewrite <- (find_perm y (x :: h_list h t)); [|now apply (uk_new eq h U)|now split]. cbn [find].
      destruct (eq y x) eqn:Eyx; [|now destruct (find (eq y) (h_list h t))].
      rewrite <- (existsb_eq y x _ Eyx) in Ex. apply find_existsb in Ex. now rewrite Ex.
  Qed.
  Lemma uk_fold vs : forall t, dst (h_list h t) -> dst (h_list h (fold_left (h_ins h) vs t)) /\
    forall y, find (eq y) (h_list h (fold_left (h_ins h) vs t)) = find (eq y) (h_list h t ++ vs).
  Proof.
    induction vs as [|x vs IH]; intros t Hd; cbn [fold_left].
    - split; [exact Hd|]. intros y. now rewrite app_nil_r.
    - destruct (IH (h_ins h t x) (uk_ins_dst t x Hd)) as (H1 & H2). split; [exact H1|]. intros y.
      rewrite H2, find_app, uk_ins_find by exact Hd. rewrite !find_app. cbn [find].
      destruct (find (eq y) (h_list h t)); [reflexivity|]. destruct (eq y x); reflexivity.
  Qed.
  Lemma uk_fold_perm vs : forall t, dst (h_list h t ++ vs) -> Permutation (h_list h t ++ vs) (h_list h (fold_left (h_ins h) vs t)).
  Proof.
    induction vs as [|x vs IH]; intros t Hd; cbn [fold_left].
    - now rewrite app_nil_r.
    - assert (P0 : Permutation (h_list h t ++ x :: vs) (x :: h_list h t ++ vs)) by (symmetry; apply Permutation_middle).
      pose proof (dst_perm _ _ P0 Hd) as Hd'. destruct Hd' as (Hx & Hd').
      assert (Ex : existsb (eq x) (h_list h t) = false) by (rewrite existsb_app in Hx; now apply orb_false_iff in Hx).
      pose proof (uk_new eq h U t x Ex) as P1.
      assert (P2 : Permutation (h_list h t ++ x :: vs) (h_list h (h_ins h t x) ++ vs)).
      { rewrite P0. change (x :: h_list h t ++ vs) with ((x :: h_list h t) ++ vs). now apply Permutation_app_tail. }
      rewrite P2. apply IH. now apply (dst_perm _ _ P2).
  Qed.
End Distinct.

Lemma ek_fold {A H} (h : hashtab A H) (U : equiv_keys h) vs : forall t, Permutation (h_list h t ++ vs) (h_list h (fold_left (h_ins h) vs t)).
Proof.
  induction vs as [|x vs IH]; intros t; cbn [fold_left]; [now rewrite app_nil_r|].
  rewrite <- IH, <- Permutation_middle. change (x :: h_list h t ++ vs) with ((x :: h_list h t) ++ vs).
  apply Permutation_app_tail. apply (ek_ins h U).
Qed.

Section Results.
  Context {A H : Type} (h : hashtab A H) (L R : Z) (item : codec A) (d0 : A) (B : brackets L R).
  Theorem unordered_first_wins eq tc ts b vs : equivb eq -> unique_keys eq h -> spaced tc ts b -> Forall2 (rd item) ts vs ->
    forall sn old r e, follow r -> no_err_yet e = true -> exists t,
      des (hash_codec h L R item d0) sn old ((L :: b ++ [R]) ++ r) e = Ok (t, r, e) /\ distinct eq (h_list h t) /\
      forall y, find (eq y) (h_list h t) = find (eq y) vs.
  Proof.
    intros E U Hs Hv sn old r e Hr He. eexists. split; [eapply hash_rd; eauto|].
    assert (D0 : dst eq (h_list h (h_clear h old))) by (rewrite (uk_clear eq h U); exact I).
    destruct (uk_fold eq E h U vs _ D0) as (H1 & H2). split; [now apply dst_distinct|].
    intros y. rewrite H2, (uk_clear eq h U). reflexivity.
  Qed.
  Theorem unordered_keeps_all tc ts b vs : equiv_keys h -> spaced tc ts b -> Forall2 (rd item) ts vs ->
    rdp (des (hash_codec h L R item d0)) (h_list h) follow (L :: b ++ [R]) vs.
  Proof.
    intros U Hs Hv sn old r e Hr He. eexists. split; [eapply hash_rd; eauto|].
    rewrite <- (ek_fold h U), (ek_clear h U). reflexivity.
  Qed.
  Theorem unordered_roundtrip eq dom t : equivb eq -> unique_keys eq h -> rt item dom -> Forall dom (h_list h t) -> distinct eq (h_list h t) ->
    exists ops, ser (hash_codec h L R item d0) t = Ok ops /\
      rdp (des (hash_codec h L R item d0)) (h_list h) follow (flat ops) (h_list h t).
  Proof.
    intros E U Hi Hl Hd. destruct (hash_texts L R item dom (h_list h t) Hi Hl) as (ops & ts & E1 & E2 & F).
    exists ops. split; [exact E1|]. rewrite E2. intros sn old r e Hr He. eexists. split; [eapply (hash_rd _ _ _ _ _ false ts); eauto using join_spaced|].
    pose proof (uk_fold_perm eq E h U (h_list h t) (h_clear h old)) as P. rewrite (uk_clear eq h U) in P. cbn [app] in P.
    apply P. now apply distinct_dst.
  Qed.
  Theorem unordered_multi_roundtrip dom t : equiv_keys h -> rt item dom -> Forall dom (h_list h t) ->
    exists ops, ser (hash_codec h L R item d0) t = Ok ops /\
      rdp (des (hash_codec h L R item d0)) (h_list h) follow (flat ops) (h_list h t).
  Proof.
    intros U Hi Hl. destruct (hash_texts L R item dom (h_list h t) Hi Hl) as (ops & ts & E1 & E2 & F).
    exists ops. split; [exact E1|]. rewrite E2. apply (unordered_keeps_all false ts); auto. apply join_spaced.
  Qed.
  Theorem unordered_distinct eq sn old s e t r e' : equivb eq -> unique_keys eq h ->
    des (hash_codec h L R item d0) sn old s e = Ok (t, r, e') -> distinct eq (h_list h t).
  Proof.
    intros E U Hd. apply dst_distinct. revert Hd. apply (hash_inv h L R item d0 (fun t => dst eq (h_list h t))).
    - intros t0. rewrite (uk_clear eq h U). exact I.
    - intros t0 x. now apply uk_ins_dst.
  Qed.
  Theorem unordered_null sn old r e : (forall t, h_list h (h_clear h t) = []) ->
    exists t, des (hash_codec h L R item d0) sn old (text "null" ++ r) e = Ok (t, r, e) /\ h_list h t = [].
  Proof. intros Hc. exists (h_clear h old). split; [|apply Hc]. cbn [des hash_codec]. unfold seq_des. reflexivity. Qed.
End Results.
