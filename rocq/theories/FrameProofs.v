(** Proofs: what a successful reading of a struct leaves alone. *)
From Verif Require Import Base Parser SpecJson ParserFacts Grammar1 Out Object ObjectArray CodecLaws ObjectProofs ObjectArrayProofs ExactProofs ObjExactProofs SpecExact SpecObject SpecIf IfHoldProofs IfExclProofs.

Lemma name_loop_all n : forall s s1, name_loop n s = ([], s1) -> s = n ++ s1.
Proof.
  induction n as [|a n IH]; intros s s1.
  - destruct s; cbn [name_loop]; intros E; now injection E as <-.
  - destruct s as [|c s]; [discriminate|]. cbn [name_loop]. destruct ((c =? a) && negb (c =? QT)) eqn:E; [|discriminate]. intros H. apply IH in H as ->. cbn [app]. f_equal. lia.
Qed.
Lemma name_found nm s u e s1 e1 : unser_name nm s u e = (s1, e1, true) -> e1 = C0 -> exists t, s = QT :: nm ++ QT :: t.
Proof.
  unfold unser_name. destruct (is_string s) eqn:Es; cbn [negb]; [|intros [= _ <- _] K; now apply C0_cerr in K].
  destruct s as [|q s]; [discriminate|]. assert (q = QT) as -> by (unfold is_string, starts in Es; lia). cbn [tl]. destruct (name_loop nm s) as [n' s2] eqn:En.
  destruct s2 as [|c t1]; [intros [= _ <-] K; now apply C0_cerr in K|]. destruct (negb (c =? QT)) eqn:Ec; [discriminate|].
  destruct n' as [|x n']; [|discriminate]. apply name_loop_all in En. intros _ _. exists t1. rewrite En. do 2 f_equal. f_equal. lia.
Qed.

Section Frame.
  Context {S : Type} (I : S -> Prop) (T : buf -> Prop).
  Hypothesis HT : forall s q, suffix s q -> T q -> T s.
  Definition clean_keeps (b : memb S) : Prop := forall sn t s u e t' u' r, T s -> I t -> memb_des b sn t s u e = Ok (t', u', r, C0) -> I t'.
  Variables (mode : omode) (L : list (memb S)).
  Hypothesis all_L : Forall (memb_all (fun _ c => dlaw (des c))) L.
  Hypothesis HK : Forall clean_keeps L.
  Lemma search_f sn R t s e t' r : incl R L -> I t -> T s -> search_members mode sn R t s e = Ok (t', r, C0) -> I t'.
  Proof.
    revert t s e. induction R as [|b R IH]; intros t s e Hi Ht Fs; cbn [search_members]; intros E.
    - apply bind_ok in E as ([s1 e1] & _ & E). injection E as <- _ _. exact Ht.
    - assert (Hb : In b L) by (apply Hi; now left). apply bind_ok in E as ([[[t1 u] s1] e1] & E1 & E2).
      pose proof (memb_des_good b sn t s false e (proj1 (Forall_forall _ _) all_L b Hb)) as G. rewrite E1 in G. destruct G as [A _].
      assert (KI : e1 = C0 -> I t1) by (intros ->; now apply (proj1 (Forall_forall _ _) HK b Hb sn t s false e t1 u s1)).
      destruct (negb u); [|injection E2 as <- _ ->; now apply KI].
      assert (HR : Forall (memb_all (fun _ c => dlaw (des c))) R) by (apply Forall_forall; intros y Hy; apply (proj1 (Forall_forall _ _) all_L); apply Hi; now right).
      pose proof (search_good mode sn R HR t1 s1 e1) as G. destruct (dg_C0 _ _ _ _ _ G E2) as [-> _].
      apply (IH t1 s1 C0); auto; [intros y Hy; apply Hi; now right|]. now apply (HT s1 s).
  Qed.
  Lemma loop_f sn n : forall R t s e t' r, incl R L -> I t -> T s -> (length s < n)%nat -> members_loop mode sn L n R t s e = Ok (t', r, C0) -> I t'.
  Proof.
    induction n as [|n IH]; intros R t s e t' r Hi Ht Fs Hn; [lia|]. cbn [members_loop]. destruct R as [|b R].
    { intros E. apply bind_ok in E as ([s1 e1] & _ & E). injection E as <- _ _. exact Ht. }
    intros E. assert (Hb : In b L) by (apply Hi; now left). apply bind_ok in E as ([[[t1 u] s1] e1] & E1 & E).
    pose proof (memb_des_good b sn t s false e (proj1 (Forall_forall _ _) all_L b Hb)) as G. rewrite E1 in G. destruct G as [A1 _].
    assert (KI : e1 = C0 -> I t1) by (intros ->; now apply (proj1 (Forall_forall _ _) HK b Hb sn t s false e t1 u s1)).
    apply bind_ok in E as ([[t2 s2] e2] & E2 & E).
    assert (K2 : (e2 = C0 -> I t2) /\ suffix s2 s).
    { destruct (negb u).
      - pose proof (search_good mode sn L all_L t1 s1 e1) as G. split.
        + intros ->. destruct (dg_C0 _ _ _ _ _ G E2) as [-> _]. apply (search_f sn L t1 s1 C0 t2 s2 (incl_refl L)); auto. now apply (HT s1 s).
        + rewrite E2 in G. destruct G as [G _]. now apply suffix_trans with s1.
      - injection E2 as <- <- <-. now split. }
    destruct K2 as [K2 A2]. destruct (parse_space s2 e2) as [s3 e3] eqn:E3. destruct s3 as [|d t3]; [injection E as _ _ E; now apply C0_cerr in E|].
    assert (A3 : suffix (d :: t3) s2) by (pose proof (space_good s2) as (q & o & Ga & Gb & _); rewrite Ga in E3; now injection E3 as <- _).
    destruct (d =? COMMA).
    - destruct (parse_space t3 e3) as [s4 e4] eqn:E4. apply bind_ok in E as ([[t5 s5] e5] & E5 & E). apply close_C0 in E as [-> ->].
      assert (A4 : suffix s4 t3) by (pose proof (space_good t3) as (q & o & Ga & Gb & _); rewrite Ga in E4; now injection E4 as <- _).
      assert (A5 : suffix t3 s) by (apply suffix_trans with s2; [now apply suffix_tl with d|exact A2]).
      assert (HR : incl (if u then R else b :: R) L) by (destruct u; [intros y Hy; apply Hi; now right|exact Hi]).
      assert (Hl : (length s4 < n)%nat).
      { apply suffix_len in A4. apply (suffix_trans _ _ _ A3) in A2. apply suffix_len in A2. cbn [length] in A2. lia. }
      assert (HA : Forall (memb_all (fun _ c => dlaw (des c))) (if u then R else b :: R)) by (apply Forall_forall; intros y Hy; apply (proj1 (Forall_forall _ _) all_L); now apply HR).
      pose proof (members_good mode sn L all_L n (if u then R else b :: R) t2 s4 e4 HA Hl) as G. destruct (dg_C0 _ _ _ _ _ G E5) as [-> _].
      apply space_C0 in E4 as [-> _]. apply space_C0 in E3 as [-> _]. eapply IH; [exact HR| | |exact Hl|exact E5]; [now apply K2|].
      apply (HT s4 s); [now apply suffix_trans with t3|exact Fs].
    - apply close_C0 in E as [-> ->]. apply space_C0 in E3 as [-> _]. now apply K2.
  Qed.
  Theorem object_frame t0 sn old s v r : T s -> I old -> reads (object_codec mode L t0) sn old s v r -> (exists q, s = 110 :: q) /\ v = t0 \/ I v.
  Proof.
    intros Ht Ho E. unfold reads in E. fold C0 in E. cbn [des object_codec] in E. unfold object_des in E.
    destruct (is_null s) eqn:Ns.
    { left. destruct (parse_null s C0). injection E as <- _ _. split; [|reflexivity]. destruct s as [|c s]; [discriminate|]. exists s. unfold is_null, starts in Ns. f_equal. lia. }
    right. destruct s as [|c s]; [now injection E as <- _ _|]. destruct (negb (c =? LCB)).
    { destruct (c =? LBR); [|now injection E as <- _ _]. destruct (parse_space s C0) as [s1 e1]. apply bind_ok in E as (d & _ & E).
      destruct (negb (d =? RBR)); [now injection E as <- _ _|]. apply bind_ok in E as (s2 & _ & E). now injection E as <- _ _. }
    destruct (parse_space s C0) as [s1 e1] eqn:E1. destruct s1 as [|d t1]; [now injection E as <- _ _|]. destruct (negb (d =? RCB)); [|now injection E as <- _ _].
    assert (A1 : suffix (d :: t1) s) by (pose proof (space_good s) as (q & o & Ga & Gb & _); rewrite Ga in E1; now injection E1 as <- _).
    apply bind_ok in E as ([[v1 s2] e2] & E2 & E).
    assert (K : e2 = C0 -> I v1).
    { intros ->. apply (loop_f sn _ L old (d :: t1) e1 v1 s2 (incl_refl L) Ho) in E2; [exact E2| |lia]. apply (HT (d :: t1) (c :: s)); [|exact Ht]. destruct A1 as [g ->]. now exists (c :: g). }
    destruct s2 as [|x s2]; [injection E as _ _ E; now apply C0_cerr in E|]. destruct (parse_space (x :: s2) e2) as [s3 e3] eqn:E3.
    destruct s3 as [|y s3]; [injection E as _ _ E; now apply C0_cerr in E|]. destruct (negb (y =? RCB)); [injection E as _ _ E; now apply C0_cerr in E|].
    injection E as <- _ ->. apply space_C0 in E3 as [-> _]. now apply K.
  Qed.
End Frame.

(** one element *)
Lemma mem_absent {S} (m : mem S) sn t s u e t' u' r : dlaw (des (m_codec m)) -> (forall g q, s <> g ++ QT :: m_name m ++ QT :: q) -> mem_des m sn t s u e = Ok (t', u', r, C0) -> t' = t.
Proof.
  intros HD Ha. unfold mem_des. destruct (unser_name (m_name m) s u e) as [[s1 e1] u1] eqn:En. destruct u1; cbn [negb]; [|now intros [= <- _ _ _]].
  intros E. apply bind_ok in E as ([[x r1] e2] & E1 & E2). injection E2 as _ _ _ ->. apply (dl_C0 _ _ _ _ _ _ _ _ HD) in E1. destruct (name_found _ _ _ _ _ _ En E1) as [q ->]. now elim (Ha [] q).
Qed.
Lemma mem_p_absent {S} (m : mem S) i sn t s u e t' u' r : dlaw (des (m_codec m)) -> (forall g q, s <> g ++ QT :: m_name m ++ QT :: q) -> mem_p_des m i sn t s u e = Ok (t', u', r, C0) -> t' = t.
Proof.
  intros HD Ha. unfold mem_p_des. destruct (unser_name (m_name m) s u e) as [[s1 e1] u1] eqn:En. destruct u1; cbn [negb]; [|now intros [= <- _ _ _]].
  intros E. apply bind_ok in E as ([[x r1] e2] & E1 & E2). injection E2 as _ _ _ ->. apply (dl_C0 _ _ _ _ _ _ _ _ HD) in E1. destruct (name_found _ _ _ _ _ _ En E1) as [q ->]. now elim (Ha [] q).
Qed.
Lemma part_sees {S X} (obs : S -> X) b sn t s u e t' u' q e' : (forall m, In m (parts b) -> forall t x, obs (m_set m t x) = obs t) ->
  memb_des b sn t s u e = Ok (t', u', q, e') -> obs t' = obs t.
Proof.
  intros H. assert (T : forall m x y, In m (parts b) -> tried m x y -> obs y = obs x) by (intros m x y Hm [->|[z ->]]; [reflexivity|now apply H]).
  destruct b as [m|m i|ru f g d]; cbn [memb_des parts] in *.
  - intros E. apply mem_tried in E. apply (T m); [now left|exact E].
  - intros E. apply p_tried in E. apply (T m); [now left|exact E].
  - assert (Tf : forall x y, tried (if ru then g else f) x y -> obs y = obs x) by (intros x y; destruct ru; apply T; [right|]; now left).
    assert (Tg : forall x y, tried (if ru then f else g) x y -> obs y = obs x) by (intros x y; destruct ru; apply T; [|right]; now left).
    intros E. apply bind_ok in E as ([[[t1 u1] itr] ee] & E1 & E). apply mem_tried in E1. destruct (no_err_yet ee); apply bind_ok in E as (t2 & E2 & E); apply reset_tried in E2.
    + injection E as <- _ _ _. rewrite (Tg _ _ E2). auto.
    + apply mem_tried in E. rewrite (Tg _ _ E), (Tf _ _ E2). auto.
Qed.
Definition spares {S X} (obs : S -> X) (T : buf -> Prop) (b : memb S) : Prop :=
  (forall m, In m (parts b) -> forall t x, obs (m_set m t x) = obs t) \/ (forall s, T s -> match b with MIf _ _ _ _ => False | MRef m | MProp m _ => forall g q, s <> g ++ QT :: m_name m ++ QT :: q end).
Lemma spares_keeps {S X} (obs : S -> X) (T : buf -> Prop) o b : memb_all (fun _ c => dlaw (des c)) b -> spares obs T b -> clean_keeps (fun t => obs t = o) T b.
Proof.
  intros HD [H|H] sn t s u e t' u' r Hs <- E; [now apply (part_sees obs) in E|]. specialize (H s Hs).
  destruct b as [m|m i|ru f g d]; [|..|destruct H]; f_equal; [now apply mem_absent in E|now apply mem_p_absent in E].
Qed.
