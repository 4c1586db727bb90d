From Verif Require Import Base Parser SpecJson ParserFacts Grammar1 Grammar2 Out CodecLaws SpecSeq Array ArrayProofs
  Object ObjectProofs Enum SpecEnum.

(** ---- enumerator ---- *)
Lemma skip_low_suffix s : suffix (skip_low s) s.
Proof. induction s as [|c t IH]; cbn; [auto with suf|]. destruct (_ || _); [eapply suffix_trans; [exact IH|]|]; auto with suf. Qed.
Lemma to_quote_app a r : no_quote a -> to_quote (a ++ QT :: r) = (a, QT :: r).
Proof. induction 1 as [|c a Hc _ IH]; cbn [app to_quote]; [reflexivity|]. replace (c =? QT) with false by lia. now rewrite IH. Qed.
Lemma to_quote_split s a r : to_quote s = (a, r) -> s = a ++ r.
Proof.
  revert a r. induction s as [|c t IH]; cbn [to_quote]; intros a r H; [injection H as <- <-; reflexivity|].
  destruct (c =? QT); [injection H as <- <-; reflexivity|]. destruct (to_quote t) as [a' r']. injection H as <- <-. cbn. f_equal. now apply IH.
Qed.
Lemma cstr_eq_iff n : forall s, cstr_eq n s = true <-> n = s.
Proof.
  induction n as [|a n IH]; intros [|c s]; cbn; try (split; [discriminate|discriminate]); [tauto|].
  destruct (Z.eqb_spec a c) as [->|H]; [rewrite IH|]; split; congruence.
Qed.
Lemma enum_find_in mode L v n x : NoDup (enames L) -> In (n, x) L -> enum_find mode L v n = Some x.
Proof.
  induction L as [|[m y] L IH]; intros Hd Hi; [contradiction|]. cbn in *. inversion Hd as [|? ? Hn Hd']; subst.
  destruct (cstr_eq m n) eqn:E.
  - apply cstr_eq_iff in E. subst m. destruct Hi as [[= ->]|Hi]; [reflexivity|]. exfalso. apply Hn. now apply (in_map fst) in Hi.
  - destruct Hi as [[= -> ->]|Hi]; [|now apply IH]. assert (cstr_eq n n = true) by now apply cstr_eq_iff. congruence.
Qed.
Lemma enum_find_out mode L v n : ~ In n (enames L) -> enum_find mode L v n = match mode with Nonstrict => Some v | Strict => None end.
Proof.
  induction L as [|[m y] L IH]; intros Hi; [reflexivity|]. cbn in *. destruct (cstr_eq m n) eqn:E.
  - apply cstr_eq_iff in E. exfalso; auto.
  - apply IH. auto.
Qed.
Lemma enum_run mode L old nm r sn e : no_quote nm ->
  enum_des mode L sn old (QT :: nm ++ QT :: r) e =
    match enum_find mode L 0 nm with None => Ok (0, [], cerr InvalidEnum None (dist (nm ++ QT :: r)) e) | Some v => Ok (v, r, e) end.
Proof.
  intros Hn. unfold enum_des. cbn [skip_low]. change ((QT <=? 32) || (128 <=? QT)) with false. cbv iota. change (QT =? QT) with true. cbn [negb].
  rewrite (to_quote_app nm r Hn). destruct (nm ++ QT :: r) eqn:E; [destruct nm; discriminate|reflexivity].
Qed.
Theorem enum_dlaw mode L : dlaw (enum_des mode L).
Proof.
  intros sn old s e. unfold enum_des. pose proof (skip_low_suffix s) as Hs. destruct (skip_low s) as [|c t]; [apply dgood_err; [discriminate|pose proof (dist_pos s); lia]|].
  pose proof (suffix_dist _ _ Hs) as Hd. pose proof (dist_pos t). rewrite dist_cons in Hd.
  destruct (negb (c =? QT)); [apply dgood_err; [discriminate|rewrite dist_cons; lia]|].
  destruct t as [|c2 t2]; [apply dgood_err; [discriminate|lia]|]. destruct (to_quote (c2 :: t2)) as [nm r] eqn:E. apply to_quote_split in E.
  destruct r as [|c3 r]; [apply dgood_err; [discriminate|lia]|]. destruct (enum_find mode L 0 nm); [|apply dgood_err; [discriminate|lia]].
  split; [|apply estep_refl]. eapply suffix_trans; [|exact Hs]. rewrite E. exists (c :: nm ++ [c3]). cbn. now rewrite <- app_assoc.
Qed.
Theorem enum_dsafe mode L : dsafe (enum_des mode L).
Proof.
  intros sn old s e _. unfold enum_des. destruct (skip_low s) as [|c t]; [discriminate|]. destruct (negb (c =? QT)); [discriminate|].
  destruct t as [|c2 t2]; [discriminate|]. destruct (to_quote (c2 :: t2)) as [nm r]. destruct r; [discriminate|]. destruct (enum_find mode L 0 nm); discriminate.
Qed.
Lemma enum_name_in L v : In v (evals L) -> In (enum_name L v, v) L.
Proof.
  induction L as [|[n x] L IH]; cbn; [tauto|]. destruct (Z.eqb_spec x v) as [->|H]; [now left|]. intros [K|K]; [contradiction|]. right. now apply IH.
Qed.
Theorem enum_rt mode L : NoDup (enames L) -> Forall no_quote (enames L) -> rt (enum_codec mode L) (fun v => In v (evals L)).
Proof.
  intros Hd Hq v Hv. apply enum_name_in in Hv. eexists. split; [reflexivity|]. rewrite flat_wr. split; [exists QT; eexists; split; [reflexivity|unfold vstart; lia]|].
  intros sn old r e _ _. cbn [des enum_codec]. cbn [app]. rewrite <- app_assoc. cbn [app]. rewrite enum_run.
  - now rewrite (enum_find_in mode L 0 _ v Hd Hv).
  - rewrite Forall_forall in Hq. apply Hq. now apply (in_map fst) in Hv.
Qed.
Theorem enum_wout mode L : wout (enum_codec mode L) (fun _ => True).
Proof. intros v _. eexists. reflexivity. Qed.
Theorem enum_jout mode L : Forall rchars (enames L) -> jout (enum_codec mode L) (fun _ => True).
Proof.
  intros H v _. eexists. split; [reflexivity|]. rewrite flat_wr. apply rv_str. constructor. clear -H. induction L as [|[n x] L IH]; cbn; [constructor|].
  cbn in H. inversion H; subst. destruct (x =? v); auto.
Qed.

(** ---- flags: laws ---- *)
Lemma opt_space_pg sep s e s0 e0 : suffix s s0 -> estep s0 e0 e -> suffix (fst (opt_space sep s e)) s0 /\ estep s0 e0 (snd (opt_space sep s e)).
Proof. intros A B. unfold opt_space. destruct (sep =? 32); [now split|now apply space_pg]. Qed.
Ltac osp A B := match goal with
  | HA : suffix ?s ?s0, HB : estep ?s0 ?e0 ?e |- context [opt_space ?sep ?s ?e] =>
    let H := fresh in pose proof (opt_space_pg sep s e s0 e0 HA HB) as H; destruct (opt_space sep s e) as [? ?]; cbn [fst snd] in H; destruct H as [A B]
  end.
Lemma pre_match_suffix n : forall s t, pre_match n s = Some t -> suffix t s.
Proof.
  induction n as [|a n IH]; intros s t H; cbn in H; [injection H as ->; apply suffix_refl|]. destruct s as [|c s]; [discriminate|].
  destruct (a =? c); [|discriminate]. eapply suffix_trans; [exact (IH _ _ H)|auto with suf].
Qed.
Lemma skip1_suffix c s : suffix (skip1 c s) s.
Proof. destruct s as [|d t]; cbn; [auto with suf|]. destruct (d =? c); auto with suf. Qed.
Lemma skip_unknown_suffix sep s : suffix (skip_unknown sep s) s.
Proof. induction s as [|c t IH]; cbn; [auto with suf|]. destruct (_ || _); [auto with suf|]. eapply suffix_trans; [exact IH|auto with suf]. Qed.
Lemma skip1_in c s s0 : suffix s s0 -> suffix (skip1 c s) s0.
Proof. intros H. eapply suffix_trans; [apply skip1_suffix|exact H]. Qed.
Lemma skip_unknown_in c s s0 : suffix s s0 -> suffix (skip_unknown c s) s0.
Proof. intros H. eapply suffix_trans; [apply skip_unknown_suffix|exact H]. Qed.

Lemma one_str_good sep mode L : forall v s e rdy s0 e0, suffix s s0 -> estep s0 e0 e -> dgood s0 e0 (Ok (one_str sep mode L v s e rdy)).
Proof.
  induction L as [|[n x] R IH]; intros v s e rdy s0 e0 Hs He; cbn [one_str].
  - destruct (rdy || _); [now split|]. sp A1 B1. pose proof (skip_unknown_in sep _ _ A1) as A1'. sp A2 B2. destruct b0 as [|c t]; [now split|].
    pose proof (skip1_in sep _ _ A2) as A2'. sp A3 B3. now split.
  - destruct s as [|c0 s']; [now split|]. osp A1 B1. destruct b as [|c t]; [now split|]. destruct (c =? QT); [now split|].
    destruct (pre_match n (c :: t)) as [[|d u]|] eqn:E; try (now apply IH).
    destruct (_ || _); [|now apply IH]. apply pre_match_suffix in E. assert (A1' : suffix (d :: u) s0) by (eapply suffix_trans; eassumption).
    osp A2 B2. destruct b as [|f w]; [now split|]. destruct (f =? QT); [now split|]. apply IH; [now apply skip1_in|exact B2].
Qed.
Lemma pstring_pg s e s0 e0 : suffix s s0 -> estep s0 e0 e -> exists r e', parse_string s e = Ok (r, e') /\ suffix r s0 /\ estep s0 e0 e'.
Proof.
  intros A B. destruct (string_good s) as (r & o & H & H1 & H2 & _). exists r, (app_err e o). rewrite H. split; [reflexivity|].
  split; [now apply suffix_trans with s|]. eapply estep_trans; [exact B|]. apply (estep_weaken _ s); [exact A|]. now apply estep_app.
Qed.
Lemma one_arr_good mode sn L : forall v s e rdy s0 e0, suffix s s0 -> estep s0 e0 e -> dgood s0 e0 (one_arr mode sn L v s e rdy).
Proof.
  induction L as [|[n x] R IH]; intros v s e rdy s0 e0 Hs He; cbn [one_arr].
  - destruct (rdy || _); [now split|]. sp A1 B1. destruct (deref sn b) as [c| |] eqn:E; cbn [bind]; [|exact I|destruct b; [destruct sn|]; discriminate].
    destruct (c =? RBR); [now split|]. destruct (pstring_pg b e1 s0 e0 A1 B1) as (r & e' & -> & A2 & B2). cbn [bind]. sp A3 B3.
    destruct b0 as [|c3 t]; [now split|]. pose proof (skip1_in COMMA _ _ A3) as A3'. sp A4 B4. now split.
  - sp A1 B1. destruct b as [|c t]; [now split|]. destruct (c =? RBR); [now split|]. destruct (negb (c =? QT)).
    { apply dg_err; [discriminate| |exact B1]. apply suffix_dist in A1. pose proof (dist_pos (c :: t)). lia. }
    destruct (pre_match n t) as [[|d u]|] eqn:E; try (now apply IH).
    destruct (d =? QT); [|now apply IH]. apply pre_match_suffix in E. assert (A1' : suffix u s0).
    { eapply suffix_trans; [|exact A1]. eapply suffix_trans; [|apply suffix_cons, suffix_refl]. now apply suffix_tl in E. }
    sp A2 B2. destruct b as [|f w]; [now split|]. destruct (negb (f =? COMMA)); [now split|]. apply suffix_tl in A2. sp A3 B3. now apply IH.
Qed.
Lemma flags_loop_good fin one : (forall v s e s0 e0, suffix s s0 -> estep s0 e0 e -> dgood s0 e0 (one v s e)) ->
  forall fuel v s e s0 e0, (length s < fuel)%nat -> suffix s s0 -> estep s0 e0 e -> dgood s0 e0 (flags_loop fin one fuel v s e).
Proof.
  intros Ho. induction fuel as [|n IH]; intros v s e s0 e0 Hl Hs He; [lia|]. cbn [flags_loop]. destruct s as [|c t]; [now split|].
  destruct (c =? fin); [now split|]. pose proof (Ho v (c :: t) e (c :: t) e (suffix_refl _) (estep_refl _ _)) as G.
  destruct (one v (c :: t) e) as [[[v1 s1] e1]| |]; cbn [bind]; [|exact I|exact G]. destruct G as (G1 & G2).
  assert (A : suffix s1 s0) by (now apply suffix_trans with (c :: t)).
  assert (B : estep s0 e0 e1) by (eapply estep_trans; [exact He|now apply (estep_weaken _ (c :: t))]).
  destruct (Z.eqb_spec (dist s1) (dist (c :: t))) as [E|E].
  { apply dg_err; [discriminate| |exact B]. apply suffix_dist in A. pose proof (dist_pos s1). lia. }
  destruct s1 as [|d s1]; [apply dg_err; [discriminate|pose proof (dist_pos s0); lia|exact B]|]. apply IH; auto.
  apply suffix_len in G1. unfold dist in E. lia.
Qed.
Theorem flags_dlaw sep mode L : dlaw (flags_des sep mode L).
Proof.
  intros sn old s e. unfold flags_des. destruct s as [|c t]; [apply dgood_err; [discriminate|cbn; lia]|].
  destruct (negb (c =? LBR) && _); [apply dgood_err; [discriminate|pose proof (dist_pos (c :: t)); lia]|].
  assert (A : suffix t (c :: t)) by auto with suf. pose proof (estep_refl (c :: t) e) as B. apply dgood_bind.
  - destruct (c =? LBR); apply flags_loop_good; auto.
    + intros. now apply one_arr_good.
    + intros. now apply one_str_good.
  - intros v s1 e1 A1 B1 _. destruct s1 as [|d t1]; [apply dg_err; [discriminate|pose proof (dist_pos (c :: t)); lia|exact B1]|].
    destruct (_ && _); [apply dg_err; [discriminate| |exact B1]; apply suffix_dist in A1; pose proof (dist_pos (d :: t1)); lia|].
    split; [now apply suffix_tl in A1|exact B1].
Qed.
Lemma one_arr_safe mode sn L : good_sn sn -> forall v s e rdy, one_arr mode sn L v s e rdy <> UB.
Proof.
  intros (x0 & -> & _). induction L as [|[n x] R IH]; intros v s e rdy; cbn [one_arr].
  - destruct (rdy || _); [discriminate|]. destruct (parse_space s e) as [s1 e1]. destruct (deref (Some x0) s1) as [c| |] eqn:E; [|destruct s1; discriminate|destruct s1; discriminate].
    cbn [bind]. destruct (c =? RBR); [discriminate|]. destruct (string_good s1) as (r & o & H & _). rewrite H. cbn [bind].
    destruct (parse_space r _) as [s3 e3]. destruct s3; [discriminate|]. destruct (parse_space (skip1 _ _) e3); discriminate.
  - destruct (parse_space s e) as [s1 e1]. destruct s1 as [|c t]; [discriminate|]. destruct (c =? RBR); [discriminate|]. destruct (negb (c =? QT)); [discriminate|].
    destruct (pre_match n t) as [[|d u]|]; try apply IH. destruct (d =? QT); [|apply IH]. destruct (parse_space u e1) as [s2 e2]. destruct s2 as [|f w]; [discriminate|].
    destruct (negb (f =? COMMA)); [discriminate|]. destruct (parse_space w e2). apply IH.
Qed.
Lemma flags_loop_safe fin one : (forall v s e, one v s e <> UB) -> forall fuel v s e, flags_loop fin one fuel v s e <> UB.
Proof.
  intros Ho. induction fuel as [|n IH]; intros v s e; [discriminate|]. cbn [flags_loop]. destruct s as [|c t]; [discriminate|]. destruct (c =? fin); [discriminate|].
  intros K. apply bind_ub in K. destruct K as [K|([[v1 s1] e1] & _ & K)]; [now apply Ho in K|]. destruct (_ =? _); [discriminate|]. destruct s1; [discriminate|]. now apply IH in K.
Qed.
Theorem flags_dsafe sep mode L : dsafe (flags_des sep mode L).
Proof.
  intros sn old s e Hsn. unfold flags_des. destruct s as [|c t]; [discriminate|]. destruct (negb (c =? LBR) && _); [discriminate|].
  intros K. apply bind_ub in K. destruct K as [K|([[v s1] e1] & _ & K)].
  - destruct (c =? LBR); apply flags_loop_safe in K; auto; intros; [now apply one_arr_safe|discriminate].
  - destruct s1 as [|d t1]; [discriminate|]. destruct (_ && _); discriminate.
Qed.

(** ---- flags: round trip ---- *)
Definition sel (v : Z) (L : elist) : elist := filter (fun p => flag_on v (snd p)) L.
Definition fsep (sep : Z) (l : list buf) : buf := flat_map (fun x => sep :: x) l.
Lemma jsep_cons sep x l : jsep sep (x :: l) = x ++ fsep sep l.
Proof. revert x. induction l as [|y l IH]; intros x; [now rewrite app_nil_r|]. change (jsep sep (x :: y :: l)) with (x ++ sep :: jsep sep (y :: l)). now rewrite IH. Qed.
Definition fitem (sep : Z) (n : buf) : buf := if sep =? COMMA then QT :: n ++ [QT] else n.
Lemma flags_body_false sep L v : flags_body sep L v false = fsep sep (map (fun p => fitem sep (fst p)) (sel v L)).
Proof.
  induction L as [|[n x] L IH]; [reflexivity|]. cbn [flags_body sel filter snd]. destruct (flag_on v x); [|exact IH]. cbn [map fsep flat_map fst app]. fold (sel v L). rewrite IH. reflexivity.
Qed.
Lemma flags_body_true sep L v : flags_body sep L v true = jsep sep (map (fun p => fitem sep (fst p)) (sel v L)).
Proof.
  induction L as [|[n x] L IH]; [reflexivity|]. cbn [flags_body sel filter snd]. destruct (flag_on v x); [|exact IH]. cbn [map fst]. fold (sel v L).
  rewrite jsep_cons, flags_body_false. reflexivity.
Qed.

Lemma pre_match_app n x : pre_match n (n ++ x) = Some x.
Proof. induction n as [|a n IH]; [reflexivity|]. cbn. now rewrite Z.eqb_refl. Qed.
Lemma pre_match_miss (P : Z -> Prop) n : forall m c x d t, Forall (fun c => ~ P c) n -> Forall (fun c => ~ P c) m -> P c -> P d ->
  pre_match n (m ++ c :: x) = Some (d :: t) -> n = m.
Proof.
  induction n as [|a n IH]; intros m c x d t Hn Hm Hc Hd H.
  - cbn in H. injection H as H. destruct m as [|b m]; [reflexivity|]. cbn in H. injection H as -> _. inversion Hm; contradiction.
  - inversion Hn; subst. destruct m as [|b m].
    + cbn [app pre_match] in H. destruct (Z.eqb_spec a c); [subst; contradiction|discriminate].
    + cbn [app pre_match] in H. destruct (Z.eqb_spec a b); [|discriminate]. inversion Hm; subst. f_equal. now apply (IH m c x d t).
Qed.

(** union *)
Lemma lor_sub v a b : Z.land a v = a -> Z.land b v = b -> Z.land (Z.lor a b) v = Z.lor a b.
Proof. intros Ha Hb. rewrite Z.land_lor_distr_l. now rewrite Ha, Hb. Qed.
Lemma fold_lor_sub v l : forall a, Z.land a v = a -> Forall (fun x => Z.land x v = x) l -> Z.land (fold_left Z.lor l a) v = fold_left Z.lor l a.
Proof. induction l as [|x l IH]; intros a Ha Hl; [exact Ha|]. inversion Hl; subst. cbn. apply IH; [now apply lor_sub|assumption]. Qed.
Lemma fold_lor_acc l : forall a, Z.land a (fold_left Z.lor l a) = a.
Proof.
  induction l as [|x l IH]; intros a; [apply Z.land_diag|]. cbn. specialize (IH (Z.lor a x)).
  apply Z.bits_inj'. intros n Hn. apply (f_equal (fun z => Z.testbit z n)) in IH. rewrite Z.land_spec in *. rewrite Z.lor_spec in IH.
  destruct (Z.testbit a n); [|reflexivity]. cbn in *. exact IH.
Qed.
Lemma fold_lor_mem l : forall a x, In x l -> Z.land x (fold_left Z.lor l a) = x.
Proof.
  induction l as [|y l IH]; intros a x H; [contradiction|]. cbn. destruct H as [->|H]; [|now apply IH].
  pose proof (fold_lor_acc l (Z.lor a x)) as K. apply Z.bits_inj'. intros n Hn. apply (f_equal (fun z => Z.testbit z n)) in K. rewrite Z.land_spec in *. rewrite Z.lor_spec in K.
  destruct (Z.testbit x n); [|reflexivity]. rewrite orb_true_r in K. exact K.
Qed.
Lemma flag_on_sub v x : flag_on v x = true -> Z.land x v = x.
Proof. unfold flag_on. intros H. apply orb_prop in H. destruct H as [H|H]; [lia|]. apply Z.eqb_eq in H. subst. apply Z.land_diag. Qed.
Lemma sel_union L v : flag_union L v -> fold_left Z.lor (evals (sel v L)) 0 = v.
Proof.
  intros (xs & Hi & Hv). set (F := fold_left Z.lor (evals (sel v L)) 0).
  assert (H1 : Z.land F v = F).
  { apply fold_lor_sub; [apply Z.land_0_l|]. unfold evals. apply Forall_map, Forall_forall. intros p Hp. apply filter_In in Hp. now apply flag_on_sub. }
  assert (H2 : Z.land v F = v).
  { assert (Hg : Z.land (fold_left Z.lor xs 0) F = fold_left Z.lor xs 0); [|now rewrite <- Hv in Hg]. apply fold_lor_sub; [apply Z.land_0_l|]. apply Forall_forall. intros x Hx. destruct (Z.eq_dec x 0) as [->|Hz]; [apply Z.land_0_l|].
    apply fold_lor_mem. pose proof (Hi x Hx) as Hx2. unfold evals in *. apply in_map_iff in Hx2. destruct Hx2 as (p & <- & Hp). apply in_map. apply filter_In. split; [exact Hp|].
    unfold flag_on. replace (Z.land (snd p) v) with (snd p); [lia|]. symmetry. rewrite Hv. now apply fold_lor_mem. }
  rewrite Z.land_comm in H2. congruence.
Qed.

Lemma sel_in L v n x : In (n, x) (sel v L) -> In n (enames L).
Proof. intros H. apply filter_In in H. destruct H as (H & _). now apply (in_map fst) in H. Qed.

(** string form *)
Section Str.
  Variables (sep : Z) (mode : omode).
  Hypothesis Hsep : sep_ok sep.
  Definition term (c : Z) : Prop := c = QT \/ c = sep \/ s_ws c \/ c = SLASH.
  Lemma fname_term n : flag_name sep n -> Forall (fun c => ~ term c) n.
  Proof. intros (_ & H). eapply Forall_impl; [|exact H]. unfold term. intros c Hc. tauto. Qed.
  Lemma opt_space_stop s e : (exists c t, s = c :: t /\ (~ term c \/ c = QT \/ c = sep)) -> opt_space sep s e = (s, e).
  Proof.
    intros (c & t & -> & Hc). unfold opt_space. destruct (Z.eqb_spec sep 32) as [E|E]; [reflexivity|]. unfold parse_space. cbn [space_loop].
    unfold term in Hc. unfold s_ws in *. destruct Hsep as (_ & Hs). unfold s_ws in *.
    replace (is_ws c) with false by (unfold is_ws; lia). cbn [negb]. replace (c =? SLASH) with false by lia. reflexivity.
  Qed.
  Lemma is_space_term d t : negb (sep =? 32) && is_space (d :: t) || (d =? sep) || (d =? QT) = true -> term d.
  Proof.
    unfold is_space, term, s_ws. destruct (Z.eqb_spec d sep); [tauto|]. destruct (Z.eqb_spec d QT); [tauto|].
    destruct (is_ws d) eqn:W; [unfold is_ws in W; lia|]. destruct (Z.eqb_spec d SLASH); [tauto|]. rewrite andb_false_r. discriminate.
  Qed.
  Lemma one_str_any L0 r e : Forall (flag_name sep) (enames L0) -> NoDup (enames L0) ->
    forall L ns v0 rdy, incl L L0 -> incl ns L0 -> rdy = true \/ (exists p l, ns = p :: l /\ In p L) ->
    exists k l, ns = k ++ l /\ (rdy = false -> k <> []) /\
      one_str sep mode L v0 (jsep sep (map fst ns) ++ QT :: r) e rdy = (fold_left Z.lor (evals k) v0, jsep sep (map fst l) ++ QT :: r, e).
  Proof.
    intros Hn Hd. rewrite Forall_forall in Hn. induction L as [|[n x] L IH]; intros ns v0 rdy HL Hns Hr.
    - destruct Hr as [->|(p & l & _ & [])]. exists [], ns. split; [reflexivity|]. split; [discriminate|]. reflexivity.
    - destruct ns as [|[m y] ns].
      { destruct Hr as [->|(p & l & [=] & _)]. exists [], []. split; [reflexivity|]. split; [discriminate|]. cbn [one_str map jsep app].
        rewrite opt_space_stop by (exists QT, r; split; [reflexivity|tauto]). change (QT =? QT) with true. reflexivity. }
      assert (Hm : flag_name sep m) by (apply Hn; apply (in_map fst L0 (m, y)), Hns; now left).
      assert (Hn1 : flag_name sep n) by (apply Hn; apply (in_map fst L0 (n, x)), HL; now left).
      cbn [map fst]. rewrite jsep_cons. pose proof Hm as (Hne & Hch). destruct m as [|c m]; [contradiction|]. inversion Hch as [|? ? (Hc1 & Hc2 & Hc3 & Hc4) _]; subst.
      cbn [app one_str]. rewrite opt_space_stop by (exists c; eexists; split; [reflexivity|]; left; unfold term; tauto). replace (c =? QT) with false by lia.
      assert (exists t z, term t /\ c :: (m ++ fsep sep (map fst ns)) ++ QT :: r = (c :: m) ++ t :: z /\
                (ns = [] /\ t = QT /\ z = r \/ ns <> [] /\ t = sep /\ z = jsep sep (map fst ns) ++ QT :: r)) as (y' & z & Hy & Ez & Hz).
      { destruct ns as [|[n4 x4] l4]; cbn [map fsep flat_map fst app].
        - rewrite app_nil_r. exists QT, r. split; [unfold term; tauto|]. split; [reflexivity|]. now left.
        - exists sep, (jsep sep (n4 :: map fst l4) ++ QT :: r). split; [unfold term; tauto|]. rewrite jsep_cons. split; [|right; repeat split; discriminate].
          repeat (rewrite <- ?app_assoc; cbn [app]). reflexivity. }
      destruct (list_eq_dec Z.eq_dec n (c :: m)) as [->|Hnm].
      + assert (x = y).
        { assert (H1 : In (c :: m, x) L0) by (apply HL; now left). assert (H2 : In (c :: m, y) L0) by (apply Hns; now left).
          pose proof (enum_find_in Strict L0 0 _ _ Hd H1). pose proof (enum_find_in Strict L0 0 _ _ Hd H2). congruence. }
        subst y. rewrite Ez, pre_match_app. destruct Hz as [(-> & -> & ->)|(Hnn & -> & ->)].
        * change (QT =? QT) with true. rewrite orb_true_r. rewrite opt_space_stop by (exists QT, r; split; [reflexivity|tauto]). change (QT =? QT) with true.
          exists [(c :: m, x)], []. split; [reflexivity|]. split; [discriminate|]. reflexivity.
        * rewrite Z.eqb_refl, orb_true_r. cbn [orb]. rewrite opt_space_stop by (exists sep; eexists; split; [reflexivity|tauto]).
          replace (sep =? QT) with false by (destruct Hsep as (_ & Hs); lia). cbn [skip1]. rewrite Z.eqb_refl.
          destruct (IH ns (Z.lor v0 x) true) as (k & l & -> & _ & ->); [intros q Hq; apply HL; now right|intros q Hq; apply Hns; now right|now left|].
          exists ((c :: m, x) :: k), l. split; [reflexivity|]. split; [discriminate|]. reflexivity.
      + destruct (IH ((c :: m, y) :: ns) v0 rdy) as (k & l & Ek & Hk & Eo).
        { intros q Hq; apply HL; now right. } { exact Hns. }
        { destruct Hr as [->|(p & l & [= <- <-] & [Hp|Hp])]; [now left|congruence|]. right. eexists _, _. now split. }
        exists k, l. split; [exact Ek|]. split; [exact Hk|]. cbn [map fst] in Eo. rewrite jsep_cons in Eo. cbn [app] in Eo.
        destruct (pre_match n (c :: (m ++ fsep sep (map fst ns)) ++ QT :: r)) as [[|d u]|] eqn:E; try exact Eo.
        destruct (_ || _) eqn:Et; [|exact Eo]. exfalso. apply is_space_term in Et. apply Hnm. rewrite Ez in E.
        apply (pre_match_miss term n (c :: m) y' z d u); auto using fname_term.
  Qed.
End Str.

Lemma jsep_len sep k l : (length (jsep sep (map fst l)) <= length (jsep sep (map (@fst buf Z) (k ++ l))))%nat.
Proof.
  destruct k as [|p k]; [reflexivity|]. destruct l as [|q l]; [cbn; lia|]. cbn [map app]. rewrite map_app. cbn [map]. rewrite !jsep_cons. unfold fsep. rewrite flat_map_app. cbn [flat_map]. repeat (rewrite app_length || cbn [length app]). unfold buf in *. lia.
Qed.
Lemma flags_str_loop sep mode L r e : sep_ok sep -> NoDup (enames L) -> Forall (flag_name sep) (enames L) ->
  forall n ns v0 fuel, (length ns <= n)%nat -> incl ns L -> (length ns < fuel)%nat ->
  flags_loop QT (fun v s e => Ok (one_str sep mode L v s e false)) fuel v0 (jsep sep (map fst ns) ++ QT :: r) e = Ok (fold_left Z.lor (evals ns) v0, QT :: r, e).
Proof.
  intros Hsep Hd Hn. induction n as [|n IH]; intros ns v0 fuel Hl Hi Hf.
  - destruct ns; [|cbn in Hl; lia]. destruct fuel; [lia|]. reflexivity.
  - destruct fuel as [|fuel]; [lia|]. destruct ns as [|[m y] ns]; [reflexivity|].
    destruct (one_str_any sep mode Hsep L r e Hn Hd L ((m, y) :: ns) v0 false (incl_refl _) Hi) as (k & l & Ek & Hk & Eo).
    { right. eexists _, _. split; [reflexivity|]. apply Hi. now left. }
    assert (Hm : flag_name sep m). { rewrite Forall_forall in Hn. apply Hn. apply (in_map fst L (m, y)), Hi. now left. }
    cbn [flags_loop]. destruct k as [|p k]; [now destruct (Hk eq_refl)|]. cbn [app] in Ek. injection Ek as <- Ek.
    destruct (jsep sep (map fst ((m, y) :: ns)) ++ QT :: r) as [|c u] eqn:Et; [now destruct (jsep sep (map fst ((m, y) :: ns)))|].
    assert (Hc : c <> QT).
    { cbn [map fst] in Et. rewrite jsep_cons in Et. destruct Hm as (H1 & H2). destruct m as [|c' m]; [contradiction|]. cbn in Et. injection Et as -> _. inversion H2. tauto. }
    replace (c =? QT) with false by lia. rewrite Eo. cbn [bind].
    assert (Hlt : dist (jsep sep (map fst l) ++ QT :: r) < dist (c :: u)).
    { rewrite <- Et. rewrite Ek. rewrite !dist_app. assert (dist (jsep sep (map fst l)) < dist (jsep sep (map fst ((m, y) :: k ++ l)))); [|lia].
      pose proof (jsep_len sep k l) as HH. cbn [map fst]. rewrite jsep_cons. destruct Hm as (H1 & _). unfold dist. rewrite app_length. destruct m; [contradiction|]. cbn [length].
      destruct (map fst (k ++ l)) as [|zz zs]; [cbn in *; unfold buf in *; lia|]. rewrite jsep_cons in HH. cbn [fsep flat_map]. rewrite app_length in *. cbn [length]. unfold fsep in HH. unfold buf in *. lia. }
    replace (dist (jsep sep (map fst l) ++ QT :: r) =? dist (c :: u)) with false by lia.
    destruct (jsep sep (map fst l) ++ QT :: r) as [|c2 u2] eqn:E2; [now destruct (jsep sep (map fst l))|]. rewrite <- E2.
    rewrite IH.
    + subst ns. unfold evals. cbn [fold_left snd map]. now rewrite map_app, fold_left_app.
    + subst ns. cbn in Hl. rewrite app_length in Hl. lia.
    + intros q Hq. apply Hi. right. subst ns. apply in_or_app. now right.
    + subst ns. cbn in Hf. rewrite app_length in Hf. lia.
Qed.
Lemma jsep_count sep ns : Forall (fun p => fst p <> []) ns -> (length ns <= length (jsep sep (map (@fst buf Z) ns)))%nat.
Proof.
  induction ns as [|[m y] ns IH]; intros H; [cbn; lia|]. inversion H as [|? ? H1 H2]; subst. specialize (IH H2). cbn [map]. rewrite jsep_cons, app_length. cbn [fst] in *; destruct m; [contradiction|]. cbn [length].
  destruct ns as [|q ns]; [cbn [length]; clear; lia|]. cbn [map] in *. rewrite jsep_cons in IH. cbn [fsep flat_map]. rewrite app_length in *. cbn [length] in *. unfold fsep in IH. unfold buf in *. lia.
Qed.
(** reading any list of known names, in any order *)
Theorem flags_str_any sep mode L sn old ns r e : sep_ok sep -> NoDup (enames L) -> Forall (flag_name sep) (enames L) -> incl ns L ->
  flags_des sep mode L sn old (QT :: jsep sep (map fst ns) ++ QT :: r) e = Ok (fold_left Z.lor (evals ns) 0, r, e).
Proof.
  intros Hsep Hd Hn Hi. unfold flags_des. change (negb (QT =? LBR) && negb (QT =? QT)) with false. cbv iota. change (QT =? LBR) with false. cbv iota.
  rewrite (flags_str_loop sep mode L r e Hsep Hd Hn (length ns)); auto.
  assert (length ns <= length (jsep sep (map fst ns)))%nat; [|rewrite app_length; cbn; lia].
  apply jsep_count. apply Forall_forall. intros p Hp. rewrite Forall_forall in Hn. apply Hi in Hp. apply (in_map fst) in Hp. apply Hn in Hp. exact (proj1 Hp).
Qed.
Theorem flags_str_rt sep mode L : sep_ok sep -> NoDup (enames L) -> Forall (flag_name sep) (enames L) -> rt (flags_codec sep mode L) (flag_union L).
Proof.
  intros Hsep Hd Hn v Hv. eexists. split; [reflexivity|]. rewrite flat_wr. assert (Ec : (sep =? COMMA) = false) by (destruct Hsep; lia). rewrite Ec.
  split; [exists QT; eexists; split; [reflexivity|unfold vstart; lia]|]. intros sn old r e _ _. rewrite flags_body_true.
  replace (map (fun p => fitem sep (fst p)) (sel v L)) with (map fst (sel v L)) by (apply map_ext; intros p; unfold fitem; now rewrite Ec).
  cbn [app des flags_codec]. rewrite <- app_assoc. cbn [app]. rewrite flags_str_any; auto.
  - now rewrite sel_union.
  - intros p Hp. now apply filter_In in Hp.
Qed.

(** array form *)
Section Arr.
  Variable mode : omode.
  Lemma qitem n : fitem COMMA n = QT :: n ++ [QT]. Proof. reflexivity. Qed.
  Definition qn (p : buf * Z) : buf := fitem COMMA (fst p).
  Lemma one_arr_any sn L0 r e : Forall no_quote (enames L0) -> NoDup (enames L0) ->
    forall L ns v0 rdy, incl L L0 -> incl ns L0 -> rdy = true \/ (exists p l, ns = p :: l /\ In p L) ->
    exists k l, ns = k ++ l /\ (rdy = false -> k <> []) /\
      one_arr mode sn L v0 (jsep COMMA (map qn ns) ++ RBR :: r) e rdy = Ok (fold_left Z.lor (evals k) v0, jsep COMMA (map qn l) ++ RBR :: r, e).
  Proof.
    assert (SQ : forall x e, parse_space (QT :: x) e = (QT :: x, e)) by (intros; apply space_stop, vstart_stop, qt_vstart).
    intros Hn Hd. rewrite Forall_forall in Hn. induction L as [|[n x] L IH]; intros ns v0 rdy HL Hns Hr.
    - destruct Hr as [->|(p & l & _ & [])]. exists [], ns. split; [reflexivity|]. split; [discriminate|]. reflexivity.
    - destruct ns as [|[m y] ns].
      { destruct Hr as [->|(p & l & [=] & _)]. exists [], []. split; [reflexivity|]. split; [discriminate|]. reflexivity. }
      assert (Hm : no_quote m) by (apply Hn; apply (in_map fst L0 (m, y)), Hns; now left).
      assert (Hn1 : no_quote n) by (apply Hn; apply (in_map fst L0 (n, x)), HL; now left).
      cbn [map]. rewrite jsep_cons. change (qn (m, y)) with (QT :: m ++ [QT]). cbn [app]. repeat (rewrite <- app_assoc; cbn [app]). cbn [one_arr]. rewrite SQ.
      change (QT =? RBR) with false. change (QT =? QT) with true. cbn [negb].
      destruct (list_eq_dec Z.eq_dec n m) as [->|Hnm].
      + assert (x = y).
        { assert (H1 : In (m, x) L0) by (apply HL; now left). assert (H2 : In (m, y) L0) by (apply Hns; now left).
          pose proof (enum_find_in Strict L0 0 _ _ Hd H1). pose proof (enum_find_in Strict L0 0 _ _ Hd H2). congruence. }
        subst y. rewrite pre_match_app. change (QT =? QT) with true. cbv iota.
        destruct ns as [|[n2 x2] l2]; cbn [map fsep flat_map app].
        * rewrite space_stop by (unfold stop, s_ws; lia). change (RBR =? COMMA) with false. cbn [negb].
          exists [(m, x)], []. split; [reflexivity|]. split; [discriminate|]. reflexivity.
        * rewrite space_stop by (unfold stop, s_ws; lia). change (COMMA =? COMMA) with true. cbn [negb].
          destruct (IH ((n2, x2) :: l2) (Z.lor v0 x) true) as (k & l & Ek & _ & Eo); [intros q Hq; apply HL; now right|intros q Hq; apply Hns; now right|now left|].
          cbn [map] in Eo. rewrite jsep_cons in Eo. unfold fsep in Eo. change (qn (n2, x2)) with (QT :: n2 ++ [QT]) in *. cbn [app] in *. rewrite SQ. rewrite Eo.
          exists ((m, x) :: k), l. split; [cbn; now f_equal|]. split; [discriminate|]. reflexivity.
      + destruct (IH ((m, y) :: ns) v0 rdy) as (k & l & Ek & Hk & Eo).
        { intros q Hq; apply HL; now right. } { exact Hns. }
        { destruct Hr as [->|(p & l & [= <- <-] & [Hp|Hp])]; [now left|congruence|]. right. eexists _, _. now split. }
        exists k, l. split; [exact Ek|]. split; [exact Hk|]. cbn [map] in Eo. rewrite jsep_cons in Eo. change (qn (m, y)) with (QT :: m ++ [QT]) in Eo. cbn [app] in Eo.
        repeat (rewrite <- app_assoc in Eo; cbn [app] in Eo).
        destruct (pre_match n _) as [[|d u]|] eqn:E; try exact Eo. destruct (Z.eqb_spec d QT) as [->|]; [|exact Eo]. exfalso. apply Hnm.
        eapply (pre_match_miss (fun c => c = QT)); try exact E; auto.
  Qed.
End Arr.
Lemma qsep_len k l : (length (jsep COMMA (map qn l)) <= length (jsep COMMA (map qn (k ++ l))))%nat.
Proof.
  destruct k as [|p k]; [reflexivity|]. destruct l as [|q l]; [cbn; lia|]. cbn [map app]. rewrite map_app. cbn [map]. rewrite !jsep_cons. unfold fsep. rewrite flat_map_app. cbn [flat_map]. repeat (rewrite app_length || cbn [length app]). unfold buf in *. lia.
Qed.
Lemma flags_arr_loop mode sn L r e : NoDup (enames L) -> Forall no_quote (enames L) ->
  forall n ns v0 fuel, (length ns <= n)%nat -> incl ns L -> (length ns < fuel)%nat ->
  flags_loop RBR (fun v s e => one_arr mode sn L v s e false) fuel v0 (jsep COMMA (map qn ns) ++ RBR :: r) e = Ok (fold_left Z.lor (evals ns) v0, RBR :: r, e).
Proof.
  intros Hd Hn. induction n as [|n IH]; intros ns v0 fuel Hl Hi Hf.
  - destruct ns; [|cbn in Hl; lia]. destruct fuel; [lia|]. reflexivity.
  - destruct fuel as [|fuel]; [lia|]. destruct ns as [|[m y] ns]; [reflexivity|].
    destruct (one_arr_any mode sn L r e Hn Hd L ((m, y) :: ns) v0 false (incl_refl _) Hi) as (k & l & Ek & Hk & Eo).
    { right. eexists _, _. split; [reflexivity|]. apply Hi. now left. }
    cbn [flags_loop]. destruct k as [|p k]; [now destruct (Hk eq_refl)|]. cbn [app] in Ek. injection Ek as <- Ek.
    destruct (jsep COMMA (map qn ((m, y) :: ns)) ++ RBR :: r) as [|c u] eqn:Et; [now destruct (jsep COMMA (map qn ((m, y) :: ns)))|].
    assert (Hc : c = QT).
    { cbn [map] in Et. rewrite jsep_cons in Et. change (qn (m, y)) with (QT :: m ++ [QT]) in Et. cbn in Et. congruence. }
    subst c. change (QT =? RBR) with false. cbv iota. rewrite Eo. cbn [bind].
    assert (Hlt : dist (jsep COMMA (map qn l) ++ RBR :: r) < dist (QT :: u)).
    { rewrite <- Et. rewrite Ek. rewrite !dist_app. assert (dist (jsep COMMA (map qn l)) < dist (jsep COMMA (map qn ((m, y) :: k ++ l)))); [|lia].
      pose proof (qsep_len k l) as HH. cbn [map]. rewrite jsep_cons. change (qn (m, y)) with (QT :: m ++ [QT]). unfold dist. cbn [app length]. rewrite app_length. 
      destruct (map qn (k ++ l)) as [|zz zs]; [cbn in *; unfold buf in *; lia|]. rewrite jsep_cons in HH. change (fsep COMMA (zz :: zs)) with (COMMA :: zz ++ fsep COMMA zs). cbn [length]. rewrite app_length in *. cbn [length]. rewrite app_length. lia. }
    replace (dist (jsep COMMA (map qn l) ++ RBR :: r) =? dist (QT :: u)) with false by lia.
    destruct (jsep COMMA (map qn l) ++ RBR :: r) as [|c2 u2] eqn:E2; [now destruct (jsep COMMA (map qn l))|]. rewrite <- E2.
    rewrite IH.
    + subst ns. unfold evals. cbn [fold_left snd map]. now rewrite map_app, fold_left_app.
    + subst ns. cbn in Hl. rewrite app_length in Hl. lia.
    + intros q Hq. apply Hi. right. subst ns. apply in_or_app. now right.
    + subst ns. cbn in Hf. rewrite app_length in Hf. lia.
Qed.
Lemma qsep_count ns : (length ns <= length (jsep COMMA (map qn ns)))%nat.
Proof.
  induction ns as [|[m y] ns IH]; [cbn; lia|]. cbn [map]. rewrite jsep_cons, app_length. change (qn (m, y)) with (QT :: m ++ [QT]). cbn [length].
  destruct ns as [|q ns]; [cbn [length]; clear; lia|]. cbn [map] in *. rewrite jsep_cons in IH. change (fsep COMMA (qn q :: map qn ns)) with (COMMA :: qn q ++ fsep COMMA (map qn ns)). cbn [length] in *. rewrite app_length in *. cbn [length] in *. rewrite app_length. lia.
Qed.
Theorem flags_arr_any sep mode L sn old ns r e : NoDup (enames L) -> Forall no_quote (enames L) -> incl ns L ->
  flags_des sep mode L sn old (LBR :: jsep COMMA (map qn ns) ++ RBR :: r) e = Ok (fold_left Z.lor (evals ns) 0, r, e).
Proof.
  intros Hd Hn Hi. unfold flags_des. change (negb (LBR =? LBR) && negb (LBR =? QT)) with false. cbv iota. change (LBR =? LBR) with true. cbv iota.
  rewrite (flags_arr_loop mode sn L r e Hd Hn (length ns)); auto.
  pose proof (qsep_count ns). rewrite app_length. cbn; lia.
Qed.
Theorem flags_arr_rt mode L : NoDup (enames L) -> Forall no_quote (enames L) -> rt (flags_codec COMMA mode L) (flag_union L).
Proof.
  intros Hd Hn v Hv. eexists. split; [reflexivity|]. rewrite flat_wr. change (COMMA =? COMMA) with true. cbv iota.
  split; [exists LBR; eexists; split; [reflexivity|unfold vstart; lia]|]. intros sn old r e _ _. rewrite flags_body_true.
  cbn [app des flags_codec]. rewrite <- app_assoc. cbn [app]. change (map (fun p : buf * Z => fitem COMMA (fst p)) (sel v L)) with (map qn (sel v L)). rewrite flags_arr_any; auto.
  - now rewrite sel_union.
  - intros p Hp. now apply filter_In in Hp.
Qed.
Theorem flags_wout sep mode L : wout (flags_codec sep mode L) (fun _ => True).
Proof. intros v _. eexists. reflexivity. Qed.
Lemma rchars_app a b : rchars a -> rchars b -> rchars (a ++ b).
Proof. induction 1 as [|c l Hc Hl IH]; intros Hb; [exact Hb|]. rewrite <- app_assoc. constructor; auto. Qed.
Lemma jsep_join l : jsep COMMA l = join l.
Proof. induction l as [|x [|y l] IH]; [reflexivity|reflexivity|]. cbn [jsep join] in *. now rewrite IH. Qed.
Theorem flags_jout sep mode L : sep = COMMA \/ rchars [sep] -> Forall rchars (enames L) -> jout (flags_codec sep mode L) (fun _ => True).
Proof.
  intros Hs Hn v _. eexists. split; [reflexivity|]. rewrite flat_wr, flags_body_true.
  assert (Hc : Forall rchars (map fst (sel v L))).
  { apply Forall_map, Forall_forall. intros p Hp. rewrite Forall_forall in Hn. apply Hn. apply filter_In in Hp. now apply in_map. }
  destruct (Z.eqb_spec sep COMMA) as [->|E].
  - rewrite jsep_join. apply join_nil_arr. rewrite Forall_map in *. eapply Forall_impl; [|exact Hc]. intros p Hp. apply rv_str. now constructor.
  - destruct Hs as [Hs|Hs]; [contradiction|]. apply rv_str. constructor.
    replace (map (fun p => fitem sep (fst p)) (sel v L)) with (map fst (sel v L)) by (apply map_ext; intros p; unfold fitem; destruct (Z.eqb_spec sep COMMA); [contradiction|reflexivity]).
    clear -Hs Hc. destruct (map fst (sel v L)) as [|x l]; [constructor|]. rewrite jsep_cons. inversion Hc; subst. apply rchars_app; [assumption|]. clear -Hs H2.
    induction H2 as [|y l Hy _ IH]; [constructor|]. cbn [fsep flat_map]. change (sep :: y) with ([sep] ++ y). apply rchars_app; [now apply rchars_app|exact IH].
Qed.
