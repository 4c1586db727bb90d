From Verif Require Import Base Parser SpecJson ParserFacts Grammar1 Grammar2 Out CodecLaws SpecSeq Array ArrayProofs
  Object ObjectArray SpecObject ObjectProofs.

(** ---- laws ---- *)
Section Laws.
  Context {T : Type}.
  Lemma amem_des_good (m : mem T) sn t s e : dlaw (des (m_codec m)) -> dgood s e (amem_des m sn t s e).
  Proof. intros H. unfold amem_des. apply dgood_bind; [apply H|]. intros v r e' A B _. now split. Qed.
  Lemma amemb_des_good (b : memb T) sn t s e : memb_all (fun _ c => dlaw (des c)) b -> dgood s e (amemb_des b sn t s e).
  Proof.
    destruct b as [m|m i|ru l r d]; cbn [memb_all amemb_des]; intros H; [now apply amem_des_good| |].
    { apply dgood_bind; [apply H|]. intros v r e' A B _. now split. }
    assert (Hf : dlaw (des (m_codec (if ru then r else l)))) by (destruct ru; tauto).
    assert (Hs : dlaw (des (m_codec (if ru then l else r)))) by (destruct ru; tauto).
    set (f := if ru then r else l) in *. set (g := if ru then l else r) in *.
    pose proof (amem_des_good f sn t s (Some no_error) Hf) as G. destruct (amem_des f sn t s (Some no_error)) as [[[t1 itr] ee]| |]; cbn [bind]; [|exact I|exact G].
    destruct G as (A & _). destruct (no_err_yet ee).
    - pose proof (mem_reset_nofuel g t1 Hs). destruct (mem_reset g t1); cbn [bind]; [split; [exact A|apply estep_refl]|exact I|contradiction].
    - pose proof (mem_reset_nofuel f t1 Hf). destruct (mem_reset f t1); cbn [bind]; [now apply amem_des_good|exact I|contradiction].
  Qed.
  Lemma amemb_des_safe (b : memb T) sn t s e : memb_all (fun _ c => dsafe (des c)) b -> good_sn sn -> amemb_des b sn t s e <> UB.
  Proof.
    assert (M : forall m sn t s e, dsafe (des (m_codec m)) -> good_sn sn -> amem_des (T:=T) m sn t s e <> UB).
    { intros m sn0 t0 s0 e0 H Hsn K. unfold amem_des in K. apply bind_ub in K. destruct K as [K|([[x s2] e2] & _ & K)]; [|discriminate]. now apply (H _ _ _ _ Hsn K). }
    destruct b as [m|m i|ru l r d]; cbn [memb_all amemb_des]; intros H Hsn; [now apply M| |].
    - intros K. apply bind_ub in K. destruct K as [K|([[x s2] e2] & _ & K)]; [|discriminate]. now apply (H _ _ _ _ Hsn K).
    - assert (Hf : dsafe (des (m_codec (if ru then r else l)))) by (destruct ru; tauto).
      assert (Hs : dsafe (des (m_codec (if ru then l else r)))) by (destruct ru; tauto).
      intros K. apply bind_ub in K. destruct K as [K|([[t1 itr] ee] & _ & K)]; [now apply M in K|].
      destruct (no_err_yet ee); apply bind_ub in K; destruct K as [K|(t2 & _ & K)];
        try (now apply mem_reset_safe in K); [discriminate|now apply M in K].
  Qed.
  Lemma close_good (t : T) s e s0 e0 : suffix s s0 -> estep s0 e0 e ->
    dgood s0 e0 (match s with [] => Ok (t, [], cerr UnexpectedEndFragment None 0 e)
      | f :: _ => if negb (f =? RBR) then Ok (t, [], cerr ExpectedOf (Some [RBR]) (dist s) e) else Ok (t, s, e) end).
  Proof.
    intros Hs He. destruct s as [|f s]; [apply dg_err; [discriminate|pose proof (dist_pos s0); lia|exact He]|].
    destruct (negb (f =? RBR)); [|now split]. apply dg_err; [discriminate| |exact He]. apply suffix_dist in Hs. pose proof (dist_pos (f :: s)). lia.
  Qed.
  Lemma amembers_good sn (L : list (memb T)) : Forall (memb_all (fun _ c => dlaw (des c))) L -> forall t s e, dgood s e (amembers_des sn L t s e).
  Proof.
    induction 1 as [|b L Hb _ IH]; intros t s e; cbn [amembers_des]; [split; [apply suffix_refl|apply estep_refl]|].
    apply dgood_bind; [now apply amemb_des_good|]. intros t1 s1 e1 A1 B1 _. sp A2 B2. destruct b0 as [|d t2].
    { apply dg_err; [discriminate|pose proof (dist_pos s); lia|exact B2]. }
    destruct (d =? COMMA).
    - assert (A2' := suffix_tl _ _ _ A2). sp A3 B3. apply dgood_bind; [eapply dgood_weaken; [exact A3|exact B3|apply IH]|].
      intros t3 s3 e3 A4 B4 _. now apply close_good.
    - cbn [bind]. now apply (close_good t1 (d :: t2)).
  Qed.
  Theorem oarray_dlaw (L : list (memb T)) t0 : Forall (memb_all (fun _ c => dlaw (des c))) L -> dlaw (des (oarray_codec L t0)).
  Proof.
    intros H sn old s e. cbn [des oarray_codec]. unfold oarray_des. destruct (is_null s).
    { apply (dgood_pair s e parse_null (fun _ => t0)). apply null_good. }
    destruct s as [|c t]; [apply dgood_err; [discriminate|cbn; lia]|].
    destruct (negb (c =? LBR)); [apply dgood_err; [discriminate|pose proof (dist_pos (c :: t)); lia]|].
    assert (A : suffix t (c :: t)) by auto with suf. pose proof (estep_refl (c :: t) e) as B. sp A1 B1. destruct b as [|d t1].
    { apply dg_err; [discriminate|pose proof (dist_pos (c :: t)); lia|exact B1]. }
    destruct (negb (d =? RBR)); [|split; [now apply suffix_tl in A1|exact B1]].
    apply dgood_bind; [eapply dgood_weaken; [exact A1|exact B1|now apply amembers_good]|]. intros v s2 e2 A2 B2 _.
    destruct s2 as [|x s2]; [apply dg_err; [discriminate|pose proof (dist_pos (c :: t)); lia|exact B2]|].
    sp A3 B3. destruct b as [|f t3]; [apply dg_err; [discriminate|pose proof (dist_pos (c :: t)); lia|exact B3]|].
    destruct (negb (f =? RBR)); [|split; [now apply suffix_tl in A3|exact B3]].
    apply dg_err; [discriminate| |exact B3]. apply suffix_dist in A3. unfold dist in *. cbn [length] in *. lia.
  Qed.
  Lemma amembers_safe sn (L : list (memb T)) : Forall (memb_all (fun _ c => dsafe (des c))) L -> good_sn sn -> forall t s e, amembers_des sn L t s e <> UB.
  Proof.
    intros H Hsn. induction H as [|b L Hb _ IH]; intros t s e; cbn [amembers_des]; [discriminate|].
    intros K. apply bind_ub in K. destruct K as [K|([[t1 s1] e1] & _ & K)]; [now apply amemb_des_safe in K|].
    destruct (parse_space s1 e1) as [s2 e2]. destruct s2 as [|d t2]; [discriminate|]. apply bind_ub in K. destruct K as [K|([[t3 s3] e3] & _ & K)].
    - destruct (d =? COMMA); [|discriminate]. destruct (parse_space t2 e2) as [s4 e4]. now apply IH in K.
    - destruct s3 as [|f s3]; [discriminate|]. destruct (negb (f =? RBR)); discriminate.
  Qed.
  Theorem oarray_dsafe (L : list (memb T)) t0 : Forall (memb_all (fun _ c => dsafe (des c))) L -> dsafe (des (oarray_codec L t0)).
  Proof.
    intros H sn old s e Hsn. cbn [des oarray_codec]. unfold oarray_des. destruct (is_null s); [destruct (parse_null s e); discriminate|].
    destruct s as [|c t]; [discriminate|]. destruct (negb (c =? LBR)); [discriminate|]. destruct (parse_space t e) as [s1 e1].
    destruct s1 as [|d t1]; [discriminate|]. destruct (negb (d =? RBR)); [|discriminate].
    intros K. apply bind_ub in K. destruct K as [K|([[v s2] e2] & _ & K)]; [now apply amembers_safe in K|].
    destruct s2 as [|x s2]; [discriminate|]. destruct (parse_space (x :: s2) e2) as [s3 e3]. destruct s3 as [|f t3]; [discriminate|].
    destruct (negb (f =? RBR)); discriminate.
  Qed.
End Laws.

(** ---- reading ---- *)
Section Reads.
  Context {T : Type}.
  Definition areads (b : memb T) (vt : buf) (t t' : T) : Prop := (exists h x, vt = h :: x /\ vstart h) /\
    forall sn r e, follow r -> no_err_yet e = true -> amemb_des b sn t (vt ++ r) e = Ok (t', r, e).
  Inductive aread : list (memb T) -> T -> list buf -> T -> Prop :=
  | ar_nil L t : aread L t [] t
  | ar_cons b L vt ts t t1 t' : areads b vt t t1 -> aread L t1 ts t' -> aread (b :: L) t (vt :: ts) t'.
  Lemma rbstop : closer RBR. Proof. unfold closer; lia. Qed.
  Lemma areads_head b vt t t' r : areads b vt t t' -> stop (vt ++ r).
  Proof. intros ((h & x & -> & H) & _). cbn [app]. now apply vstart_stop. Qed.
  Lemma amembers_run sn e : no_err_yet e = true -> forall ts b, ebody false ts b -> forall L t t', aread L t ts t' ->
    exists g h y, b = g ++ h :: y /\ gap g /\ vstart h /\ forall r, amembers_des sn L t (h :: y ++ RBR :: r) e = Ok (t', RBR :: r, e).
  Proof.
    intros He ts b H. induction H as [g1 x g2 H1 H2|g1 x g2 g3 Hf|g1 x g2 ts b H1 H2 Hb IH]; intros L t t' Ha; [|discriminate|];
      inversion Ha as [|m R vt ts' ? t1 ? Hr Hrest]; subst.
    - inversion Hrest; subst. pose proof Hr as ((h & y & E & Hh) & Hd). exists g1, h, (y ++ g2). subst x. split; [reflexivity|]. split; [exact H1|]. split; [exact Hh|].
      intros r. cbn [amembers_des]. replace (h :: (y ++ g2) ++ RBR :: r) with ((h :: y) ++ g2 ++ RBR :: r) by (cbn [app]; now rewrite <- app_assoc).
      rewrite Hd by (apply gap_follow || exact He; auto using rbstop). cbn [bind]. rewrite gap_parse_space; [|exact H2|apply closer_stop, rbstop].
      change (RBR =? COMMA) with false. cbn [bind]. change (RBR =? RBR) with true. reflexivity.
    - pose proof Hr as ((h & y & E & Hh) & Hd). exists g1, h, (y ++ g2 ++ COMMA :: b). subst x. split; [reflexivity|]. split; [exact H1|]. split; [exact Hh|].
      intros r. cbn [amembers_des]. replace (h :: (y ++ g2 ++ COMMA :: b) ++ RBR :: r) with ((h :: y) ++ g2 ++ COMMA :: b ++ RBR :: r) by (repeat (rewrite <- ?app_assoc; cbn [app]); reflexivity).
      rewrite Hd by (apply gap_follow || exact He; auto using cstop). cbn [bind]. rewrite gap_parse_space; [|exact H2|apply closer_stop, cstop].
      change (COMMA =? COMMA) with true. cbv iota. destruct (IH _ _ _ Hrest) as (g3 & h3 & y3 & -> & Hg3 & Hh3 & E3).
      rewrite <- app_assoc. rewrite gap_parse_space; [|exact Hg3|cbn [app]; now apply vstart_stop]. cbn [app]. rewrite E3. cbn [bind]. change (RBR =? RBR) with true. reflexivity.
  Qed.
  Lemma vstart_not_rbr h : vstart h -> (h =? RBR) = false. Proof. unfold vstart, s_digit. lia. Qed.
  Theorem oarray_run L t0 t ts t' b : aread L t ts t' -> spaced false ts b -> forall sn r e, no_err_yet e = true ->
    des (oarray_codec L t0) sn t ((LBR :: b ++ [RBR]) ++ r) e = Ok (t', r, e).
  Proof.
    intros Ha Hs sn r e He. cbn [des oarray_codec]. unfold oarray_des. change (is_null ((LBR :: b ++ [RBR]) ++ r)) with false. cbn [app].
    change (LBR =? LBR) with true. cbn [negb]. rewrite <- app_assoc. cbn [app]. destruct Hs as [g Hg|ts b Hb].
    - inversion Ha; subst. rewrite gap_parse_space; [|exact Hg|apply closer_stop, rbstop]. reflexivity.
    - destruct (amembers_run sn e He ts b Hb L t t' Ha) as (g & h & y & -> & Hg & Hh & E). rewrite <- app_assoc.
      rewrite gap_parse_space; [|exact Hg|now apply vstart_stop]. cbn [app]. rewrite (vstart_not_rbr _ Hh). cbn [negb]. rewrite E. cbn [bind].
      rewrite space_stop by (apply closer_stop, rbstop). reflexivity.
  Qed.
  (** more elements than members *)
  Lemma amembers_many sn k : is_err k = false -> forall ts1 x ts2 b, ebody false (ts1 ++ x :: ts2) b -> (exists h y, x = h :: y /\ vstart h) ->
    forall L t t', aread L t ts1 t' -> length L = length ts1 ->
    exists g h y, b = g ++ h :: y /\ gap g /\ vstart h /\ forall r, exists s' j, amembers_des sn L t (h :: y ++ RBR :: r) (Some k) = Ok (t', s', Some j) /\
      (is_err j = true \/ L = [] /\ s' = h :: y ++ RBR :: r /\ j = k).
  Proof.
    intros Hk. assert (He : no_err_yet (Some k) = true) by (cbn; now rewrite Hk).
    induction ts1 as [|vt ts1 IH]; intros x ts2 b H (h & y & -> & Hh) L t t' Ha Hl.
    - inversion Ha; subst. destruct L; [|discriminate]. cbn [app] in H. cbn [amembers_des].
      assert (exists g z, b = g ++ h :: z /\ gap g) as (g & z & -> & Hg).
      { inversion H; subst; [do 2 eexists; split; [reflexivity|assumption]|discriminate|]. cbn [app]. do 2 eexists; split; [reflexivity|assumption]. }
      exists g, h, z. repeat split; auto. intros r. do 2 eexists. split; [reflexivity|]. right. auto.
    - inversion Ha as [|m R vt' ts' ? t1 ? Hr Hrest]; subst. cbn [length] in Hl. cbn [app] in H.
      inversion H as [| |g1 x' g2 ts b' H1 H2 Hb]; subst; [destruct ts1; discriminate|destruct ts1; discriminate|].
      pose proof Hr as ((h' & y' & E & Hh') & Hd). exists g1, h', (y' ++ g2 ++ COMMA :: b'). subst vt. split; [reflexivity|]. split; [exact H1|]. split; [exact Hh'|].
      intros r. cbn [amembers_des]. replace (h' :: (y' ++ g2 ++ COMMA :: b') ++ RBR :: r) with ((h' :: y') ++ g2 ++ COMMA :: b' ++ RBR :: r) by (repeat (rewrite <- ?app_assoc; cbn [app]); reflexivity).
      rewrite Hd by (apply gap_follow || exact He; auto using cstop). cbn [bind]. rewrite gap_parse_space; [|exact H2|apply closer_stop, cstop].
      change (COMMA =? COMMA) with true. cbv iota.
      destruct (IH _ _ _ Hb ltac:(eauto) R t1 t' Hrest ltac:(lia)) as (g3 & h3 & y3 & -> & Hg3 & Hh3 & E3).
      rewrite <- app_assoc. rewrite gap_parse_space; [|exact Hg3|cbn [app]; now apply vstart_stop]. cbn [app]. destruct (E3 r) as (s' & j & E & Hj). rewrite E. cbn [bind].
      destruct Hj as [Hj|(_ & -> & ->)].
      + destruct s' as [|f s']; [cbn; rewrite Hj; eauto|]. destruct (negb (f =? RBR)); [cbn; rewrite Hj|]; eauto.
      + rewrite (vstart_not_rbr _ Hh3). cbn [negb]. unfold cerr. rewrite Hk. do 2 eexists. split; [reflexivity|]. now left.
  Qed.
  Theorem oarray_many L t0 t ts1 x ts2 t' b : aread L t ts1 t' -> length L = length ts1 -> (exists h y, x = h :: y /\ vstart h) ->
    spaced false (ts1 ++ x :: ts2) b -> forall sn r k, is_err k = false ->
    exists s' j, des (oarray_codec L t0) sn t ((LBR :: b ++ [RBR]) ++ r) (Some k) = Ok (t', s', Some j) /\ is_err j = true.
  Proof.
    intros Ha Hl Hx Hs sn r k Hk. cbn [des oarray_codec]. unfold oarray_des. change (is_null ((LBR :: b ++ [RBR]) ++ r)) with false. cbn [app].
    change (LBR =? LBR) with true. cbn [negb]. rewrite <- app_assoc. cbn [app]. inversion Hs as [g Hg E|ts b' Hb]; subst; [destruct ts1; discriminate|].
    destruct (amembers_many sn k Hk _ _ _ _ Hb Hx L t t' Ha Hl) as (g & h & y & -> & Hg & Hh & E). rewrite <- app_assoc.
    rewrite gap_parse_space; [|exact Hg|now apply vstart_stop]. cbn [app]. rewrite (vstart_not_rbr _ Hh). cbn [negb]. destruct (E r) as (s' & j & -> & Hj). cbn [bind].
    destruct Hj as [Hj|(_ & -> & ->)].
    - destruct s' as [|f s']; [cbn; rewrite Hj; eauto|]. destruct (space_bad (f :: s') j Hj) as (r3 & ->).
      destruct r3 as [|f3 t3]; [cbn; rewrite Hj; eauto|]. destruct (negb (f3 =? RBR)); [cbn; rewrite Hj|]; eauto.
    - rewrite space_stop by (now apply vstart_stop). rewrite (vstart_not_rbr _ Hh). cbn [negb]. unfold cerr. rewrite Hk. do 2 eexists. split; reflexivity.
  Qed.

  Lemma noif_areads (b : memb T) vt F t : no_if b -> rdf (m_codec (memb_mem b)) vt F -> areads b vt t (m_set (memb_mem b) t (F (memb_old b t))).
  Proof.
    intros Hb (Hh & Hd). split; [exact Hh|]. intros sn r e Hr He. destruct b as [m|m i|]; cbn in *; [| |contradiction].
    - unfold amem_des. rewrite Hd by assumption. reflexivity.
    - rewrite Hd by assumption. reflexivity.
  Qed.
  Lemma noif_areads1 (b : memb T) vt v t : no_if b -> rd (m_codec (memb_mem b)) vt v -> areads b vt t (m_set (memb_mem b) t v).
  Proof. intros H1 H2. exact (noif_areads b vt (fun _ => v) t H1 H2). Qed.
  Lemma elems_aread L1 ts fs : elems L1 ts fs -> Forall no_if L1 -> forall L2 t, aread (L1 ++ L2) t ts (run_all fs t).
  Proof.
    induction 1 as [|b L vt v ts fs Hv He IH]; intros Hn L2 t; [constructor|]. inversion Hn; subst. cbn [app].
    apply ar_cons with (m_set (memb_mem b) t (v (memb_old b t))); [now apply noif_areads|]. now apply (IH H2).
  Qed.
  Lemma elems_len L1 ts fs : elems (T:=T) L1 ts fs -> length L1 = length ts.
  Proof. induction 1; cbn; congruence. Qed.

  (** ---- round trip ---- *)
  Definition amemb_rt (b : memb T) (dom : T -> Prop) : Prop :=
    forall v, dom v -> exists ops, amemb_ser b v = Ok ops /\ forall old, areads b (flat ops) old (copy v old b).
  Lemma noif_amemb_rt (b : memb T) dm : no_if b -> rt (m_codec (memb_mem b)) dm -> amemb_rt b (fun t => dm (m_get (memb_mem b) t)).
  Proof.
    intros Hb Hrt v Hv. destruct (proj1 (rt_rd _ _) Hrt _ Hv) as (o & Eo & Hrd). exists o. split; [destruct b; cbn in *; tauto|]. intros old.
    replace (copy v old b) with (m_set (memb_mem b) old (m_get (memb_mem b) v)) by (destruct b; cbn in *; tauto). now apply noif_areads1.
  Qed.
  Lemma if_areads_first (ru : bool) (l r : mem T) (d : m_ty l -> bool) (vt : buf) (t : T) :
    let f := if ru then r else l in let g := if ru then l else r in
    forall (v : m_ty f) (w : m_ty g), rd (m_codec f) vt v -> null_reads (m_codec g) (fun _ => w) -> areads (MIf ru l r d) vt t (m_set g (m_set f t v) w).
  Proof.
    intros f g v w (Hh & Hd) Hn. split; [exact Hh|]. intros sn rr e Hr He. cbn [amemb_des]. fold f g.
    unfold amem_des. rewrite Hd by auto. cbn [bind no_err_yet no_error is_err negb]. rewrite (reset_ok g _ w Hn). reflexivity.
  Qed.
  Lemma if_areads_second (ru : bool) (l r : mem T) (d : m_ty l -> bool) (vt : buf) (t : T) :
    let f := if ru then r else l in let g := if ru then l else r in
    forall (v : m_ty g) (w : m_ty f), rd (m_codec g) vt v -> rejects (m_codec f) vt -> null_reads (m_codec f) (fun _ => w) -> set_set f ->
      areads (MIf ru l r d) vt t (m_set g (m_set f t w) v).
  Proof.
    intros f g v w (Hh & Hd) Hrej Hn Hs. split; [exact Hh|]. intros sn rr e Hr He. cbn [amemb_des]. fold f g.
    unfold amem_des. destruct (Hrej sn (m_get f t) rr Hr) as (v' & r' & j & -> & Hj). cbn [bind no_err_yet]. rewrite Hj. cbn [negb].
    rewrite (reset_ok f _ w Hn). cbn [bind]. rewrite Hd by auto. cbn [bind]. now rewrite Hs.
  Qed.
  Lemma if_amemb_rt ru (l r : mem T) (isdef : m_ty l -> bool) (doml : m_ty l -> Prop) (domr : m_ty r -> Prop) (dl : m_ty l) (dr : m_ty r) :
    rt (m_codec l) doml -> rt (m_codec r) domr ->
    null_reads (m_codec l) (fun _ => dl) -> null_reads (m_codec r) (fun _ => dr) -> set_set l -> set_set r ->
    (forall t x y, m_set l (m_set r t y) x = m_set r (m_set l t x) y) ->
    (ru = false -> forall v o, domr v -> ser (m_codec r) v = Ok o -> rejects (m_codec l) (flat o)) ->
    (ru = true -> forall v o, doml v -> ser (m_codec l) v = Ok o -> rejects (m_codec r) (flat o)) ->
    amemb_rt (MIf ru l r isdef) (fun t =>
      if isdef (m_get l t) then domr (m_get r t) /\ m_get l t = dl else doml (m_get l t) /\ m_get r t = dr).
  Proof.
    intros Hl Hr Nl Nr Sl Sr Hc Hlr Hrl t Ht. cbn [amemb_ser]. unfold amem_ser.
    destruct (isdef (m_get l t)); cbn [negb]; destruct Ht as (Hd & Hz).
    - destruct (proj1 (rt_rd _ _) Hr _ Hd) as (o & Eo & Hrd). exists o. split; [exact Eo|]. intros old. unfold copy. rewrite Hz.
      destruct ru.
      + pose proof (if_areads_first true l r isdef (flat o) old (m_get r t) dl) as H. cbv iota zeta in H. rewrite <- Hc. now apply H.
      + pose proof (if_areads_second false l r isdef (flat o) old (m_get r t) dl) as H. cbv iota zeta in H. apply H; eauto.
    - destruct (proj1 (rt_rd _ _) Hl _ Hd) as (o & Eo & Hrd). exists o. split; [exact Eo|]. intros old. unfold copy. rewrite Hz.
      destruct ru.
      + pose proof (if_areads_second true l r isdef (flat o) old (m_get l t) dr) as H. cbv iota zeta in H. rewrite <- Hc. apply H; eauto.
      + pose proof (if_areads_first false l r isdef (flat o) old (m_get l t) dr) as H. cbv iota zeta in H. now apply H.
  Qed.
  Lemma amembers_ser_items (L : list (memb T)) t : amembers_ser L t = items_ser (fun b => amemb_ser b t) L.
  Proof. induction L as [|b L IH]; [reflexivity|]. cbn [amembers_ser items_ser]. destruct L; [reflexivity|]. now rewrite IH. Qed.
  Theorem oarray_rt (L : list (memb T)) t0 (dom : T -> Prop) : covers L ->
    (forall v, dom v -> Forall (fun b => exists dm, amemb_rt b dm /\ dm v) L) -> rt (oarray_codec L t0) dom.
  Proof.
    intros Hc Hm v Hv. specialize (Hm v Hv).
    destruct (items_ser_ok (fun b => amemb_ser b v) L (fun b o => forall old, areads b (flat o) old (copy v old b))) as (opss & ops & F & E & Ef & _).
    { eapply Forall_impl; [|exact Hm]. intros b (dm & H & Hd). destruct (H v Hd) as (o & H1 & H2). eauto. }
    exists (W LBR :: ops ++ [W RBR]). split; [cbn [ser oarray_codec]; unfold oarray_ser; rewrite amembers_ser_items, E; reflexivity|].
    cbn [flat flat1 app]. rewrite flat_app, Ef. cbn [flat flat1 app]. split; [exists LBR; eexists; split; [reflexivity|unfold vstart; lia]|].
    intros sn old r e Hr He. change (LBR :: (join (map flat opss) ++ [RBR]) ++ r) with ((LBR :: join (map flat opss) ++ [RBR]) ++ r).
    apply oarray_run with (ts := map flat opss); [|apply join_spaced|exact He]. rewrite <- (Hc v old) at 1. clear -F. revert old.
    induction F as [|b o L opss (_ & H) _ IH]; intros old; [constructor|]. cbn [map fold_left]. apply ar_cons with (copy v old b); [apply H|apply IH].
  Qed.
  Theorem oarray_jout (L : list (memb T)) t0 (dom : T -> Prop) :
    (forall v, dom v -> Forall (fun b => memb_dom (@jout) b v) L) -> jout (oarray_codec L t0) dom.
  Proof.
    intros Hm v Hv. specialize (Hm v Hv).
    destruct (items_ser_ok (fun b => amemb_ser b v) L (fun b o => rvalue (flat o))) as (opss & ops & F & E & Ef & _).
    { eapply Forall_impl; [|exact Hm]. intros b Hb. destruct b as [m|m i|ru l r isdef]; cbn in *; unfold amem_ser.
      - destruct Hb as (d & H1 & H2). now apply H1.
      - destruct Hb as (d & H1 & H2). now apply H1.
      - destruct (isdef (m_get l v)); cbn [negb]; destruct Hb as (d & H1 & H2); now apply H1. }
    exists (W LBR :: ops ++ [W RBR]). split; [cbn [ser oarray_codec]; unfold oarray_ser; rewrite amembers_ser_items, E; reflexivity|].
    cbn [flat flat1 app]. rewrite flat_app, Ef. cbn [flat flat1 app]. apply join_nil_arr.
    clear -F. induction F as [|b o L opss (_ & H) _ IH]; cbn; constructor; auto.
  Qed.
  Theorem oarray_wout (L : list (memb T)) t0 (dom : T -> Prop) :
    (forall v, dom v -> Forall (fun b => memb_dom (@wout) b v) L) -> wout (oarray_codec L t0) dom.
  Proof.
    intros Hm v Hv. specialize (Hm v Hv).
    destruct (items_ser_ok (fun b => amemb_ser b v) L (fun b o => exists b, o = wr b)) as (opss & ops & F & E & _ & Ew).
    { eapply Forall_impl; [|exact Hm]. intros b Hb. destruct b as [m|m i|ru l r isdef]; cbn in *; unfold amem_ser.
      - destruct Hb as (d & H1 & H2). destruct (H1 _ H2); eauto.
      - destruct Hb as (d & H1 & H2). destruct (H1 _ H2); eauto.
      - destruct (isdef (m_get l v)); cbn [negb]; destruct Hb as (d & H1 & H2); destruct (H1 _ H2); eauto. }
    rewrite (Ew (fun _ _ H => H)) in E. exists (LBR :: join (map flat opss) ++ [RBR]). cbn [ser oarray_codec]. unfold oarray_ser.
    rewrite amembers_ser_items, E. cbn [bind]. unfold wr. cbn [map]. now rewrite map_app.
  Qed.
  Theorem oarray_null (L : list (memb T)) t0 : null_reads (oarray_codec L t0) (fun _ => t0).
  Proof. intros sn old r e. reflexivity. Qed.
End Reads.
