(** Proofs about failing readers of wrappers, times and sizes. *)
From Verif Require Import Base Parser SpecJson SpecNum SpecString SpecEnum ParserFacts Grammar1 Grammar2 Out Number StringS Array Object Enum Float Wrap TimeSize CodecLaws NumberProofs StringProofs
  ArrayProofs EnumProofs FloatProofs AcceptProofs SpecReport SpecExact ExactProofs ObjExactProofs WrapExactProofs SpecRefuse RefuseProofs SpecFail FailProofs.

Lemma has_err_some j : is_err j = true -> has_err (Some j) = true.
Proof. intros H. unfold has_err, no_err_yet. now rewrite H. Qed.
Lemma string_des_clean sn old s : bytes s -> (exists b r, string_des sn old s C0 = Ok (b, r, C0)) \/ exists b r j, is_err j = true /\ string_des sn old s C0 = Ok (b, r, Some j).
Proof.
  intros Hb. unfold string_des. destruct (is_null s).
  - destruct (null_good s) as (r & o & E & _ & Ho & _). rewrite E. destruct o as [j|]; [right; exists [], r, j; split; [apply Ho|reflexivity]|left; eauto].
  - change INT_MAX with 2147483647. destruct (unser_split s 2147483647 Hb ltac:(lia)) as [(l & v & r & -> & L)|(v & r & j & F)].
    + left. exists v, r. now rewrite (loose_closed 2147483647 l v false r L ltac:(lia)).
    + right. exists v, r, j. apply str_faults_run; [exact Hb|lia|exact F].
Qed.
Section PQ.
  Context {A : Type} (J : codec A).
  Lemma ptr_fails d0 sn old s v r j : faults (ptr_codec J d0) sn old s v r j <-> exists x, v = Some x /\ s <> [] /\ ~ heads 110 s /\ faults J sn d0 s x r j.
  Proof.
    unfold faults. cbn [des ptr_codec]. unfold ptr_des. fold C0. split.
    - intros [Hj H]. destruct s as [|c t]; [injection H as _ _ <-; discriminate|]. destruct (c =? 110) eqn:Ec; cbn [negb] in H; [injection H as _ _ <-; discriminate|].
      destruct (des J sn d0 (c :: t) C0) as [[[x r1] e1]| |] eqn:E; cbn [bind] in H; try discriminate. injection H as <- -> ->. exists x. split; [reflexivity|]. split; [discriminate|]. split; [|auto].
      intros (z & Ez). injection Ez as -> _. discriminate.
    - intros (x & -> & N & H & Hj & E). split; [exact Hj|]. destruct s as [|c t]; [congruence|]. destruct (c =? 110) eqn:Ec; cbn [negb]; [exfalso; apply H; exists t; f_equal; lia|]. rewrite E. reflexivity.
  Qed.
  Lemma quoted_fails serq reqq sn old s v r j : bytes s -> faults (quoted_codec J serq reqq) sn old s v r j <->
    (reqq = true \/ heads QT s) /\ r = [] /\ (
      (v = old /\ exists b r', string_faults s b r' j) \/
      exists b r' q k, reads string_codec sn [] s b r' /\ faults J (Some 0) old b v q k /\ j = mkerr (code k) None (Z.of_nat (length r') + tail_of k + 1)) \/
    reqq = false /\ ~ heads QT s /\ faults J sn old s v r j.
  Proof.
    intros Hb. assert (K : is_err j = true /\ quoted_des1 J sn old s C0 = Ok (v, r, Some j) <-> r = [] /\ (
      (v = old /\ exists b r', string_faults s b r' j) \/
      exists b r' q k, reads string_codec sn [] s b r' /\ faults J (Some 0) old b v q k /\ j = mkerr (code k) None (Z.of_nat (length r') + tail_of k + 1))).
    { unfold quoted_des1. split.
      - intros [Hj H]. destruct (string_des_clean sn [] s Hb) as [(b & r1 & E)|(b & r1 & j1 & Hj1 & E)]; rewrite E in H; cbn [bind] in H.
        + change (has_err C0) with false in H. cbv iota in H. fold C0 in H. destruct (des J (Some 0) old b C0) as [[[x r2] e2]| |] eqn:E2; cbn [bind] in H; try discriminate.
          destruct e2 as [k|]; [|injection H as _ _ <-; discriminate]. unfold C0 in H. destruct (is_err k) eqn:Ek; [|injection H as _ _ <-; discriminate]. injection H as -> <- <-. split; [reflexivity|]. right. exists b, r1, r2, k. repeat split; auto.
        + rewrite (has_err_some _ Hj1) in H. injection H as <- <- ->. split; [reflexivity|]. left. split; [reflexivity|]. exists b, r1. apply (string_fails sn []); [exact Hb|]. now split.
      - intros [-> [[-> (b & r' & F)]|(b & r' & q & k & R & [Hk F] & ->)]].
        + apply (string_fails sn []) in F; [|exact Hb]. destruct F as [Hj F]. split; [exact Hj|]. cbn [des string_codec] in F. fold C0 in F. rewrite F. cbn [bind]. now rewrite (has_err_some _ Hj).
        + split; [exact Hk|]. unfold reads in R. cbn [des string_codec] in R. fold C0 in R. rewrite R. cbn [bind]. change (has_err C0) with false. cbv iota. fold C0 in F |- *. rewrite F. cbn [bind]. unfold C0. rewrite Hk. reflexivity. }
    unfold faults at 1. cbn [des quoted_codec]. unfold quoted_des. fold C0. destruct reqq.
    - rewrite K. split; [intros H; left; auto|]. intros [[_ H]|(H & _)]; [exact H|discriminate].
    - destruct (is_string s) eqn:Es.
      + destruct (is_string_qt s Es) as (z & ->). rewrite K. split; [intros H; left; split; [right; now exists z|exact H]|]. intros [[_ H]|(_ & N & _)]; [exact H|]. exfalso. apply N. now exists z.
      + assert (N : ~ heads QT s) by (intros (z & ->); cbn in Es; discriminate). split; [intros H; right; auto|]. intros [[[H|H] _]|(_ & _ & H)]; [discriminate|contradiction|exact H].
  Qed.
  Lemma member_value_fails {T} (get : T -> A) set sn old s v r j : faults (member_value_codec get set J) sn old s v r j <-> exists x, faults J sn (get old) s x r j /\ v = set old x.
  Proof.
    unfold faults. cbn [des member_value_codec]. split.
    - intros [Hj H]. destruct (des J sn (get old) s (Some no_error)) as [[[x r1] e1]| |] eqn:E; cbn [bind] in H; try discriminate. injection H as <- <- ->. now exists x.
    - intros (x & [Hj ->] & ->). now split.
  Qed.
End PQ.
Lemma value_ends sn s j : bytes s -> (is_err j = true /\ parse_value sn s C0 = Ok ([], Some j)) <-> fails sn s (Some j).
Proof. intros Hb. exact (parse_fails sn s (Some j) Hb). Qed.
Lemma value_cases sn s : bytes s -> (exists v r, s = v ++ r /\ waccept v r /\ parse_value sn s C0 = Ok (r, C0)) \/
  (exists j, is_err j = true /\ fails sn s (Some j) /\ parse_value sn s C0 = Ok ([], Some j)) \/ (forall r e, parse_value sn s C0 <> Ok (r, e)).
Proof.
  intros Hb. destruct (parse_total sn s Hb) as [(r & v & -> & H)|([j|] & H)].
  - left. exists v, r. split; [reflexivity|]. split; [exact H|]. apply value_exact; [exact Hb|]. eauto.
  - right; left. exists j. pose proof H as H'. apply value_ends in H'; [|exact Hb]. tauto.
  - right; right. intros r e E. pose proof (proj2 (parse_fails sn s None Hb) H) as E'. change (parse_value sn s C0 = UB) in E'. rewrite E' in E. discriminate.
Qed.
Lemma range_nil (s : buf) : range s [] = s. Proof. rewrite <- (app_nil_r s) at 1. apply range_app_l. Qed.
Lemma raw_fails sn old s v r j : bytes s -> faults raw_codec sn old s v r j <-> fails sn s (Some j) /\ v = s /\ r = [].
Proof.
  intros Hb. unfold faults. cbn [des raw_codec]. unfold raw_des. fold C0. split.
  - intros [Hj H]. destruct (value_cases sn s Hb) as [(v0 & r0 & _ & _ & E)|[(j' & Hj' & F & E)|E]].
    + rewrite E in H. cbn [bind] in H. injection H as _ _ <-. discriminate.
    + rewrite E in H. cbn [bind] in H. injection H as <- <- <-. rewrite range_nil. auto.
    + destruct (parse_value sn s C0) as [[? ?]| |]; try discriminate. exfalso. now eapply E.
  - intros (F & -> & ->). apply value_ends in F; [|exact Hb]. destruct F as [Hj F]. split; [exact Hj|]. rewrite F. cbn [bind]. now rewrite range_nil.
Qed.
Lemma accept_nonempty v r : waccept v r -> v ++ r <> [].
Proof. intros [Hv _] E. apply app_eq_nil in E. destruct E as [-> _]. destruct (wvalue_head _ Hv) as (? & ? & ? & _). discriminate. Qed.
Lemma rquoted_fails serq reqq sn old s v r j : bytes s -> faults (rquoted_codec serq reqq) sn old s v r j <-> rquoted_faults reqq sn old s v j /\ r = [].
Proof.
  intros Hb. unfold faults. cbn [des rquoted_codec]. unfold rquoted_des. fold C0. split.
  - intros [Hj H]. destruct s as [|c t]; [injection H as <- <- <-; split; [apply rq_none|reflexivity]|]. destruct reqq; cbn [andb] in H.
    + destruct (c =? QT) eqn:Ec; cbn [negb] in H; [|injection H as <- <- <-; split; [apply rq_quote; [reflexivity|lia]|reflexivity]]. apply Z.eqb_eq in Ec. subst c. cbv zeta in H. assert (bytes t) as Ht by (now inversion Hb).
      destruct (value_cases sn t Ht) as [(v0 & r0 & Es & W & E)|[(j' & Hj' & F & E)|E]].
      * rewrite E in H. cbn [bind] in H. change (has_err C0) with false in H. cbv iota in H. subst t. rewrite range_app_l in H. destruct r0 as [|d r0].
        { injection H as <- <- <-. rewrite app_nil_r. split; [now apply rq_end|reflexivity]. }
        destruct (d =? QT) eqn:Ed; [injection H as _ _ <-; discriminate|]. injection H as <- <- <-. split; [apply rq_close; [reflexivity|exact W|lia]|reflexivity].
      * rewrite E in H. cbn [bind] in H. rewrite (has_err_some _ Hj') in H. injection H as <- <- <-. split; [now apply rq_value|reflexivity].
      * destruct (parse_value sn t C0) as [[? ?]| |]; try discriminate. exfalso. now eapply E.
    + cbv zeta in H. destruct (value_cases sn (c :: t) Hb) as [(v0 & r0 & Es & W & E)|[(j' & Hj' & F & E)|E]].
      * rewrite E in H. cbn [bind] in H. change (has_err C0) with false in H. cbv iota in H. injection H as _ _ <-. discriminate.
      * rewrite E in H. cbn [bind] in H. rewrite (has_err_some _ Hj') in H. injection H as <- <- <-. split; [apply rq_plain; [reflexivity|discriminate|exact F]|reflexivity].
      * destruct (parse_value sn (c :: t) C0) as [[? ?]| |]; try discriminate. exfalso. now eapply E.
  - intros [H ->]. destruct H as [|c s -> Hc|s j -> F|v -> W|v c r -> W Hc|s j -> N F]; cbn [andb].
    + split; reflexivity.
    + split; [reflexivity|]. destruct (c =? QT) eqn:E; [lia|]. reflexivity.
    + change (negb (QT =? QT)) with false. cbv iota zeta. inversion Hb; subst. apply value_ends in F; [|assumption]. destruct F as [Hj F]. split; [exact Hj|]. rewrite F. cbn [bind]. now rewrite (has_err_some _ Hj).
    + split; [reflexivity|]. change (negb (QT =? QT)) with false. cbv iota zeta. inversion Hb; subst. rewrite (proj2 (value_exact sn v [] ltac:(assumption))) by (exists v; now rewrite app_nil_r). cbn [bind]. change (has_err C0) with false. cbv iota. now rewrite range_nil.
    + split; [reflexivity|]. change (negb (QT =? QT)) with false. cbv iota zeta. inversion Hb; subst. rewrite (proj2 (value_exact sn (v ++ c :: r) (c :: r) ltac:(assumption))) by now exists v. cbn [bind]. change (has_err C0) with false. cbv iota. rewrite range_app_l.
      destruct (c =? QT) eqn:E; [lia|]. reflexivity.
    + apply value_ends in F; [|exact Hb]. destruct F as [Hj F]. split; [exact Hj|]. destruct s as [|c t]; [congruence|]. cbv zeta. rewrite F. cbn [bind]. now rewrite (has_err_some _ Hj).
Qed.

(** ---- times and sizes ---- *)
Lemma int_clean t sn old s v r e : int_des t sn old s C0 = Ok (v, r, e) -> e = C0 \/ exists j, e = Some j /\ is_err j = true.
Proof.
  intros E. pose proof (int_dlaw t sn old s C0) as G. cbn [des int_codec] in G. rewrite E in G. destruct G as [_ G]. destruct G as [G|(k & j & H1 & H2 & H3 & H4)]; [now left|right]. exists j. now split.
Qed.
Section TimeFails.
  Context (t : ity) (fr : Z) (Ht : ity_ok t).
  Lemma int_first sn s cur s1 : reads (int_codec t) sn 0 s cur s1 -> exists c s0, s = c :: s0 /\ (c =? QT) = false /\ (length s1 <= length s)%nat.
  Proof.
    intros H. destruct s as [|c s0]; [now apply int_nil in H|]. exists c, s0. split; [reflexivity|]. split; [apply Z.eqb_neq; intros ->; now apply int_qt in H|].
    apply suffix_len. exact (dl_suffix _ _ _ _ _ _ _ _ _ (int_dlaw t) H).
  Qed.
  Lemma tstep_run sn v s v' s' f : tstep t fr sn v s v' s' -> (length s' < length s)%nat /\ time_loop t fr (S f) sn v s C0 = time_loop t fr f sn v' s' C0.
  Proof.
    intros H. destruct H as [v s cur u k s2 v' H Hu Hp|v s cur s2 v' H N1 N2 Hp|v s cur s2 v' H Hp|v s cur c s2 v' H Hp|v s cur u s2 H N1 N2].
    all: destruct (int_first _ _ _ _ H) as (c0 & s0 & -> & Ec & L1); unfold reads in H; fold C0 in H; cbn [des int_codec] in H; cbn [length] in *; (split; [lia|]); cbn [time_loop]; rewrite Ec, H; cbn [bind]; change (has_err C0) with false; cbv iota.
    - apply add_exact in Hp; [|exact Ht]. destruct Hu; cbn [Z.eqb Pos.eqb]; rewrite Hp; reflexivity.
    - apply add_exact in Hp; [|exact Ht]. change (109 =? 100) with false. change (109 =? 104) with false. change (109 =? 109) with true. cbv iota.
      destruct s2 as [|w' s3]; [now rewrite Hp|]. destruct (w' =? 115) eqn:E4; [exfalso; apply N1; exists s3; f_equal; lia|]. destruct (w' =? 107) eqn:E5; [exfalso; apply N2; exists s3; f_equal; lia|]. now rewrite Hp.
    - apply addq_exact in Hp; [|exact Ht]. change (109 =? 100) with false. change (109 =? 104) with false. change (109 =? 109) with true. change (115 =? 115) with true. cbv iota. now rewrite Hp.
    - apply addq_exact in Hp; [|exact Ht]. change (109 =? 100) with false. change (109 =? 104) with false. change (109 =? 109) with true. change (107 =? 115) with false. change (107 =? 107) with true. cbv iota. now rewrite Hp.
    - rewrite (proj2 (Z.eqb_neq u 109) N1). destruct (u =? 100) eqn:E1; [exfalso; apply (N2 86400); replace u with 100 by lia; constructor|]. destruct (u =? 104) eqn:E2; [exfalso; apply (N2 3600); replace u with 104 by lia; constructor|].
      destruct (u =? 115) eqn:E3; [exfalso; apply (N2 1); replace u with 115 by lia; constructor|]. reflexivity.
  Qed.
  Lemma tstep_cases sn v s cur u s2 f : reads (int_codec t) sn 0 s cur (u :: s2) -> (exists v' s', tstep t fr sn v s v' s') \/ forall x, time_loop t fr (S f) sn v s C0 <> Ok x.
  Proof.
    intros H. pose proof H as H'. destruct (int_first _ _ _ _ H) as (c0 & s0 & -> & Ec & L1). unfold reads in H'. fold C0 in H'. cbn [des int_codec] in H'.
    assert (X : forall g, (forall x, g <> Ok x) -> time_loop t fr (S f) sn v (c0 :: s0) C0 = g -> (exists v' s', tstep t fr sn v (c0 :: s0) v' s') \/ forall x, time_loop t fr (S f) sn v (c0 :: s0) C0 <> Ok x).
    { intros g Hg ->. now right. }
    assert (Y : time_loop t fr (S f) sn v (c0 :: s0) C0 =
      (if u =? 100 then let* v' := time_add t fr v cur 86400 in time_loop t fr f sn v' s2 C0
            else if u =? 104 then let* v' := time_add t fr v cur 3600 in time_loop t fr f sn v' s2 C0
            else if u =? 109 then
              match s2 with
              | [] => let* v' := time_add t fr v cur 60 in time_loop t fr f sn v' [] C0
              | w :: s3 =>
                if w =? 115 then let* v' := time_addq t fr v cur 1000 in time_loop t fr f sn v' s3 C0
                else if w =? 107 then
                  let* v' := time_addq t fr v cur 1000000 in
                  let* s4 := step s3 in
                  time_loop t fr f sn v' s4 C0
                else let* v' := time_add t fr v cur 60 in time_loop t fr f sn v' s2 C0
              end
            else if u =? 115 then let* v' := time_add t fr v cur 1 in time_loop t fr f sn v' s2 C0
            else time_loop t fr f sn v s2 C0)).
    { cbn [time_loop]. rewrite Ec, H'. cbn [bind]. reflexivity. }
    assert (U : forall k, tunit u k -> time_loop t fr (S f) sn v (c0 :: s0) C0 = (let* v' := time_add t fr v cur k in time_loop t fr f sn v' s2 C0) ->
      (exists v' s', tstep t fr sn v (c0 :: s0) v' s') \/ forall x, time_loop t fr (S f) sn v (c0 :: s0) C0 <> Ok x).
    { intros k Hk E. destruct (time_add t fr v cur k) as [v'| |] eqn:Ea; [left|right; rewrite E; discriminate..]. exists v', s2. apply ts_unit with cur u k; auto. now apply add_exact. }
    assert (M : u = 109 -> ~ heads 115 s2 -> ~ heads 107 s2 -> time_loop t fr (S f) sn v (c0 :: s0) C0 = (let* v' := time_add t fr v cur 60 in time_loop t fr f sn v' s2 C0) ->
      (exists v' s', tstep t fr sn v (c0 :: s0) v' s') \/ forall x, time_loop t fr (S f) sn v (c0 :: s0) C0 <> Ok x).
    { intros -> N1 N2 E. destruct (time_add t fr v cur 60) as [v'| |] eqn:Ea; [left|right; rewrite E; discriminate..]. exists v', s2. apply ts_min with cur; auto. now apply add_exact. }
    destruct (u =? 100) eqn:E1; [apply (U 86400); [replace u with 100 by lia; apply tu_d|exact Y]|]. destruct (u =? 104) eqn:E2; [apply (U 3600); [replace u with 104 by lia; apply tu_h|exact Y]|].
    destruct (u =? 109) eqn:E3.
    { apply Z.eqb_eq in E3. destruct s2 as [|w s3]; [apply M; [exact E3|intros (? & ?); discriminate|intros (? & ?); discriminate|exact Y]|]. destruct (w =? 115) eqn:E4.
      - apply Z.eqb_eq in E4. subst u w. destruct (time_addq t fr v cur 1000) as [v'| |] eqn:Ea; [left|right; rewrite Y; discriminate..]. exists v', s3. apply ts_ms with cur; auto. now apply addq_exact.
      - destruct (w =? 107) eqn:E5.
        + apply Z.eqb_eq in E5. subst u w. destruct (time_addq t fr v cur 1000000) as [v'| |] eqn:Ea; [|right; rewrite Y; discriminate..]. destruct s3 as [|c3 s4]; [right; rewrite Y; discriminate|left]. exists v', s4. apply ts_mks with cur c3; auto. now apply addq_exact.
        + apply M; [exact E3|intros (? & Q); injection Q as Q _; lia|intros (? & Q); injection Q as Q _; lia|exact Y]. }
    destruct (u =? 115) eqn:E6; [apply (U 1); [replace u with 115 by lia; apply tu_s|exact Y]|]. left. exists v, s2. apply ts_other with cur u; auto; [lia|]. intros k Hk. inversion Hk; subst; lia.
  Qed.
  (** how the loop ends when something is wrong *)
  Definition loop_fails (x : res (Z * buf * eptr + Z * buf * eptr)) (w : Z) (j : json_error) : Prop :=
    x = Ok (inl (w, [], C0)) /\ j = unexpected_end \/ x = Ok (inr (w, [], Some j)) /\ is_err j = true.
  Lemma parts_fail_run sn v s w j : parts_fail t fr sn v s w j -> forall f, (length s < f)%nat -> loop_fails (time_loop t fr f sn v s C0) w j.
  Proof.
    induction 1 as [v|v s x j Hs Hq F|v s v' s' w j H _ IH]; intros f Hf; (destruct f as [|f]; [lia|]).
    - left. split; reflexivity.
    - right. destruct s as [|c s0]; [congruence|]. pose proof (proj2 (int_fails t sn 0 (c :: s0) x [] j) (conj F eq_refl)) as [Hj E]. split; [|exact Hj]. cbn [time_loop]. destruct (c =? QT) eqn:Ec; [exfalso; apply Hq; exists s0; f_equal; lia|].
      cbn [des int_codec] in E. fold C0 in E. rewrite E. cbn [bind]. now rewrite has_err_some.
    - destruct (tstep_run _ _ _ _ _ f H) as [L ->]. apply IH. lia.
  Qed.
  Lemma loop_sound sn f : forall v s x, time_loop t fr f sn v s C0 = Ok x ->
    match x with
    | inl (w, r, e) => e = C0 /\ (heads QT r \/ r = [] /\ parts_fail t fr sn v s w unexpected_end)
    | inr (w, r, e) => e = C0 \/ exists j, e = Some j /\ is_err j = true /\ r = [] /\ parts_fail t fr sn v s w j
    end.
  Proof.
    induction f as [|f IH]; intros v s x H; [discriminate|]. destruct s as [|c s0].
    { cbn [time_loop] in H. injection H as <-. split; [reflexivity|]. right. split; [reflexivity|apply pf_end]. }
    destruct (c =? QT) eqn:Ec. { cbn [time_loop] in H. rewrite Ec in H. injection H as <-. split; [reflexivity|]. left. exists s0. f_equal. lia. }
    assert (Hq : ~ heads QT (c :: s0)) by (intros (z & Q); injection Q as Q _; lia).
    destruct (int_des t sn 0 (c :: s0) C0) as [[[cur s1] e1]| |] eqn:E.
    2,3: cbn [time_loop] in H; rewrite Ec, E in H; cbn [bind] in H; discriminate.
    destruct (int_clean _ _ _ _ _ _ _ E) as [-> |(j & -> & Hj)].
    - destruct s1 as [|u s2]. { cbn [time_loop] in H. rewrite Ec, E in H. cbn [bind] in H. injection H as <-. now left. }
      destruct (tstep_cases sn v (c :: s0) cur u s2 f E) as [(v' & s' & S)|N]; [|now apply N in H].
      destruct (tstep_run _ _ _ _ _ f S) as [_ Q]. rewrite Q in H. apply IH in H. destruct x as [[[w r] e]|[[w r] e]].
      + destruct H as [-> [H|[-> H]]]; (split; [reflexivity|]); [now left|right]. split; [reflexivity|]. now apply pf_step with v' s'.
      + destruct H as [-> |(j & -> & Hj & -> & H)]; [now left|right]. exists j. repeat (split; [auto|]). now apply pf_step with v' s'.
    - assert (F : faults (int_codec t) sn 0 (c :: s0) cur s1 j) by (split; [exact Hj|exact E]). apply int_fails in F. destruct F as [F ->].
      cbn [time_loop] in H. rewrite Ec, E in H. cbn [bind] in H. rewrite (has_err_some _ Hj) in H. injection H as <-. right. exists j. repeat (split; [auto|]). apply pf_number with cur; [discriminate|exact Hq|exact F].
  Qed.
  Lemma start_cases s : s <> [] -> heads QT s /\ is_null s = false /\ is_number s = false /\ is_string s = true \/ ~ heads QT s /\ is_null s = true /\ ~ no_start s \/
    ~ heads QT s /\ is_null s = false /\ is_number s = true /\ ~ no_start s \/ ~ heads QT s /\ is_null s = false /\ is_number s = false /\ is_string s = false /\ no_start s.
  Proof.
    intros N. destruct (is_null s) eqn:E1.
    { right; left. apply is_null_heads in E1. split; [destruct E1 as (? & ->); intros (? & ?); discriminate|]. split; [reflexivity|]. unfold no_start. tauto. }
    destruct (is_number s) eqn:E2.
    { right; right; left. split; [intros (? & ->); discriminate|]. split; [reflexivity|]. split; [reflexivity|]. apply is_number_iff in E2. unfold no_start. tauto. }
    destruct (is_string s) eqn:E3. { left. apply is_string_qt in E3. auto. }
    right; right; right. assert (~ heads QT s) by (intros (? & ->); discriminate). split; [assumption|]. do 3 (split; [reflexivity|]). assert (~ (heads MINUS s \/ digit_first s)) by (rewrite <- is_number_iff; congruence). apply not_null_heads in E1. unfold no_start. tauto.
  Qed.
  Lemma time_fails sn old s v r j : faults (time_codec t fr) sn old s v r j <-> time_faults t fr sn old s v j /\ r = [].
  Proof.
    unfold faults. cbn [des time_codec]. unfold time_des. fold C0. destruct s as [|c s0].
    { split; [intros [Hj H]; injection H as <- <- <-; split; [apply tf_none|reflexivity]|]. intros [H ->]. inversion H as [|s N|s v0 j0 N|]; subst; [split; reflexivity|destruct N; congruence|congruence]. }
    remember (c :: s0) as s eqn:Es. assert (Ns : s <> []) by congruence.
    assert (I : forall v r j, is_null s = true -> is_err j = true /\ (let '(r, e') := parse_null s C0 in Ok (0, r, e')) = Ok (v, r, Some j) <-> faults (int_codec t) sn 0 s v r j).
    { intros v1 r1 j1 E. unfold faults. cbn [des int_codec]. unfold int_des. now rewrite E. }
    destruct (start_cases s Ns) as [(Q & -> & -> & ->)|[(Q & E & S)|[(Q & E & E2 & S)|(Q & -> & -> & -> & S)]]]; cbn [negb].
    - destruct Q as (x & Q). rewrite Es in Q. injection Q as -> ->. subst s. split.
      + intros [Hj H]. destruct (time_loop t fr (S (length x)) sn 0 x C0) as [y| |] eqn:E; cbn [bind] in H; try discriminate. apply loop_sound in E. destruct y as [[[w r1] e1]|[[w r1] e1]].
        * destruct E as [-> [(z & ->)|[-> E]]].
          -- change (negb (QT =? QT)) with false in H. cbv iota in H. injection H as _ _ <-. discriminate.
          -- injection H as <- <- <-. split; [now apply tf_parts|reflexivity].
        * injection H as <- <- ->. destruct E as [E|(j' & E & _ & -> & F)]; [injection E as ->; discriminate|]. injection E as <-. split; [now apply tf_parts|reflexivity].
      + intros [H ->]. inversion H as [|s S|s v0 j0 N S|s v0 j0 F]; subst; [destruct S as (_ & _ & _ & _ & S); exfalso; apply S; now exists x|exfalso; match goal with K : ~ heads QT _ |- _ => apply K; now exists x end|].
        destruct (parts_fail_run _ _ _ _ _ F (S (length x)) ltac:(lia)) as [[-> ->]|[-> Hj]]; cbn [bind]; split; auto.
    - rewrite E, (I _ _ _ E), int_fails. split; [intros [F ->]; split; [now apply tf_number|reflexivity]|]. intros [H ->]. inversion H; subst; try contradiction; try congruence; [auto|]. exfalso. apply Q. eexists. symmetry. eassumption.
    - rewrite E, E2. assert (K : is_err j = true /\ int_des t sn 0 s C0 = Ok (v, r, Some j) <-> faults (int_codec t) sn 0 s v r j) by reflexivity. rewrite K, int_fails.
      split; [intros [F ->]; split; [now apply tf_number|reflexivity]|]. intros [H ->]. inversion H; subst; try contradiction; try congruence; [auto|]. exfalso. apply Q. eexists. symmetry. eassumption.
    - split; [intros [Hj H]; injection H as <- <- <-; split; [now apply tf_other|reflexivity]|]. intros [H ->]. inversion H; subst; try contradiction; try congruence; [split; reflexivity|]. exfalso. apply Q. eexists. symmetry. eassumption.
  Qed.
End TimeFails.
Lemma chars_cases N sn old s : bytes s -> ~ heads 110 s -> (exists l w r, s = QT :: l ++ QT :: r /\ literal (Z.of_nat N) l w /\ chars_des N sn old s C0 = Ok (w ++ repeat 0 (N - length w), r, C0)) \/
  exists v w r j, is_err j = true /\ str_faults (Z.of_nat N) s w r j /\ chars_des N sn old s C0 = Ok (v, r, Some j).
Proof.
  intros Hb Hn. destruct (unser_split s (Z.of_nat N) Hb ltac:(lia)) as [(l & w & r & -> & L)|(w & r & j & F)].
  - left. assert (E : str_unser (QT :: l ++ QT :: r) (Z.of_nat N) C0 = Ok (w, r, C0)) by exact (loose_closed _ _ _ _ r L ltac:(lia)). pose proof E as E'. apply unser_exact in E'; [|exact Hb|lia].
    destruct E' as (l' & El & Hl). assert (l' = l) as -> by (injection El as El; now apply app_inv_tail in El). exists l, w, r. split; [reflexivity|]. split; [exact Hl|].
    assert (R : reads (chars_codec N) sn old (QT :: l ++ QT :: r) (w ++ repeat 0 (N - length w)) r) by (apply chars_exact; [exact Hb|]; right; exists l, w; auto). exact R.
  - right. exists (w ++ repeat 0 (N - length w)), w, r, j. assert (C : chars_faults N s (w ++ repeat 0 (N - length w)) r j) by (exists w; split; [reflexivity|right; auto]).
    apply (chars_fails N sn old) in C; [|exact Hb]. destruct C as [Hj C]. split; [exact Hj|]. split; [exact F|exact C].
Qed.
Lemma size_fails t metric sn old s v r j : ity_ok t -> bytes s -> faults (size_codec t metric) sn old s v r j <-> size_faults sn old s v r j.
Proof.
  intros Ht Hb. unfold faults. cbn [des size_codec]. unfold size_des. fold C0. destruct s as [|c s0].
  { split; [intros [Hj H]; injection H as <- <- <-; apply zf_none|]. intros H. inversion H as [|s N|s v0 j0 N|s w r0 j0 Q| |]; subst; [split; reflexivity|destruct N; congruence|congruence|destruct Q; discriminate]. }
  remember (c :: s0) as s eqn:Es. assert (Ns : s <> []) by congruence.
  assert (I : forall v r j, is_null s = true -> is_err j = true /\ (let '(r, e') := parse_null s C0 in Ok (0, r, e')) = Ok (v, r, Some j) <-> faults (int_codec t) sn 0 s v r j).
  { intros v1 r1 j1 E. unfold faults. cbn [des int_codec]. unfold int_des. now rewrite E. }
  assert (NQ : ~ heads QT s -> size_faults sn old s v r j -> (no_start s /\ v = 0 /\ r = [] /\ j = bad_digit) \/ (~ no_start s /\ int_faults 0 s v j /\ r = [])).
  { intros Q H. inversion H; subst; try congruence; auto; exfalso; apply Q; try assumption; eexists; symmetry; eassumption. }
  destruct (start_cases s Ns) as [(Q & E1 & -> & ->)|[(Q & E & S)|[(Q & E & E2 & S)|(Q & -> & -> & -> & S)]]]; cbn [negb].
  - apply not_null_heads in E1. rewrite (proj2 (not_null_heads s) E1). clear c s0 Es I NQ. split.
    + intros [Hj H]. destruct (chars_cases 32 sn [] s Hb E1) as [(l & w & r1 & -> & L & E)|(v1 & w & r1 & j1 & Hj1 & F & E)]; rewrite E in H; cbn [bind] in H.
      * change (has_err C0) with false in H. cbv iota in H. destruct (strlen (w ++ repeat 0 (32 - length w))) as [txt| |] eqn:El; cbn [bind] in H; try discriminate. apply strlen_exact in El. destruct El as (rest & El & N).
        destruct (int_des i64 (Some 0) 0 txt C0) as [[[val q] e2]| |] eqn:Ei; cbn [bind] in H; try discriminate. destruct (int_clean _ _ _ _ _ _ _ Ei) as [-> |(k & -> & Hk)].
        -- change (has_err C0) with false in H. cbv iota in H. destruct q as [|ch1 q1]; [injection H as _ _ <-; discriminate|]. cbv zeta in H. destruct (size_mult ch1 _) as [mult|] eqn:Em.
           ++ destruct (iarith i64 (val * mult)) as [a| |]; cbn [bind] in H; try discriminate. injection H as _ _ <-. discriminate.
           ++ injection H as <- <- <-. apply zf_unit with w txt rest val (ch1 :: q1); auto; [discriminate|]. intros m Hm. apply mult_exact in Hm. destruct Hm as (c' & q' & Q' & Hm). injection Q' as <- <-. congruence.
        -- rewrite (has_err_some _ Hk) in H. injection H as <- <- ->. assert (F : faults (int_codec i64) sn 0 txt val q j) by (split; [exact Hk|exact Ei]). apply int_fails in F. destruct F as [F _].
           now apply zf_inner with w txt rest val.
      * rewrite (has_err_some _ Hj1) in H. injection H as <- <- ->. now apply zf_literal with w.
    + intros H. inversion H as [|s' N|s' v0 j0 N N2 N3 F|s' w r0 j0 _ F|l w txt rest r0 x j0 L Ew N F|l w txt rest r0 z q L Ew N R Nq U]; subst; [congruence|destruct N as (_ & _ & _ & _ & N); contradiction|contradiction| | |].
      * assert (C : chars_faults 32 s (w ++ repeat 0 (32 - length w)) r j) by (exists w; split; [reflexivity|right; auto]). apply (chars_fails 32 sn []) in C; [|exact Hb]. destruct C as [Hj C]. split; [exact Hj|].
        cbn [des chars_codec] in C. fold C0 in C. rewrite C. cbn [bind]. now rewrite (has_err_some _ Hj).
      * assert (R : reads (chars_codec 32) sn [] (QT :: l ++ QT :: r) (w ++ repeat 0 (32 - length w)) r) by (apply chars_exact; [exact Hb|]; right; exists l, w; auto). unfold reads in R. cbn [des chars_codec] in R. fold C0 in R. rewrite R. cbn [bind].
        change (has_err C0) with false. cbv iota. rewrite (proj2 (strlen_exact _ txt)) by (exists rest; auto). cbn [bind]. pose proof (proj2 (int_fails i64 (Some 0) 0 txt x [] j) (conj F eq_refl)) as [Hj Ei]. split; [exact Hj|].
        cbn [des int_codec] in Ei. fold C0 in Ei. rewrite Ei. cbn [bind]. now rewrite (has_err_some _ Hj).
      * assert (R' : reads (chars_codec 32) sn [] (QT :: l ++ QT :: r0) (w ++ repeat 0 (32 - length w)) r0) by (apply chars_exact; [exact Hb|]; right; exists l, w; auto). unfold reads in R'. cbn [des chars_codec] in R'. fold C0 in R'. rewrite R'. cbn [bind].
        change (has_err C0) with false. cbv iota. rewrite (proj2 (strlen_exact _ txt)) by (exists rest; auto). cbn [bind]. split; [reflexivity|]. assert (Ei : int_des i64 (Some 0) 0 txt C0 = Ok (z, q, C0)) by exact R. rewrite Ei. cbn [bind].
        change (has_err C0) with false. cbv iota. destruct q as [|c1 q1]; [congruence|]. cbv zeta. destruct (size_mult c1 _) as [m|] eqn:Em; [|reflexivity]. exfalso. apply (U m). apply mult_exact. now exists c1, q1.
  - rewrite E, (I _ _ _ E), int_fails. split; [intros [F ->]; now apply zf_number|]. intros H. destruct (NQ Q H) as [(? & _)|(_ & F & ->)]; [contradiction|auto].
  - rewrite E, E2. assert (K : is_err j = true /\ int_des t sn 0 s C0 = Ok (v, r, Some j) <-> faults (int_codec t) sn 0 s v r j) by reflexivity. rewrite K, int_fails.
    split; [intros [F ->]; now apply zf_number|]. intros H. destruct (NQ Q H) as [(? & _)|(_ & F & ->)]; [contradiction|auto].
  - split; [intros [Hj H]; injection H as <- <- <-; now apply zf_other|]. intros H. destruct (NQ Q H) as [(_ & -> & -> & ->)|(? & _)]; [split; reflexivity|contradiction].
Qed.
(** one of the three: the value is read, a failure is reported, or the behaviour is undefined *)
Lemma des_trichotomy {A} (c : codec A) sn old s : dlaw (des c) -> (exists v r, reads c sn old s v r) \/ (exists v r j, faults c sn old s v r j) \/ des c sn old s C0 = UB.
Proof.
  intros HD. pose proof (HD sn old s C0) as G. unfold dgood in G. unfold reads, faults. fold C0. destruct (des c sn old s C0) as [[[v r] e]| |]; [|auto|contradiction].
  destruct G as [_ [-> |(k & j & _ & _ & -> & Hj & _)]]; [left; eauto|right; left; exists v, r, j; auto].
Qed.
