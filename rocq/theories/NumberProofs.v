From Verif Require Import Base Parser SpecJson SpecNum ParserFacts Grammar1 Grammar2 Out Number CodecLaws.

(** ---- integer types ---- *)
Lemma imod_cases t : ity_ok t ->
  (isize t = 1 /\ imod t = 256) \/ (isize t = 2 /\ imod t = 65536) \/
  (isize t = 4 /\ imod t = 4294967296) \/ (isize t = 8 /\ imod t = 18446744073709551616).
Proof.
  unfold imod. intros [H|[H|[H|H]]]; rewrite H; [left|right;left|right;right;left|right;right;right]; split; reflexivity.
Qed.

Lemma half_cases t : ity_ok t -> 
  (isize t = 1 /\ imod t = 256 /\ imod t / 2 = 128) \/ (isize t = 2 /\ imod t = 65536 /\ imod t / 2 = 32768) \/
  (isize t = 4 /\ imod t = 4294967296 /\ imod t / 2 = 2147483648) \/
  (isize t = 8 /\ imod t = 18446744073709551616 /\ imod t / 2 = 9223372036854775808).
Proof.
  intros H. destruct (imod_cases t H) as [[-> E]|[[-> E]|[[-> E]|[-> E]]]]; rewrite E; cbn; lia.
Qed.

Lemma icast_eq t z : ity_ok t -> exists k, icast t z = z + k * imod t.
Proof.
  intros H. unfold icast.
  assert (0 < imod t) by (destruct (imod_cases t H); lia).
  pose proof (Z.div_mod z (imod t)). 
  destruct (isigned t && (imod t / 2 <=? z mod imod t)).
  - exists (- (z / imod t) - 1). lia.
  - exists (- (z / imod t)). lia.
Qed.
Lemma icast_range t z : ity_ok t -> irange t (icast t z).
Proof.
  intros H. unfold irange, icast, imin, imax.
  assert (0 < imod t) by (destruct (imod_cases t H); lia).
  pose proof (Z.mod_pos_bound z (imod t)). pose proof (half_cases t H).
  destruct (isigned t); cbn [andb].
  - destruct (Z.leb_spec (imod t / 2) (z mod imod t)); lia.
  - lia.
Qed.
Lemma irange_unique t a b k : ity_ok t -> irange t a -> irange t b -> a = b + k * imod t -> a = b.
Proof.
  intros H Ha Hb E. unfold irange, imin, imax in *. pose proof (half_cases t H).
  assert (- imod t < k * imod t < imod t) by (destruct (isigned t); lia).
  assert (k = 0) by nia. lia.
Qed.
Lemma icast_id t z : ity_ok t -> irange t z -> icast t z = z.
Proof.
  intros H Hz. destruct (icast_eq t z H) as (k & E).
  eapply irange_unique; [exact H|now apply icast_range|exact Hz|exact E].
Qed.
Lemma icast_mod t a b k : ity_ok t -> a = b + k * imod t -> icast t a = icast t b.
Proof.
  intros H E. destruct (icast_eq t a H) as (k1 & E1). destruct (icast_eq t b H) as (k2 & E2).
  apply irange_unique with (t := t) (k := k + k1 - k2); auto using icast_range. lia.
Qed.

(** ---- decimal strings ---- *)
Definition dacc (a : Z) (l : buf) : Z := fold_left (fun a c => a * 10 + (c - 48)) l a.
Lemma dval_dacc l : dval l = dacc 0 l. Proof. reflexivity. Qed.
Lemma dacc_app a l m : dacc a (l ++ m) = dacc (dacc a l) m.
Proof. apply fold_left_app. Qed.
Lemma dacc_ge l : digits l -> forall a, 0 <= a -> a <= dacc a l.
Proof.
  induction 1 as [|c l Hc Hl IH]; intros a Ha; [cbn; lia|].
  cbn. unfold s_digit in Hc. specialize (IH (a * 10 + (c - 48))). unfold dacc in IH. lia.
Qed.
Lemma dacc_nonneg l a : digits l -> 0 <= a -> 0 <= dacc a l.
Proof. intros H Ha. pose proof (dacc_ge l H a Ha). lia. Qed.
Lemma dacc_mono l : digits l -> forall a b, a <= b -> dacc a l <= dacc b l.
Proof.
  induction 1 as [|c l Hc Hl IH]; intros a b Hab; [cbn; lia|].
  cbn. apply IH. lia.
Qed.
Lemma dacc_mod l : forall a b k M, a = b + k * M -> exists k', dacc a l = dacc b l + k' * M.
Proof.
  induction l as [|c l IH]; intros a b k M E; [exists k; exact E|].
  cbn. apply (IH _ _ (k * 10)). lia.
Qed.
Lemma rint_digits i : rint i -> digits i.
Proof. destruct 1; repeat constructor; try (unfold s_digit; lia). assumption. Qed.
Lemma rint_nonneg i : rint i -> 0 <= dval i.
Proof. intros H. apply dacc_nonneg; [now apply rint_digits|lia]. Qed.
Lemma rint_pos d ds : 49 <= d <= 57 -> digits ds -> 0 < dval (d :: ds).
Proof. intros Hd H. change (0 < dacc (0 * 10 + (d - 48)) ds). pose proof (dacc_ge ds H (0 * 10 + (d - 48))). lia. Qed.

(** ---- serializer ---- *)
Lemma dval_last l c : dval (l ++ [c]) = dval l * 10 + (c - 48).
Proof. unfold dval. now rewrite fold_left_app. Qed.
Lemma digit_loop_spec k : forall cap neg u, 0 <= u < 10 ^ Z.of_nat k -> (k <= cap)%nat ->
  exists l c, digit_loop cap neg (if neg then - u else u) = Ok (l, c) /\ (cap - k <= c)%nat /\
    digits l /\ dval (rev l) = u /\ (u = 0 -> l = []) /\
    (0 < u -> exists d ds, rev l = d :: ds /\ 49 <= d <= 57).
Proof.
  induction k as [|k IH]; intros cap neg u Hu Hk.
  - assert (u = 0) as -> by (cbn in Hu; lia).
    exists [], cap. replace (if neg then - 0 else 0) with 0 by now destruct neg.
    split; [now destruct cap|]. repeat split; try lia. constructor.
  - destruct (Z.eq_dec u 0) as [->|Hnz].
    + exists [], cap. replace (if neg then - 0 else 0) with 0 by now destruct neg.
      split; [now destruct cap|]. repeat split; try lia. constructor.
    + destruct cap as [|cap]; [lia|]. cbn [digit_loop].
      destruct ((if neg then - u else u) =? 0) eqn:E; [destruct neg; lia|].
      assert (Hq : Z.quot (if neg then - u else u) 10 = if neg then - (u / 10) else u / 10).
      { destruct neg; [rewrite Z.quot_opp_l by lia|]; rewrite Z.quot_div_nonneg by lia; reflexivity. }
      assert (Hr : (if neg then 48 - Z.rem (if neg then - u else u) 10 else 48 + Z.rem (if neg then - u else u) 10) = 48 + u mod 10).
      { destruct neg; [rewrite Z.rem_opp_l by lia|]; rewrite Z.rem_mod_nonneg by lia; lia. }
      rewrite Hq, Hr.
      assert (H10 : 0 <= u / 10 < 10 ^ Z.of_nat k).
      { split; [apply Z.div_pos; lia|]. apply Z.div_lt_upper_bound; [lia|].
        replace (Z.of_nat (S k)) with (Z.succ (Z.of_nat k)) in Hu by lia. rewrite Z.pow_succ_r in Hu by lia. lia. }
      destruct (IH cap neg (u / 10) H10 ltac:(lia)) as (l & c & El & Hc & Hd & Hv & H0 & Hp).
      exists (48 + u mod 10 :: l), c. rewrite El. cbn [bind].
      pose proof (Z.mod_pos_bound u 10 ltac:(lia)) as Hm. pose proof (Z.div_mod u 10 ltac:(lia)) as Hdm.
      split; [reflexivity|]. split; [lia|]. split; [constructor; [unfold s_digit; lia|exact Hd]|].
      cbn [rev]. split.
      { rewrite dval_last, Hv. lia. }
      split; [lia|]. intros _. destruct (Z.eq_dec (u / 10) 0) as [Ez|Enz].
      * rewrite (H0 Ez). cbn. exists (48 + u mod 10), []. split; [reflexivity|]. lia.
      * destruct (Hp ltac:(lia)) as (d & ds & -> & Hd'). exists d, (ds ++ [48 + u mod 10]). auto.
Qed.

Definition maxdig (t : ity) : nat :=
  if isize t =? 1 then 3 else if isize t =? 2 then 5 else if isize t =? 4 then 10 else 20.
Lemma maxdig_ok t v : ity_ok t -> irange t v -> Z.abs v < 10 ^ Z.of_nat (maxdig t) /\
  (maxdig t + (if isigned t then 1 else 0) <= Z.to_nat (integer_buffer_size t))%nat.
Proof.
  intros H Hv. unfold irange, imin, imax in Hv. pose proof (half_cases t H) as K.
  unfold maxdig, integer_buffer_size. destruct K as [(E & K)|[(E & K)|[(E & K)|(E & K)]]]; rewrite E; cbn [Z.eqb Pos.eqb].
  all: destruct (isigned t); split;
    lazymatch goal with
    | |- _ < 10 ^ ?n => let x := eval vm_compute in (10 ^ n) in change (10 ^ n) with x; lia
    | |- (_ <= Z.to_nat ?n)%nat => let x := eval vm_compute in (Z.to_nat n) in change (Z.to_nat n) with x; lia
    end.
Qed.

Lemma numeral_of_rev l : digits l -> (exists d ds, rev l = d :: ds /\ 49 <= d <= 57) -> rint (rev l).
Proof.
  intros Hl (d & ds & E & Hd). rewrite E. constructor; [exact Hd|].
  assert (digits (rev l)) as K by now apply Forall_rev. rewrite E in K. now inversion K.
Qed.

Theorem int_ser_numeral t v : ity_ok t -> irange t v ->
  exists s, int_ser t v = Ok (wr s) /\ numeral v s.
Proof.
  intros Ht Hv. unfold int_ser. destruct (maxdig_ok t v Ht Hv) as (Hb & Hc).
  set (cap := Z.to_nat (integer_buffer_size t)) in *.
  destruct (v =? 0) eqn:E0.
  { exists [48]. assert (v = 0) as -> by lia. split; [|change 0 with (dval [48]); constructor; constructor].
    assert (0 < maxdig t)%nat by (unfold maxdig; destruct (isize t =? 1), (isize t =? 2), (isize t =? 4); lia).
    destruct cap; [lia|reflexivity]. }
  destruct (isigned t && (v <? 0)) eqn:En.
  - assert (isigned t = true /\ v < 0) as (Es & Hn) by lia. rewrite Es in Hc.
    destruct (digit_loop_spec (maxdig t) cap true (- v) ltac:(lia) ltac:(lia)) as (l & c & El & Hcc & Hd & Hv' & _ & Hp).
    rewrite Z.opp_involutive in El. rewrite El. cbn [bind].
    destruct c; [lia|]. exists (rev (l ++ [MINUS])). split; [reflexivity|].
    rewrite rev_app_distr. cbn [rev app]. replace v with (- dval (rev l)) by lia.
    apply num_neg; [|lia]. apply numeral_of_rev; [exact Hd|]. apply Hp. lia.
  - assert (0 < v).
    { destruct (isigned t) eqn:Es; [lia|]. unfold irange, imin in Hv. rewrite Es in Hv. lia. }
    destruct (digit_loop_spec (maxdig t) cap false v ltac:(lia) ltac:(destruct (isigned t); lia)) as (l & c & El & Hcc & Hd & Hv' & _ & Hp).
    rewrite El. cbn [bind]. exists (rev l). split; [reflexivity|].
    rewrite <- Hv'. constructor. apply numeral_of_rev; [exact Hd|]. apply Hp. lia.
Qed.

(** canonical numerals are unique *)

Lemma digits_unique : forall a b, digits a -> digits b -> length a = length b -> dval a = dval b -> a = b.
Proof.
  intros a. induction a as [|c a IH] using rev_ind; intros b Ha Hb L E.
  - destruct b; [reflexivity|discriminate].
  - destruct b as [|d b _] using rev_ind; [rewrite app_length in L; cbn in L; lia|].
    apply Forall_app in Ha. apply Forall_app in Hb. destruct Ha as (Ha & Hc), Hb as (Hb & Hd).
    inversion Hc as [|? ? Hc' _]; subst. inversion Hd as [|? ? Hd' _]; subst. unfold s_digit in *.
    rewrite !dval_last in E. rewrite !app_length in L. cbn in L.
    assert (dval a = dval b /\ c = d) as (E1 & ->) by lia.
    f_equal. apply IH; auto. lia.
Qed.
Lemma dacc_pow l : digits l -> forall a, a * 10 ^ dist l <= dacc a l < (a + 1) * 10 ^ dist l.
Proof.
  induction 1 as [|c l Hc Hl IH]; intros a.
  - cbn. lia.
  - change (dacc a (c :: l)) with (dacc (a * 10 + (c - 48)) l). rewrite dist_cons.
    replace (1 + dist l) with (Z.succ (dist l)) by lia. rewrite Z.pow_succ_r by apply dist_nonneg.
    specialize (IH (a * 10 + (c - 48))). unfold s_digit in Hc.
    assert (0 < 10 ^ dist l) by (apply Z.pow_pos_nonneg; [lia|apply dist_nonneg]). nia.
Qed.
Lemma rint_len i j : rint i -> rint j -> dval i = dval j -> length i = length j.
Proof.
  assert (K : forall d ds d' ds', 49 <= d <= 57 -> digits ds -> 49 <= d' <= 57 -> digits ds' ->
     dval (d :: ds) = dval (d' :: ds') -> (length ds <= length ds')%nat).
  { intros d ds d' ds' Hd Hds Hd' Hds' E.
    destruct (Nat.le_gt_cases (length ds) (length ds')) as [L|L]; [exact L|exfalso].
    pose proof (dacc_pow ds Hds (0 * 10 + (d - 48))) as P1. pose proof (dacc_pow ds' Hds' (0 * 10 + (d' - 48))) as P2.
    change (dacc (0 * 10 + (d - 48)) ds) with (dval (d :: ds)) in P1.
    change (dacc (0 * 10 + (d' - 48)) ds') with (dval (d' :: ds')) in P2.
    assert (10 ^ dist ds' * 10 <= 10 ^ dist ds).
    { rewrite Z.mul_comm, <- Z.pow_succ_r by apply dist_nonneg. apply Z.pow_le_mono_r; [lia|]. unfold dist. lia. }
    assert (0 < 10 ^ dist ds') by (apply Z.pow_pos_nonneg; [lia|apply dist_nonneg]). nia. }
  intros Hi Hj E. destruct Hi as [|d ds Hd Hds]; destruct Hj as [|d' ds' Hd' Hds'].
  - reflexivity.
  - exfalso. pose proof (rint_pos d' ds' Hd' Hds'). change (dval [48]) with 0 in E. lia.
  - exfalso. pose proof (rint_pos d ds Hd Hds). change (dval [48]) with 0 in E. lia.
  - cbn. f_equal. apply Nat.le_antisymm; [apply (K d ds d' ds')|apply (K d' ds' d ds)]; auto.
Qed.
Theorem numeral_unique z s s' : numeral z s -> numeral z s' -> s = s'.
Proof.
  assert (U : forall i j, rint i -> rint j -> dval i = dval j -> i = j).
  { intros i j Hi Hj E. apply digits_unique; auto using rint_digits, rint_len. }
  intros H H'. destruct H as [i Hi|i Hi Hp]; remember (dval i) as n eqn:En.
  - destruct H' as [j Hj|j Hj Hq]; [apply U; auto|]. pose proof (rint_nonneg i Hi). lia.
  - remember (- n) as m eqn:Em. destruct H' as [j Hj|j Hj Hq].
    + pose proof (rint_nonneg j Hj). lia.
    + f_equal. apply U; auto. lia.
Qed.

(** ---- deserializer ---- *)
Definition wraps (t : ity) : Prop := isize t < 4 \/ isigned t = false.

Lemma int_loop_wrap t ds r : ity_ok t -> wraps t -> digits ds -> nodigit r ->
  forall v, irange t v -> int_loop t v (ds ++ r) = Ok (icast t (dacc v ds), r).
Proof.
  intros Ht Hw Hds Hr. induction Hds as [|c ds Hc Hds IH]; intros v Hv.
  - cbn [app dacc fold_left]. rewrite icast_id by assumption. destruct r as [|c r]; [reflexivity|].
    cbn [int_loop]. cbn in Hr. destruct (is_digit c) eqn:E; [apply is_digit_iff in E; tauto|reflexivity].
  - cbn [app int_loop]. pose proof Hc as Hc'. apply is_digit_iff in Hc. rewrite Hc. cbn [negb].
    unfold s_digit in Hc'.
    assert (Hd : icast t (c - 48) = c - 48).
    { apply icast_id; [exact Ht|]. unfold irange, imin, imax. pose proof (half_cases t Ht). destruct (isigned t); lia. }
    rewrite Hd.
    assert (exists b, (let* a := iarith (ipromote t) (v * 10) in
       let* b := iarith (ipromote t) (a + (c - 48)) in int_loop t (icast t b) (ds ++ r)) = int_loop t (icast t b) (ds ++ r)
       /\ icast t b = icast t (v * 10 + (c - 48))) as (b & -> & Eb).
    { unfold ipromote. destruct (isize t <? 4) eqn:Es.
      - unfold irange, imin, imax in Hv. pose proof (half_cases t Ht) as K.
        assert (-32768 <= v <= 65535) by (destruct (isigned t); lia).
        unfold iarith. cbn [isigned]. unfold irangeb.
        change (imin {| isize := 4; isigned := true |}) with (-2147483648).
        change (imax {| isize := 4; isigned := true |}) with 2147483647.
        destruct ((-2147483648 <=? v * 10) && (v * 10 <=? 2147483647)) eqn:E1; [|lia]. cbn [bind].
        destruct ((-2147483648 <=? v * 10 + (c - 48)) && (v * 10 + (c - 48) <=? 2147483647)) eqn:E2; [|lia]. cbn [bind].
        eexists. split; [reflexivity|reflexivity].
      - assert (isigned t = false) as Esg by (destruct Hw; [lia|assumption]).
        unfold iarith. rewrite Esg. cbn [bind]. eexists. split; [reflexivity|].
        pose proof (Z.div_mod (v * 10) (imod t)) as D1.
        pose proof (Z.div_mod ((v * 10) mod imod t + (c - 48)) (imod t)) as D2.
        assert (0 < imod t) by (destruct (imod_cases t Ht); lia).
        apply icast_mod with (k := - ((v * 10) / imod t) - ((v * 10) mod imod t + (c - 48)) / imod t); [exact Ht|]. lia. }
    rewrite Eb, IH by now apply icast_range.
    f_equal. f_equal. destruct (icast_eq t (v * 10 + (c - 48)) Ht) as (k & Ek).
    destruct (dacc_mod ds _ _ _ _ Ek) as (k' & Ek'). cbn. eapply icast_mod; [exact Ht|exact Ek'].
Qed.

Lemma int_loop_exact t ds r : ity_ok t -> ~ wraps t -> digits ds -> nodigit r ->
  forall v, 0 <= v -> dacc v ds <= imax t -> int_loop t v (ds ++ r) = Ok (dacc v ds, r).
Proof.
  intros Ht Hw Hds Hr. assert (isigned t = true /\ 4 <= isize t) as (Es & E4).
  { unfold wraps in Hw. destruct (isigned t); [lia|]. exfalso. auto. }
  assert (Ep : ipromote t = t) by (unfold ipromote; destruct (isize t <? 4) eqn:E; [lia|reflexivity]).
  induction Hds as [|c ds Hc Hds IH]; intros v Hv Hm.
  - cbn [app dacc fold_left]. destruct r as [|c r]; [reflexivity|].
    cbn [int_loop]. cbn in Hr. destruct (is_digit c) eqn:E; [apply is_digit_iff in E; tauto|reflexivity].
  - cbn [app int_loop]. pose proof Hc as Hc'. apply is_digit_iff in Hc. rewrite Hc. cbn [negb].
    unfold s_digit in Hc'. change (dacc v (c :: ds)) with (dacc (v * 10 + (c - 48)) ds) in *.
    pose proof (dacc_ge ds Hds (v * 10 + (c - 48)) ltac:(lia)) as Hge.
    assert (Hmin : imin t <= 0) by (unfold imin; rewrite Es; pose proof (half_cases t Ht); lia).
    rewrite icast_id; [|exact Ht|unfold irange; pose proof (half_cases t Ht); unfold imax in *; rewrite Es in *; lia].
    rewrite Ep. unfold iarith, irangeb. rewrite Es.
    destruct ((imin t <=? v * 10) && (v * 10 <=? imax t)) eqn:E1; [|lia]. cbn [bind].
    destruct ((imin t <=? v * 10 + (c - 48)) && (v * 10 + (c - 48) <=? imax t)) eqn:E2; [|lia]. cbn [bind].
    rewrite icast_id; [|exact Ht|unfold irange; lia]. apply IH; [lia|exact Hm].
Qed.

Lemma int_loop_overflow t ds r : ity_ok t -> ~ wraps t -> digits ds -> nodigit r ->
  forall v, 0 <= v <= imax t -> imax t < dacc v ds -> int_loop t v (ds ++ r) = UB.
Proof.
  intros Ht Hw Hds Hr. assert (isigned t = true /\ 4 <= isize t) as (Es & E4).
  { unfold wraps in Hw. destruct (isigned t); [lia|]. exfalso. auto. }
  assert (Ep : ipromote t = t) by (unfold ipromote; destruct (isize t <? 4) eqn:E; [lia|reflexivity]).
  induction Hds as [|c ds Hc Hds IH]; intros v Hv Hm.
  - cbn in Hm. lia.
  - cbn [app int_loop]. pose proof Hc as Hc'. apply is_digit_iff in Hc. rewrite Hc. cbn [negb].
    unfold s_digit in Hc'. change (dacc v (c :: ds)) with (dacc (v * 10 + (c - 48)) ds) in *.
    assert (Hmin : imin t <= 0) by (unfold imin; rewrite Es; pose proof (half_cases t Ht); lia).
    rewrite icast_id; [|exact Ht|unfold irange; pose proof (half_cases t Ht); unfold imax in *; rewrite Es in *; lia].
    rewrite Ep. unfold iarith, irangeb. rewrite Es.
    destruct ((imin t <=? v * 10) && (v * 10 <=? imax t)) eqn:E1; [|reflexivity]. cbn [bind].
    destruct ((imin t <=? v * 10 + (c - 48)) && (v * 10 + (c - 48) <=? imax t)) eqn:E2; [|reflexivity]. cbn [bind].
    rewrite icast_id; [|exact Ht|unfold irange; lia]. apply IH; [lia|exact Hm].
Qed.

(** head of a JSON integer *)
Lemma is_null_digit d t : s_digit d \/ d = MINUS -> is_null (d :: t) = false.
Proof. unfold is_null, starts, s_digit. lia. Qed.

(** the shape of the call on [m ++ i ++ r] *)
Lemma int_des_nz t sn old d ds r e : 49 <= d <= 57 -> digits ds ->
  int_des t sn old ((d :: ds) ++ r) e = (let* (v, s2) := int_loop t 0 ((d :: ds) ++ r) in Ok (v, s2, e)) /\
  int_des t sn old (MINUS :: (d :: ds) ++ r) e =
   (let* (v, s2) := int_loop t 0 ((d :: ds) ++ r) in
    let* w := iarith (ipromote t) (- v) in Ok (icast t w, s2, e)).
Proof.
  intros Hd Hds. unfold int_des, unserialize_integer. cbn [app].
  rewrite !is_null_digit by (unfold s_digit; lia).
  assert ((d =? MINUS) = false /\ (d =? 48) = false /\ is_digit d = true) as (E1 & E2 & E3) by (unfold is_digit; lia).
  change (MINUS =? MINUS) with true. cbv iota. rewrite !E1, !E2, !E3. cbn [negb]. split; reflexivity.
Qed.

Theorem int_des_wrap t sn old z s r e : ity_ok t -> wraps t -> jint z s -> (s = [48] \/ s = [MINUS; 48] \/ nodigit r) ->
  int_des t sn old (s ++ r) e = Ok (icast t z, r, e).
Proof.
  intros Ht Hw Hj Hr.
  assert (R0 : irange t 0) by (unfold irange, imin, imax; pose proof (half_cases t Ht); destruct (isigned t); lia).
  destruct Hj as [i Hi|i Hi]; destruct Hi as [|d ds Hd Hds].
  - change (dval [48]) with 0. rewrite icast_id by assumption. reflexivity.
  - assert (nodigit r) as Hr' by (destruct Hr as [Hr|[Hr|Hr]]; [first [discriminate Hr|exfalso; injection Hr; intros; lia]|first [discriminate Hr|exfalso; injection Hr; intros; lia]|exact Hr]).
    rewrite (proj1 (int_des_nz t sn old d ds r e Hd Hds)).
    rewrite int_loop_wrap; auto. constructor; [unfold s_digit; lia|exact Hds].
  - change (- dval [48]) with 0. rewrite icast_id by assumption. reflexivity.
  - assert (nodigit r) as Hr' by (destruct Hr as [Hr|[Hr|Hr]]; [first [discriminate Hr|exfalso; injection Hr; intros; lia]|first [discriminate Hr|exfalso; injection Hr; intros; lia]|exact Hr]).
    change ((MINUS :: d :: ds) ++ r) with (MINUS :: (d :: ds) ++ r). rewrite (proj2 (int_des_nz t sn old d ds r e Hd Hds)).
    rewrite int_loop_wrap; auto; [|constructor; [unfold s_digit; lia|exact Hds]]. cbn [bind].
    pose proof (icast_range t (dacc 0 (d :: ds)) Ht) as Hrange.
    destruct (icast_eq t (dacc 0 (d :: ds)) Ht) as (k & Ek). set (x := icast t (dacc 0 (d :: ds))) in *.
    assert (exists k', iarith (ipromote t) (- x) = Ok (- x + k' * imod t)) as (k' & Ek').
    { unfold ipromote. destruct (isize t <? 4) eqn:E4.
      - exists 0. unfold iarith, irangeb. cbn [isigned].
        change (imin {| isize := 4; isigned := true |}) with (-2147483648).
        change (imax {| isize := 4; isigned := true |}) with 2147483647.
        unfold irange, imin, imax in Hrange. pose proof (half_cases t Ht).
        assert (-32768 <= x <= 65535) by (destruct (isigned t); lia).
        destruct ((-2147483648 <=? - x) && (- x <=? 2147483647)) eqn:E; [f_equal; lia|lia].
      - assert (isigned t = false) as Esg by (destruct Hw; [lia|assumption]).
        exists (- ((- x) / imod t)). unfold iarith. rewrite Esg. f_equal.
        assert (0 < imod t) by (destruct (imod_cases t Ht); lia).
        pose proof (Z.div_mod (- x) (imod t)). lia. }
    rewrite Ek'. cbn [bind]. f_equal. f_equal. f_equal.
    apply icast_mod with (k := k' - k); [exact Ht|]. rewrite dval_dacc. lia.
Qed.

Theorem int_des_exact t sn old z s r e : ity_ok t -> ~ wraps t -> jint z s ->
  (s = [48] \/ s = [MINUS; 48] \/ nodigit r) -> Z.abs z <= imax t ->
  int_des t sn old (s ++ r) e = Ok (z, r, e).
Proof.
  intros Ht Hw Hj Hr Hz.
  destruct Hj as [i Hi|i Hi]; pose proof (rint_nonneg i Hi) as Hnn; destruct Hi as [|d ds Hd Hds]; try reflexivity.
  - assert (nodigit r) as Hr' by (destruct Hr as [Hr|[Hr|Hr]]; [first [discriminate Hr|exfalso; injection Hr; intros; lia]|first [discriminate Hr|exfalso; injection Hr; intros; lia]|exact Hr]).
    rewrite (proj1 (int_des_nz t sn old d ds r e Hd Hds)).
    rewrite int_loop_exact; [|exact Ht|exact Hw|constructor; [unfold s_digit; lia|exact Hds]|exact Hr'|lia|rewrite <- dval_dacc; lia]. reflexivity.
  - assert (nodigit r) as Hr' by (destruct Hr as [Hr|[Hr|Hr]]; [first [discriminate Hr|exfalso; injection Hr; intros; lia]|first [discriminate Hr|exfalso; injection Hr; intros; lia]|exact Hr]).
    change ((MINUS :: d :: ds) ++ r) with (MINUS :: (d :: ds) ++ r). rewrite (proj2 (int_des_nz t sn old d ds r e Hd Hds)).
    rewrite int_loop_exact; [|exact Ht|exact Hw|constructor; [unfold s_digit; lia|exact Hds]|exact Hr'|lia|rewrite <- dval_dacc; lia]. cbn [bind].
    assert (isigned t = true /\ 4 <= isize t) as (Es & E4).
    { unfold wraps in Hw. destruct (isigned t); [lia|]. exfalso. auto. }
    assert (Ep : ipromote t = t) by (unfold ipromote; destruct (isize t <? 4) eqn:E; [lia|reflexivity]).
    rewrite Ep. unfold iarith, irangeb. rewrite Es. change (dacc 0 (d :: ds)) with (dval (d :: ds)).
    assert (imin t <= - dval (d :: ds) <= imax t).
    { unfold imin, imax in *. rewrite Es in *. pose proof (half_cases t Ht). lia. }
    destruct ((imin t <=? - dval (d :: ds)) && (- dval (d :: ds) <=? imax t)) eqn:E; [|lia]. cbn [bind].
    rewrite icast_id; [reflexivity|exact Ht|exact H].
Qed.

Theorem int_des_overflow t sn old z s r e : ity_ok t -> ~ wraps t -> jint z s ->
  nodigit r -> imax t < Z.abs z -> int_des t sn old (s ++ r) e = UB.
Proof.
  intros Ht Hw Hj Hr Hz.
  assert (Hm : 0 <= imax t) by (unfold imax; pose proof (half_cases t Ht); destruct (isigned t); lia).
  destruct Hj as [i Hi|i Hi]; pose proof (rint_nonneg i Hi) as Hnn; destruct Hi as [|d ds Hd Hds];
    try (change (dval [48]) with 0 in Hz; lia).
  - rewrite (proj1 (int_des_nz t sn old d ds r e Hd Hds)).
    rewrite int_loop_overflow; [reflexivity|exact Ht|exact Hw|constructor; [unfold s_digit; lia|exact Hds]|exact Hr|lia|rewrite <- dval_dacc; lia].
  - change ((MINUS :: d :: ds) ++ r) with (MINUS :: (d :: ds) ++ r). rewrite (proj2 (int_des_nz t sn old d ds r e Hd Hds)).
    rewrite int_loop_overflow; [reflexivity|exact Ht|exact Hw|constructor; [unfold s_digit; lia|exact Hds]|exact Hr|lia|rewrite <- dval_dacc; lia].
Qed.

(** all values except the minimum of int/long/long long *)
Definition int_dom (t : ity) (z : Z) : Prop := irange t z /\ (wraps t \/ z <> imin t).

Theorem int_des_in_range t sn old z s r e : ity_ok t -> int_dom t z -> jint z s ->
  (s = [48] \/ s = [MINUS; 48] \/ nodigit r) -> int_des t sn old (s ++ r) e = Ok (z, r, e).
Proof.
  intros Ht (Hz & Hd) Hj Hr.
  assert (D : wraps t \/ ~ wraps t) by (unfold wraps; destruct (isigned t); [destruct (Z_lt_dec (isize t) 4); [tauto|right; intuition discriminate]|tauto]).
  destruct D as [D|D].
  - pose proof (int_des_wrap t sn old z s r e Ht D Hj Hr) as K. now rewrite icast_id in K.
  - apply int_des_exact; auto. destruct Hd as [|Hd]; [tauto|].
    unfold irange, imin, imax in *. pose proof (half_cases t Ht).
    assert (isigned t = true) as Es by (unfold wraps in D; destruct (isigned t); tauto).
    rewrite Es in *. lia.
Qed.

Lemma numeral_jint z s : numeral z s -> jint z s.
Proof. destruct 1; constructor; assumption. Qed.
Lemma numeral_rnumber z s : numeral z s -> rnumber s.
Proof.
  destruct 1 as [i Hi|i Hi _].
  - pose proof (rnum [] i [] [] rm_none Hi rf_none re_none) as K. cbn in K. now rewrite app_nil_r in K.
  - pose proof (rnum [MINUS] i [] [] rm_some Hi rf_none re_none) as K. cbn in K. now rewrite app_nil_r in K.
Qed.
Lemma follow_nodigit r : follow r -> nodigit r.
Proof. destruct r; cbn; tauto. Qed.

Theorem int_rt t : ity_ok t -> rt (int_codec t) (int_dom t).
Proof.
  intros Ht v Hv. destruct (int_ser_numeral t v Ht (proj1 Hv)) as (s & Es & Hn).
  exists (wr s). split; [exact Es|]. rewrite flat_wr. split.
  - destruct (rnumber_head s (numeral_rnumber v s Hn)) as (h & z & -> & Hh). exists h, z. split; [reflexivity|].
    unfold vstart. tauto.
  - intros sn old r e Hr _. apply int_des_in_range; auto using numeral_jint, follow_nodigit.
Qed.
Theorem int_jout t : ity_ok t -> jout (int_codec t) (irange t).
Proof.
  intros Ht v Hv. destruct (int_ser_numeral t v Ht Hv) as (s & Es & Hn). exists (wr s). split; [exact Es|].
  rewrite flat_wr. apply rv_num. now apply numeral_rnumber with v.
Qed.
Theorem int_wout t : ity_ok t -> wout (int_codec t) (irange t).
Proof. intros Ht v Hv. destruct (int_ser_numeral t v Ht Hv) as (s & Es & _). now exists s. Qed.

Lemma int_loop_good t : forall s v, match int_loop t v s with Ok (_, r) => suffix r s | UB => True | Fuel => False end.
Proof.
  induction s as [|c s IH]; intros v; [apply suffix_refl|]. cbn [int_loop].
  destruct (is_digit c); cbn [negb]; [|apply suffix_refl].
  unfold iarith. destruct (isigned (ipromote t)).
  - destruct (irangeb (ipromote t) (v * 10)); cbn [bind]; [|exact I].
    match goal with |- context [if ?b then _ else _] => destruct b end; cbn [bind]; [|exact I].
    match goal with |- context [int_loop t ?w s] => specialize (IH w); destruct (int_loop t w s) as [[? ?]| |]; auto with suf end.
  - cbn [bind]. 
    match goal with |- context [int_loop t ?w s] => specialize (IH w); destruct (int_loop t w s) as [[? ?]| |]; auto with suf end.
Qed.
Theorem int_dlaw t : dlaw (int_des t).
Proof.
  intros sn old s e. unfold int_des. destruct (is_null s).
  { apply dgood_pair. apply null_good. }
  unfold unserialize_integer. destruct s as [|c s]; [apply dgood_err; [discriminate|cbn; lia]|].
  set (s1 := if c =? MINUS then s else c :: s).
  assert (Hs : suffix s1 (c :: s)) by (unfold s1; destruct (c =? MINUS); auto with suf).
  pose proof (suffix_dist _ _ Hs) as Hd. pose proof (dist_nonneg s1).
  destruct s1 as [|d r] eqn:E1; [apply dgood_err; [discriminate|lia]|].
  destruct (is_digit d); cbn [negb]; [|apply dgood_err; [discriminate|lia]].
  destruct (d =? 48).
  { apply dgood_ok; [|apply estep_refl]. eapply suffix_trans; [|exact Hs]. auto with suf. }
  pose proof (int_loop_good t (d :: r) 0) as L. destruct (int_loop t 0 (d :: r)) as [[v s2]| |]; cbn [bind]; [|exact I|exact L].
  assert (suffix s2 (c :: s)) by (eapply suffix_trans; eassumption).
  destruct (c =? MINUS); [|apply dgood_ok; [assumption|apply estep_refl]].
  unfold iarith. destruct (isigned (ipromote t)); [destruct (irangeb (ipromote t) (- v)); [|exact I]|]; cbn [bind];
    (apply dgood_ok; [assumption|apply estep_refl]).
Qed.

(** narrow and unsigned types never hit undefined behaviour *)
Lemma int_loop_safe t : ity_ok t -> wraps t -> forall s v, irange t v -> int_loop t v s <> UB /\ forall w r, int_loop t v s = Ok (w, r) -> irange t w.
Proof.
  intros Ht Hw. induction s as [|c s IH]; intros v Hv.
  - cbn. split; [discriminate|]. intros w r E. injection E as <- _. exact Hv.
  - cbn [int_loop]. destruct (is_digit c) eqn:Ec; cbn [negb].
    2:{ split; [discriminate|]. intros w r E. injection E as <- _. exact Hv. }
    apply is_digit_iff in Ec. unfold s_digit in Ec.
    assert (Hd : icast t (c - 48) = c - 48).
    { apply icast_id; [exact Ht|]. unfold irange, imin, imax. pose proof (half_cases t Ht). destruct (isigned t); lia. }
    rewrite Hd. unfold ipromote. destruct (isize t <? 4) eqn:Es.
    + unfold irange, imin, imax in Hv. pose proof (half_cases t Ht) as K.
      assert (-32768 <= v <= 65535) by (destruct (isigned t); lia).
      unfold iarith. cbn [isigned]. unfold irangeb.
      change (imin {| isize := 4; isigned := true |}) with (-2147483648).
      change (imax {| isize := 4; isigned := true |}) with 2147483647.
      destruct ((-2147483648 <=? v * 10) && (v * 10 <=? 2147483647)) eqn:E1; [|lia]. cbn [bind].
      destruct ((-2147483648 <=? v * 10 + (c - 48)) && (v * 10 + (c - 48) <=? 2147483647)) eqn:E2; [|lia]. cbn [bind].
      apply IH. now apply icast_range.
    + assert (isigned t = false) as Esg by (destruct Hw; [lia|assumption]).
      unfold iarith. rewrite Esg. cbn [bind]. apply IH. now apply icast_range.
Qed.
Theorem int_dsafe t : ity_ok t -> wraps t -> dsafe (int_des t).
Proof.
  intros Ht Hw sn old s e _. unfold int_des. destruct (is_null s); [destruct (parse_null s e); discriminate|].
  unfold unserialize_integer. destruct s as [|c s]; [discriminate|].
  set (s1 := if c =? MINUS then s else c :: s). destruct s1 as [|d r]; [discriminate|].
  destruct (is_digit d); cbn [negb]; [|discriminate]. destruct (d =? 48); [discriminate|].
  assert (R0 : irange t 0) by (unfold irange, imin, imax; pose proof (half_cases t Ht); destruct (isigned t); lia).
  destruct (int_loop_safe t Ht Hw (d :: r) 0 R0) as (A & B).
  destruct (int_loop t 0 (d :: r)) as [[v s2]| |]; cbn [bind]; [|congruence|discriminate].
  specialize (B v s2 eq_refl). destruct (c =? MINUS); [|discriminate].
  unfold ipromote. destruct (isize t <? 4) eqn:Es.
  - unfold irange, imin, imax in B. pose proof (half_cases t Ht) as K.
    assert (-32768 <= v <= 65535) by (destruct (isigned t); lia).
    unfold iarith. cbn [isigned]. unfold irangeb.
    change (imin {| isize := 4; isigned := true |}) with (-2147483648).
    change (imax {| isize := 4; isigned := true |}) with 2147483647.
    destruct ((-2147483648 <=? - v) && (- v <=? 2147483647)) eqn:E1; [discriminate|lia].
  - assert (isigned t = false) as Esg by (destruct Hw; [lia|assumption]).
    unfold iarith. rewrite Esg. discriminate.
Qed.

(** ---- bool ---- *)
Theorem bool_rt : rt bool_codec (fun _ => True).
Proof.
  intros v _. eexists. split; [reflexivity|]. rewrite flat_wr. split.
  - destruct v; eexists _, _; (split; [reflexivity|]); unfold vstart; cbn; lia.
  - intros sn old r e Hr _. destruct v; reflexivity.
Qed.
Theorem bool_jout : jout bool_codec (fun _ => True).
Proof. intros v _. eexists. split; [reflexivity|]. rewrite flat_wr. destruct v; constructor. Qed.
Theorem bool_wout : wout bool_codec (fun _ => True).
Proof. intros v _. eexists. reflexivity. Qed.
Theorem bool_dlaw : dlaw bool_des.
Proof.
  intros sn old s e. unfold bool_des. destruct s as [|c s]; [apply dgood_err; [discriminate|cbn; lia]|].
  destruct (is_null (c :: s)); [apply dgood_pair, null_good|].
  destruct (c =? 116); [apply dgood_pair, bool_good|].
  destruct (c =? 102); [apply dgood_pair, bool_good|].
  apply dgood_err; [discriminate|]. pose proof (dist_nonneg (c :: s)). lia.
Qed.
Theorem bool_dsafe : dsafe bool_des.
Proof.
  intros sn old s e _. unfold bool_des. destruct s as [|c s]; [discriminate|].
  destruct (is_null (c :: s)); [destruct (parse_null (c :: s) e); discriminate|].
  destruct (c =? 116); [destruct (parse_bool (c :: s) e); discriminate|].
  destruct (c =? 102); [destruct (parse_bool (c :: s) e); discriminate|]. discriminate.
Qed.
(** an input not starting with one of the three literals is an error *)
Lemma lit_chain_match lit : forall p t r, lit_chain lit p t = LMatch r -> t = lit ++ r.
Proof.
  induction lit as [|x lit IH]; intros p t r H; [cbn in H; now injection H as ->|].
  cbn in H. destruct t as [|c t]; [discriminate|]. destruct (c =? x) eqn:E; [|discriminate].
  bool2prop. subst c. cbn. f_equal. eapply IH, H.
Qed.
Lemma finish_lit_inv lit nm t r : finish_lit (lit_chain lit 0 t) nm (Some no_error) = (r, Some no_error) -> t = lit ++ r.
Proof.
  destruct (lit_chain lit 0 t) as [x| |p] eqn:E; cbn; intros H; [|discriminate|discriminate].
  injection H as ->. eapply lit_chain_match, E.
Qed.
Theorem bool_exact sn old s v r : bool_des sn old s (Some no_error) = Ok (v, r, Some no_error) <->
  (s = text "true" ++ r /\ v = true) \/ (s = text "false" ++ r /\ v = false) \/ (s = text "null" ++ r /\ v = false).
Proof.
  split.
  - unfold bool_des. destruct s as [|c s]; [discriminate|].
    destruct (is_null (c :: s)) eqn:En.
    + destruct (parse_null (c :: s) (Some no_error)) as [r' e'] eqn:E. intros H. injection H as <- -> ->.
      right. right. split; [|reflexivity]. unfold parse_null in E. destruct (c =? 110) eqn:Ec; [|discriminate].
      apply finish_lit_inv in E. bool2prop. subst. reflexivity.
    + destruct (c =? 116) eqn:E1.
      { destruct (parse_bool (c :: s) (Some no_error)) as [r' e'] eqn:E. intros H. injection H as <- -> ->.
        left. split; [|reflexivity]. unfold parse_bool in E. rewrite E1 in E. apply finish_lit_inv in E. bool2prop. subst. reflexivity. }
      destruct (c =? 102) eqn:E2; [|discriminate].
      destruct (parse_bool (c :: s) (Some no_error)) as [r' e'] eqn:E. intros H. injection H as <- -> ->.
      right. left. split; [|reflexivity]. unfold parse_bool in E. rewrite E1, E2 in E. apply finish_lit_inv in E. bool2prop. subst. reflexivity.
  - intros [(-> & ->)|[(-> & ->)|(-> & ->)]]; reflexivity.
Qed.
