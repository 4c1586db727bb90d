(** Exactly which time intervals survive a round trip. *)
From Verif Require Import Base Parser SpecJson SpecNum Out Number StringS CodecLaws SpecExact ExactProofs NumberProofs WrapProofs TimeSize SpecTime TimeProofs SpecWrap SpecUnits UnitProofs SpecTimeRound.

Definition tgo (r : buf) : Prop := r = [] \/ exists w z, r = w :: z /\ w <> 115 /\ w <> 107.
Lemma time_loop_comps' t fr l x : ity_ok t -> comps l x -> forall v f sn r e, sok t fr v l -> tgo r -> no_err_yet e = true ->
  time_loop t fr (length l + f) sn v (x ++ r) e = time_loop t fr f sn (v + ticks fr l) r e.
Proof.
  intros Ht. induction 1 as [|n u l s x Hj Hx IH]; intros v f sn r e Hs Hr He.
  { cbn [length Nat.add app ticks]. now rewrite Z.add_0_r. }
  destruct Hs as ((Hn & Hu) & Hv & Hs). cbn [length Nat.add ticks]. rewrite Z.add_assoc.
  destruct (jint_head n s Hj) as (c & y & E & Hc).
  assert (Hd : int_des t sn 0 (s ++ (unit_text u ++ x ++ r)) e = Ok (n, unit_text u ++ x ++ r, e)).
  { apply int_des_in_range; auto. right. right. destruct u; cbn; unfold s_digit; lia. }
  replace ((s ++ unit_text u ++ x) ++ r) with (s ++ unit_text u ++ x ++ r) by now rewrite <- !app_assoc.
  cbn [time_loop]. rewrite Hd. rewrite E. cbn [app].
  replace (c =? QT) with false by (symmetry; unfold s_digit in Hc; lia). cbn [bind].
  unfold has_err. rewrite He. cbn [negb].
  specialize (IH (v + unit_ticks fr n u) f sn r e Hs Hr He). rewrite <- IH. clear IH Hd.
  assert (Hm : x ++ r = [] \/ exists w z, x ++ r = w :: z /\ w <> 115 /\ w <> 107).
  { destruct (comps_head l x Hx) as [->|(w & z & -> & Hw)].
    - exact Hr.
    - right. exists w, (z ++ r). split; [reflexivity|]. unfold s_digit in Hw. lia. }
  destruct u; cbn [unit_text]; cbn [unit_ticks] in *.
  - change (text "d" ++ x ++ r) with (100 :: x ++ r). cbn [Z.eqb Pos.eqb]. rewrite time_add_ok by tauto. reflexivity.
  - change (text "h" ++ x ++ r) with (104 :: x ++ r). cbn [Z.eqb Pos.eqb]. rewrite time_add_ok by tauto. reflexivity.
  - change (text "m" ++ x ++ r) with (109 :: x ++ r). cbn [Z.eqb Pos.eqb]. rewrite time_add_ok by tauto. cbn [bind].
    destruct Hm as [->|(w & z & -> & W1 & W2)]; [reflexivity|].
    replace (w =? 115) with false by lia. replace (w =? 107) with false by lia. reflexivity.
  - change (text "s" ++ x ++ r) with (115 :: x ++ r). cbn [Z.eqb Pos.eqb].
    rewrite time_add_ok by (rewrite ?Z.mul_1_r; unfold int_dom in Hn; tauto). cbn [bind]. now rewrite Z.mul_1_r.
  - change (text "ms" ++ x ++ r) with (109 :: 115 :: x ++ r). cbn [Z.eqb Pos.eqb]. rewrite time_addq_ok by tauto. reflexivity.
  - change (text "mks" ++ x ++ r) with (109 :: 107 :: 115 :: x ++ r). cbn [Z.eqb Pos.eqb]. rewrite time_addq_ok by tauto. reflexivity.
Qed.
Lemma clock_signed q x fr : clock q x -> exists l, comps l x /\ ticks fr l = q * fr /\ weight fr l = Z.abs q * fr /\ (0 <= q -> Forall (fun c => 0 <= fst c) l).
Proof.
  intros [d h m s xd xh xm xs E Bh Bm Bs Sg A1 A2 A3 A4]. exists (opt d Day ++ opt h Hour ++ opt m Minute ++ opt s Second). split; [|split; [|split]].
  - repeat apply comps_app; now apply amount_comps.
  - rewrite !ticks_app, !ticks_opt. cbn [unit_ticks]. subst q. ring.
  - rewrite !weight_app, !weight_opt. cbn [unit_weight].
    replace (Z.abs q) with (Z.abs d * 86400 + Z.abs h * 3600 + Z.abs m * 60 + Z.abs s) by lia. ring.
  - intros Hq. assert (0 <= d /\ 0 <= h /\ 0 <= m /\ 0 <= s) as (P1 & P2 & P3 & P4) by lia. rewrite !Forall_app. unfold opt.
    repeat split; match goal with |- Forall _ (if ?b then _ else _) => destruct b end; repeat constructor; cbn [fst]; assumption.
Qed.

(** ---- what is written behind the seconds ---- *)
Definition tail_nums (t : ity) (R : Z) : res (Z * Z) :=
  let* a := iarith (ipromote t) (R * 1000) in
  let ms := icast t (Z.quot a 1000) in
  let* b := iarith (ipromote t) (ms * 1000) in
  let* c := iarith (ipromote t) (R - b) in
  let* d := iarith (ipromote t) (icast t c * 1000000) in
  Ok (ms, icast t (Z.quot d 1000)).
Definition some_amount (n : Z) (u x : buf) : Prop := 0 < n /\ (exists s, numeral n s /\ x = s ++ u) \/ n <= 0 /\ x = [].
Lemma write_some t n suf : ity_ok t -> irange t n ->
  exists o, (if 0 <? n then let* o := time_write_if t n 109 in Ok (o ++ wr suf) else Ok []) = Ok o /\ some_amount n (109 :: suf) (flat o).
Proof.
  intros Ht Hn. destruct (0 <? n) eqn:E; [|exists []; split; [reflexivity|right; split; [lia|reflexivity]]].
  unfold time_write_if. replace (n =? 0) with false by lia. destruct (int_ser_numeral t n Ht Hn) as (s & -> & Hs). cbn [bind]. eexists. split; [reflexivity|].
  left. split; [lia|]. exists s. split; [exact Hs|]. change ([Sub (wr s); W 109] ++ wr suf) with ([Sub (wr s)] ++ wr (109 :: suf)). now rewrite flat_app, flat_sub, !flat_wr.
Qed.
Lemma tail_cases t v : ity_ok t -> irange t v -> Z.rem v 1000 <> 0 ->
  (exists ms mks o y1 y2, tail_nums t (Z.rem v 1000) = Ok (ms, mks) /\ irange t ms /\ irange t mks /\ time_ser_tail t 1000 v = Ok o /\ flat o = y1 ++ y2 /\
     some_amount ms (text "ms") y1 /\ some_amount mks (text "mks") y2) \/
  (tail_nums t (Z.rem v 1000) = UB /\ time_ser_tail t 1000 v = UB).
Proof.
  intros Ht Hv HR. assert (Hr : irange t (Z.rem v 1000)) by (apply irange_btw with v; [exact Ht|exact Hv|]; Z.to_euclidean_division_equations; lia).
  unfold time_ser_tail, tail_nums. destruct (Z.eqb_spec (Z.rem v 1000) 0) as [E|_]; [contradiction|]. rewrite (icast_id t (Z.rem v 1000)) by assumption. set (R := Z.rem v 1000) in *.
  assert (AR : forall P x, (exists y, iarith P x = Ok y) \/ iarith P x = UB).
  { intros P x. unfold iarith. destruct (isigned P); [|left; eauto]. destruct (irangeb P x); [left; eauto|now right]. }
  destruct (AR (ipromote t) (R * 1000)) as [(a & ->)| ->]; cbn [bind]; [|now right].
  destruct (AR (ipromote t) (icast t (Z.quot a 1000) * 1000)) as [(b & ->)| ->]; cbn [bind]; [|now right].
  destruct (AR (ipromote t) (R - b)) as [(c & ->)| ->]; cbn [bind]; [|now right].
  destruct (AR (ipromote t) (icast t c * 1000000)) as [(d & ->)| ->]; cbn [bind]; [|now right]. left.
  set (ms := icast t (Z.quot a 1000)). set (mks := icast t (Z.quot d 1000)).
  assert (Rm : irange t ms) by now apply icast_range. assert (Rk : irange t mks) by now apply icast_range.
  destruct (write_some t ms [115] Ht Rm) as (o1 & W1 & S1). destruct (write_some t mks [107; 115] Ht Rk) as (o2 & W2 & S2).
  exists ms, mks, (o1 ++ o2), (flat o1), (flat o2). split; [reflexivity|]. split; [exact Rm|]. split; [exact Rk|].
  change (wr [115]) with [W 115] in W1. change (wr [107; 115]) with [W 107; W 115] in W2. rewrite W1. cbn [bind]. rewrite W2. cbn [bind]. split; [reflexivity|]. split; [apply flat_app|]. now split.
Qed.
(** ---- reading it ---- *)
Lemma some_step t fr n u y sn v f z k : ity_ok t -> irange t n -> some_amount n u y -> u = text "ms" /\ k = 1000 \/ u = text "mks" /\ k = 1000000 ->
  time_loop t fr (S f) sn v (y ++ z) C0 = if 0 <? n then let* w := time_addq t fr v n k in time_loop t fr f sn w z C0 else time_loop t fr (S f) sn v z C0.
Proof.
  intros Ht Hn [(Hp & s & Hs & ->)|(Hp & ->)] Hu; [|now replace (0 <? n) with false by lia]. replace (0 <? n) with true by lia.
  pose proof (numeral_jint _ _ Hs) as Hj. destruct (jint_head n s Hj) as (c & x & E & Hc).
  assert (Hd : int_des t sn 0 (s ++ (u ++ z)) C0 = Ok (n, u ++ z, C0)).
  { apply int_des_in_range; auto; [apply int_dom_pos; auto; left; lia|]. right. right. destruct Hu as [[-> _]|[-> _]]; cbn; unfold s_digit; lia. }
  rewrite <- app_assoc. cbn [time_loop]. rewrite Hd. rewrite E. cbn [app]. replace (c =? QT) with false by (symmetry; unfold s_digit in Hc; lia). cbn [bind].
  change (has_err C0) with false. cbv iota. destruct Hu as [[-> ->]|[-> ->]]; reflexivity.
Qed.
Lemma addq_cases t fr v n k w : ity_ok t -> time_addq t fr v n k = Ok w -> exists a m, iarith (ipromote t) (n * fr) = Ok a /\ w = v + Z.quot a k + m * imod t.
Proof.
  intros Ht. unfold time_addq. destruct (iarith (ipromote t) (n * fr)) as [a| |] eqn:Ea; cbn [bind]; try discriminate.
  destruct (iarith (ipromote t) (v + Z.quot a k)) as [c| |] eqn:Ec; cbn [bind]; try discriminate. intros H. injection H as <-. exists a.
  destruct (icast_eq t c Ht) as (m & ->). assert (K : exists m', c = v + Z.quot a k + m' * imod t).
  { unfold iarith in Ec. destruct (isigned (ipromote t)) eqn:Es.
    - destruct (irangeb (ipromote t) (v + Z.quot a k)); [|discriminate]. injection Ec as <-. exists 0. lia.
    - injection Ec as <-. assert (ipromote t = t) as ->. { unfold ipromote in *. destruct (isize t <? 4); [discriminate|reflexivity]. }
      exists (- ((v + Z.quot a k) / imod t)). assert (0 < imod t) by (unfold imod; apply Z.pow_pos_nonneg; unfold ity_ok in Ht; lia).
      pose proof (Z.div_mod (v + Z.quot a k) (imod t) ltac:(lia)). lia. }
  destruct K as (m' & ->). exists (m + m'). split; [reflexivity|ring].
Qed.
(** ---- the sum that is read back ---- *)
Definition delta (t : ity) (n k : Z) : res Z := if 0 <? n then let* a := iarith (ipromote t) (n * 1000) in Ok (Z.quot a k) else Ok 0.
Definition gain (t : ity) (R : Z) : res (Z * Z) :=
  let* (ms, mks) := tail_nums t R in
  let* d1 := delta t ms 1000 in
  let* d2 := delta t mks 1000000 in
  Ok (d1, d2).
Lemma loop_sum t ms mks y1 y2 sn v f r : ity_ok t -> irange t ms -> irange t mks -> some_amount ms (text "ms") y1 -> some_amount mks (text "mks") y2 ->
  time_loop t 1000 (S (S (S f))) sn v (y1 ++ y2 ++ QT :: r) C0 =
  let* w := (if 0 <? ms then time_addq t 1000 v ms 1000 else Ok v) in
  let* w' := (if 0 <? mks then time_addq t 1000 w mks 1000000 else Ok w) in
  Ok (inl (w', QT :: r, C0)).
Proof.
  intros Ht H1 H2 S1 S2. rewrite (some_step t 1000 ms _ y1 sn v (S (S f)) (y2 ++ QT :: r) 1000 Ht H1 S1) by auto.
  destruct (0 <? ms).
  - destruct (time_addq t 1000 v ms 1000) as [w| |]; cbn [bind]; [|reflexivity..].
    rewrite (some_step t 1000 mks _ y2 sn w (S f) (QT :: r) 1000000 Ht H2 S2) by auto.
    destruct (0 <? mks); [|reflexivity]. destruct (time_addq t 1000 w mks 1000000); reflexivity.
  - cbn [bind]. rewrite (some_step t 1000 mks _ y2 sn v (S (S f)) (QT :: r) 1000000 Ht H2 S2) by auto.
    destruct (0 <? mks); [|reflexivity]. destruct (time_addq t 1000 v mks 1000000); reflexivity.
Qed.
Lemma loop_fuel t ms mks y1 y2 sn v f r w : ity_ok t -> irange t ms -> irange t mks -> some_amount ms (text "ms") y1 -> some_amount mks (text "mks") y2 ->
  time_loop t 1000 (S (length y1 + length y2 + f)) sn v (y1 ++ y2 ++ QT :: r) C0 = w ->
  time_loop t 1000 (S (S (S f))) sn v (y1 ++ y2 ++ QT :: r) C0 = w.
Proof.
  intros Ht H1 H2 S1 S2 <-. rewrite loop_sum with (ms := ms) (mks := mks) by assumption.
  assert (L1 : 0 <? ms = true -> exists n, length y1 = S n).
  { intros L. destruct S1 as [(_ & s & _ & ->)|(A & _)]; [|lia]. rewrite app_length. cbn [length]. exists (length s + 1)%nat. change (length (text "ms")) with 2%nat. lia. }
  assert (L2 : 0 <? mks = true -> exists n, length y2 = S n).
  { intros L. destruct S2 as [(_ & s & _ & ->)|(A & _)]; [|lia]. rewrite app_length. cbn [length]. exists (length s + 2)%nat. change (length (text "mks")) with 3%nat. lia. }
  rewrite (some_step t 1000 ms _ y1 sn v _ (y2 ++ QT :: r) 1000 Ht H1 S1) by auto.
  destruct (0 <? ms).
  - destruct (time_addq t 1000 v ms 1000) as [w| |]; cbn [bind]; [|reflexivity..]. destruct (L1 eq_refl) as (n & ->). cbn [Nat.add].
    rewrite (some_step t 1000 mks _ y2 sn w _ (QT :: r) 1000000 Ht H2 S2) by auto.
    destruct (0 <? mks); [|reflexivity]. destruct (time_addq t 1000 w mks 1000000); cbn [bind]; [|reflexivity..].
    destruct (L2 eq_refl) as (k & ->). replace (n + S k + f)%nat with (S (n + k + f)) by lia. reflexivity.
  - cbn [bind]. rewrite (some_step t 1000 mks _ y2 sn v _ (QT :: r) 1000000 Ht H2 S2) by auto.
    destruct (0 <? mks); [|reflexivity]. destruct (time_addq t 1000 v mks 1000000); cbn [bind]; [|reflexivity..].
    destruct (L2 eq_refl) as (k & ->). replace (length y1 + S k + f)%nat with (S (length y1 + k + f)) by lia. reflexivity.
Qed.
Lemma read_back t v sn old : ity_ok t -> irange t 1000 -> irange t v -> Z.rem v 1000 <> 0 ->
  (exists ms mks ops, tail_nums t (Z.rem v 1000) = Ok (ms, mks) /\ time_ser t 1000 v = Ok ops /\
    time_des t 1000 sn old (flat ops) C0 =
    let* w := (if 0 <? ms then time_addq t 1000 (v - Z.rem v 1000) ms 1000 else Ok (v - Z.rem v 1000)) in
    let* w' := (if 0 <? mks then time_addq t 1000 w mks 1000000 else Ok w) in
    Ok (w', [], C0)) \/
  (tail_nums t (Z.rem v 1000) = UB /\ forall ops, time_ser t 1000 v <> Ok ops).
Proof.
  intros Ht Hf Hv HR. destruct (tail_cases t v Ht Hv HR) as [(ms & mks & o & y1 & y2 & T & R1 & R2 & Eo & Fo & S1 & S2)|(T & Eo)].
  2: { right. split; [exact T|]. intros ops. unfold time_ser. rewrite Eo. repeat (match goal with |- bind ?a _ <> _ => destruct a; cbn [bind]; try discriminate end). }
  left. exists ms, mks. destruct (time_ser_clock t 1000 v o Ht Hv ltac:(lia) Eo) as (ops & x & E & Ef & Hx). exists ops. split; [exact T|]. split; [exact E|].
  destruct (clock_signed _ x 1000 Hx) as (l & Hl & Tl & Wl & Pl). set (q := Z.quot v 1000) in *.
  assert (Hq : v = q * 1000 + Z.rem v 1000) by (pose proof (Z.quot_rem' v 1000); unfold q; lia).
  assert (Hb : Z.abs q * 1000 < Z.abs v) by (unfold q; Z.to_euclidean_division_equations; lia).
  assert (Hw : Z.abs q * 1000 <= imax t). { unfold irange in Hv. unfold imin, imax in *. pose proof (half_cases t Ht). destruct (isigned t); lia. }
  assert (Hk : sok t 1000 0 l).
  { apply weight_sok; auto; [lia| |right; lia|rewrite Wl; cbn [Z.abs]; lia].
    destruct (isigned t) eqn:Es; [now left|right; apply Pl]. unfold irange, imin in Hv. rewrite Es in Hv. unfold q. apply Z.quot_pos; lia. }
  rewrite Ef, Fo. unfold time_des. set (Y := x ++ (y1 ++ y2) ++ [QT]). change (is_null (QT :: Y)) with false. change (is_number (QT :: Y)) with false. change (is_string (QT :: Y)) with true. cbn [negb].
  pose proof (comps_len l x Hl) as Ln. assert (exists f, S (length Y) = (length l + S (length y1 + length y2 + f))%nat) as (f & Ey).
  { exists (length x - length l + 1)%nat. unfold Y. rewrite !app_length. cbn [length]. lia. }
  rewrite Ey. unfold Y. rewrite <- (app_assoc y1). rewrite (time_loop_comps' t 1000 l x Ht Hl 0 _ sn (y1 ++ y2 ++ [QT]) C0 Hk); [| |reflexivity].
  2: { right. destruct S1 as [(_ & s & Hs & ->)|(_ & ->)].
       - destruct (jint_head _ s (numeral_jint _ _ Hs)) as (c & z & -> & Hc). cbn [app]. eexists _, _. split; [reflexivity|]. unfold s_digit in Hc. lia.
       - destruct S2 as [(_ & s & Hs & ->)|(_ & ->)].
         + destruct (jint_head _ s (numeral_jint _ _ Hs)) as (c & z & -> & Hc). cbn [app]. eexists _, _. split; [reflexivity|]. unfold s_digit in Hc. lia.
         + cbn [app]. eexists _, _. split; [reflexivity|]. lia. }
  rewrite Tl. replace (0 + q * 1000) with (v - Z.rem v 1000) by lia.
  rewrite <- (loop_fuel t ms mks y1 y2 sn _ f [] _ Ht R1 R2 S1 S2 eq_refl). rewrite loop_sum with (ms := ms) (mks := mks) by assumption.
  destruct (if 0 <? ms then _ else _); cbn [bind]; [|reflexivity..]. destruct (if 0 <? mks then _ else _); reflexivity.
Qed.
(** ---- the finite check ---- *)
Definition ms_keptb (t : ity) (r : Z) : bool :=
  isigned t && ((isize t =? 8) && (0 <? r) || (isize t =? 4) && ((r =? 1) || (r =? 2)) || (isize t =? 2) && existsb (Z.eqb r) short_ms).
Definition gain_ok (t : ity) (R : Z) : bool :=
  (R =? 0) || (negb (isigned t) && (R <? 0)) ||
  match gain t R with
  | Ok (d1, d2) => if ms_keptb t R then (d1 =? R) && (d2 =? 0) else negb ((d1 + d2 - R) mod imod t =? 0)
  | _ => negb (ms_keptb t R)
  end.
Definition fracs : list Z := map (fun n => Z.of_nat n - 999) (seq 0 1999).
Lemma gains : forallb (fun t => forallb (gain_ok t) fracs) [mkity 2 true; mkity 2 false; mkity 4 true; mkity 4 false; mkity 8 true; mkity 8 false] = true.
Proof. vm_compute. reflexivity. Qed.
Lemma gain_all t R : ity_ok t -> irange t 1000 -> -1000 < R < 1000 -> gain_ok t R = true.
Proof.
  intros Hs H B. assert (I : In t [mkity 2 true; mkity 2 false; mkity 4 true; mkity 4 false; mkity 8 true; mkity 8 false]).
  { destruct t as (sz & sg). unfold ity_ok in Hs. cbn [isize] in Hs. destruct Hs as [->|[->|[->| ->]]]; destruct sg; try (cbn; tauto); vm_compute in H; destruct H as (_ & H); now exfalso; apply H. }
  pose proof gains as G. rewrite forallb_forall in G. specialize (G t I). cbv beta in G. rewrite forallb_forall in G. apply G. unfold fracs. apply in_map_iff.
  exists (Z.to_nat (R + 999)). split; [lia|]. apply in_seq. lia.
Qed.
Lemma ms_keptb_spec t r : r <> 0 -> ms_keptb t r = true <-> ms_kept t r.
Proof.
  intros Hr. unfold ms_keptb, ms_kept. rewrite andb_true_iff, !orb_true_iff, !andb_true_iff, orb_true_iff, existsb_exists, !Z.eqb_eq, Z.ltb_lt.
  split.
  - intros (S1 & [[A|A]|(A & y & Hy & E)]); right; (split; [exact S1|]); [tauto|tauto|]. apply Z.eqb_eq in E. subst y. tauto.
  - intros [A|(S1 & [A|[A|(A & B)]])]; [contradiction|..]; (split; [exact S1|]); [tauto|tauto|]. right. split; [exact A|]. exists r. split; [exact B|apply Z.eqb_refl].
Qed.
Lemma addq_delta t v n k w : ity_ok t -> (if 0 <? n then time_addq t 1000 v n k else Ok v) = Ok w -> exists d m, delta t n k = Ok d /\ w = v + d + m * imod t.
Proof.
  intros Ht. unfold delta. destruct (0 <? n).
  - intros H. destruct (addq_cases _ _ _ _ _ _ Ht H) as (a & m & E & W). exists (Z.quot a k), m. rewrite E. auto.
  - intros H. injection H as <-. exists 0, 0. split; [reflexivity|lia].
Qed.
Lemma delta_addq t v n k d : ity_ok t -> irange t v -> irange t (v + d) -> delta t n k = Ok d -> (if 0 <? n then time_addq t 1000 v n k else Ok v) = Ok (v + d).
Proof.
  intros Ht Hv Hd. unfold delta, time_addq. destruct (0 <? n).
  - destruct (iarith (ipromote t) (n * 1000)) as [a| |]; cbn [bind]; try discriminate. intros H. injection H as <-.
    rewrite parith by assumption. cbn [bind]. now rewrite icast_id.
  - intros H. injection H as <-. now rewrite Z.add_0_r.
Qed.
Theorem ms_round t v sn old : ity_ok t -> irange t 1000 -> irange t v ->
  (exists ops, ser (time_codec t 1000) v = Ok ops /\ reads (time_codec t 1000) sn old (flat ops) v []) <-> ms_kept t (Z.rem v 1000).
Proof.
  intros Ht Hf Hv. destruct (Z.eq_dec (Z.rem v 1000) 0) as [R0|R0].
  { split; [intros _; now left|]. intros _.
    destruct (time_rt t 1000 Ht ltac:(lia) Hf v) as (ops & E & _ & Rd); [split; [exact Hv|now left]|]. exists ops. split; [exact E|]. unfold reads.
    specialize (Rd sn old [] (Some no_error)). rewrite app_nil_r in Rd. apply Rd; [exact I|reflexivity]. }
  assert (B : -1000 < Z.rem v 1000 < 1000) by (Z.to_euclidean_division_equations; lia).
  pose proof (gain_all t _ Ht Hf B) as G. unfold gain_ok in G. replace (Z.rem v 1000 =? 0) with false in G by lia. cbn [orb] in G.
  replace (negb (isigned t) && (Z.rem v 1000 <? 0)) with false in G.
  2: { destruct (isigned t) eqn:Es; [reflexivity|]. unfold irange, imin in Hv. rewrite Es in Hv. cbn [negb andb]. symmetry. apply Z.ltb_ge. apply Z.rem_nonneg; lia. }
  cbn [orb] in G. rewrite <- (ms_keptb_spec t _ R0). unfold reads. cbn [ser des time_codec]. unfold gain in G.
  destruct (read_back t v sn old Ht Hf Hv R0) as [(ms & mks & ops & T & E & Ed)|(T & NE)].
  2: { rewrite T in G. cbn [bind] in G. split; [intros (ops & E & _); now destruct (NE ops)|]. intros K. rewrite K in G. discriminate. }
  rewrite T in G. cbn [bind] in G. set (s := v - Z.rem v 1000) in *. split.
  - intros (ops' & E' & D). rewrite E in E'. injection E' as <-. change (Some no_error) with C0 in D. rewrite Ed in D.
    destruct (if 0 <? ms then _ else _) as [w| |] eqn:W1; cbn [bind] in D; try discriminate.
    destruct (if 0 <? mks then _ else _) as [w'| |] eqn:W2; cbn [bind] in D; try discriminate. injection D as ->.
    destruct (addq_delta _ _ _ _ _ Ht W1) as (d1 & m1 & D1 & ->). destruct (addq_delta _ _ _ _ _ Ht W2) as (d2 & m2 & D2 & V).
    rewrite D1, D2 in G. cbn [bind] in G. destruct (ms_keptb t (Z.rem v 1000)); [reflexivity|]. exfalso.
    replace (d1 + d2 - Z.rem v 1000) with ((- m1 - m2) * imod t) in G by (unfold s in V; lia).
    rewrite Z_mod_mult in G. discriminate.
  - intros K. rewrite K in G. destruct (delta t ms 1000) as [d1| |] eqn:D1; cbn [bind] in G; try discriminate.
    destruct (delta t mks 1000000) as [d2| |] eqn:D2; cbn [bind] in G; try discriminate. apply andb_true_iff in G. destruct G as (G1 & G2).
    apply Z.eqb_eq in G1, G2. subst d1 d2. exists ops. split; [exact E|]. change (Some no_error) with C0. rewrite Ed.
    assert (Hs : irange t s). { unfold s. apply irange_btw with v; [exact Ht|exact Hv|]. Z.to_euclidean_division_equations; lia. }
    rewrite (delta_addq _ _ _ _ _ Ht Hs ltac:(unfold s; now replace (v - Z.rem v 1000 + Z.rem v 1000) with v by lia) D1). cbn [bind].
    unfold s. replace (v - Z.rem v 1000 + Z.rem v 1000) with v by lia.
    rewrite (delta_addq t v mks 1000000 0 Ht Hv) by (rewrite ?Z.add_0_r; assumption). cbn [bind]. now rewrite Z.add_0_r.
Qed.
Theorem mks_round t v sn old : ity_ok t -> irange t 1000000 -> irange t v ->
  (exists ops, ser (time_codec t 1000000) v = Ok ops /\ reads (time_codec t 1000000) sn old (flat ops) v []) <-> (0 <= v \/ Z.rem v 1000000 = 0).
Proof.
  intros Ht Hf Hv. split.
  - intros (ops & E & D). destruct (Z_le_gt_dec 0 v) as [|N]; [now left|right].
    destruct (time_ser_clock t 1000000 v [] Ht Hv ltac:(lia) (neg_mks_frac t v Ht Hf Hv ltac:(lia))) as (ops' & x & E' & Ef & Hx).
    cbn [ser time_codec] in E. rewrite E in E'. injection E' as <-. destruct (clock_signed _ x 1000000 Hx) as (l & Hl & Tl & Wl & _).
    destruct (Z.eq_dec (Z.rem v 1000000) 0) as [|R0]; [assumption|]. exfalso.
    assert (Hb : Z.abs (Z.quot v 1000000) * 1000000 < Z.abs v) by (Z.to_euclidean_division_equations; lia).
    assert (Sg : isigned t = true). { destruct (isigned t) eqn:Es; [reflexivity|]. unfold irange, imin in Hv. rewrite Es in Hv. lia. }
    assert (Hw : Z.abs (Z.quot v 1000000) * 1000000 <= imax t). { unfold irange in Hv. unfold imin, imax in *. rewrite Sg in *. pose proof (half_cases t Ht). lia. }
    assert (Hk : sok t 1000000 0 l) by (apply weight_sok; auto; [lia|now left|rewrite Wl; cbn [Z.abs]; lia]).
    unfold reads in D. cbn [des time_codec] in D. rewrite Ef in D. cbn [flat app] in D. change (x ++ flat [] ++ [QT]) with (x ++ [QT]) in D.
    rewrite (time_read t 1000000 l x sn old [] (Some no_error) Ht Hl Hk eq_refl), Tl in D. injection D as D.
    apply R0. pose proof (Z.quot_rem' v 1000000). lia.
  - intros H. destruct (time_rt t 1000000 Ht ltac:(lia) Hf v) as (ops & E & _ & Rd); [split; [exact Hv|tauto]|]. exists ops. split; [exact E|]. unfold reads.
    specialize (Rd sn old [] (Some no_error)). rewrite app_nil_r in Rd. apply Rd; [exact I|reflexivity].
Qed.
