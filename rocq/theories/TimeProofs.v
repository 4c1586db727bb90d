(** Proofs about time_interval. *)
From Verif Require Import Base Parser SpecJson SpecNum ParserFacts Grammar1 Grammar2 Out Number StringS CodecLaws NumberProofs StringProofs WrapProofs
  TimeSize SpecTime.

(** ---- arithmetic in the promoted type ---- *)
Lemma irange_promote t x : ity_ok t -> irange t x -> irange (ipromote t) x.
Proof.
  intros Ht. unfold ipromote. destruct (isize t <? 4) eqn:E; [|tauto]. unfold irange, imin, imax.
  pose proof (half_cases t Ht). change (imod (mkity 4 true)) with 4294967296. cbn [isigned].
  change (4294967296 / 2) with 2147483648. destruct (isigned t); lia.
Qed.
Lemma iarith_ok t x : irange t x -> ity_ok t -> iarith t x = Ok x.
Proof.
  unfold iarith. intros H Ht. destruct (isigned t) eqn:E.
  - unfold irangeb. unfold irange in H. destruct ((imin t <=? x) && (x <=? imax t)) eqn:E1; [reflexivity|lia].
  - unfold irange, imin, imax in H. rewrite E in H. now rewrite Z.mod_small by lia.
Qed.
Lemma promote_ok t : ity_ok t -> ity_ok (ipromote t).
Proof. unfold ipromote. destruct (isize t <? 4); [|tauto]. intros _. unfold ity_ok. cbn. tauto. Qed.
Lemma parith t x : ity_ok t -> irange t x -> iarith (ipromote t) x = Ok x.
Proof. intros. apply iarith_ok; auto using irange_promote, promote_ok. Qed.
Lemma irange_0 t : ity_ok t -> irange t 0.
Proof. intros Ht. unfold irange, imin, imax. pose proof (half_cases t Ht). destruct (isigned t); lia. Qed.
Lemma irange_btw t v x : ity_ok t -> irange t v -> 0 <= x <= v \/ v <= x <= 0 -> irange t x.
Proof. intros Ht Hv H. pose proof (irange_0 t Ht). unfold irange in *. lia. Qed.
Lemma int_dom_pos t x : ity_ok t -> irange t x -> 0 <= x \/ imin t < x -> int_dom t x.
Proof.
  intros Ht Hx H. split; [exact Hx|]. destruct (isigned t) eqn:E; [|left; now right]. right.
  unfold imin in *. rewrite E in *. pose proof (half_cases t Ht). lia.
Qed.

(** ---- reading ---- *)
Definition uok (t : ity) (fr n : Z) (u : tunit) : Prop :=
  int_dom t n /\
  match u with
  | Day => irange t (n * 86400) /\ irange t (n * 86400 * fr)
  | Hour => irange t (n * 3600) /\ irange t (n * 3600 * fr)
  | Minute => irange t (n * 60) /\ irange t (n * 60 * fr)
  | _ => irange t (n * fr)
  end.
Fixpoint sok (t : ity) (fr v : Z) (l : list (Z * tunit)) : Prop :=
  match l with
  | [] => True
  | (n, u) :: l' => uok t fr n u /\ irange t (v + unit_ticks fr n u) /\ sok t fr (v + unit_ticks fr n u) l'
  end.

Lemma time_add_ok t fr v n k : ity_ok t -> irange t (n * k) -> irange t (n * k * fr) -> irange t (v + n * k * fr) ->
  time_add t fr v n k = Ok (v + n * k * fr).
Proof. intros. unfold time_add. rewrite !parith by assumption. cbn [bind]. rewrite !parith by assumption. cbn [bind]. rewrite !parith by assumption. cbn [bind]. now rewrite icast_id. Qed.
Lemma time_addq_ok t fr v n k : ity_ok t -> irange t (n * fr) -> irange t (v + Z.quot (n * fr) k) ->
  time_addq t fr v n k = Ok (v + Z.quot (n * fr) k).
Proof. intros. unfold time_addq. rewrite !parith by assumption. cbn [bind]. rewrite !parith by assumption. cbn [bind]. now rewrite icast_id. Qed.

Lemma jint_head n s : jint n s -> exists c t, s = c :: t /\ (s_digit c \/ c = MINUS).
Proof.
  intros [i Hi|i Hi].
  - destruct Hi as [|d ds Hd _]; eexists _, _; (split; [reflexivity|]); left; unfold s_digit; lia.
  - eexists _, _. split; [reflexivity|]. now right.
Qed.
Lemma comps_head l x : comps l x -> x = [] \/ exists c t, x = c :: t /\ (s_digit c \/ c = MINUS).
Proof.
  destruct 1 as [|n u l s x Hj _]; [now left|]. right. destruct (jint_head n s Hj) as (c & t & -> & H).
  exists c, (t ++ unit_text u ++ x). auto.
Qed.
Definition tend (r : buf) : Prop := r = [] \/ exists q, r = QT :: q.

Lemma time_loop_comps t fr l x : ity_ok t -> comps l x -> forall v f sn r e, sok t fr v l -> tend r -> no_err_yet e = true ->
  time_loop t fr (length l + f) sn v (x ++ r) e = time_loop t fr f sn (v + ticks fr l) r e.
Proof.
  intros Ht. induction 1 as [|n u l s x Hj Hx IH]; intros v f sn r e Hs Hr He.
  { cbn [length plus app ticks]. now rewrite Z.add_0_r. }
  destruct Hs as ((Hn & Hu) & Hv & Hs). cbn [length plus ticks]. rewrite Z.add_assoc.
  destruct (jint_head n s Hj) as (c & y & E & Hc).
  assert (Hd : int_des t sn 0 (s ++ (unit_text u ++ x ++ r)) e = Ok (n, unit_text u ++ x ++ r, e)).
  { apply int_des_in_range; auto. right. right. destruct u; cbn; unfold s_digit; lia. }
  replace ((s ++ unit_text u ++ x) ++ r) with (s ++ unit_text u ++ x ++ r) by now rewrite <- !app_assoc.
  cbn [time_loop]. rewrite Hd. rewrite E. cbn [app].
  replace (c =? QT) with false by (symmetry; unfold s_digit in Hc; lia). cbn [bind].
  unfold has_err. rewrite He. cbn [negb].
  specialize (IH (v + unit_ticks fr n u) f sn r e Hs Hr He). rewrite <- IH. clear IH Hd.
  assert (Hm : x ++ r = [] \/ exists w z, x ++ r = w :: z /\ w <> 115 /\ w <> 107).
  { destruct (comps_head l x Hx) as [->|(w & z & -> & Hw)].
    - destruct Hr as [->|(q & ->)]; [now left|]. right. exists QT, q. split; [reflexivity|lia].
    - right. exists w, (z ++ r). split; [reflexivity|]. unfold s_digit in Hw. lia. }
  destruct u; cbn [unit_text]; cbn [unit_ticks] in *.
  - change (text "d" ++ x ++ r) with (100 :: x ++ r). cbn [Z.eqb Pos.eqb]. rewrite time_add_ok by tauto. reflexivity.
  - change (text "h" ++ x ++ r) with (104 :: x ++ r). cbn [Z.eqb Pos.eqb]. rewrite time_add_ok by tauto. reflexivity.
  - change (text "m" ++ x ++ r) with (109 :: x ++ r). cbn [Z.eqb Pos.eqb]. rewrite time_add_ok by tauto. cbn [bind].
    destruct Hm as [->|(w & z & -> & W1 & W2)]; [reflexivity|].
    replace (w =? 115) with false by lia. replace (w =? 107) with false by lia. reflexivity.
  - change (text "s" ++ x ++ r) with (115 :: x ++ r). cbn [Z.eqb Pos.eqb].
    rewrite time_add_ok by (rewrite ?Z.mul_1_r; unfold int_dom in Hn; tauto). cbn [bind]. now rewrite Z.mul_1_r.
  - change (text "ms" ++ x ++ r) with (109 :: 115 :: x ++ r). cbn [Z.eqb Pos.eqb]. rewrite time_addq_ok by tauto. reflexivity.
  - change (text "mks" ++ x ++ r) with (109 :: 107 :: 115 :: x ++ r). cbn [Z.eqb Pos.eqb]. rewrite time_addq_ok by tauto. reflexivity.
Qed.

Lemma comps_len l x : comps l x -> (length l <= length x)%nat.
Proof.
  induction 1 as [|n u l s x Hj _ IH]; [cbn; lia|]. destruct (jint_head n s Hj) as (c & t & -> & _).
  cbn [length app]. rewrite !app_length. lia.
Qed.
Lemma fuel_split l x r : comps l x -> exists f, S (length (x ++ r)) = (length l + S f)%nat.
Proof. intros H. apply comps_len in H. rewrite app_length. exists (length x - length l + length r)%nat. lia. Qed.

Theorem time_read t fr l x sn old r e : ity_ok t -> comps l x -> sok t fr 0 l -> no_err_yet e = true ->
  time_des t fr sn old (QT :: x ++ QT :: r) e = Ok (ticks fr l, r, e).
Proof.
  intros Ht Hx Hs He. unfold time_des. change (is_null (QT :: x ++ QT :: r)) with false.
  change (is_number (QT :: x ++ QT :: r)) with false. change (is_string (QT :: x ++ QT :: r)) with true. cbn [negb].
  destruct (fuel_split l x (QT :: r) Hx) as (f & ->).
  rewrite (time_loop_comps t fr l x Ht Hx 0 (S f)) by (auto; right; now exists r). reflexivity.
Qed.
Theorem time_read_open t fr l x sn old e : ity_ok t -> comps l x -> sok t fr 0 l -> no_err_yet e = true ->
  time_des t fr sn old (QT :: x) e = Ok (ticks fr l, [], cerr UnexpectedEndFragment None 0 e).
Proof.
  intros Ht Hx Hs He. unfold time_des. change (is_null (QT :: x)) with false.
  change (is_number (QT :: x)) with false. change (is_string (QT :: x)) with true. cbn [negb].
  destruct (fuel_split l x [] Hx) as (f & E). rewrite app_nil_r in E. rewrite E.
  pose proof (time_loop_comps t fr l x Ht Hx 0 (S f) sn [] e Hs (or_introl eq_refl) He) as K. rewrite app_nil_r in K. rewrite K. reflexivity.
Qed.

(** enough room for the weights *)
Definition signs (t : ity) (l : list (Z * tunit)) : Prop := isigned t = true \/ Forall (fun c => 0 <= fst c) l.
Lemma fits t x m : ity_ok t -> isigned t = true \/ 0 <= x -> Z.abs x <= m -> m <= imax t -> irange t x.
Proof. intros Ht Hs Hm Hi. unfold irange, imin, imax in *. pose proof (half_cases t Ht). destruct (isigned t); [lia|]. destruct Hs; [discriminate|lia]. Qed.
Lemma quot_abs a k : 0 < k -> Z.abs (Z.quot a k) <= Z.abs a.
Proof. intros. rewrite <- Z.quot_abs by lia. rewrite (Z.abs_eq k) by lia. apply Z.quot_le_upper_bound; nia. Qed.
Lemma unit_weight_nonneg fr n u : 1 <= fr -> 0 <= unit_weight fr n u.
Proof. intros. destruct u; cbn; nia. Qed.
Lemma weight_nonneg fr l : 1 <= fr -> 0 <= weight fr l.
Proof. intros. induction l as [|(n & u) l IH]; cbn; [lia|]. pose proof (unit_weight_nonneg fr n u). lia. Qed.
Lemma ticks_abs fr n u : 1 <= fr -> Z.abs (unit_ticks fr n u) <= unit_weight fr n u.
Proof.
  intros. destruct u; cbn [unit_ticks unit_weight]; rewrite ?Z.abs_mul; try nia.
Qed.
Lemma ticks_pos fr n u : 1 <= fr -> 0 <= n -> 0 <= unit_ticks fr n u.
Proof. intros. destruct u; cbn [unit_ticks]; try nia; apply Z.quot_pos; nia. Qed.

Lemma weight_sok t fr l : ity_ok t -> 1 <= fr -> signs t l -> forall v, (isigned t = true \/ 0 <= v) ->
  Z.abs v + weight fr l <= imax t -> sok t fr v l.
Proof.
  intros Ht Hf Hs. induction l as [|(n & u) l IH]; intros v Hv Hw; [exact I|].
  assert (Hn : isigned t = true \/ 0 <= n) by (destruct Hs as [Hs|Hs]; [now left|right; now inversion Hs]).
  assert (Hs' : signs t l) by (destruct Hs as [Hs|Hs]; [now left|right; now inversion Hs]).
  cbn [weight] in Hw. pose proof (weight_nonneg fr l Hf). pose proof (ticks_abs fr n u Hf). pose proof (unit_weight_nonneg fr n u Hf).
  assert (Hp : isigned t = true \/ 0 <= unit_ticks fr n u) by (destruct Hn; [now left|right; now apply ticks_pos]).
  cbn [sok]. split; [|split; [|apply IH; auto; [destruct Hv; [now left|destruct Hp; [now left|right; lia]]|lia]]].
  - assert (W : forall x, (isigned t = true \/ 0 <= x) -> Z.abs x <= unit_weight fr n u -> irange t x).
    { intros x Hx Hm. apply fits with (unit_weight fr n u); auto. lia. }
    split.
    + apply int_dom_pos; [exact Ht|apply W; [exact Hn|destruct u; cbn [unit_weight]; nia]|].
      destruct Hn as [Hn|Hn]; [|now left]. right. assert (Z.abs n <= unit_weight fr n u) by (destruct u; cbn [unit_weight]; nia).
      unfold imin, imax in *. rewrite Hn in *. lia.
    + destruct u; cbn [unit_weight] in W; repeat split; apply W; try nia; destruct Hn; (now left) || (right; nia).
  - apply fits with (Z.abs v + unit_weight fr n u); [exact Ht| |lia|lia].
    destruct Hv; [now left|]. destruct Hp; [now left|]. right. lia.
Qed.

(** ---- laws ---- *)
Lemma tadd_bind t fr v n k (B : Type) (f : Z -> res B) (Q : res B -> Prop) : Q UB -> (forall w, Q (f w)) -> Q (bind (time_add t fr v n k) f).
Proof.
  intros H1 H2. unfold time_add, iarith. repeat (match goal with |- context[if ?b then _ else _] => destruct b end; cbn [bind]; auto).
Qed.
Lemma taddq_bind t fr v n k (B : Type) (f : Z -> res B) (Q : res B -> Prop) : Q UB -> (forall w, Q (f w)) -> Q (bind (time_addq t fr v n k) f).
Proof.
  intros H1 H2. unfold time_addq, iarith. repeat (match goal with |- context[if ?b then _ else _] => destruct b end; cbn [bind]; auto).
Qed.
Definition tgood (s : buf) (e : eptr) (x : res (Z * buf * eptr + Z * buf * eptr)) : Prop :=
  match x with
  | Ok (inl (_, r, e')) | Ok (inr (_, r, e')) => suffix r s /\ estep s e e'
  | UB => True
  | Fuel => False
  end.
Lemma tgood_weaken s s' e e' x : suffix s' s -> estep s e e' -> tgood s' e' x -> tgood s e x.
Proof.
  intros Hs He. destruct x as [[[[v r] e2]|[[v r] e2]]| |]; cbn; [| |tauto|tauto];
    (intros (H1 & H2); split; [now apply suffix_trans with s'|]; eapply estep_trans; [exact He|]; eapply estep_weaken; eassumption).
Qed.
Lemma time_loop_good t fr f : forall sn v s e, (length s < f)%nat -> tgood s e (time_loop t fr f sn v s e).
Proof.
  induction f as [|f IH]; intros sn v s e Hf; [lia|]. cbn [time_loop]. destruct s as [|c s0]; [split; [apply suffix_refl|apply estep_refl]|].
  destruct (c =? QT); [split; [apply suffix_refl|apply estep_refl]|].
  pose proof (int_dlaw t sn 0 (c :: s0) e) as G. destruct (int_des t sn 0 (c :: s0) e) as [[[cur s1] e1]| |]; cbn [bind]; [|exact I|exact G].
  destruct G as (Gs & Ge). destruct (has_err e1); [now split|]. destruct s1 as [|u s2]; [now split|].
  assert (K : forall s3 w, suffix s3 s2 -> tgood (c :: s0) e (time_loop t fr f sn w s3 e1)).
  { intros s3 w H3. apply tgood_weaken with s3 e1.
    - eapply suffix_trans; [exact H3|]. eapply suffix_trans; [|exact Gs]. auto with suf.
    - exact Ge.
    - apply IH. pose proof (suffix_dist _ _ Gs) as D1. pose proof (suffix_dist _ _ H3) as D2. unfold dist in *. cbn [length] in *. lia. }
  destruct (u =? 100); [apply tadd_bind; [exact I|intros; apply K, suffix_refl]|].
  destruct (u =? 104); [apply tadd_bind; [exact I|intros; apply K, suffix_refl]|].
  destruct (u =? 109).
  - destruct s2 as [|w s3]; [apply tadd_bind; [exact I|intros; apply K, suffix_refl]|].
    destruct (w =? 115); [apply taddq_bind; [exact I|intros; apply K; auto with suf]|].
    destruct (w =? 107); [|apply tadd_bind; [exact I|intros; apply K, suffix_refl]].
    apply taddq_bind; [exact I|]. intros w0. destruct s3 as [|y s4]; [exact I|]. cbn [step bind]. apply K. auto with suf.
  - destruct (u =? 115); [apply tadd_bind; [exact I|intros; apply K, suffix_refl]|]. apply K, suffix_refl.
Qed.
Theorem time_dlaw t fr : dlaw (time_des t fr).
Proof.
  intros sn old s e. unfold time_des. destruct s as [|c s0]; [apply dgood_err; [discriminate|cbn; lia]|].
  destruct (is_null (c :: s0)); [apply (dgood_pair (c :: s0) e parse_null (fun _ => 0)); apply null_good|].
  destruct (is_number (c :: s0)); [apply int_dlaw|].
  destruct (negb (is_string (c :: s0))); [apply dgood_err; [discriminate|pose proof (dist_pos (c :: s0)); lia]|].
  pose proof (time_loop_good t fr (S (length s0)) sn 0 s0 e ltac:(lia)) as G.
  destruct (time_loop t fr (S (length s0)) sn 0 s0 e) as [[[[v r] e1]|[[v r] e1]]| |]; cbn [bind]; [| |exact I|exact G].
  - destruct G as (G1 & G2). apply (estep_weaken (c :: s0)) in G2; [|auto with suf].
    pose proof (dist_pos (c :: s0)). destruct r as [|d r].
    { split; [apply suffix_nil|]. eapply estep_trans; [exact G2|]. apply estep_cerr; [discriminate|lia]. }
    destruct (negb (d =? QT)).
    { split; [apply suffix_nil|]. eapply estep_trans; [exact G2|]. apply estep_cerr; [discriminate|lia]. }
    split; [|exact G2]. apply suffix_trans with (d :: r); [auto with suf|]. eapply suffix_trans; [exact G1|auto with suf].
  - destruct G as (G1 & G2). split; [eapply suffix_trans; [exact G1|auto with suf]|]. eapply estep_weaken; [|exact G2]. auto with suf.
Qed.

(** ---- writing ---- *)
Definition opt (n : Z) (u : tunit) : list (Z * tunit) := if n =? 0 then [] else [(n, u)].
Lemma comps_app l1 x1 l2 x2 : comps l1 x1 -> comps l2 x2 -> comps (l1 ++ l2) (x1 ++ x2).
Proof.
  induction 1 as [|n u l s x Hj Hx IH]; intros H; [exact H|]. cbn [app].
  replace ((s ++ unit_text u ++ x) ++ x2) with (s ++ unit_text u ++ (x ++ x2)) by now rewrite <- !app_assoc.
  constructor; auto.
Qed.
Lemma comps_one n u s : jint n s -> comps [(n, u)] (s ++ unit_text u).
Proof. intros H. rewrite <- (app_nil_r (unit_text u)). constructor; [exact H|constructor]. Qed.
Definition part (x : res (list op)) (l : list (Z * tunit)) : Prop := exists o, x = Ok o /\ comps l (flat o).
Lemma write_if_part t n u ch : ity_ok t -> irange t n -> unit_text u = [ch] -> part (time_write_if t n ch) (opt n u).
Proof.
  intros Ht Hn Hu. unfold time_write_if, opt, part. destruct (n =? 0); [exists []; split; [reflexivity|constructor]|].
  destruct (int_ser_numeral t n Ht Hn) as (s & -> & Hs). cbn [bind]. eexists. split; [reflexivity|].
  change (flat [Sub (wr s); W ch]) with (flat ([Sub (wr s)] ++ [W ch])). rewrite flat_app, flat_sub, flat_wr.
  change (flat [W ch]) with [ch]. rewrite <- Hu. apply comps_one. now apply numeral_jint.
Qed.
Lemma write_if_part2 t n u suf : ity_ok t -> irange t n -> unit_text u = 109 :: suf ->
  part (if 0 <? n then let* o := time_write_if t n 109 in Ok (o ++ wr suf) else Ok []) (if 0 <? n then [(n, u)] else []).
Proof.
  intros Ht Hn Hu. destruct (0 <? n) eqn:E; [|exists []; split; [reflexivity|constructor]].
  unfold time_write_if. replace (n =? 0) with false by lia. destruct (int_ser_numeral t n Ht Hn) as (s & -> & Hs). cbn [bind]. eexists. split; [reflexivity|].
  change ([Sub (wr s); W 109] ++ wr suf) with ([Sub (wr s)] ++ wr (109 :: suf)). rewrite flat_app, flat_sub, !flat_wr.
  rewrite <- Hu. apply comps_one. now apply numeral_jint.
Qed.

Lemma sok_app t fr l1 : forall v l2, sok t fr v (l1 ++ l2) <-> sok t fr v l1 /\ sok t fr (v + ticks fr l1) l2.
Proof.
  induction l1 as [|(n & u) l1 IH]; intros v l2; cbn [app sok ticks]; [rewrite Z.add_0_r; tauto|].
  rewrite IH, Z.add_assoc. tauto.
Qed.
Lemma ticks_app fr l1 l2 : ticks fr (l1 ++ l2) = ticks fr l1 + ticks fr l2.
Proof. induction l1 as [|(n & u) l1 IH]; cbn [app ticks]; lia. Qed.
Lemma ticks_zero fr u : unit_ticks fr 0 u = 0.
Proof. destruct u; reflexivity. Qed.
Lemma ticks_opt fr n u : ticks fr (opt n u) = unit_ticks fr n u.
Proof. unfold opt. destruct (Z.eqb_spec n 0) as [->|H]; cbn [ticks]; [now rewrite ticks_zero|lia]. Qed.
Lemma sok_opt t fr v n u : (n <> 0 -> uok t fr n u /\ irange t (v + unit_ticks fr n u)) -> sok t fr v (opt n u).
Proof. unfold opt. intros H. destruct (Z.eqb_spec n 0) as [->|Hn]; cbn [sok]; [exact I|tauto]. Qed.

Lemma split_seconds q : exists D H M S, D = Z.quot q 86400 /\ H = Z.quot (q - D * 86400) 3600 /\
  M = Z.quot (q - H * 3600 - D * 86400) 60 /\ S = Z.rem q 60 /\ D * 86400 + H * 3600 + M * 60 + S = q /\
  Z.abs H < 24 /\ Z.abs M < 60 /\ Z.abs S < 60 /\
  (0 <= q /\ 0 <= D /\ 0 <= H /\ 0 <= M /\ 0 <= S \/ q <= 0 /\ D <= 0 /\ H <= 0 /\ M <= 0 /\ S <= 0).
Proof.
  do 4 eexists. do 4 (split; [reflexivity|]). Z.to_euclidean_division_equations. lia.
Qed.

Definition tailspec (t : ity) (fr v : Z) : Prop :=
  exists l, part (time_ser_tail t fr v) l /\ sok t fr (Z.quot v fr * fr) l /\ Z.quot v fr * fr + ticks fr l = v.

Definition btw (x v : Z) : Prop := 0 <= x <= v \/ v <= x <= 0.
Lemma btw_scale x q fr v : 1 <= fr -> btw x q -> btw (q * fr) v -> btw (x * fr) v /\ btw x v.
Proof. unfold btw. intros. nia. Qed.
Lemma btw_mul n k q : 1 <= k -> btw (n * k) q -> btw n q.
Proof. unfold btw. intros. nia. Qed.
Lemma btw_quot v fr : 1 <= fr -> btw (Z.quot v fr * fr) v.
Proof.
  unfold btw. intros Hf. destruct (Z_le_gt_dec 0 v).
  - left. pose proof (Z.quot_pos v fr). pose proof (Z.mul_quot_le v fr). nia.
  - right. pose proof (Z.mul_quot_ge v fr). assert (Z.quot v fr <= 0) by (pose proof (Z.quot_pos (- v) fr); rewrite Z.quot_opp_l in *; lia). nia.
Qed.

Definition hide (P : Prop) : Prop := P.
Lemma time_ser_gen t fr v : ity_ok t -> irange t v -> 1 <= fr -> tailspec t fr v ->
  exists ops l x, time_ser t fr v = Ok ops /\ flat ops = QT :: x ++ [QT] /\ comps l x /\ sok t fr 0 l /\ ticks fr l = v.
Proof.
  intros Ht Hv Hf (l5 & (o5 & E5 & C5) & S5 & T5). remember (Z.quot v fr) as q eqn:Vq.
  assert (Hq : btw (q * fr) v) by (subst q; now apply btw_quot).
  destruct (split_seconds q) as (D & H & M & S & ED & EH & EM & ES & Eq & BH & BM & BS & Sg).
  assert (EQS : hide (q = Z.quot v fr /\ D = Z.quot q 86400 /\ H = Z.quot (q - D * 86400) 3600 /\ M = Z.quot (q - H * 3600 - D * 86400) 60 /\ S = Z.rem q 60)) by (unfold hide; auto).
  clear Vq ED EH EM ES.
  assert (R : forall x, btw x q -> irange t (x * fr) /\ irange t x).
  { intros x Hx. destruct (btw_scale x q fr v Hf Hx Hq). split; now apply irange_btw with v. }
  assert (N : forall n k, 1 <= k -> btw (n * k) q -> irange t n /\ irange t (n * k) /\ irange t (n * k * fr)).
  { intros n k Hk Hn. destruct (R _ Hn). split; [|tauto]. apply R. now apply btw_mul with k. }
  destruct (N D 86400) as (D1 & D2 & D3); [lia|clear - Eq Sg; unfold btw; lia|]. destruct (N H 3600) as (H1 & H2 & H3); [lia|clear - Eq Sg; unfold btw; lia|].
  destruct (N M 60) as (M1 & M2 & M3); [lia|clear - Eq Sg; unfold btw; lia|]. destruct (N S 1) as (S1 & S2 & S3); [lia|clear - Eq Sg; unfold btw; lia|]. rewrite Z.mul_1_r in *.
  assert (Q1 : irange t q) by (apply R; clear - Eq Sg; unfold btw; lia).
  assert (MI : isigned t = true -> imin t <= - 100) by (clear - Ht; intros E; unfold imin; rewrite E; pose proof (half_cases t Ht); lia).
  assert (DD : int_dom t D /\ int_dom t H /\ int_dom t M /\ int_dom t S).
  { assert (Q0 : isigned t = false -> 0 <= q).
    { clear - Q1. intros E. unfold irange, imin in Q1. rewrite E in Q1. lia. }
    assert (QM : imin t <= q) by apply Q1. clear - Ht D1 H1 M1 S1 MI Q0 QM Eq Sg BH BM BS.
    split; [|split; [|split]]; (apply int_dom_pos; [exact Ht|assumption|]);
      destruct (isigned t); try (specialize (MI eq_refl); lia); specialize (Q0 eq_refl); lia. }
  destruct DD as (DD & DH & DM & DS).
  destruct (write_if_part t D Day 100 Ht D1 eq_refl) as (o1 & W1 & C1).
  destruct (write_if_part t H Hour 104 Ht H1 eq_refl) as (o2 & W2 & C2).
  destruct (write_if_part t M Minute 109 Ht M1 eq_refl) as (o3 & W3 & C3).
  destruct (write_if_part t S Second 115 Ht S1 eq_refl) as (o4 & W4 & C4).
  eexists _, (opt D Day ++ opt H Hour ++ opt M Minute ++ opt S Second ++ l5), (flat o1 ++ flat o2 ++ flat o3 ++ flat o4 ++ flat o5).
  split; [|split; [|split; [|split]]].
  - assert (irange t (q - D * 86400) /\ irange t (q - H * 3600) /\ irange t (q - H * 3600 - D * 86400)) as (G1 & G2 & G3).
    { repeat split; apply R; clear - Eq Sg; unfold btw; lia. }
    destruct EQS as (Vq & ED & EH & EM & ES). unfold time_ser. rewrite <- Vq, (icast_id t q), <- ED, (icast_id t D) by assumption. rewrite W1. cbn [bind].
    rewrite (parith t (D * 86400)) by assumption. cbn [bind].
    rewrite (parith t (q - D * 86400)) by assumption. cbn [bind].
    rewrite <- EH, (icast_id t H), W2 by assumption. cbn [bind].
    rewrite (parith t (H * 3600)) by assumption. cbn [bind].
    rewrite (parith t (q - H * 3600)) by assumption. cbn [bind].
    rewrite (parith t (q - H * 3600 - D * 86400)) by assumption. cbn [bind].
    rewrite <- EM, (icast_id t M), W3 by assumption. cbn [bind].
    rewrite <- ES, (icast_id t S), W4 by assumption. cbn [bind]. rewrite E5. cbn [bind]. reflexivity.
  - rewrite !flat_app. change (flat [W QT]) with [QT]. cbn [app]. now rewrite <- !app_assoc.
  - repeat apply comps_app; assumption.
  - repeat (rewrite sok_app; split); rewrite ?ticks_opt; cbn [unit_ticks].
    + apply sok_opt. intros _. cbn [unit_ticks]. split; [split; [assumption|first [assumption|split; assumption]]|]. rewrite Z.add_0_l. assumption.
    + apply sok_opt. intros _. cbn [unit_ticks]. split; [split; [assumption|first [assumption|split; assumption]]|]. replace (0 + D * 86400 * fr + H * 3600 * fr) with ((D * 86400 + H * 3600) * fr) by ring. refine (proj1 (R _ _)). clear - Eq Sg. unfold btw. lia.
    + apply sok_opt. intros _. cbn [unit_ticks]. split; [split; [assumption|first [assumption|split; assumption]]|]. replace (0 + D * 86400 * fr + H * 3600 * fr + M * 60 * fr) with ((D * 86400 + H * 3600 + M * 60) * fr) by ring. refine (proj1 (R _ _)). clear - Eq Sg. unfold btw. lia.
    + apply sok_opt. intros _. cbn [unit_ticks]. split; [split; [assumption|first [assumption|split; assumption]]|]. replace (0 + D * 86400 * fr + H * 3600 * fr + M * 60 * fr + S * fr) with ((D * 86400 + H * 3600 + M * 60 + S) * fr) by ring. refine (proj1 (R _ _)). clear - Eq Sg. unfold btw. lia.
    + replace (0 + D * 86400 * fr + H * 3600 * fr + M * 60 * fr + S * fr) with (q * fr) by (rewrite <- Eq; ring). exact S5.
  - rewrite !ticks_app, !ticks_opt. cbn [unit_ticks]. rewrite <- T5, <- Eq. ring.
Qed.

Lemma whole_tail t fr v : 1 <= fr -> Z.rem v fr = 0 -> tailspec t fr v.
Proof.
  intros Hf H. exists []. split; [|split; [exact I|]].
  - exists []. split; [|constructor]. unfold time_ser_tail. now rewrite H.
  - cbn [ticks]. pose proof (Z.quot_rem v fr). lia.
Qed.
Lemma mks_tail t v : ity_ok t -> irange t 1000000 -> irange t v -> 0 <= v -> tailspec t 1000000 v.
Proof.
  intros Ht Hf Hv Hp. set (R := Z.rem v 1000000). pose proof (Z.rem_bound_pos v 1000000 Hp ltac:(lia)) as HR. fold R in HR.
  pose proof (Z.quot_rem v 1000000 ltac:(lia)) as HQ. fold R in HQ. set (q := Z.quot v 1000000) in *.
  assert (B : 2147483647 <= imax t).
  { unfold irange, imax in *. pose proof (half_cases t Ht). destruct (isigned t); lia. }
  assert (L : imin t <= 0) by apply (irange_0 t Ht).
  assert (I : forall x, 0 <= x <= 2147483647 -> irange t x) by (unfold irange; intros; lia).
  set (ms := R / 1000). set (mks := R mod 1000).
  assert (E : R = ms * 1000 + mks /\ 0 <= ms < 1000 /\ 0 <= mks < 1000).
  { unfold ms, mks. pose proof (Z.div_mod R 1000). pose proof (Z.mod_pos_bound R 1000). assert (R / 1000 < 1000) by (apply Z.div_lt_upper_bound; lia). pose proof (Z.div_pos R 1000). lia. }
  destruct E as (E & Bms & Bmks).
  assert (Ems : Z.quot (R * 1000) 1000000 = ms).
  { rewrite Z.quot_div_nonneg by lia. symmetry. apply Z.div_unique with (mks * 1000); lia. }
  destruct (write_if_part2 t ms Millisecond [115] Ht (I ms ltac:(lia)) eq_refl) as (o1 & W1 & C1).
  destruct (write_if_part2 t mks Microsecond [107; 115] Ht (I mks ltac:(lia)) eq_refl) as (o2 & W2 & C2).
  exists ((if 0 <? ms then [(ms, Millisecond)] else []) ++ (if 0 <? mks then [(mks, Microsecond)] else [])).
  assert (T1 : ticks 1000000 (if 0 <? ms then [(ms, Millisecond)] else []) = ms * 1000).
  { destruct (0 <? ms) eqn:E1; cbn [ticks unit_ticks]; [|lia].
    replace (ms * 1000000) with (ms * 1000 * 1000) by ring. rewrite Z.quot_mul by lia. lia. }
  assert (T2 : ticks 1000000 (if 0 <? mks then [(mks, Microsecond)] else []) = mks).
  { destruct (0 <? mks) eqn:E1; cbn [ticks unit_ticks]; [|lia]. rewrite Z.quot_mul by lia. lia. }
  split; [|split].
  - unfold time_ser_tail. fold R. destruct (Z.eqb_spec R 0) as [R0|R0].
    { replace (0 <? ms) with false by lia. replace (0 <? mks) with false by lia. exists []. split; [reflexivity|constructor]. }
    exists (o1 ++ o2). split; [|rewrite flat_app; now apply comps_app].
    rewrite (icast_id t R) by (auto; apply I; lia). rewrite (parith t (R * 1000)) by (auto; apply I; lia). cbn [bind].
    rewrite Ems, (icast_id t ms) by (auto; apply I; lia). rewrite (parith t (ms * 1000)) by (auto; apply I; lia). cbn [bind].
    replace (R - ms * 1000) with mks by lia. rewrite (parith t mks) by (auto; apply I; lia). cbn [bind].
    rewrite (icast_id t mks) by (auto; apply I; lia). rewrite (parith t (mks * 1000000)) by (auto; apply I; lia). cbn [bind].
    rewrite Z.quot_mul by lia. rewrite (icast_id t mks) by (auto; apply I; lia).
    change (wr [115]) with [W 115] in W1. change (wr [107; 115]) with [W 107; W 115] in W2. rewrite W1. cbn [bind]. rewrite W2. reflexivity.
  - assert (V : forall x, 0 <= x <= v -> irange t x) by (intros; apply irange_btw with v; auto).
    assert (0 <= q) by (apply Z.quot_pos; lia).
    rewrite sok_app, T1. split.
    + destruct (0 <? ms) eqn:E1; [|exact Logic.I]. cbn [sok ticks] in *. rewrite Z.add_0_r in T1. rewrite T1. split; [|split; [apply V; lia|exact Logic.I]].
      split; [apply int_dom_pos; auto; [apply I; lia|lia]|apply I; lia].
    + destruct (0 <? mks) eqn:E1; [|exact Logic.I]. cbn [sok ticks] in *. rewrite Z.add_0_r in T2. rewrite T2. split; [|split; [apply V; lia|exact Logic.I]].
      split; [apply int_dom_pos; auto; [apply I; lia|lia]|apply I; lia].
  - fold q. rewrite ticks_app, T1, T2. lia.
Qed.
Lemma ms_tail v : irange i64 v -> 0 <= v -> tailspec i64 1000 v.
Proof.
  intros Hv Hp. assert (Ht : ity_ok i64) by (unfold ity_ok; cbn; tauto).
  set (R := Z.rem v 1000). pose proof (Z.rem_bound_pos v 1000 Hp ltac:(lia)) as HR. fold R in HR.
  pose proof (Z.quot_rem v 1000 ltac:(lia)) as HQ. fold R in HQ. set (q := Z.quot v 1000) in *.
  assert (I : forall x, - 2 ^ 62 <= x <= 2 ^ 62 -> irange i64 x).
  { intros. unfold irange. change (imin i64) with (- 9223372036854775808). change (imax i64) with 9223372036854775807. lia. }
  destruct (write_if_part2 i64 R Millisecond [115] Ht (I R ltac:(lia)) eq_refl) as (o1 & W1 & C1).
  exists (if 0 <? R then [(R, Millisecond)] else []).
  assert (T1 : ticks 1000 (if 0 <? R then [(R, Millisecond)] else []) = R).
  { destruct (0 <? R) eqn:E1; cbn [ticks unit_ticks]; [|lia]. rewrite Z.quot_mul by lia. lia. }
  split; [|split].
  - unfold time_ser_tail. fold R. destruct (Z.eqb_spec R 0) as [R0|R0].
    { replace (0 <? R) with false by lia. exists []. split; [reflexivity|constructor]. }
    exists o1. split; [|exact C1].
    rewrite (icast_id i64 R) by (auto; apply I; lia). rewrite (parith i64 (R * 1000)) by (auto; apply I; lia). cbn [bind].
    rewrite Z.quot_mul, (icast_id i64 R) by (try lia; auto; apply I; lia). rewrite (parith i64 (R * 1000)) by (auto; apply I; lia). cbn [bind].
    rewrite (parith i64 (R - R * 1000)) by (auto; apply I; lia). cbn [bind].
    rewrite (icast_id i64 (R - R * 1000)) by (auto; apply I; lia). rewrite (parith i64 ((R - R * 1000) * 1000000)) by (auto; apply I; lia). cbn [bind].
    replace ((R - R * 1000) * 1000000) with (- 999000 * R * 1000) by ring. rewrite Z.quot_mul by lia. rewrite (icast_id i64 (- 999000 * R)) by (auto; apply I; lia).
    change (wr [115]) with [W 115] in W1. rewrite W1. cbn [bind]. replace (0 <? - 999000 * R) with false by lia. cbn [bind]. now rewrite app_nil_r.
  - destruct (0 <? R) eqn:E1; [|exact Logic.I]. cbn [sok ticks] in *. rewrite Z.add_0_r in T1. rewrite T1. split; [|split; [|exact Logic.I]].
    + split; [apply int_dom_pos; auto; [apply I; lia|lia]|apply I; lia].
    + fold q. replace (q * 1000 + R) with v by lia. exact Hv.
  - fold q. rewrite T1. lia.
Qed.

(** the values that survive: whole seconds in any unit; microseconds if not
    negative; milliseconds if not negative and T is a signed 64-bit type *)
Definition time_dom (t : ity) (fr v : Z) : Prop :=
  irange t v /\ (Z.rem v fr = 0 \/ fr = 1000000 /\ 0 <= v \/ fr = 1000 /\ t = i64 /\ 0 <= v).
Lemma time_dom_tail t fr v : ity_ok t -> 1 <= fr -> irange t fr -> time_dom t fr v -> tailspec t fr v.
Proof.
  intros Ht Hf Hr (Hv & [H|[(-> & H)|(-> & -> & H)]]); [now apply whole_tail|now apply mks_tail|now apply ms_tail].
Qed.
Theorem time_rt t fr : ity_ok t -> 1 <= fr -> irange t fr -> rt (time_codec t fr) (time_dom t fr).
Proof.
  intros Ht Hf Hr v Hv. destruct (time_ser_gen t fr v Ht (proj1 Hv) Hf (time_dom_tail t fr v Ht Hf Hr Hv)) as (ops & l & x & A & B & C & D & E).
  exists ops. split; [exact A|]. rewrite B. split; [exists QT, (x ++ [QT]); split; [reflexivity|unfold vstart; lia]|].
  intros sn old r e _ He. cbn [des time_codec]. replace ((QT :: x ++ [QT]) ++ r) with (QT :: x ++ QT :: r) by (cbn [app]; now rewrite <- app_assoc).
  rewrite (time_read t fr l) by assumption. now rewrite E.
Qed.
(** the text written is a list of components *)
Theorem time_writes t fr v : ity_ok t -> 1 <= fr -> irange t fr -> time_dom t fr v ->
  exists ops l x, time_ser t fr v = Ok ops /\ flat ops = QT :: x ++ [QT] /\ comps l x /\ ticks fr l = v.
Proof.
  intros Ht Hf Hr Hv. destruct (time_ser_gen t fr v Ht (proj1 Hv) Hf (time_dom_tail t fr v Ht Hf Hr Hv)) as (ops & l & x & A & B & C & D & E).
  exists ops, l, x. auto.
Qed.
Lemma rchars_ascii x : Forall (fun c => 32 <= c < 127 /\ c <> QT /\ c <> BSL) x -> rchars x.
Proof.
  induction 1 as [|c x Hc Hx IH]; [constructor|]. change (c :: x) with ([c] ++ x). apply rcs_cons; [|exact IH].
  replace [c] with (utf8_encode c) by (unfold utf8_encode; now replace (c <? 128) with true by lia).
  apply rc_plain; unfold scalar; lia.
Qed.
Lemma comps_ascii l x : comps l x -> Forall (fun c => 32 <= c < 127 /\ c <> QT /\ c <> BSL) x.
Proof.
  induction 1 as [|n u l s x Hj _ IH]; [constructor|]. apply Forall_app. split; [|apply Forall_app; split; [|exact IH]].
  - destruct Hj as [i Hi|i Hi]; apply rint_digits in Hi; [|constructor; [lia|]]; (eapply Forall_impl; [|exact Hi]); unfold s_digit; cbn; intros; lia.
  - destruct u; cbn; repeat constructor; lia.
Qed.
Theorem time_jout t fr : ity_ok t -> 1 <= fr -> irange t fr -> jout (time_codec t fr) (time_dom t fr).
Proof.
  intros Ht Hf Hr v Hv. destruct (time_writes t fr v Ht Hf Hr Hv) as (ops & l & x & A & B & C & _).
  exists ops. split; [exact A|]. rewrite B. apply rv_str, rstr, rchars_ascii. now apply comps_ascii with l.
Qed.
