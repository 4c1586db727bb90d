(** Proofs about failing typed readers. *)
From Verif Require Import Base Parser SpecJson SpecNum SpecString SpecEnum ParserFacts Grammar1 Grammar2 Out Number StringS Array Object Enum Float Wrap TimeSize CodecLaws NumberProofs StringProofs
  ArrayProofs EnumProofs AcceptProofs SpecReport SpecExact ExactProofs SpecRefuse RefuseProofs SpecFail.

(** ---- strings ---- *)
Definition EJ (x : bool) : eptr := if x then Some bad_digit else C0.
Lemma EJ_bad x : cerr InvalidString None 0 (EJ x) = EJ true. Proof. now destruct x. Qed.
Lemma EJ_cerr c m t x : c <> ValidJSON -> cerr c m t (EJ x) = Some (if x then bad_digit else mkerr c m t).
Proof. intros H. destruct x; reflexivity. Qed.
Lemma hexb_iff c : hexb c = true <-> s_hex c. Proof. unfold hexb, s_hex. lia. Qed.
Lemma lax_hex c : s_hex c -> lax c = hexv c. Proof. intros H. unfold lax. apply hexb_iff in H. now rewrite H. Qed.
Lemma lax_range c : 0 <= lax c < 16.
Proof. unfold lax. destruct (hexb c) eqn:E; [|lia]. apply hexb_iff in E. apply hexv_range in E. lia. Qed.
Lemma lax4_range a b c d : 0 <= lax4 a b c d < 65536.
Proof. unfold lax4. pose proof (lax_range a). pose proof (lax_range b). pose proof (lax_range c). pose proof (lax_range d). lia. Qed.
Lemma uchar2_lax c x : uchar2 c (EJ x) = (lax c, EJ (x || negb (hexb c))).
Proof.
  unfold lax. destruct (hexb c) eqn:E.
  - rewrite orb_false_r. apply hexb_iff in E. now apply uchar2_hexv.
  - rewrite orb_true_r. unfold uchar2. unfold hexb in E. destruct ((48 <=? c) && (c <=? 57)) eqn:E1; [lia|]. destruct ((97 <=? c) && (c <=? 102)) eqn:E2; [lia|].
    destruct ((65 <=? c) && (c <=? 70)) eqn:E3; [lia|]. f_equal. apply EJ_bad.
Qed.
Lemma uhex_lax a b c d s n x : n <> 0 -> uhex (a :: b :: c :: d :: s) n (EJ x) = uhex_emit (lax4 a b c d) [a; b; c; d] s n (EJ (x || negb (forallb hexb [a; b; c; d]))).
Proof.
  intros Hn. unfold uhex. destruct (n =? 0) eqn:E; [lia|]. rewrite !uchar2_lax. f_equal; [unfold lax4; lia|]. f_equal. cbn [forallb]. destruct x, (hexb a), (hexb b), (hexb c), (hexb d); reflexivity.
Qed.
Lemma emit_kept_any v cur s n e : kept v -> length cur = 4%nat -> 0 < n -> uhex_emit v cur s n e =
  (s, firstn (Z.to_nat (Z.min n 6)) (BSL :: 117 :: cur), n - Z.min n 6, e).
Proof.
  intros [H1 H2] Hc Hn. unfold short_ctl in H2. unfold uhex_emit. replace (v <? 32) with true by lia.
  replace ((v =? 9) || (v =? 13) || (v =? 10) || (v =? 8) || (v =? 12)) with false by lia. cbv zeta. f_equal. f_equal. f_equal. unfold dist.
  rewrite firstn_length. cbn [length]. rewrite Hc. lia.
Qed.
Lemma not_kept v : 0 <= v -> ~ kept v -> 32 <= v \/ short_ctl v.
Proof. unfold kept, short_ctl. lia. Qed.
Lemma u_step a b c d r f n x out : 0 < n -> str_loop (S f) (BSL :: 117 :: a :: b :: c :: d :: r) n (EJ x) out =
  let '(r', w, n', e') := uhex_emit (lax4 a b c d) [a; b; c; d] r n (EJ (x || negb (forallb hexb [a; b; c; d]))) in str_loop f r' n' e' (out ++ w).
Proof.
  intros Hn. cbn [str_loop]. change (BSL =? QT) with false. change (BSL =? BSL) with true. cbn [orb]. destruct (n =? 0) eqn:E; [lia|].
  change (unescape 117) with (@None Z). change (117 =? 117) with true. cbv iota. rewrite uhex_lax by lia. reflexivity.
Qed.
Lemma lchunk_run c w b : lchunk c w b -> c <> [] /\ w <> [] /\
  forall f r n x out, dist w <= n -> str_loop (S f) (c ++ r) n (EJ x) out = str_loop f r (n - dist w) (EJ (x || b)) (out ++ w).
Proof.
  intros H. destruct H as [c w H|a b c d H K|a b c d H K|a b H].
  - apply chunk_dchunk in H. destruct H as (A & B & H). split; [exact A|]. split; [exact B|]. intros f r n x out Hn. rewrite orb_false_r. now apply H.
  - split; [discriminate|]. split; [apply utf8_encode_nonempty|]. intros f r n x out Hn. pose proof (dist_nonempty _ (utf8_encode_nonempty (lax4 a b c d))). pose proof (lax4_range a b c d).
    cbn [app]. rewrite u_step by lia. rewrite uhex_emit_encode; [|lia|apply not_kept; [lia|exact K]|exact Hn]. rewrite H. reflexivity.
  - split; [discriminate|]. split; [discriminate|]. intros f r n x out Hn. unfold dist in Hn. cbn [length] in Hn. cbn [app]. rewrite u_step by lia. rewrite emit_kept_any by (assumption || reflexivity || lia).
    rewrite H. replace (Z.min n 6) with 6 by lia. reflexivity.
  - split; [discriminate|]. split; [discriminate|]. intros f r n x out Hn. unfold dist in Hn. cbn [length] in Hn. cbn [app str_loop]. change (BSL =? QT) with false. change (BSL =? BSL) with true. cbn [orb].
    destruct (n =? 0) eqn:E; [lia|]. change (unescape 120) with (@None Z). change (120 =? 117) with false. change (120 =? 120) with true. cbv iota. unfold xhex. rewrite !uchar2_lax.
    cbn [forallb] in H. f_equal. f_equal. destruct x, (hexb a), (hexb b); reflexivity || discriminate.
Qed.
Lemma lead_copy c k t n e : wlead c k -> (k <= 3)%nat -> unutf8 c t n e = utf8_copy (S k) (c :: t) n e.
Proof.
  intros Hk H3. assert (192 <= c <= 247) as Hc by (destruct Hk; lia). unfold unutf8.
  assert (X : (if Z.land c 128 =? 0 then false else if Z.land c 224 =? 192 then (c <=? 223) else if Z.land c 240 =? 224 then (224 <=? c) && (c <=? 239) else if Z.land c 248 =? 240 then 240 <=? c else false) || (c <? 192) || (247 <? c) = true).
  { apply (byte_sweep (fun c => (if Z.land c 128 =? 0 then false else if Z.land c 224 =? 192 then (c <=? 223) else if Z.land c 240 =? 224 then (224 <=? c) && (c <=? 239) else if Z.land c 248 =? 240 then 240 <=? c else false) || (c <? 192) || (247 <? c))); [vm_compute; reflexivity|lia]. }
  destruct (Z.land c 128 =? 0); [lia|]. destruct Hk as [c Hr|c Hr|c Hr|c Hr|c Hr]; try lia.
  - destruct (Z.land c 224 =? 192); [reflexivity|]. destruct (Z.land c 240 =? 224); [lia|]. destruct (Z.land c 248 =? 240); lia.
  - destruct (Z.land c 224 =? 192); [lia|]. destruct (Z.land c 240 =? 224); [reflexivity|]. destruct (Z.land c 248 =? 240); lia.
  - destruct (Z.land c 224 =? 192); [lia|]. destruct (Z.land c 240 =? 224); [lia|]. destruct (Z.land c 248 =? 240); [reflexivity|lia].
Qed.
Lemma copy_cut k : forall m r e, (length m < k)%nat -> utf8_copy k (m ++ r) (dist m) e = (r, m, 0, e).
Proof.
  induction k as [|k IH]; intros m r e Hm; [lia|]. cbn [utf8_copy]. destruct m as [|x m]; [reflexivity|]. pose proof (dist_pos m). rewrite dist_cons.
  destruct (1 + dist m =? 0) eqn:E; [lia|]. cbn [app]. replace (1 + dist m - 1) with (dist m) by lia. cbn [length] in Hm. rewrite IH by lia. reflexivity.
Qed.
Lemma copy_short k : forall m n e, (length m < k)%nat -> dist m <= n -> exists n', utf8_copy k m n e = ([], m, n', if n =? dist m then e else cerr UnexpectedEndFragment None 0 e).
Proof.
  induction k as [|k IH]; intros m n e Hm Hn; [lia|]. cbn [utf8_copy]. destruct m as [|x m].
  - rewrite dist_nil. destruct (n =? 0) eqn:E; eauto.
  - rewrite dist_cons in *. pose proof (dist_pos m). destruct (n =? 0) eqn:E; [lia|]. cbn [length] in Hm. destruct (IH m (n - 1) e ltac:(lia) ltac:(lia)) as (n' & ->).
    exists n'. replace (n - 1 =? dist m) with (n =? 1 + dist m) by lia. reflexivity.
Qed.
Lemma loose_room n l v x : loose n l v x -> 0 <= n -> dist v <= n.
Proof.
  induction 1 as [n|n c w x l v y Hc Hw Hl IH|n c k l Hk H3 Hl Hd|n a b c d K Hn]; intros H0.
  - exact H0.
  - rewrite dist_app. specialize (IH ltac:(lia)). lia.
  - lia.
  - unfold dist. rewrite firstn_length. lia.
Qed.
Lemma loose_run n l v y : loose n l v y -> 0 <= n -> forall t f x out, (length (l ++ t) < f)%nat ->
  exists f', (length t < f')%nat /\ str_loop f (l ++ t) n (EJ x) out = str_loop f' t (n - dist v) (EJ (x || y)) (out ++ v).
Proof.
  induction 1 as [n|n c w x0 l v y Hc Hw Hl IH|n c k l Hk H3 Hl Hd|n a b c d K Hn]; intros H0 t f x out Hf.
  - exists f. split; [exact Hf|]. rewrite dist_nil, Z.sub_0_r, orb_false_r, app_nil_r. reflexivity.
  - destruct (lchunk_run _ _ _ Hc) as (Nc & Nw & Hst). rewrite !app_length in Hf. destruct c as [|c0 c]; [congruence|]. cbn [length] in Hf. destruct f as [|f]; [lia|]. rewrite <- app_assoc. rewrite Hst by exact Hw.
    destruct (IH ltac:(lia) t f (x || x0) (out ++ w)) as (f' & Hf' & ->); [rewrite app_length; lia|]. exists f'. split; [exact Hf'|]. rewrite dist_app, orb_assoc, app_assoc. f_equal. lia.
  - destruct f as [|f]; [lia|]. exists f. split; [rewrite app_length in Hf; cbn [length] in Hf; lia|]. pose proof (dist_pos l) as Hp. rewrite dist_cons in Hd.
    assert (192 <= c <= 247) as Hc by (destruct Hk; lia). cbn [str_loop app]. destruct ((c =? QT) || (n =? 0)) eqn:E0; [lia|]. destruct (c =? BSL) eqn:E1; [lia|].
    rewrite (lead_copy c k) by assumption. change (c :: l ++ t) with ((c :: l) ++ t). replace n with (dist (c :: l)) by (rewrite dist_cons; lia). rewrite copy_cut by (cbn [length]; lia).
    rewrite orb_false_r, Z.sub_diag. reflexivity.
  - destruct f as [|f]; [lia|]. exists f. split; [rewrite app_length in Hf; cbn [length] in Hf; lia|]. cbn [app]. rewrite u_step by lia. rewrite emit_kept_any by (assumption || reflexivity || lia).
    replace (Z.min n 6) with n by lia. f_equal. unfold dist. rewrite firstn_length. cbn [length]. lia.
Qed.
(** what str_unser makes of the end of the loop *)
Definition fin (x : res ((buf * eptr * buf) + (eptr * buf))) : res (buf * buf * eptr) :=
  let* y := x in
  match y with
  | inr (e1, out) => Ok (out, [], e1)
  | inl ([], e1, out) => Ok (out, [], cerr UnexpectedEndFragment None 0 e1)
  | inl (d :: t1, e1, out) => if negb (d =? QT) then Ok (out, [], cerr ExpectedOf (Some [QT]) (dist t1 + 1) e1) else Ok (out, t1, e1)
  end.
Lemma fin_end f n (x : bool) j out : (0 < f)%nat -> is_err j = true -> fin (str_loop f [] n (Some (if x then bad_digit else j)) out) = Ok (out, [], Some (if x then bad_digit else j)).
Proof. intros Hf Hj. destruct f; [lia|]. cbn. destruct x; [reflexivity|]. now rewrite Hj. Qed.
Lemma fit_emit v cur s n (x : bool) : 0 <= v < 65536 -> ~ kept v -> 0 < n -> n < dist (utf8_encode v) -> exists n',
  uhex_emit v cur s n (EJ x) = ([], firstn (Z.to_nat n) (utf8_encode v), n', Some (if x then bad_digit else bad_string s)).
Proof.
  intros Hv K Hn Hd. pose proof (uhex_emit_encode v cur s 4 (EJ x) Hv (not_kept v ltac:(lia) K)) as R.
  assert (dist (utf8_encode v) <= 4) as H4 by (unfold utf8_encode; destruct (v <? 128), (v <? 2048), (v <? 65536); cbn; lia). specialize (R H4). revert R Hd. clear H4.
  unfold uhex_emit, utf8_encode. destruct (v <? 32) eqn:E1. { replace (v <? 128) with true by lia. cbn. lia. }
  destruct (v <=? 127) eqn:E2; [replace (v <? 128) with true by lia; cbn; lia|]. replace (v <? 128) with false by lia.
  destruct (v <=? 2047) eqn:E3.
  { replace (v <? 2048) with true by lia. change (4 - 1 =? 0) with false. cbv iota zeta. intros R Hd. unfold dist in Hd. cbn [length] in Hd. assert (n = 1) as -> by lia.
    assert (R1 := f_equal (fun p => snd (fst (fst p))) R). cbn [fst snd] in R1. rewrite <- R1. clear R R1.
    change (1 - 1 =? 0) with true. cbv iota. rewrite EJ_cerr by discriminate. change (Z.to_nat 1) with 1%nat. cbn [firstn]. eexists. reflexivity. }
  replace (v <? 2048) with false by lia. replace (v <? 65536) with true by lia. change (4 - 1 =? 0) with false. change (4 - 2 =? 0) with false. cbv iota zeta. intros R Hd. unfold dist in Hd. cbn [length] in Hd.
  assert (R1 := f_equal (fun p => snd (fst (fst p))) R). cbn [fst snd] in R1. rewrite <- R1. clear R R1.
  assert (n = 1 \/ n = 2) as [-> | ->] by lia.
  - change (1 - 1 =? 0) with true. cbv iota. rewrite EJ_cerr by discriminate. change (Z.to_nat 1) with 1%nat. cbn [firstn]. eexists. reflexivity.
  - change (2 - 1 =? 0) with false. change (2 - 2 =? 0) with true. cbv iota. rewrite EJ_cerr by discriminate. change (Z.to_nat 2) with 2%nat. cbn [firstn]. eexists. reflexivity.
Qed.
Lemma hex_short k h n (x : bool) : In (k, n) [(117, 4%nat); (120, 2%nat)] -> (length h < n)%nat -> forall m, 0 < m -> (if k =? 117 then uhex h m (EJ x) else xhex h m (EJ x)) =
  ([], [], m, Some (if x then bad_digit else if forallb hexb h then unexpected_end else bad_digit)).
Proof.
  intros [E|[E|[]]] Hh m Hm; injection E as <- <-.
  - change (117 =? 117) with true. cbv iota. unfold uhex. destruct (m =? 0) eqn:E; [lia|]. destruct h as [|a [|b [|c [|d h]]]]; [| | | |cbn in Hh; lia]; rewrite ?uchar2_lax; cbn [forallb]; rewrite EJ_cerr by discriminate; do 2 f_equal.
    + destruct x, (hexb a); reflexivity.
    + destruct x, (hexb a), (hexb b); reflexivity.
    + destruct x, (hexb a), (hexb b), (hexb c); reflexivity.
  - change (120 =? 117) with false. cbv iota. unfold xhex. destruct h as [|a [|b h]]; [| |cbn in Hh; lia]; rewrite ?uchar2_lax; cbn [forallb]; rewrite EJ_cerr by discriminate; do 2 f_equal.
    destruct x, (hexb a); reflexivity.
Qed.
Lemma mean_unescape c t : esc_mean c t -> unescape c = Some t.
Proof. destruct 1 as [c [-> |[-> | ->]]| | | | |]; reflexivity. Qed.
Lemma stops_run m s w j : bytes s -> stops m s w j -> forall f (x : bool) out, (length s < f)%nat -> fin (str_loop f s m (EJ x) out) = Ok (out ++ w, [], Some (if x then bad_digit else j)).
Proof.
  intros Hb H f x out Hf. destruct f as [|f]; [lia|]. destruct H as [m|c s H|m H|m c r H0 H1 H2 H3|m k n h H0 Hk Hh|m c r H0 H1 H2|m c k l Hk H3 Hl Hd|m a b c d r H0 K Hd].
  - cbn [str_loop fin bind]. rewrite app_nil_r. rewrite EJ_cerr by discriminate. reflexivity.
  - cbn [str_loop]. rewrite orb_true_r. cbn [fin bind]. destruct (c =? QT) eqn:E; [lia|]. cbn [negb]. rewrite app_nil_r, EJ_cerr by discriminate. unfold expected. cbn [length]. do 4 f_equal. destruct x; [reflexivity|]. f_equal. unfold dist. lia.
  - cbn [str_loop]. change (BSL =? QT) with false. change (BSL =? BSL) with true. cbn [orb]. destruct (m =? 0) eqn:E; [lia|]. cbn [fin bind]. rewrite app_nil_r, EJ_cerr by discriminate. reflexivity.
  - cbn [str_loop]. change (BSL =? QT) with false. change (BSL =? BSL) with true. cbn [orb]. destruct (m =? 0) eqn:E; [lia|].
    destruct (unescape c) as [b|] eqn:Eu; [exfalso; now apply (H1 b), unescape_mean|]. destruct (c =? 117) eqn:E1; [lia|]. destruct (c =? 120) eqn:E2; [lia|]. cbn [fin bind]. rewrite app_nil_r, EJ_cerr by discriminate. reflexivity.
  - cbn [length] in Hf. destruct f as [|f]; [lia|]. assert (str_loop (S (S f)) (BSL :: k :: h) m (EJ x) out = let '(r, w, n', e') := if k =? 117 then uhex h m (EJ x) else xhex h m (EJ x) in str_loop (S f) r n' e' (out ++ w)) as ->.
    { cbn [str_loop]. change (BSL =? QT) with false. change (BSL =? BSL) with true. cbn [orb]. destruct (m =? 0) eqn:E; [lia|]. destruct Hk as [Q|[Q|[]]]; injection Q as <- _; reflexivity. }
    rewrite (hex_short k h n x Hk Hh m H0). apply fin_end; [lia|]. now destruct (forallb hexb h).
  - assert (Hc : 0 <= c <= 255) by (now inversion Hb). cbn [str_loop]. destruct ((c =? QT) || (m =? 0)) eqn:E; [lia|]. destruct (c =? BSL) eqn:E1; [lia|].
    assert (unutf8 c r m (EJ x) = ([], [], m, Some (if x then bad_digit else bad_string (c :: r)))) as ->.
    { unfold unutf8. pose proof (lead_class_ok c Hc) as L. unfold lead_ok in L. destruct (Z.land c 128 =? 0); [lia|].
      destruct (Z.land c 224 =? 192). { specialize (H2 1%nat (wl2 c ltac:(lia))). lia. } destruct (Z.land c 240 =? 224). { specialize (H2 2%nat (wl3 c ltac:(lia))). lia. }
      destruct (Z.land c 248 =? 240). { specialize (H2 3%nat (wl4 c ltac:(lia))). lia. } rewrite EJ_cerr by discriminate. reflexivity. }
    cbn [length] in Hf. apply fin_end; [lia|reflexivity].
  - pose proof (dist_pos l) as Hp. rewrite dist_cons in Hd. assert (192 <= c <= 247) as Hc by (destruct Hk; lia). cbn [str_loop]. destruct ((c =? QT) || (m =? 0)) eqn:E0; [lia|]. destruct (c =? BSL) eqn:E1; [lia|].
    rewrite (lead_copy c k) by assumption. destruct (copy_short (S k) (c :: l) m (EJ x)) as (n' & ->); [cbn [length]; lia|rewrite dist_cons; lia|].
    cbn [length] in Hf. destruct f as [|f]; [lia|]. destruct (m =? dist (c :: l)); [cbn [str_loop fin bind]; rewrite EJ_cerr by discriminate; reflexivity|]. rewrite EJ_cerr by discriminate. apply fin_end; [lia|reflexivity].
  - rewrite u_step by exact H0. destruct (fit_emit (lax4 a b c d) [a; b; c; d] r m (x || negb (forallb hexb [a; b; c; d])) (lax4_range a b c d) K H0 Hd) as (n' & ->). cbn [length] in Hf.
    replace (if x || negb (forallb hexb [a; b; c; d]) then bad_digit else bad_string r) with (if x then bad_digit else if forallb hexb [a; b; c; d] then bad_string r else bad_digit) by (destruct x, (forallb hexb [a; b; c; d]); reflexivity).
    apply fin_end; [lia|]. now destruct (forallb hexb [a; b; c; d]).
Qed.
Lemma stops_err m s w j : stops m s w j -> is_err j = true.
Proof. destruct 1; try reflexivity; match goal with |- is_err (if ?b then _ else _) = _ => destruct b; reflexivity end. Qed.
Lemma chunk_lchunk_u a b c d : ~ kept (lax4 a b c d) -> lchunk [BSL; 117; a; b; c; d] (utf8_encode (lax4 a b c d)) (negb (forallb hexb [a; b; c; d])).
Proof.
  intros K. destruct (forallb hexb [a; b; c; d]) eqn:E; [|now apply lk_u]. cbn [forallb] in E. rewrite !andb_true_iff in E. destruct E as (Ha & Hb & Hc & Hd & _). apply hexb_iff in Ha, Hb, Hc, Hd.
  apply lk_good. assert (lax4 a b c d = hex4 a b c d) as Q by (unfold lax4, hex4; rewrite !lax_hex by assumption; lia). rewrite Q in *. now apply ck_u.
Qed.
Lemma chunk_lchunk_kept a b c d : kept (lax4 a b c d) -> lchunk [BSL; 117; a; b; c; d] [BSL; 117; a; b; c; d] (negb (forallb hexb [a; b; c; d])).
Proof.
  intros K. destruct (forallb hexb [a; b; c; d]) eqn:E; [|now apply lk_kept]. cbn [forallb] in E. rewrite !andb_true_iff in E. destruct E as (Ha & Hb & Hc & Hd & _). apply hexb_iff in Ha, Hb, Hc, Hd.
  apply lk_good. assert (lax4 a b c d = hex4 a b c d) as Q by (unfold lax4, hex4; rewrite !lax_hex by assumption; lia). rewrite Q in *. now apply ck_kept.
Qed.
Lemma chunk_lchunk_x a b : lchunk [BSL; 120; a; b] [lax a * 16 + lax b] (negb (forallb hexb [a; b])).
Proof.
  destruct (forallb hexb [a; b]) eqn:E; [|now apply lk_x]. cbn [forallb] in E. rewrite !andb_true_iff in E. destruct E as (Ha & Hb & _). apply hexb_iff in Ha, Hb.
  apply lk_good. rewrite !lax_hex by assumption. now apply ck_x.
Qed.
Definition wlead_of (c : Z) : nat := if c <=? 223 then 1%nat else if c <=? 239 then 2%nat else 3%nat.
Lemma wlead_dec c : 0 <= c <= 255 -> 128 <= c -> (exists k, wlead c k /\ (k <= 3)%nat) \/ forall k, wlead c k -> (3 < k)%nat.
Proof.
  intros Hc H. destruct (Z_lt_ge_dec c 192). { right. intros k K. destruct K; lia. }
  destruct (Z_lt_ge_dec c 224). { left. exists 1%nat. split; [apply wl2; lia|lia]. }
  destruct (Z_lt_ge_dec c 240). { left. exists 2%nat. split; [apply wl3; lia|lia]. }
  destruct (Z_lt_ge_dec c 248). { left. exists 3%nat. split; [apply wl4; lia|lia]. }
  right. intros k K. destruct K; lia.
Qed.
Lemma stops0 s : heads QT s \/ exists w j, stops 0 s w j.
Proof. destruct s as [|c s]; [right; eexists; eexists; apply st_end|]. destruct (Z.eq_dec c QT) as [-> |H]; [left; now exists s|right; eexists; eexists; now apply st_room]. Qed.
Lemma loose_split k : forall s n, (length s < k)%nat -> bytes s -> 0 <= n ->
  exists l v x t, s = l ++ t /\ loose n l v x /\ (heads QT t \/ exists w j, stops (n - dist v) t w j).
Proof.
  induction k as [|k IH]; intros s n Hk Hb Hn; [lia|].
  assert (Hstop : forall w j, stops n s w j -> exists l v x t, s = l ++ t /\ loose n l v x /\ (heads QT t \/ exists w j, stops (n - dist v) t w j)).
  { intros w j H. exists [], [], false, s. split; [reflexivity|]. split; [apply ls_nil|]. right. rewrite dist_nil, Z.sub_0_r. eauto. }
  assert (Hgo : forall c w x t, s = c ++ t -> c <> [] -> lchunk c w x -> dist w <= n -> exists l v x t, s = l ++ t /\ loose n l v x /\ (heads QT t \/ exists w j, stops (n - dist v) t w j)).
  { intros c w x t E Nc Hc Hw. subst s. apply Forall_app in Hb. destruct Hb as [_ Hb]. rewrite app_length in Hk. destruct c as [|c0 c]; [congruence|]. cbn [length] in Hk.
    destruct (IH t (n - dist w) ltac:(lia) Hb ltac:(lia)) as (l & v & y & t' & -> & L & R). exists ((c0 :: c) ++ l), (w ++ v), (x || y), t'. split; [now rewrite app_assoc|]. split; [now apply ls_chunk|].
    rewrite dist_app, Z.sub_add_distr. exact R. }
  destruct s as [|c t]; [eapply Hstop, st_end|]. inversion Hb as [|? ? Hc Ht]; subst.
  destruct (Z.eq_dec c QT) as [-> |Hq]. { exists [], [], false, (QT :: t). split; [reflexivity|]. split; [apply ls_nil|]. left. now exists t. }
  destruct (Z.eq_dec n 0) as [-> |Hn0]; [now eapply Hstop, st_room|].
  destruct (Z.eq_dec c BSL) as [-> |Hbs].
  { destruct t as [|d t]; [eapply Hstop, st_bsl; lia|].
    destruct (unescape d) as [b|] eqn:Eu. { apply unescape_mean in Eu. apply (Hgo [BSL; d] [b] false t); [reflexivity|discriminate|apply lk_good; now apply ck_esc|unfold dist; cbn; lia]. }
    destruct (Z.eq_dec d 117) as [-> |H1].
    { destruct (le_lt_dec 4 (length t)) as [Hl|Hl]; [|eapply Hstop, (st_hex n 117 4); [lia|now left|exact Hl]].
      destruct t as [|a [|b [|c [|d t]]]]; cbn [length] in Hl; try lia. pose proof (lax4_range a b c d) as Hr.
      destruct (kept_dec (lax4 a b c d)) as [K|K].
      - destruct (Z_lt_ge_dec n 6) as [H6|H6].
        + exists [BSL; 117; a; b; c; d], (firstn (Z.to_nat n) [BSL; 117; a; b; c; d]), (negb (forallb hexb [a; b; c; d])), t. split; [reflexivity|]. split; [apply ls_cut_kept; [exact K|lia]|].
          replace (n - dist (firstn (Z.to_nat n) [BSL; 117; a; b; c; d])) with 0; [apply stops0|]. unfold dist. rewrite firstn_length. cbn [length]. lia.
        + apply (Hgo [BSL; 117; a; b; c; d] _ _ t eq_refl ltac:(discriminate) (chunk_lchunk_kept a b c d K)). unfold dist. cbn [length]. lia.
      - destruct (Z_lt_ge_dec n (dist (utf8_encode (lax4 a b c d)))) as [H6|H6]; [eapply Hstop, st_fit; [lia|exact K|exact H6]|].
        apply (Hgo [BSL; 117; a; b; c; d] _ _ t eq_refl ltac:(discriminate) (chunk_lchunk_u a b c d K)). lia. }
    destruct (Z.eq_dec d 120) as [-> |H2].
    { destruct (le_lt_dec 2 (length t)) as [Hl|Hl]; [|eapply Hstop, (st_hex n 120 2); [lia|right; now left|exact Hl]].
      destruct t as [|a [|b t]]; cbn [length] in Hl; try lia. apply (Hgo [BSL; 120; a; b] _ _ t eq_refl ltac:(discriminate) (chunk_lchunk_x a b)). unfold dist. cbn [length]. lia. }
    eapply Hstop, st_esc; [lia| |exact H1|exact H2]. intros b Hb'. apply mean_unescape in Hb'. congruence. }
  destruct (Z_lt_ge_dec c 128) as [H1|H1]. { apply (Hgo [c] [c] false t eq_refl ltac:(discriminate)); [apply lk_good, ck_plain; lia|unfold dist; cbn; lia]. }
  destruct (wlead_dec c ltac:(lia) ltac:(lia)) as [(m & Hm & H3)|Hno]; [|eapply Hstop, st_lead; [lia|lia|exact Hno]].
  destruct (le_lt_dec m (length t)) as [Hl|Hl].
  - destruct (Z_lt_ge_dec n (1 + Z.of_nat m)) as [Hs|Hs].
    + set (p := Z.to_nat (n - 1)). exists (c :: firstn p t), (c :: firstn p t), false, (skipn p t). assert (length (firstn p t) = p) as Hp by (rewrite firstn_length; lia).
      assert (dist (c :: firstn p t) = n) as Hd by (unfold dist; cbn [length]; lia). split; [cbn [app]; now rewrite firstn_skipn|]. split; [eapply ls_cut; [exact Hm|exact H3|lia|exact Hd]|].
      rewrite Hd, Z.sub_diag. apply stops0.
    + apply (Hgo (c :: firstn m t) (c :: firstn m t) false (skipn m t)); [cbn [app]; now rewrite firstn_skipn|discriminate|apply lk_good, ck_lead with m; [exact Hm|exact H3|rewrite firstn_length; lia]|unfold dist; cbn [length]; rewrite firstn_length; lia].
  - destruct (Z_lt_ge_dec n (dist (c :: t))) as [Hs|Hs].
    + set (p := Z.to_nat (n - 1)). unfold dist in Hs. cbn [length] in Hs. exists (c :: firstn p t), (c :: firstn p t), false, (skipn p t). assert (length (firstn p t) = p) as Hp by (rewrite firstn_length; lia).
      assert (dist (c :: firstn p t) = n) as Hd by (unfold dist; cbn [length]; lia). split; [cbn [app]; now rewrite firstn_skipn|]. split; [eapply ls_cut; [exact Hm|exact H3|lia|exact Hd]|].
      rewrite Hd, Z.sub_diag. apply stops0.
    + eapply Hstop, st_cont; [exact Hm|exact H3|exact Hl|lia].
Qed.
Lemma unser_fin c t n e : str_unser (c :: t) n e = if negb (c =? QT) then Ok ([], [], cerr ExpectedOf (Some [QT]) (dist t + 1) e) else fin (str_loop (S (length t)) t n e []).
Proof. reflexivity. Qed.
Lemma loose_closed n l v x r : loose n l v x -> 0 <= n -> str_unser (QT :: l ++ QT :: r) n C0 = Ok (v, r, EJ x).
Proof.
  intros L Hn. rewrite unser_fin. change (negb (QT =? QT)) with false. cbv iota. destruct (loose_run n l v x L Hn (QT :: r) (S (length (l ++ QT :: r))) false [] ltac:(lia)) as (f & Hf & E). cbn [orb app] in E. change (EJ false) with C0 in E. rewrite E.
  destruct f; [lia|]. reflexivity.
Qed.
Lemma str_faults_run n s v r j : bytes s -> 0 <= n -> str_faults n s v r j -> is_err j = true /\ str_unser s n C0 = Ok (v, r, Some j).
Proof.
  intros Hb Hn H. destruct H as [|c t Hc|l v r L|l v x s w j L S].
  - split; reflexivity.
  - split; [reflexivity|]. rewrite unser_fin. destruct (c =? QT) eqn:E; [lia|]. cbn [negb]. replace (dist t + 1) with (dist (c :: t)) by (rewrite dist_cons; lia). reflexivity.
  - split; [reflexivity|]. now rewrite (loose_closed n l v true).
  - split; [destruct x; [reflexivity|now apply stops_err in S]|]. rewrite unser_fin. change (negb (QT =? QT)) with false. cbv iota.
    destruct (loose_run n l v x L Hn s (Datatypes.S (length (l ++ s))) false [] ltac:(lia)) as (f & Hf & E). cbn [orb app] in E. change (EJ false) with C0 in E. rewrite E.
    inversion Hb as [|? ? _ Hb']. apply Forall_app in Hb'. apply stops_run; [apply Hb'|exact S|exact Hf].
Qed.
Lemma unser_split s n : bytes s -> 0 <= n -> (exists l v r, s = QT :: l ++ QT :: r /\ loose n l v false) \/ exists v r j, str_faults n s v r j.
Proof.
  intros Hb Hn. destruct s as [|c t]; [right; eexists; eexists; eexists; apply sf_none|]. destruct (Z.eq_dec c QT) as [-> |Hc]; [|right; eexists; eexists; eexists; now apply sf_quote].
  inversion Hb as [|? ? _ Ht]; subst. destruct (loose_split (S (length t)) t n ltac:(lia) Ht Hn) as (l & v & x & t' & -> & L & [(r & ->)|(w & j & S)]).
  - destruct x; [right; eexists; eexists; eexists; eapply sf_digit; exact L|left; exists l, v, r; split; [reflexivity|exact L]].
  - right. eexists; eexists; eexists. eapply sf_stop; eassumption.
Qed.
Lemma unser_fails s n v r j : bytes s -> 0 <= n -> is_err j = true /\ str_unser s n C0 = Ok (v, r, Some j) <-> str_faults n s v r j.
Proof.
  intros Hb Hn. split; [|now apply str_faults_run]. intros [Hj E]. destruct (unser_split s n Hb Hn) as [(l & v' & r' & -> & L)|(v' & r' & j' & F)].
  - rewrite (loose_closed n l v' false r' L Hn) in E. injection E as _ _ <-. discriminate.
  - destruct (str_faults_run _ _ _ _ _ Hb Hn F) as [_ E']. rewrite E' in E. injection E as -> -> ->. exact F.
Qed.
Lemma null_pends s j : heads 110 s -> is_err j = true /\ parse_null s C0 = ([], Some j) <-> lit_refuses (text "null") s j.
Proof.
  intros (t & ->). split.
  - intros [Hj E]. assert (pends j (parse_null (110 :: t) C0)) as P by (now split). apply null_refuses in P. destruct P as [[? _]|[(c & u & Q & Hc & _)|L]]; [discriminate|injection Q as <- <-; lia|exact L].
  - intros L. assert (pends j (parse_null (110 :: t) C0)) as P by (apply null_refuses; now right; right). exact P.
Qed.
Lemma is_null_heads s : is_null s = true <-> heads 110 s.
Proof. unfold is_null, starts, heads. destruct s as [|c t]; split; [discriminate|intros (? & ?); discriminate| |intros (x & E); injection E as -> _; reflexivity]. intros E. exists t. f_equal. lia. Qed.
Lemma not_null_heads s : is_null s = false <-> ~ heads 110 s.
Proof. rewrite <- is_null_heads. destruct (is_null s); split; congruence. Qed.
Lemma lit_null_heads s j : lit_refuses (text "null") s j -> heads 110 s.
Proof. intros H. apply lit_head in H. destruct H as (c & t & t' & E & ->). vm_compute in E. injection E as <- _. now exists t'. Qed.
(** a reader that stores v0 and runs the parser function f *)
Lemma good_reader {A} (f : buf -> eptr -> buf * eptr) s (v0 : A) : pgood f s -> forall v r j,
  is_err j = true /\ (let '(r', e') := f s C0 in Ok (v0, r', e')) = Ok (v, r, Some j) <-> pends j (f s C0) /\ v = v0 /\ r = [].
Proof.
  intros (r' & o & E & H) v r j. unfold pends. rewrite E. destruct H as (_ & Ho & Hr). split.
  - intros [Hj Q]. injection Q as <- <- Q. assert (r' = []) as ->; [|rewrite Q; auto]. apply Hr. destruct o; [congruence|]. cbn in Q. injection Q as <-. discriminate.
  - intros [[Hj Q] [-> ->]]. injection Q as -> ->. now split.
Qed.
Lemma null_reader {A} (v0 : A) s : heads 110 s -> forall v r j,
  is_err j = true /\ (let '(r', e') := parse_null s C0 in Ok (v0, r', e')) = Ok (v, r, Some j) <-> lit_refuses (text "null") s j /\ v = v0 /\ r = [].
Proof. intros Hs v r j. rewrite (good_reader parse_null s v0 (null_good s)). rewrite <- (null_pends s j Hs). reflexivity. Qed.
Lemma string_fails sn old s v r j : bytes s -> faults string_codec sn old s v r j <-> string_faults s v r j.
Proof.
  intros Hb. unfold faults, string_faults. cbn [des string_codec]. unfold string_des. fold C0. destruct (is_null s) eqn:En.
  - apply is_null_heads in En. rewrite (null_reader _ s En). tauto.
  - apply not_null_heads in En. change INT_MAX with 2147483647. rewrite unser_fails by (assumption || lia). split; [tauto|]. intros [[L _]|[_ H]]; [now apply lit_null_heads in L|exact H].
Qed.
Lemma stops_room m s w j : stops m s w j -> 0 <= m -> dist w <= m.
Proof. destruct 1; intros Hm; rewrite ?dist_nil; try lia. unfold dist in *. rewrite firstn_length. lia. Qed.
Lemma str_faults_room n s w r j : str_faults n s w r j -> 0 <= n -> dist w <= n.
Proof.
  intros H Hn. destruct H as [|c t Hc|l v r L|l v x s w j L S]; try (unfold dist; cbn; lia).
  - now apply loose_room in L.
  - apply loose_room in L; [|exact Hn]. apply stops_room in S; [|lia]. rewrite dist_app. lia.
Qed.
Lemma chars_fails N sn old s v r j : bytes s -> faults (chars_codec N) sn old s v r j <-> chars_faults N s v r j.
Proof.
  intros Hb. unfold faults, chars_faults. cbn [des chars_codec]. unfold chars_des. fold C0. destruct (is_null s) eqn:En.
  - apply is_null_heads in En. rewrite (null_reader _ s En). split.
    + intros (H & -> & ->). exists []. cbn [length app]. rewrite Nat.sub_0_r. auto.
    + intros (w & -> & [(H & -> & ->)|[H _]]); [|contradiction]. cbn [length app]. rewrite Nat.sub_0_r. auto.
  - apply not_null_heads in En. split.
    + intros [Hj H]. destruct (str_unser s (Z.of_nat N) C0) as [[[w r'] e']| |] eqn:E; cbn [bind] in H; try discriminate. destruct (N <? length w)%nat; [discriminate|]. injection H as <- -> ->.
      exists w. split; [reflexivity|]. right. split; [exact En|]. apply unser_fails; [exact Hb|lia|]. now split.
    + intros (w & -> & [(H & _)|[_ H]]); [now apply lit_null_heads in H|]. pose proof (str_faults_room _ _ _ _ _ H ltac:(lia)) as Hw. unfold dist in Hw. apply unser_fails in H; [|exact Hb|lia]. destruct H as [Hj H]. split; [exact Hj|].
      rewrite H. cbn [bind]. destruct (N <? length w)%nat eqn:E; [apply Nat.ltb_lt in E; lia|]. reflexivity.
Qed.
Lemma digit_first_dec c t : digit_first (c :: t) <-> is_digit c = true.
Proof. unfold digit_first, s_digit, is_digit. split; [intros (a & r & E & H); injection E as <- _; lia|]. intros H. exists c, t. split; [reflexivity|lia]. Qed.
Lemma no_digit_first s : ~ digit_first s <-> match s with [] => True | c :: _ => is_digit c = false end.
Proof. destruct s as [|c t]; [split; [auto|intros _ (? & ? & ? & _); discriminate]|]. rewrite digit_first_dec. destruct (is_digit c); split; congruence. Qed.
Lemma int_fails t sn old s v r j : faults (int_codec t) sn old s v r j <-> int_faults old s v j /\ r = [].
Proof.
  unfold faults. cbn [des int_codec]. unfold int_des. fold C0. destruct (is_null s) eqn:En.
  - apply is_null_heads in En. rewrite (null_reader _ s En). split.
    + intros (H & -> & ->). split; [now apply if_null|reflexivity].
    + intros [H ->]. destruct H as [|s j H|m s Hm Hd Hs]; [destruct En as (? & ?); discriminate|auto|]. exfalso. destruct Hm; [now apply (proj2 (proj2 (Hs eq_refl)))|]. destruct En as (? & E). discriminate.
  - apply not_null_heads in En. unfold unserialize_integer. destruct s as [|c t0].
    { split; [|intros [H ->]]. - intros [Hj H]. injection H as <- <- <-. split; [apply if_none|reflexivity].
      - inversion H as [|s j' L|m s Hm Hd Hs E]; subst; [split; reflexivity|now apply lit_null_heads in L|]. apply app_eq_nil in E. destruct E as [-> ->]. destruct (proj1 (Hs eq_refl)); reflexivity. }
    cbv zeta. destruct (c =? MINUS) eqn:Em.
    + apply Z.eqb_eq in Em. subst c. assert (int_faults old (MINUS :: t0) v j <-> ~ digit_first t0 /\ v = 0 /\ j = bad_number t0) as ->.
      { split.
        - intros H. inversion H as [|s j' L|m s Hm Hd Hs E]; subst; [now apply lit_null_heads in L|]. destruct Hm; cbn [app] in E; [|injection E as ->; auto]. exfalso. subst s. apply (proj1 (proj2 (Hs eq_refl))). now exists t0.
        - intros (H & -> & ->). apply (if_digit old [MINUS] t0); [constructor|exact H|discriminate]. }
      rewrite no_digit_first. destruct t0 as [|d t1].
      { split; [intros [Hj H]; injection H as <- <- <-; auto|]. intros [(_ & -> & ->) ->]. split; reflexivity. }
      destruct (is_digit d) eqn:Ed; cbn [negb].
      { split; [|intros [(? & _) _]; discriminate]. intros [Hj H]. exfalso. destruct (d =? 48); [injection H as _ _ <-; discriminate|]. destruct (int_loop t 0 (d :: t1)) as [[w s2]| |]; cbn [bind] in H; try discriminate.
        destruct (iarith (ipromote t) (- w)) as [z| |]; cbn [bind] in H; try discriminate. injection H as _ _ <-. discriminate. }
      split; [intros [Hj H]; injection H as <- <- <-; auto|]. intros [(_ & -> & ->) ->]. split; reflexivity.
    + assert (int_faults old (c :: t0) v j <-> ~ digit_first (c :: t0) /\ v = 0 /\ j = bad_number (c :: t0)) as ->.
      { split.
        - intros H. inversion H as [|s j' L|m s Hm Hd Hs E]; subst; [now apply lit_null_heads in L|]. destruct Hm; cbn [app] in E; [subst s; auto|]. injection E as <- _. discriminate.
        - intros (H & -> & ->). apply (if_digit old [] (c :: t0)); [constructor|exact H|]. intros _. split; [discriminate|]. split; [|exact En]. intros (x & E). injection E as -> _. discriminate. }
      rewrite no_digit_first. destruct (is_digit c) eqn:Ed; cbn [negb].
      { split; [|intros [(? & _) _]; discriminate]. intros [Hj H]. exfalso. destruct (c =? 48); [injection H as _ _ <-; discriminate|]. destruct (int_loop t 0 (c :: t0)) as [[w s2]| |]; cbn [bind] in H; try discriminate.
        injection H as _ _ <-. discriminate. }
      split; [intros [Hj H]; injection H as <- <- <-; auto|]. intros [(_ & -> & ->) ->]. split; reflexivity.
Qed.
Lemma bool_fails sn old s v r j : faults bool_codec sn old s v r j <-> bool_faults old s v j /\ r = [].
Proof.
  assert (T : forall c nm s j, heads c nm -> lit_refuses nm s j -> heads c s).
  { intros c nm s0 j0 (x & ->) L. apply lit_head in L. destruct L as (c' & t & t' & E & ->). injection E as <- _. now exists t'. }
  assert (T1 : forall s j, lit_refuses (text "true") s j -> heads 116 s) by (intros s0 j0; apply T; eexists; reflexivity).
  assert (T2 : forall s j, lit_refuses (text "false") s j -> heads 102 s) by (intros s0 j0; apply T; eexists; reflexivity).
  unfold faults. cbn [des bool_codec]. unfold bool_des. fold C0. destruct s as [|c t].
  { split; [intros [Hj H]; injection H as <- <- <-; split; [apply bf_none|reflexivity]|]. intros [H ->]. inversion H; subst; [split; reflexivity|..]; exfalso.
    all: match goal with L : lit_refuses _ _ _ |- _ => apply lit_head in L; destruct L as (? & ? & ? & ? & ?); discriminate end. }
  destruct (is_null (c :: t)) eqn:En.
  { apply is_null_heads in En. rewrite (null_reader _ _ En). destruct En as (x & En). injection En as -> ->. split; [intros (H & -> & ->); split; [now apply bf_null|reflexivity]|].
    intros [H ->]. inversion H; subst; try congruence; auto; exfalso. - destruct (T1 _ _ H0) as (? & ?); discriminate. - destruct (T2 _ _ H0) as (? & ?); discriminate. }
  apply not_null_heads in En. destruct (c =? 116) eqn:E1.
  { apply Z.eqb_eq in E1. subst c. rewrite (good_reader parse_bool _ true (bool_good _)). rewrite bool_refuses. split.
    - intros ([[? _]|[(c & u & Q & Hc & _)|[L|L]]] & -> & ->); [discriminate|injection Q as <- _; congruence| |destruct (T2 _ _ L) as (? & ?); discriminate]. split; [now apply bf_true|reflexivity].
    - intros [H ->]. inversion H as [|? ? L|? ? L|? ? L|]; subst; try congruence; [now apply lit_null_heads in L|auto|destruct (T2 _ _ L) as (? & ?); discriminate]. }
  destruct (c =? 102) eqn:E2.
  { apply Z.eqb_eq in E2. subst c. rewrite (good_reader parse_bool _ false (bool_good _)). rewrite bool_refuses. split.
    - intros ([[? _]|[(c & u & Q & _ & Hc & _)|[L|L]]] & -> & ->); [discriminate|injection Q as <- _; congruence|destruct (T1 _ _ L) as (? & ?); discriminate|]. split; [now apply bf_false|reflexivity].
    - intros [H ->]. inversion H as [|? ? L|? ? L|? ? L|]; subst; try congruence; [now apply lit_null_heads in L|destruct (T1 _ _ L) as (? & ?); discriminate|auto]. }
  split.
  - intros [Hj H]. injection H as <- <- <-. split; [apply bf_other; [intros ->; apply En; now exists t|lia|lia]|reflexivity].
  - intros [H ->]. inversion H as [|? ? L|? ? L|? ? L|]; subst.
    + now apply lit_null_heads in L.
    + destruct (T1 _ _ L) as (? & Q). injection Q as -> _. discriminate.
    + destruct (T2 _ _ L) as (? & Q). injection Q as -> _. discriminate.
    + split; reflexivity.
Qed.
Lemma is_number_iff s : is_number s = true <-> heads MINUS s \/ digit_first s.
Proof.
  destruct s as [|c t]; [split; [discriminate|intros [(? & ?)|(? & ? & ? & _)]; discriminate]|]. rewrite digit_first_dec. cbn [is_number]. rewrite orb_true_iff. split.
  - intros [H|H]; [left; exists t; f_equal; lia|now right].
  - intros [(x & H)|H]; [injection H as -> _; now left|now right].
Qed.
Lemma float_fails {A} R (fmt : A -> buf) scan zero sn old s v r j : faults (float_codec R fmt scan zero) sn old s v r j <->
  float_faults (fun s => scan (cstr (firstn (bufsize R) s))) zero old s v j /\ r = [].
Proof.
  unfold faults. cbn [des float_codec]. unfold float_des. fold C0. destruct s as [|c t].
  { split; [intros [Hj H]; injection H as <- <- <-; split; [apply ff_none|reflexivity]|]. intros [H ->]. inversion H as [|? ? L| |? ? N]; subst; [split; reflexivity|now destruct (lit_null_heads _ _ L)|congruence|].
    exfalso. apply is_number_iff in N. discriminate. }
  remember (c :: t) as s eqn:Es. assert (s <> []) as Ns by congruence. clear c t Es. destruct (is_null s) eqn:En.
  { apply is_null_heads in En. rewrite (null_reader _ _ En). split; [intros (H & -> & ->); split; [now apply ff_null|reflexivity]|].
    intros [H ->]. inversion H as [|? ? L| |? ? N]; subst; try contradiction; [auto|]. exfalso. destruct En as (x & ->). apply is_number_iff in N. discriminate. }
  apply not_null_heads in En. destruct (is_number s) eqn:E; cbn [negb].
  - cbv zeta. rewrite (good_reader parse_number s _ (number_good s)), number_refuses. apply is_number_iff in E. split.
    + intros (H & -> & ->). split; [exact (ff_number (fun s => scan (cstr (firstn (bufsize R) s))) zero old s j E H)|reflexivity].
    + intros [H ->]. inversion H as [|? ? L| |? ? N]; subst; [congruence|now apply lit_null_heads in L|tauto|auto].
  - assert (~ (heads MINUS s \/ digit_first s)) as N by (rewrite <- is_number_iff; congruence). split.
    + intros [Hj H]. injection H as <- <- <-. split; [apply ff_other; tauto|reflexivity].
    + intros [H ->]. inversion H as [|? ? L| |? ? N']; subst; [congruence|now apply lit_null_heads in L|split; reflexivity|contradiction].
Qed.
Lemma to_quote_app n r : no_quote n -> to_quote (n ++ r) = let '(a, b) := to_quote r in (n ++ a, b).
Proof.
  induction 1 as [|c n Hc _ IH]; cbn [app to_quote]; [now destruct (to_quote r)|]. rewrite IH. destruct (c =? QT) eqn:E; [lia|]. now destruct (to_quote r).
Qed.
Lemma find_none mode L n : enum_find mode L 0 n = None <-> mode = Strict /\ ~ In n (enames L).
Proof.
  induction L as [|[m y] L IH]; cbn [enum_find].
  - destruct mode; split; [discriminate|intros [? _]; discriminate|intros _; split; [reflexivity|intros []]|reflexivity].
  - destruct (cstr_eq m n) eqn:E.
    + apply cstr_eq_iff in E. subst m. split; [discriminate|]. intros [_ H]. exfalso. apply H. now left.
    + rewrite IH. assert (m <> n) as Hmn by (intros ->; rewrite (proj2 (cstr_eq_iff n n) eq_refl) in E; discriminate). cbn. split; intros [H1 H2]; (split; [exact H1|]); tauto.
Qed.
Lemma skip_low_none g : Forall low g -> skip_low g = [].
Proof. induction 1 as [|a g Ha _ IH]; [reflexivity|]. cbn [skip_low]. unfold low in Ha. replace ((a <=? 32) || (128 <=? a)) with true by lia. exact IH. Qed.
Lemma low_QT : ~ low QT. Proof. unfold low. lia. Qed.
Lemma skip_low_head s c t : skip_low s = c :: t -> ~ low c.
Proof. induction s as [|a s IH]; cbn [skip_low]; [discriminate|]. destruct ((a <=? 32) || (128 <=? a)) eqn:E; [exact IH|]. intros H. injection H as -> _. unfold low. lia. Qed.
Lemma enum_fails mode L sn old s v r j : faults (enum_codec mode L) sn old s v r j <-> enum_faults mode L s j /\ v = 0 /\ r = [].
Proof.
  unfold faults. cbn [des enum_codec]. fold C0. split.
  - intros [Hj E]. destruct (skip_low_split s) as (g & Es & Hg). unfold enum_des in E. destruct (skip_low s) as [|c t] eqn:El.
    { injection E as <- <- <-. rewrite Es, app_nil_r. split; [now apply ef_none|auto]. }
    destruct (c =? QT) eqn:Ec; cbn [negb] in E. 2:{ injection E as <- <- <-. rewrite Es. split; [apply ef_quote; [exact Hg|now apply skip_low_head in El|lia]|auto]. }
    apply Z.eqb_eq in Ec. subst c. destruct t as [|d t]. { injection E as <- <- <-. rewrite Es. split; [apply ef_open; [exact Hg|constructor]|auto]. }
    destruct (to_quote (d :: t)) as [nm r0] eqn:Et. pose proof (to_quote_noq _ _ _ Et) as Hq. destruct (AcceptProofs.to_quote_split _ _ _ Et) as [Ea Hr]. destruct r0 as [|q r0].
    { injection E as <- <- <-. rewrite Es, Ea, app_nil_r. split; [now apply ef_open|auto]. }
    destruct Hr as [?|(r1 & Hr)]; [discriminate|]. injection Hr as -> ->. destruct (enum_find mode L 0 nm) as [x|] eqn:Ef; [injection E as _ _ <-; discriminate|]. apply find_none in Ef.
    injection E as <- <- <-. rewrite Es, Ea. split; [now apply ef_name|auto].
  - intros (H & -> & ->). unfold enum_des. destruct H as [g Hg|g c s Hg Hc Hq|g s Hg Hq|g n r Hg Hq Hm Hn]; (split; [reflexivity|]).
    + now rewrite skip_low_none.
    + rewrite skip_low_app by assumption. destruct (c =? QT) eqn:E; [lia|]. reflexivity.
    + rewrite skip_low_app by (assumption || apply low_QT). change (negb (QT =? QT)) with false. cbv iota. destruct s as [|d s]; [reflexivity|]. rewrite <- (app_nil_r (d :: s)), to_quote_app by exact Hq. reflexivity.
    + rewrite skip_low_app by (assumption || apply low_QT). change (negb (QT =? QT)) with false. cbv iota. rewrite to_quote_app by exact Hq. cbn [to_quote]. change (QT =? QT) with true. cbv iota. rewrite app_nil_r.
      rewrite (proj2 (find_none mode L n)) by auto. destruct (n ++ QT :: r) eqn:E; [destruct n; discriminate|]. reflexivity.
Qed.
