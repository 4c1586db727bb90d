(** Proofs about SpecLength. *)
From Verif Require Import Base Parser SpecJson SpecNum SpecSeq SpecString SpecExact Out Number Float StringS Array Unord Object ObjectArray Enum Wrap TimeSize CodecLaws ParserFacts
  NumberProofs StringProofs ArrayProofs KindProofs ObjectProofs TimeProofs Desc DescProofs SpecLength.

Definition between {A} (c : codec A) (dom : A -> Prop) (lo hi : A -> Z) : Prop :=
  forall v ops, dom v -> ser c v = Ok ops -> lo v <= dist (flat ops) <= hi v.

(** ---- numbers ---- *)
Lemma pow_len (v k : Z) : 0 <= k <= 19 -> (10 ^ k <= Z.abs v \/ k = 0) -> Z.abs v < 10 ^ (k + 1) -> nlen v = (if v <? 0 then 2 else 1) + k.
Proof.
  intros Hk H1 H2. unfold nlen. f_equal.
  assert (K : forall i, 1 <= i -> (if 10 ^ i <=? Z.abs v then 1 else 0) = if i <=? k then 1 else 0).
  { intros i Hi. destruct (Z.leb_spec i k) as [L|L].
    - assert (10 ^ i <= 10 ^ k) by (apply Z.pow_le_mono_r; lia). replace (10 ^ i <=? Z.abs v) with true by lia. reflexivity.
    - assert (10 ^ (k + 1) <= 10 ^ i) by (apply Z.pow_le_mono_r; lia). replace (10 ^ i <=? Z.abs v) with false by lia. reflexivity. }
  cbn [total]. rewrite !K by lia. clear - Hk.
  assert (C : k = 0 \/ k = 1 \/ k = 2 \/ k = 3 \/ k = 4 \/ k = 5 \/ k = 6 \/ k = 7 \/ k = 8 \/ k = 9 \/ k = 10 \/ k = 11 \/ k = 12 \/ k = 13 \/ k = 14 \/ k = 15 \/ k = 16 \/ k = 17 \/ k = 18 \/ k = 19) by lia.
  repeat (destruct C as [-> |C]; [reflexivity|]). subst k. reflexivity.
Qed.
Lemma rint_nlen i : rint i -> dval i < 10 ^ 20 -> nlen (dval i) = dist i.
Proof.
  intros H HB. destruct H as [|d ds Hd Hds]; [reflexivity|].
  pose proof (dacc_pow ds Hds (0 * 10 + (d - 48))) as P. change (dacc (0 * 10 + (d - 48)) ds) with (dval (d :: ds)) in P.
  assert (0 < 10 ^ dist ds) as P0 by (apply Z.pow_pos_nonneg; [lia|apply dist_nonneg]). pose proof (dist_nonneg ds) as N0.
  assert (10 ^ dist ds <= dval (d :: ds)) as P1 by nia.
  assert (dval (d :: ds) < 10 ^ (dist ds + 1)) as P2 by (rewrite Z.pow_add_r by lia; change (10 ^ 1) with 10; nia).
  assert (dist ds <= 19) as P3 by (destruct (Z.le_gt_cases (dist ds) 19) as [L|L]; [exact L|]; assert (10 ^ 20 <= 10 ^ dist ds) by (apply Z.pow_le_mono_r; lia); lia).
  rewrite (pow_len _ (dist ds)); [|lia|left; lia|lia]. replace (dval (d :: ds) <? 0) with false by lia. rewrite dist_cons. lia.
Qed.
Lemma numeral_nlen v s : numeral v s -> Z.abs v < 10 ^ 20 -> dist s = nlen v.
Proof.
  intros H HB. destruct H as [i Hi|i Hi Hp].
  - symmetry. apply rint_nlen; [exact Hi|lia].
  - rewrite dist_cons, <- (rint_nlen i Hi) by lia. unfold nlen. replace (- dval i <? 0) with true by lia. replace (dval i <? 0) with false by lia. rewrite Z.abs_opp. lia.
Qed.
Lemma total_le {A} (f g : A -> Z) l : Forall (fun x => f x <= g x) l -> total f l <= total g l.
Proof. induction 1 as [|x l Hx _ IH]; cbn [total]; lia. Qed.
Lemma total_nonneg {A} (f : A -> Z) l : (forall x, 0 <= f x) -> 0 <= total f l.
Proof. intros H. induction l as [|x l IH]; cbn [total]; [lia|]. specialize (H x). lia. Qed.
Lemma nlen_le v k : 0 <= k <= 19 -> Z.abs v < 10 ^ (k + 1) -> 1 <= nlen v <= (if v <? 0 then 2 else 1) + k.
Proof.
  intros Hk H2. unfold nlen. set (l := [1; 2; 3; 4; 5; 6; 7; 8; 9; 10; 11; 12; 13; 14; 15; 16; 17; 18; 19]).
  assert (T : total (fun i => if i <=? k then 1 else 0) l = k).
  { assert (C : k = 0 \/ k = 1 \/ k = 2 \/ k = 3 \/ k = 4 \/ k = 5 \/ k = 6 \/ k = 7 \/ k = 8 \/ k = 9 \/ k = 10 \/ k = 11 \/ k = 12 \/ k = 13 \/ k = 14 \/ k = 15 \/ k = 16 \/ k = 17 \/ k = 18 \/ k = 19) by lia.
    clear - C. repeat (destruct C as [-> |C]; [reflexivity|]). subst k. reflexivity. }
  pose proof (total_nonneg (fun k => if 10 ^ k <=? Z.abs v then 1 else 0) l ltac:(intros x; cbv beta; destruct (10 ^ x <=? Z.abs v); lia)) as P0.
  pose proof (total_le (fun k => if 10 ^ k <=? Z.abs v then 1 else 0) (fun i => if i <=? k then 1 else 0) l) as P. rewrite T in P. match type of P with ?h -> _ => assert h as Q end.
  { apply Forall_forall. intros i Hi. assert (1 <= i) by (cbn in Hi; lia). destruct (Z.leb_spec i k) as [L|L]; [destruct (10 ^ i <=? Z.abs v); lia|].
    assert (10 ^ (k + 1) <= 10 ^ i) by (apply Z.pow_le_mono_r; lia). replace (10 ^ i <=? Z.abs v) with false by lia. lia. }
  specialize (P Q). destruct (v <? 0); lia.
Qed.
Lemma nlen_width t v : ity_ok t -> irange t v -> 1 <= nlen v <= iwidth t.
Proof.
  intros Ht Hv. unfold irange, imin, imax in Hv. pose proof (half_cases t Ht) as K. unfold iwidth.
  destruct K as [(E & K)|[(E & K)|[(E & K)|(E & K)]]]; rewrite E in *; cbv beta iota.
  - pose proof (nlen_le v 2 ltac:(lia)) as P. change (10 ^ (2 + 1)) with 1000 in P. destruct (isigned t), (Z.ltb_spec v 0); lia.
  - pose proof (nlen_le v 4 ltac:(lia)) as P. change (10 ^ (4 + 1)) with 100000 in P. destruct (isigned t), (Z.ltb_spec v 0); lia.
  - pose proof (nlen_le v 9 ltac:(lia)) as P. change (10 ^ (9 + 1)) with 10000000000 in P. destruct (isigned t), (Z.ltb_spec v 0); lia.
  - destruct (isigned t).
    + pose proof (nlen_le v 18 ltac:(lia)) as P. change (10 ^ (18 + 1)) with 10000000000000000000 in P. destruct (Z.ltb_spec v 0); lia.
    + pose proof (nlen_le v 19 ltac:(lia)) as P. change (10 ^ (19 + 1)) with 100000000000000000000 in P. destruct (Z.ltb_spec v 0); lia.
Qed.
Lemma int_between t : ity_ok t -> between (int_codec t) (irange t) nlen nlen.
Proof.
  intros Ht v ops Hv E. destruct (int_ser_numeral t v Ht Hv) as (s & E' & Hn). cbn [ser int_codec] in E, E'. assert (ops = wr s) as -> by congruence. rewrite flat_wr, (numeral_nlen v s Hn); [lia|].
  destruct (maxdig_ok t v Ht Hv) as [K _]. eapply Z.lt_le_trans; [exact K|]. apply Z.pow_le_mono_r; [lia|]. unfold maxdig. repeat destruct (_ =? _); lia.
Qed.
Lemma int_width t v ops : ity_ok t -> irange t v -> int_ser t v = Ok ops -> 1 <= dist (flat ops) <= iwidth t.
Proof. intros Ht Hv E. pose proof (int_between t Ht v ops Hv E). pose proof (nlen_width t v Ht Hv). lia. Qed.

(** ---- strings ---- *)
Lemma hex_len c : 1 <= dist (serialize_hex c) <= 6.
Proof. unfold serialize_hex. destruct (c <? 128); unfold dist; cbn [length]; lia. Qed.
Lemma esc_len c : 1 <= dist (escape_char c) <= 6.
Proof. unfold escape_char. repeat match goal with |- context [if ?b then _ else _] => destruct b end; try (unfold dist; cbn [length]; lia). apply hex_len. Qed.
Lemma loop_len n : forall s l, str_ser_loop false n s = Ok l -> dist s <= dist l <= 6 * dist s.
Proof.
  induction n as [|n IH]; intros s l; [discriminate|]. cbn [str_ser_loop]. destruct s as [|c t]; [intros E; injection E as <-; unfold dist; cbn; lia|].
  cbn [andb]. rewrite dist_cons. destruct (_ || _).
  { intros E. apply bind_ok in E. destruct E as (r & E & [= <-]). apply IH in E. rewrite dist_app. pose proof (esc_len c). lia. }
  destruct (c <? 127). { intros E. apply bind_ok in E. destruct E as (r & E & [= <-]). apply IH in E. rewrite dist_cons. lia. }
  assert (K : (let* r := str_ser_loop false n t in Ok (serialize_hex c ++ r)) = Ok l -> 1 + dist t <= dist l <= 6 * (1 + dist t)).
  { intros E. apply bind_ok in E. destruct E as (r & E & [= <-]). apply IH in E. rewrite dist_app. pose proof (hex_len c). lia. }
  destruct (is_utf8 (c :: t)); [|exact K]. destruct (parse_utf8 c t (Some no_error)) as [r e] eqn:E8. destruct (has_err e); [exact K|].
  intros E. apply bind_ok in E. destruct E as (q & E & [= <-]). apply IH in E. destruct (utf8_good c t) as (r' & o & F & _ & Hl). rewrite F in E8. injection E8 as -> _.
  rewrite dist_app. unfold range, dist in *. rewrite firstn_length. cbn [length]. lia.
Qed.
Lemma upto0_app a b : ~ In 0 a -> upto0 (a ++ b) = a ++ upto0 b.
Proof. induction a as [|c a IH]; [reflexivity|]. intros H. cbn [app upto0]. replace (c =? 0) with false by (destruct (Z.eqb_spec c 0); [exfalso; apply H; now left|reflexivity]). rewrite IH; [reflexivity|]. intros K. apply H. now right. Qed.
Lemma loop_len0 n : forall s l, bytes s -> str_ser_loop true n s = Ok l -> dist (upto0 s) <= dist l <= 6 * dist (upto0 s).
Proof.
  induction n as [|n IH]; intros s l Hb; [discriminate|]. cbn [str_ser_loop]. destruct s as [|c t]; [intros E; injection E as <-; unfold dist; cbn; lia|].
  inversion Hb as [|? ? Hc Ht]; subst. cbn [andb upto0]. destruct (c =? 0) eqn:E0; [intros E; injection E as <-; unfold dist; cbn; lia|]. rewrite dist_cons. destruct (_ || _).
  { intros E. apply bind_ok in E. destruct E as (r & E & [= <-]). apply IH in E; [|exact Ht]. rewrite dist_app. pose proof (esc_len c). lia. }
  destruct (c <? 127) eqn:E7. { intros E. apply bind_ok in E. destruct E as (r & E & [= <-]). apply IH in E; [|exact Ht]. rewrite dist_cons. lia. }
  assert (K : (let* r := str_ser_loop true n t in Ok (serialize_hex c ++ r)) = Ok l -> 1 + dist (upto0 t) <= dist l <= 6 * (1 + dist (upto0 t))).
  { intros E. apply bind_ok in E. destruct E as (r & E & [= <-]). apply IH in E; [|exact Ht]. rewrite dist_app. pose proof (hex_len c). lia. }
  destruct (is_utf8 (c :: t)); [|exact K]. destruct (parse_utf8 c t (Some no_error)) as [r e] eqn:E8. destruct (has_err e) eqn:Ee; [exact K|].
  assert (e = Some no_error) as ->.
  { destruct (utf8_good c t) as (r' & o & F & (_ & O & _) & _). rewrite F in E8. injection E8 as _ <-. destruct o as [j|]; [|reflexivity]. destruct O as [O _]. unfold has_err, no_err_yet, is_err, app_err in *. cbn [is_err no_error code] in Ee. destruct (code j); discriminate. }
  apply utf8_exact in E8; [|exact Hb].
  intros E. apply bind_ok in E. destruct E as (q & E & [= <-]). destruct E8 as [[L8 ->]|(k & m & Hk & -> & Hm & Hm')].
  - apply IH in E; [|exact Ht]. rewrite dist_app. unfold range, dist in *. rewrite firstn_length. cbn [length]. lia.
  - rewrite upto0_app. 2: { intros Hin. rewrite Forall_forall in Hm'. specialize (Hm' 0 Hin). unfold s_cont in Hm'. lia. }
    apply Forall_app in Ht. apply IH in E; [|apply Ht]. rewrite !dist_app. change (c :: m ++ r) with ((c :: m) ++ r). unfold range, dist in *. rewrite firstn_length, !app_length. cbn [length]. lia.
Qed.

Lemma string_between nt f s ops : str_ser nt s = Ok ops -> (forall l, str_ser_loop nt (S (length s)) s = Ok l -> f <= dist l <= 6 * f) -> f + 2 <= dist (flat ops) <= 6 * f + 2.
Proof.
  unfold str_ser. intros E H. apply bind_ok in E. destruct E as (l & E & F). specialize (H l E). assert (ops = wr (QT :: l ++ [QT])) as -> by congruence. rewrite flat_wr, dist_cons, dist_app. change (dist [QT]) with 1. lia.
Qed.

(** ---- lists ---- *)
Lemma items_between {A} (item : A -> res (list op)) (dom : A -> Prop) lo hi l : Forall (fun x => forall o, dom x -> item x = Ok o -> lo x <= dist (flat o) <= hi x) l -> Forall dom l ->
  forall o, items_ser item l = Ok o -> total lo l + Z.max 0 (Z.of_nat (length l) - 1) <= dist (flat o) <= total hi l + Z.max 0 (Z.of_nat (length l) - 1).
Proof.
  induction 1 as [|x l Hx Hl IH]; intros HD o E; [injection E as <-; cbn; lia|]. inversion HD as [|? ? Hd Hd']; subst. destruct l as [|y l].
  - cbn [items_ser] in E. apply Hx in E; [|exact Hd]. cbn [total length]. lia.
  - change (items_ser item (x :: y :: l)) with (let* a := item x in let* b := items_ser item (y :: l) in Ok (a ++ W COMMA :: b)) in E.
    apply bind_ok in E. destruct E as (a & Ea & E). apply bind_ok in E. destruct E as (b & Eb & E). assert (o = a ++ W COMMA :: b) as -> by congruence.
    apply Hx in Ea; [|exact Hd]. specialize (IH Hd' b Eb). rewrite flat_app, dist_app. cbn [flat flat1 app]. rewrite dist_cons. cbn [total length] in *. lia.
Qed.
Lemma seq_between {A} L R (item : A -> res (list op)) (dom : A -> Prop) lo hi l : (forall x o, dom x -> item x = Ok o -> lo x <= dist (flat o) <= hi x) -> Forall dom l ->
  forall o, seq_ser L R item l = Ok o -> listed lo l <= dist (flat o) <= listed hi l.
Proof.
  intros H HD o E. unfold seq_ser in E. apply bind_ok in E. destruct E as (b & Eb & E). assert (o = W L :: b ++ [W R]) as -> by congruence.
  pose proof (items_between item dom lo hi l ltac:(apply Forall_forall; intros x _; apply H) HD b Eb) as K. cbn [flat flat1 app]. rewrite dist_cons, flat_app, dist_app. change (dist (flat [W R])) with 1. unfold listed. lia.
Qed.
Lemma mem_between {T} (m : mem T) (dm : mem T -> T -> Prop) lo hi v o : between (member_value_codec (m_get m) (m_set m) (m_codec m)) (dm m) (lo m) (hi m) -> dm m v -> mem_ser m v = Ok o ->
  dist (m_name m) + 3 + lo m v <= dist (flat o) <= dist (m_name m) + 3 + hi m v.
Proof.
  intros H Hd E. unfold mem_ser in E. apply bind_ok in E. destruct E as (a & Ea & E). assert (o = W QT :: wr (m_name m) ++ W QT :: W COLON :: a) as -> by congruence.
  apply H in Ea; [|exact Hd]. cbn [flat flat1 app]. rewrite dist_cons, flat_app, dist_app, flat_wr. cbn [flat flat1 app]. rewrite !dist_cons. lia.
Qed.
Lemma memb_between {T} (b : memb T) (dm : mem T -> T -> Prop) lo hi v : (forall m, In m (mems_of b) -> between (member_value_codec (m_get m) (m_set m) (m_codec m)) (dm m) (lo m) (hi m)) ->
  forall o, memb_dom dm v b -> memb_ser b v = Ok o -> memb_len true lo v b <= dist (flat o) <= memb_len true hi v b.
Proof.
  intros H o Hd E. destruct b as [m|m ?|? l r isdef]; cbn [memb_dom memb_ser memb_len mems_of] in *.
  - apply mem_between with dm; auto. apply H. now left.
  - apply mem_between with dm; auto. apply H. now left.
  - destruct (isdef (m_get l v)); apply mem_between with dm; auto; apply H; [right|]; now left.
Qed.
Lemma amemb_between {T} (b : memb T) (dm : mem T -> T -> Prop) lo hi v : (forall m, In m (mems_of b) -> between (member_value_codec (m_get m) (m_set m) (m_codec m)) (dm m) (lo m) (hi m)) ->
  forall o, memb_dom dm v b -> amemb_ser b v = Ok o -> memb_len false lo v b <= dist (flat o) <= memb_len false hi v b.
Proof.
  intros H o Hd E. destruct b as [m|m ?|? l r isdef]; cbn [memb_dom amemb_ser memb_len mems_of] in *.
  - apply (H m); auto. now left.
  - apply (H m); auto. now left.
  - destruct (isdef (m_get l v)); [apply (H r)|apply (H l)]; auto; cbn; auto.
Qed.
Lemma object_between {T} mode (L : list (memb T)) t0 dm lo hi : (forall b m, In b L -> In m (mems_of b) -> between (member_value_codec (m_get m) (m_set m) (m_codec m)) (dm m) (lo m) (hi m)) ->
  between (object_codec mode L t0) (fun v => Forall (memb_dom dm v) L) (fun v => listed (memb_len true lo v) L) (fun v => listed (memb_len true hi v) L).
Proof.
  intros H v o HD E. cbn [ser object_codec] in E. unfold object_ser in E. rewrite members_items in E. apply bind_ok in E. destruct E as (b & Eb & E). assert (o = W LCB :: b ++ [W RCB]) as -> by congruence.
  pose proof (items_between (fun b => memb_ser b v) (memb_dom dm v) (memb_len true lo v) (memb_len true hi v) L) as K.
  specialize (K ltac:(apply Forall_forall; intros x Hx o' Hd; now apply memb_between with dm; [intros m; now apply H|]) HD b Eb).
  cbn [flat flat1 app]. rewrite dist_cons, flat_app, dist_app. change (dist (flat [W RCB])) with 1. unfold listed. lia.
Qed.
Lemma oarray_between {T} (L : list (memb T)) t0 dm lo hi : (forall b m, In b L -> In m (mems_of b) -> between (member_value_codec (m_get m) (m_set m) (m_codec m)) (dm m) (lo m) (hi m)) ->
  between (oarray_codec L t0) (fun v => Forall (memb_dom dm v) L) (fun v => listed (memb_len false lo v) L) (fun v => listed (memb_len false hi v) L).
Proof.
  intros H v o HD E. cbn [ser oarray_codec] in E. unfold oarray_ser in E. rewrite amembers_items in E. apply bind_ok in E. destruct E as (b & Eb & E). assert (o = W LBR :: b ++ [W RBR]) as -> by congruence.
  pose proof (items_between (fun b => amemb_ser b v) (memb_dom dm v) (memb_len false lo v) (memb_len false hi v) L) as K.
  specialize (K ltac:(apply Forall_forall; intros x Hx o' Hd; now apply amemb_between with dm; [intros m; now apply H|]) HD b Eb).
  cbn [flat flat1 app]. rewrite dist_cons, flat_app, dist_app. change (dist (flat [W RBR])) with 1. unfold listed. lia.
Qed.

(** ---- enumerations ---- *)
Lemma longest_nonneg ns : 0 <= longest ns. Proof. induction ns as [|n ns IH]; [cbn; lia|]. cbn [longest fold_right]. fold (longest ns). lia. Qed.
Lemma enum_name_len L v : dist (enum_name L v) <= longest (map fst L).
Proof. induction L as [|[n x] L IH]; [cbn; lia|]. cbn [enum_name map fst longest fold_right]. fold (longest (map fst L)). destruct (x =? v); lia. Qed.
Lemma flags_len sep L v : forall first, dist (flags_body sep L v first) <=
  total (fun n => dist n + if sep =? COMMA then 2 else 0) (map fst L) + Z.of_nat (length L) - (if first && negb (Z.of_nat (length L) =? 0) then 1 else 0).
Proof.
  induction L as [|[n x] L IH]; intros first; [cbn; destruct first; cbn; lia|]. cbn [flags_body map fst total length]. pose proof (dist_nonneg n).
  replace (Z.of_nat (S (length L)) =? 0) with false by lia. rewrite Bool.andb_true_r. destruct (flag_on v x).
  - specialize (IH false). rewrite !dist_app. cbn [andb] in IH.
    assert (K : dist (if sep =? COMMA then QT :: n ++ [QT] else n) = dist n + if sep =? COMMA then 2 else 0).
    { destruct (sep =? COMMA); [|lia]. rewrite dist_cons, dist_app. change (dist [QT]) with 1. lia. }
    unfold buf in *. rewrite K. clear K. destruct first; [change (dist []) with 0|change (dist [sep]) with 1]; destruct (sep =? COMMA); lia.
  - specialize (IH first). destruct first, (Z.eqb_spec (Z.of_nat (length L)) 0); cbn [andb negb] in *; destruct (sep =? COMMA); lia.
Qed.

(** ---- units ---- *)
Lemma write_if_len t v ch o : ity_ok t -> irange t v -> time_write_if t v ch = Ok o -> dist (flat o) <= iwidth t + 1.
Proof.
  intros Ht Hv. unfold time_write_if. pose proof (nlen_width t v Ht Hv) as W0. destruct (v =? 0); [intros [= <-]; change (dist (flat [])) with 0; lia|]. intros E. apply bind_ok in E. destruct E as (a & Ea & E).
  assert (o = [Sub a] ++ [W ch]) as -> by (cbn; congruence). rewrite flat_app, flat_sub, dist_app. apply int_width in Ea; auto. change (dist (flat [W ch])) with 1. lia.
Qed.
Lemma pos_len t v (b : bool) ch suf o : ity_ok t -> irange t v -> (if b then let* o := time_write_if t v ch in Ok (o ++ wr suf) else Ok []) = Ok o -> dist (flat o) <= iwidth t + 1 + dist suf.
Proof.
  intros Ht Hv E. pose proof (nlen_width t v Ht Hv) as W0. pose proof (dist_nonneg suf). destruct b; [|injection E as <-; change (dist (flat [])) with 0; lia]. apply bind_ok in E. destruct E as (a & Ea & E).
  assert (o = a ++ wr suf) as -> by congruence. rewrite flat_app, dist_app, flat_wr. apply write_if_len in Ea; auto. lia.
Qed.
Lemma tail_len t fr v o : ity_ok t -> irange t v -> time_ser_tail t fr v = Ok o -> dist (flat o) <= 2 * iwidth t + 5.
Proof.
  intros Ht Hv E. pose proof (nlen_width t v Ht Hv) as W0. unfold time_ser_tail in E. destruct (Z.rem v fr =? 0); [injection E as <-; change (dist (flat [])) with 0; lia|].
  do 4 (apply bind_ok in E; destruct E as (? & _ & E)). apply bind_ok in E. destruct E as (o1 & E1 & E). apply bind_ok in E. destruct E as (o2 & E2 & E). assert (o = o1 ++ o2) as -> by congruence.
  apply (pos_len t _ _ 109 [115] o1 Ht (icast_range _ _ Ht)) in E1. apply (pos_len t _ _ 109 [107; 115] o2 Ht (icast_range _ _ Ht)) in E2. rewrite flat_app, dist_app. unfold dist in *. cbn [length] in *. lia.
Qed.
Lemma time_between t fr : ity_ok t -> between (time_codec t fr) (irange t) (fun _ => 2) (fun _ => 6 * iwidth t + 11).
Proof.
  intros Ht v ops Hv E. cbn [ser time_codec] in E. unfold time_ser in E. apply bind_ok in E. destruct E as (o1 & E1 & E). do 2 (apply bind_ok in E; destruct E as (? & _ & E)).
  apply bind_ok in E. destruct E as (o2 & E2 & E). do 3 (apply bind_ok in E; destruct E as (? & _ & E)). apply bind_ok in E. destruct E as (o3 & E3 & E).
  apply bind_ok in E. destruct E as (o4 & E4 & E). apply bind_ok in E. destruct E as (o5 & E5 & E). assert (ops = [W QT] ++ o1 ++ o2 ++ o3 ++ o4 ++ o5 ++ [W QT]) as -> by congruence.
  apply tail_len in E5; auto. apply write_if_len in E1, E2, E3, E4; try apply icast_range; auto. rewrite !flat_app, !dist_app. change (dist (flat [W QT])) with 1.
  pose proof (dist_nonneg (flat o1)). pose proof (dist_nonneg (flat o2)). pose proof (dist_nonneg (flat o3)). pose proof (dist_nonneg (flat o4)). pose proof (dist_nonneg (flat o5)). lia.
Qed.
Lemma size_try_len t metric : forall l v o, Forall (fun x => dist (snd x) <= 3) l -> size_try t metric l v = Ok (Some o) -> 1 <= dist (flat o) <= 25.
Proof.
  induction l as [|[[base ex] ch] l IH]; intros v o Hl; [discriminate|]. inversion Hl as [|? ? Hx Hl']; subst. cbn [size_try snd] in *. intros E. apply bind_ok in E. destruct E as (x & E & F). destruct x as [o'|]; [|now apply IH in F].
  assert (o' = o) as -> by congruence. unfold size_write_if in E. destruct (negb _); [discriminate|]. match type of E with (if ?b then _ else _) = _ => destruct b end; [|discriminate].
  apply bind_ok in E. destruct E as (a & Ea & E). assert (o = [W QT] ++ [Sub a] ++ wr ch ++ [W QT]) as -> by (cbn; cbn in E; congruence).
  apply int_width in Ea; [|right; right; now right|apply icast_range; right; right; now right]. rewrite !flat_app, !dist_app, flat_sub, flat_wr. change (dist (flat [W QT])) with 1. change (iwidth i64) with 20 in Ea. pose proof (dist_nonneg ch). lia.
Qed.
Lemma size_between t metric : ity_ok t -> between (size_codec t metric) (irange t) (fun _ => 1) (fun _ => 25).
Proof.
  intros Ht v ops Hv E. cbn [ser size_codec] in E. unfold size_ser in E. apply bind_ok in E. destruct E as (y & _ & E). apply bind_ok in E. destruct E as (w & Ew & E). destruct w as [o|].
  - assert (o = ops) as -> by congruence. destruct (_ || _); apply size_try_len in Ew; auto; repeat (constructor; [unfold dist; cbn; lia|]); constructor.
  - apply int_width in E; auto. assert (iwidth t <= 20) by (unfold iwidth; destruct Ht as [H|[H|[H|H]]]; rewrite H; destruct (isigned t); lia). lia.
Qed.

(** ---- all descriptions ---- *)
Theorem lens_between A c dom lo hi : lens A c dom lo hi -> between c dom lo hi.
Proof.
  induction 1; intros v0 ops HD E.
  - destruct (H0 v0 HD) as (H1 & H2 & H3). specialize (IHlens v0 ops H1 E). lia.
  - now apply int_between in E.
  - cbn [ser bool_codec] in E. unfold bool_ser in E. assert (ops = wr (if v0 then text "true" else text "false")) as -> by congruence. rewrite flat_wr. destruct v0; unfold dist; cbn; lia.
  - cbn [ser float_codec] in E. unfold float_ser in E. assert (ops = wr (cstr (firstn (bufsize R) (fmt v0)))) as -> by congruence. rewrite flat_wr. split; [apply dist_nonneg|].
    assert (K : forall s, dist (cstr s) <= dist s). { induction s as [|x s IH]; [cbn; lia|]. cbn [cstr]. pose proof (dist_nonneg s). destruct (x =? 0); unfold dist in *; cbn [length]; lia. }
    specialize (K (firstn (bufsize R) (fmt v0))). unfold dist in *. rewrite firstn_length in K. lia.
  - cbn [ser float_codec_std] in E. unfold float_ser_std in E. assert (ops = wr (fmt v0)) as -> by congruence. rewrite flat_wr. lia.
  - apply (string_between false (dist v0) v0 ops E). intros l. apply loop_len.
  - apply (string_between true (dist (upto0 v0)) v0 ops E). intros l. now apply loop_len0.
  - cbn [ser enum_codec] in E. unfold enum_ser in E. assert (ops = wr (QT :: enum_name L v0 ++ [QT])) as -> by congruence. rewrite flat_wr, dist_cons, dist_app. pose proof (enum_name_len L v0). pose proof (dist_nonneg (enum_name L v0)). change (dist [QT]) with 1. lia.
  - cbn [ser flags_codec] in E. unfold flags_ser in E. apply (f_equal (fun x => match x with Ok o => flat o | _ => [] end)) in E. rewrite flat_wr in E. rewrite <- E. rewrite dist_cons, dist_app.
    replace (dist [if sep =? COMMA then RBR else QT]) with 1 by (now destruct (sep =? COMMA)). pose proof (flags_len sep L v0 true). pose proof (dist_nonneg (flags_body sep L v0 true)). unfold listed. rewrite map_length.
    cbn [andb] in H. destruct (Z.eqb_spec (Z.of_nat (length L)) 0); cbn [negb] in H; lia.
  - cbn [ser raw_codec] in E. unfold raw_ser in E. destruct v0 as [|x v0]; [injection E as <-; cbn; lia|]. assert (ops = wr (x :: v0)) as -> by congruence. rewrite flat_wr. unfold raw_len. lia.
  - cbn [ser ipair_codec] in E. unfold raw_ser in E. destruct v0 as [|x v0]; [injection E as <-; cbn; lia|]. assert (ops = wr (x :: v0)) as -> by congruence. rewrite flat_wr. unfold raw_len. lia.
  - cbn [ser rquoted_codec] in E. unfold rquoted_ser in E. destruct q.
    + assert (ops = [W QT] ++ [Sub (wr v0)] ++ [W QT]) as -> by (cbn; congruence). rewrite !flat_app, !dist_app, flat_sub, flat_wr. change (dist (flat [W QT])) with 1. lia.
    + assert (ops = [Sub (wr v0)]) as -> by congruence. rewrite flat_sub, flat_wr. lia.
  - now apply (time_between t fr) in E.
  - now apply (size_between t metric) in E.
  - apply (seq_between L R (ser c) dom lo hi (c_list k v0) IHlens HD ops E).
  - apply (seq_between L R (ser c) dom lo hi (h_list h v0) IHlens HD ops E).
  - apply (seq_between LBR RBR (ser c) dom lo hi (vlist v0) IHlens HD ops E).
  - apply (seq_between LBR RBR (ser c) dom lo hi (vlist v0) IHlens HD ops E).
  - cbn [ser field_codec] in E. unfold field_ser in E. apply bind_ok in E. destruct E as (a & Ea & E). apply bind_ok in E. destruct E as (b & Eb & E). assert (ops = a ++ W COLON :: b) as -> by congruence.
    apply IHlens1 in Ea; [|apply HD]. apply IHlens2 in Eb; [|apply HD]. rewrite flat_app, dist_app. cbn [flat flat1 app]. rewrite dist_cons. lia.
  - apply (object_between mode L t0 dm lo hi H0 v0 ops HD E).
  - apply (oarray_between L t0 dm lo hi H0 v0 ops HD E).
  - apply (IHlens _ ops HD E).
  - cbn [ser quoted_codec] in E. unfold quoted_ser in E. apply bind_ok in E. destruct E as (a & Ea & E). apply IHlens in Ea; [|exact HD]. apply (string_between false (dist (flat a))) in E; [lia|]. intros l. apply loop_len.
  - apply (IHlens _ ops HD E).
  - destruct v0 as [v0|]; [apply (IHlens _ ops HD E)|]. cbn in E. injection E as <-. cbn. lia.
Qed.

(** ---- writing through a pointer ---- *)
Lemma posts1_sub l : posts1 (Sub l) = posts l.
Proof. cbn [posts1]. induction l as [|x l IH]; [reflexivity|]. cbn [posts forallb]. unfold posts in IH. now rewrite IH. Qed.
Lemma ptr1_sub l m a : ptr1 (Sub l) m a = (fst (ptr_run l m a), a).
Proof. reflexivity. Qed.
Fixpoint osize (o : op) : nat := match o with Sub l => S ((fix go (l : list op) : nat := match l with [] => 0 | x :: r => osize x + go r end) l) | _ => 1 end%nat.
Fixpoint lsize (l : list op) : nat := match l with [] => 0 | x :: r => osize x + lsize r end%nat.
Lemma osize_sub l : osize (Sub l) = S (lsize l).
Proof. reflexivity. Qed.
Lemma run_reach n : forall l m a, (lsize l < n)%nat -> a <= snd (ptr_run l m a) <= a + dist (flat l) /\
  forall x, x < a \/ (if posts l then a + dist (flat l) <= x else a + dist (flat l) < x) -> fst (ptr_run l m a) x = m x.
Proof.
  induction n as [|n IH]; intros l m a Hn; [lia|]. destruct l as [|o l]; [cbn; split; [lia|reflexivity]|]. cbn [ptr_run flat lsize posts forallb] in *. fold (posts l). rewrite dist_app.
  assert (So : (1 <= osize o)%nat) by (destruct o; cbn; lia).
  assert (K : a <= snd (ptr1 o m a) <= a + dist (flat1 o) /\ forall x, x < a \/ (if posts1 o then a + dist (flat1 o) <= x else a + dist (flat1 o) < x) -> fst (ptr1 o m a) x = m x).
  { destruct o as [b|b|s].
    - cbn. split; [lia|]. intros x Hx. unfold upd. replace (x =? a) with false by lia. reflexivity.
    - cbn. split; [lia|]. intros x Hx. unfold upd. replace (x =? a + 1) with false by lia. reflexivity.
    - rewrite ptr1_sub, posts1_sub. rewrite osize_sub in Hn. specialize (IH s m a ltac:(lia)). replace (flat1 (Sub s)) with (flat s) by (rewrite <- flat_sub; cbn [flat]; apply app_nil_r). cbn [fst snd]. split; [pose proof (dist_nonneg (flat s)); lia|apply IH]. }
  destruct (ptr1 o m a) as [m1 a1]. cbn [fst snd] in K. destruct K as [K1 K2]. destruct (IH l m1 a1 ltac:(lia)) as [I1 I2]. split; [lia|]. intros x Hx. pose proof (dist_nonneg (flat l)). rewrite I2, K2; [reflexivity| |].
  - destruct Hx as [Hx|Hx]; [now left|right]. destruct (posts1 o), (posts l); cbn [andb] in Hx; lia.
  - destruct Hx as [Hx|Hx]; [left; lia|right]. destruct (posts1 o), (posts l); cbn [andb] in Hx; lia.
Qed.
Lemma posts_wr b : posts (wr b) = true. Proof. induction b as [|x b IH]; [reflexivity|exact IH]. Qed.

(** ---- no pointers ---- *)
Lemma posts_app a b : posts (a ++ b) = posts a && posts b. Proof. apply forallb_app. Qed.
Definition postful {A} (c : codec A) : Prop := forall v ops, ser c v = Ok ops -> posts ops = true.
Lemma wonly_posts {A} (c : codec A) : wonly c -> postful c.
Proof. intros H v ops E. destruct (H v ops E) as (b & ->). apply posts_wr. Qed.
Lemma posts_wrap L R b : posts (W L :: b ++ [W R]) = posts b.
Proof. change (W L :: b ++ [W R]) with ([W L] ++ b ++ [W R]). rewrite !posts_app. cbn. now rewrite Bool.andb_true_r. Qed.
Lemma items_posts {A} (item : A -> res (list op)) l : (forall x o, In x l -> item x = Ok o -> posts o = true) -> forall o, items_ser item l = Ok o -> posts o = true.
Proof.
  induction l as [|x l IH]; intros H o E; [injection E as <-; reflexivity|]. destruct l as [|y l].
  - apply (H x o); [now left|exact E].
  - change (items_ser item (x :: y :: l)) with (let* a := item x in let* b := items_ser item (y :: l) in Ok (a ++ W COMMA :: b)) in E.
    apply bind_ok in E. destruct E as (a & Ea & E). apply bind_ok in E. destruct E as (b & Eb & E). assert (o = a ++ [W COMMA] ++ b) as -> by (cbn; congruence).
    rewrite !posts_app, (H x a), (IH ltac:(intros z oz Hz; apply H; now right) b Eb); [reflexivity|now left|exact Ea].
Qed.
Lemma seq_posts {A} L R (item : A -> res (list op)) l : (forall x o, item x = Ok o -> posts o = true) -> forall o, seq_ser L R item l = Ok o -> posts o = true.
Proof.
  intros H o E. unfold seq_ser in E. apply bind_ok in E. destruct E as (b & Eb & E). assert (o = W L :: b ++ [W R]) as -> by congruence. rewrite posts_wrap. revert Eb. apply items_posts. intros x ox _. apply H.
Qed.
Lemma write_if_posts t v ch o : time_write_if t v ch = Ok o -> posts o = true.
Proof.
  unfold time_write_if. destruct (v =? 0); [intros [= <-]; reflexivity|]. intros E. apply bind_ok in E. destruct E as (a & Ea & E). assert (o = [Sub a] ++ [W ch]) as -> by (cbn; congruence).
  destruct (int_ser_wonly t v a Ea) as (b & ->). rewrite posts_app. cbn [posts forallb]. rewrite posts1_sub, posts_wr. reflexivity.
Qed.
Lemma time_posts t fr : postful (time_codec t fr).
Proof.
  intros v ops E. cbn [ser time_codec] in E. unfold time_ser in E. apply bind_ok in E. destruct E as (o1 & E1 & E). do 2 (apply bind_ok in E; destruct E as (? & _ & E)).
  apply bind_ok in E. destruct E as (o2 & E2 & E). do 3 (apply bind_ok in E; destruct E as (? & _ & E)). apply bind_ok in E. destruct E as (o3 & E3 & E).
  apply bind_ok in E. destruct E as (o4 & E4 & E). apply bind_ok in E. destruct E as (o5 & E5 & E). assert (ops = [W QT] ++ o1 ++ o2 ++ o3 ++ o4 ++ o5 ++ [W QT]) as -> by congruence.
  apply write_if_posts in E1, E2, E3, E4. rewrite !posts_app, E1, E2, E3, E4. cbn [posts forallb posts1 andb]. fold (posts o5). rewrite Bool.andb_true_r.
  clear - E5. unfold time_ser_tail in E5. destruct (Z.rem v fr =? 0); [injection E5 as <-; reflexivity|].
  do 4 (apply bind_ok in E5; destruct E5 as (? & _ & E5)). apply bind_ok in E5. destruct E5 as (a & Ea & E5). apply bind_ok in E5. destruct E5 as (b & Eb & E5). assert (o5 = a ++ b) as -> by congruence.
  assert (P : forall (c : bool) w x suf o, (if c then let* o := time_write_if t w x in Ok (o ++ wr suf) else Ok []) = Ok o -> posts o = true).
  { intros c w ch suf o F. destruct c; [|injection F as <-; reflexivity]. apply bind_ok in F. destruct F as (q & Fq & F). assert (o = q ++ wr suf) as -> by congruence. apply write_if_posts in Fq. now rewrite posts_app, Fq, posts_wr. }
  apply (P _ _ _ [115]) in Ea. apply (P _ _ _ [107; 115]) in Eb. now rewrite posts_app, Ea, Eb.
Qed.
Lemma size_posts t metric : postful (size_codec t metric).
Proof.
  intros v ops E. cbn [ser size_codec] in E. unfold size_ser in E. apply bind_ok in E. destruct E as (y & _ & E). apply bind_ok in E. destruct E as (w & Ew & E).
  assert (K : forall l, size_try t metric l y = Ok w -> match w with Some o => posts o = true | None => True end).
  { induction l as [|[[base ex] ch] l IH]; intros F; [injection F as <-; exact I|]. cbn [size_try] in F. apply bind_ok in F. destruct F as (x & F1 & F2). destruct x as [o'|]; [|now apply IH].
    assert (w = Some o') as -> by congruence. unfold size_write_if in F1. destruct (negb _); [discriminate|]. match type of F1 with (if ?b then _ else _) = _ => destruct b end; [|discriminate].
    apply bind_ok in F1. destruct F1 as (a & Ea & F1). assert (o' = [W QT] ++ [Sub a] ++ wr ch ++ [W QT]) as -> by (cbn; cbn in F1; congruence).
    destruct (int_ser_wonly i64 _ a Ea) as (b & ->). rewrite !posts_app, posts_wr. cbn [posts forallb]. rewrite posts1_sub, posts_wr. reflexivity. }
  assert (K' : match w with Some o => posts o = true | None => True end) by (destruct (_ || _); now apply K in Ew). destruct w as [o|]; [assert (ops = o) as -> by congruence; exact K'|].
  destruct (int_ser_wonly t v ops E) as (b & ->). apply posts_wr.
Qed.
Theorem noptr_posts A (c : codec A) : noptr A c -> postful c.
Proof.
  induction 1 as [A c Hl|A R fmt scan zero|A C S k L R c d0 _ IH|A H h L R c d0 _ IH|A c d0 N _ IH|A c N _ IH|K V kc vc _ IHk _ IHv|T mode L t0 _ IH|T L t0 _ IH|T A get set c _ IH|A c reqq|A c reqq _ IH].
  - destruct Hl; try (apply wonly_posts, plain_wonly; constructor).
    + intros v ops E. cbn [ser rquoted_codec] in E. unfold rquoted_ser in E. destruct serq; injection E as <-; cbn [posts forallb andb]; rewrite posts1_sub, posts_wr; reflexivity.
    + apply time_posts.
    + apply size_posts.
  - intros v ops E. cbn [ser float_codec_std] in E. unfold float_ser_std in E. assert (ops = wr (fmt v)) as -> by congruence. apply posts_wr.
  - intros v. apply seq_posts. exact IH.
  - intros v. apply seq_posts. exact IH.
  - intros v. apply seq_posts. exact IH.
  - intros v. apply seq_posts. exact IH.
  - intros v ops E. cbn [ser field_codec] in E. unfold field_ser in E. apply bind_ok in E. destruct E as (a & Ea & E). apply bind_ok in E. destruct E as (b & Eb & E). assert (ops = a ++ [W COLON] ++ b) as -> by (cbn; congruence).
    rewrite !posts_app, (IHk _ _ Ea), (IHv _ _ Eb). reflexivity.
  - intros v ops E. cbn [ser object_codec] in E. unfold object_ser in E. rewrite members_items in E. apply bind_ok in E. destruct E as (b & Eb & E). assert (ops = W LCB :: b ++ [W RCB]) as -> by congruence. rewrite posts_wrap.
    revert Eb. apply items_posts. intros x o Hx E'.
    assert (P : forall m, In m (mems_of x) -> mem_ser m v = Ok o -> posts o = true).
    { intros m Hm F. unfold mem_ser in F. apply bind_ok in F. destruct F as (a & Ea & F). assert (o = [W QT] ++ wr (m_name m) ++ [W QT; W COLON] ++ a) as -> by (cbn; congruence). rewrite !posts_app, posts_wr, (IH x m Hx Hm _ _ Ea). reflexivity. }
    destruct x as [m|m ?|? l r isdef]; cbn [memb_ser mems_of] in *; [apply (P m); auto; now left|apply (P m); auto; now left|]. destruct (negb (isdef (m_get l v))); [apply (P l)|apply (P r)]; auto; cbn; auto.
  - intros v ops E. cbn [ser oarray_codec] in E. unfold oarray_ser in E. rewrite amembers_items in E. apply bind_ok in E. destruct E as (b & Eb & E). assert (ops = W LBR :: b ++ [W RBR]) as -> by congruence. rewrite posts_wrap.
    revert Eb. apply items_posts. intros x o Hx E'.
    destruct x as [m|m ?|? l r isdef]; cbn [amemb_ser] in *; unfold amem_ser in *; [eapply (IH _ m Hx); [now left|exact E']|eapply (IH _ m Hx); [now left|exact E']|]. destruct (negb (isdef (m_get l v))); [eapply (IH _ l Hx); [now left|exact E']|eapply (IH _ r Hx); [right; now left|exact E']].
  - intros v. apply IH.
  - intros v ops E. cbn [ser quoted_codec] in E. unfold quoted_ser in E. apply bind_ok in E. destruct E as (o & _ & E). destruct (str_ser_wonly _ _ _ E) as (b & ->). apply posts_wr.
  - intros v. apply IH.
Qed.
