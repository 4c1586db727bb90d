(** The recursion of parse_value goes as deep as the text nests. *)
From Verif Require Import Base Parser SpecJson ParserFacts Grammar1 Grammar2 SpecDepth.

(** ------------- more fuel changes nothing ------------- *)
Definition below {A} (x y : res A) : Prop := x = Fuel \/ x = y.
Lemma below_refl {A} (x : res A) : below x x. Proof. now right. Qed.
Lemma below_bind {A B} (x y : res A) (f g : A -> res B) :
  below x y -> (forall a, below (f a) (g a)) -> below (bind x f) (bind y g).
Proof. intros [->| ->] H; [now left|]. destruct y; cbn [bind]; [apply H|now right|now right]. Qed.

Lemma items_below sn close item item' :
  (forall s e, below (item s e) (item' s e)) ->
  forall n s e, below (items_loop sn close item n s e) (items_loop sn close item' n s e).
Proof.
  intros Hi. induction n as [|n IH]; intros s e; [now left|]. cbn [items_loop].
  destruct s as [|c0 s0]; [apply below_refl|]. destruct (c0 =? close); [apply below_refl|].
  destruct (parse_space (c0 :: s0) e) as [s1 e1].
  apply below_bind; [apply below_refl|]. intros c1. destruct (c1 =? close); [apply below_refl|].
  apply below_bind; [apply Hi|]. intros [s2 e2]. destruct (parse_space s2 e2) as [s3 e3].
  destruct s3 as [|c3 t3]; [apply below_refl|].
  destruct (_ && _); [apply below_refl|]. destruct (c3 =? COMMA); apply IH.
Qed.
Lemma member_below pv pv' :
  (forall s e, below (pv s e) (pv' s e)) ->
  forall s e, below (parse_member pv s e) (parse_member pv' s e).
Proof.
  intros Hi s e. unfold parse_member. destruct (negb _); [apply below_refl|].
  apply below_bind; [apply below_refl|]. intros [s1 e1]. destruct s1; [apply below_refl|].
  destruct (parse_space _ e1) as [s2 e2]. destruct s2; [apply below_refl|].
  destruct (negb _); [apply below_refl|]. destruct s2; [apply below_refl|].
  destruct (parse_space _ e2) as [s4 e4]. destruct s4; [apply below_refl|]. apply Hi.
Qed.
Lemma value_below sn : forall n m s e, (n <= m)%nat ->
  below (parse_value_f sn n s e) (parse_value_f sn m s e).
Proof.
  induction n as [|n IH]; intros m s e H; [now left|]. destruct m as [|m]; [lia|].
  cbn [parse_value_f]. assert (IH' : forall s e, below (parse_value_f sn n s e) (parse_value_f sn m s e)).
  { intros. apply IH. lia. }
  repeat match goal with |- below (if ?b then _ else _) _ => destruct b; [try apply below_refl| try apply below_refl] end.
  - unfold parse_object. destruct (negb _); [apply below_refl|]. apply below_bind; [apply below_refl|].
    intros s0. destruct (parse_space s0 e) as [s1 e1]. destruct (starts RBR s1); [apply below_refl|].
    apply items_below. now apply member_below.
  - unfold parse_array. destruct (negb _); [apply below_refl|]. apply below_bind; [apply below_refl|].
    intros s0. now apply items_below.
Qed.

(** ------------- what is left is an end of the text ------------- *)
Definition tails (f : pfun) : Prop := forall s e r e', f s e = Ok (r, e') -> suffix r s.
Lemma value_tails sn n : tails (parse_value_f sn n).
Proof.
  intros s e r e' H. set (N := (S (length s) + n)%nat).
  destruct (value_below sn n N s e ltac:(lia)) as [E|E]; [congruence|]. rewrite H in E.
  destruct (parse_value_law sn N s ltac:(unfold N; lia)) as [(s2 & o2 & A2 & B2 & C2)|(Hsn & Hub)].
  - rewrite A2 in E. injection E as <- _. exact (proj1 B2).
  - rewrite Hub in E. discriminate.
Qed.
Lemma member_tails pv : tails pv -> tails (parse_member pv).
Proof.
  intros Hp s e r e'. unfold parse_member. destruct (negb (is_string s)).
  { intros [= <- _]. exists s. now rewrite app_nil_r. }
  destruct (string_good s) as (s1 & o1 & A1 & B1). rewrite A1. cbn [bind].
  assert (Hnil : suffix [] s) by (exists s; now rewrite app_nil_r).
  destruct s1 as [|c1 t1]; [now intros [= <- _]|].
  destruct (space_good (c1 :: t1)) as (s2 & o2 & A2 & B2). rewrite A2.
  destruct s2 as [|c2 t2]; [now intros [= <- _]|]. destruct (negb (c2 =? COLON)); [now intros [= <- _]|].
  destruct t2 as [|c3 t3]; [now intros [= <- _]|].
  destruct (space_good (c3 :: t3)) as (s4 & o4 & A4 & B4). rewrite A4.
  destruct s4 as [|c4 t4]; [now intros [= <- _]|]. intros H. apply Hp in H.
  destruct H as (x & Hx). destruct B1 as ((x1 & H1) & _), B2 as ((x2 & H2) & _), B4 as ((x4 & H4) & _).
  exists (x1 ++ x2 ++ c2 :: x4 ++ x). rewrite H1, H2, H4, Hx.
  repeat (rewrite <- ?app_assoc; cbn [app]). reflexivity.
Qed.

(** ------------- the loops ------------- *)
Lemma suffix_cons (r : buf) c t : suffix (c :: r) t -> suffix r t /\ (length r < length t)%nat.
Proof.
  intros (x & ->). split; [|rewrite app_length; cbn [length]; lia].
  exists (x ++ [c]). now rewrite <- app_assoc.
Qed.
Lemma suffix_tr (a b c : buf) : suffix a b -> suffix b c -> suffix a c.
Proof. intros (x & ->) (y & ->). exists (y ++ x). now rewrite app_assoc. Qed.

(* the rest behind an item is shorter: the byte in front was no closing bracket *)
Lemma item_len close (s1 s2 s3 : buf) c1 t1 c3 t3 :
  s1 = c1 :: t1 -> suffix s2 s1 -> suffix s3 s2 -> s3 = c3 :: t3 ->
  (c1 =? close) = false -> (c3 =? close) = true -> (length s3 < length s1)%nat.
Proof.
  intros -> H2 H3 -> E1 E3. destruct (suffix_tr _ _ _ H3 H2) as ([|z x] & Hx).
  - cbn in Hx. injection Hx as -> ->. congruence.
  - cbn in Hx. injection Hx as _ ->. cbn [length]. rewrite app_length. cbn [length]. lia.
Qed.

Lemma items_m sn close item : tails item -> forall n m s e, (length s < n)%nat -> (length s < m)%nat ->
  items_loop sn close item n s e = items_loop sn close item m s e.
Proof.
  intros Hi. induction n as [|n IH]; intros m s e Hn Hm; [lia|].
  destruct m as [|m]; [lia|]. cbn [items_loop].
  destruct s as [|c0 s0]; [reflexivity|].
  destruct (c0 =? close); [reflexivity|].
  remember (c0 :: s0) as s eqn:Hs.
  destruct (space_good s) as (s1 & o1 & A1 & B1). rewrite A1.
  destruct (deref sn s1) as [c1| |] eqn:Ed; cbn [bind]; [|reflexivity|reflexivity].
  destruct (c1 =? close) eqn:E1; [reflexivity|].
  assert (L1 : (length s1 <= length s)%nat) by (apply suffix_len, B1).
  destruct (item s1 _) as [[s2 e2]| |] eqn:E2; [|reflexivity|reflexivity]. cbn [bind].
  apply Hi in E2.
  destruct (space_good s2) as (s3 & o3 & A3 & B3). rewrite A3.
  destruct s3 as [|c3 t3]; [reflexivity|].
  destruct (negb (c3 =? COMMA) && negb (c3 =? close)) eqn:E3; [reflexivity|].
  pose proof (suffix_tr _ _ _ (proj1 B3) E2) as S31. pose proof (suffix_len _ _ S31).
  destruct (c3 =? COMMA) eqn:E4.
  { apply IH; cbn [length] in *; lia. }
  assert (E5 : (c3 =? close) = true) by (destruct (c3 =? close); [reflexivity|discriminate]).
  destruct s1 as [|d1 t1]; [apply suffix_of_nil in S31; discriminate|].
  cbn in Ed. injection Ed as ->.
  pose proof (item_len close (c1 :: t1) s2 (c3 :: t3) c1 t1 c3 t3 eq_refl E2 (proj1 B3) eq_refl E1 E5).
  apply IH; lia.
Qed.

Lemma items_nofuel sn close item : tails item -> forall n s e, (length s < n)%nat ->
  (forall s' e', suffix s' s -> item s' e' <> Fuel) ->
  items_loop sn close item n s e <> Fuel.
Proof.
  intros Hi. induction n as [|n IH]; intros s e Hn Hf; [lia|]. cbn [items_loop].
  destruct s as [|c0 s0]; [discriminate|].
  destruct (c0 =? close); [discriminate|].
  remember (c0 :: s0) as s eqn:Hs.
  destruct (space_good s) as (s1 & o1 & A1 & B1). rewrite A1.
  destruct (deref sn s1) as [c1| |] eqn:Ed; cbn [bind]; [|discriminate|].
  2:{ destruct s1; cbn in Ed; [destruct sn; discriminate|discriminate]. }
  destruct (c1 =? close) eqn:E1; [discriminate|].
  assert (L1 : (length s1 <= length s)%nat) by (apply suffix_len, B1).
  destruct (item s1 _) as [[s2 e2]| |] eqn:E2; [|discriminate|].
  2:{ intros _. exact (Hf _ _ (proj1 B1) E2). }
  cbn [bind]. apply Hi in E2.
  destruct (space_good s2) as (s3 & o3 & A3 & B3). rewrite A3.
  destruct s3 as [|c3 t3]; [discriminate|].
  destruct (negb (c3 =? COMMA) && negb (c3 =? close)) eqn:E3; [discriminate|].
  pose proof (suffix_tr _ _ _ (proj1 B3) E2) as S31. pose proof (suffix_len _ _ S31).
  pose proof (suffix_tr _ _ _ S31 (proj1 B1)) as S3.
  destruct (c3 =? COMMA) eqn:E4.
  { apply IH; [cbn [length] in *; lia|]. intros s' e' H'. apply Hf.
    apply suffix_cons in S3. exact (suffix_tr _ _ _ H' (proj1 S3)). }
  assert (E5 : (c3 =? close) = true) by (destruct (c3 =? close); [reflexivity|discriminate]).
  destruct s1 as [|d1 t1]; [apply suffix_of_nil in S31; discriminate|].
  cbn in Ed. injection Ed as ->.
  pose proof (item_len close (c1 :: t1) s2 (c3 :: t3) c1 t1 c3 t3 eq_refl E2 (proj1 B3) eq_refl E1 E5).
  apply IH; [lia|]. intros s' e' H'. apply Hf. exact (suffix_tr _ _ _ H' S3).
Qed.

Lemma opens_suffix r s : suffix r s -> (opens r <= opens s)%nat.
Proof. intros (x & ->). induction x as [|c x IH]; cbn [app opens]; [lia|]. destruct (_ || _); lia. Qed.

Lemma member_nofuel pv s : (forall s' e', suffix s' s -> pv s' e' <> Fuel) ->
  forall e, parse_member pv s e <> Fuel.
Proof.
  intros Hp e. unfold parse_member. destruct (negb (is_string s)); [discriminate|].
  destruct (string_good s) as (s1 & o1 & A1 & B1). rewrite A1. cbn [bind].
  destruct s1 as [|c1 t1]; [discriminate|].
  destruct (space_good (c1 :: t1)) as (s2 & o2 & A2 & B2). rewrite A2.
  destruct s2 as [|c2 t2]; [discriminate|]. destruct (negb (c2 =? COLON)); [discriminate|].
  destruct t2 as [|c3 t3]; [discriminate|].
  destruct (space_good (c3 :: t3)) as (s4 & o4 & A4 & B4). rewrite A4.
  destruct s4 as [|c4 t4]; [discriminate|]. apply Hp.
  apply (suffix_tr _ (c3 :: t3)); [exact (proj1 B4)|].
  apply (suffix_tr _ (c1 :: t1)); [|exact (proj1 B1)].
  exact (proj1 (suffix_cons _ _ _ (proj1 B2))).
Qed.

Lemma is_object_open c t : is_object (c :: t) = true -> (c =? LBR) || (c =? LCB) = true.
Proof.
  cbn [is_object]. destruct (c =? LCB); [now rewrite orb_true_r|]. destruct (c =? LBR); [reflexivity|discriminate].
Qed.
Lemma value_nofuel sn : forall n s e, (opens s < n)%nat -> parse_value_f sn n s e <> Fuel.
Proof.
  induction n as [|n IH]; intros s e Hn; [lia|]. cbn [parse_value_f].
  destruct (is_null s); [discriminate|]. destruct (is_bool s); [discriminate|].
  destruct (is_number s); [discriminate|].
  destruct (is_string s).
  { destruct (string_good s) as (s1 & o1 & A1 & B1). rewrite A1. discriminate. }
  destruct (is_object s) eqn:Eo.
  { unfold parse_object. rewrite Eo. cbn [negb]. destruct s as [|c t]; [discriminate|]. cbn [step bind].
    apply is_object_open in Eo. cbn [opens] in Hn. rewrite Eo in Hn.
    destruct (space_good t) as (s1 & o1 & A1 & B1). rewrite A1.
    destruct (starts RBR s1) eqn:Es; [destruct s1; [discriminate|discriminate]|].
    apply items_nofuel; [apply member_tails, value_tails|lia|].
    intros s' e' H'. apply member_nofuel. intros s'' e'' H''. apply IH.
    pose proof (opens_suffix _ _ (suffix_tr _ _ _ H'' (suffix_tr _ _ _ H' (proj1 B1)))). lia. }
  destruct (is_array s) eqn:Ea; [|discriminate].
  unfold parse_array. rewrite Ea. cbn [negb]. destruct s as [|c t]; [discriminate|]. cbn [step bind].
  unfold is_array, starts in Ea. cbn [opens] in Hn. rewrite Ea in Hn. cbn [orb] in Hn.
  apply items_nofuel; [apply value_tails|lia|].
  intros s' e' H'. apply IH. pose proof (opens_suffix _ _ H'). lia.
Qed.

Theorem value_levels sn n s e : (opens s < n)%nat -> parse_value_f sn n s e = parse_value sn s e.
Proof.
  intros Hn. unfold parse_value. pose proof (value_nofuel sn n s e Hn) as H1.
  destruct (Nat.le_ge_cases n (S (length s))) as [L|L].
  - destruct (value_below sn _ _ s e L) as [E|E]; [contradiction|exact E].
  - apply parse_value_fuel; lia.
Qed.

(** ------------- accepted values ------------- *)
Lemma items_stuck sn close item m g1 v g2 c t e :
  closer close -> gap g1 -> (exists c t, v = c :: t /\ vstart c) ->
  item (v ++ g2 ++ c :: t) e = Fuel ->
  items_loop sn close item (S m) (g1 ++ v ++ g2 ++ c :: t) e = Fuel.
Proof.
  intros Hcl Hg1 (v0 & vt & Ev & Hv) Hit.
  assert (Hvc : v0 <> close) by (unfold vstart, closer, s_digit in *; lia).
  cbn [items_loop].
  destruct (g1 ++ v ++ g2 ++ c :: t) as [|c0 t0] eqn:E; [destruct g1, v; try discriminate|].
  destruct (c0 =? close) eqn:Ec.
  { exfalso. bool2prop. subst c0. destruct (gap_head g1 Hg1) as [->|(d & z & -> & Hd)]; subst v; cbn in E; injection E as E _.
    - congruence.
    - subst d. unfold closer, s_ws in *. lia. }
  rewrite <- E. rewrite gap_parse_space; [|exact Hg1|].
  2:{ subst v. cbn. apply (vstart_stop v0 []) in Hv. exact Hv. }
  rewrite Hit. subst v. cbn [app deref bind].
  destruct (v0 =? close) eqn:E0; [bool2prop; congruence|]. reflexivity.
Qed.

Lemma member_stuck pv k g2 g3 v r e :
  wstring k -> gap g2 -> gap g3 -> (exists c t, v = c :: t /\ vstart c) ->
  pv (v ++ r) e = Fuel ->
  parse_member pv (k ++ g2 ++ COLON :: g3 ++ v ++ r) e = Fuel.
Proof.
  intros Hk Hg2 Hg3 (v0 & vt & Ev & Hv) Hpv. unfold parse_member.
  assert (is_string (k ++ g2 ++ COLON :: g3 ++ v ++ r) = true) as -> by (destruct Hk; reflexivity).
  cbn [negb]. rewrite parse_string_app by exact Hk. cbn [bind].
  destruct (g2 ++ COLON :: g3 ++ v ++ r) as [|c t] eqn:E; [destruct g2; discriminate|]. rewrite <- E. clear E.
  rewrite gap_parse_space; [|exact Hg2|apply closer_stop; unfold closer; lia].
  change (COLON =? COLON) with true. cbn [negb].
  destruct (g3 ++ v ++ r) as [|c' t'] eqn:E; [subst v; destruct g3; discriminate|]. rewrite <- E. clear E.
  rewrite gap_parse_space; [|exact Hg3|subst v; now apply (vstart_stop v0)].
  rewrite Hpv. subst v. reflexivity.
Qed.

Lemma nests_sound :
  (forall v d, nests v d -> wvalue v) /\ (forall l d, nelems l d -> welems l) /\
  (forall l d, nmembers l d -> wmembers l).
Proof.
  apply nest_ind; intros;
    [apply wv_null|apply wv_true|apply wv_false|apply wv_num|apply wv_str|apply wv_arr0|apply wv_arr
    |apply wv_obj0|apply wv_obj0'|apply wv_obj
    |apply wel_one|apply wel_trail|apply wel_more|apply wme_one|apply wme_trail|apply wme_more]; assumption.
Qed.
Lemma nests_complete :
  (forall v, wvalue v -> exists d, nests v d) /\ (forall l, welems l -> exists d, nelems l d) /\
  (forall l, wmembers l -> exists d, nmembers l d).
Proof.
  apply wjson_ind; intros;
    repeat match goal with H : exists _, _ |- _ => destruct H end; eexists;
    [eapply ns_null|eapply ns_true|eapply ns_false|eapply ns_num|eapply ns_str|eapply ns_arr0|eapply ns_arr
    |eapply ns_obj0|eapply ns_obj0'|eapply ns_obj
    |eapply nel_one|eapply nel_trail|eapply nel_more|eapply nme_one|eapply nme_trail|eapply nme_more]; eassumption.
Qed.
Lemma nests_head v d : nests v d -> exists c t, v = c :: t /\ vstart c.
Proof. intros H. apply wvalue_head. exact (proj1 nests_sound _ _ H). Qed.

Section Depth.
Variable sn : option Z.

Definition Dv (v : buf) (d : nat) : Prop := forall n r e, (rnumber v -> num_stop v r) ->
  parse_value_f sn n (v ++ r) e = if (d <? n)%nat then Ok (r, e) else Fuel.
Definition Del (l : buf) (d : nat) : Prop := forall n m r e,
  (length (l ++ RBR :: r) < m)%nat ->
  items_loop sn RBR (parse_value_f sn n) m (l ++ RBR :: r) e = if (d <? n)%nat then Ok (r, e) else Fuel.
Definition Dme (l : buf) (d : nat) : Prop := forall n m r e,
  (length (l ++ RCB :: r) < m)%nat ->
  items_loop sn RCB (parse_member (parse_value_f sn n)) m (l ++ RCB :: r) e = if (d <? n)%nat then Ok (r, e) else Fuel.

Lemma max_ltb a b n : (Nat.max a b <? n)%nat = (a <? n)%nat && (b <? n)%nat.
Proof. destruct (Nat.ltb_spec a n), (Nat.ltb_spec b n), (Nat.ltb_spec (Nat.max a b) n); cbn; lia. Qed.

Hint Resolve rstop rcstop cstop : core.

Lemma depth_law :
  (forall v d, nests v d -> Dv v d) /\ (forall l d, nelems l d -> Del l d) /\
  (forall l d, nmembers l d -> Dme l d).
Proof.
  apply nest_ind.
  - intros n r e _. destruct n; reflexivity.
  - intros n r e _. destruct n; reflexivity.
  - intros n r e _. destruct n; reflexivity.
  - intros v Hv n r e Hs. destruct n; [reflexivity|]. cbn [parse_value_f Nat.ltb Nat.leb].
    destruct (rnumber_head v Hv) as (c & t & Ev & Hc).
    assert (is_null (v ++ r) = false /\ is_bool (v ++ r) = false /\ is_number (v ++ r) = true) as (-> & -> & ->).
    { subst v. unfold is_null, is_bool, is_number, starts, is_digit, s_digit in *. cbn [app]. lia. }
    rewrite parse_number_app; auto.
  - intros s Hs n r e _. destruct n; [reflexivity|]. cbn [parse_value_f Nat.ltb Nat.leb].
    assert (is_null (s ++ r) = false /\ is_bool (s ++ r) = false /\ is_number (s ++ r) = false /\ is_string (s ++ r) = true) as (-> & -> & -> & ->) by (destruct Hs; cbn; auto).
    now apply parse_string_app.
  - intros g Hg n r e _. destruct n; [reflexivity|]. cbn [Nat.ltb Nat.leb]. cbn [app]. rewrite <- app_assoc. cbn [app parse_value_f].
    cbn [is_null is_bool is_number is_string starts].
    rewrite is_object_empty by exact Hg. cbn [Z.eqb Pos.eqb orb is_digit].
    unfold parse_object. rewrite is_object_empty by exact Hg. cbn [negb step bind].
    rewrite gap_parse_space; [|exact Hg|now apply closer_stop]. reflexivity.
  - intros l d Hl IH n r e _. destruct n; [reflexivity|]. cbn [app]. rewrite <- app_assoc. cbn [app parse_value_f].
    cbn [is_null is_bool is_number is_string starts].
    rewrite is_object_head by exact (proj1 (proj2 nests_sound) _ _ Hl). cbn [Z.eqb Pos.eqb orb is_digit].
    unfold parse_array. cbn [is_array starts Z.eqb Pos.eqb negb step bind].
    rewrite IH by lia. reflexivity.
  - intros g Hg n r e _. destruct n; [reflexivity|]. cbn [Nat.ltb Nat.leb]. cbn [app]. rewrite <- app_assoc. cbn [app parse_value_f].
    change (is_object (LCB :: g ++ RCB :: r)) with true. cbn [is_null is_bool is_number is_string starts Z.eqb Pos.eqb orb is_digit].
    unfold parse_object. change (is_object (LCB :: g ++ RCB :: r)) with true. cbn [negb step bind].
    rewrite gap_parse_space; [|exact Hg|now apply closer_stop]. cbn [starts Z.eqb Pos.eqb].
    apply (items_end sn RCB _ _ [] r e); [auto|constructor].
  - intros g Hg n r e _. destruct n; [reflexivity|]. cbn [Nat.ltb Nat.leb]. cbn [app]. rewrite <- app_assoc. cbn [app parse_value_f].
    change (is_object (LCB :: g ++ RBR :: r)) with true. cbn [is_null is_bool is_number is_string starts Z.eqb Pos.eqb orb is_digit].
    unfold parse_object. change (is_object (LCB :: g ++ RBR :: r)) with true. cbn [negb step bind].
    rewrite gap_parse_space; [|exact Hg|now apply closer_stop]. reflexivity.
  - intros l d Hl IH n r e _. destruct n; [reflexivity|]. cbn [app]. rewrite <- app_assoc. cbn [app parse_value_f].
    change (is_object (LCB :: l ++ RCB :: r)) with true. cbn [is_null is_bool is_number is_string starts Z.eqb Pos.eqb orb is_digit].
    unfold parse_object. change (is_object (LCB :: l ++ RCB :: r)) with true. cbn [negb step bind].
    assert (K : exists g1 y, l ++ RCB :: r = g1 ++ y /\ gap g1 /\ exists c t, y = c :: t /\ c = QT).
    { destruct Hl; rewrite <- !app_assoc; eexists g1, _; (split; [reflexivity|split; [assumption|]]);
        match goal with H : wstring _ |- _ => destruct H end; eexists _, _; split; reflexivity. }
    destruct K as (g1 & y & E & Hg1 & c & t & -> & ->).
    specialize (IH n). rewrite E. rewrite gap_parse_space; [|exact Hg1|cbn; unfold s_ws; lia].
    cbn [starts Z.eqb Pos.eqb].
    specialize (IH (S (length (l ++ RCB :: r))) r e ltac:(lia)). rewrite E in IH.
    change (S d <? S n)%nat with (d <? n)%nat. refine (eq_trans _ IH). clear IH.
    set (item := parse_member (parse_value_f sn n)).
    assert (Hloop : forall m, items_loop sn RCB item (S m) (g1 ++ QT :: t) e = items_loop sn RCB item (S m) (QT :: t) e).
    { intro m. cbn [items_loop]. change (QT =? RCB) with false. cbv iota.
      rewrite (space_stop (QT :: t)) by (cbn; unfold s_ws; lia).
      destruct (g1 ++ QT :: t) as [|c0 t0] eqn:E0; [destruct g1; discriminate|].
      destruct (c0 =? RCB) eqn:Ec.
      { exfalso. bool2prop. subst c0. destruct (gap_head g1 Hg1) as [->|(d' & z & -> & Hd)]; cbn in E0; injection E0 as E0 _.
        - discriminate.
        - subst d'. unfold s_ws in Hd. lia. }
      rewrite <- E0, gap_parse_space; [|exact Hg1|cbn; unfold s_ws; lia]. reflexivity. }
    rewrite Hloop. apply items_m; [apply member_tails, value_tails|lia|].
    rewrite app_length. cbn [length]. lia.
  - intros g1 v d g2 Hg1 Hv IH Hg2 n m r e Hm. destruct m; [lia|]. rewrite <- !app_assoc in *.
    specialize (IH n (g2 ++ RBR :: r) e ltac:(now apply num_follow)).
    destruct (d <? n)%nat.
    + rewrite items_step; eauto using nests_head.
      change (RBR =? COMMA) with false. cbv iota. destruct m; [flens; lia|].
      apply (items_end sn RBR _ _ [] r e); [auto|constructor].
    + apply items_stuck; eauto using nests_head.
  - intros g1 v d g2 g3 Hg1 Hv IH Hg2 Hg3 n m r e Hm. destruct m; [lia|]. rewrite <- !app_assoc in *. cbn [app] in *.
    specialize (IH n (g2 ++ COMMA :: g3 ++ RBR :: r) e ltac:(now apply num_follow)).
    destruct (d <? n)%nat.
    + rewrite items_step; eauto using nests_head.
      change (COMMA =? COMMA) with true. cbv iota. destruct m; [flens; lia|].
      apply items_end; auto.
    + apply items_stuck; eauto using nests_head.
  - intros g1 v d g2 l d' Hg1 Hv IH Hg2 Hl IHl n m r e Hm. destruct m; [lia|]. rewrite <- !app_assoc in *. cbn [app] in *.
    specialize (IH n (g2 ++ COMMA :: l ++ RBR :: r) e ltac:(now apply num_follow)).
    rewrite max_ltb. destruct (d <? n)%nat; cbn [andb].
    + rewrite items_step; eauto using nests_head.
      change (COMMA =? COMMA) with true. cbv iota. apply IHl; flens; lia.
    + apply items_stuck; eauto using nests_head.
  - intros g1 k g2 g3 v d g4 Hg1 Hk Hg2 Hg3 Hv IH Hg4 n m r e Hm. destruct m; [lia|].
    replace ((g1 ++ k ++ g2 ++ COLON :: g3 ++ v ++ g4) ++ RCB :: r) with (g1 ++ (k ++ g2 ++ COLON :: g3 ++ v) ++ g4 ++ RCB :: r) in *
      by (repeat (rewrite <- ?app_assoc; cbn [app]); reflexivity).
    specialize (IH n (g4 ++ RCB :: r) e ltac:(now apply num_follow)).
    assert (EE : (k ++ g2 ++ COLON :: g3 ++ v) ++ g4 ++ RCB :: r = k ++ g2 ++ COLON :: g3 ++ v ++ (g4 ++ RCB :: r))
        by (repeat (rewrite <- ?app_assoc; cbn [app]); reflexivity).
    destruct (d <? n)%nat.
    + rewrite items_step; auto using member_head.
      * change (RCB =? COMMA) with false. cbv iota. destruct m; [flens; lia|].
        apply (items_end sn RCB _ _ [] r e); [auto|constructor].
      * rewrite EE. apply member_app; eauto using nests_head.
    + apply items_stuck; auto using member_head. rewrite EE. apply member_stuck; eauto using nests_head.
  - intros g1 k g2 g3 v d g4 g5 Hg1 Hk Hg2 Hg3 Hv IH Hg4 Hg5 n m r e Hm. destruct m; [lia|].
    replace ((g1 ++ k ++ g2 ++ COLON :: g3 ++ v ++ g4 ++ COMMA :: g5) ++ RCB :: r) with (g1 ++ (k ++ g2 ++ COLON :: g3 ++ v) ++ g4 ++ COMMA :: (g5 ++ RCB :: r)) in *
      by (repeat (rewrite <- ?app_assoc; cbn [app]); reflexivity).
    specialize (IH n (g4 ++ COMMA :: g5 ++ RCB :: r) e ltac:(now apply num_follow)).
    assert (EE : (k ++ g2 ++ COLON :: g3 ++ v) ++ g4 ++ COMMA :: (g5 ++ RCB :: r) = k ++ g2 ++ COLON :: g3 ++ v ++ (g4 ++ COMMA :: (g5 ++ RCB :: r)))
        by (repeat (rewrite <- ?app_assoc; cbn [app]); reflexivity).
    destruct (d <? n)%nat.
    + rewrite items_step; auto using member_head.
      * change (COMMA =? COMMA) with true. cbv iota. destruct m; [flens; lia|].
        apply items_end; auto.
      * rewrite EE. apply member_app; eauto using nests_head.
    + apply items_stuck; auto using member_head. rewrite EE. apply member_stuck; eauto using nests_head.
  - intros g1 k g2 g3 v d g4 l d' Hg1 Hk Hg2 Hg3 Hv IH Hg4 Hl IHl n m r e Hm. destruct m; [lia|].
    replace ((g1 ++ k ++ g2 ++ COLON :: g3 ++ v ++ g4 ++ COMMA :: l) ++ RCB :: r) with (g1 ++ (k ++ g2 ++ COLON :: g3 ++ v) ++ g4 ++ COMMA :: (l ++ RCB :: r)) in *
      by (repeat (rewrite <- ?app_assoc; cbn [app]); reflexivity).
    specialize (IH n (g4 ++ COMMA :: l ++ RCB :: r) e ltac:(now apply num_follow)).
    assert (EE : (k ++ g2 ++ COLON :: g3 ++ v) ++ g4 ++ COMMA :: (l ++ RCB :: r) = k ++ g2 ++ COLON :: g3 ++ v ++ (g4 ++ COMMA :: (l ++ RCB :: r)))
        by (repeat (rewrite <- ?app_assoc; cbn [app]); reflexivity).
    rewrite max_ltb. destruct (d <? n)%nat; cbn [andb].
    + rewrite items_step; auto using member_head.
      * change (COMMA =? COMMA) with true. cbv iota. apply IHl; flens; lia.
      * rewrite EE. apply member_app; eauto using nests_head.
    + apply items_stuck; auto using member_head. rewrite EE. apply member_stuck; eauto using nests_head.
Qed.
End Depth.

Lemma tower_nests n : nests (tower n) n.
Proof.
  induction n as [|n IH]; cbn [tower].
  - apply (ns_arr0 []). constructor.
  - apply ns_arr. rewrite <- (app_nil_r (tower n)). apply (nel_one [] (tower n) n []); [constructor|exact IH|constructor].
Qed.
Lemma tower_length n : length (tower n) = (2 * n + 2)%nat.
Proof. induction n as [|n IH]; cbn [tower length]; [lia|]. rewrite app_length, IH. cbn. lia. Qed.
Lemma tower_num n : ~ rnumber (tower n).
Proof. intros H. destruct (rnumber_head _ H) as (c & t & E & Hc). destruct n; cbn in E; injection E as <- _; unfold s_digit in Hc; lia. Qed.
