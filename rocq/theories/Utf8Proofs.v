(** Proofs about texts in UTF-8. *)
From Verif Require Import Base Parser SpecJson SpecNum SpecString SpecSeq ParserFacts Grammar1 Grammar2 Out StringS Number Array Object ObjectArray SpecObject Enum SpecEnum Wrap TimeSize Float CodecLaws
  NumberProofs StringProofs ArrayProofs ObjectProofs ObjectArrayProofs EnumProofs WrapProofs SpecExact ExactProofs ObjExactProofs WrapExactProofs FloatProofs Desc DescProofs SpecType TypeProofs SpecSettle SettleProofs SpecFail SpecUtf8.
Import ListNotations.

(** ---- characters ---- *)
Definition high (c : Z) : Prop := 128 <= c.
Lemma encode_cases cp : scalar cp ->
  (cp < 128 /\ utf8_encode cp = [cp]) \/ exists c k l, wlead c k /\ (k <= 3)%nat /\ length l = k /\ Forall s_cont l /\ utf8_encode cp = c :: l.
Proof.
  intros [[H0 H1] _]. unfold utf8_encode. destruct (Z.ltb_spec cp 128); [left; now split|]. right.
  assert (M : forall x, 128 <= 128 + x mod 64 <= 191) by (intros x; pose proof (Z.mod_pos_bound x 64); lia).
  destruct (Z.ltb_spec cp 2048).
  { pose proof (Z.div_lt_upper_bound cp 64 32). pose proof (Z.div_le_lower_bound cp 64 2). exists (192 + cp / 64), 1%nat, [128 + cp mod 64].
    split; [constructor; lia|]. split; [lia|]. split; [reflexivity|]. split; [|reflexivity]. repeat constructor; apply M. }
  destruct (Z.ltb_spec cp 65536).
  { pose proof (Z.div_lt_upper_bound cp 4096 16). pose proof (Z.div_pos cp 4096). eexists _, 2%nat, _.
    split; [|split; [lia|]; split; [|split; [|reflexivity]]]; [constructor; lia|reflexivity|]. repeat constructor; apply M. }
  pose proof (Z.div_lt_upper_bound cp 262144 5). pose proof (Z.div_pos cp 262144). eexists _, 3%nat, _.
  split; [|split; [lia|]; split; [|split; [|reflexivity]]]; [constructor; lia|reflexivity|]. repeat constructor; apply M.
Qed.
Lemma wlead_high c k : wlead c k -> 192 <= c. Proof. destruct 1; lia. Qed.
Lemma wlead_fun c k k' : wlead c k -> wlead c k' -> k = k'.
Proof. intros H K. destruct H; inversion K; subst; lia || reflexivity. Qed.
(** The first character of a text is told by its first byte. *)
Lemma utf8_low c s : utf8 (c :: s) -> c < 128 -> 0 <= c /\ utf8 s.
Proof.
  intros H Hc. inversion H as [|cp t Hs Ht E]; subst. destruct (encode_cases cp Hs) as [[H1 H2]|(b & k & l & H1 & H2 & H3 & H4 & H5)].
  - rewrite H2 in E. cbn [app] in E. injection E as -> ->. split; [apply Hs|exact Ht].
  - rewrite H5 in E. cbn [app] in E. injection E as -> _. apply wlead_high in H1. lia.
Qed.
Lemma utf8_cons c s : 0 <= c < 128 -> utf8 s -> utf8 (c :: s).
Proof.
  intros H K. change (c :: s) with ([c] ++ s). replace [c] with (utf8_encode c); [constructor; [|exact K]; unfold scalar; lia|]. unfold utf8_encode. destruct (Z.ltb_spec c 128); [reflexivity|lia].
Qed.
Lemma utf8_app a b : utf8 a -> utf8 b -> utf8 (a ++ b).
Proof. induction 1 as [|cp s H1 _ IH]; intros H; [exact H|]. rewrite <- app_assoc. constructor; auto. Qed.
Lemma utf8_one cp : scalar cp -> utf8 (utf8_encode cp).
Proof. intros H. rewrite <- app_nil_r. constructor; [exact H|constructor]. Qed.
Lemma utf8_high c k l s : wlead c k -> length l = k -> utf8 (c :: l ++ s) -> utf8 (c :: l) /\ utf8 s.
Proof.
  intros Hc Hl H. inversion H as [|cp t Hs Ht E]; subst. destruct (encode_cases cp Hs) as [[H1 H2]|(b & k' & l' & H1 & H2 & H3 & H4 & H5)].
  - rewrite H2 in E. cbn [app] in E. injection E as -> _. apply wlead_high in Hc. lia.
  - rewrite H5 in E. cbn [app] in E. injection E as -> E. pose proof (wlead_fun _ _ _ Hc H1) as K. apply app_eq_app in E. destruct E as (m & [[E1 E2]|[E1 E2]]).
    + assert (m = []) as -> by (apply length_zero_iff_nil; apply (f_equal (@length Z)) in E1; rewrite app_length in E1; lia). rewrite app_nil_r in E1. cbn [app] in E2. subst l' t. split; [|exact Ht]. rewrite <- H5. now apply utf8_one.
    + assert (m = []) as -> by (apply length_zero_iff_nil; apply (f_equal (@length Z)) in E1; rewrite app_length in E1; lia). rewrite app_nil_r in E1. cbn [app] in E2. subst l s. split; [|exact Ht]. rewrite <- H5. now apply utf8_one.
Qed.
(** A text falls apart in front of and behind every byte below 128. *)
Lemma utf8_split s : utf8 s -> forall a c b, s = a ++ c :: b -> c < 128 -> utf8 a /\ utf8 (c :: b).
Proof.
  induction 1 as [|cp s Hs Hu IH]; intros a c b E Hc; [now destruct a|]. destruct (encode_cases cp Hs) as [[H1 H2]|(d & k & l & H1 & H2 & H3 & H4 & H5)].
  - rewrite H2 in E. destruct a as [|x a]; cbn [app] in E; [injection E as -> ->; split; [constructor|apply utf8_cons; [split; [apply Hs|exact Hc]|exact Hu]]|].
    injection E as <- E. destruct (IH a c b E Hc) as [K1 K2]. split; [|exact K2]. apply utf8_cons; [split; [apply Hs|exact H1]|exact K1].
  - assert (L : exists a', a = utf8_encode cp ++ a' /\ s = a' ++ c :: b).
    { apply app_eq_app in E. destruct E as (m & [[E1 E2]|[E1 E2]]).
      - destruct m as [|x m]; [exists []; rewrite app_nil_r in *; now split|]. cbn [app] in E2. injection E2 as <- _. exfalso.
        assert (In c (utf8_encode cp)) as I by (rewrite E1; apply in_elt). rewrite H5 in I. destruct I as [<-|I]; [apply wlead_high in H1; lia|]. rewrite Forall_forall in H4. specialize (H4 c I). unfold s_cont in H4. lia.
      - exists m. now split. }
    destruct L as (a' & -> & E2). destruct (IH a' c b E2 Hc) as [K1 K2]. split; [|exact K2]. now constructor.
Qed.
Lemma end8_low c s : end8 (c :: s) -> c < 128 -> utf8 (c :: s).
Proof. intros (p & H) Hc. now apply (utf8_split _ H p c s). Qed.
Lemma end8_closed p s : end8 (p ++ s) -> end8 s.
Proof. intros (q & H). exists (q ++ p). now rewrite <- app_assoc. Qed.
Lemma no_half_r p s : no_half (p ++ s) -> no_half s.
Proof. intros [H1 H2]. split; [intros q a b c d t ->; apply (H1 (p ++ q) a b c d t)|intros q a b t ->; apply (H2 (p ++ q) a b t)]; now rewrite <- app_assoc. Qed.
Lemma text8_closed : closed text8.
Proof. intros p s (H2 & H3). split; [now apply end8_closed in H2|now apply no_half_r in H3]. Qed.

(** ---- string literals ---- *)
Lemma esc_low c t : esc_mean c t -> 0 <= c < 128 /\ 0 <= t < 128. Proof. destruct 1; lia. Qed.
Lemma hex_low a : s_hex a -> a < 128 /\ 0 <= a. Proof. unfold s_hex. lia. Qed.
Ltac peel H := repeat (apply utf8_low in H; [|first [lia|now apply hex_low|assumption]]; destruct H as [_ H]).
Lemma hexv_pos a : s_hex a -> 0 <= hexv a. Proof. intros H. unfold s_hex in H. unfold hexv. repeat match goal with |- context [if ?b then _ else _] => destruct b eqn:? end; lia. Qed.
Lemma chunk_utf8 c w s : chunk c w -> utf8 (c ++ s) -> no_half (c ++ s) -> utf8 w /\ utf8 s /\ (length w <= length c)%nat.
Proof.
  intros H U [N1 N2]. destruct H as [c H1 H2 H3|c k l H1 H2 H3|c t H|a b c d A B C D N|a b c d A B C D K|a b A B]; cbn [app] in U.
  - peel U. split; [apply utf8_cons; [lia|constructor]|]. split; [exact U|lia].
  - apply utf8_high with (k := k) in U; auto. destruct U. auto.
  - apply esc_low in H. apply utf8_low in U; [|lia]. destruct U as [_ U]. apply utf8_low in U; [|lia]. split; [apply utf8_cons; [lia|constructor]|]. split; [apply U|cbn; lia].
  - peel U. split; [apply utf8_one, (N1 [] a b c d s eq_refl A B C D)|]. split; [exact U|]. unfold utf8_encode. repeat match goal with |- context [if ?b then _ else _] => destruct b end; cbn; lia.
  - peel U. split; [|split; [exact U|lia]]. apply hex_low in A, B, C, D. repeat (apply utf8_cons; [lia|]). constructor.
  - peel U. pose proof (N2 [] a b s eq_refl A B). apply hexv_pos in A, B. split; [apply utf8_cons; [lia|constructor]|]. split; [exact U|cbn; lia].
Qed.
Lemma low_utf8 s : Forall (fun c => 0 <= c < 128) s -> utf8 s. Proof. induction 1; [constructor|now apply utf8_cons]. Qed.
(** a character is not cut by the closing quote *)
Lemma cut_utf8 c k l q r : wlead c k -> (length l < k)%nat -> q < 128 -> ~ utf8 (c :: l ++ q :: r).
Proof.
  intros H L Hq U. inversion U as [|cp t Hs Ht E]; subst. destruct (encode_cases cp Hs) as [[H1 H2]|(b & k' & l' & H1 & H2 & H3 & H4 & H5)].
  - rewrite H2 in E. cbn [app] in E. injection E as -> _. apply wlead_high in H. lia.
  - rewrite H5 in E. cbn [app] in E. injection E as -> E. pose proof (wlead_fun _ _ _ H H1) as K. apply app_eq_app in E. destruct E as (m & [[E1 E2]|[E1 E2]]).
    + destruct m as [|x m]; [rewrite app_nil_r in E1; subst l'; lia|]. cbn [app] in E2. injection E2 as <- _. rewrite E1, Forall_app in H4. destruct H4 as [_ H4]. inversion H4 as [|? ? H6 _]; subst. unfold s_cont in H6. lia.
    + apply (f_equal (@length Z)) in E1. rewrite app_length in E1. lia.
Qed.
Lemma literal_utf8 n l v : literal n l v -> forall r, utf8 (l ++ QT :: r) -> no_half (l ++ QT :: r) -> utf8 v.
Proof.
  induction 1 as [n|n c w l v H1 H2 H3 IH|n c k l H1 H2 H3 H4|n a b c d A B C D K Hn]; intros r U N.
  - constructor.
  - rewrite <- app_assoc in U, N. destruct (chunk_utf8 c w (l ++ QT :: r) H1 U N) as (K1 & K2 & K3). apply utf8_app; [exact K1|]. apply (IH r K2). now apply no_half_r in N.
  - exfalso. cbn [app] in U. revert U. now apply cut_utf8 with k.
  - apply low_utf8. assert (F : Forall (fun c => 0 <= c < 128) [BSL; 117; a; b; c; d]) by (apply hex_low in A, B, C, D; repeat (apply Forall_cons; [lia|]); apply Forall_nil).
    rewrite <- (firstn_skipn (Z.to_nat n) [BSL; 117; a; b; c; d]), Forall_app in F. apply F.
Qed.
Lemma text8_literal l r : text8 (QT :: l ++ QT :: r) -> utf8 (l ++ QT :: r) /\ no_half (l ++ QT :: r) /\ utf8 r.
Proof.
  intros [H2 H3]. apply end8_low in H2; [|lia]. apply utf8_low in H2; [|lia]. destruct H2 as [_ H2]. split; [exact H2|]. change (QT :: l ++ QT :: r) with ([QT] ++ l ++ QT :: r) in H3. apply no_half_r in H3. split; [exact H3|].
  destruct (utf8_split _ H2 l QT r eq_refl eq_refl) as [_ K]. apply utf8_low in K; [|lia]. apply K.
Qed.
Lemma text8_null r : text8 (text "null" ++ r) -> utf8 r.
Proof. intros [H _]. change (text "null" ++ r) with (110 :: 117 :: 108 :: 108 :: r) in H. apply end8_low in H; [|lia]. now peel H. Qed.
Theorem string_utf8 sn old s v r : bytes s -> text8 s -> reads string_codec sn old s v r -> utf8 v /\ utf8 r.
Proof.
  intros Hb Ht E. apply string_exact in E; [|exact Hb]. destruct E as [[-> ->]|(l & -> & E)].
  - split; [constructor|now apply text8_null].
  - destruct (text8_literal l r Ht) as (K1 & K2 & K3). split; [|exact K3]. now apply (literal_utf8 INT_MAX l v E r).
Qed.
Theorem chars_utf8 N sn old s v r : bytes s -> text8 s -> reads (chars_codec N) sn old s v r -> utf8 v /\ utf8 r.
Proof.
  intros Hb Ht E. assert (Z0 : forall n, utf8 (repeat 0 n)) by (induction n; [constructor|apply utf8_cons; [lia|assumption]]).
  apply chars_exact in E; [|exact Hb]. destruct E as [[-> ->]|(l & w & -> & E & ->)].
  - split; [apply Z0|now apply text8_null].
  - destruct (text8_literal l r Ht) as (K1 & K2 & K3). split; [|exact K3]. apply utf8_app; [|apply Z0]. now apply (literal_utf8 (Z.of_nat N) l w E r).
Qed.

(** ---- values ---- *)
Lemma number_last v : rnumber v -> exists a c, v = a ++ [c] /\ 0 <= c < 128.
Proof. intros H. destruct (rnumber_last v H) as (p & d & -> & K). exists p, d. split; [reflexivity|]. unfold s_digit in K. lia. Qed.
Lemma wvalue_last v : wvalue v -> exists a c, v = a ++ [c] /\ 0 <= c < 128.
Proof.
  destruct 1; try (eexists (_ :: _), _; split; [reflexivity|lia]).
  - now exists (text "nul"), 108. - now exists (text "tru"), 101. - now exists (text "fals"), 101.
  - now apply number_last.
  - destruct H. eexists (_ :: _), _. split; [reflexivity|lia].
Qed.
Lemma wvalue_first v : wvalue v -> exists c t, v = c :: t /\ c < 128.
Proof. intros H. destruct (wvalue_head v H) as (c & t & -> & K). exists c, t. split; [reflexivity|]. unfold vstart, s_digit in K. lia. Qed.
Theorem raw_utf8 v r : wvalue v -> text8 (v ++ r) -> utf8 v /\ utf8 r.
Proof.
  intros Hv (H & _). destruct (wvalue_first v Hv) as (c & t & E & Hc). assert (U : utf8 (v ++ r)) by (rewrite E in *; now apply end8_low). clear c t E Hc H.
  destruct (wvalue_last v Hv) as (a & c & -> & Hc). rewrite <- app_assoc in U. cbn [app] in U. destruct (utf8_split _ U a c r eq_refl (proj2 Hc)) as [K1 K2].
  apply utf8_low in K2; [|lia]. split; [|apply K2]. apply utf8_app; [exact K1|]. apply utf8_cons; [exact Hc|constructor].
Qed.

(** ---- written texts ---- *)
Definition low8 (s : buf) : Prop := Forall (fun c => 0 <= c < 128) s.
Lemma ws_utf8 w : ws w -> utf8 w.
Proof. intros H. apply low_utf8. eapply Forall_impl; [|exact H]. unfold s_ws. intros. cbn beta in *. lia. Qed.
Lemma number_utf8 n : rnumber n -> utf8 n.
Proof.
  intros H. apply low_utf8. destruct H as [m i f x Hm Hi Hf Hx].
  assert (D : forall l, Forall s_digit l -> low8 l) by (intros l H; eapply Forall_impl; [|exact H]; unfold s_digit; intros; cbn beta in *; lia).
  unfold low8. rewrite !Forall_app. split; [destruct Hm; repeat constructor; lia|]. split; [destruct Hi as [|d ds H1 H2]; constructor; try lia; [constructor|now apply D]|].
  split; [destruct Hf as [|ds [_ H]]; constructor; [lia|now apply D]|]. destruct Hx as [|e sg ds H1 H2 [_ H3]]; constructor; [lia|]. apply Forall_app. split; [|now apply D].
  destruct H2 as [->|[->| ->]]; repeat constructor; lia.
Qed.
Lemma rchars_utf8 l : rchars l -> utf8 l.
Proof.
  induction 1 as [|c l H _ IH]; [constructor|]. apply utf8_app; [|exact IH]. destruct H as [cp H1 H2 H3 H4|c H|a b c d A B C D].
  - now apply utf8_one.
  - unfold s_esc in H. repeat (apply utf8_cons; [lia|]). constructor.
  - apply hex_low in A, B, C, D. repeat (apply utf8_cons; [lia|]). constructor.
Qed.
Lemma rstring_utf8 s : rstring s -> utf8 s.
Proof. destruct 1 as [l H]. apply utf8_cons; [lia|]. apply utf8_app; [now apply rchars_utf8|]. apply utf8_cons; [lia|constructor]. Qed.
Lemma rjson_utf8 : (forall v, rvalue v -> utf8 v) /\ (forall l, relems l -> utf8 l) /\ (forall l, rmembers l -> utf8 l).
Proof.
  apply rjson_ind; intros; repeat first [assumption|now apply number_utf8|now apply rstring_utf8|now apply ws_utf8|apply utf8_cons; [lia|]|apply utf8_app|apply u8_nil|apply low_utf8; repeat constructor; lia].
Qed.

(** ---- escaped and unescaped again ---- *)
Lemma not_utf8 (c d : Z) s : 192 <= c -> (c <= 193 \/ c = 237 /\ 160 <= d) -> ~ utf8 (c :: d :: s).
Proof.
  intros H0 H U. inversion U as [|cp t Hs Ht E]; subst. destruct Hs as [Hs1 Hs2]. unfold utf8_encode in E.
  destruct (Z.ltb_spec cp 128); [pose proof (f_equal (fun l => nth 0 l 0) E) as E1; cbn [nth app] in E1; lia|].
  destruct (Z.ltb_spec cp 2048); [pose proof (f_equal (fun l => nth 0 l 0) E) as E1; pose proof (f_equal (fun l => nth 1 l 0) E) as E2; cbn [nth app] in E1, E2; pose proof (Z.div_lt_upper_bound cp 64 32); pose proof (Z.div_le_lower_bound cp 64 2); lia|].
  destruct (Z.ltb_spec cp 65536); pose proof (f_equal (fun l => nth 0 l 0) E) as E1; pose proof (f_equal (fun l => nth 1 l 0) E) as E2; cbn [nth app] in E1, E2; [|pose proof (Z.div_pos cp 262144); lia].
  pose proof (Z.div_pos cp 4096). assert (c = 237) by lia. assert (cp / 4096 = 13) by lia.
  pose proof (Z.div_mod cp 4096). pose proof (Z.mod_pos_bound cp 4096). assert ((cp / 64) mod 64 = (cp - 13 * 4096) / 64) as K.
  { replace cp with ((cp - 13 * 4096) + 13 * 64 * 64) at 1 by lia. rewrite Z.div_add by lia. rewrite Z.mod_add by lia. apply Z.mod_small. split; [apply Z.div_pos; lia|apply Z.div_lt_upper_bound; lia]. }
  rewrite K in E2. pose proof (Z.mul_div_le (cp - 13 * 4096) 64). lia.
Qed.
Lemma not_utf8_cut c k l : wlead c k -> (length l < k)%nat -> ~ utf8 (c :: l).
Proof.
  intros H L U. inversion U as [|cp t Hs Ht E]; subst. destruct (encode_cases cp Hs) as [[H1 H2]|(b & k' & l' & H1 & H2 & H3 & H4 & H5)].
  - rewrite H2 in E. cbn [app] in E. injection E as -> _. apply wlead_high in H. lia.
  - rewrite H5 in E. cbn [app] in E. injection E as -> <-. rewrite app_length in L. pose proof (wlead_fun _ _ _ H H1). lia.
Qed.

(** ---- a test for escapes of halves ---- *)
Definition half_here (s : buf) : bool :=
  match s with
  | c :: e :: a :: b :: t => (c =? BSL) &&
      ((e =? 120) && hexb a && hexb b && (128 <=? hexv a * 16 + hexv b) ||
       (e =? 117) && match t with c' :: d' :: _ => hexb a && hexb b && hexb c' && hexb d' && (55296 <=? hex4 a b c' d') && (hex4 a b c' d' <=? 57343) | _ => false end)
  | _ => false
  end.
Fixpoint halves (s : buf) : bool := match s with [] => false | c :: t => half_here s || halves t end.
Lemma halves_app p s : halves s = true -> halves (p ++ s) = true.
Proof. intros H. induction p as [|c p IH]; [exact H|]. cbn [app halves]. rewrite IH. apply orb_true_r. Qed.
Lemma hexb_iff x : s_hex x -> hexb x = true.
Proof. unfold s_hex, hexb. lia. Qed.
Lemma halves_no s : halves s = false -> no_half s.
Proof.
  intros H. split.
  - intros p a b c d q -> A B C D. pose proof (hex4_range a b c d A B C D) as R. unfold scalar. split; [lia|]. intros K. revert H. rewrite (halves_app p); [discriminate|].
    cbn [halves half_here]. rewrite !hexb_iff by assumption. rewrite (proj2 (Z.leb_le 55296 _)), (proj2 (Z.leb_le _ 57343)) by lia. reflexivity.
  - intros p a b q -> A B. destruct (Z.ltb_spec (hexv a * 16 + hexv b) 128) as [L|L]; [exact L|]. revert H. rewrite (halves_app p); [discriminate|].
    cbn [halves half_here]. rewrite !hexb_iff by assumption. rewrite (proj2 (Z.leb_le 128 _)) by lia. reflexivity.
Qed.
