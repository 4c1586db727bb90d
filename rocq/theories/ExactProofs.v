(** Exactness of the readers: accepted texts and what they are read as. *)
From Verif Require Import Base Parser SpecJson SpecNum SpecString SpecEnum ParserFacts Grammar1 Grammar2 Out Number StringS Array Object Enum Float CodecLaws NumberProofs StringProofs ArrayProofs EnumProofs AcceptProofs SpecExact.

(** ---- strings ---- *)
Definition C0 := Some no_error.
Lemma C0_ok : OKE C0. Proof. now exists no_error. Qed.
Lemma C0_cerr c m t e : c <> ValidJSON -> cerr c m t e <> C0.
Proof. intros H E. apply (OKE_cerr c m t e H). rewrite E. apply C0_ok. Qed.
Lemma kept_dec v : {kept v} + {~ kept v}.
Proof.
  unfold kept, short_ctl. destruct (Z_lt_le_dec v 32) as [L|L]; [|right; lia].
  destruct (Z.eq_dec v 8), (Z.eq_dec v 9), (Z.eq_dec v 10), (Z.eq_dec v 12), (Z.eq_dec v 13); (left; lia) || (right; lia).
Qed.
Lemma hex4_range a b c d : s_hex a -> s_hex b -> s_hex c -> s_hex d -> 0 <= hex4 a b c d < 65536.
Proof. intros A B C D. apply hexv_range in A, B, C, D. unfold hex4. lia. Qed.
Lemma uhex_hex a b c d s n : n <> 0 -> s_hex a -> s_hex b -> s_hex c -> s_hex d ->
  uhex (a :: b :: c :: d :: s) n C0 = uhex_emit (hex4 a b c d) [a; b; c; d] s n C0.
Proof.
  intros Hn A B C D. unfold uhex. destruct (n =? 0) eqn:E; [lia|]. rewrite !uchar2_hexv by assumption. f_equal. unfold hex4. lia.
Qed.
Lemma emit_kept v cur s n : kept v -> length cur = 4%nat -> 0 < n -> uhex_emit v cur s n C0 =
  (s, firstn (Z.to_nat (Z.min n 6)) (BSL :: 117 :: cur), n - Z.min n 6, C0).
Proof.
  intros [H1 H2] Hc Hn. unfold short_ctl in H2. unfold uhex_emit. replace (v <? 32) with true by lia.
  replace ((v =? 9) || (v =? 13) || (v =? 10) || (v =? 8) || (v =? 12)) with false by lia. cbv zeta. f_equal. f_equal. f_equal. unfold dist.
  rewrite firstn_length. cbn [length]. rewrite Hc. lia.
Qed.
Lemma chunk_dchunk c w : chunk c w -> dchunk c w.
Proof.
  destruct 1 as [c H1 H2 H3|c k l Hk Hk3 Hl|c t H|a b c d A B C D K|a b c d A B C D K|a b A B].
  - now apply dchunk_raw.
  - now apply (dchunk_multi c k l).
  - apply dchunk_esc. now apply esc_unescape.
  - apply dchunk_u; auto. pose proof (hex4_range a b c d A B C D). unfold kept in K. destruct (Z_lt_le_dec (hex4 a b c d) 32); [right|now left].
    unfold short_ctl in *. lia.
  - split; [discriminate|]. split; [discriminate|]. intros f r n e out Hn. unfold dist in Hn. cbn [length] in Hn.
    cbn [app str_loop]. change (BSL =? QT) with false. change (BSL =? BSL) with true. cbn [orb]. destruct (n =? 0) eqn:E; [lia|].
    change (unescape 117) with (@None Z). change (117 =? 117) with true. cbv iota. unfold uhex. rewrite E. rewrite !uchar2_hexv by assumption.
    replace (hexv a * 4096 + hexv b * 256 + hexv c * 16 + hexv d) with (hex4 a b c d) by (unfold hex4; lia).
    destruct K as [K1 K2]. unfold short_ctl in K2. unfold uhex_emit. replace (hex4 a b c d <? 32) with true by lia.
    replace ((hex4 a b c d =? 9) || (hex4 a b c d =? 13) || (hex4 a b c d =? 10) || (hex4 a b c d =? 8) || (hex4 a b c d =? 12)) with false by lia. cbv zeta.
    replace (Z.min n 6) with 6 by lia. reflexivity.
  - now apply dchunk_x.
Qed.
Lemma literal_room n l v : literal n l v -> dist v <= n \/ v = [].
Proof.
  induction 1 as [n|n c w l v Hc Hw Hl IH|n c k l Hk H3 Hl Hd|n a b c d _ _ _ _ _ Hn].
  - now right.
  - left. destruct IH as [IH| ->]; [rewrite dist_app; lia|rewrite app_nil_r; exact Hw].
  - left. lia.
  - left. unfold dist. rewrite firstn_length. lia.
Qed.
Lemma literal_loop n l v : literal n l v -> forall f r out, (length l < f)%nat ->
  str_loop f (l ++ QT :: r) n C0 out = Ok (inl (QT :: r, C0, out ++ v)).
Proof.
  induction 1 as [n|n c w l v Hc Hw Hl IH|n c k l Hk H3 Hl Hd|n a b c d A B C D K Hn]; intros f r out Hf.
  - destruct f; [lia|]. cbn. now rewrite app_nil_r.
  - destruct (chunk_dchunk c w Hc) as (Nc & Nw & Hst). destruct f; [lia|]. rewrite <- app_assoc. rewrite Hst by exact Hw.
    rewrite IH; [now rewrite app_assoc|]. rewrite app_length in Hf. destruct c; [congruence|cbn in Hf; lia].
  - destruct f as [|f]; [lia|]. pose proof (dist_pos l) as Hp. rewrite dist_cons in Hd.
    assert (192 <= c <= 247) as Hc by (destruct Hk; lia).
    assert (forall k' m, (length m < k')%nat -> utf8_copy k' (m ++ QT :: r) (dist m) C0 = (QT :: r, m, 0, C0)) as UC.
    { clear. induction k' as [|k' IH]; intros m Hm; [lia|]. cbn [utf8_copy]. destruct m as [|x m]; [reflexivity|]. pose proof (dist_pos m). rewrite dist_cons.
      destruct (1 + dist m =? 0) eqn:E; [lia|]. cbn [app]. replace (1 + dist m - 1) with (dist m) by lia. cbn [length] in Hm. rewrite IH by lia. reflexivity. }
    assert (forall k', wlead c k' -> k' = k) as KU by (intros k' Hk'; destruct Hk, Hk'; lia).
    cbn [str_loop app]. destruct ((c =? QT) || (n =? 0)) eqn:E0; [lia|]. destruct (c =? BSL) eqn:E1; [lia|].
    assert (unutf8 c (l ++ QT :: r) n C0 = (QT :: r, c :: l, 0, C0)) as ->.
    { pose proof (UC (S k) (c :: l) ltac:(cbn [length]; lia)) as U. rewrite dist_cons, Hd in U. cbn [app] in U. unfold unutf8.
      pose proof (lead_class_ok c ltac:(lia)) as LC. unfold lead_ok in LC.
      assert (forall P, (Z.land c 128 =? 0) = P -> P = false) as Q0 by (intros P <-; destruct (Z.land c 128 =? 0); lia). rewrite (Q0 _ eq_refl).
      destruct Hk as [c Hr|c Hr|c Hr|c Hr|c Hr].
      - replace (Z.land c 224 =? 192) with true; [exact U|]. clear - Hr. symmetry.
        assert (X : (Z.land c 224 =? 192) || (c <? 192) || (223 <? c) = true) by (apply (byte_sweep (fun c => (Z.land c 224 =? 192) || (c <? 192) || (223 <? c))); [vm_compute; reflexivity|lia]). lia.
      - replace (Z.land c 224 =? 192) with false; [replace (Z.land c 240 =? 224) with true; [exact U|]|]; clear - Hr; symmetry.
        + assert (X : (Z.land c 240 =? 224) || (c <? 224) || (239 <? c) = true) by (apply (byte_sweep (fun c => (Z.land c 240 =? 224) || (c <? 224) || (239 <? c))); [vm_compute; reflexivity|lia]). lia.
        + assert (X : negb (Z.land c 224 =? 192) || (c <? 224) || (239 <? c) = true) by (apply (byte_sweep (fun c => negb (Z.land c 224 =? 192) || (c <? 224) || (239 <? c))); [vm_compute; reflexivity|lia]). lia.
      - replace (Z.land c 224 =? 192) with false; [replace (Z.land c 240 =? 224) with false; [replace (Z.land c 248 =? 240) with true; [exact U|]|]|]; clear - Hr; symmetry.
        + assert (X : (Z.land c 248 =? 240) || (c <? 240) || (247 <? c) = true) by (apply (byte_sweep (fun c => (Z.land c 248 =? 240) || (c <? 240) || (247 <? c))); [vm_compute; reflexivity|lia]). lia.
        + assert (X : negb (Z.land c 240 =? 224) || (c <? 240) || (247 <? c) = true) by (apply (byte_sweep (fun c => negb (Z.land c 240 =? 224) || (c <? 240) || (247 <? c))); [vm_compute; reflexivity|lia]). lia.
        + assert (X : negb (Z.land c 224 =? 192) || (c <? 240) || (247 <? c) = true) by (apply (byte_sweep (fun c => negb (Z.land c 224 =? 192) || (c <? 240) || (247 <? c))); [vm_compute; reflexivity|lia]). lia.
      - lia.
      - lia. }
    destruct f as [|f]; [cbn [length] in Hf; lia|]. cbn [str_loop]. change (QT =? QT) with true. reflexivity.
  - destruct f as [|[|f]]; [lia|cbn in Hf; lia|]. cbn [str_loop app]. change (BSL =? QT) with false. change (BSL =? BSL) with true. cbn [orb]. destruct (n =? 0) eqn:E; [lia|].
    change (unescape 117) with (@None Z). change (117 =? 117) with true. cbv iota. rewrite uhex_hex by (assumption || lia).
    rewrite emit_kept by (assumption || reflexivity || lia). replace (Z.min n 6) with n by lia. cbn [str_loop]. change (QT =? QT) with true. reflexivity.
Qed.
Lemma literal0 l v : literal 0 l v -> l = [] /\ v = [].
Proof.
  intros H. inversion H as [|n c w l0 v0 Hc Hw Hl|n c k l0 Hk H3 Hl Hd|]; subst; [auto| | |lia].
  - destruct (chunk_dchunk _ _ Hc) as (_ & Nw & _). apply dist_nonempty in Nw. lia.
  - rewrite dist_cons in *. pose proof (dist_pos l0). lia.
Qed.
Lemma emit_fits v cur s n r w n' : 0 <= v < 65536 -> ~ kept v -> 0 < n -> uhex_emit v cur s n C0 = (r, w, n', C0) ->
  dist (utf8_encode v) <= n /\ (r, w, n') = (s, utf8_encode v, n - dist (utf8_encode v)).
Proof.
  intros Hv K Hn E. assert (dist (utf8_encode v) <= n) as Hd.
  { revert E. unfold uhex_emit, utf8_encode, kept, short_ctl in *.
    destruct (v <? 32) eqn:E1.
    { replace (v <? 128) with true by lia. intros _. cbn. lia. }
    destruct (v <=? 127) eqn:E2; [replace (v <? 128) with true by lia; intros _; cbn; lia|]. replace (v <? 128) with false by lia.
    destruct (v <=? 2047) eqn:E3.
    { replace (v <? 2048) with true by lia. cbv zeta. destruct (n - 1 =? 0) eqn:E4; intros E; [exfalso; injection E as _ _ _ E; discriminate|cbn; lia]. }
    replace (v <? 2048) with false by lia. replace (v <? 65536) with true by lia. cbv zeta.
    destruct (n - 1 =? 0) eqn:E4; [intros E; injection E as _ _ _ E; discriminate|]. destruct (n - 2 =? 0) eqn:E5; [intros E; injection E as _ _ _ E; discriminate|].
    intros _. cbn. lia. }
  split; [exact Hd|]. rewrite uhex_emit_encode in E; [congruence|lia| |exact Hd]. unfold kept in K. destruct (Z_lt_le_dec v 32); [right|now left].
  unfold short_ctl in *. lia.
Qed.
Lemma unescape_mean d b : unescape d = Some b -> esc_mean d b.
Proof.
  unfold unescape. destruct ((d =? QT) || (d =? BSL) || (d =? SLASH)) eqn:E0; [intros E; injection E as <-; constructor; lia|].
  destruct (d =? 116) eqn:E1; [intros E; injection E as <-; replace d with 116 by lia; constructor|].
  destruct (d =? 98) eqn:E2; [intros E; injection E as <-; replace d with 98 by lia; constructor|].
  destruct (d =? 114) eqn:E3; [intros E; injection E as <-; replace d with 114 by lia; constructor|].
  destruct (d =? 110) eqn:E4; [intros E; injection E as <-; replace d with 110 by lia; constructor|].
  destruct (d =? 102) eqn:E5; [intros E; injection E as <-; replace d with 102 by lia; constructor|discriminate].
Qed.
Lemma copy_ok k : forall s n r w n', utf8_copy k s n C0 = (r, w, n', C0) -> n' = n - dist w.
Proof.
  induction k as [|k IH]; intros s n r w n' E; cbn [utf8_copy] in E; [injection E as <- <- <-; rewrite dist_nil; lia|].
  destruct (n =? 0); [injection E as <- <- <-; rewrite dist_nil; lia|]. destruct s as [|c t]; [discriminate|].
  destruct (utf8_copy k t (n - 1) C0) as [[[r0 w0] n0] e0] eqn:E0. injection E as <- <- <- ->. apply IH in E0. rewrite dist_cons. lia.
Qed.
Lemma unutf8_sound c t n r w n' : 0 <= c <= 255 -> c <> QT -> c <> BSL -> 0 < n -> unutf8 c t n C0 = (r, w, n', C0) ->
  exists l, w = c :: l /\ t = l ++ r /\ n' = n - dist w /\ (chunk w w \/ n' = 0 /\ exists k, wlead c k /\ (k <= 3)%nat /\ (length l < k)%nat).
Proof.
  intros Hc Hq Hb Hn H. pose proof (lead_class_ok c Hc) as K. unfold lead_ok in K. unfold unutf8 in H.
  destruct (Z.land c 128 =? 0).
  { injection H as <- <- <-. exists []. split; [reflexivity|]. split; [reflexivity|]. split; [reflexivity|]. left. apply ck_plain; lia. }
  assert (G : forall k, wlead c k -> (k <= 3)%nat -> utf8_copy (S k) (c :: t) n C0 = (r, w, n', C0) -> exists l, w = c :: l /\ t = l ++ r /\ n' = n - dist w /\
    (chunk w w \/ n' = 0 /\ exists k, wlead c k /\ (k <= 3)%nat /\ (length l < k)%nat)).
  { intros k Hk H3 E. pose proof (copy_ok _ _ _ _ _ _ E) as Hn'. cbn [utf8_copy] in E. destruct (n =? 0) eqn:En; [lia|].
    destruct (utf8_copy k t (n - 1) C0) as [[[r0 w0] n0] e0] eqn:E0. injection E as <- <- <- ->.
    destruct (utf8_copy_ok _ _ _ _ _ _ _ _ E0 C0_ok) as (-> & _ & Hl & Hlt). exists w0. split; [reflexivity|]. split; [reflexivity|]. split; [exact Hn'|].
    destruct (Nat.eq_dec (length w0) k) as [Hw|Hw]; [left; now apply (ck_lead c k)|right]. split; [apply Hlt; lia|]. exists k. repeat split; auto. lia. }
  destruct (Z.land c 224 =? 192). { apply (G 1%nat); [|lia|exact H]. constructor. lia. }
  destruct (Z.land c 240 =? 224). { apply (G 2%nat); [|lia|exact H]. constructor. lia. }
  destruct (Z.land c 248 =? 240). { apply (G 3%nat); [|lia|exact H]. constructor. lia. }
  discriminate.
Qed.
Lemma literal_sound f : forall s n out r out', bytes s -> 0 <= n -> str_loop f s n C0 out = Ok (inl (QT :: r, C0, out')) ->
  exists l v, s = l ++ QT :: r /\ literal n l v /\ out' = out ++ v.
Proof.
  induction f as [|f IH]; intros s n out r out' Hs Hn0 E; [discriminate|]. cbn [str_loop] in E. destruct s as [|c t]; [discriminate|].
  inversion Hs as [|? ? Hc Ht]; subst.
  destruct ((c =? QT) || (n =? 0)) eqn:E0.
  { injection E as -> -> ->. exists [], []. split; [reflexivity|]. split; [constructor|now rewrite app_nil_r]. }
  assert (Hn1 : 1 <= n) by lia. assert (Hn3 : 0 < n) by lia. assert (Hnz : n <> 0) by lia. destruct (c =? BSL) eqn:Eb.
  - apply Z.eqb_eq in Eb. subst c. destruct t as [|d t]; [discriminate|]. inversion Ht as [|? ? Hd Ht']; subst.
    destruct (unescape d) as [b|] eqn:Eu.
    { assert (Hn2 : 0 <= n - 1) by lia. destruct (IH _ _ _ _ _ Ht' Hn2 E) as (l & v & -> & HL & ->). exists ([BSL; d] ++ l), ([b] ++ v). split; [reflexivity|].
      split; [|now rewrite <- app_assoc]. apply li_chunk; [apply ck_esc; now apply unescape_mean|cbn; lia|exact HL]. }
    destruct (d =? 117) eqn:E117.
    { apply Z.eqb_eq in E117. subst d. pose proof (uhex_good t n C0 Hn1) as G. destruct (uhex t n C0) as [[[r0 w0] n0] x0] eqn:Eh. destruct G as ((z & G) & _ & _ & Gn).
      assert (Hb0 : bytes r0) by (rewrite G in Ht'; now apply Forall_app in Ht').
      assert (x0 = C0) as -> by (destruct (str_loop_ok _ _ _ _ _ _ _ _ Hb0 (Gn Hn0) E C0_ok) as (-> & _); reflexivity).
      destruct (IH _ _ _ _ _ Hb0 (Gn Hn0) E) as (l & v & -> & HL & ->).
      destruct (uhex_ok _ _ _ _ _ _ _ Hnz Eh C0_ok) as (_ & a & b & c & d & -> & A & B & C & D).
      rewrite uhex_hex in Eh by (assumption || lia). pose proof (hex4_range a b c d A B C D) as Hr. destruct (kept_dec (hex4 a b c d)) as [K|K].
      - rewrite emit_kept in Eh by (assumption || reflexivity || lia). injection Eh as <- <-. destruct (Z_lt_le_dec n 6) as [L|L].
        + replace (Z.min n 6) with n in * by lia. replace (n - n) with 0 in HL by lia. apply literal0 in HL. destruct HL as [-> ->].
          exists [BSL; 117; a; b; c; d], (firstn (Z.to_nat n) [BSL; 117; a; b; c; d]). split; [reflexivity|]. split; [|now rewrite app_nil_r].
          apply li_cut_kept; auto.
        + replace (Z.min n 6) with 6 in * by lia. exists ([BSL; 117; a; b; c; d] ++ l), ([BSL; 117; a; b; c; d] ++ v). split; [reflexivity|].
          split; [|now rewrite <- app_assoc]. apply li_chunk; [now apply ck_kept|cbn; lia|exact HL].
      - destruct (emit_fits _ _ _ _ _ _ _ Hr K Hn3 Eh) as [Hf EQ]. injection EQ as -> ->.
        exists ([BSL; 117; a; b; c; d] ++ l), (utf8_encode (hex4 a b c d) ++ v). split; [reflexivity|].
        split; [|now rewrite <- app_assoc]. apply li_chunk; [now apply ck_u|exact Hf|exact HL]. }
    destruct (d =? 120) eqn:E120; [|discriminate].
    apply Z.eqb_eq in E120. subst d. pose proof (xhex_good t n C0 Hn1) as G. destruct (xhex t n C0) as [[[r0 w0] n0] x0] eqn:Eh. destruct G as ((z & G) & _ & _ & Gn).
    assert (Hb0 : bytes r0) by (rewrite G in Ht'; now apply Forall_app in Ht').
    assert (x0 = C0) as -> by (destruct (str_loop_ok _ _ _ _ _ _ _ _ Hb0 (Gn Hn0) E C0_ok) as (-> & _); reflexivity).
    destruct (IH _ _ _ _ _ Hb0 (Gn Hn0) E) as (l & v & -> & HL & ->).
    unfold xhex in Eh. destruct t as [|a t]; [discriminate|]. destruct (uchar2 a C0) as [da x1] eqn:Ea. destruct t as [|b t]; [injection Eh as _ _ _ Eh; now apply C0_cerr in Eh|].
    destruct (uchar2 b x1) as [db x2] eqn:Ebb. assert (x2 = C0) as -> by congruence. destruct (uchar2_ok _ _ _ _ Ebb C0_ok) as [-> HB]. destruct (uchar2_ok _ _ _ _ Ea C0_ok) as [_ HA].
    rewrite uchar2_hexv in Ea, Ebb by assumption. injection Ea as <-. injection Ebb as <-. injection Eh as -> <- <-.
    exists ([BSL; 120; a; b] ++ l), ([hexv a * 16 + hexv b] ++ v). split; [reflexivity|]. split; [|now rewrite <- app_assoc].
    apply li_chunk; [now apply ck_x|cbn; lia|exact HL].
  - pose proof (unutf8_good c t n C0 Hn1) as (G1 & G). destruct (unutf8 c t n C0) as [[[r0 w0] n0] x0] eqn:Eh. cbn [fst snd] in G. destruct G1 as (_ & _ & _ & Gn). destruct G as (z & G).
    assert (Hb0 : bytes r0) by (rewrite G in Ht; now apply Forall_app in Ht).
    assert (x0 = C0) as -> by (destruct (str_loop_ok _ _ _ _ _ _ _ _ Hb0 (Gn Hn0) E C0_ok) as (-> & _); reflexivity).
    destruct (IH _ _ _ _ _ Hb0 (Gn Hn0) E) as (l & v & -> & HL & ->).
    destruct (unutf8_sound c t n _ _ _ Hc ltac:(lia) ltac:(lia) Hn3 Eh) as (m & -> & -> & -> & Hk).
    exists ((c :: m) ++ l), ((c :: m) ++ v). split; [cbn [app]; now rewrite <- app_assoc|]. split; [|now rewrite <- app_assoc].
    destruct Hk as [Hk|(Hz & k & Hk & H3 & Hl)].
    + apply li_chunk; [exact Hk| |exact HL]. specialize (Gn Hn0). lia.
    + rewrite Hz in HL. apply literal0 in HL. destruct HL as [-> ->]. rewrite !app_nil_r. apply li_cut with k; auto. lia.
Qed.
Lemma unser_exact s n w r : bytes s -> 0 <= n -> str_unser s n C0 = Ok (w, r, C0) <-> exists l, s = QT :: l ++ QT :: r /\ literal n l w.
Proof.
  intros Hs Hn. split.
  - intros E. unfold str_unser in E. destruct s as [|c t]; [discriminate|]. destruct (c =? QT) eqn:Ec; cbn [negb] in E; [|discriminate].
    apply Z.eqb_eq in Ec. subst c. inversion Hs as [|? ? Hc Ht]; subst.
    destruct (str_loop (S (length t)) t n C0 []) as [[[[s1 e1] o1]|[e1 o1]]| |] eqn:El; cbn [bind] in E; try discriminate.
    + destruct s1 as [|d t1]; [injection E as _ _ E; now apply C0_cerr in E|]. destruct (d =? QT) eqn:Ed; cbn [negb] in E; [|injection E as _ _ E; now apply C0_cerr in E].
      apply Z.eqb_eq in Ed. subst d. injection E as <- <- ->. destruct (literal_sound _ _ _ _ _ _ Ht Hn El) as (l & v & -> & HL & ->). now exists l.
    + injection E as _ _ ->. exfalso. exact (str_loop_inr _ _ _ _ _ _ _ El C0_ok).
  - intros (l & -> & HL). unfold str_unser. change (QT =? QT) with true. cbn [negb]. rewrite (literal_loop n l w HL) by (rewrite app_length; cbn [length]; lia).
    cbn [bind app]. change (QT =? QT) with true. reflexivity.
Qed.
Lemma null_exact s r : parse_null s C0 = (r, C0) <-> s = text "null" ++ r.
Proof. split; [intros E; now apply (null_ok s C0 r C0 E C0_ok)|]. intros ->. reflexivity. Qed.
Lemma is_null_null r : is_null (text "null" ++ r) = true. Proof. reflexivity. Qed.
Lemma string_exact sn old s v r : bytes s -> reads string_codec sn old s v r <->
  s = text "null" ++ r /\ v = [] \/ exists l, s = QT :: l ++ QT :: r /\ literal INT_MAX l v.
Proof.
  intros Hs. unfold reads. cbn [des string_codec]. unfold string_des. fold C0. destruct (is_null s) eqn:En.
  - destruct (parse_null s C0) as [r' e'] eqn:E. split.
    + intros H. injection H as <- <- ->. left. split; [now apply null_exact|reflexivity].
    + intros [[H ->]|(l & -> & _)]; [|discriminate]. apply null_exact in H. rewrite E in H. injection H as -> ->. reflexivity.
  - rewrite unser_exact by (assumption || unfold INT_MAX; lia). split; [now right|]. intros [[-> _]|H]; [discriminate|exact H].
Qed.
Lemma chars_exact N sn old s v r : bytes s -> reads (chars_codec N) sn old s v r <->
  s = text "null" ++ r /\ v = repeat 0 N \/ exists l w, s = QT :: l ++ QT :: r /\ literal (Z.of_nat N) l w /\ v = w ++ repeat 0 (N - length w).
Proof.
  intros Hs. unfold reads. cbn [des chars_codec]. unfold chars_des. fold C0. destruct (is_null s) eqn:En.
  - destruct (parse_null s C0) as [r' e'] eqn:E. split.
    + intros H. injection H as <- <- ->. left. split; [now apply null_exact|reflexivity].
    + intros [[H ->]|(l & w & -> & _)]; [|discriminate]. apply null_exact in H. rewrite E in H. injection H as -> ->. reflexivity.
  - split.
    + destruct (str_unser s (Z.of_nat N) C0) as [[[w r'] e']| |] eqn:E; cbn [bind]; try discriminate. destruct (N <? length w)%nat; [discriminate|].
      intros H. injection H as <- <- ->. right. apply unser_exact in E; [|assumption|lia]. destruct E as (l & E & HL). now exists l, w.
    + intros [[-> _]|(l & w & E & HL & ->)]; [discriminate|]. rewrite (proj2 (unser_exact s (Z.of_nat N) w r Hs ltac:(lia))) by now exists l. cbn [bind].
      destruct (Nat.ltb_spec N (length w)) as [H|_]; [|reflexivity]. exfalso. apply literal_room in HL. unfold dist in HL. destruct HL as [HL| ->]; [lia|cbn in H; lia].
Qed.

(** ---- numbers ---- *)
Lemma wraps_dec t : {wraps t} + {~ wraps t}.
Proof. unfold wraps. destruct (Z_lt_le_dec (isize t) 4); [left; lia|]. destruct (isigned t); [right; intros [H|H]; [lia|discriminate]|left; now right]. Qed.
Lemma int_exact t sn old s v r : ity_ok t -> reads (int_codec t) sn old s v r <->
  s = text "null" ++ r /\ v = 0 \/ exists z l, jint z l /\ s = l ++ r /\ int_end l r /\ stored t z v.
Proof.
  intros Ht. unfold reads. cbn [des int_codec]. split.
  - intros E. destruct (is_null s) eqn:En.
    { unfold int_des in E. rewrite En in E. destruct (parse_null s (Some no_error)) as [r' e'] eqn:E1. injection E as <- <- ->. left. split; [now apply null_exact|reflexivity]. }
    right.
    assert (J : exists z l r', jint z l /\ s = l ++ r' /\ int_end l r').
    { unfold int_des in E. rewrite En in E. unfold unserialize_integer in E. destruct s as [|c t0]; [discriminate|]. cbv zeta in E.
      assert (K : forall s1, match s1 with [] => False | d :: _ => is_digit d = true end -> exists l r', s1 = l ++ r' /\ rint l /\ (l = text "0" \/ nodigit r')).
      { intros s1 H. destruct s1 as [|d t1]; [contradiction|]. destruct (Z.eq_dec d 48) as [->|Hd].
        - exists [48], t1. split; [reflexivity|]. split; [constructor|]. now left.
        - destruct (parse_digit_inv t1) as (ds & Es & Hds & Hnd). exists (d :: ds), (parse_digit t1). split; [cbn [app]; now rewrite <- Es|].
          split; [constructor; [unfold is_digit in H; lia|exact Hds]|]. now right. }
      destruct (c =? MINUS) eqn:Ec.
      - apply Z.eqb_eq in Ec. subst c. destruct t0 as [|d t1]; [discriminate|]. destruct (is_digit d) eqn:Ed; cbn [negb] in E; [|discriminate].
        destruct (K (d :: t1) Ed) as (l & r' & El & Hl & Hr). exists (- dval l), (MINUS :: l), r'. split; [now constructor|]. rewrite El. split; [reflexivity|].
        unfold int_end. destruct Hr as [-> | Hr]; [right; left; reflexivity|right; right; exact Hr].
      - destruct (is_digit c) eqn:Ed; cbn [negb] in E; [|discriminate].
        destruct (K (c :: t0) Ed) as (l & r' & El & Hl & Hr). exists (dval l), l, r'. split; [now constructor|]. split; [exact El|].
        unfold int_end. destruct Hr as [-> | Hr]; [left; reflexivity|right; right; exact Hr]. }
    destruct J as (z & l & r' & Hj & -> & He).
    destruct (wraps_dec t) as [W|W].
    + rewrite (int_des_wrap t sn old z l r') in E by assumption. injection E as <- <-. exists z, l. split; [exact Hj|]. split; [reflexivity|]. split; [exact He|].
      split; [now apply icast_range|]. split; [now apply icast_eq|]. unfold wraps in W. intros A B. rewrite A in W. destruct W; [lia|discriminate].
    + assert (Hz : Z.abs z <= imax t).
      { destruct (Z_le_gt_dec (Z.abs z) (imax t)) as [L|G]; [exact L|exfalso]. destruct He as [-> | [-> | He]].
        - inversion Hj as [i Hi Ei|i Hi Ei]; subst. cbn in G. unfold imax in G. pose proof (half_cases t Ht). destruct (isigned t); lia.
        - inversion Hj as [i Hi Ei|i Hi Ei]; subst; [inversion Hi; subst; lia|]. cbn in G. unfold imax in G. pose proof (half_cases t Ht). destruct (isigned t); lia.
        - rewrite int_des_overflow with (z := z) in E by (assumption || lia). discriminate. }
      rewrite (int_des_exact t sn old z l r') in E by assumption. injection E as <- <-. exists z, l. split; [exact Hj|]. split; [reflexivity|]. split; [exact He|].
      split; [|split; [exists 0; lia|auto]]. unfold irange, imin, imax in *. unfold wraps in W. destruct (isigned t); [|exfalso; apply W; now right]. pose proof (half_cases t Ht). lia.
  - intros [[-> ->]|(z & l & Hj & -> & He & Hr & (k & Hk) & Hw)]; [reflexivity|].
    destruct (wraps_dec t) as [W|W].
    + rewrite (int_des_wrap t sn old z l r) by assumption. do 3 f_equal. change (2 ^ (8 * isize t)) with (imod t) in Hk.
      destruct (icast_eq t z Ht) as (k2 & E2). apply (irange_unique t _ _ (k2 - k) Ht); [now apply icast_range|exact Hr|]. lia.
    + assert (isigned t = true /\ 4 <= isize t) as (A & B).
      { unfold wraps in W. destruct (isigned t); [|exfalso; apply W; now right]. split; [reflexivity|]. destruct (Z_lt_le_dec (isize t) 4); [exfalso; auto|lia]. }
      specialize (Hw A B). rewrite (int_des_exact t sn old z l r) by assumption. do 3 f_equal. change (2 ^ (8 * isize t)) with (imod t) in Hk.
      symmetry. apply (irange_unique t v z k Ht Hr); [|exact Hk]. unfold irange, imin, imax in *. rewrite A in *. pose proof (half_cases t Ht). lia.
Qed.
Lemma rnumber_is_number n r : rnumber n -> is_number (n ++ r) = true /\ is_null (n ++ r) = false.
Proof.
  destruct 1 as [m i f x Hm Hi _ _]. destruct Hm; destruct Hi; cbn [app]; unfold is_number, is_null, starts, is_digit; lia.
Qed.
Lemma float_exact {A} R (fmt : A -> buf) scan zero sn old s v r : reads (float_codec R fmt scan zero) sn old s v r <->
  s = text "null" ++ r /\ v = zero \/ exists n, rnumber n /\ s = n ++ r /\ num_stop n r /\ v = scan (cstr (firstn (bufsize R) s)).
Proof.
  unfold reads. cbn [des float_codec]. unfold float_des. split.
  - intros E. destruct s as [|c t]; [discriminate|]. destruct (is_null (c :: t)) eqn:En.
    { destruct (parse_null (c :: t) (Some no_error)) as [r' e'] eqn:E1. injection E as <- <- ->. left. split; [now apply null_exact|reflexivity]. }
    destruct (is_number (c :: t)); cbn [negb] in E; [|discriminate]. cbv zeta in E. destruct (parse_number (c :: t) (Some no_error)) as [r' e'] eqn:E1. injection E as <- <- ->.
    right. apply parse_number_exact in E1. destruct E1 as (n & E1 & Hn & Hs). now exists n.
  - intros [[-> ->]|(n & Hn & -> & Hs & ->)]; [reflexivity|]. destruct (rnumber_is_number n r Hn) as [E1 E2].
    assert (E3 : parse_number (n ++ r) (Some no_error) = (r, Some no_error)) by (apply parse_number_exact; now exists n).
    destruct (n ++ r) as [|c t] eqn:Ea; [discriminate|]. rewrite E2, E1. cbn [negb]. cbv zeta. rewrite E3. reflexivity.
Qed.
Lemma find_first mode L n v : enum_find mode L 0 n = Some v <-> first_of L n v \/ mode = Nonstrict /\ ~ In n (enames L) /\ v = 0.
Proof.
  induction L as [|[m y] L IH]; cbn [enum_find].
  - split.
    + destruct mode; [|discriminate]. intros E. injection E as <-. right. repeat split; auto.
    + intros [(A & B & E & _)|(-> & _ & ->)]; [destruct A; discriminate|reflexivity].
  - destruct (cstr_eq m n) eqn:E.
    + apply cstr_eq_iff in E. subst m. split.
      * intros E. injection E as <-. left. exists [], L. split; [reflexivity|intros []].
      * intros [(A & B & E & H)|(_ & H & _)]; [|exfalso; apply H; now left]. destruct A as [|[a b] A]; [cbn in E; congruence|]. cbn in E. injection E as <- <- _. exfalso. apply H. now left.
    + rewrite IH. assert (m <> n) as Hmn by (intros ->; rewrite (proj2 (cstr_eq_iff n n) eq_refl) in E; discriminate). split.
      * intros [(A & B & -> & H)|(-> & H & ->)]; [left|right].
        -- exists ((m, y) :: A), B. split; [reflexivity|]. cbn. intros [K|K]; auto.
        -- repeat split; auto. cbn. intros [K|K]; auto.
      * intros [(A & B & E2 & H)|(-> & H & ->)]; [left|right].
        -- destruct A as [|[a b] A]; cbn in E2; injection E2 as -> -> ->; [congruence|]. exists A, B. split; [reflexivity|]. intros K. apply H. now right.
        -- repeat split; auto. intros K. apply H. now right.
Qed.
Lemma skip_low_app g c t : Forall low g -> ~ low c -> skip_low (g ++ c :: t) = c :: t.
Proof.
  intros Hg Hc. induction Hg as [|a g Ha _ IH]; cbn [app skip_low]; unfold low in *.
  - destruct ((c <=? 32) || (128 <=? c)) eqn:E; [lia|reflexivity].
  - replace ((a <=? 32) || (128 <=? a)) with true by lia. exact IH.
Qed.
Lemma to_quote_noq s : forall nm r, to_quote s = (nm, r) -> no_quote nm.
Proof.
  induction s as [|c t IH]; intros nm r E; cbn [to_quote] in E; [injection E as <- <-; constructor|]. destruct (c =? QT) eqn:Ec; [injection E as <- <-; constructor|].
  destruct (to_quote t) as [a r0] eqn:Et. injection E as <- <-. constructor; [lia|]. now apply (IH a r0).
Qed.
Lemma enum_exact mode L sn old s v r : reads (enum_codec mode L) sn old s v r <->
  exists g n, Forall low g /\ no_quote n /\ s = g ++ QT :: n ++ QT :: r /\ (first_of L n v \/ mode = Nonstrict /\ ~ In n (enames L) /\ v = 0).
Proof.
  unfold reads. cbn [des enum_codec]. split.
  - intros E. destruct (skip_low_split s) as (g & Es & Hg). unfold enum_des in E. destruct (skip_low s) as [|c t] eqn:El; [discriminate|].
    destruct (c =? QT) eqn:Ec; cbn [negb] in E; [|discriminate]. apply Z.eqb_eq in Ec. subst c. destruct t as [|d t]; [discriminate|].
    destruct (to_quote (d :: t)) as [nm r0] eqn:Et. destruct r0 as [|q r0]; [discriminate|]. destruct (enum_find mode L 0 nm) as [x|] eqn:Ef; [|discriminate].
    injection E as <- <-. destruct (AcceptProofs.to_quote_split _ _ _ Et) as [Ea [Hq|(r1 & Hq)]]; [discriminate|]. injection Hq as -> ->.
    exists g, nm. split; [exact Hg|]. split; [now apply (to_quote_noq _ _ _ Et)|]. split; [now rewrite Es, Ea|]. now apply find_first.
  - intros (g & n & Hg & Hn & -> & Hf). apply find_first in Hf.
    assert (E : skip_low (g ++ QT :: n ++ QT :: r) = skip_low (QT :: n ++ QT :: r)).
    { rewrite skip_low_app; [reflexivity|exact Hg|unfold low; lia]. }
    unfold enum_des. rewrite E. change (enum_des mode L sn old (QT :: n ++ QT :: r) (Some no_error) = Ok (v, r, Some no_error)). rewrite enum_run by exact Hn. now rewrite Hf.
Qed.

(** ---- gaps ---- *)
Lemma space_star s : forall b x p, space_loop b s = (false, STAR :: x) -> s <> p ++ SLASH :: STAR :: x.
Proof.
  assert (T : forall x, space_loop true (STAR :: x) <> (false, STAR :: x)).
  { intros x E. destruct (proj2 (space_gap_gen _) _ E) as (u & g & E1 & _). apply (f_equal (@length Z)) in E1. rewrite !app_length in E1. cbn [length] in E1. rewrite app_length in E1. cbn [length] in E1. lia. }
  induction s as [|c t IH]; intros b x p E Es; [destruct p; discriminate|]. cbn [space_loop] in E. destruct p as [|c' p]; cbn [app] in Es; injection Es as -> ->.
  - destruct b; [exact (T x E)|]. exact (T x E).
  - assert (K : forall b, space_loop b (p ++ SLASH :: STAR :: x) <> (false, STAR :: x)) by (intros b' E'; exact (IH b' x p E' eq_refl)).
    assert (N : STAR :: x <> c' :: p ++ SLASH :: STAR :: x).
    { intros H. apply (f_equal (@length Z)) in H. cbn [length] in H. rewrite app_length in H. cbn [length] in H. lia. }
    destruct b.
    + destruct (c' =? STAR); [|exact (K _ E)]. destruct (p ++ SLASH :: STAR :: x) as [|d z]; [discriminate|]. destruct (d =? SLASH); exact (K _ E).
    + destruct (negb (is_ws c')); [|exact (K _ E)]. destruct (c' =? SLASH); [|congruence].
      destruct (p ++ SLASH :: STAR :: x) as [|d z]; [discriminate|]. destruct (d =? STAR); exact (K _ E).
Qed.
Lemma gap_space_star g : gap g -> forall r, (forall g', g <> g' ++ [SLASH]) -> space_loop false (g ++ STAR :: r) = (false, STAR :: r).
Proof.
  induction 1 as [|c g Hc Hg IH|g Hh Hg IH|u g Hh Hn Hg IH]; intros r Hr.
  - reflexivity.
  - cbn [app space_loop]. apply is_ws_iff in Hc. rewrite Hc. cbn [negb]. apply IH. intros g' ->. exact (Hr (c :: g') eq_refl).
  - cbn [app space_loop]. change (is_ws SLASH) with false. cbn [negb]. change (SLASH =? SLASH) with true. cbv iota.
    assert (Hr' : forall g', g <> g' ++ [SLASH]) by (intros g' ->; exact (Hr (SLASH :: g') eq_refl)). specialize (IH r Hr').
    destruct g as [|d g]; [exfalso; exact (Hr [] eq_refl)|]. cbn [app] in *. destruct (d =? STAR) eqn:Ed; [|exact IH]. exfalso. apply Hh. exists g. f_equal. lia.
  - assert (Hr' : forall g', SLASH :: g <> g' ++ [SLASH]).
    { intros g' E. apply (Hr (SLASH :: u ++ STAR :: g')). cbn [app]. rewrite <- app_assoc. cbn [app]. now rewrite <- E. }
    rewrite <- (IH r Hr'). cbn [app]. rewrite <- app_assoc. cbn [app]. rewrite <- (comment_skip u (g ++ STAR :: r) Hn).
    destruct Hh as [t Ht]. cbn [space_loop]. change (is_ws SLASH) with false. cbn [negb]. change (SLASH =? SLASH) with true. cbv iota.
    destruct (u ++ STAR :: SLASH :: g ++ STAR :: r) as [|d z] eqn:E; [destruct u; discriminate|].
    assert (d = STAR) as -> by (destruct u; cbn in *; congruence). reflexivity.
Qed.
Lemma space_exact s r : parse_space s C0 = (r, C0) <-> after_gap s r.
Proof.
  split.
  - intros E. destruct (space_ok_inv _ _ E) as (g & -> & Hg & Hr). exists g. split; [reflexivity|]. split; [exact Hg|].
    unfold parse_space in E. destruct (space_loop false (g ++ r)) as [sc r'] eqn:El. destruct sc; [discriminate|]. injection E as ->.
    destruct r as [|c t]; [exact I|]. destruct Hr as [H1 H2]. split; [exact H1|]. split; [exact H2|]. intros -> g' ->.
    apply (space_star _ _ _ g' El). now rewrite <- app_assoc.
  - intros (g & -> & Hg & Hr). unfold parse_space. assert (E : space_loop false (g ++ r) = (false, r)).
    { destruct r as [|c t]; [now apply gap_space|]. destruct Hr as (H1 & H2 & H3). destruct (Z.eq_dec c STAR) as [->|H]; [apply gap_space_star; auto|].
      apply gap_space; [exact Hg|]. now split. }
    now rewrite E.
Qed.
Lemma after_gap_suffix s r : after_gap s r -> suffix r s. Proof. intros (g & -> & _). now exists g. Qed.
Lemma after_gap_len s r : after_gap s r -> (length r <= length s)%nat. Proof. intros (g & -> & _). rewrite app_length. lia. Qed.
Lemma after_gap_nil r : after_gap [] r -> r = []. Proof. intros (g & E & _). destruct g; [now symmetry|discriminate]. Qed.
Lemma space_C0 s e r : parse_space s e = (r, C0) -> e = C0 /\ after_gap s r.
Proof. intros E. destruct (space_ok _ _ _ _ E C0_ok) as [-> _]. split; [reflexivity|]. now apply space_exact. Qed.
Lemma dl_C0 A (d : option Z -> A -> buf -> eptr -> res (A * buf * eptr)) sn old s e v r : dlaw d -> d sn old s e = Ok (v, r, C0) -> e = C0.
Proof. intros H E. exact (dl_ok A d sn old s e v r C0 H E C0_ok). Qed.
Lemma dl_suffix A (d : option Z -> A -> buf -> eptr -> res (A * buf * eptr)) sn old s e v r x : dlaw d -> d sn old s e = Ok (v, r, x) -> suffix r s.
Proof. intros H E. specialize (H sn old s e). rewrite E in H. apply H. Qed.
(** ---- containers ---- *)
Section Seq.
  Context {A S : Type} (ins : S -> A -> S) (d0 : A) (R : Z) (item : codec A) (sn : option Z).
  Hypothesis HD : dlaw (des item).
  Hypothesis HR : R <> COMMA.
  Notation I := (fun s v r => reads item sn d0 s v r).
  Lemma seq_sound f : forall st s st' r, seq_loop (des item sn) ins d0 R f st s C0 = Ok (st', r, C0) ->
    exists l, elements I R s l r /\ st' = fold_left ins l st.
  Proof.
    induction f as [|f IH]; intros st s st' r E; [discriminate|]. cbn [seq_loop] in E. destruct s as [|c0 t0]; [discriminate|].
    destruct (parse_space (c0 :: t0) C0) as [s1 e1] eqn:E1.
    assert (K1 : e1 = C0 -> after_gap (c0 :: t0) s1) by (intros ->; now apply space_exact).
    destruct s1 as [|c t1]; [injection E as _ _ E; now apply C0_cerr in E|]. destruct (c =? R) eqn:Ec.
    { apply Z.eqb_eq in Ec. subst c. injection E as <- <- ->. exists []. split; [apply el_end; now apply K1|reflexivity]. }
    destruct (des item sn d0 (c :: t1) e1) as [[[x s2] e2]| |] eqn:E2; cbn [bind] in E; try discriminate. cbv zeta in E.
    destruct (parse_space s2 e2) as [s3 e3] eqn:E3. destruct s3 as [|d t3]; [injection E as _ _ E; now apply C0_cerr in E|].
    assert (N : ~ heads R (c :: t1)) by (intros (z & Ez); injection Ez as -> _; lia).
    destruct (d =? R) eqn:Ed.
    { apply Z.eqb_eq in Ed. subst d. injection E as <- <- ->. apply space_C0 in E3. destruct E3 as [-> H3]. pose proof (dl_C0 _ _ _ _ _ _ _ _ HD E2) as ->.
      exists [x]. split; [apply el_last with (c :: t1) s2; auto|reflexivity]. }
    destruct (d =? COMMA) eqn:Ec2; cbn [negb] in E; [|injection E as _ _ E; now apply C0_cerr in E]. apply Z.eqb_eq in Ec2. subst d.
    assert (e3 = C0) as ->. { destruct (seq_loop_ok_good (des item sn) ins d0 R (fun s e => HD sn d0 s e) _ _ _ _ _ _ _ E) as [_ G]. exact (estep_clean _ _ _ G eq_refl). }
    apply space_C0 in E3. destruct E3 as [-> H3]. pose proof (dl_C0 _ _ _ _ _ _ _ _ HD E2) as ->.
    destruct (IH _ _ _ _ E) as (l & Hl & ->). exists (x :: l). split; [apply el_more with (c :: t1) s2 t3; auto|reflexivity].
  Qed.
  Lemma seq_complete s l r : elements I R s l r -> forall f st, (length s < f)%nat ->
    seq_loop (des item sn) ins d0 R f st s C0 = Ok (fold_left ins l st, r, C0).
  Proof.
    induction 1 as [s r H1|s s1 v s2 r H1 N H2 H3|s s1 v s2 s3 l r H1 N H2 H3 H4 IH]; intros f st Hf; (destruct f as [|f]; [lia|]); cbn [seq_loop].
    - destruct s as [|c0 t0]; [apply after_gap_nil in H1; discriminate|]. apply space_exact in H1. rewrite H1. now rewrite Z.eqb_refl.
    - unfold reads in H2. pose proof (dl_suffix _ _ _ _ _ _ _ _ _ HD H2) as L2. apply suffix_len in L2. pose proof (after_gap_len _ _ H1). pose proof (after_gap_len _ _ H3) as L3. cbn [length] in L3.
      destruct s as [|c0 t0]; [cbn in *; lia|]. apply space_exact in H1, H3. rewrite H1. destruct s1 as [|c t1]; [cbn in *; lia|].
      destruct (c =? R) eqn:Ec; [exfalso; apply N; exists t1; f_equal; lia|]. fold C0 in H2. rewrite H2. cbn [bind]. cbv zeta. rewrite H3, Z.eqb_refl. reflexivity.
    - unfold reads in H2. pose proof (dl_suffix _ _ _ _ _ _ _ _ _ HD H2) as L2. apply suffix_len in L2. pose proof (after_gap_len _ _ H1). pose proof (after_gap_len _ _ H3) as L3. cbn [length] in L3.
      destruct s as [|c0 t0]; [cbn in *; lia|]. apply space_exact in H1, H3. rewrite H1. destruct s1 as [|c t1]; [cbn in *; lia|].
      destruct (c =? R) eqn:Ec; [exfalso; apply N; exists t1; f_equal; lia|]. fold C0 in H2. rewrite H2. cbn [bind]. cbv zeta. rewrite H3.
      replace (COMMA =? R) with false by lia. change (COMMA =? COMMA) with true. cbn [negb]. rewrite IH; [reflexivity|]. cbn [length] in *. lia.
  Qed.
End Seq.
Lemma seq_exact {A C S} (k : container A C S) Lb R (item : codec A) d0 sn old s v r : dlaw (des item) -> brackets Lb R ->
  reads (seq_codec k Lb R item d0) sn old s v r <-> s = text "null" ++ r /\ v = c_get k (c_new k) \/
    exists t l, s = Lb :: t /\ elements (fun s x r => reads item sn d0 s x r) R t l r /\ v = c_get k (fold_left (c_ins k) l (c_new k)).
Proof.
  intros HD HB. assert (HR : R <> COMMA) by (unfold brackets in HB; lia). assert (HL : Lb <> 110) by (unfold brackets in HB; lia).
  unfold reads. cbn [des seq_codec]. unfold seq_des. fold C0. split.
  - destruct (is_null s) eqn:En.
    + destruct (parse_null s C0) as [r' e'] eqn:E1. intros E. injection E as <- <- ->. left. split; [now apply null_exact|reflexivity].
    + destruct s as [|c t]; [discriminate|]. destruct (c =? Lb) eqn:Ec; cbn [negb]; [|discriminate]. apply Z.eqb_eq in Ec. subst c.
      destruct (seq_loop _ _ _ _ _ _ _ _) as [[[st r1] e1]| |] eqn:E2; cbn [bind]; try discriminate. intros E. injection E as <- <- ->.
      destruct (seq_sound _ _ _ _ _ HD _ _ _ _ _ E2) as (l & Hl & ->). right. now exists t, l.
  - intros [[-> ->]|(t & l & -> & Hl & ->)]; [reflexivity|]. unfold is_null, starts. replace (Lb =? 110) with false by lia. rewrite Z.eqb_refl. cbn [negb].
    rewrite (seq_complete _ _ _ _ _ HD HR _ _ _ Hl) by lia. reflexivity.
Qed.
Lemma field_exact {K V} (kc : codec K) (vc : codec V) sn k0 v0 s k v r : dlaw (des kc) -> dlaw (des vc) ->
  reads (field_codec kc vc) sn (k0, v0) s (k, v) r <->
  exists s1 s2 s3, reads kc sn k0 s k s1 /\ after_gap s1 (COLON :: s2) /\ after_gap s2 s3 /\ s3 <> [] /\ reads vc sn v0 s3 v r.
Proof.
  intros HK HV. unfold reads. cbn [des field_codec]. unfold field_des. cbn [fst snd]. fold C0. split.
  - destruct (des kc sn k0 s C0) as [[[k1 s1] e1]| |] eqn:E1; cbn [bind]; try discriminate. destruct (parse_space s1 e1) as [s2 e2] eqn:E2.
    destruct s2 as [|c t]; [intros E; injection E as _ _ _ E; now apply C0_cerr in E|]. destruct (c =? COLON) eqn:Ec; cbn [negb]; [|intros E; injection E as _ _ _ E; now apply C0_cerr in E].
    apply Z.eqb_eq in Ec. subst c. destruct (parse_space t e2) as [s3 e3] eqn:E3. destruct s3 as [|d s3]; [intros E; injection E as _ _ _ E; now apply C0_cerr in E|].
    destruct (des vc sn v0 (d :: s3) e3) as [[[v1 s4] e4]| |] eqn:E4; cbn [bind]; try discriminate. intros E. injection E as -> -> -> ->.
    pose proof (dl_C0 _ _ _ _ _ _ _ _ HV E4) as ->. apply space_C0 in E3. destruct E3 as [-> H3]. apply space_C0 in E2. destruct E2 as [-> H2].
    exists s1, t, (d :: s3). repeat split; auto. discriminate.
  - intros (s1 & s2 & s3 & E1 & H2 & H3 & N & E4). fold C0 in E1. rewrite E1. cbn [bind]. apply space_exact in H2, H3. rewrite H2. change (COLON =? COLON) with true. cbn [negb]. rewrite H3.
    destruct s3 as [|d s3]; [congruence|]. fold C0 in E4. rewrite E4. reflexivity.
Qed.
(** ---- fixed-size arrays ---- *)
Section Fix.
  Context {A : Type} (fresh : option A) (ex : buf) (R : Z) (item : codec A) (sn : option Z).
  Hypothesis HD : dlaw (des item).
  Hypothesis HR : R <> COMMA.
  Notation I := (fun x s v r => reads item sn (match fresh with Some d0 => d0 | None => x end) s v r).
  Lemma close_exact s r : fix_close R s C0 = (r, C0) <-> s = R :: r.
  Proof.
    unfold fix_close. destruct s as [|c t]; [split; discriminate|]. destruct (c =? R) eqn:E; cbn [negb]; split; intros H.
    - injection H as ->. f_equal. lia.
    - now injection H as _ ->.
    - discriminate.
    - injection H as -> _. lia.
  Qed.
  Lemma close_C0 s e r : fix_close R s e = (r, C0) -> e = C0 /\ s = R :: r.
  Proof.
    intros E. assert (e = C0) as ->; [|split; [reflexivity|now apply close_exact]]. unfold fix_close in E. destruct s as [|c t]; [injection E as _ E; now apply C0_cerr in E|].
    destruct (negb (c =? R)); injection E as _ E; [now apply C0_cerr in E|exact E].
  Qed.
  Lemma fix_sound o : forall s l r, fix_loop (des item sn) fresh ex R o s C0 = Ok (l, r, C0) -> slots I R o s l r.
  Proof.
    induction o as [|x o IH]; intros s l r E; cbn [fix_loop] in E.
    { destruct (fix_close R s C0) as [r' e'] eqn:E1. injection E as <- <- ->. apply close_exact in E1. subst s. constructor. }
    destruct s as [|c0 t0]; [discriminate|]. destruct (parse_space (c0 :: t0) C0) as [s1 e1] eqn:E1.
    destruct s1 as [|c t1]; [injection E as _ _ E; now apply C0_cerr in E|]. destruct (c =? R) eqn:Ec.
    { destruct (fix_close R (c :: t1) e1) as [r' e'] eqn:E2. injection E as <- <- ->. apply close_C0 in E2. destruct E2 as [-> E2]. rewrite E2 in E1. apply space_exact in E1. now apply sl_end. }
    destruct (des item sn _ (c :: t1) e1) as [[[y s2] e2]| |] eqn:E2; cbn [bind] in E; try discriminate.
    destruct (parse_space s2 e2) as [s3 e3] eqn:E3. destruct s3 as [|d t3]; [injection E as _ _ E; now apply C0_cerr in E|].
    assert (N : ~ heads R (c :: t1)) by (intros (z & Ez); injection Ez as -> _; lia).
    destruct (d =? R) eqn:Ed.
    { destruct (fix_close R (d :: t3) e3) as [r' e'] eqn:E4. injection E as <- <- ->. apply close_C0 in E4. destruct E4 as [-> E4]. rewrite E4 in E3.
      apply space_C0 in E3. destruct E3 as [-> H3]. pose proof (dl_C0 _ _ _ _ _ _ _ _ HD E2) as ->. apply space_exact in E1. apply sl_last with (c :: t1) s2; auto. }
    destruct (d =? COMMA) eqn:Ec2; cbn [negb] in E; [|injection E as _ _ E; now apply C0_cerr in E]. apply Z.eqb_eq in Ec2. subst d.
    destruct (fix_loop (des item sn) fresh ex R o t3 e3) as [[[l4 r4] e4]| |] eqn:E4; cbn [bind] in E; try discriminate. injection E as <- <- ->.
    assert (e3 = C0) as ->. { pose proof (fix_loop_good (des item sn) fresh ex R (fun old s e => HD sn old s e) o t3 e3) as G. rewrite E4 in G. exact (estep_clean _ _ _ (proj2 G) eq_refl). }
    apply space_C0 in E3. destruct E3 as [-> H3]. pose proof (dl_C0 _ _ _ _ _ _ _ _ HD E2) as ->. apply space_exact in E1. apply sl_more with (c :: t1) s2 t3; auto.
  Qed.
  Lemma fix_complete o s l r : slots I R o s l r -> fix_loop (des item sn) fresh ex R o s C0 = Ok (l, r, C0).
  Proof.
    induction 1 as [r|x o s r H1|x o s s1 v s2 r H1 N H2 H3|x o s s1 v s2 s3 l r H1 N H2 H3 H4 IH]; cbn [fix_loop].
    - rewrite (proj2 (close_exact _ _) eq_refl). reflexivity.
    - destruct s as [|c0 t0]; [apply after_gap_nil in H1; discriminate|]. apply space_exact in H1. rewrite H1, Z.eqb_refl. rewrite (proj2 (close_exact _ _) eq_refl). reflexivity.
    - unfold reads in H2. pose proof (dl_suffix _ _ _ _ _ _ _ _ _ HD H2) as L2. apply suffix_len in L2. pose proof (after_gap_len _ _ H1). pose proof (after_gap_len _ _ H3) as L3. cbn [length] in L3.
      destruct s as [|c0 t0]; [cbn in *; lia|]. apply space_exact in H1, H3. rewrite H1. destruct s1 as [|c t1]; [cbn in *; lia|].
      destruct (c =? R) eqn:Ec; [exfalso; apply N; exists t1; f_equal; lia|]. fold C0 in H2. rewrite H2. cbn [bind]. rewrite H3, Z.eqb_refl. rewrite (proj2 (close_exact _ _) eq_refl). reflexivity.
    - unfold reads in H2. pose proof (dl_suffix _ _ _ _ _ _ _ _ _ HD H2) as L2. apply suffix_len in L2. pose proof (after_gap_len _ _ H1). pose proof (after_gap_len _ _ H3) as L3. cbn [length] in L3.
      destruct s as [|c0 t0]; [cbn in *; lia|]. apply space_exact in H1, H3. rewrite H1. destruct s1 as [|c t1]; [cbn in *; lia|].
      destruct (c =? R) eqn:Ec; [exfalso; apply N; exists t1; f_equal; lia|]. fold C0 in H2. rewrite H2. cbn [bind]. rewrite H3.
      replace (COMMA =? R) with false by lia. change (COMMA =? COMMA) with true. cbn [negb]. rewrite IH. reflexivity.
  Qed.
  Lemma fix_null_exact s : forall o l e, fix_null (des item sn) o s e = Ok (l, C0) -> e = C0 /\ Forall2 (fun x y => exists r, reads item sn x s y r) o l.
  Proof.
    induction o as [|x o IH]; intros l e E; cbn [fix_null] in E; [injection E as <- ->; split; [reflexivity|constructor]|].
    destruct (des item sn x s e) as [[[y r1] e1]| |] eqn:E1; cbn [bind] in E; try discriminate. destruct (fix_null (des item sn) o s e1) as [[l2 e2]| |] eqn:E2; cbn [bind] in E; try discriminate.
    injection E as <- ->. destruct (IH _ _ E2) as [-> H2]. pose proof (dl_C0 _ _ _ _ _ _ _ _ HD E1) as ->. split; [reflexivity|]. constructor; [now exists r1|exact H2].
  Qed.
  Lemma fix_null_complete s o l : Forall2 (fun x y => exists r, reads item sn x s y r) o l -> fix_null (des item sn) o s C0 = Ok (l, C0).
  Proof. induction 1 as [|x y o l (r & E) _ IH]; cbn [fix_null]; [reflexivity|]. fold C0 in E. unfold reads in E. fold C0 in E. rewrite E. cbn [bind]. rewrite IH. reflexivity. Qed.
End Fix.
Lemma fix_exact {A} fresh ex Lb R (item : codec A) sn old s v r : dlaw (des item) -> brackets Lb R ->
  fix_des fresh ex Lb R item sn old s C0 = Ok (v, r, C0) <-> s = text "null" ++ r /\ Forall2 (fun x y => exists r', reads item sn x s y r') old v \/
    exists t, s = Lb :: t /\ slots (fun x s v r => reads item sn (match fresh with Some d0 => d0 | None => x end) s v r) R old t v r.
Proof.
  intros HD HB. assert (HR : R <> COMMA) by (unfold brackets in HB; lia). assert (HL : Lb <> 110) by (unfold brackets in HB; lia).
  unfold fix_des. split.
  - destruct (is_null s) eqn:En.
    + destruct (fix_null (des item sn) old s C0) as [[l e1]| |] eqn:E1; cbn [bind]; try discriminate. destruct (parse_null s e1) as [r' e'] eqn:E2. intros E. injection E as <- <- ->.
      destruct (null_ok _ _ _ _ E2 C0_ok) as [-> Es]. destruct (fix_null_exact item sn HD _ _ _ _ E1) as [_ H]. left. split; assumption.
    + destruct s as [|c t]; [discriminate|]. destruct (c =? Lb) eqn:Ec; cbn [negb]; [|discriminate]. apply Z.eqb_eq in Ec. subst c. intros E.
      apply (fix_sound _ _ _ _ _ HD) in E. right. now exists t.
  - intros [[Es H]|(t & -> & Hl)].
    + rewrite (fix_null_complete item sn _ _ _ H). rewrite Es. reflexivity.
    + unfold is_null, starts. replace (Lb =? 110) with false by lia. rewrite Z.eqb_refl. cbn [negb]. now apply (fix_complete _ _ _ _ _ HD HR).
Qed.
