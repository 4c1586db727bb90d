From Verif Require Import Base Parser SpecJson SpecString ParserFacts Grammar1 Grammar2 Out StringS CodecLaws.

(** ================= deserializer laws ================= *)
Definition pgd (s : buf) (n : Z) (e : eptr) (p : piece) : Prop :=
  let '(r, w, n', e') := p in
  suffix r s /\ estep s e e' /\ n' = n - dist w /\ (0 <= n -> 0 <= n').

Lemma estep_uchar2 s c e : estep s e (snd (uchar2 c e)).
Proof.
  unfold uchar2. destruct ((48 <=? c) && (c <=? 57)); [apply estep_refl|].
  destruct ((97 <=? c) && (c <=? 102)); [apply estep_refl|].
  destruct ((65 <=? c) && (c <=? 70)); [apply estep_refl|]. apply estep_cerr; [discriminate|].
  pose proof (dist_pos s). lia.
Qed.

Lemma uhex_emit_good hex cur s n e : 1 <= n -> pgd s n e (uhex_emit hex cur s n e).
Proof.
  intros Hn. unfold uhex_emit, pgd. pose proof (dist_pos s) as Hd.
  assert (E : estep s e (cerr InvalidString None (dist s) e)) by (apply estep_cerr; [discriminate|lia]).
  destruct (hex <? 32).
  { destruct ((hex =? 9) || (hex =? 13) || (hex =? 10) || (hex =? 8) || (hex =? 12)).
    - repeat split; auto using estep_refl with suf; cbn; lia.
    - split; [apply suffix_refl|]. split; [apply estep_refl|]. split; [reflexivity|].
      intros _. unfold dist. rewrite firstn_length. lia. }
  destruct (hex <=? 127); [repeat split; auto using estep_refl with suf; cbn; lia|].
  destruct (hex <=? 2047).
  { destruct (n - 1 =? 0) eqn:E1; repeat split; auto using estep_refl with suf; cbn; lia. }
  destruct (n - 1 =? 0) eqn:E1; [repeat split; auto using estep_refl with suf; cbn; lia|].
  destruct (n - 2 =? 0) eqn:E2; repeat split; auto using estep_refl with suf; cbn; lia.
Qed.

Lemma pgd_weaken s s' n e e' p : suffix s' s -> estep s e e' -> pgd s' n e' p -> pgd s n e p.
Proof.
  intros Hs He. destruct p as [[[r w] n'] e2]. cbn. intros (A & B & C & D).
  split; [now apply suffix_trans with s'|]. split; [|tauto].
  eapply estep_trans; [exact He|]. eapply estep_weaken; eassumption.
Qed.
Lemma pgd_end s n e e' : estep s e e' -> pgd s n e ([], [], n, cerr UnexpectedEndFragment None 0 e').
Proof.
  intros He. cbn. split; [apply suffix_nil|]. split; [|split; lia].
  eapply estep_trans; [exact He|apply estep_end].
Qed.

Lemma uhex_good s n e : 1 <= n -> pgd s n e (uhex s n e).
Proof.
  intros Hn. unfold uhex. destruct (n =? 0) eqn:E0; [lia|].
  destruct s as [|a s1]; [apply pgd_end, estep_refl|].
  destruct (uchar2 a e) as [da e1] eqn:Ea.
  assert (H1 : forall s, estep s e e1) by (intro s; pose proof (estep_uchar2 s a e) as K; now rewrite Ea in K).
  destruct s1 as [|b s2]; [apply pgd_end, H1|].
  destruct (uchar2 b e1) as [db e2] eqn:Eb.
  assert (H2 : forall s, estep s e e2).
  { intro s. eapply estep_trans; [apply H1|]. pose proof (estep_uchar2 s b e1) as K; now rewrite Eb in K. }
  destruct s2 as [|c s3]; [apply pgd_end, H2|].
  destruct (uchar2 c e2) as [dc e3] eqn:Ec.
  assert (H3 : forall s, estep s e e3).
  { intro s. eapply estep_trans; [apply H2|]. pose proof (estep_uchar2 s c e2) as K; now rewrite Ec in K. }
  destruct s3 as [|d s4]; [apply pgd_end, H3|].
  destruct (uchar2 d e3) as [dd e4] eqn:Ed.
  assert (H4 : forall s, estep s e e4).
  { intro s. eapply estep_trans; [apply H3|]. pose proof (estep_uchar2 s d e3) as K; now rewrite Ed in K. }
  eapply pgd_weaken; [|apply H4|now apply uhex_emit_good]. auto with suf.
Qed.

Lemma xhex_good s n e : 1 <= n -> pgd s n e (xhex s n e).
Proof.
  intros Hn. unfold xhex. destruct s as [|a s1]; [apply pgd_end, estep_refl|].
  destruct (uchar2 a e) as [da e1] eqn:Ea.
  assert (H1 : forall s, estep s e e1) by (intro s; pose proof (estep_uchar2 s a e) as K; now rewrite Ea in K).
  destruct s1 as [|b s2]; [apply pgd_end, H1|].
  destruct (uchar2 b e1) as [db e2] eqn:Eb.
  cbn. split; [auto with suf|]. split; [|split; [reflexivity|lia]].
  eapply estep_trans; [apply H1|]. pose proof (estep_uchar2 (a :: b :: s2) b e1) as K; now rewrite Eb in K.
Qed.

Lemma utf8_copy_good k : forall s n e, 0 <= n -> pgd s n e (utf8_copy k s n e).
Proof.
  induction k as [|k IH]; intros s n e Hn; cbn [utf8_copy].
  { cbn. repeat split; auto using estep_refl with suf; lia. }
  destruct (n =? 0) eqn:E0.
  { cbn. repeat split; auto using estep_refl with suf; lia. }
  destruct s as [|c t]; [apply pgd_end, estep_refl|].
  specialize (IH t (n - 1) e ltac:(lia)). destruct (utf8_copy k t (n - 1) e) as [[[r w] n'] e']. cbv beta delta [pgd] iota zeta in *.
  destruct IH as (A & B & C & D). split; [auto with suf|]. split; [eapply estep_weaken; [|exact B]; auto with suf|].
  rewrite dist_cons. split; lia.
Qed.
(** at least one byte is consumed, or end is returned *)
Lemma unutf8_good c t n e : 1 <= n -> pgd (c :: t) n e (unutf8 c t n e) /\ suffix (fst (fst (fst (unutf8 c t n e)))) t.
Proof.
  intros Hn. unfold unutf8.
  destruct (Z.land c 128 =? 0).
  { cbn. repeat split; auto using estep_refl with suf; lia. }
  assert (K : forall k, pgd (c :: t) n e (utf8_copy (S k) (c :: t) n e) /\ suffix (fst (fst (fst (utf8_copy (S k) (c :: t) n e)))) t).
  { intros k. split; [apply utf8_copy_good; lia|]. cbn [utf8_copy]. destruct (n =? 0) eqn:E0; [lia|].
    pose proof (utf8_copy_good k t (n - 1) e ltac:(lia)) as G. destruct (utf8_copy k t (n - 1) e) as [[[r w] n'] e']. apply G. }
  destruct (Z.land c 224 =? 192); [apply K|]. destruct (Z.land c 240 =? 224); [apply K|].
  destruct (Z.land c 248 =? 240); [apply K|]. split; [|apply suffix_nil].
  split; [apply suffix_nil|]. split; [|split; cbn; lia]. apply estep_cerr; [discriminate|]. pose proof (dist_pos (c :: t)). lia.
Qed.

Lemma str_loop_good f : forall s n e out, (length s < f)%nat -> 0 <= n ->
  match str_loop f s n e out with
  | Ok (inl (r, e', out')) => suffix r s /\ estep s e e' /\ exists w, out' = out ++ w /\ dist w <= n
  | Ok (inr (e', out')) => estep s e e' /\ exists w, out' = out ++ w /\ dist w <= n
  | _ => False
  end.
Proof.
  induction f as [|f IH]; intros s n e out Hf Hn; [lia|]. cbn [str_loop].
  destruct s as [|c t].
  { split; [apply suffix_refl|]. split; [apply estep_refl|]. exists []. rewrite app_nil_r. cbn. auto. }
  destruct ((c =? QT) || (n =? 0)) eqn:E0.
  { split; [apply suffix_refl|]. split; [apply estep_refl|]. exists []. rewrite app_nil_r. cbn. auto. }
  assert (Hn1 : 1 <= n) by lia. cbn [length] in Hf.
  (* continuation after one piece *)
  assert (K : forall r w n' e', suffix r t -> estep (c :: t) e e' -> n' = n - dist w -> 0 <= n' ->
    match str_loop f r n' e' (out ++ w) with
    | Ok (inl (r, e', out')) => suffix r (c :: t) /\ estep (c :: t) e e' /\ exists w, out' = out ++ w /\ dist w <= n
    | Ok (inr (e', out')) => estep (c :: t) e e' /\ exists w, out' = out ++ w /\ dist w <= n
    | _ => False
    end).
  { intros r w n' e' Hr He En Hn'. pose proof (suffix_len _ _ Hr) as L.
    assert (Hr' : suffix r (c :: t)) by auto with suf.
    specialize (IH r n' e' (out ++ w) ltac:(lia) Hn').
    destruct (str_loop f r n' e' (out ++ w)) as [[[[r2 e2] out2]|[e2 out2]]| |]; [| |exact IH|exact IH].
    - destruct IH as (A & B & w2 & -> & D). split; [now apply suffix_trans with r|].
      split; [eapply estep_trans; [exact He|eapply estep_weaken; eassumption]|].
      exists (w ++ w2). rewrite app_assoc. split; [reflexivity|]. rewrite dist_app. lia.
    - destruct IH as (B & w2 & -> & D).
      split; [eapply estep_trans; [exact He|eapply estep_weaken; eassumption]|].
      exists (w ++ w2). rewrite app_assoc. split; [reflexivity|]. rewrite dist_app. lia. }
  destruct (c =? BSL).
  - destruct t as [|d t'].
    { split; [apply estep_end|]. exists []. rewrite app_nil_r. cbn. auto. }
    destruct (unescape d) as [b|].
    { apply K; auto using estep_refl with suf; cbn; lia. }
    destruct (d =? 117).
    { pose proof (uhex_good t' n e Hn1) as G. destruct (uhex t' n e) as [[[r w] n'] e'].
      cbn in G. destruct G as (A & B & C & D). apply K; auto with suf; try lia.
      eapply estep_weaken; [|exact B]. auto with suf. }
    destruct (d =? 120).
    { pose proof (xhex_good t' n e Hn1) as G. destruct (xhex t' n e) as [[[r w] n'] e'].
      cbn in G. destruct G as (A & B & C & D). apply K; auto with suf; try lia.
      eapply estep_weaken; [|exact B]. auto with suf. }
    split; [|exists []; rewrite app_nil_r; cbn; auto].
    apply estep_cerr; [discriminate|]. rewrite (dist_cons c). pose proof (dist_pos (d :: t')). lia.
  - pose proof (unutf8_good c t n e Hn1) as (G & G2). destruct (unutf8 c t n e) as [[[r w] n'] e'].
    cbn in G, G2. destruct G as (A & B & C & D). apply K; auto; lia.
Qed.

Lemma str_unser_good s n e : 0 <= n ->
  exists w r e', str_unser s n e = Ok (w, r, e') /\ suffix r s /\ estep s e e' /\ dist w <= n.
Proof.
  intros Hn. unfold str_unser. destruct s as [|c t].
  { eexists _, _, _. split; [reflexivity|]. split; [apply suffix_nil|]. split; [apply estep_end|cbn; lia]. }
  pose proof (dist_pos t) as Hd.
  destruct (c =? QT); cbn [negb].
  2:{ eexists _, _, _. split; [reflexivity|]. split; [apply suffix_nil|]. split; [|cbn; lia].
      apply estep_cerr; [discriminate|]. rewrite dist_cons. lia. }
  pose proof (str_loop_good (S (length t)) t n e [] ltac:(lia) Hn) as G.
  assert (Ht : suffix t (c :: t)) by auto with suf.
  destruct (str_loop (S (length t)) t n e []) as [[[[r2 e2] out2]|[e2 out2]]| |]; cbn [bind]; try contradiction.
  - destruct G as (A & B & w & -> & D). cbn [app].
    assert (A' : suffix r2 (c :: t)) by (now apply suffix_trans with t).
    assert (B' : estep (c :: t) e e2) by (apply (estep_weaken _ t); assumption).
    destruct r2 as [|d t1].
    { eexists _, _, _. split; [reflexivity|]. split; [apply suffix_nil|]. split; [|lia].
      eapply estep_trans; [exact B'|apply estep_end]. }
    destruct (d =? QT); cbn [negb].
    + eexists _, _, _. split; [reflexivity|]. split; [eapply suffix_trans; [|exact A']; auto with suf|]. split; [exact B'|lia].
    + eexists _, _, _. split; [reflexivity|]. split; [apply suffix_nil|]. split; [|lia].
      eapply estep_trans; [exact B'|]. apply estep_cerr; [discriminate|].
      apply suffix_dist in A'. rewrite dist_cons in A'. pose proof (dist_pos t1). lia.
  - destruct G as (B & w & -> & D). eexists _, _, _. split; [reflexivity|]. split; [apply suffix_nil|].
    split; [apply (estep_weaken _ t); assumption|cbn; lia].
Qed.

Theorem string_dlaw : dlaw string_des.
Proof.
  intros sn old s e. unfold string_des. destruct (is_null s).
  { destruct (null_good s) as (r & o & A & B1 & B2 & _). rewrite A. split; [exact B1|now apply estep_app]. }
  destruct (str_unser_good s INT_MAX e ltac:(unfold INT_MAX; lia)) as (w & r & e' & -> & A & B & _). now split.
Qed.
Theorem string_dsafe : forall sn old s e, string_des sn old s e <> UB.
Proof.
  intros sn old s e. unfold string_des. destruct (is_null s); [destruct (parse_null s e); discriminate|].
  destruct (str_unser_good s INT_MAX e ltac:(unfold INT_MAX; lia)) as (w & r & e' & -> & _). discriminate.
Qed.

(** C23 *)
Theorem chars_total N sn old s e : exists w r e', (length w <= N)%nat /\
  chars_des N sn old s e = Ok (w ++ repeat 0 (N - length w), r, e') /\ suffix r s /\ estep s e e'.
Proof.
  unfold chars_des. destruct (is_null s).
  { destruct (null_good s) as (r & o & A & B1 & B2 & _). rewrite A. exists [], r, (app_err e o).
    cbn [length app]. rewrite Nat.sub_0_r. split; [lia|]. split; [reflexivity|]. split; [exact B1|now apply estep_app]. }
  destruct (str_unser_good s (Z.of_nat N) e ltac:(lia)) as (w & r & e' & -> & A & B & C). cbn [bind].
  unfold dist in C. exists w, r, e'. split; [lia|]. destruct (Nat.ltb_spec N (length w)); [lia|]. auto.
Qed.
Theorem chars_dlaw N : dlaw (chars_des N).
Proof. intros sn old s e. destruct (chars_total N sn old s e) as (w & r & e' & _ & -> & A & B). now split. Qed.

(** ================= chunks ================= *)
(** one loop iteration turns the literal chunk [c] into the bytes [w] *)
Definition dchunk (c w : buf) : Prop :=
  c <> [] /\ w <> [] /\
  forall f r n e out, dist w <= n -> str_loop (S f) (c ++ r) n e out = str_loop f r (n - dist w) e (out ++ w).
Inductive dchunks : buf -> buf -> Prop :=
| dc_nil : dchunks [] []
| dc_cons c w l m : dchunk c w -> dchunks l m -> dchunks (c ++ l) (w ++ m).

Lemma dchunks_loop l m : dchunks l m -> forall f r n e out, (length l < f)%nat -> dist m <= n ->
  str_loop f (l ++ QT :: r) n e out = Ok (inl (QT :: r, e, out ++ m)).
Proof.
  induction 1 as [|c w l m (Hc & Hw & Hst) Hl IH]; intros f r n e out Hf Hn.
  - destruct f; [lia|]. cbn. now rewrite app_nil_r.
  - destruct f; [lia|]. rewrite <- app_assoc. rewrite dist_app in Hn. pose proof (dist_pos m).
    rewrite Hst by lia. rewrite IH; [now rewrite app_assoc| |lia].
    rewrite app_length in Hf. destruct c; [congruence|cbn in Hf; lia].
Qed.
Lemma dchunks_unser l m r n e : dchunks l m -> dist m <= n -> str_unser ((QT :: l ++ [QT]) ++ r) n e = Ok (m, r, e).
Proof.
  intros H Hn. unfold str_unser. cbn [app]. change (QT =? QT) with true. cbn [negb].
  rewrite <- app_assoc. cbn [app].
  rewrite (dchunks_loop l m H); [reflexivity| |exact Hn]. rewrite app_length. cbn. lia.
Qed.

Lemma dist_nonempty w : w <> [] -> 1 <= dist w.
Proof. destruct w; [congruence|]. rewrite dist_cons. pose proof (dist_pos w). lia. Qed.

Lemma land128 c : 0 <= c < 128 -> Z.land c 128 = 0.
Proof.
  intros H. assert (K : (Z.land c 128 =? 0) || (128 <=? c) = true).
  { apply (byte_sweep (fun c => (Z.land c 128 =? 0) || (128 <=? c))); [vm_compute; reflexivity|lia]. }
  lia.
Qed.

Lemma dchunk_raw c : 0 <= c < 128 -> c <> QT -> c <> BSL -> dchunk [c] [c].
Proof.
  intros H1 H2 H3. repeat split; try discriminate. intros f r n e out Hn. cbn in Hn.
  cbn [app str_loop]. destruct ((c =? QT) || (n =? 0)) eqn:E; [lia|]. destruct (c =? BSL) eqn:E2; [lia|].
  unfold unutf8. rewrite land128 by exact H1. reflexivity.
Qed.
Lemma dchunk_esc d b : unescape d = Some b -> dchunk [BSL; d] [b].
Proof.
  intros H. repeat split; try discriminate. intros f r n e out Hn. cbn in Hn.
  cbn [app str_loop]. change (BSL =? QT) with false. change (BSL =? BSL) with true. cbn [orb].
  destruct (n =? 0) eqn:E; [lia|]. rewrite H. reflexivity.
Qed.
Lemma utf8_copy_app l : forall k r n e, length l = k -> dist l <= n -> utf8_copy k (l ++ r) n e = (r, l, n - dist l, e).
Proof.
  induction l as [|c l IH]; intros k r n e <- Hn; cbn [length utf8_copy app].
  - rewrite dist_nil. repeat f_equal. lia.
  - rewrite dist_cons in *. pose proof (dist_pos l). destruct (n =? 0) eqn:E; [lia|].
    rewrite IH by (reflexivity || lia). replace (n - 1 - dist l) with (n - (1 + dist l)) by lia. reflexivity.
Qed.
Lemma dchunk_multi c k l : wlead c k -> (k <= 3)%nat -> length l = k -> dchunk (c :: l) (c :: l).
Proof.
  intros Hl Hk Hlen. repeat split; try discriminate. intros f r n e out Hn.
  pose proof (dist_pos l). rewrite dist_cons in Hn.
  assert (Hc : 192 <= c <= 247) by (destruct Hl; lia).
  cbn [app str_loop]. destruct ((c =? QT) || (n =? 0)) eqn:E; [lia|]. destruct (c =? BSL) eqn:E2; [lia|].
  assert (Hu : unutf8 c (l ++ r) n e = (r, c :: l, n - dist (c :: l), e)).
  { assert (S1 : utf8_copy (S k) (c :: l ++ r) n e = (r, c :: l, n - dist (c :: l), e)).
    { apply (utf8_copy_app (c :: l)); [cbn; lia|rewrite dist_cons; lia]. }
    unfold unutf8.
    assert (K : (if Z.land c 128 =? 0 then 0 else if Z.land c 224 =? 192 then 2 else if Z.land c 240 =? 224 then 3
            else if Z.land c 248 =? 240 then 4 else 5) = (if c <? 128 then 0 else if c <? 192 then 5 else if c <? 224 then 2 else if c <? 240 then 3 else if c <? 248 then 4 else 5)).
    { assert (K : ((if Z.land c 128 =? 0 then 0 else if Z.land c 224 =? 192 then 2 else if Z.land c 240 =? 224 then 3
            else if Z.land c 248 =? 240 then 4 else 5) =? (if c <? 128 then 0 else if c <? 192 then 5 else if c <? 224 then 2 else if c <? 240 then 3 else if c <? 248 then 4 else 5)) = true).
      { apply (byte_sweep (fun c => (if Z.land c 128 =? 0 then 0 else if Z.land c 224 =? 192 then 2 else if Z.land c 240 =? 224 then 3
            else if Z.land c 248 =? 240 then 4 else 5) =? (if c <? 128 then 0 else if c <? 192 then 5 else if c <? 224 then 2 else if c <? 240 then 3 else if c <? 248 then 4 else 5))); [vm_compute; reflexivity|lia]. }
      lia. }
    assert (Hk2 : Z.of_nat (S k) = if c <? 128 then 0 else if c <? 192 then 5 else if c <? 224 then 2 else if c <? 240 then 3 else if c <? 248 then 4 else 5).
    { destruct Hl; destruct (Z.ltb_spec c 128), (Z.ltb_spec c 192), (Z.ltb_spec c 224), (Z.ltb_spec c 240), (Z.ltb_spec c 248); lia. }
    rewrite <- Hk2 in K. clear Hk2.
    destruct (Z.land c 128 =? 0); [lia|].
    destruct (Z.land c 224 =? 192); [replace 2%nat with (S k) by lia; exact S1|].
    destruct (Z.land c 240 =? 224); [replace 3%nat with (S k) by lia; exact S1|].
    destruct (Z.land c 248 =? 240); [replace 4%nat with (S k) by lia; exact S1|]. lia. }
  rewrite Hu. reflexivity.
Qed.

Lemma uchar2_hexv a e : s_hex a -> uchar2 a e = (hexv a, e).
Proof.
  intros H. unfold uchar2, hexv, s_hex in *.
  destruct ((48 <=? a) && (a <=? 57)) eqn:E1; [destruct (Z.leb_spec a 57); [reflexivity|lia]|].
  destruct ((97 <=? a) && (a <=? 102)) eqn:E2.
  { destruct (Z.leb_spec a 57); [lia|]. destruct (Z.leb_spec a 70); [lia|]. f_equal. lia. }
  destruct ((65 <=? a) && (a <=? 70)) eqn:E3; [|lia].
  destruct (Z.leb_spec a 57); [lia|]. destruct (Z.leb_spec a 70); [|lia]. f_equal. lia.
Qed.
Lemma hexdigit_hex d : 0 <= d < 16 -> s_hex (hexdigit d) /\ hexv (hexdigit d) = d.
Proof. intros H. unfold hexdigit, s_hex, hexv. destruct (Z.ltb_spec d 10); split; try lia.
  - destruct (Z.leb_spec (48 + d) 57); lia.
  - destruct (Z.leb_spec (87 + d) 57); [lia|]. destruct (Z.leb_spec (87 + d) 70); lia. Qed.
Lemma dchunk_x a b : s_hex a -> s_hex b -> dchunk [BSL; 120; a; b] [hexv a * 16 + hexv b].
Proof.
  intros Ha Hb. repeat split; try discriminate. intros f r n e out Hn. cbn in Hn.
  cbn [app str_loop]. change (BSL =? QT) with false. change (BSL =? BSL) with true. cbn [orb].
  destruct (n =? 0) eqn:E; [lia|]. change (unescape 120) with (@None Z). change (120 =? 117) with false. change (120 =? 120) with true.
  cbv iota. unfold xhex. rewrite !uchar2_hexv by assumption. reflexivity.
Qed.
Lemma lor_bits : (forall x, 0 <= x < 32 -> Z.lor 192 x = 192 + x) /\ (forall x, 0 <= x < 16 -> Z.lor 224 x = 224 + x) /\
  (forall x, 0 <= x < 256 -> Z.lor 128 (Z.land x 63) = 128 + x mod 64).
Proof.
  repeat split; intros x Hx.
  - assert (K : (Z.lor 192 x =? 192 + x) || (32 <=? x) = true) by (apply (byte_sweep (fun x => (Z.lor 192 x =? 192 + x) || (32 <=? x))); [vm_compute; reflexivity|lia]). lia.
  - assert (K : (Z.lor 224 x =? 224 + x) || (16 <=? x) = true) by (apply (byte_sweep (fun x => (Z.lor 224 x =? 224 + x) || (16 <=? x))); [vm_compute; reflexivity|lia]). lia.
  - assert (K : (Z.lor 128 (Z.land x 63) =? 128 + x mod 64) = true) by (apply (byte_sweep (fun x => Z.lor 128 (Z.land x 63) =? 128 + x mod 64)); [vm_compute; reflexivity|lia]). lia.
Qed.
Lemma hexv_range a : s_hex a -> 0 <= hexv a < 16.
Proof. unfold s_hex, hexv. intros H. destruct (Z.leb_spec a 57); [lia|]. destruct (Z.leb_spec a 70); lia. Qed.

Lemma mod256_64 x : (x mod 256) mod 64 = x mod 64.
Proof. pose proof (Z.div_mod x 256 ltac:(lia)). pose proof (Z.div_mod (x mod 256) 64 ltac:(lia)).
  pose proof (Z.div_mod x 64 ltac:(lia)). pose proof (Z.mod_pos_bound x 64 ltac:(lia)). pose proof (Z.mod_pos_bound (x mod 256) 64 ltac:(lia)). lia. Qed.

Lemma utf8_encode_nonempty cp : utf8_encode cp <> [].
Proof. unfold utf8_encode. destruct (cp <? 128), (cp <? 2048), (cp <? 65536); discriminate. Qed.

Lemma uhex_emit_encode hex cur s n e : 0 <= hex < 65536 -> (32 <= hex \/ short_ctl hex) -> dist (utf8_encode hex) <= n ->
  uhex_emit hex cur s n e = (s, utf8_encode hex, n - dist (utf8_encode hex), e).
Proof.
  intros Hr Hd. unfold uhex_emit, utf8_encode, short_ctl in *. destruct lor_bits as (L1 & L2 & L3).
  destruct (Z.ltb_spec hex 32).
  { destruct ((hex =? 9) || (hex =? 13) || (hex =? 10) || (hex =? 8) || (hex =? 12)) eqn:E; [|lia].
    intros Hn. destruct (Z.ltb_spec hex 128); [reflexivity|lia]. }
  destruct (Z.leb_spec hex 127); destruct (Z.ltb_spec hex 128); try lia; [reflexivity|].
  destruct (Z.leb_spec hex 2047); destruct (Z.ltb_spec hex 2048); try lia.
  { intros Hn. cbn in Hn. destruct (n - 1 =? 0) eqn:E; [lia|].
    pose proof (Z.div_lt_upper_bound hex 64 32 ltac:(lia) ltac:(lia)). pose proof (Z.div_pos hex 64 ltac:(lia) ltac:(lia)).
    pose proof (Z.mod_pos_bound hex 256 ltac:(lia)).
    rewrite (Z.mod_small (hex / 64) 256), L1, L3, mod256_64 by lia. reflexivity. }
  destruct (Z.ltb_spec hex 65536); [|lia].
  intros Hn. cbn in Hn. destruct (n - 1 =? 0) eqn:E; [lia|]. destruct (n - 2 =? 0) eqn:E2; [lia|].
  pose proof (Z.div_lt_upper_bound hex 4096 16 ltac:(lia) ltac:(lia)). pose proof (Z.div_pos hex 4096 ltac:(lia) ltac:(lia)).
  pose proof (Z.mod_pos_bound hex 256 ltac:(lia)). pose proof (Z.mod_pos_bound (hex / 64) 256 ltac:(lia)).
  rewrite (Z.mod_small (hex / 4096) 256), L2, !L3, !mod256_64 by lia. reflexivity.
Qed.

Lemma dchunk_u a b c d : s_hex a -> s_hex b -> s_hex c -> s_hex d ->
  32 <= hex4 a b c d \/ short_ctl (hex4 a b c d) -> dchunk [BSL; 117; a; b; c; d] (utf8_encode (hex4 a b c d)).
Proof.
  intros Ha Hb Hc Hd Hx. split; [discriminate|]. split; [apply utf8_encode_nonempty|]. intros f r n e out Hn.
  pose proof (dist_nonempty _ (utf8_encode_nonempty (hex4 a b c d))).
  cbn [app str_loop]. change (BSL =? QT) with false. change (BSL =? BSL) with true. cbn [orb].
  destruct (n =? 0) eqn:E; [lia|]. change (unescape 117) with (@None Z). change (117 =? 117) with true. cbv iota.
  unfold uhex. rewrite E, !uchar2_hexv by assumption.
  replace (hexv a * 4096 + hexv b * 256 + hexv c * 16 + hexv d) with (hex4 a b c d) by (unfold hex4; lia).
  rewrite uhex_emit_encode; [reflexivity| |exact Hx|exact Hn].
  unfold hex4. pose proof (hexv_range a Ha). pose proof (hexv_range b Hb). pose proof (hexv_range c Hc). pose proof (hexv_range d Hd). lia.
Qed.

(** utf8_encode as a shaped sequence *)
Lemma utf8_encode_shape cp : scalar cp -> 128 <= cp -> exists c k l, utf8_encode cp = c :: l /\ wlead c k /\ (k <= 3)%nat /\
  length l = k /\ Forall s_cont l.
Proof.
  intros [Hs _] H. unfold utf8_encode. destruct (Z.ltb_spec cp 128); [lia|].
  assert (M : forall x, s_cont (128 + x mod 64)) by (intro x; unfold s_cont; pose proof (Z.mod_pos_bound x 64); lia).
  destruct (Z.ltb_spec cp 2048).
  { exists (192 + cp / 64), 1%nat. eexists. split; [reflexivity|]. repeat split; auto; try lia.
    apply wl2. pose proof (Z.div_le_lower_bound cp 64 2). pose proof (Z.div_lt_upper_bound cp 64 32). lia. }
  destruct (Z.ltb_spec cp 65536).
  { exists (224 + cp / 4096), 2%nat. eexists. split; [reflexivity|]. repeat split; auto; try lia.
    apply wl3. pose proof (Z.div_pos cp 4096). pose proof (Z.div_lt_upper_bound cp 4096 16). lia. }
  exists (240 + cp / 262144), 3%nat. eexists. split; [reflexivity|]. repeat split; auto; try lia.
  apply wl4. pose proof (Z.div_pos cp 262144). pose proof (Z.div_lt_upper_bound cp 262144 5). lia.
Qed.

Lemma esc_unescape c t : esc_mean c t -> unescape c = Some t.
Proof. destruct 1 as [c [->|[->| ->]]| | | | |]; reflexivity. Qed.

Lemma cmean_dchunk c t : cmean_bmp c t -> dchunk c t.
Proof.
  destruct 1 as [cp Hs H1 H2 H3|c t H|a b c d Ha Hb Hc Hd Hs Hx].
  - destruct (Z_lt_le_dec cp 128) as [L|L].
    + unfold utf8_encode. destruct (Z.ltb_spec cp 128); [|lia]. apply dchunk_raw; lia.
    + destruct (utf8_encode_shape cp Hs L) as (c & k & l & -> & A & B & C & _). now apply dchunk_multi with k.
  - now apply dchunk_esc, esc_unescape.
  - now apply dchunk_u.
Qed.
Lemma lmean_dchunks l m : lmean_bmp l m -> dchunks l m.
Proof. induction 1; constructor; auto using cmean_dchunk. Qed.

(** C22 *)
Theorem string_read_mean sn old lit t r e : smean_bmp lit t -> dist t <= INT_MAX ->
  string_des sn old (lit ++ r) e = Ok (t, r, e).
Proof.
  intros H Hn. destruct H as [l m Hl]. unfold string_des.
  change (is_null ((QT :: l ++ [QT]) ++ r)) with false. cbv iota.
  apply dchunks_unser; [now apply lmean_dchunks|exact Hn].
Qed.

(** ================= serializer ================= *)
Definition str_char (c : Z) : Prop := 32 <= c < 248 \/ 254 <= c <= 255 \/ short_ctl c.
Definition str_dom (s : buf) : Prop := Forall str_char s /\ dist s <= INT_MAX.

Lemma str_ser_multi nt n c k l t : wlead c k -> length l = k -> Forall s_cont l ->
  str_ser_loop nt (S n) (c :: l ++ t) = (let* r := str_ser_loop nt n t in Ok ((c :: l) ++ r)).
Proof.
  intros Hl Hlen Hc. assert (Hr : 192 <= c <= 253) by (destruct Hl; lia).
  cbn [str_ser_loop]. destruct (nt && (c =? 0)) eqn:E1; [lia|].
  destruct ((c <? 32) || (c =? QT) || (c =? BSL) || (c =? SLASH)) eqn:E2; [lia|].
  destruct (c <? 127) eqn:E3; [lia|].
  destruct (wlead_range c k Hl) as (_ & Hk). unfold is_utf8, parse_utf8. rewrite Hk.
  rewrite (utf8_part_app l k t (Some no_error) Hlen Hc). cbn [has_err no_err_yet is_err no_error code negb].
  change (c :: l ++ t) with ((c :: l) ++ t). unfold range. rewrite app_length.
  replace (length (c :: l) + length t - length t)%nat with (length (c :: l)) by lia.
  rewrite firstn_app, firstn_all, Nat.sub_diag, firstn_O, app_nil_r. reflexivity.
Qed.

Lemma str_ser_esc nt n c t : (c < 32 \/ c = QT \/ c = BSL \/ c = SLASH) -> (nt = true -> c <> 0) ->
  str_ser_loop nt (S n) (c :: t) = (let* r := str_ser_loop nt n t in Ok (escape_char c ++ r)).
Proof.
  intros H Hnt. cbn [str_ser_loop]. destruct (nt && (c =? 0)) eqn:E1; [destruct nt; [specialize (Hnt eq_refl)|]; cbn in E1; lia|].
  destruct ((c <? 32) || (c =? QT) || (c =? BSL) || (c =? SLASH)) eqn:E2; [reflexivity|lia].
Qed.
Lemma str_ser_plain nt n c t : 32 <= c < 128 -> c <> QT -> c <> BSL -> c <> SLASH ->
  str_ser_loop nt (S n) (c :: t) = (let* r := str_ser_loop nt n t in Ok (c :: r)).
Proof.
  intros H H1 H2 H3. cbn [str_ser_loop]. destruct (nt && (c =? 0)) eqn:E1; [lia|].
  destruct ((c <? 32) || (c =? QT) || (c =? BSL) || (c =? SLASH)) eqn:E2; [lia|].
  destruct (c <? 127) eqn:E3; [reflexivity|]. assert (c = 127) as -> by lia.
  change (is_utf8 (127 :: t)) with true. cbv iota. unfold parse_utf8. change (utf8_conts 127) with (Some 0%nat).
  cbn [utf8_part]. cbn [has_err no_err_yet is_err no_error code negb].
  unfold range. cbn [length]. replace (S (length t) - length t)%nat with 1%nat by lia. reflexivity.
Qed.

(** every step of the serializer loop *)
Inductive sstep (s : buf) : buf -> buf -> buf -> Prop :=
| ss_esc c t : s = c :: t -> (c < 32 \/ c = QT \/ c = BSL \/ c = SLASH) -> sstep s [c] (escape_char c) t
| ss_plain c t : s = c :: t -> 32 <= c < 128 -> c <> QT -> c <> BSL -> c <> SLASH -> sstep s [c] [c] t
| ss_multi c k l t : s = (c :: l) ++ t -> wlead c k -> length l = k -> Forall s_cont l -> sstep s (c :: l) (c :: l) t
| ss_hex c t : s = c :: t -> 128 <= c <= 255 -> sstep s [c] (serialize_hex c) t.

Lemma str_ser_step nt n s : bytes s -> s <> [] -> (nt = true -> ~ heads 0 s) ->
  exists w ch t, sstep s w ch t /\ s = w ++ t /\
  str_ser_loop nt (S n) s = (let* r := str_ser_loop nt n t in Ok (ch ++ r)).
Proof.
  intros Hb Hs Hnt. destruct s as [|c t]; [congruence|].
  assert (Hc : 0 <= c <= 255) by (inversion Hb; assumption).
  assert (Hz : nt = true -> c <> 0) by (intros E ->; apply (Hnt E); now exists t).
  destruct ((c <? 32) || (c =? QT) || (c =? BSL) || (c =? SLASH)) eqn:E2.
  { exists [c], (escape_char c), t. split; [apply (ss_esc _ c t); [reflexivity|lia]|]. split; [reflexivity|].
    apply str_ser_esc; [lia|exact Hz]. }
  destruct (c <? 128) eqn:E3.
  { exists [c], [c], t. split; [apply (ss_plain _ c t); lia || reflexivity|]. split; [reflexivity|].
    apply str_ser_plain; lia. }
  assert (Hx : exists w ch t', sstep (c :: t) w ch t' /\ c :: t = w ++ t' /\
     (if is_utf8 (c :: t) then
        let '(end8, e) := parse_utf8 c t (Some no_error) in
        if has_err e then
          let* r := str_ser_loop nt n t in Ok (serialize_hex c ++ r)
        else
          let* r := str_ser_loop nt n end8 in Ok (range (c :: t) end8 ++ r)
      else let* r := str_ser_loop nt n t in Ok (serialize_hex c ++ r)) = (let* r := str_ser_loop nt n t' in Ok (ch ++ r))).
  { assert (Hh : exists w ch t', sstep (c :: t) w ch t' /\ c :: t = w ++ t' /\
       (let* r := str_ser_loop nt n t in Ok (serialize_hex c ++ r)) = (let* r := str_ser_loop nt n t' in Ok (ch ++ r))).
    { exists [c], (serialize_hex c), t. split; [apply (ss_hex _ c t); lia || reflexivity|]. split; reflexivity. }
    unfold is_utf8, parse_utf8. rewrite utf8_conts_class by exact Hc.
    destruct (lead_class c) as [k|] eqn:Ek; [|exact Hh].
    destruct (utf8_part_good k t) as (r & o & A & B). rewrite A.
    destruct o as [j|].
    - cbn [app_err is_err no_error code]. destruct B as (_ & (Bj & _) & _).
      unfold has_err, no_err_yet. rewrite Bj. cbn [negb]. exact Hh.
    - cbn [app_err has_err no_err_yet is_err no_error code negb]. specialize (A (Some no_error)). cbn [app_err] in A.
      apply utf8_part_inv in A; [|inversion Hb; assumption]. destruct A as (l & -> & Hl & Hcont).
      exists (c :: l), (c :: l), r. split; [|split; [reflexivity|]].
      + apply (ss_multi _ c k l r); auto. rewrite <- utf8_conts_class in Ek by exact Hc.
        rewrite utf8_conts_class in Ek by exact Hc. unfold lead_class in Ek.
        repeat match type of Ek with (if ?b then _ else _) = _ => destruct b eqn:? end; try discriminate;
          injection Ek as <-; constructor; lia.
      + change (c :: l ++ r) with ((c :: l) ++ r). unfold range. rewrite app_length.
        replace (length (c :: l) + length r - length r)%nat with (length (c :: l)) by lia.
        rewrite firstn_app, firstn_all, Nat.sub_diag, firstn_O, app_nil_r. reflexivity. }
  destruct Hx as (w & ch & t' & A & B & C). exists w, ch, t'. split; [exact A|]. split; [exact B|].
  rewrite <- C. cbn [str_ser_loop]. destruct (nt && (c =? 0)) eqn:E1; [destruct nt; [specialize (Hz eq_refl)|]; cbn in E1; lia|].
  rewrite E2. destruct (c <? 127) eqn:E4; [lia|]. reflexivity.
Qed.
Lemma sstep_len s w ch t : sstep s w ch t -> (length t < length s)%nat.
Proof. destruct 1; subst; cbn; rewrite ?app_length; lia. Qed.

(** run of the loop: the consumed prefix and its chunks *)
Inductive sruns : buf -> buf -> Prop :=
| sr_nil : sruns [] []
| sr_cons w ch p l s t : sstep s w ch t -> sruns p l -> sruns (w ++ p) (ch ++ l).
Lemma str_ser_runs nt : forall n s, (length s < n)%nat -> bytes s ->
  exists p q l, s = p ++ q /\ (q = [] \/ (nt = true /\ heads 0 q)) /\ sruns p l /\ str_ser_loop nt n s = Ok l
  /\ (nt = true -> ~ In 0 p).
Proof.
  induction n as [|n IH]; intros s Hn Hb; [lia|].
  destruct s as [|c s'] eqn:Es.
  { exists [], [], []. split; [reflexivity|]. split; [now left|]. split; [constructor|]. split; [reflexivity|]. intros _ []. }
  rewrite <- Es in *. assert (Hne : s <> []) by (rewrite Es; discriminate).
  destruct (nt && (c =? 0)) eqn:Ez.
  { assert (nt = true /\ c = 0) as (-> & ->) by (destruct nt; cbn in Ez; split; lia || congruence).
    exists [], s, []. split; [reflexivity|]. split; [right; split; [reflexivity|]; exists s'; exact Es|]. split; [constructor|].
    split; [|intros _ []]. rewrite Es. reflexivity. }
  assert (Hnh : nt = true -> ~ heads 0 s).
  { intros -> (t & E). rewrite Es in E. injection E as -> _. cbn in Ez. discriminate. }
  destruct (str_ser_step nt n s Hb Hne Hnh) as (w & ch & t & A & B & C).
  pose proof (sstep_len _ _ _ _ A) as L.
  assert (Hbt : bytes t) by (rewrite B in Hb; apply Forall_app in Hb; tauto).
  destruct (IH t ltac:(lia) Hbt) as (p & q & l & D1 & D2 & D3 & D4 & D5).
  exists (w ++ p), q, (ch ++ l). split; [rewrite B, D1, app_assoc; reflexivity|]. split; [exact D2|].
  split; [now apply sr_cons with s t|]. split; [rewrite C, D4; reflexivity|].
  intros E Hin. apply in_app_or in Hin. destruct Hin as [Hin|Hin]; [|now apply (D5 E)].
  destruct A as [c0 t0 E0 Hc0|c0 t0 E0 Hc0|c0 k l0 t0 E0 Hl0 Hk Hcont|c0 t0 E0 Hc0].
  - destruct Hin as [->|[]]. apply (Hnh E). now exists t0.
  - destruct Hin as [->|[]]. lia.
  - destruct Hin as [->|Hin]; [inversion Hl0; lia|]. rewrite Forall_forall in Hcont. specialize (Hcont 0 Hin). unfold s_cont in Hcont. lia.
  - destruct Hin as [->|[]]. lia.
Qed.

Lemma escape_dchunk c : 0 <= c -> c < 32 \/ c = QT \/ c = BSL \/ c = SLASH -> str_char c -> dchunk (escape_char c) [c].
Proof.
  intros H0 H Hd. unfold str_char, short_ctl in Hd.
  assert (K : c = QT \/ c = BSL \/ c = SLASH \/ c = 8 \/ c = 9 \/ c = 10 \/ c = 12 \/ c = 13) by lia.
  destruct K as [->|[->|[->|[->|[->|[->|[->| ->]]]]]]]; apply dchunk_esc; reflexivity.
Qed.
Lemma hex_dchunk c : 128 <= c <= 255 -> dchunk (serialize_hex c) [c].
Proof.
  intros H. unfold serialize_hex. destruct (Z.ltb_spec c 128); [lia|].
  pose proof (Z.div_mod c 16 ltac:(lia)). pose proof (Z.mod_pos_bound c 16 ltac:(lia)).
  assert (0 <= c / 16 < 16) by (pose proof (Z.div_pos c 16); pose proof (Z.div_lt_upper_bound c 16 16); lia).
  destruct (hexdigit_hex (c / 16)) as (A1 & A2); [lia|]. destruct (hexdigit_hex (c mod 16)) as (B1 & B2); [lia|].
  pose proof (dchunk_x _ _ A1 B1) as K. rewrite A2, B2 in K. replace (c / 16 * 16 + c mod 16) with c in K by lia. exact K.
Qed.
Lemma sruns_dchunks p l : sruns p l -> bytes p -> Forall str_char p -> dchunks l p.
Proof.
  induction 1 as [|w ch p l s t A Hr IH]; intros Hb Hd; [constructor|].
  apply Forall_app in Hb. apply Forall_app in Hd. destruct Hb as (Hb1 & Hb2), Hd as (Hd1 & Hd2).
  constructor; [|auto]. destruct A as [c t0 E Hc|c t0 E Hc H1 H2 H3|c k l0 t0 E Hl Hk Hcont|c t0 E Hc].
  - inversion Hb1; subst. inversion Hd1; subst. apply escape_dchunk; auto. lia.
  - apply dchunk_raw; lia.
  - apply dchunk_multi with k; auto. inversion Hd1 as [|? ? Hc _]; subst. unfold str_char, short_ctl in Hc.
    destruct Hl; lia.
  - now apply hex_dchunk.
Qed.

Lemma str_dom_bytes s : Forall str_char s -> bytes s.
Proof. apply Forall_impl. unfold str_char, short_ctl. intros; lia. Qed.

Theorem string_rt : rt string_codec str_dom.
Proof.
  intros s (Hd & Hn). pose proof (str_dom_bytes s Hd) as Hb.
  destruct (str_ser_runs false (S (length s)) s ltac:(lia) Hb) as (p & q & l & E1 & E2 & E3 & E4 & _).
  assert (q = []) as -> by (destruct E2 as [->|[? _]]; [reflexivity|discriminate]). rewrite app_nil_r in E1. subst p.
  exists (wr (QT :: l ++ [QT])). split; [cbn [ser string_codec]; unfold str_ser; rewrite E4; reflexivity|].
  rewrite flat_wr. split; [exists QT, (l ++ [QT]); split; [reflexivity|unfold vstart; lia]|].
  intros sn old r e Hr _. cbn [des string_codec]. unfold string_des.
  change (is_null ((QT :: l ++ [QT]) ++ r)) with false. cbv iota.
  apply dchunks_unser; [|exact Hn]. now apply sruns_dchunks.
Qed.

(** char[N] holding [t], padded with NULs *)
Definition chars_dom (N : nat) (v : buf) : Prop :=
  exists t, (length t <= N)%nat /\ Forall str_char t /\ v = t ++ repeat 0 (N - length t).

Lemma nul_split t k p q : ~ In 0 t -> ~ In 0 p -> t ++ repeat 0 k = p ++ q -> (q = [] \/ heads 0 q) -> p = t.
Proof.
  revert p. induction t as [|c t IH]; intros p Ht Hp E Hq.
  - cbn in E. destruct p as [|d p]; [reflexivity|]. exfalso. apply Hp. destruct k; [discriminate|]. cbn in E.
    injection E as <- _. now left.
  - destruct p as [|d p].
    + exfalso. cbn in E. subst q. destruct Hq as [Hq|(z & Hq)]; [discriminate|]. injection Hq as -> _. apply Ht. now left.
    + cbn in E. injection E as -> E. f_equal. apply IH; auto; intro; [apply Ht|apply Hp]; now right.
Qed.

Theorem chars_rt N : Z.of_nat N <= INT_MAX -> rt (chars_codec N) (chars_dom N).
Proof.
  intros HN v (t & Ht & Hd & ->). pose proof (str_dom_bytes t Hd) as Hb.
  assert (Hz : ~ In 0 t) by (intro K; rewrite Forall_forall in Hd; specialize (Hd 0 K); unfold str_char, short_ctl in Hd; lia).
  set (v := t ++ repeat 0 (N - length t)).
  assert (Hbv : bytes v).
  { apply Forall_app. split; [exact Hb|]. apply Forall_forall. intros x Hx. apply repeat_spec in Hx. lia. }
  destruct (str_ser_runs true (S (length v)) v ltac:(lia) Hbv) as (p & q & l & E1 & E2 & E3 & E4 & E5).
  assert (p = t) as ->.
  { apply nul_split with (N - length t)%nat q; auto. tauto. }
  exists (wr (QT :: l ++ [QT])). split; [cbn [ser chars_codec]; unfold chars_ser, str_ser; rewrite E4; reflexivity|].
  rewrite flat_wr. split; [exists QT, (l ++ [QT]); split; [reflexivity|unfold vstart; lia]|].
  intros sn old r e Hr _. cbn [des chars_codec]. unfold chars_des.
  change (is_null ((QT :: l ++ [QT]) ++ r)) with false. cbv iota.
  rewrite (dchunks_unser l t r (Z.of_nat N) e); [|now apply sruns_dchunks|unfold dist; lia].
  cbn [bind]. destruct (Nat.ltb_spec N (length t)); [lia|]. reflexivity.
Qed.

(** ---- C20 ---- *)
Lemma escape_cmean c : 0 <= c -> c < 32 \/ c = QT \/ c = BSL \/ c = SLASH -> cmean (escape_char c) [c] /\ rchar (escape_char c).
Proof.
  intros H0 H. unfold escape_char.
  assert (E3 : forall c, c = 34 \/ c = 92 \/ c = 47 -> cmean [BSL; c] [c] /\ rchar [BSL; c]).
  { intros x Hx. split; [apply cm_esc; now constructor|apply rc_esc; unfold s_esc; tauto]. }
  destruct ((c =? QT) || (c =? BSL) || (c =? SLASH)) eqn:E; [apply E3; lia|].
  destruct (Z.eqb_spec c 9) as [->|]; [split; [apply cm_esc; constructor|apply rc_esc; unfold s_esc; tauto]|].
  destruct (Z.eqb_spec c 8) as [->|]; [split; [apply cm_esc; constructor|apply rc_esc; unfold s_esc; tauto]|].
  destruct (Z.eqb_spec c 13) as [->|]; [split; [apply cm_esc; constructor|apply rc_esc; unfold s_esc; tauto]|].
  destruct (Z.eqb_spec c 10) as [->|]; [split; [apply cm_esc; constructor|apply rc_esc; unfold s_esc; tauto]|].
  destruct (Z.eqb_spec c 12) as [->|]; [split; [apply cm_esc; constructor|apply rc_esc; unfold s_esc; tauto]|].
  unfold serialize_hex. destruct (Z.ltb_spec c 128); [|lia].
  pose proof (Z.div_mod c 16 ltac:(lia)). pose proof (Z.mod_pos_bound c 16 ltac:(lia)).
  assert (0 <= c / 16 < 16) by (pose proof (Z.div_pos c 16); pose proof (Z.div_lt_upper_bound c 16 16); lia).
  destruct (hexdigit_hex (c / 16)) as (A1 & A2); [lia|]. destruct (hexdigit_hex (c mod 16)) as (B1 & B2); [lia|].
  assert (Z0 : s_hex 48) by (unfold s_hex; lia).
  assert (E4 : hex4 48 48 (hexdigit (c / 16)) (hexdigit (c mod 16)) = c).
  { unfold hex4. rewrite A2, B2. change (hexv 48) with 0. lia. }
  split; [|now apply rc_u].
  replace [c] with (utf8_encode (hex4 48 48 (hexdigit (c / 16)) (hexdigit (c mod 16)))).
  - apply cm_u; auto. rewrite E4. unfold scalar. lia.
  - rewrite E4. unfold utf8_encode. destruct (Z.ltb_spec c 128); [reflexivity|lia].
Qed.

Lemma str_ser_utf8 s : utf8 s -> forall n, (length s < n)%nat ->
  exists l, str_ser_loop false n s = Ok l /\ lmean l s /\ rchars l.
Proof.
  induction 1 as [|cp s Hs Hu IH]; intros n Hn.
  { exists []. destruct n; [lia|]. split; [reflexivity|]. split; constructor. }
  destruct n; [lia|]. rewrite app_length in Hn.
  assert (1 <= length (utf8_encode cp))%nat by (pose proof (utf8_encode_nonempty cp); destruct (utf8_encode cp); [congruence|cbn; lia]).
  destruct (IH n ltac:(lia)) as (l & El & Hm & Hr).
  destruct (Z_lt_le_dec cp 128) as [L|L].
  - assert (E : utf8_encode cp = [cp]) by (unfold utf8_encode; destruct (Z.ltb_spec cp 128); [reflexivity|lia]).
    rewrite E. cbn [app]. destruct Hs as (Hs1 & Hs2).
    destruct ((cp <? 32) || (cp =? QT) || (cp =? BSL) || (cp =? SLASH)) eqn:Ee.
    + rewrite str_ser_esc by (lia || discriminate). rewrite El. cbn [bind].
      destruct (escape_cmean cp ltac:(lia) ltac:(lia)) as (A & B).
      eexists. split; [reflexivity|]. split; [apply (lm_cons _ [cp]); assumption|now constructor].
    + rewrite str_ser_plain by lia. rewrite El. cbn [bind]. eexists. split; [reflexivity|].
      assert (A : cmean [cp] [cp]) by (rewrite <- E; apply cm_plain; try lia; split; lia).
      assert (B : rchar [cp]) by (rewrite <- E; apply rc_plain; try lia; split; lia).
      split; [apply (lm_cons [cp] [cp]); assumption|apply (rcs_cons [cp]); assumption].
  - destruct (utf8_encode_shape cp Hs L) as (c & k & x & E & A & B & C & D).
    rewrite E. cbn [app]. rewrite (str_ser_multi false n c k x s A C D), El. cbn [bind].
    eexists. split; [reflexivity|]. rewrite <- E.
    change (c :: x ++ s) with ((c :: x) ++ s). rewrite <- E. split; [apply lm_cons; [apply cm_plain; auto; lia|exact Hm]|apply rcs_cons; [apply rc_plain; auto; lia|exact Hr]].
Qed.

Theorem string_ser_rfc s : utf8 s -> exists lit, ser string_codec s = Ok (wr lit) /\ rstring lit /\ smean lit s.
Proof.
  intros H. destruct (str_ser_utf8 s H (S (length s)) ltac:(lia)) as (l & El & Hm & Hr).
  exists (QT :: l ++ [QT]). split; [cbn [ser string_codec]; unfold str_ser; rewrite El; reflexivity|].
  split; now constructor.
Qed.
Theorem string_jout : jout string_codec utf8.
Proof.
  intros s H. destruct (string_ser_rfc s H) as (lit & E & Hr & _). exists (wr lit). split; [exact E|].
  rewrite flat_wr. now constructor.
Qed.
Theorem string_wout : wout string_codec bytes.
Proof.
  intros s H. destruct (str_ser_runs false (S (length s)) s ltac:(lia) H) as (p & q & l & _ & _ & _ & E & _).
  exists (QT :: l ++ [QT]). cbn [ser string_codec]. unfold str_ser. rewrite E. reflexivity.
Qed.

Lemma hexdigit_ge d : 0 <= d < 16 -> 32 <= hexdigit d.
Proof. intros H. unfold hexdigit. destruct (Z.ltb_spec d 10); lia. Qed.
Lemma sruns_xchunks p l : sruns p l -> bytes p -> xchunks l.
Proof.
  induction 1 as [|w ch p l s t A Hr IH]; intros Hb; [constructor|].
  apply Forall_app in Hb. destruct Hb as (Hb1 & Hb2). constructor; [|auto].
  destruct A as [c t0 E Hc|c t0 E Hc H1 H2 H3|c k l0 t0 E Hl Hk Hcont|c t0 E Hc].
  - inversion Hb1; subst. destruct (escape_cmean c ltac:(lia) ltac:(lia)) as (_ & B). apply xc_w; [now apply rchar_wchar|].
    unfold escape_char, serialize_hex.
    assert (32 <= hexdigit (c mod 16)) by (apply hexdigit_ge, Z.mod_pos_bound; lia).
    assert (c < 128 -> 32 <= hexdigit (c / 16)).
    { intros. apply hexdigit_ge. pose proof (Z.div_pos c 16). pose proof (Z.div_lt_upper_bound c 16 16). lia. }
    destruct ((c =? QT) || (c =? BSL) || (c =? SLASH)) eqn:E1.
    { repeat constructor; lia. }
    repeat match goal with |- context [if ?b then _ else _] => destruct b eqn:? end;
      repeat (apply Forall_cons; [lia|]); try apply Forall_nil; lia.
  - apply xc_w; [apply wc_plain; lia|]. repeat constructor; lia.
  - apply xc_w; [now apply wc_multi with k|]. constructor; [inversion Hl; lia|].
    revert Hcont. apply Forall_impl. unfold s_cont. intros; lia.
  - unfold serialize_hex. destruct (Z.ltb_spec c 128); [lia|].
    apply xc_x; apply hexdigit_hex; [|apply Z.mod_pos_bound; lia].
    pose proof (Z.div_pos c 16). pose proof (Z.div_lt_upper_bound c 16 16). lia.
Qed.
Theorem string_ser_any s : bytes s -> exists l, ser string_codec s = Ok (wr (QT :: l ++ [QT])) /\ xchunks l.
Proof.
  intros H. destruct (str_ser_runs false (S (length s)) s ltac:(lia) H) as (p & q & l & E1 & E2 & E3 & E & _).
  exists l. cbn [ser string_codec]. unfold str_ser. rewrite E. split; [reflexivity|].
  apply sruns_xchunks with p; [exact E3|]. subst s. apply Forall_app in H. tauto.
Qed.
