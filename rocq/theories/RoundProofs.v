(** Proofs about strings written and read back. *)
From Verif Require Import Base Parser SpecJson SpecString ParserFacts Grammar1 Grammar2 Out StringS CodecLaws StringProofs SpecExact ExactProofs FailProofs SpecRound.

Lemma ctl_dec c : {ctl c} + {~ ctl c}.
Proof.
  unfold ctl, short_ctl. destruct (Z_le_dec 0 c); [|right; lia]. destruct (Z_lt_dec c 32); [|right; lia].
  destruct (Z.eq_dec c 8), (Z.eq_dec c 9), (Z.eq_dec c 10), (Z.eq_dec c 12), (Z.eq_dec c 13); [right; lia..|left; lia].
Qed.
Lemma respelt1_plain c : 0 <= c -> ~ ctl c -> respelt1 c = [c].
Proof.
  unfold ctl, short_ctl, respelt1. intros H0 H. cbn [existsb]. destruct ((c <? 32) && _) eqn:E; [|reflexivity]. exfalso. apply H. lia.
Qed.
Lemma respelt1_ctl c : ctl c -> respelt1 c = escape_char c /\ exists a b, s_hex a /\ s_hex b /\ hex4 48 48 a b = c /\ respelt1 c = [BSL; 117; 48; 48; a; b].
Proof.
  intros [H1 H2]. split.
  - unfold short_ctl in H2. assert (K : In c (map Z.of_nat (seq 0 32))).
    { apply in_map_iff. exists (Z.to_nat c). split; [lia|]. apply in_seq. lia. }
    vm_compute in K. repeat (destruct K as [<-|K]; [try reflexivity; lia|]). destruct K.
  - exists (hexdigit (c / 16)), (hexdigit (c mod 16)).
    destruct (hexdigit_hex (c / 16)) as [A1 A2]; [pose proof (Z.div_pos c 16); pose proof (Z.div_lt_upper_bound c 16 16); lia|].
    destruct (hexdigit_hex (c mod 16)) as [B1 B2]; [apply Z.mod_pos_bound; lia|]. split; [exact A1|]. split; [exact B1|]. split.
    + unfold hex4. rewrite A2, B2. change (hexv 48) with 0. pose proof (Z.div_mod c 16). lia.
    + unfold short_ctl in H2. assert (K : In c (map Z.of_nat (seq 0 32))).
      { apply in_map_iff. exists (Z.to_nat c). split; [lia|]. apply in_seq. lia. }
      vm_compute in K. repeat (destruct K as [<-|K]; [try reflexivity; lia|]). destruct K.
Qed.
Lemma respelt1_cases c : 0 <= c <= 255 -> respelt1 c = [c] /\ ~ ctl c \/ ctl c /\ exists a b, s_hex a /\ s_hex b /\ kept (hex4 48 48 a b) /\ respelt1 c = [BSL; 117; 48; 48; a; b].
Proof.
  intros H. destruct (ctl_dec c) as [C|C]; [right|left; split; [apply respelt1_plain; [lia|exact C]|exact C]]. split; [exact C|].
  destruct (respelt1_ctl c C) as (_ & a & b & A & B & E & R). exists a, b. repeat (split; [assumption|]). split; [|exact R]. rewrite E. unfold kept. destruct C. split; [lia|assumption].
Qed.
Lemma respelt_app a b : respelt (a ++ b) = respelt a ++ respelt b.
Proof. unfold respelt. now rewrite flat_map_app. Qed.
Lemma respelt_high l : Forall (fun c => 32 <= c) l -> respelt l = l.
Proof.
  induction 1 as [|c l H Hl IH]; [reflexivity|]. unfold respelt in *. cbn [flat_map]. rewrite IH, respelt1_plain; [reflexivity|lia|]. unfold ctl. lia.
Qed.
Lemma ctl_chunk c : ctl c -> dchunk (escape_char c) (respelt1 c).
Proof.
  intros C. destruct (respelt1_ctl c C) as (E & a & b & A & B & H & R). rewrite <- E, R. apply chunk_dchunk, ck_kept; try assumption; try (unfold s_hex; lia).
  rewrite H. destruct C. split; [lia|assumption].
Qed.
Lemma oversized_l a b : oversized a -> oversized (a ++ b).
Proof. intros (p & c & k & l & q & -> & H). exists p, c, k, l, (q ++ b). split; [|exact H]. now rewrite <- app_assoc, <- app_comm_cons, <- app_assoc. Qed.
Lemma oversized_r a b : oversized b -> oversized (a ++ b).
Proof. intros (p & c & k & l & q & -> & H). exists (a ++ p), c, k, l, q. split; [|exact H]. now rewrite <- app_assoc. Qed.

(** what one step of the writer is read back as *)
Lemma sstep_read s w ch t : bytes w -> sstep s w ch t -> ~ oversized w -> dchunk ch (respelt w).
Proof.
  intros Hb H N. destruct H as [c t E H|c t E H1 H2 H3 H4|c k l t E H1 H2 H3|c t E H].
  - unfold respelt. cbn [flat_map]. rewrite app_nil_r. assert (0 <= c) by (inversion Hb; lia). destruct (ctl_dec c) as [C|C]; [now apply ctl_chunk|].
    rewrite respelt1_plain by assumption. apply escape_dchunk; [assumption|exact H|]. unfold ctl, short_ctl in C. unfold str_char, short_ctl in *. lia.
  - rewrite respelt_high by (constructor; [lia|constructor]). apply dchunk_raw; lia.
  - rewrite respelt_high.
    + apply dchunk_multi with k; [exact H1| |exact H2]. destruct (le_dec k 3); [assumption|]. exfalso. apply N. exists [], c, k, l, []. rewrite app_nil_r. repeat split; auto; lia.
    + constructor; [inversion H1; lia|]. eapply Forall_impl; [|exact H3]. unfold s_cont. lia.
  - rewrite respelt_high by (constructor; [lia|constructor]). unfold serialize_hex. destruct (Z.ltb_spec c 128); [lia|].
    destruct (hexdigit_hex (c / 16)) as [A1 A2]; [pose proof (Z.div_pos c 16); pose proof (Z.div_lt_upper_bound c 16 16); lia|].
    destruct (hexdigit_hex (c mod 16)) as [B1 B2]; [apply Z.mod_pos_bound; lia|].
    replace [c] with [hexv (hexdigit (c / 16)) * 16 + hexv (hexdigit (c mod 16))]; [now apply dchunk_x|]. rewrite A2, B2. f_equal. pose proof (Z.div_mod c 16). lia.
Qed.
Lemma sruns_read p l : sruns p l -> bytes p -> ~ oversized p -> dchunks l (respelt p).
Proof.
  induction 1 as [|w ch p l s t Hs H IH]; intros Hb N; [constructor|]. apply Forall_app in Hb. destruct Hb as [Hw Hp]. rewrite respelt_app. constructor.
  - eapply sstep_read; [exact Hw|exact Hs|]. intros O. apply N. now apply oversized_l.
  - apply IH; [exact Hp|]. intros O. apply N. now apply oversized_r.
Qed.
Lemma ser_sruns s : bytes s -> exists l, sruns s l /\ ser string_codec s = Ok (wr (QT :: l ++ [QT])).
Proof.
  intros Hb. destruct (str_ser_runs false (S (length s)) s ltac:(lia) Hb) as (p & q & l & E1 & E2 & E3 & E4 & _).
  assert (q = []) as -> by (destruct E2 as [->|[? _]]; [reflexivity|discriminate]). rewrite app_nil_r in E1. subst p. exists l. split; [exact E3|].
  cbn [ser string_codec]. unfold str_ser. rewrite E4. reflexivity.
Qed.
Theorem round_string s : bytes s -> ~ oversized s -> dist (respelt s) <= 2147483647 ->
  exists b, ser string_codec s = Ok (wr b) /\ forall sn old r e, des string_codec sn old (b ++ r) e = Ok (respelt s, r, e).
Proof.
  intros Hb N Hn. destruct (ser_sruns s Hb) as (l & Hl & E). exists (QT :: l ++ [QT]). split; [exact E|]. intros sn old r e. cbn [des string_codec]. unfold string_des.
  change (is_null ((QT :: l ++ [QT]) ++ r)) with false. cbv iota. apply dchunks_unser; [|exact Hn]. now apply sruns_read.
Qed.

(** ---- characters of five or six bytes ---- *)
Lemma dchunks_step l m : dchunks l m -> forall f r n e out, (length (l ++ r) < f)%nat -> dist m <= n ->
  exists f', (length r < f')%nat /\ str_loop f (l ++ r) n e out = str_loop f' r (n - dist m) e (out ++ m).
Proof.
  induction 1 as [|c w l m (Hc & Hw & Hst) Hl IH]; intros f r n e out Hf Hn.
  - exists f. rewrite dist_nil, Z.sub_0_r, app_nil_r. auto.
  - destruct f; [lia|]. rewrite <- app_assoc in *. rewrite dist_app in *. pose proof (dist_pos m). rewrite Hst by lia.
    destruct (IH f r (n - dist w) e (out ++ w)) as (f' & L & E); [rewrite app_length in Hf; destruct c; [congruence|cbn in Hf; lia]|lia|].
    exists f'. split; [exact L|]. rewrite E. rewrite <- app_assoc. f_equal. lia.
Qed.
Definition long (c : Z) (l : buf) : Prop := exists k, wlead c k /\ (4 <= k)%nat /\ length l = k /\ Forall s_cont l.
Lemma long_oversized a c m b : long c m -> oversized (a ++ c :: m ++ b).
Proof. intros (k & H). now exists a, c, k, m, b. Qed.
Lemma long_lead c m : long c m -> 248 <= c <= 253.
Proof. intros (k & H & L & _). destruct H; lia. Qed.
Lemma long_cont c m : long c m -> ~ s_cont c.
Proof. intros H. apply long_lead in H. unfold s_cont. lia. Qed.
Lemma split_first a c (l : buf) : forall w p, a ++ c :: l = w ++ p ->
  (exists a', a = w ++ a' /\ p = a' ++ c :: l) \/ (exists w2, w = a ++ c :: w2).
Proof.
  induction a as [|x a IH]; intros [|y w] p E.
  - left. exists []. auto.
  - right. injection E as -> E. now exists w.
  - left. exists (x :: a). auto.
  - injection E as -> E. destruct (IH w p E) as [(a' & -> & ->)|(w2 & ->)]; [left; now exists a'|right; now exists w2].
Qed.
Lemma prefix_eq (a b x y : buf) : a ++ x = b ++ y -> length a = length b -> a = b.
Proof. revert b. induction a as [|u a IH]; intros [|v b] E L; try discriminate; [reflexivity|]. injection E as -> E. f_equal. apply IH; [exact E|now injection L]. Qed.
Lemma sstep_long s w ch t : sstep s w ch t -> oversized w -> exists c m, w = c :: m /\ ch = c :: m /\ long c m.
Proof.
  intros H O. destruct H as [c t E H|c t E H1 H2 H3 H4|c k l t E H1 H2 H3|c t E H].
  1,2,4: exfalso; destruct O as (a & c' & k & l & b & E' & W & K & L & _); apply (f_equal (@length Z)) in E'; rewrite !app_length in E'; cbn [length] in E'; rewrite app_length in E'; lia.
  exists c, l. split; [reflexivity|]. split; [reflexivity|]. destruct O as (a & c' & k' & l' & b & E' & W & K & L & Hc). exists k. split; [exact H1|]. split; [|auto].
  destruct a as [|x a]; [injection E' as -> ->; destruct H1; try lia; destruct W; lia|]. injection E' as _ E'. exfalso. subst l. apply Forall_app in H3. destruct H3 as [_ H3].
  inversion H3 as [|? ? C _]; subst. unfold s_cont in C. destruct W; lia.
Qed.
Lemma oversized_dec_step s w ch t : bytes w -> sstep s w ch t -> dchunk ch (respelt w) \/ exists c m, w = c :: m /\ ch = c :: m /\ long c m.
Proof.
  intros Hb H. assert (D : oversized w \/ ~ oversized w).
  { destruct H as [c t E H|c t E H1 H2 H3 H4|c k l t E H1 H2 H3|c t E H].
    1,2,4: right; intros (a & c' & k & l & b & E' & W & K & L & _); apply (f_equal (@length Z)) in E'; rewrite !app_length in E'; cbn [length] in E'; rewrite app_length in E'; lia.
    destruct (le_dec 4 k) as [K|K]; [left; exists [], c, k, l, []; rewrite app_nil_r; auto|]. right. intros (a & c' & k' & l' & b & E' & W & K' & L & Hc).
    apply (f_equal (@length Z)) in E'. rewrite !app_length in E'. cbn [length] in E'. rewrite app_length in E'. lia. }
  destruct D as [D|D]; [right; eapply sstep_long; eassumption|left; eapply sstep_read; eassumption].
Qed.
Lemma ser_long nt n : forall a c m b, (length (a ++ c :: m ++ b) < n)%nat -> bytes (a ++ c :: m ++ b) -> long c m -> (nt = true -> ~ In 0 a) ->
  exists a' c' m' b' la lb, a ++ c :: m ++ b = a' ++ c' :: m' ++ b' /\ str_ser_loop nt n (a ++ c :: m ++ b) = Ok (la ++ c' :: m' ++ lb) /\
    dchunks la (respelt a') /\ long c' m' /\ (length a' <= length a)%nat.
Proof.
  induction n as [|n IH]; intros a c m b Hn Hb L Z; [lia|]. destruct a as [|x a].
  - exists [], c, m, b, []. destruct L as (k & W & K & Hl & Hc). cbn [app] in *. rewrite (str_ser_multi nt n c k m b W Hl Hc).
    assert (B : bytes b) by (inversion Hb as [|? ? _ B]; subst; now apply Forall_app in B).
    destruct (str_ser_runs nt n b) as (p & q & l & _ & _ & _ & E & _); [cbn [length] in Hn; rewrite app_length in Hn; lia|exact B|]. rewrite E. cbn [bind].
    exists l. split; [reflexivity|]. split; [reflexivity|]. split; [constructor|]. split; [now exists k|cbn; lia].
  - set (s := (x :: a) ++ c :: m ++ b) in *. assert (N : s <> []) by discriminate.
    destruct (str_ser_step nt n s Hb N) as (w & ch & t & St & E & R); [intros Hz (t & Et); injection Et as -> _; apply (Z Hz); now left|]. rewrite R. pose proof (sstep_len _ _ _ _ St) as Lt.
    assert (Hb2 : bytes w /\ bytes t) by (rewrite E in Hb; now apply Forall_app in Hb). destruct Hb2 as [Hw Ht].
    destruct (oversized_dec_step s w ch t Hw St) as [D|(c' & m' & -> & -> & L')].
    + unfold s in E. apply split_first in E. destruct E as [(a' & Ea & Et)|(w2 & Ew)].
      * assert (W1 : w <> []) by (destruct St; discriminate). assert (La : (length a' < length (x :: a))%nat) by (rewrite Ea, app_length; destruct w; [congruence|cbn; lia]).
        subst t. destruct (IH a' c m b) as (a1 & c1 & m1 & b1 & la & lb & E1 & E2 & E3 & E4 & E5); [unfold s in *; lia|exact Ht|exact L|intros Hz Hin; apply (Z Hz); rewrite Ea; apply in_or_app; now right|].
        exists (w ++ a1), c1, m1, b1, (ch ++ la), lb. split; [unfold s; rewrite Ea, <- !app_assoc; now rewrite E1|]. split; [rewrite E2; cbn [bind]; now rewrite <- app_assoc|].
        split; [rewrite respelt_app; now constructor|]. split; [exact E4|]. rewrite Ea, !app_length. lia.
      * exfalso. pose proof (long_lead _ _ L) as C. destruct St as [c0 t E0 H|c0 t E0 H1 H2 H3 H4|c0 k l t E0 H1 H2 H3|c0 t E0 H]; try (injection Ew as _ Ew; destruct a; discriminate).
        injection Ew as _ Ew. subst l. apply Forall_app in H3. destruct H3 as [_ H3]. inversion H3 as [|? ? C2 _]; subst. unfold s_cont in C2. lia.
    + destruct (str_ser_runs nt n t) as (p & q & l & _ & _ & _ & E' & _); [lia|exact Ht|]. rewrite E'. cbn [bind].
      exists [], c', m', t, [], l. split; [rewrite E; reflexivity|]. split; [reflexivity|]. split; [constructor|]. split; [exact L'|cbn; lia].
Qed.
Lemma unutf8_long c m t n e : long c m -> unutf8 c t n e = ([], [], n, cerr InvalidString None (dist (c :: t)) e).
Proof.
  intros L. apply long_lead in L. unfold unutf8.
  assert (K : negb (Z.land c 128 =? 0) && negb (Z.land c 224 =? 192) && negb (Z.land c 240 =? 224) && negb (Z.land c 248 =? 240) || (c <? 248) || (253 <? c) = true).
  { apply (byte_sweep (fun c => negb (Z.land c 128 =? 0) && negb (Z.land c 224 =? 192) && negb (Z.land c 240 =? 224) && negb (Z.land c 248 =? 240) || (c <? 248) || (253 <? c))); [vm_compute; reflexivity|lia]. }
  destruct (Z.land c 128 =? 0); [lia|]. destruct (Z.land c 224 =? 192); [lia|]. destruct (Z.land c 240 =? 224); [lia|]. destruct (Z.land c 248 =? 240); [lia|]. reflexivity.
Qed.
Theorem round_oversized a c k m b : bytes (a ++ c :: m ++ b) -> wlead c k -> (4 <= k)%nat -> length m = k -> Forall s_cont m -> ~ oversized a -> dist (respelt a) < 2147483647 ->
  exists lit, ser string_codec (a ++ c :: m ++ b) = Ok (wr lit) /\ forall sn old r, exists x y, lit ++ r = x ++ c :: m ++ y /\
    des string_codec sn old (lit ++ r) (Some no_error) = Ok (respelt a, [], Some (mkerr InvalidString None (dist (c :: m ++ y)))).
Proof.
  intros Hb W K Hl Hc N Hn. assert (L : long c m) by now exists k. set (s := a ++ c :: m ++ b) in *.
  destruct (ser_long false (S (length s)) a c m b ltac:(unfold s; lia) Hb L ltac:(discriminate)) as (a' & c' & m' & b' & la & lb & E1 & E2 & E3 & L' & E5). fold s in E1, E2.
  assert (a' = a /\ c' = c /\ m' = m) as (-> & -> & ->).
  { unfold s in E1. pose proof E1 as E. replace (a' ++ c' :: m' ++ b') with ((a' ++ c' :: m') ++ b') in E by (rewrite <- app_assoc; reflexivity).
    apply split_first in E. destruct E as [(a'' & E & _)|(w2 & E)].
    - exfalso. apply N. rewrite E. rewrite <- app_assoc. cbn [app]. now apply long_oversized.
    - assert (a' = a) as ->.
      { symmetry in E. apply split_first in E. destruct E as [(a3 & -> & E)|(w3 & ->)].
        - destruct a3 as [|x a3]; [now rewrite app_nil_r|]. exfalso. injection E as -> E. destruct L' as (k' & _ & _ & _ & Hc'). rewrite E in Hc'. apply Forall_app in Hc'. destruct Hc' as [_ Hc'].
          inversion Hc' as [|? ? C _]; subst. exact (long_cont _ _ L C).
        - rewrite app_length in E5. cbn in E5. lia. }
      apply app_inv_head in E1. injection E1 as <- E1. split; [reflexivity|]. split; [reflexivity|].
      destruct L' as (k' & W' & K' & Hl' & _). assert (Hk : k' = k) by (destruct W; destruct W'; lia). apply (prefix_eq m' m b' b); [now symmetry|lia]. }
  exists (QT :: (la ++ c :: m ++ lb) ++ [QT]). split; [cbn [ser string_codec]; unfold str_ser; rewrite E2; reflexivity|]. intros sn old r.
  exists (QT :: la), (lb ++ QT :: r). split; [cbn [app]; rewrite <- !app_assoc; cbn [app]; rewrite <- !app_assoc; reflexivity|].
  cbn [des string_codec]. unfold string_des. change (is_null ((QT :: (la ++ c :: m ++ lb) ++ [QT]) ++ r)) with false. cbv iota. unfold str_unser. cbn [app]. change (QT =? QT) with true. cbn [negb].
  replace (((la ++ c :: m ++ lb) ++ [QT]) ++ r) with (la ++ c :: m ++ lb ++ QT :: r) by (rewrite <- !app_assoc; cbn [app]; rewrite <- !app_assoc; reflexivity).
  destruct (dchunks_step _ _ E3 (S (length (la ++ c :: m ++ lb ++ QT :: r))) (c :: m ++ lb ++ QT :: r) INT_MAX (Some no_error) [] ltac:(lia) ltac:(unfold INT_MAX; lia)) as (f' & Lf & E).
  rewrite E. destruct f' as [|f']; [lia|]. cbn [str_loop app]. pose proof (long_lead _ _ L). destruct ((c =? QT) || (INT_MAX - dist (respelt a) =? 0)) eqn:E0; [unfold INT_MAX in E0; lia|].
  destruct (c =? BSL) eqn:E4; [lia|]. rewrite (unutf8_long _ _ _ _ _ L). destruct f' as [|f']; [cbn [length] in Lf; lia|]. cbn [str_loop bind]. rewrite app_nil_r. reflexivity.
Qed.

(** ---- which strings survive ---- *)
Lemma copy_short l : forall k n t, 0 <= n -> n < dist l -> (length l <= k)%nat -> utf8_copy k (l ++ t) n C0 = (skipn (Z.to_nat n) l ++ t, firstn (Z.to_nat n) l, 0, C0).
Proof.
  induction l as [|c l IH]; intros k n t H0 Hn Hk; [rewrite dist_nil in Hn; lia|]. destruct k as [|k]; [cbn [length] in Hk; lia|]. cbn [utf8_copy app]. destruct (n =? 0) eqn:E; [assert (n = 0) as -> by lia; reflexivity|].
  rewrite dist_cons in Hn. cbn [length] in Hk. rewrite IH by lia. replace (Z.to_nat n) with (S (Z.to_nat (n - 1))) by lia. reflexivity.
Qed.
Lemma str_loop_out f s n e out r e' out' : (length s < f)%nat -> 0 <= n -> str_loop f s n e out = Ok (inl (r, e', out')) -> exists w, out' = out ++ w /\ dist w <= n.
Proof. intros Hf Hn E. pose proof (str_loop_good f s n e out Hf Hn) as G. rewrite E in G. tauto. Qed.
Lemma loop_exact p l : sruns p l -> bytes p -> forall f n out w r z q, 0 <= n -> (length (l ++ QT :: r) < f)%nat ->
  str_loop f (l ++ QT :: r) n C0 out = Ok (inl (QT :: r, C0, out ++ w)) -> w ++ z = p ++ q -> w = p /\ forall c, In c p -> ~ ctl c.
Proof.
  induction 1 as [|w0 ch p l s t St H IH]; intros Hb f n out w r z q Hn Hf E Q.
  { destruct f as [|f]; [lia|]. cbn [app str_loop] in E. change (QT =? QT) with true in E. cbn [orb] in E. injection E as E. rewrite <- (app_nil_r out) in E at 1. apply app_inv_head in E. subst w. split; [reflexivity|intros c []]. }
  apply Forall_app in Hb. destruct Hb as [Hw Hp]. rewrite <- app_assoc in E, Hf. destruct f as [|f]; [lia|].
  (* a piece that comes back as it is *)
  assert (K : dchunk ch w0 -> dist w0 <= n -> (forall c, In c w0 -> ~ ctl c) -> w = w0 ++ p /\ forall c, In c (w0 ++ p) -> ~ ctl c).
  { intros (D1 & D2 & D) L N. rewrite (D f (l ++ QT :: r) n C0 out L) in E. assert (Hf2 : (length (l ++ QT :: r) < f)%nat) by (rewrite app_length in Hf; destruct ch; [congruence|cbn [length] in Hf; lia]).
    assert (Hn2 : 0 <= n - dist w0) by lia. destruct (str_loop_out _ _ _ _ _ _ _ _ Hf2 Hn2 E) as (w' & Ew & _). rewrite <- app_assoc in Ew. apply app_inv_head in Ew. subst w. rewrite app_assoc in E.
    rewrite <- !app_assoc in Q. apply app_inv_head in Q. destruct (IH Hp f (n - dist w0) (out ++ w0) w' r z q ltac:(lia) Hf2 E Q) as [-> I]. split; [reflexivity|].
    intros c Hc. apply in_app_or in Hc. destruct Hc; auto. }
  assert (Z0 : n = 0 -> forall x y, ch = x :: y -> x <> QT -> False).
  { intros -> x y -> Nq. cbn [app str_loop] in E. rewrite orb_true_r in E. injection E as E _ _. congruence. }
  destruct St as [c t E0 H0|c t E0 H1 H2 H3 H4|c k m t E0 H1 H2 H3|c t E0 H1].
  - assert (0 <= c) by (inversion Hw; lia). destruct (ctl_dec c) as [C|C].
    + exfalso. destruct (respelt1_ctl c C) as (E1 & a & b & A & B & X & R). rewrite <- E1, R in *. destruct (Z.eq_dec n 0) as [->|N]; [apply (Z0 eq_refl BSL _ eq_refl); discriminate|].
      cbn [app str_loop] in E. change (BSL =? QT) with false in E. change (BSL =? BSL) with true in E. cbn [orb] in E. destruct (n =? 0) eqn:En; [lia|].
      change (unescape 117) with (@None Z) in E. change (117 =? 117) with true in E. cbv iota in E. assert (S48 : s_hex 48) by (unfold s_hex; lia).
      rewrite uhex_hex in E by (assumption || lia). assert (Kp : kept (hex4 48 48 a b)) by (rewrite X; destruct C; split; [lia|assumption]). rewrite (emit_kept _ [48; 48; a; b] _ _ Kp eq_refl) in E by lia.
      assert (F : exists u, firstn (Z.to_nat (Z.min n 6)) [BSL; 117; 48; 48; a; b] = BSL :: u) by (replace (Z.to_nat (Z.min n 6)) with (S (Z.to_nat (Z.min n 6 - 1))) by lia; eexists; reflexivity).
      destruct F as (u & F). rewrite F in E. eapply str_loop_out in E; [|cbn [app length] in Hf; lia|lia].
      destruct E as (w' & Ew & _). rewrite <- app_assoc in Ew. apply app_inv_head in Ew. subst w. injection Q as <- _. destruct C. lia.
    + assert (D : dchunk (escape_char c) [c]) by (apply escape_dchunk; [assumption|exact H0|unfold ctl, short_ctl in C; unfold str_char, short_ctl in *; lia]).
      destruct (Z.eq_dec n 0) as [Zn|N]; [|apply K; [exact D|cbn; lia|intros x [<-|[]]; exact C]]. exfalso. destruct (escape_char c) as [|x y] eqn:Ee; [destruct D; congruence|]. apply (Z0 Zn x y eq_refl).
      intros ->. destruct D as (_ & _ & D). specialize (D 0%nat [] 1 C0 [] ltac:(cbn; lia)). discriminate D.
  - destruct (Z.eq_dec n 0) as [Zn|N]; [exfalso; now apply (Z0 Zn c [] eq_refl)|]. apply K; [apply dchunk_raw; lia|cbn; lia|]. intros x [<-|[]]. unfold ctl. lia.
  - assert (C : 192 <= c <= 253) by (destruct H1; lia). destruct (Z.eq_dec n 0) as [Zn|N]; [exfalso; apply (Z0 Zn c m eq_refl); lia|].
    destruct (le_dec k 3) as [K3|K3].
    + destruct (Z_le_gt_dec (dist (c :: m)) n) as [L|L].
      * apply K; [now apply dchunk_multi with k|exact L|]. intros x [<-|Hx]; [unfold ctl; lia|]. rewrite Forall_forall in H3. specialize (H3 x Hx). unfold s_cont, ctl in *. lia.
      * exfalso. cbn [app str_loop] in E. destruct ((c =? QT) || (n =? 0)) eqn:E1; [lia|]. destruct (c =? BSL) eqn:E2; [lia|].
        rewrite (lead_copy c k _ _ _ H1 K3) in E. change (c :: m ++ l ++ QT :: r) with ((c :: m) ++ l ++ QT :: r) in E. rewrite copy_short in E by (cbn [length]; lia).
        replace (Z.to_nat n) with (S (Z.to_nat (n - 1))) in E by lia. cbn [skipn] in E. destruct (skipn (Z.to_nat (n - 1)) m) as [|x y] eqn:Es.
        { apply (f_equal (@length Z)) in Es. rewrite skipn_length in Es. unfold dist in L. cbn [length] in *. lia. }
        destruct f as [|f]; [cbn [app length] in Hf; lia|]. cbn [app str_loop] in E. rewrite orb_true_r in E. injection E as E _ _.
        assert (Hx : In x m) by (rewrite <- (firstn_skipn (Z.to_nat (n - 1)) m), Es; apply in_or_app; right; now left). rewrite Forall_forall in H3. specialize (H3 x Hx). unfold s_cont in H3. lia.
    + exfalso. cbn [app str_loop] in E. destruct ((c =? QT) || (n =? 0)) eqn:E1; [lia|]. destruct (c =? BSL) eqn:E2; [lia|].
      rewrite (unutf8_long c m) in E by (exists k; repeat split; auto; lia). destruct f as [|f]; [cbn [app length] in Hf; lia|]. discriminate E.
  - destruct (Z.eq_dec n 0) as [Zn|N]; [exfalso; unfold serialize_hex in Z0; destruct (Z.ltb_spec c 128); [lia|]; apply (Z0 Zn _ _ eq_refl); discriminate|].
    apply K; [|cbn; lia|intros x [<-|[]]; unfold ctl; lia].
    rewrite <- (respelt_high [c]) by (constructor; [lia|constructor]). apply (sstep_read [c] [c] _ []); [exact Hw|apply ss_hex; auto; lia|].
    intros (a & c' & k & l0 & b & E' & W & Kk & L & _). apply (f_equal (@length Z)) in E'. rewrite !app_length in E'. cbn [length] in E'. rewrite app_length in E'. lia.
Qed.

Lemma survives_respelt s : (forall c, In c s -> ~ ctl c) -> bytes s -> respelt s = s.
Proof.
  intros N. induction s as [|c s IH]; intros Hb; [reflexivity|]. inversion Hb as [|? ? H1 H2]; subst. unfold respelt in *. cbn [flat_map].
  rewrite respelt1_plain, IH; [reflexivity|intros x Hx; apply N; now right|exact H2|lia|apply N; now left].
Qed.
Lemma sruns_bytes p l : sruns p l -> bytes p -> bytes l.
Proof.
  assert (Hh : forall d, 0 <= d < 16 -> 0 <= hexdigit d <= 255) by (intros d H; unfold hexdigit; destruct (d <? 10); lia).
  assert (Hs : forall c, 0 <= c <= 255 -> bytes (serialize_hex c)).
  { intros c H. pose proof (Z.div_pos c 16). pose proof (Z.div_lt_upper_bound c 16 16). pose proof (Z.mod_pos_bound c 16). unfold serialize_hex.
    destruct (c <? 128); repeat (apply Forall_cons; [first [lia|apply Hh; lia]|]); apply Forall_nil. }
  induction 1 as [|w ch p l s t St H IH]; intros Hb; [constructor|]. apply Forall_app in Hb. destruct Hb as [Hw Hp]. apply Forall_app. split; [|now apply IH].
  destruct St as [c t E0 H0|c t E0 H1 H2 H3 H4|c k m t E0 H1 H2 H3|c t E0 H1]; try exact Hw.
  - assert (0 <= c <= 255) by (inversion Hw; lia). unfold escape_char.
    repeat match goal with |- Forall _ (if ?b then _ else _) => destruct b; [repeat (apply Forall_cons; [lia|]); apply Forall_nil|] end. now apply Hs.
  - apply Hs. lia.
Qed.
(** a reader with room for n bytes gives back all that was written only if p survives *)
Lemma literal_survives nt p q l n w z : bytes (p ++ q) -> (nt = true -> ~ In 0 p) -> sruns p l -> str_ser_loop nt (S (length (p ++ q))) (p ++ q) = Ok l -> 0 <= n ->
  literal n l w -> w ++ z = p ++ q -> w = p /\ survives p.
Proof.
  intros Hb Hz Hl Es Hn E Q. assert (Hp : bytes p) by (now apply Forall_app in Hb).
  pose proof (literal_loop _ _ _ E (S (length (l ++ [QT]))) [] [] ltac:(rewrite app_length; lia)) as E1.
  destruct (loop_exact p l Hl Hp (S (length (l ++ [QT]))) n [] w [] z q Hn ltac:(lia) E1 Q) as [-> N]. split; [reflexivity|]. split; [|exact N].
  intros (a & c & k & m & b & -> & W & K & Lm & Hc). assert (L : long c m) by now exists k.
  assert (Q2 : (a ++ c :: m ++ b) ++ q = a ++ c :: m ++ b ++ q) by (rewrite <- app_assoc; cbn [app]; now rewrite <- app_assoc). rewrite Q2 in Hb, Es.
  destruct (ser_long nt (S (length (a ++ c :: m ++ b ++ q))) a c m (b ++ q) ltac:(lia) Hb L) as (a' & c' & m' & b' & la & lb & G1 & G2 & G3 & L' & G5); [intros H Hin; apply (Hz H); apply in_or_app; now left|].
  rewrite Es in G2. injection G2 as ->.
  assert (P : exists x, a = a' ++ x).
  { clear - G1 G5. revert a' G1 G5. induction a as [|x a IH]; intros [|y a'] G1 G5; [now exists []|cbn in G5; lia|now exists (x :: a)|]. injection G1 as -> G1. cbn in G5. destruct (IH a' G1 ltac:(lia)) as (u & ->). now exists u. }
  destruct P as (x & ->). assert (R : respelt a' = a').
  { apply survives_respelt; [intros y Hy; apply N; apply in_or_app; left; apply in_or_app; now left|]. rewrite <- !app_assoc in Hb. now apply Forall_app in Hb. }
  assert (D : dist a' < n). { apply literal_room in E. destruct E as [E|E]; [|destruct a'; destruct x; discriminate]. rewrite !dist_app in E. rewrite dist_cons in E. pose proof (dist_pos x). pose proof (dist_pos (m ++ b)). lia. }
  destruct (dchunks_step _ _ G3 (S (length ((la ++ c' :: m' ++ lb) ++ [QT]))) ((c' :: m' ++ lb) ++ [QT]) n C0 [] ltac:(rewrite app_assoc; lia) ltac:(rewrite R; lia)) as (f' & Lf & E2).
  rewrite app_assoc in E2. rewrite E2 in E1. destruct f' as [|f']; [lia|]. cbn [app str_loop] in E1. pose proof (long_lead _ _ L'). rewrite R in E1. destruct ((c' =? QT) || (n - dist a' =? 0)) eqn:E0; [lia|].
  destruct (c' =? BSL) eqn:E4; [lia|]. rewrite (unutf8_long _ _ _ _ _ L') in E1. destruct f' as [|f']; [cbn [app length] in Lf; lia|]. discriminate E1.
Qed.
Lemma wr_inj a b : @Ok (list op) (wr a) = Ok (wr b) -> a = b.
Proof. intros E. assert (H : wr a = wr b) by congruence. apply (f_equal flat) in H. now rewrite !flat_wr in H. Qed.
Theorem survives_string s sn old : bytes s -> dist s <= 2147483647 ->
  ((exists b, ser string_codec s = Ok (wr b) /\ reads string_codec sn old b s []) <-> survives s).
Proof.
  intros Hb Hn. split.
  - intros (b & Es & R). destruct (str_ser_runs false (S (length s)) s ltac:(lia) Hb) as (p & q & l & E1 & E2 & E3 & E4 & _).
    assert (q = []) as -> by (destruct E2 as [->|[? _]]; [reflexivity|discriminate]). rewrite app_nil_r in E1. subst p.
    cbn [ser string_codec] in Es. unfold str_ser in Es. rewrite E4 in Es. cbn [bind] in Es. assert (b = QT :: l ++ [QT]) as -> by (symmetry; now apply wr_inj).
    assert (Bl : bytes (QT :: l ++ [QT])) by (constructor; [lia|]; apply Forall_app; split; [now apply sruns_bytes with s|constructor; [lia|constructor]]).
    apply (string_exact sn old _ _ _ Bl) in R. destruct R as [[R _]|(l' & R & L)]; [discriminate|]. injection R as R. apply app_inv_tail in R. subst l'.
    refine (proj2 (literal_survives false s [] l INT_MAX s [] _ _ E3 _ _ L eq_refl)); rewrite ?app_nil_r; auto; [discriminate|unfold INT_MAX; lia].
  - intros [N1 N2]. destruct (round_string s Hb N1) as (b & Es & D); [now rewrite survives_respelt|]. exists b. split; [exact Es|]. specialize (D sn old [] (Some no_error)).
    rewrite app_nil_r, survives_respelt in D by assumption. exact D.
Qed.
Theorem survives_chars N v sn old : bytes v -> length v = N ->
  ((exists b, ser (chars_codec N) v = Ok (wr b) /\ reads (chars_codec N) sn old b v []) <-> exists t, v = t ++ repeat 0 (N - length t) /\ survives t).
Proof.
  intros Hb HN. destruct (str_ser_runs true (S (length v)) v ltac:(lia) Hb) as (p & q & l & E1 & E2 & E3 & E4 & E5). assert (Es : ser (chars_codec N) v = Ok (wr (QT :: l ++ [QT]))).
  { cbn [ser chars_codec]. unfold chars_ser, str_ser. rewrite E4. reflexivity. }
  assert (Hp : bytes p) by (rewrite E1 in Hb; now apply Forall_app in Hb).
  assert (Bl : bytes (QT :: l ++ [QT])) by (constructor; [lia|]; apply Forall_app; split; [now apply sruns_bytes with p|constructor; [lia|constructor]]). split.
  - intros (b & Es' & R). rewrite Es in Es'. assert (b = QT :: l ++ [QT]) as -> by (symmetry; now apply wr_inj).
    apply (chars_exact N sn old _ _ _ Bl) in R. destruct R as [[R _]|(l' & w & R & L & Ev)]; [discriminate|]. injection R as R. apply app_inv_tail in R. subst l'.
    destruct (literal_survives true p q l (Z.of_nat N) w (repeat 0 (N - length w))) as [-> S]; [now rewrite <- E1|intros _; now apply E5|exact E3|now rewrite <- E1|lia|exact L|congruence|]. now exists p.
  - intros (t & Ev & S). exists (QT :: l ++ [QT]). split; [exact Es|].
    assert (t = p) as ->.
    { assert (Z0 : ~ In 0 t) by (intros H; apply (proj2 S 0 H); unfold ctl, short_ctl; lia). specialize (E5 eq_refl). rewrite E1 in Ev. clear - Ev E2 Z0 E5. revert Ev. generalize (N - length t)%nat as k. revert t Z0. induction p as [|x p IH]; intros [|y t] Z0 k Ev.
      - reflexivity.
      - exfalso. cbn [app] in Ev. subst q. destruct E2 as [E2|[_ (u & E2)]]; [discriminate|]. injection E2 as -> _. apply Z0. now left.
      - exfalso. cbn [app] in Ev. destruct k as [|k]; [discriminate|]. injection Ev as -> _. apply E5. now left.
      - injection Ev as -> Ev. f_equal. apply (IH (fun H => E5 (or_intror H)) t (fun H => Z0 (or_intror H)) k Ev). }
    destruct S as [S1 S2]. pose proof (sruns_read _ _ E3 Hp S1) as D. rewrite survives_respelt in D by assumption. unfold reads. cbn [des chars_codec]. unfold chars_des. change (is_null (QT :: l ++ [QT])) with false. cbv iota.
    assert (Lp : (length p <= N)%nat) by (rewrite <- HN, E1, app_length; lia). replace (QT :: l ++ [QT]) with ((QT :: l ++ [QT]) ++ []) by apply app_nil_r.
    rewrite (dchunks_unser l p [] _ _ D) by (unfold dist; lia). cbn [bind]. destruct (Nat.ltb_spec N (length p)); [lia|]. unfold chars_fill. now rewrite <- Ev.
Qed.

(** ---- the second time ---- *)
Lemma respelt_low c : 0 <= c <= 255 -> Forall (fun b => 0 <= b < 128 /\ ~ ctl b) (respelt1 c) \/ respelt1 c = [c] /\ 128 <= c.
Proof.
  intros H. destruct (respelt1_cases c H) as [[E N]|(C & a & b & A & B & _ & E)]; rewrite E.
  - destruct (Z_lt_le_dec c 128); [left|right; auto]. constructor; [split; [lia|exact N]|constructor].
  - left. unfold s_hex, ctl in *. repeat (apply Forall_cons; [lia|]). apply Forall_nil.
Qed.
Lemma respelt_bytes s : bytes s -> bytes (respelt s) /\ forall c, In c (respelt s) -> ~ ctl c.
Proof.
  induction 1 as [|c s H Hs [IH1 IH2]]; [split; [constructor|intros c []]|]. unfold respelt in *. cbn [flat_map]. destruct (respelt_low c H) as [L|[-> L]].
  - split; [apply Forall_app; split; [eapply Forall_impl; [|exact L]; cbn; lia|exact IH1]|]. intros x Hx. apply in_app_or in Hx. destruct Hx as [Hx|Hx]; [|now apply IH2]. rewrite Forall_forall in L. now apply L.
  - split; [now constructor|]. intros x [<-|Hx]; [unfold ctl; lia|now apply IH2].
Qed.
Lemma respelt_tail l : forall s b, bytes s -> Forall (fun c => 128 <= c) l -> respelt s = l ++ b -> exists b', s = l ++ b' /\ respelt b' = b.
Proof.
  induction l as [|x l IH]; intros s b Hs Hl E; [now exists s|]. inversion Hl as [|? ? Hx Hl']; subst. destruct s as [|c s]; [discriminate|]. inversion Hs as [|? ? Hc Hs']; subst.
  unfold respelt in E. cbn [flat_map] in E. fold (respelt s) in E. destruct (respelt_low c Hc) as [L|[R L]].
  - exfalso. destruct (respelt1 c) as [|y u] eqn:R; [unfold respelt1 in R; destruct (_ && _); discriminate|]. inversion L; subst. injection E as -> _. lia.
  - rewrite R in E. injection E as -> E. destruct (IH s b Hs' Hl' E) as (b' & -> & Hb). now exists b'.
Qed.
Lemma respelt_find s : forall a c t, bytes s -> 128 <= c -> respelt s = a ++ c :: t -> exists a' s', s = a' ++ c :: s' /\ respelt s' = t.
Proof.
  induction s as [|x s IH]; intros a c t Hs Hc E; [destruct a; discriminate|]. inversion Hs as [|? ? Hx Hs']; subst. unfold respelt in E. cbn [flat_map] in E. fold (respelt s) in E. symmetry in E.
  pose proof E as E0. apply split_first in E. destruct E as [(a' & -> & E)|(w2 & E)].
  - destruct (IH a' c t Hs' Hc E) as (a1 & s1 & -> & R). now exists (x :: a1), s1.
  - destruct (respelt_low x Hx) as [L|[R L]].
    + exfalso. rewrite E in L. apply Forall_app in L. destruct L as [_ L]. inversion L; lia.
    + exists [], s. rewrite R in E, E0. destruct a as [|y a]; [|destruct a; discriminate]. injection E as -> _. injection E0 as ->. split; reflexivity.
Qed.
Theorem respelt_settles s : bytes s -> ~ oversized s -> bytes (respelt s) /\ survives (respelt s).
Proof.
  intros Hb N. destruct (respelt_bytes s Hb) as [B C]. split; [exact B|]. split; [|exact C]. intros (a & c & k & l & b & E & W & K & L & Hl). apply N.
  assert (128 <= c) by (destruct W; lia). destruct (respelt_find s a c (l ++ b) Hb ltac:(assumption) E) as (a' & s' & -> & E2). apply Forall_app in Hb. destruct Hb as [_ Hb]. inversion Hb as [|? ? _ Hs']; subst.
  destruct (respelt_tail l s' b Hs') as (b' & -> & _); [eapply Forall_impl; [|exact Hl]; unfold s_cont; cbn; lia|exact E2|]. now exists a', c, (length l), l, b'.
Qed.
