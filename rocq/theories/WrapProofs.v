From Verif Require Import Base Parser SpecJson ParserFacts Grammar1 Grammar2 DespaceProofs ParserProps Out CodecLaws StringS SpecString StringProofs
  SpecSeq Array ArrayProofs Object ObjectProofs EnumProofs Wrap SpecWrap.

Lemma writes_fun {A} (c : codec A) v a b : writes c v a -> writes c v b -> a = b.
Proof. intros (x & H1 & <-) (y & H2 & <-). rewrite H1 in H2. injection H2 as ->. reflexivity. Qed.

(** ---- a decoded string is not longer than its literal ---- *)
Definition plen (s : buf) (k : Z) (p : piece) : Prop := let '(r, w, _, _) := p in dist w + dist r <= dist s + k.
Lemma dist_firstn n (l : buf) : dist (firstn n l) <= dist l.
Proof. unfold dist. rewrite firstn_length. lia. Qed.
Lemma uhex_emit_len hex a b c d s n e : plen s 6 (uhex_emit hex [a; b; c; d] s n e).
Proof.
  unfold uhex_emit, plen. pose proof (dist_pos s). destruct (hex <? 32).
  { destruct (_ || _); [rewrite dist_cons, dist_nil; lia|]. pose proof (dist_firstn (Z.to_nat (Z.min n 6)) [BSL; 117; a; b; c; d]) as K. cbn [length] in K. change (dist [BSL; 117; a; b; c; d]) with 6 in K. lia. }
  destruct (hex <=? 127); [rewrite dist_cons, dist_nil; lia|]. destruct (hex <=? 2047).
  { destruct (_ =? _); rewrite ?dist_cons, ?dist_nil; lia. }
  destruct (_ =? _); [rewrite ?dist_cons, ?dist_nil; lia|]. destruct (_ =? _); rewrite ?dist_cons, ?dist_nil; lia.
Qed.
Lemma uhex_len s n e : plen s 2 (uhex s n e).
Proof.
  unfold uhex. pose proof (dist_pos s). destruct (n =? 0); [cbn; lia|].
  destruct s as [|a s]; [cbn; lia|]. destruct (uchar2 a e) as [da e1]. destruct s as [|b s]; [cbn; lia|]. destruct (uchar2 b e1) as [db e2].
  destruct s as [|c s]; [cbn; lia|]. destruct (uchar2 c e2) as [dc e3]. destruct s as [|d s]; [cbn; lia|]. destruct (uchar2 d e3) as [dd e4].
  pose proof (uhex_emit_len (da * 4096 + db * 256 + dc * 16 + dd) a b c d s n e4) as K. unfold plen in *.
  destruct (uhex_emit _ _ _ _ _) as [[[r w] n'] e']. rewrite !dist_cons. lia.
Qed.
Lemma xhex_len s n e : plen s 2 (xhex s n e).
Proof.
  unfold xhex. pose proof (dist_pos s). destruct s as [|a s]; [cbn; lia|]. destruct (uchar2 a e) as [da e1]. destruct s as [|b s]; [cbn; lia|].
  destruct (uchar2 b e1) as [db e2]. unfold plen. rewrite !dist_cons, dist_nil. lia.
Qed.
Lemma utf8_copy_len k : forall s n e, plen s 0 (utf8_copy k s n e).
Proof.
  induction k as [|k IH]; intros s n e; cbn [utf8_copy]; [cbn; lia|]. destruct (n =? 0); [cbn; lia|]. destruct s as [|c t]; [cbn; lia|].
  specialize (IH t (n - 1) e). destruct (utf8_copy k t (n - 1) e) as [[[r w] n'] e']. unfold plen in *. rewrite !dist_cons. lia.
Qed.
Lemma unutf8_len c t n e : plen (c :: t) 0 (unutf8 c t n e).
Proof.
  unfold unutf8. pose proof (dist_pos t). destruct (_ =? _); [unfold plen; rewrite !dist_cons, dist_nil; lia|].
  destruct (_ =? _); [apply utf8_copy_len|]. destruct (_ =? _); [apply utf8_copy_len|]. destruct (_ =? _); [apply utf8_copy_len|].
  unfold plen. rewrite dist_cons, dist_nil. lia.
Qed.
Lemma str_loop_len f : forall s n e out r e' out', str_loop f s n e out = Ok (inl (r, e', out')) -> dist out' + dist r <= dist out + dist s.
Proof.
  induction f as [|f IH]; intros s n e out r e' out' H; [discriminate|]. cbn [str_loop] in H. destruct s as [|c t]; [injection H as <- <- <-; lia|].
  destruct (_ || _); [injection H as <- <- <-; lia|]. destruct (c =? BSL).
  - destruct t as [|d t]; [discriminate|]. destruct (unescape d) as [b|].
    + apply IH in H. rewrite !dist_cons. rewrite dist_app, dist_cons, dist_nil in H. lia.
    + destruct (d =? 117).
      * pose proof (uhex_len t n e) as K. destruct (uhex t n e) as [[[r1 w] n'] e1]. apply IH in H. unfold plen in K. rewrite dist_app in H. rewrite !dist_cons. lia.
      * destruct (d =? 120); [|discriminate]. pose proof (xhex_len t n e) as K. destruct (xhex t n e) as [[[r1 w] n'] e1]. apply IH in H. unfold plen in K. rewrite dist_app in H. rewrite !dist_cons. lia.
  - pose proof (unutf8_len c t n e) as K. destruct (unutf8 c t n e) as [[[r1 w] n'] e1]. apply IH in H. unfold plen in K. rewrite dist_app in H. lia.
Qed.
Lemma cerr_has c m t k : c <> ValidJSON -> has_err (cerr c m t (Some k)) = true.
Proof. intros H. unfold has_err, no_err_yet, cerr. destruct (is_err k) eqn:E; [now rewrite E|]. destruct c; [congruence|reflexivity..]. Qed.
Lemma estep_some s k e' : estep s (Some k) e' -> exists j, e' = Some j.
Proof. intros [->|(a & j & _ & _ & -> & _)]; eexists; reflexivity. Qed.
Lemma str_loop_inr f : forall s n k out e' out', 0 <= n -> str_loop f s n (Some k) out = Ok (inr (e', out')) -> has_err e' = true.
Proof.
  induction f as [|f IH]; intros s n k out e' out' Hn H; [discriminate|]. cbn [str_loop] in H. destruct s as [|c t]; [discriminate|].
  destruct ((c =? QT) || (n =? 0)) eqn:E0; [discriminate|]. destruct (c =? BSL).
  - destruct t as [|d t]; [injection H as <- <-; apply cerr_has; discriminate|]. destruct (unescape d) as [b|].
    + apply IH in H; [exact H|lia].
    + destruct (d =? 117).
      * pose proof (uhex_good t n (Some k) ltac:(lia)) as K. destruct (uhex t n (Some k)) as [[[r1 w] n'] e1]. destruct K as (_ & K & _ & K2). apply estep_some in K. destruct K as (j & ->).
        apply IH in H; [exact H|lia].
      * destruct (d =? 120); [|injection H as <- <-; apply cerr_has; discriminate].
        pose proof (xhex_good t n (Some k) ltac:(lia)) as K. destruct (xhex t n (Some k)) as [[[r1 w] n'] e1]. destruct K as (_ & K & _ & K2). apply estep_some in K. destruct K as (j & ->).
        apply IH in H; [exact H|lia].
  - pose proof (unutf8_good c t n (Some k) ltac:(lia)) as (K & _). destruct (unutf8 c t n (Some k)) as [[[r1 w] n'] e1]. destruct K as (_ & K & _ & K2). apply estep_some in K. destruct K as (j & ->).
    apply IH in H; [exact H|lia].
Qed.
Lemma null_len s k r e1 : is_null s = true -> parse_null s (Some k) = (r, e1) -> has_err e1 = false -> dist r + 1 <= dist s.
Proof.
  intros En. apply starts_inv in En. destruct En as (t & ->). unfold parse_null. change (110 =? 110) with true. cbv iota.
  pose proof (lit_chain_spec (text "ull") 0 t ltac:(lia)) as H. unfold finish_lit. destruct (lit_chain (text "ull") 0 t); intros Hq Hh; pose proof (f_equal fst Hq) as Hq1; apply (f_equal snd) in Hq; cbn [fst snd] in *; subst.
  - rewrite dist_cons, dist_app. change (dist (text "ull")) with 3. lia.
  - rewrite cerr_has in Hh; discriminate.
  - rewrite cerr_has in Hh; discriminate.
Qed.
Ltac cerr_case := let H := fresh in intros H; apply (f_equal (fun x => match x with Ok (_, _, e) => e | _ => None end)) in H; cbn beta iota in H; rewrite <- H, cerr_has; discriminate.
Lemma string_len sn old s k b r e1 : string_des sn old s (Some k) = Ok (b, r, e1) -> has_err e1 = false -> dist b + dist r + 1 <= dist s.
Proof.
  unfold string_des. destruct (is_null s) eqn:En.
  - destruct (parse_null s (Some k)) as [r0 e0] eqn:E. intros [= <- <- <-] Hh. rewrite dist_nil. apply null_len in E; auto.
  - unfold str_unser. destruct s as [|c t]; [cerr_case|].
    destruct (negb (c =? QT)); [cerr_case|].
    pose proof (str_loop_good (S (length t)) t INT_MAX (Some k) [] ltac:(lia) ltac:(unfold INT_MAX; lia)) as G.
    pose proof (str_loop_len (S (length t)) t INT_MAX (Some k) []) as K. pose proof (str_loop_inr (S (length t)) t INT_MAX k []) as KI.
    destruct (str_loop (S (length t)) t INT_MAX (Some k) []) as [[[[r1 e2] out]|[e2 out]]| |]; cbn [bind]; try discriminate.
    + specialize (K _ _ _ eq_refl). rewrite dist_nil in K. rewrite dist_cons. destruct G as (_ & G & _). apply estep_some in G. destruct G as (j & ->). destruct r1 as [|d t1].
      * cerr_case.
      * destruct (negb (d =? QT)); [cerr_case|]. intros [= <- <- <-] _. rewrite dist_cons in K. lia.
    + intros [= <- <- <-] Hh. specialize (KI _ _ ltac:(unfold INT_MAX; lia) eq_refl). congruence.
Qed.

(** ---- quoted ---- *)
Section Quoted.
  Context {A : Type} (J : codec A).
  Lemma quoted1_good : dlaw (des J) -> dlaw (quoted_des1 J).
  Proof.
    intros HJ sn old s e. unfold quoted_des1. apply dgood_bind; [apply string_dlaw|]. intros b r e1 A1 B1 E1.
    destruct (has_err e1) eqn:Eh; [split; [apply suffix_nil|exact B1]|].
    pose proof (HJ (Some 0) old b (Some no_error)) as G. destruct (des J (Some 0) old b (Some no_error)) as [[[v r2] e2]| |]; cbn [bind]; [|exact I|exact G].
    destruct G as (_ & G). destruct e1 as [j|]; [|destruct e2; now split]. destruct e2 as [k|]; [|now split]. destruct (is_err k) eqn:Ek; [|now split].
    split; [apply suffix_nil|]. destruct G as [G|(a & c & _ & _ & G & _ & Ht)]; [injection G as ->; discriminate|]. injection G as ->.
    unfold has_err, no_err_yet in Eh. apply negb_false_iff in Eh.
    assert (He : exists k0, e = Some k0 /\ is_err k0 = false).
    { destruct B1 as [B1|(k0 & j' & -> & Hk & _)]; [|now exists k0]. subst e. exists j. split; [reflexivity|]. now apply negb_true_iff in Eh. }
    destruct He as (k0 & -> & Hk). right. exists k0. eexists. split; [reflexivity|]. split; [exact Hk|]. split; [reflexivity|]. split; [exact Ek|]. cbn [tail_of].
    apply string_len in E1; [|unfold has_err, no_err_yet; now rewrite Eh]. pose proof (dist_pos r). lia.
  Qed.
  Theorem quoted_dlaw sq rq : dlaw (des J) -> dlaw (des (quoted_codec J sq rq)).
  Proof.
    intros HJ. cbn [des quoted_codec]. intros sn old s e. unfold quoted_des. destruct rq; [now apply quoted1_good|]. destruct (is_string s); [now apply quoted1_good|apply HJ].
  Qed.
  Lemma quoted1_safe : dsafe (des J) -> dsafe (quoted_des1 J).
  Proof.
    intros HJ sn old s e Hs. unfold quoted_des1. intros K. apply bind_ub in K. destruct K as [K|([[b r] e1] & _ & K)]; [now apply string_dsafe in K|].
    destruct (has_err e1); [discriminate|]. apply bind_ub in K. destruct K as [K|([[v r2] e2] & _ & K)].
    - revert K. apply HJ. exists 0. repeat split; discriminate.
    - destruct e1, e2; try discriminate. destruct (is_err j0); discriminate.
  Qed.
  Theorem quoted_dsafe sq rq : dsafe (des J) -> dsafe (des (quoted_codec J sq rq)).
  Proof.
    intros HJ. cbn [des quoted_codec]. intros sn old s e Hs. unfold quoted_des. destruct rq; [now apply quoted1_safe|]. destruct (is_string s); [now apply quoted1_safe|now apply HJ].
  Qed.

  Definition qdom (dom : A -> Prop) (v : A) : Prop := dom v /\ forall txt, writes J v txt -> str_dom txt.
  Theorem quoted_rt rq dom : rt J dom -> rt (quoted_codec J true rq) (qdom dom).
  Proof.
    intros HJ v (Hv & Hs). destruct (HJ v Hv) as (ops & E & _ & Hr). specialize (Hs (flat ops) (ex_intro _ ops (conj E eq_refl))).
    destruct (string_rt (flat ops) Hs) as (ops2 & E2 & Hh & Hr2). destruct (string_ser_any (flat ops) (str_dom_bytes _ (proj1 Hs))) as (l & E3 & _).
    assert (ops2 = wr (QT :: l ++ [QT])) as -> by congruence. rewrite flat_wr in Hh, Hr2.
    eexists. split; [cbn [ser quoted_codec quoted_ser]; rewrite E; exact E2|]. split; [now rewrite flat_wr|]. intros sn old r e Hf He. rewrite flat_wr.
    cbn [des quoted_codec]. assert (quoted_des1 J sn old ((QT :: l ++ [QT]) ++ r) e = Ok (v, r, e)) as K.
    { unfold quoted_des1. change (string_des sn [] ((QT :: l ++ [QT]) ++ r) e) with (des string_codec sn [] ((QT :: l ++ [QT]) ++ r) e). rewrite Hr2 by assumption. cbn [bind].
      unfold has_err. rewrite He. cbn [negb]. specialize (Hr (Some 0) old [] (Some no_error) I eq_refl). rewrite app_nil_r in Hr. rewrite Hr. cbn [bind]. destruct e; reflexivity. }
    unfold quoted_des. destruct rq; [exact K|]. change (is_string ((QT :: l ++ [QT]) ++ r)) with true. exact K.
  Qed.
  Theorem quoted_plain_rt dom : rt J dom -> rt (quoted_codec J false false) (fun v => dom v /\ not_starting J QT v).
  Proof.
    intros HJ v (Hv & Hs). destruct (HJ v Hv) as (ops & E & Hh & Hr). specialize (Hs (flat ops) (ex_intro _ ops (conj E eq_refl))).
    exists ops. split; [exact E|]. split; [exact Hh|]. intros sn old r e Hf He. cbn [des quoted_codec]. unfold quoted_des.
    destruct (is_string (flat ops ++ r)) eqn:Es; [|now apply Hr]. exfalso. apply Hs. apply starts_inv in Es. destruct Es as (t & Es). destruct Hh as (h & t2 & Eh & _).
    rewrite Eh in *. injection Es as -> _. now exists t2.
  Qed.
End Quoted.

(** ---- JSON text is UTF-8 without unescapable bytes ---- *)
Definition u8s (s : buf) : Prop := utf8 s /\ Forall str_char s.
Lemma utf8_app a b : utf8 a -> utf8 b -> utf8 (a ++ b).
Proof. induction 1 as [|cp s Hs Ha IH]; intros Hb; [exact Hb|]. rewrite <- app_assoc. constructor; auto. Qed.
Lemma u8s_app a b : u8s a -> u8s b -> u8s (a ++ b).
Proof. intros (A1 & A2) (B1 & B2). split; [now apply utf8_app|]. apply Forall_app. now split. Qed.
Lemma u8s_nil : u8s []. Proof. split; constructor. Qed.
Definition pasc (c : Z) : Prop := 32 <= c < 128 \/ c = 9 \/ c = 10 \/ c = 13.
Lemma u8s_cons c s : pasc c -> u8s s -> u8s (c :: s).
Proof.
  unfold pasc. intros H (A & B). split.
  - replace (c :: s) with (utf8_encode c ++ s). { constructor; [unfold scalar; lia|exact A]. } unfold utf8_encode. replace (c <? 128) with true by lia. reflexivity.
  - constructor; [|exact B]. unfold str_char, short_ctl. lia.
Qed.
Lemma u8s_asc s : Forall pasc s -> u8s s.
Proof. induction 1; [apply u8s_nil|now apply u8s_cons]. Qed.
Lemma u8s_ws w : ws w -> u8s w.
Proof. intros H. apply u8s_asc. eapply Forall_impl; [|exact H]. unfold s_ws, pasc. intros; lia. Qed.
Lemma u8s_digits w : digits w -> u8s w.
Proof. intros H. apply u8s_asc. eapply Forall_impl; [|exact H]. unfold s_digit, pasc. intros; lia. Qed.
Lemma u8s_encode cp : scalar cp -> 32 <= cp -> u8s (utf8_encode cp).
Proof.
  intros Hs Hc. split; [rewrite <- (app_nil_r (utf8_encode cp)); now constructor; [|constructor]|]. destruct Hs as (Hs & _). unfold utf8_encode, str_char.
  destruct (Z.ltb_spec cp 128); [repeat constructor; lia|].
  pose proof (Z.mod_pos_bound cp 64 ltac:(lia)). pose proof (Z.mod_pos_bound (cp / 64) 64 ltac:(lia)). pose proof (Z.mod_pos_bound (cp / 4096) 64 ltac:(lia)).
  destruct (Z.ltb_spec cp 2048). { pose proof (Z.div_lt_upper_bound cp 64 32). pose proof (Z.div_pos cp 64). repeat constructor; lia. }
  destruct (Z.ltb_spec cp 65536). { pose proof (Z.div_lt_upper_bound cp 4096 16). pose proof (Z.div_pos cp 4096). repeat constructor; lia. }
  pose proof (Z.div_lt_upper_bound cp 262144 5). pose proof (Z.div_pos cp 262144). repeat constructor; lia.
Qed.
Lemma u8s_rchars l : rchars l -> u8s l.
Proof.
  induction 1 as [|c l Hc Hl IH]; [apply u8s_nil|]. apply u8s_app; [|exact IH]. destruct Hc as [cp H1 H2 H3 H4|c Hc|a b c d H1 H2 H3 H4].
  - now apply u8s_encode.
  - apply u8s_asc. unfold s_esc in Hc. repeat constructor; unfold pasc; lia.
  - apply u8s_asc. unfold s_hex in *. repeat constructor; unfold pasc; lia.
Qed.
Lemma u8s_rstring l : rstring l -> u8s l.
Proof. destruct 1 as [l H]. apply u8s_cons; [unfold pasc; lia|]. apply u8s_app; [now apply u8s_rchars|]. apply u8s_cons; [unfold pasc; lia|apply u8s_nil]. Qed.
Lemma u8s_rnumber n : rnumber n -> u8s n.
Proof.
  destruct 1 as [m i f x Hm Hi Hf Hx]. apply u8s_app; [|apply u8s_app; [|apply u8s_app]].
  - destruct Hm; apply u8s_asc; repeat constructor; unfold pasc; lia.
  - destruct Hi as [|d ds Hd Hds]; [apply u8s_asc; repeat constructor; unfold pasc; lia|]. apply u8s_cons; [unfold pasc; lia|now apply u8s_digits].
  - destruct Hf as [|ds (_ & Hds)]; [apply u8s_nil|]. apply u8s_cons; [unfold pasc; lia|now apply u8s_digits].
  - destruct Hx as [|m0 sg ds H1 H2 (_ & H3)]; [apply u8s_nil|]. apply u8s_cons; [unfold pasc; lia|]. apply u8s_app; [|now apply u8s_digits].
    destruct H2 as [->|[->| ->]]; apply u8s_asc; repeat constructor; unfold pasc; lia.
Qed.
Lemma rvalue_u8s : (forall v, rvalue v -> u8s v) /\ (forall l, relems l -> u8s l) /\ (forall l, rmembers l -> u8s l).
Proof.
  assert (P : forall c, c = LBR \/ c = RBR \/ c = LCB \/ c = RCB \/ c = COMMA \/ c = COLON -> pasc c) by (unfold pasc; intros; lia).
  assert (L : forall x, Forall (fun c => 97 <= c <= 122) x -> u8s x).
  { intros x H. apply u8s_asc. eapply Forall_impl; [|exact H]. unfold pasc. intros; lia. }
  apply rjson_ind.
  - apply L. vm_compute. repeat constructor; discriminate.
  - apply L. vm_compute. repeat constructor; discriminate.
  - apply L. vm_compute. repeat constructor; discriminate.
  - intros. now apply u8s_rnumber.
  - intros. now apply u8s_rstring.
  - intros. apply u8s_cons; [apply P; tauto|]. apply u8s_app; [now apply u8s_ws|]. apply u8s_cons; [apply P; tauto|apply u8s_nil].
  - intros. apply u8s_cons; [apply P; tauto|]. apply u8s_app; [assumption|]. apply u8s_cons; [apply P; tauto|apply u8s_nil].
  - intros. apply u8s_cons; [apply P; tauto|]. apply u8s_app; [now apply u8s_ws|]. apply u8s_cons; [apply P; tauto|apply u8s_nil].
  - intros. apply u8s_cons; [apply P; tauto|]. apply u8s_app; [assumption|]. apply u8s_cons; [apply P; tauto|apply u8s_nil].
  - intros w1 v w2 H1 _ H2 H3. apply u8s_app; [now apply u8s_ws|]. apply u8s_app; [assumption|now apply u8s_ws].
  - intros w1 v w2 l H1 _ H2 H3 _ H4. apply u8s_app; [now apply u8s_ws|]. apply u8s_app; [assumption|]. apply u8s_app; [now apply u8s_ws|]. apply u8s_cons; [apply P; tauto|assumption].
  - intros w1 k w2 w3 v w4 H1 H2 H3 H4 _ H5 H6. apply u8s_app; [now apply u8s_ws|]. apply u8s_app; [now apply u8s_rstring|]. apply u8s_app; [now apply u8s_ws|].
    apply u8s_cons; [apply P; tauto|]. apply u8s_app; [now apply u8s_ws|]. apply u8s_app; [assumption|now apply u8s_ws].
  - intros w1 k w2 w3 v w4 l H1 H2 H3 H4 _ H5 H6 _ H7. apply u8s_app; [now apply u8s_ws|]. apply u8s_app; [now apply u8s_rstring|]. apply u8s_app; [now apply u8s_ws|].
    apply u8s_cons; [apply P; tauto|]. apply u8s_app; [now apply u8s_ws|]. apply u8s_app; [assumption|]. apply u8s_app; [now apply u8s_ws|]. apply u8s_cons; [apply P; tauto|assumption].
Qed.
Lemma utf8_bytes s : utf8 s -> bytes s.
Proof.
  induction 1 as [|cp s (Hs & _) _ IH]; [constructor|]. apply Forall_app. split; [|exact IH]. unfold utf8_encode.
  destruct (Z.ltb_spec cp 128); [repeat constructor; lia|].
  pose proof (Z.mod_pos_bound cp 64 ltac:(lia)). pose proof (Z.mod_pos_bound (cp / 64) 64 ltac:(lia)). pose proof (Z.mod_pos_bound (cp / 4096) 64 ltac:(lia)).
  destruct (Z.ltb_spec cp 2048). { pose proof (Z.div_lt_upper_bound cp 64 32). pose proof (Z.div_pos cp 64). repeat constructor; lia. }
  destruct (Z.ltb_spec cp 65536). { pose proof (Z.div_lt_upper_bound cp 4096 16). pose proof (Z.div_pos cp 4096). repeat constructor; lia. }
  pose proof (Z.div_lt_upper_bound cp 262144 5). pose proof (Z.div_pos cp 262144). repeat constructor; lia.
Qed.

Theorem quoted_json_rt {A} (J : codec A) rq dom : rt J dom -> jout J dom ->
  rt (quoted_codec J true rq) (fun v => dom v /\ forall txt, writes J v txt -> dist txt <= INT_MAX).
Proof.
  intros H1 H2 v (Hv & Hd). apply (quoted_rt J rq dom H1). split; [exact Hv|]. intros txt Ht. split; [|now apply Hd].
  destruct (H2 v Hv) as (ops & E & Hr). rewrite (writes_fun J v txt (flat ops) Ht (ex_intro _ ops (conj E eq_refl))). apply rvalue_u8s in Hr. exact (proj2 Hr).
Qed.
Theorem quoted_jout {A} (J : codec A) sq rq dom : jout J dom -> jout (quoted_codec J sq rq) dom.
Proof.
  intros HJ v Hv. destruct (HJ v Hv) as (ops & E & Hr). destruct sq; [|now exists ops]. apply rvalue_u8s in Hr. destruct Hr as (Hu & _).
  destruct (string_jout (flat ops) Hu) as (o2 & E2 & H2). exists o2. split; [|exact H2]. cbn [ser quoted_codec quoted_ser]. rewrite E. exact E2.
Qed.
Definition bout {A} (c : codec A) (dom : A -> Prop) : Prop := forall v, dom v -> exists ops, ser c v = Ok ops /\ bytes (flat ops).
Theorem quoted_wout {A} (J : codec A) rq dom : bout J dom -> wout (quoted_codec J true rq) dom.
Proof.
  intros HJ v Hv. destruct (HJ v Hv) as (ops & E & Hb). destruct (string_wout (flat ops) Hb) as (b & Eb). exists b. cbn [ser quoted_codec quoted_ser]. rewrite E. exact Eb.
Qed.
Theorem quoted_plain_wout {A} (J : codec A) rq dom : wout J dom -> wout (quoted_codec J false rq) dom.
Proof. intros HJ v Hv. exact (HJ v Hv). Qed.

(** nested quoting *)
Lemma sruns_len p l : sruns p l -> bytes p -> Forall str_char p -> Forall str_char l /\ dist l <= 6 * dist p.
Proof.
  induction 1 as [|w ch p l s t A Hr IH]; intros Hb Hd; [split; [constructor|cbn; lia]|].
  apply Forall_app in Hb. apply Forall_app in Hd. destruct Hb as (Hb1 & Hb2), Hd as (Hd1 & Hd2). destruct (IH Hb2 Hd2) as (I1 & I2).
  assert (K : Forall str_char ch /\ dist ch <= 6 * dist w).
  { destruct A as [c t0 E Hc|c t0 E Hc H1 H2 H3|c k l0 t0 E Hl Hk Hcont|c t0 E Hc].
    - inversion Hd1 as [|? ? Hc1 _]; subst. assert (K : c = QT \/ c = BSL \/ c = SLASH \/ c = 8 \/ c = 9 \/ c = 10 \/ c = 12 \/ c = 13) by (unfold str_char, short_ctl in Hc1; lia).
      destruct K as [->|[->|[->|[->|[->|[->|[->| ->]]]]]]]; (split; [repeat constructor; unfold str_char, short_ctl; lia|cbn; lia]).
    - split; [exact Hd1|]. pose proof (dist_pos [c]). lia.
    - split; [exact Hd1|]. pose proof (dist_pos (c :: l0)). lia.
    - unfold serialize_hex. destruct (Z.ltb_spec c 128); [lia|]. split; [|cbn; lia].
      assert (0 <= c / 16 < 16) by (pose proof (Z.div_pos c 16); pose proof (Z.div_lt_upper_bound c 16 16); lia). pose proof (Z.mod_pos_bound c 16 ltac:(lia)).
      repeat constructor; unfold str_char, hexdigit; try lia; destruct (Z.ltb_spec (c / 16) 10); destruct (Z.ltb_spec (c mod 16) 10); lia. }
  destruct K as (K1 & K2). split; [now apply Forall_app|]. rewrite !dist_app. lia.
Qed.
Lemma quoted_text s : Forall str_char s -> exists txt, ser string_codec s = Ok (wr txt) /\ Forall str_char txt /\ dist txt + 1 <= 6 * (dist s + 1).
Proof.
  intros Hd. pose proof (str_dom_bytes s Hd) as Hb.
  destruct (str_ser_runs false (S (length s)) s ltac:(lia) Hb) as (p & q & l & E1 & E2 & E3 & E4 & _).
  assert (q = []) as -> by (destruct E2 as [->|[? _]]; [reflexivity|discriminate]). rewrite app_nil_r in E1. subst p.
  exists (QT :: l ++ [QT]). split; [cbn [ser string_codec]; unfold str_ser; rewrite E4; reflexivity|]. destruct (sruns_len s l E3 Hb Hd) as (H1 & H2).
  split; [constructor; [unfold str_char; lia|apply Forall_app; split; [exact H1|repeat constructor; unfold str_char; lia]]|].
  rewrite dist_cons, dist_app, dist_cons, dist_nil. lia.
Qed.
Fixpoint nest {A} (n : nat) (rq : bool) (J : codec A) : codec A := match n with O => J | S n => quoted_codec (nest n rq J) true rq end.
Theorem nest_rt {A} (J : codec A) rq dom n : rt J dom ->
  rt (nest n rq J) (fun v => dom v /\ forall txt, writes J v txt -> Forall str_char txt /\ (dist txt + 1) * 6 ^ Z.of_nat n <= INT_MAX).
Proof.
  intros HJ.
  assert (W : forall v, dom v -> (forall txt, writes J v txt -> Forall str_char txt) -> forall k, exists txt, writes (nest k rq J) v txt /\ Forall str_char txt /\
    forall t0, writes J v t0 -> dist txt + 1 <= (dist t0 + 1) * 6 ^ Z.of_nat k).
  { intros v Hv Hw. destruct (HJ v Hv) as (ops & E & _). assert (W0 : writes J v (flat ops)) by (now exists ops). induction k as [|k (txt & (o & E1 & Ef) & H2 & H3)].
    - exists (flat ops). split; [exact W0|]. split; [now apply Hw|]. intros t0 Ht. rewrite (writes_fun J v t0 (flat ops) Ht W0). cbn. lia.
    - destruct (quoted_text txt H2) as (t2 & E2 & H4 & H5). exists t2. split; [exists (wr t2); split; [|apply flat_wr]|].
      + cbn [nest ser quoted_codec quoted_ser]. rewrite E1. cbn [bind]. rewrite Ef. exact E2.
      + split; [exact H4|]. intros t0 Ht. specialize (H3 t0 Ht). rewrite Nat2Z.inj_succ, Z.pow_succ_r by lia. lia. }
  assert (P : forall k, 0 < 6 ^ Z.of_nat k) by (intros; apply Z.pow_pos_nonneg; lia).
  induction n as [|n IH]; intros v (Hv & Hw).
  - exact (HJ v Hv).
  - cbn [nest]. apply (quoted_rt (nest n rq J) rq _ IH). assert (E6 : 6 ^ Z.of_nat (S n) = 6 * 6 ^ Z.of_nat n) by (rewrite Nat2Z.inj_succ, Z.pow_succ_r; lia). split.
    + split; [exact Hv|]. intros txt Ht. destruct (Hw txt Ht) as (H1 & H2). split; [exact H1|]. rewrite E6 in H2. specialize (P n). pose proof (dist_pos txt). nia.
    + intros txt Ht. destruct (W v Hv (fun t H => proj1 (Hw t H)) n) as (t2 & W2 & H1 & H2). rewrite (writes_fun _ v txt t2 Ht W2). split; [exact H1|].
      destruct (HJ v Hv) as (ops & E & _). assert (W0 : writes J v (flat ops)) by (now exists ops). specialize (H2 _ W0). destruct (Hw _ W0) as (_ & H3). rewrite E6 in H3. specialize (P n). pose proof (dist_pos (flat ops)). nia.
Qed.

(** ---- raw_value, iterator_pair, raw_quoted ---- *)
Lemma pv_inv sn s e : (exists r e', parse_value sn s e = Ok (r, e') /\ suffix r s /\ estep s e e') \/ (sn = None /\ parse_value sn s e = UB).
Proof.
  destruct (parse_law sn s) as [(r & o & H & H1 & _)|(Hs & H)]; [left|right; split; [exact Hs|apply H]].
  exists r, (app_err e o). split; [apply H|]. destruct H1 as (A & B & _). split; [exact A|now apply estep_app].
Qed.
Theorem raw_dlaw : dlaw raw_des.
Proof. intros sn old s e. unfold raw_des. destruct (pv_inv sn s e) as [(r & e' & -> & A & B)|(_ & ->)]; [now split|exact I]. Qed.
Theorem raw_dsafe : dsafe raw_des.
Proof. intros sn old s e (c & -> & _). unfold raw_des. destruct (pv_inv (Some c) s e) as [(r & e' & -> & A & B)|(K & _)]; discriminate. Qed.
Lemma raw_read sn old v r e : waccept v r -> raw_des sn old (v ++ r) e = Ok (v, r, e).
Proof. intros H. unfold raw_des. rewrite (parse_complete sn v r e H : parse_value sn (v ++ r) e = _). cbn [bind]. now rewrite range_app. Qed.
Lemma wvalue_follow v r : wvalue v -> follow r -> waccept v r.
Proof. intros H1 H2. split; [exact H1|]. intros _. now apply follow_num_stop. Qed.
Lemma wvalue_nonempty v : wvalue v -> exists c t, v = c :: t /\ vstart c. Proof. apply wvalue_head. Qed.
Theorem raw_rt : rt raw_codec wvalue.
Proof.
  intros v Hv. destruct (wvalue_head v Hv) as (c & t & E & Hc). exists (wr v). split; [cbn [ser raw_codec]; unfold raw_ser; now rewrite E|]. rewrite flat_wr.
  split; [now exists c, t|]. intros sn old r e Hf _. apply raw_read. now apply wvalue_follow.
Qed.
Theorem raw_jout : jout raw_codec (fun v => v = [] \/ rvalue v).
Proof.
  intros v [->|Hv]; [exists (wr [QT; QT]); split; [reflexivity|]; apply rv_str, (rstr []); constructor|].
  exists (wr v). destruct (rvalue_head v Hv) as (c & t & E & _). split; [cbn [ser raw_codec]; unfold raw_ser; now rewrite E|]. now rewrite flat_wr.
Qed.
Theorem raw_wout : wout raw_codec (fun _ => True).
Proof. intros [|c v] _; eexists; reflexivity. Qed.
(** whatever the input and the outcome: captured bytes + rest = input *)
Theorem raw_capture sn old s e v r e' : raw_des sn old s e = Ok (v, r, e') -> s = v ++ r.
Proof.
  unfold raw_des. destruct (pv_inv sn s e) as [(r0 & e0 & -> & (p & ->) & B)|(_ & ->)]; [|discriminate]. cbn [bind]. rewrite range_app. intros [= <- <- _]. reflexivity.
Qed.
Theorem raw_exact sn old s v r : bytes s -> (raw_des sn old s (Some no_error) = Ok (v, r, Some no_error) <-> s = v ++ r /\ waccept v r).
Proof.
  intros Hb. split.
  - intros H. pose proof (raw_capture _ _ _ _ _ _ _ H) as E. split; [exact E|]. unfold raw_des in H.
    destruct (parse_value sn s (Some no_error)) as [[r0 e0]| |] eqn:Ep; try discriminate. cbn [bind] in H. injection H as _ -> ->.
    apply parse_exact in Ep; [|exact Hb]. destruct Ep as (v' & E' & Hw). rewrite E in E'. apply app_inv_tail in E'. now subst.
  - intros (-> & H). now apply raw_read.
Qed.

Theorem rquoted_dlaw rq : dlaw (rquoted_des rq).
Proof.
  intros sn old s e. unfold rquoted_des. destruct s as [|c t]; [apply dgood_err; [discriminate|cbn; lia]|]. pose proof (dist_pos (c :: t)).
  destruct (rq && negb (c =? QT)); [apply dgood_err; [discriminate|lia]|].
  cbv zeta. match goal with |- context [parse_value sn ?x e] => set (s1 := x) end.
  assert (Hs : suffix s1 (c :: t)) by (unfold s1; destruct rq; auto with suf).
  destruct (pv_inv sn s1 e) as [(r & e1 & -> & A & B)|(_ & ->)]; [|exact I]. cbn [bind].
  assert (A1 : suffix r (c :: t)) by (now apply suffix_trans with s1). assert (B1 : estep (c :: t) e e1) by (now apply (estep_weaken _ _ _ _ Hs)).
  destruct (has_err e1); [now split|]. destruct rq; [|now split]. destruct r as [|d r']; [apply dg_err; [discriminate|lia|exact B1]|].
  destruct (d =? QT); [split; [now apply suffix_tl in A1|exact B1]|]. apply dg_err; [discriminate| |exact B1]. apply suffix_dist in A1. pose proof (dist_pos (d :: r')). lia.
Qed.
Theorem rquoted_dsafe rq : dsafe (rquoted_des rq).
Proof.
  intros sn old s e (x & -> & _). unfold rquoted_des. destruct s as [|c t]; [discriminate|]. destruct (rq && _); [discriminate|].
  cbv zeta. match goal with |- context [parse_value (Some x) ?y e] => set (s1 := y) end. destruct (pv_inv (Some x) s1 e) as [(r & e1 & -> & A & B)|(K & _)]; [|discriminate]. cbn [bind].
  destruct (has_err e1); [discriminate|]. destruct rq; [|discriminate]. destruct r; [discriminate|]. destruct (_ =? _); discriminate.
Qed.
Theorem rquoted_rt b : rt (rquoted_codec b b) wvalue.
Proof.
  intros v Hv. destruct (wvalue_head v Hv) as (c & t & E & Hc). eexists. split; [reflexivity|].
  replace (flat (if b then [W QT; Sub (wr v); W QT] else [Sub (wr v)])) with (if b then QT :: v ++ [QT] else v).
  2:{ destruct b; [change [W QT; Sub (wr v); W QT] with ([W QT] ++ [Sub (wr v)] ++ [W QT]); rewrite !flat_app|]; rewrite flat_sub, flat_wr; reflexivity. }
  split; [destruct b; [exists QT; eexists; split; [reflexivity|apply qt_vstart]|now exists c, t]|]. intros sn old r e Hf He. cbn [des rquoted_codec]. unfold rquoted_des.
  destruct b.
  - cbn [app]. change (true && negb (QT =? QT)) with false. cbv iota. rewrite <- app_assoc. cbn [app].
    assert (Ha : waccept v (QT :: r)) by (apply wvalue_follow; [exact Hv|unfold follow, s_digit; lia]).
    rewrite (parse_complete sn v (QT :: r) e Ha : parse_value sn (v ++ QT :: r) e = _). cbn [bind]. unfold has_err. rewrite He. cbn [negb]. change (QT =? QT) with true. cbv iota. now rewrite range_app.
  - rewrite E. cbn [app andb]. change (c :: t ++ r) with ((c :: t) ++ r). rewrite <- E.
    assert (Ha : waccept v r) by (now apply wvalue_follow). rewrite (parse_complete sn v r e Ha : parse_value sn (v ++ r) e = _). cbn [bind]. unfold has_err. rewrite He. cbn [negb]. now rewrite range_app.
Qed.

(** ---- pointer ---- *)
Section Ptr.
  Context {A : Type} (J : codec A) (d0 : A).
  Lemma skipn_suffix n (s : buf) : suffix (skipn n s) s.
  Proof. exists (firstn n s). symmetry. apply firstn_skipn. Qed.
  Theorem ptr_dlaw : dlaw (des J) -> dlaw (ptr_des J d0).
  Proof.
    intros HJ sn old s e. unfold ptr_des. destruct s as [|c t]; [split; [apply suffix_nil|apply estep_refl]|]. destruct (negb (c =? 110)).
    - apply dgood_bind; [apply HJ|]. intros v r e' H1 H2 _. now split.
    - split; [apply skipn_suffix|apply estep_refl].
  Qed.
  Theorem ptr_dsafe : dsafe (des J) -> dsafe (ptr_des J d0).
  Proof.
    intros HJ sn old s e Hs. unfold ptr_des. destruct s as [|c t]; [discriminate|]. destruct (negb (c =? 110)); [|discriminate]. intros K. apply bind_ub in K.
    destruct K as [K|([[v r] e1] & _ & K)]; [now apply HJ in K|discriminate].
  Qed.
  Definition pdom (dom : A -> Prop) (o : option A) : Prop := match o with None => True | Some v => dom v /\ not_starting J 110 v end.
  Theorem ptr_rt dom : rt J dom -> rt (ptr_codec J d0) (pdom dom).
  Proof.
    intros HJ [v|] Hd.
    - destruct Hd as (Hv & Hs). destruct (HJ v Hv) as (ops & E & (h & t & Eh & Hh) & Hr). exists ops. split; [exact E|]. split; [now exists h, t|].
      intros sn old r e Hf He. cbn [des ptr_codec]. unfold ptr_des. specialize (Hr sn d0 r e Hf He). assert (h <> 110).
      { intros ->. apply (Hs (flat ops)); [now exists ops|]. now exists t. }
      rewrite Eh in *. cbn [app] in *. replace (h =? 110) with false by lia. cbn [negb]. rewrite Hr. reflexivity.
    - eexists. split; [reflexivity|]. split; [exists 110; eexists; split; [reflexivity|unfold vstart; lia]|]. intros sn old r e _ _. reflexivity.
  Qed.
  Theorem ptr_jout dom : jout J dom -> jout (ptr_codec J d0) (fun o => match o with None => True | Some v => dom v end).
  Proof. intros HJ [v|] Hv; [exact (HJ v Hv)|]. eexists. split; [reflexivity|]. apply rv_null. Qed.
  Theorem ptr_null : null_reads (ptr_codec J d0) (fun _ => None).
  Proof. intros sn old r e. reflexivity. Qed.
End Ptr.
