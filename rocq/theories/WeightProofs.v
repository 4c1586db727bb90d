(** What is read holds no more than the bytes it was read from. *)
From Verif Require Import Base Parser ParserFacts SpecJson Grammar1 Grammar2 Out Number StringS Array Unord Object ObjectArray SpecObject Enum Wrap TimeSize Float CodecLaws
  NumberProofs StringProofs ArrayProofs ObjectProofs EnumProofs DespaceProofs WrapProofs TimeProofs SizeProofs FloatProofs Desc DescProofs DepthProofs SpecWeight.

Definition wle {A} (w : A -> nat) (k : nat) (x : res (A * buf * eptr)) : Prop :=
  match x with Ok (v, r, _) => (w v + length r <= k)%nat | _ => True end.
Definition wlaw {A} (w : A -> nat) (c : codec A) : Prop := forall sn old s e, wle w (w old + length s) (des c sn old s e).
Definition nlaw {A} (w : A -> nat) (c : codec A) : Prop := forall sn old s e, is_null s = true ->
  match des c sn old s e with Ok (v, _, _) => (w v <= w old)%nat | _ => True end.

Lemma wle_le {A} (w : A -> nat) k k' x : wle w k x -> (k <= k')%nat -> wle w k' x.
Proof. destruct x as [[[v r] e]| |]; cbn; auto. intros. lia. Qed.
Lemma wle_bind {A B} (w : A -> nat) (w' : B -> nat) k k' (x : res (A * buf * eptr)) f :
  wle w k x -> (forall v r e, (w v + length r <= k)%nat -> wle w' k' (f (v, r, e))) -> wle w' k' (bind x f).
Proof. destruct x as [[[v r] e]| |]; cbn [wle bind]; auto. Qed.
Lemma space_len s e r e' : parse_space s e = (r, e') -> (length r <= length s)%nat.
Proof. intros H. apply suffix_len. exact (proj1 (space_estep _ _ _ _ H)). Qed.
Lemma null_len s e r e' : parse_null s e = (r, e') -> (length r <= length s)%nat.
Proof. destruct (null_good s) as (r0 & o & A & B & _). rewrite A. intros [= <- _]. now apply suffix_len. Qed.

(** scalars *)
Lemma zero_wlaw {A} (c : codec A) : dlaw (des c) -> wlaw (fun _ => 0%nat) c.
Proof.
  intros H sn old s e. specialize (H sn old s e). destruct (des c sn old s e) as [[[v r] e']| |]; cbn in *; auto.
  destruct H as (H & _). apply suffix_len in H. lia.
Qed.
Lemma zero_nlaw {A} (c : codec A) : nlaw (fun _ => 0%nat) c.
Proof. intros sn old s e _. destruct (des c sn old s e) as [[[v r] e']| |]; auto. Qed.

(** strings *)
Definition ple (k : nat) (p : piece) : Prop := let '(r, w, _, _) := p in (length w + length r <= k)%nat.
Lemma emit_ple hex a b c d s n e : ple (length s + 6) (uhex_emit hex [a; b; c; d] s n e).
Proof.
  unfold uhex_emit. repeat match goal with |- ple _ (if ?x then _ else _) => destruct x | |- ple _ (let _ := _ in _) => cbv zeta end; cbn [ple length]; try lia.
  pose proof (firstn_le_length (Z.to_nat (Z.min n 6)) [BSL; 117; a; b; c; d]). cbn [length] in *. lia.
Qed.
Lemma uhex_ple s n e : ple (length s + 2) (uhex s n e).
Proof.
  unfold uhex. destruct (n =? 0); [cbn; lia|].
  destruct s as [|a s]; [cbn; lia|]. destruct (uchar2 a e) as [da e1].
  destruct s as [|b s]; [cbn; lia|]. destruct (uchar2 b e1) as [db e2].
  destruct s as [|c s]; [cbn; lia|]. destruct (uchar2 c e2) as [dc e3].
  destruct s as [|d s]; [cbn; lia|]. destruct (uchar2 d e3) as [dd e4].
  pose proof (emit_ple (da * 4096 + db * 256 + dc * 16 + dd) a b c d s n e4) as H.
  destruct (uhex_emit _ _ s n e4) as [[[r w] n'] e']. cbn [ple length] in *. lia.
Qed.
Lemma xhex_ple s n e : ple (length s) (xhex s n e).
Proof.
  unfold xhex. destruct s as [|a s]; [cbn; lia|]. destruct (uchar2 a e) as [da e1].
  destruct s as [|b s]; [cbn; lia|]. destruct (uchar2 b e1) as [db e2]. cbn. lia.
Qed.
Lemma copy_ple k : forall s n e, ple (length s) (utf8_copy k s n e).
Proof.
  induction k as [|k IH]; intros s n e; cbn [utf8_copy]; [cbn; lia|].
  destruct (n =? 0); [cbn; lia|]. destruct s as [|c s]; [cbn; lia|].
  specialize (IH s (n - 1) e). destruct (utf8_copy k s (n - 1) e) as [[[r w] n'] e']. cbn [ple length] in *. lia.
Qed.
Lemma unutf8_ple c t n e : ple (S (length t)) (unutf8 c t n e).
Proof.
  unfold unutf8. repeat match goal with |- ple _ (if ?x then _ else _) => destruct x end; try (cbn; lia);
    exact (copy_ple _ (c :: t) n e).
Qed.
Definition sle (k : nat) (x : res ((buf * eptr * buf) + (eptr * buf))) : Prop :=
  match x with
  | Ok (inl (r, _, out)) => (length out + length r <= k)%nat
  | Ok (inr (_, out)) => (length out <= k)%nat
  | _ => True
  end.
Lemma str_loop_sle f : forall s n e out, sle (length out + length s) (str_loop f s n e out).
Proof.
  induction f as [|f IH]; intros s n e out; [exact I|]. cbn [str_loop].
  assert (IH' : forall k s n e out, (length out + length s <= k)%nat -> sle k (str_loop f s n e out)).
  { intros k s' n' e' out' H. specialize (IH s' n' e' out'). unfold sle in *. destruct (str_loop f s' n' e' out') as [[[[a b] c]|[a b]]| |]; auto; lia. }
  destruct s as [|c t]; [cbn; lia|]. destruct (_ || _); [cbn [sle]; lia|].
  destruct (c =? BSL).
  - destruct t as [|d t']; [cbn; lia|]. destruct (unescape d) as [b|].
    + apply IH'. rewrite app_length. cbn [length]. lia.
    + destruct (d =? 117).
      { pose proof (uhex_ple t' n e) as H. destruct (uhex t' n e) as [[[r w] n'] e']. apply IH'. rewrite app_length. cbn [ple length] in *. lia. }
      destruct (d =? 120); [|cbn; lia].
      pose proof (xhex_ple t' n e) as H. destruct (xhex t' n e) as [[[r w] n'] e']. apply IH'. rewrite app_length. cbn [ple length] in *. lia.
  - pose proof (unutf8_ple c t n e) as H. destruct (unutf8 c t n e) as [[[r w] n'] e']. apply IH'. rewrite app_length. cbn [ple length] in *. lia.
Qed.
Lemma str_unser_wle s n e : wle (@length Z) (length s) (str_unser s n e).
Proof.
  unfold str_unser. destruct s as [|c t]; [cbn; lia|]. destruct (negb (c =? QT)); [cbn; lia|].
  pose proof (str_loop_sle (S (length t)) t n e []) as H. destruct (str_loop _ t n e []) as [[[[r e1] out]|[e1 out]]| |]; cbn [bind wle sle length] in *; auto; [|lia].
  destruct r as [|d t1]; [cbn in *; lia|]. destruct (negb (d =? QT)); cbn [wle length] in *; lia.
Qed.
Lemma string_wlaw : wlaw (@length Z) string_codec.
Proof.
  intros sn old s e. cbn [des string_codec]. unfold string_des. destruct (is_null s).
  - destruct (parse_null s e) as [r e'] eqn:E. apply null_len in E. cbn. lia.
  - apply (wle_le _ (length s)); [apply str_unser_wle|lia].
Qed.
Lemma string_nlaw : nlaw (@length Z) string_codec.
Proof. intros sn old s e H. cbn [des string_codec]. unfold string_des. rewrite H. destruct (parse_null s e). cbn. lia. Qed.

(** raw values *)
Lemma range_len s r : suffix r s -> (length (range s r) + length r = length s)%nat.
Proof. intros (x & ->). rewrite range_app, app_length. lia. Qed.
Lemma raw_wlaw : wlaw (@length Z) raw_codec.
Proof.
  intros sn old s e. cbn [des raw_codec]. unfold raw_des. destruct (parse_value sn s e) as [[r e1]| |] eqn:E; cbn [bind wle]; auto.
  apply (value_tails sn (S (length s))) in E. apply range_len in E. lia.
Qed.
Lemma rquoted_wlaw serq reqq : wlaw (@length Z) (rquoted_codec serq reqq).
Proof.
  intros sn old s e. cbn [des rquoted_codec]. unfold rquoted_des. destruct s as [|c t]; [cbn; lia|].
  destruct (reqq && negb (c =? QT)); [cbn; lia|]. cbv zeta.
  set (s1 := if reqq then t else c :: t). assert (L : (length s1 <= S (length t))%nat) by (unfold s1; destruct reqq; cbn; lia).
  destruct (parse_value sn s1 e) as [[r e1]| |] eqn:E; cbn [bind wle]; auto.
  apply (value_tails sn (S (length s1))) in E. apply range_len in E.
  destruct (has_err e1); [cbn [wle length]; lia|]. destruct reqq; [|cbn [wle length]; lia].
  destruct r as [|d r']; [cbn [wle length]; lia|]. destruct (d =? QT); cbn [wle length] in *; lia.
Qed.
Lemma rquoted_nlaw serq : nlaw (@length Z) (rquoted_codec serq true).
Proof.
  intros sn old s e H. cbn [des rquoted_codec]. unfold rquoted_des. destruct s as [|c t]; [cbn; lia|].
  cbn [andb]. unfold is_null, starts in H. destruct (c =? QT) eqn:Ec; cbn [negb]; [|cbn; lia].
  exfalso. lia.
Qed.

(** containers *)
Lemma seq_loop_wle {A S} (w : A -> nat) (m : S -> nat) (item : A -> buf -> eptr -> res (A * buf * eptr)) ins d0 R :
  (forall s e, wle w (length s) (item d0 s e)) -> (forall st x, (m (ins st x) <= m st + 1 + w x)%nat) ->
  forall f st s e, wle m (m st + length s + 1) (seq_loop item ins d0 R f st s e).
Proof.
  intros Hi Hm. induction f as [|f IH]; intros st s e; [exact I|]. cbn [seq_loop].
  destruct s as [|c0 s0]; [cbn; lia|]. destruct (parse_space (c0 :: s0) e) as [s1 e1] eqn:E1. apply space_len in E1.
  remember (c0 :: s0) as s.
  destruct s1 as [|c t1]; [cbn; lia|]. destruct (c =? R); [cbn [wle length] in *; lia|].
  apply (wle_bind w m (length (c :: t1))); [apply Hi|]. intros x s2 e2 H2.
  destruct (parse_space s2 e2) as [s3 e3] eqn:E3. apply space_len in E3. specialize (Hm st x).
  destruct s3 as [|d t3]; [cbn [wle length] in *; lia|]. destruct (d =? R); [cbn [wle length] in *; lia|].
  destruct (negb (d =? COMMA)); [cbn [wle length] in *; lia|].
  eapply wle_le; [apply IH|]. cbn [length] in *. lia.
Qed.
Lemma seq_wle {A C S} (w : A -> nat) (m : S -> nat) (wc : C -> nat) (k : container A C S) L R (c : codec A) d0 sn old s e :
  wlaw w c -> w d0 = 0%nat -> m (c_new k) = 0%nat -> (forall st x, (m (c_ins k st x) <= m st + 1 + w x)%nat) -> (forall st, (wc (c_get k st) <= m st)%nat) ->
  wle wc (length s) (seq_des k L R c d0 sn old s e) /\
  (is_null s = true -> match seq_des k L R c d0 sn old s e with Ok (v, _, _) => wc v = 0%nat | _ => True end).
Proof.
  intros Hc H0 Hn Hi Hg. unfold seq_des. pose proof (Hg (c_new k)) as G0. split; destruct (is_null s) eqn:Es; try discriminate.
  - destruct (parse_null s e) as [r e'] eqn:E. apply null_len in E. cbn [wle]. lia.
  - destruct s as [|c0 t]; [cbn [wle length]; lia|]. destruct (negb (c0 =? L)); [cbn [wle length]; lia|].
    eapply wle_bind.
    + apply (seq_loop_wle w m (des c sn) (c_ins k) d0 R); [|exact Hi]. intros s e0. eapply wle_le; [apply Hc|]. lia.
    + intros st r e' H. cbn [wle length]. specialize (Hg st). lia.
  - intros _. destruct (parse_null s e). lia.
Qed.
Lemma load_app {A} (w : A -> nat) a b : load w (a ++ b) = (load w a + load w b)%nat.
Proof. unfold load. rewrite app_length. induction a as [|x a IH]; cbn [app total length] in *; lia. Qed.
Lemma load_cons {A} (w : A -> nat) x l : load w (x :: l) = (1 + w x + load w l)%nat.
Proof. unfold load. cbn. lia. Qed.
Lemma set_insert_load {A} (w : A -> nat) lt x l : (load w (set_insert lt x l) <= load w l + 1 + w x)%nat.
Proof.
  induction l as [|y l IH]; cbn [set_insert]; [unfold load; cbn; lia|].
  destruct (lt x y); [rewrite !load_cons; lia|]. destruct (lt y x); [|lia]. rewrite !load_cons. lia.
Qed.
Lemma multi_insert_load {A} (w : A -> nat) lt st x : (load w (fst (multi_insert lt st x)) <= load w (fst st) + 1 + w x)%nat.
Proof.
  destruct st as [l h]. cbn [multi_insert fst]. unfold insert_at. rewrite load_app, load_cons.
  set (n := Nat.max _ _). rewrite <- (firstn_skipn n l) at 3. rewrite load_app. lia.
Qed.

Lemma field_wlaw {K V} (wk : K -> nat) (wv : V -> nat) kc vc : wlaw wk kc -> wlaw wv vc ->
  wlaw (fun p => (wk (fst p) + wv (snd p))%nat) (field_codec kc vc).
Proof.
  intros Hk Hv sn old s e. cbn [des field_codec]. unfold field_des.
  eapply wle_bind; [apply Hk|]. intros k s1 e1 H1. destruct (parse_space s1 e1) as [s2 e2] eqn:E2. apply space_len in E2.
  destruct s2 as [|c t]; [cbn [wle fst snd length] in *; lia|]. destruct (negb (c =? COLON)); [cbn [wle fst snd length] in *; lia|].
  destruct (parse_space t e2) as [s3 e3] eqn:E3. apply space_len in E3.
  destruct s3 as [|c3 t3]; [cbn [wle fst snd length] in *; lia|].
  eapply wle_bind; [apply Hv|]. intros v s4 e4 H4. cbn [wle fst snd length] in *. lia.
Qed.

Section SeqLaws.
  Context {A : Type} (w : A -> nat) (c : codec A) (d0 : A) (L R : Z) (Hc : wlaw w c) (H0 : w d0 = 0%nat).
  Lemma vec_laws : wlaw (load w) (seq_codec vec_cont L R c d0) /\ nlaw (load w) (seq_codec vec_cont L R c d0).
  Proof.
    assert (K := fun sn old s e => seq_wle w (load w) (load w) vec_cont L R c d0 sn old s e Hc H0 eq_refl
      (fun st x => ltac:(cbn [c_ins vec_cont]; rewrite load_app; unfold load at 2; cbn; lia)) (fun st => le_n _)).
    split; intros sn old s e.
    - eapply wle_le; [apply K|lia].
    - intros E. destruct (K sn old s e) as (_ & N). specialize (N E). cbn [des seq_codec]. destruct (seq_des _ _ _ _ _ _ _ _ _) as [[[v r] e']| |]; auto. lia.
  Qed.
  Lemma set_laws lt : wlaw (load w) (seq_codec (set_cont lt) L R c d0) /\ nlaw (load w) (seq_codec (set_cont lt) L R c d0).
  Proof.
    assert (K := fun sn old s e => seq_wle w (load w) (load w) (set_cont lt) L R c d0 sn old s e Hc H0 eq_refl
      (fun st x => set_insert_load w lt x st) (fun st => le_n _)).
    split; intros sn old s e.
    - eapply wle_le; [apply K|lia].
    - intros E. destruct (K sn old s e) as (_ & N). specialize (N E). cbn [des seq_codec]. destruct (seq_des _ _ _ _ _ _ _ _ _) as [[[v r] e']| |]; auto. lia.
  Qed.
  Lemma multi_laws lt : wlaw (load w) (seq_codec (multi_cont lt) L R c d0) /\ nlaw (load w) (seq_codec (multi_cont lt) L R c d0).
  Proof.
    assert (K := fun sn old s e => seq_wle w (fun st => load w (fst st)) (load w) (multi_cont lt) L R c d0 sn old s e Hc H0 eq_refl
      (multi_insert_load w lt) (fun st => le_n _)).
    split; intros sn old s e.
    - eapply wle_le; [apply K|lia].
    - intros E. destruct (K sn old s e) as (_ & N). specialize (N E). cbn [des seq_codec]. destruct (seq_des _ _ _ _ _ _ _ _ _) as [[[v r] e']| |]; auto. lia.
  Qed.
  Lemma hash_laws {H} (h : hashtab A H) : (forall t, h_list h (h_clear h t) = []) ->
    (forall t x, load w (h_list h (h_ins h t x)) <= load w (h_list h t) + 1 + w x)%nat ->
    wlaw (fun t => load w (h_list h t)) (hash_codec h L R c d0) /\ nlaw (fun t => load w (h_list h t)) (hash_codec h L R c d0).
  Proof.
    intros H1 H2.
    assert (K := fun sn old s e => seq_wle w (fun t => load w (h_list h t)) (fun t => load w (h_list h t)) (mkcont (h_clear h old) (h_ins h) (fun t => t) (h_list h)) L R c d0 sn old s e Hc H0
      ltac:(cbn [c_new]; rewrite H1; reflexivity) H2 (fun st => le_n _)).
    split; intros sn old s e.
    - eapply wle_le; [apply K|lia].
    - intros E. destruct (K sn old s e) as (_ & N). specialize (N E). cbn [des hash_codec]. destruct (seq_des _ _ _ _ _ _ _ _ _) as [[[v r] e']| |]; auto. lia.
  Qed.
End SeqLaws.

(** fixed-size arrays *)
Lemma fix_close_len R s e r e' : fix_close R s e = (r, e') -> (length r <= length s)%nat.
Proof. unfold fix_close. destruct s as [|c t]; [intros [= <- _]; lia|]. destruct (negb (c =? R)); intros [= <- _]; cbn; lia. Qed.
Lemma fix_loop_wle {A} (w : A -> nat) (item : A -> buf -> eptr -> res (A * buf * eptr)) fresh ex R :
  (forall x s e, wle w (w x + length s) (item x s e)) -> match fresh with Some d0 => w d0 = 0%nat | None => True end ->
  forall todo s e, wle (total w) (total w todo + length s) (fix_loop item fresh ex R todo s e) /\
    match fix_loop item fresh ex R todo s e with Ok (l, _, _) => length l = length todo | _ => True end.
Proof.
  intros Hi Hf. induction todo as [|x todo IH]; intros s e; cbn [fix_loop].
  { destruct (fix_close R s e) as [r e'] eqn:E. apply fix_close_len in E. cbn. split; [lia|reflexivity]. }
  destruct s as [|c0 s0].
  { destruct (fix_close R [] e) as [r e'] eqn:E. apply fix_close_len in E. cbn [wle length] in *. split; [lia|reflexivity]. }
  destruct (parse_space (c0 :: s0) e) as [s1 e1] eqn:E1. apply space_len in E1. remember (c0 :: s0) as s.
  destruct s1 as [|c t1]; [cbn [wle length]; split; [lia|reflexivity]|].
  destruct (c =? R).
  { destruct (fix_close R (c :: t1) e1) as [r e'] eqn:E. apply fix_close_len in E. cbn [wle]. split; [lia|reflexivity]. }
  set (x0 := match fresh with Some d0 => d0 | None => x end). assert (Hx : (w x0 <= w x)%nat) by (unfold x0; destruct fresh; lia).
  specialize (Hi x0 (c :: t1) e1). destruct (item x0 (c :: t1) e1) as [[[y s2] e2]| |]; cbn [bind wle] in *; auto.
  destruct (parse_space s2 e2) as [s3 e3] eqn:E3. apply space_len in E3.
  destruct s3 as [|d t3]; [cbn [wle total length] in *; split; [lia|reflexivity]|].
  destruct (d =? R).
  { destruct (fix_close R (d :: t3) e3) as [r e'] eqn:E. apply fix_close_len in E. cbn [wle total length] in *. split; [lia|reflexivity]. }
  destruct (negb (d =? COMMA)); [cbn [wle total length] in *; split; [lia|reflexivity]|].
  specialize (IH t3 e3). destruct (fix_loop item fresh ex R todo t3 e3) as [[[l r] e']| |]; cbn [bind wle total length] in *; auto.
  split; lia.
Qed.
Lemma fix_null_wle {A} (w : A -> nat) (c : codec A) sn s : nlaw w c -> is_null s = true -> forall l e,
  match fix_null (des c sn) l s e with Ok (l', _) => (total w l' <= total w l)%nat /\ length l' = length l | _ => True end.
Proof.
  intros Hn Hs. induction l as [|x l IH]; intros e; cbn [fix_null]; [split; [lia|reflexivity]|].
  specialize (Hn sn x s e Hs). destruct (des c sn x s e) as [[[y r] e1]| |]; cbn [bind]; auto.
  specialize (IH e1). destruct (fix_null (des c sn) l s e1) as [[t' e2]| |]; cbn [bind total length]; auto. lia.
Qed.
Lemma fix_laws {A} (w : A -> nat) fresh ex ss (c : codec A) N : wlaw w c -> nlaw w c -> match fresh with Some d0 => w d0 = 0%nat | None => True end ->
  wlaw (fun v => total w (vlist v)) (vec_codec (mkcodec ss (fix_des fresh ex LBR RBR c)) N) /\
  nlaw (fun v => total w (vlist v)) (vec_codec (mkcodec ss (fix_des fresh ex LBR RBR c)) N).
Proof.
  intros Hc Hn Hf.
  assert (K : forall sn (old : vec A N) s e, match fix_des fresh ex LBR RBR c sn (vlist old) s e with
    | Ok (l, r, _) => (total w l + length r <= total w (vlist old) + length s)%nat /\ length l = N /\ (is_null s = true -> (total w l <= total w (vlist old))%nat)
    | _ => True end).
  { intros sn old s e. pose proof (vlist_len old) as LN. unfold fix_des. destruct (is_null s) eqn:Es.
    - pose proof (fix_null_wle w c sn s Hn Es (vlist old) e) as F. destruct (fix_null (des c sn) (vlist old) s e) as [[l e1]| |]; cbn [bind]; auto.
      destruct (parse_null s e1) as [r e2] eqn:E. apply null_len in E. split; [lia|]. split; [lia|]. intros _. lia.
    - destruct s as [|c0 t]; [split; [cbn [length]; lia|split; [exact LN|discriminate]]|].
      destruct (negb (c0 =? LBR)); [split; [cbn [length]; lia|split; [exact LN|discriminate]]|].
      pose proof (fix_loop_wle w (des c sn) fresh ex RBR (Hc sn) Hf (vlist old) t e) as (F & G).
      destruct (fix_loop (des c sn) fresh ex RBR (vlist old) t e) as [[[l r] e']| |]; cbn [wle length] in *; auto.
      split; [lia|]. split; [lia|discriminate]. }
  split; intros sn old s e.
  - specialize (K sn old s e). cbn [des vec_codec]. destruct (fix_des fresh ex LBR RBR c sn (vlist old) s e) as [[[l r] e']| |]; cbn [bind wle]; auto.
    rewrite vlist_vfill by tauto. lia.
  - intros Es. specialize (K sn old s e). cbn [des vec_codec]. destruct (fix_des fresh ex LBR RBR c sn (vlist old) s e) as [[[l r] e']| |]; cbn [bind]; auto.
    rewrite vlist_vfill by tauto. destruct K as (_ & _ & K). exact (K Es).
Qed.

(** structs *)
Lemma name_loop_len : forall name s n' s', name_loop name s = (n', s') -> (length s' <= length s)%nat.
Proof.
  induction name as [|a name IH]; intros s n' s'; destruct s as [|c t]; cbn [name_loop]; try (intros [= _ <-]; lia).
  destruct (_ && _); [|intros [= _ <-]; lia]. intros H. apply IH in H. cbn [length]. lia.
Qed.
Lemma unser_name_len name s u e s1 e1 u1 : unser_name name s u e = (s1, e1, u1) -> (length s1 <= length s)%nat.
Proof.
  unfold unser_name. destruct (negb (is_string s)); [intros [= <- _ _]; cbn; lia|].
  destruct (name_loop name (tl s)) as [n' t] eqn:En. apply name_loop_len in En.
  assert (L : (length (tl s) <= length s)%nat) by (destruct s; cbn; lia).
  destruct t as [|c t1]; [intros [= <- _ _]; cbn; lia|]. destruct (_ || _); [intros [= <- _ _]; lia|].
  destruct (parse_space t1 e) as [s2 e2] eqn:E2. apply space_len in E2. cbn [length] in *.
  destruct s2 as [|d t2]; [intros [= <- _ _]; cbn; lia|]. destruct (negb (d =? COLON)); [intros [= <- _ _]; cbn; lia|].
  destruct (parse_space t2 e2) as [s3 e3] eqn:E3. apply space_len in E3. cbn [length] in *.
  destruct s3 as [|f t3]; intros [= <- _ _]; cbn [length] in *; lia.
Qed.
Lemma member_len sn s e r e' : parse_member (parse_value sn) s e = Ok (r, e') -> (length r <= length s)%nat.
Proof.
  intros H. apply suffix_len. revert H. apply member_tails. intros s' e0 r0 e0'. apply value_tails.
Qed.

Section Structs.
  Context {T : Type} (w : T -> nat).
  Definition alaw (m : mem T) : Prop := exists wm : m_ty m -> nat, wlaw wm (m_codec m) /\ empties w m wm.
  Definition mlaw (b : memb T) : Prop :=
    match b with
    | MIf _ l r _ => alaw l /\ alaw r
    | _ => exists wm : m_ty (memb_mem b) -> nat, wlaw wm (m_codec (memb_mem b)) /\ holds w b wm
    end.
  Definition wle4 (k : nat) (x : res (T * bool * buf * eptr)) : Prop :=
    match x with Ok (v, _, r, _) => (w v + length r <= k)%nat | _ => True end.
  Definition le2 (k : nat) (x : res (buf * eptr)) : Prop := match x with Ok (r, _) => (length r <= k)%nat | _ => True end.
  Lemma reset_wle m t : alaw m -> match mem_reset m t with Ok t' => (w t' <= w t)%nat | _ => True end.
  Proof.
    intros (wm & _ & H1 & _ & H3). unfold mem_reset. specialize (H3 (m_get m t)). destruct (des (m_codec m) (Some 0) (m_get m t) (text "null") None) as [[[x r] e]| |]; cbn [bind]; auto.
    specialize (H1 t x). lia.
  Qed.
  (** a value stored and taken back *)
  Lemma undo_wle m t x : alaw m -> match mem_reset m (m_set m t x) with Ok t' => (w t' <= w t)%nat | _ => True end.
  Proof.
    intros (wm & _ & H1 & H2 & H3). unfold mem_reset. specialize (H3 (m_get m (m_set m t x))).
    destruct (des (m_codec m) (Some 0) _ (text "null") None) as [[[y r] e]| |]; cbn [bind]; auto.
    pose proof (H1 t x). pose proof (H1 (m_set m t x) y). pose proof (H2 t x). lia.
  Qed.
  Lemma mem_wle m sn t s u e : alaw m -> wle4 (w t + length s) (mem_des m sn t s u e).
  Proof.
    intros (wm & Hw & Hh & _). unfold mem_des. destruct (unser_name (m_name m) s u e) as [[s1 e1] u1] eqn:E. apply unser_name_len in E.
    destruct (negb u1); [cbn; lia|]. specialize (Hw sn (m_get m t) s1 e1).
    destruct (des (m_codec m) sn (m_get m t) s1 e1) as [[[x r] e2]| |]; cbn [bind wle4 wle] in *; auto. specialize (Hh t x). lia.
  Qed.
  Lemma mem_undo m sn t s u e t1 u1 r e1 : alaw m -> mem_des m sn t s u e = Ok (t1, u1, r, e1) -> match mem_reset m t1 with Ok t' => (w t' <= w t)%nat | _ => True end.
  Proof.
    intros Hm. unfold mem_des. destruct (unser_name (m_name m) s u e) as [[s1 e2] u2]. destruct (negb u2); [intros [= <- _ _ _]; now apply reset_wle|].
    destruct (des (m_codec m) sn (m_get m t) s1 e2) as [[[x r'] e3]| |]; cbn [bind]; [|discriminate..]. intros [= <- _ _ _]. now apply undo_wle.
  Qed.
  Lemma if_wle f g sn t s u e : alaw f -> alaw g -> wle4 (w t + length s)
    (let* (t1, u1, itr, ee) := mem_des f sn t s u (Some no_error) in
     if no_err_yet ee then let* t2 := mem_reset g t1 in Ok (t2, u1, itr, e) else let* t2 := mem_reset f t1 in mem_des g sn t2 s u1 e).
  Proof.
    intros Hf Hg. pose proof (mem_wle f sn t s u (Some no_error) Hf) as H. pose proof (mem_undo f sn t s u (Some no_error)) as U.
    destruct (mem_des f sn t s u (Some no_error)) as [[[[t1 u1] itr] ee]| |]; cbn [bind wle4] in *; auto. specialize (U t1 u1 itr ee Hf eq_refl). destruct (no_err_yet ee).
    - pose proof (reset_wle g t1 Hg) as R. destruct (mem_reset g t1) as [t2| |]; cbn [bind wle4] in *; auto. lia.
    - destruct (mem_reset f t1) as [t2| |]; cbn [bind wle4] in *; auto. pose proof (mem_wle g sn t2 s u1 e Hg) as R.
      destruct (mem_des g sn t2 s u1 e) as [[[[t3 u3] r3] e3]| |]; cbn [wle4] in *; auto. lia.
  Qed.
  Lemma memb_wle b sn t s u e : mlaw b -> wle4 (w t + length s) (memb_des b sn t s u e).
  Proof.
    destruct b as [m|m i|ru l rr isdef]; [intros (wm & Hw & Hh)|intros (wm & Hw & Hh)|intros [Hl Hr]; cbn [memb_des]; destruct ru; now apply if_wle]; cbn [memb_des memb_mem] in *.
    - unfold mem_des. destruct (unser_name (m_name m) s u e) as [[s1 e1] u1] eqn:E. apply unser_name_len in E.
      destruct (negb u1); [cbn; lia|]. specialize (Hw sn (m_get m t) s1 e1).
      destruct (des (m_codec m) sn (m_get m t) s1 e1) as [[[x r] e2]| |]; cbn [bind wle4 wle] in *; auto. specialize (Hh t x). cbn [memb_old] in Hh. cbn [memb_mem] in *. lia.
    - unfold mem_p_des. destruct (unser_name (m_name m) s u e) as [[s1 e1] u1] eqn:E. apply unser_name_len in E.
      destruct (negb u1); [cbn; lia|]. specialize (Hw sn i s1 e1).
      destruct (des (m_codec m) sn i s1 e1) as [[[x r] e2]| |]; cbn [bind wle4 wle] in *; auto. specialize (Hh t x). cbn [memb_old] in Hh. cbn [memb_mem] in *. lia.
  Qed.
  Lemma rest_loop_le mode sn : forall f s e, le2 (length s) (rest_loop mode sn f s e).
  Proof.
    induction f as [|f IH]; intros s e; [exact I|]. cbn [rest_loop].
    destruct (parse_member (parse_value sn) s e) as [[s1 e1]| |] eqn:E1; cbn [bind le2]; auto. apply member_len in E1.
    destruct (parse_space s1 e1) as [s2 e2] eqn:E2. apply space_len in E2.
    destruct s2 as [|c t2]; [cbn; lia|]. destruct (c =? RCB); [destruct mode; cbn [le2 length] in *; lia|].
    destruct (negb (c =? COMMA)); [cbn; lia|]. destruct (parse_space t2 e2) as [s3 e3] eqn:E3. apply space_len in E3.
    specialize (IH s3 e3). destruct (rest_loop mode sn f s3 e3) as [[r e']| |]; cbn [le2 length] in *; auto. lia.
  Qed.
  Lemma rest_members_le mode sn s e : le2 (length s) (rest_members mode sn s e).
  Proof.
    unfold rest_members. destruct (parse_space s e) as [s1 e1] eqn:E. apply space_len in E.
    destruct s1 as [|c t]; [cbn; lia|]. destruct (c =? RCB); [cbn [le2]; lia|].
    pose proof (rest_loop_le mode sn (S (length (c :: t))) (c :: t) e1) as H. destruct (rest_loop _ _ _ _ _) as [[r e']| |]; cbn [le2] in *; auto. lia.
  Qed.
  Lemma search_end_le mode sn s e : le2 (length s) (search_end mode sn s e).
  Proof.
    unfold search_end. destruct mode.
    - destruct (parse_member (parse_value sn) s e) as [[s1 e1]| |] eqn:E1; cbn [bind le2]; auto. apply member_len in E1.
      destruct (parse_space s1 e1) as [s2 e2] eqn:E2. apply space_len in E2. lia.
    - destruct s as [|c t]; [cbn; lia|]. destruct (c =? RCB); cbn; lia.
  Qed.
  Lemma search_wle mode sn : forall L, Forall mlaw L -> forall t s e, wle w (w t + length s) (search_members mode sn L t s e).
  Proof.
    induction 1 as [|b L Hb HL IH]; intros t s e; cbn [search_members].
    - pose proof (search_end_le mode sn s e) as H. destruct (search_end mode sn s e) as [[r e']| |]; cbn [bind wle le2] in *; auto. lia.
    - pose proof (memb_wle b sn t s false e Hb) as H. destruct (memb_des b sn t s false e) as [[[[t1 u] s1] e1]| |]; cbn [bind wle4 wle] in *; auto.
      destruct (negb u); [|exact H]. eapply wle_le; [apply IH|]. lia.
  Qed.
  Lemma at_close_wle k t s e : (w t + length s <= k)%nat -> wle w k (at_close t s e).
  Proof. intros H. unfold at_close. destruct s as [|c r]; [cbn in *; lia|]. destruct (negb (c =? RCB)); cbn [wle length] in *; lia. Qed.
  Lemma members_wle mode sn L : Forall mlaw L -> forall f R t s e, Forall mlaw R -> wle w (w t + length s) (members_loop mode sn L f R t s e).
  Proof.
    intros HL. induction f as [|f IH]; intros R t s e HR; [exact I|]. cbn [members_loop]. destruct R as [|b R'].
    - pose proof (rest_members_le mode sn s e) as H. destruct (rest_members mode sn s e) as [[r e']| |]; cbn [bind wle le2] in *; auto. lia.
    - inversion_clear HR as [|? ? Hb HR'].
      pose proof (memb_wle b sn t s false e Hb) as H. destruct (memb_des b sn t s false e) as [[[[t1 u] s1] e1]| |]; cbn [bind wle4] in *; auto.
      apply (wle_bind w w (w t + length s)).
      { destruct (negb u); [|exact H]. eapply wle_le; [now apply search_wle|]. lia. }
      intros t2 s2 e2 H2. destruct (parse_space s2 e2) as [s3 e3] eqn:E3. apply space_len in E3.
      destruct s3 as [|d t3]; [cbn; lia|]. destruct (d =? COMMA); [|apply at_close_wle; lia].
      destruct (parse_space t3 e3) as [s4 e4] eqn:E4. apply space_len in E4. cbn [length] in *.
      eapply wle_bind; [apply IH; destruct u; [exact HR'|now constructor]|]. intros t5 s5 e5 H5. apply at_close_wle. lia.
  Qed.
  Lemma object_wlaw mode L t0 : Forall mlaw L -> w t0 = 0%nat -> wlaw w (object_codec mode L t0) /\ nlaw w (object_codec mode L t0).
  Proof.
    intros HL H0. split; intros sn old s e; cbn [des object_codec]; unfold object_des.
    2:{ intros ->. destruct (parse_null s e). lia. }
    destruct (is_null s).
    { destruct (parse_null s e) as [r e'] eqn:E. apply null_len in E. cbn [wle]. lia. }
    destruct s as [|c t]; [cbn; lia|]. destruct (negb (c =? LCB)).
    { destruct (c =? LBR); [|cbn [wle length]; lia]. destruct (parse_space t e) as [s1 e1] eqn:E. apply space_len in E.
      destruct (deref sn s1) as [d| |]; cbn [bind wle]; auto. destruct (negb (d =? RBR)); [cbn [wle length]; lia|].
      destruct s1 as [|c1 s1]; cbn [step bind wle length] in *; [exact I|lia]. }
    destruct (parse_space t e) as [s1 e1] eqn:E. apply space_len in E. destruct s1 as [|d t1]; [cbn [wle length]; lia|].
    destruct (negb (d =? RCB)); [|cbn [wle length] in *; lia].
    eapply wle_bind; [now apply members_wle|]. intros v s2 e2 H2. destruct s2 as [|c2 t2]; [cbn [wle length] in *; lia|].
    destruct (parse_space (c2 :: t2) e2) as [s3 e3] eqn:E3. apply space_len in E3. destruct s3 as [|f t3]; [cbn [wle length] in *; lia|].
    destruct (negb (f =? RCB)); cbn [wle length] in *; lia.
  Qed.
  Lemma amem_wle m sn t s e : alaw m -> wle w (w t + length s) (amem_des m sn t s e).
  Proof.
    intros (wm & Hw & Hh & _). unfold amem_des. specialize (Hw sn (m_get m t) s e).
    destruct (des (m_codec m) sn (m_get m t) s e) as [[[x r] e2]| |]; cbn [bind wle] in *; auto. specialize (Hh t x). lia.
  Qed.
  Lemma aif_wle f g sn t s e : alaw f -> alaw g -> wle w (w t + length s)
    (let* (t1, itr, ee) := amem_des f sn t s (Some no_error) in
     if no_err_yet ee then let* t2 := mem_reset g t1 in Ok (t2, itr, e) else let* t2 := mem_reset f t1 in amem_des g sn t2 s e).
  Proof.
    intros Hf Hg. pose proof (amem_wle f sn t s (Some no_error) Hf) as H.
    assert (forall t1 r e1, amem_des f sn t s (Some no_error) = Ok (t1, r, e1) -> match mem_reset f t1 with Ok t' => (w t' <= w t)%nat | _ => True end) as U.
    { unfold amem_des. intros t1 r e1. destruct (des (m_codec f) sn (m_get f t) s (Some no_error)) as [[[x r'] e3]| |]; cbn [bind]; [|discriminate..]. intros [= <- _ _]. now apply undo_wle. }
    destruct (amem_des f sn t s (Some no_error)) as [[[t1 itr] ee]| |]; cbn [bind wle] in *; auto. specialize (U t1 itr ee eq_refl). destruct (no_err_yet ee).
    - pose proof (reset_wle g t1 Hg) as R. destruct (mem_reset g t1) as [t2| |]; cbn [bind wle] in *; auto. lia.
    - destruct (mem_reset f t1) as [t2| |]; cbn [bind wle] in *; auto. eapply wle_le; [now apply amem_wle|]. lia.
  Qed.
  Lemma amemb_wle b sn t s e : mlaw b -> wle w (w t + length s) (amemb_des b sn t s e).
  Proof.
    destruct b as [m|m i|ru l rr isdef]; [intros (wm & Hw & Hh)|intros (wm & Hw & Hh)|intros [Hl Hr]; cbn [amemb_des]; destruct ru; now apply aif_wle]; cbn [amemb_des memb_mem] in *.
    - unfold amem_des. specialize (Hw sn (m_get m t) s e).
      destruct (des (m_codec m) sn (m_get m t) s e) as [[[x r] e2]| |]; cbn [bind wle] in *; auto. specialize (Hh t x). cbn [memb_old memb_mem] in *. lia.
    - specialize (Hw sn i s e).
      destruct (des (m_codec m) sn i s e) as [[[x r] e2]| |]; cbn [bind wle] in *; auto. specialize (Hh t x). cbn [memb_old memb_mem] in *. lia.
  Qed.
  Lemma amembers_wle sn : forall L, Forall mlaw L -> forall t s e, wle w (w t + length s) (amembers_des sn L t s e).
  Proof.
    induction 1 as [|b L Hb HL IH]; intros t s e; cbn [amembers_des]; [cbn; lia|].
    eapply wle_bind; [now apply amemb_wle|]. intros t1 s1 e1 H1. destruct (parse_space s1 e1) as [s2 e2] eqn:E2. apply space_len in E2.
    destruct s2 as [|d t2]; [cbn [wle length] in *; lia|].
    apply (wle_bind w w (w t + length s)).
    { destruct (d =? COMMA); [|cbn [wle]; lia]. destruct (parse_space t2 e2) as [s4 e4] eqn:E4. apply space_len in E4.
      eapply wle_le; [apply IH|]. cbn [length] in *. lia. }
    intros t3 s3 e3 H3. destruct s3 as [|f t4]; [cbn [wle length] in *; lia|]. destruct (negb (f =? RBR)); cbn [wle length] in *; lia.
  Qed.
  Lemma oarray_wlaw L t0 : Forall mlaw L -> w t0 = 0%nat -> wlaw w (oarray_codec L t0) /\ nlaw w (oarray_codec L t0).
  Proof.
    intros HL H0. split; intros sn old s e; cbn [des oarray_codec]; unfold oarray_des.
    2:{ intros ->. destruct (parse_null s e). lia. }
    destruct (is_null s).
    { destruct (parse_null s e) as [r e'] eqn:E. apply null_len in E. cbn [wle]. lia. }
    destruct s as [|c t]; [cbn; lia|]. destruct (negb (c =? LBR)); [cbn [wle length]; lia|].
    destruct (parse_space t e) as [s1 e1] eqn:E. apply space_len in E. destruct s1 as [|d t1]; [cbn [wle length]; lia|].
    destruct (negb (d =? RBR)); [|cbn [wle length] in *; lia].
    eapply wle_bind; [now apply amembers_wle|]. intros v s2 e2 H2. destruct s2 as [|c2 t2]; [cbn [wle length] in *; lia|].
    destruct (parse_space (c2 :: t2) e2) as [s3 e3] eqn:E3. apply space_len in E3. destruct s3 as [|f t3]; [cbn [wle length] in *; lia|].
    destruct (negb (f =? RBR)); cbn [wle length] in *; lia.
  Qed.
End Structs.

(** wrappers *)
Lemma member_value_wlaw {T A} (get : T -> A) set (c : codec A) (w : T -> nat) wa :
  (forall t x, w (set t x) + wa (get t) <= w t + wa x)%nat ->
  (wlaw wa c -> wlaw w (member_value_codec get set c)) /\ (nlaw wa c -> nlaw w (member_value_codec get set c)).
Proof.
  intros Hh. split; intros Hc sn old s e; cbn [des member_value_codec].
  - specialize (Hc sn (get old) s e). destruct (des c sn (get old) s e) as [[[x r] e']| |]; cbn [bind wle] in *; auto. specialize (Hh old x). lia.
  - intros Hs. specialize (Hc sn (get old) s e Hs). destruct (des c sn (get old) s e) as [[[x r] e']| |]; cbn [bind] in *; auto. specialize (Hh old x). lia.
Qed.
Lemma quoted1_wle {A} (c : codec A) w sn old s e : wlaw w c -> wle w (w old + length s) (quoted_des1 c sn old s e).
Proof.
  intros Hc. unfold quoted_des1. pose proof (string_wlaw sn [] s e) as Hs. cbn [des string_codec] in Hs.
  destruct (string_des sn [] s e) as [[[b r] e1]| |]; cbn [bind wle length] in *; auto.
  destruct (has_err e1); [cbn [wle length]; lia|].
  specialize (Hc (Some 0) old b (Some no_error)). destruct (des c (Some 0) old b (Some no_error)) as [[[v x] e2]| |]; cbn [bind wle] in *; auto.
  destruct e1, e2; try (cbn [wle]; lia). destruct (is_err j0); cbn [wle length]; lia.
Qed.
Lemma quoted_wlaw {A} (c : codec A) w serq reqq : wlaw w c -> wlaw w (quoted_codec c serq reqq).
Proof.
  intros Hc sn old s e. cbn [des quoted_codec]. unfold quoted_des. destruct reqq; [now apply quoted1_wle|].
  destruct (is_string s); [now apply quoted1_wle|apply Hc].
Qed.
Lemma quoted_nlaw {A} (c : codec A) w serq : wlaw w c -> nlaw w (quoted_codec c serq true).
Proof.
  intros Hc sn old s e Hs. cbn [des quoted_codec]. unfold quoted_des, quoted_des1, string_des. rewrite Hs.
  destruct (parse_null s e) as [r e1]. cbn [bind]. destruct (has_err e1); [lia|].
  specialize (Hc (Some 0) old [] (Some no_error)). destruct (des c (Some 0) old [] (Some no_error)) as [[[v x] e2]| |]; cbn [bind wle length] in *; auto.
  destruct e1, e2; try lia. destruct (is_err j0); lia.
Qed.
Lemma quoted_nlaw' {A} (c : codec A) w serq : nlaw w c -> nlaw w (quoted_codec c serq false).
Proof.
  intros Hc sn old s e Hs. cbn [des quoted_codec]. unfold quoted_des.
  replace (is_string s) with false; [now apply Hc|]. destruct s as [|c0 t]; [reflexivity|]. unfold is_null, is_string, starts in *. lia.
Qed.
Lemma ptr_laws {A} (c : codec A) d0 w : wlaw w c -> w d0 = 0%nat ->
  let wo := fun o => match o with Some x => w x | None => 0%nat end in wlaw wo (ptr_codec c d0) /\ nlaw wo (ptr_codec c d0).
Proof.
  intros Hc H0 wo. split; intros sn old s e; cbn [des ptr_codec]; unfold ptr_des.
  - destruct s as [|c0 t]; [cbn; lia|]. destruct (negb (c0 =? 110)).
    + eapply wle_bind; [apply Hc|]. intros v r e1 H. cbn [wle wo]. lia.
    + cbn [wle wo]. rewrite skipn_length. lia.
  - intros Hs. destruct s as [|c0 t]; [cbn; lia|]. unfold is_null, starts in Hs. rewrite Hs. cbn [negb wo]. lia.
Qed.

Theorem weighs_laws n A (c : codec A) w : weighs n A c w -> wlaw w c /\ (n = true -> nlaw w c).
Proof.
  revert n A c w. apply (weighs_mind (fun n A c w _ => wlaw w c /\ (n = true -> nlaw w c)) (fun T w L _ => Forall (mlaw w) L)).
  - intros t. split; [apply zero_wlaw, int_dlaw|intros _; apply zero_nlaw].
  - split; [apply zero_wlaw, bool_dlaw|intros _; apply zero_nlaw].
  - intros A R fmt scan zero. split; [apply zero_wlaw, float_dlaw|intros _; apply zero_nlaw].
  - intros N. split; [apply zero_wlaw, chars_dlaw|intros _; apply zero_nlaw].
  - intros mode L. split; [apply zero_wlaw, enum_dlaw|intros _; apply zero_nlaw].
  - intros sep mode L. split; [apply zero_wlaw, flags_dlaw|intros _; apply zero_nlaw].
  - intros t fr. split; [apply zero_wlaw, time_dlaw|intros _; apply zero_nlaw].
  - intros t metric. split; [apply zero_wlaw, size_dlaw|intros _; apply zero_nlaw].
  - split; [apply string_wlaw|intros _; apply string_nlaw].
  - split; [apply raw_wlaw|discriminate].
  - split; [apply raw_wlaw|discriminate].
  - intros serq reqq. split; [apply rquoted_wlaw|intros ->; apply rquoted_nlaw].
  - intros n A c d0 w _ [IH _] H0. destruct (vec_laws w c d0 LBR RBR IH H0). split; auto.
  - intros n A lt c d0 w _ [IH _] H0. destruct (set_laws w c d0 LBR RBR IH H0 lt). split; auto.
  - intros n A lt c d0 w _ [IH _] H0. destruct (multi_laws w c d0 LBR RBR IH H0 lt). split; auto.
  - intros n n' K V kc vc d0 wk wv _ [IHk _] _ [IHv _] Hk Hv. destruct (vec_laws _ _ d0 LCB RCB (field_wlaw wk wv kc vc IHk IHv) ltac:(cbn beta; lia)). split; auto.
  - intros n n' K V lt kc vc d0 wk wv _ [IHk _] _ [IHv _] Hk Hv. destruct (set_laws _ _ d0 LCB RCB (field_wlaw wk wv kc vc IHk IHv) ltac:(cbn beta; lia) (klt lt)). split; auto.
  - intros n n' K V lt kc vc d0 wk wv _ [IHk _] _ [IHv _] Hk Hv. destruct (multi_laws _ _ d0 LCB RCB (field_wlaw wk wv kc vc IHk IHv) ltac:(cbn beta; lia) (klt lt)). split; auto.
  - intros n A H h c d0 w _ [IH _] H0 H1 H2. destruct (hash_laws w c d0 LBR RBR IH H0 h H1 H2). split; auto.
  - intros n n' K V H h kc vc d0 wk wv _ [IHk _] _ [IHv _] Hk Hv H1 H2. destruct (hash_laws _ _ d0 LCB RCB (field_wlaw wk wv kc vc IHk IHv) ltac:(cbn beta; lia) h H1 H2). split; auto.
  - intros A c d0 N w _ [IH IHn] H0. destruct (fix_laws w (Some d0) [] (seq_ser LBR RBR (ser c)) c N IH (IHn eq_refl) H0). split; auto.
  - intros A c N w _ [IH IHn]. destruct (fix_laws w None [COMMA] (seq_ser LBR RBR (ser c)) c N IH (IHn eq_refl) I). split; auto.
  - intros T mode L t0 w _ IH H0. destruct (object_wlaw w mode L t0 IH H0). split; auto.
  - intros T L t0 w _ IH H0. destruct (oarray_wlaw w L t0 IH H0). split; auto.
  - intros n T A get set c w wa _ [IH IHn] Hh. destruct (member_value_wlaw get set c w wa Hh) as (P & Q). split; auto.
  - intros n A c serq w _ [IH _]. split; [now apply quoted_wlaw|intros _; now apply quoted_nlaw].
  - intros n A c serq w _ [IH IHn]. split; [now apply quoted_wlaw|intros E; apply quoted_nlaw'; auto].
  - intros n A c d0 w _ [IH _] H0. destruct (ptr_laws c d0 w IH H0). split; auto.
  - intros T w. constructor.
  - intros T w b n wm L Hb _ [IH _] Hh _ IHL. constructor; [|exact IHL]. destruct b; [..|destruct Hb]; exists wm; split; assumption.
  - intros T w ru l r isdef n n' wl wr L _ [IHl _] _ [IHr _] Hl Hr _ IHL. constructor; [|exact IHL]. split; [now exists wl|now exists wr].
Qed.
