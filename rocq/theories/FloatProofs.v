(** Proofs about Float.v. *)
From Verif Require Import Base Parser SpecJson ParserFacts Grammar1 Grammar2 Out CodecLaws Float SpecMisc.

Lemma rnumber_sfloat n : rnumber n -> sfloat n.
Proof.
  intros [m i f x Hm Hi Hf Hx]. constructor; auto. inversion Hi as [|d ds Hd Hds]; subst.
  - split; [discriminate|]. constructor; [unfold s_digit; lia|constructor].
  - split; [discriminate|]. constructor; [unfold s_digit; lia|exact Hds].
Qed.
Definition plainc (c : Z) : Prop := c <> 0.
Lemma digits_nz d : digits d -> Forall plainc d.
Proof. apply Forall_impl. unfold plainc, s_digit. intros; lia. Qed.
Lemma sfloat_nz t : sfloat t -> Forall plainc t.
Proof.
  intros [m i f x Hm [_ Hi] Hf Hx]. repeat (apply Forall_app; split).
  - destruct Hm; repeat constructor; unfold plainc; lia.
  - now apply digits_nz.
  - destruct Hf as [|ds [_ Hd]]; [constructor|]. constructor; [unfold plainc; lia|]. now apply digits_nz.
  - destruct Hx as [|m0 sg ds Hm0 Hsg [_ Hd]]; [constructor|]. constructor; [unfold plainc; lia|].
    apply Forall_app. split; [|now apply digits_nz]. destruct Hsg as [->|[-> | ->]]; repeat constructor; unfold plainc; lia.
Qed.
Lemma cstr_app a b : Forall plainc a -> cstr (a ++ b) = a ++ cstr b.
Proof.
  induction 1 as [|c a Hc _ IH]; [reflexivity|]. cbn [app cstr]. unfold plainc in Hc. replace (c =? 0) with false by lia. now rewrite IH.
Qed.
Lemma follow_cut k r : follow r -> follow (cstr (firstn k r)).
Proof. destruct k, r as [|c r]; cbn [firstn cstr follow]; auto. destruct (c =? 0); cbn [follow]; auto. Qed.
Lemma firstn_short {A} k (a b : list A) : (length a <= k)%nat -> firstn k (a ++ b) = a ++ firstn (k - length a) b.
Proof. intros H. rewrite firstn_app. now rewrite firstn_all2. Qed.
Lemma firstn_long {A} k (a b : list A) : (k <= length a)%nat -> firstn k (a ++ b) = firstn k a.
Proof. intros H. rewrite firstn_app. replace (k - length a)%nat with 0%nat by lia. cbn [firstn]. now rewrite app_nil_r. Qed.

Lemma cstr_prefix s : exists t, s = cstr s ++ t.
Proof.
  induction s as [|c s [t E]]; [now exists []|]. cbn [cstr]. destruct (c =? 0); [now exists (c :: s)|].
  exists t. cbn [app]. now rewrite <- E.
Qed.
Lemma cstr_short k s : (length (cstr (firstn k s)) <= k)%nat.
Proof.
  destruct (cstr_prefix (firstn k s)) as [t E]. pose proof (firstn_le_length k s) as L. rewrite E, app_length in L. lia.
Qed.

Section F.
  Context {A : Type} (R : Z) (fmt : A -> buf) (scan conv : buf -> A) (zero : A).
  Notation C := (float_codec R fmt scan zero).
  Lemma float_read_num sn old s e : is_number s = true -> is_null s = false ->
    des C sn old s e = let '(r, e1) := parse_number s e in Ok (scan (cstr (firstn (bufsize R) s)), r, e1).
  Proof.
    intros H1 H2. cbn [des float_codec]. unfold float_des. destruct s as [|c s]; [discriminate|]. rewrite H2, H1. reflexivity.
  Qed.
  Lemma num_head_null c t : c = MINUS \/ s_digit c -> is_number (c :: t) = true /\ is_null (c :: t) = false.
  Proof.
    intros H. unfold s_digit in H. split.
    - unfold is_number, is_digit. lia.
    - unfold is_null. cbn. lia.
  Qed.
  Lemma float_read sn old n r e : scan_law scan conv -> rnumber n -> follow r -> (length n <= bufsize R)%nat ->
    des C sn old (n ++ r) e = Ok (conv n, r, e).
  Proof.
    intros L Hn Hr Hl. destruct (rnumber_head n Hn) as (c & t & E & Hc). destruct (num_head_null c (t ++ r) Hc) as [H1 H2].
    rewrite float_read_num; [|rewrite E; exact H1|rewrite E; exact H2].
    rewrite parse_number_app; [|exact Hn|now apply follow_num_stop].
    rewrite firstn_short by exact Hl. rewrite cstr_app by now apply sfloat_nz, rnumber_sfloat.
    rewrite L; [reflexivity|now apply rnumber_sfloat|now apply follow_cut].
  Qed.
  Lemma float_read_cut sn old n r e : scan_law scan conv -> rnumber n -> follow r -> (bufsize R < length n)%nat ->
    sfloat (firstn (bufsize R) n) -> des C sn old (n ++ r) e = Ok (conv (firstn (bufsize R) n), r, e).
  Proof.
    intros L Hn Hr Hl Hf. destruct (rnumber_head n Hn) as (c & t & E & Hc). destruct (num_head_null c (t ++ r) Hc) as [H1 H2].
    rewrite float_read_num; [|rewrite E; exact H1|rewrite E; exact H2].
    rewrite parse_number_app; [|exact Hn|now apply follow_num_stop].
    rewrite firstn_long by lia. rewrite <- (app_nil_r (firstn (bufsize R) n)) at 1. rewrite cstr_app by now apply sfloat_nz.
    cbn [cstr]. rewrite L; [reflexivity|exact Hf|exact I].
  Qed.
  Lemma float_read_zero sn old ds r e : scan_law scan conv -> digits1 ds -> follow r -> (S (length ds) <= bufsize R)%nat ->
    des C sn old (48 :: ds ++ r) e = Ok (conv (48 :: ds), ds ++ r, e).
  Proof.
    intros L [Hd Hds] Hr Hl. rewrite float_read_num; [|reflexivity|reflexivity].
    assert (sfloat (48 :: ds)) as Hf.
    { replace (48 :: ds) with ([] ++ (48 :: ds) ++ [] ++ []) by (cbn [app]; now rewrite app_nil_r).
      constructor; try constructor; try discriminate. constructor; [unfold s_digit; lia|exact Hds]. }
    change (48 :: ds ++ r) with ([48] ++ ds ++ r) at 1. rewrite parse_number_app.
    - change (48 :: ds ++ r) with ((48 :: ds) ++ r). rewrite firstn_short by exact Hl. rewrite cstr_app by now apply sfloat_nz.
      rewrite L; [reflexivity|exact Hf|now apply follow_cut].
    - change [48] with ([] ++ [48] ++ [] ++ []). repeat constructor.
    - destruct ds as [|d ds]; [congruence|]. cbn [app num_stop]. inversion Hds; subst. unfold s_digit in *. repeat split; intros; try lia; tauto.
  Qed.
  Lemma float_dlaw : dlaw (des C).
  Proof. clear conv.
    intros sn old s e. cbn [des float_codec]. unfold float_des. destruct s as [|c s0]; [apply dgood_err; [discriminate|cbn; lia]|].
    destruct (is_null (c :: s0)).
    - exact (dgood_pair (c :: s0) e parse_null (fun _ => zero) (null_good _)).
    - destruct (is_number (c :: s0)); cbn [negb]; [|apply dgood_err; [discriminate|pose proof (dist_nonneg (c :: s0)); lia]].
      exact (dgood_pair (c :: s0) e parse_number (fun _ => scan (cstr (firstn (bufsize R) (c :: s0)))) (number_good _)).
  Qed.
  Lemma float_dsafe : dsafe (des C).
  Proof. clear conv.
    intros sn old s e _. cbn [des float_codec]. unfold float_des. destruct s as [|c s0]; [discriminate|].
    destruct (is_null (c :: s0)); [destruct (parse_null (c :: s0) e); discriminate|].
    destruct (negb (is_number (c :: s0))); [discriminate|]. destruct (parse_number (c :: s0) e); discriminate.
  Qed.
  (** Values whose text is a JSON number that fits the buffer and that the
      stream reads back. *)
  Definition float_dom (v : A) : Prop := rnumber (fmt v) /\ (length (fmt v) <= bufsize R)%nat /\ conv (fmt v) = v.
  Lemma float_out v : rnumber (fmt v) -> (length (fmt v) <= bufsize R)%nat -> ser C v = Ok (wr (fmt v)).
  Proof.
    intros Hn Hl. cbn [ser float_codec]. unfold float_ser. rewrite firstn_all2 by exact Hl.
    rewrite <- (app_nil_r (fmt v)) at 1. rewrite cstr_app by now apply sfloat_nz, rnumber_sfloat. cbn [cstr]. now rewrite app_nil_r.
  Qed.
  Lemma float_rt : scan_law scan conv -> rt C float_dom.
  Proof.
    intros L v (Hn & Hl & Hv). exists (wr (fmt v)). split; [now apply float_out|]. rewrite flat_wr. split.
    - destruct (rnumber_head _ Hn) as (c & t & -> & Hc). exists c, t. split; [reflexivity|]. unfold vstart, s_digit in *. lia.
    - intros sn old r e Hr _. rewrite float_read; auto. now rewrite Hv.
  Qed.
  Lemma float_jout : jout C float_dom.
  Proof. intros v (Hn & Hl & Hv). exists (wr (fmt v)). split; [now apply float_out|]. rewrite flat_wr. now apply rv_num. Qed.
  Lemma float_wout : wout C (fun _ => True).
  Proof. intros v _. eexists. reflexivity. Qed.
End F.

(** ---- what the stream writes ---- *)
Lemma sci_number t : sci_text t -> rnumber t /\ (length t <= 20)%nat.
Proof.
  intros [m d fr sg ex Hm Hd Hfr Hl6 Hsg Hex Hl]. split.
  - change (101 :: [sg] ++ ex) with ((101 :: [sg] ++ ex)). constructor; auto.
    + unfold s_digit in Hd. destruct (Z.eq_dec d 48) as [->|Ne]; [constructor|]. constructor; [lia|constructor].
    + constructor. split; [|exact Hfr]. intros ->. discriminate.
    + constructor; [now left| |].
      * destruct Hsg as [-> | ->]; auto.
      * split; [|exact Hex]. intros ->. cbn in Hl. lia.
  - rewrite !app_length. cbn [length]. rewrite app_length. cbn [length]. destruct Hm; cbn [length]; lia.
Qed.
Lemma fixed_number R t : fixed_text R t -> rnumber t.
Proof.
  intros [m i fr Hm Hi Hfr Hl]. destruct R as [|R].
  - change (@nil Z) with (@nil Z ++ []). repeat constructor; auto.
  - rewrite <- (app_nil_r (DOT :: fr)). constructor; auto; [|constructor]. constructor. split; [|exact Hfr]. intros ->. discriminate.
Qed.
Lemma rnumber_last n : rnumber n -> exists p d, n = p ++ [d] /\ s_digit d.
Proof.
  assert (forall ds, digits1 ds -> exists p d, ds = p ++ [d] /\ s_digit d) as L.
  { intros ds [Hne Hds]. destruct (exists_last Hne) as (p & d & ->). exists p, d. split; [reflexivity|].
    apply Forall_app in Hds. destruct Hds as [_ H]. now inversion H. }
  intros [m i f x Hm Hi Hf Hx]. destruct Hx as [|m0 sg ds Hm0 Hsg Hd].
  - rewrite app_nil_r. destruct Hf as [|ds Hd].
    + rewrite app_nil_r. assert (digits1 i) as Hd.
      { inversion Hi as [|d ds Hd Hds]; subst; (split; [discriminate|]); constructor; unfold s_digit; auto; try lia; constructor. }
      destruct (L i Hd) as (p & d & -> & H). exists (m ++ p), d. now rewrite app_assoc.
    + destruct (L ds Hd) as (p & d & -> & H). exists (m ++ i ++ DOT :: p), d. split; [|exact H]. rewrite <- !app_assoc. reflexivity.
  - destruct (L ds Hd) as (p & d & -> & H). exists (m ++ i ++ f ++ m0 :: sg ++ p), d. split; [|exact H].
    rewrite <- !app_assoc. cbn [app]. now rewrite <- !app_assoc.
Qed.
Lemma rvalue_num c t : rvalue (c :: t) -> c = MINUS \/ s_digit c -> rnumber (c :: t).
Proof.
  unfold s_digit. intros H Hc. remember (c :: t) as v eqn:E. destruct H; try (injection E as <- _; lia); auto.
  destruct H. injection E as <- _. lia.
Qed.

(** A concrete extraction that satisfies [scan_law]: it keeps the text read. *)
Definition strip_minus (t : buf) : buf := match t with c :: t' => if c =? MINUS then t' else t | [] => t end.
Definition scan_text (t : buf) : buf :=
  range t (fst (parse_number (48 :: parse_digit (strip_minus t)) (Some no_error))).
Lemma digit_app d r : digits d -> (match r with [] => True | c :: _ => ~ s_digit c end) -> parse_digit (d ++ r) = r.
Proof.
  intros Hd Hr. induction Hd as [|c d Hc _ IH].
  - destruct r as [|c r]; [reflexivity|]. cbn [app parse_digit]. unfold s_digit in Hr. unfold is_digit. now replace ((48 <=? c) && (c <=? 57)) with false by lia.
  - cbn [app parse_digit]. unfold s_digit in Hc. unfold is_digit. now replace ((48 <=? c) && (c <=? 57)) with true by lia.
Qed.
Lemma range_app_l a b : range (a ++ b) b = a.
Proof. unfold range. rewrite app_length. replace (length a + length b - length b)%nat with (length a) by lia. rewrite firstn_app, Nat.sub_diag, firstn_all. cbn [firstn]. now rewrite app_nil_r. Qed.
Lemma scan_text_law : scan_law scan_text (fun t => t).
Proof.
  intros t r [m i f x Hm [Hi0 Hi] Hf Hx] Hr. unfold scan_text.
  replace (strip_minus ((m ++ i ++ f ++ x) ++ r)) with (i ++ f ++ x ++ r).
  2: { rewrite <- !app_assoc. destruct Hm; cbn [app]; [|reflexivity]. destruct i as [|c i]; [congruence|]. cbn [app strip_minus].
       inversion Hi; subst. unfold s_digit in *. now replace (c =? MINUS) with false by lia. }
  assert (num_stop ([48] ++ f ++ x) r) as Hs by now apply follow_num_stop.
  rewrite digit_app; [|exact Hi|].
  - replace (48 :: f ++ x ++ r) with (([] ++ [48] ++ f ++ x) ++ r) by (cbn [app]; now rewrite <- app_assoc).
    rewrite parse_number_app; [|constructor; auto; constructor|exact Hs]. cbn [fst]. apply range_app_l.
  - destruct Hf as [|ds Hds]; cbn [app]; [|unfold s_digit; lia].
    destruct Hx as [|m0 sg ds Hm0]; cbn [app]; [|unfold s_digit; lia].
    destruct r as [|c r]; [exact I|]. apply Hr.
Qed.
