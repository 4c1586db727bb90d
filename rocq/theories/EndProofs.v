(** An error that is reported leaves the iterator at the end. *)
From Verif Require Import Base Parser SpecJson ParserFacts Out Number StringS Array Unord Object SpecObject ObjectArray Enum Wrap TimeSize Float
  CodecLaws NumberProofs StringProofs ArrayProofs ObjectProofs ObjectArrayProofs EnumProofs WrapProofs TimeProofs Desc DescProofs SpecEnd.

Definition soft (s : buf) (x : eptr) : Prop :=
  bad_hex s /\ exists j, x = Some j /\ code j = InvalidString /\ tail_of j = 0.
Lemma bad_hex_suffix r s : suffix r s -> bad_hex r -> bad_hex s.
Proof.
  intros [p ->] (p' & u & q & d & r' & -> & H). exists (p ++ p'), u, q, d, r'. split; [|exact H]. now rewrite <- app_assoc.
Qed.
Lemma soft_suffix r s x : suffix r s -> soft r x -> soft s x.
Proof. intros Hs (H & J). split; [eapply bad_hex_suffix; eassumption|exact J]. Qed.
Lemma soft_err s x : soft s x -> has_err x = true.
Proof. intros (_ & j & -> & H & _). unfold has_err. cbn. unfold is_err. now rewrite H. Qed.

(** position [s], record [x], reached from [s0], [e0] *)
Definition inv (s0 : buf) (e0 : eptr) (s : buf) (x : eptr) : Prop :=
  suffix s s0 /\ (x = e0 \/ s = [] \/ soft s0 x).
Definition G {A} (s0 : buf) (e0 : eptr) (m : res (A * buf * eptr)) : Prop :=
  match m with Ok (_, r, y) => inv s0 e0 r y | _ => True end.
Definition GP (s0 : buf) (e0 : eptr) (m : res (buf * eptr)) : Prop :=
  match m with Ok (r, y) => inv s0 e0 r y | _ => True end.
Lemma inv_init s e : inv s e s e. Proof. split; [apply suffix_refl|now left]. Qed.
Lemma inv_nil s e x : inv s e [] x. Proof. split; [apply suffix_nil|right; now left]. Qed.
Lemma inv_suffix s0 e0 s x r : suffix r s -> inv s0 e0 s x -> inv s0 e0 r x.
Proof.
  intros Hr (A & B). split; [now apply suffix_trans with s|]. destruct B as [B|[->|B]]; [now left| |right; now right].
  right. left. now apply suffix_of_nil.
Qed.
Lemma inv_tl s0 e0 c s x : inv s0 e0 (c :: s) x -> inv s0 e0 s x.
Proof. apply inv_suffix. apply suffix_cons, suffix_refl. Qed.
Lemma inv_step s0 e0 s x r y : estep s x y -> inv s x r y -> inv s0 e0 s x -> inv s0 e0 r y.
Proof.
  intros Hl (A & B) (A' & B'). split; [now apply suffix_trans with s|].
  destruct B as [->|[->|B]]; [|right; now left|right; right; now apply soft_suffix with s].
  destruct B' as [->|[->|B']]; [now left| |right; now right]. right. left. now apply suffix_of_nil.
Qed.
(** a function that obeys [dgood] and stops *)
Definition ends {A} (d : option Z -> A -> buf -> eptr -> res (A * buf * eptr)) : Prop :=
  dlaw d /\ forall sn old s e, G s e (d sn old s e).
Lemma inv_des {A} (d : option Z -> A -> buf -> eptr -> res (A * buf * eptr)) s0 e0 sn old s x : ends d -> inv s0 e0 s x ->
  G s0 e0 (d sn old s x).
Proof.
  intros (L & E) H. specialize (L sn old s x). specialize (E sn old s x). destruct (d sn old s x) as [[[v r] y]| |]; [|exact I|exact I].
  destruct L as [_ L]. cbn in *. eapply inv_step; eassumption.
Qed.
Lemma outcome_inv s e r o : outcome s r o -> inv s e r (app_err e o).
Proof. intros (A & B & C). split; [exact A|]. destruct o as [j|]; [right; left; apply C; discriminate|now left]. Qed.
Lemma pgood_inv f s0 e0 s x : pgood f s -> inv s0 e0 s x -> inv s0 e0 (fst (f s x)) (snd (f s x)).
Proof.
  intros (r & o & A & B) H. rewrite A. cbn [fst snd]. apply inv_step with s x; [|now apply outcome_inv|exact H].
  apply estep_app. apply B.
Qed.
Lemma rlaw_inv sn f s0 e0 s x : rlawS sn f s -> inv s0 e0 s x -> GP s0 e0 (f s x).
Proof.
  intros [(r & o & A & B & _)|(_ & A)] H; rewrite A; [|exact I]. cbn. apply inv_step with s x; [|now apply outcome_inv|exact H].
  apply estep_app. apply B.
Qed.
Lemma string_inv s0 e0 s x : inv s0 e0 s x -> GP s0 e0 (parse_string s x).
Proof.
  intros H. destruct (string_good s) as (r & o & A & B). rewrite A. cbn. apply inv_step with s x; [|now apply outcome_inv|exact H].
  apply estep_app. apply B.
Qed.
Lemma value_inv sn s0 e0 s x : inv s0 e0 s x -> GP s0 e0 (parse_value sn s x).
Proof. apply (rlaw_inv sn). apply pv_law. Qed.
Lemma member_inv sn s0 e0 s x : inv s0 e0 s x -> GP s0 e0 (parse_member (parse_value sn) s x).
Proof. apply (rlaw_inv sn). apply pmember_law. Qed.
Lemma G_bind {A B} s0 e0 (m : res (A * buf * eptr)) (f : A * buf * eptr -> res (B * buf * eptr)) :
  G s0 e0 m -> (forall v r y, inv s0 e0 r y -> G s0 e0 (f (v, r, y))) -> G s0 e0 (bind m f).
Proof. destruct m as [[[v r] y]| |]; cbn [bind]; intros H K; [now apply K|exact I|exact I]. Qed.
Lemma GP_bind {B} s0 e0 (m : res (buf * eptr)) (f : buf * eptr -> res (B * buf * eptr)) :
  GP s0 e0 m -> (forall r y, inv s0 e0 r y -> G s0 e0 (f (r, y))) -> G s0 e0 (bind m f).
Proof. destruct m as [[r y]| |]; cbn [bind]; intros H K; [now apply K|exact I|exact I]. Qed.
Lemma GP_bindP s0 e0 (m : res (buf * eptr)) (f : buf * eptr -> res (buf * eptr)) :
  GP s0 e0 m -> (forall r y, inv s0 e0 r y -> GP s0 e0 (f (r, y))) -> GP s0 e0 (bind m f).
Proof. destruct m as [[r y]| |]; cbn [bind]; intros H K; [now apply K|exact I|exact I]. Qed.
Lemma G_pure {A B} s0 e0 (a : res A) (f : A -> res (B * buf * eptr)) : (forall v, G s0 e0 (f v)) -> G s0 e0 (bind a f).
Proof. intros K. destruct a; cbn [bind]; [apply K|exact I|exact I]. Qed.

Ltac stepP f gd :=
  match goal with H : inv ?s0 ?e0 ?s ?x |- context [f ?s ?x] =>
    let P := fresh in pose proof (pgood_inv f s0 e0 s x (gd s) H) as P; destruct (f s x) as [? ?]; cbn [fst snd] in P
  end.
Ltac tails := repeat match goal with H : inv ?s0 ?e0 (?c :: ?t) ?x |- _ =>
  lazymatch goal with K : inv s0 e0 t x |- _ => fail | _ => pose proof (inv_tl s0 e0 c t x H) end end.
Ltac ifin := first [assumption | apply inv_nil | exact I | split; [auto with suf; fail|left; reflexivity]].
Ltac stops := repeat first
  [ progress (cbn [G GP]); ifin
  | ifin
  | stepP parse_space space_good
  | stepP parse_null null_good
  | stepP parse_bool bool_good
  | stepP parse_number number_good
  | match goal with |- context [match ?z with [] => _ | _ => _ end] => is_var z; destruct z; tails end
  | match goal with |- G _ _ (match ?z with _ => _ end) => destruct z end
  | match goal with |- GP _ _ (match ?z with _ => _ end) => destruct z end ].

(** ---- leaves ---- *)
Definition E {A} (s : buf) (e : eptr) (m : res (A * buf * eptr)) : Prop :=
  match m with Ok (_, r, y) => y = e \/ r = [] | _ => True end.
Lemma ends_leaf {A} (d : option Z -> A -> buf -> eptr -> res (A * buf * eptr)) :
  dlaw d -> (forall sn old s e, E s e (d sn old s e)) -> ends d.
Proof.
  intros L H. split; [exact L|]. intros sn old s e. specialize (L sn old s e). specialize (H sn old s e).
  destruct (d sn old s e) as [[[v r] y]| |]; [|exact I|exact I]. split; [apply L|]. destruct H; tauto.
Qed.
Lemma E_pgood {A} f s e (g : buf -> A) : pgood f s -> E s e (let '(r, e') := f s e in Ok (g r, r, e')).
Proof. intros (r & o & X & _ & _ & C). rewrite X. destruct o as [j|]; [right; apply C; discriminate|now left]. Qed.
Ltac leaf := repeat first
  [ match goal with |- E _ _ (Ok _) => first [left; reflexivity | right; reflexivity] end
  | exact I
  | apply (E_pgood parse_null), null_good | apply (E_pgood parse_bool), bool_good | apply (E_pgood parse_number), number_good
  | match goal with |- E _ _ (bind ?m _) => destruct m; cbn [bind] end
  | match goal with |- E _ _ (match ?z with _ => _ end) => destruct z end ].
Lemma int_E t sn old s e : E s e (int_des t sn old s e).
Proof. unfold int_des, unserialize_integer. cbv zeta. leaf. Qed.
Lemma int_ends t : ends (int_des t). Proof. apply ends_leaf; [apply int_dlaw|intros; apply int_E]. Qed.
Lemma bool_ends : ends bool_des. Proof. apply ends_leaf; [exact bool_dlaw|]. intros. unfold bool_des. leaf. Qed.
Lemma float_ends A Rr fmt scan zero : ends (des (@float_codec A Rr fmt scan zero)).
Proof. apply ends_leaf; [apply FloatProofs.float_dlaw|]. intros. cbn [des float_codec]. unfold float_des. cbv zeta. leaf. Qed.
Lemma enum_ends mode L : ends (enum_des mode L).
Proof. apply ends_leaf; [apply enum_dlaw|]. intros. unfold enum_des. leaf. Qed.
Lemma pv_E sn s e : match parse_value sn s e with Ok (r, y) => y = e \/ r = [] | _ => True end.
Proof.
  destruct (pv_law sn s) as [(r & o & X & (_ & _ & C) & _)|(_ & X)]; rewrite X; [|exact I].
  destruct o as [j|]; [right; apply C; discriminate|now left].
Qed.
Lemma raw_ends : ends raw_des.
Proof.
  apply ends_leaf; [exact raw_dlaw|]. intros. unfold raw_des. pose proof (pv_E sn s e) as P.
  destruct (parse_value sn s e) as [[r y]| |]; exact P.
Qed.
Lemma rquoted_ends rq : ends (rquoted_des rq).
Proof.
  apply ends_leaf; [apply rquoted_dlaw|]. intros. unfold rquoted_des. cbv zeta. destruct s as [|c t]; [leaf|].
  destruct (rq && negb (c =? QT)); [leaf|].
  destruct rq.
  - pose proof (pv_E sn t e) as P. destruct (parse_value sn t e) as [[r y]| |]; cbn [bind]; [|exact I|exact I].
    destruct (has_err y); [exact P|]. destruct r as [|d r]; [leaf|].
    destruct (d =? QT); [|leaf]. destruct P as [P|P]; [now left|discriminate].
  - pose proof (pv_E sn (c :: t) e) as P. destruct (parse_value sn (c :: t) e) as [[r y]| |]; cbn [bind]; [|exact I|exact I].
    destruct (has_err y); exact P.
Qed.

(** ---- strings ---- *)
Lemma inv_uchar2 s0 e0 s x c : (~ s_hex c -> bad_hex s0) -> inv s0 e0 s x -> inv s0 e0 s (snd (uchar2 c x)).
Proof.
  intros B (H1 & H2). unfold uchar2. unfold s_hex in B.
  destruct ((48 <=? c) && (c <=? 57)) eqn:E1; [now split|].
  destruct ((97 <=? c) && (c <=? 102)) eqn:E2; [now split|].
  destruct ((65 <=? c) && (c <=? 70)) eqn:E3; [now split|]. cbn [snd].
  assert (BB : bad_hex s0) by (apply B; lia). unfold cerr. destruct x as [k|]; [|now split].
  destruct (is_err k); [now split|]. split; [exact H1|]. right. right. split; [exact BB|]. eexists. now split.
Qed.
Lemma bh_intro s0 p u q d r : suffix (BSL :: u :: p) s0 -> p = q ++ d :: r ->
  ((u = 117 /\ (length q < 4)%nat) \/ (u = 120 /\ (length q < 2)%nat)) -> ~ s_hex d -> bad_hex s0.
Proof.
  intros H -> Hu Hd. eapply bad_hex_suffix; [exact H|]. exists [], u, q, d, r. now split.
Qed.
Definition pinv s0 e0 (p : piece) : Prop := let '(r, _, _, y) := p in inv s0 e0 r y.
Lemma uhex_emit_inv s0 e0 h cur s n x : inv s0 e0 s x -> pinv s0 e0 (uhex_emit h cur s n x).
Proof.
  intros H. unfold uhex_emit. cbv zeta.
  repeat match goal with |- pinv _ _ (if ?b then _ else _) => destruct b end; cbn; first [exact H|apply inv_nil].
Qed.
Lemma uhex_inv s0 e0 s n x : suffix (BSL :: 117 :: s) s0 -> inv s0 e0 s x -> pinv s0 e0 (uhex s n x).
Proof.
  intros Hs H. unfold uhex. destruct (n =? 0); [exact H|].
  destruct s as [|a s]; [apply inv_nil|]. apply inv_tl in H.
  pose proof (inv_uchar2 s0 e0 s x a) as P1. destruct (uchar2 a x) as [da x1]. cbn [snd] in P1.
  assert (H1 : inv s0 e0 s x1) by (apply P1; [|exact H]; apply (bh_intro s0 _ 117 [] a s Hs); [reflexivity|left; cbn; lia]).
  destruct s as [|b s]; [apply inv_nil|]. apply inv_tl in H1.
  pose proof (inv_uchar2 s0 e0 s x1 b) as P2. destruct (uchar2 b x1) as [db x2]. cbn [snd] in P2.
  assert (H2 : inv s0 e0 s x2) by (apply P2; [|exact H1]; apply (bh_intro s0 _ 117 [a] b s Hs); [reflexivity|left; cbn; lia]).
  destruct s as [|c s]; [apply inv_nil|]. apply inv_tl in H2.
  pose proof (inv_uchar2 s0 e0 s x2 c) as P3. destruct (uchar2 c x2) as [dc x3]. cbn [snd] in P3.
  assert (H3 : inv s0 e0 s x3) by (apply P3; [|exact H2]; apply (bh_intro s0 _ 117 [a; b] c s Hs); [reflexivity|left; cbn; lia]).
  destruct s as [|d s]; [apply inv_nil|]. apply inv_tl in H3.
  pose proof (inv_uchar2 s0 e0 s x3 d) as P4. destruct (uchar2 d x3) as [dd x4]. cbn [snd] in P4.
  assert (H4 : inv s0 e0 s x4) by (apply P4; [|exact H3]; apply (bh_intro s0 _ 117 [a; b; c] d s Hs); [reflexivity|left; cbn; lia]).
  now apply uhex_emit_inv.
Qed.
Lemma xhex_inv s0 e0 s n x : suffix (BSL :: 120 :: s) s0 -> inv s0 e0 s x -> pinv s0 e0 (xhex s n x).
Proof.
  intros Hs H. unfold xhex.
  destruct s as [|a s]; [apply inv_nil|]. apply inv_tl in H.
  pose proof (inv_uchar2 s0 e0 s x a) as P1. destruct (uchar2 a x) as [da x1]. cbn [snd] in P1.
  assert (H1 : inv s0 e0 s x1) by (apply P1; [|exact H]; apply (bh_intro s0 _ 120 [] a s Hs); [reflexivity|right; cbn; lia]).
  destruct s as [|b s]; [apply inv_nil|]. apply inv_tl in H1.
  pose proof (inv_uchar2 s0 e0 s x1 b) as P2. destruct (uchar2 b x1) as [db x2]. cbn [snd] in P2.
  cbn. apply P2; [|exact H1]; apply (bh_intro s0 _ 120 [a] b s Hs); [reflexivity|right; cbn; lia].
Qed.
Lemma utf8_copy_inv s0 e0 k : forall s n x, inv s0 e0 s x -> pinv s0 e0 (utf8_copy k s n x).
Proof.
  induction k as [|k IH]; intros s n x H; cbn [utf8_copy]; [exact H|]. destruct (n =? 0); [exact H|].
  destruct s as [|c t]; [apply inv_nil|]. specialize (IH t (n - 1) x (inv_tl _ _ _ _ _ H)).
  destruct (utf8_copy k t (n - 1) x) as [[[r w] n'] y]. exact IH.
Qed.
Lemma unutf8_inv s0 e0 c t n x : inv s0 e0 (c :: t) x -> pinv s0 e0 (unutf8 c t n x).
Proof.
  intros H. unfold unutf8.
  repeat match goal with |- pinv _ _ (if ?b then _ else _) => destruct b end; first [now apply utf8_copy_inv|apply inv_nil|exact (inv_tl _ _ _ _ _ H)].
Qed.
Lemma str_loop_inv s0 e0 f : forall s n x out, inv s0 e0 s x ->
  match str_loop f s n x out with Ok (inl (r, y, _)) => inv s0 e0 r y | _ => True end.
Proof.
  induction f as [|f IH]; intros s n x out H; cbn [str_loop]; [exact I|].
  destruct s as [|c t]; [exact H|]. destruct ((c =? QT) || (n =? 0)); [exact H|].
  destruct (c =? BSL) eqn:Ec.
  - apply Z.eqb_eq in Ec. subst c. destruct t as [|d t]; [exact I|].
    pose proof (inv_tl _ _ _ _ _ (inv_tl _ _ _ _ _ H)) as H'. destruct (unescape d); [now apply IH|].
    destruct (d =? 117) eqn:Ed.
    + apply Z.eqb_eq in Ed. subst d. pose proof (uhex_inv s0 e0 t n x (proj1 H) H') as P.
      destruct (uhex t n x) as [[[r w] n'] y]. now apply IH.
    + destruct (d =? 120) eqn:Ed'; [|exact I].
      apply Z.eqb_eq in Ed'. subst d. pose proof (xhex_inv s0 e0 t n x (proj1 H) H') as P.
      destruct (xhex t n x) as [[[r w] n'] y]. now apply IH.
  - pose proof (unutf8_inv s0 e0 c t n x H) as P. destruct (unutf8 c t n x) as [[[r w] n'] y]. now apply IH.
Qed.
Lemma str_unser_inv s0 e0 s n x : inv s0 e0 s x -> G s0 e0 (str_unser s n x).
Proof.
  intros H. unfold str_unser. destruct s as [|c t]; [apply inv_nil|]. destruct (negb (c =? QT)); [apply inv_nil|].
  pose proof (str_loop_inv s0 e0 (S (length t)) t n x [] (inv_tl _ _ _ _ _ H)) as P.
  destruct (str_loop (S (length t)) t n x []) as [[[[r y] out]|[y out]]| |]; cbn [bind]; try exact I; [|apply inv_nil].
  destruct r as [|d r]; [apply inv_nil|]. destruct (negb _); [apply inv_nil|]. exact (inv_tl _ _ _ _ _ P).
Qed.
Lemma string_ends : ends string_des.
Proof.
  split; [exact string_dlaw|]. intros sn old s e. pose proof (inv_init s e) as H. unfold string_des.
  destruct (is_null s); [stops|now apply str_unser_inv].
Qed.
Lemma chars_ends N : ends (chars_des N).
Proof.
  split; [apply chars_dlaw|]. intros sn old s e. pose proof (inv_init s e) as H. unfold chars_des.
  destruct (is_null s); [stops|]. apply G_bind; [now apply str_unser_inv|]. intros; stops.
Qed.

(** ---- time_interval ---- *)
Definition TI s0 e0 (m : res ((Z * buf * eptr) + (Z * buf * eptr))) : Prop :=
  match m with Ok (inl (_, r, y)) => inv s0 e0 r y | Ok (inr (_, r, y)) => inv s0 e0 r y | _ => True end.
Lemma TI_bind {A} s0 e0 (a : res A) f : (forall v, a = Ok v -> TI s0 e0 (f v)) -> TI s0 e0 (bind a f).
Proof. destruct a; cbn [bind]; intros H; [now apply H|exact I|exact I]. Qed.
Lemma time_loop_inv t fr s0 e0 sn f : forall v s x, inv s0 e0 s x -> TI s0 e0 (time_loop t fr f sn v s x).
Proof.
  induction f as [|f IH]; intros v s x H; cbn [time_loop]; [exact I|].
  destruct s as [|c s1]; [exact H|]. destruct (c =? QT); [exact H|].
  pose proof (inv_des (int_des t) s0 e0 sn 0 (c :: s1) x (int_ends t) H) as P.
  destruct (int_des t sn 0 (c :: s1) x) as [[[cur r] y]| |]; cbn [bind]; try exact I. cbn in P.
  destruct (has_err y); [exact P|]. destruct r as [|u s2]; [exact P|]. apply inv_tl in P.
  repeat match goal with
  | |- TI _ _ (bind ?a _) => apply TI_bind; intros ? ?
  | |- TI _ _ (if ?b then _ else _) => destruct b
  | |- TI _ _ (match ?z with [] => _ | _ => _ end) => destruct z; tails
  end; try (apply IH; assumption).
  apply IH. match goal with H : step ?l = Ok ?r |- _ => destruct l; [discriminate|]; injection H as <- end. tails. assumption.
Qed.
Lemma time_ends t fr : ends (time_des t fr).
Proof.
  split; [apply time_dlaw|]. intros sn old s e. pose proof (inv_init s e) as H. unfold time_des.
  destruct s as [|c s0]; [apply inv_nil|]. destruct (is_null (c :: s0)); [stops|].
  destruct (is_number (c :: s0)); [now apply inv_des; [apply int_ends|]|]. destruct (negb _); [apply inv_nil|].
  pose proof (time_loop_inv t fr (c :: s0) e sn (S (length s0)) 0 s0 e (inv_tl _ _ _ _ _ H)) as P.
  destruct (time_loop t fr (S (length s0)) sn 0 s0 e) as [[[[v r] y]|[[v r] y]]| |]; cbn [bind]; try exact I; [|exact P].
  destruct r as [|d r]; [apply inv_nil|]. destruct (negb _); [apply inv_nil|]. exact (inv_tl _ _ _ _ _ P).
Qed.

(** ---- flags ---- *)
Lemma opt_space_inv s0 e0 sep s x : inv s0 e0 s x -> inv s0 e0 (fst (opt_space sep s x)) (snd (opt_space sep s x)).
Proof. intros H. unfold opt_space. destruct (sep =? 32); [exact H|]. apply pgood_inv; [apply space_good|exact H]. Qed.
Ltac stepO := match goal with H : inv ?s0 ?e0 ?s ?x |- context [opt_space ?sep ?s ?x] =>
  let P := fresh in pose proof (opt_space_inv s0 e0 sep s x H) as P; destruct (opt_space sep s x) as [? ?]; cbn [fst snd] in P end.
Lemma one_str_inv s0 e0 sep mode L : forall v s x ready, inv s0 e0 s x -> G s0 e0 (Ok (one_str sep mode L v s x ready)).
Proof.
  induction L as [|[n a] L IH]; intros v s x ready H; cbn [one_str].
  - destruct (ready || _); [exact H|]. stepP parse_space space_good.
    match goal with H : inv ?s0 ?e0 ?s ?x |- context [skip_unknown sep ?s] =>
      pose proof (inv_suffix s0 e0 s x _ (skip_unknown_suffix sep s) H) end.
    stepP parse_space space_good. match goal with |- context [match ?z with [] => _ | _ => _ end] => destruct z as [|c t] end; [apply inv_nil|].
    match goal with H : inv ?s0 ?e0 ?s ?x |- context [skip1 sep ?s] =>
      pose proof (inv_suffix s0 e0 s x _ (skip1_suffix sep s) H) end.
    stepP parse_space space_good. assumption.
  - destruct s as [|c s]; [exact H|]. stepO. match goal with |- context [match ?z with [] => _ | _ => _ end] => destruct z as [|d s1] end; [apply inv_nil|].
    destruct (d =? QT); [assumption|]. destruct (pre_match n (d :: s1)) as [[|f t]|] eqn:Em; [now apply IH| |now apply IH].
    destruct (_ || _); [|now apply IH].
    match goal with K : inv s0 e0 (d :: s1) ?x1 |- _ => pose proof (inv_suffix s0 e0 (d :: s1) x1 _ (pre_match_suffix n _ _ Em) K) end.
    stepO. match goal with |- context [match ?z with [] => _ | _ => _ end] => destruct z as [|g s2] end; [apply inv_nil|].
    destruct (g =? QT); [assumption|]. apply IH. eapply inv_suffix; [apply skip1_suffix|eassumption].
Qed.
Lemma one_arr_inv s0 e0 mode sn L : forall v s x ready, inv s0 e0 s x -> G s0 e0 (one_arr mode sn L v s x ready).
Proof.
  induction L as [|[n a] L IH]; intros v s x ready H; cbn [one_arr].
  - destruct (ready || _); [exact H|]. stepP parse_space space_good. apply G_pure. intros c. destruct (c =? RBR); [assumption|].
    apply GP_bind; [now apply string_inv|]. intros r y Hr. stepP parse_space space_good.
    match goal with |- context [match ?z with [] => _ | _ => _ end] => destruct z as [|c1 t] end; [apply inv_nil|].
    match goal with H : inv ?s0 ?e0 ?s ?x |- context [skip1 COMMA ?s] =>
      pose proof (inv_suffix s0 e0 s x _ (skip1_suffix COMMA s) H) end.
    stepP parse_space space_good. assumption.
  - stepP parse_space space_good. match goal with |- G _ _ (match ?z with [] => _ | _ => _ end) => destruct z as [|c t] end; [apply inv_nil|].
    destruct (c =? RBR); [assumption|]. destruct (negb _); [apply inv_nil|].
    destruct (pre_match n t) as [[|d t']|] eqn:Em; [now apply IH| |now apply IH]. destruct (d =? QT); [|now apply IH].
    tails. match goal with K : inv s0 e0 t ?x1 |- _ => pose proof (inv_suffix s0 e0 t x1 _ (pre_match_suffix n _ _ Em) K) end. tails.
    stepP parse_space space_good. match goal with |- G _ _ (match ?z with [] => _ | _ => _ end) => destruct z as [|f t2] end; [apply inv_nil|].
    destruct (negb _); [assumption|]. tails. stepP parse_space space_good. now apply IH.
Qed.
Lemma flags_loop_inv s0 e0 fin one : (forall v s x, inv s0 e0 s x -> G s0 e0 (one v s x)) ->
  forall fuel v s x, inv s0 e0 s x -> G s0 e0 (flags_loop fin one fuel v s x).
Proof.
  intros Hone. induction fuel as [|n IH]; intros v s x H; cbn [flags_loop]; [exact I|].
  destruct s as [|c t]; [exact H|]. destruct (c =? fin); [exact H|].
  apply G_bind; [now apply Hone|]. intros v1 s1 x1 Hx1. destruct (dist s1 =? _); [apply inv_nil|].
  destruct s1; [apply inv_nil|now apply IH].
Qed.
Lemma flags_ends sep mode L : ends (flags_des sep mode L).
Proof.
  split; [apply flags_dlaw|]. intros sn old s e. pose proof (inv_init s e) as H. unfold flags_des.
  destruct s as [|c t]; [apply inv_nil|]. destruct (_ && _); [apply inv_nil|]. apply inv_tl in H. apply G_bind.
  - destruct (c =? LBR); apply flags_loop_inv; try exact H; intros; [now apply one_arr_inv|now apply one_str_inv].
  - intros v s1 x1 Hx1. destruct s1 as [|d t1]; [apply inv_nil|]. destruct (_ && _); [apply inv_nil|]. exact (inv_tl _ _ _ _ _ Hx1).
Qed.

(** ---- containers ---- *)
Section Seq.
  Context {A : Type} (item : codec A) (Hi : ends (des item)).
  Lemma seq_loop_inv {S} (ins : S -> A -> S) d0 Rb sn s0 e0 : forall fuel st s x, inv s0 e0 s x ->
    G s0 e0 (seq_loop (des item sn) ins d0 Rb fuel st s x).
  Proof.
    induction fuel as [|n IH]; intros st s x H; cbn [seq_loop]; [exact I|].
    destruct s as [|c t]; [apply inv_nil|]. stepP parse_space space_good.
    match goal with |- G _ _ (match ?z with [] => _ | _ => _ end) => destruct z as [|c1 t1] end; [apply inv_nil|]. tails.
    destruct (c1 =? Rb); [assumption|]. apply G_bind; [now apply inv_des|]. intros v s2 x2 Hx2.
    stepP parse_space space_good.
    match goal with |- G _ _ (match ?z with [] => _ | _ => _ end) => destruct z as [|d t3] end; [apply inv_nil|]. tails.
    destruct (d =? Rb); [assumption|]. destruct (negb _); [apply inv_nil|]. now apply IH.
  Qed.
  Lemma seq_G {C S} (k : container A C S) L Rb d0 sn old s e : G s e (seq_des k L Rb item d0 sn old s e).
  Proof.
    pose proof (inv_init s e) as H. unfold seq_des. destruct (is_null s); [stops|].
    destruct s as [|c t]; [apply inv_nil|]. destruct (negb (c =? L)); [apply inv_nil|]. apply inv_tl in H.
    apply G_bind; [now apply seq_loop_inv|]. intros st r y Hr. exact Hr.
  Qed.
  Lemma seq_ends {C S} (k : container A C S) L Rb d0 : ends (des (seq_codec k L Rb item d0)).
  Proof. split; [apply seq_dlaw, Hi|]. intros. apply seq_G. Qed.
  Lemma hash_ends {H} (h : hashtab A H) L Rb d0 : ends (des (hash_codec h L Rb item d0)).
  Proof. split; [apply UnordProofs.hash_dlaw, Hi|]. intros. apply seq_G. Qed.

  Lemma fix_close_inv s0 e0 Rb s x : inv s0 e0 s x -> inv s0 e0 (fst (fix_close Rb s x)) (snd (fix_close Rb s x)).
  Proof.
    intros H. unfold fix_close. destruct s as [|c t]; [apply inv_nil|]. destruct (negb _); [apply inv_nil|]. exact (inv_tl _ _ _ _ _ H).
  Qed.
  Ltac stepC := match goal with H : inv ?s0 ?e0 ?s ?x |- context [fix_close ?Rb ?s ?x] =>
    let P := fresh in pose proof (fix_close_inv s0 e0 Rb s x H) as P; destruct (fix_close Rb s x) as [? ?]; cbn [fst snd] in P; exact P end.
  Lemma fix_loop_inv fresh ex Rb sn s0 e0 : forall todo s x, inv s0 e0 s x ->
    G s0 e0 (fix_loop (des item sn) fresh ex Rb todo s x).
  Proof.
    induction todo as [|a todo IH]; intros s x H; cbn [fix_loop]; [stepC|].
    destruct s as [|c t]; [stepC|]. stepP parse_space space_good.
    match goal with |- G _ _ (match ?z with [] => _ | _ => _ end) => destruct z as [|c1 t1] end; [apply inv_nil|].
    destruct (c1 =? Rb); [stepC|]. apply G_bind; [now apply inv_des|]. intros v s2 x2 Hx2. stepP parse_space space_good.
    match goal with |- G _ _ (match ?z with [] => _ | _ => _ end) => destruct z as [|d t3] end; [apply inv_nil|].
    destruct (d =? Rb); [stepC|]. destruct (negb _); [apply inv_nil|]. tails.
    apply G_bind; [now apply IH|]. intros l r y Hr. exact Hr.
  Qed.
  Lemma fix_null_quiet sn r : takes_null item -> forall l e, exists l', fix_null (des item sn) l (text "null" ++ r) e = Ok (l', e).
  Proof.
    intros Hn. induction l as [|a l IH]; intros e; cbn [fix_null]; [now exists []|].
    destruct (Hn sn a r e) as (v & r' & Ev). rewrite Ev. cbn [bind]. destruct (IH e) as (l' & El). rewrite El. eexists. reflexivity.
  Qed.
  Lemma null_split s : (exists r, s = text "null" ++ r) \/ forall e, fst (parse_null s e) = [].
  Proof.
    destruct (null_good s) as (r & [j|] & X & _ & _ & B).
    - right. intros e. rewrite X. cbn. apply B. discriminate.
    - left. exists r. specialize (X (Some no_error)). revert X. unfold parse_null.
      destruct s as [|a s]; [discriminate|]. destruct (a =? 110) eqn:Ea; [|discriminate].
      unfold finish_lit. destruct s as [|b [|c [|d s]]]; cbn; repeat match goal with |- context [if ?z then _ else _] => destruct z eqn:? end; cbn; intros X;
        inversion X; subst; repeat match goal with H : (_ =? _) = true |- _ => apply Z.eqb_eq in H; subst end; reflexivity.
  Qed.
  Lemma fix_ends fresh ex L Rb : takes_null item -> ends (fix_des fresh ex L Rb item).
  Proof.
    intros Hn. split; [apply fix_dlaw, Hi|]. intros sn old s e. pose proof (inv_init s e) as H. unfold fix_des. destruct (is_null s).
    - destruct (null_split s) as [(r & ->)|N].
      + destruct (fix_null_quiet sn r Hn old e) as (l & ->). cbn [bind]. stops.
      + destruct (fix_null (des item sn) old s e) as [[l e1]| |]; cbn [bind]; [|exact I|exact I].
        specialize (N e1). destruct (parse_null s e1) as [q y]. cbn in N. subst q. apply inv_nil.
    - destruct s as [|c t]; [apply inv_nil|]. destruct (negb (c =? L)); [apply inv_nil|]. apply inv_tl in H. now apply fix_loop_inv.
  Qed.
End Seq.
Lemma vec_ends {A} (c : codec (list A)) N : ends (des c) -> ends (des (vec_codec c N)).
Proof.
  intros Hc. split; [apply vec_dlaw, Hc|]. intros sn old s e. cbn [des vec_codec].
  apply G_bind; [apply Hc|]. intros l r y Hr. exact Hr.
Qed.
Lemma field_ends {K V} (kc : codec K) (vc : codec V) : ends (des kc) -> ends (des vc) -> ends (des (field_codec kc vc)).
Proof.
  intros Hk Hv. split; [now apply field_dlaw; [apply Hk|apply Hv]|]. intros sn old s e. cbn [des field_codec]. unfold field_des.
  apply G_bind; [apply Hk|]. intros k s1 x1 Hx1. stepP parse_space space_good.
  match goal with |- G _ _ (match ?z with [] => _ | _ => _ end) => destruct z as [|c t] end; [apply inv_nil|]. tails.
  destruct (negb _); [apply inv_nil|]. stepP parse_space space_good.
  match goal with |- G _ _ (match ?z with [] => _ | _ => _ end) => destruct z as [|d t'] end; [apply inv_nil|].
  apply G_bind; [now apply inv_des|]. intros v s4 x4 Hx4. exact Hx4.
Qed.

(** ---- objects ---- *)
Section Objects.
  Context {T : Type}.
  Lemma unser_name_inv s0 e0 name s u x : inv s0 e0 s x ->
    let '(r, y, _) := unser_name name s u x in inv s0 e0 r y.
  Proof.
    intros H. unfold unser_name. destruct (negb (is_string s)); [apply inv_nil|].
    assert (Ht : inv s0 e0 (snd (name_loop name (tl s))) x).
    { eapply inv_suffix; [apply name_loop_suffix|]. destruct s; [exact H|exact (inv_tl _ _ _ _ _ H)]. }
    destruct (name_loop name (tl s)) as [n' s1]. cbn [snd] in Ht. destruct s1 as [|c t1]; [apply inv_nil|].
    destruct (_ || _); [exact H|]. tails. stepP parse_space space_good.
    match goal with |- context [match ?z with [] => ([], cerr _ _ _ _, true) | _ => _ end] => destruct z as [|d t2] end; [apply inv_nil|]. tails.
    destruct (negb _); [apply inv_nil|]. stepP parse_space space_good.
    match goal with |- context [match ?z with [] => ([], cerr _ _ _ _, true) | _ => _ end] => destruct z as [|d3 t3] end; [apply inv_nil|assumption].
  Qed.
  Lemma mem_inv (m : mem T) s0 e0 sn t s u x : ends (des (m_codec m)) -> inv s0 e0 s x -> G s0 e0 (mem_des m sn t s u x).
  Proof.
    intros Hm H. unfold mem_des. pose proof (unser_name_inv s0 e0 (m_name m) s u x H) as P.
    destruct (unser_name (m_name m) s u x) as [[r y] u']. destruct (negb u'); [exact P|].
    apply G_bind; [now apply inv_des|]. intros v r' y' Hr. exact Hr.
  Qed.
  Lemma memb_inv (b : memb T) s0 e0 sn t s u x : memb_all (fun _ c => ends (des c)) b -> inv s0 e0 s x -> G s0 e0 (memb_des b sn t s u x).
  Proof.
    intros Hb H. destruct b as [m|m init|ru l r d]; cbn [memb_des].
    - now apply mem_inv.
    - unfold mem_p_des. pose proof (unser_name_inv s0 e0 (m_name m) s u x H) as P.
      destruct (unser_name (m_name m) s u x) as [[r y] u']. destruct (negb u'); [exact P|].
      apply G_bind; [now apply inv_des|]. intros v r' y' Hr. exact Hr.
    - destruct Hb as [Hl Hr].
      assert (Hf : ends (des (m_codec (if ru then r else l)))) by now destruct ru.
      assert (Hs : ends (des (m_codec (if ru then l else r)))) by now destruct ru.
      cbv zeta. pose proof (mem_des_good (if ru then r else l) sn t s u (Some no_error) (proj1 Hf)) as P.
      destruct (mem_des (if ru then r else l) sn t s u (Some no_error)) as [[[[t1 u1] itr] ee]| |]; cbn [bind]; [|exact I|exact I].
      destruct (no_err_yet ee).
      + apply G_pure. intros t2. apply (inv_suffix s0 e0 s x); [apply P|exact H].
      + apply G_pure. intros t2. now apply mem_inv.
  Qed.
  Lemma rest_loop_inv mode sn s0 e0 : forall fuel s x, inv s0 e0 s x -> GP s0 e0 (rest_loop mode sn fuel s x).
  Proof.
    induction fuel as [|n IH]; intros s x H; cbn [rest_loop]; [exact I|].
    apply GP_bindP; [now apply member_inv|]. intros r y Hr. stepP parse_space space_good.
    match goal with |- GP _ _ (match ?z with [] => _ | _ => _ end) => destruct z as [|c t] end; [apply inv_nil|]. tails.
    destruct (c =? RCB); [destruct mode; [assumption|apply inv_nil]|]. destruct (negb _); [apply inv_nil|].
    stepP parse_space space_good. now apply IH.
  Qed.
  Lemma rest_inv mode sn s0 e0 s x : inv s0 e0 s x -> GP s0 e0 (rest_members mode sn s x).
  Proof.
    intros H. unfold rest_members. stepP parse_space space_good.
    match goal with |- GP _ _ (match ?z with [] => _ | _ => _ end) => destruct z as [|c t] end; [apply inv_nil|].
    destruct (c =? RCB); [assumption|now apply rest_loop_inv].
  Qed.
  Lemma search_end_inv mode sn s0 e0 s x : inv s0 e0 s x -> GP s0 e0 (search_end mode sn s x).
  Proof.
    intros H. unfold search_end. destruct mode.
    - apply GP_bindP; [now apply member_inv|]. intros r y Hr.
      pose proof (pgood_inv parse_space s0 e0 r y (space_good r) Hr) as P. destruct (parse_space r y); exact P.
    - destruct s as [|c t]; [apply inv_nil|]. destruct (c =? RCB); [exact H|apply inv_nil].
  Qed.
  Lemma search_inv mode sn s0 e0 (L : list (memb T)) : Forall (memb_all (fun _ c => ends (des c))) L -> forall t s x, inv s0 e0 s x ->
    G s0 e0 (search_members mode sn L t s x).
  Proof.
    induction 1 as [|b L Hb _ IH]; intros t s x H; cbn [search_members].
    - apply GP_bind; [now apply search_end_inv|]. intros r y Hr. exact Hr.
    - apply G_bind; [now apply memb_inv|]. intros [t1 u] s1 x1 Hx1. destruct (negb u); [now apply IH|exact Hx1].
  Qed.
  Lemma at_close_inv s0 e0 (t : T) s x : inv s0 e0 s x -> G s0 e0 (at_close t s x).
  Proof. intros H. unfold at_close. destruct s as [|c s]; [apply inv_nil|]. destruct (negb _); [apply inv_nil|exact H]. Qed.
  Lemma members_inv mode sn s0 e0 (L : list (memb T)) : Forall (memb_all (fun _ c => ends (des c))) L ->
    forall fuel Rr t s x, Forall (memb_all (fun _ c => ends (des c))) Rr -> inv s0 e0 s x ->
    G s0 e0 (members_loop mode sn L fuel Rr t s x).
  Proof.
    intros HL. induction fuel as [|n IH]; intros Rr t s x HR H; cbn [members_loop]; [exact I|].
    destruct HR as [|b Rr Hb HR]. { apply GP_bind; [now apply rest_inv|]. intros r y Hr. exact Hr. }
    apply G_bind; [now apply memb_inv|]. intros [t1 u] s1 x1 Hx1.
    apply G_bind. { destruct (negb u); [now apply search_inv|exact Hx1]. }
    intros t2 s2 x2 Hx2. stepP parse_space space_good.
    match goal with |- G _ _ (match ?z with [] => _ | _ => _ end) => destruct z as [|d t3] end; [apply inv_nil|]. tails.
    destruct (d =? COMMA); [|now apply at_close_inv].
    stepP parse_space space_good. apply G_bind; [apply IH; [destruct u; [exact HR|now constructor]|assumption]|].
    intros t5 s5 x5 Hx5. now apply at_close_inv.
  Qed.
  Lemma object_ends mode (L : list (memb T)) t0 : Forall (memb_all (fun _ c => ends (des c))) L -> ends (des (object_codec mode L t0)).
  Proof.
    intros HL. split.
    { apply object_dlaw. apply Forall_forall. intros b Hb. rewrite Forall_forall in HL. specialize (HL b Hb).
      destruct b; cbn in *; [apply HL|apply HL|split; apply HL]. }
    intros sn old s e. pose proof (inv_init s e) as H. cbn [des object_codec]. unfold object_des. destruct (is_null s); [stops|].
    destruct s as [|c t]; [apply inv_nil|]. tails. destruct (negb (c =? LCB)).
    - destruct (c =? LBR); [|apply inv_nil]. stepP parse_space space_good. apply G_pure. intros d.
      destruct (negb _); [apply inv_nil|].
      match goal with |- context [step ?l] => destruct l end; cbn [step bind]; [exact I|]. tails. assumption.
    - stepP parse_space space_good.
      match goal with |- G _ _ (match ?z with [] => _ | _ => _ end) => destruct z as [|d t1] end; [apply inv_nil|]. tails.
      destruct (negb _); [|assumption]. apply G_bind; [now apply members_inv|]. intros v s2 x2 Hx2.
      destruct s2 as [|c2 t2]; [apply inv_nil|]. stepP parse_space space_good.
      match goal with |- G _ _ (match ?z with [] => _ | _ => _ end) => destruct z as [|f t3] end; [apply inv_nil|]. tails.
      destruct (negb _); [apply inv_nil|assumption].
  Qed.
  Lemma amem_inv (m : mem T) s0 e0 sn t s x : ends (des (m_codec m)) -> inv s0 e0 s x -> G s0 e0 (amem_des m sn t s x).
  Proof. intros Hm H. unfold amem_des. apply G_bind; [now apply inv_des|]. intros v r y Hr. exact Hr. Qed.
  Lemma amemb_inv (b : memb T) s0 e0 sn t s x : memb_all (fun _ c => ends (des c)) b -> inv s0 e0 s x -> G s0 e0 (amemb_des b sn t s x).
  Proof.
    intros Hb H. destruct b as [m|m init|ru l r d]; cbn [amemb_des].
    - now apply amem_inv.
    - apply G_bind; [now apply inv_des|]. intros v r y Hr. exact Hr.
    - destruct Hb as [Hl Hr].
      assert (Hf : ends (des (m_codec (if ru then r else l)))) by now destruct ru.
      assert (Hs : ends (des (m_codec (if ru then l else r)))) by now destruct ru.
      cbv zeta. pose proof (amem_des_good (if ru then r else l) sn t s (Some no_error) (proj1 Hf)) as P.
      destruct (amem_des (if ru then r else l) sn t s (Some no_error)) as [[[t1 itr] ee]| |]; cbn [bind]; [|exact I|exact I].
      destruct (no_err_yet ee).
      + apply G_pure. intros t2. apply (inv_suffix s0 e0 s x); [apply P|exact H].
      + apply G_pure. intros t2. now apply amem_inv.
  Qed.
  Lemma amembers_inv sn s0 e0 (L : list (memb T)) : Forall (memb_all (fun _ c => ends (des c))) L -> forall t s x, inv s0 e0 s x ->
    G s0 e0 (amembers_des sn L t s x).
  Proof.
    induction 1 as [|b L Hb _ IH]; intros t s x H; cbn [amembers_des]; [exact H|].
    apply G_bind; [now apply amemb_inv|]. intros t1 s1 x1 Hx1. stepP parse_space space_good.
    match goal with |- G _ _ (match ?z with [] => _ | _ => _ end) => destruct z as [|d t2] end; [apply inv_nil|]. tails.
    apply G_bind.
    { destruct (d =? COMMA); [|assumption]. stepP parse_space space_good. now apply IH. }
    intros t3 s3 x3 Hx3. destruct s3 as [|f s3]; [apply inv_nil|]. destruct (negb _); [apply inv_nil|exact Hx3].
  Qed.
  Lemma oarray_ends (L : list (memb T)) t0 : Forall (memb_all (fun _ c => ends (des c))) L -> ends (des (oarray_codec L t0)).
  Proof.
    intros HL. split.
    { apply oarray_dlaw. apply Forall_forall. intros b Hb. rewrite Forall_forall in HL. specialize (HL b Hb).
      destruct b; cbn in *; [apply HL|apply HL|split; apply HL]. }
    intros sn old s e. pose proof (inv_init s e) as H. cbn [des oarray_codec]. unfold oarray_des. destruct (is_null s); [stops|].
    destruct s as [|c t]; [apply inv_nil|]. tails. destruct (negb (c =? LBR)); [apply inv_nil|]. stepP parse_space space_good.
    match goal with |- G _ _ (match ?z with [] => _ | _ => _ end) => destruct z as [|d t1] end; [apply inv_nil|]. tails.
    destruct (negb _); [|assumption]. apply G_bind; [now apply amembers_inv|]. intros v s2 x2 Hx2.
    destruct s2 as [|c2 t2]; [apply inv_nil|]. stepP parse_space space_good.
    match goal with |- G _ _ (match ?z with [] => _ | _ => _ end) => destruct z as [|f t3] end; [apply inv_nil|]. tails.
    destruct (negb _); [apply inv_nil|assumption].
  Qed.
End Objects.

(** ---- wrappers ---- *)
Lemma quoted1_ends {A} (c : codec A) : dlaw (des c) -> ends (quoted_des1 c).
Proof.
  intros Hc. split; [now apply quoted1_good|]. intros sn old s e. unfold quoted_des1.
  pose proof (proj2 string_ends sn [] s e) as P.
  destruct (string_des sn [] s e) as [[[b r] y]| |]; cbn [bind]; [|exact I|exact I]. cbn in P.
  destruct (has_err y) eqn:Hy; [apply inv_nil|]. apply G_pure. intros [[v q] e2].
  destruct y as [k|], e2 as [k2|]; try exact P. destruct (is_err k2); [apply inv_nil|exact P].
Qed.
Lemma end_desc_ends : forall A c, end_desc A c -> ends (des c).
Proof.
  induction 1.
  - apply int_ends.
  - apply bool_ends.
  - apply float_ends.
  - apply string_ends.
  - apply chars_ends.
  - apply enum_ends.
  - apply flags_ends.
  - apply raw_ends.
  - apply raw_ends.
  - apply rquoted_ends.
  - apply time_ends.
  - now apply seq_ends.
  - now apply seq_ends.
  - now apply seq_ends.
  - now apply field_ends.
  - now apply seq_ends, field_ends.
  - now apply seq_ends, field_ends.
  - now apply seq_ends, field_ends.
  - apply vec_ends. now apply fix_ends.
  - apply vec_ends. now apply fix_ends.
  - apply object_ends. now apply (memb_all_in (fun _ c => ends (des c))).
  - apply oarray_ends. now apply (memb_all_in (fun _ c => ends (des c))).
  - split; [apply member_value_dlaw, IHend_desc|]. intros sn old s e. cbn [des member_value_codec].
    apply G_bind; [apply IHend_desc|]. intros v r y Hr. exact Hr.
  - cbn [des quoted_codec]. apply (quoted1_ends c). now apply desc_dlaw.
  - split; [apply quoted_dlaw, IHend_desc|]. intros sn old s e. cbn [des quoted_codec]. unfold quoted_des.
    destruct (is_string s); [apply quoted1_ends, IHend_desc|apply IHend_desc].
  - split; [apply ptr_dlaw, IHend_desc|]. intros sn old s e. cbn [des ptr_codec]. unfold ptr_des. destruct s as [|c0 t]; [apply inv_nil|].
    destruct (negb _); [|split; [apply skipn_suffix|now left]]. apply G_bind; [apply IHend_desc|]. intros v r y Hr. exact Hr.
  - now apply hash_ends.
  - now apply hash_ends, field_ends.
Qed.
