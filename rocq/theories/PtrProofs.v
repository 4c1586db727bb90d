(** Reading with two error records in lock step. *)
From Verif Require Import Base Parser SpecJson ParserFacts Grammar1 Grammar2 Out Number StringS Array Unord Object ObjectArray Enum Wrap TimeSize Float
  CodecLaws Desc ObjectProofs SpecPtr.

Section Lock.
  Context (e1 e2 : eptr).
  Definition orep (o : report) : Prop := match o with None => True | Some j => is_err j = true end.
  Definition R (x y : eptr) : Prop := exists o, orep o /\ x = app_err e1 o /\ y = app_err e2 o.
  Lemma R_init : R e1 e2. Proof. exists None. repeat split. Qed.
  Lemma app_app e a b : orep a -> app_err (app_err e a) b = app_err e (orelse a b).
  Proof.
    destruct a as [j|]; [|reflexivity]. cbn. intros H. destruct e as [k|]; [|destruct b; reflexivity].
    destruct (is_err k) eqn:K; destruct b as [j'|]; cbn; rewrite ?K, ?H; reflexivity.
  Qed.
  Lemma R_app x y b : R x y -> orep b -> R (app_err x b) (app_err y b).
  Proof.
    intros (a & Ha & -> & ->) Hb. exists (orelse a b). split; [destruct a; assumption|]. split; now apply app_app.
  Qed.
  Lemma R_cerr c m t x y : c <> ValidJSON -> R x y -> R (cerr c m t x) (cerr c m t y).
  Proof. intros Hc H. rewrite !cerr_app. apply R_app; [exact H|]. cbn. unfold is_err. cbn. destruct c; congruence. Qed.
  Lemma rep_orep s o : rep_ok s o -> orep o. Proof. destruct o; [intros []|]; auto. Qed.

  Definition pairR (a b : buf * eptr) : Prop := fst a = fst b /\ R (snd a) (snd b).
  Lemma pgood_R f s x y : pgood f s -> R x y -> pairR (f s x) (f s y).
  Proof. intros (r & o & A & (_ & B & _)) H. rewrite !A. split; [reflexivity|]. cbn. apply R_app; [exact H|]. now apply (rep_orep s). Qed.

  Inductive resR {A} : res (A * eptr) -> res (A * eptr) -> Prop :=
  | rr_ok v x y : R x y -> resR (Ok (v, x)) (Ok (v, y))
  | rr_ub : resR UB UB
  | rr_fuel : resR Fuel Fuel.
  Lemma rlaw_R sn f s x y : rlawS sn f s -> R x y -> resR (f s x) (f s y).
  Proof.
    intros [(r & o & A & (_ & B & _) & _)|(_ & A)] H; rewrite !A; [|constructor].
    constructor. apply R_app; [exact H|]. now apply (rep_orep s).
  Qed.
  Lemma bind_R {A B} (a b : res (A * eptr)) (f : A * eptr -> res (B * eptr)) :
    resR a b -> (forall v x y, R x y -> resR (f (v, x)) (f (v, y))) -> resR (bind a f) (bind b f).
  Proof. intros [v x y H| |] K; cbn [bind]; [now apply K|constructor|constructor]. Qed.
  Lemma bind_pure {A B} (a : res A) (f g : A -> res (B * eptr)) :
    (forall v, resR (f v) (g v)) -> resR (bind a f) (bind a g).
  Proof. intros K. destruct a; cbn [bind]; [apply K|constructor|constructor]. Qed.
End Lock.

Definition pure {A} (d : option Z -> A -> buf -> eptr -> res (A * buf * eptr)) : Prop :=
  forall e1 e2 sn old s x y, R e1 e2 x y -> resR e1 e2 (d sn old s x) (d sn old s y).

Ltac lockP f gd :=
  match goal with H : R ?e1 ?e2 ?x ?y |- context [f ?s ?x] =>
    let P := fresh in let Q := fresh in
    pose proof (pgood_R e1 e2 f s x y (gd s) H) as P; destruct (f s x) as [? ?], (f s y) as [? ?];
    destruct P as [P Q]; cbn [fst snd] in P, Q; subst
  end.
Ltac fin := repeat first [assumption | apply R_cerr; [discriminate|]].
Ltac lock := repeat first
  [ match goal with |- resR _ _ (Ok _) (Ok _) => constructor; fin end
  | apply rr_ub | apply rr_fuel
  | lockP parse_space space_good
  | lockP parse_null null_good
  | lockP parse_bool bool_good
  | lockP parse_number number_good
  | match goal with |- resR _ _ (match ?z with _ => _ end) (match ?z with _ => _ end) => destruct z end ].

Lemma parse_value_R e1 e2 sn s x y : R e1 e2 x y -> resR e1 e2 (parse_value sn s x) (parse_value sn s y).
Proof. apply (rlaw_R e1 e2 sn). apply (parse_law sn s). Qed.
Lemma parse_member_R e1 e2 sn s x y : R e1 e2 x y ->
  resR e1 e2 (parse_member (parse_value sn) s x) (parse_member (parse_value sn) s y).
Proof. apply (rlaw_R e1 e2 sn). apply pmember_law. Qed.
Lemma parse_string_R e1 e2 s x y : R e1 e2 x y -> resR e1 e2 (parse_string s x) (parse_string s y).
Proof.
  intros H. destruct (string_good s) as (r & o & A & (_ & B & _)). rewrite !A.
  constructor. apply R_app; [exact H|]. now apply (rep_orep s).
Qed.

(** One step over a call made on both sides. *)
Ltac lockB L := apply bind_R; [apply L; fin|intros ? ? ? ?].
Ltac lock' := repeat first
  [ progress lock
  | lockB parse_value_R | lockB parse_member_R | lockB parse_string_R ].

(** ---- leaves ---- *)
Lemma int_pure t : pure (int_des t).
Proof.
  intros e1 e2 sn old s x y H. unfold int_des, unserialize_integer. lock.
  all: apply bind_pure; intros [v s2]; lock; try (apply bind_pure; intros w; lock).
Qed.
Lemma bool_pure : pure bool_des.
Proof. intros e1 e2 sn old s x y H. unfold bool_des. lock. Qed.
Lemma float_pure A Rr fmt scan zero : pure (des (@float_codec A Rr fmt scan zero)).
Proof. intros e1 e2 sn old s x y H. cbn [des float_codec]. unfold float_des. lock. Qed.
Lemma raw_pure : pure raw_des.
Proof. intros e1 e2 sn old s x y H. unfold raw_des. lock'. Qed.
Lemma enum_pure mode L : pure (enum_des mode L).
Proof. intros e1 e2 sn old s x y H. unfold enum_des. lock. Qed.

(** ---- strings ---- *)
Inductive pR (e1 e2 : eptr) {A} : A * eptr -> A * eptr -> Prop :=
| pr_mk v x y : R e1 e2 x y -> pR e1 e2 (v, x) (v, y).
Lemma uchar2_R e1 e2 c x y : R e1 e2 x y -> pR e1 e2 (uchar2 c x) (uchar2 c y).
Proof. intros H. unfold uchar2. repeat match goal with |- context [if ?b then _ else _] => destruct b end; constructor; fin. Qed.
Lemma uhex_emit_R e1 e2 h cur s n x y : R e1 e2 x y -> pR e1 e2 (uhex_emit h cur s n x) (uhex_emit h cur s n y).
Proof.
  intros H. unfold uhex_emit. cbv zeta.
  repeat match goal with |- pR _ _ (if ?b then _ else _) _ => destruct b end; constructor; fin.
Qed.
Ltac uc := match goal with H : R ?e1 ?e2 ?x ?y |- context [uchar2 ?a ?x] =>
  destruct (uchar2_R e1 e2 a x y H) end.
Lemma uhex_R e1 e2 s n x y : R e1 e2 x y -> pR e1 e2 (uhex s n x) (uhex s n y).
Proof.
  intros H. unfold uhex. destruct (n =? 0); [now constructor|].
  destruct s as [|a s]; [constructor; fin|]. destruct (uchar2_R e1 e2 a x y H) as [da x1 y1 H1].
  destruct s as [|b s]; [constructor; fin|]. destruct (uchar2_R e1 e2 b x1 y1 H1) as [db x2 y2 H2].
  destruct s as [|c s]; [constructor; fin|]. destruct (uchar2_R e1 e2 c x2 y2 H2) as [dc x3 y3 H3].
  destruct s as [|d s]; [constructor; fin|]. destruct (uchar2_R e1 e2 d x3 y3 H3) as [dd x4 y4 H4].
  now apply uhex_emit_R.
Qed.
Lemma xhex_R e1 e2 s n x y : R e1 e2 x y -> pR e1 e2 (xhex s n x) (xhex s n y).
Proof.
  intros H. unfold xhex.
  destruct s as [|a s]; [constructor; fin|]. destruct (uchar2_R e1 e2 a x y H) as [da x1 y1 H1].
  destruct s as [|b s]; [constructor; fin|]. destruct (uchar2_R e1 e2 b x1 y1 H1) as [db x2 y2 H2].
  now constructor.
Qed.
Lemma utf8_copy_R e1 e2 k : forall s n x y, R e1 e2 x y -> pR e1 e2 (utf8_copy k s n x) (utf8_copy k s n y).
Proof.
  induction k as [|k IH]; intros s n x y H; cbn [utf8_copy]; [now constructor|].
  destruct (n =? 0); [now constructor|]. destruct s as [|c t]; [constructor; fin|].
  destruct (IH t (n - 1) x y H) as [[[r w] n'] x1 y1 H1]. now constructor.
Qed.
Lemma unutf8_R e1 e2 c t n x y : R e1 e2 x y -> pR e1 e2 (unutf8 c t n x) (unutf8 c t n y).
Proof.
  intros H. unfold unutf8.
  repeat match goal with |- pR _ _ (if ?b then _ else _) _ => destruct b end;
    first [now apply utf8_copy_R | constructor; fin].
Qed.
Inductive sR (e1 e2 : eptr) : res ((buf * eptr * buf) + (eptr * buf)) -> res ((buf * eptr * buf) + (eptr * buf)) -> Prop :=
| sr_l s x y out : R e1 e2 x y -> sR e1 e2 (Ok (inl (s, x, out))) (Ok (inl (s, y, out)))
| sr_r x y out : R e1 e2 x y -> sR e1 e2 (Ok (inr (x, out))) (Ok (inr (y, out)))
| sr_f : sR e1 e2 Fuel Fuel.
Lemma str_loop_R e1 e2 f : forall s n x y out, R e1 e2 x y -> sR e1 e2 (str_loop f s n x out) (str_loop f s n y out).
Proof.
  induction f as [|f IH]; intros s n x y out H; cbn [str_loop]; [constructor|].
  destruct s as [|c t]; [now constructor|]. destruct ((c =? QT) || (n =? 0)); [now constructor|].
  destruct (c =? BSL).
  - destruct t as [|d t]; [constructor; fin|]. destruct (unescape d); [now apply IH|].
    destruct (d =? 117).
    + destruct (uhex_R e1 e2 t n x y H) as [[[r w] n'] x1 y1 H1]. now apply IH.
    + destruct (d =? 120); [|constructor; fin].
      destruct (xhex_R e1 e2 t n x y H) as [[[r w] n'] x1 y1 H1]. now apply IH.
  - destruct (unutf8_R e1 e2 c t n x y H) as [[[r w] n'] x1 y1 H1]. now apply IH.
Qed.
Lemma str_unser_R e1 e2 s n x y : R e1 e2 x y -> resR e1 e2 (str_unser s n x) (str_unser s n y).
Proof.
  intros H. unfold str_unser. destruct s as [|c t]; [lock|]. destruct (negb (c =? QT)); [lock|].
  destruct (str_loop_R e1 e2 (S (length t)) t n x y [] H) as [r x1 y1 out H1|x1 y1 out H1|]; cbn [bind]; lock.
Qed.
Lemma string_pure : pure string_des.
Proof. intros e1 e2 sn old s x y H. unfold string_des. destruct (is_null s); [lock|now apply str_unser_R]. Qed.
Lemma chars_pure N : pure (chars_des N).
Proof.
  intros e1 e2 sn old s x y H. unfold chars_des. destruct (is_null s); [lock|]. lockB str_unser_R. lock.
Qed.

(** ---- flags ---- *)
Lemma opt_space_R e1 e2 sep s x y : R e1 e2 x y -> pR e1 e2 (opt_space sep s x) (opt_space sep s y).
Proof.
  intros H. unfold opt_space. destruct (sep =? 32); [now constructor|].
  lockP parse_space space_good. now constructor.
Qed.
Ltac opsp := match goal with H : R ?e1 ?e2 ?x ?y |- pR _ _ (let '(_, _) := opt_space ?sep ?s ?x in _) _ =>
  destruct (opt_space_R e1 e2 sep s x y H) end.
Lemma one_str_R e1 e2 sep mode L : forall v s x y ready, R e1 e2 x y ->
  pR e1 e2 (one_str sep mode L v s x ready) (one_str sep mode L v s y ready).
Proof.
  induction L as [|[n a] L IH]; intros v s x y ready H; cbn [one_str].
  - destruct (ready || _); [now constructor|]. lockP parse_space space_good. lockP parse_space space_good.
    match goal with |- pR _ _ (match ?z with _ => _ end) _ => destruct z end; [now constructor|].
    lockP parse_space space_good. now constructor.
  - destruct s as [|c s]; [now constructor|].
    destruct (opt_space_R e1 e2 sep (c :: s) x y H) as [s1 x1 y1 H1].
    destruct s1 as [|d s1]; [now constructor|]. destruct (d =? QT); [now constructor|].
    destruct (pre_match n (d :: s1)) as [[|f t]|]; [now apply IH| |now apply IH].
    destruct (_ || _); [|now apply IH].
    destruct (opt_space_R e1 e2 sep (f :: t) x1 y1 H1) as [s2 x2 y2 H2].
    destruct s2 as [|g s2]; [now constructor|]. destruct (g =? QT); [now constructor|now apply IH].
Qed.
Lemma one_arr_R e1 e2 mode sn L : forall v s x y ready, R e1 e2 x y ->
  resR e1 e2 (one_arr mode sn L v s x ready) (one_arr mode sn L v s y ready).
Proof.
  induction L as [|[n a] L IH]; intros v s x y ready H; cbn [one_arr].
  - destruct (ready || _); [lock|]. lockP parse_space space_good.
    apply bind_pure. intros c. destruct (c =? RBR); [lock|]. lockB parse_string_R. lock.
  - lock; try (apply IH; fin).
Qed.
Lemma flags_loop_R e1 e2 fin_ one : (forall v s x y, R e1 e2 x y -> resR e1 e2 (one v s x) (one v s y)) ->
  forall fuel v s x y, R e1 e2 x y -> resR e1 e2 (flags_loop fin_ one fuel v s x) (flags_loop fin_ one fuel v s y).
Proof.
  intros Hone. induction fuel as [|n IH]; intros v s x y H; cbn [flags_loop]; [constructor|].
  destruct s as [|c t]; [lock|]. destruct (c =? fin_); [lock|].
  lockB Hone. lock. apply IH. fin.
Qed.
Lemma flags_pure sep mode L : pure (flags_des sep mode L).
Proof.
  intros e1 e2 sn old s x y H. unfold flags_des. destruct s as [|c t]; [lock|].
  destruct (_ && _); [lock|]. apply bind_R; [|intros; lock].
  destruct (c =? LBR); apply flags_loop_R; try exact H.
  - intros. now apply one_arr_R.
  - intros v s x' y' H'. destruct (one_str_R e1 e2 sep mode L v s x' y' false H'). now constructor.
Qed.

(** ---- containers ---- *)
Section Seq.
  Context {A : Type} (item : codec A) (Hi : pure (des item)).
  Lemma seq_loop_R {S} (ins : S -> A -> S) d0 Rb sn e1 e2 : forall fuel st s x y, R e1 e2 x y ->
    resR e1 e2 (seq_loop (des item sn) ins d0 Rb fuel st s x) (seq_loop (des item sn) ins d0 Rb fuel st s y).
  Proof.
    induction fuel as [|n IH]; intros st s x y H; cbn [seq_loop]; [constructor|].
    destruct s as [|c t]; [lock|]. lockP parse_space space_good.
    match goal with |- resR _ _ (match ?z with _ => _ end) _ => destruct z as [|c1 t1] end; [lock|].
    destruct (c1 =? Rb); [lock|]. apply bind_R; [apply Hi; fin|]. intros [v s2] x2 y2 H2. lock.
    apply IH. fin.
  Qed.
  Lemma seq_pure {C S} (k : C -> container A C S) L Rb d0 :
    pure (fun sn old => seq_des (k old) L Rb item d0 sn old).
  Proof.
    intros e1 e2 sn old s x y H. unfold seq_des. destruct (is_null s); [lock|].
    destruct s as [|c t]; [lock|]. destruct (negb (c =? L)); [lock|].
    apply bind_R; [now apply seq_loop_R|]. intros [st r] x1 y1 H1. lock.
  Qed.
  Lemma fix_close_R e1 e2 Rb s x y : R e1 e2 x y -> pR e1 e2 (fix_close Rb s x) (fix_close Rb s y).
  Proof. intros H. unfold fix_close. destruct s as [|c t]; [constructor; fin|]. destruct (negb _); constructor; fin. Qed.
  Lemma fix_loop_R fresh ex Rb sn e1 e2 : forall todo s x y, R e1 e2 x y ->
    resR e1 e2 (fix_loop (des item sn) fresh ex Rb todo s x) (fix_loop (des item sn) fresh ex Rb todo s y).
  Proof.
    induction todo as [|a todo IH]; intros s x y H; cbn [fix_loop].
    { destruct (fix_close_R e1 e2 Rb s x y H). now constructor. }
    destruct s as [|c t]. { destruct (fix_close_R e1 e2 Rb [] x y H). now constructor. }
    lockP parse_space space_good.
    match goal with |- resR _ _ (match ?z with _ => _ end) _ => destruct z as [|c1 t1] end; [lock|].
    destruct (c1 =? Rb). { match goal with H : R _ _ ?x ?y |- context [fix_close Rb ?s ?x] => destruct (fix_close_R e1 e2 Rb s x y H) end. now constructor. }
    apply bind_R; [apply Hi; fin|]. intros [v s2] x2 y2 H2.
    lockP parse_space space_good.
    match goal with |- resR _ _ (match ?z with _ => _ end) _ => destruct z as [|c3 t3] end; [lock|].
    destruct (c3 =? Rb). { match goal with H : R _ _ ?x ?y |- context [fix_close Rb ?s ?x] => destruct (fix_close_R e1 e2 Rb s x y H) end. now constructor. }
    destruct (negb _); [lock|]. apply bind_R; [apply IH; fin|]. intros [l r] x4 y4 H4. lock.
  Qed.
  Lemma fix_null_R sn e1 e2 s : forall l x y, R e1 e2 x y ->
    resR e1 e2 (fix_null (des item sn) l s x) (fix_null (des item sn) l s y).
  Proof.
    induction l as [|a l IH]; intros x y H; cbn [fix_null]; [now constructor|].
    apply bind_R; [apply Hi; fin|]. intros [v r] x1 y1 H1. apply bind_R; [now apply IH|]. intros l' x2 y2 H2. lock.
  Qed.
  Lemma fix_pure fresh ex L Rb : pure (fix_des fresh ex L Rb item).
  Proof.
    intros e1 e2 sn old s x y H. unfold fix_des. destruct (is_null s).
    - apply bind_R; [now apply fix_null_R|]. intros l x1 y1 H1. lock.
    - destruct s as [|c t]; [lock|]. destruct (negb (c =? L)); [lock|]. now apply fix_loop_R.
  Qed.
End Seq.
Lemma vec_pure {A} (c : codec (list A)) N : pure (des c) -> pure (des (vec_codec c N)).
Proof.
  intros Hc e1 e2 sn old s x y H. cbn [des vec_codec].
  apply bind_R; [now apply Hc|]. intros [l r] x1 y1 H1. lock.
Qed.
Lemma field_pure {K V} (kc : codec K) (vc : codec V) : pure (des kc) -> pure (des vc) -> pure (field_des kc vc).
Proof.
  intros Hk Hv e1 e2 sn old s x y H. unfold field_des.
  apply bind_R; [now apply Hk|]. intros [k s1] x1 y1 H1. lock.
  apply bind_R; [apply Hv; fin|]. intros [v s4] x4 y4 H4. lock.
Qed.

(** ---- objects ---- *)
Section Objects.
  Context {T : Type} (L0 : list (memb T)).
  Lemma unser_name_R e1 e2 name s u x y : R e1 e2 x y ->
    exists r x' y' u', unser_name name s u x = (r, x', u') /\ unser_name name s u y = (r, y', u') /\ R e1 e2 x' y'.
  Proof.
    intros H. unfold unser_name. destruct (negb (is_string s)); [do 4 eexists; split; [reflexivity|split; [reflexivity|fin]]|].
    destruct (name_loop name (tl s)) as [n' s1]. destruct s1 as [|c t1]; [do 4 eexists; split; [reflexivity|split; [reflexivity|fin]]|].
    destruct (_ || _); [do 4 eexists; split; [reflexivity|split; [reflexivity|fin]]|].
    lockP parse_space space_good.
    match goal with |- context [match ?z with [] => (_, cerr _ _ _ _, _) | _ => _ end] => destruct z as [|d t2] end;
      [do 4 eexists; split; [reflexivity|split; [reflexivity|fin]]|].
    destruct (negb _); [do 4 eexists; split; [reflexivity|split; [reflexivity|fin]]|].
    lockP parse_space space_good.
    match goal with |- context [match ?z with [] => (_, cerr _ _ _ _, _) | _ => _ end] => destruct z as [|d3 t3] end;
      do 4 eexists; split; [reflexivity|split; [reflexivity|fin]|reflexivity|split; [reflexivity|fin]].
  Qed.
  Lemma mem_R (m : mem T) e1 e2 sn t s u x y : pure (des (m_codec m)) -> R e1 e2 x y ->
    resR e1 e2 (mem_des m sn t s u x) (mem_des m sn t s u y).
  Proof.
    intros Hm H. unfold mem_des. destruct (unser_name_R e1 e2 (m_name m) s u x y H) as (r & x1 & y1 & u1 & -> & -> & H1).
    destruct (negb u1); [lock|]. apply bind_R; [now apply Hm|]. intros [v r'] x2 y2 H2. lock.
  Qed.
  Definition memb_pure (b : memb T) : Prop := forall m, In m (mems_of b) -> pure (des (m_codec m)).
  Lemma memb_R (b : memb T) e1 e2 sn t s u x y : memb_pure b -> R e1 e2 x y ->
    resR e1 e2 (memb_des b sn t s u x) (memb_des b sn t s u y).
  Proof.
    intros Hb H. destruct b as [m|m init|ru l r d]; cbn [memb_des].
    - apply mem_R; [apply Hb; now left|exact H].
    - unfold mem_p_des. destruct (unser_name_R e1 e2 (m_name m) s u x y H) as (r & x1 & y1 & u1 & -> & -> & H1).
      destruct (negb u1); [lock|]. apply bind_R; [apply Hb; [now left|exact H1]|]. intros [v r'] x2 y2 H2. lock.
    - assert (Hs : pure (des (m_codec (if ru then l else r)))) by (destruct ru; apply Hb; cbn; tauto).
      cbv zeta. apply bind_pure. intros [[[t1 u1] itr] ee]. destruct (no_err_yet ee).
      + apply bind_pure. intros t2. lock.
      + apply bind_pure. intros t2. now apply mem_R.
  Qed.
  Lemma rest_loop_R mode sn e1 e2 : forall fuel s x y, R e1 e2 x y ->
    resR e1 e2 (rest_loop mode sn fuel s x) (rest_loop mode sn fuel s y).
  Proof.
    induction fuel as [|n IH]; intros s x y H; cbn [rest_loop]; [constructor|]. lockB parse_member_R. lock.
    apply IH. fin.
  Qed.
  Lemma rest_R mode sn e1 e2 s x y : R e1 e2 x y -> resR e1 e2 (rest_members mode sn s x) (rest_members mode sn s y).
  Proof. intros H. unfold rest_members. lock. now apply rest_loop_R. Qed.
  Lemma search_end_R mode sn e1 e2 s x y : R e1 e2 x y -> resR e1 e2 (search_end mode sn s x) (search_end mode sn s y).
  Proof.
    intros H. unfold search_end. destruct mode; [|lock]. lockB parse_member_R.
    lockP parse_space space_good. lock.
  Qed.
  Lemma search_R mode sn e1 e2 L : Forall memb_pure L -> forall t s x y, R e1 e2 x y ->
    resR e1 e2 (search_members mode sn L t s x) (search_members mode sn L t s y).
  Proof.
    induction 1 as [|b L Hb _ IH]; intros t s x y H; cbn [search_members].
    - lockB search_end_R. lock.
    - apply bind_R; [now apply memb_R|]. intros [[t1 u] s1] x1 y1 H1. lock. now apply IH.
  Qed.
  Lemma at_close_R e1 e2 (t : T) s x y : R e1 e2 x y -> resR e1 e2 (at_close t s x) (at_close t s y).
  Proof. intros H. unfold at_close. lock. Qed.
  Lemma members_R mode sn e1 e2 L : Forall memb_pure L -> forall fuel Rr t s x y, Forall memb_pure Rr -> R e1 e2 x y ->
    resR e1 e2 (members_loop mode sn L fuel Rr t s x) (members_loop mode sn L fuel Rr t s y).
  Proof.
    intros HL. induction fuel as [|n IH]; intros Rr t s x y HR H; cbn [members_loop]; [constructor|].
    destruct HR as [|b Rr Hb HR]. { lockB rest_R. lock. }
    apply bind_R; [now apply memb_R|]. intros [[t1 u] s1] x1 y1 H1.
    apply bind_R. { destruct (negb u); [now apply search_R|lock]. }
    intros [t2 s2] x2 y2 H2. lockP parse_space space_good.
    match goal with |- resR _ _ (match ?z with _ => _ end) _ => destruct z as [|d t3] end; [lock|].
    destruct (d =? COMMA); [|apply at_close_R; fin].
    lockP parse_space space_good. apply bind_R; [apply IH; [destruct u; [exact HR|now constructor]|fin]|].
    intros [t5 s5] x5 y5 H5. apply at_close_R. fin.
  Qed.
  Lemma object_pure mode L t0 : Forall memb_pure L -> pure (object_des mode L t0).
  Proof.
    intros HL e1 e2 sn old s x y H. unfold object_des. destruct (is_null s); [lock|].
    destruct s as [|c t]; [lock|]. destruct (negb (c =? LCB)).
    - destruct (c =? LBR); [|lock]. lockP parse_space space_good. apply bind_pure. intros d.
      destruct (negb _); [lock|]. apply bind_pure. intros s2. lock.
    - lockP parse_space space_good.
      match goal with |- resR _ _ (match ?z with _ => _ end) _ => destruct z as [|d t1] end; [lock|].
      destruct (negb _); [|lock]. apply bind_R; [apply members_R; assumption|]. intros [v s2] x2 y2 H2. lock.
  Qed.
  Lemma amem_R (m : mem T) e1 e2 sn t s x y : pure (des (m_codec m)) -> R e1 e2 x y ->
    resR e1 e2 (amem_des m sn t s x) (amem_des m sn t s y).
  Proof. intros Hm H. unfold amem_des. apply bind_R; [now apply Hm|]. intros [v r'] x2 y2 H2. lock. Qed.
  Lemma amemb_R (b : memb T) e1 e2 sn t s x y : memb_pure b -> R e1 e2 x y ->
    resR e1 e2 (amemb_des b sn t s x) (amemb_des b sn t s y).
  Proof.
    intros Hb H. destruct b as [m|m init|ru l r d]; cbn [amemb_des].
    - apply amem_R; [apply Hb; now left|exact H].
    - apply bind_R; [apply Hb; [now left|exact H]|]. intros [v r'] x2 y2 H2. lock.
    - assert (Hs : pure (des (m_codec (if ru then l else r)))) by (destruct ru; apply Hb; cbn; tauto).
      cbv zeta. apply bind_pure. intros [[t1 itr] ee]. destruct (no_err_yet ee).
      + apply bind_pure. intros t2. lock.
      + apply bind_pure. intros t2. now apply amem_R.
  Qed.
  Lemma amembers_R sn e1 e2 L : Forall memb_pure L -> forall t s x y, R e1 e2 x y ->
    resR e1 e2 (amembers_des sn L t s x) (amembers_des sn L t s y).
  Proof.
    induction 1 as [|b L Hb _ IH]; intros t s x y H; cbn [amembers_des]; [lock|].
    apply bind_R; [now apply amemb_R|]. intros [t1 s1] x1 y1 H1. lockP parse_space space_good.
    match goal with |- resR _ _ (match ?z with _ => _ end) _ => destruct z as [|d t2] end; [lock|].
    apply bind_R.
    { destruct (d =? COMMA); [|lock]. lockP parse_space space_good. apply IH. fin. }
    intros [t3 s3] x3 y3 H3. lock.
  Qed.
  Lemma oarray_pure L t0 : Forall memb_pure L -> pure (oarray_des L t0).
  Proof.
    intros HL e1 e2 sn old s x y H. unfold oarray_des. destruct (is_null s); [lock|].
    destruct s as [|c t]; [lock|]. destruct (negb (c =? LBR)); [lock|].
    lockP parse_space space_good.
    match goal with |- resR _ _ (match ?z with _ => _ end) _ => destruct z as [|d t1] end; [lock|].
    destruct (negb _); [|lock]. apply bind_R; [apply amembers_R; assumption|]. intros [v s2] x2 y2 H2. lock.
  Qed.
End Objects.

Lemma pure_desc_pure : forall A c, pure_desc A c -> pure (des c).
Proof.
  induction 1.
  - apply int_pure.
  - apply bool_pure.
  - apply float_pure.
  - apply string_pure.
  - apply chars_pure.
  - apply enum_pure.
  - apply flags_pure.
  - apply raw_pure.
  - apply raw_pure.
  - apply (seq_pure _ IHpure_desc (fun _ => vec_cont)).
  - apply (seq_pure _ IHpure_desc (fun _ => set_cont lt)).
  - apply (seq_pure _ IHpure_desc (fun _ => multi_cont lt)).
  - now apply field_pure.
  - apply (seq_pure (field_codec kc vc) (field_pure _ _ IHpure_desc1 IHpure_desc2) (fun _ => vec_cont)).
  - apply (seq_pure (field_codec kc vc) (field_pure _ _ IHpure_desc1 IHpure_desc2) (fun _ => set_cont (klt lt))).
  - apply (seq_pure (field_codec kc vc) (field_pure _ _ IHpure_desc1 IHpure_desc2) (fun _ => multi_cont (klt lt))).
  - apply vec_pure. cbn [des stdarray_codec]. now apply fix_pure.
  - apply vec_pure. cbn [des carray_codec]. now apply fix_pure.
  - apply object_pure. apply Forall_forall. intros b Hb m Hm. now apply (H0 b m).
  - apply oarray_pure. apply Forall_forall. intros b Hb m Hm. now apply (H0 b m).
  - intros e1 e2 sn old s x y Hr. cbn [des member_value_codec]. apply bind_R; [now apply IHpure_desc|].
    intros [v r] x1 y1 H1. lock.
  - intros e1 e2 sn old s x y Hr. cbn [des ptr_codec]. unfold ptr_des. destruct s as [|c0 t]; [lock|].
    destruct (negb _); [|lock]. apply bind_R; [now apply IHpure_desc|]. intros [v r] x1 y1 H1. lock.
  - apply (seq_pure _ IHpure_desc (fun old => mkcont (h_clear h old) (h_ins h) (fun t => t) (h_list h))).
  - apply (seq_pure (field_codec kc vc) (field_pure _ _ IHpure_desc1 IHpure_desc2)
      (fun old => mkcont (h_clear h old) (h_ins h) (fun t => t) (h_list h))).
Qed.

(** What the lock step says about two calls. *)
Lemma R_reports e1 e2 x y : R e1 e2 x y ->
  (e2 = None -> y = None) /\ (has_err e2 = true -> y = e2) /\
  (forall k k', e1 = Some k -> is_err k = false -> e2 = Some k' -> is_err k' = false ->
     (x = e1 /\ y = e2) \/ exists j, reported e1 x j /\ reported e2 y j).
Proof.
  intros (o & Ho & -> & ->). split; [intros ->; destruct o; reflexivity|]. split.
  - destruct e2 as [k|]; [|discriminate]. unfold has_err. cbn. intros H. destruct (is_err k) eqn:E; [|discriminate].
    destruct o; cbn; [now rewrite E|reflexivity].
  - intros k k' -> Hk -> Hk'. destruct o as [j|]; [|now left]. right. exists j. cbn. rewrite Hk, Hk'.
    split; eexists; repeat split; eassumption.
Qed.

(** ---- time_interval: a null pointer behaves like a clean record ---- *)
Lemma int_des_err t sn s k v r j : is_err k = false -> int_des t sn 0 s (Some k) = Ok (v, r, Some j) -> is_err j = true -> r = [].
Proof.
  intros Hk. unfold int_des. destruct (is_null s).
  - destruct (null_good s) as (r0 & o & A & _ & _ & B). rewrite A. intros E Hj. injection E as _ <- E.
    apply B. intros ->. cbn in E. congruence.
  - unfold unserialize_integer. destruct s as [|c s0]; [intros E; now injection E|].
    destruct (if c =? MINUS then s0 else c :: s0) as [|d u]; [intros E; now injection E|].
    destruct (negb (is_digit d)); [intros E; now injection E|]. destruct (d =? 48); [intros E; injection E; congruence|].
    destruct (int_loop t 0 (d :: u)) as [[w s2]| |]; cbn [bind]; try discriminate.
    destruct (c =? MINUS); [|intros E; injection E; congruence].
    destruct (iarith (ipromote t) (- w)) as [z| |]; cbn [bind]; try discriminate. intros E; injection E; congruence.
Qed.
Inductive tR (k : json_error) : res ((Z * buf * eptr) + (Z * buf * eptr)) -> res ((Z * buf * eptr) + (Z * buf * eptr)) -> Prop :=
| tr_l v s : tR k (Ok (inl (v, s, None))) (Ok (inl (v, s, Some k)))
| tr_r v s y : R None (Some k) None y -> tR k (Ok (inr (v, s, None))) (Ok (inr (v, s, y)))
| tr_u : tR k UB UB
| tr_f : tR k Fuel Fuel.
Lemma tR_bind k {A} (a : res A) f g : (forall v, tR k (f v) (g v)) -> tR k (bind a f) (bind a g).
Proof. intros H. destruct a; cbn [bind]; [apply H|constructor|constructor]. Qed.
Lemma time_loop_R t fr k sn : is_err k = false -> forall fuel v s,
  tR k (time_loop t fr fuel sn v s None) (time_loop t fr fuel sn v s (Some k)).
Proof.
  intros Hk. induction fuel as [|f IH]; intros v s; cbn [time_loop]; [constructor|].
  destruct s as [|c s0]; [constructor|]. destruct (c =? QT); [constructor|].
  pose proof (int_pure t None (Some k) sn 0 (c :: s0) None (Some k) (R_init _ _)) as P.
  pose proof (int_des_err t sn (c :: s0) k) as Q.
  destruct (int_des t sn 0 (c :: s0) None) as [[[cur s1] e1]| |],
           (int_des t sn 0 (c :: s0) (Some k)) as [[[cur' s1'] e1']| |]; inversion P as [v0 x y Hr| |]; subst;
    cbn [bind]; try constructor.
  destruct (R_reports _ _ _ _ Hr) as (_ & _ & _).
  assert (e1 = None) as -> by (destruct Hr as ([j|] & _ & -> & _); reflexivity).
  change (has_err None) with false. cbn iota. destruct (has_err e1') eqn:He.
  - destruct e1' as [j|]; [|discriminate]. unfold has_err in He. cbn in He.
    rewrite (Q cur' s1' j Hk eq_refl) by (destruct (is_err j); [reflexivity|discriminate]). now constructor.
  - assert (e1' = Some k) as ->.
    { destruct Hr as ([j|] & Hj & _ & Hy); [|exact Hy]. cbn in Hj, Hy. rewrite Hk in Hy. subst. unfold has_err in He. cbn in He.
      rewrite Hj in He. discriminate. }
    destruct s1' as [|u s2]; [now constructor|].
    repeat match goal with
    | |- tR _ (bind ?a _) (bind ?a _) => apply tR_bind; intros ?
    | |- tR _ (if ?b then _ else _) _ => destruct b
    | |- tR _ (match ?z with [] => _ | _ => _ end) _ => destruct z
    end; apply IH.
Qed.
Lemma time_null t fr k sn old s : is_err k = false ->
  resR None (Some k) (time_des t fr sn old s None) (time_des t fr sn old s (Some k)).
Proof.
  intros Hk. pose proof (R_init None (Some k)) as H. unfold time_des. destruct s as [|c s0]; [lock|].
  destruct (is_null (c :: s0)); [lock|]. destruct (is_number (c :: s0)); [now apply int_pure|].
  destruct (negb _); [lock|].
  destruct (time_loop_R t fr k sn Hk (S (length s0)) 0 s0); cbn [bind]; lock.
Qed.
