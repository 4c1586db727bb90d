(** Proofs about SpecInject. *)
From Verif Require Import Base Parser SpecJson SpecNum SpecString Grammar1 Grammar2 Out Number Float StringS Array Object SpecObject ObjectArray Wrap SpecWrap
  CodecLaws NumberProofs StringProofs ArrayProofs ObjectProofs WrapProofs FloatProofs RoundProofs Desc DescProofs SpecInject.

(** What a writer writes tells the value, also with something behind it. *)
Definition wtells {A} (f : A -> res (list op)) (dom : A -> Prop) : Prop :=
  forall v, dom v -> exists ops, f v = Ok ops /\ (exists h t, flat ops = h :: t /\ vstart h) /\
    forall w ops' r r', dom w -> f w = Ok ops' -> follow r -> follow r' -> flat ops ++ r = flat ops' ++ r' -> v = w /\ r = r'.

Lemma wtells_sub {A} (f : A -> res (list op)) (dom dom' : A -> Prop) : wtells f dom -> (forall v, dom' v -> dom v) -> wtells f dom'.
Proof. intros H S v Hv. destruct (H v (S v Hv)) as (ops & E & Hd & U). exists ops. split; [exact E|]. split; [exact Hd|]. intros w o r r' Hw. apply U. now apply S. Qed.
Lemma rt_tells {A} (c : codec A) dom : rt c dom -> wtells (ser c) dom.
Proof.
  intros H v Hv. destruct (H v Hv) as (ops & E & Hd & D). exists ops. split; [exact E|]. split; [exact Hd|].
  intros w ops' r r' Hw E' Hr Hr' T. destruct (H w Hw) as (o & E2 & _ & D2). assert (o = ops') by congruence. subst o.
  pose proof (D None v r None Hr eq_refl) as A1. rewrite T, (D2 None v r' None Hr' eq_refl) in A1. injection A1 as <- <-. split; reflexivity.
Qed.

(** ---- numbers ---- *)
Lemma rnumber_split a b r r' : rnumber a -> rnumber b -> follow r -> follow r' -> a ++ r = b ++ r' -> a = b /\ r = r'.
Proof.
  intros Ha Hb Hr Hr' E. pose proof (parse_number_app a r None Ha (follow_num_stop a r Hr)) as P.
  rewrite E, (parse_number_app b r' None Hb (follow_num_stop b r' Hr')) in P. injection P as <-. split; [|reflexivity]. now apply app_inv_tail in E.
Qed.
Lemma rnumber_vstart s : rnumber s -> exists h t, s = h :: t /\ vstart h.
Proof. intros H. destruct (rnumber_head s H) as (h & z & -> & Hh). exists h, z. split; [reflexivity|]. unfold vstart. tauto. Qed.
Lemma numeral_value v w s : numeral v s -> numeral w s -> v = w.
Proof.
  intros H1 H2. inversion H1 as [i Hi|i Hi Pi]; subst; inversion H2 as [j Hj|j Hj Pj]; subst; try reflexivity.
  - exfalso. inversion Hi; subst; unfold s_digit in *; lia.
  - exfalso. inversion Hj; subst; unfold s_digit in *; lia.
Qed.
Lemma int_tells t : ity_ok t -> wtells (ser (int_codec t)) (irange t).
Proof.
  intros Ht v Hv. destruct (int_ser_numeral t v Ht Hv) as (s & E & Hs). exists (wr s). split; [exact E|]. rewrite flat_wr.
  pose proof (numeral_rnumber v s Hs) as Ns. split; [now apply rnumber_vstart|].
  intros w ops' r r' Hw E' Hr Hr' T. destruct (int_ser_numeral t w Ht Hw) as (s' & E2 & Hs'). cbn [ser int_codec] in E'. rewrite E2 in E'. injection E' as <-. rewrite flat_wr in T.
  destruct (rnumber_split _ _ _ _ Ns (numeral_rnumber w s' Hs') Hr Hr' T) as [-> ->]. split; [|reflexivity]. now apply numeral_value with s'.
Qed.
Lemma float_tells A R (fmt : A -> buf) scan zero (dom : A -> Prop) :
  (forall v, dom v -> rnumber (fmt v) /\ (length (fmt v) <= bufsize R)%nat) -> (forall v w, dom v -> dom w -> fmt v = fmt w -> v = w) -> wtells (ser (float_codec R fmt scan zero)) dom.
Proof.
  intros Hd Hi. assert (F : forall v, dom v -> ser (float_codec R fmt scan zero) v = Ok (wr (fmt v))).
  { intros v Hv. destruct (Hd v Hv) as [Nv L]. exact (float_out R fmt scan zero v Nv L). }
  intros v Hv. destruct (Hd v Hv) as [Nv _]. exists (wr (fmt v)). split; [now apply F|]. rewrite flat_wr. split; [now apply rnumber_vstart|].
  intros w ops' r r' Hw E' Hr Hr' T. rewrite (F w Hw) in E'. assert (ops' = wr (fmt w)) by congruence. subst ops'. rewrite flat_wr in T.
  destruct (rnumber_split _ _ _ _ Nv (proj1 (Hd w Hw)) Hr Hr' T) as [X ->]. split; [now apply Hi|reflexivity].
Qed.

(** ---- strings: reading the escapes backwards ---- *)
Definition hexval (c : Z) : Z := if c <? 58 then c - 48 else c - 87.
Fixpoint unspell (s : buf) : buf * buf :=
  match s with
  | [] => ([], [])
  | c :: t =>
    if c =? QT then ([], t)
    else if c =? BSL then
      match t with
      | [] => ([], [])
      | d :: u =>
        if d =? 117 then match u with _ :: _ :: a :: b :: x => let '(w, r) := unspell x in (16 * hexval a + hexval b :: w, r) | _ => ([], []) end
        else if d =? 120 then match u with a :: b :: x => let '(w, r) := unspell x in (16 * hexval a + hexval b :: w, r) | _ => ([], []) end
        else let '(w, r) := unspell u in ((if d =? 116 then 9 else if d =? 98 then 8 else if d =? 114 then 13 else if d =? 110 then 10 else if d =? 102 then 12 else d) :: w, r)
      end
    else let '(w, r) := unspell t in (c :: w, r)
  end.
Definition glue (w : buf) (p : buf * buf) : buf * buf := let '(v, r) := p in (w ++ v, r).
Definition escaped_ok (c : Z) : bool :=
  if (c <? 32) || (c =? QT) || (c =? BSL) || (c =? SLASH) then
    match escape_char c with
    | [a; b] => (a =? BSL) && negb (b =? 117) && negb (b =? 120) &&
       ((if b =? 116 then 9 else if b =? 98 then 8 else if b =? 114 then 13 else if b =? 110 then 10 else if b =? 102 then 12 else b) =? c)
    | [a; b; _; _; x; y] => (a =? BSL) && (b =? 117) && (16 * hexval x + hexval y =? c)
    | _ => false
    end
  else true.
Lemma escaped_all c : 0 <= c <= 255 -> escaped_ok c = true.
Proof. apply byte_sweep. vm_compute. reflexivity. Qed.
Definition hexed_ok (c : Z) : bool := match serialize_hex c with
  | [a; b; x; y] => (a =? BSL) && (b =? 120) && (16 * hexval x + hexval y =? c)
  | _ => c <? 128 end.
Lemma hexed_all c : 0 <= c <= 255 -> hexed_ok c = true.
Proof. apply byte_sweep. vm_compute. reflexivity. Qed.
Lemma unspell_plain c u : c <> QT -> c <> BSL -> unspell (c :: u) = glue [c] (unspell u).
Proof. intros H1 H2. cbn [unspell]. rewrite (proj2 (Z.eqb_neq _ _) H1), (proj2 (Z.eqb_neq _ _) H2). reflexivity. Qed.
Lemma unspell_raw w u : Forall (fun c => c <> QT /\ c <> BSL) w -> unspell (w ++ u) = glue w (unspell u).
Proof.
  induction 1 as [|c w [H1 H2] H IH]; [cbn; now destruct (unspell u)|].
  change ((c :: w) ++ u) with (c :: (w ++ u)). rewrite unspell_plain by assumption. rewrite IH. now destruct (unspell u).
Qed.
Lemma unspell_step s w ch t u : bytes w -> sstep s w ch t -> unspell (ch ++ u) = glue w (unspell u).
Proof.
  intros Hb H. destruct H as [c t E Hc|c t E Hc N1 N2 N3|c k l t E W Lk F|c t E Hc].
  - assert (B : 0 <= c <= 255) by (inversion Hb; assumption). pose proof (escaped_all c B) as K. unfold escaped_ok in K.
    assert (X : (c <? 32) || (c =? QT) || (c =? BSL) || (c =? SLASH) = true) by lia. rewrite X in K. clear X.
    destruct (escape_char c) as [|a [|b [|x1 [|x2 [|x [|y [|? ?]]]]]]]; try discriminate.
    + apply andb_prop in K. destruct K as [K K4]. apply andb_prop in K. destruct K as [K K3]. apply andb_prop in K. destruct K as [K1 K2].
      apply Z.eqb_eq in K1. apply negb_true_iff in K2. apply negb_true_iff in K3. apply Z.eqb_eq in K4. subst a.
      cbn [app unspell]. cbv beta iota. rewrite K2, K3, K4. now destruct (unspell u).
    + apply andb_prop in K. destruct K as [K K4]. apply andb_prop in K. destruct K as [K1 K2]. apply Z.eqb_eq in K1. apply Z.eqb_eq in K2. apply Z.eqb_eq in K4. subst a b.
      cbn [app]. rewrite <- K4. cbn [unspell]. now destruct (unspell u).
  - apply (unspell_raw [c]). repeat constructor; assumption.
  - apply unspell_raw. constructor; [destruct W; lia|]. eapply Forall_impl; [|exact F]. intros x Hx. unfold s_cont in Hx. lia.
  - pose proof (hexed_all c ltac:(lia)) as K. unfold hexed_ok in K. destruct (serialize_hex c) as [|a [|b [|x [|y [|? ?]]]]]; try (exfalso; lia).
    apply andb_prop in K. destruct K as [K K4]. apply andb_prop in K. destruct K as [K1 K2]. apply Z.eqb_eq in K1. apply Z.eqb_eq in K2. apply Z.eqb_eq in K4. subst a b.
    cbn [app]. rewrite <- K4. cbn [unspell]. now destruct (unspell u).
Qed.
Lemma unspell_runs p l : sruns p l -> bytes p -> forall r, unspell (l ++ QT :: r) = (p, r).
Proof.
  induction 1 as [|w ch p l s t Hs H IH]; intros Hb r; [reflexivity|]. apply Forall_app in Hb. destruct Hb as [Hw Hp].
  rewrite <- app_assoc. rewrite (unspell_step s w ch t _ Hw Hs), (IH Hp r). reflexivity.
Qed.
Lemma lit_split p l p' l' r r' : sruns p l -> sruns p' l' -> bytes p -> bytes p' -> (QT :: l ++ [QT]) ++ r = (QT :: l' ++ [QT]) ++ r' -> p = p' /\ r = r'.
Proof.
  intros H H' B B' E. injection E as E. rewrite <- !app_assoc in E. cbn [app] in E. pose proof (unspell_runs p l H B r) as K. rewrite E, (unspell_runs p' l' H' B' r') in K.
  injection K as -> ->. split; reflexivity.
Qed.
Lemma string_tells : wtells (ser string_codec) bytes.
Proof.
  intros v Hv. destruct (ser_sruns v Hv) as (l & Hl & E). exists (wr (QT :: l ++ [QT])). split; [exact E|]. rewrite flat_wr. split; [exists QT, (l ++ [QT]); split; [reflexivity|unfold vstart; lia]|].
  intros w ops' r r' Hw E' _ _ T. destruct (ser_sruns w Hw) as (l' & Hl' & E2). rewrite E2 in E'. assert (ops' = wr (QT :: l' ++ [QT])) by congruence. subst ops'. rewrite flat_wr in T.
  exact (lit_split _ _ _ _ _ _ Hl Hl' Hv Hw T).
Qed.
Lemma c_string_app p q : ~ In 0 p -> (q = [] \/ heads 0 q) -> c_string (p ++ q) = p.
Proof.
  induction p as [|c p IH]; intros N Q; cbn [app c_string]. { destruct Q as [->|[q' ->]]; reflexivity. }
  assert (c <> 0) by (intros ->; apply N; now left). rewrite (proj2 (Z.eqb_neq _ _) H). f_equal. apply IH; [intros K; apply N; now right|exact Q].
Qed.
Lemma chars_runs N v : bytes v -> exists l, sruns (c_string v) l /\ bytes (c_string v) /\ ser (chars_codec N) v = Ok (wr (QT :: l ++ [QT])).
Proof.
  intros Hb. destruct (str_ser_runs true (S (length v)) v ltac:(lia) Hb) as (p & q & l & E1 & E2 & E3 & E4 & E5).
  assert (X : c_string v = p) by (rewrite E1; apply c_string_app; [now apply E5|tauto]). exists l. rewrite X. split; [exact E3|]. split; [rewrite E1 in Hb; now apply Forall_app in Hb|].
  cbn [ser chars_codec]. unfold chars_ser, str_ser. rewrite E4. reflexivity.
Qed.
Lemma chars_tells N : wtells (ser (chars_codec N)) (fun v => bytes v /\ v = c_string v ++ repeat 0 (N - length (c_string v))).
Proof.
  intros v [Hb Ev]. destruct (chars_runs N v Hb) as (l & Hl & Bl & E). exists (wr (QT :: l ++ [QT])). split; [exact E|]. rewrite flat_wr. split; [exists QT, (l ++ [QT]); split; [reflexivity|unfold vstart; lia]|].
  intros w ops' r r' [Hw Ew] E' _ _ T. destruct (chars_runs N w Hw) as (l' & Hl' & Bl' & E2). rewrite E2 in E'. assert (ops' = wr (QT :: l' ++ [QT])) by congruence. subst ops'. rewrite flat_wr in T.
  destruct (lit_split _ _ _ _ _ _ Hl Hl' Bl Bl' T) as [X Y]. split; [|exact Y]. rewrite Ev, Ew, X. reflexivity.
Qed.
Lemma chars_same N v w b : bytes v -> bytes w -> writes (chars_codec N) v b -> writes (chars_codec N) w b -> c_string v = c_string w.
Proof.
  intros Hv Hw (o & Eo & <-) (o' & Eo' & T). destruct (chars_runs N v Hv) as (l & Hl & Bl & E). destruct (chars_runs N w Hw) as (l' & Hl' & Bl' & E').
  rewrite E in Eo. assert (o = wr (QT :: l ++ [QT])) by congruence. subst o. rewrite E' in Eo'. assert (o' = wr (QT :: l' ++ [QT])) by congruence. subst o'. rewrite !flat_wr in T.
  apply (lit_split _ _ _ _ [] [] Hl Hl' Bl Bl'). now rewrite T.
Qed.

(** ---- containers ---- *)
Lemma items_tells {A} (f : A -> res (list op)) dom R : wtells f dom -> R = RBR \/ R = RCB -> forall l, Forall dom l -> exists ops, items_ser f l = Ok ops /\
  (l <> [] -> exists h t, flat ops = h :: t /\ vstart h) /\
  forall l' ops' r r', Forall dom l' -> items_ser f l' = Ok ops' -> flat ops ++ R :: r = flat ops' ++ R :: r' -> l = l' /\ r = r'.
Proof.
  intros Hf HR. assert (FR : forall r, follow (R :: r)) by (intros r; destruct HR as [-> | ->]; cbn; unfold s_digit; lia).
  assert (FC : forall r, follow (COMMA :: r)) by (intros r; cbn; unfold s_digit; lia).
  assert (VR : forall h, vstart h -> h <> R) by (intros h Hh ->; destruct HR as [-> | ->]; unfold vstart, s_digit in Hh; lia).
  assert (RC : R <> COMMA) by lia.
  induction l as [|x l IH]; intros Hl.
  - exists []. split; [reflexivity|]. split; [congruence|]. intros l' ops' r r' Hl' E T. destruct l' as [|y l']; [cbn in E; injection E as <-; cbn in T; injection T as T; split; [reflexivity|exact T]|].
    exfalso. inversion Hl'; subst. destruct (Hf y H1) as (oy & Ey & (h & z & Hh & Vh) & _).
    assert (X : exists z', flat ops' = h :: z').
    { destruct l' as [|y2 l'].
      - cbn [items_ser] in E. rewrite Ey in E. injection E as <-. now exists z.
      - change (items_ser f (y :: y2 :: l')) with (let* a := f y in let* b := items_ser f (y2 :: l') in Ok (a ++ W COMMA :: b)) in E. rewrite Ey in E. cbn [bind] in E.
        destruct (items_ser f (y2 :: l')) as [b| |]; [|discriminate|discriminate]. injection E as <-. rewrite flat_app, Hh. cbn [app]. eauto. }
    destruct X as [z' X]. rewrite X in T. cbn in T. injection T as T _. now apply (VR h Vh).
  - inversion Hl as [|? ? Hx Hl0]; subst. destruct (Hf x Hx) as (ox & Ex & Hd & U). destruct (IH Hl0) as (b & Eb & Hb & Ub). clear IH.
    destruct l as [|x2 l].
    + exists ox. split; [exact Ex|]. split; [intros _; exact Hd|]. intros l' ops' r r' Hl' E T. destruct l' as [|y l'].
      * exfalso. cbn in E. injection E as <-. destruct Hd as (h & z & Hh & Vh). rewrite Hh in T. cbn in T. injection T as T _. now apply (VR h Vh).
      * inversion Hl' as [|? ? Hy Hl'0]; subst. destruct l' as [|y2 l'].
        -- destruct (U y ops' _ _ Hy E (FR r) (FR r') T) as [-> T']. injection T' as ->. split; reflexivity.
        -- exfalso. change (items_ser f (y :: y2 :: l')) with (let* a := f y in let* b := items_ser f (y2 :: l') in Ok (a ++ W COMMA :: b)) in E.
           destruct (f y) as [oy| |] eqn:Ey; try discriminate. cbn [bind] in E. destruct (items_ser f (y2 :: l')) as [b'| |]; try discriminate. injection E as <-.
           rewrite flat_app, <- app_assoc in T. destruct (U y oy _ _ Hy Ey (FR r) (FC _) T) as [_ T']. injection T' as T' _. now apply RC.
    + exists (ox ++ W COMMA :: b). split; [change (items_ser f (x :: x2 :: l)) with (let* a := f x in let* b := items_ser f (x2 :: l) in Ok (a ++ W COMMA :: b)); rewrite Ex; cbn [bind]; rewrite Eb; reflexivity|].
      split; [intros _; destruct Hd as (h & z & Hh & Vh); exists h, (z ++ flat (W COMMA :: b)); split; [rewrite flat_app, Hh; reflexivity|exact Vh]|].
      intros l' ops' r r' Hl' E T. rewrite flat_app, <- app_assoc in T. destruct l' as [|y l'].
      * exfalso. cbn in E. injection E as <-. destruct Hd as (h & z & Hh & Vh). rewrite Hh in T. cbn in T. injection T as T _. now apply (VR h Vh).
      * inversion Hl' as [|? ? Hy Hl'0]; subst. destruct l' as [|y2 l'].
        -- exfalso. destruct (U y ops' _ _ Hy E (FC _) (FR r') T) as [_ T']. injection T' as T' _. symmetry in T'. now apply RC.
        -- change (items_ser f (y :: y2 :: l')) with (let* a := f y in let* b := items_ser f (y2 :: l') in Ok (a ++ W COMMA :: b)) in E.
           destruct (f y) as [oy| |] eqn:Ey; try discriminate. cbn [bind] in E. destruct (items_ser f (y2 :: l')) as [b'| |] eqn:Eb'; try discriminate. injection E as <-.
           rewrite flat_app, <- app_assoc in T. destruct (U y oy _ _ Hy Ey (FC _) (FC _) T) as [-> T']. cbn [flat flat1 app] in T'. injection T' as T'.
           destruct (Ub (y2 :: l') b' r r' Hl'0 Eb' T') as [-> ->]. split; reflexivity.
Qed.
Lemma seq_tells {A} (f : A -> res (list op)) dom L R : wtells f dom -> L = LBR \/ L = LCB -> R = RBR \/ R = RCB -> wtells (seq_ser L R f) (Forall dom).
Proof.
  intros Hf HL HR l Hl. destruct (items_tells f dom R Hf HR l Hl) as (b & Eb & _ & U). exists (W L :: b ++ [W R]). split; [unfold seq_ser; now rewrite Eb|].
  split; [exists L, (flat b ++ [R]); split; [cbn [flat flat1 app]; now rewrite flat_app|destruct HL as [-> | ->]; unfold vstart; lia]|].
  intros l' ops' r r' Hl' E _ _ T. unfold seq_ser in E. destruct (items_ser f l') as [b'| |] eqn:Eb'; try discriminate. cbn [bind] in E. injection E as <-.
  cbn [flat flat1 app] in T. injection T as T. rewrite !flat_app, <- !app_assoc in T. cbn [flat flat1 app] in T. exact (U l' b' r r' Hl' Eb' T).
Qed.
Lemma field_tells {K V} (kc : codec K) (vc : codec V) dk dv : wtells (ser kc) dk -> wtells (ser vc) dv -> wtells (field_ser kc vc) (fun p => dk (fst p) /\ dv (snd p)).
Proof.
  intros Hk Hv [k v] [Dk Dv]. cbn [fst snd] in *. destruct (Hk k Dk) as (a & Ea & (h & z & Ha & Vh) & Ua). destruct (Hv v Dv) as (b & Eb & _ & Ub).
  exists (a ++ W COLON :: b). split; [unfold field_ser; cbn [fst snd]; now rewrite Ea, Eb|].
  split; [exists h, (z ++ flat (W COLON :: b)); split; [rewrite flat_app, Ha; reflexivity|exact Vh]|].
  intros [k' v'] ops' r r' [Dk' Dv'] E Hr Hr' T. cbn [fst snd] in *. unfold field_ser in E. cbn [fst snd] in E.
  destruct (ser kc k') as [a'| |] eqn:Ea'; try discriminate. destruct (ser vc v') as [b'| |] eqn:Eb'; try discriminate. cbn [bind] in E. injection E as <-.
  rewrite !flat_app, <- !app_assoc in T. assert (FC : forall r, follow (COLON :: r)) by (intros q; cbn; unfold s_digit; lia).
  destruct (Ua k' a' _ _ Dk' Ea' (FC _) (FC _) T) as [-> T']. cbn [flat flat1 app] in T'. injection T' as T'. destruct (Ub v' b' r r' Dv' Eb' Hr Hr' T') as [-> ->]. split; reflexivity.
Qed.
Lemma vlist_inj {A n} : forall v w : vec A n, vlist v = vlist w -> v = w.
Proof. induction n as [|n IH]; [intros [] []; reflexivity|]. intros [x v] [y w] H. cbn in H. injection H as -> H. now rewrite (IH v w H). Qed.
Lemma get_tells {A B} (f : A -> res (list op)) dom (g : B -> A) : (forall v w, g v = g w -> v = w) -> wtells f dom -> wtells (fun v => f (g v)) (fun v => dom (g v)).
Proof. intros Hi Hf v Hv. destruct (Hf (g v) Hv) as (o & E & Hd & U). exists o. split; [exact E|]. split; [exact Hd|]. intros w o' r r' Hw E' Hr Hr' T. destruct (U (g w) o' r r' Hw E' Hr Hr' T) as [X ->]. split; [now apply Hi|reflexivity]. Qed.

(** ---- objects ---- *)
Section Members.
  Context {T : Type} (one : memb T -> T -> res (list op)) (R : Z).
  Fixpoint many (L : list (memb T)) (t : T) : res (list op) :=
    match L with [] => Ok [] | [c] => one c t | c :: L' => let* a := one c t in let* b := many L' t in Ok (a ++ W COMMA :: b) end.
  Variable ok : memb T -> T -> Prop.
  (** what one member writes tells what would be copied *)
  Definition member_tells (b : memb T) : Prop :=
    forall v, ok b v -> exists ops, one b v = Ok ops /\
      forall w ops' r r', ok b w -> one b w = Ok ops' -> follow r -> follow r' -> flat ops ++ r = flat ops' ++ r' -> (forall t, copy v t b = copy w t b) /\ r = r'.
  Lemma many_tells L : R = RBR \/ R = RCB -> Forall member_tells L -> forall v, (forall b, In b L -> ok b v) -> exists ops, many L v = Ok ops /\
    forall w ops' r r', (forall b, In b L -> ok b w) -> many L w = Ok ops' -> flat ops ++ R :: r = flat ops' ++ R :: r' ->
      (forall b t, In b L -> copy v t b = copy w t b) /\ r = r'.
  Proof.
    intros HR. assert (FR : forall r, follow (R :: r)) by (intros r; destruct HR as [-> | ->]; cbn; unfold s_digit; lia).
    assert (FC : forall r, follow (COMMA :: r)) by (intros r; cbn; unfold s_digit; lia).
    induction 1 as [|b L Hb HL IH]; intros v Hv.
    - exists []. split; [reflexivity|]. intros w ops' r r' _ E T0. cbn in E. injection E as <-. cbn in T0. injection T0 as ->. split; [intros b t []|reflexivity].
    - destruct (Hb v (Hv b (or_introl eq_refl))) as (o & Eo & U). destruct (IH v (fun c Hc => Hv c (or_intror Hc))) as (os & Es & Us). clear IH.
      destruct L as [|b2 L].
      + exists o. split; [exact Eo|]. intros w ops' r r' Hw E T0. cbn [many] in E. destruct (U w ops' _ _ (Hw b (or_introl eq_refl)) E (FR r) (FR r') T0) as [X Y].
        injection Y as ->. split; [|reflexivity]. intros c t [<-|[]]. apply X.
      + exists (o ++ W COMMA :: os). split; [change (many (b :: b2 :: L) v) with (let* a := one b v in let* q := many (b2 :: L) v in Ok (a ++ W COMMA :: q)); rewrite Eo; cbn [bind]; rewrite Es; reflexivity|].
        intros w ops' r r' Hw E T0. change (many (b :: b2 :: L) w) with (let* a := one b w in let* q := many (b2 :: L) w in Ok (a ++ W COMMA :: q)) in E.
        destruct (one b w) as [o'| |] eqn:Eo'; try discriminate. cbn [bind] in E. destruct (many (b2 :: L) w) as [os'| |] eqn:Es'; try discriminate. cbn [bind] in E. injection E as <-.
        rewrite !flat_app, <- !app_assoc in T0. destruct (U w o' _ _ (Hw b (or_introl eq_refl)) Eo' (FC _) (FC _) T0) as [X Y]. cbn [flat flat1 app] in Y. injection Y as Y.
        destruct (Us w os' r r' (fun c Hc => Hw c (or_intror Hc)) Es' Y) as [X2 ->]. split; [|reflexivity]. intros c t [<-|Hc]; [apply X|now apply X2].
  Qed.
  Lemma covers_eq (L : list (memb T)) (v w : T) : covers L -> (forall b t, In b L -> copy v t b = copy w t b) -> v = w.
  Proof.
    intros C H. rewrite <- (C v v), <- (C w v). assert (G : forall t, fold_left (copy v) L t = fold_left (copy w) L t); [|apply G].
    revert H. clear C. induction L as [|b L IH]; intros H t; [reflexivity|]. cbn [fold_left]. rewrite (H b t (or_introl eq_refl)). apply IH. intros c x Hc. apply H. now right.
  Qed.
  Lemma object_tells Lb L : Lb = LBR \/ Lb = LCB -> R = RBR \/ R = RCB -> covers L -> Forall member_tells L ->
    wtells (fun t => let* b := many L t in Ok (W Lb :: b ++ [W R])) (fun v : T => forall b, In b L -> ok b v).
  Proof.
    intros HL HR C HM v Hv. destruct (many_tells L HR HM v Hv) as (o & Eo & U). exists (W Lb :: o ++ [W R]). rewrite Eo. split; [reflexivity|].
    split; [exists Lb, (flat o ++ [R]); split; [cbn [flat flat1 app]; now rewrite flat_app|destruct HL as [-> | ->]; unfold vstart; lia]|].
    intros w ops' r r' Hw E _ _ T0. destruct (many L w) as [o'| |] eqn:Eo'; try discriminate. cbn [bind] in E. injection E as <-.
    cbn [flat flat1 app] in T0. injection T0 as T0. rewrite !flat_app, <- !app_assoc in T0. cbn [flat flat1 app] in T0. destruct (U w o' r r' Hw Eo' T0) as [X ->].
    split; [now apply (covers_eq L)|reflexivity].
  Qed.
End Members.
Lemma members_many {T} (L : list (memb T)) t : members_ser L t = many memb_ser L t.
Proof.
  induction L as [|b L IH]; [reflexivity|]. destruct L as [|b2 L]; [reflexivity|].
  change (members_ser (b :: b2 :: L) t) with (let* a := memb_ser b t in let* q := members_ser (b2 :: L) t in Ok (a ++ W COMMA :: q)). now rewrite IH.
Qed.
Lemma amembers_many {T} (L : list (memb T)) t : amembers_ser L t = many amemb_ser L t.
Proof.
  induction L as [|b L IH]; [reflexivity|]. destruct L as [|b2 L]; [reflexivity|].
  change (amembers_ser (b :: b2 :: L) t) with (let* a := amemb_ser b t in let* q := amembers_ser (b2 :: L) t in Ok (a ++ W COMMA :: q)). now rewrite IH.
Qed.
Lemma wtells_ext {A} (f g : A -> res (list op)) dom : (forall v, f v = g v) -> wtells g dom -> wtells f dom.
Proof. intros E H v Hv. rewrite E. destruct (H v Hv) as (o & Eo & Hd & U). exists o. split; [exact Eo|]. split; [exact Hd|]. intros w o' r r' Hw E'. rewrite E in E'. now apply U. Qed.
Lemma copy_get {T} (b : memb T) v w : no_if b -> m_get (memb_mem b) v = m_get (memb_mem b) w -> forall t, copy v t b = copy w t b.
Proof. destruct b as [m|m i|ru l r d]; intros N E t; cbn in *; [now rewrite E|now rewrite E|contradiction]. Qed.
Lemma memb_plain {T} (b : memb T) v : no_if b -> memb_ser b v = mem_ser (memb_mem b) v /\ amemb_ser b v = amem_ser (memb_mem b) v.
Proof. destruct b; intros N; [split; reflexivity|split; reflexivity|contradiction]. Qed.

(** ---- pointers and quotes ---- *)
Lemma ptr_tells {A} (c : codec A) d0 dom : wtells (ser c) dom ->
  wtells (ser (ptr_codec c d0)) (fun o => match o with None => True | Some v => dom v /\ not_starting c 110 v end).
Proof.
  intros H. assert (N : flat (map PW (text "null")) = text "null") by reflexivity.
  intros [v|] Hv.
  - destruct Hv as [Hv S]. destruct (H v Hv) as (o & E & Hd & U). exists o. split; [exact E|]. split; [exact Hd|].
    intros [w|] o' r r' Hw E' Hr Hr' T; [destruct (U w o' r r' (proj1 Hw) E' Hr Hr' T) as [-> ->]; split; reflexivity|].
    exfalso. cbn [ser ptr_codec ptr_ser] in E'. assert (o' = map PW (text "null")) by congruence. subst o'. rewrite N in T. destruct Hd as (h & z & Hz & _). rewrite Hz in T. cbn in T. injection T as -> _.
    apply (S (flat o)); [now exists o|]. exists z. exact Hz.
  - exists (map PW (text "null")). split; [reflexivity|]. rewrite N. split; [exists 110, (text "ull"); split; [reflexivity|unfold vstart; lia]|].
    intros [w|] o' r r' Hw E' Hr Hr' T.
    + exfalso. destruct Hw as [Hw S]. destruct (H w Hw) as (o & E & (h & z & Hz & _) & _). cbn [ser ptr_codec ptr_ser] in E'. rewrite E in E'. assert (o' = o) by congruence. subst o'.
      rewrite Hz in T. cbn in T. injection T as <- _. apply (S (flat o)); [now exists o|]. exists z. exact Hz.
    + cbn [ser ptr_codec ptr_ser] in E'. assert (o' = map PW (text "null")) by congruence. subst o'. rewrite N in T. apply app_inv_head in T. split; [reflexivity|exact T].
Qed.
Lemma quoted_tells {A} (c : codec A) reqq dom : wtells (ser c) dom -> wtells (ser (quoted_codec c true reqq)) (fun v => dom v /\ forall txt, writes c v txt -> bytes txt).
Proof.
  intros H v [Hv B]. destruct (H v Hv) as (o & E & _ & U). assert (Bo : bytes (flat o)) by (apply B; now exists o).
  destruct (string_tells (flat o) Bo) as (q & Eq & Hq & Uq). exists q. cbn [ser quoted_codec]. unfold quoted_ser. rewrite E. cbn [bind]. split; [exact Eq|]. split; [exact Hq|].
  intros w q' r r' [Hw Bw] E' Hr Hr' T. destruct (H w Hw) as (o' & Eo' & _ & _). rewrite Eo' in E'. cbn [bind] in E'.
  destruct (Uq (flat o') q' r r' ltac:(apply Bw; now exists o') E' Hr Hr' T) as [X ->]. split; [|reflexivity].
  apply (U w o' [] [] Hw Eo' I I). now rewrite X.
Qed.

Theorem idesc_tells A (c : codec A) dom : idesc A c dom -> wtells (ser c) dom.
Proof.
  induction 1.
  - eapply wtells_sub; eassumption.
  - apply rt_tells. now apply rdesc_rt.
  - now apply int_tells.
  - now apply float_tells.
  - exact string_tells.
  - apply chars_tells.
  - apply (rt_tells (rquoted_codec serq serq) wvalue). apply rdesc_rt. apply rd_rquoted.
  - apply seq_tells; auto.
  - apply seq_tells; auto.
  - apply seq_tells; auto.
  - apply seq_tells; auto. now apply field_tells.
  - apply seq_tells; auto. now apply field_tells.
  - apply seq_tells; auto. now apply field_tells.
  - apply (get_tells (seq_ser LBR RBR (ser c)) (Forall dom) vlist); [apply vlist_inj|]. apply seq_tells; auto.
  - apply (get_tells (seq_ser LBR RBR (ser c)) (Forall dom) vlist); [apply vlist_inj|]. apply seq_tells; auto.
  - eapply wtells_ext; [intros v; cbn [ser object_codec]; unfold object_ser; rewrite members_many; reflexivity|].
    apply (object_tells memb_ser RCB (fun b v => dm (memb_mem b) (m_get (memb_mem b) v))); auto.
    rewrite Forall_forall in *. intros b Hb v Hv. destruct (H2 b Hb (m_get (memb_mem b) v) Hv) as (o & E & _ & U). rewrite (proj1 (memb_plain b v (H0 b Hb))). unfold mem_ser. rewrite E.
    exists (W QT :: wr (m_name (memb_mem b)) ++ W QT :: W COLON :: o). split; [reflexivity|].
    intros w ops' r r' Hw E' Hr Hr' T0. rewrite (proj1 (memb_plain b w (H0 b Hb))) in E'. unfold mem_ser in E'. destruct (ser (m_codec (memb_mem b)) (m_get (memb_mem b) w)) as [o'| |] eqn:Eo'; try discriminate.
    cbn [bind] in E'. injection E' as <-. cbn [flat flat1 app] in T0. injection T0 as T0. rewrite !flat_app, <- !app_assoc in T0. apply app_inv_head in T0. cbn [flat flat1 app] in T0. injection T0 as T0.
    destruct (U _ o' r r' Hw Eo' Hr Hr' T0) as [X ->]. split; [|reflexivity]. apply copy_get; [now apply H0|exact X].
  - eapply wtells_ext; [intros v; cbn [ser oarray_codec]; unfold oarray_ser; rewrite amembers_many; reflexivity|].
    apply (object_tells amemb_ser RBR (fun b v => dm (memb_mem b) (m_get (memb_mem b) v))); auto.
    rewrite Forall_forall in *. intros b Hb v Hv. destruct (H2 b Hb (m_get (memb_mem b) v) Hv) as (o & E & _ & U). rewrite (proj2 (memb_plain b v (H0 b Hb))). unfold amem_ser. rewrite E.
    exists o. split; [reflexivity|].
    intros w ops' r r' Hw E' Hr Hr' T0. rewrite (proj2 (memb_plain b w (H0 b Hb))) in E'. unfold amem_ser in E'.
    destruct (U _ ops' r r' Hw E' Hr Hr' T0) as [X ->]. split; [|reflexivity]. apply copy_get; [now apply H0|exact X].
  - apply (get_tells (ser c) dom get); assumption.
  - now apply quoted_tells.
  - exact IHidesc.
  - now apply ptr_tells.
Qed.
