(** How far behind a value its reader looks. *)
From Verif Require Import Base Parser SpecJson SpecNum SpecString SpecObject SpecEnum ParserFacts Grammar1 Grammar2 Out Number StringS Array Object ObjectArray Enum Wrap TimeSize CodecLaws
  NumberProofs StringProofs ArrayProofs ObjectProofs ObjectArrayProofs EnumProofs TimeProofs SizeProofs WrapProofs FloatProofs AcceptProofs Desc DescProofs SpecExact ExactProofs ObjExactProofs WrapExactProofs SpecNear.

(** ---- swapping what follows ---- *)
Lemma heads_swap c (y r r' : buf) : y <> [] -> heads c (y ++ r) -> heads c (y ++ r').
Proof. intros Hy (t & E). destruct y as [|a y]; [easy|]. injection E as -> _. now exists (y ++ r'). Qed.
Lemma gap_swap s (y r r' : buf) : y <> [] -> after_gap s (y ++ r) -> exists g, s = g ++ y ++ r /\ after_gap (g ++ y ++ r') (y ++ r').
Proof. intros Hy (g & E & Hg & Hc). exists g. split; [exact E|]. exists g. split; [reflexivity|]. split; [exact Hg|]. destruct y as [|a y]; [easy|]. exact Hc. Qed.
Lemma gap_swap1 s c (r r' : buf) : after_gap s (c :: r) -> exists g, s = g ++ c :: r /\ after_gap (g ++ c :: r') (c :: r').
Proof. intros H. exact (gap_swap s [c] r r' ltac:(discriminate) H). Qed.
Lemma nonempty_r {X} (a b : list X) : b <> [] -> a ++ b <> []. Proof. destruct a; [auto|discriminate]. Qed.
Lemma nonempty_l {X} (a b : list X) : a <> [] -> a ++ b <> []. Proof. destruct a; [easy|discriminate]. Qed.
Lemma bytes_app a b : bytes (a ++ b) <-> bytes a /\ bytes b. Proof. apply Forall_app. Qed.

Section Swap.
  Context (r r' : buf).
  (** the part of a reader's behaviour its context needs *)
  Definition item_loc {A} (item item' : buf -> A -> buf -> Prop) : Prop :=
    (forall s v q, item s v q -> suffix q s) /\
    (forall p y v, y <> [] -> bytes (p ++ y ++ r) -> item (p ++ y ++ r) v (y ++ r) -> item' (p ++ y ++ r') v (y ++ r')).

  Lemma swap_next s c (p : buf) : after_gap s (c :: p ++ r) -> exists y, y <> [] /\ s = y ++ r /\ after_gap (y ++ r') (c :: p ++ r').
  Proof.
    intros H. destruct (gap_swap s (c :: p) r r' ltac:(discriminate) H) as (g & -> & G). exists (g ++ c :: p). rewrite <- !app_assoc.
    split; [apply nonempty_r; discriminate|]. split; [reflexivity|exact G].
  Qed.
  Lemma swap_gap s s1 (y : buf) : after_gap s s1 -> s1 = y ++ r -> y <> [] ->
    exists p, p <> [] /\ s = p ++ r /\ after_gap (p ++ r') (y ++ r') /\ (forall c, heads c (y ++ r') -> heads c s1).
  Proof.
    intros H -> Hy. destruct (gap_swap s y r r' Hy H) as (g & -> & G). exists (g ++ y). rewrite <- !app_assoc. split; [now apply nonempty_r|]. split; [reflexivity|].
    split; [exact G|]. intros c. now apply heads_swap.
  Qed.
  Lemma swap_item {A} (item item' : buf -> A -> buf -> Prop) s v s2 (y : buf) : item_loc item item' -> item s v s2 -> s2 = y ++ r -> y <> [] -> bytes s ->
    exists p, p <> [] /\ s = p ++ r /\ item' (p ++ r') v (y ++ r').
  Proof.
    intros [HS HL] H -> Hy Hb. destruct (HS _ _ _ H) as (p & ->). exists (p ++ y). rewrite <- !app_assoc. split; [now apply nonempty_r|]. split; [reflexivity|]. now apply HL.
  Qed.
  Lemma gap_bytes s s1 : after_gap s s1 -> bytes s -> bytes s1.
  Proof. intros (g & -> & _) H. now apply bytes_app in H. Qed.
  Lemma suf_bytes s s1 : suffix s1 s -> bytes s -> bytes s1.
  Proof. intros (g & ->) H. now apply bytes_app in H. Qed.

  Lemma elements_loc {A} (item item' : buf -> A -> buf -> Prop) R s l : item_loc item item' -> elements item R s l r -> bytes s ->
    exists p, p <> [] /\ s = p ++ r /\ elements item' R (p ++ r') l r'.
  Proof.
    intros HI H. remember r as r0 eqn:Er in H. induction H as [s q H1|s s1 v s2 q H1 N H2 H3|s s1 v s2 s3 l q H1 N H2 H3 _ IH]; subst q; intros Hb.
    - destruct (swap_next _ R [] H1) as (y & Y & -> & G). exists y. split; [exact Y|]. split; [reflexivity|]. now constructor.
    - destruct (swap_next _ R [] H3) as (y & Y & E2 & G3). destruct (swap_item _ _ _ _ _ y HI H2 E2 Y (gap_bytes _ _ H1 Hb)) as (p & P & E1 & K).
      destruct (swap_gap _ _ p H1 E1 P) as (q & Q & E & G & GH). exists q. split; [exact Q|]. split; [exact E|]. eapply el_last; [exact G| |exact K|exact G3]. auto.
    - pose proof (gap_bytes _ _ H1 Hb) as Hb1. pose proof (gap_bytes _ _ H3 (suf_bytes _ _ (proj1 HI _ _ _ H2) Hb1)) as Hb3. inversion Hb3 as [|? ? _ Hb3']; subst.
      destruct (IH eq_refl Hb3') as (p3 & P3 & -> & K3). clear IH.
      destruct (swap_next _ COMMA p3 H3) as (y & Y & E2 & G3). destruct (swap_item _ _ _ _ _ y HI H2 E2 Y Hb1) as (p & P & E1 & K).
      destruct (swap_gap _ _ p H1 E1 P) as (q & Q & E & G & GH). exists q. split; [exact Q|]. split; [exact E|]. eapply el_more; [exact G| |exact K|exact G3|exact K3]. auto.
  Qed.
  Lemma slots_loc {A} (item item' : A -> buf -> A -> buf -> Prop) R o s l : (forall x, item_loc (item x) (item' x)) -> slots item R o s l r -> bytes s ->
    exists p, p <> [] /\ s = p ++ r /\ slots item' R o (p ++ r') l r'.
  Proof.
    intros HI H. remember r as r0 eqn:Er in H. induction H as [q|x o s q H1|x o s s1 v s2 q H1 N H2 H3|x o s s1 v s2 s3 l q H1 N H2 H3 _ IH]; subst q; intros Hb.
    - exists [R]. split; [discriminate|]. split; [reflexivity|]. constructor.
    - destruct (swap_next _ R [] H1) as (y & Y & -> & G). exists y. split; [exact Y|]. split; [reflexivity|]. now constructor.
    - destruct (swap_next _ R [] H3) as (y & Y & E2 & G3). destruct (swap_item _ _ _ _ _ y (HI x) H2 E2 Y (gap_bytes _ _ H1 Hb)) as (p & P & E1 & K).
      destruct (swap_gap _ _ p H1 E1 P) as (q & Q & E & G & GH). exists q. split; [exact Q|]. split; [exact E|]. eapply sl_last; [exact G| |exact K|exact G3]. auto.
    - pose proof (gap_bytes _ _ H1 Hb) as Hb1. pose proof (gap_bytes _ _ H3 (suf_bytes _ _ (proj1 (HI x) _ _ _ H2) Hb1)) as Hb3. inversion Hb3 as [|? ? _ Hb3']; subst.
      destruct (IH eq_refl Hb3') as (p3 & P3 & -> & K3). clear IH.
      destruct (swap_next _ COMMA p3 H3) as (y & Y & E2 & G3). destruct (swap_item _ _ _ _ _ y (HI x) H2 E2 Y Hb1) as (p & P & E1 & K).
      destruct (swap_gap _ _ p H1 E1 P) as (q & Q & E & G & GH). exists q. split; [exact Q|]. split; [exact E|]. eapply sl_more; [exact G| |exact K|exact G3|exact K3]. auto.
  Qed.

  (** ---- objects ---- *)
  Lemma named_loc s n s3 (y : buf) : named s n s3 -> s3 = y ++ r -> y <> [] -> exists p, p <> [] /\ s = p ++ r /\ named (p ++ r') n (y ++ r').
  Proof.
    intros (s1 & s2 & -> & H1 & H2 & H3) E Y. destruct (swap_gap _ _ y H2 E Y) as (q2 & Q2 & -> & G2 & _).
    destruct (swap_next _ COLON q2 H1) as (q1 & Q1 & -> & G1). exists (QT :: n ++ QT :: q1). split; [discriminate|]. cbn [app]. rewrite <- !app_assoc. split; [reflexivity|].
    exists (q1 ++ r'), (q2 ++ r'). split; [reflexivity|]. split; [exact G1|]. split; [exact G2|]. now apply nonempty_l.
  Qed.
  Lemma waccept_swap v (y : buf) : y <> [] -> waccept v (y ++ r) -> waccept v (y ++ r').
  Proof. intros Hy [H K]. split; [exact H|]. intros N. specialize (K N). destruct y; [easy|]. exact K. Qed.
  Lemma passes_loc n s s1 (y : buf) : passes n s s1 -> s1 = y ++ r -> y <> [] -> exists p, p <> [] /\ s = p ++ r /\ passes n (p ++ r') (y ++ r').
  Proof.
    intros (Hn & vt & H & Hv) E Y. subst s1. rewrite app_assoc in H. destruct (named_loc _ _ _ (vt ++ y) H eq_refl ltac:(now apply nonempty_r)) as (p & P & -> & K).
    exists p. split; [exact P|]. split; [reflexivity|]. split; [exact Hn|]. exists vt. rewrite <- app_assoc in K. split; [exact K|]. now apply waccept_swap.
  Qed.
  Lemma leftover_loc s : leftover s r -> exists p, p <> [] /\ s = p ++ r /\ leftover (p ++ r') r'.
  Proof.
    intros H. remember r as r0 eqn:Er in H. induction H as [n s s1 q H1 H2|n s s1 s2 s3 q H1 H2 H3 _ IH]; subst q.
    - destruct (swap_next _ RCB [] H2) as (y & Y & E & G). destruct (passes_loc _ _ _ y H1 E Y) as (p & P & -> & K). exists p. split; [exact P|]. split; [reflexivity|]. eapply lo_last; eassumption.
    - destruct (IH eq_refl) as (p3 & P3 & E3 & K3). destruct (swap_gap _ _ p3 H3 E3 P3) as (p2 & P2 & -> & G3 & _). destruct (swap_next _ COMMA p2 H2) as (y & Y & E & G).
      destruct (passes_loc _ _ _ y H1 E Y) as (p & P & -> & K). exists p. split; [exact P|]. split; [reflexivity|]. eapply lo_more; eassumption.
  Qed.
  Section Obj.
    Context {T : Type} (mode : omode) (L : list (memb T)) (sn sn' : option Z).
    Hypothesis HI : forall b t, In b L -> item_loc (fun s x q => reads (m_codec (memb_mem b)) sn (memb_old b t) s x q) (fun s x q => reads (m_codec (memb_mem b)) sn' (memb_old b t) s x q).
    Lemma takes_loc b t s t' s1 (y : buf) : In b L -> takes sn b t s t' s1 -> s1 = y ++ r -> y <> [] -> bytes s ->
      exists p, p <> [] /\ s = p ++ r /\ takes sn' b t (p ++ r') t' (y ++ r').
    Proof.
      intros Hb (s0 & x & H1 & H2 & ->) E Y Hs. assert (Hs0 : bytes s0).
      { destruct H1 as (a & c & -> & G1 & G2 & _). inversion Hs as [|? ? _ Hs1]; subst. apply bytes_app in Hs1. destruct Hs1 as [_ Hs1]. inversion Hs1 as [|? ? _ Hs2]; subst.
        apply (gap_bytes _ _ G2). apply (gap_bytes _ _ G1) in Hs2. now inversion Hs2. }
      destruct (swap_item _ _ _ _ _ y (HI b t Hb) H2 E Y Hs0) as (p0 & P0 & E0 & K). destruct (named_loc _ _ _ p0 H1 E0 P0) as (p & P & -> & G).
      exists p. split; [exact P|]. split; [reflexivity|]. exists (p0 ++ r'), x. auto.
    Qed.
    Lemma one_loc R t s R' t' s1 (y : buf) : incl R L -> one_member mode L sn R t s R' t' s1 -> s1 = y ++ r -> y <> [] -> bytes s ->
      incl R' L /\ exists p, p <> [] /\ s = p ++ r /\ one_member mode L sn' R t (p ++ r') R' t' (y ++ r').
    Proof.
      intros HR H E Y Hs. destruct H as [b R t s t' q H|b R A b' B t s t' q EL N1 N2 H|b R n t s q M N1 N2 H].
      - split; [intros z Hz; apply HR; now right|]. destruct (takes_loc _ _ _ _ _ y (HR b (or_introl eq_refl)) H E Y Hs) as (p & P & -> & K). exists p. split; [exact P|]. split; [reflexivity|]. now constructor.
      - split; [exact HR|]. assert (Hb : In b' L) by (rewrite EL; apply in_elt). destruct (takes_loc _ _ _ _ _ y Hb H E Y Hs) as (p & P & -> & K). exists p. split; [exact P|]. split; [reflexivity|].
        eapply om_other; eassumption.
      - split; [exact HR|]. destruct (passes_loc _ _ _ y H E Y) as (p & P & -> & K). exists p. split; [exact P|]. split; [reflexivity|]. eapply om_none; eassumption.
    Qed.
    Lemma one_suffix R t s R' t' s1 : incl R L -> one_member mode L sn R t s R' t' s1 -> suffix s1 s.
    Proof.
      assert (TS : forall b t s t' q, In b L -> takes sn b t s t' q -> suffix q s).
      { intros b u v u' q Hb (s0 & x & (a & c & -> & (g1 & -> & _) & (g2 & -> & _) & _) & H & _). destruct (proj1 (HI b u Hb) _ _ _ H) as (p & ->).
        exists (QT :: memb_name b ++ QT :: g1 ++ COLON :: g2 ++ p). cbn [app]. rewrite <- !app_assoc. cbn [app]. rewrite <- !app_assoc. cbn [app]. now rewrite <- !app_assoc. }
      intros HR H. destruct H as [b R t s t' q H|b R A b' B t s t' q EL N1 N2 H|b R n t s q M N1 N2 H].
      - eapply TS; [|exact H]. apply HR. now left.
      - eapply TS; [|exact H]. rewrite EL. apply in_elt.
      - destruct H as (_ & vt & (a & c & -> & (g1 & -> & _) & (g2 & -> & _) & _) & _).
        exists (QT :: n ++ QT :: g1 ++ COLON :: g2 ++ vt). cbn [app]. rewrite <- !app_assoc. cbn [app]. rewrite <- !app_assoc. cbn [app]. now rewrite <- !app_assoc.
    Qed.
    Lemma members_loc R t s t' : incl R L -> members mode L sn R t s t' r -> bytes s -> exists p, p <> [] /\ s = p ++ r /\ members mode L sn' R t (p ++ r') t' r'.
    Proof.
      intros HR H. remember r as r0 eqn:Er in H.
      induction H as [t s q H1|t s s1 q M H1 H2|b R R' t s t' s1 q H1 H2|b R R' t s t' s1 s2 s3 t'' q H1 H2 H3 _ IH]; subst q; intros Hs.
      - destruct (swap_next _ RCB [] H1) as (y & Y & -> & G). exists y. split; [exact Y|]. split; [reflexivity|]. now constructor.
      - destruct (leftover_loc _ H2) as (p1 & P1 & E1 & K). destruct (swap_gap _ _ p1 H1 E1 P1) as (p & P & -> & G & _). exists p. split; [exact P|]. split; [reflexivity|]. eapply ms_rest; eassumption.
      - destruct (swap_next _ RCB [] H2) as (y & Y & E & G). destruct (one_loc _ _ _ _ _ _ y HR H1 E Y Hs) as (_ & p & P & -> & K). exists p. split; [exact P|]. split; [reflexivity|]. eapply ms_last; eassumption.
      - assert (HR' : incl R' L). { inversion H1; subst; auto. intros z Hz. apply HR. now right. }
        assert (Hs3 : bytes s3). { apply (gap_bytes _ _ H3). pose proof (gap_bytes _ _ H2 (suf_bytes _ _ (one_suffix _ _ _ _ _ _ HR H1) Hs)) as K. now inversion K. }
        destruct (IH HR' eq_refl Hs3) as (p3 & P3 & E3 & K3). destruct (swap_gap _ _ p3 H3 E3 P3) as (p2 & P2 & -> & G3 & _). destruct (swap_next _ COMMA p2 H2) as (y & Y & E & G).
        destruct (one_loc _ _ _ _ _ _ y HR H1 E Y Hs) as (_ & p & P & -> & K). exists p. split; [exact P|]. split; [reflexivity|]. eapply ms_more; eassumption.
    Qed.
    Lemma places_loc R t s t' : incl R L -> places sn R t s t' r -> bytes s -> exists p, p <> [] /\ s = p ++ r /\ places sn' R t (p ++ r') t' r'.
    Proof.
      intros HR H. remember r as r0 eqn:Er in H. induction H as [t q|b R t s x s1 q H1 H2|b R t s x s1 s2 s3 t' q H1 H2 H3 _ IH]; subst q; intros Hs.
      - exists [RBR]. split; [discriminate|]. split; [reflexivity|]. constructor.
      - destruct (swap_next _ RBR [] H2) as (y & Y & E & G). destruct (swap_item _ _ _ _ _ y (HI b t (HR b (or_introl eq_refl))) H1 E Y Hs) as (p & P & -> & K).
        exists p. split; [exact P|]. split; [reflexivity|]. eapply pl_last; eassumption.
      - assert (HR' : incl R L) by (intros z Hz; apply HR; now right).
        assert (Hs3 : bytes s3). { apply (gap_bytes _ _ H3). pose proof (gap_bytes _ _ H2 (suf_bytes _ _ (proj1 (HI b t (HR b (or_introl eq_refl))) _ _ _ H1) Hs)) as K. now inversion K. }
        destruct (IH HR' eq_refl Hs3) as (p3 & P3 & E3 & K3). destruct (swap_gap _ _ p3 H3 E3 P3) as (p2 & P2 & -> & G3 & _). destruct (swap_next _ COMMA p2 H2) as (y & Y & E & G).
        destruct (swap_item _ _ _ _ _ y (HI b t (HR b (or_introl eq_refl))) H1 E Y Hs) as (p & P & -> & K). exists p. split; [exact P|]. split; [reflexivity|]. eapply pl_more; eassumption.
    Qed.
  End Obj.
End Swap.

(** ---- codecs ---- *)
Definition loc (d : bool) {A} (c : codec A) : Prop := forall sn sn' old p y r r' v, bytes (p ++ y ++ r) -> bytes r' -> (d = false -> y <> []) ->
  reads c sn old (p ++ y ++ r) v (y ++ r) -> reads c sn' old (p ++ y ++ r') v (y ++ r').
Definition eats (d : bool) {A} (c : codec A) : Prop := forall sn old s v r, bytes s -> d = true \/ s <> [] -> reads c sn old s v r -> exists a p, s = a :: p ++ r.
Definition null_end {A} (c : codec A) : Prop := forall sn old r v q, bytes r -> reads c sn old (text "null" ++ r) v q -> q = r.
Definition null_loc {A} (c : codec A) : Prop := forall sn sn' old r r' v, bytes r -> bytes r' -> reads c sn old (text "null" ++ r) v r -> reads c sn' old (text "null" ++ r') v r'.
Definition near (d : bool) {A} (c : codec A) : Prop := dlaw (des c) /\ eats d c /\ null_end c /\ null_loc c /\ loc d c.

Lemma reads_suffix {A} (c : codec A) sn old s v r : dlaw (des c) -> reads c sn old s v r -> suffix r s.
Proof. intros HD H. exact (dl_suffix _ _ _ _ _ _ _ _ _ HD H). Qed.
Lemma bytes_null r : bytes r -> bytes (text "null" ++ r).
Proof. intros H. apply bytes_app. split; [|exact H]. cbn. repeat (apply Forall_cons; [lia|]). apply Forall_nil. Qed.
Lemma swapped (p y r r' : buf) : bytes (p ++ y ++ r) -> bytes r' -> bytes (p ++ y ++ r').
Proof. rewrite !bytes_app. tauto. Qed.
Lemma loc_item {A} d (c : codec A) sn sn' old r r' : dlaw (des c) -> loc d c -> bytes r' -> item_loc r r' (fun s x q => reads c sn old s x q) (fun s x q => reads c sn' old s x q).
Proof. intros HD HL Hr. split; [intros s v q; now apply reads_suffix|]. intros p y v Hy Hb. apply HL; auto. Qed.
(** values that tell where they end: bracketed ones and the like *)
Lemma loc_from {A} (c : codec A) :
  (forall sn sn' old s r r' v, bytes s -> bytes r' -> reads c sn old s v r -> exists p, s = p ++ r /\ reads c sn' old (p ++ r') v r') -> loc true c.
Proof.
  intros H sn sn' old p y r r' v Hb Hr _ E. destruct (H sn sn' old _ (y ++ r) (y ++ r') v Hb) as (q & Eq & K); [|exact E|].
  - rewrite !bytes_app in Hb. apply bytes_app. tauto.
  - apply app_inv_tail in Eq. now subst q.
Qed.
Lemma near_true {A} (c : codec A) : dlaw (des c) -> eats true c -> null_end c -> loc true c -> near true c.
Proof.
  intros H1 H2 H3 H4. repeat (split; [assumption|]). split; [|exact H4]. intros sn sn' old r r' v Hb Hr H. apply (H4 sn sn' old (text "null") [] r r' v); auto; [|discriminate].
  now apply bytes_null.
Qed.
Ltac tailed p := exists p; split; [cbn [app]; rewrite <- ?app_assoc; reflexivity|].

Lemma jint_first z l : jint z l -> exists a t, l = a :: t /\ a <> 110.
Proof.
  assert (K : forall i, rint i -> exists a t, i = a :: t /\ a <> 110).
  { intros i [|c q Hc _]; [exists 48, []|exists c, q]; (split; [reflexivity|lia]). }
  intros [i H|i H]; [now apply K|]. exists MINUS, i. split; [reflexivity|]. discriminate.
Qed.
Lemma int_near t : ity_ok t -> near false (int_codec t).
Proof.
  intros Ht. split; [apply int_dlaw|]. split; [|split; [|split]].
  - intros sn old s v r _ _ H. apply int_exact in H; [|exact Ht]. destruct H as [[-> _]|(z & l & Hl & -> & _)]; [now exists 110, (text "ull")|].
    destruct (jint_first _ _ Hl) as (a & q & -> & _). now exists a, q.
  - intros sn old r v q _ H. apply int_exact in H; [|exact Ht]. destruct H as [[E _]|(z & l & Hl & E & _)]; [now injection E as <-|].
    destruct (jint_first _ _ Hl) as (a & u & -> & N). injection E as <- _. congruence.
  - intros sn sn' old r r' v _ _ H. apply int_exact in H; [|exact Ht]. apply int_exact; [exact Ht|]. destruct H as [[E ->]|(z & l & Hl & E & _)]; [now left|].
    destruct (jint_first _ _ Hl) as (a & u & -> & N). injection E as <- _. congruence.
  - intros sn sn' old p y r r' v Hb Hr Hy H. apply int_exact in H; [|exact Ht]. apply int_exact; [exact Ht|]. specialize (Hy eq_refl).
    destruct H as [[E ->]|(z & l & Hl & E & He & Hs)]; [left|right]; apply app_inv_tail in E; subst p; [now split|]. exists z, l. split; [exact Hl|]. split; [reflexivity|]. split; [|exact Hs].
    destruct y; [easy|]. exact He.
Qed.
Lemma bool_near : near true bool_codec.
Proof.
  apply near_true; [exact bool_dlaw| | |].
  - intros sn old s v r _ _ H. apply bool_exact in H. destruct H as [[-> _]|[[-> _]|[-> _]]]; [exists 110, (text "ull")|exists 116, (text "rue")|exists 102, (text "alse")]; reflexivity.
  - intros sn old r v q _ H. apply bool_exact in H. destruct H as [[E _]|[[E _]|[E _]]]; [now injection E as <-|discriminate|discriminate].
  - apply loc_from. intros sn sn' old s r r' v _ _ H. apply bool_exact in H. destruct H as [[-> ->]|[[-> ->]|[-> ->]]]; eexists; (split; [reflexivity|]); apply bool_exact; auto.
Qed.
Lemma string_near : near true string_codec.
Proof.
  apply near_true; [exact string_dlaw| | |].
  - intros sn old s v r Hb Hd H. apply string_exact in H; [|exact Hb]. destruct H as [[-> _]|(l & -> & _)]; [now exists 110, (text "ull")|]. exists QT, (l ++ [QT]). now rewrite <- app_assoc.
  - intros sn old r v q Hb H. apply string_exact in H; [|now apply bytes_null]. destruct H as [[E _]|(l & E & _)]; [now injection E as <-|discriminate].
  - apply loc_from. intros sn sn' old s r r' v Hb Hr H. apply string_exact in H; [|exact Hb]. destruct H as [[-> ->]|(l & -> & Hl)].
    + tailed (text "null"). apply string_exact; [now apply bytes_null|]. now left.
    + tailed (QT :: l ++ [QT]). cbn [app]. rewrite <- app_assoc. apply string_exact; [|right; now exists l].
      change (QT :: l ++ QT :: r) with ((QT :: l) ++ [QT] ++ r) in Hb. change (QT :: l ++ [QT] ++ r') with ((QT :: l) ++ [QT] ++ r'). now apply swapped with r.
Qed.
Lemma chars_near N : near true (chars_codec N).
Proof.
  apply near_true; [apply chars_dlaw| | |].
  - intros sn old s v r Hb Hd H. apply chars_exact in H; [|exact Hb]. destruct H as [[-> _]|(l & w & -> & _)]; [now exists 110, (text "ull")|]. exists QT, (l ++ [QT]). now rewrite <- app_assoc.
  - intros sn old r v q Hb H. apply chars_exact in H; [|now apply bytes_null]. destruct H as [[E _]|(l & w & E & _)]; [now injection E as <-|discriminate].
  - apply loc_from. intros sn sn' old s r r' v Hb Hr H. apply chars_exact in H; [|exact Hb]. destruct H as [[-> ->]|(l & w & -> & Hl)].
    + tailed (text "null"). apply chars_exact; [now apply bytes_null|]. now left.
    + tailed (QT :: l ++ [QT]). cbn [app]. rewrite <- app_assoc. apply chars_exact; [|right; now exists l, w].
      change (QT :: l ++ QT :: r) with ((QT :: l) ++ [QT] ++ r) in Hb. change (QT :: l ++ [QT] ++ r') with ((QT :: l) ++ [QT] ++ r'). now apply swapped with r.
Qed.
Lemma enum_near mode L : near true (enum_codec mode L).
Proof.
  apply near_true; [apply enum_dlaw| | |].
  - intros sn old s v r Hb Hd H. apply enum_exact in H. destruct H as (g & n & _ & _ & -> & _). destruct g as [|a g]; [exists QT, (n ++ [QT]); now rewrite <- app_assoc|].
    exists a, (g ++ QT :: n ++ [QT]). rewrite <- !app_assoc. cbn [app]. now rewrite <- !app_assoc.
  - intros sn old r v q Hb H. apply enum_exact in H. destruct H as (g & n & Hg & _ & E & _). exfalso. destruct g as [|a g]; [discriminate|]. injection E as <- _. inversion Hg as [|? ? K _]. unfold low in K. lia.
  - apply loc_from. intros sn sn' old s r r' v Hb Hr H. apply enum_exact in H. destruct H as (g & n & H1 & H2 & -> & H3). exists (g ++ QT :: n ++ [QT]).
    rewrite <- !app_assoc. cbn [app]. rewrite <- !app_assoc. split; [reflexivity|]. apply enum_exact. exists g, n. auto.
Qed.
Lemma raw_near : near false raw_codec.
Proof.
  assert (KN : forall sn old r, bytes r -> reads raw_codec sn old (text "null" ++ r) (text "null") r).
  { intros sn old r Hb. apply raw_exact; [now apply bytes_null|]. split; [reflexivity|]. split; [constructor|]. intros N. exfalso. destruct (rnumber_head _ N) as (a & x & E & Ha). injection E as <- _. unfold s_digit in Ha. lia. }
  split; [exact raw_dlaw|]. split; [|split; [|split]].
  - intros sn old s v r Hb Hd H. apply raw_exact in H; [|exact Hb]. destruct H as (-> & Hv & _). destruct (wvalue_head _ Hv) as (a & t & -> & _). now exists a, t.
  - intros sn old r v q Hb H. pose proof (KN sn old r Hb) as K. unfold reads in H, K. rewrite H in K. now injection K.
  - intros sn sn' old r r' v Hb Hr H. pose proof (KN sn old r Hb) as K. unfold reads in H, K. rewrite H in K. injection K as ->. now apply KN.
  - intros sn sn' old p y r r' v Hb Hr Hy H. apply raw_exact in H; [|exact Hb]. destruct H as [E Hv]. apply raw_exact; [now apply swapped with r|]. apply app_inv_tail in E. subst v.
    split; [reflexivity|]. eapply waccept_swap; eauto.
Qed.
Lemma rquoted_near serq reqq : near reqq (rquoted_codec serq reqq).
Proof.
  destruct reqq.
  - apply near_true; [apply rquoted_dlaw| | |].
    + intros sn old s v r Hb Hd H. apply rquoted_exact in H; [|exact Hb]. destruct H as [-> _]. exists QT, (v ++ [QT]). now rewrite <- app_assoc.
    + intros sn old r v q Hb H. apply rquoted_exact in H; [|now apply bytes_null]. destruct H as [E _]. discriminate.
    + apply loc_from. intros sn sn' old s r r' v Hb Hr H. apply rquoted_exact in H; [|exact Hb]. destruct H as [-> Hv].
      tailed (QT :: v ++ [QT]). cbn [app]. rewrite <- app_assoc. apply rquoted_exact.
      * change (QT :: v ++ QT :: r) with ((QT :: v) ++ [QT] ++ r) in Hb. change (QT :: v ++ [QT] ++ r') with ((QT :: v) ++ [QT] ++ r'). now apply swapped with r.
      * split; [reflexivity|]. exact (waccept_swap r r' v [QT] ltac:(discriminate) Hv).
  - destruct raw_near as (_ & H2 & H3 & H3' & H4). assert (K : forall sn old s v r, bytes s -> reads (rquoted_codec serq false) sn old s v r <-> reads raw_codec sn old s v r).
    { intros sn old s v r Hb. rewrite rquoted_exact, raw_exact by exact Hb. reflexivity. }
    split; [apply rquoted_dlaw|]. split; [|split; [|split]].
    + intros sn old s v r Hb Hd H. apply K in H; [|exact Hb]. eapply H2; eassumption.
    + intros sn old r v q Hb H. apply K in H; [|now apply bytes_null]. eapply H3; eassumption.
    + intros sn sn' old r r' v Hb Hr H. apply K in H; [|now apply bytes_null]. apply K; [now apply bytes_null|]. eapply H3'; [exact Hb|exact Hr|exact H].
    + intros sn sn' old p y r r' v Hb Hr Hy H. apply K in H; [|exact Hb]. apply K; [now apply swapped with r|]. eapply H4; eassumption.
Qed.
Lemma size_near t metric : ity_ok t -> 1 <= metric <= imax i64 -> near false (size_codec t metric).
Proof.
  intros Ht Hm. assert (Hm' : irange i64 metric) by (unfold irange; cbn in *; lia). destruct (int_near t Ht) as (_ & I2 & I3 & I3' & I4). split; [apply size_dlaw|]. split; [|split; [|split]].
  - intros sn old s v r Hb Hd H. apply size_exact in H; [|assumption..]. destruct H as [H|(l & w & x & rest & z & q & -> & _)]; [eapply I2; eassumption|]. exists QT, (l ++ [QT]). now rewrite <- app_assoc.
  - intros sn old r v q Hb H. apply size_exact in H; [|assumption|now apply bytes_null|assumption]. destruct H as [H|(l & w & x & rest & z & q' & E & _)]; [eapply I3; eassumption|discriminate].
  - intros sn sn' old r r' v Hb Hr H. apply size_exact in H; [|assumption|now apply bytes_null|assumption]. apply size_exact; [assumption|now apply bytes_null|assumption|].
    destruct H as [H|(l & w & x & rest & z & q' & E & _)]; [left; eapply I3'; [exact Hb|exact Hr|exact H]|discriminate].
  - intros sn sn' old p y r r' v Hb Hr Hy H. apply size_exact in H; [|assumption..]. apply size_exact; [assumption|now apply swapped with r|assumption|].
    destruct H as [H|(l & w & x & rest & z & q & E & H1 & H2 & H3 & H4 & H5)]; [left; eapply I4; eassumption|right]. exists l, w, x, rest, z, q.
    change (QT :: l ++ QT :: y ++ r) with ((QT :: l) ++ [QT] ++ y ++ r) in E. rewrite (app_assoc (QT :: l)) in E. apply app_inv_tail in E. subst p. rewrite <- app_assoc. split; [reflexivity|].
    apply int_exact in H4; [|exact i64_ok]. rewrite int_exact by exact i64_ok. auto.
Qed.
Section Time.
  Context (t : ity) (fr : Z) (sn sn' : option Z) (y r r' : buf).
  Hypotheses (Ht : ity_ok t) (Hr : bytes r') (Hy : y <> []).
  Lemma int_step s cur (x p : buf) : bytes s -> x <> [] -> reads (int_codec t) sn 0 s cur (x ++ p ++ y ++ r) ->
    exists q, s = q ++ y ++ r /\ reads (int_codec t) sn' 0 (q ++ y ++ r') cur (x ++ p ++ y ++ r').
  Proof.
    intros Hb Hx H. destruct (int_near t Ht) as (D & _ & _ & _ & K). destruct (reads_suffix _ _ _ _ _ _ D H) as (q & ->). exists (q ++ x ++ p). rewrite <- !app_assoc. split; [reflexivity|].
    assert (E : forall z : buf, x ++ p ++ y ++ z = (x ++ p ++ y) ++ z) by (intros z; now rewrite <- !app_assoc). rewrite !E in *. eapply K; [exact Hb|exact Hr| |exact H]. intros _. now apply nonempty_l.
  Qed.
  Lemma int_bytes s cur (x s2 : buf) : bytes s -> reads (int_codec t) sn 0 s cur (x ++ s2) -> bytes s2.
  Proof. intros Hb H. destruct (reads_suffix (int_codec t) _ _ _ _ _ (int_dlaw t) H) as (q & ->). rewrite !bytes_app in Hb. tauto. Qed.
  Lemma parts_loc v s w : parts t fr sn v s w (y ++ r) -> bytes s -> exists p, p <> [] /\ s = p ++ y ++ r /\ parts t fr sn' v (p ++ y ++ r') w (y ++ r').
  Proof.
    assert (LI : forall s cur x q, reads (int_codec t) sn 0 s cur (x ++ q ++ y ++ r) -> bytes s -> x <> [] -> forall p, s = p ++ y ++ r -> p <> []).
    { intros s0 cur x q H Hb Hx p E ->. destruct (reads_suffix (int_codec t) _ _ _ _ _ (int_dlaw t) H) as (z & Ez). rewrite E in Ez. apply (f_equal (@length Z)) in Ez. rewrite !app_length in Ez. destruct x; [easy|]. cbn [length] in Ez. lia. }
    intros H. remember (y ++ r) as r0 eqn:Er in H.
    induction H as [v q|v s cur H|v s cur u k s2 v' w q H Hu Hp _ IH|v s cur s2 v' w q H N1 N2 Hp _ IH|v s cur s2 v' w q H Hp _ IH|v s cur c s2 v' w q H Hp _ IH|v s cur u s2 w q H N1 N2 _ IH]; intros Hb; subst.
    - exists [QT]. split; [discriminate|]. split; [reflexivity|]. apply pt_end.
    - exfalso. symmetry in Er. apply app_eq_nil in Er. easy.
    - destruct (IH eq_refl (int_bytes _ _ [u] _ Hb H)) as (p2 & P2 & -> & K). destruct (int_step s cur [u] p2 Hb ltac:(discriminate) H) as (p & Ep & K1). exists p. split; [eapply (LI s cur [u] p2); eauto; discriminate|]. split; [exact Ep|].
      eapply pt_unit; [exact K1|exact Hu|exact Hp|exact K].
    - destruct (IH eq_refl (int_bytes _ _ [109] _ Hb H)) as (p2 & P2 & -> & K). destruct (int_step s cur [109] p2 Hb ltac:(discriminate) H) as (p & Ep & K1). exists p. split; [eapply (LI s cur [109] p2); eauto; discriminate|]. split; [exact Ep|].
      eapply pt_min; [exact K1| | |exact Hp|exact K]; intros Z; [apply N1|apply N2]; exact (heads_swap _ p2 (y ++ r') (y ++ r) P2 Z).
    - destruct (IH eq_refl (int_bytes _ _ [109; 115] _ Hb H)) as (p2 & P2 & -> & K). destruct (int_step s cur [109; 115] p2 Hb ltac:(discriminate) H) as (p & Ep & K1). exists p. split; [eapply (LI s cur [109; 115] p2); eauto; discriminate|]. split; [exact Ep|].
      eapply pt_ms; [exact K1|exact Hp|exact K].
    - destruct (IH eq_refl (int_bytes _ _ [109; 107; c] _ Hb H)) as (p2 & P2 & -> & K). destruct (int_step s cur [109; 107; c] p2 Hb ltac:(discriminate) H) as (p & Ep & K1). exists p. split; [eapply (LI s cur [109; 107; c] p2); eauto; discriminate|]. split; [exact Ep|].
      eapply pt_mks; [exact K1|exact Hp|exact K].
    - destruct (IH eq_refl (int_bytes _ _ [u] _ Hb H)) as (p2 & P2 & -> & K). destruct (int_step s cur [u] p2 Hb ltac:(discriminate) H) as (p & Ep & K1). exists p. split; [eapply (LI s cur [u] p2); eauto; discriminate|]. split; [exact Ep|].
      eapply pt_other; [exact K1|exact N1|exact N2|exact K].
  Qed.
End Time.
Lemma parts_suffix t fr sn v s w r : parts t fr sn v s w r -> suffix r s.
Proof.
  assert (S1 : forall s cur x s2, reads (int_codec t) sn 0 s cur (x ++ s2) -> suffix s2 s).
  { intros s0 cur x s2 H. destruct (reads_suffix (int_codec t) _ _ _ _ _ (int_dlaw t) H) as (q & ->). exists (q ++ x). now rewrite <- app_assoc. }
  induction 1 as [v q|v s cur H|v s cur u k s2 v' w q H Hu Hp _ IH|v s cur s2 v' w q H N1 N2 Hp _ IH|v s cur s2 v' w q H Hp _ IH|v s cur c s2 v' w q H Hp _ IH|v s cur u s2 w q H N1 N2 _ IH].
  - now exists [QT].
  - apply suffix_nil.
  - eapply suffix_trans; [exact IH|exact (S1 _ _ [u] _ H)].
  - eapply suffix_trans; [exact IH|exact (S1 _ _ [109] _ H)].
  - eapply suffix_trans; [exact IH|exact (S1 _ _ [109; 115] _ H)].
  - eapply suffix_trans; [exact IH|exact (S1 _ _ [109; 107; c] _ H)].
  - eapply suffix_trans; [exact IH|exact (S1 _ _ [u] _ H)].
Qed.
Lemma time_near t fr : ity_ok t -> near false (time_codec t fr).
Proof.
  intros Ht. destruct (int_near t Ht) as (_ & I2 & I3 & I3' & I4). split; [apply time_dlaw|]. split; [|split; [|split]].
  - intros sn old s v r Hb Hd H. apply time_exact in H; [|exact Ht]. destruct H as [H|(x & -> & H)]; [eapply I2; eassumption|]. destruct (parts_suffix _ _ _ _ _ _ _ H) as (p & ->). now exists QT, p.
  - intros sn old r v q Hb H. apply time_exact in H; [|exact Ht]. destruct H as [H|(x & E & _)]; [eapply I3; eassumption|discriminate].
  - intros sn sn' old r r' v Hb Hr H. apply time_exact in H; [|exact Ht]. apply time_exact; [exact Ht|]. destruct H as [H|(x & E & _)]; [left; eapply I3'; [exact Hb|exact Hr|exact H]|discriminate].
  - intros sn sn' old p y r r' v Hb Hr Hy H. apply time_exact in H; [|exact Ht]. apply time_exact; [exact Ht|]. destruct H as [H|(x & E & H)]; [left; eapply I4; eassumption|right].
    rewrite E in Hb. inversion Hb as [|? ? _ Hb']; subst. destruct (parts_loc t fr sn sn' y r r' Ht Hr (Hy eq_refl) _ _ _ H Hb') as (q & _ & -> & K).
    change (QT :: q ++ y ++ r) with ((QT :: q) ++ y ++ r) in E. apply app_inv_tail in E. subst p. exists (q ++ y ++ r'). now split.
Qed.
Lemma seq_near {A C S} (k : container A C S) l r0 (c : codec A) d0 d : brackets l r0 -> dlaw (des c) -> loc d c -> near true (seq_codec k l r0 c d0).
Proof.
  intros HB HD HL. assert (Hl : l <> 110) by (unfold brackets in HB; lia). apply near_true; [now apply seq_dlaw| | |].
  - intros sn old s v r Hb Hd H. apply seq_exact in H; [|assumption..]. destruct H as [[-> _]|(t & xs & -> & H & _)]; [now exists 110, (text "ull")|].
    inversion Hb as [|? ? _ Hb']; subst. destruct (elements_loc r [] (fun s x r => reads c sn d0 s x r) (fun s x r => reads c sn d0 s x r) r0 t xs) as (p & _ & -> & _); [|exact H|exact Hb'|now exists l, p].
    apply (loc_item d); [assumption..|constructor].
  - intros sn old r v q Hb H. apply seq_exact in H; [|assumption..]. destruct H as [[E _]|(t & xs & E & _)]; [now injection E as <-|]. exfalso. injection E as E _. congruence.
  - apply loc_from. intros sn sn' old s r r' v Hb Hr H. apply seq_exact in H; [|assumption..]. destruct H as [[-> ->]|(t & xs & -> & H & ->)].
    + tailed (text "null"). apply seq_exact; [assumption..|]. now left.
    + inversion Hb as [|? ? _ Hb']; subst. destruct (elements_loc r r' (fun s x r => reads c sn d0 s x r) (fun s x r => reads c sn' d0 s x r) r0 t xs) as (p & _ & -> & K); [|exact H|exact Hb'|].
      * now apply (loc_item d).
      * exists (l :: p). split; [reflexivity|]. apply seq_exact; [assumption..|]. right. now exists (p ++ r'), xs.
Qed.
Lemma field_loc {K V} d d' (kc : codec K) (vc : codec V) : dlaw (des kc) -> dlaw (des vc) -> eats d' vc -> loc d kc -> loc d' vc -> loc d' (field_codec kc vc).
Proof.
  intros DK DV EV LK LV sn sn' [k0 v0] p y r r' [k v] Hb Hr Hy H. apply field_exact in H; [|assumption..]. apply field_exact; [assumption..|].
  destruct H as (s1 & s2 & s3 & H1 & G1 & G2 & N & H2). destruct (reads_suffix _ _ _ _ _ _ DK H1) as (p1 & E1). assert (Hb1 : bytes s1) by (rewrite E1 in Hb; now apply bytes_app in Hb).
  assert (Hb3 : bytes s3) by (apply (gap_bytes _ _ G2); pose proof (gap_bytes _ _ G1 Hb1) as K1; now inversion K1).
  destruct (EV _ _ _ _ _ Hb3 (or_intror N) H2) as (a & q & ->). assert (H2' : reads vc sn' v0 ((a :: q) ++ y ++ r') v (y ++ r')) by (eapply LV; eassumption).
  change (a :: q ++ y ++ r) with ((a :: q) ++ y ++ r) in *. rewrite (app_assoc (a :: q)) in G2.
  destruct (swap_gap r r' _ _ _ G2 eq_refl ltac:(discriminate)) as (p2 & P2 & -> & G2' & _). destruct (swap_next r r' _ _ _ G1) as (y1 & Y1 & -> & G1').
  assert (Ep : p ++ y = p1 ++ y1) by (rewrite !app_assoc in E1; now apply app_inv_tail in E1). rewrite (app_assoc p), Ep, <- app_assoc.
  assert (Hb' : bytes (p1 ++ y1 ++ r)) by now rewrite <- E1. rewrite E1 in H1.
  exists (y1 ++ r'), (p2 ++ r'), ((a :: q) ++ y ++ r'). split; [eapply LK; eauto|]. split; [exact G1'|]. rewrite <- app_assoc in G2'. split; [exact G2'|]. split; [discriminate|exact H2'].
Qed.
Lemma fix_near {A} fresh ex Lb R (item : codec A) d N : brackets Lb R -> near d item -> near true (vec_codec (mkcodec (seq_ser Lb R (ser item)) (fix_des fresh ex Lb R item)) N).
Proof.
  intros HB (HD & HE & HN & HN' & HL). assert (Hl : Lb <> 110) by (unfold brackets in HB; lia).
  assert (V : forall sn old s v r, reads (vec_codec (mkcodec (seq_ser Lb R (ser item)) (fix_des fresh ex Lb R item)) N) sn old s v r <->
    exists l, fix_des fresh ex Lb R item sn (vlist old) s C0 = Ok (l, r, C0) /\ v = vfill old l).
  { intros sn old s v r. unfold reads. cbn [des vec_codec]. fold C0. destruct (fix_des fresh ex Lb R item sn (vlist old) s C0) as [[[l r1] e1]| |]; cbn [bind].
    - split; [intros H; injection H as <- <- ->; now exists l|]. intros (l' & H & ->). now injection H as <- <- ->.
    - split; [discriminate|]. intros (l' & H & _). discriminate.
    - split; [discriminate|]. intros (l' & H & _). discriminate. }
  apply near_true; [now apply vec_dlaw, fix_dlaw| | |].
  - intros sn old s v r Hb Hd H. apply V in H. destruct H as (l & H & _). apply fix_exact in H; [|assumption..]. destruct H as [[-> _]|(t & -> & H)]; [now exists 110, (text "ull")|].
    inversion Hb as [|? ? _ Hb']; subst. eapply (slots_loc r []) in H; [|intros x; apply (loc_item d item sn sn); [assumption..|constructor]|exact Hb']. destruct H as (p & _ & -> & _). now exists Lb, p.
  - intros sn old r v q Hb H. apply V in H. destruct H as (l & H & _). apply fix_exact in H; [|assumption..]. destruct H as [[E _]|(t & E & H)]; [now injection E as <-|].
    exfalso. injection E as E _. congruence.
  - apply loc_from. intros sn sn' old s r r' v Hb Hr H. apply V in H. destruct H as (l & H & ->). apply fix_exact in H; [|assumption..]. destruct H as [[-> H]|(t & -> & H)].
    + tailed (text "null"). apply V. exists l. split; [|reflexivity]. apply fix_exact; [assumption..|]. left. split; [reflexivity|]. revert H. apply Forall2_impl. intros x z (q & Hq). exists r'.
      assert (Hb0 : bytes r) by now apply bytes_app in Hb. rewrite (HN _ _ _ _ _ Hb0 Hq) in Hq. eapply HN'; [exact Hb0|exact Hr|exact Hq].
    + inversion Hb as [|? ? _ Hb']; subst. eapply (slots_loc r r') in H; [|intros x; apply (loc_item d item sn sn'); assumption|exact Hb']. destruct H as (p & _ & -> & K).
      exists (Lb :: p). split; [reflexivity|]. apply V. exists l. split; [|reflexivity]. apply fix_exact; [assumption..|]. right. now exists (p ++ r').
Qed.
Lemma object_near {T} mode (L : list (memb T)) t0 (d : memb T -> bool) : Forall no_if L -> Forall plain_name (names L) ->
  (forall b, In b L -> near (d b) (m_codec (memb_mem b))) -> near true (object_codec mode L t0).
Proof.
  intros HI HP HN. assert (HD : Forall (memb_all (fun _ c => dlaw (des c))) L).
  { rewrite Forall_forall in *. intros b Hb. destruct (HN b Hb) as (D & _). specialize (HI b Hb). destruct b; [exact D|exact D|destruct HI]. }
  assert (IL : forall r r' sn sn' b t, bytes r' -> In b L ->
    item_loc r r' (fun s x q => reads (m_codec (memb_mem b)) sn (memb_old b t) s x q) (fun s x q => reads (m_codec (memb_mem b)) sn' (memb_old b t) s x q)).
  { intros r r' sn sn' b t Hr Hb. destruct (HN b Hb) as (D & _ & _ & _ & K). now apply (loc_item (d b)). }
  apply near_true.
  - now apply object_dlaw.
  - intros sn old s v r Hb Hd H. apply object_exact in H; [|assumption..]. destruct H as [[-> _]|[(t & -> & (g & -> & _) & _)|[(t & -> & (g & -> & _) & _)|(t & s1 & -> & G & H)]]].
    + now exists 110, (text "ull").
    + exists LCB, (g ++ [RCB]). now rewrite <- app_assoc.
    + exists LBR, (g ++ [RBR]). now rewrite <- app_assoc.
    + inversion Hb as [|? ? _ Hb']; subst. apply (members_loc r [] mode L sn sn) in H; [|intros b u Hu; apply IL; [constructor|exact Hu]|intros b; auto|now apply (gap_bytes _ _ G)].
      destruct H as (p & _ & -> & _). destruct G as (g & -> & _). exists LCB, (g ++ p). now rewrite <- app_assoc.
  - intros sn old r v q Hb H. apply object_exact in H; [|try assumption; now apply bytes_null..]. destruct H as [[E _]|[(t & E & _)|[(t & E & _)|(t & s1 & E & _)]]]; [now injection E as <-|discriminate..].
  - apply loc_from. intros sn sn' old s r r' v Hb Hr H. apply object_exact in H; [|assumption..].
    assert (K : exists p, s = p ++ r /\ (p ++ r' = text "null" ++ r' /\ v = t0 \/ (exists t, p ++ r' = LCB :: t /\ after_gap t (RCB :: r') /\ v = old) \/
      (exists t, p ++ r' = LBR :: t /\ after_gap t (RBR :: r') /\ v = old) \/ exists t s1, p ++ r' = LCB :: t /\ after_gap t s1 /\ members mode L sn' L old s1 v r')).
    { destruct H as [[-> ->]|[(t & -> & G & ->)|[(t & -> & G & ->)|(t & s1 & -> & G & H)]]].
      - exists (text "null"). split; [reflexivity|]. now left.
      - destruct (swap_next r r' _ RCB [] G) as (y & _ & -> & G'). exists (LCB :: y). split; [reflexivity|]. right. left. now exists (y ++ r').
      - destruct (swap_next r r' _ RBR [] G) as (y & _ & -> & G'). exists (LBR :: y). split; [reflexivity|]. right. right. left. now exists (y ++ r').
      - inversion Hb as [|? ? _ Hb']; subst. apply (members_loc r r' mode L sn sn') in H; [|intros b u Hu; now apply IL|intros b; auto|now apply (gap_bytes _ _ G)].
        destruct H as (p & P & E & K). destruct (swap_gap r r' _ _ p G E P) as (q & _ & -> & G' & _). exists (LCB :: q). split; [reflexivity|]. right. right. right. now exists (q ++ r'), (p ++ r'). }
    destruct K as (p & -> & K). exists p. split; [reflexivity|]. apply object_exact; [assumption..| |exact K]. rewrite bytes_app in *. tauto.
Qed.
Lemma oarray_near {T} (L : list (memb T)) t0 (d : memb T -> bool) : Forall no_if L ->
  (forall b, In b L -> near (d b) (m_codec (memb_mem b))) -> near true (oarray_codec L t0).
Proof.
  intros HI HN. assert (HD : Forall (memb_all (fun _ c => dlaw (des c))) L).
  { rewrite Forall_forall in *. intros b Hb. destruct (HN b Hb) as (D & _). specialize (HI b Hb). destruct b; [exact D|exact D|destruct HI]. }
  assert (IL : forall r r' sn sn' b t, bytes r' -> In b L ->
    item_loc r r' (fun s x q => reads (m_codec (memb_mem b)) sn (memb_old b t) s x q) (fun s x q => reads (m_codec (memb_mem b)) sn' (memb_old b t) s x q)).
  { intros r r' sn sn' b t Hr Hb. destruct (HN b Hb) as (D & _ & _ & _ & K). now apply (loc_item (d b)). }
  apply near_true.
  - now apply oarray_dlaw.
  - intros sn old s v r Hb Hd H. apply oarray_exact in H; [|assumption..]. destruct H as [[-> _]|[(t & -> & (g & -> & _) & _)|(t & s1 & -> & G & _ & _ & H)]].
    + now exists 110, (text "ull").
    + exists LBR, (g ++ [RBR]). now rewrite <- app_assoc.
    + inversion Hb as [|? ? _ Hb']; subst. apply (places_loc r [] L sn sn) in H; [|intros b u Hu; apply IL; [constructor|exact Hu]|intros b; auto|now apply (gap_bytes _ _ G)].
      destruct H as (p & _ & -> & _). destruct G as (g & -> & _). exists LBR, (g ++ p). now rewrite <- app_assoc.
  - intros sn old r v q Hb H. apply oarray_exact in H; [|assumption..]. destruct H as [[E _]|[(t & E & _)|(t & s1 & E & _)]]; [now injection E as <-|discriminate..].
  - apply loc_from. intros sn sn' old s r r' v Hb Hr H. apply oarray_exact in H; [|assumption..].
    destruct H as [[-> ->]|[(t & -> & G & ->)|(t & s1 & -> & G & N1 & N2 & H)]].
    + tailed (text "null"). apply oarray_exact; [assumption..|]. now left.
    + destruct (swap_next r r' _ RBR [] G) as (y & _ & -> & G'). exists (LBR :: y). split; [reflexivity|]. apply oarray_exact; [assumption..|]. right. left. now exists (y ++ r').
    + inversion Hb as [|? ? _ Hb']; subst. apply (places_loc r r' L sn sn') in H; [|intros b u Hu; now apply IL|intros b; auto|now apply (gap_bytes _ _ G)].
      destruct H as (p & P & E & K). destruct (swap_gap r r' _ _ p G E P) as (q & _ & -> & G' & GH). exists (LBR :: q). split; [reflexivity|]. apply oarray_exact; [assumption..|]. right. right.
      exists (q ++ r'), (p ++ r'). split; [reflexivity|]. split; [exact G'|]. split; [auto|]. split; [now apply nonempty_l|exact K].
Qed.
Lemma member_value_near d {T A} (get : T -> A) set (c : codec A) : near d c -> near d (member_value_codec get set c).
Proof.
  intros (H1 & H2 & H3 & H4 & H5). split; [now apply member_value_dlaw|]. split; [|split; [|split]].
  - intros sn old s v r Hb Hd H. apply member_value_exact in H. destruct H as (x & H & _). eapply H2; eassumption.
  - intros sn old r v q Hb H. apply member_value_exact in H. destruct H as (x & H & _). eapply H3; eassumption.
  - intros sn sn' old r r' v Hb Hr H. apply member_value_exact in H. destruct H as (x & H & ->). apply member_value_exact. exists x. split; [|reflexivity]. eapply H4; [exact Hb|exact Hr|exact H].
  - intros sn sn' old p y r r' v Hb Hr Hy H. apply member_value_exact in H. destruct H as (x & H & ->). apply member_value_exact. exists x. split; [|reflexivity]. eapply H5; eassumption.
Qed.
Lemma quoted_near A (c : codec A) serq : dlaw (des c) -> near true (quoted_codec c serq true).
Proof.
  intros HD. destruct string_near as (_ & S2 & S3 & S4 & S5). apply near_true; [now apply quoted_dlaw| | |].
  - intros sn old s v r Hb Hd H. apply quoted_exact in H; [|exact HD]. destruct H as [(_ & b & r' & H & _)|(H & _)]; [|discriminate]. eapply S2; eassumption.
  - intros sn old r v q Hb H. apply quoted_exact in H; [|exact HD]. destruct H as [(_ & b & r' & H & _)|(H & _)]; [|discriminate]. eapply S3; eassumption.
  - intros sn sn' old p y r r' v Hb Hr Hy H. apply quoted_exact in H; [|exact HD]. destruct H as [(_ & b & q & H & K)|(H & _)]; [|discriminate]. apply quoted_exact; [exact HD|]. left.
    split; [now left|]. exists b, q. split; [|exact K]. eapply S5; eassumption.
Qed.
Lemma maybe_quoted_near d A (c : codec A) serq : near d c -> near d (quoted_codec c serq false).
Proof.
  intros (H1 & H2 & H3 & H4 & H5). destruct string_near as (_ & S2 & S3 & S4 & S5). split; [now apply quoted_dlaw|]. split; [|split; [|split]].
  - intros sn old s v r Hb Hd H. apply quoted_exact in H; [|exact H1]. destruct H as [(_ & b & r' & H & _)|(_ & _ & H)]; [exact (S2 _ _ _ _ _ Hb (or_introl eq_refl) H)|eapply H2; eassumption].
  - intros sn old r v q Hb H. apply quoted_exact in H; [|exact H1]. destruct H as [(_ & b & r' & H & _)|(_ & _ & H)]; [eapply S3; eassumption|eapply H3; eassumption].
  - intros sn sn' old r r' v Hb Hr H. apply quoted_exact in H; [|exact H1]. apply quoted_exact; [exact H1|]. destruct H as [([H|(t & H)] & _)|(_ & _ & H)]; [discriminate|discriminate|]. right.
    split; [reflexivity|]. split; [intros (t & E); discriminate|]. eapply H4; [exact Hb|exact Hr|exact H].
  - intros sn sn' old p y r r' v Hb Hr Hy H. apply quoted_exact in H; [|exact H1]. apply quoted_exact; [exact H1|].
    assert (Hp : p ++ y <> []). { destruct d; [|now apply nonempty_r, Hy]. apply nonempty_l. intros ->.
      destruct H as [(_ & b & q & H & _)|(_ & _ & H)]; [destruct (S2 _ _ _ _ _ Hb (or_introl eq_refl) H) as (a & z & E)|destruct (H2 _ _ _ _ _ Hb (or_introl eq_refl) H) as (a & z & E)];
      apply (f_equal (@length Z)) in E; cbn [app length] in E; rewrite !app_length in E; lia. }
    destruct H as [([H|H] & b & q & K1 & K2)|(_ & N & H)]; [discriminate|left|right].
    + rewrite app_assoc in *. split; [right; eapply heads_swap; eassumption|]. exists b, q. split; [|exact K2]. rewrite <- app_assoc in *. eapply S5; [exact Hb|exact Hr|discriminate|exact K1].
    + split; [reflexivity|]. split; [|eapply H5; eassumption]. rewrite app_assoc in *. intros K. apply N. eapply heads_swap; eassumption.
Qed.
Lemma ptr_near d A (c : codec A) d0 : near d c -> near false (ptr_codec c d0).
Proof.
  intros (H1 & H2 & H3 & H4 & H5). split; [now apply ptr_dlaw|]. split; [|split; [|split]].
  - intros sn old s v r Hb [Hd|Hd] H; [discriminate|]. apply ptr_exact in H. destruct H as [([->|(t & ->)] & _ & ->)|(x & _ & _ & _ & H)]; [easy| |].
    + exists 110, (firstn 3 t). cbn [skipn]. now rewrite firstn_skipn.
    + eapply H2; [exact Hb|now right|exact H].
  - intros sn old r v q Hb H. apply ptr_exact in H. destruct H as [(_ & _ & ->)|(x & _ & _ & N & _)]; [reflexivity|]. exfalso. apply N. now exists (text "ull" ++ r).
  - intros sn sn' old r r' v Hb Hr H. apply ptr_exact in H. apply ptr_exact. destruct H as [(_ & -> & _)|(x & _ & _ & N & _)]; [|exfalso; apply N; now exists (text "ull" ++ r)].
    left. split; [right; now exists (text "ull" ++ r')|]. now split.
  - intros sn sn' old p y r r' v Hb Hr Hy H. specialize (Hy eq_refl). apply ptr_exact in H. apply ptr_exact. destruct H as [([E|H] & -> & E4)|(x & -> & N1 & N2 & H)].
    + exfalso. apply app_eq_nil in E. destruct E as [_ E]. now destruct y.
    + left. assert (Lp : length p = 4%nat). { apply (f_equal (@length Z)) in E4. rewrite skipn_length, !app_length in E4. destruct y as [|a y]; [easy|]. cbn [length] in E4. lia. }
      split; [right; rewrite app_assoc in *; eapply heads_swap; [now apply nonempty_r|exact H]|]. split; [reflexivity|]. rewrite skipn_app, Lp, skipn_all2 by lia. reflexivity.
    + right. exists x. split; [reflexivity|]. split; [now apply nonempty_r, nonempty_l|]. split; [|eapply H5; eauto]. rewrite app_assoc in *. intros K. apply N2. eapply heads_swap; [now apply nonempty_r|exact K].
Qed.
Theorem tight_near d A (c : codec A) : tight d A c -> near d c.
Proof.
  induction 1 as [t Ht| | |N|mode L| | |serq reqq|t metric Ht Hm|t fr Ht|d A C S k l r c d0 HB _ IH|d d' K V C S k l r kc vc d0 HB _ IH1 _ IH2|d A c d0 N _ IH|d A c N _ IH|T mode L t0 d HI HP _ IH|T L t0 d HI _ IH|d T A get set c _ IH|A c serq HD|d A c serq _ IH|d A c d0 _ IH].
  - now apply int_near.
  - exact bool_near.
  - exact string_near.
  - apply chars_near.
  - apply enum_near.
  - exact raw_near.
  - exact raw_near.
  - apply rquoted_near.
  - now apply size_near.
  - now apply time_near.
  - destruct IH as (D & _ & _ & _ & K). now apply seq_near with d.
  - destruct IH1 as (D1 & _ & _ & _ & K1). destruct IH2 as (D2 & E2 & _ & _ & K2). apply seq_near with d'; [exact HB|now apply field_dlaw|now apply field_loc with d].
  - apply (fix_near (Some d0) [] LBR RBR c d N); [now left|exact IH].
  - apply (fix_near None [COMMA] LBR RBR c d N); [now left|exact IH].
  - now apply object_near with d.
  - now apply oarray_near with d.
  - now apply member_value_near.
  - apply quoted_near. now apply desc_dlaw.
  - now apply maybe_quoted_near.
  - now apply ptr_near with d.
Qed.
