(** C68: the value read belongs to the target's type.  C69: reading and writing
    whatever text once gives a text that reads back as the same value. *)
From Verif Require Import Base Parser SpecJson SpecNum SpecSeq SpecString ParserFacts Out Number StringS Array Unord Object ObjectArray Enum SpecEnum Wrap TimeSize Float
  CodecLaws NumberProofs ArrayProofs Desc DescProofs SpecType TypeProofs Misc Properties_Seq Properties_Object Properties_Desc.

(** C68 *)
Theorem C68_typed : forall A (c : codec A) P, tdesc A c P -> forall sn old s e v r x,
  bytes s -> P old -> des c sn old s e = Ok (v, r, x) -> P v.
Proof.
  intros A c P Hc sn old s e v r x Hs Ho E. pose proof (tdesc_typed A c P Hc sn old s e Ho Hs) as K. rewrite E in K. apply K.
Qed.
Print Assumptions C68_typed.
(** in particular an error leaves a value of the type behind, and so does every
    sequence of calls on the same target *)
Fixpoint reads {A} (c : codec A) (old : A) (l : list (option Z * buf * eptr)) : res A :=
  match l with
  | [] => Ok old
  | (sn, s, e) :: t => let* (v, _, _) := des c sn old s e in reads c v t
  end.
Theorem C68_history : forall A (c : codec A) P, tdesc A c P -> forall l old v,
  Forall (fun x => bytes (snd (fst x))) l -> P old -> reads c old l = Ok v -> P v.
Proof.
  intros A c P Hc. induction l as [|[[sn s] e] l IH]; intros old v Hl Ho E; cbn [reads] in E; [congruence|].
  inversion Hl as [|? ? Hs Hl']; subst. cbn [fst snd] in Hs. destruct (des c sn old s e) as [[[w r] x]| |] eqn:Ed; cbn [bind] in E; try discriminate.
  eapply IH; [exact Hl'| |exact E]. exact (C68_typed A c P Hc _ _ _ _ _ _ _ Hs Ho Ed).
Qed.
Print Assumptions C68_history.

(** the type of Properties_Desc.bar *)
Definition foo_ty (v : foo) : Prop := irange i32 (fa v) /\ irange i32 (fb v) /\ bytes (fs v).
Definition bar_ty (v : bar) : Prop :=
  (Forall (fun p => bytes (fst p) /\ Forall (opt_dom (irange i16)) (snd p)) (bm v) /\ sorted_lt (klt str_lt) (bm v)) /\
  (be v = 0 \/ In (be v) [1; 2]) /\ foo_ty (bq v).
Lemma foo_tdesc mode : tdesc foo (foo_codec mode) foo_ty.
Proof.
  apply (td_object foo mode Lfoo foo0 foo_ty (fun m x => forall t, foo_ty t -> foo_ty (m_set m t x))).
  - repeat split; vm_compute; try discriminate; constructor.
  - intros b m [<-|[<-|[<-|[]]]] [<-|[]]; cbn.
    + apply td_iff with (irange i32); [apply td_int, i32_ok|]. intros v. unfold foo_ty. cbn. split; [intuition|].
      intros H. apply (H foo0). repeat split; vm_compute; try discriminate; constructor.
    + apply td_iff with (irange i32); [apply td_int, i32_ok|]. intros v. unfold foo_ty. cbn. split; [intuition|].
      intros H. apply (H foo0). repeat split; vm_compute; try discriminate; constructor.
    + apply td_iff with bytes; [apply td_string|]. intros v. unfold foo_ty. cbn. split; [intuition|].
      intros H. apply (H foo0). repeat split; vm_compute; try discriminate; constructor.
  - intros b m t [<-|[<-|[<-|[]]]] [<-|[]] H; unfold foo_ty in *; cbn; intuition.
  - auto.
  - constructor; [exact I|]. constructor; [exact I|]. constructor; [|constructor]. intros t (A & B & _). split; [exact A|]. split; [exact B|constructor].
Qed.
Theorem C68_bar : tdesc bar bar_codec bar_ty.
Proof.
  assert (F0 : foo_ty foo0) by (repeat split; vm_compute; try discriminate; constructor).
  assert (B0 : bar_ty (mkbar [] 0 foo0)).
  { split; [|split; [now left|exact F0]]. split; [constructor|]. intros i j x y _ H. destruct i; discriminate. }
  apply (td_object bar Nonstrict Lbar (mkbar [] 0 foo0) bar_ty (fun m x => forall t, bar_ty t -> bar_ty (m_set m t x))).
  - exact B0.
  - intros b m [<-|[<-|[<-|[]]]] [<-|[]]; cbn.
    + eapply td_iff.
      * apply (td_map _ _ str_lt string_codec _ ([], []) bytes (Forall (opt_dom (irange i16))));
          [exact str_lt_swo|apply td_string| |constructor|constructor].
        apply (td_vector _ _ None (opt_dom (irange i16))); [|exact I]. apply (td_pointer _ _ 0); [apply td_int, i16_ok|vm_compute; intuition discriminate].
      * intros v. unfold bar_ty. cbn. split; [tauto|]. intros H. now destruct (H _ B0).
    + apply td_iff with (fun v => v = 0 \/ In v (evals colors)); [apply td_enum|]. intros v. unfold bar_ty. cbn. split; [tauto|]. intros H. now destruct (H _ B0) as (_ & H1 & _).
    + apply td_iff with foo_ty; [apply td_quoted, foo_tdesc|]. intros v. unfold bar_ty. cbn [bm be bq]. split; [tauto|]. intros H. now destruct (H _ B0).
  - intros b m t [<-|[<-|[<-|[]]]] [<-|[]] H u Hu; unfold bar_ty in *; cbn; tauto.
  - auto.
  - repeat constructor.
Qed.
Print Assumptions C68_bar.
(** out-of-range numbers wrap, duplicate keys collapse, a bad enumerator gives 0 *)
Example C68_ex : des bar_codec None (mkbar [] 1 foo0) (jt "{'m':{'y':[70000],'x':[],'y':[2]},'e':'blue'}") clean =
  Ok (mkbar [(text "x", []); (text "y", [Some 4464])] 0 foo0, [], Some (mkerr InvalidEnum None 6)).
Proof. exq. Qed.
(** [P old] is needed: reading {} keeps the target *)
Example C68_ex_old : des bar_codec None (mkbar [] 99 foo0) (text "{}") clean = Ok (mkbar [] 99 foo0, [], clean) /\ ~ bar_ty (mkbar [] 99 foo0).
Proof. split; [exq|]. intros (_ & [H|[H|[H|[]]]] & _); discriminate. Qed.

(** C69 *)
Theorem C69_stable : forall A (c : codec A) P, tdesc A c P -> rdesc A c P -> forall sn old s e v r x,
  bytes s -> P old -> des c sn old s e = Ok (v, r, x) ->
  exists ops, ser c v = Ok ops /\ forall sn' old' r' e', follow r' -> e' = None \/ e' = clean ->
    des c sn' old' (flat ops ++ r') e' = Ok (v, r', e').
Proof.
  intros A c P Ht Hr sn old s e v r x Hs Ho E.
  exact (C64_all_roundtrip A c P Hr v (C68_typed A c P Ht _ _ _ _ _ _ _ Hs Ho E)).
Qed.
Print Assumptions C69_stable.
(** so the written text is reproduced by reading and writing it again *)
Theorem C69_fixpoint : forall A (c : codec A) P, tdesc A c P -> rdesc A c P -> forall sn old s e v r x ops,
  bytes s -> P old -> des c sn old s e = Ok (v, r, x) -> ser c v = Ok ops ->
  forall sn' old', exists v', des c sn' old' (flat ops) clean = Ok (v', [], clean) /\ exists ops', ser c v' = Ok ops' /\ flat ops' = flat ops.
Proof.
  intros A c P Ht Hr sn old s e v r x ops Hs Ho E Es sn' old'.
  destruct (C69_stable A c P Ht Hr _ _ _ _ _ _ _ Hs Ho E) as (ops1 & E1 & H). assert (ops1 = ops) by congruence. subst ops1.
  exists v. split; [|now exists ops]. specialize (H sn' old' [] clean I (or_intror eq_refl)). now rewrite app_nil_r in H.
Qed.
Print Assumptions C69_fixpoint.
(** and it is JSON if every value of the type has a JSON output *)
Theorem C69_json : forall A (c : codec A) P, tdesc A c P -> jdesc A c P -> forall sn old s e v r x,
  bytes s -> P old -> des c sn old s e = Ok (v, r, x) -> exists ops, ser c v = Ok ops /\ rvalue (flat ops).
Proof.
  intros A c P Ht Hj sn old s e v r x Hs Ho E.
  exact (jdesc_jout A c P Hj v (C68_typed A c P Ht _ _ _ _ _ _ _ Hs Ho E)).
Qed.
Print Assumptions C69_json.
(** every integer type, wide signed ones included: both predicates hold for the values that can be read *)
Theorem C69_integers : forall t, ity_ok t -> let P := fun v => irange t v /\ (isize t < 4 \/ isigned t = false \/ v <> imin t) in
  P 0 /\ tdesc _ (int_codec t) P /\ rdesc _ (int_codec t) P /\ jdesc _ (int_codec t) P.
Proof.
  intros t Ht P. split; [|split; [now apply td_int_kept|split]].
  - split; [now apply irange0|]. destruct (isigned t) eqn:Sg; [|now right; left]. right; right. unfold imin. rewrite Sg. pose proof (half_cases t Ht). lia.
  - apply rd_sub with (int_dom t); [now apply rd_int|]. intros v [H1 H2]. split; [exact H1|]. unfold wraps. tauto.
  - apply jd_sub with (irange t); [now apply jd_int|]. now intros v [H _].
Qed.
Print Assumptions C69_integers.
(** strings: a control character does not come back (C91 says what does) *)
Theorem C69_string_refuted : exists s v ops, bytes s /\ (forall sn old, des string_codec sn old s clean = Ok (v, [], clean)) /\ ser string_codec v = Ok ops /\
  forall sn old, des string_codec sn old (flat ops) clean <> Ok (v, [], clean).
Proof.
  exists [34; 1; 34], [1]. eexists. split; [unfold bytes; repeat (apply Forall_cons; [lia|]); apply Forall_nil|]. split; [intros; exq|]. split; [exq|]. intros sn old. vm_compute. discriminate.
Qed.
Print Assumptions C69_string_refuted.
Example C69_ex_wide : exists ops, des (vector_codec (int_codec i32) 0) None [] (text "[ 2147483647 ,-2147483647, null ] ") clean = Ok ([2147483647; -2147483647; 0], text " ", clean) /\
  ser (vector_codec (int_codec i32) 0) [2147483647; -2147483647; 0] = Ok ops /\ flat ops = text "[2147483647,-2147483647,0]" /\
  des (vector_codec (int_codec i32) 0) None [] (flat ops) clean = Ok ([2147483647; -2147483647; 0], [], clean).
Proof. eexists. split; [exq|]. split; [exq|]. split; exq. Qed.
Definition nsc := vector_codec (set_codec Z.ltb (int_codec i16) 0) [].
Definition nsc_ty (v : list (list Z)) : Prop := Forall (fun l => Forall (irange i16) l /\ sorted_lt Z.ltb l) v.
Example C69_ex : tdesc _ nsc nsc_ty /\ rdesc _ nsc nsc_ty /\ jdesc _ nsc nsc_ty /\
  exists ops, des nsc None [] (text "[ [3, 1,70000 ,1],null]x") clean = Ok ([[1; 3; 4464]; []], text "x", clean) /\
    ser nsc [[1; 3; 4464]; []] = Ok ops /\ flat ops = text "[[1,3,4464],[]]".
Proof.
  assert (W : swo Z.ltb) by (split; intros; lia). split; [|split; [|split]].
  - apply (td_vector _ _ [] (fun l => Forall (irange i16) l /\ sorted_lt Z.ltb l)).
    + apply td_set; [exact W|apply td_int, i16_ok|vm_compute; intuition discriminate].
    + split; [constructor|]. intros i j x y _ H. destruct i; discriminate.
  - apply (rd_vector _ _ [] (fun l => Forall (irange i16) l /\ sorted_lt Z.ltb l)). apply rd_set; [exact W|].
    apply rd_sub with (int_dom i16); [apply rd_int, i16_ok|]. intros v Hv. split; [exact Hv|]. left. left. reflexivity.
  - apply jd_sub with (Forall (Forall (irange i16))); [apply jd_vector, jd_set, jd_int, i16_ok|].
    intros v. apply Forall_impl. now intros l [H _].
  - eexists. split; [exq|]. split; exq.
Qed.
(** an object: foo without its string survives too *)
Record pt := mkpt { px : Z; py : option bool }.
Definition pxm : mem pt := mkmem (text "x") px (fun t x => mkpt x (py t)) (int_codec i16).
Definition pym : mem pt := mkmem (text "y") py (fun t y => mkpt (px t) y) (ptr_codec bool_codec false).
Definition ptc := object_codec Nonstrict [MRef pxm; MRef pym] (mkpt 0 None).
Example C69_ex_object : tdesc _ ptc (fun v => irange i16 (px v)) /\ rdesc _ ptc (fun v => irange i16 (px v)) /\
  exists ops, des ptc None (mkpt 5 None) (jt "{ 'z':[1], 'y' : true, 'x':-70000 } ") clean = Ok (mkpt (-4464) (Some true), text " ", clean) /\
    ser ptc (mkpt (-4464) (Some true)) = Ok ops /\ flat ops = jt "{'x':-4464,'y':true}".
Proof.
  set (dm := fun (m : mem pt) (x : m_ty m) => exists v, m_get m v = x /\ irange i16 (px v)).
  assert (Ri : forall v, irange i16 v <-> dm pxm v) by (intros v; split; [intros H; now exists (mkpt v None)|intros (w & <- & H); exact H]).
  assert (Rb : forall v, dm pym v) by (intros v; exists (mkpt 0 v); split; [reflexivity|vm_compute; intuition discriminate]).
  split; [|split].
  - apply (td_object _ _ _ _ (fun v => irange i16 (px v)) dm).
    + vm_compute; intuition discriminate.
    + intros b m [<-|[<-|[]]] [<-|[]].
      * apply td_iff with (irange i16); [apply td_int, i16_ok|exact Ri].
      * apply (td_iff _ _ (fun o => match o with Some _ => True | None => True end)); [apply (td_pointer _ _ false (fun _ => True)); [apply td_bool|exact I]|].
        intros v. split; [intros _; apply Rb|now destruct v].
    + intros b m t [<-|[<-|[]]] [<-|[]] H; now exists t.
    + intros b m t x [<-|[<-|[]]] [<-|[]] H Hx; [now apply Ri in Hx|exact H].
    + repeat constructor.
  - apply rd_sub with (fun v => Forall (memb_rin dm v) [MRef pxm; MRef pym]).
    + apply rd_object; [intros [? ?] [? ?]; reflexivity|repeat constructor|repeat constructor| |].
      * intros b [<-|[<-|[]]]; repeat constructor; cbn; discriminate.
      * intros b m [<-|[<-|[]]] [<-|[]].
        -- apply rd_sub with (int_dom i16); [apply rd_int, i16_ok|]. intros v Hv. apply Ri in Hv. split; [exact Hv|]. left. left. reflexivity.
        -- eapply rd_sub; [apply (rd_pointer _ _ false), rd_bool|]. intros [v|] _; [|exact I]. split; [exact I|].
           intros txt (ops & E & <-) (z & Z). cbn in E. destruct v; cbn in E; assert (X : flat ops = 110 :: z) by exact Z; injection E as <-; discriminate X.
    + intros v Hv. repeat constructor; try (now exists v).
  - eexists. split; [exq|]. split; exq.
Qed.
