From Verif Require Import Base Parser SpecJson ParserFacts Grammar1 Grammar2 Out CodecLaws SpecSeq Array ArrayProofs
  Object SpecObject ObjectProofs ObjectArray ObjectArrayProofs Number StringS SpecString StringProofs Wrap SpecReport.

Lemma token_stop c r : token c -> stop (c :: r).
Proof. exact (fun H => H). Qed.
Lemma cerr_told c m t e : no_err_yet e = true -> cerr c m t e = told e (mkerr c m t).
Proof. destruct e as [k|]; [|reflexivity]. cbn. destruct (is_err k); [discriminate|reflexivity]. Qed.
Lemma told_cerr c m t e j : is_err j = true -> cerr c m t (told e j) = told e j.
Proof. intros Hj. destruct e; [|reflexivity]. cbn. now rewrite Hj. Qed.
Lemma told_told e j k : told (told e j) k = told e k. Proof. now destruct e. Qed.
Lemma told_state e j : is_err j = true -> told e j = None \/ exists k, told e j = Some k /\ is_err k = true.
Proof. intros Hj. destruct e; cbn; [right; eauto|now left]. Qed.
Lemma stop_token h t : stop (h :: t) -> token h. Proof. exact (fun H => H). Qed.
Lemma gap_end g e : gap g -> parse_space g e = ([], e).
Proof. intros Hg. rewrite <- (app_nil_r g) at 1. now apply gap_parse_space. Qed.
Lemma gap_follow_end g : gap g -> follow g.
Proof. intros Hg. destruct (gap_head g Hg) as [->|(c & t & -> & H)]; [exact Logic.I|]. cbn. unfold s_ws, s_digit in *. lia. Qed.

(** ---- sequences ---- *)
Section Seq.
  Context {A S : Type} (ins : S -> A -> S) (d0 : A) (R : Z) (item : codec A) (sn : option Z) (e : eptr).
  Hypothesis HR : R = RBR \/ R = RCB.
  Hypothesis He : no_err_yet e = true.

  Lemma seq_loop_commas ts b : commas ts b -> forall vs z n st, Forall2 (rd item) ts vs -> (length (b ++ z) < n)%nat ->
    exists m, (length z < m)%nat /\ seq_loop (des item sn) ins d0 R n st (b ++ z) e = seq_loop (des item sn) ins d0 R m (fold_left ins vs st) z e.
  Proof.
    induction 1 as [|g1 t g2 ts b H1 H2 Hb IH]; intros vs z n st Hv Hn.
    - inversion Hv; subst. exists n. split; [exact Hn|reflexivity].
    - inversion Hv as [|? v ? vs' Hv1 Hv']; subst. destruct n as [|n]; [lia|].
      repeat (rewrite <- ?app_assoc in *; cbn [app] in * ). rewrite (seq_loop_one ins d0 R item sn HR n g1 t v g2 COMMA (b ++ z) st e); auto.
      change (COMMA =? COMMA) with true. cbv iota. cbn [fold_left]. apply IH; [exact Hv'|].
      rewrite !app_length in *. cbn [length] in Hn. rewrite !app_length in Hn. lia.
  Qed.
  (** one more element, followed by something wrong *)
  Lemma seq_loop_bad n g1 t v g2 z st : gap g1 -> gap g2 -> rd item t v -> stop z -> follow (g2 ++ z) ->
    seq_loop (des item sn) ins d0 R (Datatypes.S n) st (g1 ++ t ++ g2 ++ z) e =
    match z with
    | [] => Ok (ins st v, [], cerr UnexpectedEndFragment None 0 e)
    | d :: t3 => if d =? R then Ok (ins st v, t3, e) else if negb (d =? COMMA) then Ok (ins st v, [], cerr ExpectedOf (Some [COMMA]) (dist z) e)
                 else seq_loop (des item sn) ins d0 R n (ins st v) t3 e
    end.
  Proof.
    intros Hg1 Hg2 Hv Hz Hf. cbn [seq_loop].
    destruct (g1 ++ t ++ g2 ++ z) eqn:E.
    { destruct (rd_head _ _ _ Hv) as (h & x & -> & _). destruct g1; discriminate. }
    rewrite <- E. clear E. rewrite gap_parse_space; [|exact Hg1|now apply rd_stop with item v].
    destruct Hv as ((h & x & -> & Hh) & Hrd). cbn [app].
    assert (h =? R = false) as -> by (unfold vstart, s_digit in Hh; lia).
    change (h :: x ++ g2 ++ z) with ((h :: x) ++ g2 ++ z). rewrite Hrd by assumption. cbn [bind].
    rewrite gap_parse_space by assumption. reflexivity.
  Qed.
  Lemma seq_loop_item n g h t v j st : gap g -> token h -> h <> R -> reports item d0 (h :: t) v j ->
    seq_loop (des item sn) ins d0 R (Datatypes.S n) st (g ++ h :: t) e = Ok (ins st v, [], told e j).
  Proof.
    intros Hg Hh HhR (Hj & Hr). cbn [seq_loop].
    destruct (g ++ h :: t) eqn:E; [now apply gap_closer_nonempty in E|]. rewrite <- E. clear E.
    rewrite gap_parse_space; [|exact Hg|exact Hh]. destruct (h =? R) eqn:E; [lia|]. rewrite Hr by exact He. cbn [bind].
    rewrite space_stop by exact Logic.I. now rewrite told_cerr.
  Qed.
  Lemma seq_loop_stop n g st : gap g -> seq_loop (des item sn) ins d0 R (Datatypes.S n) st g e = Ok (st, [], cerr UnexpectedEndFragment None 0 e).
  Proof. intros Hg. cbn [seq_loop]. destruct g as [|c g]; [reflexivity|]. now rewrite gap_end. Qed.
End Seq.

Section SeqReports.
  Context {A C S : Type} (k : container A C S) (L R : Z) (item : codec A) (d0 : A).
  Hypothesis HB : brackets L R.
  Definition holds (vs : list A) : C := c_get k (fold_left (c_ins k) vs (c_new k)).
  Notation sc := (seq_codec k L R item d0).

  Theorem seq_open old c s : c <> L -> c <> 110 -> reports sc old (c :: s) (holds []) (expected [L] (c :: s)).
  Proof.
    intros H1 H2. split; [reflexivity|]. intros sn e He. cbn [des seq_codec]. unfold seq_des, is_null, starts.
    destruct (c =? 110) eqn:E; [lia|]. destruct (c =? L) eqn:E2; [lia|]. cbn [negb]. rewrite cerr_told by exact He.
    unfold expected, holds. cbn [fold_left length]. repeat f_equal. unfold dist. lia.
  Qed.
  Theorem seq_empty old : reports sc old [] (holds []) unexpected_end.
  Proof. split; [reflexivity|]. intros sn e He. cbn [des seq_codec]. unfold seq_des. cbn [is_null starts]. now rewrite cerr_told. Qed.
  Lemma seq_des_loop ts b vs z old sn e : commas ts b -> Forall2 (rd item) ts vs -> no_err_yet e = true ->
    exists n, (length z < Datatypes.S n)%nat /\ des sc sn old (L :: b ++ z) e =
      let* (st, r, e') := seq_loop (des item sn) (c_ins k) d0 R (Datatypes.S n) (fold_left (c_ins k) vs (c_new k)) z e in Ok (c_get k st, r, e').
  Proof.
    intros Hb Hv He. destruct (brackets_facts L R HB) as (_ & HLn & HR). cbn [des seq_codec]. unfold seq_des, is_null, starts.
    destruct (L =? 110) eqn:E; [lia|]. rewrite Z.eqb_refl. cbn [negb].
    destruct (seq_loop_commas (c_ins k) d0 R item sn e HR He ts b Hb vs z (Datatypes.S (length (b ++ z))) (c_new k) Hv ltac:(lia)) as (m & Hm & ->).
    destruct m as [|m]; [lia|]. exists m. split; [exact Hm|reflexivity].
  Qed.
  Theorem seq_separator ts b vs g1 t v g2 c r old : commas ts b -> Forall2 (rd item) ts vs -> gap g1 -> gap g2 -> rd item t v ->
    token c -> follow (g2 ++ c :: r) -> c <> R -> c <> COMMA ->
    reports sc old (L :: b ++ g1 ++ t ++ g2 ++ c :: r) (holds (vs ++ [v])) (expected [COMMA] (c :: r)).
  Proof.
    intros Hb Hv H1 H2 Ht Hc Hf HcR Hcc. split; [reflexivity|]. intros sn e He. destruct (brackets_facts L R HB) as (_ & _ & HR).
    destruct (seq_des_loop ts b vs (g1 ++ t ++ g2 ++ c :: r) old sn e Hb Hv He) as (n & _ & ->).
    rewrite (seq_loop_bad (c_ins k) d0 R item sn e HR He n g1 t v g2 (c :: r)) by auto.
    destruct (c =? R) eqn:E; [lia|]. destruct (c =? COMMA) eqn:E2; [lia|]. cbn [negb bind]. unfold holds. rewrite fold_left_app. cbn [fold_left].
    now rewrite cerr_told.
  Qed.
  Theorem seq_end_item ts b vs g old : commas ts b -> Forall2 (rd item) ts vs -> gap g ->
    reports sc old (L :: b ++ g) (holds vs) unexpected_end.
  Proof.
    intros Hb Hv Hg. split; [reflexivity|]. intros sn e He. destruct (brackets_facts L R HB) as (_ & _ & HR).
    destruct (seq_des_loop ts b vs g old sn e Hb Hv He) as (n & _ & ->). rewrite seq_loop_stop by assumption. cbn [bind]. now rewrite cerr_told.
  Qed.
  Theorem seq_end_separator ts b vs g1 t v g2 old : commas ts b -> Forall2 (rd item) ts vs -> gap g1 -> gap g2 -> rd item t v ->
    reports sc old (L :: b ++ g1 ++ t ++ g2) (holds (vs ++ [v])) unexpected_end.
  Proof.
    intros Hb Hv H1 H2 Ht. split; [reflexivity|]. intros sn e He. destruct (brackets_facts L R HB) as (_ & _ & HR).
    destruct (seq_des_loop ts b vs (g1 ++ t ++ g2) old sn e Hb Hv He) as (n & _ & ->). rewrite <- (app_nil_r g2).
    rewrite (seq_loop_bad (c_ins k) d0 R item sn e HR He n g1 t v g2 []); auto; [|exact Logic.I|rewrite app_nil_r; now apply gap_follow_end].
    cbn [bind]. unfold holds. rewrite fold_left_app. cbn [fold_left]. now rewrite cerr_told.
  Qed.
  Theorem seq_item ts b vs g h t v j old : commas ts b -> Forall2 (rd item) ts vs -> gap g -> token h -> h <> R ->
    reports item d0 (h :: t) v j -> reports sc old (L :: b ++ g ++ h :: t) (holds (vs ++ [v])) j.
  Proof.
    intros Hb Hv Hg Hh HhR Hr. split; [apply Hr|]. intros sn e He. destruct (brackets_facts L R HB) as (_ & _ & HR).
    destruct (seq_des_loop ts b vs (g ++ h :: t) old sn e Hb Hv He) as (n & _ & ->).
    rewrite (seq_loop_item (c_ins k) d0 R item sn e He n g h t v j) by auto. cbn [bind]. unfold holds. rewrite fold_left_app. reflexivity.
  Qed.
End SeqReports.

(** ---- fields of dictionaries ---- *)
Section Field.
  Context {K V : Type} (kc : codec K) (vc : codec V).
  Notation fc := (field_codec kc vc).
  Theorem field_key old s k j : reports kc (fst old) s k j -> reports fc old s (k, snd old) j.
  Proof.
    intros (Hj & Hr). split; [exact Hj|]. intros sn e He. cbn [des field_codec]. unfold field_des. rewrite Hr by exact He. cbn [bind].
    rewrite space_stop by exact Logic.I. now rewrite told_cerr.
  Qed.
  Theorem field_colon old kt k g c r : rd kc kt k -> gap g -> token c -> follow (g ++ c :: r) -> c <> COLON ->
    reports fc old (kt ++ g ++ c :: r) (k, snd old) (expected [COLON] (c :: r)).
  Proof.
    intros (_ & Hk) Hg Hc Hf Hcc. split; [reflexivity|]. intros sn e He. cbn [des field_codec]. unfold field_des. rewrite Hk by assumption.
    cbn [bind]. rewrite gap_parse_space by assumption. destruct (c =? COLON) eqn:E; [lia|]. cbn [negb]. rewrite cerr_told by exact He.
    unfold expected. cbn [length]. repeat f_equal. unfold dist. lia.
  Qed.
  Theorem field_end_colon old kt k g : rd kc kt k -> gap g -> reports fc old (kt ++ g) (k, snd old) unexpected_end.
  Proof.
    intros (_ & Hk) Hg. split; [reflexivity|]. intros sn e He. cbn [des field_codec]. unfold field_des.
    rewrite Hk by (try apply gap_follow_end; assumption). cbn [bind]. rewrite gap_end by assumption. now rewrite cerr_told.
  Qed.
  Lemma field_at old kt k g1 g2 z sn e : rd kc kt k -> gap g1 -> gap g2 -> stop z -> no_err_yet e = true ->
    des fc sn old (kt ++ g1 ++ COLON :: g2 ++ z) e =
    match z with [] => Ok ((k, snd old), [], cerr UnexpectedEndFragment None 0 e) | _ => let* (v, r, e') := des vc sn (snd old) z e in Ok ((k, v), r, e') end.
  Proof.
    intros (_ & Hk) H1 H2 Hz He. cbn [des field_codec]. unfold field_des. assert (Hcol : closer COLON) by (unfold closer; lia).
    rewrite Hk; [|now apply gap_follow|exact He]. cbn [bind]. rewrite gap_parse_space; [|exact H1|now apply closer_stop].
    change (COLON =? COLON) with true. cbn [negb]. rewrite gap_parse_space by assumption. destruct z; reflexivity.
  Qed.
  Theorem field_end_value old kt k g1 g2 : rd kc kt k -> gap g1 -> gap g2 -> reports fc old (kt ++ g1 ++ COLON :: g2) (k, snd old) unexpected_end.
  Proof.
    intros Hk H1 H2. split; [reflexivity|]. intros sn e He. rewrite <- (app_nil_r g2). rewrite (field_at old kt k g1 g2 [] sn e) by (assumption || exact Logic.I).
    now rewrite cerr_told.
  Qed.
  Theorem field_value old kt k g1 g2 h t v j : rd kc kt k -> gap g1 -> gap g2 -> token h -> reports vc (snd old) (h :: t) v j ->
    reports fc old (kt ++ g1 ++ COLON :: g2 ++ h :: t) (k, v) j.
  Proof.
    intros Hk H1 H2 Hh (Hj & Hr). split; [exact Hj|]. intros sn e He. rewrite (field_at old kt k g1 g2 (h :: t) sn e) by assumption.
    rewrite Hr by exact He. reflexivity.
  Qed.
End Field.

(** ---- fixed-size arrays ---- *)
Section Fix.
  Context {A : Type} (item : codec A) (fresh : option A) (ex : buf) (L R : Z) (sr : list A -> res (list op)).
  Hypothesis HB : brackets L R.
  Notation fc := (mkcodec sr (fix_des fresh ex L R item)).
  Definition target_of (x : A) : A := match fresh with Some d => d | None => x end.

  Lemma fix_loop_commas sn e ts b : commas ts b -> no_err_yet e = true -> forall vs old z, Forall2 (rd item) ts vs -> (length ts <= length old)%nat ->
    fix_loop (des item sn) fresh ex R old (b ++ z) e =
    let* (l, r, e') := fix_loop (des item sn) fresh ex R (skipn (length ts) old) z e in Ok (vs ++ l, r, e').
  Proof.
    destruct (brackets_facts L R HB) as (_ & _ & HR).
    intros Hb He. induction Hb as [|g1 t g2 ts b H1 H2 Hb IH]; intros vs old z Hv Hl.
    - inversion Hv; subst. cbn [app skipn length]. destruct (fix_loop _ _ _ _ _ _ _) as [[[l r] e']| |]; reflexivity.
    - inversion Hv as [|? v ? vs' Hv1 Hv']; subst. destruct old as [|x old]; [cbn in Hl; lia|]. cbn [length] in Hl. cbn [skipn length fix_loop].
      repeat (rewrite <- ?app_assoc; cbn [app]). destruct (g1 ++ t ++ g2 ++ COMMA :: b ++ z) eqn:E.
      { destruct (rd_head _ _ _ Hv1) as (h & y & -> & _). destruct g1; discriminate. }
      rewrite <- E. clear E. rewrite gap_parse_space; [|exact H1|now apply rd_stop with item v].
      destruct Hv1 as ((h & y & -> & Hh) & Hrd). cbn [app]. assert (h =? R = false) as -> by (unfold vstart, s_digit in Hh; lia).
      change (h :: y ++ g2 ++ COMMA :: b ++ z) with ((h :: y) ++ g2 ++ COMMA :: b ++ z).
      rewrite Hrd; [|apply gap_follow; [exact H2|unfold closer; lia]|exact He]. cbn [bind].
      rewrite gap_parse_space; [|exact H2|apply closer_stop; unfold closer; lia].
      destruct (COMMA =? R) eqn:E; [lia|]. change (COMMA =? COMMA) with true. cbn [negb]. rewrite (IH vs' old z Hv') by lia.
      destruct (fix_loop _ _ _ _ _ _ _) as [[[w r1] e']| |]; reflexivity.
  Qed.
  Lemma fix_des_loop sn e ts b vs old z : commas ts b -> Forall2 (rd item) ts vs -> (length ts <= length old)%nat -> no_err_yet e = true ->
    des fc sn old (L :: b ++ z) e = let* (l, r, e') := fix_loop (des item sn) fresh ex R (skipn (length ts) old) z e in Ok (vs ++ l, r, e').
  Proof.
    intros Hb Hv Hl He. destruct (brackets_facts L R HB) as (_ & HLn & _). cbn [des]. unfold fix_des, is_null, starts.
    destruct (L =? 110) eqn:E; [lia|]. rewrite Z.eqb_refl. cbn [negb]. now apply fix_loop_commas.
  Qed.
  Lemma F2_len {X Y} (P : X -> Y -> Prop) l m : Forall2 P l m -> length l = length m. Proof. induction 1; cbn; congruence. Qed.

  Theorem fix_open old c s : c <> L -> c <> 110 -> reports fc old (c :: s) old (expected [L] (c :: s)).
  Proof.
    intros H1 H2. split; [reflexivity|]. intros sn e He. cbn [des]. unfold fix_des, is_null, starts.
    destruct (c =? 110) eqn:E; [lia|]. destruct (c =? L) eqn:E2; [lia|]. cbn [negb]. rewrite cerr_told by exact He.
    unfold expected. cbn [length]. repeat f_equal. unfold dist. lia.
  Qed.
  Theorem fix_empty old : reports fc old [] old unexpected_end.
  Proof. split; [reflexivity|]. intros sn e He. cbn [des]. unfold fix_des. cbn [is_null starts]. now rewrite cerr_told. Qed.
  (** the next element *)
  Lemma fix_loop_bad sn e g1 t v g2 z x old : gap g1 -> gap g2 -> rd item t v -> stop z -> follow (g2 ++ z) -> no_err_yet e = true ->
    (forall c r, z = c :: r -> c <> R /\ c <> COMMA) ->
    fix_loop (des item sn) fresh ex R (x :: old) (g1 ++ t ++ g2 ++ z) e =
    Ok (v :: old, [], match z with [] => cerr UnexpectedEndFragment None 0 e | _ => cerr ExpectedOf (Some ex) (dist z) e end).
  Proof.
    destruct (brackets_facts L R HB) as (_ & _ & HR). intros H1 H2 Hv Hz Hf He Hc. cbn [fix_loop]. destruct (g1 ++ t ++ g2 ++ z) eqn:E.
    { destruct (rd_head _ _ _ Hv) as (h & y & -> & _). destruct g1; discriminate. }
    rewrite <- E. clear E. rewrite gap_parse_space; [|exact H1|now apply rd_stop with item v].
    destruct Hv as ((h & y & -> & Hh) & Hrd). cbn [app]. assert (h =? R = false) as -> by (unfold vstart, s_digit in Hh; lia).
    change (h :: y ++ g2 ++ z) with ((h :: y) ++ g2 ++ z). rewrite Hrd by assumption. cbn [bind].
    rewrite gap_parse_space by assumption. destruct z as [|c r]; [reflexivity|]. destruct (Hc c r eq_refl) as [Ha Hb].
    destruct (c =? R) eqn:E; [lia|]. destruct (c =? COMMA) eqn:E2; [lia|]. reflexivity.
  Qed.
  Theorem fix_separator ts b vs g1 t v g2 c r old1 x old2 : commas ts b -> Forall2 (rd item) ts vs -> length old1 = length ts ->
    gap g1 -> gap g2 -> rd item t v -> token c -> follow (g2 ++ c :: r) -> c <> R -> c <> COMMA ->
    reports fc (old1 ++ x :: old2) (L :: b ++ g1 ++ t ++ g2 ++ c :: r) (vs ++ v :: old2) (expected ex (c :: r)).
  Proof.
    intros Hb Hv Hl H1 H2 Ht Hc Hf HcR Hcc. split; [reflexivity|]. intros sn e He.
    rewrite (fix_des_loop sn e ts b vs) by (auto; rewrite app_length; lia). rewrite <- Hl, skipn_app, skipn_all, Nat.sub_diag. cbn [app skipn].
    rewrite (fix_loop_bad sn e g1 t v g2 (c :: r)) by (auto; intros ? ? [= <- <-]; auto). cbn [bind]. now rewrite cerr_told.
  Qed.
  Theorem fix_end_separator ts b vs g1 t v g2 old1 x old2 : commas ts b -> Forall2 (rd item) ts vs -> length old1 = length ts ->
    gap g1 -> gap g2 -> rd item t v -> reports fc (old1 ++ x :: old2) (L :: b ++ g1 ++ t ++ g2) (vs ++ v :: old2) unexpected_end.
  Proof.
    intros Hb Hv Hl H1 H2 Ht. split; [reflexivity|]. intros sn e He.
    rewrite (fix_des_loop sn e ts b vs) by (auto; rewrite app_length; lia). rewrite <- Hl, skipn_app, skipn_all, Nat.sub_diag. cbn [app skipn].
    rewrite <- (app_nil_r g2). rewrite (fix_loop_bad sn e g1 t v g2 []); auto; [cbn [bind]; now rewrite cerr_told|exact Logic.I|rewrite app_nil_r; now apply gap_follow_end|discriminate].
  Qed.
  Theorem fix_end_item ts b vs g old1 old2 : commas ts b -> Forall2 (rd item) ts vs -> length old1 = length ts -> gap g ->
    old2 <> [] \/ g = [] ->
    reports fc (old1 ++ old2) (L :: b ++ g) (vs ++ old2) unexpected_end.
  Proof.
    intros Hb Hv Hl Hg Ho. split; [reflexivity|]. intros sn e He.
    rewrite (fix_des_loop sn e ts b vs) by (auto; rewrite app_length; lia). rewrite <- Hl, skipn_app, skipn_all, Nat.sub_diag. cbn [app skipn].
    destruct old2 as [|x old2].
    - destruct Ho as [Ho| ->]; [congruence|]. cbn [fix_loop fix_close bind]. now rewrite cerr_told.
    - cbn [fix_loop]. destruct g as [|c g]; [cbn [fix_close bind]; now rewrite cerr_told|]. rewrite gap_end by exact Hg. cbn [bind]. now rewrite cerr_told.
  Qed.
  Theorem fix_extra ts b vs c r old : commas ts b -> Forall2 (rd item) ts vs -> length old = length ts -> c <> R ->
    reports fc old (L :: b ++ c :: r) vs (expected [R] (c :: r)).
  Proof.
    intros Hb Hv Hl Hc. split; [reflexivity|]. intros sn e He.
    rewrite (fix_des_loop sn e ts b vs) by (auto; lia). rewrite <- Hl, skipn_all. cbn [fix_loop fix_close].
    destruct (c =? R) eqn:E; [lia|]. cbn [negb bind]. rewrite app_nil_r, cerr_told by exact He. unfold expected. cbn [length]. repeat f_equal. unfold dist. lia.
  Qed.
  Theorem fix_item ts b vs g h t v j old1 x old2 : commas ts b -> Forall2 (rd item) ts vs -> length old1 = length ts -> gap g -> token h -> h <> R ->
    reports item (target_of x) (h :: t) v j -> reports fc (old1 ++ x :: old2) (L :: b ++ g ++ h :: t) (vs ++ v :: old2) j.
  Proof.
    intros Hb Hv Hl Hg Hh HhR (Hj & Hr). split; [exact Hj|]. intros sn e He.
    rewrite (fix_des_loop sn e ts b vs) by (auto; rewrite app_length; lia). rewrite <- Hl, skipn_app, skipn_all, Nat.sub_diag. cbn [app skipn fix_loop].
    destruct (g ++ h :: t) eqn:E; [now apply gap_closer_nonempty in E|]. rewrite <- E. clear E.
    rewrite gap_parse_space; [|exact Hg|exact Hh]. destruct (h =? R) eqn:E; [lia|].
    change (match fresh with Some d0 => d0 | None => x end) with (target_of x). rewrite Hr by exact He. cbn [bind].
    rewrite space_stop by exact Logic.I. now rewrite told_cerr.
  Qed.
End Fix.

(** ---- objects ---- *)
Section Obj.
  Context {T : Type} (mode : omode) (L : list (memb T)) (t0 : T).
  Hypothesis HL : names_ok L.
  Hypothesis Hif : Forall no_if L.
  Notation oc := (object_codec mode L t0).

  Lemma osearch_gen sn (R : list (memb T)) (t : T) it t' : osearch mode R t it t' -> forall txt g z e, member_text it txt -> gap g -> stop z -> follow (g ++ z) -> no_err_yet e = true ->
    exists g', gap g' /\ search_members mode sn R t (txt ++ g ++ z) e = Ok (t', g' ++ z, e).
  Proof.
    induction 1 as [b R t it t' H|b R t t1 it t' H _ IH|t it Hm Hw]; intros txt g z e Ht Hg Hz Hf He; cbn [search_members].
    - exists g. split; [exact Hg|]. rewrite H; auto.
    - destruct it as [nm vt]. destruct (member_text_app nm vt txt (g ++ z) Ht) as (g1 & g2 & H1 & H2 & E).
      destruct (IH _ g z e Ht Hg Hz Hf He) as (g' & Hg' & IH'). exists g'. split; [exact Hg'|].
      rewrite E in *. rewrite H by exact He. cbn [bind negb]. exact IH'.
    - exists []. split; [constructor|]. unfold search_end. rewrite Hm. rewrite (parse_member_app _ it); auto.
      cbn [bind]. rewrite gap_parse_space by assumption. reflexivity.
  Qed.

  (** one member, whatever follows *)
  Lemma loop_item sn e it f t txt g z b R n : item_sem mode L it f -> member_text it txt -> gap g -> stop z -> follow (g ++ z) -> no_err_yet e = true -> In b L ->
    members_loop mode sn L (S n) (b :: R) t (txt ++ g ++ z) e =
    match z with
    | [] => Ok (f t, [], cerr UnexpectedEndFragment None 0 e)
    | d :: t3 =>
      if d =? COMMA then
        let '(s4, e4) := parse_space t3 e in
        let* (t5, s5, e5) := members_loop mode sn L n (if name_dec (fst it) (memb_name b) then R else b :: R) (f t) s4 e4 in
        at_close t5 s5 e5
      else at_close (f t) z e
    end.
  Proof.
    intros Hs Ht Hg Hz Hf He Hb. cbn [members_loop]. destruct (name_dec (fst it) (memb_name b)) as [En|En].
    - inversion Hs as [c vt F Hc Hv|nm vt Hm Hn]; subst.
      + cbn [fst] in En. apply (same_name L HL) in En; [|exact Hc|exact Hb]. subst c.
        rewrite (noif_reads b vt F t (noif_in L Hif b Hb) (name_plain L HL b Hb) Hv sn txt _ false e Ht) by assumption.
        cbn [bind negb]. rewrite gap_parse_space by assumption. reflexivity.
      + exfalso. cbn [fst] in En. apply Hn. rewrite En. now apply in_map.
    - pose proof (search_sem mode L HL Hif _ _ t Hs) as Ho.
      destruct (osearch_gen sn L t it (f t) Ho txt g z e Ht Hg Hz Hf He) as (g' & Hg' & E).
      destruct it as [nm vt]. destruct (member_text_app nm vt txt (g ++ z) Ht) as (ga & gb & Ha & Hb' & Eq). cbn [fst] in En.
      rewrite Eq in *. rewrite (noif_skips b nm t); [|now apply (noif_in L Hif)|now apply (name_plain L HL)|exact (sem_qsafe mode L HL _ _ Hs)|exact En|exact He].
      cbn [bind negb]. rewrite E. cbn [bind]. rewrite gap_parse_space by assumption. reflexivity.
  Qed.

  Lemma still_nil ms : ~ still [] ms. Proof. intros H. apply (H [] ms eq_refl). constructor. Qed.
  Lemma still_hit n ns ms : still (n :: ns) (n :: ms) -> still ns ms.
  Proof. intros H m1 m2 -> K. apply (H (n :: m1) m2 eq_refl). now constructor. Qed.
  Lemma still_other n ns m ms : m <> n -> still (n :: ns) (m :: ms) -> still (n :: ns) ms.
  Proof. intros Hm H m1 m2 -> K. apply (H (m :: m1) m2 eq_refl). now constructor. Qed.

  (** the members before the failing place *)
  Lemma loop_prefix sn e v j z pre fs : Forall2 (item_sem mode L) pre fs -> stop z -> no_err_yet e = true -> is_err j = true ->
    forall p g t, prefix_text pre p -> gap g ->
    (forall n c R, In c L -> (length z < S n)%nat -> members_loop mode sn L (S n) (c :: R) (run_all fs t) z e = Ok (v, [], told e j)) ->
    forall n R, incl R L -> still (names R) (map fst pre) -> (length (fst (parse_space (p ++ g ++ z) e)) < n)%nat ->
    members_loop mode sn L n R t (fst (parse_space (p ++ g ++ z) e)) e = Ok (v, [], told e j) /\ snd (parse_space (p ++ g ++ z) e) = e.
  Proof.
    induction 1 as [|it f pre fs Hs Hfs IH]; intros Hz He Hj p g t Hp Hg Hend n R Hi HbR.
    - inversion Hp; subst. cbn [app]. rewrite gap_parse_space by assumption. cbn [fst snd]. intros Hl. split; [|reflexivity].
      destruct n as [|n]; [lia|]. destruct R as [|c R]; [now apply still_nil in HbR|]. apply Hend; [apply Hi; now left|exact Hl].
    - inversion Hp as [|? ? txt g1 g2 p' H1 Ht H2 Hp']; subst. cbn [map] in HbR.
      assert (Hst : stop (txt ++ g2 ++ COMMA :: p' ++ g ++ z)).
      { destruct (member_text_head _ _ Ht) as (y & ->). apply vstart_stop, qt_vstart. }
      repeat (rewrite <- ?app_assoc; cbn [app]). rewrite gap_parse_space by assumption. cbn [fst snd]. intros Hl. split; [|reflexivity].
      destruct n as [|n]; [lia|]. destruct R as [|c R]; [now apply still_nil in HbR|]. assert (Hc : In c L) by (apply Hi; now left).
      rewrite (loop_item sn e it f t txt g2 (COMMA :: p' ++ g ++ z)); auto; [|apply closer_stop, cstop|apply gap_follow; auto using cstop].
      change (COMMA =? COMMA) with true. cbv iota.
      destruct (IH Hz He Hj p' g (f t) Hp' Hg) with (n := n) (R := if name_dec (fst it) (memb_name c) then R else c :: R) as (E1 & E2).
      + exact Hend.
      + intros y Hy. apply Hi. destruct (name_dec _ _); [now right|exact Hy].
      + unfold names in *. cbn [map] in HbR. destruct (name_dec (fst it) (memb_name c)) as [En|En]; [rewrite En in HbR; now apply still_hit in HbR|now apply still_other in HbR].
      + pose proof (space_good (p' ++ g ++ z)) as (r & o & Ga & Gb & _). rewrite Ga. cbn [fst]. apply suffix_len in Gb.
        rewrite !app_length in *. cbn [length] in *. rewrite !app_length in *. destruct (member_text_head _ _ Ht) as (y & ->). cbn [length] in *. lia.
      + destruct (parse_space (p' ++ g ++ z) e) as [s4 e4]. cbn [fst snd] in E1, E2. subst e4. rewrite E1. cbn [bind at_close]. now rewrite told_cerr.
  Qed.
  (** ... lifted to the object *)
  Lemma object_prefix pre fs p g z v j old : Forall2 (item_sem mode L) pre fs -> prefix_text pre p -> still (names L) (map fst pre) ->
    gap g -> stop z -> is_err j = true -> pre <> [] \/ (exists c r, z = c :: r /\ c <> RCB) ->
    (forall sn e n c R, no_err_yet e = true -> In c L -> (length z < S n)%nat ->
      members_loop mode sn L (S n) (c :: R) (run_all fs old) z e = Ok (v, [], told e j)) ->
    reports oc old (LCB :: p ++ g ++ z) v j.
  Proof.
    intros Hf Hp Hn Hg Hz Hj Hne Hend. split; [exact Hj|]. intros sn e He. cbn [des object_codec]. unfold object_des.
    change (is_null (LCB :: p ++ g ++ z)) with false. change (LCB =? LCB) with true. cbv iota. cbn [negb].
    pose proof (loop_prefix sn e v j z pre fs Hf Hz He Hj p g old Hp Hg (fun n c R => Hend sn e n c R He)
      (S (length (fst (parse_space (p ++ g ++ z) e)))) L (incl_refl _) Hn ltac:(lia)) as (E1 & E2).
    assert (Hx : exists c r, fst (parse_space (p ++ g ++ z) e) = c :: r /\ c <> RCB).
    { inversion Hp as [|it its txt g1 g2 p' H1 Ht H2 Hp' Ea Eb]; subst.
      - destruct Hne as [Hne|(c & r & -> & Hc)]; [congruence|]. cbn [app]. rewrite gap_parse_space by assumption. exists c, r. split; [reflexivity|exact Hc].
      - repeat (rewrite <- ?app_assoc; cbn [app]). destruct (member_text_head _ _ Ht) as (y & ->).
        rewrite gap_parse_space; [|exact H1|apply vstart_stop, qt_vstart]. cbn [app fst]. do 2 eexists. split; [reflexivity|lia]. }
    destruct (parse_space (p ++ g ++ z) e) as [s1 e1]. cbn [fst snd] in *. subst e1. destruct Hx as (c & r & -> & Hc).
    destruct (c =? RCB) eqn:E; [lia|]. cbn [negb]. rewrite E1. cbn [bind]. now rewrite told_cerr.
  Qed.

  Theorem obj_open old c s : c <> LCB -> c <> LBR -> c <> 110 -> reports oc old (c :: s) old (expected [LCB] (c :: s)).
  Proof.
    intros H1 H2 H3. split; [reflexivity|]. intros sn e He. cbn [des object_codec]. unfold object_des, is_null, starts.
    destruct (c =? 110) eqn:E; [lia|]. destruct (c =? LCB) eqn:E2; [lia|]. cbn [negb]. destruct (c =? LBR) eqn:E3; [lia|]. now rewrite cerr_told.
  Qed.
  Theorem obj_empty old : reports oc old [] old unexpected_end.
  Proof. split; [reflexivity|]. intros sn e He. cbn [des object_codec]. unfold object_des. cbn [is_null starts]. now rewrite cerr_told. Qed.
  Theorem obj_end_first old g : gap g -> reports oc old (LCB :: g) old unexpected_end.
  Proof.
    intros Hg. split; [reflexivity|]. intros sn e He. cbn [des object_codec]. unfold object_des. change (is_null (LCB :: g)) with false.
    change (LCB =? LCB) with true. cbv iota. cbn [negb]. rewrite gap_end by exact Hg. now rewrite cerr_told.
  Qed.
  (** after a complete member *)
  Theorem obj_separator pre fs p it f g1 txt g2 c r old : Forall2 (item_sem mode L) pre fs -> prefix_text pre p -> still (names L) (map fst pre) ->
    item_sem mode L it f -> gap g1 -> member_text it txt -> gap g2 -> token c -> follow (g2 ++ c :: r) -> c <> COMMA -> c <> RCB ->
    reports oc old (LCB :: p ++ g1 ++ txt ++ g2 ++ c :: r) (run_all (fs ++ [f]) old) (expected [RCB] (c :: r)).
  Proof.
    intros Hf Hp Hn Hs H1 Ht H2 Hc Hfo Hcc Hcr. assert (exists y, txt = QT :: y) as (y & Ey) by (now apply member_text_head in Ht).
    apply (object_prefix pre fs p g1 (txt ++ g2 ++ c :: r)); auto.
    - rewrite Ey. apply vstart_stop, qt_vstart.
    - right. rewrite Ey. cbn [app]. do 2 eexists. split; [reflexivity|lia].
    - intros sn e n c' R He Hc' Hl. rewrite (loop_item sn e it f _ txt g2 (c :: r)) by auto. destruct (c =? COMMA) eqn:E; [lia|].
      unfold at_close. destruct (c =? RCB) eqn:E2; [lia|]. cbn [negb]. rewrite cerr_told by exact He. unfold run_all. rewrite fold_left_app. reflexivity.
  Qed.
  Theorem obj_end_separator pre fs p it f g1 txt g2 old : Forall2 (item_sem mode L) pre fs -> prefix_text pre p -> still (names L) (map fst pre) ->
    item_sem mode L it f -> gap g1 -> member_text it txt -> gap g2 ->
    reports oc old (LCB :: p ++ g1 ++ txt ++ g2) (run_all (fs ++ [f]) old) unexpected_end.
  Proof.
    intros Hf Hp Hn Hs H1 Ht H2. assert (exists y, txt = QT :: y) as (y & Ey) by (now apply member_text_head in Ht).
    rewrite <- (app_nil_r g2).
    apply (object_prefix pre fs p g1 (txt ++ g2 ++ [])); auto.
    - rewrite Ey. apply vstart_stop, qt_vstart.
    - right. rewrite Ey. cbn [app]. do 2 eexists. split; [reflexivity|lia].
    - intros sn e n c' R He Hc' Hl. rewrite (loop_item sn e it f _ txt g2 []); auto; [|exact Logic.I|rewrite app_nil_r; now apply gap_follow_end].
      rewrite cerr_told by exact He. unfold run_all. rewrite fold_left_app. reflexivity.
  Qed.

  (** where a name should start *)
  Lemma unser_noname name s u e : is_string s = false -> unser_name name s u e = ([], cerr ExpectedOf (Some [QT]) (dist s) e, u).
  Proof. intros E. unfold unser_name. now rewrite E. Qed.
  Lemma noif_noname (c : memb T) sn t s e : In c L -> is_string s = false -> memb_des c sn t s false e = Ok (t, false, [], cerr ExpectedOf (Some [QT]) (dist s) e).
  Proof.
    intros Hc Hs. pose proof (noif_in L Hif c Hc) as Hi. destruct c as [m|m i|]; [| |contradiction]; cbn [memb_des]; unfold mem_des, mem_p_des;
      rewrite unser_noname by exact Hs; reflexivity.
  Qed.
  Lemma search_nothing sn t e j : is_err j = true -> forall R, incl R L -> search_members mode sn R t [] (told e j) = Ok (t, [], told e j).
  Proof.
    intros Hj. induction R as [|c R IH]; intros Hi; cbn [search_members].
    - unfold search_end. destruct mode; [|cbn [bind]; now rewrite told_cerr]. unfold parse_member. cbn. 
      destruct e as [k|]; cbn; [rewrite Hj|]; reflexivity.
    - rewrite noif_noname by (try reflexivity; apply Hi; now left). cbn [bind negb]. rewrite told_cerr by exact Hj. apply IH. intros y Hy. apply Hi. now right.
  Qed.
  Theorem obj_name pre fs p g z old : Forall2 (item_sem mode L) pre fs -> prefix_text pre p -> still (names L) (map fst pre) ->
    gap g -> stop z -> is_string z = false -> (pre = [] -> exists c r, z = c :: r /\ c <> RCB) ->
    reports oc old (LCB :: p ++ g ++ z) (run_all fs old) (expected [QT] z).
  Proof.
    intros Hf Hp Hn Hg Hz Hs Hne. apply (object_prefix pre fs p g z); auto.
    - destruct pre; [right; now apply Hne|left; discriminate].
    - intros sn e n c R He Hc Hl. cbn [members_loop]. rewrite noif_noname by assumption. cbn [bind negb]. rewrite cerr_told by exact He.
      rewrite search_nothing by (try reflexivity; apply incl_refl). cbn [bind]. rewrite space_stop by exact Logic.I. now rewrite told_cerr.
  Qed.
  (** the member's name, then something *)
  Lemma memb_name_at (c : memb T) sn t s u e x e' : no_if c -> unser_name (memb_name c) s u e = (x, e', true) ->
    memb_des c sn t s u e = let* (y, q, e2) := des (m_codec (memb_mem c)) sn (memb_old c t) x e' in Ok (m_set (memb_mem c) t y, true, q, e2).
  Proof. intros Hi E. destruct c as [m|m i|]; [| |contradiction]; cbn [memb_des memb_mem memb_old]; unfold mem_des, mem_p_des; unfold memb_name in E; cbn [memb_mem] in E; rewrite E; reflexivity. Qed.
  Lemma search_hit sn e b t y s x e' j nm' : In b L -> s = quoted_name (memb_name b) nm' -> no_err_yet e = true -> is_err j = true ->
    unser_name (memb_name b) s false e = (x, e', true) -> des (m_codec (memb_mem b)) sn (memb_old b t) x e' = Ok (y, [], told e j) ->
    forall R, incl R L -> In b R -> search_members mode sn R t s e = Ok (m_set (memb_mem b) t y, [], told e j).
  Proof.
    intros Hb Es He Hj Eu Ed. induction R as [|c R IH]; intros Hi HbR; [contradiction|]. cbn [search_members]. assert (Hc : In c L) by (apply Hi; now left).
    destruct (name_dec (memb_name b) (memb_name c)) as [En|En].
    - apply (same_name L HL) in En; auto. subst c. rewrite (memb_name_at b sn t s false e x e'); [|now apply (noif_in L Hif)|exact Eu].
      rewrite Ed. reflexivity.
    - rewrite Es. rewrite (noif_skips c (memb_name b) t); [|now apply (noif_in L Hif)|now apply (name_plain L HL)|apply plain_qsafe, (name_plain L HL), Hb|exact En|exact He].
      cbn [bind negb]. rewrite <- Es. apply IH; [intros w Hw; apply Hi; now right|]. destruct HbR as [->|HbR]; [congruence|exact HbR].
  Qed.
  Lemma loop_member sn e b c R n t y s x e' j nm' : In b L -> In c L -> s = quoted_name (memb_name b) nm' -> no_err_yet e = true -> is_err j = true ->
    unser_name (memb_name b) s false e = (x, e', true) -> des (m_codec (memb_mem b)) sn (memb_old b t) x e' = Ok (y, [], told e j) ->
    members_loop mode sn L (S n) (c :: R) t s e = Ok (m_set (memb_mem b) t y, [], told e j).
  Proof.
    intros Hb Hc Es He Hj Eu Ed. cbn [members_loop]. destruct (name_dec (memb_name b) (memb_name c)) as [En|En].
    - apply (same_name L HL) in En; auto. subst c. rewrite (memb_name_at b sn t s false e x e'); [|now apply (noif_in L Hif)|exact Eu].
      rewrite Ed. cbn [bind negb]. rewrite space_stop by exact Logic.I. now rewrite told_cerr.
    - rewrite Es. rewrite (noif_skips c (memb_name b) t); [|now apply (noif_in L Hif)|now apply (name_plain L HL)|apply plain_qsafe, (name_plain L HL), Hb|exact En|exact He].
      cbn [bind negb]. rewrite <- Es. rewrite (search_hit sn e b t y s x e' j nm') by (auto; apply incl_refl). cbn [bind].
      rewrite space_stop by exact Logic.I. now rewrite told_cerr.
  Qed.
  Lemma object_member pre fs p b g nm' old y j : Forall2 (item_sem mode L) pre fs -> prefix_text pre p -> In b L -> still (names L) (map fst pre) ->
    gap g -> is_err j = true ->
    (forall sn e, no_err_yet e = true -> exists x e', unser_name (memb_name b) (quoted_name (memb_name b) nm') false e = (x, e', true) /\
       des (m_codec (memb_mem b)) sn (memb_old b (run_all fs old)) x e' = Ok (y, [], told e j)) ->
    reports oc old (LCB :: p ++ g ++ quoted_name (memb_name b) nm') (m_set (memb_mem b) (run_all fs old) y) j.
  Proof.
    intros Hf Hp Hb Hn Hg Hj H. apply (object_prefix pre fs p g (quoted_name (memb_name b) nm')); auto.
    - apply vstart_stop, qt_vstart.
    - right. unfold quoted_name. do 2 eexists. split; [reflexivity|lia].
    - intros sn e n c R He Hc _. destruct (H sn e He) as (x & e' & H1 & H2). now apply (loop_member sn e b c R n _ y _ x e' j nm').
  Qed.
  Lemma unser_at nm z e : plain_name nm -> stop z -> unser_name nm (quoted_name nm z) false e =
    match z with
    | [] => ([], cerr UnexpectedEndFragment None 0 e, true)
    | d :: t2 => if negb (d =? COLON) then ([], cerr ExpectedOf (Some [COLON]) (dist z) e, true)
                 else let '(s3, e3) := parse_space t2 e in match s3 with [] => ([], cerr UnexpectedEndFragment None 0 e3, true) | _ => (s3, e3, true) end
    end.
  Proof.
    intros Hn Hz. unfold unser_name, quoted_name. cbn [is_string starts]. rewrite Z.eqb_refl. cbn [negb tl].
    rewrite name_loop_hit by exact Hn. rewrite Z.eqb_refl. cbn [negb orb]. rewrite space_stop by exact Hz. reflexivity.
  Qed.
  Lemma unser_gap nm g z e : plain_name nm -> gap g -> stop z -> unser_name nm (quoted_name nm (g ++ z)) false e = unser_name nm (quoted_name nm z) false e.
  Proof.
    intros Hn Hg Hz. unfold unser_name, quoted_name. cbn [is_string starts]. rewrite Z.eqb_refl. cbn [negb tl].
    rewrite !name_loop_hit by exact Hn. rewrite Z.eqb_refl. cbn [negb orb]. rewrite gap_parse_space by assumption. now rewrite (space_stop z) by exact Hz.
  Qed.
  (** the value of a listed member *)
  Theorem obj_value pre fs p b g g1 g2 h t y j old : Forall2 (item_sem mode L) pre fs -> prefix_text pre p -> In b L -> still (names L) (map fst pre) ->
    gap g -> gap g1 -> gap g2 -> token h -> reports (m_codec (memb_mem b)) (memb_old b (run_all fs old)) (h :: t) y j ->
    reports oc old (LCB :: p ++ g ++ QT :: memb_name b ++ QT :: g1 ++ COLON :: g2 ++ h :: t) (m_set (memb_mem b) (run_all fs old) y) j.
  Proof.
    intros Hf Hp Hb Hn Hg H1 H2 Hh (Hj & Hr). apply (object_member pre fs p b g (g1 ++ COLON :: g2 ++ h :: t)); auto.
    intros sn e He. exists (h :: t), e. split; [|now apply Hr].
    rewrite unser_gap; [|now apply (name_plain L HL)|exact H1|apply closer_stop; unfold closer; lia].
    rewrite unser_at; [|now apply (name_plain L HL)|apply closer_stop; unfold closer; lia]. change (COLON =? COLON) with true. cbn [negb].
    rewrite gap_parse_space by assumption. reflexivity.
  Qed.
  Theorem obj_end_value pre fs p b g g1 g2 y old : Forall2 (item_sem mode L) pre fs -> prefix_text pre p -> In b L -> still (names L) (map fst pre) ->
    gap g -> gap g1 -> gap g2 -> at_end (m_codec (memb_mem b)) (memb_old b (run_all fs old)) y ->
    reports oc old (LCB :: p ++ g ++ QT :: memb_name b ++ QT :: g1 ++ COLON :: g2) (m_set (memb_mem b) (run_all fs old) y) unexpected_end.
  Proof.
    intros Hf Hp Hb Hn Hg H1 H2 Hy. apply (object_member pre fs p b g (g1 ++ COLON :: g2)); auto.
    intros sn e He. exists [], (told e unexpected_end). split; [|apply Hy, told_state; reflexivity].
    rewrite unser_gap; [|now apply (name_plain L HL)|exact H1|apply closer_stop; unfold closer; lia].
    rewrite unser_at; [|now apply (name_plain L HL)|apply closer_stop; unfold closer; lia]. change (COLON =? COLON) with true. cbn [negb].
    rewrite gap_end by assumption. now rewrite cerr_told.
  Qed.
  Theorem obj_colon pre fs p b g g1 c r y old : Forall2 (item_sem mode L) pre fs -> prefix_text pre p -> In b L -> still (names L) (map fst pre) ->
    gap g -> gap g1 -> token c -> c <> COLON -> at_end (m_codec (memb_mem b)) (memb_old b (run_all fs old)) y ->
    reports oc old (LCB :: p ++ g ++ QT :: memb_name b ++ QT :: g1 ++ c :: r) (m_set (memb_mem b) (run_all fs old) y) (expected [COLON] (c :: r)).
  Proof.
    intros Hf Hp Hb Hn Hg H1 Hc Hcc Hy. apply (object_member pre fs p b g (g1 ++ c :: r)); auto.
    intros sn e He. exists [], (told e (expected [COLON] (c :: r))). split; [|apply Hy, told_state; reflexivity].
    rewrite unser_gap; [|now apply (name_plain L HL)|exact H1|exact Hc].
    rewrite unser_at; [|now apply (name_plain L HL)|exact Hc]. destruct (c =? COLON) eqn:E; [lia|]. cbn [negb]. now rewrite cerr_told.
  Qed.
  Theorem obj_end_colon pre fs p b g g1 y old : Forall2 (item_sem mode L) pre fs -> prefix_text pre p -> In b L -> still (names L) (map fst pre) ->
    gap g -> gap g1 -> at_end (m_codec (memb_mem b)) (memb_old b (run_all fs old)) y ->
    reports oc old (LCB :: p ++ g ++ QT :: memb_name b ++ QT :: g1) (m_set (memb_mem b) (run_all fs old) y) unexpected_end.
  Proof.
    intros Hf Hp Hb Hn Hg H1 Hy. rewrite <- (app_nil_r g1). apply (object_member pre fs p b g (g1 ++ [])); auto.
    intros sn e He. exists [], (told e unexpected_end). split; [|apply Hy, told_state; reflexivity].
    rewrite unser_gap; [|now apply (name_plain L HL)|exact H1|exact Logic.I].
    rewrite unser_at; [|now apply (name_plain L HL)|exact Logic.I]. now rewrite cerr_told.
  Qed.
End Obj.

(** unknown members of strict objects *)
Theorem obj_unknown {T} (L : list (memb T)) t0 pre fs p g nm x old : names_ok L -> Forall no_if L ->
  Forall2 (item_sem Strict L) pre fs -> prefix_text pre p -> still (names L) (map fst pre) ->
  gap g -> ~ In nm (names L) -> wchars nm ->
  reports (object_codec Strict L t0) old (LCB :: p ++ g ++ QT :: nm ++ QT :: x) (run_all fs old)
    (mkerr InvalidMember None (Z.of_nat (length (QT :: nm ++ QT :: x)))).
Proof.
  intros HL Hif Hf Hp Hn Hg Hnm Hw. change (QT :: nm ++ QT :: x) with (quoted_name nm x).
  apply (object_prefix Strict L t0 HL Hif pre fs p g (quoted_name nm x)); auto.
  - apply vstart_stop, qt_vstart.
  - right. unfold quoted_name. do 2 eexists. split; [reflexivity|lia].
  - intros sn e n c R He Hc _. cbn [members_loop].
    assert (Sk : forall c', In c' L -> forall t, memb_des c' sn t (quoted_name nm x) false e = Ok (t, false, quoted_name nm x, e)).
    { intros c' Hc' t. apply noif_skips; [now apply (noif_in L Hif)|now apply (name_plain L HL)|now apply wchars_qsafe| |exact He].
      intros ->. apply Hnm. now apply in_map. }
    rewrite Sk by exact Hc. cbn [bind negb].
    assert (Se : forall R' t, incl R' L -> search_members Strict sn R' t (quoted_name nm x) e = Ok (t, [], told e (mkerr InvalidMember None (dist (quoted_name nm x))))).
    { induction R' as [|c' R' IH]; intros t Hi; cbn [search_members].
      - unfold search_end, quoted_name. change (QT =? RCB) with false. cbn [bind]. now rewrite cerr_told.
      - rewrite Sk by (apply Hi; now left). cbn [bind negb]. apply IH. intros w Hw'. apply Hi. now right. }
    rewrite Se by apply incl_refl. cbn [bind]. rewrite space_stop by exact Logic.I. now rewrite told_cerr.
Qed.

(** ---- objects whose members all came in the listed order ---- *)
Section Exhausted.
  Context {T : Type} (mode : omode) (L : list (memb T)) (t0 : T).
  Hypothesis HL : names_ok L.
  Hypothesis Hif : Forall no_if L.
  Notation oc := (object_codec mode L t0).

  Lemma loop_exhausted sn e v j z pre fs : Forall2 (item_sem mode L) pre fs -> stop z -> no_err_yet e = true -> is_err j = true ->
    forall R p g t, incl R L -> uses (names R) (map fst pre) -> prefix_text pre p -> gap g ->
    rest_members mode sn z e = Ok ([], told e j) -> v = run_all fs t ->
    forall n, (length (fst (parse_space (p ++ g ++ z) e)) < n)%nat ->
    members_loop mode sn L n R t (fst (parse_space (p ++ g ++ z) e)) e = Ok (v, [], told e j) /\ snd (parse_space (p ++ g ++ z) e) = e.
  Proof.
    induction 1 as [|it f pre fs Hs Hfs IH]; intros Hz He Hj R p g t Hi Hm Hp Hg Hend Hv n.
    - inversion Hp; subst. destruct R; [|inversion Hm]. cbn [app]. rewrite gap_parse_space by assumption. cbn [fst snd]. intros Hl. split; [|reflexivity].
      destruct n as [|n]; [lia|]. cbn [members_loop]. rewrite Hend. reflexivity.
    - inversion Hp as [|? ? txt g1 g2 p' H1 Ht H2 Hp']; subst. destruct R as [|c R]; [inversion Hm|]. unfold names in Hm. cbn [map] in Hm.
      assert (Hst : stop (txt ++ g2 ++ COMMA :: p' ++ g ++ z)).
      { destruct (member_text_head _ _ Ht) as (y & ->). apply vstart_stop, qt_vstart. }
      repeat (rewrite <- ?app_assoc; cbn [app]). rewrite gap_parse_space by assumption. cbn [fst snd]. intros Hl. split; [|reflexivity].
      destruct n as [|n]; [lia|]. assert (Hc : In c L) by (apply Hi; now left).
      rewrite (loop_item mode L HL Hif sn e it f t txt g2 (COMMA :: p' ++ g ++ z)); auto; [|apply closer_stop, cstop|apply gap_follow; auto using cstop].
      change (COMMA =? COMMA) with true. cbv iota. set (R1 := if name_dec (fst it) (memb_name c) then R else c :: R).
      destruct (IH Hz He Hj R1 p' g (f t)) with (n := n) as (E1 & E2); auto.
      + intros y Hy. apply Hi. unfold R1 in Hy. destruct (name_dec _ _); [now right|exact Hy].
      + unfold R1, names. destruct (name_dec (fst it) (memb_name c)) as [En|En]; inversion Hm; subst; congruence || assumption.
      + pose proof (space_good (p' ++ g ++ z)) as (r & o & Ga & Gb & _). rewrite Ga. cbn [fst]. apply suffix_len in Gb.
        rewrite !app_length in *. cbn [length] in *. rewrite !app_length in *. destruct (member_text_head _ _ Ht) as (y & ->). cbn [length] in *. lia.
      + destruct (parse_space (p' ++ g ++ z) e) as [s4 e4]. cbn [fst snd] in E1, E2. subst e4. rewrite E1. cbn [bind at_close]. now rewrite told_cerr.
  Qed.
  Lemma object_exhausted pre fs p g z j old : Forall2 (item_sem mode L) pre fs -> prefix_text pre p -> uses (names L) (map fst pre) -> L <> [] ->
    gap g -> stop z -> is_err j = true ->
    (forall sn e, no_err_yet e = true -> rest_members mode sn z e = Ok ([], told e j)) ->
    reports oc old (LCB :: p ++ g ++ z) (run_all fs old) j.
  Proof.
    intros Hf Hp Hm Hne Hg Hz Hj Hend. split; [exact Hj|]. intros sn e He. cbn [des object_codec]. unfold object_des.
    change (is_null (LCB :: p ++ g ++ z)) with false. change (LCB =? LCB) with true. cbv iota. cbn [negb].
    destruct (loop_exhausted sn e (run_all fs old) j z pre fs Hf Hz He Hj L p g old (incl_refl _) Hm Hp Hg (Hend sn e He) eq_refl
      (S (length (fst (parse_space (p ++ g ++ z) e)))) ltac:(lia)) as (E1 & E2).
    assert (Hx : exists c r, fst (parse_space (p ++ g ++ z) e) = c :: r /\ c <> RCB).
    { inversion Hp as [|it its txt g1 g2 p' H1 Ht H2 Hp' Ea Eb]; subst.
      - destruct L; [congruence|inversion Hm].
      - repeat (rewrite <- ?app_assoc; cbn [app]). destruct (member_text_head _ _ Ht) as (y & ->).
        rewrite gap_parse_space; [|exact H1|apply vstart_stop, qt_vstart]. cbn [app fst]. do 2 eexists. split; [reflexivity|lia]. }
    destruct (parse_space (p ++ g ++ z) e) as [s1 e1]. cbn [fst snd] in *. subst e1. destruct Hx as (c & r & -> & Hc).
    destruct (c =? RCB) eqn:E; [lia|]. cbn [negb]. rewrite E1. cbn [bind]. now rewrite told_cerr.
  Qed.
  (** the members after the listed ones *)
  Lemma rest_loop_prefix sn e j z xs q : Forall item_wf xs -> prefix_text xs q -> stop z -> no_err_yet e = true ->
    (forall n, (length z < S n)%nat -> rest_loop mode sn (S n) z e = Ok ([], told e j)) -> forall g, gap g ->
    forall n, (length (fst (parse_space (q ++ g ++ z) e)) < n)%nat ->
    rest_loop mode sn n (fst (parse_space (q ++ g ++ z) e)) e = Ok ([], told e j) /\ snd (parse_space (q ++ g ++ z) e) = e.
  Proof.
    intros Hw Hq Hz He Hend. induction Hq as [|it its txt g1 g2 q H1 Ht H2 Hq IH]; intros g Hg n.
    - cbn [app]. rewrite gap_parse_space by assumption. cbn [fst snd]. intros Hl. split; [|reflexivity]. destruct n as [|n]; [lia|]. now apply Hend.
    - inversion Hw as [|? ? Hw1 Hw2]; subst.
      assert (Hst : stop (txt ++ g2 ++ COMMA :: q ++ g ++ z)).
      { destruct (member_text_head _ _ Ht) as (y & ->). apply vstart_stop, qt_vstart. }
      repeat (rewrite <- ?app_assoc; cbn [app]). rewrite gap_parse_space by assumption. cbn [fst snd]. intros Hl. split; [|reflexivity].
      destruct n as [|n]; [lia|]. cbn [rest_loop]. rewrite (parse_member_app sn it); auto; [|apply gap_follow; auto using cstop]. cbn [bind].
      rewrite gap_parse_space; [|exact H2|apply closer_stop, cstop]. change (COMMA =? RCB) with false. change (COMMA =? COMMA) with true. cbn [negb].
      destruct (IH Hw2 g Hg n) as (E1 & E2).
      + pose proof (space_good (q ++ g ++ z)) as (r & o & Ga & Gb & _). rewrite Ga. cbn [fst]. apply suffix_len in Gb.
        rewrite !app_length in *. cbn [length] in *. rewrite !app_length in *. destruct (member_text_head _ _ Ht) as (y & ->). cbn [length] in *. lia.
      + destruct (parse_space (q ++ g ++ z) e) as [s4 e4]. cbn [fst snd] in E1, E2. now subst e4.
  Qed.
  Lemma rest_run j xs q g it txt g2 c r : Forall item_wf xs -> prefix_text xs q -> gap g -> item_wf it -> member_text it txt -> gap g2 -> token c -> follow (g2 ++ c :: r) ->
    (forall sn e n, no_err_yet e = true -> rest_loop mode sn (S n) (txt ++ g2 ++ c :: r) e = Ok ([], told e j)) ->
    forall sn e, no_err_yet e = true -> rest_members mode sn (q ++ g ++ txt ++ g2 ++ c :: r) e = Ok ([], told e j).
  Proof.
    intros Hxs Hq Hg Hw Ht Hg2 Hc Hf Hend sn e He. unfold rest_members.
    assert (Hz : stop (txt ++ g2 ++ c :: r)) by (destruct (member_text_head _ _ Ht) as (y & ->); apply vstart_stop, qt_vstart).
    destruct (rest_loop_prefix sn e j (txt ++ g2 ++ c :: r) xs q Hxs Hq Hz He (fun n _ => Hend sn e n He) g Hg
      (S (length (fst (parse_space (q ++ g ++ txt ++ g2 ++ c :: r) e)))) ltac:(lia)) as (E1 & E2).
    assert (Hx : exists d y, fst (parse_space (q ++ g ++ txt ++ g2 ++ c :: r) e) = d :: y /\ d <> RCB).
    { inversion Hq as [|it' its txt' g1 g2' p' H1 Ht' H2 Hp' Ea Eb]; subst.
      - cbn [app]. rewrite gap_parse_space by assumption. destruct (member_text_head _ _ Ht) as (y & ->). cbn [app fst]. do 2 eexists. split; [reflexivity|lia].
      - repeat (rewrite <- ?app_assoc; cbn [app]). destruct (member_text_head _ _ Ht') as (y & ->).
        rewrite gap_parse_space; [|exact H1|apply vstart_stop, qt_vstart]. cbn [app fst]. do 2 eexists. split; [reflexivity|lia]. }
    destruct (parse_space (q ++ g ++ txt ++ g2 ++ c :: r) e) as [s1 e1]. cbn [fst snd] in *. subst e1. destruct Hx as (d & y & -> & Hd).
    destruct (d =? RCB) eqn:E; [lia|]. exact E1.
  Qed.
  Theorem obj_rest_separator pre fs p xs q g it txt g2 c r old : Forall2 (item_sem mode L) pre fs -> prefix_text pre p -> uses (names L) (map fst pre) -> L <> [] ->
    Forall item_wf xs -> prefix_text xs q -> gap g -> item_wf it -> member_text it txt -> gap g2 -> token c -> follow (g2 ++ c :: r) -> c <> COMMA -> c <> RCB ->
    reports oc old (LCB :: p ++ q ++ g ++ txt ++ g2 ++ c :: r) (run_all fs old) (expected [COMMA] (c :: r)).
  Proof.
    intros Hf Hp Hm Hne Hxs Hq Hg Hw Ht Hg2 Hc Hfo Hcc Hcr.
    assert (R : forall sn e, no_err_yet e = true -> rest_members mode sn (q ++ g ++ txt ++ g2 ++ c :: r) e = Ok ([], told e (expected [COMMA] (c :: r)))).
    { apply (rest_run _ xs q g it txt g2 c r); auto. intros sn e n He. cbn [rest_loop]. rewrite (parse_member_app sn it) by assumption. cbn [bind].
      rewrite gap_parse_space by assumption. destruct (c =? RCB) eqn:E; [lia|]. destruct (c =? COMMA) eqn:E2; [lia|]. cbn [negb]. now rewrite cerr_told. }
    inversion Hq as [|it' its txt' g1 g2' p' H1 Ht' H2 Hp' Ea Eb]; subst.
    - cbn [app]. apply (object_exhausted pre fs p g (txt ++ g2 ++ c :: r)); auto.
      + destruct (member_text_head _ _ Ht) as (y & ->). apply vstart_stop, qt_vstart.
      + intros sn e He. specialize (R sn e He). cbn [app] in R. unfold rest_members in *. rewrite gap_parse_space in R; [|exact Hg|destruct (member_text_head _ _ Ht) as (y & ->); apply vstart_stop, qt_vstart].
        rewrite space_stop; [exact R|]. destruct (member_text_head _ _ Ht) as (y & ->). apply vstart_stop, qt_vstart.
    - assert (Hst : forall w, stop (txt' ++ w)) by (intros w; destruct (member_text_head _ _ Ht') as (y & ->); apply vstart_stop, qt_vstart).
      replace (p ++ (g1 ++ txt' ++ g2' ++ COMMA :: p') ++ g ++ txt ++ g2 ++ c :: r) with (p ++ g1 ++ (txt' ++ g2' ++ COMMA :: p' ++ g ++ txt ++ g2 ++ c :: r))
        by (repeat (rewrite <- ?app_assoc; cbn [app]); reflexivity).
      apply (object_exhausted pre fs p g1); auto. intros sn e He. specialize (R sn e He). unfold rest_members in *.
      repeat (rewrite <- ?app_assoc in R; cbn [app] in R). rewrite gap_parse_space in R by auto. now rewrite space_stop by apply Hst.
  Qed.
End Exhausted.

(** the last member of a strict object is the one reported *)
Theorem obj_rest_unknown {T} (L : list (memb T)) t0 pre fs p xs q g it txt g2 r old : names_ok L -> Forall no_if L ->
  Forall2 (item_sem Strict L) pre fs -> prefix_text pre p -> uses (names L) (map fst pre) -> L <> [] ->
  Forall item_wf xs -> prefix_text xs q -> gap g -> item_wf it -> member_text it txt -> gap g2 ->
  reports (object_codec Strict L t0) old (LCB :: p ++ q ++ g ++ txt ++ g2 ++ RCB :: r) (run_all fs old)
    (mkerr InvalidMember None (Z.of_nat (length (txt ++ g2 ++ RCB :: r)))).
Proof.
  intros HL Hif Hf Hp Hm Hne Hxs Hq Hg Hw Ht Hg2. set (j := mkerr InvalidMember None _).
  assert (R : forall sn e, no_err_yet e = true -> rest_members Strict sn (q ++ g ++ txt ++ g2 ++ RCB :: r) e = Ok ([], told e j)).
  { assert (Ht1 : token RCB) by exact (closer_stop RCB [] rcstop). assert (Hf1 : follow (g2 ++ RCB :: r)) by (apply gap_follow; auto using rcstop).
    apply (rest_run Strict j xs q g it txt g2 RCB r Hxs Hq Hg Hw Ht Hg2 Ht1 Hf1).
    intros sn e n He. cbn [rest_loop]. rewrite (parse_member_app sn it) by assumption. cbn [bind].
    rewrite gap_parse_space; [|exact Hg2|apply closer_stop, rcstop]. change (RCB =? RCB) with true. cbv iota. now rewrite cerr_told. }
  assert (Hst : forall it' t' w, member_text it' t' -> stop (t' ++ w)) by (intros it' t' w H; destruct (member_text_head _ _ H) as (y & ->); apply vstart_stop, qt_vstart).
  inversion Hq as [|it' its txt' g1 g2' p' H1 Ht' H2 Hp' Ea Eb]; subst.
  - cbn [app]. apply (object_exhausted Strict L t0 HL Hif pre fs p g (txt ++ g2 ++ RCB :: r)); eauto.
    intros sn e He. specialize (R sn e He). cbn [app] in R. unfold rest_members in *. rewrite gap_parse_space in R by eauto.
    rewrite space_stop; eauto.
  - replace (p ++ (g1 ++ txt' ++ g2' ++ COMMA :: p') ++ g ++ txt ++ g2 ++ RCB :: r) with (p ++ g1 ++ (txt' ++ g2' ++ COMMA :: p' ++ g ++ txt ++ g2 ++ RCB :: r))
      by (repeat (rewrite <- ?app_assoc; cbn [app]); reflexivity).
    apply (object_exhausted Strict L t0 HL Hif pre fs p g1); eauto. intros sn e He. specialize (R sn e He). unfold rest_members in *.
    repeat (rewrite <- ?app_assoc in R; cbn [app] in R). rewrite gap_parse_space in R by eauto. rewrite space_stop by eauto. exact R.
Qed.

(** ---- structs written as arrays ---- *)
Section OArr.
  Context {T : Type} (t0 : T).
  Definition aclose (t : T) (s : buf) (e : eptr) : res (T * buf * eptr) :=
    match s with
    | [] => Ok (t, [], cerr UnexpectedEndFragment None 0 e)
    | f :: _ => if negb (f =? RBR) then Ok (t, [], cerr ExpectedOf (Some [RBR]) (dist s) e) else Ok (t, s, e)
    end.
  Lemma amembers_prefix sn e v j z L2 ts b : commas ts b -> stop z -> no_err_yet e = true -> is_err j = true -> forall L1 fs, elems L1 ts fs -> Forall no_if L1 ->
    forall g t, gap g ->
    (exists s3 e3, amembers_des sn L2 (run_all fs t) z e = Ok (v, s3, e3) /\ stop s3 /\ aclose v s3 e3 = Ok (v, [], told e j)) ->
    (exists s3 e3, amembers_des sn (L1 ++ L2) t (fst (parse_space (b ++ g ++ z) e)) e = Ok (v, s3, e3) /\ stop s3 /\ aclose v s3 e3 = Ok (v, [], told e j))
    /\ snd (parse_space (b ++ g ++ z) e) = e.
  Proof.
    induction 1 as [|g1 x g2 ts b H1 H2 Hb IH]; intros Hz He Hj L1 fs Hel Hn g t Hg Hend.
    - inversion Hel; subst. cbn [app]. rewrite gap_parse_space by assumption. cbn [fst snd]. auto.
    - inversion Hel as [|m L1' vt F ts' fs' Hv Hel' Ea Eb Ec]; subst. inversion Hn as [|? ? Hm Hn']; subst.
      pose proof (noif_areads m x F t Hm Hv) as ((h & y & Ex & Hh) & Hd).
      assert (Hst : forall w, stop (x ++ w)) by (intros w; rewrite Ex; now apply vstart_stop).
      repeat (rewrite <- ?app_assoc; cbn [app]). rewrite gap_parse_space by auto. cbn [fst snd]. split; [|reflexivity]. cbn [app amembers_des].
      rewrite Hd; [|apply gap_follow; auto using cstop|exact He]. cbn [bind]. rewrite gap_parse_space; [|exact H2|apply closer_stop, cstop].
      change (COMMA =? COMMA) with true. cbv iota. cbn [run_all fold_left] in Hend.
      destruct (IH Hz He Hj L1' fs' Hel' Hn' g (m_set (memb_mem m) t (F (memb_old m t))) Hg Hend) as ((s3 & e3 & E1 & Es & E2) & E3).
      destruct (parse_space (b ++ g ++ z) e) as [s4 e4]. cbn [fst snd] in *. subst e4. rewrite E1. cbn [bind]. exists [], (told e j).
      split; [exact E2|]. split; [exact Logic.I|]. cbn [aclose]. now rewrite told_cerr.
  Qed.
  Lemma oarray_prefix L1 L2 ts b fs g z v j old : commas ts b -> elems L1 ts fs -> Forall no_if L1 -> gap g -> stop z -> is_err j = true ->
    (ts = [] -> exists c r, z = c :: r /\ c <> RBR) ->
    (forall sn e, no_err_yet e = true -> exists s3 e3, amembers_des sn L2 (run_all fs old) z e = Ok (v, s3, e3) /\ stop s3 /\ aclose v s3 e3 = Ok (v, [], told e j)) ->
    reports (oarray_codec (L1 ++ L2) t0) old (LBR :: b ++ g ++ z) v j.
  Proof.
    intros Hb Hel Hn Hg Hz Hj Hne Hend. split; [exact Hj|]. intros sn e He. cbn [des oarray_codec]. unfold oarray_des.
    change (is_null (LBR :: b ++ g ++ z)) with false. change (LBR =? LBR) with true. cbv iota. cbn [negb].
    destruct (amembers_prefix sn e v j z L2 ts b Hb Hz He Hj L1 fs Hel Hn g old Hg (Hend sn e He)) as ((s3 & e3 & E1 & Es & E2) & E3).
    assert (Hx : exists c r, fst (parse_space (b ++ g ++ z) e) = c :: r /\ c <> RBR).
    { inversion Hb as [|g1 x g2 ts' b' H1 H2 Hb' Ea Eb]; subst.
      - destruct (Hne eq_refl) as (c & r & -> & Hc). cbn [app]. rewrite gap_parse_space by assumption. exists c, r. split; [reflexivity|exact Hc].
      - inversion Hel as [|m L1' vt F ts'' fs' Hv Hel']; subst. destruct Hv as ((h & y & -> & Hh) & _). repeat (rewrite <- ?app_assoc; cbn [app]).
        rewrite gap_parse_space; [|exact H1|now apply vstart_stop]. cbn [fst]. do 2 eexists. split; [reflexivity|]. unfold vstart, s_digit in Hh. lia. }
    destruct (parse_space (b ++ g ++ z) e) as [s1 e1]. cbn [fst snd] in *. subst e1. destruct Hx as (c & r & -> & Hc).
    destruct (c =? RBR) eqn:E; [lia|]. cbn [negb]. rewrite E1. cbn [bind]. destruct s3 as [|f s3].
    - exact E2.
    - rewrite space_stop by exact Es. cbn [aclose] in E2. destruct (f =? RBR) eqn:E4; cbn [negb] in *; [discriminate|]. rewrite <- E2. unfold dist. cbn [length]. do 3 f_equal. lia.
  Qed.
  Theorem oarr_open L old c s : c <> LBR -> c <> 110 -> reports (oarray_codec L t0) old (c :: s) old (expected [LBR] (c :: s)).
  Proof.
    intros H1 H2. split; [reflexivity|]. intros sn e He. cbn [des oarray_codec]. unfold oarray_des, is_null, starts.
    destruct (c =? 110) eqn:E; [lia|]. destruct (c =? LBR) eqn:E2; [lia|]. cbn [negb]. now rewrite cerr_told.
  Qed.
  Theorem oarr_empty L old : reports (oarray_codec L t0) old [] old unexpected_end.
  Proof. split; [reflexivity|]. intros sn e He. cbn [des oarray_codec]. unfold oarray_des. cbn [is_null starts]. now rewrite cerr_told. Qed.
  Theorem oarr_end_first L old g : gap g -> reports (oarray_codec L t0) old (LBR :: g) old unexpected_end.
  Proof.
    intros Hg. split; [reflexivity|]. intros sn e He. cbn [des oarray_codec]. unfold oarray_des. change (is_null (LBR :: g)) with false.
    change (LBR =? LBR) with true. cbv iota. cbn [negb]. rewrite gap_end by exact Hg. now rewrite cerr_told.
  Qed.
  (** the element of the next member *)
  Theorem oarr_item L1 m L2 ts b fs g z y j old : commas ts b -> elems L1 ts fs -> Forall no_if (L1 ++ [m]) -> gap g -> stop z ->
    (ts = [] -> exists c r, z = c :: r /\ c <> RBR) -> reports (m_codec (memb_mem m)) (memb_old m (run_all fs old)) z y j ->
    reports (oarray_codec (L1 ++ m :: L2) t0) old (LBR :: b ++ g ++ z) (m_set (memb_mem m) (run_all fs old) y) j.
  Proof.
    intros Hb Hel Hn Hg Hz Hne (Hj & Hr). apply Forall_app in Hn. destruct Hn as (Hn & Hm). inversion Hm as [|? ? Hm' _]; subst.
    apply (oarray_prefix L1 (m :: L2) ts b fs g z); auto. intros sn e He. exists [], (told e j).
    split; [|split; [exact Logic.I|cbn [aclose]; now rewrite told_cerr]]. cbn [amembers_des].
    assert (amemb_des m sn (run_all fs old) z e = Ok (m_set (memb_mem m) (run_all fs old) y, [], told e j)) as ->.
    { specialize (Hr sn e He). destruct m as [m|m i|]; [| |contradiction]; cbn [amemb_des memb_mem memb_old] in *; unfold amem_des; rewrite Hr; reflexivity. }
    cbn [bind]. rewrite space_stop by exact Logic.I. now rewrite told_cerr.
  Qed.
  Lemma amembers_one sn e m L2 vt F g2 z t : no_if m -> rdf (m_codec (memb_mem m)) vt F -> gap g2 -> stop z -> follow (g2 ++ z) -> no_err_yet e = true ->
    (forall c r, z = c :: r -> c <> COMMA) ->
    amembers_des sn (m :: L2) t (vt ++ g2 ++ z) e = aclose (m_set (memb_mem m) t (F (memb_old m t))) z e.
  Proof.
    intros Hm Hv Hg2 Hz Hf He Hc. destruct (noif_areads m vt F t Hm Hv) as (_ & Hd). cbn [amembers_des]. rewrite Hd by assumption. cbn [bind].
    rewrite gap_parse_space by assumption. destruct z as [|c r]; [reflexivity|]. specialize (Hc c r eq_refl). destruct (c =? COMMA) eqn:E; [lia|]. reflexivity.
  Qed.
  Theorem oarr_separator L1 m L2 ts b fs g vt F g2 c r old : commas ts b -> elems L1 ts fs -> Forall no_if (L1 ++ [m]) -> gap g -> gap g2 ->
    rdf (m_codec (memb_mem m)) vt F -> token c -> follow (g2 ++ c :: r) -> c <> COMMA -> c <> RBR ->
    reports (oarray_codec (L1 ++ m :: L2) t0) old (LBR :: b ++ g ++ vt ++ g2 ++ c :: r)
      (m_set (memb_mem m) (run_all fs old) (F (memb_old m (run_all fs old)))) (expected [RBR] (c :: r)).
  Proof.
    intros Hb Hel Hn Hg Hg2 Hv Hc Hf Hcc Hcr. apply Forall_app in Hn. destruct Hn as (Hn & Hm). inversion Hm as [|? ? Hm' _]; subst.
    pose proof Hv as ((h & y & Ev & Hh) & _).
    apply (oarray_prefix L1 (m :: L2) ts b fs g (vt ++ g2 ++ c :: r)); auto.
    - rewrite Ev. now apply vstart_stop.
    - intros _. rewrite Ev. cbn [app]. do 2 eexists. split; [reflexivity|]. unfold vstart, s_digit in Hh. lia.
    - intros sn e He. rewrite (amembers_one sn e m L2 vt F g2 (c :: r)) by (auto; intros ? ? [= <- <-]; exact Hcc). cbn [aclose]. destruct (c =? RBR) eqn:E; [lia|]. cbn [negb].
      exists [], (told e (expected [RBR] (c :: r))). rewrite cerr_told by exact He. split; [reflexivity|]. split; [exact Logic.I|]. cbn [aclose]. now rewrite told_cerr.
  Qed.
  Theorem oarr_end_separator L1 m L2 ts b fs g vt F g2 old : commas ts b -> elems L1 ts fs -> Forall no_if (L1 ++ [m]) -> gap g -> gap g2 ->
    rdf (m_codec (memb_mem m)) vt F ->
    reports (oarray_codec (L1 ++ m :: L2) t0) old (LBR :: b ++ g ++ vt ++ g2)
      (m_set (memb_mem m) (run_all fs old) (F (memb_old m (run_all fs old)))) unexpected_end.
  Proof.
    intros Hb Hel Hn Hg Hg2 Hv. apply Forall_app in Hn. destruct Hn as (Hn & Hm). inversion Hm as [|? ? Hm' _]; subst.
    pose proof Hv as ((h & y & Ev & Hh) & _). rewrite <- (app_nil_r g2).
    apply (oarray_prefix L1 (m :: L2) ts b fs g (vt ++ g2 ++ [])); auto.
    - rewrite Ev. now apply vstart_stop.
    - intros _. rewrite Ev. cbn [app]. do 2 eexists. split; [reflexivity|]. unfold vstart, s_digit in Hh. lia.
    - intros sn e He. rewrite (amembers_one sn e m L2 vt F g2 []); auto; [|exact Logic.I|rewrite app_nil_r; now apply gap_follow_end|discriminate].
      cbn [aclose]. exists [], (told e unexpected_end). rewrite cerr_told by exact He. split; [reflexivity|]. split; [exact Logic.I|]. cbn [aclose]. now rewrite told_cerr.
  Qed.
  (** more elements than members *)
  Theorem oarr_extra L ts b fs g c r old : commas ts b -> elems L ts fs -> Forall no_if L -> gap g -> token c -> c <> RBR ->
    reports (oarray_codec L t0) old (LBR :: b ++ g ++ c :: r) (run_all fs old) (expected [RBR] (c :: r)).
  Proof.
    intros Hb Hel Hn Hg Hc Hcr. rewrite <- (app_nil_r L). apply (oarray_prefix L [] ts b fs g (c :: r)); auto.
    - intros _. exists c, r. auto.
    - intros sn e He. cbn [amembers_des]. exists (c :: r), e. split; [reflexivity|]. split; [exact Hc|]. cbn [aclose]. destruct (c =? RBR) eqn:E; [lia|]. cbn [negb]. now rewrite cerr_told.
  Qed.
End OArr.

(** ---- wrappers ---- *)
Theorem member_value_report {T A} (get : T -> A) (set : T -> A -> T) (c : codec A) old s v j :
  reports c (get old) s v j -> reports (member_value_codec get set c) old s (set old v) j.
Proof. intros (Hj & Hr). split; [exact Hj|]. intros sn e He. cbn [des member_value_codec]. rewrite Hr by exact He. reflexivity. Qed.
Theorem ptr_report {A} (J : codec A) d0 old h t v j : h <> 110 -> reports J d0 (h :: t) v j -> reports (ptr_codec J d0) old (h :: t) (Some v) j.
Proof.
  intros Hh (Hj & Hr). split; [exact Hj|]. intros sn e He. cbn [des ptr_codec]. unfold ptr_des. destruct (h =? 110) eqn:E; [lia|]. cbn [negb].
  rewrite Hr by exact He. reflexivity.
Qed.
Theorem unquoted_report {A} (J : codec A) sq old h t v j : h <> QT -> reports J old (h :: t) v j -> reports (quoted_codec J sq false) old (h :: t) v j.
Proof.
  intros Hh (Hj & Hr). split; [exact Hj|]. intros sn e He. cbn [des quoted_codec]. unfold quoted_des, is_string, starts. destruct (h =? QT) eqn:E; [lia|].
  now apply Hr.
Qed.

(** ---- leaves ---- *)
Theorem int_empty ty old : reports (int_codec ty) old [] old unexpected_end.
Proof. split; [reflexivity|]. intros sn e He. cbn [des int_codec]. unfold int_des, unserialize_integer. cbn [is_null starts]. now rewrite cerr_told. Qed.
Theorem int_bad ty old c s : c <> 110 -> c <> MINUS -> ~ s_digit c -> reports (int_codec ty) old (c :: s) 0 (mkerr InvalidNumber None (Z.of_nat (length (c :: s)))).
Proof.
  intros H1 H2 H3. split; [reflexivity|]. intros sn e He. cbn [des int_codec]. unfold int_des, unserialize_integer, is_null, starts.
  destruct (c =? 110) eqn:E; [lia|]. destruct (c =? MINUS) eqn:E2; [lia|]. cbv zeta iota. assert (is_digit c = false) as -> by (unfold is_digit, s_digit in *; lia).
  cbn [negb]. now rewrite cerr_told.
Qed.
Theorem int_minus ty old s : (forall c r, s = c :: r -> ~ s_digit c) -> reports (int_codec ty) old (MINUS :: s) 0 (mkerr InvalidNumber None (Z.of_nat (length s))).
Proof.
  intros H. split; [reflexivity|]. intros sn e He. cbn [des int_codec]. unfold int_des, unserialize_integer, is_null, starts.
  change (MINUS =? 110) with false. change (MINUS =? MINUS) with true. cbv zeta iota. destruct s as [|c s]; [now rewrite cerr_told|].
  specialize (H c s eq_refl). assert (is_digit c = false) as -> by (unfold is_digit, s_digit in *; lia). cbn [negb]. now rewrite cerr_told.
Qed.
Theorem bool_empty old : reports bool_codec old [] old unexpected_end.
Proof. split; [reflexivity|]. intros sn e He. cbn [des bool_codec]. unfold bool_des. now rewrite cerr_told. Qed.
Theorem bool_bad old c s : c <> 110 -> c <> 116 -> c <> 102 -> reports bool_codec old (c :: s) false (mkerr InvalidBool None (Z.of_nat (length (c :: s)))).
Proof.
  intros H1 H2 H3. split; [reflexivity|]. intros sn e He. cbn [des bool_codec]. unfold bool_des, is_null, starts.
  destruct (c =? 110) eqn:E; [lia|]. destruct (c =? 116) eqn:E2; [lia|]. destruct (c =? 102) eqn:E3; [lia|]. now rewrite cerr_told.
Qed.
(** the only thing a numeric or boolean target does at the end of the input *)
Theorem int_at_end ty old : at_end (int_codec ty) old old.
Proof. intros sn e He. cbn [des int_codec]. unfold int_des, unserialize_integer. cbn [is_null starts]. destruct He as [->|(j & -> & Hj)]; [reflexivity|]. cbn. now rewrite Hj. Qed.
Theorem bool_at_end old : at_end bool_codec old old.
Proof. intros sn e He. cbn [des bool_codec]. unfold bool_des. destruct He as [->|(j & -> & Hj)]; [reflexivity|]. cbn. now rewrite Hj. Qed.
Theorem obj_at_end {T} mode (L : list (memb T)) t0 old : at_end (object_codec mode L t0) old old.
Proof. intros sn e He. cbn [des object_codec]. unfold object_des. cbn [is_null starts]. destruct He as [->|(j & -> & Hj)]; [reflexivity|]. cbn. now rewrite Hj. Qed.
Theorem seq_at_end {A C S} (k : container A C S) L R (item : codec A) d0 old : at_end (seq_codec k L R item d0) old (holds k []).
Proof. intros sn e He. cbn [des seq_codec]. unfold seq_des. cbn [is_null starts]. destruct He as [->|(j & -> & Hj)]; [reflexivity|]. cbn. now rewrite Hj. Qed.
(** strings *)
Lemma str_loop_prefix l m : dchunks l m -> forall f z n e out, (length l + length z < f)%nat -> dist m <= n ->
  exists f', (length z < f')%nat /\ str_loop f (l ++ z) n e out = str_loop f' z (n - dist m) e (out ++ m).
Proof.
  induction 1 as [|c w l m (Hc & Hw & Hst) Hl IH]; intros f z n e out Hf Hn.
  - exists f. split; [cbn in Hf; lia|]. cbn [app]. rewrite app_nil_r. f_equal. cbn. lia.
  - destruct f; [lia|]. rewrite <- app_assoc. rewrite dist_app in Hn. pose proof (dist_pos m). rewrite Hst by lia.
    destruct (IH f z (n - dist w) e (out ++ w)) as (f' & Hf' & E); [|lia|].
    + rewrite app_length in Hf. destruct c; [congruence|cbn in Hf; lia].
    + exists f'. split; [exact Hf'|]. rewrite E, app_assoc. f_equal. rewrite dist_app. lia.
Qed.
Theorem str_open old c s : c <> 110 -> c <> QT -> reports string_codec old (c :: s) [] (expected [QT] (c :: s)).
Proof.
  intros H1 H2. split; [reflexivity|]. intros sn e He. cbn [des string_codec]. unfold string_des, str_unser, is_null, starts.
  destruct (c =? 110) eqn:E; [lia|]. destruct (c =? QT) eqn:E2; [lia|]. cbn [negb]. rewrite cerr_told by exact He.
  unfold expected. cbn [length]. repeat f_equal. unfold dist. lia.
Qed.
Theorem str_empty old : reports string_codec old [] [] unexpected_end.
Proof. split; [reflexivity|]. intros sn e He. cbn [des string_codec]. unfold string_des. cbn [is_null starts str_unser]. now rewrite cerr_told. Qed.
Lemma str_des_loop l m z old sn e : dchunks l m -> dist m <= INT_MAX -> exists f', (length z < f')%nat /\
  des string_codec sn old (QT :: l ++ z) e =
  let* x := str_loop f' z (INT_MAX - dist m) e m in
  match x with
  | inr (e1, out) => Ok (out, [], e1)
  | inl ([], e1, out) => Ok (out, [], cerr UnexpectedEndFragment None 0 e1)
  | inl (d :: t1, e1, out) => if negb (d =? QT) then Ok (out, [], cerr ExpectedOf (Some [QT]) (dist t1 + 1) e1) else Ok (out, t1, e1)
  end.
Proof.
  intros Hl Hm. destruct (str_loop_prefix l m Hl (S (length (l ++ z))) z INT_MAX e [] ltac:(rewrite app_length; lia) Hm) as (f' & Hf & E).
  exists f'. split; [exact Hf|]. cbn [des string_codec]. unfold string_des, str_unser. change (is_null (QT :: l ++ z)) with false. change (QT =? QT) with true.
  cbv iota. cbn [negb]. rewrite E. reflexivity.
Qed.
Theorem str_end old l m : lmean_bmp l m -> dist m <= INT_MAX -> reports string_codec old (QT :: l) m unexpected_end.
Proof.
  intros Hl Hm. split; [reflexivity|]. intros sn e He. destruct (str_des_loop l m [] old sn e (lmean_dchunks l m Hl) Hm) as (f & Hf & E).
  rewrite app_nil_r in E. rewrite E. destruct f; [cbn in Hf; lia|]. cbn [str_loop bind]. now rewrite cerr_told.
Qed.
Theorem str_end_escape old l m : lmean_bmp l m -> dist m < INT_MAX -> reports string_codec old (QT :: l ++ [BSL]) m unexpected_end.
Proof.
  intros Hl Hm. split; [reflexivity|]. intros sn e He. destruct (str_des_loop l m [BSL] old sn e (lmean_dchunks l m Hl) ltac:(lia)) as (f & Hf & ->).
  destruct f; [cbn in Hf; lia|]. cbn [str_loop]. change (BSL =? QT) with false. destruct (INT_MAX - dist m =? 0) eqn:E; [lia|]. cbn [orb].
  change (BSL =? BSL) with true. cbn [bind]. now rewrite cerr_told.
Qed.
(** \ followed by a byte that names no escape: the position of that byte *)
Theorem str_escape old l m c r : lmean_bmp l m -> dist m < INT_MAX -> ~ In c [QT; BSL; SLASH; 98; 102; 110; 114; 116; 117; 120] ->
  reports string_codec old (QT :: l ++ BSL :: c :: r) m (mkerr InvalidString None (Z.of_nat (length (c :: r)))).
Proof.
  intros Hl Hm Hc. split; [reflexivity|]. intros sn e He. destruct (str_des_loop l m (BSL :: c :: r) old sn e (lmean_dchunks l m Hl) ltac:(lia)) as (f & Hf & ->).
  destruct f; [cbn in Hf; lia|]. cbn [str_loop]. change (BSL =? QT) with false. destruct (INT_MAX - dist m =? 0) eqn:E; [lia|]. cbn [orb].
  change (BSL =? BSL) with true. cbv iota. cbn [In] in Hc.
  assert (unescape c = None) as ->.
  { unfold unescape. assert ((c =? QT) || (c =? BSL) || (c =? SLASH) = false) as -> by lia.
    assert (c =? 116 = false) as -> by lia. assert (c =? 98 = false) as -> by lia. assert (c =? 114 = false) as -> by lia. assert (c =? 110 = false) as -> by lia.
    assert (c =? 102 = false) as -> by lia. reflexivity. }
  assert (c =? 117 = false) as -> by lia. assert (c =? 120 = false) as -> by lia. cbn [bind]. now rewrite cerr_told.
Qed.
Theorem str_at_end old : at_end string_codec old [].
Proof. intros sn e He. cbn [des string_codec]. unfold string_des. cbn [is_null starts str_unser]. destruct He as [->|(j & -> & Hj)]; [reflexivity|]. cbn. now rewrite Hj. Qed.
