(** Proofs: which texts flags are read from and what is reported otherwise. *)
From Verif Require Import Base Parser SpecJson SpecNum SpecString ParserFacts Out Number Object Enum SpecEnum CodecLaws SpecReport SpecExact ExactProofs SpecRefuse RefuseProofs SpecFail FailProofs EnumProofs SpecFlags.

(** ---- gaps ---- *)
Lemma gap_det s a b : after_gap s a -> after_gap s b -> a = b.
Proof. intros H1 H2. apply space_exact in H1, H2. congruence. Qed.
Lemma gap_idem s a : after_gap s a -> after_gap a a.
Proof. intros (g & _ & _ & H). exists []. split; [reflexivity|]. split; [constructor|]. destruct a; [exact I|]. destruct H as (A & B & _). repeat split; auto. intros _ [|? ?] E; discriminate E. Qed.
Lemma gap_not_open s a : after_gap s a -> open_comment s -> False.
Proof. intros H1 H2. apply space_exact in H1. apply open_exact in H2. rewrite H1 in H2. injection H2 as _ E. discriminate E. Qed.
Lemma gap_nil_nil : after_gap [] [].
Proof. now apply space_exact. Qed.
Lemma gap_back s a b : after_gap s a -> after_gap a b -> after_gap s b.
Proof. intros H1 H2. pose proof (gap_idem _ _ H1) as H3. now rewrite <- (gap_det _ _ _ H3 H2). Qed.
Lemma heads_refl c t : heads c (c :: t). Proof. now exists t. Qed.
Lemma heads_inv c d t : heads c (d :: t) -> d = c. Proof. intros (z & E). now injection E. Qed.
Lemma heads_nil c : ~ heads c []. Proof. intros (z & E). discriminate E. Qed.

Lemma past_det sep s a b : past sep s a -> past sep s b -> a = b.
Proof.
  intros [->|(N & ->)] [E|(N' & ->)]; auto; [now injection E|destruct N'; apply heads_refl|]. subst s. destruct N. apply heads_refl.
Qed.
Lemma past_skip1 sep s : past sep s (skip1 sep s).
Proof.
  destruct s as [|d t]; cbn [skip1]; [right; split; [apply heads_nil|reflexivity]|]. destruct (Z.eqb_spec d sep) as [->|N]; [now left|].
  right. split; [|reflexivity]. intros H. apply heads_inv in H. contradiction.
Qed.
Lemma pre_match_inv n : forall s t, pre_match n s = Some t -> s = n ++ t.
Proof.
  induction n as [|a n IH]; intros s t E; cbn [pre_match app] in *; [now injection E|]. destruct s as [|c s]; [discriminate|].
  destruct (Z.eqb_spec a c) as [->|]; [|discriminate]. now rewrite (IH _ _ E).
Qed.
Lemma cerr_end j : is_err j = true -> cerr UnexpectedEndFragment None 0 (Some j) = Some j.
Proof. intros H. cbn. now rewrite H. Qed.

(** ---- one pass over a part of the list ---- *)
Section Pass.
  Context (items : Z -> buf -> Z -> buf + json_error -> Prop).
  Definition passed (v : Z) (s : buf) (rdy : bool) (x : res (Z * buf * eptr)) : Prop := exists v1 s1 e1, x = Ok (v1, s1, e1) /\
    ((e1 = C0 /\ s1 <> [] /\ (forall w o, items v1 s1 w o -> items v s w o) /\
      (length s1 = length s -> rdy = true \/ items v s v1 (inr (mkerr InvalidEnum None (Z.of_nat (length s1)))))) \/
     (e1 = C0 /\ s1 = [] /\ items v s v1 (inr unexpected_end)) \/
     exists j, e1 = Some j /\ is_err j = true /\ s1 = [] /\ items v s v1 (inr j)).
  Lemma passed_err v s rdy v1 j : is_err j = true -> items v s v1 (inr j) -> passed v s rdy (Ok (v1, [], Some j)).
  Proof. intros Hj H. exists v1, [], (Some j). split; [reflexivity|]. right. right. now exists j. Qed.
  Lemma passed_end v s rdy v1 : items v s v1 (inr unexpected_end) -> passed v s rdy (Ok (v1, [], C0)).
  Proof. intros H. exists v1, [], C0. split; [reflexivity|]. right. left. auto. Qed.
  Lemma passed_on v s rdy v1 s1 : s1 <> [] -> (forall w o, items v1 s1 w o -> items v s w o) ->
    (length s1 = length s -> rdy = true \/ items v s v1 (inr (mkerr InvalidEnum None (Z.of_nat (length s1))))) -> passed v s rdy (Ok (v1, s1, C0)).
  Proof. intros. exists v1, s1, C0. split; [reflexivity|]. left. auto. Qed.
  (** a pass continued from v1, s1 *)
  Lemma passed_step v s rdy v1 s1 x : (forall w o, items v1 s1 w o -> items v s w o) -> (length s1 < length s)%nat ->
    (forall v2 s2 e2, x = Ok (v2, s2, e2) -> (length s2 <= length s1)%nat) -> passed v1 s1 true x -> passed v s rdy x.
  Proof.
    intros Hb Hl Hx (v2 & s2 & e2 & E & [(E2 & N & H & K)|[(E2 & N & H)|(j & E2 & Hj & N & H)]]); exists v2, s2, e2; (split; [exact E|]).
    - left. split; [exact E2|]. split; [exact N|]. split; [auto|]. intros El. specialize (Hx _ _ _ E). lia.
    - right. left. auto.
    - right. right. exists j. auto.
  Qed.
End Pass.

(** ---- arrays ---- *)
Section Arr.
  Context (mode : omode) (sn : option Z) (L : elist).
  Notation items := (flag_items mode L).
  Notation passed := (passed items).
  Lemma items_back v s s1 w o : after_gap s s1 -> items v s1 w o -> items v s w o.
  Proof.
    intros Hg H. destruct H as [v s1 H|v s1 H|v s1 r H|v s1 c t H N1 N2|v s1 n x t t' w o H Hi Hf Hn|v s1 s2 M H Hq Hl|v s1 s2 t t' w o M H Hl Ht Hf Hn|v s1 s2 j M H Hq Hl Hj].
    - apply fi_end. eapply gap_back; eassumption.
    - exfalso. eapply gap_not_open; [exact (gap_idem _ _ Hg)|exact H].
    - apply fi_close. eapply gap_back; eassumption.
    - apply fi_quote; auto. eapply gap_back; eassumption.
    - apply fi_known with n x t t'; auto. eapply gap_back; eassumption.
    - apply fi_strict; auto. eapply gap_back; eassumption.
    - apply fi_other with s2 t t'; auto. eapply gap_back; eassumption.
    - apply fi_string with s2; auto. eapply gap_back; eassumption.
  Qed.
  Lemma arr_len R v s e rdy v1 s1 e1 : one_arr mode sn R v s e rdy = Ok (v1, s1, e1) -> (length s1 <= length s)%nat.
  Proof. intros E. pose proof (one_arr_good mode sn R v s e rdy s e (suffix_refl s) (estep_refl _ _)) as G. rewrite E in G. destruct G as (G & _). now apply suffix_len. Qed.
  Lemma not_listed_snoc P n x s : ~ listed P s -> (forall t, s <> QT :: n ++ QT :: t) -> ~ listed (P ++ [(n, x)]) s.
  Proof.
    intros H1 H2 (m & y & t & Hi & E). apply in_app_or in Hi. destruct Hi as [Hi|[Hi|[]]]; [apply H1; now exists m, y, t|]. injection Hi as <- <-. now apply (H2 t).
  Qed.
  (** the gap and the comma behind a string *)
  Lemma arr_rest v t rdy s v1 (go : Z -> buf -> eptr -> res (Z * buf * eptr)) X :
    X = (let '(s2, e2) := parse_space t C0 in match s2 with [] => Ok (v1, [], e2) | f :: t2 => go f t2 e2 end) ->
    (forall t', follows t t' -> forall w o, items v1 t' w o -> items v s w o) ->
    (forall f t2, after_gap t (f :: t2) -> passed v s rdy (go f t2 C0)) ->
    passed v s rdy X.
  Proof.
    intros -> Hf H1. destruct (space_cases t) as [(r & -> & Hg)|(-> & Ho)].
    - destruct r as [|f t2]; [|auto].
      apply passed_end. apply (Hf []); [left; exists []; split; [exact Hg|]; right; split; [apply heads_nil|reflexivity]|]. apply fi_end, gap_nil_nil.
    - apply passed_err; [reflexivity|]. apply (Hf t); [now right|]. now apply fi_comment.
  Qed.
  Lemma skip1_len c s : (length (skip1 c s) <= length s)%nat.
  Proof. destruct s as [|d t]; cbn [skip1]; [lia|]. destruct (d =? c); cbn [length]; lia. Qed.
  Lemma arr_pass : L <> [] -> forall R P v s rdy, L = P ++ R -> bytes s ->
    (rdy = false -> ~ heads RBR s /\ (P <> [] -> after_gap s s /\ heads QT s /\ ~ listed P s)) ->
    passed v s rdy (one_arr mode sn R v s C0 rdy).
  Proof.
    intros HL. induction R as [|[n x] R IH]; intros P v s rdy EL Hb HP; cbn [one_arr].
    - rewrite app_nil_r in EL. subst P. destruct rdy; cbn [orb].
      { destruct s as [|c t]; [apply passed_end, fi_end, gap_nil_nil|]. apply passed_on; [discriminate|auto|auto]. }
      destruct (HP eq_refl) as (NR & HP'). destruct (HP' HL) as (Hg & Hq & Hn). clear HP HP'.
      assert (Em : mode = Strict \/ mode = Nonstrict) by (destruct mode; auto). destruct Em as [Em|Em]; rewrite Em at 2; cbv iota.
      + apply passed_on; [intros ->; now apply heads_nil in Hq|auto|]. intros _. right. now apply fi_strict.
      + rewrite (proj2 (space_exact s s) Hg). destruct s as [|c t0]; [now apply heads_nil in Hq|]. apply heads_inv in Hq as Ec. subst c. cbn [deref bind].
        change (QT =? RBR) with false. cbv iota. destruct (string_cases (QT :: t0) Hb Hq) as [(t & Ht)|(j & Hj)].
        * destruct (takes_string_run _ _ C0 Ht) as (-> & _ & _ & Hl). cbn [bind].
          assert (B : forall t', follows t t' -> forall w o, items v t' w o -> items v (QT :: t0) w o) by (intros t' Hf w o H; eapply fi_other; eauto).
          refine (arr_rest v t false (QT :: t0) v (fun f t2 e3 => let '(s4, e4) := parse_space (skip1 COMMA (f :: t2)) e3 in Ok (v, s4, e4)) _ _ B _); [destruct (parse_space t C0) as [[|? ?] ?]; reflexivity|].
          intros f t2 H. pose proof (after_gap_len _ _ H) as Lf. set (u := skip1 COMMA (f :: t2)). assert (Lu : (length u <= length (f :: t2))%nat) by apply skip1_len.
          assert (Hf : follows t u) by (left; exists (f :: t2); split; [exact H|apply past_skip1]).
          destruct (space_cases u) as [(r & -> & Hr)|(-> & Ho)].
          -- pose proof (after_gap_len _ _ Hr). destruct r as [|d r].
             ++ apply passed_end. apply (B u Hf). now apply fi_end.
             ++ apply passed_on; [discriminate| |lia]. intros w o Hi. apply (B u Hf). now apply items_back with (d :: r).
          -- apply passed_err; [reflexivity|]. apply (B u Hf). now apply fi_comment.
        * apply (string_refuses _ _ Hb) in Hj as Hj'. destruct Hj' as (Hj1 & ->). cbn [bind]. rewrite gap_nil. apply passed_err; [exact Hj1|]. now apply fi_string with (QT :: t0).
    - destruct (space_cases s) as [(r & -> & Hg)|(-> & Ho)]; [|apply passed_err; [reflexivity|now apply fi_comment]].
      destruct r as [|c t1]; [apply passed_end; now apply fi_end|]. pose proof (after_gap_len _ _ Hg) as Lg.
      destruct (Z.eqb_spec c RBR) as [->|NR].
      { apply passed_on; [discriminate|intros; now apply items_back with (RBR :: t1)|]. intros El. destruct rdy; [now left|]. exfalso.
        destruct (HP eq_refl) as (K & _). apply K. destruct Hg as (g & -> & _). rewrite app_length in El. destruct g; [apply heads_refl|cbn in El; lia]. }
      destruct (Z.eqb_spec c QT) as [->|NQ]; cbn [negb].
      2: { replace (cerr ExpectedOf (Some [QT]) (dist (c :: t1)) C0) with (Some (expected [QT] (c :: t1))) by reflexivity. apply passed_err; [reflexivity|]. now apply fi_quote. }
      assert (Br : bytes (QT :: t1)) by (destruct Hg as (g & -> & _); unfold bytes in *; rewrite Forall_app in Hb; apply Hb).
      (* not this name *)
      assert (Skip : (forall t, QT :: t1 <> QT :: n ++ QT :: t) -> passed v s rdy (one_arr mode sn R v (QT :: t1) C0 rdy)).
      { intros Nm. destruct (IH (P ++ [(n, x)]) v (QT :: t1) rdy) as (v1 & s1 & e1 & E & H); [now rewrite <- app_assoc|exact Br| |].
        - intros ->. destruct (HP eq_refl) as (_ & K). split; [intros Hh; apply heads_inv in Hh; discriminate|]. intros _. split; [now apply gap_idem with s|]. split; [apply heads_refl|].
          apply not_listed_snoc; [|exact Nm]. destruct P as [|p P]; [intros (? & ? & ? & [] & _)|]. destruct K as (K1 & _ & K2); [discriminate|]. now rewrite (gap_det _ _ _ Hg K1).
        - exists v1, s1, e1. split; [exact E|]. apply arr_len in E. destruct H as [(E1 & N & H & K)|[(E1 & N & H)|(j & E1 & Hj & N & H)]].
          + left. split; [exact E1|]. split; [exact N|]. split; [intros; apply items_back with (QT :: t1); auto|]. intros El. destruct K as [K|K]; [lia|now left|right; now apply items_back with (QT :: t1)].
          + right. left. split; [exact E1|]. split; [exact N|]. now apply items_back with (QT :: t1).
          + right. right. exists j. repeat (split; [assumption|]). now apply items_back with (QT :: t1). }
      destruct (pre_match n t1) as [[|d t]|] eqn:Ep.
      + apply Skip. intros t Et. injection Et as Et. apply pre_match_inv in Ep. rewrite app_nil_r in Ep. subst t1. apply (f_equal (@length Z)) in Et. rewrite app_length in Et. cbn in Et. lia.
      + apply pre_match_inv in Ep. destruct (Z.eqb_spec d QT) as [->|Nd].
        2: { apply Skip. intros t' Et. injection Et as Et. rewrite Ep in Et. apply app_inv_head in Et. injection Et as -> _. contradiction. }
        subst t1. assert (Hi : In (n, x) L) by (rewrite EL; apply in_elt).
        assert (B : forall t', follows t t' -> forall w o, items (Z.lor v x) t' w o -> items v s w o) by (intros t' Hf w o H; eapply fi_known; eauto).
        refine (arr_rest v t rdy s (Z.lor v x) (fun f t2 e2 => if negb (f =? COMMA) then Ok (Z.lor v x, f :: t2, e2)
           else let '(s3, e3) := parse_space t2 e2 in one_arr mode sn R (Z.lor v x) s3 e3 true) _ _ B _); [destruct (parse_space t C0) as [[|? ?] ?]; reflexivity|].
        intros f t2 H. pose proof (after_gap_len _ _ H) as Lf. cbn [length] in Lg, Lf. rewrite app_length in Lg. cbn [length] in Lg.
        destruct (Z.eqb_spec f COMMA) as [->|Nf]; cbn [negb].
        * assert (Hf : follows t t2) by (left; exists (COMMA :: t2); split; [exact H|now left]).
          destruct (space_cases t2) as [(r & -> & Hr)|(-> & Ho)].
          -- pose proof (after_gap_len _ _ Hr). assert (Bs : bytes r).
             { destruct Hr as (g' & -> & _), H as (g & -> & _), Hg as (g0 & -> & _). unfold bytes in *. rewrite Forall_app in Hb. destruct Hb as (_ & Hb). inversion Hb as [|? ? _ Hb1]; subst.
               rewrite Forall_app in Hb1. destruct Hb1 as (_ & Hb1). inversion Hb1 as [|? ? _ Hb2]; subst. rewrite Forall_app in Hb2. destruct Hb2 as (_ & Hb2). inversion Hb2 as [|? ? _ Hb3]; subst.
               rewrite Forall_app in Hb3. apply Hb3. }
             apply passed_step with (Z.lor v x) r.
             ++ intros w o Hi'. apply (B t2 Hf). now apply items_back with r.
             ++ lia.
             ++ intros v2 s2 e2. apply arr_len.
             ++ apply (IH (P ++ [(n, x)])); [now rewrite <- app_assoc|exact Bs|discriminate].
          -- assert (I0 : items v s (Z.lor v x) (inr comment_error)) by (apply (B t2 Hf); now apply fi_comment).
             replace (one_arr mode sn R (Z.lor v x) [] (Some comment_error) true) with (Ok (Z.lor v x, @nil Z, Some comment_error)) by (destruct R as [|[? ?] ?]; reflexivity). now apply passed_err.
        * apply passed_on; [discriminate| |cbn [length]; lia]. intros w o Hi'. apply (B (f :: t2)); [|exact Hi']. left. exists (f :: t2). split; [exact H|]. right. split; [|reflexivity]. intros Hh. now apply heads_inv in Hh.
      + apply Skip. intros t Et. injection Et as Et. subst t1. rewrite (pre_match_app n) in Ep. discriminate.
  Qed.
  Lemma arr_loop : L <> [] -> forall fuel v s, (length s < fuel)%nat -> bytes s -> exists w o, items v s w o /\
    match o with
    | inl r => flags_loop RBR (fun v s e => one_arr mode sn L v s e false) fuel v s C0 = Ok (w, RBR :: r, C0)
    | inr j => is_err j = true /\ exists e, flags_loop RBR (fun v s e => one_arr mode sn L v s e false) fuel v s C0 = Ok (w, [], e) /\ cerr UnexpectedEndFragment None 0 e = Some j
    end.
  Proof.
    intros HL. induction fuel as [|f IH]; intros v s Hf Hb; [lia|]. cbn [flags_loop]. destruct s as [|c t].
    { exists v, (inr unexpected_end). split; [apply fi_end, gap_nil_nil|]. split; [reflexivity|]. now exists C0. }
    destruct (Z.eqb_spec c RBR) as [->|Nc].
    { exists v, (inl t). split; [|reflexivity]. apply fi_close. apply space_exact. reflexivity. }
    destruct (arr_pass HL L [] v (c :: t) false eq_refl Hb) as (v1 & s1 & e1 & E & H).
    { intros _. split; [intros Hh; now apply heads_inv in Hh|congruence]. }
    rewrite E. cbn [bind]. pose proof (one_arr_good mode sn L v (c :: t) C0 false (c :: t) C0 (suffix_refl _) (estep_refl _ _)) as G. rewrite E in G. destruct G as (Sx & _). pose proof (suffix_len _ _ Sx) as Ls.
    destruct H as [(-> & N & H & K)|[(-> & -> & H)|(j & -> & Hj & -> & H)]].
    - destruct (Z.eqb_spec (dist s1) (dist (c :: t))) as [El|El].
      + unfold dist in El. destruct K as [K|K]; [lia|discriminate|]. eexists v1, (inr _). split; [exact K|]. split; [reflexivity|]. eexists. split; [reflexivity|]. reflexivity.
      + destruct s1 as [|c1 t1]; [congruence|]. destruct (IH v1 (c1 :: t1)) as (w & o & Hi & Ho); [unfold dist in El; lia| |].
        * destruct Sx as (g & Eg). rewrite Eg in Hb. unfold bytes in *. rewrite Forall_app in Hb. apply Hb.
        * exists w, o. split; [now apply H|exact Ho].
    - exists v1, (inr unexpected_end). split; [exact H|]. split; [reflexivity|]. change (dist [] =? dist (c :: t)) with (0 =? dist (c :: t)). replace (0 =? dist (c :: t)) with false by (unfold dist; cbn [length]; lia).
      eexists. split; [reflexivity|]. reflexivity.
    - exists v1, (inr j). split; [exact H|]. split; [exact Hj|]. replace (dist [] =? dist (c :: t)) with false by (unfold dist; cbn [length]; lia).
      eexists. split; [reflexivity|]. rewrite !cerr_end; auto.
  Qed.
  (** the description determines the outcome *)
  Lemma follows_det t a b : follows t a -> follows t b -> a = b.
  Proof.
    intros [(s & H1 & H2)|(H1 & ->)] [(s' & H1' & H2')|(H1' & ->)]; auto.
    - rewrite (gap_det _ _ _ H1 H1') in H2. eapply past_det; eassumption.
    - exfalso. eapply gap_not_open; eassumption.
    - exfalso. eapply gap_not_open; eassumption.
  Qed.
  Lemma name_end n : no_quote n -> forall m a b, no_quote m -> n ++ QT :: a = m ++ QT :: b -> n = m /\ a = b.
  Proof.
    induction 1 as [|c n Hc Hn IH]; intros [|d m] a b Hm E; cbn [app] in E.
    - now injection E.
    - injection E as <- _. inversion Hm; contradiction.
    - injection E as -> _. contradiction.
    - injection E as -> E. inversion Hm; subst. destruct (IH m a b) as (-> & ->); auto.
  Qed.
  Lemma same_value n x y : NoDup (enames L) -> In (n, x) L -> In (n, y) L -> x = y.
  Proof.
    unfold enames. induction L as [|[m z] l IH]; intros Hd H1 H2; [contradiction|]. cbn [map fst] in Hd. inversion Hd as [|? ? Hn Hd']; subst.
    destruct H1 as [H1|H1], H2 as [H2|H2]; try congruence.
    - injection H1 as -> ->. destruct Hn. apply in_map_iff. now exists (n, y).
    - injection H2 as -> ->. destruct Hn. apply in_map_iff. now exists (n, x).
    - now apply IH.
  Qed.
  Lemma takes_string_det s a b : takes_string s a -> takes_string s b -> a = b.
  Proof. intros H1 H2. destruct (takes_string_run _ _ C0 H1) as (E1 & _). destruct (takes_string_run _ _ C0 H2) as (E2 & _). congruence. Qed.
  Lemma takes_string_heads s a : takes_string s a -> heads QT s.
  Proof. intros H. destruct (takes_string_run _ _ C0 H) as (_ & E & _). now apply is_string_heads. Qed.
  Lemma str_refuses_one s i j : bytes s -> str_refuses s i -> str_refuses s j -> i = j.
  Proof. intros Hb H1 H2. apply (string_refuses _ _ Hb) in H1, H2. destruct H1 as (_ & H1), H2 as (_ & H2). congruence. Qed.
  Lemma str_not_both s r j : bytes s -> takes_string s r -> str_refuses s j -> False.
  Proof. intros Hb H1 H2. destruct (takes_string_run _ _ C0 H1) as (E1 & _). apply (string_refuses _ _ Hb) in H2. destruct H2 as (H2 & E2). rewrite E1 in E2. injection E2 as _ <-. discriminate. Qed.
  Lemma bytes_suf (a b : buf) : suffix a b -> bytes b -> bytes a.
  Proof. intros (g & ->) H. unfold bytes in *. apply Forall_app in H. apply H. Qed.
  Lemma past_suffix sep a b : past sep a b -> suffix b a.
  Proof. intros [->|(_ & ->)]; [now exists [sep]|apply suffix_refl]. Qed.
  Lemma follows_suffix t r : follows t r -> suffix r t.
  Proof. intros [(s & H & P)|(_ & ->)]; [|apply suffix_refl]. apply past_suffix in P. destruct H as (g & -> & _), P as (h & ->). exists (g ++ h). now rewrite app_assoc. Qed.
  Lemma items_det v s w o : NoDup (enames L) -> Forall no_quote (enames L) -> bytes s -> items v s w o -> forall w' o', items v s w' o' -> w' = w /\ o' = o.
  Proof.
    intros Hd Hn Hb H. revert Hb.
    assert (NQ : forall n x, In (n, x) L -> no_quote n).
    { intros n x Hi. rewrite Forall_forall in Hn. apply Hn. unfold enames. apply in_map_iff. now exists (n, x). }
    induction H as [v s H|v s H|v s r H|v s c t H N1 N2|v s n x t t' w o H Hi Hf H' IH|v s s1 M H Hq Hl|v s s1 t t' w o M H Hl Ht Hf H' IH|v s s1 j M H Hq Hl Hj]; intros Hb w2 o2 K.
    all: assert (Hb1 : forall a, after_gap s a -> bytes a) by (intros a (g & -> & _); unfold bytes in *; rewrite Forall_app in Hb; apply Hb).
    all: destruct K as [v s K|v s K|v s r' K|v s c' t0 K N1' N2'|v s n' x' t0 t1 w' o' K Ki Kf K'|v s s1' M' K Kq Kl|v s s1' t0 t1 w' o' M' K Kl Kt Kf K'|v s s1' j' M' K Kq Kl Kj].
    all: try (exfalso; eapply gap_not_open; eassumption).
    all: try (pose proof (gap_det _ _ _ H K) as E).
    all: try congruence.
    all: try (split; congruence).
    all: try (exfalso; subst; match goal with Q : heads QT _ |- _ => now (apply heads_nil in Q || apply heads_inv in Q) end).
    all: try (exfalso; subst; match goal with Q : takes_string _ _ |- _ => apply takes_string_heads in Q; now (apply heads_nil in Q || apply heads_inv in Q) end).
    all: try (exfalso; subst; match goal with Q : ~ listed _ _ |- _ => apply Q; do 3 eexists; split; [eassumption|reflexivity] end).
    all: try (exfalso; subst; match goal with Q : heads QT (?c :: _) |- _ => apply heads_inv in Q; congruence end).
    - injection E as E. apply name_end in E; [|now apply NQ with x|now apply NQ with x']. destruct E as (<- & <-). pose proof (same_value _ _ _ Hd Hi Ki) as <-. pose proof (follows_det _ _ _ Hf Kf) as <-. apply IH; [|exact K'].
      apply (bytes_suf _ _ (follows_suffix _ _ Hf)). specialize (Hb1 _ H). inversion Hb1 as [|? ? _ Hb2]; subst. apply Forall_app in Hb2. destruct Hb2 as (_ & Hb2). now inversion Hb2.
    - subst s1'. pose proof (takes_string_det _ _ _ Ht Kt) as <-. pose proof (follows_det _ _ _ Hf Kf) as <-. apply IH; [|exact K'].
      apply (bytes_suf _ _ (follows_suffix _ _ Hf)). destruct (takes_string_run _ _ C0 Ht) as (_ & _ & Sx & _). apply (bytes_suf _ _ Sx). now apply Hb1.
    - exfalso. subst s1'. exact (str_not_both _ _ _ (Hb1 _ H) Ht Kj).
    - exfalso. subst s1'. exact (str_not_both _ _ _ (Hb1 _ H) Kt Hj).
    - subst s1'. now rewrite (str_refuses_one _ _ _ (Hb1 _ H) Hj Kj).
  Qed.
End Arr.

(** ---- strings ---- *)
Lemma gap_eq s a : after_gap s a -> length a = length s -> a = s.
Proof. intros (g & -> & _) E. rewrite app_length in E. destruct g; [reflexivity|cbn in E; lia]. Qed.
Lemma skip_unknown_skips sep s : skips sep s (skip_unknown sep s).
Proof.
  induction s as [|c t IH]; cbn [skip_unknown]; [exists []; repeat split; auto|].
  destruct (Z.eqb_spec c sep) as [->|N1]; [exists []; repeat split; auto; right; left; apply heads_refl|].
  destruct (Z.eqb_spec c QT) as [->|N2]; cbn [orb]; [exists []; repeat split; auto; right; right; apply heads_refl|].
  destruct IH as (k & E & Hk & Hu). exists (c :: k). split; [cbn [app]; now f_equal|]. split; [constructor; auto|exact Hu].
Qed.
Lemma skips_det sep s a b : skips sep s a -> skips sep s b -> a = b.
Proof.
  intros (k & -> & Hk & Ha) (l & E & Hl & Hb). revert l E Hl. induction Hk as [|c k (N1 & N2) Hk IH]; intros [|d l] E Hl; cbn [app] in E.
  - exact E.
  - subst a. inversion Hl as [|? ? (M1 & M2) _]; subst. destruct Ha as [Ha|[Ha|Ha]]; [discriminate|apply heads_inv in Ha; contradiction|apply heads_inv in Ha; contradiction].
  - subst b. destruct Hb as [Hb|[Hb|Hb]]; [discriminate|apply heads_inv in Hb; contradiction|apply heads_inv in Hb; contradiction].
  - injection E as -> E. inversion Hl; subst. now apply IH with l.
Qed.
Lemma skips_suffix sep s a : skips sep s a -> suffix a s. Proof. intros (k & -> & _). now exists k. Qed.

Section Str.
  Context (sep : Z) (mode : omode) (L : elist).
  Notation words := (flag_words sep mode L).
  Notation passed := (passed words).
  Lemma lead_cases s : (exists r, opt_space sep s C0 = (r, C0) /\ lead sep s r) \/ (opt_space sep s C0 = ([], Some comment_error) /\ sep <> 32 /\ open_comment s).
  Proof.
    unfold opt_space, lead. destruct (Z.eqb_spec sep 32) as [E|N]; [left; now exists s|].
    destruct (space_cases s) as [H|(H1 & H2)]; [now left|right; auto].
  Qed.
  Lemma lead_det s a b : lead sep s a -> lead sep s b -> a = b.
  Proof. unfold lead. destruct (sep =? 32); [congruence|apply gap_det]. Qed.
  Lemma lead_idem s a : lead sep s a -> lead sep a a.
  Proof. unfold lead. destruct (sep =? 32); [auto|apply gap_idem]. Qed.
  Lemma lead_nil : lead sep [] [].
  Proof. unfold lead. destruct (sep =? 32); [reflexivity|apply gap_nil_nil]. Qed.
  Lemma lead_back s a b : lead sep s a -> lead sep a b -> lead sep s b.
  Proof. intros H1 H2. pose proof (lead_idem _ _ H1) as H3. now rewrite <- (lead_det _ _ _ H3 H2). Qed.
  Lemma lead_suffix s a : lead sep s a -> suffix a s.
  Proof. unfold lead. destruct (sep =? 32); [intros ->; apply suffix_refl|apply after_gap_suffix]. Qed.
  Lemma lead_not_open s a : lead sep s a -> sep <> 32 -> open_comment s -> False.
  Proof. unfold lead. destruct (Z.eqb_spec sep 32) as [E|N]; [contradiction|intros H _; now apply gap_not_open with a]. Qed.
  Lemma lead_eq s a : lead sep s a -> length a = length s -> a = s.
  Proof. unfold lead. destruct (sep =? 32); [auto|apply gap_eq]. Qed.
  Lemma words_back v s s1 w o : lead sep s s1 -> words v s1 w o -> words v s w o.
  Proof.
    intros Hg H. destruct H as [v s1 H|v s1 N H|v s1 r H|v s1 n x t t' w o H Hi Hbd Hf Hn|v s1 s2 M H Nn Nq Hl|v s1 s2 s3 u s4 t w o M H Nn Nq Hl H1 H2 H3 H4 H5|v s1 s2 M H Nn Nq Hl H1].
    - apply fw_end. eapply lead_back; eassumption.
    - exfalso. eapply lead_not_open; [exact (lead_idem _ _ Hg)|exact N|exact H].
    - apply fw_close. eapply lead_back; eassumption.
    - apply fw_known with n x t t'; auto. eapply lead_back; eassumption.
    - apply fw_strict; auto. eapply lead_back; eassumption.
    - apply fw_other with s2 s3 u s4 t; auto. eapply lead_back; eassumption.
    - apply fw_lost with s2; auto. eapply lead_back; eassumption.
  Qed.
  Lemma str_len R v s e rdy v1 s1 e1 : one_str sep mode R v s e rdy = (v1, s1, e1) -> (length s1 <= length s)%nat.
  Proof. intros E. pose proof (one_str_good sep mode R v s e rdy s e (suffix_refl s) (estep_refl _ _)) as G. rewrite E in G. destruct G as (G & _). now apply suffix_len. Qed.
  Lemma boundary_spec d t : ((negb (sep =? 32) && is_space (d :: t)) || (d =? sep) || (d =? QT)) = true <-> boundary sep (d :: t).
  Proof.
    unfold boundary. rewrite !orb_true_iff, andb_true_iff, negb_true_iff, !Z.eqb_eq, Z.eqb_neq.
    assert (Hs : is_space (d :: t) = true <-> (s_ws d \/ d = SLASH /\ heads STAR t)).
    { unfold is_space. assert (Hw : is_ws d = true <-> s_ws d) by (unfold is_ws, s_ws; lia). destruct (is_ws d) eqn:Ew.
      - split; [left; now apply Hw|reflexivity].
      - assert (Nw : ~ s_ws d) by (intros H; apply Hw in H; discriminate). destruct (Z.eqb_spec d SLASH) as [->|N].
        + split.
          * intros H. right. split; [reflexivity|]. destruct t as [|c t]; [discriminate|]. apply Z.eqb_eq in H. subst c. apply heads_refl.
          * intros [H|(_ & z & ->)]; [contradiction|reflexivity].
        + split; [discriminate|]. intros [H|(H & _)]; contradiction. }
    rewrite Hs. split.
    - intros [[(A & B)|E]|E]; [right; right; split; [exact A|now exists d, t]|subst d; right; left; apply heads_refl|subst d; left; apply heads_refl].
    - intros [H|[H|(N & c & t' & E & H)]]; [apply heads_inv in H; auto|apply heads_inv in H; auto|]. injection E as <- <-. auto.
  Qed.
  Lemma not_spelled_snoc P n x s : ~ spelled sep P s -> (forall t, boundary sep t -> s <> n ++ t) -> ~ spelled sep (P ++ [(n, x)]) s.
  Proof.
    intros H1 H2 (m & y & t & Hi & E & Hb). apply in_app_or in Hi. destruct Hi as [Hi|[Hi|[]]]; [apply H1; now exists m, y, t|]. injection Hi as <- <-. now apply (H2 t).
  Qed.
  Lemma boundary_nil : ~ boundary sep [].
  Proof. intros [H|[H|(_ & c & t & E & _)]]; [now apply heads_nil in H|now apply heads_nil in H|discriminate]. Qed.
  Lemma tail_lead u s3 r : after_gap u s3 -> after_gap (skip1 sep s3) r -> lead sep (skip1 sep s3) r.
  Proof.
    intros H1 H2. unfold lead. destruct (Z.eqb_spec sep 32) as [E|N]; [|exact H2]. subst sep.
    assert (Es : skip1 32 s3 = s3).
    { destruct s3 as [|d t]; [reflexivity|]. cbn [skip1]. destruct (Z.eqb_spec d 32) as [->|Nd]; [|reflexivity]. destruct H1 as (g & _ & _ & Nw & _). destruct Nw. unfold s_ws. lia. }
    rewrite Es in *. symmetry. eapply gap_det; [exact (gap_idem _ _ H1)|exact H2].
  Qed.
  Lemma tail_open u s3 : after_gap u s3 -> open_comment (skip1 sep s3) -> sep <> 32.
  Proof.
    intros H1 H2 E. assert (Es : skip1 sep s3 = s3).
    { destruct s3 as [|d t]; [reflexivity|]. cbn [skip1]. destruct (Z.eqb_spec d sep) as [->|Nd]; [|reflexivity]. destruct H1 as (g & _ & _ & Nw & _). destruct Nw. unfold s_ws. lia. }
    rewrite Es in H2. exact (gap_not_open _ _ (gap_idem _ _ H1) H2).
  Qed.
  Lemma past_len c s r : past c s r -> (length r <= length s)%nat.
  Proof. intros [->|(_ & ->)]; cbn [length]; lia. Qed.
  Lemma str_pass : L <> [] -> sep <> QT -> Forall (flag_name sep) (enames L) -> forall R P v s rdy, L = P ++ R ->
    (rdy = false -> ~ heads QT s /\ (P <> [] -> lead sep s s /\ s <> [] /\ ~ spelled sep P s)) ->
    passed v s rdy (Ok (one_str sep mode R v s C0 rdy)).
  Proof.
    intros HL HQ HN. induction R as [|[n x] R IH]; intros P v s rdy EL HP; cbn [one_str].
    - rewrite app_nil_r in EL. subst P. destruct rdy; cbn [orb].
      { destruct s as [|c t]; [apply passed_end, fw_end, lead_nil|]. apply passed_on; [discriminate|auto|auto]. }
      destruct (HP eq_refl) as (Nq & HP'). destruct (HP' HL) as (Hg & Hq & Hn). clear HP HP'.
      assert (Em : mode = Strict \/ mode = Nonstrict) by (destruct mode; auto). destruct Em as [Em|Em]; rewrite Em at 2; cbv iota.
      + apply passed_on; [exact Hq|auto|]. intros _. right. now apply fw_strict.
      + destruct (space_cases s) as [(s2 & -> & H2)|(-> & Ho)].
        2: { cbn [skip_unknown]. rewrite gap_nil. apply passed_err; [reflexivity|]. apply fw_lost with s; auto. }
        set (u := skip_unknown sep s2). pose proof (skip_unknown_skips sep s2) as Hu. fold u in Hu. clearbody u.
        destruct (space_cases u) as [(s3 & -> & H3)|(-> & Ho)].
        2: { apply passed_err; [reflexivity|]. apply fw_lost with s; auto. right. now exists s2, u. }
        set (t := skip1 sep s3). pose proof (past_skip1 sep s3) as Ht. fold t in Ht.
        assert (B : forall w o, words v t w o -> words v s w o) by (intros w o H; now apply fw_other with s s2 u s3 t).
        assert (X : passed v s false (let '(s4, e4) := parse_space t C0 in Ok (v, s4, e4))).
        { destruct (space_cases t) as [(r & -> & Hr)|(-> & Ho)].
          - pose proof (tail_lead _ _ _ H3 Hr) as Hl. fold t in Hl. destruct r as [|d r].
            + apply passed_end. apply B. now apply fw_end.
            + apply passed_on; [discriminate|intros; apply B; now apply words_back with (d :: r)|]. intros El. exfalso.
              pose proof (after_gap_len _ _ H2) as L2. pose proof (suffix_len _ _ (skips_suffix _ _ _ Hu)) as Lu. pose proof (after_gap_len _ _ H3) as L3.
              pose proof (past_len _ _ _ Ht) as Lt. pose proof (after_gap_len _ _ Hr) as Lr.
              pose proof (gap_eq _ _ H2 ltac:(lia)) as E2. destruct Hu as (k & Eu & _ & Hu). rewrite Eu, app_length in Lu, L2.
              destruct k as [|? ?]; [|cbn [length] in *; lia]. cbn [app] in Eu. rewrite E2 in Eu. rewrite <- Eu in Hu. destruct Hu as [Hu|[Hu|Hu]]; [contradiction| |contradiction].
              pose proof (gap_eq _ _ H3 ltac:(lia)) as E3. destruct Hu as (z & Ez). destruct Ht as [Ht|(Nt & _)]; [rewrite Ht in *; cbn [length] in *; lia|]. apply Nt. rewrite E3, <- Eu, Ez. apply heads_refl.
          - pose proof (tail_open _ _ H3 Ho) as N32. apply passed_err; [reflexivity|]. apply B. now apply fw_comment. }
        destruct s3 as [|f t3]; [|fold t; destruct (parse_space t C0) as [s4 e4]; exact X].
        apply passed_end. apply B. apply fw_end, lead_nil.
    - destruct s as [|c0 t0]; [apply passed_end, fw_end, lead_nil|]. set (s := c0 :: t0) in *.
      destruct (lead_cases s) as [(r & -> & Hg)|(-> & N32 & Ho)]; [|apply passed_err; [reflexivity|now apply fw_comment]].
      destruct r as [|c t1] eqn:Er; [apply passed_end; now apply fw_end|]. rewrite <- Er in *. assert (Nr : r <> []) by now rewrite Er.
      pose proof (suffix_len _ _ (lead_suffix _ _ Hg)) as Lg.
      destruct (Z.eqb_spec c QT) as [->|NQ].
      { apply passed_on; [exact Nr|intros; now apply words_back with r|]. intros El. destruct rdy; [now left|]. exfalso.
        destruct (HP eq_refl) as (K & _). apply K. rewrite <- (lead_eq _ _ Hg El), Er. apply heads_refl. }
      assert (Hrq : ~ heads QT r) by (rewrite Er; intros Hh; now apply heads_inv in Hh).
      (* not this name *)
      assert (Skip : (forall t, boundary sep t -> r <> n ++ t) -> passed v s rdy (Ok (one_str sep mode R v r C0 rdy))).
      { intros Nm. destruct (IH (P ++ [(n, x)]) v r rdy) as (v1 & s1 & e1 & E & H); [now rewrite <- app_assoc| |].
        - intros ->. destruct (HP eq_refl) as (_ & K). split; [exact Hrq|]. intros _. split; [now apply lead_idem with s|]. split; [exact Nr|].
          apply not_spelled_snoc; [|exact Nm]. destruct P as [|p P]; [intros (? & ? & ? & [] & _)|]. destruct K as (K1 & _ & K2); [discriminate|]. now rewrite (lead_det _ _ _ Hg K1).
        - exists v1, s1, e1. split; [exact E|]. injection E as E. apply str_len in E. destruct H as [(E1 & N & H & K)|[(E1 & N & H)|(j & E1 & Hj & N & H)]].
          + left. split; [exact E1|]. split; [exact N|]. split; [intros; apply words_back with r; auto|]. intros El. destruct K as [K|K]; [lia|now left|right; now apply words_back with r].
          + right. left. split; [exact E1|]. split; [exact N|]. now apply words_back with r.
          + right. right. exists j. repeat (split; [assumption|]). now apply words_back with r. }
      destruct (pre_match n r) as [[|d t]|] eqn:Ep.
      + apply Skip. intros t Hb Et. apply pre_match_inv in Ep. rewrite Ep in Et. apply app_inv_head in Et. subst t. now apply boundary_nil in Hb.
      + apply pre_match_inv in Ep. pose proof (boundary_spec d t) as Hbd. destruct ((negb (sep =? 32) && is_space (d :: t)) || (d =? sep) || (d =? QT)).
        2: { apply Skip. intros t' Hb Et. rewrite Ep in Et. apply app_inv_head in Et. subst t'. apply Hbd in Hb. discriminate. }
        assert (Hb : boundary sep (d :: t)) by now apply Hbd. clear Hbd. assert (Hi : In (n, x) L) by (rewrite EL; apply in_elt).
        assert (Ln : (0 < length n)%nat).
        { rewrite Forall_forall in HN. destruct (HN n) as (Nn & _); [unfold enames; apply in_map_iff; now exists (n, x)|]. destruct n; [congruence|cbn; lia]. }
        rewrite Ep in Hg. set (cur := d :: t) in *.
        assert (B : forall t', behind sep cur t' -> forall w o, words (Z.lor v x) t' w o -> words v s w o) by (intros t' Hf w o H; eapply fw_known; eauto).
        rewrite Ep, app_length in Lg.
        destruct (lead_cases cur) as [(s2 & -> & H2)|(-> & N32 & Ho)].
        2: { apply passed_err; [reflexivity|]. apply (B cur); [right; auto|]. now apply fw_comment. }
        pose proof (suffix_len _ _ (lead_suffix _ _ H2)) as L2.
        assert (Hf : behind sep cur (skip1 sep s2)) by (left; exists s2; split; [exact H2|apply past_skip1]).
        destruct s2 as [|f t2]; [apply passed_end; apply (B _ Hf); apply fw_end, lead_nil|].
        destruct (Z.eqb_spec f QT) as [->|Nf].
        * apply passed_on; [discriminate| |lia]. intros w o Hi'. apply (B (QT :: t2)); [|exact Hi']. left. exists (QT :: t2). split; [exact H2|]. right. split; [|reflexivity]. intros Hh. apply heads_inv in Hh. congruence.
        * pose proof (skip1_len sep (f :: t2)) as Lk. apply passed_step with (Z.lor v x) (skip1 sep (f :: t2)).
          -- now apply B.
          -- lia.
          -- intros v2 s3 e2 E. injection E as E. now apply str_len in E.
          -- apply (IH (P ++ [(n, x)])); [now rewrite <- app_assoc|discriminate].
      + apply Skip. intros t Hb Et. rewrite Et, (pre_match_app n) in Ep. discriminate.
  Qed.
  Notation one := (fun v s e => Ok (one_str sep mode L v s e false)).
  Lemma str_loop : L <> [] -> sep <> QT -> Forall (flag_name sep) (enames L) -> forall fuel v s, (length s < fuel)%nat -> exists w o, words v s w o /\
    match o with
    | inl r => flags_loop QT one fuel v s C0 = Ok (w, QT :: r, C0)
    | inr j => is_err j = true /\ exists e, flags_loop QT one fuel v s C0 = Ok (w, [], e) /\ cerr UnexpectedEndFragment None 0 e = Some j
    end.
  Proof.
    intros HL HQ HN. induction fuel as [|f IH]; intros v s Hf; [lia|]. cbn [flags_loop]. destruct s as [|c t].
    { exists v, (inr unexpected_end). split; [apply fw_end, lead_nil|]. split; [reflexivity|]. now exists C0. }
    destruct (Z.eqb_spec c QT) as [->|Nc].
    { exists v, (inl t). split; [|reflexivity]. apply fw_close. unfold lead. destruct (sep =? 32); [reflexivity|]. apply space_exact. reflexivity. }
    destruct (str_pass HL HQ HN L [] v (c :: t) false eq_refl) as (v1 & s1 & e1 & E & H).
    { intros _. split; [intros Hh; now apply heads_inv in Hh|congruence]. }
    injection E as E. rewrite E. cbn [bind]. apply str_len in E as Ls.
    destruct H as [(-> & N & H & K)|[(-> & -> & H)|(j & -> & Hj & -> & H)]].
    - destruct (Z.eqb_spec (dist s1) (dist (c :: t))) as [El|El].
      + unfold dist in El. destruct K as [K|K]; [lia|discriminate|]. eexists v1, (inr _). split; [exact K|]. split; [reflexivity|]. eexists. split; [reflexivity|]. reflexivity.
      + destruct s1 as [|c1 t1]; [congruence|]. destruct (IH v1 (c1 :: t1)) as (w & o & Hi & Ho); [unfold dist in El; lia|].
        exists w, o. split; [now apply H|exact Ho].
    - exists v1, (inr unexpected_end). split; [exact H|]. split; [reflexivity|]. change (dist [] =? dist (c :: t)) with (0 =? dist (c :: t)). replace (0 =? dist (c :: t)) with false by (unfold dist; cbn [length]; lia).
      eexists. split; [reflexivity|]. reflexivity.
    - exists v1, (inr j). split; [exact H|]. split; [exact Hj|]. replace (dist [] =? dist (c :: t)) with false by (unfold dist; cbn [length]; lia).
      eexists. split; [reflexivity|]. rewrite !cerr_end; auto.
  Qed.
  Lemma behind_det t a b : behind sep t a -> behind sep t b -> a = b.
  Proof.
    intros [(s & H1 & H2)|(N & H1 & ->)] [(s' & H1' & H2')|(N' & H1' & ->)]; auto.
    - rewrite (lead_det _ _ _ H1 H1') in H2. eapply past_det; eassumption.
    - exfalso. exact (lead_not_open _ _ H1 N' H1').
    - exfalso. exact (lead_not_open _ _ H1' N H1).
  Qed.
  Lemma boundary_head c t : boundary sep (c :: t) -> c <> QT /\ c <> sep /\ ~ s_ws c /\ c <> SLASH -> False.
  Proof. intros [H|[H|(_ & d & u & E & H)]] (A & B & C & D); [apply heads_inv in H; contradiction|apply heads_inv in H; contradiction|]. injection E as <- <-. tauto. Qed.
  Lemma word_end n : Forall (fun c => c <> QT /\ c <> sep /\ ~ s_ws c /\ c <> SLASH) n -> forall m a b, Forall (fun c => c <> QT /\ c <> sep /\ ~ s_ws c /\ c <> SLASH) m ->
    boundary sep a -> boundary sep b -> n ++ a = m ++ b -> n = m /\ a = b.
  Proof.
    induction 1 as [|c n Hc Hn IH]; intros [|d m] a b Hm Ha Hb E; cbn [app] in E.
    - auto.
    - exfalso. subst a. inversion Hm; subst. eapply boundary_head; eassumption.
    - exfalso. subst b. eapply boundary_head; eassumption.
    - injection E as -> E. inversion Hm; subst. destruct (IH m a b) as (-> & ->); auto.
  Qed.
  Lemma words_det v s w o : NoDup (enames L) -> Forall (flag_name sep) (enames L) -> words v s w o -> forall w' o', words v s w' o' -> w' = w /\ o' = o.
  Proof.
    intros Hd HN H.
    assert (NQ : forall n x, In (n, x) L -> flag_name sep n).
    { intros n x Hi. rewrite Forall_forall in HN. apply HN. unfold enames. apply in_map_iff. now exists (n, x). }
    assert (NE : forall n x t, In (n, x) L -> n ++ t <> []).
    { intros n x t Hi E. destruct (NQ _ _ Hi) as (N & _). destruct n; [congruence|discriminate]. }
    assert (NH : forall n x t, In (n, x) L -> ~ heads QT (n ++ t)).
    { intros n x t Hi E. destruct (NQ _ _ Hi) as (N & F). destruct n as [|c n]; [congruence|]. apply heads_inv in E. inversion F as [|? ? (A & _) _]; subst. congruence. }
    induction H as [v s H|v s N H|v s r H|v s n x t t' w o H Hi Hbd Hf H' IH|v s s2 M H Nn Nq Hl|v s s2 s3 u s4 t w o M H Nn Nq Hl H1 H2 H3 H4 H5 IH|v s s2 M H Nn Nq Hl H1]; intros w2 o2 K.
    all: destruct K as [v s K|v s KN K|v s kr K|v s kn kx kt kt' kw ko K Ki Kbd Kf K'|v s k2 KM K KNn KNq Kl|v s k2 k3 ku k4 kt kw ko KM K KNn KNq Kl K1 K2 K3 K4 K5|v s k2 KM K KNn KNq Kl K1].
    all: try (exfalso; eapply lead_not_open; eassumption).
    all: try (pose proof (lead_det _ _ _ H K) as E).
    all: try congruence.
    all: try (split; congruence).
    all: try (exfalso; subst; match goal with Q : ~ heads QT (QT :: _) |- _ => apply Q; apply heads_refl end).
    all: try (exfalso; subst; match goal with Q : ~ spelled _ _ _ |- _ => apply Q; do 3 eexists; split; [eassumption|]; split; [reflexivity|assumption] end).
    all: try (exfalso; match goal with Q : In (?n, ?x) L, R : _ = ?n ++ ?t |- _ => exact (NE _ _ _ Q (eq_sym R)) | Q : In (?n, ?x) L, R : ?n ++ ?t = _ |- _ => exact (NE _ _ _ Q R) end).
    all: try (exfalso; match goal with Q : In (?n, ?x) L, R : _ = ?n ++ ?t |- _ => apply (NH _ _ t Q); rewrite <- R; apply heads_refl | Q : In (?n, ?x) L, R : ?n ++ ?t = _ |- _ => apply (NH _ _ t Q); rewrite R; apply heads_refl end).
    - apply word_end in E; [|apply (NQ _ _ Hi)|apply (NQ _ _ Ki)|exact Hbd|exact Kbd]. destruct E as (<- & <-). pose proof (same_value _ _ _ _ Hd Hi Ki) as <-. pose proof (behind_det _ _ _ Hf Kf) as <-. now apply IH.
    - subst k2. pose proof (gap_det _ _ _ H1 K1) as <-. pose proof (skips_det _ _ _ _ H2 K2) as <-. pose proof (gap_det _ _ _ H3 K3) as <-. pose proof (past_det _ _ _ _ H4 K4) as <-. now apply IH.
    - exfalso. subst k2. destruct K1 as [K1|(a & b & K1 & K2 & K3)]; [exact (gap_not_open _ _ H1 K1)|]. pose proof (gap_det _ _ _ H1 K1) as <-. pose proof (skips_det _ _ _ _ H2 K2) as <-. exact (gap_not_open _ _ H3 K3).
    - exfalso. subst k2. destruct H1 as [H1|(a & b & H1 & H2 & H3)]; [exact (gap_not_open _ _ K1 H1)|]. pose proof (gap_det _ _ _ H1 K1) as <-. pose proof (skips_det _ _ _ _ H2 K2) as <-. exact (gap_not_open _ _ K3 H3).
  Qed.
End Str.

(** ---- the two forms ---- *)
Section Flags.
  Context (sep : Z) (mode : omode) (L : elist) (HL : L <> []) (HD : NoDup (enames L)) (HS : sep <> QT) (HN : Forall (flag_name sep) (enames L)).
  Lemma flag_no_quote : Forall no_quote (enames L).
  Proof. eapply Forall_impl; [|exact HN]. intros n (_ & H). unfold no_quote. eapply Forall_impl; [|exact H]. intros c (A & _). exact A. Qed.
  Lemma flags_runs sn old s : bytes s -> exists w o, flag_text sep mode L s w o /\
    match o with inl r => reads (flags_codec sep mode L) sn old s w r | inr j => faults (flags_codec sep mode L) sn old s w [] j end.
  Proof.
    intros Hb. unfold reads, faults. change (des (flags_codec sep mode L)) with (flags_des sep mode L). change (Some no_error) with C0. unfold flags_des. destruct s as [|c t].
    { exists 0, (inr unexpected_end). split; [constructor|]. now split. }
    destruct (Z.eqb_spec c LBR) as [->|N1]; cbn [negb andb].
    - destruct (arr_loop mode sn L HL (S (length t)) 0 t ltac:(lia)) as (w & o & Hi & Ho); [now inversion Hb|]. exists w, o. split; [now apply ft_items|]. destruct o as [r|j].
      + rewrite Ho. reflexivity.
      + destruct Ho as (Hj & e & -> & E). split; [exact Hj|]. cbn [bind]. now rewrite E.
    - destruct (Z.eqb_spec c QT) as [->|N2]; cbn [negb].
      + destruct (str_loop sep mode L HL HS HN (S (length t)) 0 t ltac:(lia)) as (w & o & Hi & Ho). exists w, o. split; [now apply ft_words|]. destruct o as [r|j].
        * rewrite Ho. reflexivity.
        * destruct Ho as (Hj & e & -> & E). split; [exact Hj|]. cbn [bind]. now rewrite E.
      + exists 0, (inr (expected [QT] (c :: t))). split; [now apply ft_quote|]. now split.
  Qed.
  Lemma text_det s w o w' o' : bytes s -> flag_text sep mode L s w o -> flag_text sep mode L s w' o' -> w' = w /\ o' = o.
  Proof.
    intros Hb H. revert Hb. destruct H as [|c t N1 N2|t v p H|t v p H]; intros Hb K; inversion K; subst; try contradiction; auto.
    - assert (Hb1 : bytes t) by (now inversion Hb). exact (items_det _ _ _ _ _ _ HD flag_no_quote Hb1 H _ _ H1).
    - eapply words_det; eassumption.
  Qed.
  Theorem flags_reads sn old s v r : bytes s -> (reads (flags_codec sep mode L) sn old s v r <-> flag_text sep mode L s v (inl r)).
  Proof.
    intros Hb. destruct (flags_runs sn old s Hb) as (w & o & H & Ho). split.
    - intros E. destruct o as [r'|j].
      + unfold reads in *. rewrite Ho in E. now injection E as <- <-.
      + exfalso. destruct Ho as (Hj & Ho). unfold reads in E. rewrite Ho in E. injection E as _ _ ->. discriminate.
    - intros E. destruct (text_det _ _ _ _ _ Hb E H) as (-> & ->). exact Ho.
  Qed.
  Theorem flags_faults sn old s v r j : bytes s -> (faults (flags_codec sep mode L) sn old s v r j <-> flag_text sep mode L s v (inr j) /\ r = []).
  Proof.
    intros Hb. destruct (flags_runs sn old s Hb) as (w & o & H & Ho). split.
    - intros (Hj & E). destruct o as [r'|j'].
      + exfalso. unfold reads in Ho. rewrite Ho in E. injection E as _ _ <-. discriminate.
      + destruct Ho as (_ & Ho). rewrite Ho in E. now injection E as <- <- <-.
    - intros (E & ->). destruct (text_det _ _ _ _ _ Hb E H) as (-> & ->). exact Ho.
  Qed.
End Flags.
