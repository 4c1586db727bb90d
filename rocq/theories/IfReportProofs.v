(** Proofs for C72: what a struct with member_if reports. *)
From Verif Require Import Base Parser SpecJson ParserFacts Grammar1 Grammar2 Out CodecLaws SpecSeq Array ArrayProofs
  Object ObjectArray SpecObject ObjectProofs SpecReport ReportProofs.
Import ListNotations.

Section If.
  Context {T : Type} (mode : omode).
  (** members without member_if in list order, before the failing place *)
  Lemma order_prefix sn e v j z (L : list (memb T)) R' : stop z -> no_err_yet e = true -> is_err j = true ->
    forall L1 ts fs, elems L1 ts fs -> Forall no_if L1 -> Forall plain_name (names L1) ->
    forall p g t, prefix_text (combine (names L1) ts) p -> gap g ->
    (forall n, members_loop mode sn L (S n) R' (run_all fs t) z e = Ok (v, [], told e j)) ->
    forall n, (length (fst (parse_space (p ++ g ++ z) e)) < n)%nat ->
    members_loop mode sn L n (L1 ++ R') t (fst (parse_space (p ++ g ++ z) e)) e = Ok (v, [], told e j) /\ snd (parse_space (p ++ g ++ z) e) = e.
  Proof.
    intros Hz He Hj. induction 1 as [|b L1 vt F ts fs Hv He1 IH]; intros Hi Hn p g t Hp Hg Hend n; unfold names in *; cbn [map combine] in *.
    - inversion Hp; subst. cbn [app]. rewrite gap_parse_space by assumption. cbn [fst snd]. intros Hl. split; [|reflexivity].
      destruct n as [|n]; [lia|]. apply Hend.
    - apply Forall_cons_iff in Hi as [Hb Hi]. apply Forall_cons_iff in Hn as [Hnb Hn].
      inversion Hp as [|? ? txt g1 g2 p' H1 Ht H2 Hp']; subst.
      assert (Hst : stop (txt ++ g2 ++ COMMA :: p' ++ g ++ z)).
      { destruct (member_text_head _ _ Ht) as (y & ->). apply vstart_stop, qt_vstart. }
      repeat (rewrite <- ?app_assoc; cbn [app]). rewrite gap_parse_space by assumption. cbn [fst snd]. intros Hl. split; [|reflexivity].
      destruct n as [|n]; [lia|]. cbn [app members_loop].
      rewrite (noif_reads b vt F t Hb Hnb Hv sn txt _ false e Ht); [|apply gap_follow; auto using cstop|exact He].
      cbn [bind negb]. rewrite gap_parse_space; [|exact H2|apply closer_stop, cstop]. change (COMMA =? COMMA) with true. cbv iota.
      destruct (IH Hi Hn p' g (m_set (memb_mem b) t (F (memb_old b t))) Hp' Hg Hend n) as (E1 & E2).
      + pose proof (space_good (p' ++ g ++ z)) as (r & o & Ga & Gb & _). rewrite Ga. cbn [fst]. apply suffix_len in Gb.
        rewrite !app_length in *. cbn [length] in *. rewrite !app_length in *. destruct (member_text_head _ _ Ht) as (y & ->). cbn [length] in *. lia.
      + destruct (parse_space (p' ++ g ++ z) e) as [s4 e4]. cbn [fst snd] in E1, E2. subst e4. rewrite E1. cbn [bind at_close]. now rewrite told_cerr.
  Qed.
  Lemma mem_value (m : mem T) nm g1 g2 h t sn o u e : nm = m_name m -> plain_name nm -> gap g1 -> gap g2 -> token h ->
    mem_des m sn o (quoted_name nm (g1 ++ COLON :: g2 ++ h :: t)) u e =
    let* (x, r, e2) := des (m_codec m) sn (m_get m o) (h :: t) e in Ok (m_set m o x, true, r, e2).
  Proof.
    intros -> Hn H1 H2 Hh. unfold mem_des, unser_name, quoted_name. cbn [is_string starts]. rewrite Z.eqb_refl. cbn [negb tl].
    rewrite name_loop_hit by exact Hn. rewrite Z.eqb_refl. cbn [negb orb].
    rewrite gap_parse_space; [|exact H1|apply closer_stop; unfold closer; lia]. change (COLON =? COLON) with true. cbn [negb].
    rewrite gap_parse_space by assumption. reflexivity.
  Qed.
  Theorem if_report (L1 L2 : list (memb T)) (ru : bool) (l r : mem T) d t0 ts fs p g g1 g2 h t old :
    let f := if ru then r else l in let s := if ru then l else r in let o := run_all fs old in
    Forall no_if L1 -> Forall plain_name (names L1) -> plain_name (m_name l) -> m_name r = m_name l ->
    elems L1 ts fs -> prefix_text (combine (names L1) ts) p -> gap g -> gap g1 -> gap g2 -> token h ->
    forall (x : m_ty f) j1 (n : m_ty f) (o2 : T) (y : m_ty s) j, reports (m_codec f) (m_get f o) (h :: t) x j1 ->
    des (m_codec f) (Some 0) (m_get f (m_set f o x)) (text "null") None = Ok (n, [], None) -> o2 = m_set f (m_set f o x) n ->
    reports (m_codec s) (m_get s o2) (h :: t) y j ->
    reports (object_codec mode (L1 ++ MIf ru l r d :: L2) t0) old (LCB :: p ++ g ++ quoted_name (m_name l) (g1 ++ COLON :: g2 ++ h :: t)) (m_set s o2 y) j.
  Proof.
    intros f s o Hi Hn Hl Hr He Hp Hg H1 H2 Hh x j1 n o2 y j (Hj1 & R1) En E2 (Hj & R2). split; [exact Hj|]. intros sn e Hc.
    set (z := quoted_name (m_name l) (g1 ++ COLON :: g2 ++ h :: t)).
    assert (Hz : stop z) by (apply vstart_stop, qt_vstart).
    assert (Hend : forall k, members_loop mode sn (L1 ++ MIf ru l r d :: L2) (S k) (MIf ru l r d :: L2) (run_all fs old) z e = Ok (m_set s o2 y, [], told e j)).
    { intros k. cbn [members_loop memb_des]. fold f s o.
      assert (Nf : m_name l = m_name f) by (unfold f; destruct ru; congruence). assert (Ns : m_name l = m_name s) by (unfold s; destruct ru; congruence).
      unfold z. rewrite (mem_value f (m_name l)) by assumption. rewrite R1 by reflexivity. cbn [bind told]. unfold no_err_yet at 1. rewrite Hj1. cbn [negb].
      unfold mem_reset. rewrite En. cbn [bind]. rewrite <- E2. rewrite (mem_value s (m_name l)) by assumption. rewrite R2 by exact Hc. cbn [bind negb].
      cbn [parse_space]. destruct e as [e|]; cbn [told parse_space]; cbn; [|reflexivity]. now rewrite Hj. }
    cbn [des object_codec]. unfold object_des.
    change (is_null (LCB :: p ++ g ++ z)) with false. change (LCB =? LCB) with true. cbv iota. cbn [negb].
    destruct (order_prefix sn e (m_set s o2 y) j z (L1 ++ MIf ru l r d :: L2) (MIf ru l r d :: L2) Hz Hc Hj L1 ts fs He Hi Hn p g old Hp Hg Hend
      (S (length (fst (parse_space (p ++ g ++ z) e)))) ltac:(lia)) as (E1 & E3).
    assert (Hx : exists c q, fst (parse_space (p ++ g ++ z) e) = c :: q /\ c <> RCB).
    { destruct (prefix_head _ _ Hp g (m_name l ++ QT :: g1 ++ COLON :: g2 ++ h :: t) Hg) as (g' & s' & Eq & Hg').
      change (p ++ g ++ z) with (p ++ g ++ QT :: m_name l ++ QT :: g1 ++ COLON :: g2 ++ h :: t). rewrite Eq.
      rewrite gap_parse_space; [|exact Hg'|apply vstart_stop, qt_vstart]. do 2 eexists. split; [reflexivity|lia]. }
    destruct (parse_space (p ++ g ++ z) e) as [s1 e1]. cbn [fst snd] in *. subst e1. destruct Hx as (c & q & -> & Hq).
    destruct (c =? RCB) eqn:E; [lia|]. cbn [negb]. rewrite E1. cbn [bind]. now rewrite told_cerr.
  Qed.
  Theorem if_array_report (L1 L2 : list (memb T)) (ru : bool) (l r : mem T) d t0 ts b fs g z old :
    let f := if ru then r else l in let s := if ru then l else r in let o := run_all fs old in
    commas ts b -> elems L1 ts fs -> Forall no_if L1 -> gap g -> stop z -> (ts = [] -> exists c q, z = c :: q /\ c <> RBR) ->
    forall (x : m_ty f) j1 (n : m_ty f) (o2 : T) (y : m_ty s) j, reports (m_codec f) (m_get f o) z x j1 ->
    des (m_codec f) (Some 0) (m_get f (m_set f o x)) (text "null") None = Ok (n, [], None) -> o2 = m_set f (m_set f o x) n ->
    reports (m_codec s) (m_get s o2) z y j ->
    reports (oarray_codec (L1 ++ MIf ru l r d :: L2) t0) old (LBR :: b ++ g ++ z) (m_set s o2 y) j.
  Proof.
    intros f s o Hb Hel Hn Hg Hz Hne x j1 n o2 y j (Hj1 & R1) En E2 (Hj & R2).
    apply (oarray_prefix t0 L1 (MIf ru l r d :: L2) ts b fs g z); auto. intros sn e He. exists [], (told e j).
    split; [|split; [exact Logic.I|cbn [aclose]; now rewrite told_cerr]]. cbn [amembers_des amemb_des]. fold f s o.
    unfold amem_des. rewrite R1 by reflexivity. cbn [bind told]. unfold no_err_yet at 1. rewrite Hj1. cbn [negb].
    unfold mem_reset. rewrite En. cbn [bind]. rewrite <- E2. rewrite R2 by exact He. cbn [bind]. rewrite space_stop by exact Logic.I. now rewrite told_cerr.
  Qed.
End If.
