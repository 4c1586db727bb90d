(** What follows a number is not looked at by the conversion, unless it is a digit. *)
From Coq Require Import QArith Qabs Lqa.
From Verif Require Import Base Parser SpecJson SpecNum SpecMisc Out Float FloatProofs Fp SpecFp FpProofs FpTextProofs FpWriteProofs ParserFacts Grammar1.
Open Scope Z_scope.

(** what may follow: decided by the first character *)
Definition stops (f x r : buf) : Prop :=
  match r with [] => True | c :: _ => ~ s_digit c /\ (f = [] -> x = [] -> c <> DOT) /\ (x = [] -> c <> 101 /\ c <> 69) end.
Lemma power_stop x r : rexp x -> match r with [] => True | c :: _ => ~ s_digit c /\ (x = [] -> c <> 101 /\ c <> 69) end -> power (x ++ r) = Some (exponent x).
Proof.
  intros Hx Hr. destruct Hx as [|c sg ds Hc Hsg Hd].
  - cbn [app exponent]. destruct r as [|c r]; [reflexivity|]. destruct Hr as (_ & D). destruct (D eq_refl) as [D1 D2]. cbn [power].
    replace (c =? 101) with false by lia. replace (c =? 69) with false by lia. reflexivity.
  - rewrite exponent_text by auto. destruct Hd as [Nd Hd]. cbn [app power]. replace ((c =? 101) || (c =? 69)) with true by lia.
    rewrite <- app_assoc.
    assert (exp_sign (sg ++ ds ++ r) = (match sg with [45] => true | _ => false end, ds ++ r)) as ->.
    { destruct Hsg as [->|[-> | ->]]; [|reflexivity|reflexivity]. destruct ds as [|d ds]; [congruence|]. inversion Hd as [|? ? H0 _]; subst.
      apply nondigit_head in H0. cbn [app exp_sign]. replace (d =? 45) with false by lia. replace (d =? 43) with false by lia. reflexivity. }
    rewrite run_app; [|exact Hd|destruct r; [exact I|apply Hr]]. rewrite number_of_dval. destruct ds; [congruence|]. reflexivity.
Qed.
Lemma get_stop F m i f x r : ropt_minus m -> digits1 i -> rfrac f -> rexp x -> stops f x r ->
  get F (m ++ i ++ f ++ x ++ r) = round F (is_minus m) (q_of i f x).
Proof.
  intros Hm Hi Hf Hx Hr. unfold get, q_of. rewrite lead_minus_text by auto.
  assert (no_digit (x ++ r)) as Nx.
  { destruct Hx as [|c sg ds Hc]; [destruct r; [exact I|apply Hr]|]. cbn [app no_digit]. unfold s_digit. lia. }
  rewrite run_app; [|apply Hi|].
  2: { destruct Hf; [exact Nx|]. cbn [app]. unfold s_digit. lia. }
  assert (point (f ++ x ++ r) = (tl f, x ++ r)) as ->.
  { destruct Hf as [|ds [_ Hd]].
    - cbn [app tl]. destruct Hx as [|c sg ds Hc].
      + cbn [app]. destruct r as [|c r]; [reflexivity|]. destruct Hr as (_ & D & _). specialize (D eq_refl eq_refl). cbn [point]. replace (c =? DOT) with false by lia. reflexivity.
      + cbn [app point]. replace (c =? 46) with false by lia. reflexivity.
    - cbn [app tl point]. change (46 =? 46) with true. cbv iota. now apply run_app. }
  rewrite power_stop; [|exact Hx|destruct r; [exact I|]; split; apply Hr].
  destruct Hi as [Ni _]. destruct i as [|c i]; [congruence|]. cbn [app]. now rewrite number_of_dval.
Qed.
Lemma digits_no d c : digits d -> In c d -> s_digit c.
Proof. unfold digits. rewrite Forall_forall. auto. Qed.
Lemma num_stop_stops m i f x r : ropt_minus m -> digits1 i -> rfrac f -> rexp x -> num_stop (m ++ i ++ f ++ x) r ->
  match r with [] => True | c :: _ => ~ s_digit c end -> stops f x r.
Proof.
  intros Hm [_ Hi] Hf Hx Hs Hd. destruct r as [|c r]; [exact I|]. destruct Hs as (_ & S1 & S2). split; [exact Hd|].
  assert (forall y, In y (m ++ i) -> y = MINUS \/ s_digit y) as Pmi.
  { intros y Hy. apply in_app_or in Hy as [Hy|Hy]; [destruct Hm; [contradiction|]; destruct Hy as [<-|[]]; auto|right; now apply digits_no with i]. }
  split.
  - intros -> -> E. rewrite !app_nil_r in S1. assert (K : forall y, In y (m ++ i) -> y <> DOT /\ y <> 101 /\ y <> 69) by (intros y Hy; destruct (Pmi y Hy) as [->|H]; unfold s_digit in *; lia).
    destruct (S1 E) as [H|[H|H]]; apply K in H; lia.
  - intros ->. rewrite app_nil_r in S2.
    assert (K : forall y, In y (m ++ i ++ f) -> y <> 101 /\ y <> 69).
    { intros y Hy. rewrite app_assoc in Hy. apply in_app_or in Hy as [Hy|Hy]; [destruct (Pmi y Hy) as [->|H]; unfold s_digit in *; lia|].
      destruct Hf as [|ds [_ H]]; [contradiction|]. destruct Hy as [<-|Hy]; [lia|]. pose proof (digits_no _ _ H Hy) as Q. unfold s_digit in Q. lia. }
    split; intros ->; [destruct (S2 (or_introl eq_refl)) as [H|H]|destruct (S2 (or_intror eq_refl)) as [H|H]]; apply K in H; lia.
Qed.
Lemma cut_stops f x k r : stops f x r -> stops f x (cstr (firstn k r)).
Proof.
  intros H. destruct r as [|c r]; destruct k as [|k]; try exact I. cbn [firstn cstr]. destruct (c =? 0); [exact I|exact H].
Qed.
(** a JSON number denotes a number *)
Lemma rnumber_denotes n : rnumber n -> exists q, denotes n q.
Proof.
  intros [m i f x Hm Hi Hf Hx]. eexists. constructor; auto. now apply rint_digits1.
Qed.
Lemma get_number F R n r : format_ok F -> rnumber n -> num_stop n r -> match r with [] => True | c :: _ => ~ s_digit c end -> (length n <= bufsize R)%nat ->
  exists q, denotes n q /\ nearest F q (get F (cstr (firstn (bufsize R) (n ++ r)))) /\ negative (get F (cstr (firstn (bufsize R) (n ++ r)))) = minus_first n.
Proof.
  intros HF Hn Hs Hd Hl. rewrite firstn_short by exact Hl. rewrite cstr_app by now apply sfloat_nz, rnumber_sfloat.
  destruct Hn as [m i f x Hm Hi0 Hf Hx]. pose proof (rint_digits1 i Hi0) as Hi. eexists. split; [constructor; auto|].
  rewrite <- !app_assoc. rewrite get_stop; auto.
  2: { apply cut_stops. now apply num_stop_stops with m i. }
  destruct (q_of_value i f x) as [P E]; [apply Hi|exact Hf|]. destruct (round_nearest F (is_minus m) (q_of i f x) HF P) as [N S].
  assert (minus_first (m ++ i ++ f ++ x) = is_minus m) as ->.
  { destruct Hm; [|reflexivity]. destruct Hi as [Ni Hi]. destruct i as [|c i]; [congruence|]. inversion Hi as [|? ? Hc _]; subst. cbn [app minus_first is_minus].
    unfold s_digit in Hc. assert (In c [48; 49; 50; 51; 52; 53; 54; 55; 56; 57]) as I by (cbn [In]; lia). cbn [In] in I. repeat (destruct I as [<-|I]; [reflexivity|]). contradiction. }
  split; [|exact S]. eapply nearest_comp; [|exact N]. rewrite <- Qmult_assoc, <- E. destruct Hm; cbn [is_minus minus_sign]; ring.
Qed.
