(** Laws that every codec of the library is shown to satisfy. *)
From Verif Require Import Base Parser SpecJson ParserFacts Grammar1 Grammar2 Out.

(** How a call may change *e: not at all, or from clean to an error whose
    tail_of lies inside the range the call was given. *)
Definition estep (s : buf) (e e' : eptr) : Prop :=
  e' = e \/
  exists k j, e = Some k /\ is_err k = false /\ e' = Some j /\ is_err j = true /\ 0 <= tail_of j <= dist s.

(** Deserializer law: never out of fuel; the returned iterator lies in the
    range; *e changes as above. *)
Definition dgood {B} (s : buf) (e : eptr) (x : res (B * buf * eptr)) : Prop :=
  match x with
  | Ok (_, r, e') => suffix r s /\ estep s e e'
  | UB => True
  | Fuel => False
  end.
Definition dlaw {A} (d : option Z -> A -> buf -> eptr -> res (A * buf * eptr)) : Prop :=
  forall sn old s e, dgood s e (d sn old s e).

(** No undefined behaviour as long as *end is readable and is no closing
    bracket. *)
Definition good_sn (sn : option Z) : Prop := exists c, sn = Some c /\ c <> RBR /\ c <> RCB.
Definition dsafe {A} (d : option Z -> A -> buf -> eptr -> res (A * buf * eptr)) : Prop :=
  forall sn old s e, good_sn sn -> d sn old s e <> UB.

(** Round trip for the values in [dom]: the output starts like a JSON value,
    and reading it back, whatever the target contained and whatever follows,
    gives the value, consumes exactly the output and reports nothing. *)
Definition rt {A} (c : codec A) (dom : A -> Prop) : Prop :=
  forall v, dom v -> exists ops, ser c v = Ok ops /\
    (exists h t, flat ops = h :: t /\ vstart h) /\
    forall sn old r e, follow r -> no_err_yet e = true -> des c sn old (flat ops ++ r) e = Ok (v, r, e).

(** Output is RFC 8259 JSON. *)
Definition jout {A} (c : codec A) (dom : A -> Prop) : Prop :=
  forall v, dom v -> exists ops, ser c v = Ok ops /\ rvalue (flat ops).
(** Output consists of plain writes only. *)
Definition wout {A} (c : codec A) (dom : A -> Prop) : Prop :=
  forall v, dom v -> exists b, ser c v = Ok (wr b).

(** ---- basic lemmas ---- *)
Lemma flat_app a b : flat (a ++ b) = flat a ++ flat b.
Proof. induction a as [|x a IH]; [reflexivity|]. cbn. now rewrite IH, app_assoc. Qed.
Lemma flat_wr s : flat (wr s) = s.
Proof. induction s as [|c s IH]; [reflexivity|]. cbn. unfold wr in IH. now rewrite IH. Qed.
Lemma flat_sub l : flat [Sub l] = flat l.
Proof. cbn [flat flat1]. rewrite app_nil_r. induction l as [|x l IH]; [reflexivity|]. cbn. now rewrite <- IH. Qed.
Lemma wr_app a b : wr (a ++ b) = wr a ++ wr b.
Proof. apply map_app. Qed.

Lemma estep_refl s e : estep s e e. Proof. now left. Qed.
Lemma estep_weaken s s' e e' : suffix s' s -> estep s' e e' -> estep s e e'.
Proof.
  intros Hs [->|(k & j & A & B & C & D & E)]; [now left|]. right. exists k, j.
  apply suffix_dist in Hs. repeat split; auto; lia.
Qed.
Lemma estep_trans s e1 e2 e3 : estep s e1 e2 -> estep s e2 e3 -> estep s e1 e3.
Proof.
  intros [->|(k & j & A & B & C & D & E)]; [tauto|].
  intros [->|(k' & j' & A' & B' & _)]; [right; exists k, j; tauto|]. congruence.
Qed.
Lemma estep_cerr s c m t e : c <> ValidJSON -> 0 <= t <= dist s -> estep s e (cerr c m t e).
Proof.
  intros Hc Ht. unfold cerr. destruct e as [k|]; [|now left]. destruct (is_err k) eqn:E; [now left|].
  right. exists k, (mkerr c m t). split; [reflexivity|]. split; [exact E|]. split; [reflexivity|].
  split; [destruct c; congruence || reflexivity|exact Ht].
Qed.
Lemma estep_app s e o : rep_ok s o -> estep s e (app_err e o).
Proof.
  destruct o as [j|]; [|now left]. intros (H1 & H2). cbn. destruct e as [k|]; [|now left].
  destruct (is_err k) eqn:E; [now left|]. right. exists k, j. tauto.
Qed.
Lemma estep_has s e e' : estep s e e' -> has_err e = true -> e' = e.
Proof.
  intros [->|(k & j & -> & B & _)] H; [reflexivity|]. unfold has_err, no_err_yet in H. rewrite B in H. discriminate.
Qed.

Lemma dgood_ok {B} s e (v : B) r e' : suffix r s -> estep s e e' -> dgood s e (Ok (v, r, e')).
Proof. intros; split; assumption. Qed.
Lemma dgood_err {B} s e (v : B) c m t : c <> ValidJSON -> 0 <= t <= dist s ->
  dgood s e (Ok (v, [], cerr c m t e)).
Proof. intros. split; [apply suffix_nil|now apply estep_cerr]. Qed.
Lemma dgood_weaken {B} s s' e e' (x : res (B * buf * eptr)) :
  suffix s' s -> estep s e e' -> dgood s' e' x -> dgood s e x.
Proof.
  intros Hs He. destruct x as [[[v r] e2]| |]; cbn; [|tauto|tauto].
  intros (H1 & H2). split; [now apply suffix_trans with s'|]. eapply estep_trans; [exact He|].
  eapply estep_weaken; eassumption.
Qed.
Lemma dgood_bind {B C} s e (x : res (B * buf * eptr)) (f : B * buf * eptr -> res (C * buf * eptr)) :
  dgood s e x -> (forall v r e', suffix r s -> estep s e e' -> x = Ok (v, r, e') -> dgood s e (f (v, r, e'))) ->
  dgood s e (bind x f).
Proof. destruct x as [[[v r] e']| |]; cbn [bind dgood]; intros H1 H2; [|exact I|exact H1]. apply H2; tauto. Qed.
Lemma dgood_pair {B} s e f (g : buf -> B) : pgood f s ->
  dgood s e (let '(r, e') := f s e in Ok (g r, r, e')).
Proof.
  intros (r & o & A & B1 & B2 & _). rewrite A. split; [exact B1|now apply estep_app].
Qed.
Lemma space_estep s e r e' : parse_space s e = (r, e') -> suffix r s /\ estep s e e'.
Proof.
  intros E. destruct (space_good s) as (r0 & o & A & B1 & B2 & _). rewrite A in E. injection E as <- <-.
  split; [exact B1|now apply estep_app].
Qed.
Lemma dist_pos s : 0 <= dist s. Proof. apply dist_nonneg. Qed.
Lemma estep_end s e : estep s e (cerr UnexpectedEndFragment None 0 e).
Proof. apply estep_cerr; [discriminate|]. pose proof (dist_pos s). lia. Qed.
