(** Proofs about Misc.v. *)
From Verif Require Import Base Parser SpecJson ParserFacts Grammar1 Grammar2 Out CodecLaws Misc SpecMisc.

(** ---- multi_deserializer ---- *)
(** Reading [s] into [x] reports an error; [x1] is [x] afterwards. *)
Definition rejects (sn : option Z) (s : buf) (x x1 : slot) : Prop :=
  exists v r er, des (s_codec x) sn (s_target x) s (Some no_error) = Ok (v, r, er) /\ has_err er = true /\
    x1 = mkslot (s_type x) (s_codec x) v.
Definition accepts (sn : option Z) (s : buf) (x x1 : slot) : Prop :=
  exists v r er, des (s_codec x) sn (s_target x) s (Some no_error) = Ok (v, r, er) /\ has_err er = false /\
    x1 = mkslot (s_type x) (s_codec x) v.

Lemma multi_index sn s e pre pre1 : Forall2 (rejects sn s) pre pre1 -> forall x x1 post, accepts sn s x x1 ->
  multi sn s (pre ++ x :: post) e = Ok (Z.of_nat (length pre), pre1 ++ x1 :: post, e).
Proof.
  induction 1 as [|y y1 pre pre1 (v & r & er & D & E & ->) _ IH]; intros x x1 post Hx.
  - destruct Hx as (v & r & er & D & E & ->). destruct x as [A c t]. cbn [app multi s_codec s_target s_type] in *.
    rewrite D. cbn [bind]. rewrite E. reflexivity.
  - destruct y as [A c t]. cbn [app multi s_codec s_target s_type] in *. rewrite D. cbn [bind]. rewrite E. cbn [negb].
    rewrite (IH x x1 post Hx). cbn [bind]. do 3 f_equal. cbn [length]. lia.
Qed.
Lemma multi_none sn s e l l1 r e1 : Forall2 (rejects sn s) l l1 -> parse_value sn s e = Ok (r, e1) ->
  multi sn s l e = Ok (Z.of_nat (length l), l1, e1).
Proof.
  induction 1 as [|y y1 pre pre1 (v & q & er & D & E & ->) _ IH]; intros P.
  - cbn [multi]. rewrite P. reflexivity.
  - destruct y as [A c t]. cbn [app multi s_codec s_target s_type] in *. rewrite D. cbn [bind]. rewrite E. cbn [negb].
    rewrite (IH P). cbn [bind]. do 3 f_equal. cbn [length]. lia.
Qed.
Lemma multi_inv sn s e : forall l n l1 e1, multi sn s l e = Ok (n, l1, e1) ->
  (exists pre pre1 x x1 post, l = pre ++ x :: post /\ l1 = pre1 ++ x1 :: post /\ n = Z.of_nat (length pre) /\ e1 = e /\
     Forall2 (rejects sn s) pre pre1 /\ accepts sn s x x1) \/
  (n = Z.of_nat (length l) /\ Forall2 (rejects sn s) l l1 /\ exists r, parse_value sn s e = Ok (r, e1)).
Proof.
  induction l as [|[A c t] l IH]; intros n l1 e1 H; cbn [multi] in H.
  - right. destruct (parse_value sn s e) as [[r e2]| |] eqn:P; cbn [bind] in H; [|discriminate|discriminate].
    injection H as <- <- <-. split; [reflexivity|]. split; [constructor|]. now exists r.
  - destruct (des c sn t s (Some no_error)) as [[[v r] er]| |] eqn:D; cbn [bind] in H; [|discriminate|discriminate].
    destruct (has_err er) eqn:E; cbn [negb] in H.
    + destruct (multi sn s l e) as [[[m l2] e2]| |] eqn:M; cbn [bind] in H; [|discriminate|discriminate].
      assert (n = 1 + m) as -> by congruence. assert (l1 = mkslot A c v :: l2) as -> by congruence.
      assert (e1 = e2) as -> by congruence. clear H. assert (rejects sn s (mkslot A c t) (mkslot A c v)) as Rj by (exists v, r, er; auto).
      destruct (IH m l2 e2 eq_refl) as [(pre & pre1 & x & x1 & post & -> & -> & -> & -> & F & Ac)|(-> & F & P)].
      * left. exists (mkslot A c t :: pre), (mkslot A c v :: pre1), x, x1, post. split; [reflexivity|]. split; [reflexivity|].
        split; [cbn [length]; lia|]. split; [reflexivity|]. split; [now constructor|exact Ac].
      * right. split; [cbn [length]; lia|]. split; [now constructor|exact P].
    + injection H as <- <- <-. left. exists [], [], (mkslot A c t), (mkslot A c v), l. split; [reflexivity|]. split; [reflexivity|].
      split; [reflexivity|]. split; [reflexivity|]. split; [constructor|]. exists v, r, er. auto.
Qed.

(** ---- schema ---- *)
Lemma str_eq_iff a : forall b, str_eq a b = true <-> a = b.
Proof.
  induction a as [|x a IH]; intros [|y b]; cbn [str_eq]; split; intros H; try discriminate; try reflexivity.
  - apply andb_prop in H. destruct H as [H1 H2]. apply IH in H2. subst. f_equal. lia.
  - injection H as -> ->. rewrite Z.eqb_refl. now apply IH.
Qed.
Lemma str_dec (a b : buf) : a = b \/ a <> b.
Proof. destruct (str_eq a b) eqn:E; [left; now apply str_eq_iff|right]. intros ->. assert (str_eq b b = true) by now apply str_eq_iff. congruence. Qed.
Lemma schema_found_iff x l : schema_found x l = true <-> In x l.
Proof.
  induction l as [|y l IH]; cbn [schema_found In]; [split; [discriminate|tauto]|].
  destruct (str_eq x y) eqn:E.
  - apply str_eq_iff in E. subst. tauto.
  - rewrite IH. split; [auto|]. intros [->|H]; [|exact H]. assert (str_eq x x = true) by now apply str_eq_iff. congruence.
Qed.
Lemma schema_inner_iff x l : schema_inner x l = true <-> In x l.
Proof.
  induction l as [|y l IH]; cbn [schema_inner In]; [split; [discriminate|tauto]|].
  destruct (str_eq y x) eqn:E.
  - apply str_eq_iff in E. subst. tauto.
  - rewrite IH. split; [auto|]. intros [->|H]; [|exact H]. assert (str_eq x x = true) by now apply str_eq_iff. congruence.
Qed.
Lemma schema_merge_spec cur : forall sch h, exists new,
  schema_merge cur sch h = (sch ++ new, h || match new with [] => false | _ => true end) /\ missing_in_order sch cur new.
Proof.
  induction cur as [|c cur IH]; intros sch h; cbn [schema_merge].
  - exists []. split; [rewrite app_nil_r; now destruct h|]. split; [constructor|]. split; [intros x; split; [now intros []|now intros [[] _]]|].
    intros a x b E. now destruct a.
  - destruct (schema_found c sch) eqn:F.
    + apply schema_found_iff in F. destruct (IH sch h) as (new & -> & N & I & O). exists new. split; [reflexivity|].
      split; [exact N|]. split.
      * intros x. rewrite I. cbn [In]. split; [tauto|]. intros [[<-|H] H2]; tauto.
      * intros a x b E. destruct (O a x b E) as (p & q & -> & Hp & Ha). exists (c :: p), q. split; [reflexivity|].
        assert (In x new) as Hx by (rewrite E; apply in_or_app; right; now left). apply I in Hx.
        split; [intros [->|H]; tauto|]. intros y. rewrite Ha. cbn [In]. split; [tauto|]. intros [[<-|H] H2]; tauto.
    + assert (~ In c sch) as Fc by (rewrite <- schema_found_iff; congruence).
      destruct (IH (sch ++ [c]) true) as (new & -> & N & I & O). exists (c :: new). split.
      { rewrite <- app_assoc. cbn [app orb]. now rewrite orb_true_r. }
      split; [|split].
      * constructor; [|exact N]. rewrite I. intros [_ H]. apply H. apply in_or_app. right. now left.
      * intros x. cbn [In]. rewrite I, in_app_iff. cbn [In]. split.
        -- intros [<-|(H1 & H2)]; [tauto|]. split; [now right|]. intro. apply H2. now left.
        -- intros ([<-|H1] & H2); [now left|]. destruct (str_dec c x) as [->|E]; [now left|]. right. split; [exact H1|].
           intros [H|[H|[]]]; auto.
      * intros a x b E. destruct a as [|a0 a]; cbn [app] in E; injection E as -> E.
        -- exists [], cur. split; [reflexivity|]. split; [auto|]. intros y. cbn [In]. tauto.
        -- destruct (O a x b E) as (p & q & -> & Hp & Ha). exists (a0 :: p), q. split; [reflexivity|].
           assert (In x new) as Hx by (rewrite E; apply in_or_app; right; now left). apply I in Hx. destruct Hx as [_ Hx].
           rewrite in_app_iff in Hx. cbn [In] in Hx. split; [intros [->|H]; tauto|].
           intros y. cbn [In]. rewrite Ha, in_app_iff. cbn [In]. split.
           ++ intros [<-|(H1 & H2)]; [tauto|]. split; [now right|]. intro; apply H2; now left.
           ++ intros ([<-|H1] & H2); [now left|]. destruct (str_dec a0 y) as [->|Ey]; [now left|]. right. split; [exact H1|].
              intros [H|[H|[]]]; auto.
Qed.
Lemma schema_pick_first l p x q : (forall y, In y p -> ~ In y l) -> In x l -> schema_pick (p ++ x :: q) l = Some x.
Proof.
  intros Hp Hx. induction p as [|y p IH]; cbn [app schema_pick].
  - apply schema_inner_iff in Hx. now rewrite Hx.
  - destruct (schema_inner y l) eqn:E; [apply schema_inner_iff in E; exfalso; exact (Hp y (or_introl eq_refl) E)|].
    apply IH. intros z Hz. apply Hp. now right.
Qed.
Lemma schema_pick_none l p : (forall y, In y p -> ~ In y l) -> schema_pick p l = None.
Proof.
  intros Hp. induction p as [|y p IH]; cbn [schema_pick]; [reflexivity|].
  destruct (schema_inner y l) eqn:E; [apply schema_inner_iff in E; exfalso; exact (Hp y (or_introl eq_refl) E)|].
  apply IH. intros z Hz. apply Hp. now right.
Qed.

(** ---- strerror ---- *)
Lemma split_trace_spec j s : 0 <= tail_of j <= dist s -> exists a b, s = a ++ b /\ dist b = tail_of j /\
  dist a = dist s - tail_of j /\ split_trace j s = Ok (a ++ (if tail_of j =? 0 then text "<<<" else text ">>>") ++ b).
Proof.
  intros H. unfold split_trace. replace ((0 <=? tail_of j) && (tail_of j <=? dist s)) with true by lia.
  set (k := Z.to_nat (dist s - tail_of j)). exists (firstn k s), (skipn k s).
  split; [now rewrite firstn_skipn|]. assert (Z.of_nat k = dist s - tail_of j) as Hk by lia.
  unfold dist in *. rewrite firstn_length, skipn_length. repeat split; lia.
Qed.
Lemma split_trace_bad j s : ~ 0 <= tail_of j <= dist s -> split_trace j s = UB.
Proof. intros H. unfold split_trace. now replace ((0 <=? tail_of j) && (tail_of j <=? dist s)) with false by lia. Qed.
