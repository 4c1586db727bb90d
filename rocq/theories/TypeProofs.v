(** Whatever the text, the value read is one the target can hold. *)
From Verif Require Import Base Parser SpecJson ParserFacts Out Number StringS Array SpecSeq Unord Object SpecObject ObjectArray Enum SpecEnum Wrap TimeSize Float
  CodecLaws NumberProofs StringProofs ArrayProofs ObjectProofs EnumProofs WrapProofs Desc DescProofs SpecType.

Definition Y {A} (P : A -> Prop) (m : res (A * buf * eptr)) : Prop :=
  match m with Ok (v, r, _) => P v /\ bytes r | _ => True end.
Definition YB (m : res (buf * eptr)) : Prop := match m with Ok (r, _) => bytes r | _ => True end.
Definition typed {A} (d : option Z -> A -> buf -> eptr -> res (A * buf * eptr)) (P : A -> Prop) : Prop :=
  forall sn old s e, P old -> bytes s -> Y P (d sn old s e).
Lemma bytes_nil : bytes []. Proof. constructor. Qed.
Lemma bytes_tl c s : bytes (c :: s) -> bytes s. Proof. intros H. now inversion H. Qed.
#[local] Hint Resolve bytes_nil : core.
Lemma pgood_bytes f s e : pgood f s -> bytes s -> bytes (fst (f s e)).
Proof. intros (r & o & A & B & _) H. rewrite A. cbn. eapply suffix_bytes; eassumption. Qed.
Lemma rlaw_bytes sn f s e : rlawS sn f s -> bytes s -> YB (f s e).
Proof. intros [(r & o & A & (B & _) & _)|(_ & A)] H; rewrite A; [|exact I]. cbn. eapply suffix_bytes; eassumption. Qed.
Lemma value_bytes sn s e : bytes s -> YB (parse_value sn s e).
Proof. apply (rlaw_bytes sn), pv_law. Qed.
Lemma member_bytes sn s e : bytes s -> YB (parse_member (parse_value sn) s e).
Proof. apply (rlaw_bytes sn), pmember_law. Qed.
Lemma string_bytes s e : bytes s -> YB (parse_string s e).
Proof. intros H. destruct (string_good s) as (r & o & A & B & _). rewrite A. cbn. eapply suffix_bytes; eassumption. Qed.
Lemma Y_bind {A B} (P : A -> Prop) (Q : B -> Prop) (m : res (A * buf * eptr)) (f : A * buf * eptr -> res (B * buf * eptr)) :
  Y P m -> (forall v r y, P v -> bytes r -> Y Q (f (v, r, y))) -> Y Q (bind m f).
Proof. destruct m as [[[v r] y]| |]; cbn [bind]; intros H K; [apply K; apply H|exact I|exact I]. Qed.
Lemma YB_bind {B} (Q : B -> Prop) (m : res (buf * eptr)) (f : buf * eptr -> res (B * buf * eptr)) :
  YB m -> (forall r y, bytes r -> Y Q (f (r, y))) -> Y Q (bind m f).
Proof. destruct m as [[r y]| |]; cbn [bind]; intros H K; [now apply K|exact I|exact I]. Qed.
Lemma YB_bindP (m : res (buf * eptr)) (f : buf * eptr -> res (buf * eptr)) :
  YB m -> (forall r y, bytes r -> YB (f (r, y))) -> YB (bind m f).
Proof. destruct m as [[r y]| |]; cbn [bind]; intros H K; [now apply K|exact I|exact I]. Qed.
Lemma Y_pure {A B} (Q : B -> Prop) (a : res A) (f : A -> res (B * buf * eptr)) : (forall v, a = Ok v -> Y Q (f v)) -> Y Q (bind a f).
Proof. intros K. destruct a; cbn [bind]; [now apply K|exact I|exact I]. Qed.

Ltac spB f gd :=
  match goal with H : bytes ?s |- context [f ?s ?x] =>
    let P := fresh "Hb" in pose proof (pgood_bytes f s x (gd s) H) as P; destruct (f s x) as [? ?]; cbn [fst] in P
  end.
Ltac sp := spB parse_space space_good.
Ltac tlb := repeat match goal with H : bytes (?c :: ?t) |- _ =>
  lazymatch goal with K : bytes t |- _ => fail | _ => pose proof (bytes_tl c t H) end end.
Ltac yd := first [ exact I | split; [assumption || auto|assumption || apply bytes_nil] ].
Ltac dl := match goal with |- Y _ (match ?z with [] => _ | _ => _ end) => destruct z end.

(** ---- leaves ---- *)
Lemma irange0 t : ity_ok t -> irange t 0.
Proof. intros H. unfold irange, imin, imax. destruct (imod_cases t H) as [(_ & ->)|[(_ & ->)|[(_ & ->)|(_ & ->)]]]; destruct (isigned t); cbn; lia. Qed.
Lemma int_loop_typed t : ity_ok t -> forall s v, irange t v -> bytes s ->
  match int_loop t v s with Ok (w, r) => irange t w /\ bytes r | _ => True end.
Proof.
  intros Ht. induction s as [|c r IH]; intros v Hv Hs; cbn [int_loop]; [now split|].
  destruct (negb (is_digit c)); [now split|].
  destruct (iarith _ (v * 10)) as [a| |]; cbn [bind]; [|exact I|exact I].
  destruct (iarith _ (a + _)) as [b| |]; cbn [bind]; [|exact I|exact I].
  apply IH; [now apply icast_range|exact (bytes_tl _ _ Hs)].
Qed.
Lemma int_typed t : ity_ok t -> typed (int_des t) (irange t).
Proof.
  intros Ht sn old s e Ho Hs. pose proof (irange0 t Ht) as H0. unfold int_des. destruct (is_null s); [spB parse_null null_good; yd|].
  unfold unserialize_integer. destruct s as [|c t0]; [yd|]. cbv zeta.
  assert (G : forall (neg : bool) (s1 : buf), bytes s1 -> Y (irange t)
    match s1 with
    | [] => Ok (0, [], cerr InvalidNumber None (dist s1) e)
    | d :: r =>
      if negb (is_digit d) then Ok (0, [], cerr InvalidNumber None (dist s1) e)
      else if d =? 48 then Ok (0, r, e)
      else
        let* (v, s2) := int_loop t 0 s1 in
        if neg then
          let* w := iarith (ipromote t) (- v) in
          Ok (icast t w, s2, e)
        else Ok (v, s2, e)
    end).
  { intros neg s1 H1. destruct s1 as [|d r]; [yd|]. destruct (negb _); [yd|]. destruct (d =? 48); [tlb; yd|].
    pose proof (int_loop_typed t Ht (d :: r) 0 H0 H1) as P.
    destruct (int_loop t 0 (d :: r)) as [[v s2]| |]; cbn [bind]; [|exact I|exact I]. destruct P.
    destruct neg; [|yd]. apply Y_pure. intros w _. split; [now apply icast_range|assumption]. }
  apply G. destruct (c =? MINUS); [exact (bytes_tl _ _ Hs)|exact Hs].
Qed.
Lemma int_loop_nonneg t : ity_ok t -> isigned t = true -> 4 <= isize t -> forall s v w r, 0 <= v <= imax t -> int_loop t v s = Ok (w, r) -> 0 <= w <= imax t.
Proof.
  intros Ht Sg W. assert (Q : ipromote t = t) by (unfold ipromote; replace (isize t <? 4) with false by lia; reflexivity).
  assert (U : imin t <= 0) by (unfold imin; rewrite Sg; pose proof (half_cases t Ht); lia).
  induction s as [|c s IH]; intros v w r Hv; cbn [int_loop]; [intros E; injection E as <- <-; exact Hv|].
  destruct (is_digit c) eqn:Ed; cbn [negb]; [|intros E; injection E as <- <-; exact Hv]. rewrite Q. unfold iarith. rewrite Sg.
  destruct (irangeb t (v * 10)) eqn:E1; cbn [bind]; [|discriminate]. assert (D : 0 <= c - 48 <= 9) by (unfold is_digit in Ed; lia).
  rewrite (icast_id t (c - 48) Ht) by (unfold irange; pose proof (half_cases t Ht); unfold imax; rewrite Sg; unfold imax in Hv; rewrite Sg in Hv; destruct Ht as [K|[K|[K|K]]]; rewrite K in W; try lia; unfold imod in *; rewrite K in *; vm_compute (2 ^ _) in *; lia).
  destruct (irangeb t (v * 10 + (c - 48))) eqn:E2; cbn [bind]; [|discriminate]. assert (R2 : irange t (v * 10 + (c - 48))) by (unfold irange; unfold irangeb in E2; lia). rewrite icast_id by assumption.
  apply IH. destruct R2. lia.
Qed.
Lemma int_kept_typed t : ity_ok t -> typed (int_des t) (fun v => irange t v /\ (isize t < 4 \/ isigned t = false \/ v <> imin t)).
Proof.
  intros Ht sn old s e [Ho1 Ho2] Hs. pose proof (int_typed t Ht sn old s e Ho1 Hs) as P. destruct (int_des t sn old s e) as [[[v r] x]| |] eqn:E; [|exact I|exact I]. destruct P as [P1 P2]. split; [|exact P2]. split; [exact P1|].
  destruct (Z_lt_dec (isize t) 4) as [L|L]; [now left|]. destruct (isigned t) eqn:Sg; [|now right; left]. right; right.
  assert (N0 : imin t < 0 /\ imin t = - imax t - 1) by (unfold imin, imax; rewrite Sg; pose proof (half_cases t Ht); lia). destruct N0 as [N0 N1].
  unfold int_des in E. destruct (is_null s); [destruct (parse_null s e); injection E as <- <- <-; lia|]. unfold unserialize_integer in E. destruct s as [|c t0]; [injection E as <- <- <-; destruct Ho2 as [|[|]]; [lia|discriminate|assumption]|].
  cbv zeta in E. destruct (if c =? MINUS then t0 else c :: t0) as [|d q]; [injection E as <- <- <-; lia|]. destruct (negb (is_digit d)); [injection E as <- <- <-; lia|]. destruct (d =? 48); [injection E as <- <- <-; lia|].
  destruct (int_loop t 0 (d :: q)) as [[w s2]| |] eqn:El; cbn [bind] in E; [|discriminate|discriminate]. apply int_loop_nonneg in El; [|assumption|assumption|lia|lia].
  destruct (c =? MINUS); [|injection E as <- <- <-; lia].
  assert (Q : ipromote t = t) by (unfold ipromote; replace (isize t <? 4) with false by lia; reflexivity). rewrite Q in E. unfold iarith in E. rewrite Sg in E.
  destruct (irangeb t (- w)) eqn:Ew; cbn [bind] in E; [|discriminate]. rewrite icast_id in E by (auto; unfold irange; lia). injection E as <- <- <-. lia.
Qed.
Lemma bool_typed : typed bool_des (fun _ => True).
Proof.
  intros sn old s e _ Hs. unfold bool_des. destruct s as [|c t]; [yd|]. destruct (is_null _); [spB parse_null null_good; yd|].
  destruct (c =? 116); [spB parse_bool bool_good; yd|]. destruct (c =? 102); [spB parse_bool bool_good; yd|yd].
Qed.
Lemma float_typed A Rr fmt scan zero (P : A -> Prop) : (forall txt, P (scan txt)) -> P zero -> typed (des (float_codec Rr fmt scan zero)) P.
Proof.
  intros Hc Hz sn old s e Ho Hs. cbn [des float_codec]. unfold float_des. destruct s as [|c t]; [yd|].
  destruct (is_null _); [spB parse_null null_good; yd|]. destruct (negb _); [yd|]. cbv zeta. spB parse_number number_good. yd.
Qed.
Lemma to_quote_bytes : forall s, bytes s -> bytes (snd (to_quote s)).
Proof.
  induction s as [|c t IH]; intros H; cbn [to_quote]; [constructor|]. destruct (c =? QT); [exact H|].
  specialize (IH (bytes_tl _ _ H)). destruct (to_quote t). exact IH.
Qed.
Lemma enum_find_in mode L : forall s v, enum_find mode L 0 s = Some v -> v = 0 \/ In v (evals L).
Proof.
  unfold evals. induction L as [|[n x] L IH]; cbn [enum_find map snd In]; intros s v H.
  - destruct mode; [injection H as <-; now left|discriminate].
  - destruct (cstr_eq n s); [injection H as <-; right; now left|]. destruct (IH _ _ H); tauto.
Qed.
Lemma enum_typed mode L : typed (enum_des mode L) (fun v => v = 0 \/ In v (evals L)).
Proof.
  intros sn old s e _ Hs. unfold enum_des.
  assert (H1 : bytes (skip_low s)) by (eapply suffix_bytes; [apply skip_low_suffix|exact Hs]).
  destruct (skip_low s) as [|c t]; [yd|]. destruct (negb _); [yd|]. destruct t as [|c1 t1]; [yd|]. tlb.
  pose proof (to_quote_bytes (c1 :: t1)) as Q. destruct (to_quote (c1 :: t1)) as [nm r]. cbn [snd] in Q.
  destruct r as [|d r']; [yd|]. destruct (enum_find mode L 0 nm) as [v|] eqn:E; [|yd].
  split; [exact (enum_find_in _ _ _ _ E)|]. apply (bytes_tl d). now apply Q.
Qed.
Lemma range_bytes s r : bytes s -> bytes (range s r).
Proof.
  unfold range. intros H. unfold bytes in *. rewrite Forall_forall in *. intros x Hx. apply H. revert Hx. generalize (length s - length r)%nat.
  clear. induction s as [|a s IH]; intros [|n]; cbn; intuition. right. eapply IH; eassumption.
Qed.
Lemma raw_typed : typed raw_des bytes.
Proof.
  intros sn old s e _ Hs. unfold raw_des. apply YB_bind; [now apply value_bytes|]. intros r y Hr. split; [now apply range_bytes|exact Hr].
Qed.
Lemma rquoted_typed rq : typed (rquoted_des rq) bytes.
Proof.
  intros sn old s e Ho Hs. unfold rquoted_des. destruct s as [|c t]; [yd|]. destruct (rq && _); [yd|]. cbv zeta.
  assert (H1 : bytes (if rq then t else c :: t)) by (destruct rq; [exact (bytes_tl _ _ Hs)|exact Hs]).
  apply YB_bind; [now apply value_bytes|]. intros r y Hr. destruct (has_err y); [yd|].
  pose proof (range_bytes _ r H1). destruct rq; [|yd]. destruct r as [|d r']; [yd|]. tlb. destruct (d =? QT); yd.
Qed.
Lemma lor_byte a b : 0 <= a <= 255 -> 0 <= b <= 255 -> 0 <= Z.lor a b <= 255.
Proof.
  intros Ha Hb. assert (0 <= Z.lor a b) by (apply Z.lor_nonneg; lia). split; [assumption|].
  destruct (Z.eq_dec (Z.lor a b) 0) as [->|N]; [lia|].
  assert (Z.log2 (Z.lor a b) < 8).
  { rewrite Z.log2_lor by lia. assert (forall x, 0 <= x <= 255 -> Z.log2 x < 8).
    { intros x Hx. destruct (Z.eq_dec x 0) as [->|]; [reflexivity|]. apply Z.log2_lt_pow2; [lia|]. change (2 ^ 8) with 256. lia. }
    apply Z.max_lub_lt; auto. }
  assert (Z.lor a b < 2 ^ 8) by (apply Z.log2_lt_pow2; lia). change (2 ^ 8) with 256 in *. lia.
Qed.
Lemma land63 a : 0 <= Z.land a 63 <= 255.
Proof. change 63 with (Z.ones 6). rewrite Z.land_ones by lia. pose proof (Z.mod_pos_bound a (2 ^ 6)). change (2 ^ 6) with 64 in *. lia. Qed.
Lemma modb a : 0 <= a mod 256 <= 255. Proof. pose proof (Z.mod_pos_bound a 256). lia. Qed.
Definition pY (p : piece) : Prop := let '(r, w, _, _) := p in bytes r /\ bytes w.
Lemma uchar2_digit c x : 0 <= fst (uchar2 c x) <= 15.
Proof.
  unfold uchar2. destruct ((48 <=? c) && (c <=? 57)) eqn:E1; [cbn; lia|]. destruct ((97 <=? c) && (c <=? 102)) eqn:E2; [cbn; lia|].
  destruct ((65 <=? c) && (c <=? 70)) eqn:E3; cbn; lia.
Qed.
Lemma firstn_bytes n s : bytes s -> bytes (firstn n s).
Proof. unfold bytes. rewrite !Forall_forall. intros H x Hx. apply H. revert n Hx. clear. induction s as [|a s IH]; intros [|n]; cbn; intuition. right. eapply IH; eassumption. Qed.
Lemma uhex_emit_typed h cur s n x : 0 <= h -> bytes cur -> bytes s -> pY (uhex_emit h cur s n x).
Proof.
  intros Hh Hc Hs. unfold uhex_emit. cbv zeta.
  assert (B1 : forall k, 0 <= Z.lor 192 (k mod 256) <= 255) by (intros; apply lor_byte; [lia|apply modb]).
  assert (B2 : forall k, 0 <= Z.lor 224 (k mod 256) <= 255) by (intros; apply lor_byte; [lia|apply modb]).
  assert (B3 : forall k, 0 <= Z.lor 128 (Z.land k 63) <= 255) by (intros; apply lor_byte; [lia|apply land63]).
  destruct (h <? 32) eqn:E0.
  - destruct (_ || _); split; auto. { constructor; [lia|constructor]. } apply firstn_bytes. constructor; [lia|]. constructor; [lia|exact Hc].
  - destruct (h <=? 127) eqn:E1; [split; [exact Hs|constructor; [lia|constructor]]|].
    destruct (h <=? 2047); [destruct (n - 1 =? 0); split; auto; repeat constructor; try apply B1; try apply B3|].
    destruct (n - 1 =? 0); [split; auto; repeat constructor; apply B2|].
    destruct (n - 2 =? 0); split; auto; repeat constructor; try apply B2; try apply B3.
Qed.
Lemma uhex_typed s n x : bytes s -> pY (uhex s n x).
Proof.
  intros Hs. unfold uhex. destruct (n =? 0); [split; auto|].
  destruct s as [|a s]; [split; auto|]. pose proof (uchar2_digit a x) as Da. destruct (uchar2 a x) as [da x1]. cbn [fst] in Da.
  destruct s as [|b s]; [split; auto|]. pose proof (uchar2_digit b x1) as Db. destruct (uchar2 b x1) as [db x2]. cbn [fst] in Db.
  destruct s as [|c s]; [split; auto|]. pose proof (uchar2_digit c x2) as Dc. destruct (uchar2 c x2) as [dc x3]. cbn [fst] in Dc.
  destruct s as [|d s]; [split; auto|]. pose proof (uchar2_digit d x3) as Dd. destruct (uchar2 d x3) as [dd x4]. cbn [fst] in Dd.
  inversion Hs as [|? ? Ha H1]; subst. inversion H1 as [|? ? Hb H2]; subst. inversion H2 as [|? ? Hc H3]; subst. inversion H3 as [|? ? Hd H4]; subst.
  apply uhex_emit_typed; [lia|repeat (apply Forall_cons; [assumption|]); constructor|assumption].
Qed.
Lemma xhex_typed s n x : bytes s -> pY (xhex s n x).
Proof.
  intros Hs. unfold xhex.
  destruct s as [|a s]; [split; auto|]. pose proof (uchar2_digit a x) as Da. destruct (uchar2 a x) as [da x1]. cbn [fst] in Da.
  destruct s as [|b s]; [split; auto|]. pose proof (uchar2_digit b x1) as Db. destruct (uchar2 b x1) as [db x2]. cbn [fst] in Db.
  tlb. split; [assumption|]. constructor; [lia|constructor].
Qed.
Lemma utf8_copy_typed k : forall s n x, bytes s -> pY (utf8_copy k s n x).
Proof.
  induction k as [|k IH]; intros s n x Hs; cbn [utf8_copy]; [split; auto|]. destruct (n =? 0); [split; auto|].
  destruct s as [|c t]; [split; auto|]. specialize (IH t (n - 1) x (bytes_tl _ _ Hs)).
  destruct (utf8_copy k t (n - 1) x) as [[[r w] n'] y]. destruct IH. split; [assumption|]. constructor; [now inversion Hs|assumption].
Qed.
Lemma unutf8_typed c t n x : bytes (c :: t) -> pY (unutf8 c t n x).
Proof.
  intros Hs. unfold unutf8.
  repeat match goal with |- pY (if ?b then _ else _) => destruct b end; try now apply utf8_copy_typed.
  - tlb. split; [assumption|]. constructor; [now inversion Hs|constructor].
  - split; auto.
Qed.
Lemma unescape_byte d b : unescape d = Some b -> 0 <= b <= 255.
Proof.
  unfold unescape. destruct ((d =? QT) || (d =? BSL) || (d =? SLASH)) eqn:E; [intros X; injection X as <-; lia|].
  repeat match goal with |- context [if ?z then _ else _] => destruct z end; intros X; try discriminate; injection X as <-; lia.
Qed.
Lemma bytes_app a b : bytes a -> bytes b -> bytes (a ++ b). Proof. intros; now apply Forall_app. Qed.
Lemma str_loop_typed f : forall s n x out, bytes s -> bytes out ->
  match str_loop f s n x out with Ok (inl (r, _, w)) => bytes r /\ bytes w | Ok (inr (_, w)) => bytes w | _ => True end.
Proof.
  induction f as [|f IH]; intros s n x out Hs Ho; cbn [str_loop]; [exact I|].
  destruct s as [|c t]; [now split|]. destruct (_ || _); [now split|]. destruct (c =? BSL).
  - destruct t as [|d t]; [exact Ho|]. pose proof (bytes_tl _ _ (bytes_tl _ _ Hs)) as Ht. destruct (unescape d) as [b|] eqn:Eu.
    { apply IH; [exact Ht|]. apply bytes_app; [exact Ho|]. constructor; [exact (unescape_byte _ _ Eu)|constructor]. }
    destruct (d =? 117).
    + pose proof (uhex_typed t n x Ht) as P. destruct (uhex t n x) as [[[r w] n'] y]. destruct P. apply IH; [assumption|now apply bytes_app].
    + destruct (d =? 120); [|exact Ho].
      pose proof (xhex_typed t n x Ht) as P. destruct (xhex t n x) as [[[r w] n'] y]. destruct P. apply IH; [assumption|now apply bytes_app].
  - pose proof (unutf8_typed c t n x Hs) as P. destruct (unutf8 c t n x) as [[[r w] n'] y]. destruct P. apply IH; [assumption|now apply bytes_app].
Qed.
Lemma str_unser_typed s n x : bytes s -> Y bytes (str_unser s n x).
Proof.
  intros Hs. unfold str_unser. destruct s as [|c t]; [yd|]. destruct (negb _); [yd|]. tlb.
  pose proof (str_loop_typed (S (length t)) t n x []) as P.
  destruct (str_loop (S (length t)) t n x []) as [[[[r y] w]|[y w]]| |]; cbn [bind]; try exact I; [|split; auto].
  destruct P as [P1 P2]; auto. destruct r as [|d r]; [yd|]. tlb. destruct (negb _); yd.
Qed.
Lemma string_typed : typed string_des bytes.
Proof. intros sn old s e _ Hs. unfold string_des. destruct (is_null s); [spB parse_null null_good; yd|now apply str_unser_typed]. Qed.
Lemma repeat0_bytes n : bytes (repeat 0 n). Proof. induction n; constructor; auto; lia. Qed.
Lemma chars_typed N : typed (chars_des N) (fun v => bytes v /\ length v = N).
Proof.
  intros sn old s e _ Hs. unfold chars_des. destruct (is_null s); [spB parse_null null_good; split; [|assumption]; split; [apply repeat0_bytes|apply repeat_length]|].
  eapply Y_bind; [now apply str_unser_typed|]. intros w r y Hw Hr. destruct (N <? length w)%nat eqn:E; [exact I|].
  split; [|exact Hr]. unfold chars_fill. split; [apply bytes_app; [exact Hw|apply repeat0_bytes]|]. rewrite app_length, repeat_length.
  apply Nat.ltb_ge in E. lia.
Qed.

(** ---- flags ---- *)
Lemma opt_space_bytes sep s x : bytes s -> bytes (fst (opt_space sep s x)).
Proof. intros H. unfold opt_space. destruct (sep =? 32); [exact H|]. apply pgood_bytes; [apply space_good|exact H]. Qed.
Lemma union_add L v x : flag_union L v -> In x (evals L) -> flag_union L (Z.lor v x).
Proof.
  intros (xs & Hi & ->) Hx. exists (xs ++ [x]). split; [|now rewrite fold_left_app].
  intros y Hy. apply in_app_or in Hy. destruct Hy as [Hy|[<-|[]]]; auto.
Qed.
Lemma suf_bytes r s : bytes s -> suffix r s -> bytes r. Proof. intros H K. eapply suffix_bytes; eassumption. Qed.
Ltac spO := match goal with H : bytes ?s |- context [opt_space ?sep ?s ?x] =>
  let P := fresh "Hb" in pose proof (opt_space_bytes sep s x H) as P; destruct (opt_space sep s x) as [? ?]; cbn [fst] in P end.
Section Flags.
  Context (L0 : elist).
  Lemma one_str_typed sep mode L : incl (evals L) (evals L0) -> forall v s x rdy, flag_union L0 v -> bytes s -> Y (flag_union L0) (Ok (one_str sep mode L v s x rdy)).
  Proof.
    induction L as [|[n a] L IH]; intros Hi v s x rdy Hv Hs; cbn [one_str].
    - destruct (rdy || _); [yd|]. sp. match goal with K : bytes ?b |- context [skip_unknown sep ?b] => pose proof (suf_bytes _ _ K (skip_unknown_suffix sep b)) end.
      sp. match goal with |- context [match ?z with [] => _ | _ => _ end] => destruct z as [|c t] end; [yd|].
      match goal with K : bytes ?b |- context [skip1 sep ?b] => pose proof (suf_bytes _ _ K (skip1_suffix sep b)) end. sp. yd.
    - assert (Ha : In a (evals L0)) by (apply Hi; now left). assert (Hi' : incl (evals L) (evals L0)) by (intros y Hy; apply Hi; now right).
      destruct s as [|c s]; [yd|]. spO. match goal with |- context [match ?z with [] => _ | _ => _ end] => destruct z as [|d s1] end; [yd|].
      destruct (d =? QT); [yd|]. destruct (pre_match n (d :: s1)) as [[|f t]|] eqn:Em; [now apply IH| |now apply IH].
      destruct (_ || _); [|now apply IH].
      match goal with K : bytes (d :: s1) |- _ => pose proof (suf_bytes _ _ K (pre_match_suffix n _ _ Em)) end.
      spO. pose proof (union_add L0 v a Hv Ha). match goal with |- context [match ?z with [] => _ | _ => _ end] => destruct z as [|g s2] end; [yd|].
      destruct (g =? QT); [yd|]. apply IH; [exact Hi'|assumption|]. eapply suf_bytes; [|apply skip1_suffix]. assumption.
  Qed.
  Lemma one_arr_typed mode sn L : incl (evals L) (evals L0) -> forall v s x rdy, flag_union L0 v -> bytes s -> Y (flag_union L0) (one_arr mode sn L v s x rdy).
  Proof.
    induction L as [|[n a] L IH]; intros Hi v s x rdy Hv Hs; cbn [one_arr].
    - destruct (rdy || _); [yd|]. sp. apply Y_pure. intros c _. destruct (c =? RBR); [yd|].
      apply YB_bind; [now apply string_bytes|]. intros r y Hr. sp. dl; [yd|].
      match goal with K : bytes ?b |- context [skip1 COMMA ?b] => pose proof (suf_bytes _ _ K (skip1_suffix COMMA b)) end. sp. yd.
    - assert (Ha : In a (evals L0)) by (apply Hi; now left). assert (Hi' : incl (evals L) (evals L0)) by (intros y Hy; apply Hi; now right).
      sp. match goal with |- Y _ (match ?z with [] => _ | _ => _ end) => destruct z as [|c t] end; [yd|].
      destruct (c =? RBR); [yd|]. destruct (negb _); [yd|].
      destruct (pre_match n t) as [[|d t']|] eqn:Em; [now apply IH| |now apply IH]. destruct (d =? QT); [|now apply IH].
      tlb. match goal with K : bytes t |- _ => pose proof (suf_bytes _ _ K (pre_match_suffix n _ _ Em)) end. tlb.
      pose proof (union_add L0 v a Hv Ha). sp. match goal with |- Y _ (match ?z with [] => _ | _ => _ end) => destruct z as [|f t2] end; [yd|].
      destruct (negb _); [yd|]. tlb. sp. now apply IH.
  Qed.
  Lemma flags_loop_typed fin one : (forall v s x, flag_union L0 v -> bytes s -> Y (flag_union L0) (one v s x)) ->
    forall fuel v s x, flag_union L0 v -> bytes s -> Y (flag_union L0) (flags_loop fin one fuel v s x).
  Proof.
    intros Hone. induction fuel as [|n IH]; intros v s x Hv Hs; cbn [flags_loop]; [exact I|].
    destruct s as [|c t]; [yd|]. destruct (c =? fin); [yd|].
    eapply Y_bind; [now apply Hone|]. intros v1 s1 x1 Hv1 Hs1. destruct (dist s1 =? _); [yd|].
    destruct s1; [yd|now apply IH].
  Qed.
  Lemma flags_typed sep mode : typed (flags_des sep mode L0) (flag_union L0).
  Proof.
    intros sn old s e _ Hs. assert (U0 : flag_union L0 0) by (exists []; split; [intros ? []|reflexivity]). unfold flags_des.
    destruct s as [|c t]; [yd|]. destruct (_ && _); [yd|]. tlb. eapply Y_bind.
    - destruct (c =? LBR); apply flags_loop_typed; try assumption; intros; [apply one_arr_typed|apply one_str_typed]; auto using incl_refl.
    - intros v s1 x1 Hv Hs1. destruct s1 as [|d t1]; [yd|]. tlb. destruct (_ && _); yd.
  Qed.
End Flags.

(** ---- time_interval, size_value ---- *)
Lemma time_loop_typed t fr sn f : ity_ok t -> forall v s x, irange t v -> bytes s ->
  match time_loop t fr f sn v s x with Ok (inl (w, r, _)) => irange t w /\ bytes r | Ok (inr (w, r, _)) => irange t w /\ bytes r | _ => True end.
Proof.
  intros Ht.
  assert (Ra : forall v cur k w, time_add t fr v cur k = Ok w -> irange t w).
  { intros v cur k w. unfold time_add. repeat match goal with |- bind ?m _ = _ -> _ => destruct m; cbn [bind]; try discriminate end.
    intros X. injection X as <-. now apply icast_range. }
  assert (Rq : forall v cur k w, time_addq t fr v cur k = Ok w -> irange t w).
  { intros v cur k w. unfold time_addq. repeat match goal with |- bind ?m _ = _ -> _ => destruct m; cbn [bind]; try discriminate end.
    intros X. injection X as <-. now apply icast_range. }
  induction f as [|f IH]; intros v s x Hv Hs; cbn [time_loop]; [exact I|].
  destruct s as [|c s1]; [now split|]. destruct (c =? QT); [now split|].
  pose proof (int_typed t Ht sn 0 (c :: s1) x (irange0 t Ht) Hs) as P.
  destruct (int_des t sn 0 (c :: s1) x) as [[[cur r] y]| |]; cbn [bind]; try exact I. destruct P as [P1 P2].
  destruct (has_err y); [now split|]. destruct r as [|u s2]; [now split|]. tlb.
  destruct (u =? 100). { destruct (time_add t fr v cur 86400) as [w| |] eqn:E; cbn [bind]; try exact I. apply IH; eauto. }
  destruct (u =? 104). { destruct (time_add t fr v cur 3600) as [w| |] eqn:E; cbn [bind]; try exact I. apply IH; eauto. }
  destruct (u =? 109).
  { destruct s2 as [|w s3]. { destruct (time_add t fr v cur 60) as [w| |] eqn:E; cbn [bind]; try exact I. apply IH; eauto. } tlb.
    destruct (w =? 115). { destruct (time_addq t fr v cur 1000) as [w'| |] eqn:E; cbn [bind]; try exact I. apply IH; eauto. }
    destruct (w =? 107).
    { destruct (time_addq t fr v cur 1000000) as [w'| |] eqn:E; cbn [bind]; try exact I. destruct s3; cbn [step bind]; [exact I|]. tlb. apply IH; eauto. }
    destruct (time_add t fr v cur 60) as [w'| |] eqn:E; cbn [bind]; try exact I. apply IH; eauto. }
  destruct (u =? 115). { destruct (time_add t fr v cur 1) as [w| |] eqn:E; cbn [bind]; try exact I. apply IH; eauto. }
  now apply IH.
Qed.
Lemma time_typed t fr : ity_ok t -> typed (time_des t fr) (irange t).
Proof.
  intros Ht sn old s e Ho Hs. pose proof (irange0 t Ht) as H0. unfold time_des. destruct s as [|c s0]; [yd|].
  destruct (is_null _); [spB parse_null null_good; yd|]. destruct (is_number _); [now apply int_typed|]. destruct (negb _); [yd|]. tlb.
  pose proof (time_loop_typed t fr sn (S (length s0)) Ht 0 s0 e H0) as P.
  destruct (time_loop t fr (S (length s0)) sn 0 s0 e) as [[[[v r] y]|[[v r] y]]| |]; cbn [bind]; try exact I; destruct P as [P1 P2]; auto; [|yd].
  destruct r as [|d r]; [yd|]. tlb. destruct (negb _); yd.
Qed.
Lemma size_typed t metric : ity_ok t -> typed (size_des t metric) (irange t).
Proof.
  intros Ht sn old s e Ho Hs. pose proof (irange0 t Ht) as H0. unfold size_des. destruct s as [|c s0]; [yd|].
  destruct (is_null _); [spB parse_null null_good; yd|]. destruct (is_number _); [now apply int_typed|]. destruct (negb _); [yd|].
  pose proof (chars_typed 32 sn (repeat 0 32) (c :: s0) e (conj (repeat0_bytes 32) (repeat_length 0 32)) Hs) as P.
  change (chars_des 32 sn [] (c :: s0) e) with (chars_des 32 sn (repeat 0 32) (c :: s0) e).
  eapply Y_bind; [exact P|]. intros b r y _ Hr. destruct (has_err y); [yd|]. apply Y_pure. intros txt _. apply Y_pure. intros [[val q] e2] _.
  destruct (has_err e2); [yd|]. destruct q as [|ch1 q1]; [split; [now apply icast_range|exact Hr]|]. cbv zeta.
  destruct (size_mult ch1 _) as [m|]; [|yd]. apply Y_pure. intros a _. split; [now apply icast_range|exact Hr].
Qed.

(** ---- containers ---- *)
Section Seq.
  Context {A : Type} (item : codec A) (P : A -> Prop) (Hi : typed (des item) P).
  Lemma seq_loop_typed {S} (ins : S -> A -> S) (J : S -> Prop) d0 Rb sn : P d0 -> (forall st x, J st -> P x -> J (ins st x)) ->
    forall fuel st s x, J st -> bytes s -> Y J (seq_loop (des item sn) ins d0 Rb fuel st s x).
  Proof.
    intros H0 Hins. induction fuel as [|n IH]; intros st s x HJ Hs; cbn [seq_loop]; [exact I|].
    destruct s as [|c t]; [yd|]. sp. dl; [yd|]. tlb. destruct (_ =? Rb); [yd|].
    eapply Y_bind; [now apply Hi|]. intros v s2 x2 Hv Hs2. pose proof (Hins st v HJ Hv). sp. dl; [yd|]. tlb.
    destruct (_ =? Rb); [yd|]. destruct (negb _); [yd|]. now apply IH.
  Qed.
  Lemma seq_typed {C S} (k : container A C S) (J : S -> Prop) (Q : C -> Prop) L Rb d0 sn old s e : P d0 -> J (c_new k) ->
    (forall st x, J st -> P x -> J (c_ins k st x)) -> (forall st, J st -> Q (c_get k st)) ->
    bytes s -> Y Q (seq_des k L Rb item d0 sn old s e).
  Proof.
    intros H0 Hn Hins Hg Hs. unfold seq_des. destruct (is_null s); [spB parse_null null_good; split; auto|].
    destruct s as [|c t]; [split; auto|]. destruct (negb _); [split; auto|]. tlb.
    eapply Y_bind; [apply (seq_loop_typed (c_ins k) J); assumption|]. intros st r y Hst Hr. split; auto.
  Qed.
  Lemma vector_typed L Rb d0 : P d0 -> typed (des (seq_codec vec_cont L Rb item d0)) (Forall P).
  Proof.
    intros H0 sn old s e _ Hs. apply (seq_typed vec_cont (Forall P)); cbn; auto. intros st x Hst Hx. apply Forall_app. auto.
  Qed.
  Lemma set_typed lt L Rb d0 : swo lt -> P d0 -> typed (des (seq_codec (set_cont lt) L Rb item d0)) (fun l => Forall P l /\ sorted_lt lt l).
  Proof.
    intros W H0 sn old s e _ Hs. apply (seq_typed (set_cont lt) (fun l => Forall P l /\ slt lt l)); cbn; try assumption.
    - split; constructor.
    - intros l x [Hl1 Hl2] Hx. split; [|now apply set_insert_slt]. apply Forall_forall. intros y Hy. rewrite Forall_forall in Hl1.
      destruct (set_insert_in lt x l y Hy) as [->|]; auto.
    - intros l [Hl1 Hl2]. split; [exact Hl1|]. now apply slt_sorted.
  Qed.
  Lemma multi_typed lt L Rb d0 : swo lt -> P d0 -> typed (des (seq_codec (multi_cont lt) L Rb item d0)) (fun l => Forall P l /\ sorted_le lt l).
  Proof.
    intros W H0 sn old s e _ Hs. apply (seq_typed (multi_cont lt) (fun st => Forall P (fst st) /\ sle lt (fst st))); cbn; try assumption.
    - split; constructor.
    - intros st x [Hl1 Hl2] Hx. destruct (multi_insert_ok lt W st x Hl2) as [M1 M2]. split; [|exact M1].
      eapply Permutation.Permutation_Forall; [exact M2|]. now constructor.
    - intros l [Hl1 Hl2]. split; [exact Hl1|]. now apply sle_sorted.
  Qed.
End Seq.
Section Fixed.
  Context {A : Type} (item : codec A) (P : A -> Prop) (Hi : typed (des item) P).
  Lemma fix_close_bytes Rb s x : bytes s -> bytes (fst (fix_close Rb s x)).
  Proof. intros H. unfold fix_close. destruct s as [|c t]; [constructor|]. destruct (negb _); [constructor|]. exact (bytes_tl _ _ H). Qed.
  Ltac spC := match goal with H : bytes ?s |- context [fix_close ?Rb ?s ?x] =>
    let K := fresh in pose proof (fix_close_bytes Rb s x H) as K; destruct (fix_close Rb s x) as [? ?]; cbn [fst] in K; split; auto end.
  Lemma fix_loop_typed fr ex Rb sn : match fr with Some d0 => P d0 | None => True end -> forall todo s x, Forall P todo -> bytes s ->
    Y (Forall P) (fix_loop (des item sn) fr ex Rb todo s x).
  Proof.
    intros Hf. induction todo as [|a todo IH]; intros s x Ht Hs; cbn [fix_loop]; [spC|].
    inversion Ht as [|? ? Ha Ht']; subst. destruct s as [|c t]; [spC|]. sp. dl; [split; auto|]. destruct (_ =? Rb); [spC|].
    eapply Y_bind; [apply Hi; [now destruct fr|assumption]|]. intros v s2 x2 Hv Hs2. sp. dl; [split; auto|].
    destruct (_ =? Rb); [spC|]. destruct (negb _); [split; auto|]. tlb.
    eapply Y_bind; [apply IH; auto|]. intros l r y Hl Hr. split; auto.
  Qed.
  Lemma fix_null_typed sn s : bytes s -> forall l e, Forall P l -> match fix_null (des item sn) l s e with Ok (l', _) => Forall P l' | _ => True end.
  Proof.
    intros Hs. induction l as [|a l IH]; intros e Hl; cbn [fix_null]; [constructor|]. inversion Hl as [|? ? Ha Hl']; subst.
    pose proof (Hi sn a s e Ha Hs) as K. destruct (des item sn a s e) as [[[v r] y]| |]; cbn [bind]; [|exact I|exact I]. destruct K as [K _].
    specialize (IH y Hl'). destruct (fix_null (des item sn) l s y) as [[l' z]| |]; cbn [bind]; [|exact I|exact I]. now constructor.
  Qed.
  Lemma fix_typed fr ex L Rb : match fr with Some d0 => P d0 | None => True end -> typed (fix_des fr ex L Rb item) (Forall P).
  Proof.
    intros Hf sn old s e Ho Hs. unfold fix_des. destruct (is_null s).
    - pose proof (fix_null_typed sn s Hs old e Ho) as K. destruct (fix_null (des item sn) old s e) as [[l e1]| |]; cbn [bind]; [|exact I|exact I].
      spB parse_null null_good. split; assumption.
    - destruct s as [|c t]; [yd|]. destruct (negb _); [yd|]. tlb. now apply fix_loop_typed.
  Qed.
End Fixed.
Lemma vfill_all {A} (P : A -> Prop) n : forall (v : vec A n) l, Forall P (vlist v) -> Forall P l -> Forall P (vlist (vfill v l)).
Proof.
  induction n as [|n IH]; cbn [vec vlist vfill]; intros v l Hv Hl; [constructor|]. destruct Hl as [|x l Hx Hl]; [exact Hv|].
  cbn [fst snd]. constructor; [exact Hx|]. apply IH; [now inversion Hv|exact Hl].
Qed.
Lemma vec_typed {A} (c : codec (list A)) (P : A -> Prop) N : typed (des c) (Forall P) -> typed (des (vec_codec c N)) (fun v => Forall P (vlist v)).
Proof.
  intros Hc sn old s e Ho Hs. cbn [des vec_codec]. eapply Y_bind; [apply Hc; assumption|]. intros l r y Hl Hr. split; [now apply vfill_all|exact Hr].
Qed.
Lemma field_typed {K V} (kc : codec K) (vc : codec V) P Q : typed (des kc) P -> typed (des vc) Q ->
  typed (des (field_codec kc vc)) (fun p => P (fst p) /\ Q (snd p)).
Proof.
  intros Hk Hv sn [ok ov] s e [Ho1 Ho2] Hs. cbn [fst snd] in *. cbn [des field_codec]. unfold field_des. cbn [fst snd].
  eapply Y_bind; [now apply Hk|]. intros k s1 x1 Hk1 Hs1. sp. dl; [split; auto|]. destruct (negb _); [split; auto|]. tlb. sp. dl; [split; auto|].
  eapply Y_bind; [now apply Hv|]. intros v s4 x4 Hv4 Hs4. split; auto.
Qed.

(** ---- objects ---- *)
Section Objects.
  Context {T : Type} (J : T -> Prop).
  (** every access through the member stays inside the invariant *)
  Definition tmem (m : mem T) : Prop := exists D, typed (des (m_codec m)) D /\ (forall t, J t -> D (m_get m t)) /\ (forall t x, J t -> D x -> J (m_set m t x)).
  Definition tmemb (b : memb T) : Prop :=
    match b with
    | MRef m => tmem m
    | MProp m i => exists D, typed (des (m_codec m)) D /\ D i /\ (forall t x, J t -> D x -> J (m_set m t x))
    | MIf _ l r _ => tmem l /\ tmem r
    end.
  Definition YU (m : res (T * bool * buf * eptr)) : Prop := Y (fun p => J (fst p)) m.
  Lemma unser_name_bytes name s u x : bytes s -> bytes (fst (fst (unser_name name s u x))).
  Proof.
    intros H. unfold unser_name. destruct (negb (is_string s)); [constructor|].
    assert (Ht : bytes (snd (name_loop name (tl s)))).
    { eapply suffix_bytes; [apply name_loop_suffix|]. destruct s; [exact H|exact (bytes_tl _ _ H)]. }
    destruct (name_loop name (tl s)) as [n' s1]. cbn [snd] in Ht. destruct s1 as [|c t1]; [constructor|].
    destruct (_ || _); [exact H|]. tlb. sp.
    match goal with |- context [match ?z with [] => ([], cerr _ _ _ _, true) | _ => _ end] => destruct z as [|d t2] end; [constructor|]. tlb.
    destruct (negb _); [constructor|]. sp.
    match goal with |- context [match ?z with [] => ([], cerr _ _ _ _, true) | _ => _ end] => destruct z as [|d3 t3] end; [constructor|assumption].
  Qed.
  Lemma mem_typed (m : mem T) sn t s u x : tmem m -> J t -> bytes s -> YU (mem_des m sn t s u x).
  Proof.
    intros (D & Hm & Hg & Hst) Ht Hs. unfold mem_des. pose proof (unser_name_bytes (m_name m) s u x Hs) as P.
    destruct (unser_name (m_name m) s u x) as [[r y] u']. cbn [fst] in P. destruct (negb u'); [split; assumption|].
    eapply Y_bind; [apply Hm; auto|]. intros v r' y' Hv Hr. split; [now apply Hst|exact Hr].
  Qed.
  Lemma mem_reset_typed (m : mem T) t : tmem m -> J t -> forall t2, mem_reset m t = Ok t2 -> J t2.
  Proof.
    intros (D & Hm & Hg & Hst) Ht t2. unfold mem_reset.
    assert (Hb : bytes (text "null")) by (cbv; repeat constructor; intros X; discriminate X).
    pose proof (Hm (Some 0) (m_get m t) (text "null") None (Hg t Ht) Hb) as P.
    destruct (des (m_codec m) (Some 0) (m_get m t) (text "null") None) as [[[v r] y]| |]; cbn [bind]; try discriminate.
    intros X. injection X as <-. apply Hst; [exact Ht|apply P].
  Qed.
  Lemma memb_typed (b : memb T) sn t s u x : tmemb b -> J t -> bytes s -> YU (memb_des b sn t s u x).
  Proof.
    intros Hb Ht Hs. destruct b as [m|m init|ru l r d]; cbn [memb_des].
    - now apply mem_typed.
    - destruct Hb as (D & Hm & Hg & Hst). unfold mem_p_des. pose proof (unser_name_bytes (m_name m) s u x Hs) as P.
      destruct (unser_name (m_name m) s u x) as [[r y] u']. cbn [fst] in P. destruct (negb u'); [split; assumption|].
      eapply Y_bind; [apply Hm; auto|]. intros v r' y' Hv Hr. split; [now apply Hst|exact Hr].
    - destruct Hb as [Hl Hr].
      assert (Hf : tmem (if ru then r else l)) by now destruct ru.
      assert (Hsn : tmem (if ru then l else r)) by now destruct ru.
      cbv zeta. eapply Y_bind; [apply (mem_typed _ sn t s u (Some no_error) Hf Ht Hs)|].
      intros [t1 u1] itr ee Ht1 Hit. cbn [fst] in Ht1. destruct (no_err_yet ee).
      + apply Y_pure. intros t2 E2. split; [exact (mem_reset_typed _ t1 Hsn Ht1 t2 E2)|exact Hit].
      + apply Y_pure. intros t2 E2. apply mem_typed; [exact Hsn|exact (mem_reset_typed _ t1 Hf Ht1 t2 E2)|exact Hs].
  Qed.
  Lemma rest_loop_bytes mode sn : forall fuel s x, bytes s -> YB (rest_loop mode sn fuel s x).
  Proof.
    induction fuel as [|n IH]; intros s x H; cbn [rest_loop]; [exact I|].
    apply YB_bindP; [now apply member_bytes|]. intros r y Hr. sp.
    match goal with |- YB (match ?z with [] => _ | _ => _ end) => destruct z as [|c t] end; [constructor|].
    destruct (c =? RCB); [destruct mode; [assumption|constructor]|]. destruct (negb _); [constructor|]. tlb. sp. now apply IH.
  Qed.
  Lemma rest_bytes mode sn s x : bytes s -> YB (rest_members mode sn s x).
  Proof.
    intros H. unfold rest_members. sp. match goal with |- YB (match ?z with [] => _ | _ => _ end) => destruct z as [|c t] end; [constructor|].
    destruct (c =? RCB); [assumption|now apply rest_loop_bytes].
  Qed.
  Lemma search_end_bytes mode sn s x : bytes s -> YB (search_end mode sn s x).
  Proof.
    intros H. unfold search_end. destruct mode.
    - apply YB_bindP; [now apply member_bytes|]. intros r y Hr. sp. assumption.
    - destruct s as [|c t]; [constructor|]. destruct (c =? RCB); [exact H|constructor].
  Qed.
  Lemma search_typed mode sn (L : list (memb T)) : Forall tmemb L -> forall t s x, J t -> bytes s -> Y J (search_members mode sn L t s x).
  Proof.
    induction 1 as [|b L Hb _ IH]; intros t s x Ht Hs; cbn [search_members].
    - apply YB_bind; [now apply search_end_bytes|]. intros r y Hr. split; assumption.
    - eapply Y_bind; [apply (memb_typed b); assumption|]. intros [t1 u] s1 x1 Ht1 Hs1. cbn [fst] in Ht1. destruct (negb u); [now apply IH|split; assumption].
  Qed.
  Lemma at_close_typed t s x : J t -> bytes s -> Y J (at_close t s x).
  Proof. intros Ht H. unfold at_close. destruct s as [|c s]; [yd|]. destruct (negb _); yd. Qed.
  Lemma members_typed mode sn (L : list (memb T)) : Forall tmemb L -> forall fuel Rr t s x, Forall tmemb Rr -> J t -> bytes s ->
    Y J (members_loop mode sn L fuel Rr t s x).
  Proof.
    intros HL. induction fuel as [|n IH]; intros Rr t s x HR Ht Hs; cbn [members_loop]; [exact I|].
    destruct HR as [|b Rr Hb HR]. { apply YB_bind; [now apply rest_bytes|]. intros r y Hr. split; assumption. }
    eapply Y_bind; [apply (memb_typed b); assumption|]. intros [t1 u] s1 x1 Ht1 Hs1. cbn [fst] in Ht1.
    eapply (Y_bind J). { destruct (negb u); [now apply search_typed|split; assumption]. }
    intros t2 s2 x2 Ht2 Hs2. sp. match goal with |- Y _ (match ?z with [] => _ | _ => _ end) => destruct z as [|d t3] end; [yd|]. tlb.
    destruct (d =? COMMA); [|now apply at_close_typed]. sp.
    eapply (Y_bind J); [apply IH; [destruct u; [exact HR|now constructor]|assumption|assumption]|].
    intros t5 s5 x5 Ht5 Hs5. now apply at_close_typed.
  Qed.
  Lemma object_typed mode (L : list (memb T)) t0 : J t0 -> Forall tmemb L -> typed (des (object_codec mode L t0)) J.
  Proof.
    intros H0 HL sn old s e Ho Hs. cbn [des object_codec]. unfold object_des. destruct (is_null s); [spB parse_null null_good; yd|].
    destruct s as [|c t]; [yd|]. tlb. destruct (negb (c =? LCB)).
    - destruct (c =? LBR); [|yd]. sp. apply Y_pure. intros d _. destruct (negb _); [yd|].
      match goal with |- context [step ?l] => destruct l end; cbn [step bind]; [exact I|]. tlb. yd.
    - sp. match goal with |- Y _ (match ?z with [] => _ | _ => _ end) => destruct z as [|d t1] end; [yd|]. tlb.
      destruct (negb _); [|yd]. eapply (Y_bind J); [now apply members_typed|]. intros v s2 x2 Hv Hs2.
      destruct s2 as [|c2 t2]; [yd|]. sp. match goal with |- Y _ (match ?z with [] => _ | _ => _ end) => destruct z as [|f t3] end; [yd|]. tlb.
      destruct (negb _); yd.
  Qed.
  Lemma amem_typed (m : mem T) sn t s x : tmem m -> J t -> bytes s -> Y J (amem_des m sn t s x).
  Proof.
    intros (D & Hm & Hg & Hst) Ht Hs. unfold amem_des. eapply Y_bind; [apply Hm; auto|]. intros v r y Hv Hr. split; [now apply Hst|exact Hr].
  Qed.
  Lemma amemb_typed (b : memb T) sn t s x : tmemb b -> J t -> bytes s -> Y J (amemb_des b sn t s x).
  Proof.
    intros Hb Ht Hs. destruct b as [m|m init|ru l r d]; cbn [amemb_des].
    - now apply amem_typed.
    - destruct Hb as (D & Hm & Hg & Hst). eapply Y_bind; [apply Hm; auto|]. intros v r y Hv Hr. split; [now apply Hst|exact Hr].
    - destruct Hb as [Hl Hr].
      assert (Hf : tmem (if ru then r else l)) by now destruct ru.
      assert (Hsn : tmem (if ru then l else r)) by now destruct ru.
      cbv zeta. eapply (Y_bind J); [now apply amem_typed|]. intros t1 itr ee Ht1 Hit. destruct (no_err_yet ee).
      + apply Y_pure. intros t2 E2. split; [exact (mem_reset_typed _ t1 Hsn Ht1 t2 E2)|exact Hit].
      + apply Y_pure. intros t2 E2. apply amem_typed; [exact Hsn|exact (mem_reset_typed _ t1 Hf Ht1 t2 E2)|exact Hs].
  Qed.
  Lemma amembers_typed sn (L : list (memb T)) : Forall tmemb L -> forall t s x, J t -> bytes s -> Y J (amembers_des sn L t s x).
  Proof.
    induction 1 as [|b L Hb _ IH]; intros t s x Ht Hs; cbn [amembers_des]; [split; assumption|].
    eapply (Y_bind J); [now apply amemb_typed|]. intros t1 s1 x1 Ht1 Hs1. sp.
    match goal with |- Y _ (match ?z with [] => _ | _ => _ end) => destruct z as [|d t2] end; [yd|]. tlb.
    eapply (Y_bind J). { destruct (d =? COMMA); [|split; assumption]. sp. now apply IH. }
    intros t3 s3 x3 Ht3 Hs3. destruct s3 as [|f s3]; [yd|]. destruct (negb _); yd.
  Qed.
  Lemma oarray_typed (L : list (memb T)) t0 : J t0 -> Forall tmemb L -> typed (des (oarray_codec L t0)) J.
  Proof.
    intros H0 HL sn old s e Ho Hs. cbn [des oarray_codec]. unfold oarray_des. destruct (is_null s); [spB parse_null null_good; yd|].
    destruct s as [|c t]; [yd|]. tlb. destruct (negb (c =? LBR)); [yd|]. sp.
    match goal with |- Y _ (match ?z with [] => _ | _ => _ end) => destruct z as [|d t1] end; [yd|]. tlb.
    destruct (negb _); [|yd]. eapply (Y_bind J); [now apply amembers_typed|]. intros v s2 x2 Hv Hs2.
    destruct s2 as [|c2 t2]; [yd|]. sp. match goal with |- Y _ (match ?z with [] => _ | _ => _ end) => destruct z as [|f t3] end; [yd|]. tlb.
    destruct (negb _); yd.
  Qed.
  Lemma tmemb_in (L : list (memb T)) (dm : forall m : mem T, m_ty m -> Prop) :
    (forall b m, In b L -> In m (mems_of b) -> typed (des (m_codec m)) (dm m)) ->
    (forall b m t, In b L -> In m (mems_of b) -> J t -> dm m (m_get m t)) ->
    (forall b m t x, In b L -> In m (mems_of b) -> J t -> dm m x -> J (m_set m t x)) ->
    Forall (init_in dm) L -> Forall tmemb L.
  Proof.
    intros H1 H2 H3 H4. rewrite Forall_forall in H4. apply Forall_forall. intros b Hb.
    assert (G : forall m, In m (mems_of b) -> tmem m) by (intros m Hm; exists (dm m); split; [|split]; eauto).
    destruct b as [m|m i|ru l r d]; cbn [tmemb].
    - apply G. now left.
    - exists (dm m). split; [|split]; [apply (H1 (MProp m i)); [exact Hb|now left]|exact (H4 _ Hb)|].
      intros t x. apply (H3 (MProp m i)); [exact Hb|now left].
    - split; apply G; [now left|right; now left].
  Qed.
End Objects.
Lemma quoted1_typed {A} (c : codec A) P : typed (des c) P -> typed (quoted_des1 c) P.
Proof.
  intros Hc sn old s e Ho Hs. unfold quoted_des1. eapply (Y_bind bytes); [now apply string_typed|]. intros b r y Hb Hr.
  destruct (has_err y); [yd|]. eapply Y_bind; [now apply Hc|]. intros v q e2 Hv _.
  destruct y as [k|], e2 as [k2|]; try yd. destruct (is_err k2); yd.
Qed.
Lemma tdesc_typed : forall A c P, tdesc A c P -> typed (des c) P.
Proof.
  induction 1.
  - intros sn old s e Ho Hs. specialize (IHtdesc sn old s e (proj2 (H0 old) Ho) Hs).
    destruct (des c sn old s e) as [[[v r] y]| |]; [|exact I|exact I]. destruct IHtdesc. split; [now apply H0|assumption].
  - now apply int_typed.
  - now apply int_kept_typed.
  - apply bool_typed.
  - now apply float_typed.
  - apply string_typed.
  - apply chars_typed.
  - apply enum_typed.
  - apply flags_typed.
  - apply raw_typed.
  - apply raw_typed.
  - apply rquoted_typed.
  - now apply time_typed.
  - now apply size_typed.
  - now apply vector_typed.
  - now apply set_typed.
  - now apply multi_typed.
  - now apply field_typed.
  - apply (vector_typed (field_codec kc vc) (fun p => P (fst p) /\ Q (snd p))); [now apply field_typed|auto].
  - apply (set_typed (field_codec kc vc) (fun p => P (fst p) /\ Q (snd p))); [now apply field_typed|now apply klt_swo|auto].
  - apply (multi_typed (field_codec kc vc) (fun p => P (fst p) /\ Q (snd p))); [now apply field_typed|now apply klt_swo|auto].
  - apply vec_typed. now apply fix_typed.
  - apply vec_typed. now apply fix_typed.
  - apply object_typed; [assumption|]. now apply (tmemb_in I L dm).
  - apply oarray_typed; [assumption|]. now apply (tmemb_in I L dm).
  - intros sn old s e Ho Hs. cbn [des member_value_codec]. eapply Y_bind; [apply IHtdesc; auto|]. intros v r y Hv Hr. split; auto.
  - intros sn old s e Ho Hs. cbn [des quoted_codec]. unfold quoted_des. destruct reqq; [now apply quoted1_typed|].
    destruct (is_string s); [now apply quoted1_typed|now apply IHtdesc].
  - intros sn old s e Ho Hs. cbn [des ptr_codec]. unfold ptr_des. assert (Hk : bytes (skipn 4 s)) by (eapply suffix_bytes; [apply skipn_suffix|exact Hs]).
    destruct s as [|c0 t]; [split; [exact Logic.I|exact Hk]|].
    destruct (negb _); [|split; [exact Logic.I|exact Hk]]. eapply Y_bind; [now apply IHtdesc|]. intros v r y Hv Hr. split; assumption.
  - intros sn old s e Ho Hs. unfold unordered_set_codec. cbn [des hash_codec].
    apply (seq_typed c P IHtdesc _ I I); cbn; auto.
  - intros sn old s e Ho Hs. unfold unordered_map_codec. cbn [des hash_codec].
    apply (seq_typed (field_codec kc vc) (fun p => P (fst p) /\ Q (snd p)) (field_typed kc vc P Q IHtdesc1 IHtdesc2) _ I I); cbn; auto.
    intros st x Hst [Hx1 Hx2]. auto.
Qed.
