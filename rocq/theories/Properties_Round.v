(** C91: exactly which integers, strings and char arrays survive a round trip,
    and what becomes of the others. *)
From Verif Require Import Base Parser SpecJson SpecNum SpecString Out Number StringS CodecLaws NumberProofs StringProofs SpecExact SpecRound RoundProofs Properties_Seq.

(** Strings: survives exactly if no control character without short escape and
    no character of five or six bytes occurs. *)
Theorem C91_string_exact : forall s sn old, bytes s -> dist s <= 2147483647 ->
  ((exists b, ser string_codec s = Ok (wr b) /\ reads string_codec sn old b s []) <-> survives s).
Proof. exact survives_string. Qed.
Print Assumptions C91_string_exact.
(** char arrays: moreover only zeros may follow the first one *)
Theorem C91_chars_exact : forall N v sn old, bytes v -> length v = N ->
  ((exists b, ser (chars_codec N) v = Ok (wr b) /\ reads (chars_codec N) sn old b v []) <-> exists t, v = t ++ repeat 0 (N - length t) /\ survives t).
Proof. exact survives_chars. Qed.
Print Assumptions C91_chars_exact.
(** Control characters come back as the text of their escape sequence, *)
Theorem C91_respelt : forall s, bytes s -> ~ oversized s -> dist (respelt s) <= 2147483647 ->
  exists b, ser string_codec s = Ok (wr b) /\ forall sn old r e, des string_codec sn old (b ++ r) e = Ok (respelt s, r, e).
Proof. exact round_string. Qed.
Print Assumptions C91_respelt.
(** and stay that way. *)
Theorem C91_settles : forall s, bytes s -> ~ oversized s -> dist (respelt s) <= 2147483647 ->
  exists b, ser string_codec (respelt s) = Ok (wr b) /\ forall sn old r e, des string_codec sn old (b ++ r) e = Ok (respelt s, r, e).
Proof.
  intros s Hb N Hn. destruct (respelt_settles s Hb N) as [B [S1 S2]]. destruct (round_string _ B S1) as (b & Es & D); rewrite survives_respelt in * by assumption; [exact Hn|]. now exists b.
Qed.
Print Assumptions C91_settles.
(** The first character of five or six bytes is written, but refused by the
    reader: what precedes it is stored, the report points at it. *)
Theorem C91_oversized : forall a c k m b, bytes (a ++ c :: m ++ b) -> wlead c k -> (4 <= k)%nat -> length m = k -> Forall s_cont m -> ~ oversized a -> dist (respelt a) < 2147483647 ->
  exists lit, ser string_codec (a ++ c :: m ++ b) = Ok (wr lit) /\ forall sn old r, exists x y, lit ++ r = x ++ c :: m ++ y /\
    des string_codec sn old (lit ++ r) (Some no_error) = Ok (respelt a, [], Some (mkerr InvalidString None (dist (c :: m ++ y)))).
Proof. exact round_oversized. Qed.
Print Assumptions C91_oversized.
(** Integers: all but the smallest one of int and wider signed types, whose
    text cannot be read. *)
Theorem C91_int : forall t v, ity_ok t -> irange t v -> exists b, ser (int_codec t) v = Ok (wr b) /\
  ((forall sn old, reads (int_codec t) sn old b v []) \/
   isigned t = true /\ 4 <= isize t /\ v = - 2 ^ (8 * isize t - 1) /\ forall sn old e, des (int_codec t) sn old b e = UB).
Proof.
  intros t v Ht Hv. destruct (int_ser_numeral t v Ht Hv) as (b & Es & Hb). exists b. split; [exact Es|].
  assert (J : jint v b) by (destruct Hb; constructor; assumption).
  destruct (Z.eq_dec v (imin t)) as [Em|Em]; [destruct (ExactProofs.wraps_dec t) as [W|W]|].
  - left. intros sn old. unfold reads. rewrite <- (app_nil_r b). apply int_des_in_range; [exact Ht|split; [exact Hv|now left]|exact J|right; right; exact I].
  - right. unfold wraps in W. assert (Sg : isigned t = true) by (destruct (isigned t); [reflexivity|exfalso; apply W; now right]). split; [exact Sg|]. split; [lia|].
    assert (M : imod t / 2 = 2 ^ (8 * isize t - 1)).
    { unfold imod. replace (8 * isize t) with (Z.succ (8 * isize t - 1)) at 1 by lia. rewrite Z.pow_succ_r by lia. now rewrite Z.mul_comm, Z.div_mul by lia. }
    split; [rewrite Em; unfold imin; now rewrite Sg, M|]. intros sn old e. rewrite <- (app_nil_r b). apply (int_des_overflow t sn old v b [] e Ht W J I).
    rewrite Em. unfold imin, imax. rewrite Sg. assert (0 < imod t / 2) by (rewrite M; apply Z.pow_pos_nonneg; lia). lia.
  - left. intros sn old. unfold reads. rewrite <- (app_nil_r b). apply int_des_in_range; [exact Ht|split; [exact Hv|now right]|exact J|right; right; exact I].
Qed.
Print Assumptions C91_int.

(** ---- concrete cases ---- *)
Example C91_ex_respelt : respelt [97; 10; 1; 31; 0; 233; 127] = text "a" ++ [10] ++ text "\u0001\u001f\u0000" ++ [233; 127].
Proof. exq. Qed.
(** 0xF8 alone survives, 0xF8 with four continuation bytes does not *)
Example C91_ex_survives : survives [248; 128; 128; 128; 65] /\ oversized [65; 248; 128; 128; 128; 128].
Proof.
  split; [split|].
  - intros (a & c & k & l & b & E & W & K & L & Hc). assert (C : 248 <= c) by (destruct W; lia).
    destruct a as [|x a]; [|injection E as <- E; do 4 (destruct a as [|? a]; [injection E; intros; subst; lia|injection E as <- E]); destruct a; discriminate].
    injection E as <- E. assert (k = 4%nat) by (inversion W; lia). subst k. do 4 (destruct l as [|? l]; [discriminate|]). destruct l; [|discriminate]. injection E as <- <- <- <- _.
    repeat match goal with H : Forall s_cont (_ :: _) |- _ => inversion H; clear H; subst end. unfold s_cont in *. lia.
  - intros c H. cbn in H. unfold ctl, short_ctl. lia.
  - exists [65], 248, 4%nat, [128; 128; 128; 128], []. repeat split; try (repeat constructor; unfold s_cont; lia).
Qed.
Example C91_ex_chars : ser (chars_codec 4) [97; 0; 98; 0] = Ok (wr (QT :: text "a" ++ [QT])) /\ ~ exists t, [97; 0; 98; 0] = t ++ repeat 0 (4 - length t) /\ survives t.
Proof.
  split; [exq|]. intros (t & E & _ & N). assert (Z0 : ~ In 0 t) by (intros H; apply (N 0 H); unfold ctl, short_ctl; lia).
  destruct t as [|x t]; [discriminate|]. injection E as <- E. destruct t as [|y t]; [discriminate|]. injection E as <- _. apply Z0. cbn. auto.
Qed.
