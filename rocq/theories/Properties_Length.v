(** How long written texts are, and how far a char* writer reaches. *)
From Verif Require Import Base SpecExact Out Number Float StringS Array Unord Object ObjectArray Enum Wrap TimeSize CodecLaws ParserFacts Desc DescProofs SpecLength LengthProofs
  Properties_Enum Properties_Seq Properties_Object.

(** C104. The length of what is written lies between bounds computed from the
    value: exact for numbers, booleans, raw values and what is built of them. *)
Theorem C104_lengths : forall A (c : codec A) dom lo hi, lens A c dom lo hi -> forall v ops, dom v -> ser c v = Ok ops -> lo v <= dist (flat ops) <= hi v.
Proof. exact lens_between. Qed.
Print Assumptions C104_lengths.
(** Numerals are no longer than the longest of their type. *)
Theorem C104_int_width : forall t v, ity_ok t -> irange t v -> 1 <= nlen v <= iwidth t.
Proof. exact nlen_width. Qed.
Print Assumptions C104_int_width.
Theorem C104_int_attained : forall t, ity_ok t -> exists v, irange t v /\ nlen v = iwidth t.
Proof.
  intros [n sg] H. exists (if sg then imin (mkity n sg) else imax (mkity n sg)). unfold ity_ok in H. cbn [isize] in H.
  destruct H as [-> |[-> |[-> | -> ]]]; destruct sg; (split; [vm_compute; split; discriminate|reflexivity]).
Qed.
Print Assumptions C104_int_attained.
(** Both bounds for strings are attained at every length. *)
Theorem C104_string_attained : forall n, exists s s' o o', length s = n /\ length s' = n /\ ser string_codec s = Ok o /\ ser string_codec s' = Ok o' /\
  dist (flat o) = Z.of_nat n + 2 /\ dist (flat o') = 6 * Z.of_nat n + 2.
Proof.
  assert (K : forall n f, (n < f)%nat -> str_ser_loop false f (repeat 97 n) = Ok (repeat 97 n) /\ exists l, str_ser_loop false f (repeat 1 n) = Ok l /\ dist l = 6 * Z.of_nat n).
  { induction n as [|n IH]; intros f Hf; (destruct f as [|f]; [lia|]).
    - split; [reflexivity|]. exists []. split; reflexivity.
    - destruct (IH f ltac:(lia)) as (E & l & E' & D). cbn [repeat]. split.
      + change (str_ser_loop false (S f) (97 :: repeat 97 n)) with (let* r := str_ser_loop false f (repeat 97 n) in Ok (97 :: r)). now rewrite E.
      + exists (escape_char 1 ++ l). change (str_ser_loop false (S f) (1 :: repeat 1 n)) with (let* r := str_ser_loop false f (repeat 1 n) in Ok (escape_char 1 ++ r)). rewrite E'. split; [reflexivity|].
        rewrite dist_app, D. change (dist (escape_char 1)) with 6. lia. }
  intros n. destruct (K n (S n) ltac:(lia)) as (E & l & E' & D). exists (repeat 97 n), (repeat 1 n), (wr (QT :: repeat 97 n ++ [QT])), (wr (QT :: l ++ [QT])).
  rewrite !repeat_length. cbn [ser string_codec]. unfold str_ser. rewrite !repeat_length, E, E'. cbn [bind]. rewrite !flat_wr, !dist_cons, !dist_app. change (dist [QT]) with 1. unfold dist at 1. rewrite repeat_length. repeat split; lia.
Qed.
Print Assumptions C104_string_attained.
(** A serializer writing through a char* at [a] changes no byte in front of [a]
    and none behind the length of the text, which null pointers exceed by one. *)
Theorem C104_reach : forall A (c : codec A) v ops m a x, ser c v = Ok ops -> x < a \/ a + dist (flat ops) < x -> fst (ptr_run ops m a) x = m x.
Proof. intros A c v ops m a x _ Hx. apply (run_reach (S (lsize ops)) ops m a ltac:(lia)). destruct Hx as [Hx|Hx]; [now left|right]. destruct (posts ops); lia. Qed.
Print Assumptions C104_reach.
Theorem C104_buffer : forall A (c : codec A) dom lo hi, lens A c dom lo hi -> forall v ops m a x, dom v -> ser c v = Ok ops ->
  (x < a \/ a + hi v < x -> fst (ptr_run ops m a) x = m x) /\ (noptr A c -> x < a \/ a + hi v <= x -> fst (ptr_run ops m a) x = m x).
Proof.
  intros A c dom lo hi H v ops m a x HD E. pose proof (lens_between A c dom lo hi H v ops HD E) as B. split.
  - intros Hx. eapply C104_reach; [exact E|]. lia.
  - intros Hp Hx. apply (run_reach (S (lsize ops)) ops m a ltac:(lia)). rewrite (noptr_posts A c Hp v ops E). lia.
Qed.
Print Assumptions C104_buffer.
Theorem C104_null_reach_refuted : ~ (forall v ops m a x, ser (ptr_codec int32 0) v = Ok ops -> a + dist (flat ops) <= x -> fst (ptr_run ops m a) x = m x).
Proof. intros H. specialize (H None (map PW (text "null")) (fun _ => None) 0 4 eq_refl). vm_compute in H. specialize (H ltac:(discriminate)). discriminate. Qed.
Print Assumptions C104_null_reach_refuted.

(** A struct of two ints and a string: 42 bytes and six for each character. *)
Definition foo_cost (k : Z) (m : mem foo) (v : foo) : Z := match m_name m with [97] => nlen (fa v) | [98] => nlen (fb v) | _ => k * dist (fs v) + 2 end.
Lemma foo_lens mode : lens foo (foo_codec mode) (fun v => irange i32 (fa v) /\ irange i32 (fb v))
  (fun v => 18 + nlen (fa v) + nlen (fb v) + (dist (fs v) + 2)) (fun v => 18 + nlen (fa v) + nlen (fb v) + (6 * dist (fs v) + 2)).
Proof.
  eapply ln_sub.
  - apply ln_object with (dm := fun _ v => irange i32 (fa v) /\ irange i32 (fb v)) (lo := foo_cost 1) (hi := foo_cost 6). intros b m Hb Hm.
    destruct Hb as [<-|[<-|[<-|[]]]]; destruct Hm as [<-|[]].
    + eapply ln_sub; [apply ln_member_value, ln_int, i32_ok|]. intros v [H1 H2]. split; [exact H1|]. cbn; lia.
    + eapply ln_sub; [apply ln_member_value, ln_int, i32_ok|]. intros v [H1 H2]. split; [exact H2|]. cbn; lia.
    + eapply ln_sub; [apply ln_member_value, ln_string|]. intros v _. split; [exact I|]. unfold foo_cost. cbn [m_name ms m_get]. change (text "foo") with [102; 111; 111]. cbv beta iota. lia.
  - intros v Hv. split; [repeat constructor; apply Hv|]. unfold listed, memb_len, Lfoo, foo_cost. cbn [total length m_name ma mb ms]. change (text "a") with [97]. change (text "b") with [98]. change (text "foo") with [102; 111; 111].
    change (dist [97]) with 1. change (dist [98]) with 1. change (dist [102; 111; 111]) with 3. change (Z.max 0 (Z.of_nat 3 - 1)) with 2. lia.
Qed.
Example C104_ex_struct : forall mode v ops m a x, irange i32 (fa v) -> irange i32 (fb v) -> dist (fs v) <= 10 -> ser (foo_codec mode) v = Ok ops ->
  x < a \/ a + 102 <= x -> fst (ptr_run ops m a) x = m x.
Proof.
  intros mode v ops m a x H1 H2 H3 E Hx. apply (C104_buffer foo (foo_codec mode) _ _ _ (foo_lens mode) v ops m a x (conj H1 H2) E).
  - apply np_object. intros b m0 Hb Hm. destruct Hb as [<-|[<-|[<-|[]]]]; destruct Hm as [<-|[]]; apply np_leaf; [apply lf_int|apply lf_int|apply lf_string].
  - pose proof (nlen_width i32 (fa v) i32_ok H1) as W1. pose proof (nlen_width i32 (fb v) i32_ok H2) as W2. change (iwidth i32) with 11 in W1, W2. cbv beta. lia.
Qed.
Example C104_ex_full : exists ops, ser (foo_codec Strict) (mkfoo (-2147483648) (-2000000000) (repeat 1 10)) = Ok ops /\ dist (flat ops) = 102.
Proof. eexists. split; [exq|]. exq. Qed.
Example C104_ex_vector : exists ops, ser (vector_codec int32 0) [1; -22; 333] = Ok ops /\ dist (flat ops) = listed nlen [1; -22; 333] /\ listed nlen [1; -22; 333] = 11.
Proof. eexists. split; [exq|]. split; exq. Qed.
Example C104_ex_units : exists ops, ser (time_codec (mkity 8 true) 1000) (-9223372036854775807) = Ok ops /\ dist (flat ops) = 39 /\ 39 <= 6 * iwidth (mkity 8 true) + 11.
Proof. eexists. split; [exq|]. split; [exq|]. vm_compute. discriminate. Qed.
