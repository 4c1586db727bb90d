(** Theorems about integers and booleans (C14-C18, C25). *)
From Verif Require Import Base Parser SpecJson SpecNum ParserFacts Grammar1 Out Number CodecLaws NumberProofs.

Definition i8 := mkity 1 true.
Definition u8 := mkity 1 false.
Definition i16 := mkity 2 true.
Definition i32 := mkity 4 true.
Definition u32 := mkity 4 false.
Definition i64 := mkity 8 true.
Definition u64 := mkity 8 false.
Ltac exq := vm_compute; reflexivity.

(** C14: the output is the canonical numeral, which is unique. *)
Theorem C14_canonical : forall t v, ity_ok t -> irange t v ->
  exists s, ser (int_codec t) v = Ok (wr s) /\ numeral v s.
Proof. exact int_ser_numeral. Qed.
Print Assumptions C14_canonical.
Theorem C14_numeral_unique : forall z s s', numeral z s -> numeral z s' -> s = s'.
Proof. exact numeral_unique. Qed.
Print Assumptions C14_numeral_unique.
Example C14_ex : ser (int_codec i64) (-9223372036854775808) = Ok (wr (text "-9223372036854775808"))
  /\ irange i64 (-9223372036854775808). Proof. split; [exq|]. vm_compute. split; discriminate. Qed.

(** C15: the stack buffer is never overrun (overrun is UB in the model). *)
Theorem C15_buffer_suffices : forall t v, ity_ok t -> irange t v -> ser (int_codec t) v <> UB.
Proof. intros t v Ht Hv. destruct (int_ser_numeral t v Ht Hv) as (s & E & _). cbn. rewrite E. discriminate. Qed.
Print Assumptions C15_buffer_suffices.
(** one byte less would not do *)
Example C15_ex_tight : digit_loop (Z.to_nat (integer_buffer_size u64) - 1) false (imax u64) = UB. Proof. exq. Qed.
Example C15_ex : ser (int_codec u64) 18446744073709551615 = Ok (wr (text "18446744073709551615")). Proof. exq. Qed.

(** C16.  [jint z s]: s is a JSON integer with value z.  [int_dom] excludes
    only the minimum of the signed types of at least 32 bits (see C17). *)
Theorem C16_read_in_range_partial : forall t sn old z s r e, ity_ok t -> int_dom t z -> jint z s ->
  (s = [48] \/ s = [MINUS; 48] \/ nodigit r) -> des (int_codec t) sn old (s ++ r) e = Ok (z, r, e).
Proof. exact int_des_in_range. Qed.
Print Assumptions C16_read_in_range_partial.
Example C16_ex : des (int_codec i32) None 77 (text "-2147483647]") (Some no_error)
  = Ok (-2147483647, text "]", Some no_error). Proof. exq. Qed.
Example C16_ex_dom : int_dom i32 (-2147483647) /\ jint (-2147483647) (text "-2147483647").
Proof.
  split; [split; [vm_compute; split; discriminate|right; vm_compute; discriminate]|].
  apply (ji_neg (text "2147483647")). constructor; [cbn; lia|]. repeat constructor; cbn; unfold s_digit; lia.
Qed.
(** reading the minimum of int overflows inside the loop *)
Theorem C16_read_in_range_refuted : exists t z s, ity_ok t /\ irange t z /\ jint z s /\
  des (int_codec t) (Some 0) 0 s (Some no_error) = UB.
Proof.
  exists i32, (-2147483648), (text "-2147483648"). split; [right; right; now left|].
  split; [vm_compute; split; discriminate|]. split; [|exq].
  apply (ji_neg (text "2147483648")). constructor; [cbn; lia|]. repeat constructor; cbn; unfold s_digit; lia.
Qed.
Print Assumptions C16_read_in_range_refuted.

(** C17 *)
Theorem C17_int_roundtrip_partial : forall t, ity_ok t -> rt (int_codec t) (int_dom t).
Proof. exact int_rt. Qed.
Print Assumptions C17_int_roundtrip_partial.
(** for narrow and unsigned types the domain is everything *)
Theorem C17_int_roundtrip_full : forall t v, ity_ok t -> wraps t -> irange t v -> int_dom t v.
Proof. intros t v _ Hw Hv. split; [exact Hv|now left]. Qed.
Print Assumptions C17_int_roundtrip_full.
Theorem C17_int_roundtrip_refuted : exists t v s, ity_ok t /\ irange t v /\ ser (int_codec t) v = Ok (wr s) /\
  forall sn old e, des (int_codec t) sn old s e = UB.
Proof.
  exists i64, (-9223372036854775808), (text "-9223372036854775808"). split; [right; right; now right|].
  split; [vm_compute; split; discriminate|]. split; [exq|]. intros. exq.
Qed.
Print Assumptions C17_int_roundtrip_refuted.
Example C17_ex : int_dom i8 (-128). Proof. split; [vm_compute; split; discriminate|left; left; reflexivity]. Qed.

(** C18 is false: out-of-range numerals are silently reduced ... *)
Theorem C18_range_error_refuted : exists t z s, ity_ok t /\ jint z s /\ ~ irange t z /\
  exists v, des (int_codec t) (Some 0) 0 s (Some no_error) = Ok (v, [], Some no_error).
Proof.
  exists u8, 256, (text "256"). split; [now left|]. split.
  { apply (ji_nonneg (text "256")). constructor; [cbn; lia|]. repeat constructor; cbn; unfold s_digit; lia. }
  split; [vm_compute; intros [_ H]; apply H; reflexivity|]. exists 0. exq.
Qed.
Print Assumptions C18_range_error_refuted.
(** ... exactly modulo 2^bits for narrow and unsigned types ... *)
Theorem C18_wraps_partial : forall t sn old z s r e, ity_ok t -> wraps t -> jint z s ->
  (s = [48] \/ s = [MINUS; 48] \/ nodigit r) ->
  exists v k, des (int_codec t) sn old (s ++ r) e = Ok (v, r, e) /\ irange t v /\ v = z + k * 2 ^ (8 * isize t).
Proof.
  intros t sn old z s r e Ht Hw Hj Hr. destruct (icast_eq t z Ht) as (k & Ek). exists (icast t z), k.
  split; [now apply int_des_wrap|]. split; [now apply icast_range|exact Ek].
Qed.
Print Assumptions C18_wraps_partial.
(** ... and undefined behaviour for int, long and long long. *)
Theorem C18_overflow_ub_partial : forall t sn old z s r e, ity_ok t -> ~ wraps t -> jint z s ->
  nodigit r -> imax t < Z.abs z -> des (int_codec t) sn old (s ++ r) e = UB.
Proof. exact int_des_overflow. Qed.
Print Assumptions C18_overflow_ub_partial.
Example C18_ex1 : des (int_codec u32) (Some 0) 0 (text "-5") (Some no_error) = Ok (4294967291, [], Some no_error). Proof. exq. Qed.
Example C18_ex2 : des (int_codec i32) (Some 0) 0 (text "99999999999") (Some no_error) = UB. Proof. exq. Qed.

(** C25 *)
Theorem C25_bool_roundtrip : rt bool_codec (fun _ => True).
Proof. exact bool_rt. Qed.
Print Assumptions C25_bool_roundtrip.
Theorem C25_bool_exact : forall sn old s v r, des bool_codec sn old s (Some no_error) = Ok (v, r, Some no_error) <->
  (s = text "true" ++ r /\ v = true) \/ (s = text "false" ++ r /\ v = false) \/ (s = text "null" ++ r /\ v = false).
Proof. exact bool_exact. Qed.
Print Assumptions C25_bool_exact.
Example C25_ex : des bool_codec None true (text "trux") (Some no_error)
  = Ok (true, [], Some (mkerr ExpectedOf (Some (text "true")) 3)). Proof. exq. Qed.
