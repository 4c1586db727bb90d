(** Specification: which sizes survive a round trip. *)
From Verif Require Import Base Number.

(** The byte count of v, as a 64-bit number. *)
Definition byte_count (metric v : Z) : Z := 2 ^ 64 - (2 ^ 64 - v) * metric.
(** Below 2^63 the byte count must fit in 63 bits.  From 2^63 on (uint64_t)
    the multiplication is made on v - 2^64, and no unit may be written. *)
Definition size_kept (metric v : Z) : Prop :=
  v < 2 ^ 63 /\ - 2 ^ 63 <= v * metric < 2 ^ 63 \/
  2 ^ 63 <= v /\ 2 ^ 63 <= byte_count metric v /\ ~ (1000 | byte_count metric v) /\ ~ (1024 | byte_count metric v).
