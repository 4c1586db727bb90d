(** Specification: which time intervals survive a round trip. *)
From Verif Require Import Base Number.

(** The fractions of a second that survive in milliseconds: none in unsigned
    types, the positive ones in int64_t, 1 and 2 in int, a few in short. *)
Definition short_ms : list Z :=
  [1; 2; 66; 67; 132; 133; 195; 198; 263; 264; 326; 329; 330; 392; 395; 460; 461; 523; 526; 589; 592; 654; 657; 658; 720; 723; 786; 789; 851; 852; 917; 920; 982; 983; 986].
Definition ms_kept (t : ity) (r : Z) : Prop :=
  r = 0 \/ isigned t = true /\ (isize t = 8 /\ 0 < r \/ isize t = 4 /\ (r = 1 \/ r = 2) \/ isize t = 2 /\ In r short_ms).
