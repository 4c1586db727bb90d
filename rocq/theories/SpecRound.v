(** Specification: what becomes of a string that is written and read back. *)
From Verif Require Import Base SpecJson SpecString.

(** control characters without a short escape *)
Definition ctl (c : Z) : Prop := 0 <= c < 32 /\ ~ short_ctl c.
(** digits as they are written *)
Definition low_hex (d : Z) : Z := nth (Z.to_nat d) (text "0123456789abcdef") 0.
(** They come back as the six characters of their escape sequence, everything
    else as itself. *)
Definition respelt1 (c : Z) : buf :=
  if (c <? 32) && negb (existsb (Z.eqb c) [8; 9; 10; 12; 13]) then text "\u00" ++ [low_hex (c / 16); low_hex (c mod 16)] else [c].
Definition respelt (s : buf) : buf := flat_map respelt1 s.
(** Somewhere in s a character of five or six bytes (of the original UTF-8). *)
Definition oversized (s : buf) : Prop := exists a c k l b, s = a ++ c :: l ++ b /\ wlead c k /\ (4 <= k)%nat /\ length l = k /\ Forall s_cont l.
(** Strings that survive. *)
Definition survives (s : buf) : Prop := ~ oversized s /\ forall c, In c s -> ~ ctl c.
