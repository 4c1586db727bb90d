(** Specification: what the example programs do. *)
From Verif Require Import Base SpecJson SpecNum Out StringS Number Array Wrap Programs SpecExact SpecObject.

(** show_parse: one element and the strings printed for it *)
Inductive shown_item (sn : option Z) : buf -> list buf -> buf -> Prop :=
| si_string s v r : heads QT s -> reads string_codec sn [] s v r -> shown_item sn s [v] r
| si_other v r : ~ heads QT v -> waccept v r -> shown_item sn (v ++ r) [] r.
Definition shown (sn : option Z) (s : buf) (out : list buf) (r : buf) : Prop :=
  exists t ls, after_gap s (LBR :: t) /\ elements (shown_item sn) RBR t ls r /\ out = concat ls.

(** The texts separated by commas. *)
Inductive commas : list buf -> buf -> Prop :=
| cm_none : commas [] []
| cm_one t : commas [t] t
| cm_more t u ts b : commas (u :: ts) b -> commas (t :: u :: ts) (t ++ COMMA :: b).
Definition array_of (ts : list buf) (s : buf) : Prop := exists b, commas ts b /\ s = LBR :: b ++ [RBR].

(** The int at the beginning of a text; zero if there is none. *)
Inductive leading : buf -> Z -> Prop :=
| le_int z i r : jint z i -> int_end i r -> Z.abs z <= 2147483647 -> leading (i ++ r) z
| le_none w : (forall z i r, w = i ++ r -> ~ jint z i) -> leading w 0.

(** example11: an element and what becomes of it *)
Inductive turned : buf -> buf -> Prop :=
| tn_num l z u : rnumber l -> leading l z -> z < 2147483647 -> numeral (z + 1) u -> turned l u
| tn_str l w z u : heads QT l -> reads string_codec (Some 0) [] l w [] -> leading w z -> z < 2147483647 -> numeral (z + 1) u -> turned l (QT :: u ++ [QT])
| tn_arr l xs us u : heads LBR l -> reads ints (Some 0) [] l xs [] -> Forall2 numeral xs us -> array_of us u -> turned l u
| tn_other l : l = text "null" \/ l = text "true" \/ l = text "false" \/ heads LCB l -> turned l (text "null").

(** example16: an element and what is appended to the result for it *)
Inductive mirrored : buf -> list buf -> Prop :=
| mi_null : mirrored (text "null") [text "null"]
| mi_bool l : l = text "true" \/ l = text "false" -> mirrored l [text "true"]
| mi_num l z u : rnumber l -> leading l z -> numeral (- z) u -> mirrored l [u]
| mi_str l w ops : heads QT l -> reads string_codec (Some 0) [] l w [] -> ser string_codec (rev w) = Ok ops -> mirrored l [flat ops]
| mi_arr l xs us u : heads LBR l -> reads ints (Some 0) [] l xs [] -> (2 <= length xs)%nat -> Forall2 numeral (rev xs) us -> array_of us u -> mirrored l [u]
| mi_object l : heads LCB l -> mirrored l [].
