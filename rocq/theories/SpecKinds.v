(** Specification: the kinds of values and the parts of the grammar. *)
From Verif Require Import Base SpecJson.

Inductive warray : buf -> Prop :=
| wa_empty g : gap g -> warray (LBR :: g ++ [RBR])
| wa_elems l : welems l -> warray (LBR :: l ++ [RBR]).
(** Objects may also be closed by a square bracket when they are empty, and then
    be opened by one. *)
Inductive wobject : buf -> Prop :=
| wo_empty g : gap g -> wobject (LCB :: g ++ [RCB])
| wo_mixed g : gap g -> wobject (LCB :: g ++ [RBR])
| wo_square g : gap g -> wobject (LBR :: g ++ [RBR])
| wo_members l : wmembers l -> wobject (LCB :: l ++ [RCB]).
Definition nodig (r : buf) : Prop := match r with [] => True | c :: _ => ~ s_digit c end.
