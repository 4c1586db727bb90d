(** How deeply a text nests, said of the texts alone.

    [nests v d]: the accepted value [v] (SpecJson.wvalue, whose shape this
    copies) has brackets with something in them nested [d] deep.  [opens s]
    counts the opening brackets of any text, wherever they stand. *)
From Verif Require Import Base SpecJson.

Inductive nests : buf -> nat -> Prop :=
| ns_null : nests (text "null") 0
| ns_true : nests (text "true") 0
| ns_false : nests (text "false") 0
| ns_num n : rnumber n -> nests n 0
| ns_str s : wstring s -> nests s 0
| ns_arr0 g : gap g -> nests (LBR :: g ++ [RBR]) 0
| ns_arr l d : nelems l d -> nests (LBR :: l ++ [RBR]) (S d)
| ns_obj0 g : gap g -> nests (LCB :: g ++ [RCB]) 0
| ns_obj0' g : gap g -> nests (LCB :: g ++ [RBR]) 0
| ns_obj l d : nmembers l d -> nests (LCB :: l ++ [RCB]) (S d)
with nelems : buf -> nat -> Prop :=
| nel_one g1 v d g2 : gap g1 -> nests v d -> gap g2 -> nelems (g1 ++ v ++ g2) d
| nel_trail g1 v d g2 g3 : gap g1 -> nests v d -> gap g2 -> gap g3 ->
    nelems (g1 ++ v ++ g2 ++ COMMA :: g3) d
| nel_more g1 v d g2 l d' : gap g1 -> nests v d -> gap g2 -> nelems l d' ->
    nelems (g1 ++ v ++ g2 ++ COMMA :: l) (Nat.max d d')
with nmembers : buf -> nat -> Prop :=
| nme_one g1 k g2 g3 v d g4 : gap g1 -> wstring k -> gap g2 -> gap g3 -> nests v d -> gap g4 ->
    nmembers (g1 ++ k ++ g2 ++ COLON :: g3 ++ v ++ g4) d
| nme_trail g1 k g2 g3 v d g4 g5 : gap g1 -> wstring k -> gap g2 -> gap g3 -> nests v d ->
    gap g4 -> gap g5 -> nmembers (g1 ++ k ++ g2 ++ COLON :: g3 ++ v ++ g4 ++ COMMA :: g5) d
| nme_more g1 k g2 g3 v d g4 l d' : gap g1 -> wstring k -> gap g2 -> gap g3 -> nests v d ->
    gap g4 -> nmembers l d' ->
    nmembers (g1 ++ k ++ g2 ++ COLON :: g3 ++ v ++ g4 ++ COMMA :: l) (Nat.max d d').

Scheme nests_mind := Induction for nests Sort Prop
  with nelems_mind := Induction for nelems Sort Prop
  with nmembers_mind := Induction for nmembers Sort Prop.
Combined Scheme nest_ind from nests_mind, nelems_mind, nmembers_mind.

(** the opening brackets among the bytes *)
Fixpoint opens (s : buf) : nat :=
  match s with
  | [] => 0
  | c :: t => ((if (c =? LBR)%Z || (c =? LCB)%Z then 1 else 0) + opens t)%nat
  end.

(** [n] arrays around nothing: [[[...]]] *)
Fixpoint tower (n : nat) : buf :=
  match n with
  | O => [LBR; RBR]
  | S k => LBR :: tower k ++ [RBR]
  end.
