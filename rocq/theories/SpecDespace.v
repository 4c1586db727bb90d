(** Specification of despace: token sequences with gaps. *)
From Verif Require Import Base SpecJson.

Inductive token : buf -> Prop :=
| tk_punct c : In c [LCB; RCB; LBR; RBR; COMMA; COLON] -> token [c]
| tk_null : token (text "null")
| tk_true : token (text "true")
| tk_false : token (text "false")
| tk_num n : rnumber n -> token n
| tk_str s : wstring s -> token s.

(** [layout s ts]: the text [s] consists of the tokens [ts] with gaps
    (whitespace, comments) before, between and after them. *)
Inductive layout : buf -> list buf -> Prop :=
| lay_end g : gap g -> layout g []
| lay_tok g t s ts : gap g -> token t -> (rnumber t -> num_stop t s) -> layout s ts ->
                     layout (g ++ t ++ s) (t :: ts).
