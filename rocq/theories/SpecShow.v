(** Specification: what show_parse of example17.cpp reports. *)
From Verif Require Import Base SpecJson SpecReport SpecExact SpecRefuse SpecFail SpecPrograms.

(** [stuck sn s ls o]: behind a bracket or comma the text s cannot be read as the
    rest of an array.  ls are the strings printed on the way; o is the report, or
    None if the byte behind the text is read and may not be. *)
Inductive stuck (sn : option Z) : buf -> list (list buf) -> fail -> Prop :=
| st_end : stuck sn [] [] (Some (expected [RBR] []))
| st_comment s : open_comment s -> stuck sn s [] (match sn with None => None | Some _ => Some comment_error end)
| st_beyond s : s <> [] -> after_gap s [] ->
    stuck sn s [] (match sn with None => None | Some c => Some (if c =? RBR then expected [RBR] [] else mkerr InvalidJSON None 0) end)
| st_string s s1 v r j : after_gap s s1 -> heads QT s1 -> string_faults s1 v r j -> stuck sn s [] (Some j)
| st_value s s1 o : after_gap s s1 -> s1 <> [] -> ~ heads RBR s1 -> ~ heads QT s1 -> fails sn s1 o -> stuck sn s [] o
| st_separator s s1 l s2 s3 : after_gap s s1 -> ~ heads RBR s1 -> shown_item sn s1 l s2 -> after_gap s2 s3 -> ~ heads COMMA s3 -> ~ heads RBR s3 ->
    stuck sn s [l] (Some (expected [RBR] s3))
| st_behind s s1 l s2 : after_gap s s1 -> ~ heads RBR s1 -> shown_item sn s1 l s2 -> open_comment s2 -> stuck sn s [l] (Some comment_error)
| st_more s s1 l s2 s3 ls o : after_gap s s1 -> ~ heads RBR s1 -> shown_item sn s1 l s2 -> after_gap s2 (COMMA :: s3) -> stuck sn s3 ls o -> stuck sn s (l :: ls) o.

Inductive unshown (sn : option Z) : buf -> list buf -> fail -> Prop :=
| us_comment s : open_comment s -> unshown sn s [] (Some comment_error)
| us_start s s1 : after_gap s s1 -> ~ heads LBR s1 -> unshown sn s [] (Some (expected [LBR] s1))
| us_inside s t ls o : after_gap s (LBR :: t) -> stuck sn t ls o -> unshown sn s (concat ls) o.
