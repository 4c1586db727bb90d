(** Specification: which readers do not look at what their target contained. *)
From Verif Require Import Base Out Number StringS Array Enum Wrap TimeSize Float SpecExact Desc.

(** Two descriptions that differ at most in the contents of the local targets
    their containers read the elements into.  Whatever the library can describe
    without structs, fixed-size arrays and unordered containers, which keep
    parts of the target by design. *)
Inductive twin : forall A, codec A -> codec A -> Prop :=
| tw_leaf A c : leaf A c -> twin A c c
| tw_seq A C S (k : container A C S) l r c c' d d' : brackets l r -> twin A c c' -> twin C (seq_codec k l r c d) (seq_codec k l r c' d')
| tw_field K V kc kc' vc vc' : twin K kc kc' -> twin V vc vc' -> twin (K * V) (field_codec kc vc) (field_codec kc' vc')
| tw_quoted A c c' serq reqq : twin A c c' -> twin A (quoted_codec c serq reqq) (quoted_codec c' serq reqq)
| tw_pointer A c c' d d' : twin A c c' -> twin (option A) (ptr_codec c d) (ptr_codec c' d').

(** The part of it that overwrites the target even when the text is refused.
    Out: floating-point numbers, quotes, members of dictionaries. *)
Inductive bold : forall A, codec A -> Prop :=
| bl_int t : bold _ (int_codec t)
| bl_bool : bold _ bool_codec
| bl_string : bold _ string_codec
| bl_chars N : bold _ (chars_codec N)
| bl_enum mode L : bold _ (enum_codec mode L)
| bl_flags sep mode L : bold _ (flags_codec sep mode L)
| bl_raw : bold _ raw_codec
| bl_ipair : bold _ ipair_codec
| bl_time t fr : bold _ (time_codec t fr)
| bl_size t metric : bold _ (size_codec t metric).
Inductive bold_twin : forall A, codec A -> codec A -> Prop :=
| bt_leaf A c : bold A c -> bold_twin A c c
| bt_same A C S (k : container A C S) l r c d : bold_twin C (seq_codec k l r c d) (seq_codec k l r c d)
| bt_seq A C S (k : container A C S) l r c c' d d' : bold_twin A c c' -> bold_twin C (seq_codec k l r c d) (seq_codec k l r c' d')
| bt_ptr_same A c d : bold_twin (option A) (ptr_codec c d) (ptr_codec c d)
| bt_ptr A c c' d d' : bold_twin A c c' -> bold_twin (option A) (ptr_codec c d) (ptr_codec c' d').
