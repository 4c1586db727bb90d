(** Specification: how far behind a value its reader looks. *)
From Verif Require Import Base SpecJson SpecObject Out Number StringS Array Object ObjectArray Enum Wrap TimeSize SpecExact Desc.

(** Readers that look at most one byte behind the value; with [true] the value
    tells by itself where it ends and they look no further than that.  Out:
    floating-point numbers, flags, structs with member_if or with a quote or a
    backslash in a name. *)
Inductive tight : bool -> forall A, codec A -> Prop :=
| ti_int t : ity_ok t -> tight false _ (int_codec t)
| ti_bool : tight true _ bool_codec
| ti_string : tight true _ string_codec
| ti_chars N : tight true _ (chars_codec N)
| ti_enum mode L : tight true _ (enum_codec mode L)
| ti_raw : tight false _ raw_codec
| ti_ipair : tight false _ ipair_codec
| ti_rquoted serq reqq : tight reqq _ (rquoted_codec serq reqq)
| ti_size t metric : ity_ok t -> 1 <= metric <= imax i64 -> tight false _ (size_codec t metric)
| ti_time t fr : ity_ok t -> tight false _ (time_codec t fr)
| ti_seq d A C S (k : container A C S) l r (c : codec A) d0 : brackets l r -> tight d A c -> tight true C (seq_codec k l r c d0)
| ti_dict d d' K V C S (k : container (K * V) C S) l r (kc : codec K) (vc : codec V) d0 : brackets l r -> tight d K kc -> tight d' V vc ->
    tight true C (seq_codec k l r (field_codec kc vc) d0)
| ti_std_array d A (c : codec A) d0 N : tight d A c -> tight true _ (std_array_codec c d0 N)
| ti_c_array d A (c : codec A) N : tight d A c -> tight true _ (c_array_codec c N)
| ti_object T mode (L : list (memb T)) t0 (d : memb T -> bool) : Forall no_if L -> Forall plain_name (names L) ->
    (forall b, In b L -> tight (d b) _ (m_codec (memb_mem b))) -> tight true T (object_codec mode L t0)
| ti_object_array T (L : list (memb T)) t0 (d : memb T -> bool) : Forall no_if L ->
    (forall b, In b L -> tight (d b) _ (m_codec (memb_mem b))) -> tight true T (oarray_codec L t0)
| ti_member_value d T A (get : T -> A) set (c : codec A) : tight d A c -> tight d T (member_value_codec get set c)
| ti_quoted A (c : codec A) serq : desc A c -> tight true A (quoted_codec c serq true)
| ti_maybe_quoted d A (c : codec A) serq : tight d A c -> tight d A (quoted_codec c serq false)
| ti_pointer d A (c : codec A) d0 : tight d A c -> tight false _ (ptr_codec c d0).
