(** Descriptions whose reading does not look at the error record: everything but
    quoted, raw_quoted, time_interval and size_value. *)
From Verif Require Import Base Parser Out Number StringS Array Unord Object ObjectArray Enum Wrap Float Desc.

Inductive pure_desc : forall A, codec A -> Prop :=
| pu_int t : pure_desc _ (int_codec t)
| pu_bool : pure_desc _ bool_codec
| pu_float A R fmt scan zero : pure_desc A (float_codec R fmt scan zero)
| pu_string : pure_desc _ string_codec
| pu_chars N : pure_desc _ (chars_codec N)
| pu_enum mode L : pure_desc _ (enum_codec mode L)
| pu_flags sep mode L : pure_desc _ (flags_codec sep mode L)
| pu_raw : pure_desc _ raw_codec
| pu_ipair : pure_desc _ ipair_codec
| pu_vector A (c : codec A) d0 : pure_desc A c -> pure_desc _ (vector_codec c d0)
| pu_set A lt (c : codec A) d0 : pure_desc A c -> pure_desc _ (set_codec lt c d0)
| pu_multiset A lt (c : codec A) d0 : pure_desc A c -> pure_desc _ (multiset_codec lt c d0)
| pu_field K V (kc : codec K) (vc : codec V) : pure_desc K kc -> pure_desc V vc -> pure_desc _ (field_codec kc vc)
| pu_dict K V (kc : codec K) (vc : codec V) d0 : pure_desc K kc -> pure_desc V vc -> pure_desc _ (dict_vec_codec kc vc d0)
| pu_map K V lt (kc : codec K) (vc : codec V) d0 : pure_desc K kc -> pure_desc V vc -> pure_desc _ (map_codec lt kc vc d0)
| pu_multimap K V lt (kc : codec K) (vc : codec V) d0 : pure_desc K kc -> pure_desc V vc -> pure_desc _ (multimap_codec lt kc vc d0)
| pu_std_array A (c : codec A) d0 N : pure_desc A c -> pure_desc _ (std_array_codec c d0 N)
| pu_c_array A (c : codec A) N : pure_desc A c -> pure_desc _ (c_array_codec c N)
| pu_object T mode (L : list (memb T)) t0 : (forall b m, In b L -> In m (mems_of b) -> pure_desc _ (m_codec m)) ->
    pure_desc T (object_codec mode L t0)
| pu_object_array T (L : list (memb T)) t0 : (forall b m, In b L -> In m (mems_of b) -> pure_desc _ (m_codec m)) ->
    pure_desc T (oarray_codec L t0)
| pu_member_value T A (get : T -> A) set c : pure_desc A c -> pure_desc T (member_value_codec get set c)
| pu_pointer A (c : codec A) d0 : pure_desc A c -> pure_desc _ (ptr_codec c d0)
| pu_unordered_set A H (h : hashtab A H) (c : codec A) d0 : pure_desc A c -> pure_desc _ (unordered_set_codec h c d0)
| pu_unordered_map K V H (h : hashtab (K * V) H) (kc : codec K) (vc : codec V) d0 : pure_desc K kc -> pure_desc V vc ->
    pure_desc _ (unordered_map_codec h kc vc d0).

(** *e was clean before the call and holds an error after it. *)
Definition reported (e e' : eptr) (j : json_error) : Prop :=
  exists k, e = Some k /\ is_err k = false /\ e' = Some j /\ is_err j = true.
