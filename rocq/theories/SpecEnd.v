(** Where a failed reading stops. *)
From Verif Require Import Base SpecJson Parser Out Number StringS Array Unord Object ObjectArray Enum Wrap TimeSize Float Desc.

(** A \u or \x escape with a bad hexadecimal digit somewhere in the text. *)
Definition bad_hex (s : buf) : Prop :=
  exists p u q d r, s = p ++ BSL :: u :: q ++ d :: r /\ ~ s_hex d /\
    ((u = 117 /\ (length q < 4)%nat) \/ (u = 120 /\ (length q < 2)%nat)).

(** The element description reads null without complaint. *)
Definition takes_null {A} (c : codec A) : Prop :=
  forall sn old r e, exists v r', des c sn old (text "null" ++ r) e = Ok (v, r', e).

(** Everything but size_value and fixed-size arrays of elements that reject null. *)
Inductive end_desc : forall A, codec A -> Prop :=
| en_int t : end_desc _ (int_codec t)
| en_bool : end_desc _ bool_codec
| en_float A R fmt scan zero : end_desc A (float_codec R fmt scan zero)
| en_string : end_desc _ string_codec
| en_chars N : end_desc _ (chars_codec N)
| en_enum mode L : end_desc _ (enum_codec mode L)
| en_flags sep mode L : end_desc _ (flags_codec sep mode L)
| en_raw : end_desc _ raw_codec
| en_ipair : end_desc _ ipair_codec
| en_rquoted serq reqq : end_desc _ (rquoted_codec serq reqq)
| en_time t fr : end_desc _ (time_codec t fr)
| en_vector A (c : codec A) d0 : end_desc A c -> end_desc _ (vector_codec c d0)
| en_set A lt (c : codec A) d0 : end_desc A c -> end_desc _ (set_codec lt c d0)
| en_multiset A lt (c : codec A) d0 : end_desc A c -> end_desc _ (multiset_codec lt c d0)
| en_field K V (kc : codec K) (vc : codec V) : end_desc K kc -> end_desc V vc -> end_desc _ (field_codec kc vc)
| en_dict K V (kc : codec K) (vc : codec V) d0 : end_desc K kc -> end_desc V vc -> end_desc _ (dict_vec_codec kc vc d0)
| en_map K V lt (kc : codec K) (vc : codec V) d0 : end_desc K kc -> end_desc V vc -> end_desc _ (map_codec lt kc vc d0)
| en_multimap K V lt (kc : codec K) (vc : codec V) d0 : end_desc K kc -> end_desc V vc -> end_desc _ (multimap_codec lt kc vc d0)
| en_std_array A (c : codec A) d0 N : takes_null c -> end_desc A c -> end_desc _ (std_array_codec c d0 N)
| en_c_array A (c : codec A) N : takes_null c -> end_desc A c -> end_desc _ (c_array_codec c N)
| en_object T mode (L : list (memb T)) t0 : (forall b m, In b L -> In m (mems_of b) -> end_desc _ (m_codec m)) ->
    end_desc T (object_codec mode L t0)
| en_object_array T (L : list (memb T)) t0 : (forall b m, In b L -> In m (mems_of b) -> end_desc _ (m_codec m)) ->
    end_desc T (oarray_codec L t0)
| en_member_value T A (get : T -> A) set c : end_desc A c -> end_desc T (member_value_codec get set c)
| en_quoted A (c : codec A) serq : desc A c -> end_desc A (quoted_codec c serq true)
| en_unquoted A (c : codec A) serq : end_desc A c -> end_desc A (quoted_codec c serq false)
| en_pointer A (c : codec A) d0 : end_desc A c -> end_desc _ (ptr_codec c d0)
| en_unordered_set A H (h : hashtab A H) (c : codec A) d0 : end_desc A c -> end_desc _ (unordered_set_codec h c d0)
| en_unordered_map K V H (h : hashtab (K * V) H) (kc : codec K) (vc : codec V) d0 : end_desc K kc -> end_desc V vc ->
    end_desc _ (unordered_map_codec h kc vc d0).
