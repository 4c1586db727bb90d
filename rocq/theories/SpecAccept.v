(** What the texts accepted by a description look like. *)
From Verif Require Import Base SpecJson Parser Out Number StringS Array Unord Object ObjectArray Enum Wrap TimeSize Float Desc.

(** Sources of texts that are no JSON: string escapes and UTF-8, dictionary
    keys, and the blanks enumerators skip. *)
Inductive quirk := QStr | QKey | QEnum.

(** no \x ... *)
Definition no_xesc (p : buf) : Prop := forall a b, p <> a ++ BSL :: 120 :: b.
(** ... and no multi-byte character cut short *)
Definition full_chars (p : buf) : Prop := forall a c n l d b,
  p = a ++ c :: l ++ d :: b -> wlead c n -> (length l < n)%nat -> s_cont d.
(** no null in front of a colon *)
Definition no_null_key (p : buf) : Prop := forall a g b, gap g -> p <> a ++ text "null" ++ g ++ COLON :: b.
(** blanks and printable ASCII *)
Definition printable (p : buf) : Prop := Forall (fun c => s_ws c \/ 33 <= c < 128) p.
Definition tame (Q : quirk -> Prop) (p : buf) : Prop :=
  (Q QStr -> no_xesc p /\ full_chars p) /\ (Q QKey -> no_null_key p) /\ (Q QEnum -> printable p).

Inductive skey (Q : quirk -> Prop) : forall A, codec A -> Prop :=
| sk_string : Q QStr -> Q QKey -> skey Q _ string_codec
| sk_chars N : Q QStr -> Q QKey -> skey Q _ (chars_codec N)
| sk_enum L : Q QEnum -> Forall wchars (map fst L) -> skey Q _ (enum_codec Strict L).

(** Descriptions whose accepted texts are JSON, up to the quirks in [Q]: no
    flags, pointers, time_interval, nonstrict enumerators, and raw_quoted only
    if it requires no quotes. *)
Inductive sdesc (Q : quirk -> Prop) : forall A, codec A -> Prop :=
| sd_int t : sdesc Q _ (int_codec t)
| sd_bool : sdesc Q _ bool_codec
| sd_float A R fmt scan zero : sdesc Q A (float_codec R fmt scan zero)
| sd_string : Q QStr -> sdesc Q _ string_codec
| sd_chars N : Q QStr -> sdesc Q _ (chars_codec N)
| sd_enum L : Q QEnum -> Forall wchars (map fst L) -> sdesc Q _ (enum_codec Strict L)
| sd_raw : sdesc Q _ raw_codec
| sd_ipair : sdesc Q _ ipair_codec
| sd_rquoted serq : sdesc Q _ (rquoted_codec serq false)
| sd_size t metric : Q QStr -> sdesc Q _ (size_codec t metric)
| sd_vector A (c : codec A) d0 : sdesc Q A c -> sdesc Q _ (vector_codec c d0)
| sd_set A lt (c : codec A) d0 : sdesc Q A c -> sdesc Q _ (set_codec lt c d0)
| sd_multiset A lt (c : codec A) d0 : sdesc Q A c -> sdesc Q _ (multiset_codec lt c d0)
| sd_dict K V (kc : codec K) (vc : codec V) d0 : skey Q K kc -> sdesc Q V vc -> sdesc Q _ (dict_vec_codec kc vc d0)
| sd_map K V lt (kc : codec K) (vc : codec V) d0 : skey Q K kc -> sdesc Q V vc -> sdesc Q _ (map_codec lt kc vc d0)
| sd_multimap K V lt (kc : codec K) (vc : codec V) d0 : skey Q K kc -> sdesc Q V vc -> sdesc Q _ (multimap_codec lt kc vc d0)
| sd_std_array A (c : codec A) d0 N : sdesc Q A c -> sdesc Q _ (std_array_codec c d0 N)
| sd_c_array A (c : codec A) N : sdesc Q A c -> sdesc Q _ (c_array_codec c N)
| sd_object T mode (L : list (memb T)) t0 : (forall b m, In b L -> In m (mems_of b) -> wchars (m_name m)) ->
    (forall b m, In b L -> In m (mems_of b) -> sdesc Q _ (m_codec m)) -> sdesc Q T (object_codec mode L t0)
| sd_object_array T (L : list (memb T)) t0 : (forall b m, In b L -> In m (mems_of b) -> sdesc Q _ (m_codec m)) ->
    sdesc Q T (oarray_codec L t0)
| sd_member_value T A (get : T -> A) set c : sdesc Q A c -> sdesc Q T (member_value_codec get set c)
| sd_quoted A (c : codec A) serq : Q QStr -> desc A c -> sdesc Q A (quoted_codec c serq true)
| sd_unquoted A (c : codec A) serq : Q QStr -> sdesc Q A c -> sdesc Q A (quoted_codec c serq false)
| sd_unordered_set A H (h : hashtab A H) (c : codec A) d0 : sdesc Q A c -> sdesc Q _ (unordered_set_codec h c d0)
| sd_unordered_map K V H (h : hashtab (K * V) H) (kc : codec K) (vc : codec V) d0 : skey Q K kc -> sdesc Q V vc ->
    sdesc Q _ (unordered_map_codec h kc vc d0).
