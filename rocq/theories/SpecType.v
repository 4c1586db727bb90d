(** The values a C++ target can hold, for every description. *)
From Verif Require Import Base Parser Out Number StringS Array SpecSeq Unord Object ObjectArray Enum SpecEnum Wrap TimeSize Float Desc.

(** the value a member_p starts from *)
Definition init_in {T} (dm : forall m : mem T, m_ty m -> Prop) (b : memb T) : Prop := match b with MProp m i => dm m i | _ => True end.

(** [tdesc A c P]: P describes the values of the target of c. *)
Inductive tdesc : forall A, codec A -> (A -> Prop) -> Prop :=
| td_iff A c (P Q : A -> Prop) : tdesc A c P -> (forall v, P v <-> Q v) -> tdesc A c Q
| td_int t : ity_ok t -> tdesc _ (int_codec t) (irange t)
(** the smallest signed value of int and wider types is never read *)
| td_int_kept t : ity_ok t -> tdesc _ (int_codec t) (fun v => irange t v /\ (isize t < 4 \/ isigned t = false \/ v <> imin t))
| td_bool : tdesc _ bool_codec (fun _ => True)
| td_float A R fmt scan zero (P : A -> Prop) : (forall txt, P (scan txt)) -> P zero -> tdesc A (float_codec R fmt scan zero) P
| td_string : tdesc _ string_codec bytes
| td_chars N : tdesc _ (chars_codec N) (fun v => bytes v /\ length v = N)
| td_enum mode L : tdesc _ (enum_codec mode L) (fun v => v = 0 \/ In v (evals L))
| td_flags sep mode L : tdesc _ (flags_codec sep mode L) (flag_union L)
| td_raw : tdesc _ raw_codec bytes
| td_ipair : tdesc _ ipair_codec bytes
| td_rquoted serq reqq : tdesc _ (rquoted_codec serq reqq) bytes
| td_time t fr : ity_ok t -> tdesc _ (time_codec t fr) (irange t)
| td_size t metric : ity_ok t -> tdesc _ (size_codec t metric) (irange t)
| td_vector A (c : codec A) d0 P : tdesc A c P -> P d0 -> tdesc _ (vector_codec c d0) (Forall P)
| td_set A lt (c : codec A) d0 P : swo lt -> tdesc A c P -> P d0 -> tdesc _ (set_codec lt c d0) (fun l => Forall P l /\ sorted_lt lt l)
| td_multiset A lt (c : codec A) d0 P : swo lt -> tdesc A c P -> P d0 -> tdesc _ (multiset_codec lt c d0) (fun l => Forall P l /\ sorted_le lt l)
| td_field K V (kc : codec K) (vc : codec V) P Q : tdesc K kc P -> tdesc V vc Q -> tdesc _ (field_codec kc vc) (fun p => P (fst p) /\ Q (snd p))
| td_dict K V (kc : codec K) (vc : codec V) d0 P Q : tdesc K kc P -> tdesc V vc Q -> P (fst d0) -> Q (snd d0) ->
    tdesc _ (dict_vec_codec kc vc d0) (Forall (fun p => P (fst p) /\ Q (snd p)))
| td_map K V lt (kc : codec K) (vc : codec V) d0 P Q : swo lt -> tdesc K kc P -> tdesc V vc Q -> P (fst d0) -> Q (snd d0) ->
    tdesc _ (map_codec lt kc vc d0) (fun l => Forall (fun p => P (fst p) /\ Q (snd p)) l /\ sorted_lt (klt lt) l)
| td_multimap K V lt (kc : codec K) (vc : codec V) d0 P Q : swo lt -> tdesc K kc P -> tdesc V vc Q -> P (fst d0) -> Q (snd d0) ->
    tdesc _ (multimap_codec lt kc vc d0) (fun l => Forall (fun p => P (fst p) /\ Q (snd p)) l /\ sorted_le (klt lt) l)
| td_std_array A (c : codec A) d0 N P : tdesc A c P -> P d0 -> tdesc _ (std_array_codec c d0 N) (fun v => Forall P (vlist v))
| td_c_array A (c : codec A) N P : tdesc A c P -> tdesc _ (c_array_codec c N) (fun v => Forall P (vlist v))
| td_object T mode (L : list (memb T)) t0 (I : T -> Prop) (dm : forall m : mem T, m_ty m -> Prop) :
    I t0 -> (forall b m, In b L -> In m (mems_of b) -> tdesc _ (m_codec m) (dm m)) ->
    (forall b m t, In b L -> In m (mems_of b) -> I t -> dm m (m_get m t)) ->
    (forall b m t x, In b L -> In m (mems_of b) -> I t -> dm m x -> I (m_set m t x)) ->
    Forall (init_in dm) L -> tdesc T (object_codec mode L t0) I
| td_object_array T (L : list (memb T)) t0 (I : T -> Prop) (dm : forall m : mem T, m_ty m -> Prop) :
    I t0 -> (forall b m, In b L -> In m (mems_of b) -> tdesc _ (m_codec m) (dm m)) ->
    (forall b m t, In b L -> In m (mems_of b) -> I t -> dm m (m_get m t)) ->
    (forall b m t x, In b L -> In m (mems_of b) -> I t -> dm m x -> I (m_set m t x)) ->
    Forall (init_in dm) L -> tdesc T (oarray_codec L t0) I
| td_member_value T A (get : T -> A) set c (P : A -> Prop) (I : T -> Prop) : tdesc A c P -> (forall t, I t -> P (get t)) ->
    (forall t x, I t -> P x -> I (set t x)) -> tdesc T (member_value_codec get set c) I
| td_quoted A (c : codec A) serq reqq P : tdesc A c P -> tdesc A (quoted_codec c serq reqq) P
| td_pointer A (c : codec A) d0 P : tdesc A c P -> P d0 -> tdesc _ (ptr_codec c d0) (fun o => match o with Some v => P v | None => True end)
| td_unordered_set A H (h : hashtab A H) (c : codec A) d0 P (I : H -> Prop) : tdesc A c P -> P d0 ->
    (forall t, I t -> I (h_clear h t)) -> (forall t x, I t -> P x -> I (h_ins h t x)) -> tdesc _ (unordered_set_codec h c d0) I
| td_unordered_map K V H (h : hashtab (K * V) H) (kc : codec K) (vc : codec V) d0 P Q (I : H -> Prop) : tdesc K kc P -> tdesc V vc Q ->
    P (fst d0) -> Q (snd d0) -> (forall t, I t -> I (h_clear h t)) -> (forall t x, I t -> P (fst x) -> Q (snd x) -> I (h_ins h t x)) ->
    tdesc _ (unordered_map_codec h kc vc d0) I.
