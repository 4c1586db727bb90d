(** The JSON descriptions that can be built from the library's types, as
    predicates closed under its type constructors. *)
From Verif Require Import Base Parser SpecJson SpecNum SpecSeq SpecString Out Number StringS Array Unord Object ObjectArray SpecObject Enum SpecEnum Wrap SpecWrap
  TimeSize SpecTime Float SpecMisc CodecLaws NumberProofs StringProofs ArrayProofs ObjectProofs EnumProofs WrapProofs TimeProofs SizeProofs FloatProofs.

(** The members a member-list element refers to. *)
Definition mems_of {T} (b : memb T) : list (mem T) :=
  match b with MRef m => [m] | MProp m _ => [m] | MIf _ l r _ => [l; r] end.

(** Descriptions whose leaves satisfy [base]. *)
Inductive built (base : forall A, codec A -> Prop) : forall A, codec A -> Prop :=
| bt_base A c : base A c -> built base A c
| bt_vector A (c : codec A) d0 : built base A c -> built base _ (vector_codec c d0)
| bt_set A lt (c : codec A) d0 : built base A c -> built base _ (set_codec lt c d0)
| bt_multiset A lt (c : codec A) d0 : built base A c -> built base _ (multiset_codec lt c d0)
| bt_field K V (kc : codec K) (vc : codec V) : built base K kc -> built base V vc -> built base _ (field_codec kc vc)
| bt_dict K V (kc : codec K) (vc : codec V) d0 : built base K kc -> built base V vc -> built base _ (dict_vec_codec kc vc d0)
| bt_map K V lt (kc : codec K) (vc : codec V) d0 : built base K kc -> built base V vc -> built base _ (map_codec lt kc vc d0)
| bt_multimap K V lt (kc : codec K) (vc : codec V) d0 : built base K kc -> built base V vc -> built base _ (multimap_codec lt kc vc d0)
| bt_std_array A (c : codec A) d0 N : built base A c -> built base _ (std_array_codec c d0 N)
| bt_c_array A (c : codec A) N : built base A c -> built base _ (c_array_codec c N)
| bt_object T mode (L : list (memb T)) t0 : (forall b m, In b L -> In m (mems_of b) -> built base _ (m_codec m)) ->
    built base T (object_codec mode L t0)
| bt_object_array T (L : list (memb T)) t0 : (forall b m, In b L -> In m (mems_of b) -> built base _ (m_codec m)) ->
    built base T (oarray_codec L t0)
| bt_member_value T A (get : T -> A) set c : built base A c -> built base T (member_value_codec get set c)
| bt_quoted A (c : codec A) serq reqq : built base A c -> built base A (quoted_codec c serq reqq)
| bt_pointer A (c : codec A) d0 : built base A c -> built base _ (ptr_codec c d0)
| bt_unordered_set A H (h : hashtab A H) (c : codec A) d0 : built base A c -> built base _ (unordered_set_codec h c d0)
| bt_unordered_map K V H (h : hashtab (K * V) H) (kc : codec K) (vc : codec V) d0 : built base K kc -> built base V vc ->
    built base _ (unordered_map_codec h kc vc d0).

(** All leaves. *)
Inductive leaf : forall A, codec A -> Prop :=
| lf_int t : leaf _ (int_codec t)
| lf_bool : leaf _ bool_codec
| lf_float A R fmt scan zero : leaf A (float_codec R fmt scan zero)
| lf_string : leaf _ string_codec
| lf_chars N : leaf _ (chars_codec N)
| lf_enum mode L : leaf _ (enum_codec mode L)
| lf_flags sep mode L : leaf _ (flags_codec sep mode L)
| lf_raw : leaf _ raw_codec
| lf_ipair : leaf _ ipair_codec
| lf_rquoted serq reqq : leaf _ (rquoted_codec serq reqq)
| lf_time t fr : leaf _ (time_codec t fr)
| lf_size t metric : leaf _ (size_codec t metric).
Definition desc := built leaf.

(** Leaves free of undefined behaviour: no signed integers of 4 bytes or more
    (overflow), no time_interval, no size_value. *)
Inductive safe_leaf : forall A, codec A -> Prop :=
| sl_int t : ity_ok t -> isize t < 4 \/ isigned t = false -> safe_leaf _ (int_codec t)
| sl_bool : safe_leaf _ bool_codec
| sl_float A R fmt scan zero : safe_leaf A (float_codec R fmt scan zero)
| sl_string : safe_leaf _ string_codec
| sl_chars N : safe_leaf _ (chars_codec N)
| sl_enum mode L : safe_leaf _ (enum_codec mode L)
| sl_flags sep mode L : safe_leaf _ (flags_codec sep mode L)
| sl_raw : safe_leaf _ raw_codec
| sl_ipair : safe_leaf _ ipair_codec
| sl_rquoted serq reqq : safe_leaf _ (rquoted_codec serq reqq).
Definition safe_desc := built safe_leaf.

(** Descriptions that only use plain writes: no pointer, raw_quoted,
    time_interval or size_value, except inside quotes. *)
Inductive plain_desc : forall A, codec A -> Prop :=
| pd_int t : plain_desc _ (int_codec t)
| pd_bool : plain_desc _ bool_codec
| pd_float A R fmt scan zero : plain_desc A (float_codec R fmt scan zero)
| pd_string : plain_desc _ string_codec
| pd_chars N : plain_desc _ (chars_codec N)
| pd_enum mode L : plain_desc _ (enum_codec mode L)
| pd_flags sep mode L : plain_desc _ (flags_codec sep mode L)
| pd_raw : plain_desc _ raw_codec
| pd_ipair : plain_desc _ ipair_codec
| pd_vector A (c : codec A) d0 : plain_desc A c -> plain_desc _ (vector_codec c d0)
| pd_set A lt (c : codec A) d0 : plain_desc A c -> plain_desc _ (set_codec lt c d0)
| pd_multiset A lt (c : codec A) d0 : plain_desc A c -> plain_desc _ (multiset_codec lt c d0)
| pd_field K V (kc : codec K) (vc : codec V) : plain_desc K kc -> plain_desc V vc -> plain_desc _ (field_codec kc vc)
| pd_dict K V (kc : codec K) (vc : codec V) d0 : plain_desc K kc -> plain_desc V vc -> plain_desc _ (dict_vec_codec kc vc d0)
| pd_map K V lt (kc : codec K) (vc : codec V) d0 : plain_desc K kc -> plain_desc V vc -> plain_desc _ (map_codec lt kc vc d0)
| pd_multimap K V lt (kc : codec K) (vc : codec V) d0 : plain_desc K kc -> plain_desc V vc -> plain_desc _ (multimap_codec lt kc vc d0)
| pd_std_array A (c : codec A) d0 N : plain_desc A c -> plain_desc _ (std_array_codec c d0 N)
| pd_c_array A (c : codec A) N : plain_desc A c -> plain_desc _ (c_array_codec c N)
| pd_object T mode (L : list (memb T)) t0 : (forall b m, In b L -> In m (mems_of b) -> plain_desc _ (m_codec m)) ->
    plain_desc T (object_codec mode L t0)
| pd_object_array T (L : list (memb T)) t0 : (forall b m, In b L -> In m (mems_of b) -> plain_desc _ (m_codec m)) ->
    plain_desc T (oarray_codec L t0)
| pd_member_value T A (get : T -> A) set c : plain_desc A c -> plain_desc T (member_value_codec get set c)
| pd_quoted A (c : codec A) reqq : plain_desc A (quoted_codec c true reqq)
| pd_unquoted A (c : codec A) reqq : plain_desc A c -> plain_desc A (quoted_codec c false reqq)
| pd_unordered_set A H (h : hashtab A H) (c : codec A) d0 : plain_desc A c -> plain_desc _ (unordered_set_codec h c d0)
| pd_unordered_map K V H (h : hashtab (K * V) H) (kc : codec K) (vc : codec V) d0 : plain_desc K kc -> plain_desc V vc ->
    plain_desc _ (unordered_map_codec h kc vc d0).

(** The bytes [b] stored from address [a] on. *)
Definition stored (m : Out.mem) (a : Z) (b : buf) : Out.mem :=
  fun x => if (a <=? x) && (x <? a + dist b) then nth_error b (Z.to_nat (x - a)) else m x.

(** Values of a member-list element that lie in the domains [dm] of its members:
    only the alternative of a member_if that gets written matters. *)
Definition memb_in {T} (dm : forall m : mem T, m_ty m -> Prop) (v : T) (b : memb T) : Prop :=
  match b with
  | MRef m => dm m (m_get m v)
  | MProp m _ => dm m (m_get m v)
  | MIf _ l r isdef => if isdef (m_get l v) then dm r (m_get r v) else dm l (m_get l v)
  end.

(** Descriptions usable as dictionary keys, with the keys written as JSON strings. *)
Inductive kdesc : forall A, codec A -> (A -> Prop) -> Prop :=
| kd_string : kdesc _ string_codec utf8
| kd_chars N : kdesc _ (chars_codec N) (fun v => exists t q, v = t ++ q /\ utf8 t /\ ~ In 0 t /\ (q = [] \/ exists q', q = 0 :: q'))
| kd_enum mode L : Forall rchars (map fst L) -> kdesc _ (enum_codec mode L) (fun _ => True)
| kd_flags sep mode L : sep <> COMMA -> rchars [sep] -> Forall rchars (map fst L) -> kdesc _ (flags_codec sep mode L) (fun _ => True).

(** Descriptions with the values whose output is RFC 8259 JSON. *)
Inductive jdesc : forall A, codec A -> (A -> Prop) -> Prop :=
| jd_sub A c (dom dom' : A -> Prop) : jdesc A c dom -> (forall v, dom' v -> dom v) -> jdesc A c dom'
| jd_key A c dom : kdesc A c dom -> jdesc A c dom
| jd_int t : ity_ok t -> jdesc _ (int_codec t) (irange t)
| jd_bool : jdesc _ bool_codec (fun _ => True)
| jd_float A R fmt scan zero : jdesc A (float_codec R fmt scan zero) (fun v => rnumber (fmt v) /\ (length (fmt v) <= bufsize R)%nat)
| jd_flags mode L : Forall rchars (map fst L) -> jdesc _ (flags_codec COMMA mode L) (fun _ => True)
| jd_raw : jdesc _ raw_codec (fun v => v = [] \/ rvalue v)
| jd_ipair : jdesc _ ipair_codec (fun v => v = [] \/ rvalue v)
| jd_time t fr : ity_ok t -> 1 <= fr -> irange t fr -> jdesc _ (time_codec t fr) (time_dom t fr)
| jd_size t metric : ity_ok t -> 2 <= isize t -> 1 <= metric -> irange i64 metric ->
    jdesc _ (size_codec t metric) (size_dom t metric)
| jd_vector A (c : codec A) d0 dom : jdesc A c dom -> jdesc _ (vector_codec c d0) (Forall dom)
| jd_set A lt (c : codec A) d0 dom : jdesc A c dom -> jdesc _ (set_codec lt c d0) (Forall dom)
| jd_multiset A lt (c : codec A) d0 dom : jdesc A c dom -> jdesc _ (multiset_codec lt c d0) (Forall dom)
| jd_dict K V (kc : codec K) (vc : codec V) d0 dk dv : kdesc K kc dk -> jdesc V vc dv ->
    jdesc _ (dict_vec_codec kc vc d0) (Forall (fun p => dk (fst p) /\ dv (snd p)))
| jd_map K V lt (kc : codec K) (vc : codec V) d0 dk dv : kdesc K kc dk -> jdesc V vc dv ->
    jdesc _ (map_codec lt kc vc d0) (Forall (fun p => dk (fst p) /\ dv (snd p)))
| jd_multimap K V lt (kc : codec K) (vc : codec V) d0 dk dv : kdesc K kc dk -> jdesc V vc dv ->
    jdesc _ (multimap_codec lt kc vc d0) (Forall (fun p => dk (fst p) /\ dv (snd p)))
| jd_std_array A (c : codec A) d0 N dom : jdesc A c dom -> jdesc _ (std_array_codec c d0 N) (fun v => Forall dom (vlist v))
| jd_c_array A (c : codec A) N dom : jdesc A c dom -> jdesc _ (c_array_codec c N) (fun v => Forall dom (vlist v))
| jd_object T mode (L : list (memb T)) t0 (dm : forall m : mem T, m_ty m -> Prop) :
    (forall b m, In b L -> In m (mems_of b) -> rchars (m_name m)) ->
    (forall b m, In b L -> In m (mems_of b) -> jdesc _ (m_codec m) (dm m)) ->
    jdesc T (object_codec mode L t0) (fun v => Forall (memb_in dm v) L)
| jd_object_array T (L : list (memb T)) t0 (dm : forall m : mem T, m_ty m -> Prop) :
    (forall b m, In b L -> In m (mems_of b) -> jdesc _ (m_codec m) (dm m)) ->
    jdesc T (oarray_codec L t0) (fun v => Forall (memb_in dm v) L)
| jd_member_value T A (get : T -> A) set c dom : jdesc A c dom -> jdesc T (member_value_codec get set c) (fun v => dom (get v))
| jd_quoted A (c : codec A) serq reqq dom : jdesc A c dom -> jdesc A (quoted_codec c serq reqq) dom
| jd_pointer A (c : codec A) d0 dom : jdesc A c dom ->
    jdesc _ (ptr_codec c d0) (fun o => match o with None => True | Some v => dom v end)
| jd_unordered_set A H (h : hashtab A H) (c : codec A) d0 dom : jdesc A c dom ->
    jdesc _ (unordered_set_codec h c d0) (fun t => Forall dom (h_list h t))
| jd_unordered_map K V H (h : hashtab (K * V) H) (kc : codec K) (vc : codec V) d0 dk dv : kdesc K kc dk -> jdesc V vc dv ->
    jdesc _ (unordered_map_codec h kc vc d0) (fun t => Forall (fun p => dk (fst p) /\ dv (snd p)) (h_list h t)).

(** When reading a member_if finds its way back to the alternative that was
    written: null resets both, they are independent fields, and the alternative
    tried first rejects what the other writes. *)
Definition alts_ok {T} (dm : forall m : mem T, m_ty m -> Prop) (b : memb T) : Prop :=
  match b with
  | MIf ru l r _ =>
    (exists dl, null_reads (m_codec l) (fun _ => dl)) /\ (exists dr, null_reads (m_codec r) (fun _ => dr)) /\
    set_set l /\ set_set r /\ (forall t x y, m_set l (m_set r t y) x = m_set r (m_set l t x) y) /\
    (ru = false -> forall v txt, dm r v -> writes (m_codec r) v txt -> rejects (m_codec l) txt) /\
    (ru = true -> forall v txt, dm l v -> writes (m_codec l) v txt -> rejects (m_codec r) txt)
  | _ => True
  end.
Definition same_names {T} (b : memb T) : Prop := match b with MIf _ l r _ => m_name l = m_name r | _ => True end.
(** ... and the alternative that is not written holds its reset value *)
Definition memb_rin {T} (dm : forall m : mem T, m_ty m -> Prop) (v : T) (b : memb T) : Prop :=
  memb_in dm v b /\
  match b with
  | MIf _ l r isdef => if isdef (m_get l v) then null_reads (m_codec l) (fun _ => m_get l v) else null_reads (m_codec r) (fun _ => m_get r v)
  | _ => True
  end.

(** Descriptions with the values that survive writing and reading. *)
Inductive rdesc : forall A, codec A -> (A -> Prop) -> Prop :=
| rd_sub A c (dom dom' : A -> Prop) : rdesc A c dom -> (forall v, dom' v -> dom v) -> rdesc A c dom'
| rd_int t : ity_ok t -> rdesc _ (int_codec t) (int_dom t)
| rd_bool : rdesc _ bool_codec (fun _ => True)
| rd_float A R fmt scan conv zero : scan_law scan conv ->
    rdesc A (float_codec R fmt scan zero) (fun v => rnumber (fmt v) /\ (length (fmt v) <= bufsize R)%nat /\ conv (fmt v) = v)
| rd_string : rdesc _ string_codec str_dom
| rd_chars N : Z.of_nat N <= INT_MAX -> rdesc _ (chars_codec N) (chars_dom N)
| rd_enum mode L : NoDup (map fst L) -> Forall no_quote (map fst L) -> rdesc _ (enum_codec mode L) (fun v => In v (map snd L))
| rd_flags_text sep mode L : sep_ok sep -> NoDup (map fst L) -> Forall (flag_name sep) (map fst L) ->
    rdesc _ (flags_codec sep mode L) (flag_union L)
| rd_flags_array mode L : NoDup (map fst L) -> Forall no_quote (map fst L) -> rdesc _ (flags_codec COMMA mode L) (flag_union L)
| rd_raw : rdesc _ raw_codec wvalue
| rd_ipair : rdesc _ ipair_codec wvalue
| rd_rquoted b : rdesc _ (rquoted_codec b b) wvalue
| rd_time t fr : ity_ok t -> 1 <= fr -> irange t fr -> rdesc _ (time_codec t fr) (time_dom t fr)
| rd_size t metric : ity_ok t -> 2 <= isize t -> 1 <= metric -> irange i64 metric ->
    rdesc _ (size_codec t metric) (size_dom t metric)
| rd_vector A (c : codec A) d0 dom : rdesc A c dom -> rdesc _ (vector_codec c d0) (Forall dom)
| rd_set A lt (c : codec A) d0 dom : swo lt -> rdesc A c dom -> rdesc _ (set_codec lt c d0) (fun l => Forall dom l /\ sorted_lt lt l)
| rd_multiset A lt (c : codec A) d0 dom : swo lt -> rdesc A c dom -> rdesc _ (multiset_codec lt c d0) (fun l => Forall dom l /\ sorted_le lt l)
| rd_dict K V (kc : codec K) (vc : codec V) d0 dk dv : rdesc K kc dk -> rdesc V vc dv ->
    rdesc _ (dict_vec_codec kc vc d0) (Forall (fun p => dk (fst p) /\ dv (snd p)))
| rd_map K V lt (kc : codec K) (vc : codec V) d0 dk dv : swo lt -> rdesc K kc dk -> rdesc V vc dv ->
    rdesc _ (map_codec lt kc vc d0) (fun l => Forall (fun p => dk (fst p) /\ dv (snd p)) l /\ sorted_lt (klt lt) l)
| rd_multimap K V lt (kc : codec K) (vc : codec V) d0 dk dv : swo lt -> rdesc K kc dk -> rdesc V vc dv ->
    rdesc _ (multimap_codec lt kc vc d0) (fun l => Forall (fun p => dk (fst p) /\ dv (snd p)) l /\ sorted_le (klt lt) l)
| rd_std_array A (c : codec A) d0 N dom : rdesc A c dom -> rdesc _ (std_array_codec c d0 N) (fun v => Forall dom (vlist v))
| rd_c_array A (c : codec A) N dom : rdesc A c dom -> rdesc _ (c_array_codec c N) (fun v => Forall dom (vlist v))
| rd_object T mode (L : list (memb T)) t0 (dm : forall m : mem T, m_ty m -> Prop) : covers L -> Forall (alts_ok dm) L -> Forall same_names L ->
    (forall b, In b L -> plain_name (memb_name b)) ->
    (forall b m, In b L -> In m (mems_of b) -> rdesc _ (m_codec m) (dm m)) ->
    rdesc T (object_codec mode L t0) (fun v => Forall (memb_rin dm v) L)
| rd_object_array T (L : list (memb T)) t0 (dm : forall m : mem T, m_ty m -> Prop) : covers L -> Forall (alts_ok dm) L ->
    (forall b m, In b L -> In m (mems_of b) -> rdesc _ (m_codec m) (dm m)) ->
    rdesc T (oarray_codec L t0) (fun v => Forall (memb_rin dm v) L)
| rd_member_value T A (get : T -> A) set c dom : (forall v old, set old (get v) = v) -> rdesc A c dom ->
    rdesc T (member_value_codec get set c) (fun v => dom (get v))
| rd_quoted A (c : codec A) reqq dom : rdesc A c dom ->
    rdesc A (quoted_codec c true reqq) (fun v => dom v /\ forall txt, writes c v txt -> str_dom txt)
| rd_quoted_json A (c : codec A) reqq dom : rdesc A c dom -> jdesc A c dom ->
    rdesc A (quoted_codec c true reqq) (fun v => dom v /\ forall txt, writes c v txt -> dist txt <= INT_MAX)
| rd_unquoted A (c : codec A) dom : rdesc A c dom -> rdesc A (quoted_codec c false false) (fun v => dom v /\ not_starting c QT v)
| rd_pointer A (c : codec A) d0 dom : rdesc A c dom ->
    rdesc _ (ptr_codec c d0) (fun o => match o with None => True | Some v => dom v /\ not_starting c 110 v end).
