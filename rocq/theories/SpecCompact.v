(** Compact JSON: the grammar of RFC 8259 (SpecJson.rvalue) without whitespace
    between the tokens (C97). *)
From Verif Require Import Base SpecJson SpecNum Out Number StringS Array Unord Object SpecObject ObjectArray Enum Float Wrap SpecWrap TimeSize SpecTime TimeProofs SizeProofs Desc.

Inductive cvalue : buf -> Prop :=
| cv_null : cvalue (text "null")
| cv_true : cvalue (text "true")
| cv_false : cvalue (text "false")
| cv_num n : rnumber n -> cvalue n
| cv_str s : rstring s -> cvalue s
| cv_arr0 : cvalue [LBR; RBR]
| cv_arr l : celems l -> cvalue (LBR :: l ++ [RBR])
| cv_obj0 : cvalue [LCB; RCB]
| cv_obj l : cmembers l -> cvalue (LCB :: l ++ [RCB])
with celems : buf -> Prop :=
| ce_one v : cvalue v -> celems v
| ce_more v l : cvalue v -> celems l -> celems (v ++ COMMA :: l)
with cmembers : buf -> Prop :=
| cm_one k v : rstring k -> cvalue v -> cmembers (k ++ COLON :: v)
| cm_more k v l : rstring k -> cvalue v -> cmembers l -> cmembers (k ++ COLON :: v ++ COMMA :: l).

Scheme cvalue_mind := Induction for cvalue Sort Prop
  with celems_mind := Induction for celems Sort Prop
  with cmembers_mind := Induction for cmembers Sort Prop.
Combined Scheme cjson_ind from cvalue_mind, celems_mind, cmembers_mind.

(** The descriptions of Desc.jdesc, raw values being compact themselves. *)
Inductive cdesc : forall A, codec A -> (A -> Prop) -> Prop :=
| cd_sub A c (dom dom' : A -> Prop) : cdesc A c dom -> (forall v, dom' v -> dom v) -> cdesc A c dom'
| cd_key A c dom : kdesc A c dom -> cdesc A c dom
| cd_int t : ity_ok t -> cdesc _ (int_codec t) (irange t)
| cd_bool : cdesc _ bool_codec (fun _ => True)
| cd_float A R fmt scan zero : cdesc A (float_codec R fmt scan zero) (fun v => rnumber (fmt v) /\ (length (fmt v) <= bufsize R)%nat)
| cd_flags mode L : Forall rchars (map fst L) -> cdesc _ (flags_codec COMMA mode L) (fun _ => True)
| cd_raw : cdesc _ raw_codec (fun v => v = [] \/ cvalue v)
| cd_ipair : cdesc _ ipair_codec (fun v => v = [] \/ cvalue v)
| cd_time t fr : ity_ok t -> 1 <= fr -> irange t fr -> cdesc _ (time_codec t fr) (time_dom t fr)
| cd_size t metric : ity_ok t -> 2 <= isize t -> 1 <= metric -> irange i64 metric ->
    cdesc _ (size_codec t metric) (size_dom t metric)
| cd_vector A (c : codec A) d0 dom : cdesc A c dom -> cdesc _ (vector_codec c d0) (Forall dom)
| cd_set A lt (c : codec A) d0 dom : cdesc A c dom -> cdesc _ (set_codec lt c d0) (Forall dom)
| cd_multiset A lt (c : codec A) d0 dom : cdesc A c dom -> cdesc _ (multiset_codec lt c d0) (Forall dom)
| cd_dict K V (kc : codec K) (vc : codec V) d0 dk dv : kdesc K kc dk -> cdesc V vc dv ->
    cdesc _ (dict_vec_codec kc vc d0) (Forall (fun p => dk (fst p) /\ dv (snd p)))
| cd_map K V lt (kc : codec K) (vc : codec V) d0 dk dv : kdesc K kc dk -> cdesc V vc dv ->
    cdesc _ (map_codec lt kc vc d0) (Forall (fun p => dk (fst p) /\ dv (snd p)))
| cd_multimap K V lt (kc : codec K) (vc : codec V) d0 dk dv : kdesc K kc dk -> cdesc V vc dv ->
    cdesc _ (multimap_codec lt kc vc d0) (Forall (fun p => dk (fst p) /\ dv (snd p)))
| cd_std_array A (c : codec A) d0 N dom : cdesc A c dom -> cdesc _ (std_array_codec c d0 N) (fun v => Forall dom (vlist v))
| cd_c_array A (c : codec A) N dom : cdesc A c dom -> cdesc _ (c_array_codec c N) (fun v => Forall dom (vlist v))
| cd_object T mode (L : list (memb T)) t0 (dm : forall m : mem T, m_ty m -> Prop) :
    (forall b m, In b L -> In m (mems_of b) -> rchars (m_name m)) ->
    (forall b m, In b L -> In m (mems_of b) -> cdesc _ (m_codec m) (dm m)) ->
    cdesc T (object_codec mode L t0) (fun v => Forall (memb_in dm v) L)
| cd_object_array T (L : list (memb T)) t0 (dm : forall m : mem T, m_ty m -> Prop) :
    (forall b m, In b L -> In m (mems_of b) -> cdesc _ (m_codec m) (dm m)) ->
    cdesc T (oarray_codec L t0) (fun v => Forall (memb_in dm v) L)
| cd_member_value T A (get : T -> A) set c dom : cdesc A c dom -> cdesc T (member_value_codec get set c) (fun v => dom (get v))
| cd_quoted A (c : codec A) serq reqq dom : cdesc A c dom -> cdesc A (quoted_codec c serq reqq) dom
| cd_pointer A (c : codec A) d0 dom : cdesc A c dom ->
    cdesc _ (ptr_codec c d0) (fun o => match o with None => True | Some v => dom v end)
| cd_unordered_set A H (h : hashtab A H) (c : codec A) d0 dom : cdesc A c dom ->
    cdesc _ (unordered_set_codec h c d0) (fun t => Forall dom (h_list h t))
| cd_unordered_map K V H (h : hashtab (K * V) H) (kc : codec K) (vc : codec V) d0 dk dv : kdesc K kc dk -> cdesc V vc dv ->
    cdesc _ (unordered_map_codec h kc vc d0) (fun t => Forall (fun p => dk (fst p) /\ dv (snd p)) (h_list h t)).
