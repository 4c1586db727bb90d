(** Descriptions with the values that are written differently from each other
    (C96). *)
From Verif Require Import Base SpecJson SpecNum Out Number StringS Array Object SpecObject ObjectArray Float Wrap SpecWrap Desc.

(** The bytes before the first zero. *)
Fixpoint c_string (v : buf) : buf :=
  match v with [] => [] | c :: t => if c =? 0 then [] else c :: c_string t end.

Inductive idesc : forall A, codec A -> (A -> Prop) -> Prop :=
| id_sub A c (dom dom' : A -> Prop) : idesc A c dom -> (forall v, dom' v -> dom v) -> idesc A c dom'
| id_read A c dom : rdesc A c dom -> idesc A c dom
| id_int t : ity_ok t -> idesc _ (int_codec t) (irange t)
| id_float A R (fmt : A -> buf) scan zero (dom : A -> Prop) :
    (forall v, dom v -> rnumber (fmt v) /\ (length (fmt v) <= bufsize R)%nat) -> (forall v w, dom v -> dom w -> fmt v = fmt w -> v = w) ->
    idesc A (float_codec R fmt scan zero) dom
| id_string : idesc _ string_codec bytes
| id_chars N : idesc _ (chars_codec N) (fun v => bytes v /\ v = c_string v ++ repeat 0 (N - length (c_string v)))
| id_rquoted serq reqq : idesc _ (rquoted_codec serq reqq) wvalue
| id_vector A (c : codec A) d0 dom : idesc A c dom -> idesc _ (vector_codec c d0) (Forall dom)
| id_set A lt (c : codec A) d0 dom : idesc A c dom -> idesc _ (set_codec lt c d0) (Forall dom)
| id_multiset A lt (c : codec A) d0 dom : idesc A c dom -> idesc _ (multiset_codec lt c d0) (Forall dom)
| id_dict K V (kc : codec K) (vc : codec V) d0 dk dv : idesc K kc dk -> idesc V vc dv ->
    idesc _ (dict_vec_codec kc vc d0) (Forall (fun p => dk (fst p) /\ dv (snd p)))
| id_map K V lt (kc : codec K) (vc : codec V) d0 dk dv : idesc K kc dk -> idesc V vc dv ->
    idesc _ (map_codec lt kc vc d0) (Forall (fun p => dk (fst p) /\ dv (snd p)))
| id_multimap K V lt (kc : codec K) (vc : codec V) d0 dk dv : idesc K kc dk -> idesc V vc dv ->
    idesc _ (multimap_codec lt kc vc d0) (Forall (fun p => dk (fst p) /\ dv (snd p)))
| id_std_array A (c : codec A) d0 N dom : idesc A c dom -> idesc _ (std_array_codec c d0 N) (fun v => Forall dom (vlist v))
| id_c_array A (c : codec A) N dom : idesc A c dom -> idesc _ (c_array_codec c N) (fun v => Forall dom (vlist v))
| id_object T mode (L : list (memb T)) t0 (dm : forall m : mem T, m_ty m -> Prop) : covers L -> Forall no_if L ->
    (forall b, In b L -> idesc _ (m_codec (memb_mem b)) (dm (memb_mem b))) ->
    idesc T (object_codec mode L t0) (fun v => forall b, In b L -> dm (memb_mem b) (m_get (memb_mem b) v))
| id_object_array T (L : list (memb T)) t0 (dm : forall m : mem T, m_ty m -> Prop) : covers L -> Forall no_if L ->
    (forall b, In b L -> idesc _ (m_codec (memb_mem b)) (dm (memb_mem b))) ->
    idesc T (oarray_codec L t0) (fun v => forall b, In b L -> dm (memb_mem b) (m_get (memb_mem b) v))
| id_member_value T A (get : T -> A) set c dom : (forall v w, get v = get w -> v = w) -> idesc A c dom ->
    idesc T (member_value_codec get set c) (fun v => dom (get v))
| id_quoted A (c : codec A) reqq dom : idesc A c dom ->
    idesc A (quoted_codec c true reqq) (fun v => dom v /\ forall txt, writes c v txt -> bytes txt)
| id_unquoted A (c : codec A) reqq dom : idesc A c dom -> idesc A (quoted_codec c false reqq) dom
| id_pointer A (c : codec A) d0 dom : idesc A c dom ->
    idesc _ (ptr_codec c d0) (fun o => match o with None => True | Some v => dom v /\ not_starting c 110 v end).
