(** Values that do not come back as they were, and what they come back as. *)
From Coq Require Import QArith Qabs.
From Verif Require Import Base Parser SpecJson SpecNum SpecSeq SpecString Out Number StringS Array Object ObjectArray SpecObject Enum SpecEnum Wrap SpecWrap
  TimeSize SpecTime Float Fp SpecFp SpecMisc CodecLaws StringProofs ArrayProofs ObjectProofs Desc.
Open Scope Z_scope.

(** A member-list element: the same alternative is selected in both structs. *)
Definition memb_twin {T} (N : forall m : mem T, m_ty m -> m_ty m -> Prop) (v w : T) (b : memb T) : Prop :=
  match b with
  | MRef m => N m (m_get m v) (m_get m w)
  | MProp m _ => N m (m_get m v) (m_get m w)
  | MIf _ l r isdef =>
    isdef (m_get l v) = isdef (m_get l w) /\
    if isdef (m_get l w) then N r (m_get r v) (m_get r w) /\ null_reads (m_codec l) (fun _ => m_get l w)
    else N l (m_get l v) (m_get l w) /\ null_reads (m_codec r) (fun _ => m_get r w)
  end.

(** [twins A c N]: where [N v w], the value v is written and read back as w. *)
Inductive twins : forall A, codec A -> (A -> A -> Prop) -> Prop :=
| tw_sub A c (N N' : A -> A -> Prop) : twins A c N -> (forall v w, N' v w -> N v w) -> twins A c N'
| tw_same A c dom : rdesc A c dom -> twins A c (fun v w => v = w /\ dom w)
(** the nearest value to the decimal number that is written *)
| tw_fixed F R : format_ok F -> 0 <= R ->
    twins _ (real_codec F R) (fun v w => finite F v /\ not_too_large v /\ negative w = negative v /\
      exists q, to_decimals R (worth v) q /\ nearest F q w)
| tw_sci F : F = f64 \/ F = f80 ->
    twins _ (real_codec F (-1)) (fun v w => finite F v /\ negative w = negative v /\ exists q, to_seven (worth v) q /\ nearest F q w)
(** the bits that have a name *)
| tw_flags sep mode L : NoDup (map fst L) -> sep_ok sep /\ Forall (flag_name sep) (map fst L) \/ sep = COMMA /\ Forall no_quote (map fst L) ->
    twins _ (flags_codec sep mode L) (fun v w => flag_union L w /\
      (forall x, In x (evals L) -> (Z.land x v = x <-> Z.land x w = x)) /\ (In 0 (evals L) -> (v = 0 <-> w = 0)))
(** what stands behind the end of the text in a char array *)
| tw_chars n : Z.of_nat n <= INT_MAX -> twins _ (chars_codec n) (fun v w => length v = n /\ exists t q, v = t ++ 0 :: q /\
      Forall str_char t /\ w = t ++ repeat 0 (n - length t))
(** an empty raw value is written as an empty string *)
| tw_raw : twins _ raw_codec (fun v w => v = [] /\ w = [QT; QT] \/ v = w /\ wvalue w)
| tw_ipair : twins _ ipair_codec (fun v w => v = [] /\ w = [QT; QT] \/ v = w /\ wvalue w)
| tw_vector A (c : codec A) d0 N : twins A c N -> twins _ (vector_codec c d0) (Forall2 N)
(** elements and keys that come back must be in order *)
| tw_set A lt (c : codec A) d0 N : swo lt -> twins A c N -> twins _ (set_codec lt c d0) (fun l l' => Forall2 N l l' /\ sorted_lt lt l')
| tw_multiset A lt (c : codec A) d0 N : swo lt -> twins A c N -> twins _ (multiset_codec lt c d0) (fun l l' => Forall2 N l l' /\ sorted_le lt l')
| tw_dict K V (kc : codec K) (vc : codec V) d0 N N' : twins K kc N -> twins V vc N' ->
    twins _ (dict_vec_codec kc vc d0) (Forall2 (fun p p' => N (fst p) (fst p') /\ N' (snd p) (snd p')))
| tw_map K V lt (kc : codec K) (vc : codec V) d0 N N' : swo lt -> twins K kc N -> twins V vc N' ->
    twins _ (map_codec lt kc vc d0) (fun l l' => Forall2 (fun p p' => N (fst p) (fst p') /\ N' (snd p) (snd p')) l l' /\ sorted_lt (klt lt) l')
| tw_multimap K V lt (kc : codec K) (vc : codec V) d0 N N' : swo lt -> twins K kc N -> twins V vc N' ->
    twins _ (multimap_codec lt kc vc d0) (fun l l' => Forall2 (fun p p' => N (fst p) (fst p') /\ N' (snd p) (snd p')) l l' /\ sorted_le (klt lt) l')
| tw_std_array A (c : codec A) d0 n N : twins A c N -> twins _ (std_array_codec c d0 n) (fun v w => Forall2 N (vlist v) (vlist w))
| tw_c_array A (c : codec A) n N : twins A c N -> twins _ (c_array_codec c n) (fun v w => Forall2 N (vlist v) (vlist w))
| tw_object T mode (L : list (memb T)) t0 (N : forall m : mem T, m_ty m -> m_ty m -> Prop) :
    covers L -> Forall (alts_ok (fun m y => exists x, N m x y)) L -> Forall same_names L -> (forall b, In b L -> plain_name (memb_name b)) ->
    (forall b m, In b L -> In m (mems_of b) -> twins _ (m_codec m) (N m)) ->
    twins T (object_codec mode L t0) (fun v w => Forall (memb_twin N v w) L)
| tw_object_array T (L : list (memb T)) t0 (N : forall m : mem T, m_ty m -> m_ty m -> Prop) :
    covers L -> Forall (alts_ok (fun m y => exists x, N m x y)) L ->
    (forall b m, In b L -> In m (mems_of b) -> twins _ (m_codec m) (N m)) ->
    twins T (oarray_codec L t0) (fun v w => Forall (memb_twin N v w) L)
| tw_member_value T A (get : T -> A) set c N : (forall v old, set old (get v) = v) -> twins A c N ->
    twins T (member_value_codec get set c) (fun v w => N (get v) (get w))
| tw_quoted A (c : codec A) reqq N : twins A c N ->
    twins A (quoted_codec c true reqq) (fun v w => N v w /\ forall txt, writes c w txt -> str_dom txt)
| tw_unquoted A (c : codec A) N : twins A c N -> twins A (quoted_codec c false false) (fun v w => N v w /\ not_starting c QT w)
| tw_pointer A (c : codec A) d0 N : twins A c N ->
    twins _ (ptr_codec c d0) (fun o o' => match o, o' with None, None => True | Some v, Some w => N v w /\ not_starting c 110 w | _, _ => False end).
