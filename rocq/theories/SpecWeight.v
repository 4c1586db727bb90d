(** Specification: how much a value holds, by its description. *)
From Verif Require Import Base Out Number StringS Array Unord Object ObjectArray SpecObject Enum Wrap TimeSize Float.

(** Sums over lists: of the elements alone, and with one for each element. *)
Fixpoint total {A} (w : A -> nat) (l : list A) : nat :=
  match l with [] => 0 | x :: t => (w x + total w t)%nat end.
Definition load {A} (w : A -> nat) (l : list A) : nat := (length l + total w l)%nat.

(** Storing into a member makes the struct hold at most what the stored value
    holds beyond the one it was read into. *)
Definition holds {T} (w : T -> nat) (b : memb T) (wm : m_ty (memb_mem b) -> nat) : Prop :=
  forall t x, (w (m_set (memb_mem b) t x) + wm (memb_old b t) <= w t + wm x)%nat.

(** An alternative of a member_if: as above, what is stored is there, and reading
    a null empties it. *)
Definition empties {T} (w : T -> nat) (m : mem T) (wm : m_ty m -> nat) : Prop :=
  (forall t x, (w (m_set m t x) + wm (m_get m t) <= w t + wm x)%nat) /\
  (forall t x, (wm x <= wm (m_get m (m_set m t x)))%nat) /\
  (forall old, match des (m_codec m) (Some 0) old (text "null") None with Ok (x, _, _) => wm x = 0%nat | _ => True end).

(** [weighs n c w]: [w] is what a value of the description [c] holds beyond its
    fixed size: the bytes of strings and raw values, the elements of containers.
    Numbers, booleans, enumerators, flags, char arrays and times have a fixed
    size; fixed-size arrays, structs and pointers hold what is in them.  Element
    and pointee targets start empty ([w d0 = 0]).  With [n] = true the reader
    makes nothing of a null; fixed-size arrays hand a null to each of their
    elements and so need such. *)
Inductive weighs : bool -> forall A, codec A -> (A -> nat) -> Prop :=
| wg_int t : weighs true Z (int_codec t) (fun _ => 0%nat)
| wg_bool : weighs true bool bool_codec (fun _ => 0%nat)
| wg_float A R fmt scan zero : weighs true A (float_codec R fmt scan zero) (fun _ => 0%nat)
| wg_chars N : weighs true buf (chars_codec N) (fun _ => 0%nat)
| wg_enum mode L : weighs true Z (enum_codec mode L) (fun _ => 0%nat)
| wg_flags sep mode L : weighs true Z (flags_codec sep mode L) (fun _ => 0%nat)
| wg_time t fr : weighs true Z (time_codec t fr) (fun _ => 0%nat)
| wg_size t metric : weighs true Z (size_codec t metric) (fun _ => 0%nat)
| wg_string : weighs true buf string_codec (@length Z)
| wg_raw : weighs false buf raw_codec (@length Z)
| wg_ipair : weighs false buf ipair_codec (@length Z)
| wg_rquoted serq reqq : weighs reqq buf (rquoted_codec serq reqq) (@length Z)
| wg_vector n A (c : codec A) d0 w : weighs n A c w -> w d0 = 0%nat -> weighs true (list A) (vector_codec c d0) (load w)
| wg_set n A lt (c : codec A) d0 w : weighs n A c w -> w d0 = 0%nat -> weighs true (list A) (set_codec lt c d0) (load w)
| wg_multiset n A lt (c : codec A) d0 w : weighs n A c w -> w d0 = 0%nat -> weighs true (list A) (multiset_codec lt c d0) (load w)
| wg_dict n n' K V (kc : codec K) (vc : codec V) d0 wk wv : weighs n K kc wk -> weighs n' V vc wv ->
    wk (fst d0) = 0%nat -> wv (snd d0) = 0%nat ->
    weighs true (list (K * V)) (dict_vec_codec kc vc d0) (load (fun p => (wk (fst p) + wv (snd p))%nat))
| wg_map n n' K V lt (kc : codec K) (vc : codec V) d0 wk wv : weighs n K kc wk -> weighs n' V vc wv ->
    wk (fst d0) = 0%nat -> wv (snd d0) = 0%nat ->
    weighs true (list (K * V)) (map_codec lt kc vc d0) (load (fun p => (wk (fst p) + wv (snd p))%nat))
| wg_multimap n n' K V lt (kc : codec K) (vc : codec V) d0 wk wv : weighs n K kc wk -> weighs n' V vc wv ->
    wk (fst d0) = 0%nat -> wv (snd d0) = 0%nat ->
    weighs true (list (K * V)) (multimap_codec lt kc vc d0) (load (fun p => (wk (fst p) + wv (snd p))%nat))
| wg_unordered_set n A H (h : hashtab A H) (c : codec A) d0 w : weighs n A c w -> w d0 = 0%nat ->
    (forall t, h_list h (h_clear h t) = []) -> (forall t x, load w (h_list h (h_ins h t x)) <= load w (h_list h t) + 1 + w x)%nat ->
    weighs true H (unordered_set_codec h c d0) (fun t => load w (h_list h t))
| wg_unordered_map n n' K V H (h : hashtab (K * V) H) (kc : codec K) (vc : codec V) d0 wk wv :
    weighs n K kc wk -> weighs n' V vc wv -> wk (fst d0) = 0%nat -> wv (snd d0) = 0%nat ->
    (forall t, h_list h (h_clear h t) = []) ->
    (forall t x, load (fun p => (wk (fst p) + wv (snd p))%nat) (h_list h (h_ins h t x)) <=
       load (fun p => (wk (fst p) + wv (snd p))%nat) (h_list h t) + 1 + (wk (fst x) + wv (snd x)))%nat ->
    weighs true H (unordered_map_codec h kc vc d0) (fun t => load (fun p => (wk (fst p) + wv (snd p))%nat) (h_list h t))
| wg_std_array A (c : codec A) d0 N w : weighs true A c w -> w d0 = 0%nat ->
    weighs true (vec A N) (std_array_codec c d0 N) (fun v => total w (vlist v))
| wg_c_array A (c : codec A) N w : weighs true A c w -> weighs true (vec A N) (c_array_codec c N) (fun v => total w (vlist v))
| wg_object T mode (L : list (memb T)) t0 (w : T -> nat) : weigh T w L -> w t0 = 0%nat -> weighs true T (object_codec mode L t0) w
| wg_object_array T (L : list (memb T)) t0 (w : T -> nat) : weigh T w L -> w t0 = 0%nat -> weighs true T (oarray_codec L t0) w
| wg_member_value n T A (get : T -> A) set (c : codec A) (w : T -> nat) wa : weighs n A c wa ->
    (forall t x, w (set t x) + wa (get t) <= w t + wa x)%nat -> weighs n T (member_value_codec get set c) w
| wg_quoted n A (c : codec A) serq w : weighs n A c w -> weighs true A (quoted_codec c serq true) w
| wg_maybe_quoted n A (c : codec A) serq w : weighs n A c w -> weighs n A (quoted_codec c serq false) w
| wg_pointer n A (c : codec A) d0 w : weighs n A c w -> w d0 = 0%nat ->
    weighs true (option A) (ptr_codec c d0) (fun o => match o with Some x => w x | None => 0%nat end)
with weigh : forall T, (T -> nat) -> list (memb T) -> Prop :=
| wm_nil T w : weigh T w []
| wm_cons T w b n wm L : no_if b -> weighs n _ (m_codec (memb_mem b)) wm -> holds w b wm -> weigh T w L -> weigh T w (b :: L)
| wm_if T w ru (l r : mem T) isdef n n' wl wr L : weighs n _ (m_codec l) wl -> weighs n' _ (m_codec r) wr -> empties w l wl -> empties w r wr ->
    weigh T w L -> weigh T w (MIf ru l r isdef :: L).

Scheme weighs_mind := Induction for weighs Sort Prop
  with weigh_mind := Induction for weigh Sort Prop.
