(** Two texts that differ only in the gaps between their tokens. *)
From Verif Require Import Base SpecJson SpecDespace SpecMisc Parser Out Number StringS Array Unord Object ObjectArray Enum Wrap Float Desc SpecEnd.

Definition punct (c : Z) : Prop := In c [LCB; RCB; LBR; RBR; COMMA; COLON].

(** [R] holds between any two tokens in a row. *)
Fixpoint adjacent (R : buf -> buf -> Prop) (ts : list buf) : Prop :=
  match ts with
  | t :: ((u :: _) as r) => R t u /\ adjacent R r
  | _ => True
  end.
(** A number is followed by a bracket, a comma, a colon or nothing. *)
Definition apart (ts : list buf) : Prop := adjacent (fun t u => rnumber t -> exists c, punct c /\ u = [c]) ts.
(** No array ends in a comma. *)
Definition no_trailing (ts : list buf) : Prop := adjacent (fun t u => t = [COMMA] -> u <> [RBR]) ts.

(** The text starts with a token. *)
Definition at_token (s : buf) : Prop := match s with [] => True | c :: _ => ~ s_ws c /\ c <> SLASH end.

(** What two successful reads leave over: the same tokens, or the same part of
    a number (an integer stops in front of its fraction or exponent). *)
Definition same_rest (r r' : buf) : Prop :=
  (exists ts, layout r ts /\ layout r' ts) \/
  (exists c t t', r = c :: t /\ r' = c :: t' /\ (c = DOT \/ c = 101 \/ c = 69)).

(** Two readings agree: the same value, and both end in front of the same rest
    or both report an error. *)
Definition same_reading {A} (x y : res (A * buf * eptr)) : Prop :=
  match x, y with
  | Ok (v, r, e), Ok (v', r', e') => v = v' /\
      ((e = Some no_error /\ e' = Some no_error /\ same_rest r r') \/ (has_err e = true /\ has_err e' = true /\ r = [] /\ r' = []))
  | UB, UB => True
  | _, _ => False
  end.

(** Descriptions that see tokens only.  Left out: raw values (they keep the
    gaps), flags, time_interval, size_value and nonstrict enumerators.  Fixed-size
    arrays need [fx] and at least one element. *)
Inductive gdesc (fx : Prop) : forall A, codec A -> Prop :=
| gd_int t : gdesc fx _ (int_codec t)
| gd_bool : gdesc fx _ bool_codec
| gd_float A R fmt scan conv zero : scan_law scan conv -> gdesc fx A (float_codec R fmt scan zero)
| gd_string : gdesc fx _ string_codec
| gd_chars N : gdesc fx _ (chars_codec N)
| gd_enum L : Forall wchars (map fst L) -> gdesc fx _ (enum_codec Strict L)
| gd_vector A (c : codec A) d0 : gdesc fx A c -> gdesc fx _ (vector_codec c d0)
| gd_set A lt (c : codec A) d0 : gdesc fx A c -> gdesc fx _ (set_codec lt c d0)
| gd_multiset A lt (c : codec A) d0 : gdesc fx A c -> gdesc fx _ (multiset_codec lt c d0)
| gd_dict K V (kc : codec K) (vc : codec V) d0 : gdesc fx K kc -> gdesc fx V vc -> gdesc fx _ (dict_vec_codec kc vc d0)
| gd_map K V lt (kc : codec K) (vc : codec V) d0 : gdesc fx K kc -> gdesc fx V vc -> gdesc fx _ (map_codec lt kc vc d0)
| gd_multimap K V lt (kc : codec K) (vc : codec V) d0 : gdesc fx K kc -> gdesc fx V vc -> gdesc fx _ (multimap_codec lt kc vc d0)
| gd_std_array A (c : codec A) d0 N : fx -> (0 < N)%nat -> takes_null c -> gdesc fx A c -> gdesc fx _ (std_array_codec c d0 N)
| gd_c_array A (c : codec A) N : fx -> (0 < N)%nat -> takes_null c -> gdesc fx A c -> gdesc fx _ (c_array_codec c N)
| gd_object T mode (L : list (memb T)) t0 : (forall b m, In b L -> In m (mems_of b) -> wchars (m_name m)) ->
    (forall b m, In b L -> In m (mems_of b) -> gdesc fx _ (m_codec m)) -> gdesc fx T (object_codec mode L t0)
| gd_object_array T (L : list (memb T)) t0 : (forall b m, In b L -> In m (mems_of b) -> gdesc fx _ (m_codec m)) ->
    gdesc fx T (oarray_codec L t0)
| gd_member_value T A (get : T -> A) set c : gdesc fx A c -> gdesc fx T (member_value_codec get set c)
| gd_quoted A (c : codec A) serq : desc A c -> gdesc fx A (quoted_codec c serq true)
| gd_unquoted A (c : codec A) serq : gdesc fx A c -> gdesc fx A (quoted_codec c serq false)
| gd_pointer A (c : codec A) d0 : gdesc fx A c -> gdesc fx _ (ptr_codec c d0)
| gd_unordered_set A H (h : hashtab A H) (c : codec A) d0 : gdesc fx A c -> gdesc fx _ (unordered_set_codec h c d0)
| gd_unordered_map K V H (h : hashtab (K * V) H) (kc : codec K) (vc : codec V) d0 : gdesc fx K kc -> gdesc fx V vc ->
    gdesc fx _ (unordered_map_codec h kc vc d0).
