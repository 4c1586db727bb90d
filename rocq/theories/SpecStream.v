(** Specification: values one after another, as in a log or a stream. *)
From Verif Require Import Base SpecJson SpecObject Parser Out Number StringS Array Object ObjectArray Enum Wrap TimeSize SpecExact Desc.

(** The user's loop: skip a gap; stop at the end of the text; read a value into
    a fresh target; go on behind it.  It stops at the first error. *)
Fixpoint drain {A} (c : codec A) (sn : option Z) (d0 : A) (fuel : nat) (s : buf) : res (list A * eptr) :=
  match fuel with
  | O => Fuel
  | S n =>
    let '(s1, e1) := parse_space s (Some no_error) in
    if has_err e1 then Ok ([], e1)
    else match s1 with
    | [] => Ok ([], e1)
    | _ =>
      let* (v, r, e2) := des c sn d0 s1 e1 in
      if has_err e2 then Ok ([], e2)
      else let* (l, e3) := drain c sn d0 n r in Ok (v :: l, e3)
    end
  end.
(** Reading the values l, each behind a gap, leaves r of s. *)
Inductive records {A} (item : buf -> A -> buf -> Prop) : buf -> list A -> buf -> Prop :=
| rc_none s : records item s [] s
| rc_more s s1 v s2 l r : after_gap s s1 -> s1 <> [] -> item s1 v s2 -> records item s2 l r -> records item s (v :: l) r.
(** Nothing but a gap behind the last one. *)
Definition complete {A} (item : buf -> A -> buf -> Prop) (s : buf) (l : list A) : Prop := exists r, records item s l r /\ after_gap r [].

(** A log as it is written: values with whitespace in between; [d] = true: they
    may also follow each other directly. *)
Inductive log_of {A} (d : bool) (c : codec A) : list A -> buf -> Prop :=
| lo_end g : Forall s_ws g -> log_of d c [] g
| lo_more g v ops l s : Forall s_ws g -> ser c v = Ok ops -> log_of d c l s -> (d = true \/ s = [] \/ exists w t, s = w :: t /\ s_ws w) ->
    log_of d c (v :: l) (g ++ flat ops ++ s).

(** The value of a null does not depend on what follows it. *)
Definition nulls {A} (c : codec A) : Prop := forall old, exists v, forall sn r e, des c sn old (text "null" ++ r) e = Ok (v, r, e).
(** What may be read from a text that is cut short.  Out: floating-point
    numbers, flags, time_interval, structs with member_if, fixed-size arrays of
    elements which do not take null. *)
Inductive cuttable : forall A, codec A -> Prop :=
| ct_int t : ity_ok t -> cuttable _ (int_codec t)
| ct_bool : cuttable _ bool_codec
| ct_string : cuttable _ string_codec
| ct_chars N : cuttable _ (chars_codec N)
| ct_enum mode L : cuttable _ (enum_codec mode L)
| ct_raw : cuttable _ raw_codec
| ct_ipair : cuttable _ ipair_codec
| ct_rquoted serq reqq : cuttable _ (rquoted_codec serq reqq)
| ct_size t metric : ity_ok t -> cuttable _ (size_codec t metric)
| ct_seq A C S (k : container A C S) l r (c : codec A) d0 : cuttable A c -> cuttable C (seq_codec k l r c d0)
| ct_dict K V C S (k : container (K * V) C S) l r (kc : codec K) (vc : codec V) d0 : cuttable K kc -> cuttable V vc ->
    cuttable C (seq_codec k l r (field_codec kc vc) d0)
| ct_std_array A (c : codec A) d0 N : nulls c -> cuttable A c -> cuttable _ (std_array_codec c d0 N)
| ct_c_array A (c : codec A) N : nulls c -> cuttable A c -> cuttable _ (c_array_codec c N)
| ct_object T mode (L : list (memb T)) t0 : Forall no_if L -> (forall b, In b L -> cuttable _ (m_codec (memb_mem b))) -> cuttable T (object_codec mode L t0)
| ct_object_array T (L : list (memb T)) t0 : Forall no_if L -> (forall b, In b L -> cuttable _ (m_codec (memb_mem b))) -> cuttable T (oarray_codec L t0)
| ct_member_value T A (get : T -> A) set (c : codec A) : cuttable A c -> cuttable T (member_value_codec get set c)
| ct_quoted A (c : codec A) serq reqq : cuttable A c -> cuttable A (quoted_codec c serq reqq)
| ct_pointer A (c : codec A) d0 : cuttable A c -> cuttable _ (ptr_codec c d0).
