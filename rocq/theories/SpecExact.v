(** Specification: which texts the readers accept, and what they make of them. *)
From Verif Require Import Base SpecJson SpecNum SpecString Out Number Object SpecObject Enum SpecEnum Float.

(** Reading s into a target containing old succeeds: v is stored, r is left over. *)
Definition reads {A} (c : codec A) (sn : option Z) (old : A) (s : buf) (v : A) (r : buf) : Prop :=
  des c sn old s (Some no_error) = Ok (v, r, Some no_error).

(** ---- strings ---- *)
(** A \u escape of a control character without short form is kept as it is. *)
Definition kept (v : Z) : Prop := v < 32 /\ ~ short_ctl v.
(** One character of a literal and the bytes it is read as.  Continuation bytes
    are not looked at, a surrogate is encoded like any other code point. *)
Inductive chunk : buf -> buf -> Prop :=
| ck_plain c : 0 <= c < 128 -> c <> QT -> c <> BSL -> chunk [c] [c]
| ck_lead c k l : wlead c k -> (k <= 3)%nat -> length l = k -> chunk (c :: l) (c :: l)
| ck_esc c t : esc_mean c t -> chunk [BSL; c] [t]
| ck_u a b c d : s_hex a -> s_hex b -> s_hex c -> s_hex d -> ~ kept (hex4 a b c d) -> chunk [BSL; 117; a; b; c; d] (utf8_encode (hex4 a b c d))
| ck_kept a b c d : s_hex a -> s_hex b -> s_hex c -> s_hex d -> kept (hex4 a b c d) -> chunk [BSL; 117; a; b; c; d] [BSL; 117; a; b; c; d]
| ck_x a b : s_hex a -> s_hex b -> chunk [BSL; 120; a; b] [hexv a * 16 + hexv b].
(** Literals read into room for n bytes.  Only UTF-8 characters and kept escapes
    may be cut at the end of the room. *)
Inductive literal : Z -> buf -> buf -> Prop :=
| li_nil n : literal n [] []
| li_chunk n c w l v : chunk c w -> dist w <= n -> literal (n - dist w) l v -> literal n (c ++ l) (w ++ v)
| li_cut n c k l : wlead c k -> (k <= 3)%nat -> (length l < k)%nat -> dist (c :: l) = n -> literal n (c :: l) (c :: l)
| li_cut_kept n a b c d : s_hex a -> s_hex b -> s_hex c -> s_hex d -> kept (hex4 a b c d) -> 0 < n < 6 ->
    literal n [BSL; 117; a; b; c; d] (firstn (Z.to_nat n) [BSL; 117; a; b; c; d]).

(** ---- numbers ---- *)
(** The integer z is stored in the type t as v: reduced modulo 2^bits, except
    that signed types as wide as int must be able to hold the digits. *)
Definition stored (t : ity) (z v : Z) : Prop :=
  irange t v /\ (exists k, v = z + k * 2 ^ (8 * isize t)) /\ (isigned t = true -> 4 <= isize t -> Z.abs z <= imax t).
(** An integer ends at the first byte that is no digit, or after a leading zero. *)
Definition int_end (l r : buf) : Prop := l = text "0" \/ l = text "-0" \/ match r with [] => True | c :: _ => ~ s_digit c end.
(** ---- enumerators ---- *)
(** what is skipped in front of the quote *)
Definition low (c : Z) : Prop := c <= 32 \/ 128 <= c.
(** the value of the first entry with this name *)
Definition first_of (L : elist) (n : buf) (v : Z) : Prop := exists A B, L = A ++ (n, v) :: B /\ ~ In n (enames A).

(** ---- gaps and containers ---- *)
(** r is what follows the gap at the beginning of s.  A slash, be it the end of
    a comment, opens a comment if a star follows. *)
Definition after_gap (s r : buf) : Prop := exists g, s = g ++ r /\ gap g /\
  match r with [] => True | c :: _ => ~ s_ws c /\ c <> SLASH /\ (c = STAR -> forall g', g <> g' ++ [SLASH]) end.
Definition brackets (l r : Z) : Prop := l = LBR /\ r = RBR \/ l = LCB /\ r = RCB.
(** What follows the opening bracket: elements, commas and gaps up to the closing
    bracket R.  A comma may precede the closing bracket. *)
Inductive elements {A} (item : buf -> A -> buf -> Prop) (R : Z) : buf -> list A -> buf -> Prop :=
| el_end s r : after_gap s (R :: r) -> elements item R s [] r
| el_last s s1 v s2 r : after_gap s s1 -> ~ heads R s1 -> item s1 v s2 -> after_gap s2 (R :: r) -> elements item R s [v] r
| el_more s s1 v s2 s3 l r : after_gap s s1 -> ~ heads R s1 -> item s1 v s2 -> after_gap s2 (COMMA :: s3) ->
    elements item R s3 l r -> elements item R s (v :: l) r.
(** The same into a fixed number of elements: missing ones keep their value, a
    comma after the last possible element must be followed by the bracket.
    [item x s v r]: v is read into an element containing x. *)
Inductive slots {A} (item : A -> buf -> A -> buf -> Prop) (R : Z) : list A -> buf -> list A -> buf -> Prop :=
| sl_full r : slots item R [] (R :: r) [] r
| sl_end x o s r : after_gap s (R :: r) -> slots item R (x :: o) s (x :: o) r
| sl_last x o s s1 v s2 r : after_gap s s1 -> ~ heads R s1 -> item x s1 v s2 -> after_gap s2 (R :: r) -> slots item R (x :: o) s (v :: o) r
| sl_more x o s s1 v s2 s3 l r : after_gap s s1 -> ~ heads R s1 -> item x s1 v s2 -> after_gap s2 (COMMA :: s3) ->
    slots item R o s3 l r -> slots item R (x :: o) s (v :: l) r.

(** ---- objects ---- *)
(** s begins with the name n, a colon and gaps; s3 is what the value is read from *)
Definition named (s n s3 : buf) : Prop :=
  exists s1 s2, s = QT :: n ++ QT :: s1 /\ after_gap s1 (COLON :: s2) /\ after_gap s2 s3 /\ s3 <> [].
(** The member b of the struct t is read from s; t' is the result. *)
Definition takes {T} (sn : option Z) (b : memb T) (t : T) (s : buf) (t' : T) (r : buf) : Prop :=
  exists s1 x, named s (memb_name b) s1 /\ reads (m_codec (memb_mem b)) sn (memb_old b t) s1 x r /\ t' = m_set (memb_mem b) t x.
(** A member named n with any value is skipped. *)
Definition passes (n s r : buf) : Prop := wchars n /\ exists vt, named s n (vt ++ r) /\ waccept vt r.
(** Members are skipped up to and including the closing brace. *)
Inductive leftover : buf -> buf -> Prop :=
| lo_last n s s1 r : passes n s s1 -> after_gap s1 (RCB :: r) -> leftover s r
| lo_more n s s1 s2 s3 r : passes n s s1 -> after_gap s1 (COMMA :: s2) -> after_gap s2 s3 -> leftover s3 r -> leftover s r.
(** One JSON member.  The next element of the list is compared first and left
    behind when it matches; otherwise the first element of that name is taken;
    other members are skipped, unless mode is strict. *)
Inductive one_member {T} (mode : omode) (L : list (memb T)) (sn : option Z) : list (memb T) -> T -> buf -> list (memb T) -> T -> buf -> Prop :=
| om_next b R t s t' r : takes sn b t s t' r -> one_member mode L sn (b :: R) t s R t' r
| om_other b R A b' B t s t' r : L = A ++ b' :: B -> memb_name b' <> memb_name b -> ~ In (memb_name b') (names A) ->
    takes sn b' t s t' r -> one_member mode L sn (b :: R) t s (b :: R) t' r
| om_none b R n t s r : mode = Nonstrict -> n <> memb_name b -> ~ In n (names L) -> passes n s r -> one_member mode L sn (b :: R) t s (b :: R) t r.
(** The members up to and including the closing brace.  As soon as the last
    element of the list is left behind, further members are skipped, whatever
    their names are; a comma may stand before the brace only then. *)
Inductive members {T} (mode : omode) (L : list (memb T)) (sn : option Z) : list (memb T) -> T -> buf -> T -> buf -> Prop :=
| ms_close t s r : after_gap s (RCB :: r) -> members mode L sn [] t s t r
| ms_rest t s s1 r : mode = Nonstrict -> after_gap s s1 -> leftover s1 r -> members mode L sn [] t s t r
| ms_last b R R' t s t' s1 r : one_member mode L sn (b :: R) t s R' t' s1 -> after_gap s1 (RCB :: r) -> members mode L sn (b :: R) t s t' r
| ms_more b R R' t s t' s1 s2 s3 t'' r : one_member mode L sn (b :: R) t s R' t' s1 -> after_gap s1 (COMMA :: s2) -> after_gap s2 s3 ->
    members mode L sn R' t' s3 t'' r -> members mode L sn (b :: R) t s t'' r.
(** Arrays as structs: element by element; missing ones at the end keep their value. *)
Inductive places {T} (sn : option Z) : list (memb T) -> T -> buf -> T -> buf -> Prop :=
| pl_full t r : places sn [] t (RBR :: r) t r
| pl_last b L t s x s1 r : reads (m_codec (memb_mem b)) sn (memb_old b t) s x s1 -> after_gap s1 (RBR :: r) ->
    places sn (b :: L) t s (m_set (memb_mem b) t x) r
| pl_more b L t s x s1 s2 s3 t' r : reads (m_codec (memb_mem b)) sn (memb_old b t) s x s1 -> after_gap s1 (COMMA :: s2) -> after_gap s2 s3 ->
    places sn L (m_set (memb_mem b) t x) s3 t' r -> places sn (b :: L) t s t' r.

(** ---- wrappers, times and sizes ---- *)
(** z reduced to the type t *)
Definition wrapped (t : ity) (z v : Z) : Prop := irange t v /\ exists k, v = z + k * 2 ^ (8 * isize t).
(** an operation of type t whose mathematical result is z: overflow of signed types is excluded *)
Definition computes (t : ity) (z v : Z) : Prop := wrapped t z v /\ (isigned t = true -> v = z).
(** v + cur*k*fr and v + cur*fr/k, computed in the promoted type and stored in t *)
Definition plus (t : ity) (fr v cur k v' : Z) : Prop :=
  exists a b c, computes (ipromote t) (cur * k) a /\ computes (ipromote t) (a * fr) b /\ computes (ipromote t) (v + b) c /\ wrapped t c v'.
Definition plus_part (t : ity) (fr v cur k v' : Z) : Prop :=
  exists a c, computes (ipromote t) (cur * fr) a /\ computes (ipromote t) (v + Z.quot a k) c /\ wrapped t c v'.
(** seconds per unit *)
Inductive tunit : Z -> Z -> Prop := tu_d : tunit 100 86400 | tu_h : tunit 104 3600 | tu_s : tunit 115 1.
(** The text of a time behind the opening quote: numbers with units, added up.
    A number with another character behind it does not count, and neither does
    one with nothing behind it. *)
Inductive parts (t : ity) (fr : Z) (sn : option Z) : Z -> buf -> Z -> buf -> Prop :=
| pt_end v r : parts t fr sn v (QT :: r) v r
| pt_cut v s cur : reads (int_codec t) sn 0 s cur [] -> parts t fr sn v s v []
| pt_unit v s cur u k s2 v' w r : reads (int_codec t) sn 0 s cur (u :: s2) -> tunit u k -> plus t fr v cur k v' -> parts t fr sn v' s2 w r -> parts t fr sn v s w r
| pt_min v s cur s2 v' w r : reads (int_codec t) sn 0 s cur (109 :: s2) -> ~ heads 115 s2 -> ~ heads 107 s2 -> plus t fr v cur 60 v' -> parts t fr sn v' s2 w r -> parts t fr sn v s w r
| pt_ms v s cur s2 v' w r : reads (int_codec t) sn 0 s cur (109 :: 115 :: s2) -> plus_part t fr v cur 1000 v' -> parts t fr sn v' s2 w r -> parts t fr sn v s w r
| pt_mks v s cur c s2 v' w r : reads (int_codec t) sn 0 s cur (109 :: 107 :: c :: s2) -> plus_part t fr v cur 1000000 v' -> parts t fr sn v' s2 w r -> parts t fr sn v s w r
| pt_other v s cur u s2 w r : reads (int_codec t) sn 0 s cur (u :: s2) -> u <> 109 -> (forall k, ~ tunit u k) -> parts t fr sn v s2 w r -> parts t fr sn v s w r.
(** bytes per unit; what follows the unit does not matter *)
Inductive sunit : buf -> Z -> Prop :=
| su_b x : sunit (text "B" ++ x) 1
| su_bin c k x : In (c, k) [(75, 1); (77, 2); (71, 3); (84, 4)] -> sunit (c :: text "i" ++ x) (1024 ^ k)
| su_dec c k x : In (c, k) [(75, 1); (77, 2); (71, 3); (84, 4)] -> ~ heads 105 x -> sunit (c :: x) (1000 ^ k).
