(** Specification: which texts the typed readers refuse, what they report and
    what they leave in the target. *)
From Verif Require Import Base SpecJson SpecNum SpecString Out Number Enum SpecEnum SpecReport SpecExact SpecRefuse.

(** Reading s into a target containing old fails: v is left in the target, r is
    returned, j is reported. *)
Definition faults {A} (c : codec A) (sn : option Z) (old : A) (s : buf) (v : A) (r : buf) (j : json_error) : Prop :=
  is_err j = true /\ des c sn old s (Some no_error) = Ok (v, r, Some j).

(** ---- strings ---- *)
(** a hexadecimal digit, or another byte, which counts as 0 *)
Definition hexb (c : Z) : bool := (48 <=? c) && (c <=? 57) || (65 <=? c) && (c <=? 70) || (97 <=? c) && (c <=? 102).
Definition lax (c : Z) : Z := if hexb c then hexv c else 0.
Definition lax4 (a b c d : Z) : Z := ((lax a * 16 + lax b) * 16 + lax c) * 16 + lax d.
Definition bad_digit : json_error := mkerr InvalidString None 0.
(** One character of a literal, the bytes it is read as, and whether a bad digit was reported. *)
Inductive lchunk : buf -> buf -> bool -> Prop :=
| lk_good c w : chunk c w -> lchunk c w false
| lk_u a b c d : forallb hexb [a; b; c; d] = false -> ~ kept (lax4 a b c d) -> lchunk [BSL; 117; a; b; c; d] (utf8_encode (lax4 a b c d)) true
| lk_kept a b c d : forallb hexb [a; b; c; d] = false -> kept (lax4 a b c d) -> lchunk [BSL; 117; a; b; c; d] [BSL; 117; a; b; c; d] true
| lk_x a b : forallb hexb [a; b] = false -> lchunk [BSL; 120; a; b] [lax a * 16 + lax b] true.
(** literals as in SpecExact.v, with bad digits *)
Inductive loose : Z -> buf -> buf -> bool -> Prop :=
| ls_nil n : loose n [] [] false
| ls_chunk n c w x l v y : lchunk c w x -> dist w <= n -> loose (n - dist w) l v y -> loose n (c ++ l) (w ++ v) (x || y)
| ls_cut n c k l : wlead c k -> (k <= 3)%nat -> (length l < k)%nat -> dist (c :: l) = n -> loose n (c :: l) (c :: l) false
| ls_cut_kept n a b c d : kept (lax4 a b c d) -> 0 < n < 6 ->
    loose n [BSL; 117; a; b; c; d] (firstn (Z.to_nat n) [BSL; 117; a; b; c; d]) (negb (forallb hexb [a; b; c; d])).
(** [stops m s w j]: with room for m bytes no character can be read here; w is
    written nevertheless. *)
Inductive stops : Z -> buf -> buf -> json_error -> Prop :=
| st_end m : stops m [] [] unexpected_end
| st_room c s : c <> QT -> stops 0 (c :: s) [] (expected [QT] (c :: s))
| st_bsl m : 0 < m -> stops m [BSL] [] unexpected_end
| st_esc m c r : 0 < m -> (forall t, ~ esc_mean c t) -> c <> 117 -> c <> 120 -> stops m (BSL :: c :: r) [] (bad_string (c :: r))
| st_hex m k n h : 0 < m -> In (k, n) [(117, 4%nat); (120, 2%nat)] -> (length h < n)%nat ->
    stops m (BSL :: k :: h) [] (if forallb hexb h then unexpected_end else bad_digit)
| st_lead m c r : 0 < m -> 128 <= c -> (forall k, wlead c k -> (3 < k)%nat) -> stops m (c :: r) [] (bad_string (c :: r))
| st_cont m c k l : wlead c k -> (k <= 3)%nat -> (length l < k)%nat -> dist (c :: l) <= m -> stops m (c :: l) (c :: l) unexpected_end
| st_fit m a b c d r : 0 < m -> ~ kept (lax4 a b c d) -> m < dist (utf8_encode (lax4 a b c d)) ->
    stops m (BSL :: 117 :: a :: b :: c :: d :: r) (firstn (Z.to_nat m) (utf8_encode (lax4 a b c d)))
      (if forallb hexb [a; b; c; d] then bad_string r else bad_digit).
(** Strings in room for n bytes: all that can fail.  A bad digit is the report,
    but the literal is read to its end. *)
Inductive str_faults (n : Z) : buf -> buf -> buf -> json_error -> Prop :=
| sf_none : str_faults n [] [] [] unexpected_end
| sf_quote c s : c <> QT -> str_faults n (c :: s) [] [] (expected [QT] (c :: s))
| sf_digit l v r : loose n l v true -> str_faults n (QT :: l ++ QT :: r) v r bad_digit
| sf_stop l v x s w j : loose n l v x -> stops (n - dist v) s w j ->
    str_faults n (QT :: l ++ s) (v ++ w) [] (if x then bad_digit else j).
(** std::string / std::vector<char> *)
Definition string_faults (s v r : buf) (j : json_error) : Prop :=
  lit_refuses (text "null") s j /\ v = [] /\ r = [] \/ ~ heads 110 s /\ str_faults 2147483647 s v r j.
(** char[N]: what is not written is zero *)
Definition chars_faults (N : nat) (s v r : buf) (j : json_error) : Prop :=
  exists w, v = w ++ repeat 0 (N - length w) /\
  (lit_refuses (text "null") s j /\ w = [] /\ r = [] \/ ~ heads 110 s /\ str_faults (Z.of_nat N) s w r j).

(** ---- numbers, booleans, enumerators ---- *)
Definition digit_first (s : buf) : Prop := exists c r, s = c :: r /\ s_digit c.
(** no number at s *)
Definition bad_number (s : buf) : json_error := mkerr InvalidNumber None (Z.of_nat (length s)).
(** [old] is the value before reading *)
Inductive int_faults (old : Z) : buf -> Z -> json_error -> Prop :=
| if_none : int_faults old [] old unexpected_end
| if_null s j : lit_refuses (text "null") s j -> int_faults old s 0 j
| if_digit m s : ropt_minus m -> ~ digit_first s -> (m = [] -> s <> [] /\ ~ heads MINUS s /\ ~ heads 110 s) -> int_faults old (m ++ s) 0 (bad_number s).
Inductive bool_faults (old : bool) : buf -> bool -> json_error -> Prop :=
| bf_none : bool_faults old [] old unexpected_end
| bf_null s j : lit_refuses (text "null") s j -> bool_faults old s false j
| bf_true s j : lit_refuses (text "true") s j -> bool_faults old s true j
| bf_false s j : lit_refuses (text "false") s j -> bool_faults old s false j
| bf_other c s : c <> 110 -> c <> 116 -> c <> 102 -> bool_faults old (c :: s) false (mkerr InvalidBool None (Z.of_nat (length (c :: s)))).
(** [got]: what is made of a text that begins like a number *)
Inductive float_faults {A} (got : buf -> A) (zero old : A) : buf -> A -> json_error -> Prop :=
| ff_none : float_faults got zero old [] old unexpected_end
| ff_null s j : lit_refuses (text "null") s j -> float_faults got zero old s zero j
| ff_other s : s <> [] -> ~ heads 110 s -> ~ heads MINUS s -> ~ digit_first s -> float_faults got zero old s old (bad_number s)
| ff_number s j : heads MINUS s \/ digit_first s -> num_refuses s j -> float_faults got zero old s (got s) j.
Inductive enum_faults (mode : Object.omode) (L : elist) : buf -> json_error -> Prop :=
| ef_none g : Forall low g -> enum_faults mode L g unexpected_end
| ef_quote g c s : Forall low g -> ~ low c -> c <> QT -> enum_faults mode L (g ++ c :: s) (expected [QT] (c :: s))
| ef_open g s : Forall low g -> no_quote s -> enum_faults mode L (g ++ QT :: s) unexpected_end
| ef_name g n r : Forall low g -> no_quote n -> mode = Object.Strict -> ~ In n (enames L) ->
    enum_faults mode L (g ++ QT :: n ++ QT :: r) (mkerr InvalidEnum None (Z.of_nat (length (n ++ QT :: r)))).

(** ---- wrappers, times and sizes ---- *)
Inductive rquoted_faults (reqq : bool) (sn : option Z) (old : buf) : buf -> buf -> json_error -> Prop :=
| rq_none : rquoted_faults reqq sn old [] old unexpected_end
| rq_quote c s : reqq = true -> c <> QT -> rquoted_faults reqq sn old (c :: s) old (expected [QT] (c :: s))
| rq_value s j : reqq = true -> fails sn s (Some j) -> rquoted_faults reqq sn old (QT :: s) [] j
| rq_end v : reqq = true -> waccept v [] -> rquoted_faults reqq sn old (QT :: v) v unexpected_end
| rq_close v c r : reqq = true -> waccept v (c :: r) -> c <> QT -> rquoted_faults reqq sn old (QT :: v ++ c :: r) v (expected [QT] (c :: r))
| rq_plain s j : reqq = false -> s <> [] -> fails sn s (Some j) -> rquoted_faults reqq sn old s [] j.
(** one number of a time, see [parts] *)
Inductive tstep (t : ity) (fr : Z) (sn : option Z) : Z -> buf -> Z -> buf -> Prop :=
| ts_unit v s cur u k s2 v' : reads (int_codec t) sn 0 s cur (u :: s2) -> tunit u k -> plus t fr v cur k v' -> tstep t fr sn v s v' s2
| ts_min v s cur s2 v' : reads (int_codec t) sn 0 s cur (109 :: s2) -> ~ heads 115 s2 -> ~ heads 107 s2 -> plus t fr v cur 60 v' -> tstep t fr sn v s v' s2
| ts_ms v s cur s2 v' : reads (int_codec t) sn 0 s cur (109 :: 115 :: s2) -> plus_part t fr v cur 1000 v' -> tstep t fr sn v s v' s2
| ts_mks v s cur c s2 v' : reads (int_codec t) sn 0 s cur (109 :: 107 :: c :: s2) -> plus_part t fr v cur 1000000 v' -> tstep t fr sn v s v' s2
| ts_other v s cur u s2 : reads (int_codec t) sn 0 s cur (u :: s2) -> u <> 109 -> (forall k, ~ tunit u k) -> tstep t fr sn v s v s2.
(** the sum so far is kept when something is wrong *)
Inductive parts_fail (t : ity) (fr : Z) (sn : option Z) : Z -> buf -> Z -> json_error -> Prop :=
| pf_end v : parts_fail t fr sn v [] v unexpected_end
| pf_number v s x j : s <> [] -> ~ heads QT s -> int_faults 0 s x j -> parts_fail t fr sn v s v j
| pf_step v s v' s' w j : tstep t fr sn v s v' s' -> parts_fail t fr sn v' s' w j -> parts_fail t fr sn v s w j.
(** what neither begins with a quote nor like a number or null *)
Definition no_start (s : buf) : Prop := s <> [] /\ ~ heads 110 s /\ ~ heads MINUS s /\ ~ digit_first s /\ ~ heads QT s.
Inductive time_faults (t : ity) (fr : Z) (sn : option Z) (old : Z) : buf -> Z -> json_error -> Prop :=
| tf_none : time_faults t fr sn old [] old unexpected_end
| tf_other s : no_start s -> time_faults t fr sn old s 0 bad_digit
| tf_number s v j : s <> [] -> ~ no_start s -> ~ heads QT s -> int_faults 0 s v j -> time_faults t fr sn old s v j
| tf_parts s v j : parts_fail t fr sn 0 s v j -> time_faults t fr sn old (QT :: s) v j.
(** A size in a literal: the rest behind the literal is returned when there is no
    number in it, the end when the unit is unknown. *)
Inductive size_faults (sn : option Z) (old : Z) : buf -> Z -> buf -> json_error -> Prop :=
| zf_none : size_faults sn old [] old [] unexpected_end
| zf_other s : no_start s -> size_faults sn old s 0 [] bad_digit
| zf_number s v j : s <> [] -> ~ no_start s -> ~ heads QT s -> int_faults 0 s v j -> size_faults sn old s v [] j
| zf_literal s w r j : heads QT s -> str_faults 32 s w r j -> size_faults sn old s 0 r j
| zf_inner l w txt rest r x j : literal 32 l w -> w ++ repeat 0 (32 - length w) = txt ++ 0 :: rest -> ~ In 0 txt ->
    int_faults 0 txt x j -> size_faults sn old (QT :: l ++ QT :: r) 0 r j
| zf_unit l w txt rest r z q : literal 32 l w -> w ++ repeat 0 (32 - length w) = txt ++ 0 :: rest -> ~ In 0 txt ->
    reads (int_codec (mkity 8 true)) sn 0 txt z q -> q <> [] -> (forall m, ~ sunit q m) -> size_faults sn old (QT :: l ++ QT :: r) 0 [] (mkerr InvalidNumber None 0).
