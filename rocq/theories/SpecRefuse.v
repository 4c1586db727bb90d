(** Specification: which texts parser::parse and the other parse_* functions
    refuse, and what exactly they report. *)
From Verif Require Import Base SpecJson SpecReport SpecExact.

(** ---- what is accepted (C02, C13) ---- *)
Definition takes_value (s r : buf) : Prop := exists v, s = v ++ r /\ waccept v r.
Definition takes_string (s r : buf) : Prop := exists k, s = k ++ r /\ wstring k.
Definition takes_member (s r : buf) : Prop := exists s1 s2 s3,
  takes_string s s1 /\ after_gap s1 (COLON :: s2) /\ after_gap s2 s3 /\ takes_value s3 r.

(** ---- gaps ---- *)
(** a gap in which a comment begins that does not end *)
Definition open_comment (s : buf) : Prop := exists g u, s = g ++ SLASH :: u /\ gap (g ++ [SLASH]) /\ heads STAR u /\ no_close u.
Definition comment_error : json_error := mkerr UnexpectedEndFragment (Some (text "Unterminated comment")) 0.

(** ---- literals, numbers, strings ---- *)
(** p is the longest common beginning of s and the literal nm *)
Definition lit_refuses (nm s : buf) (j : json_error) : Prop := exists p q, nm = p ++ q /\ p <> [] /\ q <> [] /\
  (s = p /\ j = unexpected_end \/
   exists c r, s = p ++ c :: r /\ ~ heads c q /\ j = mkerr ExpectedOf (Some nm) (Z.of_nat (length p))).

(** a digit should come here *)
Definition no_digit (s : buf) (j : json_error) : Prop :=
  s = [] /\ j = unexpected_end \/ exists c r, s = c :: r /\ ~ s_digit c /\ j = mkerr InvalidNumber None 0.
Inductive num_refuses : buf -> json_error -> Prop :=
| nr_int m s j : ropt_minus m -> (m = [] -> ~ heads MINUS s) -> no_digit s j -> num_refuses (m ++ s) j
| nr_frac m i s j : ropt_minus m -> rint i -> no_digit s j -> num_refuses (m ++ i ++ DOT :: s) j
| nr_exp m i f x sg s j : ropt_minus m -> rint i -> rfrac f -> x = 101 \/ x = 69 -> sg = [] \/ sg = [MINUS] \/ sg = [PLUS] ->
    (sg = [] -> ~ heads MINUS s /\ ~ heads PLUS s) -> no_digit s j -> num_refuses (m ++ i ++ f ++ x :: sg ++ s) j.

(** here begins something that cannot be in a string *)
Definition bad_string (s : buf) : json_error := mkerr InvalidString None (Z.of_nat (length s)).
(** n bytes satisfying P should come here *)
Definition misses (P : Z -> Prop) (n : nat) (s : buf) (j : json_error) : Prop := exists h, (length h < n)%nat /\ Forall P h /\
  (s = h /\ j = unexpected_end \/ exists c r, s = h ++ c :: r /\ ~ P c /\ j = bad_string (c :: r)).
(** inside a string no character begins here *)
Inductive no_char : buf -> json_error -> Prop :=
| nc_end : no_char [] unexpected_end
| nc_bsl : no_char [BSL] unexpected_end
| nc_esc c r : ~ s_esc c -> c <> 117 -> no_char (BSL :: c :: r) (bad_string (c :: r))
| nc_hex s j : misses s_hex 4 s j -> no_char (BSL :: 117 :: s) j
| nc_lead c r : 128 <= c -> (forall n, ~ wlead c n) -> no_char (c :: r) (bad_string (c :: r))
| nc_cont c n s j : wlead c n -> misses s_cont n s j -> no_char (c :: s) j.
Inductive str_refuses : buf -> json_error -> Prop :=
| sr_none : str_refuses [] unexpected_end
| sr_quote c s : c <> QT -> str_refuses (c :: s) (expected [QT] (c :: s))
| sr_chars l s j : wchars l -> no_char s j -> str_refuses (QT :: l ++ s) j.

(** ---- members ---- *)
Inductive member_refuses : buf -> json_error -> Prop :=
| mr_none s : ~ heads QT s -> member_refuses s (mkerr InvalidMember None (Z.of_nat (length s)))
| mr_name s j : heads QT s -> str_refuses s j -> member_refuses s j
| mr_comment s s1 : takes_string s s1 -> open_comment s1 -> member_refuses s comment_error
| mr_end s s1 : takes_string s s1 -> after_gap s1 [] -> member_refuses s unexpected_end
| mr_colon s s1 c t : takes_string s s1 -> after_gap s1 (c :: t) -> c <> COLON -> member_refuses s (expected [COLON] t)   (* behind c *)
| mr_comment2 s s1 t : takes_string s s1 -> after_gap s1 (COLON :: t) -> open_comment t -> member_refuses s comment_error
| mr_end2 s s1 t : takes_string s s1 -> after_gap s1 (COLON :: t) -> after_gap t [] -> member_refuses s unexpected_end.

(** ---- arrays and objects ---- *)
(** Failures: a report, or reading *end though nothing can be read there. *)
Definition fail := option json_error.

(** items, each with its comma *)
Inductive skipped (item : buf -> buf -> Prop) : buf -> buf -> Prop :=
| sk_none s : skipped item s s
| sk_more s s1 s2 s3 r : after_gap s s1 -> item s1 s2 -> after_gap s2 (COMMA :: s3) -> skipped item s3 r -> skipped item s r.
(** Behind a bracket or comma: nothing but a gap; the byte at *end decides what is
    reported.  Or an item which is not followed by a comma or a bracket. *)
Inductive broken (sn : option Z) (close : Z) (item : buf -> buf -> Prop) (none : ecode) : buf -> fail -> Prop :=
| br_end : broken sn close item none [] (Some (expected [close] []))
| br_gap s : s <> [] -> after_gap s [] ->
    broken sn close item none s (match sn with None => None | Some z => Some (if z =? close then expected [close] [] else mkerr none None 0) end)
| br_comment s : open_comment s -> broken sn close item none s (match sn with None => None | Some _ => Some comment_error end)
| br_sep s s1 s2 s3 : after_gap s s1 -> item s1 s2 -> after_gap s2 s3 -> ~ heads COMMA s3 -> ~ heads close s3 ->
    broken sn close item none s (Some (expected [close] s3))
| br_sep_comment s s1 s2 : after_gap s s1 -> item s1 s2 -> open_comment s2 -> broken sn close item none s (Some comment_error).

(** the first byte of a value *)
Definition value_start (c : Z) : Prop := c = LCB \/ c = LBR \/ c = QT \/ c = MINUS \/ s_digit c \/ c = 110 \/ c = 116 \/ c = 102.

(** ---- values ---- *)
Inductive fails (sn : option Z) : buf -> fail -> Prop :=
| f_none s : (forall c t, s = c :: t -> ~ value_start c) -> fails sn s (Some (mkerr InvalidJSON None (Z.of_nat (length s))))
| f_lit nm s j : In nm [text "null"; text "true"; text "false"] -> lit_refuses nm s j -> fails sn s (Some j)
| f_num c s j : c = MINUS \/ s_digit c -> num_refuses (c :: s) j -> fails sn (c :: s) (Some j)
| f_str s j : str_refuses (QT :: s) j -> fails sn (QT :: s) (Some j)
| f_arr s s1 o : skipped takes_value s s1 -> broken sn RBR takes_value InvalidJSON s1 o -> fails sn (LBR :: s) o
| f_elem s s1 s2 o : skipped takes_value s s1 -> after_gap s1 s2 -> s2 <> [] -> ~ heads RBR s2 -> fails sn s2 o -> fails sn (LBR :: s) o
| f_obj_comment s : open_comment s -> fails sn (LCB :: s) (Some comment_error)
| f_obj s s0 s1 o : after_gap s s0 -> ~ heads RBR s0 -> skipped takes_member s0 s1 ->
    broken sn RCB takes_member InvalidMember s1 o -> fails sn (LCB :: s) o
| f_member s s0 s1 s2 j : after_gap s s0 -> ~ heads RBR s0 -> skipped takes_member s0 s1 -> after_gap s1 s2 -> s2 <> [] -> ~ heads RCB s2 ->
    member_refuses s2 j -> fails sn (LCB :: s) (Some j)
| f_value s s0 s1 s2 s3 s4 s5 o : after_gap s s0 -> ~ heads RBR s0 -> skipped takes_member s0 s1 -> after_gap s1 s2 ->
    takes_string s2 s3 -> after_gap s3 (COLON :: s4) -> after_gap s4 s5 -> s5 <> [] -> fails sn s5 o -> fails sn (LCB :: s) o.

(** [ends o x]: the run x of a parser function fails in the way o. *)
Definition ends (o : fail) (x : res (buf * eptr)) : Prop :=
  match o with None => x = UB | Some j => is_err j = true /\ x = Ok ([], Some j) end.
(** the same for the functions without undefined behaviour *)
Definition pends (j : json_error) (x : buf * eptr) : Prop := is_err j = true /\ x = ([], Some j).
