(** Model of wjson/parser.hpp (recursive descent recogniser). *)
From Verif Require Import Base.

(** parser.hpp:183 the four whitespace characters *)
Definition is_ws (c : Z) : bool :=
  (c =? 32) || (c =? 9) || (c =? 13) || (c =? 10).

(** parser.hpp:628 *beg >= '0' && *beg <= '9' *)
Definition is_digit (c : Z) : bool := (48 <=? c) && (c <=? 57).

(** parser.hpp:169-198, the loop of parse_space.  [sc] is start_comment.
    Returns the final start_comment and beg. *)
Fixpoint space_loop (sc : bool) (s : buf) : bool * buf :=
  match s with
  | [] => (sc, [])
  | c :: t =>
    if sc then
      if c =? STAR then
        match t with
        | d :: _ => if d =? SLASH then space_loop false t else space_loop true t
        | [] => (true, [])
        end
      else space_loop true t
    else if negb (is_ws c) then
      if c =? SLASH then
        match t with
        | d :: _ => if d =? STAR then space_loop true t else space_loop false t
        | [] => (false, [])
        end
      else (false, s)
    else space_loop false t
  end.

(** parser.hpp:160-202 parse_space; the counter p is write-only and dropped. *)
Definition parse_space (s : buf) (e : eptr) : buf * eptr :=
  let '(sc, r) := space_loop false s in
  if sc then ([], cerr UnexpectedEndFragment (Some (text "Unterminated comment")) 0 e)
  else (r, e).

(** parser.hpp:204-219 *)
Definition is_space (s : buf) : bool :=
  match s with
  | [] => false
  | c :: t =>
    if is_ws c then true
    else if c =? SLASH then match t with d :: _ => d =? STAR | [] => false end
    else false
  end.

(** first character test used by the is_* predicates *)
Definition starts (c : Z) (s : buf) : bool :=
  match s with d :: _ => d =? c | [] => false end.

(** parser.hpp:221-225, 260-264, 314-318, 390-396, 527-531 *)
Definition is_null (s : buf) : bool := starts 110 s.
Definition is_bool (s : buf) : bool := starts 116 s || starts 102 s.
Definition is_number (s : buf) : bool :=
  match s with c :: _ => (c =? MINUS) || is_digit c | [] => false end.
Definition is_string (s : buf) : bool := starts QT s.
Definition is_array (s : buf) : bool := starts LBR s.

(** The chains [++p && ++beg!=end && *beg==x && ...] of parser.hpp:242-245,
    281-283, 296-299.  [t] is the text after the current character. *)
Inductive litres := LMatch (t : buf) | LEnd | LMis (p : Z).
Fixpoint lit_chain (lit : buf) (p : Z) (t : buf) : litres :=
  match lit with
  | [] => LMatch t
  | x :: lit' =>
    match t with
    | [] => LEnd
    | c :: t' => if c =? x then lit_chain lit' (p + 1) t' else LMis (p + 1)
    end
  end.

Definition finish_lit (r : litres) (name : buf) (e : eptr) : buf * eptr :=
  match r with
  | LMatch t => (t, e)
  | LEnd => ([], cerr UnexpectedEndFragment None 0 e)
  | LMis p => ([], cerr ExpectedOf (Some name) p e)
  end.

(** parser.hpp:227-258; p starts at 0 (the public overload). *)
Definition parse_null (s : buf) (e : eptr) : buf * eptr :=
  match s with
  | [] => ([], cerr UnexpectedEndFragment None 0 e)
  | c :: t =>
    if c =? 110 then finish_lit (lit_chain (text "ull") 0 t) (text "null") e
    else ([], cerr InvalidNull None 0 e)
  end.

(** parser.hpp:266-312 *)
Definition parse_bool (s : buf) (e : eptr) : buf * eptr :=
  match s with
  | [] => ([], cerr UnexpectedEndFragment None 0 e)
  | c :: t =>
    if c =? 116 then finish_lit (lit_chain (text "rue") 0 t) (text "true") e
    else if c =? 102 then finish_lit (lit_chain (text "alse") 0 t) (text "false") e
    else ([], cerr InvalidBool None 0 e)
  end.

(** parser.hpp:625-630 parse_digit *)
Fixpoint parse_digit (s : buf) : buf :=
  match s with
  | c :: t => if is_digit c then parse_digit t else s
  | [] => []
  end.

(** parser.hpp:327-359 parse_integer *)
Definition parse_integer (s : buf) (e : eptr) : buf * eptr :=
  match s with
  | [] => ([], cerr UnexpectedEndFragment None 0 e)
  | c :: t =>
    let s1 := if c =? MINUS then t else s in
    match s1 with
    | [] => ([], cerr UnexpectedEndFragment None 0 e)
    | c1 :: t1 =>
      if c1 =? 48 then (t1, e)
      else if (49 <=? c1) && (c1 <=? 57) then (parse_digit s1, e)
      else ([], cerr InvalidNumber None 0 e)
    end
  end.

(** parser.hpp:377-387, the exponent part of parse_number *)
Definition parse_exp (s : buf) (e : eptr) : buf * eptr :=
  match s with
  | [] => ([], e)
  | c :: t =>
    if (c =? 101) || (c =? 69) then
      let s1 := match t with
                | d :: t' => if (d =? MINUS) || (d =? PLUS) then t' else t
                | [] => t
                end in
      match s1 with
      | [] => ([], cerr UnexpectedEndFragment None 0 e)
      | d :: _ => if is_digit d then (parse_digit s1, e)
                  else ([], cerr InvalidNumber None 0 e)
      end
    else (s, e)
  end.

(** parser.hpp:320-325, 361-388 parse_number *)
Definition parse_number (s : buf) (e : eptr) : buf * eptr :=
  let '(s1, e1) := parse_integer s e in
  match s1 with
  | c :: t =>
    if c =? DOT then
      match t with
      | [] => ([], cerr UnexpectedEndFragment None 0 e1)
      | d :: _ => if is_digit d then parse_exp (parse_digit t) e1
                  else ([], cerr InvalidNumber None 0 e1)
      end
    else parse_exp s1 e1
  | [] => ([], e1)
  end.

(** parser.hpp:453-455 *)
Definition is_hex (c : Z) : bool :=
  is_digit c || ((65 <=? c) && (c <=? 70)) || ((97 <=? c) && (c <=? 102)).

(** parser.hpp:449-460, the loop of parse_hex, [n] iterations left *)
Fixpoint hex_loop (n : nat) (s : buf) (e : eptr) : buf * eptr :=
  match n with
  | O => (s, e)
  | S n' =>
    match s with
    | [] => ([], cerr UnexpectedEndFragment None 0 e)
    | c :: t => if is_hex c then hex_loop n' t e
                else ([], cerr InvalidString None (dist s) e)
    end
  end.

(** parser.hpp:443-462 *)
Definition parse_hex (s : buf) (e : eptr) : buf * eptr :=
  match s with
  | [] => ([], cerr UnexpectedEndFragment None 0 e)
  | _ => hex_loop 4 s e
  end.

(** parser.hpp:464-480 parse_utf8_part_<N> *)
Fixpoint utf8_part (n : nat) (s : buf) (e : eptr) : buf * eptr :=
  match n with
  | O => (s, e)
  | S n' =>
    match s with
    | [] => ([], cerr UnexpectedEndFragment None 0 e)
    | c :: t => if Z.land c 192 =? 128 then utf8_part n' t e
                else ([], cerr InvalidString None (dist s) e)
    end
  end.

(** parser.hpp:506-511, 486-491: number of continuation bytes announced by a
    lead byte, [None] if it is no lead byte *)
Definition utf8_conts (c : Z) : option nat :=
  if Z.land c 128 =? 0 then Some 0%nat
  else if Z.land c 224 =? 192 then Some 1%nat
  else if Z.land c 240 =? 224 then Some 2%nat
  else if Z.land c 248 =? 240 then Some 3%nat
  else if Z.land c 252 =? 248 then Some 4%nat
  else if Z.land c 254 =? 252 then Some 5%nat
  else None.

(** parser.hpp:482-492 *)
Definition is_utf8 (s : buf) : bool :=
  match s with
  | [] => false
  | c :: _ => match utf8_conts c with Some _ => true | None => false end
  end.

(** parser.hpp:495-513; every caller guarantees beg!=end *)
Definition parse_utf8 (c : Z) (t : buf) (e : eptr) : buf * eptr :=
  match utf8_conts c with
  | Some n => utf8_part n t e
  | None => ([], cerr InvalidString None (dist (c :: t)) e)
  end.

(** parser.hpp:414-417: the characters allowed after a backslash *)
Definition esc_ok (c : Z) : bool :=
  (c =? QT) || (c =? BSL) || (c =? SLASH) || (c =? 116) || (c =? 98)
  || (c =? 110) || (c =? 114) || (c =? 102) || (c =? 117).

(** parser.hpp:407-434, loop of parse_string; [inl] = loop left normally at
    this position, [inr] = returned early. *)
Fixpoint string_loop (fuel : nat) (s : buf) (e : eptr)
  : res ((buf * eptr) + (buf * eptr)) :=
  match fuel with
  | O => Fuel
  | S n =>
    match s with
    | [] => Ok (inl ([], e))
    | c :: t =>
      if c =? QT then Ok (inl (s, e))
      else if c =? BSL then
        match t with
        | [] => Ok (inr ([], cerr UnexpectedEndFragment None 0 e))
        | d :: t' =>
          if negb (esc_ok d) then Ok (inr ([], cerr InvalidString None (dist t) e))
          else if d =? 117 then
            let '(s1, e1) := parse_hex t' e in string_loop n s1 e1
          else string_loop n t' e
        end
      else
        let '(s1, e1) := parse_utf8 c t e in string_loop n s1 e1
    end
  end.

(** parser.hpp:398-441 *)
Definition parse_string (s : buf) (e : eptr) : res (buf * eptr) :=
  match s with
  | [] => Ok ([], cerr UnexpectedEndFragment None 0 e)
  | c :: t =>
    if negb (c =? QT) then Ok ([], cerr ExpectedOf (Some [QT]) (dist s) e)
    else
      let* r := string_loop (S (length t)) t e in
      match r with
      | inr x => Ok x
      | inl ([], e1) => Ok ([], cerr UnexpectedEndFragment None 0 e1)
      | inl (d :: t1, e1) =>
        if negb (d =? QT) then Ok ([], cerr ExpectedOf (Some [QT]) (dist (d :: t1)) e1)
        else Ok (t1, e1)
      end
  end.

(** parser.hpp:516-525 *)
Definition is_object (s : buf) : bool :=
  match s with
  | [] => false
  | c :: t =>
    if c =? LCB then true
    else if negb (c =? LBR) then false
    else let '(r, _) := parse_space t None in starts RBR r
  end.

(** type of the recursive call to parse_value *)
Definition pfun := buf -> eptr -> res (buf * eptr).

(** parser.hpp:546-567 parse_member; [pv] is the call of parse_value *)
Definition parse_member (pv : pfun) (s : buf) (e : eptr) : res (buf * eptr) :=
  if negb (is_string s) then Ok ([], cerr InvalidMember None (dist s) e)
  else
    let* (s1, e1) := parse_string s e in
    match s1 with
    | [] => Ok ([], cerr UnexpectedEndFragment None 0 e1)
    | _ =>
      let '(s2, e2) := parse_space s1 e1 in
      match s2 with
      | [] => Ok ([], cerr UnexpectedEndFragment None 0 e2)
      | c :: s3 =>
        if negb (c =? COLON) then Ok ([], cerr ExpectedOf (Some [COLON]) (dist s3) e2)
        else match s3 with
        | [] => Ok ([], cerr UnexpectedEndFragment None 0 e2)
        | _ =>
          let '(s4, e4) := parse_space s3 e2 in
          match s4 with
          | [] => Ok ([], cerr UnexpectedEndFragment None 0 e4)
          | _ => pv s4 e4
          end
        end
      end
    end.

(** parser.hpp:595-598 / 619-622, the code after the loops of parse_object and
    parse_array; [close] is the closing bracket *)
Definition close_with (close : Z) (s : buf) (e : eptr) : buf * eptr :=
  match s with
  | [] => ([], cerr ExpectedOf (Some [close]) (dist s) e)
  | c :: t => if negb (c =? close) then ([], cerr ExpectedOf (Some [close]) (dist s) e)
              else (t, e)
  end.

(** parser.hpp:583-598 (close = RCB, item = parse_member) and
    parser.hpp:607-622 (close = RBR, item = parse_value): the two loops are
    textually identical up to the bracket and the item parser. *)
Fixpoint items_loop (sn : option Z) (close : Z) (item : pfun) (fuel : nat)
         (s : buf) (e : eptr) : res (buf * eptr) :=
  match fuel with
  | O => Fuel
  | S n =>
    match s with
    | [] => Ok (close_with close [] e)
    | c0 :: _ =>
      if c0 =? close then Ok (close_with close s e)
      else
        let '(s1, e1) := parse_space s e in
        let* c1 := deref sn s1 in              (* line 586 / 610, unguarded *)
        if c1 =? close then Ok (close_with close s1 e1)
        else
          let* (s2, e2) := item s1 e1 in
          let '(s3, e3) := parse_space s2 e2 in
          match s3 with
          | [] => Ok ([], cerr ExpectedOf (Some [close]) (dist s3) e3)
          | c3 :: t3 =>
            if negb (c3 =? COMMA) && negb (c3 =? close)
            then Ok ([], cerr ExpectedOf (Some [close]) (dist s3) e3)
            else if c3 =? COMMA then items_loop sn close item n t3 e3
            else items_loop sn close item n s3 e3
          end
    end
  end.

(** parser.hpp:569-599 *)
Definition parse_object (sn : option Z) (pv : pfun) (s : buf) (e : eptr)
  : res (buf * eptr) :=
  if negb (is_object s) then Ok ([], cerr ExpectedOf (Some [LCB]) (dist s) e)
  else
    let* s0 := step s in
    let '(s1, e1) := parse_space s0 e in
    if starts RBR s1 then let* s2 := step s1 in Ok (s2, e1)
    else items_loop sn RCB (parse_member pv) (S (length s1)) s1 e1.

(** parser.hpp:601-623 *)
Definition parse_array (sn : option Z) (pv : pfun) (s : buf) (e : eptr)
  : res (buf * eptr) :=
  if negb (is_array s) then Ok ([], cerr ExpectedOf (Some [LBR]) (dist s) e)
  else
    let* s0 := step s in
    items_loop sn RBR pv (S (length s0)) s0 e.

(** parser.hpp:533-544; [fuel] bounds the recursion depth. *)
Fixpoint parse_value_f (sn : option Z) (fuel : nat) (s : buf) (e : eptr)
  : res (buf * eptr) :=
  match fuel with
  | O => Fuel
  | S n =>
    if is_null s then Ok (parse_null s e)
    else if is_bool s then Ok (parse_bool s e)
    else if is_number s then Ok (parse_number s e)
    else if is_string s then parse_string s e
    else if is_object s then parse_object sn (parse_value_f sn n) s e
    else if is_array s then parse_array sn (parse_value_f sn n) s e
    else Ok ([], cerr InvalidJSON None (dist s) e)
  end.

Definition parse_value (sn : option Z) (s : buf) (e : eptr) : res (buf * eptr) :=
  parse_value_f sn (S (length s)) s e.

(** parser.hpp:122-126 *)
Definition parse (sn : option Z) (s : buf) (e : eptr) : res (buf * eptr) :=
  parse_value sn s e.

(** parser.hpp:151-152: the bytes of [start, beg) *)
Definition range (start cur : buf) : buf := firstn (length start - length cur) start.

(** parser.hpp:128-156; [out] collects what was written through the output
    iterator (back_inserter or char*, only [*(out++)] is used). *)
Fixpoint despace_f (fuel : nat) (s : buf) (out : buf) (e : eptr)
  : res (buf * buf * eptr) :=
  match fuel with
  | O => Fuel
  | S n =>
    match s with
    | [] => Ok ([], out, e)
    | _ =>
      let '(s1, e1) := parse_space s e in
      match s1 with
      | [] => Ok ([], out, e1)
      | _ :: t1 =>
        let* (s2, e2) :=
          if is_string s1 then parse_string s1 e1
          else if is_number s1 then Ok (parse_number s1 e1)
          else if is_bool s1 then Ok (parse_bool s1 e1)
          else if is_null s1 then Ok (parse_null s1 e1)
          else Ok (t1, e1) in
        despace_f n s2 (if no_err_yet e2 then out ++ range s1 s2 else out) e2
      end
    end
  end.

Definition despace (s : buf) (e : eptr) : res (buf * buf * eptr) :=
  despace_f (S (length s)) s [] e.

(** The public parse_* members of class parser (parser.hpp:122-126, 160, 227,
    266, 320, 398, 533, 569, 601), viewed as functions of the same type. *)
Inductive parser_entry (sn : option Z) : pfun -> Prop :=
| pe_parse : parser_entry sn (parse sn)
| pe_value : parser_entry sn (parse_value sn)
| pe_space : parser_entry sn (fun s e => Ok (parse_space s e))
| pe_null : parser_entry sn (fun s e => Ok (parse_null s e))
| pe_bool : parser_entry sn (fun s e => Ok (parse_bool s e))
| pe_number : parser_entry sn (fun s e => Ok (parse_number s e))
| pe_string : parser_entry sn parse_string
| pe_object : parser_entry sn (parse_object sn (parse_value sn))
| pe_array : parser_entry sn (parse_array sn (parse_value sn)).
