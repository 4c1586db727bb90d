(** Model of serializer/string.hpp. *)
From Verif Require Import Base Parser Out.

(** lower case hexadecimal digit, as std::hex prints it *)
Definition hexdigit (d : Z) : Z := if d <? 10 then 48 + d else 87 + d.

(** string.hpp:132-154 serialize_hex_: "\u" + 4 digits below 128, else "\x" + 2
    digits.  The stringstream/pubsetbuf detour (at most 6 characters into an
    8 byte buffer) is taken as formatting of the number. *)
Definition serialize_hex (c : Z) : buf :=
  if c <? 128 then [BSL; 117; 48; 48; hexdigit (c / 16); hexdigit (c mod 16)]
  else [BSL; 120; hexdigit (c / 16); hexdigit (c mod 16)].

(** string.hpp:43-57, the switch for characters <32, quote, backslash, slash *)
Definition escape_char (c : Z) : buf :=
  if (c =? QT) || (c =? BSL) || (c =? SLASH) then [BSL; c]
  else if c =? 9 then [BSL; 116]
  else if c =? 8 then [BSL; 98]
  else if c =? 13 then [BSL; 114]
  else if c =? 10 then [BSL; 110]
  else if c =? 12 then [BSL; 102]
  else serialize_hex c.

(** string.hpp:36-81, the loop of serialize; [nt] is NullTerm *)
Fixpoint str_ser_loop (nt : bool) (fuel : nat) (s : buf) : res buf :=
  match fuel with
  | O => Fuel
  | S n =>
    match s with
    | [] => Ok []
    | c :: t =>
      if nt && (c =? 0) then Ok []
      else if (c <? 32) || (c =? QT) || (c =? BSL) || (c =? SLASH) then
        let* r := str_ser_loop nt n t in Ok (escape_char c ++ r)
      else if c <? 127 then
        let* r := str_ser_loop nt n t in Ok (c :: r)
      else if is_utf8 s then
        let '(end8, e) := parse_utf8 c t (Some no_error) in
        if has_err e then
          let* r := str_ser_loop nt n t in Ok (serialize_hex c ++ r)
        else
          let* r := str_ser_loop nt n end8 in Ok (range s end8 ++ r)
      else
        let* r := str_ser_loop nt n t in Ok (serialize_hex c ++ r)
    end
  end.

(** string.hpp:31-84 *)
Definition str_ser (nt : bool) (s : buf) : res (list op) :=
  let* l := str_ser_loop nt (S (length s)) s in Ok (wr (QT :: l ++ [QT])).

(** string.hpp:285-293 uchar2_ ; create_error(e) has tail 0 *)
Definition uchar2 (c : Z) (e : eptr) : Z * eptr :=
  if (48 <=? c) && (c <=? 57) then (c - 48, e)
  else if (97 <=? c) && (c <=? 102) then (c - 97 + 10, e)
  else if (65 <=? c) && (c <=? 70) then (c - 65 + 10, e)
  else (0, cerr InvalidString None 0 e).

(** Result of the unserialize_*_ helpers: beg, the bytes written through vitr,
    the remaining count n, *e. *)
Definition piece : Type := buf * buf * Z * eptr.

(** string.hpp:214-267: the code after the four digits a b c d; [s] is beg *)
Definition uhex_emit (hex : Z) (cur : buf) (s : buf) (n : Z) (e : eptr) : piece :=
  if hex <? 32 then
    if (hex =? 9) || (hex =? 13) || (hex =? 10) || (hex =? 8) || (hex =? 12)
    then (s, [hex], n - 1, e)
    else (* literal \uXXXX, cut as soon as n reaches 0 *)
      let w := firstn (Z.to_nat (Z.min n 6)) (BSL :: 117 :: cur) in
      (s, w, n - dist w, e)
  else if hex <=? 127 then (s, [hex], n - 1, e)
  else if hex <=? 2047 then
    let b1 := Z.lor 192 ((hex / 64) mod 256) in
    if n - 1 =? 0 then ([], [b1], n - 1, cerr InvalidString None (dist s) e)
    else (s, [b1; Z.lor 128 (Z.land (hex mod 256) 63)], n - 2, e)
  else
    let b1 := Z.lor 224 ((hex / 4096) mod 256) in
    if n - 1 =? 0 then ([], [b1], n - 1, cerr InvalidString None (dist s) e)
    else
      let b2 := Z.lor 128 (Z.land ((hex / 64) mod 256) 63) in
      if n - 2 =? 0 then ([], [b1; b2], n - 2, cerr InvalidString None (dist s) e)
      else (s, [b1; b2; Z.lor 128 (Z.land (hex mod 256) 63)], n - 3, e).

(** string.hpp:195-268 unserialize_uhex_ *)
Definition uhex (s : buf) (n : Z) (e : eptr) : piece :=
  if n =? 0 then (s, [], n, e)
  else match s with
  | [] => ([], [], n, cerr UnexpectedEndFragment None 0 e)
  | a :: s1 =>
    let '(da, e1) := uchar2 a e in
    match s1 with
    | [] => ([], [], n, cerr UnexpectedEndFragment None 0 e1)
    | b :: s2 =>
      let '(db, e2) := uchar2 b e1 in
      match s2 with
      | [] => ([], [], n, cerr UnexpectedEndFragment None 0 e2)
      | c :: s3 =>
        let '(dc, e3) := uchar2 c e2 in
        match s3 with
        | [] => ([], [], n, cerr UnexpectedEndFragment None 0 e3)
        | d :: s4 =>
          let '(dd, e4) := uchar2 d e3 in
          uhex_emit (da * 4096 + db * 256 + dc * 16 + dd) [a; b; c; d] s4 n e4
        end
      end
    end
  end.

(** string.hpp:270-283 unserialize_xhex_ *)
Definition xhex (s : buf) (n : Z) (e : eptr) : piece :=
  match s with
  | [] => ([], [], n, cerr UnexpectedEndFragment None 0 e)
  | a :: s1 =>
    let '(da, e1) := uchar2 a e in
    match s1 with
    | [] => ([], [], n, cerr UnexpectedEndFragment None 0 e1)
    | b :: s2 => let '(db, e2) := uchar2 b e1 in (s2, [da * 16 + db], n - 1, e2)
    end
  end.

(** string.hpp:178-188 utf8_copy_<N> *)
Fixpoint utf8_copy (k : nat) (s : buf) (n : Z) (e : eptr) : piece :=
  match k with
  | O => (s, [], n, e)
  | S k' =>
    if n =? 0 then (s, [], n, e)
    else match s with
    | [] => ([], [], n, cerr UnexpectedEndFragment None 0 e)
    | c :: t => let '(r, w, n', e') := utf8_copy k' t (n - 1) e in (r, c :: w, n', e')
    end
  end.

(** string.hpp:156-176 unserialize_utf8_, on c :: t *)
Definition unutf8 (c : Z) (t : buf) (n : Z) (e : eptr) : piece :=
  if Z.land c 128 =? 0 then (t, [c], n - 1, e)
  else if Z.land c 224 =? 192 then utf8_copy 2 (c :: t) n e
  else if Z.land c 240 =? 224 then utf8_copy 3 (c :: t) n e
  else if Z.land c 248 =? 240 then utf8_copy 4 (c :: t) n e
  else ([], [], n, cerr InvalidString None (dist (c :: t)) e).

(** string.hpp:103-110: the single character escapes *)
Definition unescape (d : Z) : option Z :=
  if (d =? QT) || (d =? BSL) || (d =? SLASH) then Some d
  else if d =? 116 then Some 9
  else if d =? 98 then Some 8
  else if d =? 114 then Some 13
  else if d =? 110 then Some 10
  else if d =? 102 then Some 12
  else None.

(** string.hpp:95-119.  [inl]: loop left normally; [inr]: returned end early.
    [out]: bytes written so far. *)
Fixpoint str_loop (fuel : nat) (s : buf) (n : Z) (e : eptr) (out : buf)
  : res ((buf * eptr * buf) + (eptr * buf)) :=
  match fuel with
  | O => Fuel
  | S f =>
    match s with
    | [] => Ok (inl ([], e, out))
    | c :: t =>
      if (c =? QT) || (n =? 0) then Ok (inl (s, e, out))
      else if c =? BSL then
        match t with
        | [] => Ok (inr (cerr UnexpectedEndFragment None 0 e, out))
        | d :: t' =>
          match unescape d with
          | Some b => str_loop f t' (n - 1) e (out ++ [b])
          | None =>
            if d =? 117 then let '(r, w, n', e') := uhex t' n e in str_loop f r n' e' (out ++ w)
            else if d =? 120 then let '(r, w, n', e') := xhex t' n e in str_loop f r n' e' (out ++ w)
            else Ok (inr (cerr InvalidString None (dist t) e, out))
          end
        end
      else let '(r, w, n', e') := unutf8 c t n e in str_loop f r n' e' (out ++ w)
    end
  end.

(** string.hpp:86-128 unserialize: bytes written, beg, *e *)
Definition str_unser (s : buf) (n : Z) (e : eptr) : res (buf * buf * eptr) :=
  match s with
  | [] => Ok ([], [], cerr UnexpectedEndFragment None 0 e)
  | c :: t =>
    if negb (c =? QT) then Ok ([], [], cerr ExpectedOf (Some [QT]) (dist t + 1) e)
    else
      let* x := str_loop (S (length t)) t n e [] in
      match x with
      | inr (e1, out) => Ok (out, [], e1)
      | inl ([], e1, out) => Ok (out, [], cerr UnexpectedEndFragment None 0 e1)
      | inl (d :: t1, e1, out) =>
        if negb (d =? QT) then Ok (out, [], cerr ExpectedOf (Some [QT]) (dist t1 + 1) e1)
        else Ok (out, t1, e1)
      end
  end.

Definition INT_MAX : Z := 2147483647.

(** string.hpp:325-347 std::string and 349-370 std::vector<char>: the same code *)
Definition string_des (_ : option Z) (_ : buf) (s : buf) (e : eptr) : res (buf * buf * eptr) :=
  if is_null s then let '(r, e') := parse_null s e in Ok ([], r, e')
  else str_unser s INT_MAX e.
Definition string_codec : codec buf := mkcodec (str_ser false) string_des.

(** string.hpp:297-322 char[N].  The target is zeroed; unserialize writes
    through a char*: more than N bytes would be an overrun (UB). *)
Definition chars_fill (N : nat) (w : buf) : buf := w ++ repeat 0 (N - length w).
Definition chars_des (N : nat) (_ : option Z) (_ : buf) (s : buf) (e : eptr) : res (buf * buf * eptr) :=
  if is_null s then let '(r, e') := parse_null s e in Ok (repeat 0 N, r, e')
  else
    let* (w, r, e') := str_unser s (Z.of_nat N) e in
    if (N <? length w)%nat then UB else Ok (chars_fill N w, r, e').
Definition chars_ser (v : buf) : res (list op) := str_ser true v.
Definition chars_codec (N : nat) : codec buf := mkcodec chars_ser (chars_des N).
