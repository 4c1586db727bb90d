(** Specification: the JSON grammar of RFC 8259, and the wider language wjson's
    parser recognises.  Independent of the model functions. *)
From Verif Require Import Base.

Definition s_ws (c : Z) : Prop := c = 32 \/ c = 9 \/ c = 10 \/ c = 13.
Definition s_digit (c : Z) : Prop := 48 <= c <= 57.
Definition s_hex (c : Z) : Prop := 48 <= c <= 57 \/ 65 <= c <= 70 \/ 97 <= c <= 102.

Definition ws (w : buf) : Prop := Forall s_ws w.
Definition digits (d : buf) : Prop := Forall s_digit d.
Definition digits1 (d : buf) : Prop := d <> [] /\ digits d.

(** RFC 8259 section 6: number = [ minus ] int [ frac ] [ exp ] *)
Inductive rint : buf -> Prop :=
| ri_zero : rint [48]
| ri_pos d ds : 49 <= d <= 57 -> digits ds -> rint (d :: ds).
Inductive ropt_minus : buf -> Prop :=
| rm_none : ropt_minus []
| rm_some : ropt_minus [MINUS].
Inductive rfrac : buf -> Prop :=
| rf_none : rfrac []
| rf_some ds : digits1 ds -> rfrac (DOT :: ds).
Inductive rexp : buf -> Prop :=
| re_none : rexp []
| re_some m sg ds : m = 101 \/ m = 69 -> sg = [] \/ sg = [MINUS] \/ sg = [PLUS] ->
                    digits1 ds -> rexp (m :: sg ++ ds).
Inductive rnumber : buf -> Prop :=
| rnum m i f x : ropt_minus m -> rint i -> rfrac f -> rexp x -> rnumber (m ++ i ++ f ++ x).

(** Unicode scalar values and their UTF-8 encoding (RFC 3629) *)
Definition scalar (cp : Z) : Prop := 0 <= cp <= 1114111 /\ ~ (55296 <= cp <= 57343).
Definition utf8_encode (cp : Z) : buf :=
  if cp <? 128 then [cp]
  else if cp <? 2048 then [192 + cp / 64; 128 + cp mod 64]
  else if cp <? 65536 then [224 + cp / 4096; 128 + (cp / 64) mod 64; 128 + cp mod 64]
  else [240 + cp / 262144; 128 + (cp / 4096) mod 64; 128 + (cp / 64) mod 64; 128 + cp mod 64].

(** RFC 8259 section 7: the letters of two-character escapes *)
Definition s_esc (c : Z) : Prop :=
  c = 34 \/ c = 92 \/ c = 47 \/ c = 98 \/ c = 102 \/ c = 110 \/ c = 114 \/ c = 116.
Inductive rchar : buf -> Prop :=
| rc_plain cp : scalar cp -> 32 <= cp -> cp <> 34 -> cp <> 92 -> rchar (utf8_encode cp)
| rc_esc c : s_esc c -> rchar [BSL; c]
| rc_u a b c d : s_hex a -> s_hex b -> s_hex c -> s_hex d -> rchar [BSL; 117; a; b; c; d].
Inductive rchars : buf -> Prop :=
| rcs_nil : rchars []
| rcs_cons c l : rchar c -> rchars l -> rchars (c ++ l).
Inductive rstring : buf -> Prop :=
| rstr l : rchars l -> rstring (QT :: l ++ [QT]).

(** RFC 8259 sections 2-5 *)
Inductive rvalue : buf -> Prop :=
| rv_null : rvalue (text "null")
| rv_true : rvalue (text "true")
| rv_false : rvalue (text "false")
| rv_num n : rnumber n -> rvalue n
| rv_str s : rstring s -> rvalue s
| rv_arr0 w : ws w -> rvalue (LBR :: w ++ [RBR])
| rv_arr l : relems l -> rvalue (LBR :: l ++ [RBR])
| rv_obj0 w : ws w -> rvalue (LCB :: w ++ [RCB])
| rv_obj l : rmembers l -> rvalue (LCB :: l ++ [RCB])
with relems : buf -> Prop :=
| rel_one w1 v w2 : ws w1 -> rvalue v -> ws w2 -> relems (w1 ++ v ++ w2)
| rel_more w1 v w2 l : ws w1 -> rvalue v -> ws w2 -> relems l ->
                       relems (w1 ++ v ++ w2 ++ COMMA :: l)
with rmembers : buf -> Prop :=
| rme_one w1 k w2 w3 v w4 : ws w1 -> rstring k -> ws w2 -> ws w3 -> rvalue v -> ws w4 ->
    rmembers (w1 ++ k ++ w2 ++ COLON :: w3 ++ v ++ w4)
| rme_more w1 k w2 w3 v w4 l : ws w1 -> rstring k -> ws w2 -> ws w3 -> rvalue v -> ws w4 ->
    rmembers l -> rmembers (w1 ++ k ++ w2 ++ COLON :: w3 ++ v ++ w4 ++ COMMA :: l).

Scheme rvalue_mind := Induction for rvalue Sort Prop
  with relems_mind := Induction for relems Sort Prop
  with rmembers_mind := Induction for rmembers Sort Prop.
Combined Scheme rjson_ind from rvalue_mind, relems_mind, rmembers_mind.

(** A continuation that cannot extend a number. *)
Definition follow (r : buf) : Prop :=
  match r with
  | [] => True
  | c :: _ => ~ s_digit c /\ c <> DOT /\ c <> 101 /\ c <> 69
  end.

(** ------------------------------------------------------------------ *)
(** The wider language recognised by wjson.                             *)

Definition heads (c : Z) (s : buf) : Prop := exists t, s = c :: t.

(** no "*/" inside *)
Inductive no_close : buf -> Prop :=
| nc_nil : no_close []
| nc_one c : no_close [c]
| nc_cons c d t : ~ (c = STAR /\ d = SLASH) -> no_close (d :: t) -> no_close (c :: d :: t).

(** Gaps between tokens: whitespace; a '/' not followed by '*' counts as
    whitespace; a comment runs from "/*" to the first "*/" (whose star may be
    the opening one, as in "/*/"), and that closing '/' is again treated like a
    '/' outside comments. *)
Inductive gap : buf -> Prop :=
| g_nil : gap []
| g_ws c g : s_ws c -> gap g -> gap (c :: g)
| g_slash g : ~ heads STAR g -> gap g -> gap (SLASH :: g)
| g_comment u g : heads STAR (u ++ [STAR]) -> no_close (u ++ [STAR]) -> gap (SLASH :: g) ->
                  gap (SLASH :: u ++ STAR :: SLASH :: g).

(** Strings: any byte below 128 except quote and backslash, the nine escapes,
    and lead bytes (up to 6-byte forms) followed by the announced number of
    continuation bytes; no code point checks. *)
Definition s_cont (c : Z) : Prop := 128 <= c <= 191.
Inductive wlead : Z -> nat -> Prop :=
| wl2 c : 192 <= c <= 223 -> wlead c 1
| wl3 c : 224 <= c <= 239 -> wlead c 2
| wl4 c : 240 <= c <= 247 -> wlead c 3
| wl5 c : 248 <= c <= 251 -> wlead c 4
| wl6 c : 252 <= c <= 253 -> wlead c 5.
Inductive wchar : buf -> Prop :=
| wc_plain c : 0 <= c < 128 -> c <> 34 -> c <> 92 -> wchar [c]
| wc_esc c : s_esc c -> wchar [BSL; c]
| wc_u a b c d : s_hex a -> s_hex b -> s_hex c -> s_hex d -> wchar [BSL; 117; a; b; c; d]
| wc_multi c n l : wlead c n -> length l = n -> Forall s_cont l -> wchar (c :: l).
Inductive wchars : buf -> Prop :=
| wcs_nil : wchars []
| wcs_cons c l : wchar c -> wchars l -> wchars (c ++ l).
Inductive wstring : buf -> Prop :=
| wstr l : wchars l -> wstring (QT :: l ++ [QT]).

Inductive wvalue : buf -> Prop :=
| wv_null : wvalue (text "null")
| wv_true : wvalue (text "true")
| wv_false : wvalue (text "false")
| wv_num n : rnumber n -> wvalue n
| wv_str s : wstring s -> wvalue s
| wv_arr0 g : gap g -> wvalue (LBR :: g ++ [RBR])
| wv_arr l : welems l -> wvalue (LBR :: l ++ [RBR])
| wv_obj0 g : gap g -> wvalue (LCB :: g ++ [RCB])
| wv_obj0' g : gap g -> wvalue (LCB :: g ++ [RBR])      (* {] *)
| wv_obj l : wmembers l -> wvalue (LCB :: l ++ [RCB])
with welems : buf -> Prop :=
| wel_one g1 v g2 : gap g1 -> wvalue v -> gap g2 -> welems (g1 ++ v ++ g2)
| wel_trail g1 v g2 g3 : gap g1 -> wvalue v -> gap g2 -> gap g3 ->   (* trailing comma *)
                         welems (g1 ++ v ++ g2 ++ COMMA :: g3)
| wel_more g1 v g2 l : gap g1 -> wvalue v -> gap g2 -> welems l ->
                       welems (g1 ++ v ++ g2 ++ COMMA :: l)
with wmembers : buf -> Prop :=
| wme_one g1 k g2 g3 v g4 : gap g1 -> wstring k -> gap g2 -> gap g3 -> wvalue v -> gap g4 ->
    wmembers (g1 ++ k ++ g2 ++ COLON :: g3 ++ v ++ g4)
| wme_trail g1 k g2 g3 v g4 g5 : gap g1 -> wstring k -> gap g2 -> gap g3 -> wvalue v -> gap g4 ->
    gap g5 -> wmembers (g1 ++ k ++ g2 ++ COLON :: g3 ++ v ++ g4 ++ COMMA :: g5)
| wme_more g1 k g2 g3 v g4 l : gap g1 -> wstring k -> gap g2 -> gap g3 -> wvalue v -> gap g4 ->
    wmembers l -> wmembers (g1 ++ k ++ g2 ++ COLON :: g3 ++ v ++ g4 ++ COMMA :: l).

Scheme wvalue_mind := Induction for wvalue Sort Prop
  with welems_mind := Induction for welems Sort Prop
  with wmembers_mind := Induction for wmembers Sort Prop.
Combined Scheme wjson_ind from wvalue_mind, welems_mind, wmembers_mind.

(** Maximal munch: the number [n] cannot be extended into [r]. *)
Definition num_stop (n r : buf) : Prop :=
  match r with
  | [] => True
  | c :: _ =>
    (s_digit c -> n = [48] \/ n = [MINUS; 48]) /\
    (c = DOT -> In DOT n \/ In 101 n \/ In 69 n) /\
    (c = 101 \/ c = 69 -> In 101 n \/ In 69 n)
  end.

(** What parser::parse may consume from [v ++ r]. *)
Definition waccept (v r : buf) : Prop := wvalue v /\ (rnumber v -> num_stop v r).

(** Byte [k] is the first one that no accepted document allows. *)
Definition viable (p : buf) : Prop := exists t, wvalue (p ++ t).
Definition offending (s : buf) (k : nat) : Prop :=
  (k < length s)%nat /\ viable (firstn k s) /\ ~ viable (firstn (S k) s).

(** The position [k] up to which [s] can still be completed to a document; it is
    the end, or the byte there cannot be continued in any way. *)
Definition first_bad (s : buf) (k : nat) : Prop :=
  (k <= length s)%nat /\ viable (firstn k s) /\ ((k < length s)%nat -> ~ viable (firstn (S k) s)).

(** Errors that are reported at the byte in question ... *)
Definition exact_pos (j : json_error) : Prop :=
  match code j with
  | UnexpectedEndFragment | InvalidString | InvalidMember | InvalidJSON => True
  | ExpectedOf => expected_of j = Some [RBR] \/ expected_of j = Some [RCB]
  | _ => False
  end.
(** ... one byte behind it (a missing colon) ... *)
Definition colon_pos (j : json_error) : Prop := code j = ExpectedOf /\ expected_of j = Some [COLON].
(** ... or somewhere else: malformed numbers and literals. *)
Definition number_pos (j : json_error) : Prop := code j = InvalidNumber.
Definition literal_pos (j : json_error) : Prop := code j = ExpectedOf /\
  (expected_of j = Some (text "null") \/ expected_of j = Some (text "true") \/ expected_of j = Some (text "false")).
