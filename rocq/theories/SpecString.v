(** Specification: what a JSON string literal means (RFC 8259 section 7). *)
From Verif Require Import Base SpecJson.

Definition hexv (a : Z) : Z :=
  if a <=? 57 then a - 48 else if a <=? 70 then a - 55 else a - 87.
Definition hex4 (a b c d : Z) : Z := ((hexv a * 16 + hexv b) * 16 + hexv c) * 16 + hexv d.

(** two-character escapes *)
Inductive esc_mean : Z -> Z -> Prop :=
| em_same c : c = 34 \/ c = 92 \/ c = 47 -> esc_mean c c
| em_b : esc_mean 98 8
| em_f : esc_mean 102 12
| em_n : esc_mean 110 10
| em_r : esc_mean 114 13
| em_t : esc_mean 116 9.

Inductive cmean : buf -> buf -> Prop :=
| cm_plain cp : scalar cp -> 32 <= cp -> cp <> 34 -> cp <> 92 -> cmean (utf8_encode cp) (utf8_encode cp)
| cm_esc c t : esc_mean c t -> cmean [BSL; c] [t]
| cm_u a b c d : s_hex a -> s_hex b -> s_hex c -> s_hex d -> scalar (hex4 a b c d) ->
    cmean [BSL; 117; a; b; c; d] (utf8_encode (hex4 a b c d))
| cm_pair a b c d a' b' c' d' : s_hex a -> s_hex b -> s_hex c -> s_hex d ->
    s_hex a' -> s_hex b' -> s_hex c' -> s_hex d' ->
    55296 <= hex4 a b c d <= 56319 -> 56320 <= hex4 a' b' c' d' <= 57343 ->
    cmean [BSL; 117; a; b; c; d; BSL; 117; a'; b'; c'; d']
          (utf8_encode (65536 + (hex4 a b c d - 55296) * 1024 + (hex4 a' b' c' d' - 56320))).
Inductive lmean : buf -> buf -> Prop :=
| lm_nil : lmean [] []
| lm_cons c t l m : cmean c t -> lmean l m -> lmean (c ++ l) (t ++ m).
(** [smean lit txt]: the literal [lit] denotes the text [txt] (UTF-8) *)
Inductive smean : buf -> buf -> Prop :=
| sm l m : lmean l m -> smean (QT :: l ++ [QT]) m.

(** valid UTF-8 *)
Inductive utf8 : buf -> Prop :=
| u8_nil : utf8 []
| u8_cons cp s : scalar cp -> utf8 s -> utf8 (utf8_encode cp ++ s).

(** chunks without surrogate pairs and without control characters written as
    \u escapes (other than the five that have a short escape) *)
Definition short_ctl (v : Z) : Prop := v = 8 \/ v = 9 \/ v = 10 \/ v = 12 \/ v = 13.
Inductive cmean_bmp : buf -> buf -> Prop :=
| cb_plain cp : scalar cp -> 32 <= cp -> cp <> 34 -> cp <> 92 -> cmean_bmp (utf8_encode cp) (utf8_encode cp)
| cb_esc c t : esc_mean c t -> cmean_bmp [BSL; c] [t]
| cb_u a b c d : s_hex a -> s_hex b -> s_hex c -> s_hex d -> scalar (hex4 a b c d) ->
    32 <= hex4 a b c d \/ short_ctl (hex4 a b c d) ->
    cmean_bmp [BSL; 117; a; b; c; d] (utf8_encode (hex4 a b c d)).
Inductive lmean_bmp : buf -> buf -> Prop :=
| lb_nil : lmean_bmp [] []
| lb_cons c t l m : cmean_bmp c t -> lmean_bmp l m -> lmean_bmp (c ++ l) (t ++ m).
Inductive smean_bmp : buf -> buf -> Prop :=
| sb l m : lmean_bmp l m -> smean_bmp (QT :: l ++ [QT]) m.

(** what the serializer may emit for arbitrary bytes: RFC-like chunks without
    raw control bytes, plus "\xhh" for bytes that are not UTF-8 shaped *)
Inductive xchunk : buf -> Prop :=
| xc_w c : wchar c -> Forall (fun b => 32 <= b) c -> xchunk c
| xc_x a b : s_hex a -> s_hex b -> xchunk [BSL; 120; a; b].
Inductive xchunks : buf -> Prop :=
| xs_nil : xchunks []
| xs_cons c l : xchunk c -> xchunks l -> xchunks (c ++ l).
