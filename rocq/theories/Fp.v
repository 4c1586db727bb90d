(** The conversions between floating-point values and text that
    serializer/float.hpp leaves to the streams: [ss << v] with the flags set at
    32-40 and [ss >> v] at 78.  wjson itself contains no such code; this file
    models what the C++ standard and libstdc++ do there, with IEEE rounding to
    nearest, so that the parameters [fmt] and [scan] of Float.v have an
    instance.  Not modelled: other rounding modes, locales other than "C",
    streams of other libraries. *)
From Coq Require Import QArith Qround.
From Verif Require Import Base Parser Out Float.
Open Scope Z_scope.

(** float, double and long double of serializer/float.hpp:84-100 on x86: values
    are [m * 2^e] with [0 <= m < 2^prec] and [lo <= e <= hi]; either [m] has all
    [prec] bits or [e = lo].  An infinity or NaN keeps its sign. *)
Record fpt := mkfpt { prec : Z; lo : Z; hi : Z }.
Definition f32 := mkfpt 24 (-149) 104.
Definition f64 := mkfpt 53 (-1074) 971.
Definition f80 := mkfpt 64 (-16445) 16320.
Inductive fp := Fin (neg : bool) (m e : Z) | Inf (neg : bool) | Nan (neg : bool).

Definition mag (m e : Z) : Q := (inject_Z m * 2 ^ e)%Q.

(** Nearest integer, ties to even. *)
Definition rne (q : Q) : Z :=
  let f := Qfloor q in
  match Qcompare (q - inject_Z f)%Q (1 # 2) with
  | Lt => f
  | Gt => f + 1
  | Eq => if Z.even f then f else f + 1
  end.

(** The largest k with B^k <= z, for z >= 1, and with B^k <= q, for q > 0. *)
Fixpoint ilog_f (fuel : nat) (B z : Z) : Z :=
  match fuel with
  | O => 0
  | S n => if z <? B then 0 else 1 + ilog_f n B (z / B)
  end.
Definition ilog (B z : Z) : Z := ilog_f (S (Z.to_nat (Z.log2 z))) B z.
Definition qlog (B : Z) (q : Q) : Z :=
  let k := ilog B (Qnum q) - ilog B (Zpos (Qden q)) in
  if Qle_bool (inject_Z B ^ k)%Q q then k else k - 1.

(** [w] decimal digits of [n], and as many as it takes. *)
Fixpoint digs (w : nat) (n : Z) : buf :=
  match w with O => [] | S w => digs w (n / 10) ++ [48 + n mod 10] end.
Definition plain (n : Z) : buf := digs (S (Z.to_nat (ilog 10 n))) n.

Definition sign (neg : bool) : buf := if neg then [MINUS] else [].

(** 36-40: std::fixed with precision R, like printf's %.Rf *)
Definition fixed (R : Z) (neg : bool) (q : Q) : buf :=
  let n := rne (q * inject_Z (10 ^ R))%Q in
  sign neg ++ plain (n / 10 ^ R) ++
  (if R =? 0 then [] else DOT :: digs (Z.to_nat R) (n mod 10 ^ R)).

(** 32-35: std::scientific with the precision a stream starts with, 6, like
    printf's %.6e: seven digits [n] and an exponent [k] of at least two *)
Definition seven (q : Q) : Z * Z :=
  if Qeq_bool q 0 then (0, 0) else
  let k := qlog 10 q in
  let n := rne (q / (10 ^ (k - 6)))%Q in
  if n =? 10 ^ 7 then (10 ^ 6, k + 1) else (n, k).
Definition expo (k : Z) : buf :=
  (if k <? 0 then MINUS else PLUS) :: (if Z.abs k <? 10 then digs 2 (Z.abs k) else plain (Z.abs k)).
Definition scientific (neg : bool) (q : Q) : buf :=
  let '(n, k) := seven q in
  sign neg ++ digs 1 (n / 10 ^ 6) ++ DOT :: digs 6 (n mod 10 ^ 6) ++ 101 :: expo k.

(** 42: [ss << v] *)
Definition put (R : Z) (v : fp) : buf :=
  match v with
  | Fin neg m e => if R =? -1 then scientific neg (mag m e) else fixed R neg (mag m e)
  | Inf neg => sign neg ++ text "inf"
  | Nan neg => sign neg ++ text "nan"
  end.

(** 78: [ss >> v].  The stream collects a sign, digits, a point and digits, an
    exponent mark with a sign and digits, as far as they go (a leading '+' or
    whitespace does not get here: 68), *)
Fixpoint run (s : buf) : buf * buf :=
  match s with
  | [] => ([], [])
  | c :: t => if is_digit c then let '(d, r) := run t in (c :: d, r) else ([], s)
  end.
Definition number_of (d : buf) : Z := fold_left (fun a c => 10 * a + (c - 48)) d 0.
Definition lead_minus (s : buf) : bool * buf :=
  match s with c :: t => if c =? MINUS then (true, t) else (false, s) | [] => (false, s) end.
Definition point (s : buf) : buf * buf :=
  match s with c :: t => if c =? DOT then run t else ([], s) | [] => ([], s) end.
Definition exp_sign (s : buf) : bool * buf :=
  match s with
  | c :: t => if c =? MINUS then (true, t) else if c =? PLUS then (false, t) else (false, s)
  | [] => (false, s)
  end.
Definition power (s : buf) : option Z :=
  match s with
  | c :: t =>
    if (c =? 101) || (c =? 69) then
      let '(n, t1) := exp_sign t in
      match run t1 with
      | ([], _) => None
      | (x, _) => Some (if n then - number_of x else number_of x)
      end
    else Some 0
  | [] => Some 0
  end.
(** rounds the number to the nearest value, ties to even, what is too large to
    the largest one (with failbit, which nobody looks at), *)
Definition largest (F : fpt) (neg : bool) : fp := Fin neg (2 ^ prec F - 1) (hi F).
Definition clamp (F : fpt) (neg : bool) (m e : Z) : fp :=
  if hi F <? e then largest F neg else Fin neg m e.
Definition round (F : fpt) (neg : bool) (q : Q) : fp :=
  if Qle_bool q 0 then Fin neg 0 (lo F) else
  let e := Z.max (lo F) (qlog 2 q - (prec F - 1)) in
  let m := rne (q / (2 ^ e))%Q in
  if m =? 2 ^ prec F then clamp F neg (2 ^ (prec F - 1)) (e + 1) else clamp F neg m e.
(** and stores 0 if there are no digits where there must be some. *)
Definition nothing (F : fpt) : fp := Fin false 0 (lo F).
Definition get (F : fpt) (s : buf) : fp :=
  let '(neg, s1) := lead_minus s in
  let '(i, s2) := run s1 in
  let '(f, s3) := point s2 in
  match i ++ f, power s3 with
  | [], _ => nothing F
  | _, None => nothing F
  | d, Some x => round F neg (inject_Z (number_of d) * 10 ^ (x - Z.of_nat (length f)))%Q
  end.

(** serializerT< value<T, R> > with T of the format F *)
Definition real_codec (F : fpt) (R : Z) : codec fp := float_codec R (put R) (get F) (nothing F).
