(** Specification of floating-point numbers and of decimal texts, as rationals. *)
From Coq Require Import QArith Qabs.
From Verif Require Import Base SpecJson SpecNum Fp.
Open Scope Z_scope.

(** The formats considered: at least two bits, and no larger than long double. *)
Definition format_ok (F : fpt) : Prop := 2 <= prec F <= 64 /\ -16445 <= lo F < 0 /\ 0 < hi F <= 16384 - prec F.

(** The finite values of a format, each in its only representation. *)
Definition finite (F : fpt) (v : fp) : Prop :=
  match v with
  | Fin _ m e => 0 <= m < 2 ^ prec F /\ lo F <= e <= hi F /\ (2 ^ (prec F - 1) <= m \/ e = lo F)
  | _ => False
  end.

(** The number a finite value stands for, its sign, and whether its last bit is 0. *)
Definition worth (v : fp) : Q :=
  match v with
  | Fin false m e => (inject_Z m * 2 ^ e)%Q
  | Fin true m e => (- (inject_Z m * 2 ^ e))%Q
  | _ => 0%Q
  end.
(** at most 18 digits in front of the point *)
Definition not_too_large (v : fp) : Prop := (Qabs (worth v) <= inject_Z (10 ^ 18 - 1))%Q.
Definition negative (v : fp) : bool := match v with Fin n _ _ => n | Inf n => n | Nan n => n end.
Definition last_bit_0 (v : fp) : Prop := match v with Fin _ m _ => Z.Even m | _ => False end.

(** [v] is the value of the format nearest to [q]; of two it is the even one. *)
Definition nearest (F : fpt) (q : Q) (v : fp) : Prop :=
  finite F v /\
  forall w, finite F w ->
    (Qabs (worth v - q) <= Qabs (worth w - q))%Q /\
    ((Qabs (worth w - q) == Qabs (worth v - q))%Q -> (worth w == worth v)%Q \/ last_bit_0 v).

(** The number a decimal text stands for: -III.FFFe-XX is
    -(III + FFF/10^3) * 10^-XX. *)
Definition minus_sign (m : buf) : Q := match m with [] => 1%Q | _ => (-1)%Q end.
Definition fraction (f : buf) : Q :=
  match f with [] => 0%Q | _ :: d => (inject_Z (dval d) / 10 ^ (Z.of_nat (length d)))%Q end.
Definition exponent (x : buf) : Z :=
  match x with
  | _ :: 45 :: d => - dval d
  | _ :: 43 :: d => dval d
  | _ :: d => dval d
  | [] => 0
  end.
Inductive denotes : buf -> Q -> Prop :=
| den m i f x : ropt_minus m -> digits1 i -> rfrac f -> rexp x ->
    denotes (m ++ i ++ f ++ x) (minus_sign m * (inject_Z (dval i) + fraction f) * 10 ^ exponent x)%Q.
(** Does the text begin with a minus? *)
Definition minus_first (t : buf) : bool := match t with 45 :: _ => true | _ => false end.

(** [q] is [x] rounded to [R] decimal digits behind the point, and to seven
    decimal digits altogether, with a last digit that is even if two are
    equally near. *)
Definition to_decimals (R : Z) (x q : Q) : Prop :=
  exists n, (q == inject_Z n * / 10 ^ R)%Q /\ (Qabs (q - x) <= (1 # 2) * / 10 ^ R)%Q /\
    ((Qabs (q - x) == (1 # 2) * / 10 ^ R)%Q -> Z.Even n).
Definition to_seven (x q : Q) : Prop :=
  (x == 0 /\ q == 0)%Q \/
  exists n k, (10 ^ (k + 6) <= Qabs x)%Q /\ (Qabs x < 10 ^ (k + 7))%Q /\ (q == inject_Z n * 10 ^ k)%Q /\
    (Qabs (q - x) <= (1 # 2) * 10 ^ k)%Q /\ ((Qabs (q - x) == (1 # 2) * 10 ^ k)%Q -> Z.Even n).
