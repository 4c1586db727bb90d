(** Model of serializer/float.hpp: [float_codec] is the branch compiled with
    libstdc++ (__GLIBCXX__), [float_codec_std] the one for other standard
    libraries; they share the reader.  The conversions between a floating-point value and text are
    parameters: [fmt v] is what [ss << v] inserts with the flags set at 32-40,
    [scan t] is what [ss >> v] stores when the stream holds [t]. *)
From Verif Require Import Base Parser Out.

(** A C string ends at the first NUL. *)
Fixpoint cstr (s : buf) : buf :=
  match s with [] => [] | c :: t => if c =? 0 then [] else c :: cstr t end.

(** 22 *)
Definition bufsize (R : Z) : nat := Z.to_nat (if R =? -1 then 20 else 20 + R).

Section Float.
  Context {A : Type} (R : Z) (fmt : A -> buf) (scan : buf -> A) (zero : A).
  (** 24-54.  The stream writes the first bufsize characters into buf (what
      does not fit goes to a buffer of its own); the loop at 45-48 copies buf up
      to its end or the first NUL. *)
  Definition float_ser (v : A) : res (list op) := Ok (wr (cstr (firstn (bufsize R) (fmt v)))).
  (** 56-80.  At most bufsize bytes from beg are copied into a zeroed buffer,
      which the stream reads as a C string; the iterator is advanced over the
      number separately (parse_number). *)
  Definition float_des (sn : option Z) (old : A) (s : buf) (e : eptr) : res (A * buf * eptr) :=
    match s with
    | [] => Ok (old, [], cerr UnexpectedEndFragment None 0 e)
    | _ :: _ =>
      if is_null s then let '(r, e1) := parse_null s e in Ok (zero, r, e1)
      else if negb (is_number s) then Ok (old, [], cerr InvalidNumber None (dist s) e)
      else let v := scan (cstr (firstn (bufsize R) s)) in
           let '(r, e1) := parse_number s e in Ok (v, r, e1)
    end.
  Definition float_codec : codec A := mkcodec float_ser float_des.
  (** 50-51, without __GLIBCXX__: the whole string is copied *)
  Definition float_ser_std (v : A) : res (list op) := Ok (wr (fmt v)).
  Definition float_codec_std : codec A := mkcodec float_ser_std float_des.
End Float.
