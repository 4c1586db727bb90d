(** Models of serializer/quoted.hpp, raw_value.hpp, iterator_pair.hpp and
    pointer.hpp. *)
From Verif Require Import Base Parser Out StringS.

(** ---- quoted<J, SerQ, ReqQ> (quoted.hpp:61-122), SJ = value<std::string> ---- *)
Section Quoted.
  Context {A : Type} (J : codec A).
  (** 82-95; the inner serializer writes through a back_inserter; reserve() is dropped *)
  Definition quoted_ser (serq : bool) (v : A) : res (list op) :=
    if serq then let* ops := ser J v in str_ser false (flat ops) else ser J v.
  (** 97-113.  The inner range is a std::string, whose end is taken to hold the
      terminating zero.  The new error has no expected_of (error.hpp:41-45). *)
  Definition quoted_des1 (sn : option Z) (old : A) (s : buf) (e : eptr) : res (A * buf * eptr) :=
    let* (b, r, e1) := string_des sn [] s e in
    if has_err e1 then Ok (old, [], e1)
    else
      let* (v, _, e2) := des J (Some 0) old b (Some no_error) in
      match e1, e2 with
      | Some _, Some k => if is_err k then Ok (v, [], Some (mkerr (code k) None (dist r + tail_of k + 1))) else Ok (v, r, e1)
      | _, _ => Ok (v, r, e1)
      end.
  (** 74-78, 115-121 *)
  Definition quoted_des (reqq : bool) (sn : option Z) (old : A) (s : buf) (e : eptr) : res (A * buf * eptr) :=
    if reqq then quoted_des1 sn old s e
    else if is_string s then quoted_des1 sn old s e else des J sn old s e.
  Definition quoted_codec (serq reqq : bool) : codec A := mkcodec (quoted_ser serq) (quoted_des reqq).
End Quoted.

(** ---- raw_quoted<V, SerQ, ReqQ> (quoted.hpp:16-59); V a string ---- *)
(** 22-28: the iterator returned by std::copy is dropped *)
Definition rquoted_ser (serq : bool) (t : buf) : res (list op) :=
  Ok (if serq then [W QT; Sub (wr t); W QT] else [Sub (wr t)]).
(** 30-58; reserve() is dropped *)
Definition rquoted_des (reqq : bool) (sn : option Z) (old : buf) (s : buf) (e : eptr) : res (buf * buf * eptr) :=
  match s with
  | [] => Ok (old, [], cerr UnexpectedEndFragment None 0 e)
  | c :: t =>
    if reqq && negb (c =? QT) then Ok (old, [], cerr ExpectedOf (Some [QT]) (dist s) e)
    else
      let s1 := if reqq then t else s in
      let* (r, e1) := parse_value sn s1 e in
      if has_err e1 then Ok ([], r, e1)
      else if reqq then
        match r with
        | [] => Ok (range s1 r, [], cerr UnexpectedEndFragment None 0 e1)
        | d :: r' => if d =? QT then Ok (range s1 r, r', e1) else Ok (range s1 r, [], cerr ExpectedOf (Some [QT]) (dist r) e1)
        end
      else Ok (range s1 r, r, e1)
  end.
Definition rquoted_codec (serq reqq : bool) : codec buf := mkcodec (rquoted_ser serq) (rquoted_des reqq).

(** ---- raw_value (raw_value.hpp:16-44) and iterator_pair (iterator_pair.hpp:16-41) ----
    For iterator_pair the pair is modelled by the bytes it delimits. *)
Definition raw_ser (v : buf) : res (list op) := Ok (match v with [] => wr [QT; QT] | _ => wr v end).
Definition raw_des (sn : option Z) (_ : buf) (s : buf) (e : eptr) : res (buf * buf * eptr) :=
  let* (r, e1) := parse_value sn s e in Ok (range s r, r, e1).
Definition raw_codec : codec buf := mkcodec raw_ser raw_des.
Definition ipair_codec : codec buf := mkcodec raw_ser raw_des.

(** ---- pointer<unique_ptr/shared_ptr, J> (pointer.hpp:15-70); d0 is Type() ---- *)
Section Pointer.
  Context {A : Type} (J : codec A) (d0 : A).
  (** 19-31 *)
  Definition ptr_ser (v : option A) : res (list op) :=
    match v with Some x => ser J x | None => Ok (map PW (text "null")) end.
  (** 35-67 (both overloads); 47, 64: up to four characters are skipped *)
  Definition ptr_des (sn : option Z) (_ : option A) (s : buf) (e : eptr) : res (option A * buf * eptr) :=
    match s with
    | c :: _ =>
      if negb (c =? 110) then let* (v, r, e1) := des J sn d0 s e in Ok (Some v, r, e1)
      else Ok (None, skipn 4 s, e)
    | [] => Ok (None, skipn 4 s, e)
    end.
  Definition ptr_codec : codec (option A) := mkcodec ptr_ser ptr_des.
End Pointer.
