(** Models of serializer/time_interval.hpp and serializer/size_value.hpp. *)
From Verif Require Import Base Parser Out Number StringS.

(** ---- time_interval<T, fractions> (time_interval.hpp:16-124) ----
    [fr] is the template argument fractions, assumed positive.  int literals
    take part in arithmetic of the promoted type of T. *)
Section Time.
  Context (t : ity) (fr : Z).
  Let P := ipromote t.

  (** 114-123 write_if_; the iterator returned by the number serializer is dropped *)
  Definition time_write_if (v : Z) (ch : Z) : res (list op) :=
    if v =? 0 then Ok [] else let* o := int_ser t v in Ok [Sub o; W ch].

  (** 30-40 *)
  Definition time_ser_tail (v : Z) : res (list op) :=
    if Z.rem v fr =? 0 then Ok []
    else
      let tail := icast t (Z.rem v fr) in
      let* a := iarith P (tail * 1000) in
      let ms := icast t (Z.quot a fr) in
      let* b := iarith P (ms * 1000) in
      let* c := iarith P (tail - b) in
      let mks := icast t c in
      let* d := iarith P (mks * 1000000) in
      let mks := icast t (Z.quot d fr) in
      let* o1 := if 0 <? ms then let* o := time_write_if ms 109 in Ok (o ++ [W 115]) else Ok [] in
      let* o2 := if 0 <? mks then let* o := time_write_if mks 109 in Ok (o ++ [W 107; W 115]) else Ok [] in
      Ok (o1 ++ o2).

  (** 21-44 *)
  Definition time_ser (v : Z) : res (list op) :=
    let seconds := icast t (Z.quot v fr) in
    let days := icast t (Z.quot seconds 86400) in
    let* o1 := time_write_if days 100 in
    let* ds := iarith P (days * 86400) in
    let* a := iarith P (seconds - ds) in
    let hours := icast t (Z.quot a 3600) in
    let* o2 := time_write_if hours 104 in
    let* hs := iarith P (hours * 3600) in
    let* b := iarith P (seconds - hs) in
    let* c := iarith P (b - ds) in
    let* o3 := time_write_if (icast t (Z.quot c 60)) 109 in
    let* o4 := time_write_if (icast t (Z.rem seconds 60)) 115 in
    let* o5 := time_ser_tail v in
    Ok ([W QT] ++ o1 ++ o2 ++ o3 ++ o4 ++ o5 ++ [W QT]).

  (** v += cur * k * fractions (72, 73, 78, 92; 96 with no k) *)
  Definition time_add (v cur k : Z) : res Z :=
    let* a := iarith P (cur * k) in
    let* b := iarith P (a * fr) in
    let* c := iarith P (v + b) in
    Ok (icast t c).
  (** v += (cur*fractions)/k (84, 88) *)
  Definition time_addq (v cur k : Z) : res Z :=
    let* a := iarith P (cur * fr) in
    let* c := iarith P (v + Z.quot a k) in
    Ok (icast t c).

  (** 65-102.  [inl]: the loop ended; [inr]: returned from inside. *)
  Fixpoint time_loop (fuel : nat) (sn : option Z) (v : Z) (s : buf) (e : eptr)
    : res (Z * buf * eptr + Z * buf * eptr) :=
    match fuel with
    | O => Fuel
    | S f =>
      match s with
      | [] => Ok (inl (v, [], e))
      | c :: _ =>
        if c =? QT then Ok (inl (v, s, e))
        else
          let* (cur, s1, e1) := int_des t sn 0 s e in
          if has_err e1 then Ok (inr (v, s1, e1))
          else match s1 with
          | [] => Ok (inr (v, [], e1))
          | u :: s2 =>
            if u =? 100 then let* v' := time_add v cur 86400 in time_loop f sn v' s2 e1
            else if u =? 104 then let* v' := time_add v cur 3600 in time_loop f sn v' s2 e1
            else if u =? 109 then
              match s2 with
              | [] => let* v' := time_add v cur 60 in time_loop f sn v' [] e1
              | w :: s3 =>
                if w =? 115 then let* v' := time_addq v cur 1000 in time_loop f sn v' s3 e1
                else if w =? 107 then
                  let* v' := time_addq v cur 1000000 in
                  let* s4 := step s3 in
                  time_loop f sn v' s4 e1
                else let* v' := time_add v cur 60 in time_loop f sn v' s2 e1
              end
            else if u =? 115 then let* v' := time_add v cur 1 in time_loop f sn v' s2 e1
            else time_loop f sn v s2 e1
          end
      end
    end.

  (** 46-110; the test of line 106 cannot fail after the loop but is kept *)
  Definition time_des (sn : option Z) (old : Z) (s : buf) (e : eptr) : res (Z * buf * eptr) :=
    match s with
    | [] => Ok (old, [], cerr UnexpectedEndFragment None 0 e)
    | _ :: s0 =>
      if is_null s then let '(r, e') := parse_null s e in Ok (0, r, e')
      else if is_number s then int_des t sn 0 s e
      else if negb (is_string s) then Ok (0, [], cerr InvalidString None 0 e)
      else
        let* x := time_loop (S (length s0)) sn 0 s0 e in
        match x with
        | inr y => Ok y
        | inl (v, [], e1) => Ok (v, [], cerr UnexpectedEndFragment None 0 e1)
        | inl (v, c :: r, e1) => if negb (c =? QT) then Ok (v, [], cerr InvalidString None 0 e1) else Ok (v, r, e1)
        end
    end.
  Definition time_codec : codec Z := mkcodec time_ser time_des.
End Time.

(** ---- size_value<T, metric> (size_value.hpp:17-156) ---- *)
Definition i64 : ity := mkity 8 true.

Section Size.
  (** sizeof(T) is 2, 4 or 8 (the template arguments 1000 and 1024 do not fit
      a one-byte type); [metric] is assumed positive *)
  Context (t : ity) (metric : Z).

  (** int64_t op T: the usual arithmetic conversions give uint64_t iff T is uint64_t *)
  Definition size_conv (v : Z) : Z := if (isize t =? 8) && negb (isigned t) then v mod imod i64 else v.

  (** 124-154 write_if_; fas::pow<Base, Exp> is taken to be Base^Exp.  The
      iterator returned by the number serializer is dropped.  None: false. *)
  Definition size_write_if (base ex v : Z) (ch : buf) : res (option (list op)) :=
    if negb (ex <=? isize t / 2) then Ok None
    else
      let pow := base ^ ex in
      let ready := if negb (v =? 0) then Z.rem (size_conv v) pow =? 0 else metric =? pow in
      if ready then
        let* o := int_ser i64 (icast i64 (Z.quot (size_conv v) pow)) in
        Ok (Some ([W QT; Sub o] ++ wr ch ++ [W QT]))
      else Ok None.
  Fixpoint size_try (l : list (Z * Z * buf)) (v : Z) : res (option (list op)) :=
    match l with
    | [] => Ok None
    | (base, ex, ch) :: l' =>
      let* x := size_write_if base ex v ch in
      match x with Some o => Ok (Some o) | None => size_try l' v end
    end.
  Definition size_dec : list (Z * Z * buf) :=
    [(1000, 4, text "TB"); (1024, 4, text "TiB"); (1000, 3, text "GB"); (1024, 3, text "GiB");
     (1000, 2, text "MB"); (1024, 2, text "MiB"); (1000, 1, text "KB"); (1024, 1, text "KiB")].
  Definition size_bin : list (Z * Z * buf) :=
    [(1024, 4, text "TiB"); (1000, 4, text "TB"); (1024, 3, text "GiB"); (1000, 3, text "GB");
     (1024, 2, text "MiB"); (1000, 2, text "MB"); (1024, 1, text "KiB"); (1000, 1, text "KB")].
  (** 23-57 *)
  Definition size_ser (v : Z) : res (list op) :=
    let* bytes := iarith i64 (icast i64 v * icast i64 metric) in
    let* w := if (Z.rem metric 10 =? 0) || (metric =? 1) then size_try size_dec bytes else size_try size_bin bytes in
    match w with Some o => Ok o | None => int_ser t v end.

  (** std::strlen over char buf[32]: reading on behind the array is UB *)
  Fixpoint strlen (b : buf) : res buf :=
    match b with
    | [] => UB
    | c :: r => if c =? 0 then Ok [] else let* l := strlen r in Ok (c :: l)
    end.
  (** 104-116 *)
  Definition size_mult (ch1 ch2 : Z) : option Z :=
    if ch1 =? 84 then Some (if ch2 =? 105 then 1024 ^ 4 else 1000 ^ 4)
    else if ch1 =? 71 then Some (if ch2 =? 105 then 1024 ^ 3 else 1000 ^ 3)
    else if ch1 =? 77 then Some (if ch2 =? 105 then 1024 ^ 2 else 1000 ^ 2)
    else if ch1 =? 75 then Some (if ch2 =? 105 then 1024 else 1000)
    else if ch1 =? 66 then Some 1
    else None.
  (** 59-120 *)
  Definition size_des (sn : option Z) (old : Z) (s : buf) (e : eptr) : res (Z * buf * eptr) :=
    match s with
    | [] => Ok (old, [], cerr UnexpectedEndFragment None 0 e)
    | _ :: _ =>
      if is_null s then let '(r, e') := parse_null s e in Ok (0, r, e')
      else if is_number s then int_des t sn 0 s e
      else if negb (is_string s) then Ok (0, [], cerr InvalidString None 0 e)
      else
        let* (b, r, e1) := chars_des 32 sn [] s e in
        if has_err e1 then Ok (0, r, e1)
        else
          let* txt := strlen b in
          let* (val, q, e2) := int_des i64 (Some 0) 0 txt e1 in
          if has_err e2 then Ok (0, r, e2)
          else match q with
          | [] => Ok (icast t val, r, e2)
          | ch1 :: q1 =>
            let ch2 := match q1 with c :: _ => c | [] => 0 end in
            match size_mult ch1 ch2 with
            | None => Ok (0, [], cerr InvalidNumber None 0 e2)
            | Some mult =>
              let* a := iarith i64 (val * mult) in
              Ok (icast t (Z.quot a (icast i64 metric)), r, e2)
            end
          end
    end.
  Definition size_codec : codec Z := mkcodec size_ser size_des.
End Size.
