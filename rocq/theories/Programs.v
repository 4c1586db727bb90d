(** Programs that use the library: examples/example11.cpp, example16.cpp and
    show_parse of example17.cpp.  The texts printed for the user ("Bool …",
    "Done") are left out, except for the strings show_parse prints. *)
From Verif Require Import Base Parser Out StringS Number Array Wrap.

(** ---- example17.cpp: show_parse ---- *)
(** 44-49, with the strings printed so far *)
Definition show_close (out : list buf) (s : buf) (e : eptr) : list buf * buf * eptr :=
  match s with
  | [] => (out, [], cerr ExpectedOf (Some [RBR]) (dist s) e)
  | c :: t => if negb (c =? RBR) then (out, [], cerr ExpectedOf (Some [RBR]) (dist s) e) else (out, t, e)
  end.
(** 22-34: one element.  The flag says that the function returns (27); *e is
    read there, so e must not be null. *)
Definition show_item (sn : option Z) (out : list buf) (s : buf) (e : eptr) : res (list buf * buf * eptr * bool) :=
  if is_string s then
    let* (v, s2, e2) := des string_codec sn [] s e in
    match e2 with
    | None => UB
    | Some j => if is_err j then Ok (out, [], e2, true) else Ok (out ++ [v], s2, e2, false)
    end
  else let* (s2, e2) := parse_value sn s e in Ok (out, s2, e2, false).
(** 15-42: *beg is read in line 20 also at the end of the text.  Leaving the loop
    leads to line 44. *)
Fixpoint show_loop (sn : option Z) (fuel : nat) (out : list buf) (s : buf) (e : eptr) : res (list buf * buf * eptr) :=
  match fuel with
  | O => Fuel
  | S n =>
    match s with
    | [] => Ok (show_close out s e)
    | c :: _ =>
      if c =? RBR then Ok (show_close out s e)
      else
        let '(s1, e1) := parse_space s e in                       (* 18 *)
        let* c1 := deref sn s1 in                                 (* 20 *)
        if c1 =? RBR then Ok (show_close out s1 e1)
        else
          let* (out', s2, e2, stop) := show_item sn out s1 e1 in
          if (stop : bool) then Ok (out', [], e2)                 (* 27 *)
          else
            let '(s3, e3) := parse_space s2 e2 in                 (* 36 *)
            match s3 with
            | [] => Ok (out', [], cerr ExpectedOf (Some [RBR]) (dist s3) e3)
            | d :: t3 =>
              if negb (d =? COMMA) && negb (d =? RBR) then Ok (out', [], cerr ExpectedOf (Some [RBR]) (dist s3) e3)
              else show_loop sn n out' (if d =? COMMA then t3 else s3) e3
            end
    end
  end.
(** 6-50: the strings printed, the iterator returned, the error *)
Definition show_parse (sn : option Z) (s : buf) (e : eptr) : res (list buf * buf * eptr) :=
  let '(s1, e1) := parse_space s e in
  if negb (is_array s1) then Ok ([], [], cerr ExpectedOf (Some [LBR]) (dist s1) e1)
  else match s1 with
  | [] => UB
  | _ :: t => show_loop sn (S (S (length t))) [] t e1
  end.

(** ---- example11.cpp and example16.cpp ---- *)
(** Reading a std::string without a json_error; a zero follows its characters. *)
Definition take {A} (c : codec A) (old : A) (s : buf) : res A :=
  let* (v, _, _) := des c (Some 0) old s None in Ok v.
Definition put {A} (c : codec A) (v : A) : res buf := let* ops := ser c v in Ok (flat ops).
Definition cint := int_codec (mkity 4 true).
Definition ints := vector_codec cint 0.
Definition raws := vector_codec raw_codec [].
(** ++num: overflow is undefined *)
Definition incr (n : Z) : res Z := if n =? 2147483647 then UB else Ok (n + 1).
(** val *= -1 *)
Definition flip (n : Z) : res Z := if n =? -2147483648 then UB else Ok (- n).

(** example11.cpp:22-50: what becomes of one element *)
Definition ex11_item (v : buf) : res buf :=
  if is_number v then let* n := take cint 0 v in let* m := incr n in put cint m
  else if is_string v then
    let* w := take string_codec [] v in let* n := take cint 0 w in let* m := incr n in
    let* u := put cint m in put string_codec u
  else if is_array v then let* l := take ints [] v in put ints l
  else Ok (text "null").
Fixpoint ex11_items (l : list buf) : res (list buf) :=
  match l with [] => Ok [] | v :: t => let* x := ex11_item v in let* y := ex11_items t in Ok (x :: y) end.
(** 10-55 *)
Definition ex11 (json : buf) : res buf :=
  let* inv := take raws [] json in let* outv := ex11_items inv in put raws outv.

(** example16.cpp:19-63: what is appended to raw_out for one element; 55 reads
    val[0] and val[1] of a vector *)
Definition ex16_item (i : buf) : res (list buf) :=
  if is_null i then Ok [i]
  else if is_bool i then let* _ := take bool_codec false i in let* x := put bool_codec true in Ok [x]
  else if is_number i then let* n := take cint 0 i in let* m := flip n in let* x := put cint m in Ok [x]
  else if is_string i then let* w := take string_codec [] i in let* x := put string_codec (rev w) in Ok [x]
  else if is_array i then
    let* l := take ints [] i in
    if (length l <? 2)%nat then UB else let* x := put ints (rev l) in Ok [x]
  else Ok [].
Fixpoint ex16_items (l : list buf) : res (list buf) :=
  match l with [] => Ok [] | v :: t => let* x := ex16_item v in let* y := ex16_items t in Ok (x ++ y) end.
(** 8-67 *)
Definition ex16 (json : buf) : res buf :=
  let* raw_in := take raws [] json in let* raw_out := ex16_items raw_in in put raws raw_out.
