(** The expectations of the project's own unit tests (tests/*_suite.cpp) and the
    outputs documented in its examples (examples/*.cpp), evaluated in the model.
    The number after each name is the line of the (first) assertion, in the
    suite or example named by the heading; in the examples that of the output.  A std::string has
    a readable NUL at its end, hence [Some 0]. *)
From Coq Require Numbers.DecimalString.
From Verif Require Import Base Parser Out Number StringS Array Object ObjectArray Enum Wrap TimeSize Misc.

(** text with ' for quotes, as the literal ""_json does *)
Definition jt (s : Coq.Strings.String.string) : buf := map (fun c => if c =? 39 then QT else c) (text s).
Arguments jt s%string_scope.
Definition clean := Some no_error.
(** what a serializer writes through std::back_inserter *)
Definition out {A} (c : codec A) (v : A) : option buf := match ser c v with Ok l => Some (flat l) | _ => None end.
(** reading with a json_error: the target and whether there is an error *)
Definition inp {A} (c : codec A) (old : A) (s : buf) : option (A * bool) :=
  match des c (Some 0) old s clean with Ok (v, _, Some j) => Some (v, is_err j) | _ => None end.
(** ... and the error *)
Definition err {A} (c : codec A) (old : A) (s : buf) : option json_error :=
  match des c (Some 0) old s clean with Ok (_, _, Some j) => if is_err j then Some j else None | _ => None end.
(** reading without json_error *)
Definition inp0 {A} (c : codec A) (old : A) (s : buf) : option A :=
  match des c (Some 0) old s None with Ok (v, _, None) => Some v | _ => None end.
Ltac ok := vm_compute; repeat split; reflexivity.

(** ---- tests/parser_suite.cpp ---- *)
Definition bad (x : buf * eptr) : bool := has_err (snd x).
Definition dirty : eptr := Some (mkerr InvalidJSON None 0).
Definition sp : buf := [9; 10] ++ text "//*Комментарий *".
Example parse_space_14 : parse_space ([9; 10] ++ text "/*Комментарий */  ") clean = ([], clean). Proof. ok. Qed.
Example parse_space_18 : bad (parse_space sp clean) = true /\ fst (parse_space sp clean) = []. Proof. ok. Qed.
Example parse_space_22 : is_space sp = true /\ is_space (skipn 2 sp) = false /\ is_space (skipn 3 sp) = true /\
  is_space (skipn 4 sp) = false /\ is_space [] = false. Proof. ok. Qed.
Example parse_null_40 : parse_null (text "null") clean = ([], clean). Proof. ok. Qed.
Example parse_null_44 : bad (parse_null (text "nul") clean) = true /\ fst (parse_null (text "nul") clean) = []. Proof. ok. Qed.
Example parse_null_47 : bad (parse_null [] clean) = true /\ fst (parse_null [] clean) = []. Proof. ok. Qed.
Example parse_null_51 : bad (parse_null (text "nulx") clean) = true /\ fst (parse_null (text "nulx") dirty) = []. Proof. ok. Qed.
Example parse_null_55 : bad (parse_null (text "ull") clean) = true /\ fst (parse_null (text "ull") dirty) = []. Proof. ok. Qed.
Example parse_bool_66 : parse_bool (text "true") clean = ([], clean). Proof. ok. Qed.
Example parse_bool_69 : bad (parse_bool [] clean) = true /\ bad (parse_bool (text "tru") clean) = true /\ bad (parse_bool (text "truE") clean) = true /\
  bad (parse_bool (text "falsE") clean) = true /\ bad (parse_bool (text "False") clean) = true. Proof. ok. Qed.
Example parse_integer_98 : parse_integer (text "-3e-12") clean = (text "e-12", clean). Proof. ok. Qed.
Example parse_integer_101 : bad (parse_integer [] clean) = true /\ bad (parse_integer (text "e-12") clean) = true /\
  bad (parse_integer (text "-") clean) = true /\ bad (parse_integer (text "-A") clean) = true. Proof. ok. Qed.
Example parse_integer_116 : parse_integer (text "-123") clean = ([], clean) /\ parse_integer (text "-123.X") clean = (text ".X", clean) /\
  parse_integer (text "1.") clean = (text ".", clean) /\ parse_integer (text "123eX") clean = (text "eX", clean). Proof. ok. Qed.
Example parse_number_151 : parse_number (text "-3e-12") clean = ([], clean). Proof. ok. Qed.
Example parse_number_154 : bad (parse_number [] clean) = true /\ bad (parse_number (text "-3e") clean) = true /\
  bad (parse_number (text "-") clean) = true /\ bad (parse_number (text "-A") clean) = true /\
  bad (parse_number (text "1.") clean) = true /\ bad (parse_number (text "1eX") clean) = true. Proof. ok. Qed.
Example parse_string_191 : is_string [] = false. Proof. ok. Qed.
Example parse_string_196 : match parse_string (jt "'\x'") clean with Ok x => bad x = true | _ => False end. Proof. ok. Qed.
Example parse_string_201 : match parse_string (jt "'\u123'") clean with Ok x => bad x = true | _ => False end. Proof. ok. Qed.

(** ---- tests/value_suite.cpp ---- *)
Definition i8 := mkity 1 true. Definition u8 := mkity 1 false.
Definition i16 := mkity 2 true. Definition u16 := mkity 2 false.
Definition i32 := mkity 4 true. Definition u32 := mkity 4 false.
Definition s64 := mkity 8 true. Definition u64 := mkity 8 false.
Definition int32 := int_codec i32.
(** value_serializer_test (7-19): written as [chk], and read back from there *)
Definition value_test {A} (c : codec A) (v d0 : A) (chk : buf) : Prop := out c v = Some chk /\ inp c d0 chk = Some (v, false).
Definition int_test (t : ity) (v : Z) (chk : buf) : Prop := value_test (int_codec t) (icast t v) 0 chk.
Example bool_38 : value_test bool_codec true false (text "true") /\ value_test bool_codec false false (text "false"). Proof. ok. Qed.
Example integer_45 : int_test i8 10 (text "10") /\ int_test u8 10 (text "10") /\ int_test i16 10 (text "10") /\ int_test u16 10 (text "10") /\
  int_test i32 10 (text "10") /\ int_test u32 10 (text "10"). Proof. ok. Qed.
Example integer_51 : int_test s64 1199511627775 (text "1199511627775") /\ int_test u64 1199511627775 (text "1199511627775"). Proof. ok. Qed.
Example integer_57 : int_test i8 (-10) (text "-10") /\ int_test u8 (-10) (text "246") /\ int_test i16 (-10) (text "-10") /\
  int_test u16 (-10) (text "65526") /\ int_test i32 (-10) (text "-10") /\ int_test u32 (-10) (text "4294967286"). Proof. ok. Qed.
Example integer_63 : int_test s64 (-1199511627775) (text "-1199511627775") /\ int_test u64 (-1199511627775) (text "18446742874197923841"). Proof. ok. Qed.
(** the loop over -256..255; the expected text is the standard library's decimal notation *)
Definition decimal (z : Z) : buf := text (Coq.Numbers.DecimalString.NilZero.string_of_int (Z.to_int z)).
Definition loop_range : list Z := map (fun n => Z.of_nat n - 256) (seq 0 512).
Example integer_68 : map (fun i => out int32 i) loop_range = map (fun i => Some (decimal i)) loop_range /\
  map (fun i => inp int32 0 (decimal i)) loop_range = map (fun i => Some (i, false)) loop_range. Proof. ok. Qed.
Example string_91 : value_test string_codec (text "привет") [] (jt "'привет'"). Proof. ok. Qed.
Example string_92 : value_test string_codec (text "😶☺😇🙄🤗😇🙄☺😎🙄") [] (jt "'😶☺😇🙄🤗😇🙄☺😎🙄'"). Proof. ok. Qed.
Definition vstr : buf := text "hello" ++ [0] ++ text "world!" ++ [130] ++ text "Привет\мир!" ++ [132; 131] ++ text "世界你好!".
Definition json2 : buf := jt "'hello\u0000world!\x82Привет\\мир!\x84\x83世界你好!'".
Example string1_111 : out string_codec vstr = Some json2. Proof. ok. Qed.
(** \u0000 is read as the six characters it is written with *)
Example string1_123 : inp string_codec [] json2 =
  Some (text "hello\u0000world!" ++ [130] ++ text "Привет\мир!" ++ [132; 131] ++ text "世界你好!", false). Proof. ok. Qed.
Example string1_131 : inp string_codec vstr (jt "'世界你好'") = Some (text "世界你好", false). Proof. ok. Qed.

(** ---- tests/_json_suite.cpp ---- *)
Example json_11 : json_literal (text "'test'") = QT :: text "test" ++ [QT]. Proof. ok. Qed.

(** ---- tests/dict_suite.cpp (the case of std::unordered_map depends on hashes) ---- *)
Definition m_ss := map_codec str_lt string_codec string_codec ([], []).
Definition v_ss := dict_vec_codec string_codec string_codec ([], []).
Definition raz := text "раз". Definition dva := text "два".
Example dict1_19 : out m_ss (set_insert (klt str_lt) (dva, dva) (set_insert (klt str_lt) (raz, raz) [])) = Some (jt "{'два':'два','раз':'раз'}"). Proof. ok. Qed.
Example dict1_22 : inp0 m_ss [] (jt "{'два':'два','раз':'раз'}") = Some [(dva, dva); (raz, raz)]. Proof. ok. Qed.
Example dict1_55 : out v_ss [(raz, raz); (dva, dva)] = Some (jt "{'раз':'раз','два':'два'}"). Proof. ok. Qed.
Example dict1_58 : inp0 v_ss [] (jt "{'раз':'раз','два':'два'}") = Some [(raz, raz); (dva, dva)]. Proof. ok. Qed.
Example dict2_76 : out v_ss [] = Some (text "{}"). Proof. ok. Qed.

(** ---- tests/array_suite.cpp ---- *)
Definition arr5 := c_array_codec int32 5.
Definition n5 (a b c d e : Z) : vec Z 5 := (a, (b, (c, (d, (e, tt))))).
Definition report {A} (c : codec A) (old : A) (s : buf) (pos : Z) (msg tr : buf) : Prop :=
  match err c old s with Some j => where_ j s = pos /\ message j = msg /\ trace j s = Ok tr | None => False end.
Example array1_16 : out arr5 (n5 1 2 3 4 5) = Some (text "[1,2,3,4,5]"). Proof. ok. Qed.
Example array1_21 : inp arr5 (n5 0 0 0 0 0) (text "[1,2,3,4,5]") = Some (n5 1 2 3 4 5, false). Proof. ok. Qed.
Example array1_34 : report arr5 (n5 1 2 3 4 5) (text "1,2,3,4,5]") 0 (text "Expected Of '['") (text ">>>1,2,3,4,5]"). Proof. ok. Qed.
Example array1_43 : report arr5 (n5 1 2 3 4 5) (text "[1,2,3,4,5") 10 (text "Unexpected End of Fragment") (text "[1,2,3,4,5<<<"). Proof. ok. Qed.
Example array1_53 : report arr5 (n5 1 2 3 4 5) (text "[1,2,3,[4,5]") 7 (text "Invalid Number") (text "[1,2,3,>>>[4,5]"). Proof. ok. Qed.
Example array1_63 : report arr5 (n5 1 2 3 4 5) (text "[1,2,3 4,5]") 7 (text "Expected Of ','") (text "[1,2,3 >>>4,5]"). Proof. ok. Qed.
Example array1_72 : report arr5 (n5 1 2 3 4 5) (text "[1,2,'3 4',5]") 5 (text "Invalid Number") (text "[1,2,>>>'3 4',5]"). Proof. ok. Qed.
Definition arr22 := c_array_codec (c_array_codec int32 2) 2.
Definition n2 {A} (a b : A) : vec A 2 := (a, (b, tt)).
Definition n1 {A} (a : A) : vec A 1 := (a, tt).
Example array2_88 : out arr22 (n2 (n2 1 2) (n2 3 4)) = Some (text "[[1,2],[3,4]]"). Proof. ok. Qed.
Example array2_93 : inp arr22 (n2 (n2 1 2) (n2 3 4)) (text "[[4,3],[2,1]]") = Some (n2 (n2 4 3) (n2 2 1), false) /\
  out arr22 (n2 (n2 4 3) (n2 2 1)) = Some (text "[[4,3],[2,1]]"). Proof. ok. Qed.
Definition arr221 := c_array_codec (c_array_codec (c_array_codec int32 1) 2) 2.
Definition n221 a b c d : vec (vec (vec Z 1) 2) 2 := n2 (n2 (n1 a) (n1 b)) (n2 (n1 c) (n1 d)).
Example array3_111 : out arr221 (n221 1 2 3 4) = Some (text "[[[1],[2]],[[3],[4]]]"). Proof. ok. Qed.
Example array3_116 : inp arr221 (n221 1 2 3 4) (text "[[[4],[3]],[[2],[1]]]") = Some (n221 4 3 2 1, false) /\
  out arr221 (n221 4 3 2 1) = Some (text "[[[4],[3]],[[2],[1]]]"). Proof. ok. Qed.
Example array3_124 : inp arr221 (n221 4 3 2 1) (text "[[[],[]],[[],[5]]]") = Some (n221 4 3 2 5, false). Proof. ok. Qed.
Example array3_132 : inp arr221 (n221 4 3 2 5) (text "[[[null],[null]],[[null],[5]]]") = Some (n221 0 0 0 5, false). Proof. ok. Qed.
Example array3_140 : inp arr221 (n221 0 0 0 5) (text "null") = Some (n221 0 0 0 0, false). Proof. ok. Qed.
Definition vs := vector_codec string_codec [].
Example array4_159 : out vs [text "Привет"; text "Мир"; text "!"; text "世界你好!"] = Some (jt "['Привет','Мир','!','世界你好!']"). Proof. ok. Qed.
Example array4_165 : inp vs [] (jt "['Привет','Мир','!','世界你好!']") = Some ([text "Привет"; text "Мир"; text "!"; text "世界你好!"], false). Proof. ok. Qed.
(** std::deque and std::list are modelled like std::vector *)
Definition vi := vector_codec int32 0.
Example array5_182 : out vi [1; 2; 3; 4; 5] = Some (text "[1,2,3,4,5]") /\ inp vi [] (text "[1,2,3,4,5]") = Some ([1; 2; 3; 4; 5], false). Proof. ok. Qed.
Example array7_220 : out (set_codec Z.ltb int32 0) [1; 2; 3; 4; 5] = Some (text "[1,2,3,4,5]") /\
  inp (set_codec Z.ltb int32 0) [] (text "[1,2,3,4,5]") = Some ([1; 2; 3; 4; 5], false). Proof. ok. Qed.
Example array8_241 : out (multiset_codec Z.ltb int32 0) [1; 1; 1; 2; 3; 4; 5] = Some (text "[1,1,1,2,3,4,5]") /\
  inp (multiset_codec Z.ltb int32 0) [] (text "[1,1,1,2,3,4,5]") = Some ([1; 1; 1; 2; 3; 4; 5], false). Proof. ok. Qed.

(** ---- tests/size_suite.cpp ---- *)
Definition wtest (t : ity) (metric v : Z) (chk : buf) : Prop := out (size_codec t metric) v = Some chk.
Definition rtest (t : ity) (metric : Z) (s : buf) (v : Z) : Prop := inp (size_codec t metric) 0 s = Some (v, false).
Definition Ki := 1024.
Example size1_write_37 : wtest u64 1 0 (jt "0") /\ wtest u64 1 1 (jt "1") /\ wtest u64 1 33 (jt "33") /\
  wtest u64 1 1000 (jt "'1KB'") /\ wtest u64 1 1024 (jt "'1KiB'") /\ wtest u64 1 1001 (jt "1001"). Proof. ok. Qed.
Example size1_write_46 : wtest u64 1 1000000 (jt "'1MB'") /\ wtest u64 1 1001000 (jt "'1001KB'") /\ wtest u64 1 (Ki*Ki) (jt "'1MiB'") /\
  wtest u64 1 (Ki*1001) (jt "'1001KiB'") /\ wtest u64 1 1001001 (jt "1001001"). Proof. ok. Qed.
Example size1_write_52 : wtest u64 1 1000000000 (jt "'1GB'") /\ wtest u64 1 1001000000 (jt "'1001MB'") /\ wtest u64 1 1001001000 (jt "'1001001KB'") /\
  wtest u64 1 (Ki*Ki*Ki) (jt "'1GiB'") /\ wtest u64 1 (Ki*Ki*1001) (jt "'1001MiB'") /\ wtest u64 1 (Ki*1001001) (jt "'1001001KiB'") /\
  wtest u64 1 1001001001 (jt "1001001001"). Proof. ok. Qed.
Example size1_write_60 : wtest u64 1 1000000000000 (jt "'1TB'") /\ wtest u64 1 1001000000000 (jt "'1001GB'") /\ wtest u64 1 1001001000000 (jt "'1001001MB'") /\
  wtest u64 1 1001001001000 (jt "'1001001001KB'") /\ wtest u64 1 (Ki*Ki*Ki*Ki) (jt "'1TiB'") /\ wtest u64 1 (Ki*Ki*Ki*1001) (jt "'1001GiB'") /\
  wtest u64 1 (Ki*Ki*1001001) (jt "'1001001MiB'") /\ wtest u64 1 (Ki*1001001001) (jt "'1001001001KiB'") /\
  wtest u64 1 1001001001001 (jt "1001001001001"). Proof. ok. Qed.
Example size1000_write_78 : wtest u64 1000 0 (jt "'0KB'") /\ wtest u64 1000 1 (jt "'1KB'") /\ wtest u64 1000 33 (jt "'33KB'") /\
  wtest u64 1000 1000 (jt "'1MB'") /\ wtest u64 1000 1001 (jt "'1001KB'") /\ wtest u64 1000 1000000 (jt "'1GB'") /\
  wtest u64 1000 1001000 (jt "'1001MB'") /\ wtest u64 1000 1001001 (jt "'1001001KB'") /\ wtest u64 1000 1000000000 (jt "'1TB'") /\
  wtest u64 1000 1001000000 (jt "'1001GB'") /\ wtest u64 1000 1001001000 (jt "'1001001MB'") /\ wtest u64 1000 1001001001 (jt "'1001001001KB'") /\
  wtest i16 1000 30 (jt "'30KB'"). Proof. ok. Qed.
Example size1024_write_105 : wtest u64 1024 0 (jt "'0KiB'") /\ wtest u64 1024 1 (jt "'1KiB'") /\ wtest u64 1024 33 (jt "'33KiB'") /\
  wtest u64 1024 1024 (jt "'1MiB'") /\ wtest u64 1024 1025 (jt "'1025KiB'") /\ wtest u64 1024 (Ki*Ki) (jt "'1GiB'") /\
  wtest u64 1024 (Ki*Ki*Ki) (jt "'1TiB'") /\ wtest u64 1024 (Ki*Ki*Ki - 73741824) (jt "'1024GB'"). Proof. ok. Qed.
Example size1000000_write_125 : wtest u64 1000000 0 (jt "'0MB'") /\ wtest u64 1000000 1 (jt "'1MB'") /\ wtest u64 1000000 33 (jt "'33MB'") /\
  wtest u64 1000000 1000 (jt "'1GB'") /\ wtest u64 1000000 1001 (jt "'1001MB'") /\ wtest u64 1000000 1000000 (jt "'1TB'") /\
  wtest u64 1000000 1001000 (jt "'1001GB'") /\ wtest u64 1000000 1001001 (jt "'1001001MB'") /\ wtest u64 1000000 1000000000 (jt "'1000TB'") /\
  wtest u64 1000000 1001000000 (jt "'1001TB'") /\ wtest u64 1000000 1001001000 (jt "'1001001GB'") /\ wtest u64 1000000 1001001001 (jt "'1001001001MB'"). Proof. ok. Qed.
Example size1_read_152 : rtest u64 1 (jt "'10TiB'") (10*Ki*Ki*Ki*Ki) /\ rtest u64 1 (jt "'10TB'") 10000000000000 /\ rtest u64 1 (jt "'10GiB'") (10*Ki*Ki*Ki) /\
  rtest u64 1 (jt "'10GB'") 10000000000 /\ rtest u64 1 (jt "'10MiB'") (10*Ki*Ki) /\ rtest u64 1 (jt "'10MB'") 10000000 /\ rtest u64 1 (jt "'10KiB'") (10*Ki) /\
  rtest u64 1 (jt "'10KB'") 10000 /\ rtest u64 1 (jt "'10B'") 10 /\ rtest u64 1 (jt "'10'") 10 /\ rtest u64 1 (jt "10") 10. Proof. ok. Qed.
Example size1_read_165 : rtest i32 1 (jt "'1GB'") 1000000000 /\ rtest i32 1 (jt "'10MB'") 10000000 /\ rtest i32 1 (jt "'10KB'") 10000 /\
  rtest i32 1 (jt "'10B'") 10 /\ rtest i32 1 (jt "'10'") 10 /\ rtest i32 1 (jt "10") 10. Proof. ok. Qed.
Example size1_read_172 : rtest u64 1024 (jt "'10TiB'") (10*Ki*Ki*Ki) /\ rtest u64 1000 (jt "'10TB'") 10000000000 /\
  rtest u64 (Ki*Ki) (jt "'10TiB'") (10*Ki*Ki) /\ rtest u64 1000000 (jt "'10TB'") 10000000. Proof. ok. Qed.

(** ---- tests/time_suite.cpp ---- *)
Definition t_s := time_codec s64 1. Definition t_ms := time_codec s64 1000. Definition t_mks := time_codec s64 1000000.
Example time_32 : out t_ms (1568112168666 + 3600000) = Some (jt "'18149d11h42m48s666ms'"). Proof. ok. Qed.
Example time_37 : out t_ms 999 = Some (jt "'999ms'") /\ out t_ms 1000 = Some (jt "'1s'") /\ out t_ms 1001 = Some (jt "'1s1ms'") /\
  out t_ms 61001 = Some (jt "'1m1s1ms'") /\ out t_ms (3661*1000 + 1) = Some (jt "'1h1m1s1ms'") /\
  out t_ms ((3600*24 + 3600 + 60 + 1)*1000 + 1) = Some (jt "'1d1h1m1s1ms'"). Proof. ok. Qed.
Example time_67 : out t_mks ((3600*24 + 3600 + 60 + 1)*1000000 + 1000 + 1) = Some (jt "'1d1h1m1s1ms1mks'"). Proof. ok. Qed.
Example time_73 : inp t_ms 0 (jt "'1d1h1m1s1ms1mks'") = Some ((3600*24 + 3600 + 60 + 1)*1000 + 1, false). Proof. ok. Qed.
Example time_79 : inp t_mks 0 (jt "'1234567890ms'") = Some (1234567890000, false). Proof. ok. Qed.
Example time_85 : inp t_mks 0 (jt "'1d1h1m1s1ms1mks'") = Some ((3600*24 + 3600 + 60 + 1)*1000000 + 1000 + 1, false). Proof. ok. Qed.
Example time_91 : inp t_s 0 (jt "'1s11111111mks'") = Some (12, false). Proof. ok. Qed.
Definition ts := 3600*3 + 44. Definition tms := ts * 1000 + 666. Definition tmks := tms * 1000 + 777.
Example time_102 : inp t_mks 0 (jt "'3h44s666ms777mks'") = Some (tmks, false) /\ out t_mks tmks = Some (jt "'3h44s666ms777mks'"). Proof. ok. Qed.
Record tA := mktA { a_s : Z; a_ms : Z; a_mks : Z }.
Definition A_json := object_codec Nonstrict
  [MRef (mkmem (text "timeout_s") a_s (fun t x => mktA x (a_ms t) (a_mks t)) t_s);
   MRef (mkmem (text "timeout_ms") a_ms (fun t x => mktA (a_s t) x (a_mks t)) t_ms);
   MRef (mkmem (text "timeout_mks") a_mks (fun t x => mktA (a_s t) (a_ms t) x) t_mks)] (mktA 0 0 0).
Definition org := jt "{'timeout_s':'3h44s','timeout_ms':'3h44s666ms','timeout_mks':'3h44s666ms777mks'}".
Example time_112 : out A_json (mktA ts tms tmks) = Some org /\ inp A_json (mktA 0 0 0) org = Some (mktA ts tms tmks, false). Proof. ok. Qed.
Example time_130 : inp A_json (mktA 0 0 0) (jt "{'timeout_s':" ++ decimal ts ++ jt ",'timeout_ms':" ++ decimal tms ++ jt ",'timeout_mks':" ++ decimal tmks ++ jt "}")
  = Some (mktA ts tms tmks, false). Proof. ok. Qed.

(** ---- tests/enum_suite.cpp ---- *)
Definition list6 : elist := [(text "one", 1); (text "two", 2); (text "three", 4); (text "four", 8); (text "five", 16); (text "six", 32)].
Definition list7 : elist := list6 ++ [(text "seven", 64)].
Definition count_json := enum_codec Nonstrict list6.
Definition count2_json := enum_codec Strict list7.
Definition flags1 (sep : Z) := flags_codec sep Strict list6.
Definition flags2 (sep : Z) := flags_codec sep Strict list7.
Example enum1_174 : out (flags2 COMMA) 37 = Some (jt "['one','three','six']"). Proof. ok. Qed.
Example enum1_180 : inp (flags2 COMMA) 0 (jt "['one','three','six']") = Some (37, false). Proof. ok. Qed.
Example enum1_188 : inp (flags2 COMMA) 0 (jt "[ 'three', 'six', 'one' ]") = Some (37, false). Proof. ok. Qed.
Example enum1_196 : inp (flags2 COMMA) 0 (jt "'three, six, one'") = Some (37, false). Proof. ok. Qed.
Example enum1_205 : match err (flags2 COMMA) 0 (jt "[ 'three', 'six', 1 ]") with Some j => code j = ExpectedOf | None => False end. Proof. ok. Qed.
Example enum2_227 : out (flags2 BAR) 37 = Some (jt "'one|three|six'"). Proof. ok. Qed.
Example enum2_232 : inp (flags2 BAR) 0 (jt "'one|three|six'") = Some (37, false). Proof. ok. Qed.
Example enum2_240 : inp (flags2 BAR) 0 (jt "'    six |  three   |  one   '") = Some (37, false). Proof. ok. Qed.
Example enum2_248 : inp (flags2 BAR) 0 (jt "['six','three','one']") = Some (37, false). Proof. ok. Qed.
Example enum2_256 : match err (flags2 BAR) 0 (jt "'three |six | 1 '") with Some j => code j = InvalidEnum | None => False end. Proof. ok. Qed.
Record efoo := mkefoo { e_flags : Z; e_flags2 : Z; e_counter2 : Z; e_counter : Z }.
Definition efoo_json (sep : Z) := object_codec Nonstrict
  [MRef (mkmem (text "counter") e_counter (fun t x => mkefoo (e_flags t) (e_flags2 t) (e_counter2 t) x) count_json);
   MRef (mkmem (text "counter2") e_counter2 (fun t x => mkefoo (e_flags t) (e_flags2 t) x (e_counter t)) count2_json);
   MRef (mkmem (text "flags") e_flags (fun t x => mkefoo x (e_flags2 t) (e_counter2 t) (e_counter t)) (flags1 sep));
   MRef (mkmem (text "flags2") e_flags2 (fun t x => mkefoo (e_flags t) x (e_counter2 t) (e_counter t)) (flags2 sep))] (mkefoo 0 0 0 1).
Definition again {A} (c : codec A) (d0 v : A) : option (A * bool) := match out c v with Some s => inp c d0 s | None => None end.
Example enum3_283 : again (efoo_json COMMA) (mkefoo 0 0 0 1) (mkefoo 37 4 32 8) = Some (mkefoo 37 4 32 8, false). Proof. ok. Qed.
Example enum4_312 : again (efoo_json PLUS) (mkefoo 0 0 0 1) (mkefoo 37 4 32 8) = Some (mkefoo 37 4 32 8, false). Proof. ok. Qed.
Example enum5_329 : inp count_json 0 (jt "'six1'") = Some (0, false). Proof. ok. Qed.

(** ---- tests/object_suite.cpp ---- *)
Record foo := mkfoo { foo1 : Z; foo2 : buf; foo3 : list buf; foo4 : list Z }.
Record bar := mkbar { bfoo : foo; bar1 : foo; bar2 : list foo; bar3 : list (buf * foo) }.
Definition foo_ : foo := mkfoo 0 [] [] []. Definition bar_ : bar := mkbar foo_ foo_ [] [].
(** the members of foo, in any class that contains a foo (base<foo_json>) *)
Section Foo.
  Context {T : Type} (g : T -> foo) (p : T -> foo -> T).
  Definition Lfoo : list (memb T) :=
    [MRef (mkmem (text "foo1") (fun t => foo1 (g t)) (fun t x => p t (mkfoo x (foo2 (g t)) (foo3 (g t)) (foo4 (g t)))) int32);
     MRef (mkmem (text "foo2") (fun t => foo2 (g t)) (fun t x => p t (mkfoo (foo1 (g t)) x (foo3 (g t)) (foo4 (g t)))) string_codec);
     MRef (mkmem (text "foo3") (fun t => foo3 (g t)) (fun t x => p t (mkfoo (foo1 (g t)) (foo2 (g t)) x (foo4 (g t)))) vs);
     MProp (mkmem (text "foo4") (fun t => foo4 (g t)) (fun t x => p t (mkfoo (foo1 (g t)) (foo2 (g t)) (foo3 (g t)) x)) vi) []].
End Foo.
Definition Lid : list (memb foo) := Lfoo (fun t => t) (fun _ x => x).
Definition Lbar (c : codec foo) : list (memb bar) := Lfoo bfoo (fun t x => mkbar x (bar1 t) (bar2 t) (bar3 t)) ++
  [MRef (mkmem (text "bar1") bar1 (fun t x => mkbar (bfoo t) x (bar2 t) (bar3 t)) c);
   MRef (mkmem (text "bar2") bar2 (fun t x => mkbar (bfoo t) (bar1 t) x (bar3 t)) (vector_codec c foo_));
   MRef (mkmem (text "bar3") bar3 (fun t x => mkbar (bfoo t) (bar1 t) (bar2 t) x) (map_codec str_lt string_codec c ([], foo_)))].
Definition foo_json := object_codec Nonstrict Lid foo_.
Definition bar_json := object_codec Nonstrict (Lbar foo_json) bar_.
Definition foo_array_json := oarray_codec Lid foo_.
Definition bar_array_json := oarray_codec (Lbar foo_array_json) bar_.
Definition fA := mkfoo 100500 (text "aqualung") [] []. Definition fB := mkfoo (-100500) (text "drowned") [] [].
Definition b1 := mkbar (mkfoo 100500 (text "aqualung") [text "one"; text "two"; text "three"] [1; 2; 3; 4; 5])
  (mkfoo (-100500) (text "drowned") [text "three"; text "two"; text "one"] [])
  [fA; fB] [(text "Dapkūnaitė", fB); (text "Ingeborga", fA)].
Example object1_137 : again bar_json bar_ b1 = Some (b1, false) /\
  match out bar_json b1 with Some s => inp0 bar_json bar_ s = Some b1 | None => False end. Proof. ok. Qed.
Example object2_168 : again bar_array_json bar_ b1 = Some (b1, false) /\
  match out bar_array_json b1 with Some s => inp0 bar_array_json bar_ s = Some b1 | None => False end. Proof. ok. Qed.
Record baz := mkbaz { z1 : Z; z2 : buf }.
Definition baz_json (pri : bool) := object_codec Nonstrict
  [MIf pri (mkmem (text "foo") z1 (fun t x => mkbaz x (z2 t)) int32)
           (mkmem (text "foo") z2 (fun t x => mkbaz (z1 t) x) string_codec) (Z.eqb 0)] (mkbaz 0 []).
Example object3_211 : forall pri, out (baz_json pri) (mkbaz 0 (text "hello")) = Some (jt "{'foo':'hello'}"). Proof. intros []; ok. Qed.
Example object3_221 : forall pri, inp (baz_json pri) (mkbaz 10 []) (jt "{'foo':'hello'}") = Some (mkbaz 0 (text "hello"), false). Proof. intros []; ok. Qed.
Example object3_228 : forall pri, out (baz_json pri) (mkbaz 123 (text "hello")) = Some (jt "{'foo':123}"). Proof. intros []; ok. Qed.
Example object3_234 : forall pri, inp (baz_json pri) (mkbaz 10 (text "---")) (jt "{'foo':123}") = Some (mkbaz 123 [], false). Proof. intros []; ok. Qed.

(** ---- tests/schema_suite.cpp ---- *)
Definition sfoo0 : sclass Z := mksclass 0 (Some 0) (Some (fun _ => 0)) (Some (fun _ => 0)) (Some (fun _ _ => (0, true))) (Some []).
Definition sfoo1 : sclass Z := mksclass 0 None None None None None.
Definition sfoo2 : sclass Z := mksclass 0 None None (Some (fun _ => 0)) None None.
Definition sfoo4 : sclass Z := mksclass 0 None None None
  (Some (fun _ name => if str_eq name (text "1") then (1, true) else if str_eq name (text "2") then (2, true)
                       else match name with [] => (3, true) | _ => (4, false) end)) None.
Example has_schema_71 : has_schema sfoo0 = true /\ has_schema sfoo1 = false /\ has_schema sfoo2 = true. Proof. ok. Qed.
Example create_schema_83 : create_obj sfoo0 7 [] = Some (0, true) /\ create_obj sfoo1 7 [] = Some (0, true). Proof. ok. Qed.
Example create_schema_88 : create_obj sfoo4 0 (text "5") = Some (4, false) /\ create_obj sfoo4 4 [] = Some (3, true) /\
  create_obj sfoo4 3 (text "1") = Some (1, true) /\ create_obj sfoo4 1 (text "2") = Some (2, true). Proof. ok. Qed.

(** ---- tests/util_suite.cpp ---- *)
Example errors_20 : cerr ExpectedOf (Some (text ";")) 3 (Some no_error) = Some (mkerr ExpectedOf (Some (text ";")) 3). Proof. ok. Qed.
Example errors_35 : match cerr InvalidRequest (Some (text "l")) 100 (Some no_error) with
  | Some j => tail_of j = 100 /\ where_ j [] = 0 /\ what j = text "Invalid JSON-RPC Request" | None => False end. Proof. ok. Qed.
Definition hi := jt "'Привет мир!'".
Example util1_54 : inp0 raw_codec [] hi = Some hi /\ out raw_codec hi = Some hi. Proof. ok. Qed.
Example util2_70 : inp0 ipair_codec [] hi = Some hi. Proof. ok. Qed.
Definition mval := member_value_codec (fun v : Z => v) (fun _ x => x) int32.
Example util3_98 : out mval 12345 = Some (text "12345") /\ inp0 mval 12345 (text "54321") = Some 54321. Proof. ok. Qed.
Definition ptr_json := ptr_codec string_codec [].
Definition hey := text "Привет мир!".
Example util4_126 : out ptr_json (Some hey) = Some hi /\ inp0 ptr_json None hi = Some (Some hey) /\
  inp0 ptr_json (Some hey) (text "null") = Some None /\ out ptr_json None = Some (text "null"). Proof. ok. Qed.
Example util5_168 : out (field_codec string_codec int32) (text "foo", 12345) = Some (jt "'foo':12345"). Proof. ok. Qed.
Example util6_179 : out (quoted_codec int32 true true) 123456 = Some (jt "'123456'") /\ inp0 (quoted_codec int32 true true) 0 (jt "'123456'") = Some 123456. Proof. ok. Qed.
Example util6_186 : out (quoted_codec int32 false false) 123456 = Some (text "123456") /\ inp0 (quoted_codec int32 false false) 0 (text "123456") = Some 123456. Proof. ok. Qed.
Example util6_196 : out (quoted_codec vi true true) [1; 2; 3] = Some (jt "'[1,2,3]'") /\ inp0 (quoted_codec vi true true) [] (jt "'[1,2,3]'") = Some [1; 2; 3]. Proof. ok. Qed.
Example util6_209 : match inp (quoted_codec vi true true) [] (jt "'[1,[1,2,3,4],3]'") with Some (_, b) => b = true | None => False end. Proof. ok. Qed.
Example util7_220 : out (rquoted_codec true true) (text "123456") = Some (jt "'123456'") /\
  inp (rquoted_codec true true) (text "0") (jt "'123456'") = Some (text "123456", false). Proof. ok. Qed.
Example util7_230 : out (rquoted_codec false false) (text "123456") = Some (text "123456") /\
  inp (rquoted_codec false false) (text "0") (text "123456") = Some (text "123456", false). Proof. ok. Qed.
Example util7_240 : out (rquoted_codec true true) (text "[1,2,3]") = Some (jt "'[1,2,3]'") /\
  inp (rquoted_codec true true) [] (jt "'[1,2,3]'") = Some (text "[1,2,3]", false) /\
  inp (rquoted_codec true true) [] (jt "'[1,[1,2,3,4],3]'") = Some (text "[1,[1,2,3,4],3]", false). Proof. ok. Qed.
(** the four targets are shown by their written texts *)
Definition four_ : list slot := [mkslot bool bool_codec false; mkslot Z int32 0; mkslot buf string_codec []; mkslot (list Z) vi []].
Definition shown (x : slot) : option buf := match x with mkslot _ c v => out c v end.
Definition many (s : buf) (e : eptr) := match multi (Some 0) s four_ e with
  | Ok (n, l, e') => Some (n, map shown l, has_err e') | _ => None end.
Definition four (a b c d : buf) : list (option buf) := [Some a; Some b; Some c; Some d].
Example utility_291 : many (text "123") None = Some (1, four (text "false") (text "123") (jt "''") (text "[]"), false). Proof. ok. Qed.
Example utility_300 : many (text "true") None = Some (0, four (text "true") (text "0") (jt "''") (text "[]"), false). Proof. ok. Qed.
Example utility_309 : many (text "[1,2,3]") None = Some (3, four (text "false") (text "0") (jt "''") (text "[1,2,3]"), false). Proof. ok. Qed.
Example utility_319 : many (text "{}") clean = Some (4, four (text "false") (text "0") (jt "''") (text "[]"), false). Proof. ok. Qed.
Example utility_328 : many (text "{[1,2,3]}") clean = Some (4, four (text "false") (text "0") (jt "''") (text "[]"), true). Proof. ok. Qed.

(** ---- examples/ (1, 3, 16 and 17 document no output; the line is that of the call) ---- *)
Definition raw_pointer (l : list op) : buf :=   (* example1:16-19; a hole is a byte never written *)
  let '(m, a) := ptr_run l (fun _ => None) 0 in map (fun i => match m (Z.of_nat i) with Some b => b | None => -1 end) (seq 0 (Z.to_nat a)).
Example example1_17 : match ser int32 12345 with Ok l => raw_pointer l = text "12345" | _ => False end. Proof. ok. Qed.
Example example3_21 : inp0 string_codec [] (jt "'hello world!'") = Some (text "hello world!") /\
  inp0 string_codec [] (jt "'\u041F\u0440\u0438\u0432\u0435\u0442\u0020\u043C\u0438\u0440\u0021'") = Some (text "Привет мир!") /\
  inp0 (chars_codec 128) (repeat 0 128) (jt "'\u4E16\u754C\u4F60\u597D!'") = Some (text "世界你好!" ++ repeat 0 115).
Proof. ok. Qed.
Example example4_25 : match err vi [] (text "[1,2,3}5,6]") with
  | Some j => ecode_num (code j) = 3 /\ tail_of j = 5 /\ expected_of j = Some (text ",") /\ where_ j (text "[1,2,3}5,6]") = 6 /\
      message j = text "Expected Of ','" /\ trace j (text "[1,2,3}5,6]") = Ok (text "[1,2,3>>>}5,6]") /\
      message_trace j (text "[1,2,3}5,6]") = Ok (text "Expected Of ',': [1,2,3>>>}5,6]")
  | None => False end. Proof. ok. Qed.
Record ex7 := mkex7 { x_flag : bool; x_value : Z; x_string : buf }.
Record ex9 := mkex9 { y_foo : ex7; y_vfoo : list ex7; y_pfoo : option ex7; y_data : list Z }.
Definition x0 := mkex7 false 0 [].
Section Ex7.
  Context {T : Type} (g : T -> ex7) (p : T -> ex7 -> T).
  Definition Lex7 : list (memb T) :=
    [MRef (mkmem (text "flag") (fun t => x_flag (g t)) (fun t x => p t (mkex7 x (x_value (g t)) (x_string (g t)))) bool_codec);
     MRef (mkmem (text "value") (fun t => x_value (g t)) (fun t x => p t (mkex7 (x_flag (g t)) x (x_string (g t)))) int32);
     MRef (mkmem (text "string") (fun t => x_string (g t)) (fun t x => p t (mkex7 (x_flag (g t)) (x_value (g t)) x)) string_codec)].
End Ex7.
Definition Lex7_id : list (memb ex7) := Lex7 (fun t => t) (fun _ x => x).
Definition ex7_json := object_codec Nonstrict Lex7_id x0.
Definition base7 : list (memb ex9) := Lex7 y_foo (fun t x => mkex9 x (y_vfoo t) (y_pfoo t) (y_data t)).
Definition world := text "Привет Мир".
Example example7_40 : inp0 ex7_json x0 (jt "{'flag':false,'value':0,'string':'Привет Мир'}") = Some (mkex7 false 0 world) /\
  out ex7_json (mkex7 true 1 (text "Пока Мир")) = Some (jt "{'flag':true,'value':1,'string':'Пока Мир'}"). Proof. ok. Qed.
(** the closing brace is missing in the input *)
Definition ex8_json := object_codec Nonstrict (base7 ++
  [MRef (mkmem (text "data") y_data (fun t x => mkex9 (y_foo t) (y_vfoo t) (y_pfoo t) x) vi)]) (mkex9 x0 [] None []).
Example example8_63 : inp0 ex8_json (mkex9 x0 [] None []) (jt "{'flag':false,'value':0,'string':'Привет Мир','data':[1,2]") = Some (mkex9 (mkex7 false 0 world) [] None [1; 2]) /\
  out ex8_json (mkex9 (mkex7 true 0 world) [] None [1; 2; 3]) = Some (jt "{'flag':true,'value':0,'string':'Привет Мир','data':[1,2,3]}"). Proof. ok. Qed.
Definition Lex9 (c : codec ex7) : list (memb ex9) := base7 ++
  [MRef (mkmem (text "vfoo") y_vfoo (fun t x => mkex9 (y_foo t) x (y_pfoo t) (y_data t)) (vector_codec c x0));
   MRef (mkmem (text "pfoo") y_pfoo (fun t x => mkex9 (y_foo t) (y_vfoo t) x (y_data t)) (ptr_codec c x0))].
Definition ex9_json := object_codec Nonstrict (Lex9 ex7_json) (mkex9 x0 [] None []).
Definition x1 := mkex7 true 0 world.
Example example9_73 : inp0 ex9_json (mkex9 x0 [] None []) (jt "{'flag':true,'value':0,'string':'Привет Мир','vfoo':[],'pfoo':null}") = Some (mkex9 x1 [] None []) /\
  out ex9_json (mkex9 x1 [x1] (Some x1) []) = Some (jt
  "{'flag':true,'value':0,'string':'Привет Мир','vfoo':[{'flag':true,'value':0,'string':'Привет Мир'}],'pfoo':{'flag':true,'value':0,'string':'Привет Мир'}}"). Proof. ok. Qed.
Definition dict_json := map_codec str_lt string_codec int32 ([], 0).
Example example10_19 : match inp0 dict_json [] (jt "{'один':1,'два':2,'три':3}") with
  | Some m => out dict_json (set_insert (klt str_lt) (text "четыре", 4) m) = Some (jt "{'два':2,'один':1,'три':3,'четыре':4}") | None => False end. Proof. ok. Qed.
(** the input is not well-formed; the members before the offending text are read.
    The example appends to vfoo and replaces pfoo before writing. *)
Definition ex12_json := oarray_codec (Lex9 (oarray_codec Lex7_id x0)) (mkex9 x0 [] None []).
Example example12_70 : match inp0 ex12_json (mkex9 x0 [] None []) (jt "[true,0,'Привет Мир',[],'pfoo':null]") with
  | Some b => y_foo b = x1 /\ out ex12_json (mkex9 (y_foo b) (y_vfoo b ++ [x1]) (Some x1) []) =
      Some (jt "[true,0,'Привет Мир',[[true,0,'Привет Мир']],[true,0,'Привет Мир']]")
  | None => False end. Proof. ok. Qed.
Definition counter_json := enum_codec Strict [(text "one", 1); (text "two", 2); (text "three", 3); (text "four", 4); (text "five", 5); (hey, 6)].
Example example13_62 : inp0 (vector_codec counter_json 0) [] (jt "['one','two','three']") = Some [1; 2; 3] /\
  out (vector_codec counter_json 0) [1; 2; 3; 4; 5; 6] = Some (jt "['one','two','three','four','five','Привет мир!']"). Proof. ok. Qed.
(** two members describe the same field *)
Definition code_json := enum_codec Strict [(text "Valid JSON.", 0); (text "Invalid JSON.", 1); (text "Parse Error.", 2)].
Definition error_json := object_codec Nonstrict
  [MRef (mkmem (text "code") (fun t : Z => t) (fun _ x => x) int32); MRef (mkmem (text "message") (fun t : Z => t) (fun _ x => x) code_json)] (-1).
Example example14_66 : out error_json 1 = Some (jt "{'code':1,'message':'Invalid JSON.'}"). Proof. ok. Qed.
Example example14_71 : match err error_json (-1) (jt "{'code':1,'message':'Invalid JSON?'}") with Some j => code j = InvalidEnum | None => False end. Proof. ok. Qed.
Definition goat (sep : Z) := flags_codec sep Nonstrict
  [(text "жил", 1); (text "был", 2); (text "у", 4); (text "бабушки", 8); (text "серенький", 16); (text "козлик", 32)].
Example example15_53 : inp0 (goat 32) 0 (jt "'жил был серенький козлик'") = Some 51 /\ out (goat 32) 63 = Some (jt "'жил был у бабушки серенький козлик'") /\
  out (goat COMMA) 48 = Some (jt "['серенький','козлик']") /\ out (goat BAR) 49 = Some (jt "'жил|серенький|козлик'"). Proof. ok. Qed.
Example example16_14 : inp0 (vector_codec raw_codec []) [] (jt "[ 42, null, 'абракадабра', [1,2], {'x':[3,4]}, 7, true ]") =
  Some [text "42"; text "null"; jt "'абракадабра'"; text "[1,2]"; jt "{'x':[3,4]}"; text "7"; text "true"]. Proof. ok. Qed.
Example example17_33 : match parse_value (Some 0) (jt "{'x':[3, 4]}, 7, true ]") clean with Ok (r, e) => r = text ", 7, true ]" /\ e = clean | _ => False end. Proof. ok. Qed.
