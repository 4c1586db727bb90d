(** C76-C81: which texts the readers accept, and what they make of them. *)
From Verif Require Import Base Parser SpecJson SpecNum SpecString Grammar1 Grammar2 Out Number StringS Array Object Enum SpecEnum Float Desc DescProofs CodecLaws
  NumberProofs StringProofs ArrayProofs EnumProofs AcceptProofs SpecExact ExactProofs ObjectArray SpecObject Wrap TimeSize ObjExactProofs WrapExactProofs Properties_Seq Properties_Object Properties_Misc.

(** ---- C76 ---- *)
(** std::string, std::vector<char>: null, or a literal; nothing else succeeds. *)
Theorem C76_string : forall sn old s v r, bytes s -> (reads string_codec sn old s v r <->
  s = text "null" ++ r /\ v = [] \/ exists l, s = QT :: l ++ QT :: r /\ literal 2147483647 l v).
Proof. exact string_exact. Qed.
Print Assumptions C76_string.
(** char[N]: the literal must fit, up to a last UTF-8
    character or kept escape, which are cut; the rest is filled with zeros. *)
Theorem C76_chars : forall N sn old s v r, bytes s -> (reads (chars_codec N) sn old s v r <->
  s = text "null" ++ r /\ v = repeat 0 N \/
  exists l w, s = QT :: l ++ QT :: r /\ literal (Z.of_nat N) l w /\ v = w ++ repeat 0 (N - length w)).
Proof. exact chars_exact. Qed.
Print Assumptions C76_chars.
Example C76_ex : reads string_codec None [] (jt "'a\n\u0001A\xe9/\ud83d' ,") (text "a" ++ [10] ++ text "\u0001A" ++ [233] ++ text "/" ++ [237; 160; 189]) (text " ,").
Proof. exq. Qed.
Example C76_ex_literal : literal 2147483647 (text "a\n\u0001A\xe9") (text "a" ++ [10] ++ text "\u0001A" ++ [233]).
Proof.
  assert (B : bytes (jt "'a\n\u0001A\xe9'")) by (repeat constructor; cbn; lia).
  assert (H : reads string_codec None [] (jt "'a\n\u0001A\xe9'") (text "a" ++ [10] ++ text "\u0001A" ++ [233]) []) by exq.
  apply (C76_string _ _ _ _ _ B) in H. destruct H as [[H _]|(l & H & K)]; [discriminate|].
  assert (l = text "a\n\u0001A\xe9") as <-; [|exact K]. apply app_inv_tail with [QT]. injection H as H. symmetry. exact H.
Qed.
Example C76_ex_cut : reads (chars_codec 4) None [1; 2; 3; 4] (jt "'a\u0001'" ++ text "]") (text "a\u0") (text "]") /\
  reads (chars_codec 4) None [] (QT :: text "ab" ++ [226; 130] ++ QT :: []) (text "ab" ++ [226; 130]) [] /\
  forall v r, ~ reads (chars_codec 4) None [] (jt "'ab€'") v r.
Proof. split; [exq|]. split; [exq|]. intros v r H. vm_compute in H. discriminate. Qed.
(** A control character below 32 without short escape is not decoded: the
    escape is copied, so that the value differs from what was meant. *)
Example C76_ex_kept : kept 1 /\ ~ kept 10 /\ ~ kept 65.
Proof. unfold kept, short_ctl. lia. Qed.

(** ---- C77 ---- *)
Theorem C77_int : forall t sn old s v r, ity_ok t -> (reads (int_codec t) sn old s v r <->
  s = text "null" ++ r /\ v = 0 \/ exists z l, jint z l /\ s = l ++ r /\ int_end l r /\ stored t z v).
Proof. exact int_exact. Qed.
Print Assumptions C77_int.
Theorem C77_float : forall A R (fmt : A -> buf) scan zero sn old s v r, reads (float_codec R fmt scan zero) sn old s v r <->
  s = text "null" ++ r /\ v = zero \/ exists n, rnumber n /\ s = n ++ r /\ num_stop n r /\ v = scan (cstr (firstn (bufsize R) s)).
Proof. exact @float_exact. Qed.
Print Assumptions C77_float.
Theorem C77_enum : forall mode L sn old s v r, reads (enum_codec mode L) sn old s v r <->
  exists g n, Forall low g /\ no_quote n /\ s = g ++ QT :: n ++ QT :: r /\ (first_of L n v \/ mode = Nonstrict /\ ~ In n (enames L) /\ v = 0).
Proof. exact enum_exact. Qed.
Print Assumptions C77_enum.
(** A JSON number the code does not store as it is: an integer out of range is
    reduced modulo 2^bits, a fraction is left in the text. *)
Example C77_ex : reads (int_codec (mkity 1 false)) None 7 (text "-1.5") 255 (text ".5") /\ reads int32 None 7 (text "007") 0 (text "07") /\
  stored (mkity 1 false) (-1) 255.
Proof.
  split; [exq|]. split; [exq|]. split; [vm_compute; split; discriminate|]. split; [exists 1; reflexivity|]. intros H. discriminate.
Qed.
Example C77_ex_wide : forall v r, ~ reads int32 None 7 (text "-2147483648") v r.
Proof. intros v r H. vm_compute in H. discriminate. Qed.
Example C77_ex_float : reads (dbl 2) None [] (text "05") (text "05") (text "5"). Proof. exq. Qed.
Example C77_ex_enum : reads (enum_codec Strict [(text "a", 3); (text "b", 4); (text "a", 5)]) None 0 ([255; 32; 1] ++ jt "'a'x") 3 (text "x") /\
  first_of [(text "a", 3); (text "b", 4); (text "a", 5)] (text "a") 3.
Proof. split; [exq|]. exists [], [(text "b", 4); (text "a", 5)]. split; [reflexivity|intros []]. Qed.

(** ---- C78 ---- *)
Theorem C78_vector : forall A (c : codec A) d0 sn old s v r, dlaw (des c) -> (reads (vector_codec c d0) sn old s v r <->
  s = text "null" ++ r /\ v = [] \/ exists t, s = LBR :: t /\ elements (fun s x r => reads c sn d0 s x r) RBR t v r).
Proof.
  intros A c d0 sn old s v r HD. unfold vector_codec. rewrite (seq_exact vec_cont LBR RBR c d0 sn old s v r HD ltac:(now left)). cbn [c_get c_ins c_new vec_cont].
  split; (intros [H|H]; [now left|right]).
  - destruct H as (t & l & -> & H & ->). exists t. split; [reflexivity|]. now rewrite (fold_snoc l []).
  - destruct H as (t & -> & H). exists t, v. split; [reflexivity|]. split; [exact H|]. now rewrite (fold_snoc v []).
Qed.
Print Assumptions C78_vector.
(** any container: the elements are inserted one after the other *)
Theorem C78_container : forall A C S (k : container A C S) l r0 (c : codec A) d0 sn old s v r, dlaw (des c) -> brackets l r0 ->
  (reads (seq_codec k l r0 c d0) sn old s v r <-> s = text "null" ++ r /\ v = c_get k (c_new k) \/
   exists t xs, s = l :: t /\ elements (fun s x r => reads c sn d0 s x r) r0 t xs r /\ v = c_get k (fold_left (c_ins k) xs (c_new k))).
Proof. exact @seq_exact. Qed.
Print Assumptions C78_container.
(** a member of a dictionary *)
Theorem C78_field : forall K V (kc : codec K) (vc : codec V) sn k0 v0 s k v r, dlaw (des kc) -> dlaw (des vc) ->
  (reads (field_codec kc vc) sn (k0, v0) s (k, v) r <->
   exists s1 s2 s3, reads kc sn k0 s k s1 /\ after_gap s1 (COLON :: s2) /\ after_gap s2 s3 /\ s3 <> [] /\ reads vc sn v0 s3 v r).
Proof. exact @field_exact. Qed.
Print Assumptions C78_field.
Theorem C78_std_array : forall A (c : codec A) d0 sn old s v r, dlaw (des c) -> (reads (stdarray_codec c d0) sn old s v r <->
  s = text "null" ++ r /\ Forall2 (fun x y => exists r', reads c sn x s y r') old v \/
  exists t, s = LBR :: t /\ slots (fun _ s x r => reads c sn d0 s x r) RBR old t v r).
Proof. intros A c d0 sn old s v r HD. exact (fix_exact (Some d0) [] LBR RBR c sn old s v r HD ltac:(now left)). Qed.
Print Assumptions C78_std_array.
Theorem C78_c_array : forall A (c : codec A) sn old s v r, dlaw (des c) -> (reads (carray_codec c) sn old s v r <->
  s = text "null" ++ r /\ Forall2 (fun x y => exists r', reads c sn x s y r') old v \/
  exists t, s = LBR :: t /\ slots (fun x s y r => reads c sn x s y r) RBR old t v r).
Proof. intros A c sn old s v r HD. exact (fix_exact None [COMMA] LBR RBR c sn old s v r HD ltac:(now left)). Qed.
Print Assumptions C78_c_array.
Example C78_ex : reads (vector_codec int32 0) None [9] (text "[ 1 /*,*/, 2,]x") [1; 2] (text "x") /\
  reads (multiset_codec Z.ltb int32 0) None [] (text "[3,1,3]") [1; 3; 3] [] /\
  reads (dict_vec_codec string_codec int32 ([], 0)) None [] (jt "{'a' : 1,null:2}") [(text "a", 1); ([], 2)] [].
Proof. repeat split; exq. Qed.
Example C78_ex_elements : elements (fun s x r => reads int32 None 0 s x r) RBR (text " 1 /*,*/, 2,]x") [1; 2] (text "x").
Proof.
  assert (H : reads (vector_codec int32 0) None [9] (text "[ 1 /*,*/, 2,]x") [1; 2] (text "x")) by exq.
  apply C78_vector in H; [|apply int_dlaw]. destruct H as [[H _]|(t & H & K)]; [discriminate|]. injection H as <-. exact K.
Qed.
Example C78_ex_fixed : reads (carray_codec int32) None [7; 8; 9] (text "[1,2]") [1; 2; 9] [] /\
  reads (carray_codec int32) None [7; 8] (text "[1,2,]") [1; 2] [] /\ (forall v r, ~ reads (carray_codec int32) None [7; 8] (text "[1,2, ]") v r) /\
  reads (carray_codec int32) None [7; 8] (text "null,") [0; 0] (text ",").
Proof. split; [exq|]. split; [exq|]. split; [intros v r H; vm_compute in H; discriminate|exq]. Qed.
(** Closing a comment leaves a slash, and a star behind it opens another one. *)
Example C78_ex_star : after_gap (text "/**/ *") (text "*") /\ ~ after_gap (text "/**/*") (text "*").
Proof.
  split; [apply space_exact; exq|]. intros H. apply space_exact in H. vm_compute in H. discriminate.
Qed.

(** ---- C79 ---- *)
(** Structs.  An empty array is accepted and leaves the struct alone. *)
Theorem C79_object : forall T mode (L : list (memb T)) t0 sn old s v r,
  Forall (memb_all (fun _ c => dlaw (des c))) L -> Forall no_if L -> Forall plain_name (names L) -> bytes s ->
  (reads (object_codec mode L t0) sn old s v r <->
   s = text "null" ++ r /\ v = t0 \/ (exists t, s = LCB :: t /\ after_gap t (RCB :: r) /\ v = old) \/
   (exists t, s = LBR :: t /\ after_gap t (RBR :: r) /\ v = old) \/ exists t s1, s = LCB :: t /\ after_gap t s1 /\ members mode L sn L old s1 v r).
Proof. intros T mode L t0 sn old s v r HD HI HP Hb. now apply object_exact. Qed.
Print Assumptions C79_object.
Theorem C79_object_array : forall T (L : list (memb T)) t0 sn old s v r,
  Forall (memb_all (fun _ c => dlaw (des c))) L -> Forall no_if L ->
  (reads (oarray_codec L t0) sn old s v r <->
   s = text "null" ++ r /\ v = t0 \/ (exists t, s = LBR :: t /\ after_gap t (RBR :: r) /\ v = old) \/
   exists t s1, s = LBR :: t /\ after_gap t s1 /\ ~ heads RBR s1 /\ s1 <> [] /\ places sn L old s1 v r).
Proof. intros T L t0 sn old s v r HD HI. now apply oarray_exact. Qed.
Print Assumptions C79_object_array.
Lemma Lfoo_dlaw : Forall (memb_all (fun _ c => dlaw (des c))) Lfoo.
Proof. repeat constructor; cbn [memb_all m_codec]; apply int_dlaw || exact string_dlaw. Qed.
Example C79_ex : reads (foo_codec Nonstrict) None (mkfoo 7 8 (text "o")) (jt "{ 'b' : 2 ,'x':[1,{}], 'a':1}!") (mkfoo 1 2 (text "o")) (text "!") /\
  reads (oarray_codec Lfoo foo0) None (mkfoo 7 8 (text "o")) (text "[ 1 , 2]!") (mkfoo 1 2 (text "o")) (text "!").
Proof. split; exq. Qed.
Example C79_ex_members : members Nonstrict Lfoo None Lfoo (mkfoo 7 8 (text "o")) (jt "'b' : 2 ,'x':[1,{}], 'a':1}!") (mkfoo 1 2 (text "o")) (text "!").
Proof.
  assert (H : reads (foo_codec Nonstrict) None (mkfoo 7 8 (text "o")) (jt "{'b' : 2 ,'x':[1,{}], 'a':1}!") (mkfoo 1 2 (text "o")) (text "!")) by exq.
  apply C79_object in H; [|exact Lfoo_dlaw|exact Lfoo_noif|apply Lfoo_ok|repeat constructor; cbn; lia].
  destruct H as [[H _]|[(t & H & G & E)|[(t & H & _)|(t & s1 & H & G & M)]]]; try discriminate. injection H as <-. apply space_exact in G. vm_compute in G. injection G as <-. exact M.
Qed.
(** Once all listed members came in order, a repeated one is skipped; before that it is stored again. *)
Example C79_ex_repeated : reads (foo_codec Nonstrict) None foo0 (jt "{'a':1,'b':2,'foo':'x','a':5}") (mkfoo 1 2 (text "x")) [] /\
  reads (foo_codec Nonstrict) None foo0 (jt "{'a':1,'b':2,'a':5,'foo':'x'}") (mkfoo 5 2 (text "x")) [].
Proof. split; exq. Qed.
(** A comma before the brace is accepted only behind the last listed member. *)
Example C79_ex_comma : reads (foo_codec Strict) None foo0 (jt "{'a':1,'b':2,'foo':'x',}") (mkfoo 1 2 (text "x")) [] /\
  forall v r, ~ reads (foo_codec Strict) None foo0 (jt "{'a':1,'b':2,}") v r.
Proof. split; [exq|]. intros v r H. vm_compute in H. discriminate. Qed.

(** ---- C80 ---- *)
Theorem C80_bool : forall sn old s v r, reads bool_codec sn old s v r <->
  s = text "null" ++ r /\ v = false \/ s = text "true" ++ r /\ v = true \/ s = text "false" ++ r /\ v = false.
Proof. exact bool_exact. Qed.
Print Assumptions C80_bool.
(** Whatever begins with n is a null pointer, and four bytes are skipped; so is the empty text. *)
Theorem C80_pointer : forall A (c : codec A) d0 sn old s v r, reads (ptr_codec c d0) sn old s v r <->
  ((s = [] \/ heads 110 s) /\ v = None /\ r = skipn 4 s) \/ exists x, v = Some x /\ s <> [] /\ ~ heads 110 s /\ reads c sn d0 s x r.
Proof. exact @ptr_exact. Qed.
Print Assumptions C80_pointer.
(** quoted: a string, from whose contents the value is read; the contents may go on behind it *)
Theorem C80_quoted : forall A (c : codec A) serq reqq sn old s v r, dlaw (des c) -> (reads (quoted_codec c serq reqq) sn old s v r <->
  (reqq = true \/ heads QT s) /\ (exists b r', reads string_codec sn [] s b r /\ reads c (Some 0) old b v r') \/
  reqq = false /\ ~ heads QT s /\ reads c sn old s v r).
Proof. exact @quoted_exact. Qed.
Print Assumptions C80_quoted.
Theorem C80_raw_quoted : forall serq reqq sn old s v r, bytes s -> (reads (rquoted_codec serq reqq) sn old s v r <->
  if reqq then s = QT :: v ++ QT :: r /\ waccept v (QT :: r) else s = v ++ r /\ waccept v r).
Proof. exact rquoted_exact. Qed.
Print Assumptions C80_raw_quoted.
Theorem C80_raw_value : forall sn old s v r, bytes s -> (reads raw_codec sn old s v r <-> s = v ++ r /\ waccept v r).
Proof. exact raw_exact. Qed.
Print Assumptions C80_raw_value.
Theorem C80_member_value : forall A T (c : codec A) (get : T -> A) set sn old s v r,
  reads (member_value_codec get set c) sn old s v r <-> exists x, reads c sn (get old) s x r /\ v = set old x.
Proof. intros. apply member_value_exact. Qed.
Print Assumptions C80_member_value.
Example C80_ex : reads (ptr_codec int32 0) None None (text "12,") (Some 12) (text ",") /\ reads (ptr_codec int32 0) None (Some 3) (text "nice,") None (text ",") /\
  reads (quoted_codec int32 true true) None 0 (jt "'12abc',") 12 (text ",") /\ reads (rquoted_codec true true) None [] (jt "'[1, {}]',") (text "[1, {}]") (text ",") /\
  reads raw_codec None [] (jt "{'a':[]}x") (jt "{'a':[]}") (text "x") /\ reads bool_codec None false (text "trueish") true (text "ish").
Proof. repeat split; exq. Qed.

(** ---- C81 ---- *)
Theorem C81_time : forall t fr sn old s v r, ity_ok t -> (reads (time_codec t fr) sn old s v r <->
  reads (int_codec t) sn 0 s v r \/ exists x, s = QT :: x /\ parts t fr sn 0 x v r).
Proof. intros t fr sn old s v r Ht. now apply time_exact. Qed.
Print Assumptions C81_time.
(** Sizes: the literal, cut at its first zero byte, is a number and optionally a unit. *)
Theorem C81_size : forall t metric sn old s v r, ity_ok t -> bytes s -> 1 <= metric <= imax i64 -> (reads (size_codec t metric) sn old s v r <->
  reads (int_codec t) sn 0 s v r \/
  exists l w txt rest z q, s = QT :: l ++ QT :: r /\ literal 32 l w /\ w ++ repeat 0 (32 - length w) = txt ++ 0 :: rest /\ ~ In 0 txt /\
    reads (int_codec i64) sn 0 txt z q /\
    (q = [] /\ wrapped t z v \/ exists m a, sunit q m /\ computes i64 (z * m) a /\ wrapped t (Z.quot a metric) v)).
Proof. intros t metric sn old s v r Ht Hb Hm. apply size_exact; auto. unfold irange. cbn in *. lia. Qed.
Print Assumptions C81_size.
Example C81_ex : reads (time_codec i64 1000) None 5 (jt "'1h2m3s4ms5mks7x',") 3723004 (text ",") /\ reads (time_codec i64 1000) None 5 (jt "'1s5") 1000 [] /\
  reads (size_codec i64 1024) None 5 (jt "'3MiB?',") 3072 (text ",") /\ reads (size_codec i64 1) None 5 (jt "'3Kxi'") 3000 [] /\
  forall v r, ~ reads (size_codec i64 1) None 5 (jt "'3x'") v r.
Proof. split; [exq|]. split; [exq|]. split; [exq|]. split; [exq|]. intros v r H. vm_compute in H. discriminate. Qed.
Example C81_ex_parts : parts i64 1000 None 0 (jt "1h2m3s4ms5mks7x'") 3723004 [].
Proof.
  assert (H : reads (time_codec i64 1000) None 5 (jt "'1h2m3s4ms5mks7x'") 3723004 []) by exq. apply C81_time in H; [|unfold ity_ok; cbn; lia].
  destruct H as [H|(x & H & P)]; [vm_compute in H; discriminate|]. injection H as <-. exact P.
Qed.
