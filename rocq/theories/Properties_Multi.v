(** C31: the order of equivalent elements. *)
From Verif Require Import Base Parser Out Number StringS CodecLaws SpecSeq Array ArrayProofs SpecMulti MultiProofs Properties_Seq.

(** multiset/multimap: where among its equivalents each element goes *)
Theorem C31_multi_order : forall A lt (c : codec A) d0 L R tc ts b vs, swo lt -> brackets L R -> spaced tc ts b -> Forall2 (rd c) ts vs -> vs <> [] ->
  exists x u y, rd (seq_codec (multi_cont lt) L R c d0) (L :: b ++ [R]) (x ++ u :: y) /\ finger lt vs x u y.
Proof. exact @multi_order. Qed.
Theorem C31_multi_order_unique : forall A lt vs (x : list A) u y x' u' y', swo lt -> finger lt vs x u y -> finger lt vs x' u' y' -> x = x' /\ u = u' /\ y = y'.
Proof. intros A lt vs x u y x' u' y' W. now apply finger_unique. Qed.
Print Assumptions C31_multi_order.
Print Assumptions C31_multi_order_unique.
Definition fst_lt (p q : Z * Z) : bool := fst p <? fst q.
(** 3:2 stands in front of 3:1 because 1:5 was inserted between them; 3:7 follows 3:2 directly *)
Example C31_ex_order : des (multimap_codec Z.ltb int32 int32 (0, 0)) None [] (text "{3:1,1:5,3:2,3:7,0:0,1:6}") clean = Ok ([(0, 0); (1, 6); (1, 5); (3, 2); (3, 7); (3, 1)], [], clean) /\
  finger fst_lt [(3, 1); (1, 5); (3, 2); (3, 7); (0, 0); (1, 6)] [(0, 0)] (1, 6) [(1, 5); (3, 2); (3, 7); (3, 1)].
Proof.
  split; [exq|].
  apply (f_greater fst_lt [(3, 1); (1, 5); (3, 2); (3, 7); (0, 0)] [] (0, 0) [] [(1, 5); (3, 2); (3, 7); (3, 1)] (1, 6)); try reflexivity; [|repeat constructor..].
  apply (f_less fst_lt [(3, 1); (1, 5); (3, 2); (3, 7)] [] [(1, 5); (3, 2)] (3, 7) [(3, 1)] (0, 0)); try reflexivity; [|repeat constructor..].
  apply (f_same fst_lt [(3, 1); (1, 5); (3, 2)] [(1, 5)] (3, 2) [(3, 1)] (3, 7)); try reflexivity.
  apply (f_greater fst_lt [(3, 1); (1, 5)] [] (1, 5) [] [(3, 1)] (3, 2)); try reflexivity; [|repeat constructor..].
  apply (f_less fst_lt [(3, 1)] [] [] (3, 1) [] (1, 5)); try reflexivity; [|repeat constructor..]. constructor.
Qed.
