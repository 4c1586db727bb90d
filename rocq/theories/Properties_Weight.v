(** C109: what is read holds no more than the bytes it was read from. *)
From Verif Require Import Base Parser ParserFacts SpecJson SpecObject Out Number StringS Array Unord Object ObjectArray Enum Wrap TimeSize
  CodecLaws SpecWeight WeightProofs Properties_Seq Properties_Object Properties_Unord.
Notation clean := Properties_Seq.clean.
Notation int32 := Properties_Seq.int32.

(** Whatever the text, accepted or refused, whatever follows it and whatever was
    in the target: what the value holds, together with what is left of the text,
    is no more than the old value held together with the text. *)
Theorem C109_size : forall n A (c : codec A) w sn old s e v r e', weighs n A c w ->
  des c sn old s e = Ok (v, r, e') -> (w v + length r <= w old + length s)%nat.
Proof. intros n A c w sn old s e v r e' H E. pose proof (proj1 (weighs_laws n A c w H) sn old s e) as K. now rewrite E in K. Qed.
Print Assumptions C109_size.
(** Read into a new value: at most one byte or element for each byte consumed. *)
Theorem C109_fresh : forall n A (c : codec A) w sn d0 s e v r e', weighs n A c w -> w d0 = 0%nat ->
  des c sn d0 s e = Ok (v, r, e') -> (w v + length r <= length s)%nat.
Proof. intros n A c w sn d0 s e v r e' H H0 E. pose proof (C109_size n A c w sn d0 s e v r e' H E). lia. Qed.
Print Assumptions C109_fresh.
(** Strings and containers are cleared first, so that the old contents do not
    matter. *)
Theorem C109_string : forall sn old s e v r e', des string_codec sn old s e = Ok (v, r, e') -> (length v + length r <= length s)%nat.
Proof. intros sn old s e v r e' E. pose proof (string_wlaw sn [] s e) as K. cbn [des string_codec] in *. unfold string_des in *. rewrite E in K. exact K. Qed.
Print Assumptions C109_string.
Theorem C109_containers : forall n A (c : codec A) d0 w sn s e r e' lt, weighs n A c w -> w d0 = 0%nat ->
  (forall old v, des (vector_codec c d0) sn old s e = Ok (v, r, e') -> (length v + total w v + length r <= length s)%nat) /\
  (forall old v, des (set_codec lt c d0) sn old s e = Ok (v, r, e') -> (length v + total w v + length r <= length s)%nat) /\
  (forall old v, des (multiset_codec lt c d0) sn old s e = Ok (v, r, e') -> (length v + total w v + length r <= length s)%nat).
Proof.
  intros n A c d0 w sn s e r e' lt H H0. apply weighs_laws in H. destruct H as (H & _).
  split; [|split]; intros old v E.
  - pose proof (proj1 (vec_laws w c d0 LBR RBR H H0) sn [] s e) as K. cbn [des vector_codec seq_codec] in *. unfold seq_des in *. now rewrite E in K.
  - pose proof (proj1 (set_laws w c d0 LBR RBR H H0 lt) sn [] s e) as K. cbn [des set_codec seq_codec] in *. unfold seq_des in *. now rewrite E in K.
  - pose proof (proj1 (multi_laws w c d0 LBR RBR H H0 lt) sn [] s e) as K. cbn [des multiset_codec seq_codec] in *. unfold seq_des in *. now rewrite E in K.
Qed.
Print Assumptions C109_containers.
Theorem C109_dictionaries : forall n n' K V (kc : codec K) (vc : codec V) d0 wk wv sn s e r e' lt, weighs n K kc wk -> weighs n' V vc wv ->
  wk (fst d0) = 0%nat -> wv (snd d0) = 0%nat -> let w := fun p : K * V => (wk (fst p) + wv (snd p))%nat in
  (forall old v, des (dict_vec_codec kc vc d0) sn old s e = Ok (v, r, e') -> (length v + total w v + length r <= length s)%nat) /\
  (forall old v, des (map_codec lt kc vc d0) sn old s e = Ok (v, r, e') -> (length v + total w v + length r <= length s)%nat) /\
  (forall old v, des (multimap_codec lt kc vc d0) sn old s e = Ok (v, r, e') -> (length v + total w v + length r <= length s)%nat).
Proof.
  intros n n' K V kc vc d0 wk wv sn s e r e' lt Hk Hv H1 H2 w. apply weighs_laws in Hk, Hv. destruct Hk as (Hk & _), Hv as (Hv & _).
  pose proof (field_wlaw wk wv kc vc Hk Hv) as H. assert (H0 : w d0 = 0%nat) by (unfold w; lia). fold w in H.
  split; [|split]; intros old v E.
  - pose proof (proj1 (vec_laws w _ d0 LCB RCB H H0) sn [] s e) as Q. cbn [des dict_vec_codec seq_codec] in *. unfold seq_des in *. now rewrite E in Q.
  - pose proof (proj1 (set_laws w _ d0 LCB RCB H H0 (klt lt)) sn [] s e) as Q. cbn [des map_codec seq_codec] in *. unfold seq_des in *. now rewrite E in Q.
  - pose proof (proj1 (multi_laws w _ d0 LCB RCB H H0 (klt lt)) sn [] s e) as Q. cbn [des multimap_codec seq_codec] in *. unfold seq_des in *. now rewrite E in Q.
Qed.
Print Assumptions C109_dictionaries.

(** Why fixed-size arrays of raw values are left out: a null is handed to each of
    the elements, and each keeps its own copy; so does every text that starts
    with an n. *)
Lemma raw_nulls sn s : is_null s = true -> (forall e, fst (parse_null s e) = []) -> forall N (l : list buf) e, length l = N ->
  exists e', fix_null (des raw_codec sn) l s e = Ok (repeat s N, e').
Proof.
  intros Hs Hp. induction N as [|N IH]; intros l e HN; destruct l as [|x l]; try discriminate; [now exists e|].
  cbn [fix_null]. change (des raw_codec sn x s e) with (raw_des sn x s e). unfold raw_des, parse_value. cbn [parse_value_f]. rewrite Hs.
  specialize (Hp e). destruct (parse_null s e) as [r e1]. cbn [fst] in Hp. subst r. cbn [bind].
  destruct (IH l e1) as (e' & ->); [injection HN as ->; reflexivity|]. exists e'. cbn [bind repeat].
  unfold range. cbn [length]. rewrite Nat.sub_0_r, firstn_all. reflexivity.
Qed.
Lemma total_repeat s N : total (@length Z) (repeat s N) = (N * length s)%nat.
Proof. induction N as [|N IH]; cbn [repeat total]; [reflexivity|]. rewrite IH. lia. Qed.
Lemma raw_array_null sn s N (old : vec buf N) e : is_null s = true -> (forall e, fst (parse_null s e) = []) ->
  exists v e', des (c_array_codec raw_codec N) sn old s e = Ok (v, [], e') /\ total (@length Z) (vlist v) = (N * length s)%nat.
Proof.
  intros Hs Hp. destruct (raw_nulls sn s Hs Hp N (vlist old) e) as (e1 & E); [apply ArrayProofs.vlist_len|].
  cbn [des c_array_codec vec_codec carray_codec]. unfold fix_des. rewrite Hs, E. cbn [bind].
  specialize (Hp e1). destruct (parse_null s e1) as [r e2]. cbn [fst] in Hp. subst r. cbn [bind].
  eexists _, _. split; [reflexivity|]. rewrite ArrayProofs.vlist_vfill by apply repeat_length. apply total_repeat.
Qed.
Theorem C109_raw_array_refuted :
  (forall N sn (old : vec buf N), exists v, des (c_array_codec raw_codec N) sn old (text "null") clean = Ok (v, [], clean) /\
     total (@length Z) (vlist v) = (N * 4)%nat) /\
  (forall N sn (old : vec buf N) t, exists v e', des (c_array_codec raw_codec N) sn old (110 :: 0 :: t) clean = Ok (v, [], e') /\
     total (@length Z) (vlist v) = (N * (2 + length t))%nat).
Proof.
  split.
  - intros N sn old. destruct (raw_array_null sn (text "null") N old clean eq_refl) as (v & e' & E & H); [intros [k|]; reflexivity|].
    exists v. split; [|exact H]. rewrite E. f_equal. f_equal.
    cbn [des c_array_codec vec_codec carray_codec] in E. unfold fix_des in E. change (is_null (text "null")) with true in E. cbv iota in E.
    assert (K : forall l, exists l', fix_null (des raw_codec sn) l (text "null") clean = Ok (l', clean)).
    { induction l as [|x l (l' & IH)]; [now exists []|]. exists (text "null" :: l'). cbn [fix_null]. change (des raw_codec sn x (text "null") clean) with (@Ok (buf * buf * eptr) (text "null", [], clean)). cbn [bind]. now rewrite IH. }
    destruct (K (vlist old)) as (l' & El). rewrite El in E. cbn [bind] in E. change (parse_null (text "null") clean) with (@nil Z, clean) in E. cbn [bind] in E. congruence.
  - intros N sn old t. apply raw_array_null; [reflexivity|]. intros e. reflexivity.
Qed.
Print Assumptions C109_raw_array_refuted.

(** Concrete cases. *)
Lemma foo_weighs mode : weighs true foo (foo_codec mode) (fun v => length (fs v)).
Proof.
  apply wg_object; [|reflexivity]. unfold Lfoo.
  apply (wm_cons foo _ (MRef ma) true (fun _ => 0%nat)); [exact I|apply wg_int|intros [a b s] x; cbn; lia|].
  apply (wm_cons foo _ (MRef mb) true (fun _ => 0%nat)); [exact I|apply wg_int|intros [a b s] x; cbn; lia|].
  apply (wm_cons foo _ (MProp ms []) true (@length Z)); [exact I|apply wg_string|intros [a b s] x; cbn; lia|].
  apply wm_nil.
Qed.
Definition foo_map := map_codec str_lt string_codec (vector_codec (foo_codec Nonstrict) foo0) ([], []).
Lemma foo_map_weighs : weighs true _ foo_map
  (load (fun p => (length (fst p) + load (fun v => length (fs v)) (snd p))%nat)).
Proof. apply (wg_map true true); [apply wg_string|apply (wg_vector true); [apply foo_weighs|reflexivity]|reflexivity|reflexivity]. Qed.
(** two keys of two bytes, three structs, three bytes in them *)
Example C109_ex_map : exists v, des foo_map None [] (jt "{'ab':[{'foo':'x'},{}],'':[{'a':1,'foo':'yz'}]}") clean = Ok (v, [], clean) /\
  load (fun p => (length (fst p) + load (fun v => length (fs v)) (snd p))%nat) v = 10%nat.
Proof. eexists. split; exq. Qed.
(** the bound is met by raw values, and by a refused text *)
Example C109_ex_raw : des raw_codec None [] (jt "[1, 'a']z") clean = Ok (jt "[1, 'a']", jt "z", clean) /\
  exists e, des (vector_codec raw_codec []) None [] (jt "[{xyz") clean = Ok ([jt "{xyz"], [], e) /\
  load (@length Z) [jt "{xyz"] = length (jt "[{xyz").
Proof. split; [exq|]. eexists. split; exq. Qed.
(** a hash table *)
Example C109_ex_hash : weighs true _ (unordered_set_codec tab_hash int32 0) (fun t => load (fun _ => 0%nat) (tab_list t)).
Proof.
  apply (wg_unordered_set true _ _ tab_hash int32 0 (fun _ => 0%nat)); [apply wg_int|reflexivity| |].
  - intros [[f a] b]. now destruct f.
  - intros [[f a] b] x. unfold load. assert (Z0 : forall l : list Z, total (fun _ => 0%nat) l = 0%nat) by (induction l; cbn; auto). rewrite !Z0.
    cbn [h_list h_ins tab_hash]. destruct (existsb _ _), (Z.even x), f; cbn [tab_list]; rewrite ?app_length; cbn [length]; lia.
Qed.
Example C109_ex_raw_array : exists v e, des (c_array_codec raw_codec 3) None ([], ([], ([], tt))) (text "nobody") clean = Ok (v, [], e) /\
  vlist v = [text "nobody"; text "nobody"; text "nobody"].
Proof. eexists _, _. split; exq. Qed.
(** a member_if of a vector and a string: what the first alternative has taken
    before it failed is given back *)
Record either := mkeither { el : list Z; er : buf }.
Definition eil : mem either := mkmem (text "x") el (fun t v => mkeither v (er t)) (vector_codec int32 0).
Definition eir : mem either := mkmem (text "x") er (fun t v => mkeither (el t) v) string_codec.
Definition either_codec ru := object_codec Nonstrict [MIf ru eil eir (fun l => match l with [] => true | _ => false end)] (mkeither [] []).
Example C109_ex_if : (forall ru, weighs true _ (either_codec ru) (fun v => (load (fun _ => 0%nat) (el v) + length (er v))%nat)) /\
  des (either_codec false) None (mkeither [5] (text "old")) (jt "{'x':[1,2,3}") clean = Ok (mkeither [] [], [], Some (mkerr ExpectedOf (Some [QT]) 7)) /\
  des (either_codec false) None (mkeither [5] (text "old")) (jt "{'x':'abc'}") clean = Ok (mkeither [] (text "abc"), [], clean).
Proof.
  split; [|split; exq]. intros ru. apply wg_object; [|reflexivity]. apply (wm_if either _ ru eil eir _ true true (load (fun _ => 0%nat)) (@length Z)); [|exact wg_string| | |apply wm_nil].
  - apply (wg_vector true); [apply wg_int|reflexivity].
  - split; [intros [a b] x; cbn -[load]; lia|]. split; [intros [a b] x; cbn -[load]; lia|]. intros old. vm_compute. reflexivity.
  - split; [intros [a b] x; cbn -[load]; lia|]. split; [intros [a b] x; cbn -[load]; lia|]. intros old. vm_compute. reflexivity.
Qed.
