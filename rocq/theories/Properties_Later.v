(** Reading a value later, from the text a raw value has kept. *)
From Verif Require Import Base Parser SpecJson SpecNum SpecString SpecSeq SpecObject ParserFacts Grammar1 Grammar2 Out Number StringS Array Object ObjectArray Enum Wrap TimeSize Float
  CodecLaws NumberProofs StringProofs ArrayProofs ObjectProofs Desc DescProofs SpecAccept AcceptProofs SpecExact ExactProofs ObjExactProofs WrapExactProofs SpecNear NearProofs SpecLater LaterProofs
  Misc Properties_Seq Properties_Object.

(** C99. A raw value keeps the text t; a value of another type is read from t
    exactly when it could have been read at once. *)
Theorem C99_defer : forall d A (c : codec A) sn sn' sn'' old x s v t r, tight d A c -> bytes s -> reads raw_codec sn x s t r ->
  (reads c sn' old s v r <-> reads c sn'' old t v []).
Proof. exact defer. Qed.
Print Assumptions C99_defer.
(** What another type reads as an element or a member, a raw value keeps. *)
Theorem C99_keep : forall Q A (c : codec A) sn sn' old x s v r, sdesc Q A c -> bytes s -> tame Q s -> at_value s -> followed r ->
  reads c sn old s v r -> exists t, reads raw_codec sn' x s t r.
Proof. exact keep. Qed.
Print Assumptions C99_keep.

(** Containers: reading an array of raw values and each of them later. *)
Theorem C99_container_reads : forall d A C S (c : codec A) d0 (k : container A C S) sn old old' s ts xs r, tight d A c -> bytes s ->
  reads (vector_codec raw_codec []) sn old s ts r -> Forall2 (fun t x => reads c None d0 t x []) ts xs ->
  reads (seq_codec k LBR RBR c d0) sn old' s (c_get k (fold_left (c_ins k) xs (c_new k))) r.
Proof. intros d A C S c d0 k sn old old' s ts xs r HT Hb H HF. exact (container_fwd d c d0 k HT sn old old' s ts r xs Hb H HF). Qed.
Print Assumptions C99_container_reads.
Theorem C99_container_kept : forall Q d A C S (c : codec A) d0 (k : container A C S) sn old old' s v r, sdesc Q A c -> tight d A c -> bytes s -> tame Q s ->
  reads (seq_codec k LBR RBR c d0) sn old s v r ->
  exists ts xs, reads (vector_codec raw_codec []) sn old' s ts r /\ Forall2 (fun t x => reads c None d0 t x []) ts xs /\ v = c_get k (fold_left (c_ins k) xs (c_new k)).
Proof. intros Q d A C S c d0 k sn old old' s v r Hc HT Hb HQ H. exact (container_back d c d0 k HT Q sn old old' s v r Hc Hb HQ H). Qed.
Print Assumptions C99_container_kept.
Theorem C99_dict_reads : forall d K V C S (kc : codec K) k0 (vc : codec V) v0 (k : container (K * V) C S) sn old old' s ts xs r, dlaw (des kc) -> tight d V vc -> bytes s ->
  reads (dict_vec_codec kc raw_codec (k0, [])) sn old s ts r -> Forall2 (fun t x => fst t = fst x /\ reads vc None v0 (snd t) (snd x) []) ts xs ->
  reads (seq_codec k LCB RCB (field_codec kc vc) (k0, v0)) sn old' s (c_get k (fold_left (c_ins k) xs (c_new k))) r.
Proof. intros d K V C S kc k0 vc v0 k sn old old' s ts xs r HK HT Hb H HF. exact (dict_fwd d kc k0 vc v0 k HK HT sn old old' s ts r xs Hb H HF). Qed.
Print Assumptions C99_dict_reads.
Theorem C99_dict_kept : forall Q d K V C S (kc : codec K) k0 (vc : codec V) v0 (k : container (K * V) C S) sn old old' s v r, dlaw (des kc) -> sdesc Q V vc -> tight d V vc ->
  bytes s -> tame Q s -> reads (seq_codec k LCB RCB (field_codec kc vc) (k0, v0)) sn old s v r ->
  exists ts xs, reads (dict_vec_codec kc raw_codec (k0, [])) sn old' s ts r /\ Forall2 (fun t x => fst t = fst x /\ reads vc None v0 (snd t) (snd x) []) ts xs /\
    v = c_get k (fold_left (c_ins k) xs (c_new k)).
Proof. intros Q d K V C S kc k0 vc v0 k sn old old' s v r HK Hc HT Hb HQ H. exact (dict_back d kc k0 vc v0 k HK HT Q sn old old' s v r Hc Hb HQ H). Qed.
Print Assumptions C99_dict_kept.

(** Structs: what a struct reads, a struct with raw members in some places
    reads, too. *)
Theorem C99_struct : forall T U Q (R : T -> U -> Prop) mode (L : list (memb T)) (M : list (memb U)) t0 u0 sn t u s u' r,
  Forall2 (alike Q R) L M -> Forall (memb_all (fun _ c => dlaw (des c))) L -> Forall (memb_all (fun _ c => dlaw (des c))) M ->
  Forall no_if L -> Forall no_if M -> Forall plain_name (names L) -> R t0 u0 -> R t u -> bytes s -> tame Q s ->
  reads (object_codec mode M u0) sn u s u' r -> exists t', reads (object_codec mode L t0) sn t s t' r /\ R t' u'.
Proof. exact struct_later. Qed.
Print Assumptions C99_struct.
(** A raw member in the place of one that does not look at its old value. *)
Theorem C99_raw_member : forall T U Q d A (R : T -> U -> Prop) n (gb : T -> buf) sb (gc : U -> A) sc (c : codec A) x0, sdesc Q A c -> tight d A c ->
  (forall sn o o' s y r, reads c sn o s y r -> reads c sn o' s y r) ->
  (forall t u q y, R t u -> reads c None x0 q y [] -> R (sb t q) (sc u y)) ->
  alike Q R (MRef (mkmem n gb sb raw_codec)) (MRef (mkmem n gc sc c)).
Proof.
  intros T U Q d A R n gb sb gc sc c x0 Hc HT HO HR. split; [reflexivity|]. intros sn t u s y r Rtu Hb HQ Ha HF H. cbn [memb_mem memb_old m_codec m_get m_set] in *.
  destruct (keep Q A c sn sn _ (gb t) s y r Hc Hb HQ Ha HF H) as (q & Hq). exists q. split; [exact Hq|]. apply HR; [exact Rtu|]. apply (HO _ (gc u)).
  exact (proj1 (defer _ _ _ _ _ None _ _ _ _ _ _ HT Hb Hq) H).
Qed.
Print Assumptions C99_raw_member.
Theorem C99_same_member : forall T U Q A (R : T -> U -> Prop) n (gb : T -> A) sb (gc : U -> A) sc (c : codec A),
  (forall t u, R t u -> gb t = gc u) -> (forall t u y, R t u -> R (sb t y) (sc u y)) -> alike Q R (MRef (mkmem n gb sb c)) (MRef (mkmem n gc sc c)).
Proof.
  intros T U Q A R n gb sb gc sc c HG HS. split; [reflexivity|]. intros sn t u s y r Rtu _ _ _ _ H. cbn [memb_mem memb_old m_codec m_get m_set] in *.
  exists y. split; [|now apply HS]. now rewrite (HG t u Rtu).
Qed.
Print Assumptions C99_same_member.

(** A request whose parameters are kept: the number and the
    parameters of any text are those the typed request would have had. *)
Definition rq_raw : list (memb (Z * buf)) :=
  [MRef (mkmem (text "id") fst (fun t v => (v, snd t)) (int_codec i32)); MRef (mkmem (text "params") snd (fun t v => (fst t, v)) raw_codec)].
Definition rq_typed : list (memb (Z * list Z)) :=
  [MRef (mkmem (text "id") fst (fun t v => (v, snd t)) (int_codec i32)); MRef (mkmem (text "params") snd (fun t v => (fst t, v)) (vector_codec (int_codec i32) 0))].
Definition rq_same (t : Z * buf) (u : Z * list Z) : Prop :=
  fst t = fst u /\ (snd t = [] /\ snd u = [] \/ reads (vector_codec (int_codec i32) 0) None [] (snd t) (snd u) []).
Theorem C99_request : forall mode sn s u' r, bytes s -> reads (object_codec mode rq_typed (0, [])) sn (0, []) s u' r ->
  exists t', reads (object_codec mode rq_raw (0, [])) sn (0, []) s t' r /\ rq_same t' u'.
Proof.
  intros mode sn s u' r Hb H. assert (R0 : rq_same (0, []) (0, [])) by (split; [reflexivity|now left]).
  assert (HT : tight true _ (vector_codec (int_codec i32) 0)) by (apply ti_seq with false; [now left|apply ti_int; exact i32_ok]).
  eapply (C99_struct _ _ (fun _ => False) rq_same mode rq_raw rq_typed); [| | | | | |exact R0|exact R0|exact Hb| |exact H].
  - constructor; [|constructor; [|constructor]].
    + apply C99_same_member; [intros t u [E _]; exact E|]. intros t u y [_ E]. now split.
    + apply C99_raw_member with true []; [apply sd_vector, sd_int|exact HT| |].
      * intros sn0 o o' s0 y r0 K. apply seq_exact in K; [|apply int_dlaw|now left]. apply seq_exact; [apply int_dlaw|now left|exact K].
      * intros t u q y [E _] K. split; [exact E|now right].
  - repeat constructor; [apply int_dlaw|exact raw_dlaw].
  - repeat constructor; [apply int_dlaw|exact (proj1 (tight_near _ _ _ HT))].
  - repeat constructor.
  - repeat constructor.
  - repeat constructor; vm_compute; intuition discriminate.
  - split; [intros []|split; intros []].
Qed.
Print Assumptions C99_request.

(** The other way round it fails: of members given twice only the last is kept
    raw, but each must be readable to the typed struct. *)
Theorem C99_twice_refuted : ~ (forall s t' r, bytes s -> reads (object_codec Nonstrict rq_raw (0, [])) None (0, []) s t' r ->
  forall x, reads (vector_codec (int_codec i32) 0) None [] (snd t') x [] -> exists u', reads (object_codec Nonstrict rq_typed (0, [])) None (0, []) s u' r).
Proof.
  intros H. specialize (H (jt "{'params':7,'params':[1],'id':2}") (2, jt "[1]") []).
  assert (B : bytes (jt "{'params':7,'params':[1],'id':2}")) by (repeat (apply Forall_cons; [split; discriminate|]); apply Forall_nil).
  destruct (H B) with (x := [1]) as (u' & K); [unfold reads; exq|unfold reads; exq|]. unfold reads in K. vm_compute in K. discriminate.
Qed.
Print Assumptions C99_twice_refuted.
(** Some strings the string reader takes are no JSON, and a raw value refuses them. *)
Theorem C99_strings_refuted : ~ (forall s v r, bytes s -> at_value s -> followed r -> reads string_codec None [] s v r -> exists t, reads raw_codec None [] s t r).
Proof.
  intros H. destruct (H (jt "'\x41',") (text "A") (text ",")) as (t & K).
  - repeat (apply Forall_cons; [split; discriminate|]). apply Forall_nil.
  - exists (jt "'\x41',"), []. split; [reflexivity|]. split; [constructor|]. vm_compute. intuition discriminate.
  - exists COMMA, []. split; [|now left]. exists []. split; [reflexivity|]. split; [constructor|]. vm_compute. intuition discriminate.
  - unfold reads. exq.
  - unfold reads in K. vm_compute in K. discriminate.
Qed.
Print Assumptions C99_strings_refuted.

Example C99_ex_request : reads (object_codec Nonstrict rq_raw (0, [])) None (0, []) (jt "{'id':2, 'params':[ 1,/*x*/20 ] }!") (2, jt "[ 1,/*x*/20 ]") (text "!") /\
  reads (vector_codec (int_codec i32) 0) None [] (jt "[ 1,/*x*/20 ]") [1; 20] [] /\
  reads (object_codec Nonstrict rq_typed (0, [])) None (0, []) (jt "{'id':2, 'params':[ 1,/*x*/20 ] }!") (2, [1; 20]) (text "!").
Proof. unfold reads. split; [exq|]. split; exq. Qed.
Example C99_ex_refused : reads raw_codec None [] (jt "[1,'x'],") (jt "[1,'x']") (text ",") /\ ~ (exists x, reads (vector_codec (int_codec i32) 0) None [] (jt "[1,'x']") x []).
Proof. unfold reads. split; [exq|]. intros (x & K). vm_compute in K. discriminate. Qed.
Example C99_ex_container : reads (vector_codec raw_codec []) None [] (jt "[1,'2s', 3 ]") [jt "1"; jt "'2s'"; jt "3"] [] /\
  reads (time_codec i32 1) None 0 (jt "'2s'") 2 [] /\ reads (vector_codec (time_codec i32 1) 0) None [] (jt "[1,'2s', 3 ]") [1; 2; 3] [].
Proof. unfold reads. split; [exq|]. split; exq. Qed.
Example C99_ex_dict : reads (dict_vec_codec string_codec raw_codec ([], [])) None [] (jt "{'a':[1],'b':null}") [(text "a", jt "[1]"); (text "b", jt "null")] [] /\
  reads (dict_vec_codec string_codec (vector_codec (int_codec i32) 0) ([], [])) None [] (jt "{'a':[1],'b':null}") [(text "a", [1]); (text "b", [])] [].
Proof. unfold reads. split; exq. Qed.
