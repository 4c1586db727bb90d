(** The values that can come out of a successful reading. *)
From Verif Require Import Base Parser SpecJson SpecNum SpecString Out Number StringS Array SpecSeq Object ObjectArray SpecObject Enum SpecEnum Wrap TimeSize Float Desc SpecType CodecLaws SpecExact.

(** Texts without the bytes a string literal does not survive with: control
    characters other than \b \t \n \f \r, and 0xF8 to 0xFD; and
    without \x escapes of those. *)
Definition calm (c : Z) : Prop := 32 <= c < 248 \/ 254 <= c \/ short_ctl c.
Definition mild (s : buf) : Prop := Forall calm s /\ forall a x y b, s = a ++ BSL :: 120 :: x :: y :: b -> s_hex x -> s_hex y -> calm (hexv x * 16 + hexv y).

(** [hdesc T A c O G]: a text with the property T that is read without error into
    a target in O leaves a value in G. *)
Inductive hdesc (T : buf -> Prop) : forall A, codec A -> (A -> Prop) -> (A -> Prop) -> Prop :=
| hd_conv A c (O O' G G' : A -> Prop) : hdesc T A c O G -> (forall v, O' v -> O v) -> (forall v, G v -> G' v) -> hdesc T A c O' G'
| hd_typed A c P : tdesc A c P -> hdesc T A c P P
| hd_string : (forall s, T s -> mild s) -> hdesc T _ string_codec (fun _ => True) (fun v => Forall calm v /\ bytes v /\ dist v <= 2147483647)
| hd_chars N : (forall s, T s -> mild s) ->
    hdesc T _ (chars_codec N) (fun _ => True) (fun v => exists t, (length t <= N)%nat /\ Forall calm t /\ bytes t /\ v = t ++ repeat 0 (N - length t))
| hd_enum L : hdesc T _ (enum_codec Strict L) (fun _ => True) (fun v => In v (evals L))
| hd_raw : hdesc T _ raw_codec (fun _ => True) wvalue
| hd_ipair : hdesc T _ ipair_codec (fun _ => True) wvalue
| hd_rquoted serq reqq : hdesc T _ (rquoted_codec serq reqq) (fun _ => True) wvalue
| hd_vector A (c : codec A) d0 (O G : A -> Prop) : hdesc T A c O G -> O d0 -> hdesc T _ (vector_codec c d0) (fun _ => True) (Forall G)
| hd_set A lt (c : codec A) d0 (O G : A -> Prop) : swo lt -> hdesc T A c O G -> O d0 -> hdesc T _ (set_codec lt c d0) (fun _ => True) (fun l => Forall G l /\ sorted_lt lt l)
| hd_multiset A lt (c : codec A) d0 (O G : A -> Prop) : swo lt -> hdesc T A c O G -> O d0 -> hdesc T _ (multiset_codec lt c d0) (fun _ => True) (fun l => Forall G l /\ sorted_le lt l)
| hd_dict K V (kc : codec K) (vc : codec V) d0 (O G : K -> Prop) (O' G' : V -> Prop) : hdesc T K kc O G -> hdesc T V vc O' G' -> O (fst d0) -> O' (snd d0) ->
    hdesc T _ (dict_vec_codec kc vc d0) (fun _ => True) (Forall (fun p => G (fst p) /\ G' (snd p)))
| hd_map K V lt (kc : codec K) (vc : codec V) d0 (O G : K -> Prop) (O' G' : V -> Prop) : swo lt -> hdesc T K kc O G -> hdesc T V vc O' G' -> O (fst d0) -> O' (snd d0) ->
    hdesc T _ (map_codec lt kc vc d0) (fun _ => True) (fun l => Forall (fun p => G (fst p) /\ G' (snd p)) l /\ sorted_lt (klt lt) l)
| hd_multimap K V lt (kc : codec K) (vc : codec V) d0 (O G : K -> Prop) (O' G' : V -> Prop) : swo lt -> hdesc T K kc O G -> hdesc T V vc O' G' -> O (fst d0) -> O' (snd d0) ->
    hdesc T _ (multimap_codec lt kc vc d0) (fun _ => True) (fun l => Forall (fun p => G (fst p) /\ G' (snd p)) l /\ sorted_le (klt lt) l)
(** elements the text does not mention keep their values *)
| hd_std_array A (c : codec A) d0 N (O G : A -> Prop) : hdesc T A c O G -> O d0 -> (forall v, G v -> O v) ->
    hdesc T _ (std_array_codec c d0 N) (fun v => Forall G (vlist v)) (fun v => Forall G (vlist v))
| hd_c_array A (c : codec A) N (O G : A -> Prop) : hdesc T A c O G -> (forall v, G v -> O v) ->
    hdesc T _ (c_array_codec c N) (fun v => Forall G (vlist v)) (fun v => Forall G (vlist v))
| hd_object S mode (L : list (memb S)) t0 (I : S -> Prop) (om dm : forall m : mem S, m_ty m -> Prop) :
    I t0 -> Forall no_if L -> Forall plain_name (names L) ->
    (forall b, In b L -> hdesc T _ (m_codec (memb_mem b)) (om (memb_mem b)) (dm (memb_mem b))) ->
    (forall b t, In b L -> I t -> om (memb_mem b) (memb_old b t)) ->
    (forall b t x, In b L -> I t -> dm (memb_mem b) x -> I (m_set (memb_mem b) t x)) -> hdesc T S (object_codec mode L t0) I I
| hd_object_array S (L : list (memb S)) t0 (I : S -> Prop) (om dm : forall m : mem S, m_ty m -> Prop) :
    I t0 -> Forall no_if L ->
    (forall b, In b L -> hdesc T _ (m_codec (memb_mem b)) (om (memb_mem b)) (dm (memb_mem b))) ->
    (forall b t, In b L -> I t -> om (memb_mem b) (memb_old b t)) ->
    (forall b t x, In b L -> I t -> dm (memb_mem b) x -> I (m_set (memb_mem b) t x)) -> hdesc T S (oarray_codec L t0) I I
| hd_member_value S A (get : S -> A) set c (O G : A -> Prop) (I : S -> Prop) : hdesc T A c O G -> (forall t, I t -> O (get t)) ->
    (forall t x, I t -> G x -> I (set t x)) -> hdesc T S (member_value_codec get set c) I I
(** what is quoted may be any text *)
| hd_quoted A (c : codec A) serq reqq (O G : A -> Prop) : hdesc (fun _ => True) A c O G -> hdesc T A (quoted_codec c serq reqq) O G
| hd_pointer A (c : codec A) d0 (O G : A -> Prop) : hdesc T A c O G -> O d0 -> hdesc T _ (ptr_codec c d0) (fun _ => True) (fun o => match o with Some v => G v | None => True end)
| hd_int t : ity_ok t -> hdesc T _ (int_codec t) (fun _ => True) (fun v => irange t v /\ (isize t < 4 \/ isigned t = false \/ v <> imin t))
| hd_bool : hdesc T _ bool_codec (fun _ => True) (fun _ => True)
(** a description of which this is known otherwise *)
| hd_known A c (O G : A -> Prop) : dlaw (des c) -> (forall sn old s v r, bytes s -> T s -> O old -> reads c sn old s v r -> G v) -> hdesc T A c O G.
