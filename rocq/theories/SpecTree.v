(** Specification: the value that a JSON text denotes (RFC 8259), and what the
    descriptions make of it. *)
From Verif Require Import Base SpecJson SpecString SpecNum SpecSeq SpecAlike Out Number StringS Array Unord Object SpecObject ObjectArray Enum SpecEnum Wrap Float SpecMisc Desc.

(** Integers are told from other numbers, which stay as they are spelt. *)
Inductive tree :=
| TNull
| TBool (b : bool)
| TInt (z : Z)
| TReal (n : buf)
| TStr (s : buf)
| TArr (l : list tree)
| TObj (l : list (buf * tree)).

(** [LM]: what a string literal (without its quotes) denotes; [NM]: the same for
    names of members. *)
Section Means.
  Variables (LM NM : buf -> buf -> Prop).
  Inductive means : buf -> tree -> Prop :=
  | mn_null : means (text "null") TNull
  | mn_true : means (text "true") (TBool true)
  | mn_false : means (text "false") (TBool false)
  | mn_int z n : jint z n -> means n (TInt z)
  | mn_real n : rnumber n -> (forall z, ~ jint z n) -> means n (TReal n)
  | mn_str l s : LM l s -> means (QT :: l ++ [QT]) (TStr s)
  | mn_arr0 w : ws w -> means (LBR :: w ++ [RBR]) (TArr [])
  | mn_arr b l : melems b l -> means (LBR :: b ++ [RBR]) (TArr l)
  | mn_obj0 w : ws w -> means (LCB :: w ++ [RCB]) (TObj [])
  | mn_obj b l : mmembers b l -> means (LCB :: b ++ [RCB]) (TObj l)
  with melems : buf -> list tree -> Prop :=
  | me_one w1 v w2 t : ws w1 -> means v t -> ws w2 -> melems (w1 ++ v ++ w2) [t]
  | me_more w1 v w2 t b l : ws w1 -> means v t -> ws w2 -> melems b l -> melems (w1 ++ v ++ w2 ++ COMMA :: b) (t :: l)
  with mmembers : buf -> list (buf * tree) -> Prop :=
  | mm_one w1 k n w2 w3 v w4 t : ws w1 -> NM k n -> ws w2 -> ws w3 -> means v t -> ws w4 ->
      mmembers (w1 ++ QT :: k ++ QT :: w2 ++ COLON :: w3 ++ v ++ w4) [(n, t)]
  | mm_more w1 k n w2 w3 v w4 t b l : ws w1 -> NM k n -> ws w2 -> ws w3 -> means v t -> ws w4 -> mmembers b l ->
      mmembers (w1 ++ QT :: k ++ QT :: w2 ++ COLON :: w3 ++ v ++ w4 ++ COMMA :: b) ((n, t) :: l).
End Means.
Scheme means_mind := Induction for means Sort Prop
  with melems_mind := Induction for melems Sort Prop
  with mmembers_mind := Induction for mmembers Sort Prop.
Combined Scheme means_ind3 from means_mind, melems_mind, mmembers_mind.

(** A literal without escapes. *)
Inductive bare : buf -> Prop :=
| ba_nil : bare []
| ba_cons cp l : scalar cp -> 32 <= cp -> cp <> 34 -> cp <> 92 -> bare l -> bare (utf8_encode cp ++ l).
Definition as_is (l s : buf) : Prop := l = s /\ bare s.

(** ------------------------------------------------------------------ *)
(** The document that is written for a value. *)
Definition denotes : buf -> tree -> Prop := means lmean lmean.

(** The member written for [v]. *)
Definition memb_tree {T} (tr : mem T -> T -> tree -> Prop) (v : T) (b : memb T) (it : buf * tree) : Prop :=
  let one m := fst it = m_name m /\ tr m v (snd it) in
  match b with
  | MRef m => one m
  | MProp m _ => one m
  | MIf _ l r isdef => if isdef (m_get l v) then one r else one l
  end.
(** It is in its domain. *)
Definition memb_doms {T} (dm : mem T -> T -> Prop) (v : T) (b : memb T) : Prop :=
  match b with
  | MRef m => dm m v
  | MProp m _ => dm m v
  | MIf _ l r isdef => if isdef (m_get l v) then dm r v else dm l v
  end.

(** The names of the flags that are set in [v]. *)
Inductive chosen (v : Z) : elist -> list buf -> Prop :=
| ch_nil : chosen v [] []
| ch_in n x L ns : x <> 0 /\ Z.land x v = x \/ v = x -> chosen v L ns -> chosen v ((n, x) :: L) (n :: ns)
| ch_out n x L ns : ~ (x <> 0 /\ Z.land x v = x \/ v = x) -> chosen v L ns -> chosen v ((n, x) :: L) ns.

(** [says A c dom tr]: the values in [dom] are to be written as documents that
    are related to them by [tr]. *)
Inductive says : forall A, codec A -> (A -> Prop) -> (A -> tree -> Prop) -> Prop :=
| sy_sub A c (dom dom' : A -> Prop) (tr tr' : A -> tree -> Prop) : says A c dom tr -> (forall v, dom' v -> dom v) ->
    (forall v t, dom' v -> tr v t -> tr' v t) -> says A c dom' tr'
| sy_int y : ity_ok y -> says _ (int_codec y) (irange y) (fun v t => t = TInt v)
| sy_bool : says _ bool_codec (fun _ => True) (fun v t => t = TBool v)
| sy_string : says _ string_codec utf8 (fun v t => t = TStr v)
| sy_enum mode L : Forall bare (enames L) -> says _ (enum_codec mode L) (fun v => In v (evals L))
    (fun v t => exists l n m, L = l ++ (n, v) :: m /\ ~ In v (evals l) /\ t = TStr n)
| sy_raw : says _ raw_codec (fun v => exists t, denotes v t) denotes
| sy_seq A C S (k : container A C S) (c : codec A) d0 dom tr : says A c dom tr ->
    says C (seq_codec k LBR RBR c d0) (fun v => Forall dom (c_list k v)) (fun v t => exists l, t = TArr l /\ Forall2 tr (c_list k v) l)
| sy_hash A H (h : hashtab A H) (c : codec A) d0 dom tr : says A c dom tr ->
    says H (hash_codec h LBR RBR c d0) (fun v => Forall dom (h_list h v)) (fun v t => exists l, t = TArr l /\ Forall2 tr (h_list h v) l)
| sy_std_array A (c : codec A) d0 N dom tr : says A c dom tr ->
    says _ (std_array_codec c d0 N) (fun v => Forall dom (vlist v)) (fun v t => exists l, t = TArr l /\ Forall2 tr (vlist v) l)
| sy_c_array A (c : codec A) N dom tr : says A c dom tr ->
    says _ (c_array_codec c N) (fun v => Forall dom (vlist v)) (fun v t => exists l, t = TArr l /\ Forall2 tr (vlist v) l)
| sy_dict K V C S (k : container (K * V) C S) (kc : codec K) (vc : codec V) d0 dk tk dv tv : says K kc dk tk -> says V vc dv tv ->
    (forall x t, dk x -> tk x t -> exists s, t = TStr s) ->
    says C (seq_codec k LCB RCB (field_codec kc vc) d0) (fun v => Forall (fun p => dk (fst p) /\ dv (snd p)) (c_list k v))
      (fun v t => exists l, t = TObj l /\ Forall2 (fun p it => tk (fst p) (TStr (fst it)) /\ tv (snd p) (snd it)) (c_list k v) l)
| sy_hash_dict K V H (h : hashtab (K * V) H) (kc : codec K) (vc : codec V) d0 dk tk dv tv : says K kc dk tk -> says V vc dv tv ->
    (forall x t, dk x -> tk x t -> exists s, t = TStr s) ->
    says H (hash_codec h LCB RCB (field_codec kc vc) d0) (fun v => Forall (fun p => dk (fst p) /\ dv (snd p)) (h_list h v))
      (fun v t => exists l, t = TObj l /\ Forall2 (fun p it => tk (fst p) (TStr (fst it)) /\ tv (snd p) (snd it)) (h_list h v) l)
| sy_object T mode (L : list (memb T)) t0 (dm : mem T -> T -> Prop) tr :
    (forall b m, In b L -> In m (mems_of b) -> bare (m_name m)) ->
    (forall b m, In b L -> In m (mems_of b) -> says T (member_value_codec (m_get m) (m_set m) (m_codec m)) (dm m) (tr m)) ->
    says T (object_codec mode L t0) (fun v => Forall (memb_doms dm v) L) (fun v t => exists l, t = TObj l /\ Forall2 (memb_tree tr v) L l)
| sy_object_array T (L : list (memb T)) t0 (dm : mem T -> T -> Prop) tr :
    (forall b m, In b L -> In m (mems_of b) -> says T (member_value_codec (m_get m) (m_set m) (m_codec m)) (dm m) (tr m)) ->
    says T (oarray_codec L t0) (fun v => Forall (memb_doms dm v) L)
      (fun v t => exists l, t = TArr (map snd l) /\ Forall2 (memb_tree tr v) L l)
| sy_member_value T A (get : T -> A) set c dom tr : says A c dom tr ->
    says T (member_value_codec get set c) (fun v => dom (get v)) (fun v t => tr (get v) t)
| sy_quoted A (c : codec A) reqq dom tr : says A c dom tr ->
    says A (quoted_codec c true reqq) dom (fun v t => exists s t', t = TStr s /\ denotes s t' /\ tr v t')
| sy_unquoted A (c : codec A) reqq dom tr : says A c dom tr -> says A (quoted_codec c false reqq) dom tr
| sy_pointer A (c : codec A) d0 dom tr : says A c dom tr ->
    says _ (ptr_codec c d0) (fun o => match o with None => True | Some v => dom v end)
      (fun o t => match o with None => t = TNull | Some v => tr v t end)
(** numbers as the stream formats them *)
| sy_float A R fmt scan (zero : A) : says A (float_codec R fmt scan zero) (fun v => rnumber (fmt v) /\ (length (fmt v) <= bufsize R)%nat) (fun v t => denotes (fmt v) t)
| sy_chars N : says _ (chars_codec N) (fun v => exists s k, v = s ++ repeat 0 k /\ ~ In 0 s /\ utf8 s)
    (fun v t => exists s k, v = s ++ repeat 0 k /\ ~ In 0 s /\ t = TStr s)
| sy_flags mode L : Forall bare (enames L) -> says _ (flags_codec COMMA mode L) (fun _ => True)
    (fun v t => exists ns, chosen v L ns /\ t = TArr (map TStr ns))
| sy_words sep mode L : sep <> COMMA -> bare [sep] -> Forall bare (enames L) -> says _ (flags_codec sep mode L) (fun _ => True)
    (fun v t => exists ns, chosen v L ns /\ t = TStr (jsep sep ns)).

(** ------------------------------------------------------------------ *)
(** The documents that are read.  Names are spelt without escapes; strings are
    too, unless [esc], when they may be escaped in any way but surrogate pairs
    and control characters that have a short escape. *)
Definition lit (esc : bool) : buf -> buf -> Prop := if esc then lmean_bmp else as_is.
Definition simple (esc : bool) : buf -> tree -> Prop := means (lit esc) as_is.

(** What a member of an object does to the struct: it sets the field of that
    name, or (nonstrict mode) nothing if there is none. *)
Inductive tells {T} (mode : omode) (L : list (memb T)) (tr : forall m : mem T, tree -> (m_ty m -> m_ty m) -> Prop) : buf * tree -> (T -> T) -> Prop :=
| te_known b t F : In b L -> tr (memb_mem b) t F -> tells mode L tr (memb_name b, t) (fun x => m_set (memb_mem b) x (F (memb_old b x)))
| te_unknown n t : mode = Nonstrict -> ~ In n (names L) -> tells mode L tr (n, t) (fun x => x).
(** Elements of an array are for the members in order. *)
Inductive tells_all {T} (tr : forall m : mem T, tree -> (m_ty m -> m_ty m) -> Prop) : list (memb T) -> list tree -> list (T -> T) -> Prop :=
| ta_nil : tells_all tr [] [] []
| ta_cons b L t F ts fs : tr (memb_mem b) t F -> tells_all tr L ts fs ->
    tells_all tr (b :: L) (t :: ts) ((fun x => m_set (memb_mem b) x (F (memb_old b x))) :: fs).

Fixpoint patch {A} (fs : list (A -> A)) (l : list A) : list A :=
  match fs, l with
  | f :: fs', y :: l' => f y :: patch fs' l'
  | _, _ => l
  end.

(** [sees esc A c tr]: a document [t] with [tr t F] turns a target that contains
    old into F old. *)
Inductive sees (esc : bool) : forall A, codec A -> (tree -> (A -> A) -> Prop) -> Prop :=
| se_sub A c (tr tr' : tree -> (A -> A) -> Prop) : sees esc A c tr -> (forall t F, tr' t F -> exists G, tr t G /\ forall x, G x = F x) -> sees esc A c tr'
| se_int y : ity_ok y -> sees esc _ (int_codec y) (fun t F => exists z, t = TInt z /\ irange y z /\ (isize y < 4 \/ isigned y = false \/ z <> imin y) /\ F = fun _ => z)
| se_bool : sees esc _ bool_codec (fun t F => exists b, t = TBool b /\ F = fun _ => b)
| se_string : sees esc _ string_codec (fun t F => exists s, t = TStr s /\ dist s <= INT_MAX /\ F = fun _ => s)
| se_enum mode L : esc = false -> NoDup (enames L) -> Forall no_quote (enames L) ->
    sees esc _ (enum_codec mode L) (fun t F => exists n x, t = TStr n /\ In (n, x) L /\ F = fun _ => x)
| se_vector A (c : codec A) d0 tr : sees esc A c tr ->
    sees esc _ (vector_codec c d0) (fun t F => exists l fs, t = TArr l /\ Forall2 tr l fs /\ F = fun _ => map (fun f => f d0) fs)
| se_set A lt (c : codec A) d0 tr : swo lt -> sees esc A c tr ->
    sees esc _ (set_codec lt c d0) (fun t F => exists l fs m, t = TArr l /\ Forall2 tr l fs /\ as_set lt (map (fun f => f d0) fs) m /\ F = fun _ => m)
| se_multiset A lt (c : codec A) d0 tr : swo lt -> sees esc A c tr ->
    sees esc _ (multiset_codec lt c d0) (fun t F => exists l fs m, t = TArr l /\ Forall2 tr l fs /\ as_multiset lt (map (fun f => f d0) fs) m /\ F = fun _ => m)
| se_std_array A (c : codec A) d0 N tr : (0 < N)%nat -> sees esc A c tr ->
    sees esc _ (std_array_codec c d0 N) (fun t F => exists l fs, t = TArr l /\ Forall2 tr l fs /\ (length l <= N)%nat /\
      forall x, vlist (F x) = map (fun f => f d0) fs ++ skipn (length l) (vlist x))
| se_dict K V (kc : codec K) (vc : codec V) k0 v0 tk tv : sees esc K kc tk -> sees esc V vc tv ->
    sees esc _ (dict_vec_codec kc vc (k0, v0)) (fun t F => exists l fs, t = TObj l /\
      Forall2 (fun it p => exists f g, tk (TStr (fst it)) f /\ tv (snd it) g /\ p = (f k0, g v0)) l fs /\ F = fun _ => fs)
| se_map K V lt (kc : codec K) (vc : codec V) k0 v0 tk tv : swo lt -> sees esc K kc tk -> sees esc V vc tv ->
    sees esc _ (map_codec lt kc vc (k0, v0)) (fun t F => exists l fs m, t = TObj l /\
      Forall2 (fun it p => exists f g, tk (TStr (fst it)) f /\ tv (snd it) g /\ p = (f k0, g v0)) l fs /\ as_set (fun p q => lt (fst p) (fst q)) fs m /\ F = fun _ => m)
| se_multimap K V lt (kc : codec K) (vc : codec V) k0 v0 tk tv : swo lt -> sees esc K kc tk -> sees esc V vc tv ->
    sees esc _ (multimap_codec lt kc vc (k0, v0)) (fun t F => exists l fs m, t = TObj l /\
      Forall2 (fun it p => exists f g, tk (TStr (fst it)) f /\ tv (snd it) g /\ p = (f k0, g v0)) l fs /\ as_multiset (fun p q => lt (fst p) (fst q)) fs m /\ F = fun _ => m)
| se_object T mode (L : list (memb T)) t0 (tr : forall m : mem T, tree -> (m_ty m -> m_ty m) -> Prop) :
    names_ok L -> Forall no_if L -> (forall b, In b L -> sees esc _ (m_codec (memb_mem b)) (tr (memb_mem b))) ->
    sees esc T (object_codec mode L t0) (fun t F => exists l fs, t = TObj l /\ Forall2 (tells mode L tr) l fs /\
      ((forall n, In n (names L) -> (count_occ name_dec (map fst l) n <= 1)%nat) \/ (exists b, In b L /\ ~ In (memb_name b) (map fst l))) /\ F = run_all fs)
| se_object_array T (L : list (memb T)) t0 (tr : forall m : mem T, tree -> (m_ty m -> m_ty m) -> Prop) :
    Forall no_if L -> (forall b, In b L -> sees esc _ (m_codec (memb_mem b)) (tr (memb_mem b))) ->
    sees esc T (oarray_codec L t0) (fun t F => exists l L1 L2 fs, t = TArr l /\ L = L1 ++ L2 /\ tells_all tr L1 l fs /\ F = run_all fs)
| se_quoted A (c : codec A) serq reqq tr : sees esc A c tr ->
    sees esc A (quoted_codec c serq reqq) (fun t F => (exists s t', t = TStr s /\ dist s <= INT_MAX /\ simple esc s t' /\ tr t' F) \/
      (reqq = false /\ (forall s, t <> TStr s) /\ tr t F))
| se_pointer A (c : codec A) d0 tr : sees esc A c tr ->
    sees esc _ (ptr_codec c d0) (fun t F => t = TNull /\ F = (fun _ => None) \/ t <> TNull /\ exists f, tr t f /\ F = fun _ => Some (f d0))
| se_null A (c : codec A) tr f : sees esc A c tr -> (forall sn old r e, des c sn old (text "null" ++ r) e = Ok (f old, r, e)) ->
    sees esc A c (fun t F => tr t F \/ t = TNull /\ F = f)
(** [conv]: what the stream makes of a number *)
| se_float A R fmt scan conv (zero : A) : scan_law scan conv ->
    sees esc A (float_codec R fmt scan zero) (fun t F => exists x, F = (fun _ => x) /\
      ((exists n, t = TReal n /\ (length n <= bufsize R)%nat /\ conv n = x) \/ exists z, t = TInt z /\ forall n, jint z n -> (length n <= bufsize R)%nat /\ conv n = x))
| se_chars N : Z.of_nat N <= INT_MAX ->
    sees esc _ (chars_codec N) (fun t F => exists s, t = TStr s /\ (length s <= N)%nat /\ F = fun _ => s ++ repeat 0 (N - length s))
| se_words sep mode L : esc = false -> sep_ok sep -> NoDup (enames L) -> Forall (flag_name sep) (enames L) ->
    sees esc _ (flags_codec sep mode L) (fun t F => exists ns, t = TStr (jsep sep (map fst ns)) /\ incl ns L /\ F = fun _ => union_of ns)
| se_flags sep mode L : L <> [] -> esc = false -> NoDup (enames L) -> Forall no_quote (enames L) ->
    sees esc _ (flags_codec sep mode L) (fun t F => exists ns, t = TArr (map (fun p => TStr (fst p)) ns) /\ incl ns L /\ F = fun _ => union_of ns)
(** the elements of a C array keep what they contain *)
| se_c_array A (c : codec A) N tr : (0 < N)%nat -> sees esc A c tr ->
    sees esc _ (c_array_codec c N) (fun t F => exists l fs, t = TArr l /\ Forall2 tr l fs /\ (length l <= N)%nat /\ forall x, vlist (F x) = patch fs (vlist x))
| se_member_value T A (get : T -> A) set (c : codec A) tr : sees esc A c tr ->
    sees esc T (member_value_codec get set c) (fun t F => exists f, tr t f /\ F = fun x => set x (f (get x))).
