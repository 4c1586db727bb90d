(** Specification: how long a written text is, from the value alone. *)
From Verif Require Import Base SpecExact Out Number Float StringS Array Unord Object ObjectArray Enum Wrap TimeSize Desc.

(** A sum. *)
Fixpoint total {A} (f : A -> Z) (l : list A) : Z := match l with [] => 0 | x :: t => f x + total f t end.
(** Brackets, the elements, and a comma between neighbours. *)
Definition listed {A} (f : A -> Z) (l : list A) : Z := 2 + total f l + Z.max 0 (Z.of_nat (length l) - 1).

(** The number of decimal digits of an integer of at most 20 digits, and its sign. *)
Definition nlen (z : Z) : Z :=
  (if z <? 0 then 2 else 1) + total (fun k => if 10 ^ k <=? Z.abs z then 1 else 0) [1; 2; 3; 4; 5; 6; 7; 8; 9; 10; 11; 12; 13; 14; 15; 16; 17; 18; 19].
(** The longest numeral of an integer type. *)
Definition iwidth (t : ity) : Z :=
  match isize t with
  | 1 => if isigned t then 4 else 3
  | 2 => if isigned t then 6 else 5
  | 4 => if isigned t then 11 else 10
  | _ => 20
  end.
(** The C string at the beginning of a character array. *)
Fixpoint upto0 (s : buf) : buf := match s with [] => [] | c :: t => if c =? 0 then [] else c :: upto0 t end.
Definition longest (ns : list buf) : Z := fold_right (fun n a => Z.max (dist n) a) 0 ns.

(** An empty raw value is written as an empty string. *)
Definition raw_len (v : buf) : Z := match v with [] => 2 | _ => dist v end.

(** [f] for the members written for [v]. *)
Definition memb_len {T} (nm : bool) (f : mem T -> T -> Z) (v : T) (b : memb T) : Z :=
  let one m := (if nm then dist (m_name m) + 3 else 0) + f m v in
  match b with
  | MRef m => one m
  | MProp m _ => one m
  | MIf _ l r isdef => if isdef (m_get l v) then one r else one l
  end.

(** The members written for [v] are in their domains. *)
Definition memb_dom {T} (dm : mem T -> T -> Prop) (v : T) (b : memb T) : Prop :=
  match b with
  | MRef m => dm m v
  | MProp m _ => dm m v
  | MIf _ l r isdef => if isdef (m_get l v) then dm r v else dm l v
  end.

(** Descriptions, the values they are meant for, and bounds for what is written. *)
Inductive lens : forall A, codec A -> (A -> Prop) -> (A -> Z) -> (A -> Z) -> Prop :=
| ln_sub A c (dom dom' : A -> Prop) lo hi lo' hi' : lens A c dom lo hi -> (forall v, dom' v -> dom v /\ lo' v <= lo v /\ hi v <= hi' v) -> lens A c dom' lo' hi'
| ln_int t : ity_ok t -> lens _ (int_codec t) (irange t) nlen nlen
| ln_bool : lens _ bool_codec (fun _ => True) (fun b => if b then 4 else 5) (fun b => if b then 4 else 5)
| ln_float A R fmt scan zero : lens A (float_codec R fmt scan zero) (fun _ => True) (fun _ => 0) (fun v => Z.min (dist (fmt v)) (Z.of_nat (bufsize R)))
| ln_float_std A R fmt scan zero : lens A (float_codec_std R fmt scan zero) (fun _ => True) (fun v => dist (fmt v)) (fun v => dist (fmt v))
| ln_string : lens _ string_codec (fun _ => True) (fun s => dist s + 2) (fun s => 6 * dist s + 2)
| ln_chars N : lens _ (chars_codec N) bytes (fun s => dist (upto0 s) + 2) (fun s => 6 * dist (upto0 s) + 2)
| ln_enum mode L : lens _ (enum_codec mode L) (fun _ => True) (fun _ => 2) (fun _ => longest (map fst L) + 2)
| ln_flags sep mode L : lens _ (flags_codec sep mode L) (fun _ => True) (fun _ => 2)
    (fun _ => listed (fun n => dist n + if sep =? COMMA then 2 else 0) (map fst L))
| ln_raw : lens _ raw_codec (fun _ => True) raw_len raw_len
| ln_ipair : lens _ ipair_codec (fun _ => True) raw_len raw_len
| ln_rquoted (q : bool) reqq : lens _ (rquoted_codec q reqq) (fun _ => True) (fun s => dist s + if q then 2 else 0) (fun s => dist s + if q then 2 else 0)
| ln_time t fr : ity_ok t -> lens _ (time_codec t fr) (irange t) (fun _ => 2) (fun _ => 6 * iwidth t + 11)
| ln_size t metric : ity_ok t -> lens _ (size_codec t metric) (irange t) (fun _ => 1) (fun _ => 25)
| ln_seq A C S (k : container A C S) L R (c : codec A) d0 dom lo hi : lens A c dom lo hi ->
    lens C (seq_codec k L R c d0) (fun v => Forall dom (c_list k v)) (fun v => listed lo (c_list k v)) (fun v => listed hi (c_list k v))
| ln_hash A H (h : hashtab A H) L R (c : codec A) d0 dom lo hi : lens A c dom lo hi ->
    lens H (hash_codec h L R c d0) (fun v => Forall dom (h_list h v)) (fun v => listed lo (h_list h v)) (fun v => listed hi (h_list h v))
| ln_std_array A (c : codec A) d0 N dom lo hi : lens A c dom lo hi ->
    lens _ (std_array_codec c d0 N) (fun v => Forall dom (vlist v)) (fun v => listed lo (vlist v)) (fun v => listed hi (vlist v))
| ln_c_array A (c : codec A) N dom lo hi : lens A c dom lo hi ->
    lens _ (c_array_codec c N) (fun v => Forall dom (vlist v)) (fun v => listed lo (vlist v)) (fun v => listed hi (vlist v))
| ln_field K V (kc : codec K) (vc : codec V) dk lk hk dv lv hv : lens K kc dk lk hk -> lens V vc dv lv hv ->
    lens _ (field_codec kc vc) (fun p => dk (fst p) /\ dv (snd p)) (fun p => lk (fst p) + 1 + lv (snd p)) (fun p => hk (fst p) + 1 + hv (snd p))
| ln_object T mode (L : list (memb T)) t0 (dm : mem T -> T -> Prop) lo hi :
    (forall b m, In b L -> In m (mems_of b) -> lens T (member_value_codec (m_get m) (m_set m) (m_codec m)) (dm m) (lo m) (hi m)) ->
    lens T (object_codec mode L t0) (fun v => Forall (memb_dom dm v) L) (fun v => listed (memb_len true lo v) L) (fun v => listed (memb_len true hi v) L)
| ln_object_array T (L : list (memb T)) t0 (dm : mem T -> T -> Prop) lo hi :
    (forall b m, In b L -> In m (mems_of b) -> lens T (member_value_codec (m_get m) (m_set m) (m_codec m)) (dm m) (lo m) (hi m)) ->
    lens T (oarray_codec L t0) (fun v => Forall (memb_dom dm v) L) (fun v => listed (memb_len false lo v) L) (fun v => listed (memb_len false hi v) L)
| ln_member_value T A (get : T -> A) set c dom lo hi : lens A c dom lo hi ->
    lens T (member_value_codec get set c) (fun v => dom (get v)) (fun v => lo (get v)) (fun v => hi (get v))
| ln_quoted A (c : codec A) reqq dom lo hi : lens A c dom lo hi -> lens A (quoted_codec c true reqq) dom (fun v => lo v + 2) (fun v => 6 * hi v + 2)
| ln_unquoted A (c : codec A) reqq dom lo hi : lens A c dom lo hi -> lens A (quoted_codec c false reqq) dom lo hi
| ln_pointer A (c : codec A) d0 dom lo hi : lens A c dom lo hi ->
    lens _ (ptr_codec c d0) (fun o => match o with None => True | Some v => dom v end)
      (fun o => match o with None => 4 | Some v => lo v end) (fun o => match o with None => 4 | Some v => hi v end).

(** Actions that never write in front of the position they leave. *)
Fixpoint posts1 (o : op) : bool :=
  match o with W _ => true | PW _ => false | Sub l => (fix go (l : list op) : bool := match l with [] => true | x :: r => posts1 x && go r end) l end.
Definition posts (l : list op) : bool := forallb posts1 l.

(** Descriptions without smart pointers, except inside quotes. *)
Inductive noptr : forall A, codec A -> Prop :=
| np_leaf A c : leaf A c -> noptr A c
| np_float_std A R fmt scan zero : noptr A (float_codec_std R fmt scan zero)
| np_seq A C S (k : container A C S) L R (c : codec A) d0 : noptr A c -> noptr C (seq_codec k L R c d0)
| np_hash A H (h : hashtab A H) L R (c : codec A) d0 : noptr A c -> noptr H (hash_codec h L R c d0)
| np_std_array A (c : codec A) d0 N : noptr A c -> noptr _ (std_array_codec c d0 N)
| np_c_array A (c : codec A) N : noptr A c -> noptr _ (c_array_codec c N)
| np_field K V (kc : codec K) (vc : codec V) : noptr K kc -> noptr V vc -> noptr _ (field_codec kc vc)
| np_object T mode (L : list (memb T)) t0 : (forall b m, In b L -> In m (mems_of b) -> noptr _ (m_codec m)) -> noptr T (object_codec mode L t0)
| np_object_array T (L : list (memb T)) t0 : (forall b m, In b L -> In m (mems_of b) -> noptr _ (m_codec m)) -> noptr T (oarray_codec L t0)
| np_member_value T A (get : T -> A) set c : noptr A c -> noptr T (member_value_codec get set c)
| np_quoted A (c : codec A) reqq : noptr A (quoted_codec c true reqq)
| np_unquoted A (c : codec A) reqq : noptr A c -> noptr A (quoted_codec c false reqq).
