(** Specification: texts of JSON objects and what a member list makes of them. *)
From Verif Require Import Base SpecJson Out SpecSeq Object.

(** A property of all codecs used in a member. *)
Definition memb_all {T} (P : forall A, codec A -> Prop) (b : memb T) : Prop :=
  match b with
  | MRef m => P _ (m_codec m)
  | MProp m _ => P _ (m_codec m)
  | MIf _ l r _ => P _ (m_codec l) /\ P _ (m_codec r)
  end.

(** A member of a JSON object: raw bytes of the name, text of the value. *)
Definition item := (buf * buf)%type.
(** ... its text, with gaps around the colon *)
Inductive member_text : item -> buf -> Prop :=
| mt nm vt g1 g2 : gap g1 -> gap g2 -> member_text (nm, vt) (QT :: nm ++ QT :: g1 ++ COLON :: g2 ++ vt).
(** the text of a JSON object *)
Inductive object_text (its : list item) : buf -> Prop :=
| ot ts b : Forall2 member_text its ts -> spaced false ts b -> object_text its (LCB :: b ++ [RCB]).

(** Member names that need no escaping. *)
Definition plain_name (n : buf) : Prop := Forall (fun c => c <> QT /\ c <> BSL) n.

(** Member lists without member_if. *)
Definition memb_mem {T} (b : memb T) : mem T := match b with MRef m => m | MProp m _ => m | MIf _ l _ _ => l end.
Definition memb_name {T} (b : memb T) : buf := m_name (memb_mem b).
Definition no_if {T} (b : memb T) : Prop := match b with MIf _ _ _ _ => False | _ => True end.
Definition names {T} (L : list (memb T)) : list buf := map memb_name L.
Definition names_ok {T} (L : list (memb T)) : Prop := NoDup (names L) /\ Forall plain_name (names L).

(** The JSON member's name is listed. *)
Lemma name_dec (a b : buf) : {a = b} + {a <> b}. Proof. apply list_eq_dec, Z.eq_dec. Qed.
Definition known {T} (L : list (memb T)) (it : item) : bool :=
  existsb (fun n => if name_dec n (fst it) then true else false) (names L).
(** No listed name occurs twice (others may). *)
Definition once {T} (L : list (memb T)) (its : list item) : Prop := NoDup (map fst (filter (known L) its)).

(** What a member is read into: the field itself, or for a property (member_p) a
    fresh value. *)
Definition memb_old {T} (b : memb T) : T -> m_ty (memb_mem b) :=
  match b with MRef m => m_get m | MProp m i => fun _ => i | MIf _ l _ _ => m_get l end.

(** What one JSON member does to the struct: it sets the field of that name, or
    (nonstrict mode) nothing if there is none. *)
Inductive item_sem {T} (mode : omode) (L : list (memb T)) : item -> (T -> T) -> Prop :=
| is_known b vt F : In b L -> rdf (m_codec (memb_mem b)) vt F ->
    item_sem mode L (memb_name b, vt) (fun t => m_set (memb_mem b) t (F (memb_old b t)))
| is_unknown nm vt : mode = Nonstrict -> ~ In nm (names L) -> wchars nm -> wvalue vt ->
    item_sem mode L (nm, vt) (fun t => t).
Definition run_all {T} (fs : list (T -> T)) (t : T) : T := fold_left (fun t f => f t) fs t.

(** Different members are different fields. *)
Definition indep {T} (L : list (memb T)) : Prop :=
  forall a b, In a L -> In b L -> memb_name a <> memb_name b -> forall t x y,
    m_set (memb_mem a) (m_set (memb_mem b) t y) x = m_set (memb_mem b) (m_set (memb_mem a) t x) y /\
    m_get (memb_mem a) (m_set (memb_mem b) t y) = m_get (memb_mem a) t.
(** Storing twice is storing the last. *)
Definition set_set {T} (m : mem T) : Prop := forall t x y, m_set m (m_set m t x) y = m_set m t y.

(** Copying what a list element describes from one struct to another. *)
Definition copy {T} (v : T) (old : T) (b : memb T) : T :=
  match b with
  | MRef m => m_set m old (m_get m v)
  | MProp m _ => m_set m old (m_get m v)
  | MIf _ l r _ => m_set r (m_set l old (m_get l v)) (m_get r v)
  end.
(** The list describes the whole struct. *)
Definition covers {T} (L : list (memb T)) : Prop := forall v old, fold_left (copy v) L old = v.

(** The text is rejected. *)
Definition rejects {A} (c : codec A) (txt : buf) : Prop :=
  forall sn old r, follow r -> exists v r' j, des c sn old (txt ++ r) (Some no_error) = Ok (v, r', Some j) /\ is_err j = true.

(** Texts of consecutive array elements, read by the members in order. *)
Inductive elems {T} : list (memb T) -> list buf -> list (T -> T) -> Prop :=
| el_nil : elems [] [] []
| el_cons b L vt F ts fs : rdf (m_codec (memb_mem b)) vt F -> elems L ts fs ->
    elems (b :: L) (vt :: ts) ((fun t => m_set (memb_mem b) t (F (memb_old b t))) :: fs).
