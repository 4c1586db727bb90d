(** Specification: what structs with member_if hold. *)
From Verif Require Import Base Out Object.

(** What reading a null may leave. *)
Definition null_gives {A} (c : codec A) (n : A) : Prop := exists o r e, des c (Some 0) o (text "null") None = Ok (n, r, e).
(** t1 is t, perhaps with something stored in f. *)
Definition tried {S} (f : mem S) (t t1 : S) : Prop := t1 = t \/ exists x, t1 = m_set f t x.
(** I survives a member_if whose alternative f is tried before g: f takes a value
    and g becomes what a null leaves, or g alone becomes that, or f is tried, then
    becomes that, and g may take a value. *)
Definition alt_keeps {S} (I : S -> Prop) (f g : mem S) (df : m_ty f -> Prop) (dg : m_ty g -> Prop) : Prop :=
  (forall t x n, I t -> df x -> null_gives (m_codec g) n -> I (m_set g (m_set f t x) n)) /\
  (forall t n, I t -> null_gives (m_codec g) n -> I (m_set g t n)) /\
  (forall t t1 n, I t -> tried f t t1 -> null_gives (m_codec f) n -> I (m_set f t1 n) /\ forall y, dg y -> I (m_set g (m_set f t1 n) y)).
(** I survives the element b of a member list. *)
Definition memb_keeps {S} (I : S -> Prop) (om dm : forall m : mem S, m_ty m -> Prop) (b : memb S) : Prop :=
  match b with
  | MRef m => forall t, I t -> om m (m_get m t) /\ forall x, dm m x -> I (m_set m t x)
  | MProp m i => om m i /\ forall t x, I t -> dm m x -> I (m_set m t x)
  | MIf ru l r _ => (forall t, I t -> om l (m_get l t) /\ om r (m_get r t)) /\ if ru then alt_keeps I r l (dm r) (dm l) else alt_keeps I l r (dm l) (dm r)
  end.
(** The members and alternatives an element of a member list is made of. *)
Definition parts {S} (b : memb S) : list (mem S) := match b with MRef m => [m] | MProp m _ => [m] | MIf _ l r _ => [l; r] end.

(** One of the two holds what it reads from null. *)
Definition one_unset {S} (l r : mem S) (t : S) : Prop := null_gives (m_codec l) (m_get l t) \/ null_gives (m_codec r) (m_get r t).
(** Setting m is not seen by l. *)
Definition apart {S} (m l : mem S) : Prop := forall t x, m_get l (m_set m t x) = m_get l t.
Definition keeps_set {S} (m : mem S) : Prop := forall t x, m_get m (m_set m t x) = x.
