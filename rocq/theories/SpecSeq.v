(** Specification: texts of element lists; ordered containers. *)
From Verif Require Import Base SpecJson Out Grammar2.

(** [ebody tc ts b]: b is the texts ts separated by commas, with gaps
    (whitespace, comments) anywhere between tokens; [tc]: one trailing comma
    may follow. *)
Inductive ebody (tc : bool) : list buf -> buf -> Prop :=
| eb_one g1 t g2 : gap g1 -> gap g2 -> ebody tc [t] (g1 ++ t ++ g2)
| eb_trail g1 t g2 g3 : tc = true -> gap g1 -> gap g2 -> gap g3 -> ebody tc [t] (g1 ++ t ++ g2 ++ COMMA :: g3)
| eb_more g1 t g2 ts b : gap g1 -> gap g2 -> ebody tc ts b -> ebody tc (t :: ts) (g1 ++ t ++ g2 ++ COMMA :: b).
Inductive spaced (tc : bool) : list buf -> buf -> Prop :=
| sp_nil g : gap g -> spaced tc [] g
| sp_body ts b : ebody tc ts b -> spaced tc ts b.

(** [rd c txt v]: the text txt reads as v: whatever the target contained and
    whatever follows, exactly txt is consumed and nothing is reported. *)
Definition rd {A} (c : codec A) (txt : buf) (v : A) : Prop :=
  (exists h t, txt = h :: t /\ vstart h) /\
  forall sn old r e, follow r -> no_err_yet e = true -> des c sn old (txt ++ r) e = Ok (v, r, e).

(** [rdf c txt F]: the same, where the value may depend on what the target
    contained: a target containing old becomes F old. *)
Definition rdf {A} (c : codec A) (txt : buf) (F : A -> A) : Prop :=
  (exists h t, txt = h :: t /\ vstart h) /\
  forall sn old r e, follow r -> no_err_yet e = true -> des c sn old (txt ++ r) e = Ok (F old, r, e).

(** The same for a target that contains [old]. *)
Definition rd_into {A} (c : codec A) (old : A) (txt : buf) (v : A) : Prop :=
  (exists h t, txt = h :: t /\ vstart h) /\
  forall sn r e, follow r -> no_err_yet e = true -> des c sn old (txt ++ r) e = Ok (v, r, e).
(** The texts are read one after the other; [tgt x] is what the target of the
    element x contains; elements without a text stay. *)
Inductive filled {A} (c : codec A) (tgt : A -> A) : list A -> list buf -> list A -> Prop :=
| fl_stay l : filled c tgt l [] l
| fl_read x l t ts v vs : rd_into c (tgt x) t v -> filled c tgt l ts vs -> filled c tgt (x :: l) (t :: ts) (v :: vs).

(** Strict weak order, as operator< has to be. *)
Record swo {A} (lt : A -> A -> bool) : Prop := {
  swo_irr : forall x, lt x x = false;
  swo_trans : forall x y z, lt x y = true -> lt y z = true -> lt x z = true;
  swo_neg : forall x y z, lt x y = true -> lt x z = true \/ lt z y = true
}.
Definition eqv {A} (lt : A -> A -> bool) (x y : A) : bool := negb (lt x y) && negb (lt y x).
(** sorted, without equivalent elements / sorted *)
Definition sorted_lt {A} (lt : A -> A -> bool) (l : list A) : Prop :=
  forall i j x y, (i < j)%nat -> nth_error l i = Some x -> nth_error l j = Some y -> lt x y = true.
Definition sorted_le {A} (lt : A -> A -> bool) (l : list A) : Prop :=
  forall i j x y, (i < j)%nat -> nth_error l i = Some x -> nth_error l j = Some y -> lt y x = false.

(** [items_read P R s vs r]: s is a comma separated list (gaps anywhere, one
    trailing comma allowed) closed by R, after which r remains; [P t v t']: at t
    an item with value v is read, leaving t'. *)
Inductive items_read {A} (P : buf -> A -> buf -> Prop) (R : Z) : buf -> list A -> buf -> Prop :=
| ir_end g r : gap g -> items_read P R (g ++ R :: r) [] r
| ir_last g1 s v s2 g2 r : gap g1 -> P s v s2 -> gap g2 -> s2 = g2 ++ R :: r -> items_read P R (g1 ++ s) [v] r
| ir_more g1 s v s2 g2 s3 vs r : gap g1 -> P s v s2 -> gap g2 -> s2 = g2 ++ COMMA :: s3 ->
    items_read P R s3 vs r -> items_read P R (g1 ++ s) (v :: vs) r.
