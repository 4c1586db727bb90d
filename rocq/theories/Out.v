(** Output side of the serializers: what a serializer does to its output
    iterator, and the codec record tying a serializer to its deserializer. *)
From Verif Require Import Base.

(** One action on an output iterator [itr]:
    [W b]   is  [*(itr++) = b];
    [PW b]  is  [*(++itr) = b]              (pointer.hpp:30-33);
    [Sub l] is a call [f(x, itr)] performing [l] whose returned iterator is
            dropped, so a plain pointer is not advanced (quoted.hpp,
            time_interval.hpp, size_value.hpp). *)
Inductive op := W (b : Z) | PW (b : Z) | Sub (l : list op).

Definition wr (s : buf) : list op := map W s.

(** std::back_inserter: every assignment appends, increments are no-ops. *)
Fixpoint flat1 (o : op) : buf :=
  match o with
  | W b => [b]
  | PW b => [b]
  | Sub l => (fix go (l : list op) : buf := match l with [] => [] | x :: r => flat1 x ++ go r end) l
  end.
Fixpoint flat (l : list op) : buf :=
  match l with [] => [] | x :: r => flat1 x ++ flat r end.

(** A plain char*: memory is a map from addresses, the state is the pointer. *)
Definition mem := Z -> option Z.
Definition upd (m : mem) (a b : Z) : mem := fun x => if x =? a then Some b else m x.
Fixpoint ptr1 (o : op) (m : mem) (a : Z) : mem * Z :=
  match o with
  | W b => (upd m a b, a + 1)
  | PW b => (upd m (a + 1) b, a + 1)
  | Sub l => (fst ((fix go (l : list op) (m : mem) (a : Z) : mem * Z :=
                 match l with [] => (m, a) | x :: r => let '(m1, a1) := ptr1 x m a in go r m1 a1 end) l m a), a)
  end.
Fixpoint ptr_run (l : list op) (m : mem) (a : Z) : mem * Z :=
  match l with [] => (m, a) | x :: r => let '(m1, a1) := ptr1 x m a in ptr_run r m1 a1 end.

(** A serializer class: operator()(v, out) and operator()(v&, beg, end, e).
    [des sn old s e]: [old] is the previous contents of the target. *)
Record codec (A : Type) := mkcodec {
  ser : A -> res (list op);
  des : option Z -> A -> buf -> eptr -> res (A * buf * eptr)
}.
Arguments mkcodec {A}.
Arguments ser {A}.
Arguments des {A}.
