(** Base vocabulary of the model of mambaru/wjson: bytes, iterators, results,
    error objects.  Line numbers refer to files below /repo/wjson. *)
From Coq Require Import Ascii String.
From Coq Require Export ZArith List Bool Lia.
From Coq Require Export ZifyBool ZifyNat.
Export String.StringSyntax.
Export ListNotations.
Open Scope Z_scope.
Open Scope list_scope.

(** A byte is the value 0..255 of an [unsigned char].  A range [beg,end) is the
    list of its bytes; an iterator into it is the suffix it still sees. *)
Definition buf := list Z.

Definition byteb (c : Z) : bool := (0 <=? c) && (c <=? 255).
Definition bytes (s : buf) : Prop := Forall (fun c => 0 <= c <= 255) s.

(** [text "..."] : the bytes of an ASCII literal (used for readability only). *)
Fixpoint text (s : string) : buf :=
  match s with
  | EmptyString => []
  | String a r => Z.of_N (N_of_ascii a) :: text r
  end.

(** Characters of the C++ sources, as notations for numerals. *)
Notation QT := 34 (only parsing).      (* double quote *)
Notation BSL := 92 (only parsing).     (* \ *)
Notation SLASH := 47 (only parsing).   (* / *)
Notation STAR := 42 (only parsing).    (* * *)
Notation COMMA := 44 (only parsing).
Notation COLON := 58 (only parsing).
Notation LBR := 91 (only parsing).     (* [ *)
Notation RBR := 93 (only parsing).     (* ] *)
Notation LCB := 123 (only parsing).    (* { *)
Notation RCB := 125 (only parsing).    (* } *)
Notation MINUS := 45 (only parsing).
Notation PLUS := 43 (only parsing).
Notation DOT := 46 (only parsing).
Notation BAR := 124 (only parsing).    (* | *)

(** Outcome of running a piece of C++: a value, undefined behaviour, or an
    exhausted recursion counter of the model (shown never to occur). *)
Inductive res (A : Type) : Type :=
| Ok (a : A)
| UB
| Fuel.
Arguments Ok {A} a.
Arguments UB {A}.
Arguments Fuel {A}.

Definition bind {A B} (x : res A) (f : A -> res B) : res B :=
  match x with Ok a => f a | UB => UB | Fuel => Fuel end.
Notation "'let*' x ':=' e 'in' f" := (bind e (fun x => f))
  (at level 200, x pattern, right associativity).

(** error.hpp:15-30, error_code::type *)
Inductive ecode :=
| ValidJSON | InvalidJSON | UnexpectedEndFragment | ExpectedOf | InvalidNull
| InvalidNumber | InvalidBool | InvalidString | InvalidMember | InvalidEnum
| InvalidRequest.

(** error.hpp:32-94, class json_error.  [expected_of] is a C string or null. *)
Record json_error := mkerr { code : ecode; expected_of : option buf; tail_of : Z }.

(** error.hpp:35-39, default constructor; error.hpp:83-88 reset() *)
Definition no_error : json_error := mkerr ValidJSON None 0.

(** error.hpp:72-80, status()/operator bool *)
Definition is_err (j : json_error) : bool :=
  match code j with ValidJSON => false | _ => true end.

(** json_error*: [None] is the null pointer. *)
Definition eptr := option json_error.

(** error.hpp:96-118, the three create_error overloads; they set *e only when e
    is not null and holds no error yet.  The returned iterator (always end) is
    written out at the call sites. *)
Definition cerr (c : ecode) (msg : option buf) (tail : Z) (e : eptr) : eptr :=
  match e with
  | None => None
  | Some j => if is_err j then e else Some (mkerr c msg tail)
  end.

(** [e == nullptr || !*e] *)
Definition no_err_yet (e : eptr) : bool :=
  match e with None => true | Some j => negb (is_err j) end.

(** [e != nullptr && *e] *)
Definition has_err (e : eptr) : bool := negb (no_err_yet e).

(** std::distance(beg, end) *)
Definition dist (s : buf) : Z := Z.of_nat (length s).

(** Reading *beg.  [sn] is what lies at *end: [None] = unreadable. *)
Definition deref (sn : option Z) (s : buf) : res Z :=
  match s with
  | c :: _ => Ok c
  | [] => match sn with Some c => Ok c | None => UB end
  end.

(** ++beg ; stepping past end is undefined behaviour *)
Definition step (s : buf) : res buf :=
  match s with
  | _ :: t => Ok t
  | [] => UB
  end.

Lemma bytes_of_bool s : forallb byteb s = true -> bytes s.
Proof.
  intros H. apply Forall_forall. intros c Hc. rewrite forallb_forall in H.
  specialize (H c Hc). unfold byteb in H. lia.
Qed.
