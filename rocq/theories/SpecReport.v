(** Specification: what exactly a failed reading reports. *)
From Verif Require Import Base SpecJson Out SpecSeq.

(** A byte that is neither part of a gap nor continues one. *)
Definition token (c : Z) : Prop := ~ s_ws c /\ c <> SLASH /\ c <> STAR.

(** The error object after j was reported to it (if there is one). *)
Definition told (e : eptr) (j : json_error) : eptr := match e with None => None | Some _ => Some j end.

(** [reports c old s v j]: reading s into a target containing old returns the
    end of the input, leaves v in the target and reports j: the code, the
    expected text and the distance of the position from the end of the input. *)
Definition reports {A} (c : codec A) (old : A) (s : buf) (v : A) (j : json_error) : Prop :=
  is_err j = true /\ forall sn e, no_err_yet e = true -> des c sn old s e = Ok (v, [], told e j).

(** Reading nothing after something was already reported: x is stored. *)
Definition at_end {A} (c : codec A) (old x : A) : Prop :=
  forall sn e, (e = None \/ exists j, e = Some j /\ is_err j = true) -> des c sn old [] e = Ok (x, [], e).

(** Element texts, each followed by a comma, with gaps anywhere. *)
Inductive commas : list buf -> buf -> Prop :=
| cm_nil : commas [] []
| cm_cons g1 t g2 ts b : gap g1 -> gap g2 -> commas ts b -> commas (t :: ts) (g1 ++ t ++ g2 ++ COMMA :: b).

(** The two reports that need no position but the end. *)
Definition unexpected_end : json_error := mkerr UnexpectedEndFragment None 0.
(** txt was expected where rest begins *)
Definition expected (txt rest : buf) : json_error := mkerr ExpectedOf (Some txt) (Z.of_nat (length rest)).

(** The order in which the members of a struct are expected: [uses ns ms] if the
    names ms go through all of ns in order, with other names in between, the
    last of ms being the last of ns; [still ns ms] if ms have not got there yet. *)
Inductive uses : list buf -> list buf -> Prop :=
| us_done : uses [] []
| us_hit n ns ms : uses ns ms -> uses (n :: ns) (n :: ms)
| us_other m n ns ms : m <> n -> uses (n :: ns) ms -> uses (n :: ns) (m :: ms).
Definition still (ns ms : list buf) : Prop := forall ms1 ms2, ms = ms1 ++ ms2 -> ~ uses ns ms1.
