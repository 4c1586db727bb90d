(** Specifications for multi_deserializer, schema, strerror and the float
    serializer. *)
From Verif Require Import Base SpecJson.

(** The text that belongs to an error code. *)
Definition code_text (c : ecode) : buf :=
  match c with
  | ValidJSON => text "Valid JSON"
  | InvalidJSON => text "Invalid JSON"
  | UnexpectedEndFragment => text "Unexpected End of Fragment"
  | ExpectedOf => text "Expected Of"
  | InvalidNull => text "Invalid Null"
  | InvalidNumber => text "Invalid Number"
  | InvalidBool => text "Invalid Bool"
  | InvalidString => text "Invalid String"
  | InvalidMember => text "Invalid Member"
  | InvalidEnum => text "Invalid Enum"
  | InvalidRequest => text "Invalid JSON-RPC Request"
  end.

(** [new] lists the names of [cur] missing from [old], each once, in the order
    of their first occurrence in [cur]. *)
Definition missing_in_order (old cur new : list buf) : Prop :=
  NoDup new /\
  (forall x, In x new <-> In x cur /\ ~ In x old) /\
  (forall a x b, new = a ++ x :: b ->
     exists p q, cur = p ++ x :: q /\ ~ In x p /\ forall y, In y a <-> In y p /\ ~ In y old).

(** Numbers as C++ streams read them: like RFC 8259 numbers, but the integer
    part may have leading zeros. *)
Inductive sfloat : buf -> Prop :=
| sfl m i f x : ropt_minus m -> digits1 i -> rfrac f -> rexp x -> sfloat (m ++ i ++ f ++ x).

(** Requirement on stream extraction [scan]: from a number [t] followed by
    something that cannot continue it, it makes [conv t]. *)
Definition scan_law {A} (scan conv : buf -> A) : Prop :=
  forall t r, sfloat t -> follow r -> scan (t ++ r) = conv t.

(** std::scientific with the default precision: d.dddddde+dd, exponent of 2 to 4 digits *)
Inductive sci_text : buf -> Prop :=
| sci m d fr sg ex : ropt_minus m -> s_digit d -> digits fr -> length fr = 6%nat -> sg = MINUS \/ sg = PLUS ->
    digits ex -> (2 <= length ex <= 4)%nat -> sci_text (m ++ [d] ++ (DOT :: fr) ++ 101 :: [sg] ++ ex).

(** std::fixed with precision [R] *)
Inductive fixed_text (R : nat) : buf -> Prop :=
| fixed m i fr : ropt_minus m -> rint i -> digits fr -> length fr = R ->
    fixed_text R (m ++ i ++ match R with O => [] | _ => DOT :: fr end).
