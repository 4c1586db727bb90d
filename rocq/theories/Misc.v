(** Models of utility/multi_deserializer.hpp, schema.hpp, strerror.hpp and
    _json.hpp. *)
From Verif Require Import Base Parser Out.

(** ---- multi_deserializer (utility/multi_deserializer.hpp:13-27) ---- *)
(** One description of the argument pack together with its target. *)
Record slot := mkslot { s_type : Type; s_codec : codec s_type; s_target : s_type }.

(** 13-18 (no descriptions left) and 20-27.  The result is the returned index,
    the targets after the call, and *e. *)
Fixpoint multi (sn : option Z) (s : buf) (l : list slot) (e : eptr) : res (Z * list slot * eptr) :=
  match l with
  | [] => let* (_, e1) := parse_value sn s e in Ok (0, [], e1)
  | mkslot A c v :: R =>
    let* (v1, _, er) := des c sn v s (Some no_error) in
    if negb (has_err er) then Ok (0, mkslot A c v1 :: R, e)
    else let* (n, R1, e1) := multi sn s R e in Ok (1 + n, mkslot A c v1 :: R1, e1)
  end.

(** ---- schema (schema.hpp) ---- *)
(** std::string::operator== *)
Fixpoint str_eq (a b : buf) : bool :=
  match a, b with
  | [], [] => true
  | x :: a', y :: b' => (x =? y) && str_eq a' b'
  | _, _ => false
  end.

(** What a class T offers, schema.hpp:27-52: T(), the four forms of the static
    create_schema, and get_schema_list.  The functions are taken to be pure. *)
Record sclass (A : Type) := mksclass {
  s_default : A;
  s_form1 : option A;                      (* static T create_schema() *)
  s_form2 : option (A -> A);               (* static void create_schema(T&) *)
  s_form3 : option (buf -> A);             (* static T create_schema(const std::string&) *)
  s_form4 : option (A -> buf -> A * bool); (* static bool create_schema(T&, const std::string&) *)
  s_list : option (list buf)               (* static std::vector<std::string> get_schema_list() *)
}.
Arguments mksclass {A}. Arguments s_default {A}. Arguments s_form1 {A}. Arguments s_form2 {A}.
Arguments s_form3 {A}. Arguments s_form4 {A}. Arguments s_list {A}.

Definition has {A} (x : option A) : bool := match x with Some _ => true | None => false end.

(** 41-49, 54-58 has_schema *)
Definition has_schema {A} (T : sclass A) : bool :=
  negb (Nat.b2n (has (s_form1 T)) + Nat.b2n (has (s_form2 T)) + Nat.b2n (has (s_form3 T)) + Nat.b2n (has (s_form4 T)) =? 0)%nat.

(** 90-94, 163-173 get_schema_list() *)
Definition schema_list {A} (T : sclass A) : list buf := match s_list T with Some l => l | None => [] end.

(** 104-111, the search for *itr1 in schemas *)
Fixpoint schema_found (x : buf) (schemas : list buf) : bool :=
  match schemas with [] => false | y :: R => if str_eq x y then true else schema_found x R end.
(** 102-118, the loop over cur; schemas grows during the loop *)
Fixpoint schema_merge (cur schemas : list buf) (has_new : bool) : list buf * bool :=
  match cur with
  | [] => (schemas, has_new)
  | x :: R => if schema_found x schemas then schema_merge R schemas has_new
              else schema_merge R (schemas ++ [x]) true
  end.
(** 96-120 get_schema_list(schemas) *)
Definition get_schema_list {A} (T : sclass A) (schemas : list buf) : list buf * bool :=
  schema_merge (schema_list T) schemas false.

(** 213-225 create_schema1_; the result is obj and the returned flag *)
Definition create1 {A} (T : sclass A) : A * bool :=
  match s_form1 T with Some v => (v, true) | None => (s_default T, true) end.
(** 200-211 create_schema2_ *)
Definition create2 {A} (T : sclass A) (obj : A) : A * bool :=
  match s_form2 T with Some f => (f obj, true) | None => create1 T end.
(** 187-198 create_schema3_ *)
Definition create3 {A} (T : sclass A) (obj : A) (name : buf) : A * bool :=
  match s_form3 T with Some f => (f name, true) | None => create2 T obj end.
(** 175-185 create_schema4_; the true_ version calls T::create_schema(obj, name),
    which does not compile ([None]) when T has no such function *)
Definition create4 {A} (T : sclass A) (obj : A) (name : buf) (flag : bool) : option (A * bool) :=
  if flag then match s_form4 T with Some f => Some (f obj name) | None => None end
  else Some (create3 T obj name).
(** 122-128 create_schema(name): dispatches on has_schema3_t *)
Definition create_name {A} (T : sclass A) (name : buf) : option A :=
  match create4 T (s_default T) name (has (s_form3 T)) with Some (v, _) => Some v | None => None end.
(** 130-134 create_schema(obj, name): dispatches on has_schema4_t *)
Definition create_obj {A} (T : sclass A) (obj : A) (name : buf) : option (A * bool) :=
  create4 T obj name (has (s_form4 T)).

(** 144-154, the two search loops of create_schema(obj, names): outer over the
    requested names, inner over the schema list *)
Fixpoint schema_inner (x : buf) (schemas : list buf) : bool :=
  match schemas with [] => false | y :: R => if str_eq y x then true else schema_inner x R end.
Fixpoint schema_pick (names schemas : list buf) : option buf :=
  match names with
  | [] => None
  | x :: R => if schema_inner x schemas then Some x else schema_pick R schemas
  end.
(** 136-159 create_schema(obj, names); names.back() is the last element *)
Definition create_names {A} (T : sclass A) (obj : A) (names : list buf) : option (A * bool) :=
  match names with
  | [] => create_obj T obj []
  | _ :: _ =>
    let schemas := schema_list T in
    match (if match schemas with [] => false | _ => true end then schema_pick names schemas else None) with
    | Some x => create_obj T obj x
    | None => create_obj T obj (last names [])
    end
  end.

(** ---- strerror (strerror.hpp) ---- *)
(** error.hpp:17-29, the numeric codes *)
Definition ecode_num (c : ecode) : Z :=
  match c with
  | ValidJSON => 0 | InvalidJSON => 1 | UnexpectedEndFragment => 2 | ExpectedOf => 3 | InvalidNull => 4
  | InvalidNumber => 5 | InvalidBool => 6 | InvalidString => 7 | InvalidMember => 8 | InvalidEnum => 9
  | InvalidRequest => 10
  end.
(** strerror.hpp:22-53, error_code_json::member_list *)
Definition what_list : list (Z * buf) :=
  [ (ecode_num ValidJSON, text "Valid JSON");
    (ecode_num InvalidJSON, text "Invalid JSON");
    (ecode_num UnexpectedEndFragment, text "Unexpected End of Fragment");
    (ecode_num ExpectedOf, text "Expected Of");
    (ecode_num InvalidNull, text "Invalid Null");
    (ecode_num InvalidNumber, text "Invalid Number");
    (ecode_num InvalidBool, text "Invalid Bool");
    (ecode_num InvalidString, text "Invalid String");
    (ecode_num InvalidMember, text "Invalid Member");
    (ecode_num InvalidEnum, text "Invalid Enum");
    (ecode_num InvalidRequest, text "Invalid JSON-RPC Request") ].
(** 114-126 what_: the last entry is returned without a comparison *)
Fixpoint what_ (c : Z) (l : list (Z * buf)) : buf :=
  match l with
  | [] => []
  | [(_, t)] => t
  | (x, t) :: R => if c =? x then t else what_ c R
  end.
(** 59-62 what *)
Definition what (j : json_error) : buf := what_ (ecode_num (code j)) what_list.
(** 64-71 message (and 98-101): expected_of is a C string *)
Definition message (j : json_error) : buf :=
  what j ++ match expected_of j with Some x => text " '" ++ x ++ text "'" | None => [] end.
(** 73-82 where *)
Definition where_ (j : json_error) (s : buf) : Z :=
  if negb (is_err j) then 0
  else if dist s <? tail_of j then 0
  else dist s - tail_of j.
(** 84-93, the two strings around the marker; end - tail_of must lie in the range *)
Definition split_trace (j : json_error) (s : buf) : res buf :=
  if (0 <=? tail_of j) && (tail_of j <=? dist s) then
    let k := Z.to_nat (dist s - tail_of j) in
    Ok (firstn k s ++ (if tail_of j =? 0 then text "<<<" else text ">>>") ++ skipn k s)
  else UB.
(** 84-93 trace *)
Definition trace (j : json_error) (s : buf) : res buf :=
  if negb (is_err j) then Ok s else split_trace j s.
(** 95-110 message_trace *)
Definition message_trace (j : json_error) (s : buf) : res buf :=
  if is_err j then let* t := split_trace j s in Ok (message j ++ text ": " ++ t) else Ok (message j).

(** ---- operator""_json (_json.hpp:13-18) ---- *)
Definition json_literal (s : buf) : buf := map (fun c => if c =? 39 then QT else c) s.
