(** Specification: texts whose reading into containers, structs and wrappers is
    undefined behaviour: the value that must not be read is reached through
    values that are read (SpecRun). *)
From Verif Require Import Base SpecJson Out StringS Object SpecReport SpecExact SpecRefuse SpecRun.

Definition undefined {A} (c : codec A) (sn : option Z) (old : A) (e : json_error) (s : buf) : Prop := des c sn old s (Some e) = UB.

(** ---- containers ---- *)
(** behind the opening bracket or a comma; [bad]: reading an element is undefined *)
Inductive seq_bad {A} (item : json_error -> buf -> A -> buf -> json_error -> Prop) (bad : json_error -> buf -> Prop) (R : Z) : json_error -> buf -> Prop :=
| sb_here e s s1 : after_gap s s1 -> s1 <> [] -> ~ heads R s1 -> bad e s1 -> seq_bad item bad R e s
| sb_later e s s1 x s2 e2 s3 : after_gap s s1 -> s1 <> [] -> ~ heads R s1 -> item e s1 x s2 e2 -> after_gap s2 (COMMA :: s3) -> seq_bad item bad R e2 s3 -> seq_bad item bad R e s.
(** members of a dictionary *)
Inductive field_bad {K} (kr : json_error -> buf -> K -> buf -> json_error -> Prop) (kbad vbad : json_error -> buf -> Prop) (e : json_error) (s : buf) : Prop :=
| fb_name : kbad e s -> field_bad kr kbad vbad e s
| fb_value k s1 e1 s2 s3 : kr e s k s1 e1 -> after_gap s1 (COLON :: s2) -> after_gap s2 s3 -> s3 <> [] -> vbad e1 s3 -> field_bad kr kbad vbad e s.
(** fixed-size arrays *)
Inductive slots_bad {A} (item : A -> json_error -> buf -> A -> buf -> json_error -> Prop) (bad : A -> json_error -> buf -> Prop) (R : Z) : list A -> json_error -> buf -> Prop :=
| lb_here x o e s s1 : after_gap s s1 -> s1 <> [] -> ~ heads R s1 -> bad x e s1 -> slots_bad item bad R (x :: o) e s
| lb_later x o e s s1 y s2 e2 s3 : after_gap s s1 -> s1 <> [] -> ~ heads R s1 -> item x e s1 y s2 e2 -> after_gap s2 (COMMA :: s3) -> slots_bad item bad R o e2 s3 -> slots_bad item bad R (x :: o) e s.
Inductive each_bad {A} (item : A -> json_error -> buf -> A -> buf -> json_error -> Prop) (bad : A -> json_error -> buf -> Prop) (s : buf) : json_error -> list A -> Prop :=
| eb_here e x o : bad x e s -> each_bad item bad s e (x :: o)
| eb_later e x y r e1 o : item x e s y r e1 -> each_bad item bad s e1 o -> each_bad item bad s e (x :: o).

(** ---- structs ---- *)
Section Struct.
  Context {T : Type} (mode : omode) (sn : option Z).
  Definition mem_bad (m : mem T) (old : m_ty m) (e : json_error) (s : buf) : Prop :=
    exists s1 e1, name_run (m_name m) e s true s1 e1 /\ undefined (m_codec m) sn old e1 s1.
  (** reading null into an alternative *)
  Definition reset_bad (m : mem T) (t : T) : Prop := des (m_codec m) (Some 0) (m_get m t) (text "null") None = UB.
  Inductive memb_bad : memb T -> T -> json_error -> buf -> Prop :=
  | bb_ref m t e s : mem_bad m (m_get m t) e s -> memb_bad (MRef m) t e s
  | bb_prop m i t e s : mem_bad m i e s -> memb_bad (MProp m i) t e s
  | bb_first (ru : bool) l r0 d t e s : mem_bad (if ru then r0 else l) (m_get (if ru then r0 else l) t) no_error s -> memb_bad (MIf ru l r0 d) t e s
  | bb_reset (ru : bool) l r0 d t e s t1 hit r e1 : mem_run sn (if ru then r0 else l) (m_get (if ru then r0 else l) t) t no_error s t1 hit r e1 -> is_err e1 = false ->
      reset_bad (if ru then l else r0) t1 -> memb_bad (MIf ru l r0 d) t e s
  | bb_reset2 (ru : bool) l r0 d t e s t1 hit r e1 : mem_run sn (if ru then r0 else l) (m_get (if ru then r0 else l) t) t no_error s t1 hit r e1 -> is_err e1 = true ->
      reset_bad (if ru then r0 else l) t1 -> memb_bad (MIf ru l r0 d) t e s
  | bb_second (ru : bool) l r0 d t e s t1 hit r e1 t2 : mem_run sn (if ru then r0 else l) (m_get (if ru then r0 else l) t) t no_error s t1 hit r e1 -> is_err e1 = true ->
      reset (if ru then r0 else l) t1 t2 -> mem_bad (if ru then l else r0) (m_get (if ru then l else r0) t2) e s -> memb_bad (MIf ru l r0 d) t e s.
  (** a skipped member, the value of which ends in a gap behind a bracket or comma: *end is read *)
  Definition skip_bad (s : buf) : Prop :=
    exists s1 s2 s3, takes_string s s1 /\ after_gap s1 (COLON :: s2) /\ after_gap s2 s3 /\ s3 <> [] /\ fails sn s3 None.
  Inductive search_bad : list (memb T) -> T -> json_error -> buf -> Prop :=
  | hb_here b L t e s : memb_bad b t e s -> search_bad (b :: L) t e s
  | hb_next b L t e s t1 s1 e1 : memb_run sn b t e s t1 false s1 e1 -> search_bad L t1 e1 s1 -> search_bad (b :: L) t e s
  | hb_skip t e s : mode = Nonstrict -> skip_bad s -> search_bad [] t e s.
  Inductive step_bad (L : list (memb T)) (b : memb T) (t : T) (e : json_error) (s : buf) : Prop :=
  | pb_next : memb_bad b t e s -> step_bad L b t e s
  | pb_search t1 s1 e1 : memb_run sn b t e s t1 false s1 e1 -> search_bad L t1 e1 s1 -> step_bad L b t e s.
  Inductive rest_bad : json_error -> buf -> Prop :=
  | rb_here e s : skip_bad s -> rest_bad e s
  | rb_more e s s1 e1 s2 s3 e3 : skip_run sn e s s1 e1 -> after_gap s1 (COMMA :: s2) -> gap_run e1 s2 s3 e3 -> rest_bad e3 s3 -> rest_bad e s.
  Inductive members_bad (L : list (memb T)) : list (memb T) -> T -> json_error -> buf -> Prop :=
  | ms_rest t e s s1 : after_gap s s1 -> s1 <> [] -> ~ heads RCB s1 -> rest_bad e s1 -> members_bad L [] t e s
  | ms_here b R t e s : step_bad L b t e s -> members_bad L (b :: R) t e s
  | ms_more b R t e s t1 hit s1 e1 s2 s3 e3 : step_run mode sn L b t e s t1 hit s1 e1 -> after_gap s1 (COMMA :: s2) -> gap_run e1 s2 s3 e3 ->
      members_bad L (if hit then R else b :: R) t1 e3 s3 -> members_bad L (b :: R) t e s.
  (** An opening square bracket with nothing but a gap behind it: *end is read, and stepped over if it is a closing bracket. *)
  Inductive struct_bad (L : list (memb T)) (old : T) : json_error -> buf -> Prop :=
  | tb_end e t e1 : gap_run e t [] e1 -> sn = None \/ sn = Some RBR -> struct_bad L old e (LBR :: t)
  | tb_members e t s : after_gap t s -> s <> [] -> ~ heads RCB s -> members_bad L L old e s -> struct_bad L old e (LCB :: t).

  (** ---- structs as arrays ---- *)
  Inductive amemb_bad : memb T -> T -> json_error -> buf -> Prop :=
  | ax_ref m t e s : undefined (m_codec m) sn (m_get m t) e s -> amemb_bad (MRef m) t e s
  | ax_prop m i t e s : undefined (m_codec m) sn i e s -> amemb_bad (MProp m i) t e s
  | ax_first (ru : bool) l r0 d t e s m : m = (if ru then r0 else l) -> undefined (m_codec m) sn (m_get m t) no_error s -> amemb_bad (MIf ru l r0 d) t e s
  | ax_reset (ru : bool) l r0 d t e s m o x r e1 : m = (if ru then r0 else l) -> o = (if ru then l else r0) ->
      runs (m_codec m) sn (m_get m t) no_error s x r e1 -> reset_bad (if is_err e1 then m else o) (m_set m t x) -> amemb_bad (MIf ru l r0 d) t e s
  | ax_second (ru : bool) l r0 d t e s m o x r e1 t2 : m = (if ru then r0 else l) -> o = (if ru then l else r0) ->
      runs (m_codec m) sn (m_get m t) no_error s x r e1 -> is_err e1 = true -> reset m (m_set m t x) t2 -> undefined (m_codec o) sn (m_get o t2) e s -> amemb_bad (MIf ru l r0 d) t e s.
  Inductive places_bad : list (memb T) -> T -> json_error -> buf -> Prop :=
  | xb_here b L t e s : amemb_bad b t e s -> places_bad (b :: L) t e s
  | xb_more b L t e s t1 s1 e1 s2 s3 e3 : amemb_run sn b t e s t1 s1 e1 -> after_gap s1 (COMMA :: s2) -> gap_run e1 s2 s3 e3 -> places_bad L t1 e3 s3 -> places_bad (b :: L) t e s.
End Struct.

(** A value inside a string: the string reads without an error and the value read from its
    characters, which stand before a zero byte, is undefined. *)
Definition inside_undef {A : Type} (J : codec A) sn old e s : Prop :=
  exists b r e1, runs string_codec sn [] e s b r e1 /\ is_err e1 = false /\ undefined J (Some 0) old no_error b.
