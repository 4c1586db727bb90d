(** Specification: every outcome of reading containers, structs and arrays of
    members, as one relation between the text, the error record before and
    after, the result and the place where reading stops.  An error that has been
    reported stays, and reading may go on behind it. *)
From Verif Require Import Base SpecJson Out Object SpecReport SpecExact SpecRefuse.

Definition runs {A} (c : codec A) (sn : option Z) (old : A) (e : json_error) (s : buf) (v : A) (r : buf) (e' : json_error) : Prop :=
  des c sn old s (Some e) = Ok (v, r, Some e').
(** j is reported unless there has been an error before *)
Definition first (e j : json_error) : json_error := if is_err e then e else j.
(** a gap, or a comment that does not end *)
Definition gap_run (e : json_error) (s r : buf) (e' : json_error) : Prop :=
  after_gap s r /\ e' = e \/ open_comment s /\ r = [] /\ e' = first e comment_error.
(** a literal, which s at least begins like *)
Definition lit_run (nm : buf) (e : json_error) (s r : buf) (e' : json_error) : Prop :=
  s = nm ++ r /\ e' = e \/ exists j, lit_refuses nm s j /\ r = [] /\ e' = first e j.

(** ---- containers ---- *)
(** behind an element that is not followed by a comma *)
Inductive tail_run (ex : buf) (R : Z) : json_error -> buf -> buf -> json_error -> Prop :=
| tr_end e s e1 : gap_run e s [] e1 -> tail_run ex R e s [] (first e1 unexpected_end)
| tr_close e s r : after_gap s (R :: r) -> tail_run ex R e s r e
| tr_other e s c t : after_gap s (c :: t) -> c <> R -> c <> COMMA -> tail_run ex R e s [] (first e (expected ex (c :: t))).
(** behind the opening bracket or a comma *)
Inductive seq_run {A} (item : json_error -> buf -> A -> buf -> json_error -> Prop) (R : Z) : json_error -> buf -> list A -> buf -> json_error -> Prop :=
| sq_end e s e1 : gap_run e s [] e1 -> seq_run item R e s [] [] (first e1 unexpected_end)
| sq_close e s r : after_gap s (R :: r) -> seq_run item R e s [] r e
| sq_last e s s1 x s2 e2 r e3 : after_gap s s1 -> s1 <> [] -> ~ heads R s1 -> item e s1 x s2 e2 -> tail_run [COMMA] R e2 s2 r e3 ->
    seq_run item R e s [x] r e3
| sq_more e s s1 x s2 e2 s3 l r e3 : after_gap s s1 -> s1 <> [] -> ~ heads R s1 -> item e s1 x s2 e2 -> after_gap s2 (COMMA :: s3) ->
    seq_run item R e2 s3 l r e3 -> seq_run item R e s (x :: l) r e3.
(** the whole text *)
Inductive seq_text {A} (item : json_error -> buf -> A -> buf -> json_error -> Prop) (l r0 : Z) : json_error -> buf -> list A -> buf -> json_error -> Prop :=
| qt_null e s r e' : lit_run (text "null") e s r e' -> seq_text item l r0 e s [] r e'
| qt_end e : seq_text item l r0 e [] [] [] (first e unexpected_end)
| qt_other e c t : c <> 110 -> c <> l -> seq_text item l r0 e (c :: t) [] [] (first e (expected [l] (c :: t)))
| qt_items e t xs r e' : seq_run item r0 e t xs r e' -> seq_text item l r0 e (l :: t) xs r e'.

(** members of a dictionary *)
Inductive field_run {K V} (kr : json_error -> buf -> K -> buf -> json_error -> Prop) (vr : json_error -> buf -> V -> buf -> json_error -> Prop) (v0 : V) :
  json_error -> buf -> K * V -> buf -> json_error -> Prop :=
| fd_end e s k s1 e1 e2 : kr e s k s1 e1 -> gap_run e1 s1 [] e2 -> field_run kr vr v0 e s (k, v0) [] (first e2 unexpected_end)
| fd_colon e s k s1 e1 c t : kr e s k s1 e1 -> after_gap s1 (c :: t) -> c <> COLON -> field_run kr vr v0 e s (k, v0) [] (first e1 (expected [COLON] (c :: t)))
| fd_end2 e s k s1 e1 s2 e2 : kr e s k s1 e1 -> after_gap s1 (COLON :: s2) -> gap_run e1 s2 [] e2 -> field_run kr vr v0 e s (k, v0) [] (first e2 unexpected_end)
| fd_value e s k s1 e1 s2 s3 v r e2 : kr e s k s1 e1 -> after_gap s1 (COLON :: s2) -> after_gap s2 s3 -> s3 <> [] -> vr e1 s3 v r e2 -> field_run kr vr v0 e s (k, v) r e2.

(** Fixed-size arrays: [item x] reads into an element containing x. *)
Inductive slots_run {A} (item : A -> json_error -> buf -> A -> buf -> json_error -> Prop) (ex : buf) (R : Z) :
  list A -> json_error -> buf -> list A -> buf -> json_error -> Prop :=
| so_full e r : slots_run item ex R [] e (R :: r) [] r e
| so_cut e : slots_run item ex R [] e [] [] [] (first e unexpected_end)
| so_extra e c t : c <> R -> slots_run item ex R [] e (c :: t) [] [] (first e (expected [R] (c :: t)))
| so_end x o e s e1 : gap_run e s [] e1 -> slots_run item ex R (x :: o) e s (x :: o) [] (first e1 unexpected_end)
| so_close x o e s r : after_gap s (R :: r) -> slots_run item ex R (x :: o) e s (x :: o) r e
| so_last x o e s s1 y s2 e2 r e3 : after_gap s s1 -> s1 <> [] -> ~ heads R s1 -> item x e s1 y s2 e2 -> tail_run ex R e2 s2 r e3 ->
    slots_run item ex R (x :: o) e s (y :: o) r e3
| so_more x o e s s1 y s2 e2 s3 l r e3 : after_gap s s1 -> s1 <> [] -> ~ heads R s1 -> item x e s1 y s2 e2 -> after_gap s2 (COMMA :: s3) ->
    slots_run item ex R o e2 s3 l r e3 -> slots_run item ex R (x :: o) e s (y :: l) r e3.
(** every element reads the same text *)
Inductive each_run {A} (item : A -> json_error -> buf -> A -> buf -> json_error -> Prop) (s : buf) : json_error -> list A -> list A -> json_error -> Prop :=
| er_nil e : each_run item s e [] [] e
| er_cons e x y r e1 l m e2 : item x e s y r e1 -> each_run item s e1 l m e2 -> each_run item s e (x :: l) (y :: m) e2.
(** [item x]: reading in place; [slot x]: reading as an array element *)
Inductive slots_text {A} (item slot : A -> json_error -> buf -> A -> buf -> json_error -> Prop) (ex : buf) (old : list A) :
  json_error -> buf -> list A -> buf -> json_error -> Prop :=
| st_null e s l e1 r e' : each_run item s e old l e1 -> lit_run (text "null") e1 s r e' -> slots_text item slot ex old e s l r e'
| st_end e : slots_text item slot ex old e [] old [] (first e unexpected_end)
| st_other e c t : c <> 110 -> c <> LBR -> slots_text item slot ex old e (c :: t) old [] (first e (expected [LBR] (c :: t)))
| st_items e t l r e' : slots_run slot ex RBR old e t l r e' -> slots_text item slot ex old e (LBR :: t) l r e'.

(** ---- structs ---- *)
Section Struct.
  Context {T : Type} (mode : omode) (sn : option Z).
  (** The text is compared with the name n: [hit] tells whether the member is
      taken; r is what its value is read from. *)
  Inductive name_run (n : buf) : json_error -> buf -> bool -> buf -> json_error -> Prop :=
  | nm_none e s : ~ heads QT s -> name_run n e s false [] (first e (expected [QT] s))
  | nm_cut e t x : n = t ++ x -> name_run n e (QT :: t) true [] (first e unexpected_end)
  | nm_other e t : (forall x, n <> t ++ x) -> (forall x, t <> n ++ QT :: x) -> name_run n e (QT :: t) false (QT :: t) e
  | nm_end e s e1 : gap_run e s [] e1 -> name_run n e (QT :: n ++ QT :: s) true [] (first e1 unexpected_end)
  | nm_colon e s c t : after_gap s (c :: t) -> c <> COLON -> name_run n e (QT :: n ++ QT :: s) true [] (first e (expected [COLON] (c :: t)))
  | nm_end2 e s s1 e1 : after_gap s (COLON :: s1) -> gap_run e s1 [] e1 -> name_run n e (QT :: n ++ QT :: s) true [] (first e1 unexpected_end)
  | nm_hit e s s1 s2 : after_gap s (COLON :: s1) -> after_gap s1 s2 -> s2 <> [] -> name_run n e (QT :: n ++ QT :: s) true s2 e.
  (** a field, read into old *)
  Inductive mem_run (m : mem T) (old : m_ty m) (t : T) : json_error -> buf -> T -> bool -> buf -> json_error -> Prop :=
  | mu_miss e s r e' : name_run (m_name m) e s false r e' -> mem_run m old t e s t false r e'
  | mu_hit e s s1 e1 x r e' : name_run (m_name m) e s true s1 e1 -> runs (m_codec m) sn old e1 s1 x r e' -> mem_run m old t e s (m_set m t x) true r e'.
  (** null is read into the other alternative of a member_if, without error record *)
  Definition reset (m : mem T) (t t' : T) : Prop :=
    exists x r e, des (m_codec m) (Some 0) (m_get m t) (text "null") None = Ok (x, r, e) /\ t' = m_set m t x.
  Inductive memb_run : memb T -> T -> json_error -> buf -> T -> bool -> buf -> json_error -> Prop :=
  | mb_ref m t e s t' hit r e' : mem_run m (m_get m t) t e s t' hit r e' -> memb_run (MRef m) t e s t' hit r e'
  | mb_prop m i t e s t' hit r e' : mem_run m i t e s t' hit r e' -> memb_run (MProp m i) t e s t' hit r e'
  | mb_if (ru : bool) l r0 d t e s t1 t2 hit r e1 : mem_run (if ru then r0 else l) (m_get (if ru then r0 else l) t) t no_error s t1 hit r e1 -> is_err e1 = false ->
      reset (if ru then l else r0) t1 t2 -> memb_run (MIf ru l r0 d) t e s t2 hit r e
  | mb_else (ru : bool) l r0 d t e s t1 hit1 r1 e1 t2 t' hit r e' : mem_run (if ru then r0 else l) (m_get (if ru then r0 else l) t) t no_error s t1 hit1 r1 e1 -> is_err e1 = true ->
      reset (if ru then r0 else l) t1 t2 -> mem_run (if ru then l else r0) (m_get (if ru then l else r0) t2) t2 e s t' hit r e' -> memb_run (MIf ru l r0 d) t e s t' hit r e'.
  (** a member is skipped *)
  Inductive skip_run : json_error -> buf -> buf -> json_error -> Prop :=
  | sk_good e s r : takes_member s r -> skip_run e s r e
  | sk_bad e s j : member_refuses s j -> skip_run e s [] (first e j)
  | sk_value e s s1 s2 s3 j : takes_string s s1 -> after_gap s1 (COLON :: s2) -> after_gap s2 s3 -> s3 <> [] -> fails sn s3 (Some j) -> skip_run e s [] (first e j).
  (** Search through the list, then skip the member or report it. *)
  Inductive search_run : list (memb T) -> T -> json_error -> buf -> T -> buf -> json_error -> Prop :=
  | sh_hit b L t e s t' r e' : memb_run b t e s t' true r e' -> search_run (b :: L) t e s t' r e'
  | sh_next b L t e s t1 s1 e1 t' r e' : memb_run b t e s t1 false s1 e1 -> search_run L t1 e1 s1 t' r e' -> search_run (b :: L) t e s t' r e'
  | sh_skip t e s s1 e1 r e' : mode = Nonstrict -> skip_run e s s1 e1 -> gap_run e1 s1 r e' -> search_run [] t e s t r e'
  | sh_end t e : mode = Strict -> search_run [] t e [] t [] (first e unexpected_end)
  | sh_close t e s : mode = Strict -> heads RCB s -> search_run [] t e s t s e
  | sh_strict t e c s : mode = Strict -> c <> RCB -> search_run [] t e (c :: s) t [] (first e (mkerr InvalidMember None (Z.of_nat (length (c :: s))))).
  (** the next element of the list, or a search through all of it *)
  Inductive step_run (L : list (memb T)) (b : memb T) (t : T) (e : json_error) (s : buf) : T -> bool -> buf -> json_error -> Prop :=
  | sp_next t' r e' : memb_run b t e s t' true r e' -> step_run L b t e s t' true r e'
  | sp_search t1 s1 e1 t' r e' : memb_run b t e s t1 false s1 e1 -> search_run L t1 e1 s1 t' r e' -> step_run L b t e s t' false r e'.
  (** All elements of the list have been left behind: members are skipped; strict
      structs report the last one. *)
  Inductive rest_run : json_error -> buf -> buf -> json_error -> Prop :=
  | rr_end e s s1 e1 e2 : skip_run e s s1 e1 -> gap_run e1 s1 [] e2 -> rest_run e s [] (first e2 unexpected_end)
  | rr_close e s s1 e1 r : mode = Nonstrict -> skip_run e s s1 e1 -> after_gap s1 (RCB :: r) -> rest_run e s r e1
  | rr_strict e s s1 e1 r : mode = Strict -> skip_run e s s1 e1 -> after_gap s1 (RCB :: r) -> rest_run e s [] (first e1 (mkerr InvalidMember None (Z.of_nat (length s))))
  | rr_other e s s1 e1 c t : skip_run e s s1 e1 -> after_gap s1 (c :: t) -> c <> RCB -> c <> COMMA -> rest_run e s [] (first e1 (expected [COMMA] (c :: t)))
  | rr_more e s s1 e1 s2 s3 e3 r e' : skip_run e s s1 e1 -> after_gap s1 (COMMA :: s2) -> gap_run e1 s2 s3 e3 -> rest_run e3 s3 r e' -> rest_run e s r e'.
  (** The members up to and including the closing brace; R is what is left of the list L. *)
  Inductive members_run (L : list (memb T)) : list (memb T) -> T -> json_error -> buf -> T -> buf -> json_error -> Prop :=
  | mr_end t e s e1 : gap_run e s [] e1 -> members_run L [] t e s t [] (first e1 unexpected_end)
  | mr_close t e s r : after_gap s (RCB :: r) -> members_run L [] t e s t r e
  | mr_rest t e s s1 r e' : after_gap s s1 -> s1 <> [] -> ~ heads RCB s1 -> rest_run e s1 r e' -> members_run L [] t e s t r e'
  | mr_cut b R t e s t1 hit s1 e1 e2 : step_run L b t e s t1 hit s1 e1 -> gap_run e1 s1 [] e2 -> members_run L (b :: R) t e s t1 [] (first e2 unexpected_end)
  | mr_last b R t e s t1 hit s1 e1 r : step_run L b t e s t1 hit s1 e1 -> after_gap s1 (RCB :: r) -> members_run L (b :: R) t e s t1 r e1
  | mr_other b R t e s t1 hit s1 e1 c u : step_run L b t e s t1 hit s1 e1 -> after_gap s1 (c :: u) -> c <> RCB -> c <> COMMA ->
      members_run L (b :: R) t e s t1 [] (first e1 (expected [RCB] (c :: u)))
  | mr_more b R t e s t1 hit s1 e1 s2 s3 e3 t' r e' : step_run L b t e s t1 hit s1 e1 -> after_gap s1 (COMMA :: s2) -> gap_run e1 s2 s3 e3 ->
      members_run L (if hit then R else b :: R) t1 e3 s3 t' r e' -> members_run L (b :: R) t e s t' r e'.
  (** the whole text; t0 is T().  An opening square bracket needs a closing one; *end
      is read there. *)
  Inductive struct_text (L : list (memb T)) (t0 old : T) : json_error -> buf -> T -> buf -> json_error -> Prop :=
  | ob_null e s r e' : lit_run (text "null") e s r e' -> struct_text L t0 old e s t0 r e'
  | ob_end e : struct_text L t0 old e [] old [] (first e unexpected_end)
  | ob_other e c t : c <> 110 -> c <> LCB -> c <> LBR -> struct_text L t0 old e (c :: t) old [] (first e (expected [LCB] (c :: t)))
  | ob_arr e t r : after_gap t (RBR :: r) -> struct_text L t0 old e (LBR :: t) old r e
  | ob_arr_other e t c u : after_gap t (c :: u) -> c <> RBR -> struct_text L t0 old e (LBR :: t) old [] (first e (expected [RBR] (c :: u)))
  | ob_arr_end e t e1 d : gap_run e t [] e1 -> sn = Some d -> d <> RBR -> struct_text L t0 old e (LBR :: t) old [] (first e1 (expected [RBR] []))
  | ob_cut e t e1 : gap_run e t [] e1 -> struct_text L t0 old e (LCB :: t) old [] (first e1 unexpected_end)
  | ob_empty e t r : after_gap t (RCB :: r) -> struct_text L t0 old e (LCB :: t) old r e
  | ob_members e t s v r e' : after_gap t s -> s <> [] -> ~ heads RCB s -> members_run L L old e s v r e' -> struct_text L t0 old e (LCB :: t) v r e'.

  (** ---- structs as arrays ---- *)
  Inductive amemb_run : memb T -> T -> json_error -> buf -> T -> buf -> json_error -> Prop :=
  | ab_ref m t e s x r e' : runs (m_codec m) sn (m_get m t) e s x r e' -> amemb_run (MRef m) t e s (m_set m t x) r e'
  | ab_prop m i t e s x r e' : runs (m_codec m) sn i e s x r e' -> amemb_run (MProp m i) t e s (m_set m t x) r e'
  | ab_if (ru : bool) l r0 d t e s m o x t2 r e1 : m = (if ru then r0 else l) -> o = (if ru then l else r0) ->
      runs (m_codec m) sn (m_get m t) no_error s x r e1 -> is_err e1 = false -> reset o (m_set m t x) t2 -> amemb_run (MIf ru l r0 d) t e s t2 r e
  | ab_else (ru : bool) l r0 d t e s m o x r1 e1 t2 y r e' : m = (if ru then r0 else l) -> o = (if ru then l else r0) ->
      runs (m_codec m) sn (m_get m t) no_error s x r1 e1 -> is_err e1 = true -> reset m (m_set m t x) t2 ->
      runs (m_codec o) sn (m_get o t2) e s y r e' -> amemb_run (MIf ru l r0 d) t e s (m_set o t2 y) r e'.
  Inductive places_run : list (memb T) -> T -> json_error -> buf -> T -> buf -> json_error -> Prop :=
  | pr_full t e r : places_run [] t e (RBR :: r) t r e
  | pr_cut t e : places_run [] t e [] t [] (first e unexpected_end)
  | pr_extra t e c s : c <> RBR -> places_run [] t e (c :: s) t [] (first e (expected [RBR] (c :: s)))
  | pr_end b L t e s t1 s1 e1 e2 : amemb_run b t e s t1 s1 e1 -> gap_run e1 s1 [] e2 -> places_run (b :: L) t e s t1 [] (first e2 unexpected_end)
  | pr_close b L t e s t1 s1 e1 r : amemb_run b t e s t1 s1 e1 -> after_gap s1 (RBR :: r) -> places_run (b :: L) t e s t1 r e1
  | pr_other b L t e s t1 s1 e1 c u : amemb_run b t e s t1 s1 e1 -> after_gap s1 (c :: u) -> c <> RBR -> c <> COMMA ->
      places_run (b :: L) t e s t1 [] (first e1 (expected [RBR] (c :: u)))
  | pr_more b L t e s t1 s1 e1 s2 s3 e3 t' r e' : amemb_run b t e s t1 s1 e1 -> after_gap s1 (COMMA :: s2) -> gap_run e1 s2 s3 e3 ->
      places_run L t1 e3 s3 t' r e' -> places_run (b :: L) t e s t' r e'.
  Inductive oarray_text (L : list (memb T)) (t0 old : T) : json_error -> buf -> T -> buf -> json_error -> Prop :=
  | oa_null e s r e' : lit_run (text "null") e s r e' -> oarray_text L t0 old e s t0 r e'
  | oa_end e : oarray_text L t0 old e [] old [] (first e unexpected_end)
  | oa_other e c t : c <> 110 -> c <> LBR -> oarray_text L t0 old e (c :: t) old [] (first e (expected [LBR] (c :: t)))
  | oa_cut e t e1 : gap_run e t [] e1 -> oarray_text L t0 old e (LBR :: t) old [] (first e1 unexpected_end)
  | oa_empty e t r : after_gap t (RBR :: r) -> oarray_text L t0 old e (LBR :: t) old r e
  | oa_places e t s v r e' : after_gap t s -> s <> [] -> ~ heads RBR s -> places_run L old e s v r e' -> oarray_text L t0 old e (LBR :: t) v r e'.
End Struct.
