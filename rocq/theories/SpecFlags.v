(** Specification: which texts flags are read from, what is refused and what is reported. *)
From Verif Require Import Base SpecJson Enum SpecEnum SpecReport SpecExact SpecRefuse.

(** what follows the separator, if there is one *)
Definition past (sep : Z) (s r : buf) : Prop := s = sep :: r \/ ~ heads sep s /\ r = s.

(** ---- ["a", "b"] ---- *)
(** one of the names begins here *)
Definition listed (L : elist) (s : buf) : Prop := exists n x t, In (n, x) L /\ s = QT :: n ++ QT :: t.
(** Behind a string: a gap, then perhaps a comma. *)
Definition follows (t r : buf) : Prop := (exists s, after_gap t s /\ past COMMA s r) \/ open_comment t /\ r = t.
(** [flag_items mode L v s w o]: s follows the bracket or something already read;
    v is the union so far.  w is the union at the end; o is what follows the
    closing bracket or the error. *)
Inductive flag_items (mode : Object.omode) (L : elist) : Z -> buf -> Z -> buf + json_error -> Prop :=
| fi_end v s : after_gap s [] -> flag_items mode L v s v (inr unexpected_end)
| fi_comment v s : open_comment s -> flag_items mode L v s v (inr comment_error)
| fi_close v s r : after_gap s (RBR :: r) -> flag_items mode L v s v (inl r)
| fi_quote v s c t : after_gap s (c :: t) -> c <> RBR -> c <> QT -> flag_items mode L v s v (inr (expected [QT] (c :: t)))
| fi_known v s n x t t' w o : after_gap s (QT :: n ++ QT :: t) -> In (n, x) L -> follows t t' ->
    flag_items mode L (Z.lor v x) t' w o -> flag_items mode L v s w o
| fi_strict v s s1 : mode = Object.Strict -> after_gap s s1 -> heads QT s1 -> ~ listed L s1 ->
    flag_items mode L v s v (inr (mkerr InvalidEnum None (Z.of_nat (length s1))))
| fi_other v s s1 t t' w o : mode = Object.Nonstrict -> after_gap s s1 -> ~ listed L s1 -> takes_string s1 t -> follows t t' ->
    flag_items mode L v t' w o -> flag_items mode L v s w o
| fi_string v s s1 j : mode = Object.Nonstrict -> after_gap s s1 -> heads QT s1 -> ~ listed L s1 -> str_refuses s1 j ->
    flag_items mode L v s v (inr j).

(** ---- "a|b" ---- *)
(** spaces are allowed unless they are the separator *)
Definition lead (sep : Z) (s r : buf) : Prop := if sep =? 32 then r = s else after_gap s r.
(** where a name may end *)
Definition boundary (sep : Z) (s : buf) : Prop :=
  heads QT s \/ heads sep s \/ sep <> 32 /\ exists c t, s = c :: t /\ (s_ws c \/ c = SLASH /\ heads STAR t).
Definition spelled (sep : Z) (L : elist) (s : buf) : Prop := exists n x t, In (n, x) L /\ s = n ++ t /\ boundary sep t.
Definition behind (sep : Z) (t r : buf) : Prop := (exists s, lead sep t s /\ past sep s r) \/ sep <> 32 /\ open_comment t /\ r = t.
(** up to the next separator or quote *)
Definition skips (sep : Z) (s u : buf) : Prop := exists k, s = k ++ u /\ Forall (fun c => c <> sep /\ c <> QT) k /\ (u = [] \/ heads sep u \/ heads QT u).
Inductive flag_words (sep : Z) (mode : Object.omode) (L : elist) : Z -> buf -> Z -> buf + json_error -> Prop :=
| fw_end v s : lead sep s [] -> flag_words sep mode L v s v (inr unexpected_end)
| fw_comment v s : sep <> 32 -> open_comment s -> flag_words sep mode L v s v (inr comment_error)
| fw_close v s r : lead sep s (QT :: r) -> flag_words sep mode L v s v (inl r)
| fw_known v s n x t t' w o : lead sep s (n ++ t) -> In (n, x) L -> boundary sep t -> behind sep t t' ->
    flag_words sep mode L (Z.lor v x) t' w o -> flag_words sep mode L v s w o
| fw_strict v s s1 : mode = Object.Strict -> lead sep s s1 -> s1 <> [] -> ~ heads QT s1 -> ~ spelled sep L s1 ->
    flag_words sep mode L v s v (inr (mkerr InvalidEnum None (Z.of_nat (length s1))))
| fw_other v s s1 s2 u s3 t w o : mode = Object.Nonstrict -> lead sep s s1 -> s1 <> [] -> ~ heads QT s1 -> ~ spelled sep L s1 ->
    after_gap s1 s2 -> skips sep s2 u -> after_gap u s3 -> past sep s3 t ->
    flag_words sep mode L v t w o -> flag_words sep mode L v s w o
| fw_lost v s s1 : mode = Object.Nonstrict -> lead sep s s1 -> s1 <> [] -> ~ heads QT s1 -> ~ spelled sep L s1 ->
    (open_comment s1 \/ exists s2 u, after_gap s1 s2 /\ skips sep s2 u /\ open_comment u) ->
    flag_words sep mode L v s v (inr comment_error).

(** ---- both ---- *)
Inductive flag_text (sep : Z) (mode : Object.omode) (L : elist) : buf -> Z -> buf + json_error -> Prop :=
| ft_end : flag_text sep mode L [] 0 (inr unexpected_end)
| ft_quote c t : c <> LBR -> c <> QT -> flag_text sep mode L (c :: t) 0 (inr (expected [QT] (c :: t)))
| ft_items t v o : flag_items mode L 0 t v o -> flag_text sep mode L (LBR :: t) v o
| ft_words t v o : flag_words sep mode L 0 t v o -> flag_text sep mode L (QT :: t) v o.
