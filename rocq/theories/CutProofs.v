(** Reading a text that is cut short: undefined behaviour and everything left
    unread in front of the cut are the same in the longer text. *)
From Verif Require Import Base Parser SpecJson ParserFacts Out Number StringS Array Object ObjectArray Enum Wrap TimeSize CodecLaws ErrPos SpecEnd SpecUndef NumberProofs TypeProofs UndefProofs SpecUndefAll UndefWrapProofs SpecObject SpecStream.

Definition en1 (y : buf * eptr) : Prop := fst y = [].
Definition en3 {A} (y : A * buf * eptr) : Prop := snd (fst y) = [].
Definition gend {B} (en : B -> Prop) (R : res B) : Prop := match R with UB => False | Fuel => True | Ok y => en y end.
Definition eok (e e2 : eptr) : Prop := exists a a2, e = Some a /\ e2 = Some a2 /\ is_err a = is_err a2.
Lemma eok_cerr c m t t' e e2 : c <> ValidJSON -> eok e e2 -> eok (cerr c m t e) (cerr c m t' e2).
Proof.
  intros Hc (a & a2 & -> & -> & H). cbn [cerr]. rewrite <- H. destruct (is_err a) eqn:E; [now exists a, a2; rewrite E, <- H|]. eexists _, _. split; [reflexivity|]. split; [reflexivity|]. destruct c; reflexivity || congruence.
Qed.
Lemma eok_has e e2 : eok e e2 -> has_err e2 = has_err e.
Proof. intros (a & a2 & -> & -> & H). unfold has_err. cbn [no_err_yet]. now rewrite H. Qed.

Ltac een H := unfold en1, en3 in H; cbn [fst snd] in H; subst.
Section Cut.
  Context (b : Z) (Hb1 : b <> RBR) (Hb2 : b <> RCB) (sn2 : option Z) (x : buf).
  Definition ex1 (y y2 : buf * eptr) : Prop := fst y2 = fst y ++ x /\ eok (snd y) (snd y2).
  Definition ex3 {A} (y y2 : A * buf * eptr) : Prop := fst (fst y2) = fst (fst y) /\ snd (fst y2) = snd (fst y) ++ x /\ eok (snd y) (snd y2).
  Definition gsim {B} (en : B -> Prop) (ex : B -> B -> Prop) (R1 R2 : res B) : Prop :=
    match R1 with UB => R2 = UB | Fuel => True | Ok y => en y \/ exists y2, R2 = Ok y2 /\ ex y y2 end.
  Lemma gsim_end {B} (en : B -> Prop) ex R1 R2 : gend en R1 -> gsim en ex R1 R2.
  Proof. destruct R1; cbn; [now left|easy|easy]. Qed.
  Lemma gsim_bind {B C} (en : B -> Prop) ex (en' : C -> Prop) ex' R1 R2 (k1 k2 : B -> res C) : gsim en ex R1 R2 -> (forall y, en y -> gend en' (k1 y)) ->
    (forall y y2, ex y y2 -> gsim en' ex' (k1 y) (k2 y2)) -> gsim en' ex' (bind R1 k1) (bind R2 k2).
  Proof.
    intros H H1 H2. destruct R1 as [y| |]; cbn [bind gsim] in *; [|now rewrite H|exact I]. destruct H as [H|(y2 & -> & H)]; [now apply gsim_end, H1|]. cbn [bind]. now apply H2.
  Qed.
  Lemma g1 (r : buf) e e2 : eok e e2 -> gsim en1 ex1 (Ok (r, e)) (Ok (r ++ x, e2)).
  Proof. intros H. right. eexists. split; [reflexivity|]. now split. Qed.
  Lemma g1_end R2 e : gsim en1 ex1 (Ok ([], e)) R2. Proof. now left. Qed.
  Lemma g3 {A} (v : A) (r : buf) e e2 : eok e e2 -> gsim en3 ex3 (Ok (v, r, e)) (Ok (v, r ++ x, e2)).
  Proof. intros H. right. eexists. split; [reflexivity|]. split; [reflexivity|]. now split. Qed.
  Lemma g3_end {A} (v : A) R2 e : gsim en3 ex3 (Ok (v, [], e)) R2. Proof. now left. Qed.

  (** ---- the recogniser ---- *)
  Lemma space_cut p e e2 r e' : eok e e2 -> parse_space p e = (r, e') -> r = [] \/ exists e2', parse_space (p ++ x) e2 = (r ++ x, e2') /\ eok e' e2'.
  Proof.
    intros He E. unfold parse_space in *. destruct (space_loop false p) as [sc s1] eqn:Es. destruct sc; injection E as <- <-; [now left|].
    destruct s1 as [|c t]; [now left|]. right. pose proof (space_loop_suffix p false) as [g Hg]. rewrite Es in Hg. cbn [snd] in Hg. rewrite Hg in Es |- *. rewrite <- app_assoc. cbn [app]. rewrite (space_loc g false c t (t ++ x) Es). eauto.
  Qed.
  Lemma lit_cut lit : forall k t, match lit_chain lit k t with LMatch r => lit_chain lit k (t ++ x) = LMatch (r ++ x) | _ => True end.
  Proof. induction lit as [|a lit IH]; intros k t; cbn [lit_chain]; [reflexivity|]. destruct t as [|c t]; [exact I|]. cbn [app]. destruct (c =? a); [apply IH|exact I]. Qed.
  Lemma finish_cut lit k t nm e e2 : eok e e2 -> gsim en1 ex1 (Ok (finish_lit (lit_chain lit k t) nm e)) (Ok (finish_lit (lit_chain lit k (t ++ x)) nm e2)).
  Proof. intros He. pose proof (lit_cut lit k t) as H. destruct (lit_chain lit k t); cbn [finish_lit]; [|apply g1_end|apply g1_end]. rewrite H. now apply g1. Qed.
  Lemma null_cut p e e2 : eok e e2 -> gsim en1 ex1 (Ok (parse_null p e)) (Ok (parse_null (p ++ x) e2)).
  Proof. intros He. destruct p as [|c t]; cbn [parse_null app]; [apply g1_end|]. destruct (c =? 110); [now apply finish_cut|apply g1_end]. Qed.
  Lemma bool_cut p e e2 : eok e e2 -> gsim en1 ex1 (Ok (parse_bool p e)) (Ok (parse_bool (p ++ x) e2)).
  Proof. intros He. destruct p as [|c t]; cbn [parse_bool app]; [apply g1_end|]. destruct (c =? 116); [now apply finish_cut|]. destruct (c =? 102); [now apply finish_cut|apply g1_end]. Qed.
  Lemma digit_cut p : parse_digit p = [] \/ parse_digit (p ++ x) = parse_digit p ++ x.
  Proof. induction p as [|c t IH]; [now left|]. cbn [parse_digit app]. destruct (is_digit c); [exact IH|now right]. Qed.
  Lemma digits1 p e e2 : eok e e2 -> gsim en1 ex1 (Ok (parse_digit p, e)) (Ok (parse_digit (p ++ x), e2)).
  Proof. intros He. destruct (digit_cut p) as [-> | ->]; [apply g1_end|now apply g1]. Qed.
  Lemma integer_cut p e e2 : eok e e2 -> gsim en1 ex1 (Ok (parse_integer p e)) (Ok (parse_integer (p ++ x) e2)).
  Proof.
    intros He. destruct p as [|c t]; cbn [parse_integer app]; [apply g1_end|]. 
    assert (K : forall s, s <> [] -> gsim en1 ex1 (Ok match s with [] => ([], cerr UnexpectedEndFragment None 0 e) | c1 :: t1 => if c1 =? 48 then (t1, e) else if (49 <=? c1) && (c1 <=? 57) then (parse_digit s, e) else ([], cerr InvalidNumber None 0 e) end)
      (Ok match s ++ x with [] => ([], cerr UnexpectedEndFragment None 0 e2) | c1 :: t1 => if c1 =? 48 then (t1, e2) else if (49 <=? c1) && (c1 <=? 57) then (parse_digit (s ++ x), e2) else ([], cerr InvalidNumber None 0 e2) end)).
    { intros [|c1 t1] Hs; [easy|]. cbn [app]. destruct (c1 =? 48); [now apply g1|]. destruct ((49 <=? c1) && (c1 <=? 57)); [|apply g1_end]. apply (digits1 (c1 :: t1) e e2 He). }
    destruct (c =? MINUS); [|now apply (K (c :: t))]. destruct t as [|d t]; [apply g1_end|]. now apply (K (d :: t)).
  Qed.
  Lemma exp_cut p e e2 : eok e e2 -> gsim en1 ex1 (Ok (parse_exp p e)) (Ok (parse_exp (p ++ x) e2)).
  Proof.
    intros He. destruct p as [|c t]; cbn [parse_exp app]; [apply g1_end|]. destruct ((c =? 101) || (c =? 69)); [|exact (g1 (c :: t) e e2 He)].
    assert (K : forall s, gsim en1 ex1 (Ok match s with [] => ([], cerr UnexpectedEndFragment None 0 e) | d :: _ => if is_digit d then (parse_digit s, e) else ([], cerr InvalidNumber None 0 e) end)
      (Ok match s ++ x with [] => ([], cerr UnexpectedEndFragment None 0 e2) | d :: _ => if is_digit d then (parse_digit (s ++ x), e2) else ([], cerr InvalidNumber None 0 e2) end)).
    { intros [|d s]; [apply g1_end|]. cbn [app]. destruct (is_digit d); [|apply g1_end]. apply (digits1 (d :: s) e e2 He). }
    destruct t as [|d t]; [apply g1_end|]. cbn [app]. destruct ((d =? MINUS) || (d =? PLUS)); [apply K|apply (K (d :: t))].
  Qed.
  Lemma number_cut p e e2 : eok e e2 -> gsim en1 ex1 (Ok (parse_number p e)) (Ok (parse_number (p ++ x) e2)).
  Proof.
    intros He. unfold parse_number. pose proof (integer_cut p e e2 He) as H. destruct (parse_integer p e) as [s1 e1]. cbn [gsim] in H. destruct H as [H|([s2 e3] & H & H1 & H2)].
    { unfold en1 in H. cbn [fst] in H. subst s1. apply g1_end. }
    cbn [fst snd] in *. injection H as H. rewrite H. subst s2. destruct s1 as [|c t]; [apply g1_end|]. cbn [app]. destruct (c =? DOT); [|apply (exp_cut (c :: t) _ _ H2)].
    destruct t as [|d t]; [apply g1_end|]. cbn [app]. destruct (is_digit d) eqn:Ed; [|apply g1_end]. change (d :: t ++ x) with ((d :: t) ++ x). destruct (digit_cut (d :: t)) as [-> | ->]; [apply g1_end|now apply exp_cut].
  Qed.
  Lemma hex_cut n : forall p e e2, eok e e2 -> gsim en1 ex1 (Ok (hex_loop n p e)) (Ok (hex_loop n (p ++ x) e2)).
  Proof. induction n as [|n IH]; intros p e e2 He; cbn [hex_loop]; [now apply g1|]. destruct p as [|c t]; [apply g1_end|]. cbn [app]. destruct (is_hex c); [now apply IH|apply g1_end]. Qed.
  Lemma utf8_cut n : forall p e e2, eok e e2 -> gsim en1 ex1 (Ok (utf8_part n p e)) (Ok (utf8_part n (p ++ x) e2)).
  Proof. induction n as [|n IH]; intros p e e2 He; cbn [utf8_part]; [now apply g1|]. destruct p as [|c t]; [apply g1_end|]. cbn [app]. destruct (Z.land c 192 =? 128); [now apply IH|apply g1_end]. Qed.
  Lemma pair_cut (y y2 : buf * eptr) r e : gsim en1 ex1 (Ok y) (Ok y2) -> y = (r, e) -> r = [] \/ exists e2, y2 = (r ++ x, e2) /\ eok e e2.
  Proof.
    intros H ->. cbn [gsim] in H. destruct H as [H|([r2 e2] & H & H1 & H2)]; [left; exact H|]. right. injection H as ->. cbn [fst snd] in *. subst. eauto.
  Qed.

  Definition enS (y : (buf * eptr) + (buf * eptr)) : Prop := match y with inl (r, _) => r = [] | inr (r, _) => r = [] end.
  Definition exS (y y2 : (buf * eptr) + (buf * eptr)) : Prop := match y, y2 with inl (r, e), inl (r2, e2) => r2 = r ++ x /\ eok e e2 | _, _ => False end.
  Lemma string_loop_nil n e : gend enS (string_loop n [] e). Proof. destruct n; cbn; [exact I|reflexivity]. Qed.
  Lemma string_loop_cut n : forall n2 p e e2, (n <= n2)%nat -> eok e e2 -> gsim enS exS (string_loop n p e) (string_loop n2 (p ++ x) e2).
  Proof.
    induction n as [|n IH]; intros n2 p e e2 Hn He; [exact I|]. destruct n2 as [|n2]; [lia|]. assert (Hn' : (n <= n2)%nat) by lia. destruct p as [|c t]; [now left|]. cbn [string_loop app].
    assert (K : forall y y2 : buf * eptr, gsim en1 ex1 (Ok y) (Ok y2) -> gsim enS exS (let '(s1, e1) := y in string_loop n s1 e1) (let '(s1, e1) := y2 in string_loop n2 s1 e1)).
    { intros [s1 e1] y2 H. destruct (pair_cut _ _ _ _ H eq_refl) as [-> |(e3 & -> & H2)]; [apply gsim_end, string_loop_nil|now apply IH]. }
    destruct (c =? QT); [right; eexists; split; [reflexivity|]; now split|]. destruct (c =? BSL).
    - destruct t as [|d t']; [now left|]. cbn [app]. destruct (negb (esc_ok d)); [now left|]. destruct (d =? 117); [|now apply IH]. apply K. unfold parse_hex. destruct t' as [|a t']; [apply g1_end|]. cbn [app]. exact (hex_cut 4 (a :: t') e e2 He).
    - apply K. unfold parse_utf8. destruct (utf8_conts c); [now apply utf8_cut|apply g1_end].
  Qed.
  Lemma string_cut p e e2 : eok e e2 -> gsim en1 ex1 (parse_string p e) (parse_string (p ++ x) e2).
  Proof.
    intros He. destruct p as [|c t]; [now left|]. cbn [parse_string app]. destruct (negb (c =? QT)); [apply g1_end|]. refine (gsim_bind enS exS _ _ _ _ _ _ (string_loop_cut _ _ t e e2 _ He) _ _).
    - rewrite app_length. lia.
    - intros [[r e1]|[r e1]] H; cbn in H; subst r; reflexivity.
    - intros [[r e1]|[r e1]] [[r2 e3]|[r2 e3]] H; try easy. destruct H as [-> H]. destruct r as [|d t1]; [apply g1_end|]. cbn [app]. destruct (negb (d =? QT)); [apply g1_end|now apply g1].
  Qed.
  Lemma string_nil e : gend en1 (parse_string [] e). Proof. reflexivity. Qed.

  Section Items.
    Context (pv pv2 : pfun) (Hpv : forall p e e2, eok e e2 -> gsim en1 ex1 (pv p e) (pv2 (p ++ x) e2)) (Hnil : forall e, gend en1 (pv [] e)).
    Lemma member_nil e : gend en1 (parse_member pv [] e). Proof. reflexivity. Qed.
    Lemma member_cut p e e2 : eok e e2 -> gsim en1 ex1 (parse_member pv p e) (parse_member pv2 (p ++ x) e2).
    Proof.
      intros He. unfold parse_member. destruct p as [|c t]; [apply g1_end|]. change (is_string ((c :: t) ++ x)) with (is_string (c :: t)). destruct (negb (is_string (c :: t))); [apply g1_end|].
      refine (gsim_bind en1 ex1 _ _ _ _ _ _ (string_cut _ e e2 He) _ _).
      - intros [r e1] H. een H. reflexivity.
      - intros [r e1] [r2 e3] [H1 H2]. cbn [fst snd] in *. subst r2. destruct r as [|d r]; [apply g1_end|]. cbn [app]. change (d :: r ++ x) with ((d :: r) ++ x).
        destruct (parse_space (d :: r) e1) as [s2 e4] eqn:E. destruct (space_cut _ _ _ _ _ H2 E) as [-> |(e5 & -> & H5)]; [apply g1_end|]. destruct s2 as [|f s3]; [apply g1_end|]. cbn [app].
        destruct (negb (f =? COLON)); [apply g1_end|]. destruct s3 as [|g s3]; [apply g1_end|]. cbn [app]. change (g :: s3 ++ x) with ((g :: s3) ++ x).
        destruct (parse_space (g :: s3) e4) as [s4 e6] eqn:E6. destruct (space_cut _ _ _ _ _ H5 E6) as [-> |(e7 & -> & H7)]; [apply g1_end|]. destruct s4 as [|h s4]; [apply g1_end|]. cbn [app]. now apply (Hpv (h :: s4)).
    Qed.
  End Items.
  Lemma close_cut cl p e e2 : eok e e2 -> gsim en1 ex1 (Ok (close_with cl p e)) (Ok (close_with cl (p ++ x) e2)).
  Proof. intros He. destruct p as [|c t]; [apply g1_end|]. cbn [close_with app]. destruct (negb (c =? cl)); [apply g1_end|now apply g1]. Qed.
  Lemma items_nil cl (item : pfun) n e : gend en1 (items_loop (Some b) cl item n [] e). Proof. destruct n; [exact I|reflexivity]. Qed.
  Lemma items_cut cl (item item2 : pfun) : (cl = RBR \/ cl = RCB) -> (forall p e e2, eok e e2 -> gsim en1 ex1 (item p e) (item2 (p ++ x) e2)) -> (forall e, gend en1 (item [] e)) ->
    forall n n2 p e e2, (n <= n2)%nat -> eok e e2 -> gsim en1 ex1 (items_loop (Some b) cl item n p e) (items_loop sn2 cl item2 n2 (p ++ x) e2).
  Proof.
    intros Hcl Hi Hnil. induction n as [|n IH]; intros n2 p e e2 Hn He; [exact I|]. destruct n2 as [|n2]; [lia|]. destruct p as [|c t]; [now left|]. cbn [items_loop app].
    destruct (c =? cl); [exact (close_cut cl (c :: t) e e2 He)|]. change (c :: t ++ x) with ((c :: t) ++ x). destruct (parse_space (c :: t) e) as [s1 e1] eqn:E.
    destruct (space_cut _ _ _ _ _ He E) as [-> |(e3 & -> & H3)].
    - apply gsim_end. cbn [deref bind]. replace (b =? cl) with false by (destruct Hcl; subst cl; lia). specialize (Hnil e1). destruct (item [] e1) as [[r e4]| |]; cbn [bind gend] in *; [|easy|exact I]. een Hnil. reflexivity.
    - destruct s1 as [|d s1].
      { apply gsim_end. cbn [deref bind]. replace (b =? cl) with false by (destruct Hcl; subst cl; lia). specialize (Hnil e1). destruct (item [] e1) as [[r e4]| |]; cbn [bind gend] in *; [|easy|exact I]. een Hnil. reflexivity. }
      cbn [deref bind app]. change (d :: s1 ++ x) with ((d :: s1) ++ x). destruct (d =? cl); [now apply close_cut|]. refine (gsim_bind en1 ex1 _ _ _ _ _ _ (Hi _ _ _ H3) _ _).
      + intros [r e4] H. een H. reflexivity.
      + intros [s2 e4] [s2' e5] [H1 H2]. cbn [fst snd] in *. subst s2'. destruct (parse_space s2 e4) as [s3 e6] eqn:E6. destruct (space_cut _ _ _ _ _ H2 E6) as [-> |(e7 & -> & H7)]; [apply g1_end|].
        destruct s3 as [|f t3]; [apply g1_end|]. cbn [app]. destruct (negb (f =? COMMA) && negb (f =? cl)); [apply g1_end|]. destruct (f =? COMMA); [apply IH; [lia|exact H7]|]. apply (IH n2 (f :: t3)); [lia|exact H7].
  Qed.
  Lemma pv_nil sn n e : gend en1 (parse_value_f sn n [] e). Proof. destruct n; [exact I|reflexivity]. Qed.
  Lemma pv_cut n : forall n2 p e e2, (n <= n2)%nat -> eok e e2 -> gsim en1 ex1 (parse_value_f (Some b) n p e) (parse_value_f sn2 n2 (p ++ x) e2).
  Proof.
    induction n as [|n IH]; intros n2 p e e2 Hn He; [exact I|]. destruct n2 as [|n2]; [lia|]. assert (Hn' : (n <= n2)%nat) by lia. destruct p as [|c t]; [now left|]. cbn [parse_value_f app].
    change (c :: t ++ x) with ((c :: t) ++ x). change (is_null ((c :: t) ++ x)) with (is_null (c :: t)). destruct (is_null (c :: t)); [now apply null_cut|].
    change (is_bool ((c :: t) ++ x)) with (is_bool (c :: t)). destruct (is_bool (c :: t)); [now apply bool_cut|].
    change (is_number ((c :: t) ++ x)) with (is_number (c :: t)). destruct (is_number (c :: t)); [now apply number_cut|].
    change (is_string ((c :: t) ++ x)) with (is_string (c :: t)). destruct (is_string (c :: t)); [now apply string_cut|].
    assert (Hpv : forall p e e2, eok e e2 -> gsim en1 ex1 (parse_value_f (Some b) n p e) (parse_value_f sn2 n2 (p ++ x) e2)) by (intros; now apply IH).
    cbn [is_object app]. destruct (c =? LCB) eqn:El.
    { unfold parse_object. cbn [is_object app]. rewrite El. cbn [negb step bind]. destruct (parse_space t e) as [s1 e1] eqn:E. destruct (space_cut _ _ _ _ _ He E) as [-> |(e3 & -> & H3)]; [apply gsim_end; reflexivity|].
      destruct s1 as [|d s1]; [apply gsim_end; reflexivity|]. cbn [app starts]. destruct (d =? RBR); [cbn [step bind]; now apply g1|]. change (d :: s1 ++ x) with ((d :: s1) ++ x).
      apply items_cut; [now right| |intros; apply member_nil|rewrite app_length; lia|exact H3]. intros q f f2 Hf. now apply member_cut. }
    destruct (negb (c =? LBR)) eqn:Eb.
    { cbn [is_array starts app]. destruct (c =? LBR); [discriminate|]. apply g1_end. }
    assert (Ec : (c =? LBR) = true) by now destruct (c =? LBR). 
    assert (KA : gsim en1 ex1 (parse_array (Some b) (parse_value_f (Some b) n) (c :: t) e) (parse_array sn2 (parse_value_f sn2 n2) ((c :: t) ++ x) e2)).
    { unfold parse_array. cbn [is_array starts app]. rewrite Ec. cbn [negb step bind]. apply items_cut; [now left|exact Hpv|intros; apply pv_nil|rewrite app_length; lia|exact He]. }
    destruct (parse_space t None) as [s1 y] eqn:E. unfold parse_space in E. destruct (space_loop false t) as [sc r] eqn:Es.
    assert (KE : s1 = [] -> gsim en1 ex1 (parse_array (Some b) (parse_value_f (Some b) n) (c :: t) e) (Ok ([], None)) /\ gend en1 (parse_array (Some b) (parse_value_f (Some b) n) (c :: t) e)).
    { intros ->. assert (G : gend en1 (parse_array (Some b) (parse_value_f (Some b) n) (c :: t) e)); [|split; [now apply gsim_end|exact G]].
      unfold parse_array. cbn [is_array starts]. rewrite Ec. cbn [negb step bind items_loop]. destruct t as [|d t]; [reflexivity|]. destruct (d =? RBR) eqn:Ed.
      { assert (d = RBR) by lia. subst d. cbn in Es. injection Es as <- <-. discriminate. }
      destruct (parse_space (d :: t) e) as [s1 e1] eqn:E1. assert (s1 = []) as ->. { unfold parse_space in E1. rewrite Es in E1. destruct sc; injection E1 as <- <-; [reflexivity|]. injection E as -> _. reflexivity. }
      cbn [deref bind]. replace (b =? RBR) with false by lia. pose proof (pv_nil (Some b) n e1) as P. destruct (parse_value_f (Some b) n [] e1) as [[r2 e4]| |]; cbn [bind gend] in *; [|easy|exact I]. een P. reflexivity. }
    assert (KP : s1 <> [] -> parse_space (t ++ x) None = (s1 ++ x, None)).
    { intros N. destruct sc; injection E as <- <-; [easy|]. destruct r as [|d r]; [easy|]. pose proof (space_loop_suffix t false) as [g Hg]. rewrite Es in Hg. cbn [snd] in Hg. rewrite Hg in Es |- *. rewrite <- app_assoc. cbn [app]. unfold parse_space. now rewrite (space_loc g false d r (r ++ x) Es). }
    destruct s1 as [|d s1].
    { cbn [starts is_array]. rewrite Ec. apply gsim_end, KE; reflexivity. }
    rewrite KP by discriminate. cbn [starts app]. destruct (d =? RBR) eqn:Ed.
    { unfold parse_object. cbn [is_object app]. rewrite El, Eb. unfold parse_space at 1. rewrite Es. destruct sc; [discriminate|]. injection E as -> <-. cbn [starts]. rewrite Ed. cbn [negb].
      rewrite (KP ltac:(discriminate)). cbn [starts app]. rewrite Ed. cbn [negb step bind]. destruct (parse_space t e) as [s2 e1] eqn:E2. destruct (space_cut _ _ _ _ _ He E2) as [-> |(e3 & -> & H3)]; [apply gsim_end; reflexivity|].
      unfold parse_space in E2. rewrite Es in E2. injection E2 as <- <-. cbn [starts app]. rewrite Ed. cbn [step bind]. now apply g1. }
    cbn [is_array starts]. rewrite Ec. exact KA.
  Qed.
  Lemma value_cut p e e2 : eok e e2 -> gsim en1 ex1 (parse_value (Some b) p e) (parse_value sn2 (p ++ x) e2).
  Proof. intros He. unfold parse_value. apply pv_cut; [rewrite app_length; lia|exact He]. Qed.
End Cut.

(** ---- readers ---- *)
Definition cut {A} (c : codec A) : Prop :=
  (forall sn old e, gend en3 (des c sn old [] e)) /\
  (forall b old t e, b <> RBR -> b <> RCB -> gend (fun _ => True) (des c (Some b) old (110 :: t) e)) /\
  (forall b, b <> RBR -> b <> RCB -> forall sn2 x old p e e2, eok e e2 -> gsim en3 (ex3 x) (des c (Some b) old p e) (des c sn2 old (p ++ x) e2)).
Lemma lift3 {A} x (v : A) (y y2 : buf * eptr) : gsim en1 (ex1 x) (Ok y) (Ok y2) -> gsim en3 (ex3 x) (let '(r, e) := y in Ok (v, r, e)) (let '(r, e) := y2 in Ok (v, r, e)).
Proof.
  destruct y as [r e]. intros H. destruct (pair_cut x _ _ _ _ H eq_refl) as [-> |(e2 & -> & H2)]; [apply g3_end|now apply g3].
Qed.
Lemma nul3 {A} x (v : A) p e e2 : eok e e2 -> gsim en3 (ex3 x) (let '(r, e) := parse_null p e in Ok (v, r, e)) (let '(r, e) := parse_null (p ++ x) e2 in Ok (v, r, e)).
Proof. intros He. apply lift3, null_cut, He. Qed.
Lemma g_end_any {A} (en : A -> Prop) R : gend en R -> gend (fun _ => True) R. Proof. destruct R; easy. Qed.
Lemma nul_end {A} (v : A) p e : gend (fun _ : A * buf * eptr => True) (let '(r, e) := parse_null p e in Ok (v, r, e)). Proof. now destruct (parse_null p e). Qed.

Lemma bool_codec_cut : cut bool_codec.
Proof.
  split; [reflexivity|]. split.
  - intros b old t e _ _. cbn [des bool_codec bool_des is_null starts]. apply nul_end.
  - intros b _ _ sn2 x old p e e2 He. cbn [des bool_codec]. destruct p as [|c t]; [apply g3_end|]. unfold bool_des. cbn [app]. change (c :: t ++ x) with ((c :: t) ++ x). change (is_null ((c :: t) ++ x)) with (is_null (c :: t)).
    destruct (is_null (c :: t)); [now apply nul3|]. destruct (c =? 116); [now apply lift3, bool_cut|]. destruct (c =? 102); [now apply lift3, bool_cut|apply g3_end].
Qed.
Lemma int_loop_cut t x : forall q v, int_loop t v q = UB -> int_loop t v (q ++ x) = UB.
Proof.
  induction q as [|d q IH]; intros v L; [discriminate|]. cbn [int_loop app] in *. destruct (negb (is_digit d)); [discriminate|].
  destruct (iarith (ipromote t) (v * 10)) as [a| |]; cbn [bind] in *; try easy. destruct (iarith (ipromote t) (a + icast t (d - 48))); cbn [bind] in *; try easy. now apply IH.
Qed.
Lemma too_big_cut t p x : ity_ok t -> too_big t p -> too_big t (p ++ x).
Proof.
  intros Ht T. destruct (too_big_head t p T) as [N _]. pose proof T as (S1 & S2 & _). apply (int_ub t None 0 p None Ht) in T. apply (int_ub t None 0 (p ++ x) None Ht). unfold int_des in *.
  destruct p as [|c s]; [discriminate|]. rewrite N in T. change (is_null ((c :: s) ++ x)) with (is_null (c :: s)). rewrite N. cbn [unserialize_integer app] in *. change (c :: s ++ x) with ((c :: s) ++ x).
  set (neg := c =? MINUS) in *. assert (M : forall q : buf, (if neg then s ++ x else (c :: s) ++ x) = (if neg then s else c :: s) ++ x) by now destruct neg. rewrite M by exact [].
  destruct (if neg then s else c :: s) as [|d q]; [discriminate|]. cbn [app]. destruct (negb (is_digit d)); [discriminate|]. destruct (d =? 48); [discriminate|]. change (d :: q ++ x) with ((d :: q) ++ x).
  destruct (int_loop t 0 (d :: q)) as [[v r]| |] eqn:L; cbn [bind] in T; [|now rewrite (int_loop_cut t x _ _ L)|discriminate].
  exfalso. destruct neg; [|discriminate]. assert (B : 0 <= v <= imax t). { refine (int_loop_nonneg t Ht S1 S2 _ _ _ _ _ L). unfold imax. rewrite S1. pose proof (NumberProofs.half_cases t Ht) as Hc. lia. }
  assert (P : ipromote t = t) by (unfold ipromote; destruct (isize t <? 4) eqn:Q; [lia|reflexivity]). rewrite P in T. unfold iarith in T. rewrite S1 in T.
  assert (R : irangeb t (- v) = true) by (unfold irangeb, imin, imax in *; rewrite S1 in *; lia). rewrite R in T. discriminate.
Qed.
Lemma int_codec_cut t : ity_ok t -> cut (int_codec t).
Proof.
  intros Ht. split; [reflexivity|]. split.
  - intros b old s e _ _. cbn [des int_codec int_des]. unfold int_des. cbn [is_null starts]. rewrite Z.eqb_refl. apply nul_end.
  - intros b _ _ sn2 x old p e e2 He. destruct (des (int_codec t) (Some b) old p e) as [[[v r] e1]| |] eqn:E; [| |exact I].
    2:{ apply (int_ub t (Some b) old p e Ht) in E. apply (int_ub t sn2 old (p ++ x) e2 Ht). revert E. exact (too_big_cut t p x Ht). }
    cbn [des int_codec] in *. unfold int_des in *. destruct p as [|c s]; [cbn in E; injection E as <- <- <-; apply g3_end|]. change (is_null ((c :: s) ++ x)) with (is_null (c :: s)). destruct (is_null (c :: s)); [rewrite <- E; now apply nul3|].
    cbn [unserialize_integer app] in *. change (c :: s ++ x) with ((c :: s) ++ x).
    assert (K : forall q v0 v1 r1, int_loop t v0 q = Ok (v1, r1) -> r1 = [] \/ int_loop t v0 (q ++ x) = Ok (v1, r1 ++ x)).
    { induction q as [|d q IH]; intros v0 v1 r1 L; [cbn in L; injection L as <- <-; now left|]. cbn [int_loop app] in *. destruct (negb (is_digit d)); [injection L as <- <-; now right|].
      destruct (iarith (ipromote t) (v0 * 10)) as [a| |]; cbn [bind] in *; try discriminate. destruct (iarith (ipromote t) (a + icast t (d - 48))); cbn [bind] in *; try discriminate. now apply IH. }
    set (neg := c =? MINUS) in *. assert (M : forall q : buf, (if neg then s ++ x else (c :: s) ++ x) = (if neg then s else c :: s) ++ x) by now destruct neg. rewrite M by exact [].
    destruct (if neg then s else c :: s) as [|d q] eqn:Eq; [injection E as <- <- <-; apply g3_end|]. cbn [app]. destruct (negb (is_digit d)); [injection E as <- <- <-; apply g3_end|]. destruct (d =? 48); [injection E as <- <- <-; now apply g3|].
    destruct (int_loop t 0 (d :: q)) as [[v1 r1]| |] eqn:L; cbn [bind] in E; try discriminate. apply K in L. cbn [app] in L. destruct neg.
    + destruct (iarith (ipromote t) (- v1)) as [w| |] eqn:W; cbn [bind] in E; try discriminate. injection E as <- <- <-. destruct L as [-> | ->]; [apply g3_end|]. cbn [bind]. rewrite W. cbn [bind]. now apply g3.
    + injection E as <- <- <-. destruct L as [-> | ->]; [apply g3_end|]. cbn [bind]. now apply g3.
Qed.

(** strings: unless there is an error all is read *)
Definition enP (y : buf * buf * eptr) : Prop := snd (fst y) = [] /\ has_err (snd y) = true.
Lemma has_cerr c m t e : c <> ValidJSON -> e <> None -> has_err (cerr c m t e) = true.
Proof. intros Hc He. destruct e as [j|]; [|easy]. cbn [cerr]. destruct (is_err j) eqn:E; unfold has_err; cbn [no_err_yet]; [now rewrite E|]. destruct c; reflexivity || easy. Qed.
Lemma eok_some e e2 : eok e e2 -> e <> None. Proof. intros (a & a2 & -> & _). discriminate. Qed.
Lemma eok_sym_uchar c e e2 : eok e e2 -> fst (uchar2 c e) = fst (uchar2 c e2) /\ eok (snd (uchar2 c e)) (snd (uchar2 c e2)).
Proof. intros He. unfold uchar2. repeat (destruct (_ && _); [now split|]). split; [reflexivity|]. now apply eok_cerr. Qed.
(** pieces: the rest is empty with an error, or what follows does not matter *)
Definition pcut (x : buf) (y y2 : piece) : Prop :=
  let '(r, w, n, e) := y in r = [] /\ has_err e = true \/ let '(r2, w2, n2, e2) := y2 in r2 = r ++ x /\ w2 = w /\ n2 = n /\ eok e e2.
Lemma pcut_end x w n e y2 : e <> None -> has_err e = true -> pcut x ([], w, n, e) y2. Proof. intros _ H. now left. Qed.
Lemma pcut_ok x r w n e e2 : eok e e2 -> pcut x (r, w, n, e) (r ++ x, w, n, e2). Proof. intros H. right. easy. Qed.
Lemma emit_cut x hex cur s n e e2 : eok e e2 -> pcut x (uhex_emit hex cur s n e) (uhex_emit hex cur (s ++ x) n e2).
Proof.
  intros He. pose proof (eok_some _ _ He) as Hs. unfold uhex_emit. destruct (hex <? 32); [destruct (_ || _); now apply pcut_ok|]. destruct (hex <=? 127); [now apply pcut_ok|].
  destruct (hex <=? 2047); [destruct (n - 1 =? 0); [left; split; [reflexivity|now apply has_cerr]|now apply pcut_ok]|]. destruct (n - 1 =? 0); [left; split; [reflexivity|now apply has_cerr]|].
  destruct (n - 2 =? 0); [left; split; [reflexivity|now apply has_cerr]|now apply pcut_ok].
Qed.
Ltac uch c He He1 := let H := fresh in let He' := fresh in
  match type of He with eok ?e ?e2 => destruct (eok_sym_uchar c e e2 He) as [H He']; destruct (uchar2 c e) as [? ?]; destruct (uchar2 c e2) as [? ?]; cbn [fst snd] in H, He'; subst; rename He' into He1 end.
Lemma uhex_cut x p n e e2 : eok e e2 -> n <> 0 -> pcut x (uhex p n e) (uhex (p ++ x) n e2).
Proof.
  intros He Hn. unfold uhex. replace (n =? 0) with false by lia. destruct p as [|a p]; [left; split; [reflexivity|now apply has_cerr; [|apply (eok_some _ _ He)]]|]. cbn [app]. uch a He H1.
  destruct p as [|a1 p]; [left; split; [reflexivity|now apply has_cerr; [|apply (eok_some _ _ H1)]]|]. cbn [app]. uch a1 H1 H2.
  destruct p as [|a2 p]; [left; split; [reflexivity|now apply has_cerr; [|apply (eok_some _ _ H2)]]|]. cbn [app]. uch a2 H2 H3.
  destruct p as [|a3 p]; [left; split; [reflexivity|now apply has_cerr; [|apply (eok_some _ _ H3)]]|]. cbn [app]. uch a3 H3 H4. now apply emit_cut.
Qed.
Lemma xhex_cut x p n e e2 : eok e e2 -> pcut x (xhex p n e) (xhex (p ++ x) n e2).
Proof.
  intros He. unfold xhex. destruct p as [|a p]; [left; split; [reflexivity|now apply has_cerr; [|apply (eok_some _ _ He)]]|]. cbn [app]. uch a He H1.
  destruct p as [|a1 p]; [left; split; [reflexivity|now apply has_cerr; [|apply (eok_some _ _ H1)]]|]. cbn [app]. uch a1 H1 H2. now apply pcut_ok.
Qed.
Lemma copy_cut x k : forall p n e e2, eok e e2 -> pcut x (utf8_copy k p n e) (utf8_copy k (p ++ x) n e2).
Proof.
  induction k as [|k IH]; intros p n e e2 He; cbn [utf8_copy]; [now apply pcut_ok|]. destruct (n =? 0); [now apply pcut_ok|]. destruct p as [|c t]; [left; split; [reflexivity|apply has_cerr; [easy|apply (eok_some _ _ He)]]|]. cbn [app].
  specialize (IH t (n - 1) e e2 He). destruct (utf8_copy k t (n - 1) e) as [[[r w] n'] e'], (utf8_copy k (t ++ x) (n - 1) e2) as [[[r2 w2] n2'] e2']. destruct IH as [[-> H]|(-> & -> & -> & H)]; [now left|now right].
Qed.
Lemma unutf8_cut x c t n e e2 : eok e e2 -> pcut x (unutf8 c t n e) (unutf8 c (t ++ x) n e2).
Proof.
  intros He. unfold unutf8. destruct (Z.land c 128 =? 0); [now apply pcut_ok|]. destruct (Z.land c 224 =? 192); [exact (copy_cut x 2 (c :: t) n e e2 He)|]. destruct (Z.land c 240 =? 224); [exact (copy_cut x 3 (c :: t) n e e2 He)|].
  destruct (Z.land c 248 =? 240); [exact (copy_cut x 4 (c :: t) n e e2 He)|]. left. split; [reflexivity|apply has_cerr; [easy|apply (eok_some _ _ He)]].
Qed.
Definition enL (y : (buf * eptr * buf) + (eptr * buf)) : Prop := match y with inl (r, e, _) => r = [] /\ e <> None | inr (e, _) => has_err e = true end.
Definition exL (x : buf) (y y2 : (buf * eptr * buf) + (eptr * buf)) : Prop := match y, y2 with inl (r, e, w), inl (r2, e2, w2) => r2 = r ++ x /\ eok e e2 /\ w2 = w | _, _ => False end.
Lemma has_some e : has_err e = true -> e <> None. Proof. destruct e; easy. Qed.
Lemma str_loop_nil n k e out : e <> None -> gend enL (str_loop n [] k e out). Proof. destruct n; cbn; [easy|now split]. Qed.
Lemma str_loop_cut x n : forall n2 p k e e2 out, (n <= n2)%nat -> eok e e2 -> gsim enL (exL x) (str_loop n p k e out) (str_loop n2 (p ++ x) k e2 out).
Proof.
  induction n as [|n IH]; intros n2 p k e e2 out Hn He; [exact I|]. destruct n2 as [|n2]; [lia|]. assert (Hn' : (n <= n2)%nat) by lia. destruct p as [|c t]; [left; split; [reflexivity|apply (eok_some _ _ He)]|]. cbn [str_loop app].
  assert (K : forall y y2 : piece, pcut x y y2 -> gsim enL (exL x) (let '(r, w, n', e') := y in str_loop n r n' e' (out ++ w)) (let '(r, w, n', e') := y2 in str_loop n2 r n' e' (out ++ w))).
  { intros [[[r w] n'] e'] [[[r2 w2] n2'] e2'] [[-> H]|(-> & -> & -> & H)]; [apply gsim_end, str_loop_nil, has_some, H|now apply IH]. }
  destruct (c =? QT) eqn:Eq; cbn [orb]; [right; eexists; split; [reflexivity|]; now split|]. destruct (k =? 0) eqn:Ek; [right; eexists; split; [reflexivity|]; now split|]. destruct (c =? BSL); [|now apply K, unutf8_cut].
  destruct t as [|d t']; [left; apply has_cerr; [easy|apply (eok_some _ _ He)]|]. cbn [app]. destruct (unescape d); [now apply IH|]. destruct (d =? 117); [apply K, uhex_cut; [exact He|lia]|]. destruct (d =? 120); [now apply K, xhex_cut|]. left. apply has_cerr; [easy|apply (eok_some _ _ He)].
Qed.
Lemma unser_cut x p k e e2 : eok e e2 -> gsim enP (ex3 x) (str_unser p k e) (str_unser (p ++ x) k e2).
Proof.
  intros He. pose proof (eok_some _ _ He) as Hs. destruct p as [|c t]; [left; split; [reflexivity|now apply has_cerr]|]. cbn [str_unser app]. destruct (negb (c =? QT)); [left; split; [reflexivity|now apply has_cerr]|].
  refine (gsim_bind enL (exL x) _ _ _ _ _ _ (str_loop_cut x _ _ t k e e2 [] _ He) _ _).
  - rewrite app_length. lia.
  - intros [[[r e1] w]|[e1 w]] H; cbn in H; [destruct H as [-> H]|]; (split; [reflexivity|]); [now apply has_cerr|exact H].
  - intros [[[r e1] w]|[e1 w]] [[[r2 e3] w2]|[e3 w2]] H; try easy. destruct H as (-> & H & ->). pose proof (eok_some _ _ H) as Hs1. destruct r as [|d t1]; [left; split; [reflexivity|now apply has_cerr]|]. cbn [app].
    destruct (negb (d =? QT)); [left; split; [reflexivity|now apply has_cerr]|]. right. eexists. split; [reflexivity|]. now split.
Qed.
Lemma enP_en3 y : enP y -> en3 y. Proof. now intros [H _]. Qed.
Lemma gsim_weak {B} (en en' : B -> Prop) ex R1 R2 : (forall y, en y -> en' y) -> gsim en ex R1 R2 -> gsim en' ex R1 R2.
Proof. intros H. destruct R1; cbn; auto. intros [K|K]; [left; auto|now right]. Qed.
Lemma string_codec_cut : cut string_codec.
Proof.
  split; [reflexivity|]. split; [intros b old t e _ _; apply nul_end|]. intros b _ _ sn2 x old p e e2 He. cbn [des string_codec]. unfold string_des. destruct p as [|c t]; [apply g3_end|]. change (is_null ((c :: t) ++ x)) with (is_null (c :: t)).
  destruct (is_null (c :: t)); [now apply nul3|]. apply (gsim_weak enP); [exact enP_en3|now apply unser_cut].
Qed.
Lemma g3q {A} (en : A * buf * eptr -> Prop) x v r e1 e2 : eok e1 e2 -> gsim en (ex3 x) (Ok (v, r, e1)) (Ok (v, r ++ x, e2)).
Proof. intros H. right. exists (v, r ++ x, e2). split; [reflexivity|]. now split. Qed.
(** as wanted by readers of what the string contains *)
Definition enQ (y : buf * buf * eptr) : Prop := snd (fst y) = [] /\ (has_err (snd y) = true \/ fst (fst y) = []).
Lemma string_cutQ x sn sn2 p e e2 : eok e e2 -> gsim enQ (ex3 x) (string_des sn [] p e) (string_des sn2 [] (p ++ x) e2).
Proof.
  intros He. unfold string_des. destruct p as [|c t]; [left; split; [reflexivity|right; reflexivity]|]. change (is_null ((c :: t) ++ x)) with (is_null (c :: t)). destruct (is_null (c :: t)).
  - pose proof (null_cut x (c :: t) e e2 He) as H. destruct (parse_null (c :: t) e) as [r e1], (parse_null ((c :: t) ++ x) e2) as [r2 e3]. destruct (pair_cut x _ _ _ _ H eq_refl) as [-> |(e4 & H1 & H2)]; [left; split; [reflexivity|right; reflexivity]|].
    injection H1 as -> ->. now apply g3q.
  - apply (gsim_weak enP); [|now apply unser_cut]. intros y [H1 H2]. split; [exact H1|now left].
Qed.
Lemma string_no_ub sn p a : string_des sn [] p (Some a) <> UB. Proof. exact (string_undef sn [] a p). Qed.
Lemma chars_cutP N x sn sn2 old p e e2 : eok e e2 -> gsim (fun y => snd (fst y) = [] /\ (has_err (snd y) = true \/ fst (fst y) = repeat 0 N)) (ex3 x) (chars_des N sn old p e) (chars_des N sn2 old (p ++ x) e2).
Proof.
  intros He. assert (NU : chars_des N sn old p e <> UB). { destruct He as (a & _ & -> & _). exact (chars_undef N sn old a p). }
  unfold chars_des in *. destruct p as [|c t]. { cbn [is_null starts str_unser bind length] in *. left. split; [reflexivity|]. left. apply has_cerr; [easy|apply (eok_some _ _ He)]. }
  change (is_null ((c :: t) ++ x)) with (is_null (c :: t)). destruct (is_null (c :: t)).
  - pose proof (null_cut x (c :: t) e e2 He) as H. destruct (parse_null (c :: t) e) as [r e1], (parse_null ((c :: t) ++ x) e2) as [r2 e3]. destruct (pair_cut x _ _ _ _ H eq_refl) as [-> |(e4 & H1 & H2)]; [left; split; [reflexivity|right; reflexivity]|].
    injection H1 as -> ->. now apply g3q.
  - pose proof (unser_cut x (c :: t) (Z.of_nat N) e e2 He) as H. destruct (str_unser (c :: t) (Z.of_nat N) e) as [[[w r] e1]| |]; cbn [bind gsim] in *; [|easy|exact I]. destruct (N <? length w)%nat eqn:L; [easy|].
    destruct H as [[H1 H2]|([[w2 r2] e3] & H & H1 & H2 & H3)]; cbn [fst snd] in *; [left; cbn [fst snd]; split; [exact H1|now left]|]. subst. rewrite H. cbn [bind]. rewrite L. now apply g3q.
Qed.
Lemma chars_codec_cut N : cut (chars_codec N).
Proof.
  split; [reflexivity|]. split; [intros b old t e _ _; apply nul_end|]. intros b _ _ sn2 x old p e e2 He. cbn [des chars_codec]. refine (gsim_weak _ _ _ _ _ _ (chars_cutP N x _ _ _ _ _ _ He)). now intros y [H _].
Qed.
Lemma skip_low_cut x p : skip_low p = [] \/ skip_low (p ++ x) = skip_low p ++ x.
Proof. induction p as [|c t IH]; [now left|]. cbn [skip_low app]. destruct (_ || _); [exact IH|now right]. Qed.
Lemma to_quote_cut x p : snd (to_quote p) = [] \/ to_quote (p ++ x) = (fst (to_quote p), snd (to_quote p) ++ x).
Proof. induction p as [|c t IH]; [now left|]. cbn [to_quote app]. destruct (c =? QT); [now right|]. destruct (to_quote t) as [a r]. cbn [fst snd] in *. destruct IH as [-> | ->]; [now left|now right]. Qed.
Lemma enum_codec_cut mode L : cut (enum_codec mode L).
Proof.
  split; [reflexivity|]. split.
  { intros b old t e _ _. cbn [des enum_codec]. unfold enum_des. cbn [skip_low]. replace ((110 <=? 32) || (128 <=? 110)) with false by reflexivity. exact I. }
  intros b _ _ sn2 x old p e e2 He. cbn [des enum_codec]. unfold enum_des. destruct (skip_low_cut x p) as [-> | ->]; [apply g3_end|]. destruct (skip_low p) as [|c t]; [apply g3_end|]. cbn [app]. destruct (negb (c =? QT)); [apply g3_end|].
  destruct t as [|d t]; [apply g3_end|]. cbn [app]. change (d :: t ++ x) with ((d :: t) ++ x). destruct (to_quote_cut x (d :: t)) as [H|H].
  - destruct (to_quote (d :: t)) as [nm r]. cbn [snd] in H. subst r. apply g3_end.
  - rewrite H. destruct (to_quote (d :: t)) as [nm r]. cbn [fst snd]. destruct r as [|f r]; [apply g3_end|]. cbn [app]. destruct (enum_find mode L 0 nm); [now apply g3|apply g3_end].
Qed.
Lemma range_cut (p r x : buf) : range (p ++ x) (r ++ x) = range p r.
Proof. unfold range. rewrite !app_length. replace (length p + length x - (length r + length x))%nat with (length p - length r)%nat by lia. rewrite firstn_app. replace (length p - length r - length p)%nat with O by lia. apply app_nil_r. Qed.
Lemma value_nul sn t e : exists r e', parse_value sn (110 :: t) e = Ok (r, e').
Proof. unfold parse_value. cbn [length parse_value_f]. change (is_null (110 :: t)) with true. destruct (parse_null (110 :: t) e) as [r e']. eauto. Qed.
Lemma raw_codec_cut : cut raw_codec.
Proof.
  split; [reflexivity|]. split.
  { intros b old t e _ _. cbn [des raw_codec]. unfold raw_des. destruct (value_nul (Some b) t e) as (r & e' & ->). exact I. }
  intros b H1 H2 sn2 x old p e e2 He. cbn [des raw_codec]. unfold raw_des. refine (gsim_bind en1 (ex1 x) _ _ _ _ _ _ (value_cut b H1 H2 sn2 x p e e2 He) _ _).
  - intros [r e1] H. een H. reflexivity.
  - intros [r e1] [r2 e3] [H3 H4]. cbn [fst snd] in *. subst r2. rewrite range_cut. now apply g3.
Qed.
Lemma rquoted_codec_cut serq reqq : cut (rquoted_codec serq reqq).
Proof.
  split; [reflexivity|]. split.
  { intros b old t e _ _. cbn [des rquoted_codec]. unfold rquoted_des. destruct reqq; cbn [andb]; [exact I|]. destruct (value_nul (Some b) t e) as (r & e' & ->). cbn [bind]. destruct (has_err e'); exact I. }
  intros b H1 H2 sn2 x old p e e2 He. cbn [des rquoted_codec]. unfold rquoted_des. destruct p as [|c t]; [apply g3_end|]. cbn [app]. destruct (reqq && negb (c =? QT)); [apply g3_end|].
  replace (if reqq then t ++ x else c :: t ++ x) with ((if reqq then t else c :: t) ++ x) by now destruct reqq. set (s1 := if reqq then t else c :: t). refine (gsim_bind en1 (ex1 x) _ _ _ _ _ _ (value_cut b H1 H2 sn2 x s1 e e2 He) _ _).
  - intros [r e1] H. een H. cbn [fst snd]. destruct (has_err e1); [reflexivity|]. destruct reqq; reflexivity.
  - intros [r e1] [r2 e3] [H3 H4]. cbn [fst snd] in *. subst r2. rewrite (eok_has _ _ H4). destruct (has_err e1); [now apply g3|]. rewrite range_cut. destruct reqq; [|now apply g3]. destruct r as [|d r]; [apply g3_end|]. cbn [app]. destruct (d =? QT); [now apply g3|apply g3_end].
Qed.
Lemma member_value_cut T A (get : T -> A) set (c : codec A) : cut c -> cut (member_value_codec get set c).
Proof.
  intros (K1 & K2 & K3). split; [|split].
  - intros sn old e. cbn [des member_value_codec]. specialize (K1 sn (get old) e). destruct (des c sn (get old) [] e) as [[[v r] e1]| |]; cbn [bind gend] in *; easy.
  - intros b old t e H1 H2. cbn [des member_value_codec]. specialize (K2 b (get old) t e H1 H2). destruct (des c (Some b) (get old) _ e) as [[[v r] e1]| |]; cbn [bind gend] in *; easy.
  - intros b H1 H2 sn2 x old p e e2 He. cbn [des member_value_codec]. refine (gsim_bind en3 (ex3 x) _ _ _ _ _ _ (K3 b H1 H2 sn2 x (get old) p e e2 He) _ _).
    + intros [[v r] e1] H. een H. reflexivity.
    + intros [[v r] e1] [[v2 r2] e3] (E1 & E2 & E3). cbn [fst snd] in *. subst. now apply g3.
Qed.
Lemma ptr_codec_cut A (c : codec A) d0 : cut c -> cut (ptr_codec c d0).
Proof.
  intros (K1 & K2 & K3). split; [reflexivity|]. split; [intros; exact I|]. intros b H1 H2 sn2 x old p e e2 He. cbn [des ptr_codec]. unfold ptr_des. destruct p as [|a t]; [apply g3_end|]. cbn [app]. destruct (negb (a =? 110)).
  - refine (gsim_bind en3 (ex3 x) _ _ _ _ _ _ (K3 b H1 H2 sn2 x d0 (a :: t) e e2 He) _ _).
    + intros [[v r] e1] H. een H. reflexivity.
    + intros [[v r] e1] [[v2 r2] e3] (E1 & E2 & E3). cbn [fst snd] in *. subst. now apply g3.
  - destruct (Nat.le_gt_cases (length (a :: t)) 4) as [L|L].
    + rewrite skipn_all2 by exact L. apply g3_end.
    + change (a :: t ++ x) with ((a :: t) ++ x). rewrite skipn_app. replace (4 - length (a :: t))%nat with O by lia. now apply g3.
Qed.
Lemma quoted1_cut A (J : codec A) x b sn2 old p e e2 : cut J -> eok e e2 -> gsim en3 (ex3 x) (quoted_des1 J (Some b) old p e) (quoted_des1 J sn2 old (p ++ x) e2).
Proof.
  intros (K1 & K2 & K3) He. unfold quoted_des1. refine (gsim_bind enQ (ex3 x) _ _ _ _ _ _ (string_cutQ x (Some b) sn2 p e e2 He) _ _).
  - intros [[w r] e1] [H1 H2]. cbn [fst snd] in *. subst r. destruct (has_err e1) eqn:E; [reflexivity|]. destruct H2 as [H2|H2]; [congruence|]. subst w. specialize (K1 (Some 0) old (Some no_error)).
    destruct (des J (Some 0) old [] (Some no_error)) as [[[v r] e3]| |]; cbn [bind gend] in *; [|easy|exact I]. destruct e1, e3; try reflexivity. destruct (is_err _); reflexivity.
  - intros [[w r] e1] [[w2 r2] e3] (E1 & E2 & E3). cbn [fst snd] in *. subst. rewrite (eok_has _ _ E3). destruct (has_err e1); [apply g3_end|]. destruct E3 as (a & a2 & -> & -> & Ha).
    destruct (des J (Some 0) old w (Some no_error)) as [[[v q] e4]| |]; cbn [bind gsim]; [|reflexivity|exact I]. destruct e4 as [k|]; [destruct (is_err k); [now left|]|]; right; (eexists; split; [reflexivity|]; split; [reflexivity|]; split; [reflexivity|]; now exists a, a2).
Qed.
Lemma quoted_codec_cut A (J : codec A) serq reqq : cut J -> cut (quoted_codec J serq reqq).
Proof.
  intros HJ. assert (HJ' := HJ). destruct HJ' as (K1 & K2 & K3).
  assert (N1 : forall sn old e, gend en3 (quoted_des1 J sn old [] e)).
  { intros sn old e. unfold quoted_des1. cbn [string_des is_null starts str_unser bind]. unfold string_des. cbn [is_null starts str_unser bind]. destruct (has_err _); [reflexivity|]. specialize (K1 (Some 0) old (Some no_error)).
    destruct (des J (Some 0) old [] (Some no_error)) as [[[v r] e3]| |]; cbn [bind gend] in *; [|easy|exact I]. destruct (cerr _ _ _ e), e3; try reflexivity. destruct (is_err _); reflexivity. }
  assert (N2 : forall b old t e, gend (fun _ => True) (quoted_des1 J (Some b) old (110 :: t) e)).
  { intros b old t e. unfold quoted_des1, string_des. change (is_null (110 :: t)) with true. destruct (parse_null (110 :: t) e) as [r e1]. cbn [bind]. destruct (has_err e1); [exact I|]. specialize (K1 (Some 0) old (Some no_error)).
    destruct (des J (Some 0) old [] (Some no_error)) as [[[v q] e3]| |]; cbn [bind gend] in *; [|easy|exact I]. destruct e1, e3; try exact I. destruct (is_err _); exact I. }
  split; [|split].
  - intros sn old e. cbn [des quoted_codec]. unfold quoted_des. destruct reqq; [apply N1|apply K1].
  - intros b old t e H1 H2. cbn [des quoted_codec]. unfold quoted_des. destruct reqq; [apply N2|]. change (is_string (110 :: t)) with false. now apply K2.
  - intros b H1 H2 sn2 x old p e e2 He. cbn [des quoted_codec]. unfold quoted_des. destruct reqq; [now apply quoted1_cut|]. destruct p as [|c t]; [apply gsim_end; cbn [is_string starts]; apply K1|]. change (is_string ((c :: t) ++ x)) with (is_string (c :: t)). destruct (is_string (c :: t)); [now apply quoted1_cut|now apply K3].
Qed.

(** ---- containers ---- *)
Ltac sp x He := match goal with |- context [parse_space ?s ?e] => let s1 := fresh "s" in let e1 := fresh "e" in let E := fresh "E" in let e3 := fresh "e" in let H3 := fresh "H" in
  destruct (parse_space s e) as [s1 e1] eqn:E; destruct (space_cut x _ _ _ _ _ He E) as [-> |(e3 & -> & H3)]; clear E end.
Lemma seq_loop_cut {A S} x (item item2 : A -> buf -> eptr -> res (A * buf * eptr)) (ins : S -> A -> S) d0 R :
  (forall s e e2, eok e e2 -> gsim en3 (ex3 x) (item d0 s e) (item2 d0 (s ++ x) e2)) ->
  forall n n2 st s e e2, (n <= n2)%nat -> eok e e2 -> gsim en3 (ex3 x) (seq_loop item ins d0 R n st s e) (seq_loop item2 ins d0 R n2 st (s ++ x) e2).
Proof.
  intros Hi. induction n as [|n IH]; intros n2 st s e e2 Hn He; [exact I|]. destruct n2 as [|n2]; [lia|]. destruct s as [|c t]; [apply g3_end|]. cbn [seq_loop app]. change (c :: t ++ x) with ((c :: t) ++ x).
  sp x He; [apply g3_end|]. destruct s as [|d s]; [apply g3_end|]. cbn [app]. destruct (d =? R); [now apply g3|]. change (d :: s ++ x) with ((d :: s) ++ x).
  refine (gsim_bind en3 (ex3 x) _ _ _ _ _ _ (Hi (d :: s) _ _ H) _ _); [intros [[v r] e5] K; een K; reflexivity|]. intros [[v r] e5] [[v2 r2] e6] (E1 & E2 & E3). cbn [fst snd] in *. subst.
  sp x E3; [apply g3_end|]. destruct s0 as [|f s0]; [apply g3_end|]. cbn [app]. destruct (f =? R); [now apply g3|]. destruct (negb (f =? COMMA)); [apply g3_end|]. apply IH; [lia|exact H0].
Qed.
Definition cut_run {A} (c : codec A) : Prop :=
  forall b, b <> RBR -> b <> RCB -> forall sn2 x old p e e2, eok e e2 -> gsim en3 (ex3 x) (des c (Some b) old p e) (des c sn2 old (p ++ x) e2).
Lemma seq_codec_cut A C S (k : container A C S) L R (c : codec A) d0 : cut_run c -> cut (seq_codec k L R c d0).
Proof.
  intros K3. split; [reflexivity|]. split; [intros b old t e _ _; apply nul_end|]. intros b H1 H2 sn2 x old p e e2 He. cbn [des seq_codec]. unfold seq_des. destruct p as [|a t]; [apply g3_end|].
  change (is_null ((a :: t) ++ x)) with (is_null (a :: t)). destruct (is_null (a :: t)); [now apply nul3|]. cbn [app]. destruct (negb (a =? L)); [apply g3_end|].
  refine (gsim_bind en3 (ex3 x) _ _ _ _ _ _ (seq_loop_cut x _ (des c sn2) _ _ _ _ _ (Datatypes.S (length (t ++ x))) _ t e e2 _ He) _ _).
  - intros s f f2 Hf. now apply K3.
  - rewrite app_length. lia.
  - intros [[v r] e1] H. een H. reflexivity.
  - intros [[v r] e1] [[v2 r2] e3] (E1 & E2 & E3). cbn [fst snd] in *. subst. now apply g3.
Qed.
Lemma field_codec_cut K V (kc : codec K) (vc : codec V) : cut_run kc -> cut_run vc -> cut_run (field_codec kc vc).
Proof.
  intros K3 V3 b H1 H2 sn2 x old p e e2 He. cbn [des field_codec]. unfold field_des. refine (gsim_bind en3 (ex3 x) _ _ _ _ _ _ (K3 b H1 H2 sn2 x (fst old) p e e2 He) _ _); [intros [[v r] e1] Q; een Q; reflexivity|].
  intros [[v r] e1] [[v2 r2] e3] (E1 & E2 & E3). cbn [fst snd] in *. subst. sp x E3; [apply g3_end|]. destruct s as [|c s]; [apply g3_end|]. cbn [app]. destruct (negb (c =? COLON)); [apply g3_end|].
  sp x H; [apply g3_end|]. destruct s0 as [|d s0]; [apply g3_end|]. cbn [app]. change (d :: s0 ++ x) with ((d :: s0) ++ x).
  refine (gsim_bind en3 (ex3 x) _ _ _ _ _ _ (V3 b H1 H2 sn2 x (snd old) (d :: s0) _ _ H0) _ _); [intros [[w q] e7] Q; een Q; reflexivity|].
  intros [[w q] e7] [[w2 q2] e8] (E1 & E2 & E5). cbn [fst snd] in *. subst. now apply g3.
Qed.
(** fixed-size arrays *)
Lemma fix_close_cut {A} x (l : list A) R s e e2 : s <> [] -> eok e e2 -> gsim en3 (ex3 x) (let '(r, e') := fix_close R s e in Ok (l, r, e')) (let '(r, e') := fix_close R (s ++ x) e2 in Ok (l, r, e')).
Proof. intros N He. destruct s as [|c t]; [easy|]. cbn [fix_close app]. destruct (negb (c =? R)); [apply g3_end|now apply g3]. Qed.
Lemma fix_loop_cut {A} x (item item2 : A -> buf -> eptr -> res (A * buf * eptr)) fresh ex R :
  (forall old s e e2, eok e e2 -> gsim en3 (ex3 x) (item old s e) (item2 old (s ++ x) e2)) ->
  forall todo s e e2, eok e e2 -> gsim en3 (ex3 x) (fix_loop item fresh ex R todo s e) (fix_loop item2 fresh ex R todo (s ++ x) e2).
Proof.
  intros Hi. induction todo as [|y todo IH]; intros s e e2 He; (destruct s as [|c t]; [apply g3_end|]); [apply fix_close_cut; [easy|exact He]|]. cbn [fix_loop app]. change (c :: t ++ x) with ((c :: t) ++ x).
  sp x He; [apply g3_end|]. destruct s as [|d s]; [apply g3_end|]. cbn [app]. change (d :: s ++ x) with ((d :: s) ++ x). destruct (d =? R); [apply fix_close_cut; [easy|exact H]|].
  refine (gsim_bind en3 (ex3 x) _ _ _ _ _ _ (Hi _ (d :: s) _ _ H) _ _); [intros [[v r] e5] Q; een Q; reflexivity|]. intros [[v r] e5] [[v2 r2] e6] (E1 & E2 & E3). cbn [fst snd] in *. subst.
  sp x E3; [apply g3_end|]. destruct s0 as [|f s0]; [apply g3_end|]. cbn [app]. change (f :: s0 ++ x) with ((f :: s0) ++ x). destruct (f =? R); [apply fix_close_cut; [easy|exact H0]|]. destruct (negb (f =? COMMA)); [apply g3_end|].
  refine (gsim_bind en3 (ex3 x) _ _ _ _ _ _ (IH s0 _ _ H0) _ _); [intros [[w q] e7] Q; een Q; reflexivity|]. intros [[w q] e7] [[w2 q2] e8] (E1 & E2 & E5). cbn [fst snd] in *. subst. now apply g3.
Qed.
Lemma fix_null_ok {A} (c : codec A) : nulls c -> forall l, exists l', forall sn r e, fix_null (des c sn) l (text "null" ++ r) e = Ok (l', e).
Proof.
  intros Hn. induction l as [|y l [l' IH]]; [now exists []|]. destruct (Hn y) as [v Hv]. exists (v :: l'). intros sn r e. cbn [fix_null]. rewrite Hv. cbn [bind]. now rewrite IH.
Qed.
Lemma fix_null_end {A} (c : codec A) b t : cut c -> b <> RBR -> b <> RCB -> forall l e, gend (fun _ => True) (fix_null (des c (Some b)) l (110 :: t) e).
Proof.
  intros (_ & K2 & _) H1 H2. induction l as [|y l IH]; intros e; [exact I|]. cbn [fix_null]. specialize (K2 b y t e H1 H2). destruct (des c (Some b) y (110 :: t) e) as [[[v r] e1]| |]; cbn [bind gend] in *; try easy.
  specialize (IH e1). destruct (fix_null (des c (Some b)) l (110 :: t) e1) as [[l' e3]| |]; cbn [bind gend] in *; easy.
Qed.
Lemma null_or s : (exists r, s = text "null" ++ r) \/ forall e, fst (parse_null s e) = [].
Proof.
  destruct (null_good s) as (r & [j|] & X & _ & _ & B).
  - right. intros e. rewrite X. cbn. apply B. discriminate.
  - left. exists r. specialize (X (Some no_error)). revert X. unfold parse_null.
    destruct s as [|a s]; [discriminate|]. destruct (a =? 110) eqn:Ea; [|discriminate].
    unfold finish_lit. destruct s as [|b [|c [|d s]]]; cbn; repeat match goal with |- context [if ?z then _ else _] => destruct z eqn:? end; cbn; intros X;
      inversion X; subst; repeat match goal with H : (_ =? _) = true |- _ => apply Z.eqb_eq in H; subst end; reflexivity.
Qed.
Lemma fix_des_cut {A} fresh ex L R (c : codec A) b x sn2 old p e e2 : cut c -> nulls c -> b <> RBR -> b <> RCB -> eok e e2 ->
  gsim en3 (ex3 x) (fix_des fresh ex L R c (Some b) old p e) (fix_des fresh ex L R c sn2 old (p ++ x) e2).
Proof.
  intros Hc Hn H1 H2 He. unfold fix_des. destruct p as [|a t]; [apply g3_end|]. change (is_null ((a :: t) ++ x)) with (is_null (a :: t)). destruct (is_null (a :: t)) eqn:N.
  - destruct (null_or (a :: t)) as [[r E]|E].
    + rewrite E, <- app_assoc. destruct (fix_null_ok c Hn old) as [l' Hl]. rewrite !Hl. cbn [bind]. change (parse_null (text "null" ++ r) e) with (r, e). change (parse_null (text "null" ++ r ++ x) e2) with (r ++ x, e2). now apply g3.
    + apply gsim_end. assert (a = 110) as -> by (cbn in N; lia). pose proof (fix_null_end c b t Hc H1 H2 old e) as G. destruct (fix_null (des c (Some b)) old (110 :: t) e) as [[l' e3]| |]; cbn [bind gend] in *; [|easy|exact I].
      specialize (E e3). destruct (parse_null (110 :: t) e3) as [r e4]. cbn [fst] in E. subst r. reflexivity.
  - cbn [app]. destruct (negb (a =? L)); [apply g3_end|]. apply fix_loop_cut; [|exact He]. intros o s f f2 Hf. destruct Hc as (_ & _ & K3). now apply K3.
Qed.
Lemma vec_fix_cut {A} fresh ex (c : codec A) N : cut c -> nulls c -> cut (vec_codec (mkcodec (seq_ser LBR RBR (ser c)) (fix_des fresh ex LBR RBR c)) N).
Proof.
  intros Hc Hn. split; [reflexivity|]. split.
  - intros b old t e H1 H2. cbn [des vec_codec]. unfold fix_des. change (is_null (110 :: t)) with true. pose proof (fix_null_end c b t Hc H1 H2 (vlist old) e) as G. destruct (fix_null (des c (Some b)) (vlist old) (110 :: t) e) as [[l' e3]| |]; cbn [bind gend] in *; [|easy|exact I].
    destruct (parse_null (110 :: t) e3). exact I.
  - intros b H1 H2 sn2 x old p e e2 He. cbn [des vec_codec]. refine (gsim_bind en3 (ex3 x) _ _ _ _ _ _ (fix_des_cut fresh ex LBR RBR c b x sn2 (vlist old) p e e2 Hc Hn H1 H2 He) _ _); [intros [[v r] e5] Q; een Q; reflexivity|].
    intros [[v r] e5] [[v2 r2] e6] (E1 & E2 & E3). cbn [fst snd] in *. subst. now apply g3.
Qed.

(** ---- structs ---- *)
Lemma name_loop_cut x : forall s nm n' s1, name_loop nm s = (n', s1) -> s1 = [] \/ name_loop nm (s ++ x) = (n', s1 ++ x).
Proof.
  induction s as [|c t IH]; intros nm n' s1 E; [destruct nm; injection E as _ <-; now left|]. destruct nm as [|n nm]; cbn [name_loop app] in *; [injection E as <- <-; now right|].
  destruct ((c =? n) && negb (c =? QT)); [now apply IH|]. injection E as <- <-. now right.
Qed.
Lemma unser_name_cut x nm s u e e2 r e1 u1 : eok e e2 -> unser_name nm s u e = (r, e1, u1) -> r = [] \/ exists e3, unser_name nm (s ++ x) u e2 = (r ++ x, e3, u1) /\ eok e1 e3.
Proof.
  intros He. unfold unser_name. destruct s as [|c t]; [intros E; injection E as <- <- <-; now left|]. change (is_string ((c :: t) ++ x)) with (is_string (c :: t)). destruct (negb (is_string (c :: t))); [intros E; injection E as <- <- <-; now left|].
  cbn [tl app]. destruct (name_loop nm t) as [n' s1] eqn:En. destruct (name_loop_cut x _ _ _ _ En) as [-> | ->]; [intros E; injection E as <- <- <-; now left|]. destruct s1 as [|d s1]; [intros E; injection E as <- <- <-; now left|]. cbn [app].
  destruct (_ || _); [intros E; injection E as <- <- <-; right; exists e2; now split|]. sp x He; [intros E; injection E as <- <- <-; now left|].
  destruct s as [|f s]; [intros E; injection E as <- <- <-; now left|]. cbn [app]. destruct (negb (f =? COLON)); [intros E; injection E as <- <- <-; now left|]. sp x H; [intros E; injection E as <- <- <-; now left|].
  destruct s0 as [|g s0]; [intros E; injection E as <- <- <-; now left|]. cbn [app]. intros E; injection E as <- <- <-. right. eexists. split; [reflexivity|exact H0].
Qed.
Definition en4 {T} (y : T * bool * buf * eptr) : Prop := snd (fst y) = [].
Definition ex4 x {T} (y y2 : T * bool * buf * eptr) : Prop := fst (fst y2) = fst (fst y) /\ snd (fst y2) = snd (fst y) ++ x /\ eok (snd y) (snd y2).
Ltac een4 H := unfold en4 in H; cbn [fst snd] in H; subst.
Lemma g4 {T} x (v : T) (u : bool) (r : buf) e e2 : eok e e2 -> gsim en4 (ex4 x) (Ok (v, u, r, e)) (Ok (v, u, r ++ x, e2)).
Proof. intros H. right. eexists. split; [reflexivity|]. split; [reflexivity|]. now split. Qed.
(** the member called [m], read into [v0] *)
Lemma named_cut {T} x (m : mem T) b sn2 t (v0 : m_ty m) s u e e2 : cut (m_codec m) -> b <> RBR -> b <> RCB -> eok e e2 ->
  gsim en4 (ex4 x) (let '(s1, e1, u1) := unser_name (m_name m) s u e in if negb u1 then Ok (t, u1, s1, e1) else let* (y, r, e3) := des (m_codec m) (Some b) v0 s1 e1 in Ok (m_set m t y, u1, r, e3))
    (let '(s1, e1, u1) := unser_name (m_name m) (s ++ x) u e2 in if negb u1 then Ok (t, u1, s1, e1) else let* (y, r, e3) := des (m_codec m) sn2 v0 s1 e1 in Ok (m_set m t y, u1, r, e3)).
Proof.
  intros (K1 & K2 & K3) H1 H2 He. destruct (unser_name (m_name m) s u e) as [[r e1] u1] eqn:E. destruct (unser_name_cut x _ _ _ _ _ _ _ _ He E) as [-> |(e3 & -> & H3)].
  - apply gsim_end. destruct (negb u1); [reflexivity|]. specialize (K1 (Some b) v0 e1). destruct (des (m_codec m) (Some b) v0 [] e1) as [[[y q] e4]| |]; cbn [bind gend] in *; [exact K1|easy|exact I].
  - destruct (negb u1); [now apply g4|]. refine (gsim_bind en3 (ex3 x) _ _ _ _ _ _ (K3 b H1 H2 sn2 x v0 r e1 e3 H3) _ _); [intros [[v q] e5] Q; een Q; reflexivity|].
    intros [[v q] e5] [[v2 r2] e6] (E1 & E2 & E3). cbn [fst snd] in *. subst. now apply g4.
Qed.
Definition mcut {T} (m : memb T) : Prop := match m with MRef m => cut (m_codec m) | MProp m _ => cut (m_codec m) | MIf _ _ _ _ => False end.
Lemma memb_des_cut {T} x (m : memb T) b sn2 t s u e e2 : mcut m -> b <> RBR -> b <> RCB -> eok e e2 -> gsim en4 (ex4 x) (memb_des m (Some b) t s u e) (memb_des m sn2 t (s ++ x) u e2).
Proof. intros Hm H1 H2 He. destruct m as [m|m init|]; [| |easy]; cbn [memb_des mcut] in *; [unfold mem_des|unfold mem_p_des]; now apply named_cut. Qed.
Lemma memb_des_nil {T} (m : memb T) sn t u e : mcut m -> gend en4 (memb_des m sn t [] u e).
Proof.
  intros Hm. destruct m as [m|m init|]; [| |easy]; cbn [memb_des mcut] in *; destruct Hm as (K1 & _); [unfold mem_des|unfold mem_p_des]; cbn [unser_name is_string starts negb]; (destruct u; [|reflexivity]); cbn [negb].
  - match goal with |- context [des (m_codec m) sn ?o [] ?f] => specialize (K1 sn o f); destruct (des (m_codec m) sn o [] f) as [[[y q] e4]| |] end; cbn [bind gend] in *; [exact K1|easy|exact I].
  - match goal with |- context [des (m_codec m) sn ?o [] ?f] => specialize (K1 sn o f); destruct (des (m_codec m) sn o [] f) as [[[y q] e4]| |] end; cbn [bind gend] in *; [exact K1|easy|exact I].
Qed.
Section Obj.
  Context (b : Z) (Hb1 : b <> RBR) (Hb2 : b <> RCB) (sn2 : option Z) (x : buf) (mode : omode).
  Lemma pmember_cut p e e2 : eok e e2 -> gsim en1 (ex1 x) (parse_member (parse_value (Some b)) p e) (parse_member (parse_value sn2) (p ++ x) e2).
  Proof. intros He. apply member_cut with (b := b); try assumption. intros q f f2 Hf. now apply value_cut. Qed.
  Lemma rest_loop_cut : forall n n2 s e e2, (n <= n2)%nat -> eok e e2 -> gsim en1 (ex1 x) (rest_loop mode (Some b) n s e) (rest_loop mode sn2 n2 (s ++ x) e2).
  Proof.
    induction n as [|n IH]; intros n2 s e e2 Hn He; [exact I|]. destruct n2 as [|n2]; [lia|]. cbn [rest_loop]. refine (gsim_bind en1 (ex1 x) _ _ _ _ _ _ (pmember_cut s e e2 He) _ _); [intros [r e5] Q; een Q; reflexivity|].
    intros [r e5] [r2 e6] (E2 & E3). cbn [fst snd] in *. subst. sp x E3; [apply g1_end|]. destruct s0 as [|c s0]; [apply g1_end|]. cbn [app]. destruct (c =? RCB); [destruct mode; [now apply (g1 x (c :: s0))|apply g1_end]|].
    destruct (negb (c =? COMMA)); [apply g1_end|]. sp x H; [apply gsim_end; destruct n; [exact I|reflexivity]|]. apply IH; [lia|exact H0].
  Qed.
  Lemma rest_members_cut s e e2 : eok e e2 -> gsim en1 (ex1 x) (rest_members mode (Some b) s e) (rest_members mode sn2 (s ++ x) e2).
  Proof.
    intros He. unfold rest_members. sp x He; [apply g1_end|]. destruct s0 as [|c s0]; [apply g1_end|]. cbn [app]. destruct (c =? RCB); [now apply (g1 x (c :: s0))|]. change (c :: s0 ++ x) with ((c :: s0) ++ x). apply rest_loop_cut; [rewrite app_length; lia|exact H].
  Qed.
  Lemma search_end_cut s e e2 : eok e e2 -> gsim en1 (ex1 x) (search_end mode (Some b) s e) (search_end mode sn2 (s ++ x) e2).
  Proof.
    intros He. unfold search_end. destruct mode.
    - refine (gsim_bind en1 (ex1 x) _ _ _ _ _ _ (pmember_cut s e e2 He) _ _); [intros [r e5] Q; een Q; reflexivity|]. intros [r e5] [r2 e6] (E2 & E3). cbn [fst snd] in *. subst. sp x E3; [apply g1_end|now apply g1].
    - destruct s as [|c t]; [apply g1_end|]. cbn [app]. destruct (c =? RCB); [now apply (g1 x (c :: t))|apply g1_end].
  Qed.
  Lemma search_end_nil sn e : gend en1 (search_end mode sn [] e). Proof. unfold search_end. destruct mode; reflexivity. Qed.
  Context {T : Type}.
  Lemma search_nil sn (L : list (memb T)) : Forall mcut L -> forall t e, gend en3 (search_members mode sn L t [] e).
  Proof.
    induction L as [|m L IH]; intros HL t e; cbn [search_members]; [pose proof (search_end_nil sn e) as G; destruct (search_end mode sn [] e) as [[r e1]| |]; cbn [bind gend] in *; easy|].
    inversion HL as [|? ? Hm HL']; subst. pose proof (memb_des_nil m sn t false e Hm) as G. destruct (memb_des m sn t [] false e) as [[[[t1 u] r] e1]| |]; cbn [bind gend] in *; [|easy|exact I]. een4 G. destruct (negb u); [now apply IH|reflexivity].
  Qed.
  Lemma search_cut (L : list (memb T)) : Forall mcut L -> forall t s e e2, eok e e2 -> gsim en3 (ex3 x) (search_members mode (Some b) L t s e) (search_members mode sn2 L t (s ++ x) e2).
  Proof.
    induction L as [|m L IH]; intros HL t s e e2 He; cbn [search_members].
    - refine (gsim_bind en1 (ex1 x) _ _ _ _ _ _ (search_end_cut s e e2 He) _ _); [intros [r e5] Q; een Q; reflexivity|]. intros [r e5] [r2 e6] (E2 & E3). cbn [fst snd] in *. subst. now apply g3.
    - inversion HL as [|? ? Hm HL']; subst. refine (gsim_bind en4 (ex4 x) _ _ _ _ _ _ (memb_des_cut x m b sn2 t s false e e2 Hm Hb1 Hb2 He) _ _).
      + intros [[[t1 u] r] e1] Q. een4 Q. destruct (negb u); [now apply search_nil|reflexivity].
      + intros [[[t1 u] r] e1] [[[t3 u3] r3] e3] (E1 & E2 & E3). cbn [fst snd] in *. subst r3. injection E1 as -> ->. destruct (negb u); [now apply IH|now apply g3].
  Qed.
  Lemma at_close_cut (t : T) s e e2 : eok e e2 -> gsim en3 (ex3 x) (at_close t s e) (at_close t (s ++ x) e2).
  Proof. intros He. destruct s as [|c s]; [apply g3_end|]. cbn [at_close app]. destruct (negb (c =? RCB)); [apply g3_end|now apply (g3 x t (c :: s))]. Qed.
  Lemma loop_nil sn (L R : list (memb T)) n t e : Forall mcut L -> Forall mcut R -> gend en3 (members_loop mode sn L n R t [] e).
  Proof.
    intros HL HR. destruct n as [|n]; [exact I|]. cbn [members_loop]. destruct R as [|m R]; [reflexivity|]. inversion HR as [|? ? Hm HR']; subst. pose proof (memb_des_nil m sn t false e Hm) as G.
    destruct (memb_des m sn t [] false e) as [[[[t1 u] r] e1]| |]; cbn [bind gend] in *; [|easy|exact I]. een4 G. 
    destruct u; cbn [negb]; [reflexivity|]. pose proof (search_nil sn L HL t1 e1) as Q. destruct (search_members mode sn L t1 [] e1) as [[[t2 s2] e3]| |]; cbn [bind gend] in *; [|easy|exact I]. een Q. reflexivity.
  Qed.
  Lemma members_loop_cut (L : list (memb T)) : Forall mcut L -> forall n n2 R t s e e2, (n <= n2)%nat -> Forall mcut R -> eok e e2 ->
    gsim en3 (ex3 x) (members_loop mode (Some b) L n R t s e) (members_loop mode sn2 L n2 R t (s ++ x) e2).
  Proof.
    intros HL. induction n as [|n IH]; intros n2 R t s e e2 Hn HR He; [exact I|]. destruct n2 as [|n2]; [lia|]. cbn [members_loop]. destruct R as [|m R].
    - refine (gsim_bind en1 (ex1 x) _ _ _ _ _ _ (rest_members_cut s e e2 He) _ _); [intros [r e5] Q; een Q; reflexivity|]. intros [r e5] [r2 e6] (E2 & E3). cbn [fst snd] in *. subst. now apply g3.
    - inversion HR as [|? ? Hm HR']; subst. refine (gsim_bind en4 (ex4 x) _ _ _ _ _ _ (memb_des_cut x m b sn2 t s false e e2 Hm Hb1 Hb2 He) _ _).
      { intros [[[t1 u] r] e1] Q. een4 Q. destruct u; cbn [negb]; [reflexivity|]. pose proof (search_nil (Some b) L HL t1 e1) as Q. destruct (search_members mode (Some b) L t1 [] e1) as [[[t2 s2] e3]| |]; cbn [bind gend] in *; [|easy|exact I]. een Q. reflexivity. }
      intros [[[t1 u] r] e1] [[[t3 u3] r3] e3] (E1 & E2 & E3). cbn [fst snd] in *. subst r3. injection E1 as -> ->.
      assert (Q : gsim en3 (ex3 x) (if negb u then search_members mode (Some b) L t1 r e1 else Ok (t1, r, e1)) (if negb u then search_members mode sn2 L t1 (r ++ x) e3 else Ok (t1, r ++ x, e3))) by (destruct (negb u); [now apply search_cut|now apply g3]).
      refine (gsim_bind en3 (ex3 x) _ _ _ _ _ _ Q _ _); [intros [[v q] e5] Q'; een Q'; reflexivity|]. clear Q. intros [[t2 q] e5] [[t4 q2] e6] (E4 & E5 & E6). cbn [fst snd] in *. subst.
      sp x E6; [apply g3_end|]. destruct s0 as [|d s0]; [apply g3_end|]. cbn [app]. destruct (d =? COMMA); [|now apply (at_close_cut t2 (d :: s0))].
      assert (HN : Forall mcut (if u then R else m :: R)) by now destruct u. sp x H.
      { apply gsim_end. pose proof (loop_nil (Some b) L (if u then R else m :: R) n t2 e7 HL HN) as G. destruct (members_loop mode (Some b) L n (if u then R else m :: R) t2 [] e7) as [[[t5 s5] e8]| |]; cbn [bind gend] in *; [|easy|exact I]. een G. reflexivity. }
      refine (gsim_bind en3 (ex3 x) _ _ _ _ _ _ (IH n2 _ t2 s1 _ _ _ HN H0) _ _); [lia|intros [[v w] e9] Q'; een Q'; reflexivity|]. intros [[t5 w] e9] [[t6 w2] e10] (F1 & F2 & F3). cbn [fst snd] in *. subst. now apply at_close_cut.
  Qed.
End Obj.
Lemma object_codec_cut T mode (L : list (memb T)) t0 : Forall mcut L -> cut (object_codec mode L t0).
Proof.
  intros HL. split; [reflexivity|]. split; [intros b old t e _ _; apply nul_end|]. intros b H1 H2 sn2 x old p e e2 He. cbn [des object_codec]. unfold object_des. destruct p as [|c t]; [apply g3_end|].
  change (is_null ((c :: t) ++ x)) with (is_null (c :: t)). destruct (is_null (c :: t)); [now apply nul3|]. cbn [app]. destruct (negb (c =? LCB)).
  - destruct (c =? LBR); [|apply g3_end]. sp x He.
    + cbn [deref bind]. replace (b =? RBR) with false by lia. apply g3_end.
    + destruct s as [|d s]; cbn [deref bind app]; [replace (b =? RBR) with false by lia; apply g3_end|]. destruct (negb (d =? RBR)); [apply g3_end|]. cbn [step bind]. now apply g3.
  - sp x He; [apply g3_end|]. destruct s as [|d s]; [apply g3_end|]. cbn [app]. destruct (negb (d =? RCB)); [|now apply g3]. change (d :: s ++ x) with ((d :: s) ++ x).
    refine (gsim_bind en3 (ex3 x) _ _ _ _ _ _ (members_loop_cut b H1 H2 sn2 x mode L HL _ _ L old (d :: s) _ _ _ HL H) _ _).
    + rewrite app_length. lia.
    + intros [[v r] e5] Q. een Q. reflexivity.
    + intros [[v r] e5] [[v2 r2] e6] (E1 & E2 & E3). cbn [fst snd] in *. subst. destruct r as [|f r]; [apply g3_end|]. cbn [app]. change (f :: r ++ x) with ((f :: r) ++ x). sp x E3; [apply g3_end|]. destruct s0 as [|g s0]; [apply g3_end|]. cbn [app]. destruct (negb (g =? RCB)); [apply g3_end|now apply g3].
Qed.
Lemma amemb_cut {T} x (m : memb T) b sn2 t s e e2 : mcut m -> b <> RBR -> b <> RCB -> eok e e2 -> gsim en3 (ex3 x) (amemb_des m (Some b) t s e) (amemb_des m sn2 t (s ++ x) e2).
Proof.
  intros Hm H1 H2 He. destruct m as [m|m init|]; [| |easy]; cbn [amemb_des mcut] in *; destruct Hm as (K1 & K2 & K3); [unfold amem_des|];
    (refine (gsim_bind en3 (ex3 x) _ _ _ _ _ _ (K3 b H1 H2 sn2 x _ s e e2 He) _ _); [intros [[v r] e5] Q; een Q; reflexivity|intros [[v r] e5] [[v2 r2] e6] (E1 & E2 & E3); cbn [fst snd] in *; subst; now apply g3]).
Qed.
Lemma amemb_nil {T} (m : memb T) sn t e : mcut m -> gend en3 (amemb_des m sn t [] e).
Proof.
  intros Hm. destruct m as [m|m init|]; [| |easy]; cbn [amemb_des mcut] in *; destruct Hm as (K1 & _); [unfold amem_des|];
    match goal with |- context [des (m_codec m) sn ?o [] ?f] => specialize (K1 sn o f); destruct (des (m_codec m) sn o [] f) as [[[y q] e4]| |] end; cbn [bind gend] in *; [exact K1|easy|exact I|exact K1|easy|exact I].
Qed.
Lemma amembers_nil {T} sn (L : list (memb T)) t e : Forall mcut L -> gend en3 (amembers_des sn L t [] e).
Proof.
  intros HL. destruct HL as [|m L Hm HL]; [reflexivity|]. cbn [amembers_des]. pose proof (amemb_nil m sn t e Hm) as G. destruct (amemb_des m sn t [] e) as [[[v r] e1]| |]; cbn [bind gend] in *; [|easy|exact I]. een G. reflexivity.
Qed.
Lemma amembers_cut {T} x b sn2 (L : list (memb T)) : b <> RBR -> b <> RCB -> Forall mcut L -> forall t s e e2, eok e e2 -> gsim en3 (ex3 x) (amembers_des (Some b) L t s e) (amembers_des sn2 L t (s ++ x) e2).
Proof.
  intros H1 H2. induction L as [|m L IH]; intros HL t s e e2 He; [now apply g3|]. inversion HL as [|? ? Hm HL']; subst. cbn [amembers_des].
  refine (gsim_bind en3 (ex3 x) _ _ _ _ _ _ (amemb_cut x m b sn2 t s e e2 Hm H1 H2 He) _ _); [intros [[v r] e5] Q; een Q; reflexivity|]. intros [[v r] e5] [[v2 r2] e6] (E1 & E2 & E3). cbn [fst snd] in *. subst.
  sp x E3; [apply g3_end|]. destruct s0 as [|d s0]; [apply g3_end|]. cbn [app].
  refine (gsim_bind en3 (ex3 x) _ _ _ _ _ _ _ _ _).
  - destruct (d =? COMMA); [|exact (g3 x v (d :: s0) _ _ H)]. sp x H; [apply gsim_end, amembers_nil, HL'|]. now apply IH.
  - intros [[w r2] e9] Q. een Q. reflexivity.
  - intros [[w q] e9] [[w2 q2] e10] (F1 & F2 & F3). cbn [fst snd] in *. subst. destruct q as [|f q]; [apply g3_end|]. cbn [app]. destruct (negb (f =? RBR)); [apply g3_end|exact (g3 x w (f :: q) _ _ F3)].
Qed.
Lemma oarray_codec_cut T (L : list (memb T)) t0 : Forall mcut L -> cut (oarray_codec L t0).
Proof.
  intros HL. split; [reflexivity|]. split; [intros b old t e _ _; apply nul_end|]. intros b H1 H2 sn2 x old p e e2 He. cbn [des oarray_codec]. unfold oarray_des. destruct p as [|c t]; [apply g3_end|].
  change (is_null ((c :: t) ++ x)) with (is_null (c :: t)). destruct (is_null (c :: t)); [now apply nul3|]. cbn [app]. destruct (negb (c =? LBR)); [apply g3_end|].
  sp x He; [apply g3_end|]. destruct s as [|d s]; [apply g3_end|]. cbn [app]. destruct (negb (d =? RBR)); [|now apply g3]. change (d :: s ++ x) with ((d :: s) ++ x).
  refine (gsim_bind en3 (ex3 x) _ _ _ _ _ _ (amembers_cut x b sn2 L H1 H2 HL old (d :: s) _ _ H) _ _).
  - intros [[v r] e5] Q. een Q. reflexivity.
  - intros [[v r] e5] [[v2 r2] e6] (E1 & E2 & E3). cbn [fst snd] in *. subst. destruct r as [|f r]; [apply g3_end|]. cbn [app]. change (f :: r ++ x) with ((f :: r) ++ x). sp x E3; [apply g3_end|]. destruct s0 as [|g s0]; [apply g3_end|]. cbn [app]. destruct (negb (g =? RBR)); [apply g3_end|now apply g3].
Qed.

(** ---- size_value ---- *)
Lemma null_eok p e e2 : eok e e2 -> fst (parse_null p e2) = fst (parse_null p e) /\ eok (snd (parse_null p e)) (snd (parse_null p e2)).
Proof.
  intros He. destruct p as [|c t]; cbn [parse_null fst snd]; [split; [reflexivity|now apply eok_cerr]|]. destruct (c =? 110); [|cbn [fst snd]; split; [reflexivity|now apply eok_cerr]].
  destruct (lit_chain (text "ull") 0 t); cbn [finish_lit fst snd]; (split; [reflexivity|]); [exact He|now apply eok_cerr|now apply eok_cerr].
Qed.
Lemma int_eok t sn sn2 old p e e2 : eok e e2 -> match int_des t sn old p e, int_des t sn2 old p e2 with
  | Ok y, Ok y2 => fst y2 = fst y /\ eok (snd y) (snd y2) | UB, UB => True | Fuel, Fuel => True | _, _ => False end.
Proof.
  intros He. unfold int_des. destruct (is_null p).
  - pose proof (null_eok p e e2 He) as [H1 H2]. destruct (parse_null p e), (parse_null p e2). cbn [fst snd] in *. now subst.
  - unfold unserialize_integer. destruct p as [|c s]; [split; [reflexivity|now apply eok_cerr]|]. set (neg := c =? MINUS). destruct (if neg then s else c :: s) as [|d q]; [split; [reflexivity|now apply eok_cerr]|]. destruct (negb (is_digit d)); [split; [reflexivity|now apply eok_cerr]|].
    destruct (d =? 48); [now split|]. destruct (int_loop t 0 (d :: q)) as [[v r]| |]; cbn [bind]; [|exact I|exact I]. destruct neg; [|now split]. destruct (iarith (ipromote t) (- v)); cbn [bind]; [now split|exact I|exact I].
Qed.
Lemma strlen_zero n : strlen (repeat 0 (S n)) = Ok []. Proof. reflexivity. Qed.
Lemma size_codec_cut t metric : ity_ok t -> cut (size_codec t metric).
Proof.
  intros Ht. split; [reflexivity|]. split; [intros b old s e _ _; apply nul_end|]. intros b H1 H2 sn2 x old p e e2 He. cbn [des size_codec]. unfold size_des. destruct p as [|c s]; [apply g3_end|]. cbn [app]. change (c :: s ++ x) with ((c :: s) ++ x).
  change (is_null ((c :: s) ++ x)) with (is_null (c :: s)). destruct (is_null (c :: s)); [now apply nul3|]. change (is_number ((c :: s) ++ x)) with (is_number (c :: s)). destruct (is_number (c :: s)).
  { destruct (int_codec_cut t Ht) as (_ & _ & K3). exact (K3 b H1 H2 sn2 x 0 (c :: s) e e2 He). }
  change (is_string ((c :: s) ++ x)) with (is_string (c :: s)). destruct (negb (is_string (c :: s))); [apply g3_end|].
  refine (gsim_bind _ (ex3 x) _ _ _ _ _ _ (chars_cutP 32 x (Some b) sn2 [] (c :: s) e e2 He) _ _).
  - intros [[w r] e1] [Q1 Q2]. cbn [fst snd] in *. subst r. destruct (has_err e1); [reflexivity|]. destruct Q2 as [Q2| -> ]; [discriminate|]. rewrite strlen_zero. cbn [bind]. unfold int_des. cbn [is_null starts unserialize_integer bind]. 
    destruct (has_err _); [reflexivity|reflexivity].
  - intros [[w r] e1] [[w2 r2] e3] (E1 & E2 & E3). cbn [fst snd] in *. subst. rewrite (eok_has _ _ E3). destruct (has_err e1); [now apply g3|]. destruct (strlen w) as [txt| |]; cbn [bind]; [|reflexivity|exact I].
    pose proof (int_eok i64 (Some 0) (Some 0) 0 txt e1 e3 E3) as Q. destruct (int_des i64 (Some 0) 0 txt e1) as [[[v q] f]| |], (int_des i64 (Some 0) 0 txt e3) as [[[v2 q2] f2]| |]; try easy. cbn [fst snd] in Q. destruct Q as [Q1 Q2]. injection Q1 as -> ->. cbn [bind].
    rewrite (eok_has _ _ Q2). destruct (has_err f); [now apply g3|]. destruct q as [|c1 q1]; [now apply g3|]. destruct (size_mult _ _); [|apply g3_end]. destruct (iarith i64 (v * z)); cbn [bind]; [now apply g3|reflexivity|exact I].
Qed.
