From Verif Require Import Base Parser SpecJson SpecDespace ParserFacts Grammar1 Grammar2.

Lemma range_app t s : range (t ++ s) s = t.
Proof.
  unfold range. rewrite app_length. replace (length t + length s - length s)%nat with (length t) by lia.
  rewrite firstn_app, Nat.sub_diag, firstn_all. cbn. apply app_nil_r.
Qed.

Definition tok_step (s1 : buf) (t1 : buf) (e1 : eptr) : res (buf * eptr) :=
  if is_string s1 then parse_string s1 e1
  else if is_number s1 then Ok (parse_number s1 e1)
  else if is_bool s1 then Ok (parse_bool s1 e1)
  else if is_null s1 then Ok (parse_null s1 e1)
  else Ok (t1, e1).

Lemma token_nonempty t : token t -> exists c z, t = c :: z /\ forall r, stop (c :: r).
Proof.
  intros H. assert (K : exists c z, t = c :: z /\ (vstart c \/ closer c)).
  { destruct H as [c Hc| | | |n Hn|s Hs].
    - exists c, []. split; [reflexivity|]. cbn in Hc. unfold vstart, closer. lia.
    - eexists _, _. split; [reflexivity|]. left. unfold vstart. cbn. lia.
    - eexists _, _. split; [reflexivity|]. left. unfold vstart. cbn. lia.
    - eexists _, _. split; [reflexivity|]. left. unfold vstart. cbn. lia.
    - destruct (rnumber_head n Hn) as (c & z & -> & Hc). exists c, z. split; [reflexivity|]. left. unfold vstart. tauto.
    - destruct Hs. eexists _, _. split; [reflexivity|]. left. unfold vstart. lia. }
  destruct K as (c & z & -> & [Hc|Hc]); exists c, z; (split; [reflexivity|]); intro r.
  - now apply vstart_stop.
  - now apply closer_stop.
Qed.

Lemma tok_step_token c z s e : token (c :: z) -> (rnumber (c :: z) -> num_stop (c :: z) s) ->
  tok_step (c :: z ++ s) (z ++ s) e = Ok (s, e).
Proof.
  intros H Hs. unfold tok_step. remember (c :: z) as t eqn:E.
  change (c :: z ++ s) with ((c :: z) ++ s). rewrite <- E.
  destruct H as [c' Hc| | | |n Hn|k Hk].
  - injection E as -> <-. cbn in Hc.
    unfold is_string, is_number, is_bool, is_null, starts, is_digit. cbn [app].
    destruct (c =? QT) eqn:E1; [lia|].
    destruct ((c =? MINUS) || (48 <=? c) && (c <=? 57)) eqn:E2; [lia|].
    destruct ((c =? 116) || (c =? 102)) eqn:E3; [lia|]. destruct (c =? 110) eqn:E4; [lia|]. reflexivity.
  - reflexivity.
  - reflexivity.
  - reflexivity.
  - destruct (rnumber_head n Hn) as (c' & z' & E' & Hc').
    assert (is_string (n ++ s) = false /\ is_number (n ++ s) = true) as (-> & ->).
    { rewrite E'. unfold is_string, is_number, starts, is_digit, s_digit in *. cbn [app]. lia. }
    rewrite parse_number_app; auto.
  - assert (is_string (k ++ s) = true) as -> by (destruct Hk; reflexivity).
    now apply parse_string_app.
Qed.

Lemma despace_step n c z out e s1 e1 :
  parse_space (c :: z) e = (s1, e1) ->
  despace_f (S n) (c :: z) out e =
   match s1 with
   | [] => Ok ([], out, e1)
   | _ :: t1 => let* (s2, e2) := tok_step s1 t1 e1 in
                despace_f n s2 (if no_err_yet e2 then out ++ range s1 s2 else out) e2
   end.
Proof. intros H. cbn [despace_f]. rewrite H. reflexivity. Qed.

Lemma despace_layout s ts : layout s ts -> forall n out e, (length s < n)%nat -> no_err_yet e = true ->
  despace_f n s out e = Ok ([], out ++ concat ts, e).
Proof.
  induction 1 as [g Hg|g t s ts Hg Ht Hs Hl IH]; intros n out e Hn He.
  - destruct n; [lia|]. cbn [concat]. rewrite app_nil_r. destruct g as [|c z]; [reflexivity|].
    rewrite (despace_step n c z out e [] e); [reflexivity|].
    rewrite <- (app_nil_r (c :: z)). apply gap_parse_space; [exact Hg|exact I].
  - destruct n; [lia|]. destruct (token_nonempty t Ht) as (c & z & -> & Hstop).
    destruct (g ++ (c :: z) ++ s) as [|c0 z0] eqn:E; [destruct g; discriminate|].
    rewrite (despace_step n c0 z0 out e (c :: z ++ s) e).
    2:{ rewrite <- E. apply gap_parse_space; [exact Hg|apply Hstop]. }
    rewrite tok_step_token by assumption. cbn [bind]. rewrite He.
    change (c :: z ++ s) with ((c :: z) ++ s). rewrite range_app. cbn [concat].
    rewrite app_assoc. apply IH; [|exact He].
    rewrite <- E in Hn. rewrite !app_length in Hn. cbn [length] in Hn. lia.
Qed.

Theorem despace_tokens s ts e : layout s ts -> no_err_yet e = true ->
  despace s e = Ok ([], concat ts, e).
Proof. intros H He. unfold despace. rewrite (despace_layout s ts H); [reflexivity|lia|exact He]. Qed.

(** documents are layouts *)
Definition lay (x : buf) (ts : list buf) : Prop :=
  forall g s ts', gap g -> layout s ts' -> (rnumber x -> num_stop x s) -> layout (g ++ x ++ s) (ts ++ ts').

Lemma lay_token t : token t -> lay t [t].
Proof. intros Ht g s ts' Hg Hs Hn. cbn [app]. now apply lay_tok. Qed.

Lemma layout_gap g s ts : gap g -> layout s ts -> (exists c t, s = c :: t /\ ~ s_ws c /\ c <> SLASH /\ c <> STAR) -> layout (g ++ s) ts.
Proof.
  intros Hg Hl (c & t & Es & Hc). destruct Hl as [g0 Hg0|g0 t0 s0 ts0 Hg0 Ht Hn Hl0].
  - subst g0. destruct (gap_head _ Hg0) as [|(d & z & E & Hd)]; [discriminate|]. injection E as <- _. tauto.
  - destruct (gap_head _ Hg0) as [->|(d & z & -> & Hd)].
    + cbn [app]. now apply lay_tok.
    + cbn in Es. injection Es as -> _. tauto.
Qed.

Lemma not_rnum c t : ~ s_digit c -> c <> MINUS -> ~ rnumber (c :: t).
Proof. intros H1 H2 H. destruct (rnumber_head _ H) as (c' & t' & E & Hc). injection E as <- _. tauto. Qed.

Lemma punct_lay c g s ts : In c [LCB; RCB; LBR; RBR; COMMA; COLON] -> gap g -> layout s ts -> layout (g ++ c :: s) ([c] :: ts).
Proof.
  intros Hc Hg Hs. apply (lay_tok g [c] s ts Hg); [now constructor| |exact Hs].
  intros K. exfalso. revert K. cbn in Hc. apply not_rnum; unfold s_digit; lia.
Qed.

Lemma closer_follow g c s : gap g -> closer c -> follow (g ++ c :: s).
Proof. apply gap_follow. Qed.

Lemma closer_nws c s : closer c -> exists c' t, c :: s = c' :: t /\ ~ s_ws c' /\ c' <> SLASH /\ c' <> STAR.
Proof. intros H. exists c, s. split; [reflexivity|]. unfold closer, s_ws in *. lia. Qed.

(** a value inside brackets: gap value gap closer *)
Lemma lay_inner v ts g1 g2 c s ts' : lay v ts -> gap g1 -> gap g2 -> closer c ->
  layout (c :: s) ts' -> layout (g1 ++ v ++ g2 ++ c :: s) (ts ++ ts').
Proof.
  intros Hv Hg1 Hg2 Hc Hl. apply Hv; [exact Hg1| |].
  - apply layout_gap; auto using closer_nws.
  - intros _. apply follow_num_stop. now apply gap_follow.
Qed.

Ltac norm := repeat (rewrite <- ?app_assoc; cbn [app concat]).
Ltac pin := cbn [In]; lia.

Definition Dv (v : buf) : Prop := exists ts, wvalue (concat ts) /\ lay v ts /\ lay (concat ts) ts.
Lemma Dv_token t : token t -> wvalue t -> Dv t.
Proof.
  intros Ht Hv. exists [t]. cbn. rewrite app_nil_r. split; [exact Hv|]. split; now apply lay_token.
Qed.

Lemma clos1 : closer RBR. Proof. unfold closer; lia. Qed.
Lemma clos2 : closer RCB. Proof. unfold closer; lia. Qed.
Lemma clos3 : closer COMMA. Proof. unfold closer; lia. Qed.
Lemma clos4 : closer COLON. Proof. unfold closer; lia. Qed.
#[local] Hint Resolve clos1 clos2 clos3 clos4 g_nil : core.

(** gap immediately after an opening bracket *)
Lemma lay_empty o g c : In o [LCB; LBR] -> In c [RCB; RBR] -> gap g -> lay (o :: g ++ [c]) [[o]; [c]].
Proof.
  intros Ho Hc Hg g' s ts' Hg' Hs _. norm.
  apply punct_lay; [cbn in Ho |- *; tauto|exact Hg'|].
  apply punct_lay; [cbn in Hc |- *; tauto|exact Hg|exact Hs].
Qed.

(** contents of brackets, the outer gap being empty *)
Definition cont (x : buf) (ts : list buf) : Prop :=
  forall c s ts', closer c -> layout (c :: s) ts' -> layout (x ++ c :: s) (ts ++ ts').

Lemma lay_brackets' o l ts c : In o [LCB; LBR] -> In c [RCB; RBR] -> cont l ts ->
  lay (o :: l ++ [c]) ([o] :: ts ++ [[c]]).
Proof.
  intros Ho Hc Hl g s ts' Hg Hs _. norm.
  apply punct_lay; [cbn in Ho |- *; tauto|exact Hg|].
  apply Hl; [unfold closer; cbn in Hc; lia|].
  apply (punct_lay c [] s ts'); [cbn in Hc |- *; lia|constructor|exact Hs].
Qed.

Lemma cont_value g1 v ts g2 : gap g1 -> gap g2 -> lay v ts -> cont (g1 ++ v ++ g2) ts.
Proof. intros H1 H2 Hv c s ts' Hc Hl. norm. now apply lay_inner. Qed.

Lemma cont_more g1 v ts g2 l tl : gap g1 -> gap g2 -> lay v ts -> cont l tl ->
  cont (g1 ++ v ++ g2 ++ COMMA :: l) (ts ++ [COMMA] :: tl).
Proof.
  intros H1 H2 Hv Hl c s ts' Hc Hlay. norm. apply lay_inner; auto.
  apply (punct_lay COMMA []); [pin|constructor|]. now apply Hl.
Qed.
Lemma cont_trail g1 v ts g2 g3 : gap g1 -> gap g2 -> gap g3 -> lay v ts ->
  cont (g1 ++ v ++ g2 ++ COMMA :: g3) (ts ++ [[COMMA]]).
Proof.
  intros H1 H2 H3 Hv c s ts' Hc Hlay. norm. apply lay_inner; auto.
  apply (punct_lay COMMA []); [pin|constructor|]. apply layout_gap; auto using closer_nws.
Qed.

(** key : value as one item *)
Lemma lay_member k g2 g3 v ts : wstring k -> gap g2 -> gap g3 -> lay v ts ->
  forall g c s ts' g4, gap g -> gap g4 -> closer c -> layout (c :: s) ts' ->
  layout (g ++ k ++ g2 ++ COLON :: g3 ++ v ++ g4 ++ c :: s) (k :: [COLON] :: ts ++ ts').
Proof.
  intros Hk H2 H3 Hv g c s ts' g4 Hg H4 Hc Hl.
  apply lay_tok; [exact Hg|now apply tk_str| |].
  - intros Hn. exfalso. revert Hn. destruct Hk. apply not_rnum; unfold s_digit; lia.
  - apply punct_lay; [pin|exact H2|]. now apply lay_inner.
Qed.
Lemma cont_member g1 k g2 g3 v ts g4 : gap g1 -> wstring k -> gap g2 -> gap g3 -> lay v ts -> gap g4 ->
  cont (g1 ++ k ++ g2 ++ COLON :: g3 ++ v ++ g4) (k :: [COLON] :: ts).
Proof. intros H1 Hk H2 H3 Hv H4 c s ts' Hc Hl. norm. now apply lay_member. Qed.
Lemma cont_member_more g1 k g2 g3 v ts g4 l tl : gap g1 -> wstring k -> gap g2 -> gap g3 -> lay v ts -> gap g4 -> cont l tl ->
  cont (g1 ++ k ++ g2 ++ COLON :: g3 ++ v ++ g4 ++ COMMA :: l) (k :: [COLON] :: ts ++ [COMMA] :: tl).
Proof.
  intros H1 Hk H2 H3 Hv H4 Hcl c s ts' Hc Hl. norm. apply lay_member; auto.
  apply (punct_lay COMMA []); [pin|constructor|]. now apply Hcl.
Qed.
Lemma cont_member_trail g1 k g2 g3 v ts g4 g5 : gap g1 -> wstring k -> gap g2 -> gap g3 -> lay v ts -> gap g4 -> gap g5 ->
  cont (g1 ++ k ++ g2 ++ COLON :: g3 ++ v ++ g4 ++ COMMA :: g5) (k :: [COLON] :: ts ++ [[COMMA]]).
Proof.
  intros H1 Hk H2 H3 Hv H4 H5 c s ts' Hc Hl. norm. apply lay_member; auto.
  apply (punct_lay COMMA []); [pin|constructor|]. apply layout_gap; auto using closer_nws.
Qed.

Definition Dl (G : buf -> Prop) (l : buf) : Prop := exists ts, G (concat ts) /\ cont l ts /\ cont (concat ts) ts.

Ltac cc := repeat (rewrite ?concat_app, ?app_nil_r, <- ?app_assoc; cbn [concat app]).

Lemma doc_layout :
  (forall v, wvalue v -> Dv v) /\ (forall l, welems l -> Dl welems l) /\ (forall l, wmembers l -> Dl wmembers l).
Proof.
  apply wjson_ind; unfold Dl.
  - apply Dv_token; constructor.
  - apply Dv_token; constructor.
  - apply Dv_token; constructor.
  - intros n Hn. apply Dv_token; [now apply tk_num|now constructor].
  - intros s Hs. apply Dv_token; [now apply tk_str|now constructor].
  - intros g Hg. exists [[LBR]; [RBR]]. cbn [concat app]. split; [apply (wv_arr0 [] g_nil)|].
    split; [apply lay_empty; auto; pin|apply (lay_empty LBR [] RBR); auto; pin].
  - intros l Hl (ts & G & C1 & C2). exists ([LBR] :: ts ++ [[RBR]]). cc.
    split; [now apply wv_arr|]. split; apply lay_brackets'; auto; pin.
  - intros g Hg. exists [[LCB]; [RCB]]. cbn [concat app]. split; [apply (wv_obj0 [] g_nil)|].
    split; [apply lay_empty; auto; pin|apply (lay_empty LCB [] RCB); auto; pin].
  - intros g Hg. exists [[LCB]; [RBR]]. cbn [concat app]. split; [apply (wv_obj0' [] g_nil)|].
    split; [apply lay_empty; auto; pin|apply (lay_empty LCB [] RBR); auto; pin].
  - intros l Hl (ts & G & C1 & C2). exists ([LCB] :: ts ++ [[RCB]]). cc.
    split; [now apply wv_obj|]. split; apply lay_brackets'; auto; pin.
  - intros g1 v g2 H1 Hv (ts & Gv & L1 & L2) H2. exists ts.
    split; [rewrite <- (app_nil_r (concat ts)); apply (wel_one [] _ []); auto|].
    split; [now apply cont_value|].
    pose proof (cont_value [] (concat ts) ts [] g_nil g_nil L2) as K. rewrite app_nil_r in K. exact K.
  - intros g1 v g2 g3 H1 Hv (ts & Gv & L1 & L2) H2 H3. exists (ts ++ [[COMMA]]). cc.
    split; [apply (wel_trail [] _ [] []); auto|]. split; [now apply cont_trail|].
    apply (cont_trail [] _ ts [] []); auto.
  - intros g1 v g2 l H1 Hv (ts & Gv & L1 & L2) H2 Hl (tl & Gl & M1 & M2). exists (ts ++ [COMMA] :: tl). cc.
    split; [apply (wel_more [] _ [] _); auto|]. split; [now apply cont_more|].
    apply (cont_more [] _ ts [] _ tl); auto.
  - intros g1 k g2 g3 v g4 H1 Hk H2 H3 Hv (ts & Gv & L1 & L2) H4. exists (k :: [COLON] :: ts). cc.
    split; [rewrite <- (app_nil_r (concat ts)); apply (wme_one [] k [] [] _ []); auto|].
    split; [now apply cont_member|].
    pose proof (cont_member [] k [] [] (concat ts) ts [] g_nil Hk g_nil g_nil L2 g_nil) as K.
    cbn [app] in K. rewrite app_nil_r in K. exact K.
  - intros g1 k g2 g3 v g4 g5 H1 Hk H2 H3 Hv (ts & Gv & L1 & L2) H4 H5. exists (k :: [COLON] :: ts ++ [[COMMA]]). cc.
    split; [apply (wme_trail [] k [] [] _ [] []); auto|]. split; [now apply cont_member_trail|].
    apply (cont_member_trail [] k [] [] _ ts [] []); auto.
  - intros g1 k g2 g3 v g4 l H1 Hk H2 H3 Hv (ts & Gv & L1 & L2) H4 Hl (tl & Gl & M1 & M2).
    exists (k :: [COLON] :: ts ++ [COMMA] :: tl). cc.
    split; [apply (wme_more [] k [] [] _ [] _); auto|]. split; [now apply cont_member_more|].
    apply (cont_member_more [] k [] [] _ ts [] _ tl); auto.
Qed.

Lemma wsnil : ws []. Proof. constructor. Qed.
#[local] Hint Resolve wsnil : core.
Definition Rv (v : buf) : Prop := exists ts, rvalue (concat ts) /\ lay v ts /\ lay (concat ts) ts.
Lemma Rv_token t : token t -> rvalue t -> Rv t.
Proof. intros Ht Hv. exists [t]. cbn. rewrite app_nil_r. split; [exact Hv|]. split; now apply lay_token. Qed.

Lemma rfc_layout :
  (forall v, rvalue v -> Rv v) /\ (forall l, relems l -> Dl relems l) /\ (forall l, rmembers l -> Dl rmembers l).
Proof.
  apply rjson_ind; unfold Dl.
  - apply Rv_token; constructor.
  - apply Rv_token; constructor.
  - apply Rv_token; constructor.
  - intros n Hn. apply Rv_token; [now apply tk_num|now constructor].
  - intros s Hs. apply Rv_token; [now apply tk_str, rstring_wstring|now constructor].
  - intros g Hg. apply ws_gap in Hg. exists [[LBR]; [RBR]]. cbn [concat app]. split; [apply (rv_arr0 []); auto|].
    split; [apply lay_empty; auto; pin|apply (lay_empty LBR [] RBR); auto; pin].
  - intros l Hl (ts & G & C1 & C2). exists ([LBR] :: ts ++ [[RBR]]). cc.
    split; [now apply rv_arr|]. split; apply lay_brackets'; auto; pin.
  - intros g Hg. apply ws_gap in Hg. exists [[LCB]; [RCB]]. cbn [concat app]. split; [apply (rv_obj0 []); auto|].
    split; [apply lay_empty; auto; pin|apply (lay_empty LCB [] RCB); auto; pin].
  - intros l Hl (ts & G & C1 & C2). exists ([LCB] :: ts ++ [[RCB]]). cc.
    split; [now apply rv_obj|]. split; apply lay_brackets'; auto; pin.
  - intros g1 v g2 H1 Hv (ts & Gv & L1 & L2) H2. exists ts.
    split; [rewrite <- (app_nil_r (concat ts)); apply (rel_one [] _ []); auto|].
    split; [apply cont_value; auto using ws_gap|].
    pose proof (cont_value [] (concat ts) ts [] g_nil g_nil L2) as K. rewrite app_nil_r in K. exact K.
  - intros g1 v g2 l H1 Hv (ts & Gv & L1 & L2) H2 Hl (tl & Gl & M1 & M2). exists (ts ++ [COMMA] :: tl). cc.
    split; [apply (rel_more [] _ [] _); auto|]. split; [apply cont_more; auto using ws_gap|].
    apply (cont_more [] _ ts [] _ tl); auto.
  - intros g1 k g2 g3 v g4 H1 Hk H2 H3 Hv (ts & Gv & L1 & L2) H4. exists (k :: [COLON] :: ts). cc.
    pose proof (rstring_wstring _ Hk) as Hk'.
    split; [rewrite <- (app_nil_r (concat ts)); apply (rme_one [] k [] [] _ []); auto|].
    split; [apply cont_member; auto using ws_gap|].
    pose proof (cont_member [] k [] [] (concat ts) ts [] g_nil Hk' g_nil g_nil L2 g_nil) as K.
    cbn [app] in K. rewrite app_nil_r in K. exact K.
  - intros g1 k g2 g3 v g4 l H1 Hk H2 H3 Hv (ts & Gv & L1 & L2) H4 Hl (tl & Gl & M1 & M2).
    pose proof (rstring_wstring _ Hk) as Hk'.
    exists (k :: [COLON] :: ts ++ [COMMA] :: tl). cc.
    split; [apply (rme_more [] k [] [] _ [] _); auto|]. split; [apply cont_member_more; auto using ws_gap|].
    apply (cont_member_more [] k [] [] _ ts [] _ tl); auto.
Qed.

Lemma lay_doc v ts g1 g2 : lay v ts -> gap g1 -> gap g2 -> layout (g1 ++ v ++ g2) ts.
Proof.
  intros Hl H1 H2. rewrite <- (app_nil_r ts). apply Hl; [exact H1|now constructor|].
  intros _. apply follow_num_stop. destruct (gap_head g2 H2) as [->|(c & t & -> & Hc)]; cbn; [exact I|].
  unfold s_ws, s_digit in *. lia.
Qed.

Theorem despace_document g1 v g2 e : wvalue v -> gap g1 -> gap g2 -> no_err_yet e = true ->
  exists w, despace (g1 ++ v ++ g2) e = Ok ([], w, e) /\ wvalue w /\ despace w e = Ok ([], w, e).
Proof.
  intros Hv H1 H2 He. destruct (proj1 doc_layout v Hv) as (ts & G & L1 & L2).
  exists (concat ts). split; [|split; [exact G|]].
  - apply despace_tokens; [|exact He]. now apply lay_doc.
  - apply despace_tokens; [|exact He].
    pose proof (lay_doc (concat ts) ts [] [] L2 g_nil g_nil) as K. rewrite app_nil_r in K. exact K.
Qed.

Theorem despace_rfc g1 v g2 e : rvalue v -> gap g1 -> gap g2 -> no_err_yet e = true ->
  exists w, despace (g1 ++ v ++ g2) e = Ok ([], w, e) /\ rvalue w /\ despace w e = Ok ([], w, e).
Proof.
  intros Hv H1 H2 He. destruct (proj1 rfc_layout v Hv) as (ts & G & L1 & L2).
  exists (concat ts). split; [|split; [exact G|]].
  - apply despace_tokens; [|exact He]. now apply lay_doc.
  - apply despace_tokens; [|exact He].
    pose proof (lay_doc (concat ts) ts [] [] L2 g_nil g_nil) as K. rewrite app_nil_r in K. exact K.
Qed.

(** totality on every input *)
Lemma tok_step_good c t : exists r o, (forall e, tok_step (c :: t) t e = Ok (r, app_err e o)) /\
  outcome (c :: t) r o /\ (o = None -> suffix r t).
Proof.
  assert (K : forall f : eptr -> res (buf * eptr),
     (exists r o, (forall e, f e = Ok (r, app_err e o)) /\ outcome (c :: t) r o /\ strict (c :: t) r o) ->
     exists r o, (forall e, f e = Ok (r, app_err e o)) /\ outcome (c :: t) r o /\ (o = None -> suffix r t)).
  { intros f (r & o & A & B & C). exists r, o. split; [exact A|]. split; [exact B|]. intros Ho.
    destruct (C Ho) as (c' & t' & E & Hs). injection E as <- <-. exact Hs. }
  assert (Hl : (length (c :: t) < S (S (length t)))%nat) by (cbn; lia).
  pose proof (parse_value_law (Some 0) _ _ Hl) as H.
  destruct H as [H|[H _]]; [|discriminate].
  unfold rgoodS in H. cbn [parse_value_f] in H. unfold tok_step.
  destruct (is_string (c :: t)) eqn:E4.
  - assert (is_null (c :: t) = false /\ is_bool (c :: t) = false /\ is_number (c :: t) = false) as (N1 & N2 & N3).
    { unfold is_null, is_bool, is_number, is_string, starts, is_digit in *. lia. }
    rewrite N1, N2, N3 in H. exact (K _ H).
  - destruct (is_number (c :: t)) eqn:E3.
    + assert (is_null (c :: t) = false /\ is_bool (c :: t) = false) as (N1 & N2).
      { unfold is_null, is_bool, is_number, starts, is_digit in *. lia. }
      rewrite N1, N2 in H. exact (K _ H).
    + destruct (is_bool (c :: t)) eqn:E2.
      * assert (is_null (c :: t) = false) as N1 by (unfold is_null, is_bool, starts in *; lia).
        rewrite N1 in H. exact (K _ H).
      * destruct (is_null (c :: t)) eqn:E1; [exact (K _ H)|].
        exists t, None. split; [reflexivity|]. split; [apply outcome_ok; auto with suf|]. intros _. apply suffix_refl.
Qed.

Lemma despace_f_total n : forall s out e, (length s < n)%nat ->
  exists out' e', despace_f n s out e = Ok ([], out', e').
Proof.
  induction n as [|n IH]; intros s out e Hn; [lia|].
  destruct s as [|c t]; [cbn; eauto|]. cbn [length] in Hn.
  destruct (space_good (c :: t)) as (s1 & o1 & A1 & B1).
  rewrite (despace_step n c t out e _ _ (A1 e)).
  destruct s1 as [|c1 t1]; [eauto|].
  destruct (tok_step_good c1 t1) as (s2 & o2 & A2 & B2 & C2). rewrite A2. cbn [bind].
  apply IH. pose proof (suffix_len _ _ (proj1 B1)) as L1. cbn [length] in L1.
  destruct o2 as [j|].
  - destruct B2 as (_ & _ & B2). rewrite B2 by congruence. cbn. lia.
  - specialize (C2 eq_refl). apply suffix_len in C2. lia.
Qed.

Theorem despace_total s e : exists out e', despace s e = Ok ([], out, e').
Proof. unfold despace. apply despace_f_total. lia. Qed.
