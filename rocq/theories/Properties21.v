(** C62: an expression alone and as a statement. *)
From Verif Require Export Lexer Spec Runs Safe Where Alone Properties1 Properties2 Properties3.
Local Open Scope string_scope.
Local Open Scope list_scope.

(** *** C62
    The tokens that can start no statement but an expression (or, for a name, a label).  What
    follows counts after [import], [let] and [async]: an import call, no declaration, no function. *)
Definition other_statement : list keyword :=
  [KExport; KConst; KFunction; KClass; KBreak; KContinue; KDebugger; KDo; KFor; KIf; KReturn;
   KSwitch; KThrow; KTry; KVar; KWhile; KWith].
Definition declared_after_let : list token :=
  [TIdent; TPunct POpenBracket; TPunct POpenBrace; TKeyword KLet; TKeyword KYield].
(** The first token that is no comment among those not yet taken. *)
Definition second_token (s : state) (t : token) : Prop :=
  exists l1 r l2, st_rest s = l1 ++ r :: l2 /\ Forall (fun x => is_comment (it_tok (r_item x)) = true) l1
    /\ is_comment t = false /\ it_tok (r_item r) = t.
Definition starts_expression (g : cfg) (s : state) : Prop :=
  let i := st_look s in
  match it_tok i with
  | TBoolean _ | TNull | TNumeric | TString | TRegEx | TTemplate _ => True
  | TPunct p => p <> POpenBrace /\ p <> PSemiColon
  | TKeyword KImport => second_token s (TPunct POpenParen)
  | TKeyword KLet => forall t, second_token s t -> ~ In t declared_after_let
  | TKeyword k => ~ In k other_statement
  | TIdent => exists w, slice (g_stream g) (it_start i) (it_end i) = Some w
      /\ (w = str "async" -> forall r l, st_rest s = r :: l -> it_tok (r_item r) <> TKeyword KFunction)
  | TEoF | TComment _ => False
  end.
(** A string where a directive may stand is another matter. *)
Definition may_be_directive (s : state) : Prop :=
  c_past_prolog (st_ctx s) = false /\ is_string (it_tok (st_look s)) = true.

(** The end of a statement, ECMA-262 11.9.1 as far as lib.rs:4378-4387 has it: a semicolon, which
    is passed, or nothing before a line break, the end of the text and a closing brace. *)
Definition ends_freely (s : state) : Prop :=
  st_nl s = true \/ it_tok (st_look s) = TEoF \/ it_tok (st_look s) = TPunct PCloseBrace.
Inductive statement_end (g : cfg) (s : state) : outcome unit -> state -> Prop :=
| end_semicolon i s' : it_tok (st_look s) = TPunct PSemiColon -> next_item g s = (Ok i, s') -> statement_end g s (Ok tt) s'
| end_unscanned e s' : it_tok (st_look s) = TPunct PSemiColon -> next_item g s = (Err e, s') -> statement_end g s (Err e) s'
| end_broken s' : it_tok (st_look s) = TPunct PSemiColon -> next_item g s = (Panic, s') -> statement_end g s Panic s'
| end_free : it_tok (st_look s) <> TPunct PSemiColon -> ends_freely s -> statement_end g s (Ok tt) s
| end_missing p : it_tok (st_look s) <> TPunct PSemiColon -> ~ ends_freely s ->
    item_position (g_lines g) (it_start (st_look s)) = Some p ->
    statement_end g s (Err (UnexpectedToken p (MExpected ["`;`"; "`eof`"; "`}`"] (it_tok (st_look s))))) s.
Definition is_label (e : Expr) (s : state) : Prop :=
  (exists id, e = EIdent id) /\ it_tok (st_look s) = TPunct PColon.
Definition with_value {A B} (b : B) (o : outcome A) : outcome B :=
  match o with Ok _ => Ok b | Err e => Err e | Panic => Panic | NoFuel => NoFuel end.
(** What is read as a statement in [s], given how the expression there ends. *)
Inductive as_statement (g : cfg) (o1 : outcome Expr) (s1 : state) : outcome ProgramPart -> state -> Prop :=
| as_refused x : o1 = Err x -> as_statement g o1 s1 (Err x) s1
| as_panic : o1 = Panic -> as_statement g o1 s1 Panic s1
| as_ended e o2 s2 : o1 = Ok e -> ~ is_label e s1 -> statement_end g s1 o2 s2 ->
    as_statement g o1 s1 (with_value (PPStmt (SExpr e)) o2) s2.

(** The same but for six flags of the context: the mark of an initialised shorthand property, the
    two for loops and switches, the two of the cover grammar, and whether the directives are past. *)
Definition same_but_6 (s1 s2 : state) : Prop := exists first iteration switch target binding past,
  s2 = upd_ctx (fun c => mkCtx (c_allow_in c) (c_allow_strict_directive c) (c_allow_yield c) (c_await c) first target binding
         (c_in_function_body c) iteration switch (c_label_set c) (c_strict c) past) s1.
Lemma but_6 s1 s2 : same_but_6 s1 s2 <-> shifted but_all s1 s2.
Proof.
  split.
  - intros (first & i & w & a & b & p & ->). split; [|reflexivity]. destruct s1 as [[] ? ? ? ? ? ? ?]. reflexivity.
  - intros [H E]. exists (c_first_covert (st_ctx s2)), (c_in_iteration (st_ctx s2)), (c_in_switch (st_ctx s2)), (c_assign_target (st_ctx s2)),
      (c_binding_element (st_ctx s2)), (c_past_prolog (st_ctx s2)).
    rewrite E at 1. unfold upd_ctx. f_equal.
    destruct (st_ctx s1), (st_ctx s2). unfold but_all in H. cbn in *. injection H; clear H; intros; subst. reflexivity.
Qed.
Lemma is_punct_tok p t : is_punct p t = true <-> t = TPunct p.
Proof. destruct t; cbn; split; intros H; try discriminate H; [apply punct_eqb_eq in H; subst; reflexivity|inversion H; apply punct_eqb_eq; reflexivity]. Qed.
Lemma semi_end sc tolerant module js s o s' : let g := make_cfg sc tolerant module js in
  semi g s = (o, s') -> o <> NoFuel -> statement_end g s o s'.
Proof.
  intros g H N. unfold semi in H. destruct (is_punct PSemiColon _) eqn:P.
  - apply is_punct_tok in P. destruct (next_item g s) as [[i|e| |] t] eqn:X; inversion H; subst; try contradiction; econstructor; eassumption.
  - assert (P' : it_tok (st_look s) <> TPunct PSemiColon) by (intros E; rewrite E in P; discriminate P). unfold ends_freely in *.
    destruct (st_nl s) eqn:T; [inversion H; subst; apply end_free; [exact P'|left; exact T]|].
    destruct (is_eof (it_tok (st_look s)) || _) eqn:F; inversion H; subst.
    + apply end_free; [exact P'|right]. apply orb_prop in F as [F|F]; [left; destruct (it_tok (st_look s')); discriminate F || reflexivity|right; apply is_punct_tok; exact F].
    + apply orb_false_elim in F as [F1 F2]. cbn [mk_error]. apply end_missing; [exact P'| |apply item_pos_position].
      intros [E|[E|E]]; [congruence|rewrite E in F1; discriminate F1|rewrite E in F2; discriminate F2].
Qed.
Lemma end_semi sc tolerant module js s o s' : let g := make_cfg sc tolerant module js in
  statement_end g s o s' -> semi g s = (o, s') /\ o <> NoFuel.
Proof.
  intros g H. unfold semi. inversion H as [i t L X|e t L X|t L X|L F|p L F X]; subst; (split; [|discriminate]).
  1-3: rewrite L; change (is_punct PSemiColon (TPunct PSemiColon)) with true; cbn iota; rewrite X; reflexivity.
  all: assert (P : is_punct PSemiColon (it_tok (st_look s')) = false)
    by (destruct (is_punct PSemiColon (it_tok (st_look s'))) eqn:P; [apply is_punct_tok in P; contradiction|reflexivity]); rewrite P.
  - destruct F as [-> |[-> | ->]]; [reflexivity| |]; destruct (st_nl s'); reflexivity.
  - destruct (st_nl s') eqn:T; [exfalso; apply F; left; exact T|].
    destruct (is_eof (it_tok (st_look s'))) eqn:F1; [exfalso; apply F; right; left; destruct (it_tok (st_look s')); discriminate F1 || reflexivity|].
    destruct (is_punct PCloseBrace (it_tok (st_look s'))) eqn:F2; [exfalso; apply F; right; right; apply is_punct_tok; exact F2|].
    cbn [orb mk_error]. unfold g in X. rewrite (item_pos_position sc tolerant module js) in X. injection X as <-. reflexivity.
Qed.
Lemma second_first s t : second_token s t <-> exists i, first_non_comment (st_rest s) = Some i /\ it_tok i = t.
Proof.
  unfold second_token. induction (st_rest s) as [|r l IH]; cbn [first_non_comment].
  - split; [intros ([|? ?] & ? & ? & E & _); discriminate E|intros (? & E & _); discriminate E].
  - destruct (is_comment (it_tok (r_item r))) eqn:C.
    + rewrite <- IH. split.
      * intros ([|x l1] & r' & l2 & E & F & Ct & T); inversion E; subst; [congruence|]. exists l1, r', l2. inversion F; auto.
      * intros (l1 & r' & l2 & -> & F & Ct & T). exists (r :: l1), r', l2. split; [reflexivity|]. split; [constructor; assumption|auto].
    + split.
      * intros ([|x l1] & r' & l2 & E & F & Ct & T); inversion E; subst; [exists (r_item r'); auto|]. inversion F; congruence.
      * intros (i & E & <-). inversion E; subst. exists [], r, l. split; [reflexivity|]. split; [constructor|auto].
Qed.
Lemma starts_headb g s : starts_expression g s -> headb g s = true.
Proof.
  unfold starts_expression, headb. cbn zeta. destruct (it_tok (st_look s)) as [| | | | | |b|k|p|t|c]; intros H; try contradiction; try reflexivity.
  - destruct H as (w & -> & H). destruct (text_eqb w (str "async")) eqn:E; [|reflexivity]. apply text_eqb_eq in E. specialize (H E).
    unfold peek_raw. destruct (st_rest s) as [|r l]; [reflexivity|]. specialize (H r l eq_refl). cbn [andb].
    destruct (it_tok (r_item r)) as [| | | | | | |k| | |]; try reflexivity. destruct k; try reflexivity. contradiction.
  - destruct k; try reflexivity; try (exfalso; apply H; cbn; tauto).
    + apply second_first in H as (i & -> & ->). reflexivity.
    + pose proof (fun t => second_first s t) as F. destruct (first_non_comment (st_rest s)) as [i|]; [|reflexivity].
      specialize (H (it_tok i) (proj2 (F _) (ex_intro _ i (conj eq_refl eq_refl)))). apply negb_true_iff.
      cbn [declared_after_let In] in H. destruct (it_tok i) as [| | | | | | |k|p| |]; try reflexivity.
      * exfalso. tauto.
      * destruct k; try reflexivity; exfalso; tauto.
      * destruct p; try reflexivity; exfalso; tauto.
  - destruct H as [H1 H2]. destruct p; try reflexivity; congruence.
Qed.
Lemma starts_not_eof g s : starts_expression g s -> is_eof (it_tok (st_look s)) = false.
Proof. unfold starts_expression. cbn zeta. destruct (it_tok (st_look s)); intros H; try contradiction; reflexivity. Qed.
Lemma not_directive s : ~ may_be_directive s -> c_past_prolog (st_ctx s) = true \/ is_string (it_tok (st_look s)) = false.
Proof. unfold may_be_directive. destruct (c_past_prolog _), (is_string _); intros H; auto; exfalso; apply H; auto. Qed.
Lemma to_statement s : same_but_6 s (at_statement s).
Proof. apply but_6. split; [|reflexivity]. cbn. destruct (st_ctx s). reflexivity. Qed.
Lemma same_but_6_look s1 s2 : same_but_6 s1 s2 -> st_look s2 = st_look s1.
Proof. intros (? & ? & ? & ? & ? & ? & ->). reflexivity. Qed.

(** Where an expression is due as a statement, the statement is what [parse_expression] reads there
    and an end of statement: the same tree, or the same error. *)
Theorem C62_statement : forall sc tolerant module js s o1 s1 o s2, let g := make_cfg sc tolerant module js in
  starts_expression g s -> ~ may_be_directive s ->
  returns (fun n => parse_expression g n s) o1 s1 -> as_statement g o1 s1 o s2 ->
  exists s', next_returns g s (Some o) s' /\ same_but_6 s2 s'.
Proof.
  intros sc tolerant module js s o1 s1 o s2 g H D [N [n R]] A. unfold parse_expression in R.
  assert (R1 : run_call (@body) g (S n) CExpression s = (o1, s1)) by (eapply run_call_mono; [|exact R|exact N]; auto).
  pose proof (expression_all g (S n) s (at_statement s) (proj1 (but_6 _ _) (to_statement s))) as [V Q]. rewrite R1 in V, Q.
  destruct (run_call (@body) g (S n) CExpression (at_statement s)) as [o1' s1'] eqn:R2. cbn [fst snd] in V, Q. apply outcomes_eq in V. subst o1'.
  assert (L : st_look s1' = st_look s1) by (apply same_but_6_look; apply but_6; exact Q).
  assert (P : run_call (@body) g (S (S (S (S (S n))))) CNextPart s = finish g (fun e => PPStmt (SExpr e)) (o1, s1')).
  { apply part_run; [apply starts_headb; exact H|apply not_directive; exact D|exact R2|].
    intros id E. rewrite L. inversion A as [x Ex|Ex|e o2 t Ex Lb X]; subst; try discriminate. inversion Ex; subst.
    destruct (is_punct PColon _) eqn:C; [|reflexivity]. apply is_punct_tok in C. exfalso. apply Lb. split; [eauto|exact C]. }
  assert (K : exists s', finish g (fun e => PPStmt (SExpr e)) (o1, s1') = (o, s') /\ same_but_6 s2 s' /\ o <> NoFuel).
  { inversion A as [x Ex|Ex|e o2 t Ex Lb X]; subst; cbn [finish].
    - exists s1'. split; [reflexivity|]. split; [apply but_6; exact Q|discriminate].
    - exists s1'. split; [reflexivity|]. split; [apply but_6; exact Q|discriminate].
    - apply end_semi in X as [X Nf]. pose proof (semi_agrees g but_all s1 s1' Q) as [V2 Q2]. unfold g in V2, Q2. rewrite X in V2, Q2. fold g in V2, Q2.
      destruct (semi g s1') as [o2' t2]. cbn [fst snd] in V2, Q2. apply outcomes_eq in V2. subst o2'. apply but_6 in Q2.
      destruct o2; try contradiction; exists t2; (split; [reflexivity|]); (split; [exact Q2|discriminate]). }
  destruct K as (s' & K & Ks & Kn). exists s'. split; [|exact Ks]. split; [congruence|]. exists (S (S (S (S (S n))))).
  unfold iter_next. rewrite (starts_not_eof g _ H). rewrite P, K. reflexivity.
Qed.
Print Assumptions C62_statement.

(** And conversely. *)
Theorem C62_from_statement : forall sc tolerant module js s o s', let g := make_cfg sc tolerant module js in
  starts_expression g s -> ~ may_be_directive s ->
  next_returns g s (Some o) s' ->
  exists o1 s1, returns (fun n => parse_expression g n s) o1 s1 /\
    ((exists e, o1 = Ok e /\ is_label e s1) \/ exists s2, as_statement g o1 s1 o s2 /\ same_but_6 s2 s').
Proof.
  intros sc tolerant module js s o s' g H D [N [n R]]. unfold iter_next in R. rewrite (starts_not_eof g _ H) in R.
  destruct (run_call (@body) g n CNextPart s) as [o' t'] eqn:R0. inversion R; subst o' t'. clear R.
  assert (R : run_call (@body) g (S (S (S (S (S n))))) CNextPart s = (o, s')) by (eapply run_call_mono; [|exact R0|congruence]; lia).
  pose proof (expression_all g (S n) s (at_statement s) (proj1 (but_6 _ _) (to_statement s))) as [V Q].
  destruct (run_call (@body) g (S n) CExpression s) as [o1 s1] eqn:R1.
  destruct (run_call (@body) g (S n) CExpression (at_statement s)) as [o1' s1'] eqn:R2. cbn [fst snd] in V, Q. apply outcomes_eq in V. subst o1'.
  assert (L : st_look s1' = st_look s1) by (apply same_but_6_look; apply but_6; exact Q).
  assert (Lb : (exists e, o1 = Ok e /\ is_label e s1) \/ forall id, o1 = Ok (EIdent id) -> is_punct PColon (it_tok (st_look s1')) = false).
  { rewrite L. destruct (is_punct PColon (it_tok (st_look s1))) eqn:C; [|right; auto]. apply is_punct_tok in C.
    destruct o1 as [[]| | |]; try (right; intros ? E; discriminate E). left. eexists. split; [reflexivity|]. split; eauto. }
  assert (Nf : o1 <> NoFuel -> returns (fun n => parse_expression g n s) o1 s1) by (intros X; split; [exact X|exists (S n); exact R1]).
  destruct Lb as [(e & -> & Lb)|Lb].
  { exists (Ok e), s1. split; [apply Nf; discriminate|]. left. eauto. }
  rewrite (part_run g n s o1 s1' (starts_headb _ _ H) (not_directive _ D) R2 Lb) in R.
  exists o1, s1. destruct o1 as [e|x| |]; cbn [finish] in R; inversion R; subst; try contradiction.
  - split; [apply Nf; discriminate|]. right. pose proof (semi_agrees g but_all s1 s1' Q) as [V2 Q2].
    destruct (semi g s1) as [o2 t1] eqn:X1, (semi g s1') as [o2' t2] eqn:X2. cbn [fst snd] in V2, Q2. apply outcomes_eq in V2. subst o2'.
    assert (No : o2 <> NoFuel) by (intros ->; inversion R; subst; contradiction).
    assert (K : o = with_value (PPStmt (SExpr e)) o2 /\ s' = t2) by (destruct o2; inversion R; subst; split; reflexivity).
    destruct K as [-> ->]. exists t1. split; [|apply but_6; exact Q2].
    eapply as_ended; [reflexivity| |eapply semi_end; eassumption].
    intros [[id ->] C]. rewrite L, C in Lb. discriminate (Lb id eq_refl).
  - split; [apply Nf; discriminate|]. right. exists s1. split; [constructor; reflexivity|apply but_6; exact Q].
  - split; [apply Nf; discriminate|]. right. exists s1. split; [constructor; reflexivity|apply but_6; exact Q].
Qed.
Print Assumptions C62_from_statement.

Lemma same_past b t : same_but_6 t (upd_ctx (set_past_prolog b) t).
Proof. apply but_6. split; [cbn; destruct (st_ctx t); reflexivity|reflexivity]. Qed.
Lemma same_same t : same_but_6 t t.
Proof. apply but_6. split; [destruct (st_ctx t); reflexivity|destruct t; reflexivity]. Qed.
(** A string where a directive may stand: a string literal alone is a directive, and anything else
    that starts with it the statement as above. *)
Theorem C62_directive : forall sc tolerant module js s w s1 o2 s2, let g := make_cfg sc tolerant module js in
  may_be_directive s -> returns (fun n => parse_expression g n s) (Ok (ELiteral (LString w))) s1 ->
  c_allow_strict_directive (st_ctx s1) = true \/ w <> str "use strict" -> statement_end g s1 o2 s2 ->
  exists d s', next_returns g s (Some (with_value (PPDir d (LString w)) o2)) s' /\ same_but_6 s2 s'.
Proof.
  intros sc tolerant module js s w s1 o2 s2 g [D1 D2] [N [n R]] A X. unfold parse_expression in R.
  assert (R1 : run_call (@body) g (S n) CExpression s = (Ok (ELiteral (LString w)), s1)) by (eapply run_call_mono; [|exact R|exact N]; auto).
  pose proof (first_run g n s _ s1 D1 D2 R1) as P. apply end_semi in X as [X Nf]. fold g in X.
  exists (trim_quotes w). cbn [finish_directive] in P.
  replace (negb _ && text_eqb w _) with false in P.
  2:{ symmetry. destruct A as [-> |A]; [reflexivity|]. destruct (text_eqb w _) eqn:T; [apply text_eqb_eq in T; contradiction|]. apply andb_false_r. }
  cbn [finish] in P. rewrite X in P.
  assert (K : exists s', run_call (@body) g (S (S (S n))) CNextPart s = (with_value (PPDir (trim_quotes w) (LString w)) o2, s') /\ same_but_6 s2 s').
  { destruct o2; try contradiction; (eexists; split; [apply P; intros w' E; inversion E; subst; exact A|]);
      (apply same_past || apply same_same). }
  destruct K as (s' & K & Q). exists s'. split; [|exact Q]. split; [destruct o2; try contradiction; discriminate|]. exists (S (S (S n))).
  unfold iter_next. assert (F : is_eof (it_tok (st_look s)) = false) by (destruct (it_tok (st_look s)); discriminate D2 || reflexivity).
  rewrite F, K. reflexivity.
Qed.
Print Assumptions C62_directive.
Theorem C62_not_directive : forall sc tolerant module js s o1 s1 o s2, let g := make_cfg sc tolerant module js in
  may_be_directive s -> returns (fun n => parse_expression g n s) o1 s1 -> (forall l, o1 <> Ok (ELiteral l)) ->
  as_statement g o1 s1 o s2 -> exists s', next_returns g s (Some o) s' /\ same_but_6 s2 s'.
Proof.
  intros sc tolerant module js s o1 s1 o s2 g [D1 D2] [N [n R]] A X. unfold parse_expression in R.
  assert (R1 : run_call (@body) g (S n) CExpression s = (o1, s1)) by (eapply run_call_mono; [|exact R|exact N]; auto).
  assert (P : run_call (@body) g (S (S (S n))) CNextPart s = after_directive (finish g (fun e => PPStmt (SExpr e)) (o1, s1))).
  { rewrite (first_run g n s _ s1 D1 D2 R1); [|intros w E; destruct (A _ E)]. f_equal. destruct o1 as [[]| | |]; try reflexivity. destruct (A _ eq_refl). }
  assert (K : exists s', run_call (@body) g (S (S (S n))) CNextPart s = (o, s') /\ same_but_6 s2 s' /\ o <> NoFuel).
  { rewrite P. inversion X as [x Ex|Ex|e o2 t Ex Lb Y]; subst; cbn [finish].
    - exists s2. split; [reflexivity|]. split; [apply same_same|discriminate].
    - exists s2. split; [reflexivity|]. split; [apply same_same|discriminate].
    - apply end_semi in Y as [Y Nf]. fold g in Y. rewrite Y. destruct o2; try contradiction; (eexists; split; [reflexivity|]); (split; [|discriminate]); (apply same_past || apply same_same). }
  destruct K as (s' & K & Q & Nf). exists s'. split; [|exact Q]. split; [congruence|]. exists (S (S (S n))).
  unfold iter_next. assert (F : is_eof (it_tok (st_look s)) = false) by (destruct (it_tok (st_look s)); discriminate D2 || reflexivity).
  rewrite F, K. reflexivity.
Qed.
Print Assumptions C62_not_directive.

(** Whole texts: one that is an expression to its end is a program of that expression, and one
    refused as an expression is refused as a program, with the same error. *)
Theorem C62_text : forall sc tolerant module js s e s1, let g := make_cfg sc tolerant module js in
  starts_expression g s -> (may_be_directive s -> forall l, e <> ELiteral l) ->
  returns (fun n => parse_expression g n s) (Ok e) s1 -> it_tok (st_look s1) = TEoF ->
  exists s', returns (fun n => parse g n s) (Ok (if module then PMod [PPStmt (SExpr e)] else PScript [PPStmt (SExpr e)])) s'.
Proof.
  intros sc tolerant module js s e s1 g H D R E.
  assert (A : as_statement g (Ok e) s1 (Ok (PPStmt (SExpr e))) s1).
  { apply (as_ended g (Ok e) s1 e (Ok tt) s1); [reflexivity|intros [_ C]; congruence|].
    apply end_free; [congruence|right; left; exact E]. }
  assert (K : exists s', next_returns g s (Some (Ok (PPStmt (SExpr e)))) s' /\ same_but_6 s1 s').
  { destruct (c_past_prolog (st_ctx s)) eqn:D1; [|destruct (is_string (it_tok (st_look s))) eqn:D2].
    - eapply C62_statement; eauto. intros [X _]; congruence.
    - eapply C62_not_directive; eauto; [split; assumption|]. intros l X. inversion X. eapply D; [split; assumption|eassumption].
    - eapply C62_statement; eauto. intros [_ X]; congruence. }
  destruct K as (s' & N & Q).
  exists s'. apply C03_parse_is_iteration. exists [PPStmt (SExpr e)], s', None.
    split; [econstructor; [exact N|constructor]|]. split; [|left; split; reflexivity].
    split; [discriminate|]. exists 0. unfold iter_next. rewrite (same_but_6_look _ _ Q), E. reflexivity.
Qed.
Print Assumptions C62_text.
Theorem C62_text_error : forall sc tolerant module js s x s1, let g := make_cfg sc tolerant module js in
  starts_expression g s -> returns (fun n => parse_expression g n s) (Err x) s1 ->
  exists s', returns (fun n => parse g n s) (Err x) s'.
Proof.
  intros sc tolerant module js s x s1 g H R.
  assert (K : exists s', next_returns g s (Some (Err x)) s').
  { destruct (c_past_prolog (st_ctx s)) eqn:D1; [|destruct (is_string (it_tok (st_look s))) eqn:D2].
    - destruct (C62_statement sc tolerant module js s (Err x) s1 (Err x) s1 H) as (s' & N & _); eauto; [intros [D _]; congruence|constructor; reflexivity].
    - destruct (C62_not_directive sc tolerant module js s (Err x) s1 (Err x) s1) as (s' & N & _); eauto; [split; assumption|discriminate|constructor; reflexivity].
    - destruct (C62_statement sc tolerant module js s (Err x) s1 (Err x) s1 H) as (s' & N & _); eauto; [intros [_ D]; congruence|constructor; reflexivity]. }
  destruct K as (s' & K). exists s'. apply C03_parse_is_iteration. exists [], s, (Some (Err x)).
  split; [constructor|]. split; [exact K|]. right. left. eauto.
Qed.
Print Assumptions C62_text_error.

(** Concrete cases: expressions that are the whole text. *)
Example C62_case : forall js, In js ["a = b ? c : (d, e => e + 1), f[0](`x`)"; "'a' + b"; "[a, ...b]"; "!function () { return 1 }()";
    "/a/g.test(x)"; "this"; "async (a) => 1"; "let"; "import(a)"] ->
  starts_expression (ex_cfg js) (ex_start js) /\ exists e s1, returns (fun n => parse_expression (ex_cfg js) n (ex_start js)) (Ok e) s1
  /\ it_tok (st_look s1) = TEoF /\ forall l, e <> ELiteral l.
Proof.
  intros js H. cbn [In] in H. decompose [or] H; try contradiction; subst js; clear H; (split;
    [|do 2 eexists; split; [split; [discriminate|exists 100; vm_compute; reflexivity]|]; split; [reflexivity|discriminate]]).
  all: try (vm_compute; exact I).
  - eexists. split; [vm_compute; reflexivity|]. intros E. discriminate E.
  - split; discriminate.
  - split; discriminate.
  - cbv - [In other_statement]. cbn [In other_statement]. intuition discriminate.
  - eexists. split; [vm_compute; reflexivity|]. intros _ r l E. inversion E. discriminate.
  - intros t T. apply second_first in T as (i & E & <-). inversion E. cbn. intuition discriminate.
  - apply second_first. eexists. split; reflexivity.
Qed.
(** In the middle of a text, after a statement that was refused: [b] is ended by the line break, and
    the string after it is no directive. *)
Definition midway : string := "a 1
'b' + c
d".
Example C62_midway : let g := ex_cfg midway in exists s0 s s1 e,
  iter_next g 100 (ex_start midway) = (Some (Err (UnexpectedToken (mkPos 1 2) (MExpected ["`;`"; "`eof`"; "`}`"] TNumeric))), s0)
  /\ iter_next g 100 s0 = (Some (Ok (PPStmt (SExpr (ELiteral (LNumber (str "1")))))), s)
  /\ starts_expression g s /\ ~ may_be_directive s /\ returns (fun n => parse_expression g n s) (Ok e) s1
  /\ e = EBinary BPlus (ELiteral (LString (str "'b'"))) (EIdent (str "c"))
  /\ ~ is_label e s1 /\ it_tok (st_look s1) = TIdent /\ ends_freely s1.
Proof.
  do 4 eexists. split; [vm_compute; reflexivity|]. split; [vm_compute; reflexivity|]. split; [vm_compute; exact I|].
  split; [intros [D _]; discriminate D|]. split; [split; [discriminate|exists 100; vm_compute; reflexivity]|].
  split; [reflexivity|]. split; [intros [[id D] _]; discriminate D|]. split; [reflexivity|left; reflexivity].
Qed.
(** Refused as an expression, so refused as a program. *)
Example C62_refused : let js := "a + ;" in starts_expression (ex_cfg js) (ex_start js)
  /\ exists s1, returns (fun n => parse_expression (ex_cfg js) n (ex_start js)) (Err (UnexpectedToken (mkPos 1 4) (MExpected ["{"; "["; "("] (TPunct PSemiColon)))) s1.
Proof.
  split; [eexists; split; [vm_compute; reflexivity|intros E; discriminate E]|].
  eexists. split; [discriminate|]. exists 100. vm_compute. reflexivity.
Qed.
Example C62_directive_case : let js := "'a'; b" in may_be_directive (ex_start js)
  /\ exists s1, returns (fun n => parse_expression (ex_cfg js) n (ex_start js)) (Ok (ELiteral (LString (str "'a'")))) s1
  /\ it_tok (st_look s1) = TPunct PSemiColon.
Proof. split; [split; reflexivity|]. eexists. split; [split; [discriminate|exists 100; vm_compute; reflexivity]|]. reflexivity. Qed.

(** The conditions are needed: whole texts that are expressions to their end, but other programs or none. *)
Theorem C62_conditions_needed : forall js, In js ["{}"; "{a: 1, b}"; "function () {}"; "function f() {}"; "class {}"; "class A {}"; "'a'"] ->
  exists e s1, returns (fun n => parse_expression (ex_cfg js) n (ex_start js)) (Ok e) s1 /\ it_tok (st_look s1) = TEoF
  /\ forall s', ~ returns (fun n => parse (ex_cfg js) n (ex_start js)) (Ok (PScript [PPStmt (SExpr e)])) s'.
Proof.
  intros js H. cbn [In] in H.
  assert (K : forall o t s' p, parse (ex_cfg js) 100 (ex_start js) = (o, t) -> o <> NoFuel -> o <> p ->
    ~ returns (fun n => parse (ex_cfg js) n (ex_start js)) p s').
  { intros o t s' p E N D R.
    destruct (returns_fun _ (parse_is_mono (ex_cfg js) (ex_start js)) o t p s' (conj N (ex_intro _ 100 E)) R) as [X _]. contradiction. }
  decompose [or] H; try contradiction; subst js; clear H; do 2 eexists;
    (split; [split; [discriminate|exists 100; vm_compute; reflexivity]|]); (split; [reflexivity|]);
    intros s'; (eapply K; [vm_compute; reflexivity|discriminate|discriminate]).
Qed.
Print Assumptions C62_conditions_needed.
