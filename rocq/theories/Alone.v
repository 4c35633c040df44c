(** An expression read by [parse_expression] and the same read as a statement.

    The two start with different flags in the context: whether the directives are past
    (lib.rs:4533-4549) and the flags of the cover grammar (lib.rs:552-553).  None of them matters
    to an expression. *)
From Verif Require Lines.
From Verif Require Export Inert.
Local Open Scope list_scope.

(** All but the flags nothing depends on, and whether the directives are past. *)
Definition but_past (c1 c2 : ctx) : Prop :=
  c1 = set_first_covert (c_first_covert c1) (set_in_iteration (c_in_iteration c1) (set_in_switch (c_in_switch c1)
         (set_past_prolog (c_past_prolog c1) c2))).
(** All but these and the other two flags of the cover grammar. *)
Definition but_all (c1 c2 : ctx) : Prop :=
  c1 = set_first_covert (c_first_covert c1) (set_in_iteration (c_in_iteration c1) (set_in_switch (c_in_switch c1)
         (set_past_prolog (c_past_prolog c1)
           (set_assign_target (c_assign_target c1) (set_binding_element (c_binding_element c1) c2))))).
(** Only the function that reads the next part asks whether the directives are past. *)
Definition inner {B} (c : call B) : bool := match c with CNextPart => false | _ => true end.

Section Past.
  Variable g : cfg.
  Section Bodies.
    Variable n : nat.
    Variable rec : forall B, call B -> state -> outcome B * state.
    Hypothesis rec_agrees : forall B (c : call B) s1 s2, inner c = true -> shifted but_past s1 s2 -> agrees but_past eq (rec B c s1) (rec B c s2).
    Notation rl := (rel g but_past n rec).
    Lemma rel_inner B (c : call B) : inner c = true -> rl eq (Call c) (Call c).
    Proof. intros H s1 s2 Hs. apply rec_agrees; assumption. Qed.

    Ltac vrel A := lazymatch eval hnf in A with
      | ctx => constr:(but_past)
      | (bool * bool * option item)%type => constr:(cvsame)
      | _ => constr:(@eq A)
      end.
    Ltac vclean := lazymatch goal with
      | |- forall a1 a2, but_past a1 a2 -> _ =>
          let E := fresh "E" in
          intros [] [] E; unfold but_past in E; cbn in E; injection E; clear E; intros; subst;
          cbn [c_allow_in c_allow_strict_directive c_allow_yield c_await c_first_covert c_assign_target
               c_binding_element c_in_function_body c_in_iteration c_in_switch c_label_set c_strict c_past_prolog]
      | |- forall a1 a2, cvsame a1 a2 -> _ =>
          let E := fresh "E" in
          intros [[? ?] ?] [[? ?] ?] E; unfold cvsame in E; cbn in E; injection E; clear E; intros; subst
      | |- forall a1 a2, a1 = a2 -> _ => intros ? ? <-
      | |- forall a1 a2, True -> _ => intros ? ? _
      end.
    Ltac vsolve := cbn [steps]; lazymatch goal with
      | |- ?x = ?x => reflexivity
      | |- cvsame _ _ => reflexivity
      | |- _ => cbn; auto
      end.
    Ltac csolve :=
      let E := fresh "E" in
      intros [] [] E; unfold but_past in E; cbn in E; injection E; clear E; intros; subst; reflexivity.
    Ltac hd p := lazymatch p with ?f _ => hd f | _ => p end.
    Ltac rstep := cbn zeta; lazymatch goal with
      | |- rel _ _ _ _ _ (Ret _) (Ret _) => apply rel_ret; vsolve
      | |- rel _ _ _ _ _ (Fail _) (Fail _) => apply rel_fail
      | |- rel _ _ _ _ _ Crash Crash => apply rel_crash
      | |- rel _ _ _ _ _ (Call _) (Call _) => apply rel_inner; reflexivity
      | |- rel _ _ _ _ ?W (@Bind _ ?A ?B (get c_in_iteration) _) (Bind _ _) =>
          apply (rel_bind g but_past n rec A B (fun _ _ => True) W); [|intros ? ? _]
      | |- rel _ _ _ _ ?W (@Bind _ ?A ?B (get c_in_switch) _) (Bind _ _) =>
          apply (rel_bind g but_past n rec A B (fun _ _ => True) W); [|intros ? ? _]
      | |- rel _ _ _ _ ?W (@Bind _ ?A ?B _ _) (Bind _ _) => let V := vrel A in apply (rel_bind g but_past n rec A B V W); [|vclean]
      | |- rel _ _ _ _ _ (@Loop _ ?A ?X _ _) (Loop _ _) => apply (rel_loop g but_past n rec X A eq); [reflexivity|vclean]
      | |- rel _ _ _ _ _ (Do OCtx) _ => apply rel_ctx
      | |- rel _ _ _ _ _ (Do (OUpd _)) _ => apply rel_upd; csolve
      | |- rel _ _ _ _ _ (Do _) _ => apply rel_do; exact I
      | |- rel _ _ _ _ _ (match ?x with _ => _ end) (match ?x with _ => _ end) => destruct x
      | |- rel _ _ _ _ _ ?p ?q => let h := hd p in unfold h
      end.
    Lemma bodies_past B (c : call B) : inner c = true -> rl eq (body c) (body c).
    Proof. destruct c; intros Hc; try discriminate Hc; cbn [body]; repeat rstep. Qed.
  End Bodies.
  Lemma call_past n : forall B (c : call B) s1 s2, inner c = true -> shifted but_past s1 s2 ->
    agrees but_past eq (run_call (@body) g n c s1) (run_call (@body) g n c s2).
  Proof.
    induction n as [|n IH]; intros B c s1 s2 Hc H; cbn [run_call]; [split; [exact I|exact H]|]. apply bodies_past; assumption.
  Qed.

  (** ** Expressions *)
  Lemma past_all s1 s2 : shifted but_past s1 s2 -> shifted but_all s1 s2.
  Proof.
    intros [H E]. split; [|exact E]. destruct (st_ctx s1), (st_ctx s2). unfold but_past in H. cbn in H. injection H; clear H; intros; subst. reflexivity.
  Qed.
  Ltac alls :=
    let E := fresh "E" in
    intros [] [] E; unfold but_all in E; cbn in E; injection E; clear E; intros; subst; reflexivity.
  Lemma isolated_all n rec B (c : call B) : (forall s1 s2, shifted but_past s1 s2 -> agrees but_past eq (rec B c s1) (rec B c s2)) ->
    rel g but_all n rec eq (isolated (Call c)) (isolated (Call c)).
  Proof.
    intros H s1 s2 [Hs Es]. unfold isolated, isolate_cover, get_cover, set_isolate_cover, upd. cbn [run_in exec]. unfold agrees in *.
    set (f := fun c => set_first_covert None (set_assign_target true (set_binding_element true c))).
    specialize (H (upd_ctx f s1) (upd_ctx f s2)).
    destruct H as [H1 H2]; [split; [cbn; revert Hs; generalize (st_ctx s1) (st_ctx s2); alls|rewrite Es; reflexivity]|].
    destruct (rec B c (upd_ctx f s1)) as [[?|?| |] t1], (rec B c (upd_ctx f s2)) as [[?|?| |] t2]; cbn in *; try tauto.
    all: split; try tauto; try (apply past_all; exact H2).
    apply past_all in H2. destruct H2 as [H2 E]. split; [|rewrite E; reflexivity]. cbn.
    destruct (st_ctx t1), (st_ctx t2). unfold but_all in H2. cbn in H2. injection H2; clear H2; intros; subst. reflexivity.
  Qed.
  Ltac hd p := lazymatch p with ?f _ => hd f | _ => p end.
  Lemma expression_all n : forall s1 s2, shifted but_all s1 s2 ->
    agrees but_all eq (run_call (@body) g n CExpression s1) (run_call (@body) g n CExpression s2).
  Proof.
    destruct n as [|n]; [intros s1 s2 H; split; [exact I|exact H]|]. intros s1 s2 H. cbn [run_call body].
    revert s1 s2 H. change (rel g but_all n (@run_call call (@body) g n) eq expression expression).
    repeat (cbn zeta; lazymatch goal with
      | |- rel _ _ _ _ _ (Ret _) (Ret _) => apply rel_ret; reflexivity
      | |- rel _ _ _ _ _ (isolated (Call _)) _ => apply isolated_all; intros; apply call_past; [reflexivity|assumption]
      | |- rel _ _ _ _ ?W (@Bind _ ?A ?B _ _) (Bind _ _) => apply (rel_bind g but_all n _ A B eq W); [|intros ? ? <-]
      | |- rel _ _ _ _ _ (@Loop _ ?A ?X _ _) (Loop _ _) => apply (rel_loop g but_all n _ X A eq); [reflexivity|intros ? ? <-]
      | |- rel _ _ _ _ _ (Do _) _ => apply rel_do; exact I
      | |- rel _ _ _ _ _ (match ?x with _ => _ end) (match ?x with _ => _ end) => destruct x
      | |- rel _ _ _ _ _ ?p ?q => let h := hd p in unfold h
      end).
  Qed.
End Past.

Section Statement.
  Variable g : cfg.
  (** lib.rs:4378-4387 run. *)
  Definition semi (s : state) : outcome unit * state :=
    if is_punct PSemiColon (it_tok (st_look s)) then
      match next_item g s with (Ok _, s') => (Ok tt, s') | (Err e, s') => (Err e, s') | (Panic, s') => (Panic, s') | (NoFuel, s') => (NoFuel, s') end
    else if st_nl s then (Ok tt, s)
    else if is_eof (it_tok (st_look s)) || is_punct PCloseBrace (it_tok (st_look s)) then (Ok tt, s)
    else (Err (mk_error g s (FExpected (st_look s) ["`;`"; "`eof`"; "`}`"]%string)), s).
  Lemma semi_run n s : run_call (@body) g (S n) CConsumeSemicolon s = semi s.
  Proof.
    cbn [run_call body]. unfold consume_semicolon, at_punct, look_tok, look, next, fail_look, semi, look. cbn [run_in exec].
    destruct (is_punct PSemiColon _); cbn [run_in exec].
    - destruct (next_item g s) as [[]]; reflexivity.
    - destruct (st_nl s); [reflexivity|]. cbn [run_in exec]. destruct (_ || _); reflexivity.
  Qed.
  Lemma semi_agrees C s1 s2 : shifted C s1 s2 -> agrees C eq (semi s1) (semi s2).
  Proof.
    intros H. unfold semi. pose proof (next_agrees g C s1 s2 H) as N. pose proof (mk_error_shifted g C s1 s2) as M.
    assert (L : st_look s2 = st_look s1) by (destruct H as [_ ->]; reflexivity).
    assert (T : st_nl s2 = st_nl s1) by (destruct H as [_ ->]; reflexivity). rewrite L, T.
    destruct (is_punct PSemiColon _).
    - unfold agrees in *. destruct (next_item g s1) as [[] ?], (next_item g s2) as [[] ?]; cbn in *; tauto.
    - destruct (st_nl s1); [split; [reflexivity|exact H]|]. destruct (_ || _); [split; [reflexivity|exact H]|].
      split; [cbn [fst outcomes]; apply M; exact H|exact H].
  Qed.
  (** The expression read, then the end of the statement. *)
  Definition finish {A} (f : Expr -> A) (x : outcome Expr * state) : outcome A * state :=
    match x with
    | (Ok e, s1) => match semi s1 with (Ok _, s2) => (Ok (f e), s2) | (Err x, s2) => (Err x, s2) | (Panic, s2) => (Panic, s2) | (NoFuel, s2) => (NoFuel, s2) end
    | (Err x, s1) => (Err x, s1) | (Panic, s1) => (Panic, s1) | (NoFuel, s1) => (NoFuel, s1)
    end.
  Lemma expr_stmt_run n s : run_call (@body) g (S (S n)) CExpressionStatement s = finish (fun e => e) (run_call (@body) g (S n) CExpression s).
  Proof.
    transitivity (run_in g (S n) (@run_call call (@body) g (S n)) expression_statement s); [reflexivity|].
    unfold expression_statement. cbn [run_in]. destruct (run_call _ g (S n) CExpression s) as [[] s1]; try reflexivity. cbn [finish].
    rewrite semi_run. destruct (semi s1) as [[]]; reflexivity.
  Qed.
  Lemma labelled_run n s o1 s1 : run_call (@body) g (S n) CExpression s = (o1, s1) ->
    (forall id, o1 = Ok (EIdent id) -> is_punct PColon (it_tok (st_look s1)) = false) ->
    run_call (@body) g (S (S n)) CLabelledStatement s = finish SExpr (o1, s1).
  Proof.
    intros E H. transitivity (run_in g (S n) (@run_call call (@body) g (S n)) labelled_statement s); [reflexivity|].
    unfold labelled_statement. cbn [run_in]. rewrite E. destruct o1 as [e| | |]; try reflexivity.
    unfold at_punct, look_tok, look. cbn [run_in exec]. cbn [finish].
    assert (K : forall b, run_in g (S n) (@run_call call (@body) g (S n)) (Call CConsumeSemicolon;; Ret (SExpr b)) s1
        = match semi s1 with (Ok _, s2) => (Ok (SExpr b), s2) | (Err x, s2) => (Err x, s2) | (Panic, s2) => (Panic, s2) | (NoFuel, s2) => (NoFuel, s2) end).
    { intros b. cbn [run_in]. rewrite semi_run. destruct (semi s1) as [[]]; reflexivity. }
    destruct e; try exact (K _). rewrite (H _ eq_refl). exact (K _).
  Qed.
  (** The tokens no other statement starts with, and what must follow three of them. *)
  Definition headb (s : state) : bool :=
    let after := first_non_comment (st_rest s) in
    match it_tok (st_look s) with
    | TBoolean _ | TNull | TNumeric | TString | TRegEx | TTemplate _ => true
    | TPunct POpenBrace | TPunct PSemiColon => false
    | TPunct _ => true
    | TKeyword KImport => match after with Some i => is_punct POpenParen (it_tok i) | None => false end
    | TKeyword KLet => match after with
        | Some i => negb (is_ident (it_tok i) || is_punct POpenBracket (it_tok i) || is_punct POpenBrace (it_tok i)
                          || is_keyword KLet (it_tok i) || is_keyword KYield (it_tok i))
        | None => true
        end
    | TKeyword (KExport | KConst | KFunction | KClass | KBreak | KContinue | KDebugger | KDo | KFor | KIf | KReturn
               | KSwitch | KThrow | KTry | KVar | KWhile | KWith) => false
    | TKeyword _ => true
    | TIdent => match slice (g_stream g) (it_start (st_look s)) (it_end (st_look s)) with
        | Some w => negb (text_eqb w (str "async") && match peek_raw s with Some i => is_keyword KFunction (it_tok i) | None => false end)
        | None => false
        end
    | _ => false
    end.
  Lemma finish_map {A B} (f : Expr -> A) (h : A -> B) x :
    match finish f x with (Ok a, s) => (Ok (h a), s) | (Err e, s) => (Err e, s) | (Panic, s) => (Panic, s) | (NoFuel, s) => (NoFuel, s) end
    = finish (fun e => h (f e)) x.
  Proof. destruct x as [[e| | |] s1]; try reflexivity. cbn [finish]. destruct (semi s1) as [[]]; reflexivity. Qed.
  Lemma stmt_run n s o1 s1 : headb s = true -> run_call (@body) g (S n) CExpression s = (o1, s1) ->
    (forall id, o1 = Ok (EIdent id) -> is_punct PColon (it_tok (st_look s1)) = false) ->
    run_call (@body) g (S (S (S n))) CStatement s = finish SExpr (o1, s1).
  Proof.
    intros H E L. pose proof (expr_stmt_run n s) as X. rewrite E in X. pose proof (labelled_run n s o1 s1 E L) as Y.
    transitivity (run_in g (S (S n)) (@run_call call (@body) g (S (S n))) statement s); [reflexivity|].
    unfold statement, look_tok, look. cbn [run_in exec].
    assert (K : run_in g (S (S n)) (@run_call call (@body) g (S (S n))) (e <- Call CExpressionStatement;; Ret (SExpr e)) s = finish SExpr (o1, s1)).
    { cbn [run_in]. rewrite X. apply finish_map. }
    unfold headb in H. destruct (it_tok (st_look s)) as [| | | | | |b|k|p|t|c] eqn:T; try discriminate H; try exact K.
    all: try (destruct k; try discriminate H; exact K).
    all: try (destruct p; try discriminate H; exact K).
    unfold at_async_function, at_contextual, look, stream_at. cbn [run_in exec].
    destruct (slice _ _ _) as [w|]; [|discriminate H]. cbn [run_in]. destruct (text_eqb w (str "async")); [|exact Y].
    cbn [run_in exec andb] in *. destruct (peek_raw s) as [pk|]; [|exact Y]. cbn [run_in exec]. apply negb_true_iff in H. rewrite H, andb_false_r. exact Y.
  Qed.
  Definition at_statement (s : state) : state := upd_ctx (fun c => set_binding_element true (set_assign_target true (set_past_prolog true c))) s.
  Lemma part_run n s o1 s1 : headb s = true -> c_past_prolog (st_ctx s) = true \/ is_string (it_tok (st_look s)) = false ->
    run_call (@body) g (S n) CExpression (at_statement s) = (o1, s1) ->
    (forall id, o1 = Ok (EIdent id) -> is_punct PColon (it_tok (st_look s1)) = false) ->
    run_call (@body) g (S (S (S (S (S n))))) CNextPart s = finish (fun e => PPStmt (SExpr e)) (o1, s1).
  Proof.
    intros H D E L. pose proof (stmt_run n (at_statement s) o1 s1 H E L) as X.
    transitivity (run_in g (S (S (S (S n)))) (@run_call call (@body) g (S (S (S (S n))))) next_part s); [reflexivity|].
    unfold next_part, get, look_tok, look, upd. cbn [run_in exec].
    replace (negb _ && is_string _) with false by (destruct D as [-> | ->]; [reflexivity|symmetry; apply andb_false_r]).
    cbn [run_in exec].
    transitivity (run_in g (S (S (S n))) (@run_call call (@body) g (S (S (S n)))) statement_list_item (upd_ctx (set_past_prolog true) s)); [reflexivity|].
    unfold statement_list_item, set_target_binding, upd, look_tok, look. cbn [run_in exec].
    change (upd_ctx _ (upd_ctx _ s)) with (at_statement s).
    assert (K : run_in g (S (S (S n))) (@run_call call (@body) g (S (S (S n)))) (s <- Call CStatement;; Ret (PPStmt s)) (at_statement s)
                = finish (fun e => PPStmt (SExpr e)) (o1, s1)).
    { cbn [run_in]. rewrite X. apply (finish_map SExpr PPStmt). }
    change (st_look (at_statement s)) with (st_look s). unfold headb in H.
    destruct (it_tok (st_look s)) as [| | | | | |b|k|p|t|c] eqn:T; try discriminate H; try exact K.
    destruct k; try discriminate H; try exact K.
    - unfold at_import_call, at_keyword, look_tok, look. cbn [run_in exec]. change (st_look (at_statement s)) with (st_look s). rewrite T.
      change (is_keyword KImport (TKeyword KImport)) with true. cbn [run_in exec]. change (st_rest (at_statement s)) with (st_rest s).
      rewrite H. exact K.
    - unfold at_lexical_decl. cbn [run_in exec]. change (st_rest (at_statement s)) with (st_rest s).
      destruct (first_non_comment (st_rest s)) as [i|]; [apply negb_true_iff in H; cbn zeta; rewrite H|]; exact K.
  Qed.
End Statement.

(** ** Directives *)
Section Directive.
  Variable g : cfg.
  Definition finish_directive (x : outcome Expr * state) : outcome ProgramPart * state :=
    match x with
    | (Ok (ELiteral (LString w)), s1) =>
        if negb (c_allow_strict_directive (st_ctx s1)) && text_eqb w (str "use strict") then finish g (fun e => PPStmt (SExpr e)) x
        else finish g (fun _ => PPDir (trim_quotes w) (LString w)) x
    | (Ok (ELiteral l), s1) => (Ok (PPStmt (SExpr (ELiteral l))), s1)
    | _ => finish g (fun e => PPStmt (SExpr e)) x
    end.
  Definition after_directive (x : outcome ProgramPart * state) : outcome ProgramPart * state :=
    match x with
    | (Ok p, s) => (Ok p, upd_ctx (set_past_prolog (match p with PPDir _ _ => false | _ => true end)) s)
    | x => x
    end.
  Lemma directive_run n s o1 s1 : run_call (@body) g (S n) CExpression s = (o1, s1) ->
    (forall w, o1 = Ok (ELiteral (LString w)) -> c_allow_strict_directive (st_ctx s1) = true \/ w <> str "use strict") ->
    run_call (@body) g (S (S n)) CDirective s = finish_directive (o1, s1).
  Proof.
    intros E H. transitivity (run_in g (S n) (@run_call call (@body) g (S n)) directive s); [reflexivity|].
    unfold directive, look. cbn [run_in exec]. rewrite E. destruct o1 as [e| | |]; try reflexivity.
    assert (K : forall A (b : A) h, h e = b -> run_in g (S n) (@run_call call (@body) g (S n)) (Call CConsumeSemicolon;; Ret b) s1 = finish g h (Ok e, s1)).
    { intros A b h <-. cbn [run_in finish]. rewrite semi_run. destruct (semi g s1) as [[]]; reflexivity. }
    destruct e; try (apply K; reflexivity). destruct l; try reflexivity.
    specialize (H _ eq_refl). unfold get. cbn [run_in exec finish_directive].
    replace (negb _ && text_eqb _ _) with false; [apply K; reflexivity|]. symmetry. destruct H as [-> |H]; [reflexivity|].
    destruct (text_eqb _ _) eqn:T; [apply Lines.text_eqb_eq in T; contradiction|]. apply andb_false_r.
  Qed.
  Lemma first_run n s o1 s1 : c_past_prolog (st_ctx s) = false -> is_string (it_tok (st_look s)) = true ->
    run_call (@body) g (S n) CExpression s = (o1, s1) ->
    (forall w, o1 = Ok (ELiteral (LString w)) -> c_allow_strict_directive (st_ctx s1) = true \/ w <> str "use strict") ->
    run_call (@body) g (S (S (S n))) CNextPart s = after_directive (finish_directive (o1, s1)).
  Proof.
    intros D1 D2 E H. transitivity (run_in g (S (S n)) (@run_call call (@body) g (S (S n))) next_part s); [reflexivity|].
    unfold next_part, get, look_tok, look, upd. cbn [run_in exec]. rewrite D1, D2. cbn [negb andb run_in exec].
    rewrite (directive_run n s o1 s1 E H). destruct (finish_directive (o1, s1)) as [[]]; reflexivity.
  Qed.
End Directive.
