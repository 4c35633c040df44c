(** C73: compound statements, and which [if] an [else] belongs to. *)
From Verif Require Operators Printer.
From Verif Require Export Lexer Spec Runs Safe Chains Properties1 Properties2 Properties3 Properties5 Properties21 Properties22 Properties26 Properties27 Properties29 Properties31.
Local Open Scope string_scope.
Local Open Scope list_scope.

(** *** C73 *)
Definition within_loop (b : bool) (s : state) : state := upd_ctx (set_in_iteration b) s.
(** A word and an expression in parentheses. *)
Definition guarded (g : cfg) (k : keyword) (s : state) (e : Expr) (s' : state) : Prop :=
  exists s1 s2 s3, passes g (TKeyword k) s s1 /\ passes g (TPunct POpenParen) s1 s2 /\ reads g CExpression s2 e s3 /\ passes g (TPunct PCloseParen) s3 s'.
(** What a word may add, and is not there if the word is not. *)
Definition perhaps (k : keyword) {A} (R : state -> A -> state -> Prop) (s : state) (x : option A) (s' : state) : Prop :=
  match x with Some a => token_at s = TKeyword k /\ R s a s' | None => token_at s <> TKeyword k /\ s' = s end.
Definition otherwise (g : cfg) (s : state) (u : Stmt) (s' : state) : Prop := exists s1, passes g (TKeyword KElse) s s1 /\ reads g CIfClause s1 u s'.

Section Forms.
  Variable g : cfg.
  Notation ends := (ends g).
  Lemma word_ends A k (a b : P A) s o s' : ends (if is_keyword k (it_tok (st_look s)) then a else b) s o s' -> ends (ifM at_keyword k then a else b) s o s'.
  Proof. intros H. eapply ends_ok; [|exact H]. split; [discriminate|]. exists 0. reflexivity. Qed.
  Lemma ends_word A k (a b : P A) s x s' : ends (ifM at_keyword k then a else b) s (Ok x) s' -> ends (if is_keyword k (it_tok (st_look s)) then a else b) s (Ok x) s'.
  Proof.
    intros H. apply bind_ends in H as (c & s1 & H1 & H). assert (K : ends (at_keyword k) s (Ok (is_keyword k (it_tok (st_look s)))) s) by (split; [discriminate|exists 0; reflexivity]).
    destruct (ends_fun _ _ _ _ _ _ _ _ H1 K) as [E <-]. injection E as ->. exact H.
  Qed.
  Lemma word_it k t : t = TKeyword k -> is_keyword k t = true.
  Proof. intros ->. destruct k; reflexivity. Qed.
  Lemma word_not k t : t <> TKeyword k <-> is_keyword k t = false.
  Proof.
    split; intros H.
    - destruct (is_keyword k t) eqn:E; [|reflexivity]. apply Operators.is_keyword_eq in E. contradiction.
    - intros ->. rewrite word_it in H; [discriminate H|reflexivity].
  Qed.
  Lemma pass_word k s s' : passes g (TKeyword k) s s' -> ends (expect_keyword k) s (Ok tt) s'.
  Proof. intros (T & i & N). eapply expect_word; eauto. Qed.
  Lemma not_forgiven d s u s' : g_tolerant g = false -> ~ ends (Do (OTolerate d)) s (Ok u) s'.
  Proof. intros T R. apply ends_do in R. cbn [exec] in R. rewrite T in R. discriminate R. Qed.
  Lemma no_fail A l s (x : A) s' : ~ ends (fail_look l : P A) s (Ok x) s'.
  Proof. intros R. unfold fail_look in R. apply bind_ends in R as (i & s2 & _ & R). destruct R as [_ [n R]]. discriminate R. Qed.
  Lemma upd_ends f s : ends (upd f) s (Ok tt) (upd_ctx f s).
  Proof. split; [discriminate|]. exists 0. reflexivity. Qed.
  Lemma ends_upd f s u s' : ends (upd f) s (Ok u) s' -> s' = upd_ctx f s.
  Proof. intros R. destruct (ends_fun _ _ _ _ _ _ _ _ R (upd_ends f s)) as [_ ->]. reflexivity. Qed.
  Lemma get_ends A (f : ctx -> A) s : ends (get f) s (Ok (f (st_ctx s))) s.
  Proof. split; [discriminate|]. exists 0. reflexivity. Qed.
  Lemma ends_get A (f : ctx -> A) s x s' : ends (get f) s (Ok x) s' -> x = f (st_ctx s) /\ s' = s.
  Proof. intros R. destruct (ends_fun _ _ _ _ _ _ _ _ R (get_ends A f s)) as [E ->]. injection E as ->. auto. Qed.

  Lemma perhaps_run A k (p : P A) (R : state -> A -> state -> Prop) s x s' : (forall s a s', R s a s' <-> ends p s (Ok a) s') ->
    perhaps k R s x s' <-> ends (ifM at_keyword k then a <- p ;; Ret (Some a) else Ret None) s (Ok x) s'.
  Proof.
    intros E. split.
    - intros H. apply word_ends. destruct x as [a|]; destruct H as [T H]; unfold token_at in T.
      + rewrite word_it by exact T. eapply ends_ok; [apply E; exact H|]. apply ends_ret.
      + rewrite (proj1 (word_not _ _) T). subst s'. apply ends_ret.
    - intros H. apply ends_word in H. destruct (is_keyword k _) eqn:T.
      + apply bind_ends in H as (a & s1 & H & H'). apply ret_ends in H' as [-> ->]. apply Operators.is_keyword_eq in T. split; [exact T|apply E; exact H].
      + apply ret_ends in H as [-> ->]. apply word_not in T. split; [exact T|reflexivity].
  Qed.

  (** What the statements that begin with a word and an expression in parentheses share. *)
  Lemma guard_run k s e s4 A (q r : Expr -> P A) o s' : guarded g k s e s4 -> ends (q e) s4 o s' ->
    ends (expect_keyword k ;; expect_punct POpenParen ;; e <- Call CExpression ;; ifM at_punct PCloseParen then expect_punct PCloseParen ;; q e else r e) s o s'.
  Proof.
    intros (s1 & s2 & s3 & P1 & P2 & R3 & P4) Q. eapply ends_ok; [apply pass_word; exact P1|]. eapply ends_ok; [apply pass_expect; exact P2|]. eapply ends_ok; [exact R3|].
    apply at_ends. pose proof P4 as (T & _). rewrite T, is_it. eapply ends_ok; [apply pass_expect; exact P4|]. exact Q.
  Qed.
  Lemma run_guard k s A (q : Expr -> P A) (y : Expr -> A) x s' : g_tolerant g = false ->
    ends (expect_keyword k ;; expect_punct POpenParen ;; e <- Call CExpression ;; ifM at_punct PCloseParen then expect_punct PCloseParen ;; q e
      else la <- look ;; Do (OTolerate (FExpected la [")"])) ;; Ret (y e)) s (Ok x) s' -> exists e s4, guarded g k s e s4 /\ ends (q e) s4 (Ok x) s'.
  Proof.
    intros Tl R. apply bind_ends in R as (u1 & s1 & P1 & R). apply word_pass in P1. apply bind_ends in R as (u2 & s2 & P2 & R). apply expect_pass in P2.
    apply bind_ends in R as (e & s3 & R3 & R). apply ends_at in R. destruct (is_punct PCloseParen _).
    - apply bind_ends in R as (u4 & s4 & P4 & R). apply expect_pass in P4. exists e, s4. split; [|exact R]. exists s1, s2, s3. auto.
    - apply bind_ends in R as (i & s4 & _ & R). apply bind_ends in R as (u5 & s5 & R5 & _). destruct (not_forgiven _ _ _ _ Tl R5).
  Qed.
End Forms.

(** [if]: an [else] that follows the first branch is read with it. *)
Theorem C73_if : forall g s x s', g_tolerant g = false -> reads g CIfStmt s x s' <->
  exists e t u s1 s2, guarded g KIf s e s1 /\ reads g CIfClause s1 t s2 /\ perhaps KElse (otherwise g) s2 u s' /\ x = SIf e t u.
Proof.
  intros g s x s' Tl.
  assert (O : forall s a s', otherwise g s a s' <-> ends g (next ;; Call CIfClause) s (Ok a) s' /\ token_at s = TKeyword KElse).
  { clear. intros s a s'. split.
    - intros (s1 & P1 & R). split; [|apply P1]. eapply ends_ok; [eapply pass_next; exact P1|]. exact R.
    - intros [R T]. apply bind_ends in R as (i & s1 & P1 & R). apply next_pass in P1. unfold token_at in T. rewrite T in P1. exists s1. auto. }
  split.
  - intros R. change (ends g (Call CIfStmt) s (Ok x) s') in R. apply body_ends in R. cbn [body] in R. apply (run_guard g KIf s Stmt _ (fun e => SIf e SEmpty None) x s' Tl) in R as (e & s1 & G & R).
    apply bind_ends in R as (t & s2 & R2 & R). apply bind_ends in R as (u & s3 & R3 & R). apply ret_ends in R as [-> ->]. exists e, t, u, s1, s2. split; [exact G|]. split; [exact R2|]. split; [|reflexivity].
    apply ends_word in R3. destruct (is_keyword KElse _) eqn:T.
    + apply Operators.is_keyword_eq in T. apply bind_ends in R3 as (i & t1 & P1 & R3). apply bind_ends in R3 as (w & t2 & R4 & R3). apply ret_ends in R3 as [-> ->].
      split; [exact T|]. apply O. split; [|exact T]. eapply ends_ok; [exact P1|exact R4].
    + apply ret_ends in R3 as [-> ->]. apply word_not in T. split; [exact T|reflexivity].
  - intros (e & t & u & s1 & s2 & G & R2 & H & ->). change (ends g (Call CIfStmt) s (Ok (SIf e t u)) s'). apply ends_body. cbn [body]. unfold if_stmt.
    apply (guard_run g KIf s e s1 Stmt (fun e => c <- Call CIfClause ;; a <- (ifM at_keyword KElse then next ;; s <- Call CIfClause ;; Ret (Some s) else Ret None) ;; Ret (SIf e c a)) _ _ _ G).
    eapply ends_ok; [exact R2|]. eapply ends_ok; [|apply ends_ret]. apply word_ends. destruct u as [u|]; destruct H as [T H]; unfold token_at in T.
    + rewrite word_it by exact T. destruct H as (s3 & P3 & R3). eapply ends_ok; [eapply pass_next; exact P3|]. eapply ends_ok; [exact R3|]. apply ends_ret.
    + rewrite (proj1 (word_not _ _) T). subst s'. apply ends_ret.
Qed.
Print Assumptions C73_if.
(** A branch is a statement, and in strict code no function. *)
Theorem C73_branch : forall g s t s', g_tolerant g = false -> reads g CIfClause s t s' <->
  reads g CStatement s t s' /\ (c_strict (st_ctx s) = true -> token_at s <> TKeyword KFunction).
Proof.
  intros g s t s' Tl. split.
  - intros R. change (ends g (Call CIfClause) s (Ok t) s') in R. apply body_ends in R. cbn [body] in R. unfold if_clause in R.
    apply bind_ends in R as (b & s1 & R1 & R). apply ends_get in R1 as [-> ->]. apply bind_ends in R as (i & s1 & R1 & R). apply ends_do in R1. injection R1 as <- <-.
    apply bind_ends in R as (u & s1 & R1 & R). destruct (c_strict (st_ctx s) && is_keyword KFunction (it_tok (st_look s))) eqn:E; [destruct (not_forgiven _ _ _ _ _ Tl R1)|].
    apply ret_ends in R1 as [_ ->]. split; [exact R|]. intros S. rewrite S in E. apply word_not. exact E.
  - intros [R S]. change (ends g (Call CIfClause) s (Ok t) s'). apply ends_body. cbn [body]. unfold if_clause.
    eapply ends_ok; [apply get_ends|]. eapply ends_ok; [apply do_ends; [reflexivity|discriminate]|].
    replace (c_strict (st_ctx s) && is_keyword KFunction (it_tok (st_look s))) with false; [eapply ends_ok; [apply ends_ret|exact R]|].
    destruct (c_strict (st_ctx s)); [|reflexivity]. symmetry. apply word_not. apply S. reflexivity.
Qed.
Print Assumptions C73_branch.
(** [while], [do] and [with]. *)
Theorem C73_while : forall g s x s', g_tolerant g = false -> reads g CWhileStmt s x s' <->
  exists e t s1 s2, guarded g KWhile s e s1 /\ reads g CStatement s1 t s2 /\ s' = within_loop (c_in_iteration (st_ctx s1)) s2 /\ x = SWhile e t.
Proof.
  intros g s x s' Tl. split.
  - intros R. change (ends g (Call CWhileStmt) s (Ok x) s') in R. apply body_ends in R. cbn [body] in R. apply (run_guard g KWhile s Stmt _ (fun e => SWhile e SEmpty) x s' Tl) in R as (e & s1 & G & R).
    apply bind_ends in R as (b & s2 & R2 & R). apply ends_get in R2 as [-> ->]. apply bind_ends in R as (t & s2 & R2 & R). apply bind_ends in R as (u & s3 & R3 & R). apply ends_upd in R3 as ->.
    apply ret_ends in R as [-> ->]. exists e, t, s1, s2. auto.
  - intros (e & t & s1 & s2 & G & R & -> & ->). change (ends g (Call CWhileStmt) s (Ok (SWhile e t)) (within_loop (c_in_iteration (st_ctx s1)) s2)). apply ends_body. cbn [body]. unfold while_stmt.
    apply (guard_run g KWhile s e s1 Stmt (fun e => i <- get c_in_iteration ;; b <- Call CStatement ;; upd (set_in_iteration i) ;; Ret (SWhile e b)) _ _ _ G).
    eapply ends_ok; [apply get_ends|]. eapply ends_ok; [exact R|]. eapply ends_ok; [apply upd_ends|]. apply ends_ret.
Qed.
Print Assumptions C73_while.
Theorem C73_with : forall g s x s', g_tolerant g = false -> reads g CWithStmt s x s' <->
  exists e t s1, c_strict (st_ctx s) = false /\ guarded g KWith s e s1 /\ reads g CStatement s1 t s' /\ x = SWith e t.
Proof.
  intros g s x s' Tl. split.
  - intros R. change (ends g (Call CWithStmt) s (Ok x) s') in R. apply body_ends in R. cbn [body] in R. unfold with_stmt in R.
    apply bind_ends in R as (b & s1 & R1 & R). apply ends_get in R1 as [-> ->]. apply bind_ends in R as (u & s1 & R1 & R). destruct (c_strict (st_ctx s)) eqn:S.
    { apply bind_ends in R1 as (p & s2 & _ & R1). destruct (not_forgiven _ _ _ _ _ Tl R1). }
    apply ret_ends in R1 as [_ ->]. apply (run_guard g KWith s Stmt _ (fun e => SWith e SEmpty) x s' Tl) in R as (e & s1 & G & R).
    apply bind_ends in R as (t & s2 & R2 & R). apply ret_ends in R as [-> ->]. exists e, t, s1. auto.
  - intros (e & t & s1 & S & G & R & ->). change (ends g (Call CWithStmt) s (Ok (SWith e t)) s'). apply ends_body. cbn [body]. unfold with_stmt.
    eapply ends_ok; [apply get_ends|]. rewrite S. eapply ends_ok; [apply ends_ret|].
    apply (guard_run g KWith s e s1 Stmt (fun e => b <- Call CStatement ;; Ret (SWith e b)) _ _ _ G). eapply ends_ok; [exact R|]. apply ends_ret.
Qed.
Print Assumptions C73_with.
Theorem C73_do : forall g s x s', reads g CDoWhileStmt s x s' <->
  exists e t s1 s2 s3, passes g (TKeyword KDo) s s1 /\ reads g CStatement (within_loop true s1) t s2
    /\ guarded g KWhile (within_loop (c_in_iteration (st_ctx s1)) s2) e s3
    /\ (passes g (TPunct PSemiColon) s3 s' \/ token_at s3 <> TPunct PSemiColon /\ s' = s3) /\ x = SDoWhile e t.
Proof.
  intros g s x s'. split.
  - intros R. change (ends g (Call CDoWhileStmt) s (Ok x) s') in R. apply body_ends in R. cbn [body] in R. unfold do_while_stmt in R.
    apply bind_ends in R as (u1 & s1 & P1 & R). apply word_pass in P1. apply bind_ends in R as (b & t1 & R1 & R). apply ends_get in R1 as [-> ->].
    apply bind_ends in R as (u2 & t1 & R1 & R). apply ends_upd in R1 as ->. apply bind_ends in R as (t & s2 & R2 & R). apply bind_ends in R as (u3 & t3 & R3 & R). apply ends_upd in R3 as ->.
    apply bind_ends in R as (v1 & w1 & Q1 & R). apply word_pass in Q1. apply bind_ends in R as (v2 & w2 & Q2 & R). apply expect_pass in Q2. apply bind_ends in R as (e & w3 & Q3 & R).
    apply bind_ends in R as (v4 & s3 & Q4 & R). apply expect_pass in Q4. exists e, t, s1, s2, s3. split; [exact P1|]. split; [exact R2|]. split; [exists w1, w2, w3; auto|].
    apply ends_at in R. destruct (is_punct PSemiColon _) eqn:T.
    + apply bind_ends in R as (v5 & s4 & Q5 & R). apply expect_pass in Q5. apply ret_ends in R as [-> ->]. split; [left; exact Q5|reflexivity].
    + apply ret_ends in R as [-> ->]. apply at_not in T. split; [right; auto|reflexivity].
  - intros (e & t & s1 & s2 & s3 & P1 & R2 & (w1 & w2 & w3 & Q1 & Q2 & Q3 & Q4) & Q & ->). change (ends g (Call CDoWhileStmt) s (Ok (SDoWhile e t)) s'). apply ends_body. cbn [body]. unfold do_while_stmt.
    eapply ends_ok; [apply pass_word; exact P1|]. eapply ends_ok; [apply get_ends|]. eapply ends_ok; [apply upd_ends|]. eapply ends_ok; [exact R2|]. eapply ends_ok; [apply upd_ends|].
    eapply ends_ok; [apply pass_word; exact Q1|]. eapply ends_ok; [apply pass_expect; exact Q2|]. eapply ends_ok; [exact Q3|]. eapply ends_ok; [apply pass_expect; exact Q4|].
    apply at_ends. destruct Q as [Q|[T ->]].
    + pose proof Q as (T & _). rewrite T, is_it. eapply ends_ok; [apply pass_expect; exact Q|]. apply ends_ret.
    + unfold token_at in T. rewrite is_not by exact T. apply ends_ret.
Qed.
Print Assumptions C73_do.
(** [try]: a block, and perhaps the two clauses. *)
Theorem C73_try : forall g s x s', reads g CTryStmt s x s' <->
  exists b h f s1 s2 s3, passes g (TKeyword KTry) s s1 /\ reads g CBlock s1 b s2 /\ perhaps KCatch (reads g CCatchClause) s2 h s3
    /\ perhaps KFinally (reads g CFinallyClause) s3 f s' /\ x = STry b h f.
Proof.
  intros g s x s'. split.
  - intros R. change (ends g (Call CTryStmt) s (Ok x) s') in R. apply body_ends in R. cbn [body] in R. unfold try_stmt in R.
    apply bind_ends in R as (u1 & s1 & P1 & R). apply word_pass in P1. apply bind_ends in R as (b & s2 & R2 & R). apply bind_ends in R as (h & s3 & R3 & R).
    apply bind_ends in R as (f & s4 & R4 & R). apply ret_ends in R as [-> ->]. exists b, h, f, s1, s2, s3. split; [exact P1|]. split; [exact R2|].
    split; [apply (perhaps_run g _ KCatch (Call CCatchClause)); [reflexivity|exact R3]|]. split; [|reflexivity]. apply (perhaps_run g _ KFinally (Call CFinallyClause)); [reflexivity|exact R4].
  - intros (b & h & f & s1 & s2 & s3 & P1 & R2 & R3 & R4 & ->). change (ends g (Call CTryStmt) s (Ok (STry b h f)) s'). apply ends_body. cbn [body]. unfold try_stmt.
    eapply ends_ok; [apply pass_word; exact P1|]. eapply ends_ok; [exact R2|]. apply (perhaps_run g _ KCatch (Call CCatchClause)) in R3; [|reflexivity]. eapply ends_ok; [exact R3|].
    apply (perhaps_run g _ KFinally (Call CFinallyClause)) in R4; [|reflexivity]. eapply ends_ok; [exact R4|]. apply ends_ret.
Qed.
Print Assumptions C73_try.

(** Which [if] an [else] belongs to.  A statement that ends in an [if] with no [else] of its own ([Printer.open_if]:
    such an [if], or an [else] branch, a loop, a [with] or a label that ends in one) is not followed by [else]. *)
Section Tails.
  Variable g : cfg.
  Notation ends := (ends g).
  Definition from (u : Stmt) (s' : state) : Prop :=
    Printer.open_if u = false \/ exists t t', ends (Call CStatement) t (Ok u) t' /\ token_at t' = token_at s'.
  Definition tail (x : Stmt) (s' : state) : Prop :=
    match x with
    | SIf _ _ None => token_at s' <> TKeyword KElse
    | SIf _ _ (Some u) => from u s'
    | SWhile _ u | SWith _ u | SLabeled _ u | SFor _ _ _ u | SForIn _ _ u | SForOf _ _ u _ => from u s'
    | _ => True
    end.
  Definition tails (p : P Stmt) : Prop := forall s x s', ends p s (Ok x) s' -> tail x s'.
  Lemma tails_bind A (p : P A) k : (forall a, tails (k a)) -> tails (Bind p k).
  Proof. intros H s x s' R. apply bind_ends in R as (a & s1 & _ & R). eapply H. exact R. Qed.
  Lemma tails_call c : tails (body c) -> tails (Call c).
  Proof. intros H s x s' R. apply body_ends in R. eapply H. exact R. Qed.
  Lemma tails_ret x : (forall s, tail x s) -> tails (Ret x).
  Proof. intros H s y s' R. apply ret_ends in R as [-> ->]. apply H. Qed.
  Lemma tails_fail d : tails (Fail d).
  Proof. intros s x s' [_ [n R]]. discriminate R. Qed.
  Lemma tails_crash : tails Crash.
  Proof. intros s x s' [_ [n R]]. discriminate R. Qed.
  Lemma loop_from s u s' : ends (Call CLoopBody) s (Ok u) s' -> from u s'.
  Proof.
    intros R. apply body_ends in R. cbn [body] in R. unfold loop_body, isolated in R. apply bind_ends in R as (u1 & s1 & _ & R). apply bind_ends in R as (i & s2 & _ & R).
    apply bind_ends in R as (u2 & s3 & _ & R). apply bind_ends in R as (r & s4 & R4 & R). apply bind_ends in R as (u5 & s5 & R5 & R). apply ends_upd in R5 as ->. apply ret_ends in R as [-> ->].
    apply bind_ends in R4 as (cg & s5 & _ & R4). apply bind_ends in R4 as (r' & s6 & R6 & R4). apply bind_ends in R4 as (u7 & s7 & R7 & R4). apply ret_ends in R4 as [-> ->].
    right. exists s5, s6. split; [exact R6|]. destruct cg as [[b a] f]. apply ends_upd in R7 as ->. reflexivity.
  Qed.
  Lemma tails_loop (f : Stmt -> Stmt) : (forall u s, from u s -> tail (f u) s) -> tails (u <- Call CLoopBody ;; Ret (f u)).
  Proof. intros H s x s' R. apply bind_ends in R as (u & s1 & R1 & R). apply ret_ends in R as [-> ->]. apply H. eapply loop_from. exact R1. Qed.
  Ltac go := repeat first
    [ apply tails_fail | apply tails_crash | apply tails_ret; intros; exact I
    | apply tails_loop; intros; assumption
    | match goal with |- tails (if ?b then _ else _) => destruct b | |- tails (match ?x with _ => _ end) => destruct x end
    | apply tails_bind; intro ].
  Lemma tails_cont i : tails (Call (CForLoopCont i)).
  Proof. apply tails_call. cbn [body]. unfold for_loop_cont. go. Qed.
  Lemma tails_in i : tails (Call (CForInLoop i)).
  Proof. apply tails_call. cbn [body]. unfold for_in_loop. go. Qed.
  Lemma tails_of i b : tails (Call (CForOfLoop i b)).
  Proof. apply tails_call. cbn [body]. unfold for_of_loop. go. Qed.
  Lemma tails_plain i : tails (Call (CForLoop i)).
  Proof. apply tails_call. cbn [body]. unfold for_loop. go; apply tails_cont. Qed.
  Lemma tails_for : tails (Call CForStmt).
  Proof.
    apply tails_call. cbn [body]. unfold for_stmt. go; first [apply tails_cont|apply tails_in|apply tails_of|apply tails_plain].
  Qed.
  Lemma tails_label : tails (Call CLabelledStatement).
  Proof.
    apply tails_call. cbn [body]. unfold labelled_statement. apply tails_bind; intros e. apply tails_bind; intros b.
    assert (H : forall k, tails (Call CConsumeSemicolon ;; Ret (SExpr k))) by (intros k; go).
    destruct e; try apply H. destruct b; [|apply H]. apply tails_bind; intro. apply tails_bind; intros l. destruct (set_mem _ l); [apply tails_fail|]. apply tails_bind; intro.
    intros s x s' R. apply bind_ends in R as (u & s1 & R1 & R). apply bind_ends in R as (v & s2 & R2 & R). apply ends_upd in R2 as ->. apply ret_ends in R as [-> ->]. cbn [tail].
    apply ends_word in R1. destruct (is_keyword KClass _).
    - left. apply bind_ends in R1 as (? & ? & _ & R1). apply bind_ends in R1 as (? & ? & _ & R1). apply bind_ends in R1 as (? & ? & _ & R1). apply ret_ends in R1 as [-> _]. reflexivity.
    - apply ends_word in R1. destruct (is_keyword KFunction _); [left; apply bind_ends in R1 as (? & ? & _ & R1); apply ret_ends in R1 as [-> _]; reflexivity|].
      right. exists s, s1. split; [exact R1|reflexivity].
  Qed.
  Hypothesis Tl : g_tolerant g = false.
  Lemma tails_if : tails (Call CIfStmt).
  Proof.
    intros s x s' R. apply (C73_if g s x s' Tl) in R as (e & t & [u|] & s1 & s2 & _ & _ & H & ->); cbn [tail].
    - destruct H as [_ (s3 & _ & R)]. apply (C73_branch g s3 u s' Tl) in R as [R _]. right. exists s3, s'. split; [exact R|reflexivity].
    - destruct H as [T ->]. exact T.
  Qed.
  Lemma tails_while : tails (Call CWhileStmt).
  Proof.
    intros s x s' R. apply (C73_while g s x s' Tl) in R as (e & t & s1 & s2 & _ & R & -> & ->). right. exists s1, s2. split; [exact R|reflexivity].
  Qed.
  Lemma tails_with : tails (Call CWithStmt).
  Proof.
    intros s x s' R. apply (C73_with g s x s' Tl) in R as (e & t & s1 & _ & _ & R & ->). right. exists s1, s'. split; [exact R|reflexivity].
  Qed.
  Lemma tails_do : tails (Call CDoWhileStmt).
  Proof. intros s x s' R. apply C73_do in R as (e & t & s1 & s2 & s3 & _ & _ & _ & _ & ->). exact I. Qed.
  Lemma tails_switch : tails (Call CSwitchStmt).
  Proof. apply tails_call. cbn [body]. unfold switch_stmt. do 7 (apply tails_bind; intro). go. Qed.
  Lemma tails_statement : tails (Call CStatement).
  Proof.
    apply tails_call. cbn [body]. unfold statement. apply tails_bind; intros t.
    destruct t; repeat match goal with x : keyword |- _ => destruct x | x : punct |- _ => destruct x end;
      first [apply tails_if|apply tails_while|apply tails_with|apply tails_do|apply tails_switch|apply tails_for
            |go; apply tails_label|apply tails_call; cbn [body]; go|go].
  Qed.
  Lemma not_else : forall x s s', ends (Call CStatement) s (Ok x) s' -> Printer.open_if x = true -> token_at s' <> TKeyword KElse.
  Proof.
    fix IH 1. intros x s s' R O. apply tails_statement in R. assert (K : forall u, (forall s s', ends (Call CStatement) s (Ok u) s' -> Printer.open_if u = true -> token_at s' <> TKeyword KElse) ->
      Printer.open_if u = true -> from u s' -> token_at s' <> TKeyword KElse).
    { clear. intros u H O [E|(t & t' & R & E)]; [congruence|]. rewrite <- E. eapply H; eauto. }
    destruct x as [e|ps| | |e t|o|w t|o|o|e t [u|]|e cs|e|b h f|e t|e t|i c u t|l e t|l e t aw|vs]; try discriminate O; cbn [tail] in R;
      first [exact R|eapply K; [| |exact R]; [apply IH|exact O]].
  Qed.
End Tails.
Theorem C73_else : forall g s x s', g_tolerant g = false -> reads g CStatement s x s' -> Printer.open_if x = true -> token_at s' <> TKeyword KElse.
Proof. intros g s x s' Tl R O. exact (not_else g Tl x s s' R O). Qed.
Print Assumptions C73_else.
(** So an [else] belongs to the nearest [if] before it that has none. *)
Theorem C73_nearest : forall g s e t u s', g_tolerant g = false -> reads g CIfStmt s (SIf e t (Some u)) s' -> Printer.open_if t = false.
Proof.
  intros g s e t u s' Tl R. apply (C73_if g s _ s' Tl) in R as (e1 & t1 & u1 & s1 & s2 & _ & R & H & E). injection E as -> -> <-. destruct H as [T _].
  destruct (Printer.open_if t1) eqn:O; [|reflexivity]. apply (C73_branch g s1 t1 s2 Tl) in R as [R _]. destruct (C73_else g s1 t1 s2 Tl R O T).
Qed.
Print Assumptions C73_nearest.

(** Concrete cases. *)
Example C73_if_case : let js := "if (a) while (b) if (c) d; else e; f" in exists x y z u v t,
  reads (ex_cfg js) CIfStmt (ex_start js) (SIf x (SWhile y (SIf z u (Some v))) None) t /\ g_tolerant (ex_cfg js) = false /\ token_at t = TIdent.
Proof.
  do 5 eexists. exists (after_call (ex_cfg "if (a) while (b) if (c) d; else e; f") _ CIfStmt (ex_start "if (a) while (b) if (c) d; else e; f")).
  split; [runs|]. split; [reflexivity|vm_compute; reflexivity].
Qed.
Example C73_else_case : let js := "for (;;) if (a) b; c" in exists x t, reads (ex_cfg js) CStatement (ex_start js) x t /\ g_tolerant (ex_cfg js) = false
  /\ Printer.open_if x = true /\ token_at t = TIdent.
Proof.
  eexists. exists (after_call (ex_cfg "for (;;) if (a) b; c") _ CStatement (ex_start "for (;;) if (a) b; c")). split; [runs|]. split; [reflexivity|]. split; vm_compute; reflexivity.
Qed.
(** Braces make a statement that [else] does not continue. *)
Example C73_braces_case : let js := "if (a) { if (b) c } else d" in exists x y z t,
  reads (ex_cfg js) CIfStmt (ex_start js) (SIf x (SBlock [PPStmt (SIf y z None)]) (Some (SExpr (EIdent (str "d"))))) t.
Proof. do 4 eexists. runs. Qed.
Example C73_while_case : let js := "while (a, b) { c }" in exists x y t, reads (ex_cfg js) CWhileStmt (ex_start js) (SWhile x y) t.
Proof. do 3 eexists. runs. Qed.
Example C73_with_case : let js := "with (a) b" in exists x y t, reads (ex_cfg js) CWithStmt (ex_start js) (SWith x y) t.
Proof. do 3 eexists. runs. Qed.
(** After [do] and [while] no semicolon is needed. *)
Example C73_do_case : let js := "do a; while (b) c" in exists x y t, reads (ex_cfg js) CDoWhileStmt (ex_start js) (SDoWhile x y) t.
Proof. do 3 eexists. runs. Qed.
(** Neither clause of [try] is asked for. *)
Example C73_try_case : let js := "try { a } catch ([b]) { } finally { c }" in exists x y z t, reads (ex_cfg js) CTryStmt (ex_start js) (STry x (Some y) (Some z)) t.
Proof. do 4 eexists. runs. Qed.
Example C73_try_alone : let js := "try { a }" in exists x t, reads (ex_cfg js) CTryStmt (ex_start js) (STry x None None) t.
Proof. do 2 eexists. runs. Qed.
(** With the tolerant flag the first [if] can be left without its branch, and an [else] follow. *)
Theorem C73_tolerant_needed : exists g s x s', g_tolerant g = true /\ reads g CStatement s x s' /\ Printer.open_if x = true /\ token_at s' = TKeyword KElse.
Proof.
  exists (make_cfg test_scanner true false (str "if (a else b")), (ex_start "if (a else b"). eexists.
  exists (after_call (make_cfg test_scanner true false (str "if (a else b")) _ CStatement (ex_start "if (a else b")).
  split; [reflexivity|]. split; [runs|]. split; vm_compute; reflexivity.
Qed.
Print Assumptions C73_tolerant_needed.
