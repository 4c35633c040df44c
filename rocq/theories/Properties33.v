(** C74: the parts of [for] statements, and the statements that end with a semicolon. *)
From Verif Require Operators.
From Verif Require Export Lexer Spec Runs Safe Chains Properties1 Properties2 Properties3 Properties5 Properties21 Properties22 Properties26 Properties27 Properties29 Properties31 Properties32.
Local Open Scope string_scope.
Local Open Scope list_scope.

(** *** C74
    An expression, or nothing before the token [p]. *)
Definition unless (g : cfg) (p : punct) (s : state) (x : option Expr) (s' : state) : Prop :=
  match x with Some e => token_at s <> TPunct p /\ reads g CExpression s e s' | None => token_at s = TPunct p /\ s' = s end.
(** The body of a loop: a statement, read as being in one and with the flags of the cover grammar set anew; the
    four flags are put back. *)
Definition restored (s s' : state) : state :=
  upd_ctx (fun c => set_in_iteration (c_in_iteration (st_ctx s)) (set_first_covert (c_first_covert (st_ctx s))
    (set_assign_target (c_assign_target (st_ctx s)) (set_binding_element (c_binding_element (st_ctx s)) c)))) s'.
Definition looped (g : cfg) (s : state) (t : Stmt) (s' : state) : Prop :=
  exists s1 s2, passes g (TPunct PCloseParen) s s1 /\ reads g CStatement (alone (within_loop true s1)) t s2 /\ s' = restored s1 s2.

Lemma unless_run g p s x s' : unless g p s x s' <-> ends g (ifM at_punct p then Ret None else e <- Call CExpression ;; Ret (Some e)) s (Ok x) s'.
Proof.
  split.
  - intros H. apply at_ends. destruct x as [e|]; destruct H as [T H]; unfold token_at in T.
    + rewrite is_not by exact T. eapply ends_ok; [exact H|]. apply ends_ret.
    + rewrite T, is_it. subst s'. apply ends_ret.
  - intros R. apply ends_at in R. destruct (is_punct p _) eqn:T.
    + apply ret_ends in R as [-> ->]. apply Operators.is_punct_eq in T. split; [exact T|reflexivity].
    + apply bind_ends in R as (e & s1 & R1 & R). apply ret_ends in R as [-> ->]. apply at_not in T. split; [exact T|exact R1].
Qed.
Theorem C74_body : forall g s t s', reads g CLoopBody s t s' <-> looped g s t s'.
Proof.
  intros g s t s'. split.
  - intros R. change (ends g (Call CLoopBody) s (Ok t) s') in R. apply body_ends in R. cbn [body] in R. unfold loop_body, isolated, isolate_cover, get_cover in R.
    apply bind_ends in R as (u1 & s1 & P1 & R). apply expect_pass in P1. apply bind_ends in R as (i & s2 & R2 & R). apply ends_get in R2 as [-> ->].
    apply bind_ends in R as (u2 & s3 & R3 & R). apply ends_upd in R3 as ->. apply bind_ends in R as (r & s4 & R4 & R). apply bind_ends in R as (u5 & s5 & R5 & R). apply ends_upd in R5 as ->. apply ret_ends in R as [-> ->].
    apply bind_ends in R4 as (cg & s5 & R5 & R4). apply bind_ends in R5 as (cg' & s6 & R6 & R5). apply bind_ends in R6 as (c & s7 & R7 & R6). apply ends_do in R7. injection R7 as <- <-. apply ret_ends in R6 as [-> ->].
    apply bind_ends in R5 as (u6 & s7 & R7 & R5). apply ends_upd in R7 as ->. apply ret_ends in R5 as [-> ->].
    apply bind_ends in R4 as (r' & s6 & R6 & R4). apply bind_ends in R4 as (u7 & s7 & R7 & R4). apply ret_ends in R4 as [-> ->]. apply ends_upd in R7 as ->.
    exists s1, s6. split; [exact P1|]. split; [exact R6|]. unfold restored, upd_ctx. cbn. destruct (st_ctx s1), (st_ctx s6). reflexivity.
  - intros (s1 & s2 & P1 & R & ->). change (ends g (Call CLoopBody) s (Ok t) (restored s1 s2)). apply ends_body. cbn [body]. unfold loop_body, isolated, isolate_cover, get_cover.
    eapply ends_ok; [apply pass_expect; exact P1|]. eapply ends_ok; [apply get_ends|]. eapply ends_ok; [apply upd_ends|].
    eapply ends_ok.
    { eapply ends_ok. { eapply ends_ok. { eapply ends_ok; [apply do_ends; [reflexivity|discriminate]|]. apply ends_ret. } eapply ends_ok; [apply upd_ends|]. apply ends_ret. }
      eapply ends_ok; [exact R|]. eapply ends_ok; [apply upd_ends|]. apply ends_ret. }
    replace (restored s1 s2) with (upd_ctx (set_in_iteration (c_in_iteration (st_ctx s1))) (upd_ctx (fun c => set_first_covert (c_first_covert (st_ctx s1))
      (set_assign_target (c_assign_target (st_ctx s1)) (set_binding_element (c_binding_element (st_ctx s1)) c))) s2)).
    + eapply ends_ok; [|apply ends_ret].
      assert (C : c_first_covert (st_ctx (within_loop true s1)) = c_first_covert (st_ctx s1) /\ c_assign_target (st_ctx (within_loop true s1)) = c_assign_target (st_ctx s1)
        /\ c_binding_element (st_ctx (within_loop true s1)) = c_binding_element (st_ctx s1)) by (cbn; destruct (st_ctx s1); auto).
      destruct C as (C1 & C2 & C3). rewrite <- C1, <- C2, <- C3. apply upd_ends.
    + unfold restored, upd_ctx. cbn. destruct (st_ctx s1), (st_ctx s2). reflexivity.
Qed.
Print Assumptions C74_body.
(** The rest of a [for] statement after what it begins with. *)
Theorem C74_for_rest : forall g i s x s', reads g (CForLoopCont i) s x s' <->
  exists c u t s1 s2 s3 s4, passes g (TPunct PSemiColon) s s1 /\ unless g PSemiColon s1 c s2 /\ passes g (TPunct PSemiColon) s2 s3
    /\ unless g PCloseParen s3 u s4 /\ looped g s4 t s' /\ x = SFor i c u t.
Proof.
  intros g i s x s'. split.
  - intros R. change (ends g (Call (CForLoopCont i)) s (Ok x) s') in R. apply body_ends in R. cbn [body] in R. unfold for_loop_cont in R.
    apply bind_ends in R as (u1 & s1 & P1 & R). apply expect_pass in P1. apply bind_ends in R as (c & s2 & R2 & R). apply unless_run in R2.
    apply bind_ends in R as (u3 & s3 & P3 & R). apply expect_pass in P3. apply bind_ends in R as (u & s4 & R4 & R). apply unless_run in R4.
    apply bind_ends in R as (t & s5 & R5 & R). apply ret_ends in R as [-> ->]. exists c, u, t, s1, s2, s3, s4. repeat (split; [assumption|]). split; [|reflexivity]. apply C74_body. exact R5.
  - intros (c & u & t & s1 & s2 & s3 & s4 & P1 & R2 & P3 & R4 & R5 & ->). change (ends g (Call (CForLoopCont i)) s (Ok (SFor i c u t)) s'). apply ends_body. cbn [body]. unfold for_loop_cont.
    apply unless_run in R2. apply unless_run in R4. apply C74_body in R5.
    eapply ends_ok; [apply pass_expect; exact P1|]. eapply ends_ok; [exact R2|]. eapply ends_ok; [apply pass_expect; exact P3|]. eapply ends_ok; [exact R4|].
    eapply ends_ok; [exact R5|]. apply ends_ret.
Qed.
Print Assumptions C74_for_rest.

(** Where a semicolon may be missing: at the end, before a closing brace, and at the beginning of a line whatever follows. *)
Theorem C74_semicolon : forall g s s', reads g CConsumeSemicolon s tt s' <->
  passes g (TPunct PSemiColon) s s'
  \/ token_at s <> TPunct PSemiColon /\ s' = s /\ (st_nl s = true \/ In (token_at s) [TEoF; TPunct PCloseBrace]).
Proof.
  intros g s s'.
  assert (N : forall A (k : bool -> P A) o t, ends g (k (st_nl s)) s o t -> ends g (Bind (Do ONewLine) k) s o t).
  { intros A k o t H. eapply ends_ok; [apply do_ends; [reflexivity|discriminate]|exact H]. }
  split.
  - intros R. change (ends g (Call CConsumeSemicolon) s (Ok tt) s') in R. apply body_ends in R. cbn [body] in R. unfold consume_semicolon in R.
    apply ends_at in R. destruct (is_punct PSemiColon _) eqn:T.
    + apply bind_ends in R as (i & s1 & P1 & R). apply next_pass in P1. apply ret_ends in R as [_ ->]. apply Operators.is_punct_eq in T. rewrite T in P1. left. exact P1.
    + right. apply at_not in T. split; [exact T|]. apply bind_ends in R as (b & s1 & R1 & R). apply ends_do in R1. injection R1 as <- <-. destruct (st_nl s).
      * apply ret_ends in R as [_ ->]. auto.
      * apply ends_look in R. destruct (is_eof _ || is_punct _ _) eqn:E; [|destruct (no_fail _ _ _ _ _ _ R)]. apply ret_ends in R as [_ ->]. split; [reflexivity|]. right.
        apply orb_prop in E as [E|E]; [left; unfold token_at; destruct (it_tok (st_look s)); try discriminate E; reflexivity|apply Operators.is_punct_eq in E; right; left; symmetry; exact E].
  - intros H. change (ends g (Call CConsumeSemicolon) s (Ok tt) s'). apply ends_body. cbn [body]. unfold consume_semicolon. apply at_ends. destruct H as [P1|(T & -> & H)].
    + pose proof P1 as (T & _). rewrite T, is_it. eapply ends_ok; [eapply pass_next; exact P1|]. apply ends_ret.
    + unfold token_at in *. rewrite is_not by exact T. apply N. destruct (st_nl s); [apply ends_ret|]. apply look_ends. destruct H as [H|H]; [discriminate H|].
      destruct H as [H|[H|[]]]; rewrite <- H; apply ends_ret.
Qed.
Print Assumptions C74_semicolon.
(** [throw]. *)
Theorem C74_throw : forall g s e s', reads g CThrowStmt s e s' <->
  exists s1 s2, passes g (TKeyword KThrow) s s1 /\ reads g CExpression s1 e s2 /\ reads g CConsumeSemicolon s2 tt s'.
Proof.
  intros g s e s'. split.
  - intros R. change (ends g (Call CThrowStmt) s (Ok e) s') in R. apply body_ends in R. cbn [body] in R. unfold throw_stmt in R.
    apply bind_ends in R as (u1 & s1 & P1 & R). apply word_pass in P1. apply bind_ends in R as (a & s2 & R2 & R). apply bind_ends in R as ([] & s3 & R3 & R). apply ret_ends in R as [-> ->].
    exists s1, s2. auto.
  - intros (s1 & s2 & P1 & R2 & R3). change (ends g (Call CThrowStmt) s (Ok e) s'). apply ends_body. cbn [body]. unfold throw_stmt.
    eapply ends_ok; [apply pass_word; exact P1|]. eapply ends_ok; [exact R2|]. eapply ends_ok; [exact R3|]. apply ends_ret.
Qed.
Print Assumptions C74_throw.
(** [break] and [continue]: a name on the same line is the label.  Whether there is such a label, or a loop, is not asked. *)
Theorem C74_jump : forall g k s x s', reads g (COptionallyLabeled k) s x s' <->
  exists s1 s2, passes g (TKeyword k) s s1
    /\ match x with
       | Some w => token_at s1 = TIdent /\ st_nl s1 = false /\ reads g (CVarIdent false) s1 w s2
       | None => (token_at s1 <> TIdent \/ st_nl s1 = true) /\ s2 = s1
       end
    /\ reads g CConsumeSemicolon s2 tt s'.
Proof.
  intros g k s x s'. split.
  - intros R. change (ends g (Call (COptionallyLabeled k)) s (Ok x) s') in R. apply body_ends in R. cbn [body] in R. unfold optionally_labeled in R.
    apply bind_ends in R as (u1 & s1 & P1 & R). apply word_pass in P1. apply ends_look in R. apply bind_ends in R as (b & t1 & R1 & R). apply ends_do in R1. injection R1 as <- <-.
    apply bind_ends in R as (r & s2 & R2 & R). apply bind_ends in R as ([] & s3 & R3 & R). apply ret_ends in R as [-> ->]. exists s1, s2. split; [exact P1|]. split; [|exact R3].
    destruct (is_ident (it_tok (st_look s1)) && negb (st_nl s1)) eqn:E.
    + apply andb_prop in E as [E1 E2]. apply negb_true_iff in E2. apply bind_ends in R2 as (w & s4 & R4 & R2). apply ret_ends in R2 as [-> ->].
      split; [unfold token_at; destruct (it_tok (st_look s1)); try discriminate E1; reflexivity|]. split; [exact E2|exact R4].
    + apply ret_ends in R2 as [-> ->]. split; [|reflexivity]. apply andb_false_iff in E as [E|E]; [left; unfold token_at; intros X; rewrite X in E; discriminate E|right; apply negb_false_iff; exact E].
  - intros (s1 & s2 & P1 & H & R3). change (ends g (Call (COptionallyLabeled k)) s (Ok x) s'). apply ends_body. cbn [body]. unfold optionally_labeled.
    eapply ends_ok; [apply pass_word; exact P1|]. apply look_ends. eapply ends_ok; [apply do_ends; [reflexivity|discriminate]|].
    eapply ends_ok; [|eapply ends_ok; [exact R3|apply ends_ret]]. unfold token_at in H. destruct x as [w|].
    + destruct H as (T & N & R). rewrite T, N. eapply ends_ok; [exact R|]. apply ends_ret.
    + destruct H as [H ->]. replace (is_ident (it_tok (st_look s1)) && negb (st_nl s1)) with false; [apply ends_ret|]. symmetry. apply andb_false_iff.
      destruct H as [H|H]; [left; destruct (it_tok (st_look s1)); try reflexivity; congruence|right; rewrite H; reflexivity].
Qed.
Print Assumptions C74_jump.

(** Concrete cases. *)
Example C74_for_case : let js := "; ; a++) { b }" in exists e t u, reads (ex_cfg js) (CForLoopCont None) (ex_start js) (SFor None None (Some e) t) u /\ token_at u = TEoF.
Proof.
  do 2 eexists. exists (after_call (ex_cfg "; ; a++) { b }") _ (CForLoopCont None) (ex_start "; ; a++) { b }")). split; [runs|vm_compute; reflexivity].
Qed.
Example C74_body_case : let js := ") a = b" in exists t u, looped (ex_cfg js) (ex_start js) t u.
Proof. do 2 eexists. apply C74_body. runs. Qed.
Example C74_semicolon_case : let s := ex_start "}" in reads (ex_cfg "}") CConsumeSemicolon s tt s /\ st_nl s = false.
Proof. split; [apply C74_semicolon; right; split; [vm_compute; discriminate|split; [reflexivity|right; right; left; vm_compute; reflexivity]]|vm_compute; reflexivity]. Qed.
Example C74_semicolon_needed : exists e s', returns (fun n => run_call (@body) (ex_cfg "throw a b") n CThrowStmt (ex_start "throw a b")) (Err e) s'.
Proof. do 2 eexists. split; [discriminate|]. exists 100. vm_compute. reflexivity. Qed.
Example C74_throw_case : let js := "throw a, b;" in exists x y t, reads (ex_cfg js) CThrowStmt (ex_start js) (ESequence [x; y]) t.
Proof. do 3 eexists. runs. Qed.
Example C74_jump_case : exists w t t', reads (ex_cfg "break a;") (COptionallyLabeled KBreak) (ex_start "break a;") (Some w) t
  /\ reads (ex_cfg "continue }") (COptionallyLabeled KContinue) (ex_start "continue }") None t'.
Proof. do 3 eexists. split; runs. Qed.
