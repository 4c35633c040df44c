(** C64: blocks, function bodies and clauses. *)
From Verif Require Import Properties15.
From Verif Require Export Lexer Spec Runs Safe Blocks Properties1 Properties2 Properties3 Properties5 Properties21 Properties22.
Local Open Scope string_scope.
Local Open Scope list_scope.

(** *** C64
    Parts yielded by the iterator, none of which starts with one of the given tokens. *)
Inductive yields_before (g : cfg) (T : list token) : state -> list ProgramPart -> state -> Prop :=
| before_nil s : yields_before g T s [] s
| before_cons s p s1 l s2 : ~ In (it_tok (st_look s)) T -> next_returns g s (Some (Ok p)) s1 -> yields_before g T s1 l s2 ->
    yields_before g T s (p :: l) s2.
(** A program read there, that is one where a string may be a directive. *)
Definition from_the_start (s : state) : state := upd_ctx (set_past_prolog false) s.
(** Inside a function: [return] is allowed, and the labels outside are not in scope. *)
Definition in_function (s : state) : state := upd_ctx (fun c => set_in_function_body true (set_label_set [] c)) s.
(** Outside again. *)
Definition left_function (s0 s : state) : state :=
  upd_ctx (fun c => set_in_function_body (c_in_function_body (st_ctx s0)) (set_label_set (c_label_set (st_ctx s0)) c)) s.
Definition is_directive (p : ProgramPart) : Prop := exists w l, p = PPDir w l.

Lemma yields_all g s l s' : yields g s l s' <-> yields_before g [] s l s'.
Proof. split; intros H; induction H; econstructor; eauto. Qed.
Lemma no_dir s : ~ may_be_directive s -> no_directive s.
Proof. apply not_directive. Qed.
Lemma no_directive_sames s t : sames s t -> c_past_prolog (st_ctx t) = true -> no_directive t.
Proof. left. assumption. Qed.
Lemma before_items g T stop s l s' : (forall u p u', ends g (Call CStatementListItem) u (Ok p) u' -> ~ In (it_tok (st_look u)) T -> stop (it_tok (st_look u)) = false) ->
  yields_before g T s l s' -> no_directive s -> forall t, sames s t -> exists t', items g stop t l t' /\ sames s' t'.
Proof.
  intros Hs H. induction H as [s|s p s1 l s2 N R _ IH]; intros D t Q.
  - exists t. split; [constructor|exact Q].
  - destruct (next_item_ends g s (Ok p) s1 D R) as [E R1].
    destruct (item_sames g _ t _ _ (sames_trans _ _ _ (sames_sym _ _ (past_sames true s)) Q) R1) as (t1 & R2 & Q1).
    destruct (IH (or_introl (item_past g _ _ _ R1)) t1 Q1) as (t' & I & Q'). exists t'. split; [|exact Q'].
    econstructor; [|exact R2|exact I]. rewrite (sames_look _ _ Q). apply (Hs (upd_ctx (set_past_prolog true) s) p s1 R1). exact N.
Qed.
Lemma items_before g T stop s l s' : (forall t, stop t = false -> ~ In t T) ->
  items g stop s l s' -> forall t, no_directive t -> sames s t -> exists t', yields_before g T t l t' /\ sames s' t'.
Proof.
  intros Hs H. induction H as [s|s p s1 l s2 N R _ IH]; intros t D Q.
  - exists t. split; [constructor|exact Q].
  - destruct (item_sames g _ (upd_ctx (set_past_prolog true) t) _ _ (sames_trans _ _ _ Q (past_sames true t)) R) as (t1 & R2 & Q1).
    destruct (IH t1 (or_introl (item_past g _ _ _ R2)) Q1) as (t' & I & Q'). exists t'. split; [|exact Q'].
    pose proof (sames_look _ _ Q) as L. econstructor; [rewrite L; apply Hs; exact N| |exact I].
    apply ends_next_item; [exact D| |exact R2]. rewrite L. eapply item_not_eof; exact R.
Qed.

Definition block_step (ret : list ProgramPart) : P (list ProgramPart + list ProgramPart) :=
  ifM at_punct PCloseBrace then Ret (inr ret) else p <- Call CStatementListItem ;; Ret (inl (ret ++ [p])).
Lemma block_step_run g n acc s : run_in g n (@run_call call (@body) g n) (block_step acc) s
  = if is_punct PCloseBrace (it_tok (st_look s)) then (Ok (inr acc), s)
    else run_in g n (@run_call call (@body) g n) (p <- Call CStatementListItem ;; Ret (inl (acc ++ [p]))) s.
Proof. unfold block_step, at_punct, look_tok, look. cbn [run_in exec]. destruct (is_punct PCloseBrace _); reflexivity. Qed.
Lemma block_part g s o s' : it_tok (st_look s) = TPunct POpenBrace ->
  ends g (Call CBlock) (at_statement s) o s' ->
  next_returns g s (Some (match o with Ok b => Ok (PPStmt (SBlock b)) | Err e => Err e | Panic => Panic | NoFuel => NoFuel end)) s'.
Proof.
  intros T [N [n R]]. apply ends_next_item; [right; rewrite T; reflexivity|rewrite T; reflexivity|].
  assert (R' : run_call (@body) g n CBlock (at_statement s) = (o, s')) by exact R.
  split; [destruct o; try discriminate; contradiction|]. exists (S (S n)).
  transitivity (run_in g (S n) (@run_call call (@body) g (S n)) statement_list_item (upd_ctx (set_past_prolog true) s)); [reflexivity|].
  unfold statement_list_item, set_target_binding, upd, look_tok, look. cbn [run_in exec].
  change (upd_ctx _ (upd_ctx _ s)) with (at_statement s). change (st_look (at_statement s)) with (st_look s). rewrite T. cbn [run_in].
  replace (run_call (@body) g (S n) CStatement (at_statement s))
    with (match o with Ok b => Ok (SBlock b) | Err e => Err e | Panic => Panic | NoFuel => NoFuel end, s'); [destruct o; reflexivity|].
  symmetry. transitivity (run_in g n (@run_call call (@body) g n) statement (at_statement s)); [reflexivity|].
  unfold statement, look_tok, look. cbn [run_in exec]. change (st_look (at_statement s)) with (st_look s). rewrite T. cbn [run_in]. rewrite R'. destruct o; reflexivity.
Qed.
Lemma part_block g s b s' : it_tok (st_look s) = TPunct POpenBrace -> next_returns g s (Some (Ok (PPStmt (SBlock b)))) s' ->
  ends g (Call CBlock) (at_statement s) (Ok b) s'.
Proof.
  intros T R. apply next_item_ends in R as [_ R]; [|right; rewrite T; reflexivity]. apply body_ends in R. destruct R as [_ [n R]].
  cbn [body] in R. unfold statement_list_item, set_target_binding, upd, look_tok, look in R. cbn [run_in exec] in R.
  change (upd_ctx _ (upd_ctx _ s)) with (at_statement s) in R. change (st_look (at_statement s)) with (st_look s) in R. rewrite T in R. cbn [run_in] in R.
  destruct n as [|n]; [discriminate R|]. cbn [run_call body] in R.
  unfold statement at 1 in R. unfold look_tok at 1, look at 1 in R. cbn [run_in exec] in R. change (st_look (at_statement s)) with (st_look s) in R. rewrite T in R. cbn [run_in] in R.
  destruct (run_call (@body) g n CBlock (at_statement s)) as [[x|?| |] t] eqn:E; inversion R; subst. split; [discriminate|]. exists n. exact E.
Qed.
Lemma at_statement_sames s : sames s (at_statement s).
Proof. apply same_sames. apply to_statement. Qed.
Lemma no_directive_look s t : st_look t = st_look s -> c_past_prolog (st_ctx t) = c_past_prolog (st_ctx s) -> no_directive s -> no_directive t.
Proof. unfold no_directive. intros -> ->. auto. Qed.

(** A block is what the iterator yields between its braces. *)
Theorem C64_block : forall g s s1 l s2 s3, passes g (TPunct POpenBrace) s s1 -> ~ may_be_directive s1 ->
  yields g s1 l s2 -> passes g (TPunct PCloseBrace) s2 s3 ->
  exists s', next_returns g s (Some (Ok (PPStmt (SBlock l)))) s' /\ same_but_6 s3 s'.
Proof.
  intros g s s1 l s2 s3 P1 D Y P2.
  destruct (passes_sames g _ s s1 (at_statement s) P1 (at_statement_sames s)) as (t1 & (T1 & i & N1) & Q1).
  destruct (before_items g [] (is_punct PCloseBrace) s1 l s2) with (t := t1) as (t2 & I & Q2);
    [intros u p u' R _; eapply item_not_brace; exact R|apply yields_all; exact Y|apply no_dir; exact D|exact Q1|].
  destruct (passes_sames g _ s2 s3 t2 P2 Q2) as (t3 & (T3 & j & N3) & Q3).
  exists t3. split; [|apply same_sames; exact Q3].
  apply (block_part g s (Ok l) t3); [exact (proj1 P1)|]. apply ends_body. cbn [body]. unfold block.
  eapply ends_ok; [eapply expect_ends; [exact T1|exact N1]|]. eapply ends_ok.
  - apply (list_ok g (is_punct PCloseBrace) block_step (block_step_run g) t1 l t2 I); rewrite T3; reflexivity.
  - eapply ends_ok; [eapply expect_ends; [exact T3|exact N3]|]. apply ends_ret.
Qed.
Print Assumptions C64_block.
(** And an error the iterator reports there is the error of the block. *)
Theorem C64_block_error : forall g s s1 l s2 e s3, passes g (TPunct POpenBrace) s s1 -> ~ may_be_directive s1 ->
  yields g s1 l s2 -> it_tok (st_look s2) <> TPunct PCloseBrace -> next_returns g s2 (Some (Err e)) s3 ->
  exists s', next_returns g s (Some (Err e)) s' /\ same_but_6 s3 s'.
Proof.
  intros g s s1 l s2 e s3 P1 D Y B X.
  assert (D2 : no_directive s2).
  { apply no_dir in D. clear - D Y. revert D. induction Y as [s|s p s1 l s2 R _ IH]; intros D; [exact D|].
    apply IH. apply (next_item_ends g s (Ok p) s1 D) in R as [_ R]. left. exact (item_past g _ _ _ R). }
  destruct (passes_sames g _ s s1 (at_statement s) P1 (at_statement_sames s)) as (t1 & (T1 & i & N1) & Q1).
  destruct (before_items g [] (is_punct PCloseBrace) s1 l s2) with (t := t1) as (t2 & I & Q2);
    [intros u p u' R _; eapply item_not_brace; exact R|apply yields_all; exact Y|apply no_dir; exact D|exact Q1|].
  apply (next_item_ends g s2 _ s3 D2) in X as [_ X].
  destruct (item_sames g _ t2 _ _ (sames_trans _ _ _ (sames_sym _ _ (past_sames true s2)) Q2) X) as (t3 & X' & Q3).
  exists t3. split; [|apply same_sames; exact Q3].
  apply (block_part g s (Err e) t3); [exact (proj1 P1)|]. apply ends_body. cbn [body]. unfold block.
  eapply ends_ok; [eapply expect_ends; [exact T1|exact N1]|]. apply ends_err.
  eapply (list_err g (is_punct PCloseBrace) block_step (block_step_run g) t1 l t2 e t3 I); [|exact X'].
  rewrite (sames_look _ _ Q2). destruct (is_punct PCloseBrace _) eqn:E; [apply is_punct_tok in E; contradiction|reflexivity].
Qed.
Print Assumptions C64_block_error.
(** Conversely the parts of any block are yielded by the iterator set between the braces. *)
Theorem C64_from_block : forall g s s1 l s', passes g (TPunct POpenBrace) s s1 -> ~ may_be_directive s1 ->
  next_returns g s (Some (Ok (PPStmt (SBlock l)))) s' ->
  exists s2 s3, yields g s1 l s2 /\ passes g (TPunct PCloseBrace) s2 s3 /\ same_but_6 s3 s'.
Proof.
  intros g s s1 l s' P1 D R. apply (part_block g s l s' (proj1 P1)) in R.
  destruct (passes_sames g _ s s1 (at_statement s) P1 (at_statement_sames s)) as (t1 & (T1 & i & N1) & Q1).
  apply body_ends in R. cbn [body] in R. unfold block in R.
  apply bind_ends in R as (u1 & v1 & R1 & R). apply ends_expect in R1 as (_ & i' & N1'). rewrite N1 in N1'. injection N1' as _ E1. subst v1.
  apply bind_ends in R as (r & t2 & R2 & R). apply (list_inv g (is_punct PCloseBrace) block_step (block_step_run g)) in R2 as (l' & E2 & I & St).
  cbn [app] in E2. subst r. apply bind_ends in R as (u3 & t3 & R3 & R). apply ends_expect in R3 as (T3 & j & N3).
  assert (E3 : l' = l /\ t3 = s') by (destruct R as [_ [n R]]; cbn in R; inversion R; auto). destruct E3 as [-> ->].
  destruct (items_before g [] (is_punct PCloseBrace) t1 l t2) with (t := s1) as (s2 & Y & Q2);
    [intros ? _ []|exact I|apply no_dir; exact D|apply sames_sym; exact Q1|].
  destruct (passes_sames g (TPunct PCloseBrace) t2 s' s2 (conj T3 (ex_intro _ j N3)) Q2) as (s3 & P3 & Q3).
  exists s2, s3. split; [apply yields_all; exact Y|]. split; [exact P3|]. apply same_sames. apply sames_sym. exact Q3.
Qed.
Print Assumptions C64_from_block.

Definition pasts : state -> state -> Prop := shifted but_past.
Definition directive_step (ret : list ProgramPart) : P (list ProgramPart + list ProgramPart) :=
  t <- look_tok ;; if is_string t then d <- Call CDirective ;; Ret (inl (ret ++ [d])) else Ret (inr ret).
Lemma ok_step g n A B (p : P A) (k : A -> P B) s b s' : run_in g n (@run_call call (@body) g n) (Bind p k) s = (Ok b, s') ->
  exists a s1, run_in g n (@run_call call (@body) g n) p s = (Ok a, s1) /\ run_in g n (@run_call call (@body) g n) (k a) s1 = (Ok b, s').
Proof. apply ok_first. Qed.
Lemma item_plain g s p s' : ends g (Call CStatementListItem) s (Ok p) s' -> ~ is_directive p.
Proof.
  intros R (w & l & ->). apply body_ends in R. destruct R as [_ [n R]]. cbn [body] in R. unfold statement_list_item in R.
  apply ok_step in R as (? & ? & _ & R). apply ok_step in R as (t & ? & _ & R).
  assert (K : forall A (c : P A) (f : A -> ProgramPart) u, (forall a, ~ is_directive (f a)) ->
    run_in g n (@run_call call (@body) g n) (a <- c ;; Ret (f a)) u <> (Ok (PPDir w l), s')).
  { intros A c f u H X. apply ok_step in X as (a & ? & _ & X). cbn [run_in] in X. injection X as X _. apply (H a). exists w, l. exact X. }
  assert (K1 : forall A (f : A -> ProgramPart), (forall a, match f a with PPDir _ _ => False | _ => True end) -> forall a, ~ is_directive (f a)).
  { intros A f H a (w' & l' & E). specialize (H a). rewrite E in H. exact H. }
  destruct t as [| | | | | | |k| | |]; try (eapply K; [|exact R]; apply K1; intros; exact I).
  destruct k; try (eapply K; [|exact R]; apply K1; intros; exact I).
  all: apply ok_step in R as ([] & ? & _ & R); eapply K; try exact R; apply K1; intros; exact I.
Qed.
Lemma directive_part g u p u1 : c_past_prolog (st_ctx u) = false -> next_returns g u (Some (Ok p)) u1 -> is_directive p ->
  is_string (it_tok (st_look u)) = true /\ exists u', ends g (Call CDirective) u (Ok p) u' /\ u1 = upd_ctx (set_past_prolog false) u'.
Proof.
  intros D R P. destruct (is_string (it_tok (st_look u))) eqn:E.
  - split; [reflexivity|]. destruct R as [_ [n R]]. unfold iter_next in R.
    replace (is_eof _) with false in R by (destruct (it_tok (st_look u)); try reflexivity; discriminate E).
    destruct n as [|n]; [discriminate R|]. cbn [run_call body] in R. unfold next_part, get, look_tok, look, upd in R. cbn [run_in exec] in R.
    rewrite D, E in R. cbn [negb andb run_in exec] in R. destruct (run_call (@body) g n CDirective u) as [[q|?| |] u'] eqn:X; try discriminate R.
    cbn [run_in exec] in R. inversion R; subst. destruct P as (w & l & ->). exists u'. split; [|reflexivity]. split; [discriminate|]. exists n. exact X.
  - exfalso. apply (next_item_ends g u (Ok p) u1 (or_intror E)) in R as [_ R]. exact (item_plain g _ _ _ R P).
Qed.
Lemma directive_pasts g u t o u' : pasts u t -> ends g (Call CDirective) u o u' -> exists t', ends g (Call CDirective) t o t' /\ pasts u' t'.
Proof.
  intros H [N [n R]]. cbn [run_in] in R. destruct (call_past g n _ CDirective u t eq_refl H) as [V Q]. rewrite R in V, Q.
  destruct (run_call (@body) g n CDirective t) as [o2 t2] eqn:R2. cbn [fst snd] in V, Q. apply outcomes_eq in V. subst o2.
  exists t2. split; [|exact Q]. split; [exact N|]. exists n. exact R2.
Qed.
Lemma pasts_past b s t : pasts s t -> pasts (upd_ctx (set_past_prolog b) s) t.
Proof.
  intros [H E]. split; [|rewrite E; reflexivity]. cbn. destruct (st_ctx s), (st_ctx t). unfold but_past in *. cbn in *. injection H; clear H; intros; subst. reflexivity.
Qed.
Lemma pasts_sames s t : pasts s t -> sames s t.
Proof. apply past_all. Qed.
Lemma directives_run g u ds u' : yields g u ds u' -> c_past_prolog (st_ctx u) = false -> Forall is_directive ds ->
  is_string (it_tok (st_look u')) = false -> forall t, pasts u t ->
  exists t', pasts u' t' /\ forall acc, ends g (Loop acc directive_step) t (Ok (acc ++ ds)) t'.
Proof.
  induction 1 as [u|u p u1 l u2 R _ IH]; intros D F E t Q; pose proof (sames_look _ _ (pasts_sames _ _ Q)) as L.
  - exists t. split; [exact Q|]. intros acc. rewrite app_nil_r. apply loop_stop. split; [discriminate|]. exists 0.
    unfold directive_step, look_tok, look. cbn [run_in exec]. rewrite L, E. reflexivity.
  - inversion F; subst. destruct (directive_part g u p u1 D R) as (St & v & X & ->); [assumption|].
    destruct (directive_pasts g u t _ v Q X) as (t1 & X' & Q1).
    destruct (IH eq_refl) with (t := t1) as (t' & Q' & K); [assumption|assumption|apply pasts_past; exact Q1|].
    exists t'. split; [exact Q'|]. intros acc. replace (acc ++ p :: l) with ((acc ++ [p]) ++ l) by (rewrite <- app_assoc; reflexivity).
    eapply loop_next; [|apply K]. unfold directive_step. apply (ends_ok g token _ look_tok _ t (it_tok (st_look t)) t).
    + split; [discriminate|]. exists 0. reflexivity.
    + cbn beta. rewrite L, St. eapply ends_ok; [exact X'|apply ends_ret].
Qed.
Definition body_step (b : list ProgramPart) : P (list ProgramPart + list ProgramPart) :=
  t <- look_tok ;;
  if is_eof t then Ret (inr b)
  else if is_punct PCloseBrace t then Ret (inr b)
  else p <- Call CStatementListItem ;; Ret (inl (b ++ [p])).
Definition body_stop (t : token) : bool := is_eof t || is_punct PCloseBrace t.
Lemma body_step_run g n acc s : run_in g n (@run_call call (@body) g n) (body_step acc) s
  = if body_stop (it_tok (st_look s)) then (Ok (inr acc), s)
    else run_in g n (@run_call call (@body) g n) (p <- Call CStatementListItem ;; Ret (inl (acc ++ [p]))) s.
Proof. unfold body_step, body_stop, look_tok, look. cbn [run_in exec]. destruct (is_eof _), (is_punct PCloseBrace _); reflexivity. Qed.
Definition enter (c : ctx) : ctx := set_in_function_body true (set_in_switch false (set_in_iteration false (set_label_set [] c))).
Definition leave (prev c : ctx) : ctx :=
  set_in_function_body (c_in_function_body prev) (set_in_switch (c_in_switch prev) (set_in_iteration (c_in_iteration prev) (set_label_set (c_label_set prev) c))).
Lemma enter_sames s t : sames s t -> sames (in_function s) (upd_ctx enter t).
Proof.
  intros [H E]. split; [|rewrite E; reflexivity]. cbn. destruct (st_ctx s), (st_ctx t). unfold but_all in *. cbn in *. injection H; clear H; intros; subst. reflexivity.
Qed.
Lemma leave_sames s0 t0 s t : sames s0 t0 -> sames s t -> sames (left_function s0 s) (upd_ctx (leave (st_ctx t0)) t).
Proof.
  intros [H0 _] [H E]. split; [|rewrite E; reflexivity]. cbn. destruct (st_ctx s), (st_ctx t), (st_ctx s0), (st_ctx t0). unfold but_all in *. cbn in *.
  injection H; clear H; intros; subst. injection H0; clear H0; intros; subst. reflexivity.
Qed.
Lemma start_pasts s : pasts (from_the_start s) s.
Proof. split; [|destruct s; reflexivity]. cbn. destruct (st_ctx s). reflexivity. Qed.

(** A function body is a program: its directives, then, with [return] allowed and no labels, the
    parts the iterator yields. *)
Theorem C64_function_body : forall g s s1 ds s2 l s3 s4, passes g (TPunct POpenBrace) s s1 ->
  yields g (from_the_start s1) ds s2 -> Forall is_directive ds -> is_string (it_tok (st_look s2)) = false ->
  yields g (in_function s2) l s3 -> passes g (TPunct PCloseBrace) s3 s4 ->
  exists s', returns (fun n => run_call (@body) g n CFunctionSourceEl s) (Ok (ds ++ l)) s' /\ same_but_6 (left_function s2 s4) s'.
Proof.
  intros g s s1 ds s2 l s3 s4 (T1 & i & N1) Yd Fd Ed Y P2.
  destruct (directives_run g _ ds s2 Yd eq_refl Fd Ed s1 (start_pasts s1)) as (t2 & Q2 & Rd). apply pasts_sames in Q2.
  destruct (before_items g [] body_stop (in_function s2) l s3) with (t := upd_ctx enter t2) as (t3 & I & Q3);
    [intros u p u' R _; unfold body_stop; rewrite (item_not_eof g _ _ _ R), (item_not_brace g _ _ _ R); reflexivity|apply yields_all; exact Y
    |right; exact Ed|apply enter_sames; exact Q2|].
  destruct (passes_sames g _ s3 s4 t3 P2 Q3) as (t4 & (T4 & j & N4) & Q4).
  exists (upd_ctx (leave (st_ctx t2)) t4). split; [|apply same_sames; apply leave_sames; assumption].
  apply (ends_body g _ CFunctionSourceEl s (Ok (ds ++ l))). cbn [body]. unfold function_source_el.
  eapply ends_ok; [eapply expect_ends; [exact T1|exact N1]|]. eapply ends_ok; [apply ends_body; exact (Rd [])|].
  eapply ends_ok; [apply do_ends; [reflexivity|discriminate]|]. eapply ends_ok; [apply do_ends; [reflexivity|discriminate]|].
  eapply ends_ok; [exact (list_ok g body_stop body_step (body_step_run g) _ l t3 I ltac:(rewrite T4; reflexivity) ds)|].
  eapply ends_ok; [eapply expect_ends; [exact T4|exact N4]|]. eapply ends_ok; [apply do_ends; [reflexivity|discriminate]|]. apply ends_ret.
Qed.
Print Assumptions C64_function_body.
(** Conversely, for a body with no string in front. *)
Theorem C64_from_function_body : forall g s s1 l s', passes g (TPunct POpenBrace) s s1 -> is_string (it_tok (st_look s1)) = false ->
  returns (fun n => run_call (@body) g n CFunctionSourceEl s) (Ok l) s' ->
  exists s2 s3, yields g (in_function s1) l s2 /\ passes g (TPunct PCloseBrace) s2 s3 /\ same_but_6 (left_function s1 s3) s'.
Proof.
  intros g s s1 l s' (T1 & i & N1) D R. apply (body_ends g _ CFunctionSourceEl s (Ok l)) in R. cbn [body] in R. unfold function_source_el in R.
  apply bind_ends in R as (u1 & v1 & R1 & R). apply ends_expect in R1 as (_ & i' & N1'). rewrite N1 in N1'. injection N1' as _ E1. subst v1.
  apply bind_ends in R as (b0 & v2 & R2 & R).
  assert (E2 : b0 = [] /\ v2 = s1).
  { apply body_ends in R2. assert (X : ends g directive_prologues s1 (Ok []) s1).
    { unfold directive_prologues. apply loop_stop. split; [discriminate|]. exists 0. unfold look_tok, look. cbn [run_in exec]. rewrite D. reflexivity. }
    destruct (ends_fun g _ _ _ _ _ _ _ R2 X) as [E ->]. injection E as ->. auto. }
  destruct E2 as [-> ->]. apply bind_ends in R as (prev & v3 & R3 & R). apply ends_do in R3. cbn in R3. injection R3 as <- <-.
  apply bind_ends in R as (u4 & v4 & R4 & R). apply ends_do in R4. cbn [exec] in R4. injection R4 as _ <-. change (upd_ctx _ s1) with (upd_ctx enter s1) in R.
  apply bind_ends in R as (r & t2 & R5 & R). apply (list_inv g body_stop body_step (body_step_run g)) in R5 as (l' & E5 & I & St).
  cbn [app] in E5. subst r. apply bind_ends in R as (u6 & t3 & R6 & R). apply ends_expect in R6 as (T3 & j & N3).
  apply bind_ends in R as (u7 & v7 & R7 & R). apply ends_do in R7. cbn [exec] in R7. injection R7 as _ E7.
  assert (E8 : l' = l /\ v7 = s') by (destruct R as [_ [n R]]; cbn in R; inversion R; auto). destruct E8 as [-> ->].
  destruct (items_before g [] body_stop _ l t2 (fun _ _ F => F) I (in_function s1)) as (s2 & Y & Q2);
    [right; exact D|apply sames_sym; apply enter_sames; apply sames_refl|].
  destruct (passes_sames g (TPunct PCloseBrace) t2 t3 s2 (conj T3 (ex_intro _ j N3)) Q2) as (s3 & P3 & Q3).
  exists s2, s3. split; [apply yields_all; exact Y|]. split; [exact P3|]. apply same_sames. rewrite <- E7.
  exact (leave_sames s1 s1 s3 t3 (sames_refl s1) (sames_sym _ _ Q3)).
Qed.
Print Assumptions C64_from_function_body.

(** A clause of a switch statement: what is yielded up to a closing brace, [case] or [default]. *)
Definition clause_ends : list token := [TPunct PCloseBrace; TKeyword KDefault; TKeyword KCase].
Definition clause_step (acc : list ProgramPart) : P (list ProgramPart + list ProgramPart) :=
  t <- look_tok ;;
  if is_punct PCloseBrace t || is_keyword KDefault t || is_keyword KCase t then Ret (inr acc)
  else p <- Call CStatementListItem ;; Ret (inl (acc ++ [p])).
Definition clause_stop (t : token) : bool := is_punct PCloseBrace t || is_keyword KDefault t || is_keyword KCase t.
Lemma clause_step_run g n acc s : run_in g n (@run_call call (@body) g n) (clause_step acc) s
  = if clause_stop (it_tok (st_look s)) then (Ok (inr acc), s)
    else run_in g n (@run_call call (@body) g n) (p <- Call CStatementListItem ;; Ret (inl (acc ++ [p]))) s.
Proof. unfold clause_step, clause_stop, look_tok, look. cbn [run_in exec]. destruct (_ || _ || _); reflexivity. Qed.
Lemma clause_stop_in t : clause_stop t = true <-> In t clause_ends.
Proof.
  unfold clause_stop, clause_ends. cbn [In]. split.
  - destruct t as [| | | | | | |k|p| |]; try discriminate; [destruct k; try discriminate; tauto|]. cbn. intros H.
    destruct (punct_eqb p PCloseBrace) eqn:E; [apply punct_eqb_eq in E; subst; tauto|]. destruct p; discriminate.
  - intros [<-|[<-|[<-|[]]]]; reflexivity.
Qed.
(** The head of a clause: the test, or [default]. *)
Inductive clause_head (g : cfg) : state -> option Expr -> state -> Prop :=
| head_default s s1 : passes g (TKeyword KDefault) s s1 -> clause_head g s None s1
| head_case s s1 e s2 : passes g (TKeyword KCase) s s1 -> returns (fun n => parse_expression g n s1) (Ok e) s2 -> clause_head g s (Some e) s2.
Theorem C64_clause : forall g s test s1 s2 l s3, clause_head g s test s1 -> passes g (TPunct PColon) s1 s2 -> ~ may_be_directive s2 ->
  yields_before g clause_ends s2 l s3 -> In (it_tok (st_look s3)) clause_ends ->
  exists s', returns (fun n => run_call (@body) g n CSwitchCase s) (Ok (mkCase test l)) s' /\ same_but_6 s3 s'.
Proof.
  intros g s test s1 s2 l s3 Hd (Tc & j & Nc) D Y E.
  destruct (before_items g clause_ends clause_stop s2 l s3) with (t := s2) as (t3 & I & Q3);
    [|exact Y|apply no_dir; exact D|apply sames_refl|].
  { intros u p u' _ N. destruct (clause_stop _) eqn:X; [|reflexivity]. apply clause_stop_in in X. contradiction. }
  exists t3. split; [|apply same_sames; exact Q3]. apply (ends_body g _ CSwitchCase s (Ok (mkCase test l))). cbn [body]. unfold switch_case.
  apply (ends_ok g _ _ _ _ s test s1).
  - destruct Hd as [s s1 (T & i & N)|s u e s1 (T & i & N) R].
    + eapply ends_ok; [split; [discriminate|]; exists 0; reflexivity|]. cbn beta. rewrite T. change (is_keyword KDefault (TKeyword KDefault)) with true. cbv iota.
      eapply ends_ok; [eapply expect_word; [exact T|exact N]|]. apply ends_ret.
    + eapply ends_ok; [split; [discriminate|]; exists 0; reflexivity|]. cbn beta. rewrite T. change (is_keyword KDefault (TKeyword KCase)) with false. cbv iota.
      eapply ends_ok; [eapply expect_word; [exact T|exact N]|]. eapply (ends_ok g _ _ (Call CExpression)); [exact R|]. apply ends_ret.
  - eapply ends_ok; [eapply expect_ends; [exact Tc|exact Nc]|].
    eapply ends_ok; [exact (list_ok g clause_stop clause_step (clause_step_run g) s2 l t3 I ltac:(rewrite (sames_look _ _ Q3); apply clause_stop_in; exact E) [])|].
    apply ends_ret.
Qed.
Print Assumptions C64_clause.

(** Concrete cases.  A block of a declaration, a labelled loop and an expression ended by the brace. *)
Definition after_brace (js : string) : state := snd (next_item (ex_cfg js) (ex_start js)).
Lemma brace_passes js : (match next_item (ex_cfg js) (ex_start js) with (Ok i, _) => is_punct POpenBrace (it_tok i) | _ => false end) = true ->
  passes (ex_cfg js) (TPunct POpenBrace) (ex_start js) (after_brace js).
Proof.
  unfold after_brace. destruct (next_item _ _) as [[i|?| |] t] eqn:N; intros H; try discriminate H.
  assert (E : i = st_look (ex_start js)) by (apply Wp.next_item_ok in N; tauto).
  split; [rewrite <- E; apply is_punct_tok; exact H|]. exists i. exact N.
Qed.
Example C64_case : let js := "{ let a = 1; b: while (a) { break b } f(a) }" in let g := ex_cfg js in exists l s2 s3,
  passes g (TPunct POpenBrace) (ex_start js) (after_brace js) /\ ~ may_be_directive (after_brace js)
  /\ yields g (after_brace js) l s2 /\ passes g (TPunct PCloseBrace) s2 s3
  /\ match l with [PPDecl (DVariable VLet _); PPStmt (SLabeled _ (SWhile _ (SBlock _))); PPStmt (SExpr (ECall _ _))] => True | _ => False end.
Proof.
  intros js g. exists (fst (iterate g 100 3 (after_brace js))), (snd (iterate g 100 3 (after_brace js))),
    (snd (next_item g (snd (iterate g 100 3 (after_brace js))))).
  split; [apply brace_passes; vm_compute; reflexivity|]. split; [intros [_ H]; vm_compute in H; discriminate H|].
  split; [apply iterate_yields|]. split; [split; [vm_compute; reflexivity|eexists; vm_compute; reflexivity]|]. vm_compute. exact I.
Qed.
(** A block in which the second part is refused. *)
Example C64_error_case : let js := "{ a; b c }" in let g := ex_cfg js in exists l s2 e s3,
  passes g (TPunct POpenBrace) (ex_start js) (after_brace js) /\ ~ may_be_directive (after_brace js)
  /\ yields g (after_brace js) l s2 /\ it_tok (st_look s2) <> TPunct PCloseBrace /\ next_returns g s2 (Some (Err e)) s3 /\ List.length l = 1.
Proof.
  intros js g. exists (fst (iterate g 100 1 (after_brace js))), (snd (iterate g 100 1 (after_brace js))). eexists. eexists.
  split; [apply brace_passes; vm_compute; reflexivity|]. split; [intros [_ H]; vm_compute in H; discriminate H|].
  split; [apply iterate_yields|]. split; [vm_compute; discriminate|]. split; [split; [discriminate|exists 100; vm_compute; reflexivity]|]. vm_compute. reflexivity.
Qed.
(** A function body with a directive and a [return]. *)
Example C64_body_case : let js := "{ 'use strict'; return x }" in let g := ex_cfg js in exists ds s2 l s3 s4,
  passes g (TPunct POpenBrace) (ex_start js) (after_brace js) /\ yields g (from_the_start (after_brace js)) ds s2 /\ Forall is_directive ds
  /\ is_string (it_tok (st_look s2)) = false /\ yields g (in_function s2) l s3 /\ passes g (TPunct PCloseBrace) s3 s4
  /\ ds ++ l = [PPDir (str "use strict") (LString (str "'use strict'")); PPStmt (SReturn (Some (EIdent (str "x"))))].
Proof.
  intros js g. set (x := iterate g 100 1 (from_the_start (after_brace js))). set (y := iterate g 100 1 (in_function (snd x))).
  exists (fst x), (snd x), (fst y), (snd y), (snd (next_item g (snd y))).
  split; [apply brace_passes; vm_compute; reflexivity|]. split; [apply iterate_yields|].
  split; [vm_compute; constructor; [eexists; eexists; reflexivity|constructor]|]. split; [vm_compute; reflexivity|].
  split; [apply iterate_yields|]. split; [split; [vm_compute; reflexivity|eexists; vm_compute; reflexivity]|]. vm_compute. reflexivity.
Qed.
(** A clause. *)
Example C64_clause_case : let js := "case 1: a; b; default:" in let g := ex_cfg js in exists test s1 s2 l s3,
  clause_head g (ex_start js) test s1 /\ passes g (TPunct PColon) s1 s2 /\ ~ may_be_directive s2
  /\ yields_before g clause_ends s2 l s3 /\ In (it_tok (st_look s3)) clause_ends
  /\ test = Some (ELiteral (LNumber (str "1"))) /\ l = [PPStmt (SExpr (EIdent (str "a"))); PPStmt (SExpr (EIdent (str "b")))].
Proof.
  intros js g. set (s0 := snd (next_item g (ex_start js))). set (s1 := snd (parse_expression g 100 s0)). set (s2 := snd (next_item g s1)).
  set (x := iter_next g 100 s2). set (y := iter_next g 100 (snd x)).
  exists (Some (ELiteral (LNumber (str "1")))), s1, s2, [PPStmt (SExpr (EIdent (str "a"))); PPStmt (SExpr (EIdent (str "b")))], (snd y).
  split; [apply (head_case g _ s0 _ s1); [split; [vm_compute; reflexivity|eexists; vm_compute; reflexivity]|split; [discriminate|exists 100; vm_compute; reflexivity]]|].
  split; [split; [vm_compute; reflexivity|eexists; vm_compute; reflexivity]|]. split; [intros [_ H]; vm_compute in H; discriminate H|].
  split.
  - apply (before_cons g _ s2 _ (snd x)); [vm_compute; intuition discriminate|split; [discriminate|exists 100; vm_compute; reflexivity]|].
    apply (before_cons g _ (snd x) _ (snd y)); [vm_compute; intuition discriminate|split; [discriminate|exists 100; vm_compute; reflexivity]|]. constructor.
  - split; [vm_compute; tauto|]. split; reflexivity.
Qed.
(** The two differ for strings in front that are no directives: after one a program has no more
    directives, a function body does. *)
Theorem C64_prologue_needed : exists w l1 l2,
  fst (parse (ex_cfg "'a' + b; 'c'") 100 (ex_start "'a' + b; 'c'")) = Ok (PScript [PPStmt (SExpr w); PPStmt (SExpr (ELiteral l1))])
  /\ fst (run_call (@body) (ex_cfg "{ 'a' + b; 'c' }") 100 CFunctionSourceEl (ex_start "{ 'a' + b; 'c' }")) = Ok [PPStmt (SExpr w); PPDir l2 l1].
Proof. do 3 eexists. split; vm_compute; reflexivity. Qed.
Print Assumptions C64_prologue_needed.
(** And for a string in front of a block, which is no directive either. *)
Theorem C64_directive_needed : exists w,
  fst (parse (ex_cfg "'a'") 100 (ex_start "'a'")) = Ok (PScript [PPDir (str "a") (LString w)])
  /\ fst (parse (ex_cfg "{ 'a' }") 100 (ex_start "{ 'a' }")) = Ok (PScript [PPStmt (SBlock [PPStmt (SExpr (ELiteral (LString w)))])]).
Proof. eexists. split; vm_compute; reflexivity. Qed.
Print Assumptions C64_directive_needed.
