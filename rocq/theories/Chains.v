(** Calls, members and tagged templates: what follows the head of a left-hand side, link by link. *)
From Verif Require Import Spec Runs Meta Handed Operators Forward.
From Verif Require Export Lists.
Local Open Scope list_scope.

Definition with_in (b : bool) (s : state) : state := upd_ctx (set_allow_in b) s.

Section Chains.
  Variable g : cfg.
  Notation ends := (ends g).
  Notation js := (g_stream g).
  Hypothesis strict : g_tolerant g = false.

  (** *** Templates *)
  Ltac hd p := lazymatch p with ?f _ => hd f | _ => p end.
  Ltac all_step := cbn zeta; lazymatch goal with
    | |- rel _ _ _ _ _ (Ret _) (Ret _) => apply rel_ret; reflexivity
    | |- rel _ _ _ _ _ (Fail _) (Fail _) => apply rel_fail
    | |- rel _ _ _ _ _ Crash Crash => apply rel_crash
    | |- rel _ _ _ _ ?W (@Bind _ ?A ?B _ _) (Bind _ _) => apply (rel_bind g but_all _ _ A B eq W); [|intros ? ? <-]
    | |- rel _ _ _ _ _ (@Loop _ ?A ?X _ _) (Loop _ _) => apply (rel_loop g but_all _ _ X A eq); [reflexivity|intros ? ? <-]
    | |- rel _ _ _ _ _ (Do _) _ => apply rel_do; exact Logic.I
    | |- rel _ _ _ _ _ (match ?x with _ => _ end) (match ?x with _ => _ end) => destruct x
    | |- rel _ _ _ _ _ ?p ?q => let h := hd p in unfold h
    end.
  Lemma template_element_all n : forall s1 s2, sames s1 s2 ->
    agrees but_all eq (run_call (@body) g n CTemplateElement s1) (run_call (@body) g n CTemplateElement s2).
  Proof.
    destruct n as [|n]; [intros s1 s2 H; split; [exact Logic.I|exact H]|]. intros s1 s2 H. cbn [run_call body].
    revert s1 s2 H. change (rel g but_all n (@run_call call (@body) g n) eq template_element template_element).
    repeat all_step.
  Qed.
  Lemma template_all n : forall s1 s2, sames s1 s2 ->
    agrees but_all eq (run_call (@body) g n CTemplateLiteral s1) (run_call (@body) g n CTemplateLiteral s2).
  Proof.
    destruct n as [|n]; [intros s1 s2 H; split; [exact Logic.I|exact H]|]. intros s1 s2 H. cbn [run_call body].
    revert s1 s2 H. change (rel g but_all n (@run_call call (@body) g n) eq template_literal template_literal).
    repeat first [lazymatch goal with
      | |- rel _ _ _ _ _ (Call CTemplateElement) _ => exact (template_element_all n)
      | |- rel _ _ _ _ _ (Call CExpression) _ => exact (expression_all g n)
      end|all_step].
  Qed.
  Lemma ends_all B (c : call B) : (forall n s1 s2, sames s1 s2 -> agrees but_all eq (run_call (@body) g n c s1) (run_call (@body) g n c s2)) ->
    forall s a s' t, ends (Call c) s (Ok a) s' -> sames s t -> exists t', ends (Call c) t (Ok a) t' /\ sames s' t'.
  Proof.
    intros K s a s' t [_ [n R]] H. cbn [run_in] in R. destruct (K n s t H) as [V Q]. rewrite R in V, Q.
    destruct (run_call (@body) g n c t) as [o t'] eqn:R2. cbn [fst snd] in V, Q. apply outcomes_eq in V. subst o.
    exists t'. split; [split; [discriminate|exists n; exact R2]|exact Q].
  Qed.

  (** *** The head *)
  Definition head_call (t : token) : call Expr := if is_keyword KNew t then CNewExpr else CPrimaryExpression.
  Definition head (s : state) (e : Expr) (s' : state) : Prop :=
    exists u, ends (Call (head_call (it_tok (st_look s)))) (cleared s) (Ok e) u /\ sames u s'.
  Lemma head_moved s e s' t : head s e s' -> sames s t -> exists u, ends (Call (head_call (it_tok (st_look t)))) (cleared t) (Ok e) u /\ sames s' u.
  Proof.
    intros (u & [_ [n R]] & Q) H. cbn [run_in] in R. rewrite (sames_tok _ _ H).
    assert (K : shifted but_past (cleared s) (cleared t)).
    { destruct H as [H E]. split; [|rewrite E; reflexivity]. cbn.
      destruct (st_ctx s), (st_ctx t). unfold but_all in H. cbn in H. injection H; clear H; intros; subst. reflexivity. }
    assert (J : inner (head_call (it_tok (st_look s))) = true) by (unfold head_call; destruct (is_keyword _ _); reflexivity).
    destruct (call_past g n _ _ _ _ J K) as [V L]. rewrite R in V, L.
    destruct (run_call (@body) g n _ (cleared t)) as [[a|y| |] t1] eqn:R2; cbn [fst snd outcomes] in V, L; try contradiction. subst a.
    exists t1. split; [split; [discriminate|exists n; exact R2]|]. apply past_all in L. eapply sames_trans; [apply sames_sym; exact Q|exact L].
  Qed.
  Lemma head_from s e s' t : head s e s' -> sames s t -> head t e s'.
  Proof. intros E H. destruct (head_moved _ _ _ _ E H) as (u & R & Q). exists u. split; [exact R|apply sames_sym; exact Q]. Qed.
  Definition head_prog : P Expr := inheriting (ifM at_keyword KNew then Call CNewExpr else Call CPrimaryExpression).
  Lemma head_step s : forall o s', ends (ifM at_keyword KNew then Call CNewExpr else Call CPrimaryExpression) s o s' <-> ends (Call (head_call (it_tok (st_look s)))) s o s'.
  Proof.
    intros o s'. unfold head_call, at_keyword, look_tok, look. split; intros [N [n R]]; (split; [exact N|]); exists n; cbn [run_in exec] in *; destruct (is_keyword KNew _); exact R.
  Qed.
  Lemma head_run s e s' t : head s e s' -> sames s t -> exists t', ends head_prog t (Ok e) t' /\ sames s' t'.
  Proof.
    intros E H. destruct (head_moved s e s' t E H) as (u & R & Q). change (it_tok (st_look t)) with (it_tok (st_look (cleared t))) in R. apply head_step in R.
    destruct R as [_ [n R]]. unfold cleared in R.
    eexists. split; [split; [discriminate|]; exists n; unfold head_prog, inheriting, inherit_cover, isolate_cover, get_cover, set_inherit_cover, upd|].
    - cbn [run_in exec] in R |- *. rewrite R. reflexivity.
    - eapply sames_trans; [exact Q|]. split; [|reflexivity]. cbn. destruct (st_ctx u). reflexivity.
  Qed.
  Lemma run_head s e s' : ends head_prog s (Ok e) s' -> head s e s'.
  Proof.
    intros R. unfold head_prog, inheriting in R. apply bind_ends in R as (cg & s1 & R1 & R). destruct R1 as [_ [n R1]].
    unfold inherit_cover, isolate_cover, get_cover, upd in R1. cbn [run_in exec] in R1. injection R1 as <- <-. change (upd_ctx _ s) with (cleared s) in R.
    apply bind_ends in R as (a & s2 & R2 & R). apply head_step in R2. apply bind_ends in R as (u & s3 & R3 & R). apply ret_ends in R as [-> ->].
    exists s2. split; [exact R2|]. destruct R3 as [_ [k R3]]. unfold set_inherit_cover, upd in R3. cbn [run_in exec] in R3. injection R3 as _ <-.
    split; [|reflexivity]. cbn. destruct (st_ctx s2). reflexivity.
  Qed.

  (** *** The links *)
  Definition linker (t : token) : bool := is_punct PPeriod t || is_punct POpenParen t || is_punct POpenBracket t || is_template_head t.
  Inductive chain : state -> Expr -> Expr -> state -> Prop :=
  | chain_end s e s' : sames s s' -> linker (it_tok (st_look s)) = false -> chain s e e s'
  | chain_dot s s1 s2 w e x s' : passes g (TPunct PPeriod) s s1 -> passes g (it_tok (st_look s1)) s1 s2 ->
      slice js (it_start (st_look s1)) (it_end (st_look s1)) = Some w -> chain s2 (EMember e (EIdent w) false) x s' -> chain s e x s'
  | chain_call s s1 l s2 s3 e x s' : passes g (TPunct POpenParen) s s1 -> argl g s1 l s2 -> passes g (TPunct PCloseParen) s2 s3 ->
      chain s3 (ECall e l) x s' -> chain s e x s'
  | chain_index s s1 p s2 s3 e x s' : passes g (TPunct POpenBracket) s s1 -> ends (Call CExpression) s1 (Ok p) s2 -> passes g (TPunct PCloseBracket) s2 s3 ->
      chain s3 (EMember e p true) x s' -> chain s e x s'
  | chain_template s q s1 e x s' : is_template_head (it_tok (st_look s)) = true -> ends (Call CTemplateLiteral) s (Ok q) s1 ->
      chain s1 (ETaggedTemplate e q) x s' -> chain s e x s'.
  Lemma val_from s e s' t : val g s e s' -> sames s t -> val g t e s'.
  Proof.
    intros [E|(s1 & a & P & E & ->)] H; [left; eapply elem_from; eauto|]. right. destruct (passes_sames _ _ _ _ _ P H) as (t1 & P1 & H1).
    exists t1, a. split; [exact P1|]. split; [eapply elem_from; eauto|reflexivity].
  Qed.
  Lemma argl_from s l s' t : argl g s l s' -> sames s t -> argl g t l s'.
  Proof.
    intros A H. destruct A as [s s' Q T|s e s1 s' V T Q|s e s1 s2 l s' V P1 A].
    - constructor; [eapply sames_trans; [apply sames_sym; exact H|exact Q]|rewrite (sames_tok _ _ H); exact T].
    - eapply argl_last; eauto using val_from.
    - eapply argl_more; eauto using val_from.
  Qed.
  Lemma chain_from s e x s' : chain s e x s' -> forall t, sames s t -> chain t e x s'.
  Proof.
    induction 1 as [s e s' Q N|s s1 s2 w e x s' P1 P2 W C IH|s s1 l s2 s3 e x s' P1 A P2 C IH|s s1 p s2 s3 e x s' P1 R P2 C IH|s q s1 e x s' T R C IH]; intros t H.
    - apply chain_end; [eapply sames_trans; [apply sames_sym; exact H|exact Q]|rewrite (sames_tok _ _ H); exact N].
    - destruct (passes_sames _ _ _ _ _ P1 H) as (t1 & P1' & H1). destruct (passes_sames _ _ _ _ _ P2 H1) as (t2 & P2' & H2).
      eapply chain_dot; [exact P1'|rewrite (sames_tok _ _ H1); exact P2'|rewrite (sames_look _ _ H1); exact W|apply IH; exact H2].
    - destruct (passes_sames _ _ _ _ _ P1 H) as (t1 & P1' & H1). eapply chain_call; [exact P1'|eapply argl_from; eauto|exact P2|exact C].
    - destruct (passes_sames _ _ _ _ _ P1 H) as (t1 & P1' & H1). destruct (ends_all _ _ (expression_all g) _ _ _ _ R H1) as (t2 & R' & H2).
      destruct (passes_sames _ _ _ _ _ P2 H2) as (t3 & P3 & H3). eapply chain_index; [exact P1'|exact R'|exact P3|apply IH; exact H3].
    - destruct (ends_all _ _ template_all _ _ _ _ R H) as (t1 & R' & H1). eapply chain_template; [rewrite (sames_tok _ _ H); exact T|exact R'|apply IH; exact H1].
  Qed.
  Definition link_step (expr : Expr) : P (Expr + Expr) :=
    t <- look_tok ;;
    if is_punct PPeriod t then
      set_target_binding true false ;;
      expect_punct PPeriod ;;
      prop <- Call CIdentName ;;
      Ret (inl (EMember expr (EIdent prop) false))
    else if is_punct POpenParen t then
      current_pos <- Do OLookPos ;;
      not_target ;;
      args <- Call CArgs ;;
      fat <- at_punct PFatArrow ;;
      Ret (inl (ECall expr args))
    else if is_punct POpenBracket t then
      set_target_binding true false ;;
      prop <- computed_member ;;
      Ret (inl (EMember expr prop true))
    else if is_template_head t then
      quasi <- Call CTemplateLiteral ;;
      Ret (inl (ETaggedTemplate expr quasi))
    else Ret (inr expr).
  Lemma target_ends a b s : exists s', ends (set_target_binding a b) s (Ok tt) s' /\ sames s s'.
  Proof. eexists. split; [split; [discriminate|]; exists 0; reflexivity|]. apply target_sames. Qed.
  Lemma ends_target a b s u s' : ends (set_target_binding a b) s (Ok u) s' -> sames s s'.
  Proof. intros R. destruct (target_ends a b s) as (t & R2 & Q). destruct (ends_fun _ _ _ _ _ _ _ _ R R2) as [_ ->]. exact Q. Qed.
  Lemma name_run s s' w : passes g (it_tok (st_look s)) s s' -> slice js (it_start (st_look s)) (it_end (st_look s)) = Some w -> ends (Call CIdentName) s (Ok w) s'.
  Proof.
    intros P W. apply ends_body. cbn [body]. unfold ident_name. eapply ends_ok; [eapply pass_next; exact P|]. split; [discriminate|]. exists 0.
    unfold get_string. cbn [run_in exec]. rewrite W. reflexivity.
  Qed.
  Lemma run_name s s' w : ends (Call CIdentName) s (Ok w) s' -> passes g (it_tok (st_look s)) s s' /\ slice js (it_start (st_look s)) (it_end (st_look s)) = Some w.
  Proof.
    intros R. apply body_ends in R. cbn [body] in R. unfold ident_name in R. apply bind_ends in R as (i & s1 & R1 & R).
    pose proof (next_pass _ _ _ _ R1) as P. assert (E : i = st_look s) by (destruct R1 as [_ [n N]]; pose proof (Wp.next_item_ok _ _ _ _ N); tauto). subst i.
    destruct R as [_ [n R]]. unfold get_string in R. cbn [run_in exec] in R. destruct (slice js _ _) eqn:W; cbn [run_in] in R; inversion R; subst. auto.
  Qed.
  Lemma index_run s s1 p s2 s3 t : passes g (TPunct POpenBracket) s s1 -> ends (Call CExpression) s1 (Ok p) s2 -> passes g (TPunct PCloseBracket) s2 s3 -> sames s t ->
    exists t', ends computed_member t (Ok p) t' /\ sames s3 t'.
  Proof.
    intros P1 R P2 H. destruct (passes_sames _ _ _ _ _ P1 H) as (t1 & P1' & H1).
    assert (H1' : sames s1 (cleared t1)) by (eapply sames_trans; [exact H1|apply cleared_sames]).
    destruct (ends_all _ _ (expression_all g) _ _ _ _ R H1') as (u & [_ [n R']] & H2). cbn [run_in] in R'. unfold cleared in R'.
    assert (I : exists t2, ends (isolated (Call CExpression)) t1 (Ok p) t2 /\ sames s2 t2).
    { eexists. split; [split; [discriminate|]; exists n; unfold isolated, isolate_cover, get_cover, set_isolate_cover, upd; cbn [run_in exec]; rewrite R'; reflexivity|].
      eapply sames_trans; [exact H2|]. split; [|reflexivity]. cbn. destruct (st_ctx u). reflexivity. }
    destruct I as (t2 & R2 & Q2). destruct (passes_sames _ _ _ _ _ P2 Q2) as (t3 & P3 & Q3). exists t3. split; [|exact Q3].
    unfold computed_member. eapply ends_ok; [apply pass_expect; exact P1'|]. eapply ends_ok; [exact R2|]. eapply ends_ok; [apply pass_expect; exact P3|]. apply ends_ret.
  Qed.
  Lemma run_index s p s' : ends computed_member s (Ok p) s' -> exists s1 s2 s3, passes g (TPunct POpenBracket) s s1 /\ ends (Call CExpression) s1 (Ok p) s2
    /\ passes g (TPunct PCloseBracket) s2 s3 /\ sames s3 s'.
  Proof.
    intros R. unfold computed_member in R. apply bind_ends in R as (u & s1 & R1 & R). apply expect_pass in R1. apply bind_ends in R as (p1 & s2 & R2 & R).
    apply bind_ends in R as (v & s3 & R3 & R). apply expect_pass in R3. apply ret_ends in R as [-> ->].
    assert (E : exists w, ends (Call CExpression) (cleared s1) (Ok p1) w /\ sames w s2).
    { destruct R2 as [_ [n R2]]. unfold isolated, isolate_cover, get_cover, set_isolate_cover, upd in R2. cbn [run_in exec] in R2.
      destruct (run_call (@body) g n CExpression (upd_ctx _ s1)) as [[a|x| |] w] eqn:E; try discriminate R2. inversion R2; subst.
      exists w. split; [split; [discriminate|exists n; exact E]|]. split; [|reflexivity]. cbn. destruct (st_ctx w). reflexivity. }
    destruct E as (w & E & Q). destruct (ends_all _ _ (expression_all g) _ _ _ _ E (sames_sym _ _ (cleared_sames s1))) as (w' & E' & Q').
    assert (Q2 : sames s2 w') by (eapply sames_trans; [apply sames_sym; exact Q|exact Q']).
    destruct (passes_sames _ _ _ _ _ R3 Q2) as (w3 & P3 & Q3). exists s1, w', w3. split; [exact R1|]. split; [exact E'|]. split; [exact P3|]. apply sames_sym. exact Q3.
  Qed.
  Lemma is_other p q : p <> q -> is_punct p (TPunct q) = false.
  Proof. intros N. apply is_not. congruence. Qed.
  Lemma chain_run s e x s' : chain s e x s' -> forall t, sames s t -> exists t', ends (Loop e link_step) t (Ok x) t' /\ sames s' t'.
  Proof.
    induction 1 as [s e s' Q N|s s1 s2 w e x s' P1 P2 W C IH|s s1 l s2 s3 e x s' P1 A P2 C IH|s s1 p s2 s3 e x s' P1 R P2 C IH|s q s1 e x s' T R C IH]; intros t H.
    - exists t. split; [|eapply sames_trans; [apply sames_sym; exact Q|exact H]]. apply loop_stop. unfold link_step. apply look_ends. rewrite (sames_tok _ _ H).
      unfold linker in N. apply orb_false_elim in N as [N N4]. apply orb_false_elim in N as [N N3]. apply orb_false_elim in N as [N1 N2]. rewrite N1, N2, N3, N4. apply ends_ret.
    - destruct (target_ends true false t) as (t0 & R0 & H0). assert (H' : sames s t0) by (eapply sames_trans; eauto).
      destruct (passes_sames _ _ _ _ _ P1 H') as (t1 & P1' & H1). destruct (passes_sames _ _ _ _ _ P2 H1) as (t2 & P2' & H2).
      destruct (IH t2 H2) as (t' & R & Q). exists t'. split; [|exact Q]. eapply loop_next; [|exact R]. unfold link_step. apply look_ends.
      destruct P1 as (T & _). rewrite (sames_tok _ _ H), T, is_it. eapply ends_ok; [exact R0|]. eapply ends_ok; [apply pass_expect; exact P1'|].
      eapply ends_ok; [apply name_run; [rewrite (sames_tok _ _ H1); exact P2'|rewrite (sames_look _ _ H1); exact W]|]. apply ends_ret.
    - destruct (not_target_ends g t) as (t0 & R0 & H0). assert (H' : sames s t0) by (eapply sames_trans; eauto).
      destruct (args_run g strict s s1 l s2 s3 t0 P1 A P2 H') as (t3 & R3 & H3). destruct (IH t3 H3) as (t' & R & Q). exists t'. split; [|exact Q]. eapply loop_next; [|exact R].
      unfold link_step. apply look_ends. destruct P1 as (T & _). rewrite (sames_tok _ _ H), T, is_it, is_other by discriminate.
      eapply ends_ok; [split; [discriminate|exists 0; reflexivity]|]. eapply ends_ok; [exact R0|]. eapply ends_ok; [exact R3|].
      eapply ends_ok; [split; [discriminate|exists 0; reflexivity]|]. apply ends_ret.
    - destruct (target_ends true false t) as (t0 & R0 & H0). assert (H' : sames s t0) by (eapply sames_trans; eauto).
      destruct (index_run s s1 p s2 s3 t0 P1 R P2 H') as (t3 & R3 & H3). destruct (IH t3 H3) as (t' & R' & Q). exists t'. split; [|exact Q]. eapply loop_next; [|exact R'].
      unfold link_step. apply look_ends. destruct P1 as (T & _). rewrite (sames_tok _ _ H), T, is_it, !is_other by discriminate.
      eapply ends_ok; [exact R0|]. eapply ends_ok; [exact R3|]. apply ends_ret.
    - destruct (ends_all _ _ template_all _ _ _ _ R H) as (t1 & R' & H1). destruct (IH t1 H1) as (t' & R2 & Q). exists t'. split; [|exact Q]. eapply loop_next; [|exact R2].
      unfold link_step. apply look_ends. rewrite (sames_tok _ _ H). rewrite T.
      assert (K : forall p, is_punct p (it_tok (st_look s)) = false) by (intros p; destruct (it_tok (st_look s)); discriminate T || reflexivity). rewrite !K.
      eapply ends_ok; [exact R'|]. apply ends_ret.
  Qed.
  Lemma run_chain e s x s' : ends (Loop e link_step) s (Ok x) s' -> chain s e x s'.
  Proof.
    intros R. refine (loop_ends g _ _ link_step (fun e s x s' => chain s e x s') _ _ e s x s' R).
    - clear. intros e s x s' R. unfold link_step in R. apply ends_look in R.
      destruct (is_punct PPeriod _) eqn:T1; [repeat (apply bind_ends in R as (? & ? & _ & R)); apply ret_ends in R as [R _]; discriminate R|].
      destruct (is_punct POpenParen _) eqn:T2; [repeat (apply bind_ends in R as (? & ? & _ & R)); apply ret_ends in R as [R _]; discriminate R|].
      destruct (is_punct POpenBracket _) eqn:T3; [repeat (apply bind_ends in R as (? & ? & _ & R)); apply ret_ends in R as [R _]; discriminate R|].
      destruct (is_template_head _) eqn:T4; [repeat (apply bind_ends in R as (? & ? & _ & R)); apply ret_ends in R as [R _]; discriminate R|].
      apply ret_ends in R as [R ->]. injection R as ->. apply chain_end; [apply sames_refl|]. unfold linker. rewrite T1, T2, T3, T4. reflexivity.
    - intros e0 s0 y s1 x0 s0' R0 C. unfold link_step in R0. apply ends_look in R0.
      destruct (is_punct PPeriod _) eqn:T1.
      { apply bind_ends in R0 as (? & u0 & Q & R0). apply ends_target in Q. apply bind_ends in R0 as (? & u1 & P1 & R0). apply expect_pass in P1.
        apply bind_ends in R0 as (w & u2 & N & R0). apply run_name in N as [P2 W]. apply ret_ends in R0 as [R0 ->]. injection R0 as ->.
        eapply chain_from; [|apply sames_sym; exact Q]. eapply chain_dot; eauto. }
      destruct (is_punct POpenParen _) eqn:T2.
      { apply bind_ends in R0 as (? & u & L & R0). assert (E : u = s0) by (destruct L as [_ [n L]]; cbn in L; inversion L; reflexivity). subst u.
        apply bind_ends in R0 as (? & u0 & Q & R0). apply ends_target in Q. apply bind_ends in R0 as (l & u1 & A & R0). apply run_args in A as (u2 & u3 & P1 & A & P2); [|exact strict].
        apply bind_ends in R0 as (f & u4 & F & R0). assert (E : u4 = u1) by (destruct F as [_ [n F]]; cbn in F; inversion F; reflexivity). subst u4.
        apply ret_ends in R0 as [R0 ->]. injection R0 as ->. eapply chain_from; [|apply sames_sym; exact Q]. eapply chain_call; eauto. }
      destruct (is_punct POpenBracket _) eqn:T3.
      { apply bind_ends in R0 as (? & u0 & Q & R0). apply ends_target in Q. apply bind_ends in R0 as (p & u1 & A & R0). apply run_index in A as (u2 & u3 & u4 & P1 & A & P2 & Q4).
        apply ret_ends in R0 as [R0 ->]. injection R0 as ->. eapply chain_from; [|apply sames_sym; exact Q]. eapply chain_index; eauto. eapply chain_from; [exact C|apply sames_sym; exact Q4]. }
      destruct (is_template_head _) eqn:T4.
      { apply bind_ends in R0 as (q & u1 & A & R0). apply ret_ends in R0 as [R0 ->]. injection R0 as ->. eapply chain_template; eauto. }
      apply ret_ends in R0 as [R0 _]. discriminate R0.
  Qed.

  (** *** The whole *)
  Definition lhs_loop (start_pos : position) (e : Expr) : P Expr := Loop e (fun expr =>
    t <- look_tok ;;
    if is_punct PPeriod t then
      set_target_binding true false ;;
      expect_punct PPeriod ;;
      prop <- Call CIdentName ;;
      Ret (inl (EMember expr (EIdent prop) false))
    else if is_punct POpenParen t then
      current_pos <- Do OLookPos ;;
      let async_arrow := false && (p_line start_pos =? p_line current_pos) in
      not_target ;;
      args <- (if async_arrow then Call CAsyncArgs else Call CArgs) ;;
      fat <- at_punct PFatArrow ;;
      if async_arrow && fat then Ret (inl (EArrowParamPlaceHolder (map FAExpr args) true))
      else Ret (inl (ECall expr args))
    else if is_punct POpenBracket t then
      set_target_binding true false ;;
      prop <- computed_member ;;
      Ret (inl (EMember expr prop true))
    else if is_template_head t then
      quasi <- Call CTemplateLiteral ;;
      Ret (inl (ETaggedTemplate expr quasi))
    else Ret (inr expr)).
  Lemma loop_same p e : lhs_loop p e = Loop e link_step.
  Proof. reflexivity. Qed.
  Definition not_async (s : state) : Prop := exists w, slice js (it_start (st_look s)) (it_end (st_look s)) = Some w /\ w <> str "async".
  Lemma with_in_sames b s t : sames s t -> sames (with_in b s) (with_in b t).
  Proof.
    intros [H E]. split; [|rewrite E; reflexivity]. cbn. destruct (st_ctx s), (st_ctx t). unfold but_all in H. cbn in H. injection H; clear H; intros; subst. reflexivity.
  Qed.
  Definition inner_prog (b : bool) : P Expr := e <- head_prog ;; x <- Loop e link_step ;; upd (set_allow_in b) ;; Ret x.
  Lemma lhs_step s o s' : not_async s -> it_tok (st_look s) <> TKeyword KSuper ->
    ends (Call CLeftHandSideExprAllowCall) s o s' <-> ends (inner_prog (c_allow_in (st_ctx s))) (with_in true s) o s'.
  Proof.
    intros (w & W & N) Sp. assert (Ks : is_keyword KSuper (it_tok (st_look s)) = false).
    { destruct (is_keyword KSuper _) eqn:K; [|reflexivity]. exfalso. apply Sp. destruct (it_tok (st_look s)); try discriminate K. cbn in K. destruct k; discriminate K || reflexivity. }
    assert (Wn : text_eqb w (str "async") = false) by (destruct (text_eqb w (str "async")) eqn:E; [apply text_eqb_eq in E; contradiction|reflexivity]).
    assert (E : forall n, run_in g n (@run_call call (@body) g n) lhs_allow_call s = run_in g n (@run_call call (@body) g n) (inner_prog (c_allow_in (st_ctx s))) (with_in true s)).
    { intros n. unfold lhs_allow_call, at_contextual, stream_at, at_keyword, look_tok, look, get, upd. cbn [run_in exec]. rewrite W. cbn [run_in exec]. rewrite Wn.
      cbn [run_in exec upd_ctx st_look]. rewrite Ks. cbn [andb]. reflexivity. }
    split; intros R.
    - apply body_ends in R. cbn [body] in R. destruct R as [H [n R]]. split; [exact H|]. exists n. rewrite <- E. exact R.
    - apply ends_body. cbn [body]. destruct R as [H [n R]]. split; [exact H|]. exists n. rewrite E. exact R.
  Qed.
  Lemma not_async_sames s t : sames s t -> not_async s -> not_async t.
  Proof. intros H (w & W & N). exists w. rewrite (sames_look _ _ H). auto. Qed.
  Lemma lhs_run s e s1 x s2 t : not_async s -> it_tok (st_look s) <> TKeyword KSuper -> head (with_in true s) e s1 -> chain s1 e x s2 -> sames s t ->
    exists t', ends (Call CLeftHandSideExprAllowCall) t (Ok x) t' /\ sames (with_in (c_allow_in (st_ctx s)) s2) t'.
  Proof.
    intros A K Hd C H. destruct (head_run _ _ _ _ Hd (with_in_sames true _ _ H)) as (t1 & R1 & H1). destruct (chain_run _ _ _ _ C t1 H1) as (t2 & R2 & H2).
    exists (with_in (c_allow_in (st_ctx s)) t2). split; [|apply with_in_sames; exact H2].
    apply lhs_step; [eapply not_async_sames; eauto|rewrite (sames_tok _ _ H); exact K|]. unfold inner_prog. rewrite (sames_in _ _ H).
    eapply ends_ok; [exact R1|]. eapply ends_ok; [exact R2|]. split; [discriminate|]. exists 0. reflexivity.
  Qed.
  Lemma run_lhs s x s' : not_async s -> it_tok (st_look s) <> TKeyword KSuper -> ends (Call CLeftHandSideExprAllowCall) s (Ok x) s' ->
    exists e s1 s2, head (with_in true s) e s1 /\ chain s1 e x s2 /\ s' = with_in (c_allow_in (st_ctx s)) s2.
  Proof.
    intros A K R. apply lhs_step in R; [|exact A|exact K]. unfold inner_prog in R. apply bind_ends in R as (e & s1 & R1 & R). apply run_head in R1.
    apply bind_ends in R as (y & s2 & R2 & R). apply run_chain in R2. apply bind_ends in R as (u & s3 & R3 & R). apply ret_ends in R as [-> ->].
    exists e, s1, s2. split; [exact R1|]. split; [exact R2|]. destruct R3 as [_ [n R3]]. cbn in R3. inversion R3. reflexivity.
  Qed.
End Chains.

Section Element.
  Variable g : cfg.
  Notation evs := (evs g).
  Variables (s0 s3 : state) (x : Expr).
  Definition Post2 (a : Expr) (t : state) : Prop := a = x /\ sames s3 t.
  Hypothesis made : forall s, sames s0 s -> evs (Call CLeftHandSideExprAllowCall) s Post2.
  Hypothesis plain : is_placeholder x = false.
  (** Nothing stands before the left-hand side. *)
  Definition no_prefix (t : token) : Prop :=
    is_punct PIncrement t || is_punct PDecrement t = false
    /\ is_punct PPlus t || is_punct PMinus t || is_punct PBitwiseNot t || is_punct PNot t || is_keyword KDelete t || is_keyword KVoid t || is_keyword KTypeOf t = false
    /\ is_keyword KAwait t = false /\ is_keyword KYield t = false.
  Hypothesis plainly : no_prefix (it_tok (st_look s0)).
  Hypothesis follows : In (it_tok (st_look s3)) closers.
  Hypothesis spelled : exists w, slice (g_stream g) (it_start (st_look s0)) (it_end (st_look s0)) = Some w.
  Lemma post_moved a t t' : Post2 a t -> sames t t' -> Post2 a t'.
  Proof. intros [-> H] K. split; [reflexivity|eapply sames_trans; eauto]. Qed.
  Definition Reads (p : P Expr) : Prop := forall s, sames s0 s -> evs p s Post2.
  Lemma reads_inh p : Reads p -> Reads (inheriting p).
  Proof.
    intros R s H. unfold inheriting, inherit_cover, isolate_cover, get_cover, upd.
    apply evs_bind. apply evs_bind. apply evs_bind. eapply evs_do; [reflexivity|]. apply evs_ret.
    apply evs_bind. eapply evs_do; [reflexivity|]. apply evs_ret. apply evs_bind. eapply evs_mono; [|apply R].
    2:{ eapply sames_trans; [exact H|]. apply (sames_cover (fun _ => true) (fun _ => true) (fun _ => None)). }
    intros a t Pt. cbn beta in *. apply evs_bind. unfold set_inherit_cover, upd. eapply evs_do; [reflexivity|]. apply evs_ret.
    eapply post_moved; [exact Pt|]. split; [|reflexivity]. cbn. destruct (st_ctx t). reflexivity.
  Qed.
  Lemma reads_iso p s : Reads p -> sames s0 s -> evs (isolated p) s Post2.
  Proof.
    intros R H. unfold isolated, isolate_cover, get_cover, upd.
    apply evs_bind. apply evs_bind. apply evs_bind. eapply evs_do; [reflexivity|]. apply evs_ret.
    apply evs_bind. eapply evs_do; [reflexivity|]. apply evs_ret. apply evs_bind. eapply evs_mono; [|apply R].
    2:{ eapply sames_trans; [exact H|]. apply (sames_cover (fun _ => true) (fun _ => true) (fun _ => None)). }
    intros a t Pt. cbn beta in *. apply evs_bind. unfold set_isolate_cover, upd. eapply evs_do; [reflexivity|]. apply evs_ret.
    eapply post_moved; [exact Pt|]. split; [|reflexivity]. cbn. destruct (st_ctx t). reflexivity.
  Qed.
  Ltac lk := apply evs_bind; (eapply evs_do; [reflexivity|]); apply evs_ret.
  Lemma look_end a s : Post2 a s -> In (it_tok (st_look s)) closers.
  Proof. intros [_ H]. rewrite (sames_look _ _ H). exact follows. Qed.
  Ltac ends t Pt :=
    let F := fresh "F" in
    pose proof (look_end _ _ Pt) as F; unfold closers in F; cbn [In] in F;
    decompose [or] F; clear F; try contradiction; match goal with X : _ = it_tok (st_look t) |- _ => rewrite <- X end.
  Lemma reads_update : Reads (Call CUpdateExpr).
  Proof.
    intros s H. apply evs_call. cbn [body]. unfold update_expr, look. apply evs_bind. eapply evs_do; [reflexivity|]. cbn zeta.
    rewrite (sames_look _ _ H). destruct plainly as (-> & _). cbn iota.
    apply evs_bind. eapply evs_mono; [|apply (reads_inh _ made _ H)]. intros a t Pt. cbn beta.
    apply evs_bind. eapply evs_do; [reflexivity|]. apply evs_bind. unfold look_tok, look. lk.
    replace (negb (st_nl t) && _) with false by (symmetry; ends t Pt; apply andb_false_r). apply evs_ret. exact Pt.
  Qed.
  Lemma reads_unary : Reads (Call CUnaryExpression).
  Proof.
    intros s H. apply evs_call. cbn [body]. unfold unary_expression, look_tok, look, get. apply evs_bind. lk. rewrite (sames_look _ _ H). destruct plainly as (_ & -> & Pa & _). cbn iota. apply evs_bind. lk.
    rewrite Pa, andb_false_r. apply reads_update. exact H.
  Qed.
  Lemma reads_exp : Reads (Call CExponentiation).
  Proof.
    intros s H. apply evs_call. cbn [body]. unfold exponentiation. apply evs_bind. eapply evs_mono; [|apply (reads_inh _ reads_unary _ H)]. intros a t Pt. cbn beta.
    unfold at_punct, look_tok, look. apply evs_bind. apply evs_bind. lk. apply evs_ret.
    replace (is_punct PExponent _) with false by (ends t Pt; reflexivity). apply evs_ret. exact Pt.
  Qed.
  Lemma reads_binary : Reads (Call CBinaryExpression).
  Proof.
    intros s H. apply evs_call. cbn [body]. unfold binary_expression. apply evs_bind. eapply evs_mono; [|apply (reads_inh _ reads_exp _ H)]. intros a t Pt. cbn beta.
    unfold look_tok, look, get. apply evs_bind. lk. apply evs_bind. lk. cbn zeta.
    replace (bin_precedence _ _) with 0 by (ends t Pt; reflexivity). cbn [Nat.eqb]. apply evs_ret. exact Pt.
  Qed.
  Lemma reads_conditional : Reads (Call CConditionalExpr).
  Proof.
    intros s H. apply evs_call. cbn [body]. unfold conditional_expr. apply evs_bind. eapply evs_mono; [|apply (reads_inh _ reads_binary _ H)]. intros a t Pt. cbn beta.
    unfold at_punct, look_tok, look. apply evs_bind. apply evs_bind. lk. apply evs_ret.
    replace (is_punct PQuestionMark _) with false by (ends t Pt; reflexivity). apply evs_ret. exact Pt.
  Qed.
  Lemma reads_assignment : Reads (Call CAssignmentExpr).
  Proof.
    intros s H. apply evs_call. cbn [body]. unfold assignment_expr, get, look, look_tok, look, stream_at. apply evs_bind. lk.
    apply evs_bind. eapply evs_do; [reflexivity|]. rewrite (sames_look _ _ H). destruct plainly as (_ & _ & _ & Py). rewrite Py, andb_false_r.
    apply evs_bind. eapply evs_do; [reflexivity|]. apply evs_bind. eapply evs_mono; [|apply (reads_conditional _ H)]. intros a t Pt. cbn beta.
    apply evs_bind. eapply evs_do; [reflexivity|]. apply evs_bind. apply evs_bind. eapply evs_do; [reflexivity|].
    destruct spelled as [w W]. rewrite W. apply evs_ret. apply evs_bind. lk. apply evs_bind.
    replace (_ && (is_ident _ || _)) with false by (symmetry; ends t Pt; apply andb_false_r). apply evs_ret. apply evs_bind. lk.
    destruct Pt as [-> Pt]. rewrite plain. pose proof (conj (eq_refl x) Pt) as Pt'. fold (Post2 x t) in Pt'.
    replace (is_punct PFatArrow _) with false by (ends t Pt'; reflexivity). cbn [orb].
    replace (assign_tok _) with false by (ends t Pt'; reflexivity). apply evs_ret. exact Pt'.
  Qed.
  Lemma reads_expression : it_tok (st_look s3) <> TPunct PComma -> Reads (Call CExpression).
  Proof.
    intros N s H. apply evs_call. cbn [body]. unfold expression. apply evs_bind. eapply evs_mono; [|apply (reads_iso _ _ reads_assignment H)]. intros a t Pt. cbn beta.
    unfold at_punct, look_tok, look. apply evs_bind. apply evs_bind. lk. apply evs_ret.
    replace (is_punct PComma _) with false; [apply evs_ret; exact Pt|]. symmetry. destruct (is_punct PComma _) eqn:E; [|reflexivity].
    apply is_punct_eq in E. destruct Pt as [_ Pt]. rewrite (sames_look _ _ Pt) in E. contradiction.
  Qed.
End Element.
