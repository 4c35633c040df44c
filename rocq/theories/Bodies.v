(** The pass of Trees.v, function by function. *)
From Verif Require Export Trees.
From Verif Require Import Operators.
Export Parser.

Unset Printing Records.
Section Bodies.
  Variable g : cfg.
  Variable items : list raw.
  Variable ng : bool.
  Notation js := (g_stream g).
  Notation inp := (input_item items).
  Notation okn := (ok g items ng).
  Hypothesis no_get : ng = true -> classy items -> forall i, inp i -> text_of js i <> str "get".
  Notation invC := (invC g items ng).
  Notation tree := (tree g items ng).
  Notation covers := (covers g).
  Notation wpC m p Q s := (wp g false (preC g items ng) (postC g items ng) (fun _ _ => True) True m p Q s).

  Lemma nn b : negb ng || (negb ng || b) = negb ng || b.
  Proof. destruct ng; reflexivity. Qed.

  Lemma wpC_cover_formals m x (Q : option (list FunctionArg) -> state -> Prop) s k :
    invC s k ->
    (forall o, (forall ps e, o = Some ps -> okn e (NExpr x) -> Forall (okn e) (map NArg ps)) -> Q o s) ->
    wpC m (cover_formals x) Q s.
  Proof.
    intros Hi H. unfold cover_formals.
    assert (D : forall e ps a, okn e (NExpr x) ->
      match x with
      | EIdent _ => Some ([FAExpr x], false)
      | EArrowParamPlaceHolder params is_async => Some (params, is_async)
      | _ => None
      end = Some (ps, a) -> Forall (okn e) (map NArg ps)).
    { intros e ps a Hx E. destruct x; inversion E; subst.
      - apply ok_children in Hx. exact Hx.
      - constructor; [|constructor]. apply ok_node; [exact I|]. cbn. auto. }
    destruct (match x with EIdent _ => _ | _ => _ end) as [[ps a]|].
    2:{ cbn. apply H. discriminate. }
    destruct (existsb snd _); [exact I|].
    apply wpC_bind. eapply wpC_get; [eassumption|]. intros c1 _ _.
    apply wpC_bind. eapply wpC_get; [eassumption|]. intros c2 _ _.
    destruct (_ && _ && _); [exact I|]. cbn. apply H. intros ps' e E Hx. inversion E; subst.
    apply cover_params_ok. eapply D; eauto.
  Qed.

  Lemma name_text i : inp i -> name_ok g items (text_of js i).
  Proof. intros H. exists i. auto. Qed.
  Lemma name_kw i k : inp i -> it_tok i = TKeyword k -> name_ok g items (kw_text k).
  Proof. intros H1 H2. exists i. eauto. Qed.

  Lemma wpC_get_cover m (Q : cover -> state -> Prop) s k :
    invC s k -> (forall c, snd (fst c) = tgt s -> Q c s) -> wpC m get_cover Q s.
  Proof. intros Hs H. cbn. apply H. reflexivity. Qed.
  Lemma wpC_isolate_cover m (Q : cover -> state -> Prop) s k :
    invC s k -> (forall c s', snd (fst c) = tgt s -> invC s' k -> st_look s' = st_look s -> tgt s' = true -> Q c s') ->
    wpC m isolate_cover Q s.
  Proof. intros [Hi Hk] H. cbn. apply H; auto. split; [exact Hi|exact Hk]. Qed.
  Lemma wpC_set_isolate_cover m cg (Q : unit -> state -> Prop) s k :
    invC s k -> (forall s', invC s' k -> st_look s' = st_look s -> tgt s' = snd (fst cg) -> Q tt s') ->
    wpC m (set_isolate_cover cg) Q s.
  Proof. intros [Hi Hk] H. destruct cg as [[b a] f]. cbn. apply H; auto. split; [exact Hi|exact Hk]. Qed.
  Lemma wpC_set_inherit_cover m cg (Q : unit -> state -> Prop) s k :
    invC s k -> (forall s', invC s' k -> st_look s' = st_look s -> tgt s' = tgt s && snd (fst cg) -> Q tt s') ->
    wpC m (set_inherit_cover cg) Q s.
  Proof. intros [Hi Hk] H. destruct cg as [[b a] f]. cbn. apply H; auto. split; [exact Hi|exact Hk]. Qed.

  Lemma start_inv s : invB g items s -> exists fn aw y lb st ai it sw pp,
    invC s (mkCore fn aw (negb ng || y) lb st ai it sw pp)
    /\ core_of ng (st_ctx s) = mkCore fn aw (negb ng || y) lb st ai it sw pp.
  Proof.
    intros H. exists (c_in_function_body (st_ctx s)), (c_await (st_ctx s)), (c_allow_yield (st_ctx s)),
      (c_label_set (st_ctx s)), (c_strict (st_ctx s)), (c_allow_in (st_ctx s)), (c_in_iteration (st_ctx s)),
      (c_in_switch (st_ctx s)), (c_past_prolog (st_ctx s)). split; [split|]; auto.
  Qed.

  Ltac getC :=
    eapply wpC_get; [eassumption|];
    let c := fresh "c" in let Hc := fresh "Hc" in let Ht := fresh "Ht" in
    intros c Hc Ht; unfold core_of in Hc; cbn beta; 
    let E1 := fresh in let E2 := fresh in let E3 := fresh "Ey" in let E4 := fresh in let E5 := fresh in
    let E6 := fresh in let E7 := fresh in let E8 := fresh in let E9 := fresh in
    injection Hc as E1 E2 E3 E4 E5 E6 E7 E8 E9;
    rewrite ?E1, ?E2, ?E4, ?E5, ?E6, ?E7, ?E8, ?E9, ?Ht;
    clear E1 E2 E4 E5 E6 E7 E8 E9 Ht;
    lazymatch goal with
    | |- context [c_allow_yield c] =>
        let y := fresh "y" in generalize dependent (c_allow_yield c); clear c; intros y E3
    | |- context [c_allow_strict_directive c] => generalize (c_allow_strict_directive c); intro; clear E3; clear c
    | |- context [c_binding_element c] => generalize (c_binding_element c); intro; clear E3; clear c
    | |- context [c_first_covert c] => generalize (c_first_covert c); intro; clear E3; clear c
    | |- _ => clear E3; clear c
    end.

  Ltac ctxs := cbv beta iota delta [core_of embed set_allow_in set_allow_strict_directive set_allow_yield set_await
      set_first_covert set_assign_target set_binding_element set_in_function_body
      set_in_iteration set_in_switch set_label_set set_strict set_past_prolog c_allow_in
      c_allow_strict_directive c_allow_yield c_await c_first_covert c_assign_target
      c_binding_element c_in_function_body c_in_iteration c_in_switch c_label_set c_strict
      c_past_prolog k_fn k_await k_yield k_labels k_strict k_in k_iter k_switch k_past].
  Ltac ctxs_in H := cbv beta iota delta [core_of embed set_allow_in set_allow_strict_directive set_allow_yield set_await
      set_first_covert set_assign_target set_binding_element set_in_function_body
      set_in_iteration set_in_switch set_label_set set_strict set_past_prolog c_allow_in
      c_allow_strict_directive c_allow_yield c_await c_first_covert c_assign_target
      c_binding_element c_in_function_body c_in_iteration c_in_switch c_label_set c_strict
      c_past_prolog k_fn k_await k_yield k_labels k_strict k_in k_iter k_switch k_past] in H.
  Ltac updC :=
    eapply wpC_upd; [eassumption|intros []; ctxs; rewrite ?nn; reflexivity|];
    let s := fresh "s" in let I := fresh "J" in let L := fresh "L" in let T := fresh "T" in
    intros s I L T;
    ctxs_in I; rewrite ?nn in I;
    cbv beta delta [set_allow_in set_allow_strict_directive set_allow_yield set_await set_first_covert set_assign_target set_binding_element set_in_function_body set_in_iteration set_in_switch set_label_set set_strict set_past_prolog] in T;
    cbn [c_allow_in c_allow_strict_directive c_allow_yield c_await c_first_covert c_assign_target c_binding_element c_in_function_body c_in_iteration c_in_switch c_label_set c_strict c_past_prolog] in T;
    repeat match goal with E : negb ng || ?y = negb ng || ?z |- _ => rewrite E in I end;
    repeat match type of T with context [c_assign_target (st_ctx ?x)] => change (c_assign_target (st_ctx x)) with (tgt x) in T end.

  Ltac cov :=
    match goal with
    | He : covers ?e ?k |- covers ?e ?k => exact He
    | _ => idtac
    end;
    match goal with
    | |- covers ?e' ?k' =>
      unfold Trees.covers in *;
      repeat match goal with H : _ /\ _ |- _ => destruct H end;
      cbn [k_fn k_await k_yield k_labels k_strict k_in k_iter k_switch k_past
           e_fn e_async e_gen e_labels e_class enter] in *;
      repeat apply conj; intros;
      first [ assumption | reflexivity | discriminate | contradiction
            | solve [auto]
            | solve [rewrite ?orb_true_iff, ?orb_false_iff, ?negb_true_iff, ?negb_false_iff in *; intuition congruence] ]
    end.

  Ltac fieldX X :=
    try match type of X with
    | context [c_in_function_body (st_ctx ?s)] =>
        match goal with H : invC s _ |- _ => rewrite (core_fn _ _ _ _ _ H) in X; cbn [k_fn] in X end
    | context [c_past_prolog (st_ctx ?s)] =>
        match goal with H : invC s _ |- _ => rewrite (core_past _ _ _ _ _ H) in X; cbn [k_past] in X end
    end.

  Ltac kw_in :=
    repeat match goal with
    | H : is_keyword ?k ?t = true |- _ =>
        lazymatch goal with _ : t = TKeyword k |- _ => fail | _ => pose proof (is_keyword_eq k t H) end
    end.
  Lemma class_here i : is_keyword KClass (it_tok i) = true -> inp i -> classy items.
  Proof. intros H Hi. exists i. split; [exact Hi|apply is_keyword_eq; exact H]. Qed.
  Ltac callC :=
    eapply wpC_call;
    [ eassumption
    | cbn [prex k_yield k_await k_fn]; try first [exact I|reflexivity|assumption|solve [intros _; eapply class_here; eassumption]]
    | cbn [argn]; try (apply tree_nil)
    | let b := fresh "b" in let s := fresh "s" in let I := fresh "J" in let T := fresh "T" in let X := fresh "X" in
      intros b s I T X; cbn [kp nodes extra] in I, T, X; cbn beta in T, X; fieldX X ].

  Ltac isoC lem :=
    eapply lem; [eassumption|];
    let s := fresh "s" in let I := fresh "J" in let L := fresh "L" in let T := fresh "T" in
    intros s I L T.

  Ltac pairs :=
    repeat match goal with
    | H : context [fst (?a, ?b)] |- _ => cbn [fst] in H
    | H : context [snd (?a, ?b)] |- _ => cbn [snd] in H
    | b : (_ * _)%type |- _ => destruct b
    end.

  (** Goals about the assignment-target flag, declarations, and the other local conditions. *)
  Ltac tgtT :=
    intros;
    repeat match goal with
    | E : tgt ?a = ?v, H : tgt ?a = true |- _ => lazymatch v with true => fail | _ => rewrite E in H end
    | E : tgt ?a = ?v |- tgt ?a = _ => rewrite E
    | H : _ /\ _ |- _ => destruct H
    | H : tgt ?a = true -> _, H1 : tgt ?a = true |- _ => specialize (H H1)
    | H : negb (tgt ?a) = true -> g_tolerant g = true, H1 : g_tolerant g = false |- _ =>
        destruct (tgt a) eqn:?; [clear H|specialize (H eq_refl); congruence]
    | H : _ && _ = true |- _ => apply andb_true_iff in H; destruct H
    end; solve [auto | congruence | discriminate].
  Ltac nameT := subst; kw_in; first [assumption | apply name_text; assumption | eapply name_kw; eassumption].
  Ltac factT :=
    first
    [ exact I | assumption | reflexivity | discriminate
    | tgtT
    | solve [nameT]
    | solve [eexists; split; [reflexivity|apply trim_quotes_spec]]
    | solve [red; eexists; eexists; reflexivity]
    | solve [eexists; repeat apply conj; [eassumption|assumption|assumption]]
    | solve [unfold verbatim; eexists; repeat apply conj; [eassumption|assumption|assumption]]
    | solve [apply undirected_nil] | solve [apply undirected_snoc; assumption]
    | solve [repeat apply conj; auto]
    | solve [lazymatch goal with |- _ <= _ => lia end]
    | solve [intros; unfold pat_init; cbn [decl_pat decl_init]; intros; congruence]
    | solve [intros; unfold pat_init; cbn [decl_pat decl_init]; intros E1 E2;
             repeat match goal with H : negb _ && negb _ = false |- _ => rewrite E1 in H; cbn in H end; subst; discriminate]
    | solve [intros; cbn [is_rest snd fst] in *;
             match goal with X : not_restp ?p |- _ => destruct p; cbn in *; first [contradiction|discriminate] end] ].
  Ltac covT :=
    match goal with He : covers _ _ |- _ =>
      unfold Trees.covers in He; cbn [k_fn k_await k_yield k_labels k_strict] in He;
      destruct He as (? & ? & ? & ? & ?) end;
    kw_in;
    first [ solve [auto] | solve [intuition congruence]
          | solve [repeat match goal with H : _ && _ = true |- _ => apply andb_true_iff in H; destruct H end; auto]
          | (intros;
             match goal with |- e_class ?e = false => destruct (e_class e) eqn:?; [exfalso|reflexivity] end;
             match goal with H : g_tolerant g = false -> true = true -> _ |- _ => specialize (H ltac:(assumption) eq_refl) end;
             solve [intuition congruence])
          | solve [split; [intuition congruence|eexists; split; [eassumption|assumption]]] ].

  Ltac restT He :=
    repeat (cbn [map app opt opts flat_map snd fst fp_params];
    match goal with
    | |- Forall _ [] => constructor
    | H : tree _ ?L |- Forall (okn _) ?L => apply H; cov
    | H : tree _ [NExpr (EIdent ?i)] |- okn _ (NName ?i) => apply tree_name in H
    | H : tree _ [NExpr (ELiteral ?i)] |- okn _ (NLit ?i) => apply tree_lit in H
    | |- Forall _ (_ :: _) => constructor
    | |- Forall _ (_ ++ _) => apply Forall_app; split
    | |- Forall _ (map _ (_ ++ _)) => rewrite map_app
    | |- Forall _ (flat_map _ (_ ++ _)) => rewrite flat_map_app
    | |- Forall _ (opts _ (_ ++ _)) => unfold opts; rewrite flat_map_app
    | H : tree _ [?n] |- okn _ ?n => eapply tree_one; [exact H|cov]
    | H : tree _ [NName ?n] |- name_ok _ _ ?n => exact (ok_local _ _ _ _ _ (Forall_inv (H _ He)))
    | |- okn _ _ => apply ok_node; [cbn [local]; first [factT|covT|idtac]| cbn [children enter is_method orb]]
    | |- Forall (okn _) (?f ?x) => progress cbn [init_nodes left_nodes import_names export_names]
    end).
  Ltac treeT :=
    let e := fresh "e" in let He := fresh "He" in
    intros e He; restT He.

  Ltac invT :=
    match goal with
    | H : invC ?s ?k |- invC ?s ?k' => first [exact H | (replace k' with k; [exact H|]; cbn [is_dir]; repeat f_equal; congruence)]
    end.

  (** Enter a loop with the invariant [R], a property of the context and the loop variable. *)
  Ltac loopC R :=
    match goal with |- wp _ _ _ _ _ _ _ (Loop _ _) _ ?s =>
      match goal with H : invC s ?k |- _ =>
        eapply (wpC_loop g items ng _ _ _ k (R k)); [exact H|cbn beta iota|cbn beta iota; intros ? ? ? ?] end end.

  Ltac finC :=
    lazymatch goal with
    | |- postC _ _ _ _ _ _ _ _ => pairs; eapply post_intro; [eassumption|cbn [kp]; try invT|cbn [nodes]|cbn [extra]]
    | |- invC _ _ => invT
    end.

  Ltac stepC :=
    lazymatch goal with
    | |- wp _ _ _ _ _ _ _ (Ret _) _ _ => apply wpC_ret; cbn beta iota
    | |- wp _ _ _ _ _ _ _ (Fail _) _ _ => exact I
    | |- wp _ _ _ _ _ _ _ Crash _ _ => exact I
    | |- wp _ _ _ _ _ _ _ (fail_look _) _ _ => exact I
    | |- wp _ _ _ _ _ _ _ next _ _ => eapply wpC_next; [eassumption|intros]
    | |- wp _ _ _ _ _ _ _ (Do ONextIgnored) _ _ => eapply wpC_nextignored; [eassumption|intros]
    | |- wp _ _ _ _ _ _ _ (Do OExpectComma) _ _ => eapply wpC_expectcomma; [eassumption|intros]
    | |- wp _ _ _ _ _ _ _ (Do (OUpd _)) _ _ => updC
    | |- wp _ _ _ _ _ _ _ (Do (OTolerate _)) _ _ => apply wpC_tolerate; intros
    | |- wp _ _ _ _ _ _ _ (Do (OGuardModule _ _)) _ _ => apply wpC_guard
    | |- wp _ _ _ _ _ _ _ (Do (OStr _)) _ _ => apply wpC_str; intros
    | |- wp _ _ _ _ _ _ _ (upd _) _ _ => unfold upd
    | |- wp _ _ _ _ _ _ _ not_target _ _ => unfold not_target
    | |- wp _ _ _ _ _ _ _ consume_semicolon _ _ => unfold consume_semicolon
    | |- wp _ _ _ _ _ _ _ computed_member _ _ => unfold computed_member
    | |- wp _ _ _ _ _ _ _ (arrow_rest _) _ _ => unfold arrow_rest
    | |- wp _ _ _ _ _ _ _ (assign_rest _) _ _ => unfold assign_rest
    | |- wp _ _ _ _ _ _ _ (set_target_binding _ _) _ _ => unfold set_target_binding
    | |- wp _ _ _ _ _ _ _ (Do OCtx) _ _ => eapply wpC_ctx; [eassumption|intros ? ? ?]
    | |- wp _ _ _ _ _ _ _ look _ _ => eapply wpC_look; [eassumption|intros]
    | |- wp _ _ _ _ _ _ _ (Do _) _ _ => apply wpC_pure; [exact I|intros]
    | |- wp _ _ _ _ _ _ _ (get _) _ _ => getC
    | |- wp _ _ _ _ _ _ _ look_tok _ _ => apply wpC_look_tok
    | |- wp _ _ _ _ _ _ _ (at_punct _) _ _ => apply wpC_at_punct
    | |- wp _ _ _ _ _ _ _ (at_keyword _) _ _ => apply wpC_at_keyword
    | |- wp _ _ _ _ _ _ _ (expect_punct _) _ _ => eapply wpC_expect_punct; [eassumption|intros]
    | |- wp _ _ _ _ _ _ _ (expect_keyword _) _ _ => eapply wpC_expect_keyword; [eassumption|intros]
    | |- wp _ _ _ _ _ _ _ (stream_at _) _ _ => apply wpC_stream_at; intros
    | |- wp _ _ _ _ _ _ _ (get_string _) _ _ => apply wpC_get_string; intros
    | |- wp _ _ _ _ _ _ _ (string_or_empty _) _ _ => apply wpC_string_or_empty; intros
    | |- wp _ _ _ _ _ _ _ (at_contextual _) _ _ => apply wpC_at_contextual; intros
    | |- wp _ _ _ _ _ _ _ at_async_function _ _ => apply wpC_at_async_function; intros
    | |- wp _ _ _ _ _ _ _ at_import_call _ _ => apply wpC_at_import_call; intros
    | |- wp _ _ _ _ _ _ _ at_lexical_decl _ _ => apply wpC_at_lexical_decl; intros
    | |- wp _ _ _ _ _ _ _ at_return_arg _ _ => apply wpC_at_return_arg; intros
    | |- wp _ _ _ _ _ _ _ (qualified_prop_name _) _ _ => apply wpC_qualified; intros
    | |- wp _ _ _ _ _ _ _ (cover_formals _) _ _ => eapply wpC_cover_formals; [eassumption|intros]
    | |- wp _ _ _ _ _ _ _ (Call _) _ _ => callC
    | |- wp _ _ _ _ _ _ _ (isolated _) _ _ => isoC wpC_isolated
    | |- wp _ _ _ _ _ _ _ (inheriting _) _ _ => isoC wpC_inheriting
    | |- wp _ _ _ _ _ _ _ get_cover _ _ => eapply wpC_get_cover; [eassumption|intros]
    | |- wp _ _ _ _ _ _ _ isolate_cover _ _ => eapply wpC_isolate_cover; [eassumption|intros]
    | |- wp _ _ _ _ _ _ _ inherit_cover _ _ => eapply wpC_isolate_cover; [eassumption|intros]
    | |- wp _ _ _ _ _ _ _ (set_isolate_cover _) _ _ => eapply wpC_set_isolate_cover; [eassumption|intros]
    | |- wp _ _ _ _ _ _ _ (set_inherit_cover _) _ _ => eapply wpC_set_inherit_cover; [eassumption|intros]
    | |- wp _ _ _ _ _ _ _ (Bind (if _ then Do (OTolerate _) else Ret tt) _) _ _ => apply wpC_if_tolerate; intros
    | |- wp _ _ _ _ _ _ _ (Bind _ _) _ _ => apply wpC_bind
    | |- wp _ _ _ _ _ _ _ (match ?x with _ => _ end) _ _ => destruct x eqn:?
    | |- forall _, _ => intros
    | |- invC _ _ /\ _ => split
    | |- tree _ _ /\ _ => split
    end.
  Ltac goC := repeat stepC; try finC.

  Ltac startC :=
    let H := fresh "H" in
    intros m s H; unfold preC in H; destruct H as (Hi & Hp & Ha);
    destruct (start_inv s Hi) as (fn & aw & y & lb & st & ai & it & sw & pp & Hs & Ec);
    rewrite Ec in Hp, Ha; clear Hi Ec; cbn [prex argn k_yield k_await k_fn] in Hp, Ha; cbn [body].

  Definition good {B} (c : call B) : Prop := forall m s, preC g items ng (S m) _ c s ->
    wpC m (body c) (postC g items ng _ c s) s.

  Ltac fieldG :=
    try match goal with
    | H : invC ?s _ |- context [c_in_function_body (st_ctx ?s)] => rewrite (core_fn _ _ _ _ _ H); cbn [k_fn]
    | H : invC ?s _ |- context [c_past_prolog (st_ctx ?s)] => rewrite (core_past _ _ _ _ _ H); cbn [k_past]
    end.
  Ltac extraT := fieldG; cbn [snd fst] in *; solve [factT | split; factT | eauto].
  Ltac destruct_tree := repeat match goal with H : tree _ _ /\ _ |- _ => destruct H end.
  Ltac headC :=
    match goal with |- wp _ _ _ _ _ _ _ ?p _ _ =>
      match p with ?f _ _ => unfold f | ?f _ => unfold f | ?f => unfold f end end.
  Ltac restC := goC; try solve [treeT]; try extraT.
  Ltac allC := startC; headC; restC.
  Lemma c_Directive : good CDirective.
  Proof. allC. Qed.
  Lemma c_StatementListItem : good CStatementListItem.
  Proof. allC. Qed.
  Lemma c_ImportSpecifier : good CImportSpecifier.
  Proof. allC. Qed.
  Lemma c_ImportNamespaceSpecifier : good CImportNamespaceSpecifier.
  Proof. allC. Qed.
  Lemma c_ImportDefaultSpecifier : good CImportDefaultSpecifier.
  Proof. allC. Qed.
  Lemma c_ExportSpecifier : good CExportSpecifier.
  Proof. allC. Qed.
  Lemma c_ModuleSpecifier : good CModuleSpecifier.
  Proof. allC. Qed.
  Lemma c_Statement : good CStatement.
  Proof. allC. Qed.
  Lemma c_WithStmt : good CWithStmt.
  Proof. allC. Qed.
  Lemma c_WhileStmt : good CWhileStmt.
  Proof. allC. Qed.
  Lemma c_VarStmt : good CVarStmt.
  Proof. allC. Qed.
  Lemma c_VarDecl x0 : good (CVarDecl x0).
  Proof. allC. Qed.
  Lemma c_TryStmt : good CTryStmt.
  Proof. allC. Qed.
  Lemma c_CatchClause : good CCatchClause.
  Proof. allC. Qed.
  Lemma c_FinallyClause : good CFinallyClause.
  Proof. allC. Qed.
  Lemma c_ThrowStmt : good CThrowStmt.
  Proof. allC. Qed.
  Lemma c_IfStmt : good CIfStmt.
  Proof. allC. Qed.
  Lemma c_IfClause : good CIfClause.
  Proof. allC. Qed.
  Lemma c_FnStmt : good CFnStmt.
  Proof. allC. Qed.
  Lemma c_ForLoop x0 : good (CForLoop x0).
  Proof. allC. Qed.
  Lemma c_ForLoopCont x0 : good (CForLoopCont x0).
  Proof. allC. Qed.
  Lemma c_ForInLoop x0 : good (CForInLoop x0).
  Proof. allC. Qed.
  Lemma c_ForOfLoop x0 x1 : good (CForOfLoop x0 x1).
  Proof. allC. Qed.
  Lemma c_LoopBody : good CLoopBody.
  Proof. allC. Qed.
  Lemma c_DoWhileStmt : good CDoWhileStmt.
  Proof. allC. Qed.
  Lemma c_BreakStmt : good CBreakStmt.
  Proof. allC. Qed.
  Lemma c_ContinueStmt : good CContinueStmt.
  Proof. allC. Qed.
  Lemma c_OptionallyLabeled x0 : good (COptionallyLabeled x0).
  Proof. allC. Qed.
  Lemma c_DebuggerStmt : good CDebuggerStmt.
  Proof. allC. Qed.
  Lemma c_ExpressionStatement : good CExpressionStatement.
  Proof. allC. Qed.
  Lemma c_FunctionDecl x0 : good (CFunctionDecl x0).
  Proof. allC. Qed.
  Lemma c_MethodBody x0 x1 : good (CMethodBody x0 x1).
  Proof. allC. Qed.
  Lemma c_FunctionExpr : good CFunctionExpr.
  Proof. allC. Qed.
  Lemma c_FnName x0 : good (CFnName x0).
  Proof. allC. Qed.
  Lemma c_IdentName : good CIdentName.
  Proof. allC. Qed.
  Lemma c_VarIdent x0 : good (CVarIdent x0).
  Proof. allC. Qed.
  Lemma c_FormalParam x0 : good (CFormalParam x0).
  Proof. allC. Qed.
  Lemma c_RestElement : good CRestElement.
  Proof. allC. Qed.
  Lemma c_BindingRestEl : good CBindingRestEl.
  Proof. allC. Qed.
  Lemma c_PatternWithDefault : good CPatternWithDefault.
  Proof. allC. Qed.
  Lemma c_Pattern x0 : good (CPattern x0).
  Proof. allC. Qed.
  Lemma c_RestProp : good CRestProp.
  Proof. allC. Qed.
  Lemma c_PropertyPattern : good CPropertyPattern.
  Proof. allC. Qed.
  Lemma c_ConditionalExpr : good CConditionalExpr.
  Proof. allC. Qed.
  Lemma c_Exponentiation : good CExponentiation.
  Proof. allC. Qed.
  Lemma c_AwaitExpr : good CAwaitExpr.
  Proof. allC. Qed.
  Lemma c_Super : good CSuper.
  Proof. allC. Qed.
  Lemma c_AsyncArg : good CAsyncArg.
  Proof. allC. Qed.
  Lemma c_SpreadElement : good CSpreadElement.
  Proof. allC. Qed.
  Lemma c_ConsumeSemicolon : good CConsumeSemicolon.
  Proof. allC. Qed.

  Lemma c_NextPart : good CNextPart.
  Proof.
    allC.
    - cbn [k_fn k_await k_yield k_labels k_strict k_in k_iter k_switch]. destruct b; exact J0.
    - rewrite (core_past _ _ _ _ _ Hs). intros _. cbn. apply andb_true_iff in Heqb. destruct Heqb as [Hn _].
      apply negb_true_iff. exact Hn.
    - cbn [k_fn k_await k_yield k_labels k_strict k_in k_iter k_switch]. rewrite X. exact J0.
  Qed.

  Lemma c_DirectivePrologues : good CDirectivePrologues.
  Proof.
    startC; headC. loopC (fun k ret (_ : state) => tree k (map NPart ret)); restC.
  Qed.

  Lemma shape_default d : import_shape [ISDefault d].
  Proof. left. eauto. Qed.
  Lemma c_ImportDecl : good CImportDecl.
  Proof.
    allC; apply tree_node; intros e He; cbn [local enter children]; (split; [split; [|assumption]|restT He]);
    repeat match goal with X : exists _, _ = _ |- _ => destruct X; subst end.
    - do 4 right. constructor.
    - do 4 right. assumption.
    - do 3 right. left. eauto.
    - right. left. eauto.
    - do 2 right. left. eauto.
    - left. eauto.
  Qed.

  Lemma c_NamedImports : good CNamedImports.
  Proof.
    startC; headC. goC.
    loopC (fun k l (_ : state) => tree k (flat_map import_names l) /\ Forall normal_spec l); restC.
    all: try (apply Forall_app; split; [tauto|constructor; auto]).
    all: try tauto.
    all: match goal with H : tree _ _ /\ _ |- tree _ _ => destruct H end; treeT.
  Qed.

  Lemma c_ExportDecl : good CExportDecl.
  Proof.
    allC.
    loopC (fun k (x : list ExportSpecifier * bool) (_ : state) => tree k (flat_map export_names (fst x))); restC.
  Qed.

  Lemma c_VarDeclList f : good (CVarDeclList f).
  Proof.
    startC; headC; unfold comma_list; goC.
    loopC (fun k l (_ : state) => tree k (map NVarDecl l) /\ (f = false -> Forall pat_init l)); restC.
    all: try match goal with H : tree _ _ /\ _ |- _ => destruct H end; try assumption; try solve [treeT].
    all: intros; try (apply Forall_app; split); auto.
  Qed.
  Lemma c_VariableDeclList f : good (CVariableDeclList f).
  Proof.
    startC; headC; unfold comma_list; goC.
    loopC (fun k l (_ : state) => tree k (map NVarDecl l) /\ (f = false -> Forall pat_init l)); restC.
    all: try match goal with H : tree _ _ /\ _ |- _ => destruct H end; try assumption; try solve [treeT].
    all: intros; try (apply Forall_app; split); auto.
  Qed.
  Lemma c_BindingList kd f : good (CBindingList kd f).
  Proof.
    startC; headC; unfold comma_list; goC.
    loopC (fun k l s => tree k (map NVarDecl l) /\ full_list g items kd f s l); restC.
    all: try match goal with H : tree _ _ /\ _ |- _ => destruct H end; try assumption; try solve [treeT].
    - exists [], b. split; auto. split; auto. destruct kd; auto. intros d [].
    - match goal with F : full_list _ _ _ _ _ _ |- _ => destruct F as (l & d & E & F1 & F2) end. subst.
      exists (l ++ [d]), b0. split; auto. split; auto.
      destruct kd; cbn [full] in F1.
      + intros Hf. apply Forall_app. auto.
      + intros Hf. apply Forall_app. auto.
      + intros d0 Hd Hn. apply in_app_or in Hd. destruct Hd as [Hd|[Hd|[]]]; [exact (F2 _ Hd Hn)|]. subst.
        eexists. split; [|split; [apply F1; exact Hn|assumption]]. eapply inv_lookC; eassumption.
  Qed.

  Lemma c_SwitchStmt : good CSwitchStmt.
  Proof.
    startC; headC; goC.
    loopC (fun k (x : bool * list SwitchCase) (_ : state) =>
      tree k (map NCase (snd x)) /\ count is_default (snd x) <= (if fst x then 1 else 0)); goC.
    all: try match goal with H : tree _ _ /\ _ |- _ => destruct H end.
    all: try solve [treeT]; try extraT.
    1: apply tree_node; intros e He; cbn [local enter children fst snd] in *; split; [destruct b0; lia|restT He].
    all: cbn [fst snd] in *; rewrite count_app;
      match goal with c : SwitchCase |- _ => destruct c end; cbn [case_test] in *; subst; cbn [is_default]; lia.
  Qed.

  Lemma c_SwitchCase : good CSwitchCase.
  Proof.
    startC; headC; goC;
    loopC (fun k l (_ : state) => tree k (map NPart l) /\ undirected l); restC.
    all: destruct_tree; try assumption; try solve [treeT].
    all: apply undirected_snoc; assumption.
  Qed.

  Lemma c_ReturnStmt : good CReturnStmt.
  Proof. allC; rewrite (core_fn _ _ _ _ _ Hs); apply negb_false_iff; assumption. Qed.

  Lemma c_ForStmt : good CForStmt.
  Proof.
    allC.
    all: try (loopC (fun k l (_ : state) => tree k (map NExpr l)); restC; fail).
    all: apply tree_node; intros e He; cbn [local enter children left_nodes app]; (split; [exact I|]).
    all: constructor; [|restT He].
    all: apply ok_node; [exact I|]; cbn [children enter]; constructor; [|constructor].
    all: apply ok_node; [|constructor]; cbn [local].
    all: match goal with H : it_tok _ = TKeyword ?k |- _ => eapply (name_kw _ k); [|exact H]; eassumption end.
  Qed.

  Lemma c_Expression : good CExpression.
  Proof. allC. loopC (fun k l (_ : state) => tree k (map NExpr l)); restC. Qed.

  Lemma c_Block : good CBlock.
  Proof.
    allC.
    loopC (fun k l (_ : state) => tree k (map NPart l) /\ undirected l); restC.
    all: destruct_tree; try assumption; try solve [treeT].
    all: apply undirected_snoc; assumption.
  Qed.

  Lemma c_LexicalDecl f : good (CLexicalDecl f).
  Proof.
    allC; subst f; apply tree_node; intros e He; cbn [local enter children]; (split; [|restT He]).
    - destruct X as (l & d & E & F1 & F2). subst. cbn [full] in F1.
      intros l1 d1 l2 E Hn. apply snoc_split in E. destruct E as [(E1 & E2 & E3)|(l2' & E1 & E2)]; subst.
      + exists (st_look s0). split; [eapply inv_lookC; eassumption|]. auto.
      + destruct (F2 d1) as (i & H3 & H4 & H5); auto. { apply in_or_app. right. left. reflexivity. }
        exists i. auto.
    - destruct X as (l & d & E & F1 & F2). subst. cbn [full] in F1. apply Forall_app. auto.
  Qed.

  Lemma c_LexicalBinding kd f : good (CLexicalBinding kd f).
  Proof.
    allC; cbn [full decl_init].
    - intros Hf. unfold pat_init. cbn. intros E. exfalso. rewrite Hf, E in Heqb1. discriminate.
    - intros Hf. unfold pat_init. cbn. intros E. exfalso. rewrite Hf, E in Heqb1. discriminate.
    - intros _. left. assumption.
    - intros _. right. auto.
  Qed.

  Lemma c_LabelledStatement : good CLabelledStatement.
  Proof.
    allC.
    all: match goal with
    | J2 : invC ?s (mkCore _ _ _ (set_remove (label_key ?i) (label_key ?i :: ?lb)) _ _ _ _ _) |- invC ?s _ =>
        rewrite set_remove_added in J2 by assumption; exact J2
    | _ => idtac
    end.
    all: apply tree_node; intros e He.
    all: assert (Hl : ~ In i (e_labels e)) by
      (intros Hin; eapply set_mem_in; [eassumption|]; destruct He as (_ & _ & _ & He & _); apply He; exact Hin).
    all: assert (He' : covers (enter e (NStmt (SLabeled i SEmpty)))
           (mkCore fn aw (negb ng || y) (label_key i :: lb) st ai it sw pp)).
    1,3,5: (destruct He as (E1 & E2 & E3 & E4 & E5); repeat split; auto;
      cbn [enter e_labels]; intros l [Hl'|Hl']; [left; congruence|right; apply E4; exact Hl']).
    all: cbn [local]; (split; [exact Hl|]); cbn [children enter] in *; constructor;
      [apply ok_node; [|constructor]; cbn [local];
       exact (ok_local _ _ _ _ _ (tree_one _ _ _ _ _ _ (tree_name _ _ _ _ _ T) He))
      |constructor; [|constructor]; restT He'].
  Qed.

  Lemma c_VariableDecl f : good (CVariableDecl f).
  Proof. allC. all: exfalso; congruence. Qed.

  Lemma c_FunctionSourceEl : good CFunctionSourceEl.
  Proof.
    startC; headC. stepC. stepC. stepC. stepC.
    stepC. stepC. stepC.
    match goal with c : ctx, E : core_of ng ?c = _ |- _ => destruct c; unfold core_of in E; cbn in E;
      injection E as E1 E2 E3 E4 E5 E6 E7 E8 E9; subst; cbn [c_in_function_body c_in_switch c_in_iteration c_label_set] end.
    stepC. stepC. stepC.
    match goal with |- wp _ _ _ _ _ _ _ (Loop _ _) _ ?s1 =>
      match goal with H : invC s1 ?k2 |- _ =>
        eapply (wpC_loop g items ng _ _ _ k2 (fun b (_ : state) => forall e,
          covers e (mkCore fn aw (negb ng || y) lb st ai it sw pp) ->
          Forall (okn (enter e (NBody []))) (map NPart b))); [exact H| |] end end.
    - intros e He. match goal with T : tree _ (map NPart _) |- _ => apply T end.
      destruct He as (F1 & F2 & F3 & F4 & F5). repeat split; auto. intros l [].
    - intros b1 s5 J5 R5. goC; try exact I.
      + apply tree_node. intros e He. split; [exact I|]. cbn [children]. apply R5. exact He.
      + apply tree_node. intros e He. split; [exact I|]. cbn [children]. apply R5. exact He.
      + match goal with H : covers _ _ |- _ => rename H into He end. rewrite map_app. apply Forall_app. split; [auto|].
        match goal with T : tree _ [NPart _] |- _ => apply T end.
        destruct He as (F1 & F2 & F3 & F4 & F5). repeat split; auto.
  Qed.

  Lemma c_ClassDecl o : good (CClassDecl o).
  Proof. allC. Qed.

  Lemma c_ClassBody : good CClassBody.
  Proof.
    startC; headC; goC.
    loopC (fun k (x : bool * list Property) s' =>
      tree k (map NProperty (snd x)) /\ count is_ctor (snd x) <= (if fst x then 1 else 0)
      /\ (tgt s' = true -> tgt s = true)); goC.
    all: destruct_tree; try solve [treeT]; cbn [fst snd] in *.
    - split; [cbn; lia|tgtT].
    - split; [destruct b; lia|tgtT].
    - split; [destruct b; auto; lia|tgtT].
    - rewrite count_app. destruct X as (X1 & X2 & X3). split; [|tgtT].
      destruct b, (is_ctor p), b1; intuition (try lia; try discriminate).
  Qed.

  Definition mid_ok (m : el_mid) (s : state) : Prop :=
    match em_kind m with
    | None => em_value m = None
    | Some kind =>
        tgt s = false /\ exists v, em_value m = Some v /\
        match kind with
        | KGet => is_fn v false (fun ps => g_tolerant g = false -> ps = [])
        | KSet => is_fn v false (fun ps => g_tolerant g = false -> exists p, ps = [p] /\ is_rest p = false)
        | KInit => exists gen, is_fn v gen (fun _ => True)
        | _ => False
        end
    end.

  Lemma c_ClassEl_head m s k (Q : el_head -> state -> Prop) : invC s k ->
    (forall h s', invC s' k -> tree k (opt NKey (eh_key h)) -> Q h s') -> wpC m class_el_head Q s.
  Proof.
    intros Hs HQ. unfold class_el_head. goC;
    (apply HQ; [assumption|cbn [eh_key opt]; first [assumption|apply tree_nil]]).
  Qed.

  Ltac midT :=
    unfold mid_ok; cbn [em_kind em_value];
    first [reflexivity
          | split; [tauto|eexists; split; [reflexivity|first [tauto|eexists; eapply proj1; eassumption]]]].
  Lemma c_ClassEl_mid m h s fn aw y lb st ai it sw pp (Q : el_mid -> state -> Prop) :
    let k := mkCore fn aw (negb ng || y) lb st ai it sw pp in
    (ng = true -> classy items) -> invC s k -> tree k (opt NKey (eh_key h)) ->
    (forall x s', invC s' k -> tree k (opt NKey (em_key x)) -> tree k (opt NMethod (em_value x)) -> mid_ok x s' -> Q x s') ->
    wpC m (class_el_mid h) Q s.
  Proof.
    intros k Hc Hs Ht HQ. unfold class_el_mid.
    stepC. stepC. stepC. stepC. cbn zeta.
    match goal with |- wp _ _ _ _ _ _ _ (Bind ?p _) _ _ =>
      eapply (wpC_cut g items ng _ _ _ k (fun x s' => tree k (opt NKey (em_key x)) /\ tree k (opt NMethod (em_value x)) /\ mid_ok x s')) end.
    - destruct (is_ident (eh_tok h)); [destruct (match eh_key h with Some _ => _ | None => _ end) eqn:Eg|].
      + assert (Hng : ng = false).
        { destruct (eh_key h) as [kk|]; [|discriminate]. apply andb_true_iff in Eg. destruct Eg as [Eg _].
          eapply named_get; [exact (fun En => no_get En (Hc En))| |apply is_key_named; exact Eg].
          eapply tree_one; [exact Ht|apply covers_top]. }
        subst k. goC; cbn [em_key em_value opt]; try assumption;
        try (match goal with J : Trees.invC _ _ _ ?s ?k' |- Trees.invC _ _ _ ?s ?k => replace k with k'; [exact J|] end;
          rewrite Hng; reflexivity).
        * match goal with T : tree ?k' ?l |- tree ?k ?l => replace k with k'; [exact T|rewrite Hng; reflexivity] end.
        * match goal with T : tree ?k' ?l |- tree ?k ?l => replace k with k'; [exact T|rewrite Hng; reflexivity] end.
        * midT.
      + goC; cbn [em_key em_value opt]; try assumption; try apply tree_nil; midT.
      + goC; cbn [em_key em_value opt]; try assumption; try apply tree_nil; midT.
    - intros x s' J (T1 & T2 & T3). stepC. stepC.
      destruct (em_kind x) as [kd|] eqn:Ek; [stepC; apply HQ; auto|].
      destruct (em_key x) as [kk|] eqn:Ekk; [|stepC; apply HQ; auto; rewrite Ekk; exact T1].
      subst k. goC; apply HQ; cbn [em_key em_value opt]; try assumption; try midT. rewrite Ekk. assumption.
  Qed.

  Lemma c_ClassEl hc : good (CClassEl hc).
  Proof.
    startC; headC. stepC. eapply c_ClassEl_head; [exact Hs|]. intros h s1 J1 T1.
    stepC. eapply c_ClassEl_mid; [exact Hp|exact J1|exact T1|]. intros x s2 J2 T2 T3 M.
    unfold mid_ok in M. destruct (em_kind x) as [kd|]; [|exact I]. cbn zeta. destruct M as (M1 & v & Ev & M2). rewrite Ev in *.
    destruct (em_key x) as [kk|]; [|exact I]. cbn [opt] in T2, T3.
    assert (K : forall hc' kd', (kd' = kd /\ hc' = hc \/ kd = KInit /\ kd' = KMethod /\ hc' = hc
       \/ kd = KInit /\ kd' = KCtor /\ em_computed x = false /\ is_key kk "constructor" = true /\ is_generator v = false /\ hc = false /\ hc' = true) ->
      kd' <> KInit ->
      postC g items ng _ (CClassEl hc) s (hc', mkProperty kk v kd' (em_method x) (em_computed x) false) s2).
    { intros hc' kd' H Hk. eapply post_intro; [exact Hs|exact J2| |].
      - cbn [nodes snd]. intros e He. constructor; [|constructor]. apply ok_node.
        + cbn [local]. destruct H as [(-> & _)|[(-> & -> & _)|(-> & -> & H1 & H2 & H3 & _)]]; [destruct kd; tauto|exact M2|].
          split; [exact H1|]. split; [apply is_key_named; exact H2|]. destruct M2 as (gen & ps & b & a & -> & _).
          cbn in H3. subst gen. exists ps, b, a. auto.
        + cbn [children enter]. replace (is_method kd' (em_method x)) with true by (destruct kd'; try reflexivity; congruence).
          restT He.
      - cbn [extra snd fst is_ctor prop_kind].
        destruct H as [(-> & ->)|[(-> & -> & ->)|(-> & -> & H1 & H2 & H3 & -> & ->)]]; [destruct kd; try tauto| |];
          (split; [|split]); auto; discriminate. }
    destruct kd; try contradiction; repeat stepC;
      repeat match goal with H : _ && _ = true |- _ => apply andb_true_iff in H; destruct H end;
      (apply K; [tauto|discriminate]).
  Qed.

  Ltac fnT := split; [unfold is_fn; eexists; eexists; eexists; split; [reflexivity|first [exact I|idtac]]|tgtT].
  Lemma c_AsyncPropertyMethod : good CAsyncPropertyMethod.
  Proof. allC. fnT. Qed.
  Lemma c_PropertyMethod : good CPropertyMethod.
  Proof. allC. fnT. Qed.
  Lemma c_GeneratorMethod : good CGeneratorMethod.
  Proof. allC. fnT. Qed.
  Lemma c_GetterMethod : good CGetterMethod.
  Proof.
    allC. fnT. intros Et. match goal with |- ?l = [] => destruct l end; [reflexivity|].
    match goal with H : (0 <? _) = true -> _ |- _ => specialize (H eq_refl); congruence end.
  Qed.
  Lemma c_PropertyMethodBody a b : good (CPropertyMethodBody a b).
  Proof.
    allC. repeat match goal with E : tgt ?a = _ |- tgt ?a = _ => rewrite E end.
    match goal with E : tgt ?a = tgt ?b, E1 : tgt ?b = false |- _ && tgt ?a = _ => rewrite E, E1 end. apply andb_false_r.
  Qed.
  Lemma c_SetterMethod : good CSetterMethod.
  Proof.
    startC; headC. do 12 stepC.
    assert (W : forall Q : unit -> state -> Prop,
      ((g_tolerant g = false -> exists p, fp_params b0 = [p] /\ is_rest p = false) -> Q tt s2) ->
      wpC m match fp_params b0 with
            | [param] => if is_rest param then Do (OTolerate (FError (InvalidSetterParams b))) else Ret tt
            | _ => Do (OTolerate (FError (InvalidSetterParams b)))
            end Q s2).
    { intros Q HQ. destruct (fp_params b0) as [|p [|p' l]].
      - apply wpC_tolerate. intros. apply HQ. congruence.
      - destruct (is_rest p) eqn:Er; [apply wpC_tolerate|]; intros; apply HQ; [congruence|eauto].
      - apply wpC_tolerate. intros. apply HQ. congruence. }
    apply W. intros H. clear W. goC; [solve [treeT]|]. fnT. exact H.
  Qed.
  Lemma c_ObjectPropertyKey : good CObjectPropertyKey.
  Proof.
    allC. intros e He. constructor; [|constructor]. apply key_of_expr_ok. eapply tree_one; eassumption.
  Qed.

  Lemma rest_last_snoc l f : Forall (fun a => is_rest a = false) l -> rest_last (l ++ [f]).
  Proof.
    intros H l1 a l2 E Hr. apply snoc_split in E. destruct E as [(E & _)|(l2' & -> & ->)]; [exact E|].
    rewrite Forall_app in H. destruct H as [_ H]. apply Forall_inv in H. congruence.
  Qed.
  Lemma c_FormalParams : good CFormalParams.
  Proof.
    startC; headC; goC; try solve [treeT].
    - intros l a l' E. destruct l; discriminate.
    - loopC (fun k (x : bool * bool * list FunctionArg) (s' : state) =>
        tree k (map NArg (snd x)) /\ Forall (fun a => is_rest a = false) (snd x)); goC;
      destruct_tree; cbn [fst snd fp_params] in *; try assumption; try solve [treeT];
      try (apply rest_last_snoc; assumption).
      + constructor.
      + intros l1 a l2 -> Hr. match goal with H : Forall _ (_ ++ _) |- _ => apply Forall_app in H; destruct H as [_ H]; apply Forall_inv in H end. congruence.
      + apply Forall_app. split; [assumption|]. constructor; [|constructor].
        match goal with |- is_rest ?f = _ => destruct (is_rest f) end; [|reflexivity].
        specialize (X eq_refl). congruence.
  Qed.

  Lemma c_ArrayInit : good CArrayInit.
  Proof.
    startC; headC; goC.
    loopC (fun k (x : list (option Expr)) (s' : state) => tree k (opts NExpr x)); goC; try solve [treeT]; try extraT.
  Qed.

  Lemma c_ArrayPattern : good CArrayPattern.
  Proof.
    startC; headC; goC.
    loopC (fun k (x : list (option ArrayPatPart)) (s' : state) => tree k (opts NArrPart x)); goC; try solve [treeT]; try extraT.
  Qed.

  Lemma c_ObjectPattern : good CObjectPattern.
  Proof.
    startC; headC; goC.
    loopC (fun k (x : list ObjectPatPart) (s' : state) => tree k (map NObjPart x)); goC; try solve [treeT]; try extraT.
  Qed.

  Lemma c_ObjInit : good CObjInit.
  Proof.
    startC; headC; goC.
    loopC (fun k (x : bool * list ObjectProperty) (s' : state) => tree k (map NObjProp (snd x))); goC; cbn [snd] in *; try solve [treeT]; try extraT.
  Qed.


  Lemma inner_slice_spec rw k c : slice rw 1 (byte_len rw - k) = Some c -> k <= byte_len rw ->
    exists d e, rw = d :: c ++ e /\ byte_len e = k /\ len_utf8 d = 1.
  Proof.
    intros H Hk. apply slice_inv in H. destruct H as (pre & suf & E & H1 & H2).
    destruct pre as [|d [|d' pre]].
    - discriminate.
    - exists d, suf. cbn [byte_len] in H1. split; [exact E|]. split; [|lia].
      apply (f_equal byte_len) in E. rewrite !byte_len_app in E. cbn [byte_len] in E, H2. lia.
    - cbn [byte_len] in H1. pose proof (len_utf8_pos d). pose proof (len_utf8_pos d'). lia.
  Qed.

  Lemma wpC_inner_slice m rw k (Q : text -> state -> Prop) s :
    (forall c d e, rw = d :: c ++ e -> byte_len e = k -> len_utf8 d = 1 -> Q c s) ->
    wpC m (inner_slice rw k) Q s.
  Proof.
    intros H. unfold inner_slice. destruct (byte_len rw <? k) eqn:E; [exact I|]. apply Nat.ltb_ge in E.
    destruct (slice rw 1 (byte_len rw - k)) as [c|] eqn:Es; [|exact I].
    destruct (inner_slice_spec _ _ _ Es E) as (d & e & H1 & H2 & H3). cbn. eapply H; eauto.
  Qed.

  Lemma c_TemplateElement : good CTemplateElement.
  Proof.
    startC; headC; goC; (apply wpC_inner_slice; intros c d e E1 E2 E3; goC; [|exact I]);
      treeT; eexists; exists d, e;
      (split; [exists (st_look s); split; [assumption|split; [eassumption|exact H2]]|]); (split; [exact E1|]); split; auto.
  Qed.

  Lemma c_TemplateLiteral : good CTemplateLiteral.
  Proof.
    startC; headC; goC.
    loopC (fun k (x : bool * list Expr * list TemplateElement) (s' : state) =>
      tree k (map NExpr (snd (fst x))) /\ tree k (map NQuasi (snd x)) /\
      length (snd x) = S (length (snd (fst x))) /\
      exists l q, snd x = l ++ [q] /\ q_tail q = fst (fst x) /\ Forall (fun q => q_tail q = false) l); goC;
      cbn [fst snd] in *; destruct_tree; try solve [treeT]; try extraT.
    - split; [reflexivity|]. exists [], b. auto.
    - treeT. destruct H2 as (H2 & l' & q & El & Hq & Hl). split; [exact H2|].
      intros a q' a' E. rewrite El in E. apply snoc_split in E. destruct E as [(-> & _ & <-)|(l2' & -> & ->)]; [exact Hq|].
      rewrite Forall_app in Hl. destruct Hl as [_ Hl]. apply Forall_inv in Hl. rewrite Hl. destruct l2'; reflexivity.
    - destruct H2 as (H2 & l' & q & El & Hq & Hl). rewrite !app_length, H2. cbn. split; [lia|].
      eexists; eexists; split; [reflexivity|]. split; [reflexivity|]. rewrite El. apply Forall_app. auto.
  Qed.
  Lemma c_Args : good CArgs.
  Proof.
    startC; headC; unfold arg_list; goC; try solve [treeT]; try extraT.
    loopC (fun k (x : list Expr) (s' : state) => tree k (map NExpr x) /\ (tgt s' = true -> tgt s = true)); goC; destruct_tree; try solve [treeT]; try extraT.
  Qed.
  Lemma c_AsyncArgs : good CAsyncArgs.
  Proof.
    startC; headC; unfold arg_list; goC; try solve [treeT]; try extraT.
    loopC (fun k (x : list Expr) (s' : state) => tree k (map NExpr x) /\ (tgt s' = true -> tgt s = true)); goC; destruct_tree; try solve [treeT]; try extraT.
  Qed.

  Lemma c_UpdateExpr : good CUpdateExpr.
  Proof.
    allC; treeT;
    intros Et;
    match goal with H : negb (tgt ?a) = true -> _ |- _ =>
      assert (E : tgt a = true) by (destruct (Bool.bool_dec (tgt a) true) as [E|E]; [exact E|];
        apply Bool.not_true_is_false in E; rewrite E in H; specialize (H eq_refl); congruence); clear H end;
    tgtT.
  Qed.

  Lemma c_NewExpr : good CNewExpr.
  Proof.
    allC. change (str "new") with (kw_text KNew). treeT. eapply name_kw; [exact H2|apply is_keyword_eq; exact H1].
  Qed.

  Lemma c_LeftHandSideExpr : good CLeftHandSideExpr.
  Proof.
    startC; headC; goC; [apply andb_true_iff in Heqb; tauto|..];
    (loopC (fun k (x : Expr) (s' : state) => tree k [NExpr x] /\ (tgt s' = true -> target_ok x = true));
      [split; [assumption|tgtT]|]; goC; destruct_tree; try solve [treeT]; try extraT).
  Qed.

  Lemma c_UnaryExpression : good CUnaryExpression.
  Proof.
    allC. intros e He. constructor; [|constructor]. apply ok_node.
    - cbn [local]. destruct u; try exact I. destruct b; try exact I. intros Et.
      assert (Ed : is_keyword KDelete (it_tok (st_look s)) = true).
      { unfold unary_operator in Heqo. destruct (it_tok (st_look s)) as [| | | | | | | | | |];
        repeat match goal with H : context [match ?x with _ => _ end] |- _ => first [discriminate|destruct x] end;
        first [discriminate|reflexivity]. }
      rewrite Ed in H5. cbn [is_ident_expr andb] in H5.
      destruct (e_class e) eqn:Ec; [|reflexivity]. destruct He as (_ & _ & _ & _ & He). cbn in He.
      rewrite (He Et Ec) in H5. cbn in H5. specialize (H5 eq_refl). congruence.
    - cbn [children enter]. restT He.
  Qed.

  Lemma c_BinaryExpression : good CBinaryExpression.
  Proof.
    startC; headC; goC; try solve [treeT]; try extraT.
    loopC (fun k (x : list token * list nat * list Expr) (s' : state) => tree k (map NExpr (snd x)) /\ tgt s' = false); goC;
    destruct_tree; cbn [fst snd] in *; try solve [treeT]; try extraT.
    - intros e1 He. constructor; [|constructor].
      match goal with H : tree _ (map NExpr (_ :: _)), E : reduce_all _ _ _ = inl _ |- _ =>
        specialize (H e1 He); cbn in H; inversion H; subst; eapply Trees.reduce_all_ok; [| |exact E]; assumption end.
    - intros e1 He. cbn [map]. constructor; [eapply tree_one; [eassumption|exact He]|].
      match goal with E : reduce_while _ _ _ _ = inl _ |- _ => eapply Trees.reduce_while_ok; [|exact E] end. auto.
   Qed.

  Lemma tree_fa k l : tree k (map NExpr l) -> tree k (map NArg (map FAExpr l)).
  Proof.
    intros H e He. specialize (H e He). rewrite !Forall_map in *. eapply Forall_impl; [|exact H].
    intros x Hx. apply ok_node; [exact I|]. cbn. auto.
  Qed.
  Lemma tree_seq k l : tree k [NExpr (ESequence l)] -> tree k (map NExpr l).
  Proof. intros H e He. exact (ok_children _ _ _ _ _ (tree_one _ _ _ _ _ _ H He)). Qed.
  Lemma c_LeftHandSideExprAllowCall : good CLeftHandSideExprAllowCall.
  Proof.
    startC; headC; goC;
    (loopC (fun k (x : Expr) (s' : state) => tree k [NExpr x] /\ (tgt s' = true -> target_ok x = true));
      [split; [first [assumption|treeT]|tgtT]|]; goC; destruct_tree; try solve [treeT]; try extraT);
    (match goal with H : tree _ (map NExpr _) |- _ => apply tree_fa in H end; treeT).
  Qed.

  Lemma c_YieldExpr : good CYieldExpr.
  Proof.
    allC. replace (negb ng || false) with (negb ng || y) in * by (destruct (Bool.bool_dec ng true) as [E|E];
      [rewrite (Hp E), E; reflexivity|apply Bool.not_true_is_false in E; rewrite E; reflexivity]). treeT.
    split; [intros E; apply He; apply Hp; exact E|]. exists (st_look s). split; [assumption|apply is_keyword_eq; assumption].
  Qed.

  Lemma c_GroupExpr : good CGroupExpr.
  Proof.
    startC; headC; goC; try solve [treeT]; try extraT.
    - loopC (fun k (x : list Expr) (s' : state) => tree k (map NExpr x)); goC; try solve [treeT]; try extraT;
      match goal with H : tree _ (map NExpr _) |- _ => apply tree_fa in H end; treeT.
    - apply tree_seq, tree_fa in T1. treeT.
  Qed.

  Lemma c_ObjProp_head m start s k (Q : option PropertyKey * bool * bool -> state -> Prop) : invC s k -> inp start ->
    (forall h s', invC s' k -> tree k (opt NKey (fst (fst h))) -> Q h s') -> wpC m (obj_prop_head start) Q s.
  Proof.
    intros Hs Hst HQ. unfold obj_prop_head. goC; (apply HQ; [assumption|cbn [fst opt]; try assumption; treeT]).
  Qed.
  Lemma c_ObjProp hp : good (CObjProp hp).
  Proof.
    startC; headC. stepC. stepC. stepC. stepC. stepC. eapply c_ObjProp_head; [eassumption..|].
    intros [[ko ia] cm] s1 J1 T1. cbn [fst] in T1. 
    goC; unfold obj_prop_plain; goC; cbn [opt] in *; try solve [treeT]; try extraT.
    all: treeT; intros _; eexists; eapply proj1; eassumption.
  Qed.

  Lemma c_AssignmentExpr : good CAssignmentExpr.
  Proof.
    startC; headC. do 4 stepC. stepC.
    - callC; [|finC; assumption].
      apply andb_true_iff in Heqb. destruct Heqb as [E _]. apply negb_true_iff in E. subst y0.
      intros E. rewrite <- Ey, E. reflexivity.
    - do 10 stepC. stepC.
      eapply (wpC_cut g items ng _ _ _ (mkCore fn aw (negb ng || y) lb st ai it sw pp)
        (fun x s' => tree (mkCore fn aw (negb ng || y) lb st ai it sw pp) [NExpr x] /\ (tgt s' = true -> target_ok x = true))).
      + goC; [|reflexivity|assumption|auto].
        intros e He. constructor; [|constructor]. apply ok_node; [exact I|]. cbn. constructor; [|constructor].
        apply ok_node; [exact I|]. cbn. constructor; [|constructor]. eapply expr_as_pat_ok; [|eassumption].
        eapply tree_one; eassumption.
      + intros x s1 J1 (T1 & X1). do 3 stepC.
        * goC; try solve [treeT]; try extraT;
          (match goal with H : forall ps e, Some ?l = Some ps -> _ |- _ =>
             assert (Tl : tree (mkCore fn aw (negb ng || y) lb st ai it sw pp) (map NArg l)) by
               (intros e He; eapply H; [reflexivity|eapply tree_one; eassumption]) end; treeT).
        * stepC.
          { stepC. do 4 stepC. stepC. stepC. stepC.
            apply wpC_quiet; [destruct x; try reflexivity; destruct (st && _); [exact I|reflexivity]|].
            goC; try solve [treeT]; try extraT. }
          goC; assumption.
  Qed.

  Lemma regex_split w e p f :
    rfind_slash 0 w = Some e -> slice w 1 e = Some p -> slice w (e + 1) (byte_len w) = Some f ->
    exists d, len_utf8 d = 1 /\ w = d :: p ++ [47%N] ++ f /\ ~ In 47%N f.
  Proof.
    intros H1 H2 H3. pose proof (rfind_slash_spec w 0) as R. rewrite H1 in R.
    destruct R as (a & b & Ew & Ee & Hn). cbn in Ee. subst e.
    apply slice_inv in H3. destruct H3 as (pre & suf & E3 & L3 & L3').
    assert (suf = []) as ->.
    { apply (f_equal byte_len) in E3. rewrite !byte_len_app in E3. destruct suf as [|c suf]; [reflexivity|].
      cbn [byte_len] in E3. pose proof (len_utf8_pos c). lia. }
    rewrite app_nil_r in E3.
    assert (f = b) as ->.
    { assert (L47 : len_utf8 47 = 1) by reflexivity.
      assert (E : pre ++ f = (a ++ [47%N]) ++ b) by (rewrite <- E3, Ew, <- app_assoc; reflexivity).
      assert (Lp : byte_len pre = byte_len (a ++ [47%N])) by (rewrite byte_len_app; cbn [byte_len]; lia).
      destruct (prefix_split _ _ _ _ E) as [u Hu]; [lia|].
      rewrite Hu in Lp. rewrite byte_len_app in Lp. destruct u as [|c u]; [|cbn [byte_len] in Lp; pose proof (len_utf8_pos c); lia].
      rewrite app_nil_r in Hu. rewrite Hu in E. apply app_inv_head in E. exact E. }
    apply slice_inv in H2. destruct H2 as (pre2 & suf2 & E2 & L2 & L2').
    destruct pre2 as [|d [|d' pre2]].
    - discriminate.
    - exists d. cbn [byte_len] in L2. split; [lia|]. split; [|exact Hn].
      assert (E : ([d] ++ p) ++ suf2 = a ++ [47%N] ++ b) by (rewrite <- app_assoc, <- E2; exact Ew).
      destruct (prefix_split _ _ _ _ E) as [u Hu]; [rewrite byte_len_app; cbn [byte_len] in *; lia|].
      assert (Lp := f_equal byte_len Hu). rewrite !byte_len_app in Lp. cbn [byte_len] in Lp, L2'.
      destruct u as [|c u]; [|cbn [byte_len] in Lp; pose proof (len_utf8_pos c); lia].
      rewrite app_nil_r in Hu. rewrite Ew, Hu. reflexivity.
    - cbn [byte_len] in L2. pose proof (len_utf8_pos d). pose proof (len_utf8_pos d'). lia.
  Qed.
  Lemma c_PrimaryExpression : good CPrimaryExpression.
  Proof.
    allC.
    - treeT. exists (st_look s0). auto.
    - treeT. destruct (regex_split _ _ _ _ ltac:(eassumption) ltac:(eassumption) ltac:(eassumption)) as (d & H3 & H4 & H5). exists d. split; [exact H3|]. split; [|exact H5].
      exists (st_look s0). split; [assumption|]. split; [assumption|]. congruence.
  Qed.

  Lemma bodiesC : forall B (c : call B), good c.
  Proof.
    intros B c. destruct c.
    - apply c_NextPart.
    - apply c_DirectivePrologues.
    - apply c_Directive.
    - apply c_StatementListItem.
    - apply c_ImportDecl.
    - apply c_NamedImports.
    - apply c_ImportSpecifier.
    - apply c_ImportNamespaceSpecifier.
    - apply c_ImportDefaultSpecifier.
    - apply c_ExportDecl.
    - apply c_ExportSpecifier.
    - apply c_ModuleSpecifier.
    - apply c_Statement.
    - apply c_WithStmt.
    - apply c_WhileStmt.
    - apply c_VarStmt.
    - apply c_VarDeclList.
    - apply c_VarDecl.
    - apply c_TryStmt.
    - apply c_CatchClause.
    - apply c_FinallyClause.
    - apply c_ThrowStmt.
    - apply c_SwitchStmt.
    - apply c_SwitchCase.
    - apply c_ReturnStmt.
    - apply c_IfStmt.
    - apply c_IfClause.
    - apply c_FnStmt.
    - apply c_ForStmt.
    - apply c_ForLoop.
    - apply c_ForLoopCont.
    - apply c_ForInLoop.
    - apply c_ForOfLoop.
    - apply c_LoopBody.
    - apply c_DoWhileStmt.
    - apply c_BreakStmt.
    - apply c_ContinueStmt.
    - apply c_OptionallyLabeled.
    - apply c_DebuggerStmt.
    - apply c_LabelledStatement.
    - apply c_ExpressionStatement.
    - apply c_Expression.
    - apply c_Block.
    - apply c_LexicalDecl.
    - apply c_BindingList.
    - apply c_VariableDeclList.
    - apply c_VariableDecl.
    - apply c_LexicalBinding.
    - apply c_FunctionDecl.
    - apply c_FunctionSourceEl.
    - apply c_ClassDecl.
    - apply c_ClassBody.
    - apply c_ClassEl.
    - apply c_AsyncPropertyMethod.
    - apply c_PropertyMethod.
    - apply c_GeneratorMethod.
    - apply c_GetterMethod.
    - apply c_MethodBody.
    - apply c_SetterMethod.
    - apply c_PropertyMethodBody.
    - apply c_ObjectPropertyKey.
    - apply c_PrimaryExpression.
    - apply c_GroupExpr.
    - apply c_ArrayInit.
    - apply c_ObjInit.
    - apply c_ObjProp.
    - apply c_TemplateLiteral.
    - apply c_TemplateElement.
    - apply c_FunctionExpr.
    - apply c_FnName.
    - apply c_IdentName.
    - apply c_VarIdent.
    - apply c_FormalParams.
    - apply c_FormalParam.
    - apply c_RestElement.
    - apply c_BindingRestEl.
    - apply c_PatternWithDefault.
    - apply c_Pattern.
    - apply c_ArrayPattern.
    - apply c_ObjectPattern.
    - apply c_RestProp.
    - apply c_PropertyPattern.
    - apply c_AssignmentExpr.
    - apply c_YieldExpr.
    - apply c_ConditionalExpr.
    - apply c_BinaryExpression.
    - apply c_Exponentiation.
    - apply c_UnaryExpression.
    - apply c_AwaitExpr.
    - apply c_UpdateExpr.
    - apply c_LeftHandSideExpr.
    - apply c_Super.
    - apply c_LeftHandSideExprAllowCall.
    - apply c_AsyncArgs.
    - apply c_AsyncArg.
    - apply c_SpreadElement.
    - apply c_Args.
    - apply c_NewExpr.
    - apply c_ConsumeSemicolon.
  Qed.

  (** Calls with a precondition restore the context without it. *)
  Definition frame {B} (c : call B) : Prop := forall m s, invB g items s ->
    wpC m (body c) (fun _ s' => invC s' (core_of ng (st_ctx s))) s.
  Ltac frameC :=
    intros m s Hi;
    destruct (start_inv s Hi) as (fn & aw & y & lb & st & ai & it & sw & pp & Hs & Ec);
    rewrite Ec; clear Hi Ec; cbn [body]; headC; goC.
  Lemma frame_await : frame CAwaitExpr. Proof. frameC. Qed.
  Lemma frame_super : frame CSuper. Proof. frameC. Qed.
  Lemma frame_lexical x : frame (CLexicalDecl x). Proof. frameC. Qed.
  Lemma frame_for x : frame (CForLoopCont x). Proof. frameC. Qed.
  Lemma frame_for_in x : frame (CForInLoop x). Proof. frameC. Qed.
  Lemma frame_for_of x0 x1 : frame (CForOfLoop x0 x1). Proof. frameC. Qed.
End Bodies.
