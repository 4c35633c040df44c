(** The pass of Derive.v, function by function. *)
From Verif Require Export Derive.
From Verif Require Trees Bodies.
Export Parser.

Unset Printing Records.
Section Derived.
  Variable g : cfg.
  Notation js := (g_stream g).
  Notation tolerant := (g_tolerant g).
  Notation D := (d (g_tolerant g) (g_module g) (g_strict_reserved g)).
  Notation At := (At g).
  Notation wpD m p Q s := (wp g false (preD g) (postD g) (fun _ _ => True) True m p Q s).

  Definition faithful {B} (c : call B) : Prop := forall m s, preD g (S m) _ c s ->
    wpD m (body c) (postD g _ c s) s.

  Ltac ctxs_in H := cbv beta iota delta [frame_of scope_of in_ctx set_allow_in set_allow_strict_directive set_allow_yield set_await
      set_first_covert set_assign_target set_binding_element set_in_function_body
      set_in_iteration set_in_switch set_label_set set_strict set_past_prolog c_allow_in
      c_allow_strict_directive c_allow_yield c_await c_first_covert c_assign_target
      c_binding_element c_in_function_body c_in_iteration c_in_switch c_label_set c_strict
      c_past_prolog s_in s_await s_strict s_fn fst snd] in H.
  Ltac items :=
    repeat match goal with
    | E : it_tok ?i = hd_tok _ |- context [it_tok ?i] => rewrite E
    | E : text_of _ ?i = hd_text _ |- context [text_of _ ?i] => rewrite E
    end.
  Ltac frameC c Hc :=
    unfold frame_of, scope_of in Hc;
    let E1 := fresh in let E2 := fresh in let E3 := fresh in let E4 := fresh in let E5 := fresh in
    injection Hc as E1 E2 E3 E4 E5;
    rewrite ?E1, ?E2, ?E3, ?E4, ?E5; clear E1 E2 E3 E4 E5.
  Ltac getD :=
    eapply wpD_get; [eassumption|];
    let c := fresh "c" in let Hc := fresh "Hc" in
    intros c Hc; cbn beta; frameC c Hc;
    lazymatch goal with
    | |- context [c_allow_yield c] => generalize (c_allow_yield c); intro
    | |- context [c_allow_strict_directive c] => generalize (c_allow_strict_directive c); intro
    | |- context [c_binding_element c] => generalize (c_binding_element c); intro
    | |- context [c_assign_target c] => generalize (c_assign_target c); intro
    | |- context [c_in_iteration c] => generalize (c_in_iteration c); intro
    | |- context [c_in_switch c] => generalize (c_in_switch c); intro
    | |- context [c_label_set c] => generalize (c_label_set c); intro
    | |- _ => idtac
    end; clear c.
  Ltac ctxD :=
    eapply wpD_ctx; [eassumption|];
    let c := fresh "c" in let Hc := fresh "Hc" in
    intros c Hc; cbn beta; frameC c Hc.
  Ltac updD :=
    eapply wpD_upd; [eassumption|intros []; reflexivity|];
    let s := fresh "s" in let A := fresh "A" in intros s A; ctxs_in A.
  Ltac callD :=
    eapply wpD_call; [eassumption|];
    let b := fresh "b" in let s := fresh "s" in let l := fresh "l" in
    let A := fresh "A" in let X := fresh "X" in
    intros b s l A X; cbn [leaves reads_call fst snd] in A, X; cbn beta in A, X.
  Ltac nextD lem :=
    eapply lem; [eassumption|];
    let i := fresh "i" in let s := fresh "s" in let l := fresh "l" in let A := fresh "A" in
    let T := fresh "T" in let E := fresh "E" in let F := fresh "F" in
    intros i s l A T E F; items.
  Ltac isoD lem :=
    eapply lem; [eassumption|]; let s := fresh "s" in let A := fresh "A" in intros s A.
  Ltac contD := do 2 eexists; split; [eassumption|]; let s := fresh "s" in let A := fresh "A" in intros s A; cbn beta iota.
  Ltac loopD R :=
    match goal with |- wp _ _ _ _ _ _ _ (Loop _ _) _ ?s =>
      match goal with H : At s ?l ?k |- _ =>
        eapply (wpD_loop g _ _ _ l k R); [exact H|cbn beta iota|
          let y := fresh "y" in let s := fresh "s" in let l := fresh "l" in let A := fresh "A" in let X := fresh "R" in
          intros y s l A X; cbn beta iota in X |- *] end end.

  Ltac pairs :=
    repeat match goal with
    | H : context [fst (?a, ?b)] |- _ => cbn [fst] in H
    | H : context [snd (?a, ?b)] |- _ => cbn [snd] in H
    | b : (_ * _)%type |- _ => lazymatch type of b with frame => fail | tk => fail | _ => destruct b end
    end.

  Ltac finD :=
    lazymatch goal with
    | |- postD _ _ _ _ _ _ => eapply post_introD; [eassumption|eassumption|cbn [leaves fst snd]; try reflexivity|cbn [reads_call fst snd]]
    | |- exists l2, At _ l2 _ /\ _ => eexists; split; [eassumption|]; cbn beta iota
    end.

  Ltac stepD :=
    lazymatch goal with
    | |- wp _ _ _ _ _ _ _ (Ret _) _ _ => apply wpD_ret; cbn beta iota
    | |- wp _ _ _ _ _ _ _ (Fail _) _ _ => exact I
    | |- wp _ _ _ _ _ _ _ Crash _ _ => exact I
    | |- wp _ _ _ _ _ _ _ (fail_look _) _ _ => exact I
    | |- wp _ _ _ _ _ _ _ next _ _ => nextD wpD_next
    | |- wp _ _ _ _ _ _ _ (Do ONextIgnored) _ _ => eapply wpD_nextignored; [eassumption|intros]
    | |- wp _ _ _ _ _ _ _ (Do OExpectComma) _ _ => eapply wpD_expectcomma; [eassumption|intros]
    | |- wp _ _ _ _ _ _ _ (Do (OUpd _)) _ _ => updD
    | |- wp _ _ _ _ _ _ _ (Do (OTolerate _)) _ _ => apply wpD_tolerate; intros
    | |- wp _ _ _ _ _ _ _ (Do (OGuardModule _ _)) _ _ => apply wpD_guard; intros
    | |- wp _ _ _ _ _ _ _ (Do (OStr _)) _ _ => apply wpD_str; intros
    | |- wp _ _ _ _ _ _ _ (upd _) _ _ => unfold upd
    | |- wp _ _ _ _ _ _ _ not_target _ _ => unfold not_target
    | |- wp _ _ _ _ _ _ _ computed_member _ _ => unfold computed_member
    | |- wp _ _ _ _ _ _ _ (set_target_binding _ _) _ _ => unfold set_target_binding
    | |- wp _ _ _ _ _ _ _ (Do OCtx) _ _ => ctxD
    | |- wp _ _ _ _ _ _ _ look _ _ => eapply wpD_look; [eassumption|
          let i := fresh "i" in let E := fresh "E" in let F := fresh "F" in let G := fresh "G" in
          intros i E F G; items]
    | |- wp _ _ _ _ _ _ _ (Do ONewLine) _ _ => eapply wpD_newline; [eassumption|intros]
    | |- wp _ _ _ _ _ _ _ (Do (OQuery (QStrictReserved _))) _ _ => apply wpD_query; items
    | |- wp _ _ _ _ _ _ _ (Do _) _ _ => apply wpD_pure; [exact I|intros]
    | |- wp _ _ _ _ _ _ _ (get _) _ _ => getD
    | |- wp _ _ _ _ _ _ _ look_tok _ _ => eapply wpD_look_tok; [eassumption|]
    | |- wp _ _ _ _ _ _ _ (at_punct _) _ _ => eapply wpD_at_punct; [eassumption|]
    | |- wp _ _ _ _ _ _ _ (at_keyword _) _ _ => eapply wpD_at_keyword; [eassumption|]
    | |- wp _ _ _ _ _ _ _ (expect_punct _) _ _ => eapply wpD_expect_punct; [eassumption|intros]
    | |- wp _ _ _ _ _ _ _ (expect_keyword _) _ _ => eapply wpD_expect_keyword; [eassumption|intros]
    | |- wp _ _ _ _ _ _ _ (stream_at _) _ _ => apply wpD_stream_at; items
    | |- wp _ _ _ _ _ _ _ (get_string _) _ _ => apply wpD_get_string; items
    | |- wp _ _ _ _ _ _ _ (string_or_empty _) _ _ => apply wpD_string_or_empty; items
    | |- wp _ _ _ _ _ _ _ (at_contextual _) _ _ => eapply wpD_at_contextual; [eassumption|]
    | |- wp _ _ _ _ _ _ _ at_async_function _ _ => eapply wpD_at_async_function; [eassumption|intros]
    | |- wp _ _ _ _ _ _ _ at_import_call _ _ => eapply wpD_at_import_call; [eassumption|]
    | |- wp _ _ _ _ _ _ _ at_lexical_decl _ _ => eapply wpD_at_lexical_decl; [eassumption|cbn zeta]
    | |- wp _ _ _ _ _ _ _ at_return_arg _ _ => eapply wpD_at_return_arg; [eassumption|intros]
    | |- wp _ _ _ _ _ _ _ (qualified_prop_name _) _ _ => apply wpD_qualified; intros
    | |- wp _ _ _ _ _ _ _ (Call _) _ _ => callD
    | |- wp _ _ _ _ _ _ _ (isolated _) _ _ => isoD wpD_isolated
    | |- wp _ _ _ _ _ _ _ (inheriting _) _ _ => isoD wpD_inheriting
    | |- wp _ _ _ _ _ _ _ get_cover _ _ => apply wpD_get_cover; intros
    | |- wp _ _ _ _ _ _ _ isolate_cover _ _ => eapply wpD_isolate_cover; [eassumption|intros]
    | |- wp _ _ _ _ _ _ _ inherit_cover _ _ => eapply wpD_isolate_cover; [eassumption|intros]
    | |- wp _ _ _ _ _ _ _ (set_isolate_cover _) _ _ => eapply wpD_set_isolate_cover; [eassumption|intros]
    | |- wp _ _ _ _ _ _ _ (set_inherit_cover _) _ _ => eapply wpD_set_inherit_cover; [eassumption|intros]
    | |- wp _ _ _ _ _ _ _ (Bind (if _ then Do (OTolerate _) else Ret tt) _) _ _ => apply wpD_if_tolerate; intros
    | |- wp _ _ _ _ _ _ _ (Bind _ _) _ _ => apply wpD_bind
    | |- wp _ _ _ _ _ _ _ (match ?x with _ => _ end) _ _ => destruct x eqn:?
    | |- exists l' k', At _ l' k' /\ _ => contD
    | |- forall _, _ => intros
    end.
  Ltac goD := repeat stepD; try finD.

  Ltac startD :=
    let H := fresh "H" in
    intros m s H; unfold preD in H;
    destruct (start_At g s H) as (ai & aw & st & fn & pp & l & Hs); clear H; cbn [body].
  Ltac headD :=
    match goal with |- wp _ _ _ _ _ _ _ ?p _ _ =>
      match p with ?f _ _ => unfold f | ?f _ => unfold f | ?f => unfold f end end.

  Lemma str_tok t : is_string t = true -> t = TString.
  Proof. destruct t; try discriminate; auto. Qed.
  Lemma ident_tok t : is_ident t = true -> t = TIdent.
  Proof. destruct t; try discriminate; auto. Qed.
  Lemma eof_tok t : is_eof t = true -> t = TEoF.
  Proof. destruct t; try discriminate; auto. Qed.
  Lemma num_tok t : is_number t = true -> t = TNumeric.
  Proof. destruct t; try discriminate; auto. Qed.
  Lemma regex_tok t : is_regex t = true -> t = TRegEx.
  Proof. destruct t; try discriminate; auto. Qed.
  Lemma punct_neq p t : is_punct p t = false -> t <> TPunct p.
  Proof. intros H E. rewrite (proj2 (is_punct_tok p t) E) in H. discriminate. Qed.
  Lemma keyword_neq p t : is_keyword p t = false -> t <> TKeyword p.
  Proof. intros H E. rewrite (proj2 (is_keyword_tok p t) E) in H. discriminate. Qed.

  (** Booleans into equations, and tokens taken into tokens read. *)
  Ltac known l l' := lazymatch goal with _ : reads _ l l' |- _ => fail | _ => idtac end.
  Ltac norm :=
    repeat match goal with
    | H : _ /\ _ |- _ => destruct H
    | H : exists _, _ |- _ => destruct H
    | H : _ && _ = true |- _ => apply andb_true_iff in H; destruct H
    | H : _ || _ = false |- _ => apply orb_false_iff in H; destruct H
    | H : negb _ = true |- _ => apply negb_true_iff in H
    | H : negb _ = false |- _ => apply negb_false_iff in H
    | H : is_punct _ _ = true |- _ => apply is_punct_tok in H
    | H : is_keyword _ _ = true |- _ => apply is_keyword_tok in H
    | H : is_punct _ _ = false |- _ => apply punct_neq in H
    | H : is_keyword _ _ = false |- _ => apply keyword_neq in H
    | H : is_string _ = true |- _ => apply str_tok in H
    | H : is_ident _ = true |- _ => apply ident_tok in H
    | H : is_eof _ = true |- _ => apply eof_tok in H
    | H : is_number _ = true |- _ => apply num_tok in H
    | H : is_regex _ = true |- _ => apply regex_tok in H
    | H : text_eqb _ _ = true |- _ => apply text_eqb_eq in H
    | H : hd_tok ?l = _ -> _, E : hd_tok ?l = _ |- _ => specialize (H E)
    | H : ?x = ?x -> _ |- _ => specialize (H eq_refl)
    | H : takes ?l ?l', E : hd_tok ?l = ?t |- _ =>
        known l l'; lazymatch t with TEoF => fail | hd_tok _ => fail | _ =>
          let R := fresh "R" in
          assert (R : reads_as t (hd_text l) l l') by
            (rewrite <- E; apply takes_reads; [exact H|rewrite E; discriminate]);
          pose proof (reads_as_reads _ _ _ _ R) end
    | H : reads ?t ?l ?l', E : hd_tok ?l = ?t' |- _ =>
        lazymatch t with t' => fail | _ => exfalso; apply reads_hd in H; congruence end
    | H : reads ?t ?l _, E : hd_tok ?l <> ?t |- _ => exfalso; apply E; eapply reads_hd; exact H
    end; try congruence.
  Ltac cl n :=
    match goal with
    | |- D _ _ _ _ _ => first [eassumption | match n with S ?n' => econstructor; cl n' end]
    | |- reads _ _ _ => eassumption
    | |- reads_as _ _ _ _ => eassumption
    | |- semi _ _ => eassumption
    | |- comma _ _ => eassumption
    | |- word _ _ _ => split; eassumption
    | |- anything _ _ _ => first [eassumption | split; [eassumption|first [reflexivity|eassumption]]]
    | |- _ = _ => first [eassumption|reflexivity|congruence]
    | |- _ <> _ => first [eassumption | congruence]
    | |- True => exact I
    | |- _ /\ _ => split; cl n
    | |- _ \/ _ => first [left; cl n | right; cl n]
    | |- exists _, _ => eexists; cl n
    | |- _ -> _ => let H := fresh in intros H; cl n
    | |- _ => solve [eauto 3]
    end.
  Ltac closeD := try solve [cl 1]; try solve [cl 2].
  Ltac allD := startD; headD; goD; pairs; norm.
  Lemma f_NextPart : faithful CNextPart.
  Proof.
    startD; headD; goD; norm; cbn [negb andb is_string]; rewrite ?Heqb; auto.
    1,2: rewrite H, H0; cbn [negb andb is_string]; auto. destruct b; reflexivity.
  Qed.
  Lemma f_DirectivePrologues : faithful CDirectivePrologues.
  Proof.
    allD. loopD (fun (ret : list ProgramPart) l1 => D (mkScope ai aw st fn) Directives l (VParts ret) l1);
      goD; norm; closeD.
  Qed.
  Lemma f_NamedImports : faithful CNamedImports.
  Proof.
    allD. loopD (fun (ret : list ImportSpecifier) l1 => D (mkScope ai aw st fn) NamedImportList l' (VSpecifiers ret) l1);
      goD; norm; closeD.
  Qed.
  Lemma f_SwitchStmt : faithful CSwitchStmt.
  Proof.
    allD. match goal with A : At ?s ?l _ |- wp _ _ _ _ _ _ _ _ _ ?s =>
      loopD (fun (x : bool * list SwitchCase) l1 => D (mkScope ai aw st fn) Cases l (VCases (snd x)) l1) end;
      goD; cbn [snd] in *; norm; closeD.
  Qed.
  Lemma f_SwitchCase : faithful CSwitchCase.
  Proof.
    allD; (match goal with A : At ?s ?l _ |- wp _ _ _ _ _ _ _ _ _ ?s =>
      loopD (fun (ret : list ProgramPart) l1 => D (mkScope ai aw st fn) Items l (VParts ret) l1) end);
      goD; norm; closeD.
  Qed.
  Lemma f_Block : faithful CBlock.
  Proof.
    allD. loopD (fun (ret : list ProgramPart) l1 => D (mkScope ai aw st fn) Items l' (VParts ret) l1);
      goD; norm; closeD.
  Qed.
  Lemma f_ClassBody : faithful CClassBody.
  Proof.
    allD. loopD (fun (x : bool * list Property) l1 => D (mkScope ai aw st fn) ClassElements l' (VMembers (snd x)) l1);
      goD; cbn [snd] in *; pairs; norm; closeD.
  Qed.
  Lemma f_FunctionSourceEl : faithful CFunctionSourceEl.
  Proof.
    allD. loopD (fun (ret : list ProgramPart) l1 => exists b1, ret = b ++ b1 /\ D (mkScope ai aw st true) Items l0 (VParts b1) l1);
      goD; norm; subst; closeD.
    - exists []. rewrite app_nil_r. closeD.
    - rewrite app_assoc_reverse. closeD.
  Qed.
  Lemma f_ArrayInit : faithful CArrayInit.
  Proof.
    allD. loopD (fun (ret : list (option Expr)) l1 => D (mkScope ai aw st fn) Elements l' (VElements ret) l1);
      goD; norm; closeD.
  Qed.
  Lemma f_ArrayPattern : faithful CArrayPattern.
  Proof.
    allD. loopD (fun (ret : list (option ArrayPatPart)) l1 => D (mkScope ai aw st fn) PatElements l' (VPats ret) l1);
      goD; pairs; norm; closeD.
  Qed.
  Lemma f_ObjectPattern : faithful CObjectPattern.
  Proof.
    allD. loopD (fun (ret : list ObjectPatPart) l1 => D (mkScope ai aw st fn) PatProperties l' (VPatProperties ret) l1);
      goD; norm; closeD.
  Qed.
  Lemma commas_length S n l v l' : D S n l v l' -> forall es, n = Commas -> v = VExprs es -> 1 <= length es.
  Proof. induction 1; intros es' En Ev; try discriminate; inversion Ev; subst; [cbn|rewrite app_length; cbn]; lia. Qed.
  Lemma f_ObjInit : faithful CObjInit.
  Proof.
    allD. loopD (fun (x : bool * list ObjectProperty) l1 => D (mkScope ai aw st fn) Properties l' (VProperties (snd x)) l1);
      goD; cbn [snd] in *; pairs; norm; closeD;
      (match goal with X : comma _ _ \/ _ |- _ => destruct X as [?|[? ?]] end; subst; closeD).
  Qed.
  Lemma f_TemplateLiteral : faithful CTemplateLiteral.
  Proof.
    allD. loopD (fun (x : bool * list Expr * list TemplateElement) l1 =>
      exists qs q, snd x = qs ++ [q] /\ fst (fst x) = q_tail q
        /\ D (mkScope ai aw st fn) Spans l (VSpans (snd x) (snd (fst x))) l1);
      goD; cbn [snd fst] in *; pairs; norm; subst; closeD.
    exists [], b. split; [reflexivity|]. split; [reflexivity|]. apply d_spans_one; auto.
    destruct (hd_tok l) as [| | | | | | | | |[]|]; try discriminate; auto.
  Qed.
  Lemma f_Expression : faithful CExpression.
  Proof.
    allD. loopD (fun (ret : list Expr) l1 => D (mkScope ai aw st fn) Commas l (VExprs ret) l1
                     /\ (2 <= length ret \/ hd_tok l1 = TPunct PComma));
      goD; norm; closeD.
    1,2: match goal with X : _ \/ _ |- _ => destruct X; [|congruence] end; apply d_expression; auto.
    - split; [closeD|]. left. rewrite app_length. cbn.
      match goal with X : D _ Commas _ _ _ |- _ => pose proof (commas_length _ _ _ _ _ X _ eq_refl eq_refl) end. lia.
    - closeD.
  Qed.
  Lemma argument_list S l y l0 b l' : (y = [] /\ l0 = l \/ exists l2, D S ArgumentList l (VExprs y) l2 /\ (comma l2 l0 \/ tolerant = true /\ l0 = l2)) ->
    D S Argument l0 (VExpr b) l' -> D S ArgumentList l (VExprs (y ++ [b])) l'.
  Proof.
    intros [(-> & ->)|(l2 & X & Y)] Z.
    - apply d_argument_one; assumption.
    - eapply d_argument_list; eauto.
  Qed.
  Ltac argsD :=
    allD; unfold arg_list; goD; norm;
    [ closeD
    | match goal with |- wp _ _ _ _ _ _ _ _ _ ?s => match goal with
        | A : At s ?l' (?S, _), R : reads (TPunct POpenParen) _ ?l' |- _ =>
      loopD (fun (x : list Expr) l1 => x = [] /\ l1 = l' \/
        exists l2, D S ArgumentList l' (VExprs x) l2 /\ (comma l2 l1 \/ tolerant = true /\ l1 = l2)) end end ];
    goD; norm; auto;
    match goal with
    | R : _ \/ _, X : D _ Spread _ (VExpr _) _ |- _ => eapply d_argument_spread in X; pose proof (argument_list _ _ _ _ _ _ R X); clear R X
    | R : _ \/ _, X : D _ Assignment _ (VExpr _) _ |- _ => eapply d_argument in X; pose proof (argument_list _ _ _ _ _ _ R X); clear R X
    end; closeD;
    match goal with X : _ \/ _ |- _ => destruct X; norm; subst end;
    (eapply d_arguments; [eassumption|eassumption| |eassumption]; auto).
  Ltac awS := first [left; split; [reflexivity|eassumption] | right; split; reflexivity].
  Ltac awS2 := first [left; split; [reflexivity|eassumption] | right; split; [reflexivity|eassumption]].
  Ltac forS :=
    first
    [ eapply d_for_nothing; [eassumption|awS|eassumption|eassumption]
    | eapply d_for_var_in; [eassumption|awS|eassumption|eassumption|eassumption|eassumption|eassumption|eassumption]
    | eapply d_for_var_of; [eassumption|awS|eassumption|eassumption|eassumption|split; eassumption|eassumption|eassumption]
    | eapply d_for_var; [eassumption|awS|eassumption|eassumption|eassumption|eassumption]
    | eapply d_for_lex_in; [eassumption|awS|eassumption|awS2|eassumption|eassumption|eassumption|eassumption]
    | eapply d_for_lex_of; [eassumption|awS|eassumption|awS2|eassumption|split; eassumption|eassumption|eassumption]
    | eapply d_for_lex; [eassumption|awS|eassumption|awS2|eassumption|eassumption]
    | eapply d_for_let_in; [reflexivity|eassumption|awS|eassumption|awS2|eassumption|eassumption|eassumption]
    | eapply d_for_expr_in; [eassumption|awS|eassumption|eassumption|eassumption|eassumption|eassumption]
    | eapply d_for_expr_of; [eassumption|awS|eassumption|eassumption|split; eassumption|eassumption|eassumption]
    | eapply d_for_expr; [eassumption|awS|eassumption|eassumption|eassumption] ].
  Lemma pat_name x : is_pat_ident x = true -> is_name x.
  Proof. destruct x; try discriminate. intros _. eexists. reflexivity. Qed.
  Lemma possible_name t : possible_ident t = true -> name_token t.
  Proof. unfold name_token. destruct t; try discriminate; eauto 6. Qed.
  Lemma f_Directive : faithful CDirective.
  Proof.
    allD; closeD.
    all: intros Hd.
    all: match goal with X : D _ Expression _ (VExpr (ELiteral ?x)) _ |- _ =>
      destruct (string_expression _ _ _ _ _ _ _ X Hd _ eq_refl) as (w & E1 & E2); try discriminate E1 end.
    injection E1 as ->. eapply d_directive; eauto. apply Trees.trim_quotes_spec.
  Qed.
  Lemma f_GetterMethod : faithful CGetterMethod.
  Proof.
    allD; closeD. eapply d_getter; eauto. match goal with |- ?x = _ \/ _ => destruct x; auto end.
  Qed.
  Lemma f_SetterMethod : faithful CSetterMethod.
  Proof.
    allD; closeD. eapply d_setter; eauto. left. exists f. split; auto. intros (p & ->). discriminate.
  Qed.
  Lemma f_FnName gen : faithful (CFnName gen).
  Proof.
    allD; closeD. right. split; [assumption|]. split; [assumption|].
    destruct X as [T E]. rewrite <- H0, <- E. apply takes_reads; auto. congruence.
  Qed.
  Lemma f_FormalParam b : faithful (CFormalParam b).
  Proof.
    allD; closeD. subst. closeD.
  Qed.
  Lemma f_PropertyPattern : faithful CPropertyPattern.
  Proof.
    allD; closeD. inversion Heqp; subst. eapply d_patprop; eauto. eapply d_name_ident; [eapply binding_ident; eauto|left; reflexivity].
  Qed.
  Lemma f_UnaryExpression : faithful CUnaryExpression.
  Proof.
    allD; closeD. eapply d_unary with (t := hd_tok l); eauto.
    - match goal with E : unary_operator ?t = Some _ |- _ => clear - E; destruct t; try discriminate E end;
        match goal with E : unary_operator (_ ?y) = Some _ |- _ => destruct y; inversion E; subst; cbn; auto 10 end.
    - eapply reads_as_reads, takes_reads; eauto. intros E1. rewrite E1 in Heqo. discriminate.
  Qed.
  Lemma f_AwaitExpr : faithful CAwaitExpr.
  Proof. allD; closeD. intros; norm. closeD. Qed.
  Lemma f_Super : faithful CSuper.
  Proof.
    allD; closeD. intros. eapply d_member_super; eauto. apply orb_true_iff in Heqb. destruct Heqb; norm; cbn; auto.
  Qed.
  Lemma f_NewExpr : faithful CNewExpr.
  Proof. allD; closeD. assert (b = str "target") as -> by (destruct X; congruence). eapply d_new_target; eauto. Qed.
  Lemma f_ConsumeSemicolon : faithful CConsumeSemicolon.
  Proof.
    allD; closeD; [left; assumption|right..]; (split; [reflexivity|]).
    - destruct H0; auto.
    - match goal with X : _ || _ = true |- _ => apply orb_true_iff in X; destruct X end; norm; auto.
  Qed.
  Lemma f_StatementListItem : faithful CStatementListItem.
  Proof.
    allD; closeD. all: eapply d_item_statement; [| | |eassumption]; rewrite ?Heqt; cbn [In];
      try solve [intros; intuition congruence].
    intros _ Hin. intuition try congruence. rewrite <- H4 in *. discriminate.
  Qed.
  Lemma f_ImportDecl : faithful CImportDecl.
  Proof.
    allD; closeD; subst;
      match goal with X : possible_ident _ = true |- _ => apply possible_name in X end;
      eapply d_import; try eassumption; try (split; eassumption).
    - eapply d_imports_default_namespace; eauto.
    - eapply d_imports_default_named; eauto.
    - eapply d_imports_default; eauto.
  Qed.
  Lemma f_ImportSpecifier : faithful CImportSpecifier.
  Proof.
    allD; closeD; match goal with X : D _ (Binding _) ?l _ _, E : hd_tok ?l = TIdent |- _ => apply binding_ident in X; auto end.
    - destruct H0 as [T|(y & ->)]; [|exfalso; eapply binding_one; eauto].
      eapply d_named_import_as; [split|split|]; eauto. eapply reads_as_takes; eauto. eapply reads_as_hd; eauto.
    - eapply d_named_import; split. eapply reads_as_takes; eauto. eapply reads_as_hd; eauto.
  Qed.
  Lemma f_ExportDecl : faithful CExportDecl.
  Proof.
    allD; closeD.
    - eapply d_export_function; eauto. discriminate.
    - loopD (fun (x : list ExportSpecifier * bool) l1 => D (mkScope ai aw st fn) ExportList l'0 (VExportNames (fst x)) l1); goD; pairs; norm; closeD.
  Qed.
  Lemma f_WithStmt : faithful CWithStmt.
  Proof. allD; closeD. eapply d_with; eauto. discriminate. Qed.
  Lemma f_VarDecl f : faithful (CVarDecl f).
  Proof.
    allD; closeD. eapply d_var_decl; eauto. destruct f; [auto|right; apply pat_name]. destruct (is_pat_ident p); auto.
  Qed.
  Lemma f_VarDeclList f : faithful (CVarDeclList f).
  Proof.
    allD. unfold comma_list. goD.
    loopD (fun (x : list VariableDecl) l1 => D (mkScope ai aw st fn) (VarDecls f) l (VVarDecls x) l1); goD; norm; closeD.
  Qed.
  Lemma f_VariableDeclList f : faithful (CVariableDeclList f).
  Proof.
    allD. unfold comma_list. goD.
    loopD (fun (x : list VariableDecl) l1 => D (mkScope ai aw st fn) (VarDecls f) l (VVarDecls x) l1); goD; norm; closeD.
  Qed.
  Lemma f_BindingList k f : faithful (CBindingList k f).
  Proof.
    allD. unfold comma_list. goD.
    loopD (fun (x : list VariableDecl) l1 => k <> VVar -> D (mkScope ai aw st fn) (LexDecls k f) l (VVarDecls x) l1); goD; norm; closeD.
  Qed.
  Lemma f_TryStmt : faithful CTryStmt.
  Proof.
    allD; closeD.
    - eapply d_try; eauto 7. right. eexists; eexists; eexists. split; [eassumption|]. split; [eassumption|].
      destruct H5 as [[-> ->]|(l6 & y & l7 & -> & ?)]; [left; auto|right; eauto 6].
    - eapply d_try; eauto 7. right. eexists; eexists; eexists. split; [eassumption|]. split; [eassumption|].
      match goal with X : _ \/ _ |- _ => destruct X as [[-> ->]|(l6 & y & l7 & -> & ?)] end; [left; auto|right; eauto 6].
  Qed.
  Lemma f_BreakStmt : faithful CBreakStmt.
  Proof. allD; closeD. match goal with X : _ \/ _ |- _ => destruct X end; norm; subst; closeD. Qed.
  Lemma f_ContinueStmt : faithful CContinueStmt.
  Proof. allD; closeD. match goal with X : _ \/ _ |- _ => destruct X end; norm; subst; closeD. Qed.
  Lemma f_LexicalDecl f : faithful (CLexicalDecl f).
  Proof. allD; closeD; intros ->; match goal with X : _ <> _ -> _ |- _ => specialize (X ltac:(discriminate)) end; closeD. Qed.
  Lemma f_VariableDecl f : faithful (CVariableDecl f).
  Proof.
    allD; closeD. eapply d_var_decl; eauto. destruct f; [auto|right; apply pat_name]. destruct (is_pat_ident p); auto.
  Qed.
  Lemma f_LexicalBinding k f : faithful (CLexicalBinding k f).
  Proof.
    allD; closeD. intros _. eapply d_lex_decl; eauto. destruct f; [auto|right; apply pat_name]. destruct (is_pat_ident p); auto.
  Qed.
  Lemma f_ObjectPropertyKey : faithful CObjectPropertyKey.
  Proof.
    allD; rewrite ?Heqt; cbn [is_punct]; closeD.
    all: try (eapply d_name_ident; [eassumption|unfold name_token; eauto 6]).
    all: try (eapply d_name_computed; eassumption).
  Qed.
  Lemma f_ForStmt : faithful CForStmt.
  Proof.
    startD; headD; goD; pairs; norm; subst; 
    repeat match goal with X : ?a <> VVar -> _ |- _ => specialize (X ltac:(discriminate)) end.
    all: repeat match goal with X : match ?o with Some _ => false | None => true end = true |- _ => destruct o; [discriminate|]; clear X end.
    all: try solve [forS].
    all: match goal with _ : D _ Assignment _ (VExpr ?b) ?l1 |- wp _ _ _ _ _ _ _ (Loop [?b] _) _ _ =>
      loopD (fun (x : list Expr) l => x = [b] /\ l = l1 /\ hd_tok l1 = TPunct PComma \/ 
        exists es l2, x = b :: es /\ comma l1 l2 /\ D (mkScope ai aw st fn) Commas l2 (VExprs es) l) end; goD; norm; subst; auto.
    all: try match goal with X : _ \/ _ |- _ => destruct X; norm; subst end.
    all: try solve [eapply d_for_exprs; [eassumption|awS|eassumption|eassumption|eassumption|eassumption|eassumption]].
    all: try (right; eexists; eexists; split; [reflexivity|]; split; [eassumption|]).
    all: closeD.
  Qed.
  Lemma f_LabelledStatement : faithful CLabelledStatement.
  Proof.
    allD; intros Hd;
      try (eapply d_expression_statement; [rewrite Hd; reflexivity|eassumption|eassumption]);
      match goal with X : D _ Expression _ _ _ |- _ => apply name_expression in X; [|assumption] end; closeD.
  Qed.
  Lemma f_GroupExpr : faithful CGroupExpr.
  Proof.
    startD; headD; goD; pairs; norm; subst; closeD; try solve [eapply d_cover with (es := [_]); closeD].
    loopD (fun (ret : list Expr) l1 => D (mkScope ai aw st fn) Commas l' (VExprs ret) l1
                     /\ (2 <= length ret \/ hd_tok l1 = TPunct PComma)); goD; pairs; norm; subst; closeD.
    - eapply d_paren; eauto. match goal with X : _ \/ _ |- _ => destruct X; [assumption|congruence] end.
    - split; [closeD|]. left. rewrite app_length. cbn.
      match goal with X : D _ Commas _ _ _ |- _ => pose proof (commas_length _ _ _ _ _ X _ eq_refl eq_refl) end. lia.
  Qed.
  Lemma f_TemplateElement : faithful CTemplateElement.
  Proof.
    allD; unfold inner_slice; goD; try exact I;
      match goal with X : slice _ _ _ = Some _, Y : (_ <? _) = false |- _ =>
        apply Nat.ltb_ge in Y; destruct (Bodies.inner_slice_spec _ _ _ X Y) as (d & e & E1 & E2 & E3) end;
      (eapply d_quasi; [eassumption|split; [reflexivity|exists d, e; auto]]).
  Qed.
  Lemma f_FunctionExpr : faithful CFunctionExpr.
  Proof.
    allD; closeD; (eexists; split; [reflexivity|]);
    (eapply d_function_expr;
      [ first [left; split; [reflexivity|split; eassumption]|right; split; reflexivity]
      | eassumption
      | first [left; split; [reflexivity|eassumption]|right; split; reflexivity]
      | right; match goal with X : _ \/ _ |- _ => destruct X as [X|(? & ? & ?)] end;
          [left; eexists; split; [reflexivity|eassumption] | right; eauto 6]
      | eassumption | eassumption ]).
  Qed.
  Lemma f_FormalParams : faithful CFormalParams.
  Proof.
    allD.
    - closeD.
    - loopD (fun (x : bool * bool * list FunctionArg) l1 => snd x = [] /\ l1 = l' \/
        exists l2, D (mkScope ai aw st fn) ParamList l' (VParams (snd x)) l2 /\ comma l2 l1);
      goD; pairs; cbn [snd] in *; norm; try (match goal with X : _ \/ _ |- _ => destruct X end; norm; subst); closeD.
      + cbn [fp_params app]. eapply d_params; [eassumption|eapply d_param_one; eassumption|right; eassumption|eassumption].
      + cbn [fp_params app]. eapply d_params; [eassumption|eapply d_param_list; eassumption|right; eassumption|eassumption].
  Qed.
  Lemma f_UpdateExpr : faithful CUpdateExpr.
  Proof.
    allD; subst; norm; closeD. 
    all: try (eapply d_update_prefix; [|eassumption|eassumption]; cbn; tauto).
    all: try (eapply d_update_postfix; [eassumption| |eauto|eassumption]; cbn; tauto).
  Qed.
  Lemma f_LeftHandSideExpr : faithful CLeftHandSideExpr.
  Proof.
    allD; cbn [s_fn] in *; norm;
    (loopD (fun (x : Expr) l1 => D (mkScope ai aw st fn) MemberExpression l (VExpr x) l1); goD; norm; closeD).
  Qed.
  Lemma f_LeftHandSideExprAllowCall : faithful CLeftHandSideExprAllowCall.
  Proof.
    allD;
    (loopD (fun (x : Expr) l1 => D (mkScope true aw st fn) CallExpression l (VExpr x) l1); goD; norm; closeD).
    eapply d_call_super; eauto. match goal with X : _ || _ = true |- _ => apply orb_true_iff in X; destruct X as [X|X]; [apply orb_true_iff in X; destruct X|] end; norm; cbn; auto.
  Qed.
  Lemma f_Statement : faithful CStatement.
  Proof.
    allD; closeD; try (eapply d_expression_statement; [rewrite ?Heqt; reflexivity | eassumption|eassumption]).
  Qed.
  Lemma keyword_takes l l' x : takes l l' -> hd_tok l = TKeyword x -> reads_as (TKeyword x) (hd_text l) l l'.
  Proof. intros H E. rewrite <- E. apply takes_reads; auto. congruence. Qed.
  Lemma f_PrimaryExpression : faithful CPrimaryExpression.
  Proof.
    allD; closeD; subst.
    - apply d_function; auto.
    - eapply d_regex; eauto. eapply Bodies.regex_split; eauto.
    - match goal with X : anything _ _ _ |- _ => destruct X as [T <-] end.
      match goal with X : _ || _ = true |- _ => apply orb_true_iff in X; destruct X; norm end;
        (eapply d_ident_keyword; [reflexivity| |eapply keyword_takes; eauto]; auto).
    - match goal with X : anything _ _ _ |- _ => destruct X as [T <-] end.
      match goal with X : is_any_keyword ?t = true |- _ => destruct t eqn:Et; try discriminate X end.
      eapply d_ident_keyword; [reflexivity| |eapply keyword_takes; eauto]; auto.
    - apply d_function; auto.
    - match goal with X : anything _ _ _ |- _ => destruct X as [T <-] end.
      eapply d_ident_import; [eapply keyword_takes; eauto|].
      match goal with X : hd_tok (tl l) = _ |- _ => rewrite <- X end.
      f_equal. symmetry. eapply reads_tl, reads_as_reads, keyword_takes; eauto.
  Qed.
  Lemma f_AsyncArgs : faithful CAsyncArgs.
  Proof. argsD. Qed.
  Lemma f_Args : faithful CArgs.
  Proof. argsD. Qed.
  Lemma text_neq a b : text_eqb a b = false -> a <> b.
  Proof. intros H E. apply text_eqb_eq in E. congruence. Qed.
  Lemma f_VarIdent b : faithful (CVarIdent b).
  Proof.
    allD.
    all: try solve [eapply d_binding; [eassumption|]; intros; exfalso; eapply text_neq; eauto].
    all: try solve [apply d_binding_yield; [assumption|assumption]].
    all: repeat match goal with X : text_eqb _ _ = false |- _ => apply text_neq in X end.
    all: try solve [subst; try match goal with X : negb ?b = false |- _ => apply negb_false_iff in X; subst end;
       apply d_binding_keyword; [first [assumption|reflexivity]|discriminate|assumption]].
    - eapply d_binding; [eassumption|]; intros; split; [reflexivity|];
      destruct (g_module g) eqn:Hm; [exfalso|reflexivity]. specialize (H0 eq_refl).
      unfold text_of in F; rewrite <- H in F; destruct o; cbn [option_map] in H0; [|discriminate].
      injection H0 as X. apply text_neq in X. congruence.
  Qed.
  Lemma level_weaken S l e l' k q : k <= q -> D S (Level q) l (VExpr e) l' -> D S (Level k) l (VExpr e) l'.
  Proof. induction 1; auto. intros H1. apply IHle. apply d_level_up. exact H1. Qed.
  Lemma prec_ops ai t : bin_precedence ai t <> 0 -> exists mk, In (t, (bin_precedence ai t, mk)) bin_ops
    /\ (t = TKeyword KIn -> ai = true) /\ forall a b, make_binary t a b = inl (mk a b).
  Proof.
    destruct t as [| | | | | | |k|p| |] eqn:Et; cbn; try congruence.
    2: destruct p; cbn; try congruence; intros _; (eexists; split; [|split; [discriminate|reflexivity]]);
        unfold bin_ops; cbn [In]; repeat (first [left; reflexivity|right]).
    destruct k; cbn; try congruence; try destruct ai; cbn; try congruence; intros _; (eexists; split; [|split; [first [discriminate|auto]|reflexivity]]);
        unfold bin_ops; cbn [In]; repeat (first [left; reflexivity|right]).
  Qed.
  Lemma ops_bound t p mk : In (t, (p, mk)) bin_ops -> 1 <= p <= 11.
  Proof. unfold bin_ops. cbn [In]. intros H. repeat (destruct H as [H|H]; [inversion H; lia|]). destruct H. Qed.
  Definition above (p : nat) (precs : list nat) : Prop := match precs with [] => True | p0 :: _ => p0 < p end.
  Inductive chain (S : scope) (l : list tk) : nat -> list token -> list nat -> list Expr -> list tk -> Prop :=
  | chain_one q e l' : D S (Level q) l (VExpr e) l' -> chain S l q [] [] [e] l'
  | chain_more q0 ops precs a st l1 p t mk l2 q b l' :
      chain S l q0 ops precs (a :: st) l1 -> p <= q0 -> above p precs -> In (t, (p, mk)) bin_ops ->
      (forall x y, make_binary t x y = inl (mk x y)) ->
      (t = TKeyword KIn -> s_in S = true) -> reads t l1 l2 -> D S (Level q) l2 (VExpr b) l' -> p < q ->
      chain S l q (t :: ops) (p :: precs) (b :: a :: st) l'.
  Lemma chain_merge S l q t ops p precs b a st l' e : chain S l q (t :: ops) (p :: precs) (b :: a :: st) l' ->
    make_binary t a b = inl e -> chain S l p ops precs (e :: st) l' /\ 1 <= p.
  Proof.
    intros H E. inversion H as [|? ? ? ? ? ? ? ? mk ? ? ? ? C Hq Ha Hi Hm Hk R Db Hp]; subst.
    pose proof (ops_bound _ _ _ Hi) as Hb. split; [|lia].
    rewrite Hm in E. injection E as <-. apply (level_weaken _ _ _ _ (Datatypes.S p)) in Db; [|lia].
    inversion C as [? ? ? D0|? ? ? ? ? ? ? ? mk0 ? ? ? ? C0 Hq0 Ha0 Hi0 Hm0 Hk0 R0 D0 Hp0]; subst; apply (level_weaken _ _ _ _ p) in D0; auto.
    - apply chain_one. eapply d_level; eauto.
    - eapply chain_more; eauto. eapply d_level; eauto.
  Qed.
  Lemma chain_while S l prec : forall ops precs stack q l' r, chain S l q ops precs stack l' -> prec <= q ->
    reduce_while prec ops precs stack = inl r ->
    exists q', chain S l q' (fst (fst r)) (snd (fst r)) (snd r) l' /\ prec <= q' /\ above prec (snd (fst r)).
  Proof.
    induction ops as [|t ops IH]; intros precs stack q l' r C Hq E; inversion C; subst; cbn [reduce_while] in E.
    - injection E as <-. exists q. cbn. auto.
    - match type of C with chain _ _ _ (?t :: ?ops) (?p :: ?precs) (?b :: ?a :: ?st) _ => 
        destruct (Nat.leb_spec prec p) as [L|L] end.
      + destruct (make_binary t a b) eqn:M; [|discriminate].
        destruct (chain_merge _ _ _ _ _ _ _ _ _ _ _ _ C M) as (C' & _). eapply IH; eauto.
      + injection E as <-. exists q. cbn. auto.
  Qed.
  Lemma chain_all S l : forall ops precs stack top q l' e, chain S l q ops precs (top :: stack) l' -> 1 <= q ->
    reduce_all ops stack top = inl e -> D S (Level 1) l (VExpr e) l'.
  Proof.
    induction ops as [|t ops IH]; intros precs stack top q l' e C Hq E; inversion C; subst; cbn [reduce_all] in E.
    - injection E as <-. eapply level_weaken; eauto.
    - match type of C with chain _ _ _ (?t :: ?ops) (?p :: ?precs) (?b :: ?a :: ?st) _ => 
        destruct (make_binary t a b) eqn:M; [|discriminate] end.
      destruct (chain_merge _ _ _ _ _ _ _ _ _ _ _ _ C M) as (C' & Hp). eapply IH; eauto.
  Qed.
  Lemma f_BinaryExpression : faithful CBinaryExpression.
  Proof.
    allD.
    - apply level_weaken with (q := 12); [lia|apply d_level_top; assumption].
    - match goal with X : (_ =? 0) = false |- _ => apply Nat.eqb_neq in X; rename X into Hp end.
      destruct (prec_ops _ _ Hp) as (mk & Hi & Hk & Hm).
      loopD (fun (x : list token * list nat * list Expr) l1 =>
        chain (mkScope ai aw st fn) l 12 (fst (fst x)) (snd (fst x)) (snd x) l1).
      + cbn [fst snd]. eapply chain_more; [apply chain_one, d_level_top; eassumption|pose proof (ops_bound _ _ _ Hi); lia|exact I|exact Hi|exact Hm|exact Hk| |apply d_level_top; eassumption|pose proof (ops_bound _ _ _ Hi); lia].
        apply reads_as_reads with (w := hd_text l0). apply takes_reads; [assumption|]. intros En. rewrite En in Hp. cbn in Hp. congruence.
      + goD; pairs; cbn [fst snd] in *. 
        * eapply chain_all; eauto; lia.
        * match goal with X : (_ =? 0) = false |- _ => apply Nat.eqb_neq in X; rename X into Hp2 end.
          destruct (prec_ops _ _ Hp2) as (mk2 & Hi2 & Hk2 & Hm2).
          pose proof (ops_bound _ _ _ Hi2).
          match goal with C : chain _ _ 12 _ _ _ _, E : reduce_while _ _ _ _ = inl _ |- _ =>
            destruct (fun P => chain_while _ _ _ _ _ _ _ _ _ C P E) as (q' & C' & Hq' & Ha'); [lia|] end.
          cbn [fst snd] in *.
          match goal with C : chain _ _ q' _ _ ?st _ |- _ => assert (exists a st', st = a :: st') as (a0 & st0 & ->) by (inversion C; eauto) end.
          eapply chain_more; [eassumption|eassumption|eassumption|exact Hi2|exact Hm2|exact Hk2| |apply d_level_top; eassumption|lia].
          eapply reads_as_reads. apply takes_reads; [eassumption|]. intros En. rewrite En in Hp2. cbn in Hp2. congruence.
  Qed.
  Lemma cover_params a : forall ps, map fst (map (cover_param a) ps) = map arrow_param ps.
  Proof.
    intros ps. rewrite map_map. apply map_ext. intros [e|p]; cbn.
    - destruct e; try reflexivity. match goal with |- context [match ?r with EYield _ _ => _ | _ => _ end] => destruct r as [] end; try reflexivity.
      match goal with |- context [match ?r with Some _ => _ | None => _ end] => destruct r end; reflexivity.
    - destruct p; try reflexivity. match goal with |- context [match ?r with EYield _ _ => _ | _ => _ end] => destruct r as [] end; try reflexivity.
      match goal with |- context [match ?r with Some _ => _ | None => _ end] => destruct r end; reflexivity.
  Qed.
  Definition covers (e : Expr) (ps : list FunctionArg) : Prop :=
    (exists x, e = EIdent x /\ ps = [FAExpr e]) \/ (exists qs a, e = EArrowParamPlaceHolder qs a /\ ps = map arrow_param qs).
  Lemma wpD_cover_formals m s l k e (Q : option (list FunctionArg) -> state -> Prop) : At s l k ->
    (is_placeholder e = false -> Q None s) -> (forall ps, covers e ps -> Q (Some ps) s) -> wpD m (cover_formals e) Q s.
  Proof.
    intros A H1 H2. unfold cover_formals.
    destruct e; try (apply wpD_ret; apply H1; reflexivity).
    - assert (E : covers (EArrowParamPlaceHolder params is_async) (map fst (map (cover_param is_async) params))) by
        (right; do 2 eexists; split; [reflexivity|apply cover_params]).
      revert E. generalize (map fst (map (cover_param is_async) params)) as ps. intros ps E.
      destruct k as [[ai aw st fn] pp]. goD. apply H2. exact E.
    - assert (E : covers (EIdent i) (map fst (map (cover_param false) [FAExpr (EIdent i)]))) by (left; eexists; split; reflexivity).
      revert E. generalize (map fst (map (cover_param false) [FAExpr (EIdent i)])) as ps. intros ps E.
      destruct k as [[ai aw st fn] pp]. goD. apply H2. exact E.
  Qed.
  Definition arrow_body S l b (ex : bool) l' : Prop :=
    exists s, D (with_in true S) FunctionBody l (VParts s) l' /\ b = AFBody s /\ ex = false
       \/ exists e, D S Assignment l (VExpr e) l' /\ b = AFExpr e /\ ex = true.
  Lemma wpD_arrow_rest m s l S pp e (Q : Expr -> state -> Prop) : At s l (S, pp) ->
    (forall s', At s' l (S, pp) -> is_placeholder e = false -> Q e s') ->
    (forall s' l1 l' ps b ex, At s' l' (S, pp) -> covers e ps -> reads (TPunct PFatArrow) l l1 ->
       arrow_body S l1 b ex l' -> Q (EArrowFunction None ps b ex false (is_async_expr e)) s') ->
    wpD m (arrow_rest e) Q s.
  Proof.
    intros A H1 H2. destruct S as [ai aw st fn]. unfold arrow_rest. apply wpD_bind. goD. apply wpD_bind. 
    eapply wpD_cover_formals; [eassumption|intros; goD; apply H1; assumption|].
    intros ps C. goD.
    - eapply H2; eauto. eexists. left. split; [|split; reflexivity]. assumption.
    - eapply H2; eauto. exists []. right. eexists. split; [|split; reflexivity]. assumption.
  Qed.
  Lemma assign_op p o : assignment_operator p = Some o -> In (TPunct p, o) assign_ops.
  Proof. destruct p; cbn; try discriminate; intros [= <-]; tauto. Qed.
  Lemma f_AssignmentExpr : faithful CAssignmentExpr.
  Proof.
    startD; unfold assignment_expr; repeat stepD.
    all: try match goal with |- wp _ _ _ _ _ _ _ (arrow_rest _) _ _ => eapply wpD_arrow_rest; [eassumption|intros|intros] end.
    all: goD; norm; subst; closeD.
    all: try match goal with X : is_placeholder (EArrowParamPlaceHolder _ _) = false |- _ => discriminate X end.
    - assert (Hd : hd_tok l0 = TIdent \/ hd_tok l0 = TKeyword KYield).
      { match goal with X : is_ident _ || _ = true |- _ => apply orb_true_iff in X; destruct X end; norm; auto. }
      destruct (name_primary _ _ _ _ _ _ _ X0 Hd) as [(x & ->)|(f & ->)]; [cbn in Heqo; injection Heqo as <-|discriminate Heqo].
      match goal with X : covers _ _ |- _ => destruct X as [(y & Ey & _)|(qs & a & Ey & ->)]; [discriminate Ey|injection Ey as <- <-] end.
      cbn [is_async_expr map arrow_param]. eapply d_arrow_async_name; eauto.
    - match goal with X : covers _ _ |- _ => destruct X as [(y & -> & ->)|(qs & a & -> & ->)] end; cbn [is_async_expr].
      + eapply d_arrow_name; [|eassumption|eassumption]. eapply conditional_atom in X; [exact X|exact I].
      + eapply d_arrow; eauto.
    - unfold assign_rest. goD; norm; subst; (eapply d_assignment; [eassumption|eapply assign_op; eassumption| |eassumption]);
       eapply reads_as_reads; rewrite <- Heqt; apply takes_reads; try eassumption; congruence.
  Qed.
  Lemma reads_as_takes t w l l' : reads_as t w l l' -> takes l l'.
  Proof. intros (N & b & ->). left. split; eauto. Qed.
  Lemma key_takes S l x c l' i : D S PropertyName l (VKey x c) l' -> it_tok i = hd_tok l -> text_of js i = hd_text l ->
    plain_item js i -> hd_text l = str "get" \/ hd_text l = str "set" \/ hd_text l = str "async" -> takes l l'.
  Proof.
    intros H E F G Hw. destruct (key_token _ _ _ _ _ _ _ _ H) as (t & w & R & _).
    - intros Hp. rewrite <- E in Hp. destruct G as [_ G]. destruct (G _ Hp) as (? & ? & ?). rewrite F in *. destruct Hw as [|[|]]; contradiction.
    - eapply reads_as_takes; eauto.
  Qed.
  Lemma f_ObjProp b : faithful (CObjProp b).
  Proof.
    startD; headD. unfold obj_prop_head, obj_prop_plain. goD; pairs; norm; subst.
    all: try match goal with X : D _ PropertyName ?l _ ?l', H : hd_text ?l = str _, F : text_of _ ?i = hd_text ?l, E : it_tok ?i = _, Q : hd_tok ?l = _ |- _ =>
       assert (takes l l') by (eapply key_takes; [exact X| |exact F|assumption|tauto]; congruence) end.
    all: try match goal with R : reads_as TIdent ?w ?l ?l' |- D ?S _ ?l _ _ =>
       pose proof (d_name_ident tolerant (g_module g) (g_strict_reserved g) S TIdent w l l' R (or_introl eq_refl)) end.
    all: try match goal with R : reads_as _ (hd_text ?l) ?l _, H : hd_text ?l = str "async" |- _ => rewrite H in R end.
    all: closeD.
    all: try match goal with X : reads_as TIdent _ ?l ?l0 |- context [is_punct POpenBracket (hd_tok ?l0)] =>
         destruct (is_punct POpenBracket (hd_tok l0)) eqn:?; norm; closeD end.
    all: repeat match goal with X : _ || _ = true |- _ => apply orb_true_iff in X; destruct X end.
  Qed.
  Lemma is_key_spec S l x c l' w : D S PropertyName l (VKey x c) l' -> is_key x w = true <-> key_is x w.
  Proof.
    intros H. pose proof (key_pat _ _ _ _ _ _ _ _ H) as N. unfold key_is. split.
    - destruct x as [[]|[]|p]; cbn; try discriminate; intros E; try (apply text_eqb_eq in E; subst; auto; fail).
      all: destruct (N _ eq_refl).
    - intros [->| ->]; cbn; apply text_eqb_eq; reflexivity.
  Qed.
  Lemma is_key_false S l x c l' w : D S PropertyName l (VKey x c) l' -> is_key x w = false -> ~ key_is x w.
  Proof. intros H E K. apply (is_key_spec _ _ _ _ _ _ H) in K. congruence. Qed.
  Lemma at_plain s l k p : At s l k -> hd_tok l = TPunct p -> hd_text l <> str "async".
  Proof.
    intros A Hp. destruct (at_look _ _ _ _ A) as (E & F). destruct A as (_ & _ & C). unfold clean in C. destruct C as ((_ & P) & _).
    rewrite <- F. rewrite <- E in Hp. apply (P _ Hp).
  Qed.
  Definition head_ok S l h l1 : Prop :=
    (exists tok c async static l0, h = mkHead tok None c static async /\ D S ClassPrefix l (VPrefix async static) l0
       /\ reads (TPunct PAsterisk) l0 l1 /\ (tok = TPunct PAsterisk -> async = true -> static = true))
    \/ (exists tok k c async static l0, h = mkHead tok (Some k) c static async /\ D S ClassPrefix l (VPrefix async static) l0
       /\ D S PropertyName l0 (VKey k c) l1 /\ tok <> TPunct PAsterisk /\ (tok = TIdent -> c = false \/ async = true /\ static = false)).
  Lemma wpD_head m s l S pp (Q : el_head -> state -> Prop) : At s l (S, pp) ->
    (forall h s' l', At s' l' (S, pp) -> head_ok S l h l' -> Q h s') -> wpD m class_el_head Q s.
  Proof.
    intros A H. destruct S as [ai aw st fn]. unfold class_el_head. goD; norm; subst.
    all: try (eapply H; [eassumption|]; clear H).
    all: try match goal with X : D _ PropertyName _ (VKey ?b _) _, E : is_key ?b "static" = true |- _ => apply (is_key_spec _ _ _ _ _ _ X) in E end.
    all: first [left; do 5 eexists; split; [reflexivity|]; split; [|split; [eassumption|]]
               |right; do 6 eexists; split; [reflexivity|]; split; [|split; [eassumption|split]]].
    all: try solve [eapply d_prefix_none].
    all: try solve [eapply d_prefix_async; split; eassumption].
    all: try solve [eapply d_prefix_static; [eapply d_prefix_none|eassumption|eassumption]].
    all: try solve [eapply d_prefix_static; [eapply d_prefix_async; split; eassumption|eassumption|eassumption]].
    all: try congruence; auto.
    all: try solve [unfold not; intros; match goal with A : At _ ?l _, H : hd_text ?l = str _ |- _ => destruct (at_plain _ _ _ _ A ltac:(eassumption) H) end].
    all: try solve [intros Hi; left; match goal with X : hd_tok _ = TIdent |- _ => rewrite X end; reflexivity].
  Qed.
  Lemma f_ClassEl b : faithful (CClassEl b).
  Proof.
    startD; headD. apply wpD_bind. eapply wpD_head; [eassumption|]. intros h s' l' A HH.
    unfold class_el_mid. destruct HH as [(tok & c & async & static & l0 & -> & X1 & X2 & X3)|(tok & k & c & async & static & l0 & -> & X1 & X2 & X3 & X4)];
      cbn [eh_tok eh_key eh_computed eh_static eh_async em_kind em_key em_value em_method em_computed]; goD; pairs;
      cbn [eh_tok eh_key eh_computed eh_static eh_async em_kind em_key em_value em_method em_computed] in *; norm; subst.
    all: repeat match goal with H : Some _ = Some _ |- _ => injection H as H; subst | H : None = Some _ |- _ => discriminate H end.
    all: try discriminate.
    all: cbn beta iota in *.
    all: repeat match goal with X : D _ PropertyName _ (VKey ?b _) _, E : is_key ?b _ = true |- _ => apply (is_key_spec _ _ _ _ _ _ X) in E end.
    all: repeat match goal with X : D _ PropertyName _ (VKey ?b _) _, E : is_key ?b _ = false |- _ => apply (is_key_false _ _ _ _ _ _ X) in E end.
    all: repeat match goal with E : _ && is_key _ _ = false |- _ => apply andb_false_iff in E end.
    all: repeat match goal with X : context [VKey _ (is_punct POpenBracket (hd_tok ?l))] |- _ =>
           let Z := fresh in destruct (is_punct POpenBracket (hd_tok l)) eqn:Z; norm end.
    all: try match goal with E : _ \/ is_key ?b _ = false, X : D _ PropertyName _ (VKey ?b _) _ |- _ => 
       destruct E as [E|E]; [apply negb_false_iff in E; subst|apply (is_key_false _ _ _ _ _ _ X) in E] end.
    all: try match goal with X : D _ GeneratorMethod _ (VMethod ?v) _, E : is_generator ?v = false |- _ => 
       destruct (generator_value _ _ _ _ _ _ _ X) as (? & ? & ->); discriminate E end.
    all: try solve [eapply d_class_generator; [eassumption|auto|eassumption|eassumption|eassumption|tauto]].
    all: try solve [eapply d_class_method; [eassumption|eassumption|eassumption|tauto]].
    all: try solve [eapply d_class_getter; [eassumption|eassumption|eassumption|auto|eassumption|eassumption|tauto]].
    all: try solve [eapply d_class_setter; [eassumption|eassumption|eassumption|auto|eassumption|eassumption|tauto]].
  Qed.
  Lemma f_ImportNamespaceSpecifier : faithful (CImportNamespaceSpecifier).
  Proof. allD; closeD. Qed.
  Lemma f_ImportDefaultSpecifier : faithful (CImportDefaultSpecifier).
  Proof. allD; closeD. Qed.
  Lemma f_ExportSpecifier : faithful (CExportSpecifier).
  Proof. allD; closeD. Qed.
  Lemma f_ModuleSpecifier : faithful (CModuleSpecifier).
  Proof. allD; closeD. Qed.
  Lemma f_WhileStmt : faithful (CWhileStmt).
  Proof. allD; closeD. Qed.
  Lemma f_VarStmt : faithful (CVarStmt).
  Proof. allD; closeD. Qed.
  Lemma f_CatchClause : faithful (CCatchClause).
  Proof. allD; closeD. Qed.
  Lemma f_FinallyClause : faithful (CFinallyClause).
  Proof. allD; closeD. Qed.
  Lemma f_ThrowStmt : faithful (CThrowStmt).
  Proof. allD; closeD. Qed.
  Lemma f_ReturnStmt : faithful (CReturnStmt).
  Proof. allD; closeD. Qed.
  Lemma f_IfStmt : faithful (CIfStmt).
  Proof. allD; closeD. Qed.
  Lemma f_IfClause : faithful (CIfClause).
  Proof. allD; closeD. Qed.
  Lemma f_FnStmt : faithful (CFnStmt).
  Proof. allD; closeD. Qed.
  Lemma f_ForLoop kind : faithful (CForLoop kind).
  Proof. allD; closeD. Qed.
  Lemma f_ForLoopCont init : faithful (CForLoopCont init).
  Proof. allD; closeD. Qed.
  Lemma f_ForInLoop left : faithful (CForInLoop left).
  Proof. allD; closeD. Qed.
  Lemma f_ForOfLoop left is_await : faithful (CForOfLoop left is_await).
  Proof. allD; closeD. Qed.
  Lemma f_LoopBody : faithful (CLoopBody).
  Proof. allD; closeD. Qed.
  Lemma f_DoWhileStmt : faithful (CDoWhileStmt).
  Proof. allD; closeD. Qed.
  Lemma f_OptionallyLabeled k : faithful (COptionallyLabeled k).
  Proof. allD; closeD. Qed.
  Lemma f_DebuggerStmt : faithful (CDebuggerStmt).
  Proof. allD; closeD. Qed.
  Lemma f_ExpressionStatement : faithful (CExpressionStatement).
  Proof. allD; closeD. Qed.
  Lemma f_FunctionDecl opt_ident : faithful (CFunctionDecl opt_ident).
  Proof. allD; closeD. Qed.
  Lemma f_ClassDecl opt_ident : faithful (CClassDecl opt_ident).
  Proof. allD; closeD. Qed.
  Lemma f_AsyncPropertyMethod : faithful (CAsyncPropertyMethod).
  Proof. allD; closeD. Qed.
  Lemma f_PropertyMethod : faithful (CPropertyMethod).
  Proof. allD; closeD. Qed.
  Lemma f_GeneratorMethod : faithful (CGeneratorMethod).
  Proof. allD; closeD. Qed.
  Lemma f_MethodBody simple found_restricted : faithful (CMethodBody simple found_restricted).
  Proof. allD; closeD. Qed.
  Lemma f_PropertyMethodBody simple found_restricted : faithful (CPropertyMethodBody simple found_restricted).
  Proof. allD; closeD. Qed.
  Lemma f_IdentName : faithful (CIdentName).
  Proof. allD; closeD. Qed.
  Lemma f_RestElement : faithful (CRestElement).
  Proof. allD; closeD. Qed.
  Lemma f_BindingRestEl : faithful (CBindingRestEl).
  Proof. allD; closeD. Qed.
  Lemma f_PatternWithDefault : faithful (CPatternWithDefault).
  Proof. allD; closeD. Qed.
  Lemma f_Pattern kind : faithful (CPattern kind).
  Proof. allD; closeD. Qed.
  Lemma f_RestProp : faithful (CRestProp).
  Proof. allD; closeD. Qed.
  Lemma f_YieldExpr : faithful (CYieldExpr).
  Proof. allD; closeD. Qed.
  Lemma f_ConditionalExpr : faithful (CConditionalExpr).
  Proof. allD; closeD. Qed.
  Lemma f_Exponentiation : faithful (CExponentiation).
  Proof. allD; closeD. Qed.
  Lemma f_AsyncArg : faithful (CAsyncArg).
  Proof. allD; closeD. Qed.
  Lemma f_SpreadElement : faithful (CSpreadElement).
  Proof. allD; closeD. Qed.
  Theorem bodies_faithful : forall m B (c : call B) s, preD g (S m) B c s -> wpD m (body c) (postD g B c s) s.
  Proof.
    intros m B c. destruct c.
    - exact (f_NextPart m).
    - exact (f_DirectivePrologues m).
    - exact (f_Directive m).
    - exact (f_StatementListItem m).
    - exact (f_ImportDecl m).
    - exact (f_NamedImports m).
    - exact (f_ImportSpecifier m).
    - exact (f_ImportNamespaceSpecifier m).
    - exact (f_ImportDefaultSpecifier m).
    - exact (f_ExportDecl m).
    - exact (f_ExportSpecifier m).
    - exact (f_ModuleSpecifier m).
    - exact (f_Statement m).
    - exact (f_WithStmt m).
    - exact (f_WhileStmt m).
    - exact (f_VarStmt m).
    - exact (f_VarDeclList _ m).
    - exact (f_VarDecl _ m).
    - exact (f_TryStmt m).
    - exact (f_CatchClause m).
    - exact (f_FinallyClause m).
    - exact (f_ThrowStmt m).
    - exact (f_SwitchStmt m).
    - exact (f_SwitchCase m).
    - exact (f_ReturnStmt m).
    - exact (f_IfStmt m).
    - exact (f_IfClause m).
    - exact (f_FnStmt m).
    - exact (f_ForStmt m).
    - exact (f_ForLoop _ m).
    - exact (f_ForLoopCont _ m).
    - exact (f_ForInLoop _ m).
    - exact (f_ForOfLoop _ _ m).
    - exact (f_LoopBody m).
    - exact (f_DoWhileStmt m).
    - exact (f_BreakStmt m).
    - exact (f_ContinueStmt m).
    - exact (f_OptionallyLabeled _ m).
    - exact (f_DebuggerStmt m).
    - exact (f_LabelledStatement m).
    - exact (f_ExpressionStatement m).
    - exact (f_Expression m).
    - exact (f_Block m).
    - exact (f_LexicalDecl _ m).
    - exact (f_BindingList _ _ m).
    - exact (f_VariableDeclList _ m).
    - exact (f_VariableDecl _ m).
    - exact (f_LexicalBinding _ _ m).
    - exact (f_FunctionDecl _ m).
    - exact (f_FunctionSourceEl m).
    - exact (f_ClassDecl _ m).
    - exact (f_ClassBody m).
    - exact (f_ClassEl _ m).
    - exact (f_AsyncPropertyMethod m).
    - exact (f_PropertyMethod m).
    - exact (f_GeneratorMethod m).
    - exact (f_GetterMethod m).
    - exact (f_MethodBody _ _ m).
    - exact (f_SetterMethod m).
    - exact (f_PropertyMethodBody _ _ m).
    - exact (f_ObjectPropertyKey m).
    - exact (f_PrimaryExpression m).
    - exact (f_GroupExpr m).
    - exact (f_ArrayInit m).
    - exact (f_ObjInit m).
    - exact (f_ObjProp _ m).
    - exact (f_TemplateLiteral m).
    - exact (f_TemplateElement m).
    - exact (f_FunctionExpr m).
    - exact (f_FnName _ m).
    - exact (f_IdentName m).
    - exact (f_VarIdent _ m).
    - exact (f_FormalParams m).
    - exact (f_FormalParam _ m).
    - exact (f_RestElement m).
    - exact (f_BindingRestEl m).
    - exact (f_PatternWithDefault m).
    - exact (f_Pattern _ m).
    - exact (f_ArrayPattern m).
    - exact (f_ObjectPattern m).
    - exact (f_RestProp m).
    - exact (f_PropertyPattern m).
    - exact (f_AssignmentExpr m).
    - exact (f_YieldExpr m).
    - exact (f_ConditionalExpr m).
    - exact (f_BinaryExpression m).
    - exact (f_Exponentiation m).
    - exact (f_UnaryExpression m).
    - exact (f_AwaitExpr m).
    - exact (f_UpdateExpr m).
    - exact (f_LeftHandSideExpr m).
    - exact (f_Super m).
    - exact (f_LeftHandSideExprAllowCall m).
    - exact (f_AsyncArgs m).
    - exact (f_AsyncArg m).
    - exact (f_SpreadElement m).
    - exact (f_Args m).
    - exact (f_NewExpr m).
    - exact (f_ConsumeSemicolon m).
  Qed.
End Derived.
