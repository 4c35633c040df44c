(** Every spelling is read back: by induction on the productions of Subset.v. *)
From Verif Require Export Loops Modules Api.
Local Open Scope nat_scope.
Local Open Scope list_scope.

(** The trees of expressions are never the parser's own node for arrow parameters. *)
Definition plain (c : nt) : ty c -> Prop :=
  match c with
  | NX _ => fun e => is_placeholder e = false
  | NCommas => fun es => Forall (fun e => is_placeholder e = false) es
  | _ => fun _ => True
  end.
Lemma plain_sequence es : Forall (fun e => is_placeholder e = false) es -> is_placeholder (sequence es) = false.
Proof. intros H. destruct H as [|e [|] H H2]; [reflexivity|exact H|reflexivity]. Qed.
Lemma std_plain odd S c l v l' : std odd S c l v l' -> plain c v.
Proof.
  induction 1; cbn [plain] in *; try exact I; try reflexivity; try assumption; try (constructor; auto); try (apply plain_sequence; assumption).
  match goal with H : In _ bin_ops |- _ => cbn in H; repeat destruct H as [E|H]; [..|destruct H]; inversion E; reflexivity end.
Qed.

Definition pattern_tree (e : Expr) : Prop := match e with EArray _ | EObject _ => True | _ => False end.
Definition need (c : nt) : bool :=
  match c with
  | NX n => 17 <=? n
  | NTarget _ | NTargetBase _ | NTargetElem _ | NTargetElems _ | NTargetProp _ | NTargetProps _ | NArgs | NElems | NArrowArg | NArrow | NArrowAsync | NArrowHead _ | NFunction _ _ | NBody | NProps | NProp | NItems | NItem | NStmt | NBlock
  | NCase | NCases | NInit | NLeft | NOpt | NLoop | NHandler | NClass _ | NHeritage | NMembers | NMember
  | NModule | NModItem | NImports | NImportNames | NImportName | NExportNames _ | NExportName _ => true
  | _ => false
  end.
Definition lift (b : bool) (S : view) : view := if b then in_ true S else S.

Section Complete.
  Variable g : cfg.
  Hypothesis Hres : g_strict_reserved g (TKeyword KThis) = false /\ g_strict_reserved g (TKeyword KFunction) = false
    /\ g_strict_reserved g (TKeyword KClass) = false.
  Hypothesis Hlit : (forall p, g_literal g (TPunct p) = false) /\ g_literal g TString = true /\ g_literal g TNumeric = true
    /\ g_literal g TNull = true /\ forall b, g_literal g (TBoolean b) = true.
  Notation odd := (g_restricted g TIdent || g_strict_reserved g TIdent).

  Definition sem (S : view) (c : nt) : list tk -> ty c -> list tk -> Prop :=
    match c as c return list tk -> ty c -> list tk -> Prop with
    | NX n => fun l e l' =>
        match n with
        | 0 => @Xcall g None CExpression 0 S l e l'
        | 1 => @X1 g None S l e l'
        | 2 => @Xcall g None CConditionalExpr 1 S l e l'
        | 14 => @Xcall g None CExponentiation 14 S l e l'
        | 15 => @Xup g None CUnaryExpression 15 S l e l'
        | 16 => @Xup g None CUpdateExpr 16 S l e l'
        | 17 => @X17 g None S l e l'
        | 18 => X18 g S l e l'
        | 19 => @X19 g None S l e l'
        | _ => @Xbin g None n S l e l'
        end
    | NCommas => Both g S
    | NArg => Xarg g S
    | NArgs => Args g S
    | NElems => Elems g S
    | NProps => Props g S
    | NProp => Xprop g S
    | NKey => Xkey g S
    | NQuasis => Xquasis g S
    | NParam => Xparam g S
    | NParams => Params g S
    | NPat => fun l x l' => Xpat g S l x l' /\ pat_ok S x /\ is_rest (FAPat x) = false
    | NPatDefault => fun l x l' => Xpatd g S l x l' /\ is_rest (FAPat x) = false
    | NPatElems => PatElems g S
    | NPatProps => PatProps g S
    | NPatProp => Xpatprop g S
    | NBody => Xbody g S
    | NDirectives => Directives
    | NItems => Items g S
    | NItem => Xrun g (Call CStatementListItem) S
    | NStmt => Xrun g (Call CStatement) S
    | NBlock => Xrun g (Call CBlock) S
    | NVar k f => Xvar g k f S
    | NVars k f => Vars g k f S
    | NCase => Xcase g S
    | NCases => Cases g S
    | NFunction named a => if named then Xdecl g a S else Xfunc g a S
    | NTarget b => fun l e l' => @X19 g (Some b) S l e l' /\ pattern_tree e
    | NTargetBase b => Xbase g b S
    | NTargetElem b => Xkeep g b S
    | NTargetElems b => Telems g b S
    | NTargetProp b => Xkprop g b S
    | NTargetProps b => Tprops g b S
    | NArrowArg => Xarrowarg g S
    | NArrow => Arrows g S
    | NArrowAsync => Xasyncs g S
    | NArrowHead a => Xstart g a S
    | NInit => Xinit g S
    | NLeft => Xleft g S
    | NOpt => Xopt g S
    | NLoop => Xrun g (Call CLoopBody) S
    | NHandler => Xrun g (Call CCatchClause) S
    | NClass named => Xclass g (negb named) S
    | NHeritage => Xheritage g S
    | NMembers => Members g S
    | NMember => Xmember g S
    | NModule => Items g S
    | NModItem => Xrun g (Call CStatementListItem) S
    | NImports => Ximports g S
    | NImportNames => ImportNames g S
    | NImportName => Ximport g S
    | NExportNames f => ExportNames g f S
    | NExportName f => Xexport g f S
    end.
  Definition good S c l v l' := (need c = true -> v_in S = true) -> sem S c l v l'.
  Definition Good S c l v l' := forall b, good (lift b S) c l v l'.

  Ltac facts :=
    repeat match goal with
    | D : std _ ?S ?c ?l ?v ?l' |- _ =>
        let h := fresh "Hd" in pose proof (std_head _ _ _ _ _ _ D) as h; cbn [head_of] in h;
        let p := fresh "Hp" in pose proof (std_plain _ _ _ _ _ _ D) as p; cbn [plain] in p;
        let q := fresh "Hc" in pose proof (std_calm _ _ _ _ _ _ D) as q; cbn [calm_nt Nat.leb] in q; try specialize (q eq_refl);
        let m := fresh "Hm" in pose proof (std_import_start _ _ _ _ _ _ D) as m; cbn [import_nt] in m; first [specialize (m eq_refl)|clear m];
        let r := fresh "Hl" in pose proof (proj2 (std_length _ _ _ _ _ _ D)) as r; cbn [maybe_empty] in r; try specialize (r eq_refl); clear D
    end.
  Ltac ihs Hi :=
    repeat match goal with
    | H : Good ?S ?c ?l ?v ?l' |- _ =>
        let G1 := fresh "G" in
        assert (G1 := H true (fun _ => eq_refl)); cbn [sem lift] in G1;
        try (let G0 := fresh "G" in
             assert (G0 : good S c l v l') by exact (H false);
             assert (Nd9 : need c = true -> v_in S = true) by first [intros _; reflexivity|intros N; discriminate N|intros _; exact (Hi eq_refl)];
             specialize (G0 Nd9); clear Nd9; cbn [sem] in G0);
        clear H
    end.
  Ltac conjs := repeat match goal with H : _ /\ _ |- _ => lazymatch type of H with context [g_strict_reserved] => fail | context [g_literal] => fail | _ => destruct H end end.
  Ltac start := let b := fresh "b" in intros b; let Hi := fresh "Hi" in intros Hi; destruct b; cbn [lift] in *; facts; ihs Hi; cbn [sem need] in *.
  Lemma head_call t : expr_head 17 t = true -> call_head t = true.
  Proof. destruct t as [| | | | | | |[]|[]|[]|]; cbn; try discriminate; auto. Qed.
  Lemma head_primary n t : 18 <= n -> expr_head n t = true -> primary_head t = true.
  Proof. intros Hn H. apply (expr_head_up n 18) in H; [|exact Hn]. destruct t as [| | | | | | |[]|[]|[]|]; cbn in *; try discriminate; auto. Qed.
  Lemma param_not_close t : pat_head t || is_punct PSpread t = true -> is_punct PCloseParen t = false /\ is_eof t = false.
  Proof. destruct t as [| | | | | | |[]|[]|[]|]; cbn; try discriminate; auto. Qed.
  Lemma prop_not_close t : qualified_prop_key t || is_punct PSpread t || is_punct PAsterisk t = true -> is_punct PCloseBrace t = false.
  Proof. destruct t as [| | | | | | |[]|[]|[]|]; cbn; try discriminate; auto. Qed.
  Lemma pat_prop_not_close t : qualified_prop_key t || is_punct PSpread t = true -> is_punct PCloseBrace t = false.
  Proof. destruct t as [| | | | | | |[]|[]|[]|]; cbn; try discriminate; auto. Qed.
  Lemma case_not_close t : is_keyword KCase t || is_keyword KDefault t = true -> is_punct PCloseBrace t = false.
  Proof. destruct t as [| | | | | | |[]|[]|[]|]; cbn; try discriminate; auto. Qed.
  Lemma is_punct_eq p t : is_punct p t = true -> t = TPunct p.
  Proof. destruct t as [| | | | | | | |q| |]; cbn; try discriminate. destruct p, q; cbn; intros; congruence. Qed.
  Lemma arrow_head_primary t : is_ident t || is_punct POpenParen t = true -> primary_head t = true.
  Proof. destruct t as [| | | | | | |[]|[]|[]|]; cbn; try discriminate; auto. Qed.
  Lemma target_head_primary t : is_punct POpenBracket t || is_punct POpenBrace t = true -> primary_head t = true.
  Proof. destruct t as [| | | | | | |[]|[]|[]|]; cbn; try discriminate; auto. Qed.
  Lemma base_pattern b S l e l' : @X19 g (Some b) (in_ true S) l e l' -> pattern_tree e -> is_punct POpenBracket (hd_tok l) || is_punct POpenBrace (hd_tok l) = true ->
    Xbase g b S l e l'.
  Proof.
    intros H Ht Hh. assert (Hca : calm l) by (apply calm_other; intros E; rewrite E in Hh; discriminate).
    apply target_head_primary in Hh. split; [split; [apply call_primary; exact Hh|exact Hca]|]. split; [apply up_17; assumption|].
    destruct e; try destruct Ht; (split; [reflexivity|split; [cbn; auto|intros _ w E; discriminate]]).
  Qed.
  Lemma base_target S l e l' : @X17 g None (in_ true S) l e l' -> call_at l -> is_target e = true -> strict_target S e ->
    Xbase g false S l e l'.
  Proof.
    intros H Hh Ht Hs. split; [exact Hh|]. split; [|split; [apply target_stands; exact Ht|split; [discriminate|exact Hs]]].
    intros sp s k Q A V HQ. eapply H; [exact A|exact V|]. intros s1 k1 A1 V1 F1. eapply HQ; [exact A1|exact V1|].
    destruct e; try discriminate; exact F1.
  Qed.
  Ltac tree := first [eassumption|match goal with H : pattern_tree ?e |- _ => destruct e; try destruct H; reflexivity end].
  Lemma name_not_close t : qualified_prop_key t = true -> is_punct PCloseBrace t = false.
  Proof. destruct t as [| | | | | | |[]|[]|[]|]; cbn; try discriminate; auto. Qed.
  Lemma item_head_more t : head_of NItem t = true -> item_head t = true.
  Proof. unfold item_head. cbn [head_of]. intros ->. reflexivity. Qed.
  Ltac side :=
    lazymatch goal with
    | |- item_head _ = true => first [eassumption|apply item_head_more; eassumption]
    | |- v_in _ = true => first [reflexivity|match goal with H : _ -> v_in _ = true |- _ => exact (H eq_refl) end]
    | |- primary_head _ = true => first [eapply head_primary; [|eassumption]; lia|apply arrow_head_primary; assumption|apply target_head_primary; assumption]
    | |- call_head _ = true => apply head_call; assumption
    | |- primary_at _ => split; [side|assumption]
    | |- call_at _ => split; [side|assumption]
    | |- expr_head _ _ = true => eapply expr_head_up; [|eassumption]; lia
    | |- Xargs _ _ _ _ _ => apply args_ok; [side|eassumption]
    | |- Xparams _ _ _ _ _ => apply params_ok; eassumption
    | |- is_punct PCloseParen _ = false => eapply param_not_close; eassumption
    | |- is_eof _ = false => eapply param_not_close; eassumption
    | |- is_punct PCloseBrace _ = false => first [apply name_not_close; assumption|apply prop_not_close; assumption|apply pat_prop_not_close; assumption|apply case_not_close; assumption]
    | |- hd_tok _ = TPunct _ => first [eassumption|apply is_punct_eq; assumption]
    | |- _ \/ _ => first [assumption|left; split; reflexivity|right; split; reflexivity]
    | |- _ => first [eassumption|reflexivity|assumption]
    end.
  Ltac use lem := eapply lem; conjs; side.
  Lemma sem_14 S l e l' n : 3 <= n <= 14 -> sem S (NX n) l e l' -> @Xbin g None n S l e l'.
  Proof.
    intros Hn H. assert (C : n = 14 \/ n <= 13) by lia. destruct C as [->|C]; [apply bin_one; exact H|].
    do 3 (destruct n as [|n]; [exfalso; lia|]). do 11 (destruct n as [|n]; [exact H|]). exfalso; lia.
  Qed.
  Lemma sem_bin S l e l' n : 3 <= n <= 13 -> @Xbin g None n S l e l' -> sem S (NX n) l e l'.
  Proof.
    intros Hn H. do 3 (destruct n as [|n]; [exfalso; lia|]). do 11 (destruct n as [|n]; [exact H|]). exfalso; lia.
  Qed.
  Lemma good_bin S l e l' n : 3 <= n <= 14 -> Good S (NX n) l e l' -> forall b, @Xbin g None n (lift b S) l e l'.
  Proof.
    intros Hn H b. apply sem_14; [exact Hn|]. apply H. cbn [need]. intros E. apply Nat.leb_le in E. exfalso. lia.
  Qed.
  Lemma op_level t p mk : In (t, (p, mk)) bin_ops -> 1 <= p <= 11.
  Proof. intros H. cbn in H. repeat destruct H as [E|H]; [..|destruct H]; inversion E; lia. Qed.
  Lemma std_good S c l v l' : std odd S c l v l' -> Good S c l v l'.
  Proof.
    induction 1.
    - (* std_ident *) start; (use p_ident).
    - (* std_number *) start; (use p_number).
    - (* std_string *) start; (use p_string).
    - (* std_bool *) start; (use p_bool).
    - (* std_regex *) start; (use p_regex).
    - (* std_this *) start; (use p_this).
    - (* std_template *) start; (apply p_template; [hd_known; reflexivity|use template]).
    - (* std_template_parts *) start; (apply p_template; [hd_known; reflexivity|use template_parts]).
    - (* std_quasis_last *) start; (use quasis_last).
    - (* std_quasis_more *) start; (use quasis_more).
    - (* std_paren *) start; (eapply p_paren; [eassumption|eapply both_commas; eassumption|eassumption|eassumption]).
    - (* std_array *) start; (use p_array).
    - (* std_object *) start; (use p_object).
    - (* std_function *) start; (use p_function).
    - (* std_class_expr *) start; (eapply p_class; [exact Hres|eassumption|eassumption]).
    - (* std_new *) start; (use p_new).
    - (* std_new_bare *) start; (use p_new_bare).
    - (* std_new_target *) start; (use p_new_target).
    - (* std_member_up *) start; (use up_18).
    - (* std_member *) start; (use step_member18).
    - (* std_index *) start; (use step_index18).
    - (* std_member_tagged *) start; (eapply step_tagged18; [eassumption|hd_known; reflexivity|use template]).
    - (* std_member_tagged_parts *) start; (eapply step_tagged18; [eassumption|hd_known; reflexivity|use template_parts]).
    - (* std_call_up *) start; (use up_17).
    - (* std_call_member *) start; (use step_member).
    - (* std_call_index *) start; (use step_index).
    - (* std_call *) start; (use step_call).
    - (* std_tagged *) start; (eapply step_tagged; [eassumption|hd_known; reflexivity|use template]).
    - (* std_tagged_parts *) start; (eapply step_tagged; [eassumption|hd_known; reflexivity|use template_parts]).
    - (* std_super_member *) start; (eapply step_member; [eapply super_17; [eassumption|eassumption|hd_known; reflexivity]|eassumption|eassumption]).
    - (* std_super_index *) start; (eapply step_index; [side|eapply super_17; [eassumption|eassumption|hd_known; reflexivity]|eassumption|eassumption|eassumption]).
    - (* std_super_call *) start; (eapply step_call; [eapply super_17; [eassumption|eassumption|hd_known; reflexivity]|eassumption|side]).
    - (* std_import_call *) start; (eapply import_call; [eassumption|eassumption|apply args_ok; [side|eapply args_last; [left; split; side|eassumption]]]).
    - (* std_arg *) start; (left; split; side).
    - (* std_arg_spread *) start; (right; do 2 eexists; split; [reflexivity|split; eassumption]).
    - (* std_args_none *) start; (use args_none).
    - (* std_args_last *) start; (use args_last).
    - (* std_args_more *) start; (use args_more).
    - (* std_elems_none *) start; (use elems_none).
    - (* std_elems_hole *) start; (use elems_hole).
    - (* std_elems_last *) start; (use elems_last).
    - (* std_elems_more *) start; (use elems_more).
    - (* std_props_none *) start; (use props_none).
    - (* std_props_last *) start; (use props_last).
    - (* std_props_more *) start; (use props_more).
    - (* std_prop *) start; (use prop_value).
    - (* std_prop_short *) start; (use prop_short).
    - (* std_prop_spread *) start; (use prop_spread).
    - (* std_prop_method *) start; (eapply prop_method; [eassumption|eassumption|hd_known; reflexivity|use m_plain]).
    - (* std_prop_async *) start; (eapply prop_async; [eassumption|eassumption|hd_known; reflexivity|use m_async]).
    - (* std_prop_generator *) start; (eapply prop_generator; [exact Hres|eassumption|eassumption|eapply m_generator; side]).
    - (* std_prop_get *) start; (eapply prop_get; [eassumption|eassumption|use m_get]).
    - (* std_prop_set *) start; (eapply prop_set; [eassumption|eassumption|use m_set]).
    - (* std_key_string *) start; (use key_string).
    - (* std_key_number *) start; (use key_number).
    - (* std_key_name *) start; (use key_name).
    - (* std_key_computed *) start; (use key_computed).
    - (* std_async_function *) start; (use async_function).
    - (* std_update_up *) start; (use up_16).
    - (* std_postfix *) start; (use postfix).
    - (* std_prefix *) start; (use Ladder.prefix).
    - (* std_unary_up *) start; (use up_15).
    - (* std_unary *) start; (use unary).
    - (* std_await *) start; (use await).
    - (* std_power_up *) start; (use up_14).
    - (* std_power *) start; (use power).
    - (* std_binary_up *) intros b _. apply sem_bin; [lia|]. apply bin_up; [lia|]. apply good_bin; [lia|assumption].
    - (* std_binary *) intros bb _. match goal with H : In _ bin_ops |- _ => pose proof (op_level _ _ _ H) end. apply sem_bin; [lia|].
      eapply (bin_two g (lift bb S) p); [split; [eassumption|]|apply good_bin; [lia|eassumption]|eassumption|apply good_bin; [lia|eassumption]].
      intros E. destruct bb; [reflexivity|auto].
    - (* std_conditional_up *) start; (eapply up_2; [lia|eapply binary; eassumption]).
    - (* std_conditional *) start; (eapply conditional; [eapply binary; eassumption|side|side|side|side]).
    - (* std_assignment_up *) start; (use up_1).
    - (* std_assignment *) start; (use assignment).
    - (* std_assignment_pattern *) start; (conjs; eapply pattern_assignment; [eassumption|side|..]; tree).
    - (* std_target_array *) start; (split; [use target_array|exact I]).
    - (* std_target_object *) start; (split; [use target_object|exact I]).
    - (* std_base_name *) start; (use base_ident).
    - (* std_base_target *) start; (use base_target).
    - (* std_base_pattern *) start; (conjs; eapply base_pattern; side).
    - (* std_elem *) start; (use base_keeps).
    - (* std_elem_default *) start; (use default_keeps).
    - (* std_telems_none *) start; (use telems_none).
    - (* std_telems_hole *) start; (use telems_hole).
    - (* std_telems_last *) start; (use telems_last).
    - (* std_telems_more *) start; (use telems_more).
    - (* std_telems_rest *) start; (eapply telems_rest; [eassumption|apply base_keeps; eassumption|eassumption]).
    - (* std_tprops_none *) start; (use tprops_none).
    - (* std_tprops_last *) start; (use tprops_last).
    - (* std_tprops_more *) start; (use tprops_more).
    - (* std_tprops_rest *) start; (eapply tprops_last; [eapply kprop_rest; [eassumption|apply base_keeps; eassumption]|eassumption]).
    - (* std_tprop_short *) start; (use kprop_short).
    - (* std_tprop_short_default *) start; (use kprop_short_default).
    - (* std_tprop *) start; (use kprop_value).
    - (* std_arrow *) start; (use arrow).
    - (* std_arrow_body *) start; (use arrow_body).
    - (* std_arrow_name *) start; (apply arrow_start; [eexists; split; [eapply p_ident; eassumption|split; [repeat constructor|left; eexists; split; reflexivity]]|split; [hd_known; reflexivity|calm1]]).
    - (* std_arrow_parens *) start; (apply arrow_start; [use arrow_parens|split; [hd_known; reflexivity|calm1]]).
    - (* std_arrow_async_name *) start; (use async_name_start).
    - (* std_arrow_async_parens *) start; (use asyncs_start).
    - (* std_async_none *) start; (use asyncs_none).
    - (* std_async_rest *) start; (use asyncs_rest).
    - (* std_async_last *) start; (use asyncs_last).
    - (* std_async_more *) start; (use asyncs_more).
    - (* std_arrow_none *) start; (use arrows_none).
    - (* std_arrow_rest *) start; (use arrows_rest).
    - (* std_arrow_last *) start; (use arrows_last).
    - (* std_arrow_more *) start; (use arrows_more).
    - (* std_arrow_arg *) start; (use arrow_arg).
    - (* std_arrow_default *) start; (eapply arrow_default; [side|hd_known; reflexivity|use base_ident|side..]).
    - (* std_arrow_pattern *) start; (conjs; eapply arrow_pattern; [side|side|eapply base_pattern; side]).
    - (* std_arrow_pattern_default *) start; (conjs; eapply arrow_default; [side|side|eapply base_pattern; side|side..]).
    - (* std_yield *) start; (use yield_none).
    - (* std_yield_line *) start; (use yield_line).
    - (* std_yield_arg *) start; (use yield_arg).
    - (* std_yield_all *) start; (use yield_all).
    - (* std_commas_one *) start; (use both_one).
    - (* std_commas_more *) start; (use both_more).
    - (* std_expression *) start; (eapply expression_ok; eapply both_commas; eassumption).
    - (* std_function_anon *) start; (use func_anon).
    - (* std_function_named *) start; (destruct named; [eapply decl_named; conjs; [auto|side..]|use func_named]).
    - (* std_param *) start; (use param).
    - (* std_param_rest *) start; (use param_rest).
    - (* std_params_none *) start; (use params_none).
    - (* std_params_last *) start; (use params_last).
    - (* std_params_more *) start; (use params_more).
    - (* std_body *) start; (use body_ok).
    - (* std_directives_none *) start; (use dirs_none).
    - (* std_directives *) start; (use dirs_more).
    - (* std_class_anon *) start; (use class_anon).
    - (* std_class_named *) start; (match goal with Hb : binding_name _ _ |- _ => destruct Hb end; use class_named).
    - (* std_heritage_none *) start; (left; auto).
    - (* std_heritage *) start; (right; do 3 eexists; split; [reflexivity|]; split; [eassumption|]; split; [side|]; split; eassumption).
    - (* std_members_none *) start; (use members_none).
    - (* std_members_semicolon *) start; (use members_semicolon).
    - (* std_members *) start; (use members_more).
    - (* std_member_ctor *) start; (eapply member_ctor; [exact Hlit|eassumption|eassumption|hd_known; reflexivity|use m_plain]).
    - (* std_member_method *) start; (eapply member_method; [exact Hlit|eassumption|eassumption|eassumption|eassumption|hd_known; reflexivity|use m_plain]).
    - (* std_member_async *) start; (eapply member_async; [exact Hlit|eassumption|eassumption|eassumption|hd_known; reflexivity|use m_async]).
    - (* std_member_generator *) start; (eapply member_generator; [exact Hlit|eassumption|eassumption|eassumption|eassumption|eapply m_generator; side]).
    - (* std_member_get *) start; (eapply member_get; [exact Hlit|eassumption|eassumption|eassumption|eassumption|eassumption|eassumption|use m_get]).
    - (* std_member_set *) start; (eapply member_set; [exact Hlit|eassumption|eassumption|eassumption|eassumption|eassumption|use m_set]).
    - (* std_pat_name *) start; (split; [use pat_name|split; [use name_ok|reflexivity]]).
    - (* std_pat_array *) start; (split; [use pat_array|split; [intros _; reflexivity|reflexivity]]).
    - (* std_pat_object *) start; (split; [use pat_object|split; [intros _; reflexivity|reflexivity]]).
    - (* std_pat_plain *) start; (conjs; split; [use pat_plain|side]).
    - (* std_pat_default *) start; (conjs; split; [use pat_default|reflexivity]).
    - (* std_pat_elems_none *) start; (use pe_none).
    - (* std_pat_elems_hole *) start; (use pe_hole).
    - (* std_pat_elems_last *) start; (use pe_last).
    - (* std_pat_elems_more *) start; (use pe_more).
    - (* std_pat_props_none *) start; (use pp_none).
    - (* std_pat_props_last *) start; (use pp_last).
    - (* std_pat_props_more *) start; (use pp_more).
    - (* std_pat_prop_name *) start; (use pp_name).
    - (* std_pat_prop_default *) start; (use pp_default).
    - (* std_pat_prop *) start; (use pp_key).
    - (* std_pat_prop_rest *) start; (use pp_rest).
    - (* std_items_none *) start; (use items_none).
    - (* std_items *) start; (use items_more).
    - (* std_item_stmt *) start; (use item_stmt).
    - (* std_item_let *) start; (use item_let).
    - (* std_item_const *) start; (use item_const).
    - (* std_item_function *) start; (use item_function).
    - (* std_item_async *) start; (use item_async).
    - (* std_item_class *) start; (use item_class).
    - (* std_vars_one *) start; (use vars_one).
    - (* std_vars_more *) start; (use vars_more).
    - (* std_var *) start; (use var_none).
    - (* std_var_init *) start; (use var_init).
    - (* std_block *) start; (use block_ok).
    - (* std_stmt_expr *) start; (use stmt_expr).
    - (* std_stmt_block *) start; (use stmt_block).
    - (* std_stmt_empty *) start; (use stmt_empty).
    - (* std_stmt_debugger *) start; (use stmt_debugger).
    - (* std_stmt_var *) start; (use stmt_var).
    - (* std_stmt_if *) start; (use stmt_if).
    - (* std_stmt_if_else *) start; (use stmt_if_else).
    - (* std_stmt_while *) start; (use stmt_while).
    - (* std_stmt_do *) start; (use stmt_do).
    - (* std_stmt_with *) start; (use stmt_with).
    - (* std_stmt_return *) start; (use stmt_return).
    - (* std_stmt_return_value *) start; (use stmt_return_value).
    - (* std_stmt_throw *) start; (use stmt_throw).
    - (* std_stmt_break *) start; (eapply stmt_break; [hd_known; reflexivity|use jump_none]).
    - (* std_stmt_break_label *) start; (eapply stmt_break; [hd_known; reflexivity|use jump_label]).
    - (* std_stmt_continue *) start; (eapply stmt_continue; [hd_known; reflexivity|use jump_none]).
    - (* std_stmt_continue_label *) start; (eapply stmt_continue; [hd_known; reflexivity|use jump_label]).
    - (* std_stmt_label *) start; (use stmt_label).
    - (* std_stmt_switch *) start; (use stmt_switch).
    - (* std_cases_none *) start; (use cases_none).
    - (* std_cases *) start; (use cases_more).
    - (* std_case *) start; (use case_ok).
    - (* std_case_default *) start; (use case_default).
    - (* std_handler *) start; (use catch_ok).
    - (* std_handler_plain *) start; (use catch_plain).
    - (* std_stmt_try_catch *) start; (use stmt_try_catch).
    - (* std_stmt_try_finally *) start; (use stmt_try_finally).
    - (* std_stmt_try_both *) start; (use stmt_try_both).
    - (* std_stmt_for *) start; (use stmt_for).
    - (* std_stmt_for_in *) start; (use stmt_for_in).
    - (* std_stmt_for_of *) start; (eapply (stmt_for_of g _ false); conjs; side).
    - (* std_stmt_for_await *) start; (eapply (stmt_for_of g _ true); conjs; side).
    - (* std_loop *) start; (use loop_ok).
    - (* std_opt_none *) start; (left; split; reflexivity).
    - (* std_opt *) start; (right; eexists; repeat split; side).
    - (* std_init_none *) start; (use init_none).
    - (* std_init_var *) start; (use init_var).
    - (* std_init_let *) start; (eapply (init_lexical g _ KLet VLet); side).
    - (* std_init_const *) start; (eapply (init_lexical g _ KConst VConst); side).
    - (* std_init_expr *) start; (use init_expr).
    - (* std_left_var *) start; (use left_var).
    - (* std_left_let *) start; (conjs; eapply (left_lexical g _ KLet VLet); side).
    - (* std_left_const *) start; (conjs; eapply (left_lexical g _ KConst VConst); side).
    - (* std_left_expr *) start; (use left_expr).
    - (* std_left_pattern *) start; (conjs; eapply left_pattern; [side|eapply base_keeps; eapply base_pattern; side|tree]).
    - (* std_module_none *) start; (use items_none).
    - (* std_module *) start; (use items_more).
    - (* std_mod_item *) start; assumption.
    - (* std_import *) start; (use item_import).
    - (* std_import_bare *) start; (use item_import_bare).
    - (* std_imports_names *) start; (use imports_names).
    - (* std_imports_all *) start; (use imports_all).
    - (* std_imports_default *) start; (use imports_default).
    - (* std_imports_both *) start; (use imports_both).
    - (* std_imports_default_names *) start; (use imports_default_names).
    - (* std_import_names_none *) start; (use in_none).
    - (* std_import_names_last *) start; (use in_last).
    - (* std_import_names_more *) start; (use in_more).
    - (* std_import_name *) start; (match goal with Hb : binding_name _ _ |- _ => destruct Hb end; use import_name).
    - (* std_import_name_as *) start; (match goal with Hb : binding_name _ _ |- _ => destruct Hb end; eapply import_name_as; eassumption).
    - (* std_export_default *) start; (use item_export_default).
    - (* std_export_default_object *) start; (use item_export_object).
    - (* std_export_default_array *) start; (use item_export_array).
    - (* std_export_default_function *) start; (use item_export_default_function).
    - (* std_export_default_anon *) start; (use item_export_anon).
    - (* std_export_default_class *) start; (use item_export_default_class).
    - (* std_export_all *) start; (use item_export_all).
    - (* std_export_let *) start; (eapply (item_export_lexical g _ KLet VLet); side).
    - (* std_export_const *) start; (eapply (item_export_lexical g _ KConst VConst); side).
    - (* std_export_var *) start; (use item_export_var).
    - (* std_export_function *) start; (use item_export_function).
    - (* std_export_class *) start; (use item_export_class).
    - (* std_export_names *) start; (use item_export_names).
    - (* std_export_from *) start; (use item_export_from).
    - (* std_export_names_none *) start; (use en_none).
    - (* std_export_names_last *) start; (use en_last).
    - (* std_export_names_more *) start; (use en_more).
    - (* std_export_name *) start; (eapply export_name; eassumption).
    - (* std_export_name_as *) start; (eapply export_name_as; eassumption).
  Qed.

  (** ** Programs *)
  Notation T := (fun _ : ctx => True).
  Definition before (past : bool) : view := mkView true true false false [] false past.
  Definition part_step (acc : list ProgramPart) : P (list ProgramPart + list ProgramPart) :=
    t <- look_tok ;;
    if is_eof t then Ret (inr acc)
    else p <- Call CNextPart ;; Ret (inl (acc ++ [p])).
  Definition done (l' : list tk) (ps ps' : list ProgramPart) (s' : state) : Prop := ps' = ps /\ exists k', At g s' l' k' /\ view_of k' = before (c_past_prolog k').
  Lemma items_parts l b l' : Items g top_view l b l' -> hd_tok l' = TEoF -> forall s k past acc, At g s l k -> view_of k = before past ->
    (past = false -> hd_tok l <> TString) -> evs g (Loop acc part_step) s (done l' (acc ++ b)).
  Proof.
    intros H E. induction H as [l|p ps l l1 l' Hh Hp H IH]; intros s k past acc A V Hs; apply evs_loop; unfold part_step at 1; ev.
    - rewrite app_nil_r. split; [reflexivity|]. exists k. split; [exact A|]. rewrite V. pose proof (f_equal v_past V) as Y. cbn in Y. rewrite Y. reflexivity.
    - destruct (item_head_not _ Hh) as (-> & _). apply evs_bind. apply evs_call. cbn [body]. unfold next_part. ev.
      replace (negb (c_past_prolog k) && is_string (hd_tok l)) with false.
      2:{ pose proof (f_equal v_past V) as Y. cbn in Y. rewrite Y. destruct past; [reflexivity|]. cbn [negb andb].
          destruct (hd_tok l); try reflexivity. destruct Hs; reflexivity. }
      ev. eapply evs_then; [eapply Hp; [eassumption|]|].
      { transitivity (mkView (v_in (view_of k)) (v_yield (view_of k)) (v_await (view_of k)) (v_fn (view_of k)) (v_labels (view_of k)) (v_strict (view_of k)) true); [reflexivity|].
        rewrite V. reflexivity. }
      cbn beta. intros s1 k1 A1 V1 _. ev. change (p :: ps) with ([p] ++ ps). rewrite app_assoc. eapply (IH E s1 k1 true); [eassumption| |discriminate].
      rewrite V1. transitivity (mkView (v_in (view_of k)) (v_yield (view_of k)) (v_await (view_of k)) (v_fn (view_of k)) (v_labels (view_of k)) (v_strict (view_of k)) true); [reflexivity|].
      rewrite V. reflexivity.
  Qed.
  Lemma program_parts l ds l1 b l' : Directives l ds l1 -> hd_tok l1 <> TString -> Items g top_view l1 b l' -> hd_tok l' = TEoF ->
    forall s k acc, At g s l k -> view_of k = before false -> evs g (Loop acc part_step) s (done l' (acc ++ ds ++ b)).
  Proof.
    intros H Hn Hi E. induction H as [l|w x ds l l2 l3 l1 R Hw Hx He H IH]; intros s k acc A V.
    - cbn [app]. eapply items_parts; eauto.
    - apply evs_loop. unfold part_step at 1. ev. apply evs_call. cbn [body]. unfold next_part. ev.
      pose proof (f_equal v_past V) as Y. cbn in Y. rewrite Y. cbn [negb andb]. ev.
      eapply evs_then; [eapply (directive_ok g (before false)); [reflexivity|exact R|exact Hw|exact Hx|exact He|exact A|exact V]|].
      cbn beta. intros s1 k1 A1 V1 _. ev. change (PPDir x (LString w) :: ds) with ([PPDir x (LString w)] ++ ds). rewrite <- app_assoc, app_assoc.
      eapply (IH Hn Hi); [eassumption|].
      transitivity (mkView (v_in (view_of k1)) (v_yield (view_of k1)) (v_await (view_of k1)) (v_fn (view_of k1)) (v_labels (view_of k1)) (v_strict (view_of k1)) false); [reflexivity|].
      rewrite V1, V. reflexivity.
  Qed.
  Lemma spells_parts module s l k ps : spells odd module l ps -> At g s l k -> view_of k = before false -> exists l', hd_tok l' = TEoF /\ evs g parse_parts s (done l' ps).
  Proof.
    intros (_ & ds & b & l1 & l2 & -> & Hd & Hn & Hi & E) A V. exists l2. split; [exact E|].
    apply std_good in Hd. specialize (Hd false (fun _ => eq_refl)). cbn [sem lift] in Hd.
    assert (Hj : Items g top_view l1 b l2) by (destruct module; apply std_good in Hi; exact (Hi false (fun _ => eq_refl))). clear Hi. rename Hj into Hi.
    apply (program_parts l ds l1 b l2 Hd Hn Hi E s k [] A V).
  Qed.
End Complete.
