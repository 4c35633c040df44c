(** Two texts of which one is the other with names, strings and numbers replaced are parsed alike.

    As in Same.v the parser is run on both texts at once; the values of the second run are the
    values of the first with the replacement done in them. *)
From Verif Require Export Same Rename.
Export Parser.
Local Open Scope nat_scope.
Local Open Scope list_scope.
Local Notation words := (compared_words ++ produced_words).

(** ** What the helpers of the parser make of a renamed tree *)
Section Helpers.
  Variable f : text -> text.
  Hypothesis F : renaming f.

  Lemma f_inj a b : f a = f b -> a = b. Proof. apply F. Qed.
  Lemma f_word w : In w words -> f (str w) = str w. Proof. apply F. Qed.
  Lemma f_kw k : f (kw_text k) = kw_text k. Proof. apply F. Qed.
  Lemma f_nil : f [] = []. Proof. apply (f_word ""%string). cbn. tauto. Qed.
  Lemma eqb_iff (a b : bool) : (a = true <-> b = true) -> a = b.
  Proof. destruct a, b; intuition congruence. Qed.
  Lemma eqb_ren a b : text_eqb (f a) (f b) = text_eqb a b.
  Proof. apply eqb_iff. rewrite !text_eqb_eq. split; [apply f_inj|congruence]. Qed.
  Lemma eqb_word w a : In w words -> text_eqb (f a) (str w) = text_eqb a (str w).
  Proof. intros H. rewrite <- (f_word w H) at 1. apply eqb_ren. Qed.

  Ltac word := rewrite eqb_word by (cbn; tauto).
  Lemma restricted_word_ren a : is_restricted_word (f a) = is_restricted_word a.
  Proof. unfold is_restricted_word. do 2 word. reflexivity. Qed.
  Lemma strict_reserved_ren a : is_strict_reserved (f a) = is_strict_reserved a.
  Proof. unfold is_strict_reserved. do 9 word. reflexivity. Qed.
  Lemma not_word_ren a : is_restricted_word a || is_strict_reserved a = true -> not_word (f a) = not_word a.
  Proof.
    intros H. f_equal. unfold is_restricted_word, is_strict_reserved in H. rewrite !orb_true_iff, !text_eqb_eq in H.
    repeat destruct H as [H|H]; subst a; apply f_word; cbn; tauto.
  Qed.
  Lemma restricted_ren p : is_restricted (ren_pat f p) = is_restricted p.
  Proof. destruct p; try reflexivity. apply restricted_word_ren. Qed.
  Lemma pat_ident_ren p : is_pat_ident (ren_pat f p) = is_pat_ident p.
  Proof. destruct p; reflexivity. Qed.
  Lemma ident_expr_ren e : is_ident_expr (ren_expr f e) = is_ident_expr e.
  Proof. destruct e; reflexivity. Qed.
  Lemma restricted_ident_ren e : restricted_ident (ren_expr f e) = restricted_ident e.
  Proof. destruct e; try reflexivity. apply restricted_word_ren. Qed.
  Lemma key_ren k w : In w words -> is_key (ren_key f k) w = is_key k w.
  Proof.
    intros H. destruct k as [[]|[]|[]]; try reflexivity; cbn; apply eqb_word; exact H.
  Qed.
  Lemma generator_ren v : is_generator (ren_value f v) = is_generator v.
  Proof. destruct v as [[]| |]; try reflexivity. destruct f0; reflexivity. Qed.
  Lemma rest_ren a : is_rest (ren_arg f a) = is_rest a.
  Proof. destruct a as [[]|[]]; reflexivity. Qed.
  Lemma simple_ren a : is_simple (ren_arg f a) = is_simple a.
  Proof. destruct a as [[]|[]]; reflexivity. Qed.
  Lemma simple_pat_ren p : is_simple (FAPat (ren_pat f p)) = is_simple (FAPat p).
  Proof. apply (simple_ren (FAPat p)). Qed.
  Lemma proto_ren k : is_proto_ (ren_key f k) = is_proto_ k.
  Proof. destruct k as [[]|[]|[]]; try reflexivity. cbn [ren_key ren_literal is_proto_]. word. reflexivity. Qed.
  Lemma async_expr_ren e : is_async_expr (ren_expr f e) = is_async_expr e.
  Proof. destruct e; try reflexivity. destruct f0; reflexivity. Qed.
  Lemma placeholder_ren e : is_placeholder (ren_expr f e) = is_placeholder e.
  Proof. destruct e; reflexivity. Qed.
  Lemma await_ren a : is_await (ren_arg f a) = is_await a.
  Proof. destruct a as [[]|[]]; try reflexivity; cbn [ren_arg ren_expr ren_pat is_await]; word; reflexivity. Qed.
  Lemma yield_arg_ren a : is_yield_arg (ren_arg f a) = is_yield_arg a.
  Proof. destruct a as [[]|[]]; reflexivity. Qed.
  Lemma case_test_ren c : case_test (ren_case f c) = option_map (ren_expr f) (case_test c).
  Proof. destruct c; reflexivity. Qed.
  Lemma key_of_expr_ren e : key_of_expr (ren_expr f e) = ren_key f (key_of_expr e).
  Proof. destruct e; try reflexivity. destruct l; reflexivity. Qed.
  Lemma expr_as_pat_ren : forall e, expr_as_pat (ren_expr f e) = option_map (ren_pat f) (expr_as_pat e).
  Proof.
    fix IH 1. destruct e; try reflexivity.
    - cbn [ren_expr expr_as_pat option_map ren_pat]. f_equal. f_equal. rewrite !map_map. apply map_ext. intros []; reflexivity.
    - cbn [ren_expr expr_as_pat]. destruct left; cbn [ren_left]; [reflexivity|]. rewrite IH. destruct (expr_as_pat e0); reflexivity.
    - cbn [ren_expr expr_as_pat].
      set (pr := fix props (l : list ObjectProperty) : option (list ObjectPatPart) :=
        match l with
        | [] => Some []
        | OPProperty p :: l' => option_map (cons (OPPAssignment p)) (props l')
        | OPSpread s :: l' => match expr_as_pat s with Some p => option_map (cons (OPPRest p)) (props l') | None => None end
        end).
      assert (H : pr (map (ren_object_property f) props) = option_map (map (ren_pat_part f)) (pr props)).
      { induction props as [|[p|s] l IHl]; [reflexivity| |]; cbn [map ren_object_property]; cbn [pr]; fold pr.
        - rewrite IHl. destruct (pr l); reflexivity.
        - rewrite IH. destruct (expr_as_pat s); [|reflexivity]. cbn [option_map]. rewrite IHl. destruct (pr l); reflexivity. }
      change (option_map PObject (pr (map (ren_object_property f) props)) = option_map (ren_pat f) (option_map PObject (pr props))).
      rewrite H. destruct (pr props); reflexivity.
    - cbn [ren_expr expr_as_pat]. rewrite IH. destruct (expr_as_pat e); reflexivity.
  Qed.

  Lemma cover_param_ren b p : cover_param b (ren_arg f p) = (ren_arg f (fst (cover_param b p)), snd (cover_param b p)).
  Proof.
    assert (Y : f (str "yield") = str "yield") by (apply f_word; cbn; tauto).
    assert (A : forall p, (p, b && is_await p) = cover_param b p -> cover_param b (ren_arg f p) = (ren_arg f p, b && is_await (ren_arg f p)) ->
      cover_param b (ren_arg f p) = (ren_arg f (fst (cover_param b p)), snd (cover_param b p))).
    { intros q H1 H2. rewrite H2, <- H1. cbn [fst snd]. rewrite await_ren. reflexivity. }
    destruct p as [e|p]; [destruct e|destruct p]; try (apply A; reflexivity); clear A.
    - destruct e; try reflexivity. destruct argument; cbn [ren_arg ren_expr cover_param option_map fst snd]; [reflexivity|].
      rewrite Y. reflexivity.
    - destruct right; try reflexivity. destruct argument; cbn [ren_arg ren_expr ren_pat cover_param option_map fst snd]; [reflexivity|].
      rewrite Y. reflexivity.
  Qed.
  Lemma cover_bad_ren b l : existsb snd (map (cover_param b) (map (ren_arg f) l)) = existsb snd (map (cover_param b) l).
  Proof. induction l as [|p l IH]; [reflexivity|]. cbn [map existsb]. rewrite IH, cover_param_ren. reflexivity. Qed.
  Lemma cover_args_ren b l : map fst (map (cover_param b) (map (ren_arg f) l)) = map (ren_arg f) (map fst (map (cover_param b) l)).
  Proof. induction l as [|p l IH]; [reflexivity|]. cbn [map]. rewrite IH, cover_param_ren. reflexivity. Qed.
  Lemma yield_args_ren l : existsb is_yield_arg (map (ren_arg f) l) = existsb is_yield_arg l.
  Proof. induction l as [|p l IH]; [reflexivity|]. cbn [map existsb]. rewrite IH, yield_arg_ren. reflexivity. Qed.

  Definition prod_map {A B} (m : A -> A) (n : B -> B) (x : A * B) : A * B := match x with (a, b) => (m a, n b) end.
  Definition sum_map {A B} (m : A -> A) (n : B -> B) (x : A + B) : A + B := match x with inl a => inl (m a) | inr b => inr (n b) end.
  Definition same_of {A} (x : A) : A := x.

  Lemma make_binary_ren o a b : make_binary o (ren_expr f a) (ren_expr f b) = sum_map (ren_expr f) same_of (make_binary o a b).
  Proof.
    unfold make_binary. destruct (_ || _); [destruct (logical_operator o)|destruct (binary_operator o)]; reflexivity.
  Qed.
  Lemma reduce_while_ren prec : forall ops precs stack,
    reduce_while prec ops precs (map (ren_expr f) stack)
    = sum_map (prod_map (prod_map same_of same_of) (map (ren_expr f))) same_of (reduce_while prec ops precs stack).
  Proof.
    induction ops as [|o ops IH]; intros precs stack; [destruct precs, stack; reflexivity|].
    destruct precs as [|p precs]; [destruct stack; reflexivity|]. destruct stack as [|r [|l stack]]; try reflexivity.
    cbn [map reduce_while]. destruct (prec <=? p); [|reflexivity]. rewrite make_binary_ren. destruct (make_binary o l r); [|reflexivity].
    cbn [sum_map]. apply (IH precs (e :: stack)).
  Qed.
  Lemma reduce_all_ren : forall ops stack e,
    reduce_all ops (map (ren_expr f) stack) (ren_expr f e) = sum_map (ren_expr f) same_of (reduce_all ops stack e).
  Proof.
    induction ops as [|o ops IH]; intros stack e; [destruct stack; reflexivity|]. destruct stack as [|l stack]; [reflexivity|].
    cbn [map reduce_all]. rewrite make_binary_ren. destruct (make_binary o l e); [|reflexivity]. apply IH.
  Qed.

  Lemma label_eqb a b : text_eqb (label_key a) (label_key b) = text_eqb a b.
  Proof. reflexivity. Qed.
  Definition lsame (l1 l2 : list text) : Prop := exists ids, l1 = map label_key ids /\ l2 = map label_key (map f ids).
  Lemma set_mem_ren i ids : set_mem (label_key (f i)) (map label_key (map f ids)) = set_mem (label_key i) (map label_key ids).
  Proof.
    unfold set_mem. induction ids as [|j ids IH]; [reflexivity|]. cbn [map existsb]. rewrite IH. f_equal. rewrite !label_eqb. apply eqb_ren.
  Qed.
  Lemma set_remove_ren i l1 l2 : lsame l1 l2 -> lsame (set_remove (label_key i) l1) (set_remove (label_key (f i)) l2).
  Proof.
    intros (ids & -> & ->). exists (filter (fun j => negb (text_eqb i j)) ids). unfold set_remove.
    assert (A : forall (g : text -> bool) l, filter g (map label_key l) = map label_key (filter (fun j => g (label_key j)) l)).
    { intros g l. induction l as [|j l IH]; [reflexivity|]. cbn [map filter]. rewrite IH. destruct (g (label_key j)); reflexivity. }
    rewrite !A. split; [reflexivity|]. f_equal. induction ids as [|j ids IH]; [reflexivity|]. cbn [map filter]. rewrite !label_eqb, eqb_ren.
    rewrite IH. destruct (text_eqb i j); reflexivity.
  Qed.
End Helpers.

(** ** The renaming of calls and of what they return *)
Definition ren_fp (f : text -> text) (p : FormalParams) : FormalParams :=
  mkFP (fp_simple p) (map (ren_arg f) (fp_params p)) (fp_strict p) (fp_found_restricted p).
Definition ren_call (f : text -> text) {B} (c : call B) : call B :=
  match c in call B return call B with
  | CForLoopCont i => CForLoopCont (option_map (ren_init f) i)
  | CForInLoop l => CForInLoop (ren_loop_left f l)
  | CForOfLoop l a => CForOfLoop (ren_loop_left f l) a
  | c => c
  end.
Definition ren_res (f : text -> text) {B} (c : call B) : B -> B :=
  match c in call B return B -> B with
  | CNextPart | CDirective | CStatementListItem => ren_part f
  | CDirectivePrologues | CFinallyClause | CBlock | CFunctionSourceEl | CMethodBody _ _ | CPropertyMethodBody _ _ => map (ren_part f)
  | CImportDecl => ren_import f
  | CNamedImports => map (ren_import_spec f)
  | CImportSpecifier | CImportNamespaceSpecifier | CImportDefaultSpecifier => ren_import_spec f
  | CExportDecl => ren_export f
  | CExportSpecifier => ren_export_spec f
  | CModuleSpecifier => ren_literal f
  | CStatement | CWithStmt | CWhileStmt | CVarStmt | CTryStmt | CSwitchStmt | CIfStmt | CIfClause | CForStmt | CForLoop _ | CForLoopCont _
  | CForInLoop _ | CForOfLoop _ _ | CLoopBody | CDoWhileStmt | CDebuggerStmt | CLabelledStatement => ren_stmt f
  | CVarDeclList _ | CBindingList _ _ | CVariableDeclList _ => map (ren_var f)
  | CVarDecl _ | CVariableDecl _ | CLexicalBinding _ _ => ren_var f
  | CCatchClause => ren_catch f
  | CSwitchCase => ren_case f
  | CReturnStmt => option_map (ren_expr f)
  | CThrowStmt | CFnStmt | CExpressionStatement | CExpression | CPrimaryExpression | CGroupExpr | CArrayInit | CObjInit | CFunctionExpr
  | CAssignmentExpr | CYieldExpr | CConditionalExpr | CBinaryExpression | CExponentiation | CUnaryExpression | CAwaitExpr | CUpdateExpr
  | CLeftHandSideExpr | CSuper | CLeftHandSideExprAllowCall | CAsyncArg | CSpreadElement | CNewExpr => ren_expr f
  | CBreakStmt | CContinueStmt | COptionallyLabeled _ => option_map f
  | CLexicalDecl _ => ren_decl f
  | CFunctionDecl _ => ren_function f
  | CClassDecl _ => ren_class f
  | CClassBody => map (ren_property f)
  | CClassEl _ => prod_map same_of (ren_property f)
  | CAsyncPropertyMethod | CPropertyMethod | CGeneratorMethod | CGetterMethod | CSetterMethod => ren_value f
  | CObjectPropertyKey => ren_key f
  | CObjProp _ => prod_map same_of (ren_object_property f)
  | CTemplateLiteral => ren_template f
  | CTemplateElement => same_of
  | CFnName _ | CIdentName | CVarIdent _ => f
  | CFormalParams => ren_fp f
  | CFormalParam _ => prod_map (prod_map same_of same_of) (ren_arg f)
  | CRestElement | CBindingRestEl | CPatternWithDefault | CPattern _ | CArrayPattern | CObjectPattern => prod_map same_of (ren_pat f)
  | CRestProp | CPropertyPattern => ren_pat_part f
  | CAsyncArgs | CArgs => map (ren_expr f)
  | CConsumeSemicolon => same_of
  end.

(** The pieces of these tokens are in the tree. *)
Definition cut_up (t : token) : bool := match t with TTemplate _ | TRegEx => true | _ => false end.
Definition ren_sign (f : text -> text) (x : token * option text * bool) : token * option text * bool :=
  match x with (t, w, b) => (t, option_map f w, b) end.
Definition untouched (f : text -> text) (x : token * option text * bool) : Prop :=
  cut_up (fst (fst x)) = true -> option_map f (snd (fst x)) = snd (fst x).

Section Renamed.
  Variables g1 g2 : cfg.
  Variables items1 items2 : list raw.
  Variable f : text -> text.
  Hypothesis F : renaming f.
  Notation js1 := (g_stream g1).
  Notation js2 := (g_stream g2).
  Hypothesis same_tolerant : g_tolerant g1 = g_tolerant g2.
  Hypothesis same_module : g_module g1 = g_module g2.
  Hypothesis same_restricted : g_restricted g1 = g_restricted g2.
  Hypothesis same_reserved : g_strict_reserved g1 = g_strict_reserved g2.
  Hypothesis same_literal : g_literal g1 = g_literal g2.
  Hypothesis same_end : g_end_nl g1 = g_end_nl g2.
  Hypothesis lines1 : g_lines g1 = get_lines js1.
  Hypothesis lines2 : g_lines g2 = get_lines js2.
  Hypothesis async_agrees : async_alike js1 js2 items1 items2.

  Definition rsame (i1 i2 : item) : Prop :=
    it_tok i1 = it_tok i2 /\ slice js2 (it_start i2) (it_end i2) = option_map f (slice js1 (it_start i1) (it_end i1))
    /\ (cut_up (it_tok i1) = true -> slice js2 (it_start i2) (it_end i2) = slice js1 (it_start i1) (it_end i1)).
  Definition orsame (o1 o2 : option item) : Prop :=
    match o1, o2 with Some i1, Some i2 => rsame i1 i2 | None, None => True | _, _ => False end.

  Notation bef := (before false).
  Definition crsame (c1 c2 : ctx) : Prop :=
    c1 = set_first_covert (c_first_covert c1) (set_label_set (c_label_set c1) c2)
    /\ orsame (c_first_covert c1) (c_first_covert c2) /\ lsame f (c_label_set c1) (c_label_set c2).

  Definition RR (s1 s2 : state) : Prop :=
    crsame (st_ctx s1) (st_ctx s2) /\ st_found_eof s1 = st_found_eof s2 /\
    bef js2 s2 = map (ren_sign f) (bef js1 s1) /\ Forall (untouched f) (bef js1 s1) /\ is_comment (it_tok (st_look s1)) = false /\
    placed js1 items1 s1 /\ placed js2 items2 s2.

  Definition agree {A} (V : A -> A -> Prop) (k : nat) (x1 x2 : outcome A * state) : Prop :=
    match x1, x2 with
    | (Ok a1, s1), (Ok a2, s2) => V a1 a2 /\ RR s1 s2 /\ size s1 <= k
    | (Err e1, s1), (Err e2, s2) => ren_error f e1 = unplaced e2 /\ RR s1 s2 /\ size s1 <= k
    | (Panic, _), (Panic, _) => True
    | (NoFuel, _), (NoFuel, _) => True
    | _, _ => False
    end.
  Lemma agree_weaken {A} (V W : A -> A -> Prop) k k' x1 x2 : k <= k' -> (forall a b, V a b -> W a b) ->
    agree V k x1 x2 -> agree W k' x1 x2.
  Proof.
    unfold agree. destruct x1 as [[?|?| |] ?], x2 as [[?|?| |] ?]; try tauto.
    all: intros H HV (H1 & H2 & H3); split; [auto|split; [exact H2|lia]].
  Qed.

  Definition drsame (d1 d2 : fail_desc) : Prop :=
    match d1, d2 with
    | FExpected i1 e1, FExpected i2 e2 => rsame i1 i2 /\ e1 = e2
    | FUnexpected i1 e1, FUnexpected i2 e2 => rsame i1 i2 /\ e1 = e2
    | FRedecl a, FRedecl b => b = f a
    | FOperation a, FOperation b => a = b
    | FReinterpret a b, FReinterpret a' b' => a = a' /\ b = b'
    | FError e1, FError e2 => ren_error f e1 = unplaced e2
    | _, _ => False
    end.
  Lemma mk_error_ren s1 s2 d1 d2 : drsame d1 d2 -> ren_error f (mk_error g1 s1 d1) = unplaced (mk_error g2 s2 d2).
  Proof.
    destruct d1, d2; cbn [drsame mk_error unplaced ren_error]; try tauto; try congruence.
    - intros [[H _] ->]. rewrite H. reflexivity.
    - intros [[_ [H _]] ->]. rewrite H. destruct (slice js1 _ _); cbn [option_map]; [reflexivity|]. rewrite (f_nil f F). reflexivity.
    - intros [-> ->]. reflexivity.
  Qed.

  (** ** One item *)
  Lemma sign_same i1 b1 i2 b2 : sign false js2 i2 b2 = ren_sign f (sign false js1 i1 b1) -> untouched f (sign false js1 i1 b1) ->
    rsame i1 i2 /\ b1 = b2.
  Proof.
    unfold sign, mark, ren_sign, untouched. cbn [fst snd andb negb]. rewrite !andb_true_r. intros H U. inversion H as [[H1 H2 H3]].
    split; [|congruence]. split; [congruence|]. split; [congruence|]. intros C. rewrite <- (U C). exact H2.
  Qed.
  Lemma RR_head s1 s2 : RR s1 s2 -> rsame (st_look s1) (st_look s2) /\ st_nl s1 = st_nl s2.
  Proof.
    intros (_ & _ & H & U & _). unfold before in H, U. cbn [map] in H. inversion U as [|? ? U1 _]; subst. apply sign_same; [|exact U1].
    exact (f_equal (hd (TEoF, None, false)) H).
  Qed.
  Lemma RR_look s1 s2 : RR s1 s2 -> rsame (st_look s1) (st_look s2). Proof. intros H. apply (RR_head _ _ H). Qed.
  Lemma RR_nl s1 s2 : RR s1 s2 -> st_nl s1 = st_nl s2. Proof. intros H. apply (RR_head _ _ H). Qed.
  Lemma RR_size s1 s2 : RR s1 s2 -> size s1 = size s2.
  Proof. intros (_ & _ & H & _). apply (f_equal (@length _)) in H. rewrite map_length, !before_size in H. lia. Qed.

  Lemma next_ren s1 s2 k : RR s1 s2 -> size s1 <= k -> agree rsame k (next_item g1 s1) (next_item g2 s2).
  Proof.
    intros H Hk. pose proof (RR_look _ _ H) as L. pose proof (RR_size _ _ H) as Z.
    destruct H as (Hc & Hf & Hb & Hq & Hn & P1 & P2). pose proof P1 as (S1 & _). pose proof P2 as (S2 & _).
    destruct (is_eof (it_tok (st_look s1))) eqn:E1.
    - assert (E2 : is_eof (it_tok (st_look s2)) = true) by (rewrite <- (proj1 L); exact E1).
      pose proof (next_end g1 s1 S1 E1) as N1. pose proof (next_end g2 s2 S2 E2) as N2.
      pose proof (next_item_placed g1 items1 _ _ _ N1 P1) as P1'. pose proof (next_item_placed g2 items2 _ _ _ N2 P2) as P2'.
      rewrite N1, N2. rewrite <- Hf in *.
      assert (R : RR (mkState (st_ctx s1) (st_look s1) true (st_cur_pos s1) (st_look_pos s1) [] (g_end_nl g1) (st_comments s1))
                     (mkState (st_ctx s2) (st_look s2) true (st_cur_pos s2) (st_look_pos s2) [] (g_end_nl g2) (st_comments s2))).
      { split; [exact Hc|]. split; [reflexivity|]. split; [|split; [|split; [|split; assumption]]].
        - unfold before, sign. cbn [st_look st_nl st_rest filter map ren_sign]. destruct L as (L1 & L2 & _). rewrite L1, L2, same_end. reflexivity.
        - unfold before, sign in *. cbn [st_look st_nl st_rest filter map]. inversion Hq as [|? ? Hq1 Hq2]; subst. constructor; [|constructor].
          exact Hq1.
        - exact Hn. }
      destruct (st_found_eof s1); cbn [agree]; (split; [first [reflexivity|exact L]|split; [exact R|unfold size; cbn; lia]]).
    - assert (E2 : is_eof (it_tok (st_look s2)) = false) by (rewrite <- (proj1 L); exact E1).
      destruct (next_before false g1 s1 S1 E1) as (s1' & N1 & B1 & C1 & F1). destruct (next_before false g2 s2 S2 E2) as (s2' & N2 & B2 & C2 & F2).
      pose proof (next_item_placed g1 items1 _ _ _ N1 P1) as P1'. pose proof (next_item_placed g2 items2 _ _ _ N2 P2) as P2'.
      rewrite N1, N2. cbn [agree]. split; [exact L|]. split.
      + split; [rewrite C1, C2; exact Hc|]. split; [congruence|]. split; [|split; [|split; [|split; assumption]]].
        * rewrite B1, B2, Hb. destruct (bef js1 s1); reflexivity.
        * rewrite B1. destruct (bef js1 s1); [constructor|]. inversion Hq; assumption.
        * unfold before in B1. cbn [tl] in B1. destruct (filter nc (st_rest s1)) as [|r q] eqn:Ef; [discriminate|].
          cbn [map] in B1. inversion B1 as [[T1 T2 T3 T4]]. rewrite T1. assert (Ir : In r (filter nc (st_rest s1))) by (rewrite Ef; left; reflexivity).
          apply filter_In in Ir. destruct Ir as [_ Ir]. unfold nc in Ir. apply negb_true_iff in Ir. exact Ir.
      + pose proof (before_size false js1 s1') as Z1. rewrite B1 in Z1. unfold before in Z1. cbn [tl] in Z1. rewrite map_length in Z1.
        unfold size in *. lia.
  Qed.

  Lemma peek_ren s1 s2 : RR s1 s2 -> orsame (first_non_comment (st_rest s1)) (first_non_comment (st_rest s2)).
  Proof.
    intros (_ & _ & H & U & _). unfold before in H, U. apply (f_equal (@tl _)) in H. cbn [tl map] in H. inversion U as [|? ? _ U1]; subst. clear U.
    assert (G : forall l, first_non_comment l = match filter nc l with [] => None | r :: _ => Some (r_item r) end).
    { induction l as [|r l IH]; [reflexivity|]. cbn [first_non_comment filter]. unfold nc at 1.
      destruct (is_comment (it_tok (r_item r))); [exact IH|reflexivity]. }
    rewrite !G. destruct (filter nc (st_rest s1)) as [|a1 l1], (filter nc (st_rest s2)) as [|a2 l2]; try discriminate; cbn [orsame]; [auto|].
    cbn [map] in H, U1. inversion U1 as [|? ? U2 _]; subst. eapply sign_same; [|exact U2].
    exact (f_equal (hd (TEoF, None, false)) H).
  Qed.

  (** ** Lines *)
  Lemma RR_text s1 s2 : RR s1 s2 -> text_of js2 (st_look s2) = f (text_of js1 (st_look s1)).
  Proof.
    intros H. apply RR_look in H. destruct H as (_ & H & _). unfold text_of. rewrite H. destruct (slice js1 _ _); [reflexivity|].
    symmetry. apply (f_nil f F).
  Qed.
  Lemma async_fixed : f (str "async") = str "async". Proof. apply (f_word f F). cbn. tauto. Qed.
  Lemma no_async_ren s1 s2 : RR s1 s2 -> no_async js1 items1 -> text_eqb (text_of js1 (st_look s1)) (str "async") = false.
  Proof.
    intros (_ & _ & _ & _ & Hn & (_ & l & r & E & E2 & _) & _) H. destruct (text_eqb _ _) eqn:T; [|reflexivity].
    apply text_eqb_eq in T. rewrite E2 in *. exfalso. eapply H; [rewrite E; apply in_or_app; right; left; reflexivity| |exact T].
    unfold nc. rewrite Hn. reflexivity.
  Qed.
  (** Whether a later token is on the line of the word [async] is the same for both texts. *)
  Lemma line_ren s1 s2 t1 t2 : RR s1 s2 -> RR t1 t2 -> size t1 <= size s1 -> text_of js1 (st_look s1) = str "async" ->
    (p_line (st_look_pos t1) =? p_line (st_look_pos s1)) = (p_line (st_look_pos t2) =? p_line (st_look_pos s2)).
  Proof.
    intros R T Hz Hw. pose proof (RR_size _ _ R) as Z. pose proof (RR_size _ _ T) as Z'.
    pose proof (RR_text _ _ R) as Hw2. rewrite Hw, async_fixed in Hw2.
    pose proof (RR_look _ _ R) as [LR _]. pose proof (RR_look _ _ T) as [LT _].
    destruct async_agrees as [Hno|(A1 & _ & O1 & A2 & _ & O2 & HS)].
    { pose proof (no_async_ren _ _ R Hno) as H. rewrite Hw in H. discriminate. }
    destruct R as (_ & _ & _ & _ & NR & P1 & P2). destruct T as (_ & _ & _ & _ & NT & Q1 & Q2).
    assert (Nn : forall i r, is_comment (it_tok i) = false -> i = r_item r -> nc r = true) by (intros i r H ->; unfold nc; rewrite H; reflexivity).
    destruct (Nat.eq_dec (size t1) (size s1)) as [Es|Ns].
    - assert (G : forall js items s t, async_ok js items -> end_plain js items -> placed js items s -> placed js items t -> text_of js (st_look s) = str "async" ->
        size t = size s -> is_comment (it_tok (st_look s)) = false -> is_comment (it_tok (st_look t)) = false ->
        p_line (st_look_pos t) = p_line (st_look_pos s)).
      { intros js items s t Hok Hend ((W1 & W2 & W3 & W4) & l0 & r & E1 & E2 & _ & E4) (_ & l2 & fx & F1 & F2 & _ & F4) Hx Hs N1 N2.
        rewrite E1 in F1. destruct (same_place _ _ _ _ _ _ F1 Hs (Nn _ _ N1 E2) (Nn _ _ N2 F2)) as [<- Er].
        rewrite E2 in Hx. destruct (st_rest s) as [|y rest] eqn:Er'.
        { exfalso. destruct (is_eof (it_tok (st_look s))) eqn:Eo; [|destruct W4]. rewrite E2 in Eo.
          refine (Hend r _ _ Hx); [rewrite E1; apply in_or_app; right; left; reflexivity|].
          destruct (it_tok (r_item r)); try discriminate. reflexivity. }
        destruct (Hok l0 r [] y rest E1 Hx) as (Hlf & _).
        specialize (E4 Hlf). specialize (F4 Hlf). assert (B : boundary js (it_start (r_item r))) by (rewrite <- E2; apply W1).
        destruct (boundary_slice js _ _ B B (Nat.le_refl _)) as (p0 & u & s0 & G1 & G2 & G3 & Gu).
        rewrite (offset_lines js _ _ _ _ u Hlf E4 F4 Gu). destruct u as [|c u]; [cbn; lia|]. cbn [byte_len] in G3.
        pose proof (len_utf8_pos c). lia. }
      pose proof (G _ _ _ _ A1 O1 P1 Q1 Hw Es NR NT) as G1.
      rewrite LR in NR. rewrite LT in NT. pose proof (G _ _ _ _ A2 O2 P2 Q2 Hw2 ltac:(lia) NR NT) as G2.
      rewrite G1, G2, !Nat.eqb_refl. reflexivity.
    - destruct (place_line g1 g2 false (or_intror same_end) _ _ _ _ A1 P1 Q1 Hw ltac:(lia)) as (l & r & m & fx & E1 & E2 & E3 & E4 & E5).
      destruct (place_line g1 g2 false (or_intror same_end) _ _ _ _ A2 P2 Q2 Hw2 ltac:(lia)) as (l' & r' & m' & fx' & F1 & F2 & F3 & F4 & F5).
      apply (eqb_same g1 g2 false (or_intror same_end)). rewrite E5, F5. rewrite E2 in Hw. rewrite LR in NR. rewrite LT in NT.
      eapply HS; eauto.
      + eapply Nn; [|exact E2]. rewrite LR. exact NR.
      + eapply Nn; [|exact E3]. rewrite LT. exact NT.
      + unfold size in *. rewrite E4, F4, !filter_app, !app_length in Z. cbn [filter] in Z.
        rewrite (Nn _ _ NT F3) in Z. rewrite (Nn (st_look t1) fx) in Z; [cbn in Z; lia|rewrite LT; exact NT|exact E3].
  Qed.

  Lemma async_ren s1 s2 : RR s1 s2 -> text_of js1 (st_look s1) = str "async" -> async_here g1 s1 = async_here g2 s2.
  Proof.
    intros R Hw. pose proof (RR_text _ _ R) as Hw2. rewrite Hw, async_fixed in Hw2.
    destruct async_agrees as [Hno|(A1 & K1 & O1 & A2 & K2 & O2 & HS)].
    { pose proof (no_async_ren _ _ R Hno) as H. rewrite Hw in H. discriminate. }
    destruct R as (_ & _ & B & _ & _ & P1 & P2).
    rewrite (async_here_tokens g1 g2 false (or_intror same_end) g1 items1), (async_here_tokens g1 g2 false (or_intror same_end) g2 items2); auto.
    unfold before in B. apply (f_equal (@tl _)) in B. cbn [tl map] in B.
    destruct (filter nc (st_rest s1)) as [|f1 q1], (filter nc (st_rest s2)) as [|f2 q2]; try discriminate; [reflexivity|].
    cbn [map] in B. unfold raw_sign, sign, ren_sign, mark in B. inversion B as [[T1 T2 T3 T4]]. rewrite T1. cbn in T3. rewrite !andb_true_r in T3. rewrite T3. reflexivity.
  Qed.


  (** ** Programs *)
  Section Rel.
    Variable n : nat.
    Variable rec1 rec2 : forall B, call B -> state -> outcome B * state.
    Definition vm {A} (m : A -> A) (a b : A) : Prop := b = m a.
    Hypothesis rec_ren : forall k B (c : call B) s1 s2, RR s1 s2 -> size s1 <= k ->
      agree (vm (ren_res f c)) k (rec1 B c s1) (rec2 B (ren_call f c) s2).

    Notation run1 := (run_in g1 n rec1).
    Notation run2 := (run_in g2 n rec2).
    Definition rl {A} (k : nat) (V : A -> A -> Prop) (p1 p2 : P A) : Prop :=
      forall s1 s2, RR s1 s2 -> size s1 <= k -> agree V k (run1 p1 s1) (run2 p2 s2).

    Lemma rl_ret A k (V : A -> A -> Prop) a1 a2 : V a1 a2 -> rl k V (Ret a1) (Ret a2).
    Proof. intros H s1 s2 R Z. cbn. auto. Qed.
    Lemma rl_fail A k (V : A -> A -> Prop) d1 d2 : drsame d1 d2 -> rl k V (Fail d1) (Fail d2).
    Proof. intros H s1 s2 R Z. cbn. auto using mk_error_ren. Qed.
    Lemma rl_crash A k (V : A -> A -> Prop) : rl k V Crash Crash.
    Proof. intros s1 s2 R Z. exact Logic.I. Qed.
    Lemma rl_call k B (c : call B) : rl k (vm (ren_res f c)) (Call c) (Call (ren_call f c)).
    Proof. intros s1 s2 R Z. cbn [run_in]. apply rec_ren; assumption. Qed.
    Lemma rl_semicolon k : rl k eq (Call CConsumeSemicolon) (Call CConsumeSemicolon).
    Proof.
      intros s1 s2 R Z. eapply agree_weaken; [apply Nat.le_refl| |exact (rl_call k _ CConsumeSemicolon s1 s2 R Z)]. intros a b H. symmetry. exact H.
    Qed.
    Lemma agree_bind A B k (V : A -> A -> Prop) (W : B -> B -> Prop) p1 p2 q1 q2 s1 s2 :
      agree V k (run1 p1 s1) (run2 p2 s2) -> (forall a1 a2, V a1 a2 -> rl k W (q1 a1) (q2 a2)) ->
      agree W k (run1 (Bind p1 q1) s1) (run2 (Bind p2 q2) s2).
    Proof.
      intros H K. cbn [run_in]. unfold agree in H.
      destruct (run1 p1 s1) as [[a1|e1| |] t1], (run2 p2 s2) as [[a2|e2| |] t2]; try tauto; try exact H.
      destruct H as (HV & HR & HZ). exact (K a1 a2 HV t1 t2 HR HZ).
    Qed.
    Lemma rl_bind A B k (V : A -> A -> Prop) (W : B -> B -> Prop) p1 p2 q1 q2 :
      rl k V p1 p2 -> (forall a1 a2, V a1 a2 -> rl k W (q1 a1) (q2 a2)) -> rl k W (Bind p1 q1) (Bind p2 q2).
    Proof. intros H K s1 s2 R Z. eapply agree_bind; [apply H; assumption|exact K]. Qed.
    Lemma rl_loop X A k (U : X -> X -> Prop) (V : A -> A -> Prop) x1 x2 b1 b2 : U x1 x2 ->
      (forall y1 y2, U y1 y2 -> rl k (step_same U V) (b1 y1) (b2 y2)) -> rl k V (Loop x1 b1) (Loop x2 b2).
    Proof.
      intros H0 H s1 s2 R Z. cbn [run_in].
      enough (G : forall m x1 x2 s1 s2, U x1 x2 -> RR s1 s2 -> size s1 <= k ->
        agree V k (iter (fun y s' => run1 (b1 y) s') m x1 s1) (iter (fun y s' => run2 (b2 y) s') m x2 s2)) by (apply G; assumption).
      clear x1 x2 s1 s2 H0 R Z. induction m as [|m IH]; intros x1 x2 s1 s2 H0 R Z; cbn [iter]; [exact Logic.I|].
      specialize (H x1 x2 H0 s1 s2 R Z). unfold agree in H.
      destruct (run1 (b1 x1) s1) as [[[y1|a1]|e1| |] t1], (run2 (b2 x2) s2) as [[[y2|a2]|e2| |] t2];
        cbn [step_same] in H; try tauto; try exact H.
      destruct H as (HU & HR & HZ). apply IH; assumption.
    Qed.

    (** *** Operations *)
    Lemma rl_next k : rl k rsame (Do ONext) (Do ONext).
    Proof. intros s1 s2 R Z. cbn [run_in exec]. apply next_ren; assumption. Qed.
    Lemma rl_nextignored k : rl k eq (Do ONextIgnored) (Do ONextIgnored).
    Proof.
      intros s1 s2 R Z. cbn [run_in exec]. pose proof (next_ren s1 s2 k R Z) as H. unfold agree in H.
      destruct R as (_ & _ & _ & _ & _ & (S1 & _) & _). pose proof (next_outcome g1 s1 S1) as N.
      destruct (next_item g1 s1) as [[a1|e1| |] t1], (next_item g2 s2) as [[a2|e2| |] t2]; cbn in N; try tauto; cbn [agree].
      all: destruct H as (_ & H); auto.
    Qed.
    Lemma rl_look k : rl k rsame (Do OLook) (Do OLook).
    Proof. intros s1 s2 R Z. cbn. split; [apply RR_look; exact R|auto]. Qed.
    Lemma rl_newline k : rl k eq (Do ONewLine) (Do ONewLine).
    Proof. intros s1 s2 R Z. cbn. split; [apply RR_nl; exact R|auto]. Qed.
    Lemma rl_ctx k : rl k crsame (Do OCtx) (Do OCtx).
    Proof. intros s1 s2 R Z. cbn. split; [apply R|auto]. Qed.
    Lemma rl_upd k h1 h2 : (forall c1 c2, crsame c1 c2 -> crsame (h1 c1) (h2 c2)) -> rl k eq (Do (OUpd h1)) (Do (OUpd h2)).
    Proof.
      intros H s1 s2 R Z. cbn. split; [reflexivity|]. split; [|exact Z]. destruct R as (Hc & H1 & H2 & H3 & H4 & H5 & H6).
      split; [apply H; exact Hc|]. auto 10.
    Qed.
    Lemma rl_lookpos k : rl k (fun _ _ => True) (Do OLookPos) (Do OLookPos).
    Proof. intros s1 s2 R Z. cbn. auto. Qed.
    Lemma rl_curpos k : rl k (fun _ _ => True) (Do OCurPos) (Do OCurPos).
    Proof. intros s1 s2 R Z. cbn. auto. Qed.
    Lemma rl_str k i1 i2 : rsame i1 i2 -> rl k (vm (option_map f)) (Do (OStr i1)) (Do (OStr i2)).
    Proof. intros (_ & H & _) s1 s2 R Z. cbn. auto. Qed.
    Lemma rl_str_cut k i1 i2 : rsame i1 i2 -> cut_up (it_tok i1) = true -> rl k eq (Do (OStr i1)) (Do (OStr i2)).
    Proof. intros (_ & _ & H) C s1 s2 R Z. cbn. rewrite (H C). auto. Qed.
    Lemma rl_peekskip k : rl k orsame (Do OPeekSkip) (Do OPeekSkip).
    Proof. intros s1 s2 R Z. cbn. split; [apply peek_ren; exact R|auto]. Qed.
    Lemma rl_tolerate k d1 d2 : drsame d1 d2 -> rl k eq (Do (OTolerate d1)) (Do (OTolerate d2)).
    Proof.
      intros H s1 s2 R Z. cbn. rewrite <- same_tolerant. destruct (g_tolerant g1); cbn; auto using mk_error_ren.
    Qed.
    Lemma rl_guardmodule k b1 b2 d1 d2 : b1 = b2 -> drsame d1 d2 -> rl k eq (Do (OGuardModule b1 d1)) (Do (OGuardModule b2 d2)).
    Proof.
      intros <- H s1 s2 R Z. cbn. rewrite <- same_module. destruct (g_module g1); cbn; auto.
      destruct b1 as [[]|]; cbn; auto using mk_error_ren.
    Qed.
    Lemma rl_query k q : rl k eq (Do (OQuery q)) (Do (OQuery q)).
    Proof. intros s1 s2 R Z. cbn. rewrite same_restricted, same_reserved, same_literal. auto. Qed.
    Lemma rl_expectcomma k : rl k eq (Do OExpectComma) (Do OExpectComma).
    Proof.
      intros s1 s2 R Z. cbn [run_in exec]. rewrite <- same_tolerant.
      pose proof (RR_look _ _ R) as [L _]. rewrite <- L.
      pose proof (next_ren s1 s2 k R Z) as H. unfold agree in H.
      destruct (g_tolerant g1).
      - destruct (is_punct PComma (it_tok (st_look s1))); [|cbn; auto].
        destruct (next_item g1 s1) as [[a1|e1| |] t1], (next_item g2 s2) as [[a2|e2| |] t2]; try tauto; cbn [agree]; auto.
        destruct H as (_ & H); auto.
      - destruct (next_item g1 s1) as [[a1|e1| |] t1], (next_item g2 s2) as [[a2|e2| |] t2]; try tauto; cbn [agree]; auto.
        destruct H as (Hs & H). pose proof Hs as [E _]. rewrite <- E. destruct (is_punct PComma (it_tok a1)); cbn [agree]; auto.
        split; [|exact H]. apply mk_error_ren. cbn. auto.
    Qed.

    (** *** The value relation of each type, and the walk through a body *)
    Definition cvren (x y : cover) : Prop := fst x = fst y /\ orsame (snd x) (snd y).
    Definition nren (x y : option Identifier * option item) : Prop := fst y = option_map f (fst x) /\ orsame (snd x) (snd y).
    Definition ren_head (h : el_head) : el_head :=
      mkHead (eh_tok h) (option_map (ren_key f) (eh_key h)) (eh_computed h) (eh_static h) (eh_async h).
    Definition ren_mid (m : el_mid) : el_mid :=
      mkMid (em_kind m) (option_map (ren_key f) (em_key m)) (option_map (ren_value f) (em_value m)) (em_method m) (em_computed m).

    Ltac mapof A := lazymatch A with
      | text => constr:(f) | Identifier => constr:(f)
      | list token => constr:(@same_of A) | list nat => constr:(@same_of A) | list TemplateElement => constr:(@same_of A)
      | list ?X => let m := mapof X in constr:(map m)
      | option ?X => let m := mapof X in constr:(option_map m)
      | (?X * ?Y)%type => let m := mapof X in let m' := mapof Y in constr:(prod_map m m')
      | (?X + ?Y)%type => let m := mapof X in let m' := mapof Y in constr:(sum_map m m')
      | Expr => constr:(ren_expr f) | AssignmentLeft => constr:(ren_left f) | Literal => constr:(ren_literal f)
      | TemplateLiteral => constr:(ren_template f) | Function => constr:(ren_function f) | FunctionArg => constr:(ren_arg f)
      | Class => constr:(ren_class f) | Property => constr:(ren_property f) | PropertyKey => constr:(ren_key f)
      | PropertyValue => constr:(ren_value f) | ObjectProperty => constr:(ren_object_property f) | Pat => constr:(ren_pat f)
      | ArrayPatPart => constr:(ren_array_part f) | ObjectPatPart => constr:(ren_pat_part f) | Stmt => constr:(ren_stmt f)
      | SwitchCase => constr:(ren_case f) | CatchClause => constr:(ren_catch f) | LoopInit => constr:(ren_init f)
      | LoopLeft => constr:(ren_loop_left f) | VariableDecl => constr:(ren_var f) | Decl => constr:(ren_decl f)
      | ModImport => constr:(ren_import f) | ModExport => constr:(ren_export f) | DefaultExportDecl => constr:(ren_default f)
      | NamedExportDecl => constr:(ren_named f) | ProgramPart => constr:(ren_part f) | ImportSpecifier => constr:(ren_import_spec f)
      | ExportSpecifier => constr:(ren_export_spec f) | FormalParams => constr:(ren_fp f) | el_head => constr:(ren_head) | el_mid => constr:(ren_mid)
      | _ => constr:(@same_of A)
      end.
    Ltac vrel A := lazymatch A with
      | item => constr:(rsame)
      | option item => constr:(orsame)
      | ctx => constr:(crsame)
      | position => constr:(fun _ _ : position => True)
      | cover => constr:(cvren)
      | (bool * bool * option item)%type => constr:(cvren)
      | (option Identifier * option item)%type => constr:(nren)
      | list text => constr:(lsame f)
      | unit => constr:(@eq unit) | bool => constr:(@eq bool) | token => constr:(@eq token)
      | _ => let m := mapof A in constr:(@vm A m)
      end.
    Ltac rcbn := cbn [ren_expr ren_left ren_arrow ren_literal ren_template ren_function ren_arg ren_class ren_property ren_key ren_value
      ren_object_property ren_pat ren_array_part ren_pat_part ren_stmt ren_case ren_catch ren_init ren_loop_left ren_var ren_decl ren_import
      ren_export ren_default ren_named ren_part ren_import_spec ren_export_spec ren_fp ren_head ren_mid prod_map sum_map same_of option_map map
      fp_simple fp_params fp_strict fp_found_restricted eh_tok eh_key eh_computed eh_static eh_async em_kind em_key em_value em_method em_computed
      fst snd andb orb negb app length];
      fold (ren_expr f) (ren_left f) (ren_literal f) (ren_template f) (ren_function f) (ren_arg f) (ren_class f) (ren_property f) (ren_key f) (ren_value f)
        (ren_object_property f) (ren_pat f) (ren_array_part f) (ren_pat_part f) (ren_stmt f) (ren_case f) (ren_catch f) (ren_init f) (ren_loop_left f)
        (ren_var f) (ren_decl f) (ren_import f) (ren_export f) (ren_default f) (ren_named f) (ren_part f).
    Ltac word := cbn; tauto.
    Hint Rewrite (eqb_word f F) (key_ren f F) using word : ren.
    Hint Rewrite (restricted_word_ren f F) (strict_reserved_ren f F) (restricted_ren f F) (pat_ident_ren f) (ident_expr_ren f)
      (restricted_ident_ren f F) (generator_ren f) (rest_ren f) (simple_ren f) (simple_pat_ren f) (proto_ren f F) (async_expr_ren f) (placeholder_ren f)
      (await_ren f F) (case_test_ren f) (key_of_expr_ren f) (expr_as_pat_ren f) (cover_bad_ren f F) (cover_args_ren f F) (yield_args_ren f)
      (reduce_while_ren f) (reduce_all_ren f) (set_mem_ren f F) (f_kw f F) (f_nil f F) map_app map_length : ren.
    Hint Rewrite (f_word f F) using word : ren.

    Ltac items := repeat match goal with
      | H : rsame ?a ?b |- context [it_tok ?b] => rewrite <- (proj1 H)
      end.
    Ltac split_value a :=
      let A := type of a in
      lazymatch A with
      | (_ * _)%type => let x := fresh "x" in let y := fresh "y" in destruct a as [x y]; rcbn; split_value x; split_value y
      | option _ => destruct a; rcbn
      | FormalParams => destruct a; rcbn
      | el_head => let k := fresh "k" in destruct a as [? k ? ? ?]; destruct k; rcbn
      | el_mid => let k := fresh "k" in let v := fresh "v" in destruct a as [? k v ? ?]; destruct k, v; rcbn
      | _ => idtac
      end.
    Ltac vclean := lazymatch goal with
      | |- forall a1 a2, rsame a1 a2 -> _ => intros ? ? ?; items
      | |- forall a1 a2, orsame a1 a2 -> _ =>
          let o1 := fresh "o" in let o2 := fresh "o" in let H := fresh "H" in
          intros [o1|] [o2|] H; cbn [orsame] in H; [items| | |]; try (destruct H; fail)
      | |- forall a1 a2, crsame a1 a2 -> _ =>
          let E := fresh "E" in let H := fresh "H" in let L := fresh "L" in
          intros [] [] (E & H & L); cbn in E, H, L; injection E; clear E; intros; subst;
          cbn [c_allow_in c_allow_strict_directive c_allow_yield c_await c_first_covert c_assign_target
               c_binding_element c_in_function_body c_in_iteration c_in_switch c_label_set c_strict c_past_prolog]
      | |- forall a1 a2, cvren a1 a2 -> _ =>
          let E := fresh "E" in let H := fresh "H" in
          intros [[? ?] ?] [[? ?] ?] [E H]; cbn in E, H; injection E; clear E; intros; subst
      | |- forall a1 a2, nren a1 a2 -> _ =>
          let E := fresh "E" in let H := fresh "H" in
          intros [? [?|]] [? [?|]] [E H]; cbn in E, H; subst; try (destruct H; fail)
      | |- forall a1 a2, lsame _ a1 a2 -> _ => intros ? ? (? & -> & ->)
      | |- forall a1 a2, vm _ a1 a2 -> _ => let a := fresh "a" in intros a ? ->; unfold same_of; split_value a
      | |- forall a1 a2, True -> _ => intros ? ? _
      | |- forall a1 a2, a1 = a2 -> _ => intros ? ? <-
      | |- forall a1 a2, (fun _ _ => True) a1 a2 -> _ => intros ? ? _
      end.
    Ltac vsolve := cbn [step_same]; lazymatch goal with
      | |- ?x = ?x => reflexivity
      | |- cvren _ _ => split; cbn; auto
      | |- nren _ _ => split; cbn; auto
      | |- vm _ _ _ => unfold vm; first [reflexivity | rcbn; autorewrite with ren; reflexivity | rcbn; autorewrite with ren; rcbn; rewrite ?map_map; reflexivity
                       | destruct_match_value ]
      | |- rsame _ _ => assumption
      | |- lsame _ _ _ => assumption
      | |- _ = _ => autorewrite with ren; items; try reflexivity
      | |- _ => cbn; items; auto
      end
    with destruct_match_value := match goal with |- context [match ?x with _ => _ end] => is_var x; destruct x; vsolve_in end
    with vsolve_in := rcbn; autorewrite with ren; reflexivity.
    Ltac dsolve := items; cbn [drsame unplaced ren_error]; autorewrite with ren; first [reflexivity|split; [assumption|reflexivity]|split; reflexivity].
    Ltac csolve :=
      let E := fresh "E" in let H := fresh "H" in let L := fresh "L" in
      intros [] [] (E & H & L); cbn in E, H, L; injection E; clear E; intros; subst; split;
      [reflexivity|split;
        [cbn; repeat match goal with |- context [match ?o with Some _ => _ | None => _ end] => destruct o end; cbn in *; auto; tauto
        |cbn [c_label_set set_label_set set_first_covert set_allow_in set_allow_strict_directive set_allow_yield set_await set_assign_target
              set_binding_element set_in_function_body set_in_iteration set_in_switch set_strict set_past_prolog];
         first [assumption | apply set_remove_ren; assumption | exists []; split; reflexivity | eexists (_ :: _); split; reflexivity | idtac]]].
    Ltac hd p := lazymatch p with ?h _ => hd h | _ => p end.
    Ltac rstep := cbn zeta; lazymatch goal with
      | |- rl _ _ (Ret _) (Ret _) => apply rl_ret; vsolve
      | |- rl _ _ (Fail _) (Fail _) => apply rl_fail; dsolve
      | |- rl _ _ Crash Crash => apply rl_crash
      | |- rl _ _ (Call CConsumeSemicolon) _ => first [apply rl_semicolon|apply (rl_call _ _ CConsumeSemicolon)]
      | |- rl ?k _ (Call ?c) (Call _) => exact (rl_call k _ c)
      | |- rl ?k ?W (@Bind _ ?A ?B _ _) (Bind _ _) => let V := vrel A in apply (rl_bind A B k V); [|vclean]
      | |- rl ?k _ (@Loop _ ?A ?X _ _) (Loop _ _) => let U := vrel X in apply (rl_loop X A k U); [vsolve|vclean]
      | |- rl _ _ (Do ONext) _ => apply rl_next
      | |- rl _ _ (Do ONextIgnored) _ => apply rl_nextignored
      | |- rl _ _ (Do OLook) _ => apply rl_look
      | |- rl _ _ (Do ONewLine) _ => apply rl_newline
      | |- rl _ _ (Do OCtx) _ => apply rl_ctx
      | |- rl _ _ (Do (OUpd _)) _ => apply rl_upd; csolve
      | |- rl _ _ (Do OLookPos) _ => apply rl_lookpos
      | |- rl _ _ (Do OCurPos) _ => apply rl_curpos
      | |- rl _ _ (Do (OStr _)) _ => apply rl_str; assumption
      | |- rl _ _ (Do OPeekSkip) _ => apply rl_peekskip
      | |- rl _ _ (Do (OTolerate _)) _ => apply rl_tolerate; dsolve
      | |- rl _ _ (Do (OGuardModule _ _)) _ => apply rl_guardmodule; [rcbn; autorewrite with ren; reflexivity|dsolve]
      | |- rl _ _ (Do (OQuery _)) _ => items; apply rl_query
      | |- rl _ _ (Do OExpectComma) _ => apply rl_expectcomma
      | |- rl _ _ (match it_tok ?i with _ => _ end) (match it_tok ?i with _ => _ end) => destruct (it_tok i) eqn:?
      | |- rl _ _ (match ?x with _ => _ end) (match ?x with _ => _ end) => destruct x
      | |- rl _ _ (match ?x with _ => _ end) (match ?y with _ => _ end) =>
          first [progress items | progress (autorewrite with ren) | progress rcbn
                | lazymatch type of x with
                  | bool => match x with context [match ?v with _ => _ end] => is_var v; destruct v; rcbn end
                  | _ => destruct x; rcbn
                  end]
      | |- rl _ _ ?p ?q => let h := hd p in unfold h
      end.
    Ltac rgo := repeat rstep.

    Lemma rl_at_async k : rl k eq at_async_function at_async_function.
    Proof.
      intros s1 s2 R Z. unfold at_async_function, at_contextual, look, stream_at. cbn [run_in exec].
      pose proof (RR_look _ _ R) as (_ & L & _). rewrite L.
      destruct (slice js1 (it_start (st_look s1)) (it_end (st_look s1))) as [w|] eqn:E; cbn [run_in option_map]; [|exact Logic.I].
      rewrite (eqb_word f F) by word.
      destruct (text_eqb w (str "async")) eqn:T; cbn [run_in exec]; [|cbn; auto].
      apply text_eqb_eq in T. subst w.
      assert (Hw : text_of js1 (st_look s1) = str "async") by (unfold text_of; rewrite E; reflexivity).
      pose proof (async_ren _ _ R Hw) as H. unfold async_here in H.
      destruct (peek_raw s1), (peek_raw s2); cbn; auto.
    Qed.
    Lemma rl_template_element k : rl k (vm same_of) template_element template_element.
    Proof.
      unfold template_element. rstep; [rgo|]. destruct (it_tok a1) eqn:T; try solve [rgo].
      apply (rl_bind _ _ _ eq).
      - unfold get_string. apply (rl_bind _ _ _ eq); [apply rl_str_cut; [assumption|rewrite T; reflexivity]|]. intros o _ <-. destruct o; [apply rl_ret; reflexivity|rgo].
      - intros w _ <-. destruct t; (apply (rl_bind _ _ _ eq); [unfold inner_slice|intros ? _ <-; apply rl_ret; reflexivity]);
          repeat lazymatch goal with |- rl _ _ (match ?x with _ => _ end) _ => destruct x end; first [apply rl_crash|apply rl_ret; reflexivity].
    Qed.
    Lemma rl_string_cut k i1 i2 : rsame i1 i2 -> cut_up (it_tok i1) = true -> rl k eq (string_or_empty i1) (string_or_empty i2).
    Proof.
      intros H C. unfold string_or_empty. apply (rl_bind _ _ _ eq); [apply rl_str_cut; assumption|]. intros o _ <-. apply rl_ret. reflexivity.
    Qed.

    Ltac rspecial := lazymatch goal with
      | |- rl _ _ at_async_function _ => apply rl_at_async
      | T : it_tok ?i = TRegEx |- rl _ _ (Bind (string_or_empty ?i) _) _ =>
          apply (rl_bind _ _ _ eq); [apply rl_string_cut; [assumption|rewrite T; reflexivity]|intros ? _ <-]
      | |- _ => rstep
      end.
    Ltac rall := repeat rspecial.

    (** Steps at given states. *)
    Lemma agree_look A k (W : A -> A -> Prop) q1 q2 s1 s2 :
      agree W k (run1 (q1 (st_look s1)) s1) (run2 (q2 (st_look s2)) s2) ->
      agree W k (run1 (Bind look q1) s1) (run2 (Bind look q2) s2).
    Proof. exact (fun H => H). Qed.
    Lemma agree_lookpos A k (W : A -> A -> Prop) q1 q2 s1 s2 :
      agree W k (run1 (q1 (st_look_pos s1)) s1) (run2 (q2 (st_look_pos s2)) s2) ->
      agree W k (run1 (Bind (Do OLookPos) q1) s1) (run2 (Bind (Do OLookPos) q2) s2).
    Proof. exact (fun H => H). Qed.
    Lemma agree_bind' A B k (V : A -> A -> Prop) (W : B -> B -> Prop) p1 p2 q1 q2 s1 s2 :
      agree V k (run1 p1 s1) (run2 p2 s2) ->
      (forall a1 a2 t1 t2, V a1 a2 -> RR t1 t2 -> size t1 <= k -> agree W k (run1 (q1 a1) t1) (run2 (q2 a2) t2)) ->
      agree W k (run1 (Bind p1 q1) s1) (run2 (Bind p2 q2) s2).
    Proof. intros H K. eapply agree_bind; [exact H|]. intros a1 a2 HV t1 t2 R Z. apply K; assumption. Qed.
    Lemma agree_at_contextual A k w (W : A -> A -> Prop) q1 q2 s1 s2 : RR s1 s2 ->
      agree W k (run1 (q1 (text_eqb (text_of js1 (st_look s1)) (str w))) s1) (run2 (q2 (text_eqb (text_of js2 (st_look s2)) (str w))) s2) ->
      agree W k (run1 (Bind (at_contextual w) q1) s1) (run2 (Bind (at_contextual w) q2) s2).
    Proof.
      intros R. unfold at_contextual, look, stream_at. cbn [run_in exec].
      destruct R as (_ & _ & _ & _ & _ & ((W1 & _) & _) & ((W2 & _) & _)).
      destruct (well_formed_slice _ _ W1) as (w1 & E1 & _). destruct (well_formed_slice _ _ W2) as (w2 & E2 & _).
      unfold text_of. rewrite E1, E2. cbn [run_in]. exact (fun H => H).
    Qed.
    Lemma rl_cover_formals k e : rl k (vm (option_map (map (ren_arg f)))) (cover_formals e) (cover_formals (ren_expr f e)).
    Proof.
      assert (G : forall l b, rl k (vm (option_map (map (ren_arg f))))
        (let conv := map (cover_param b) l in let params := map fst conv in
          if existsb snd conv then fail_look ["not a yield expression in a function param"] else
          strict <- get c_strict ;; allow_yield <- get c_allow_yield ;;
          if strict && negb allow_yield && existsb is_yield_arg params then fail_look ["not a yield expression in a function param"] else Ret (Some params))
        (let conv := map (cover_param b) (map (ren_arg f) l) in let params := map fst conv in
          if existsb snd conv then fail_look ["not a yield expression in a function param"] else
          strict <- get c_strict ;; allow_yield <- get c_allow_yield ;;
          if strict && negb allow_yield && existsb is_yield_arg params then fail_look ["not a yield expression in a function param"] else Ret (Some params))).
      { intros l b. cbv zeta. rewrite (cover_bad_ren f F), (cover_args_ren f F). rall. }
      destruct e; try (apply rl_ret; reflexivity); [apply (G params is_async)|apply (G [FAExpr (EIdent i)] false)].
    Qed.
    Lemma rl_reserved k (st : bool) i :
      rl k eq (if st && (is_restricted_word i || is_strict_reserved i) then fail_look [not_word i] else Ret tt)
              (if st && (is_restricted_word i || is_strict_reserved i) then fail_look [not_word (f i)] else Ret tt).
    Proof.
      destruct (st && _) eqn:E; [|apply rl_ret; reflexivity]. apply andb_prop in E. rewrite (not_word_ren f F) by apply E. rall.
    Qed.
    Lemma rl_assignment_expr k : rl k (vm (ren_expr f)) assignment_expr assignment_expr.
    Proof.
      unfold assignment_expr. rstep; [rall|]. intros s1 s2 R Z. apply agree_look. pose proof (RR_look _ _ R) as L. rewrite <- (proj1 L).
      destruct (negb _ && _); [refine ((_ : rl k (vm (ren_expr f)) _ _) s1 s2 R Z); rall|]. apply agree_lookpos.
      eapply (agree_weaken (vm (ren_expr f)) (vm (ren_expr f)) (size s1)); [exact Z|auto|].
      eapply (agree_bind' _ _ _ (vm (ren_expr f))); [exact (rl_call (size s1) _ CConditionalExpr s1 s2 R (Nat.le_refl _))|].
      intros e _ t1 t2 -> T Z'. apply agree_lookpos.
      refine ((_ : rl (size s1) (vm (ren_expr f)) _ _) t1 t2 T Z').
      assert (Hline : forall w b, slice js1 (it_start (st_look s1)) (it_end (st_look s1)) = Some w ->
        text_eqb w (str "async") && (p_line (st_look_pos t2) =? p_line (st_look_pos s2)) && b
        = text_eqb w (str "async") && (p_line (st_look_pos t1) =? p_line (st_look_pos s1)) && b).
      { intros w b E. destruct (text_eqb w (str "async")) eqn:Tw; [|reflexivity]. apply text_eqb_eq in Tw. subst w.
        rewrite (line_ren s1 s2 t1 t2 R T Z'); [reflexivity|]. unfold text_of. rewrite E. reflexivity. }
      apply (rl_bind _ _ _ (fun w1 w2 => w2 = f w1 /\ slice js1 (it_start (st_look s1)) (it_end (st_look s1)) = Some w1)).
      { intros u1 u2 U Zu. unfold stream_at. cbn [run_in exec]. rewrite (proj1 (proj2 L)).
        destruct (slice js1 _ _); cbn; auto. }
      intros w _ [-> Ew]. rstep; [rall|]. rewrite (eqb_word f F) by word. rewrite (Hline w _ Ew).
      repeat lazymatch goal with
        | |- rl _ _ (cover_formals _) _ => apply rl_cover_formals
        | |- rl _ _ (if _ && (is_restricted_word _ || _) then _ else _) _ =>
            rewrite ?(restricted_word_ren f F), ?(strict_reserved_ren f F); apply rl_reserved
        | |- _ => rspecial
        end.
    Qed.
    Lemma rl_lhs_allow_call k : rl k (vm (ren_expr f)) lhs_allow_call lhs_allow_call.
    Proof.
      unfold lhs_allow_call. intros s1 s2 R Z. apply agree_lookpos.
      eapply (agree_weaken (vm (ren_expr f)) (vm (ren_expr f)) (size s1)); [exact Z|auto|].
      apply agree_at_contextual; [exact R|]. rewrite (RR_text _ _ R), (eqb_word f F) by word.
      refine ((_ : rl (size s1) (vm (ren_expr f)) _ _) s1 s2 R (Nat.le_refl _)).
      do 5 (rstep; [rall|]). rstep; [|rall].
      apply (rl_loop _ _ _ (vm (ren_expr f))); [reflexivity|]. intros x _ ->.
      apply (rl_bind _ _ _ eq); [rall|]. intros t _ <-. destruct (is_punct PPeriod t); [rall|]. destruct (is_punct POpenParen t); [|rall].
      intros t1 t2 T Z'. apply agree_lookpos. cbn zeta.
      assert (Hline : text_eqb (text_of js1 (st_look s1)) (str "async") && (p_line (st_look_pos s2) =? p_line (st_look_pos t2))
        = text_eqb (text_of js1 (st_look s1)) (str "async") && (p_line (st_look_pos s1) =? p_line (st_look_pos t1))).
      { destruct (text_eqb (text_of js1 (st_look s1)) (str "async")) eqn:Tw; [|reflexivity]. apply text_eqb_eq in Tw.
        rewrite (Nat.eqb_sym _ (p_line (st_look_pos t2))), (Nat.eqb_sym _ (p_line (st_look_pos t1))).
        rewrite (line_ren s1 s2 t1 t2 R T Z' Tw). reflexivity. }
      rewrite Hline. refine ((_ : rl (size s1) _ _ _) t1 t2 T Z'). rall.
    Qed.

    Lemma bodies_ren k B (c : call B) : rl k (vm (ren_res f c)) (body c) (body (ren_call f c)).
    Proof.
      destruct c; cbn [body ren_call ren_res];
        lazymatch goal with
        | |- rl _ _ assignment_expr _ => apply rl_assignment_expr
        | |- rl _ _ lhs_allow_call _ => apply rl_lhs_allow_call
        | |- rl _ _ template_element _ => apply rl_template_element
        | |- _ => rall
        end.
      match goal with p : ProgramPart |- _ => destruct p as [? [ | | | | | ]| | ] end; apply rl_upd; csolve.
    Qed.
  End Rel.

  (** ** Runs *)
  Lemma run_call_ren n : forall k B (c : call B) s1 s2, RR s1 s2 -> size s1 <= k ->
    agree (vm (ren_res f c)) k (run_call (@body) g1 n c s1) (run_call (@body) g2 n (ren_call f c) s2).
  Proof.
    induction n as [|n IH]; intros k B c s1 s2 R Z; cbn [run_call]; [exact Logic.I|].
    apply bodies_ren; auto.
  Qed.
  Lemma parse_ren n s1 s2 : RR s1 s2 -> agree (vm (ren_program f)) (size s1) (parse g1 n s1) (parse g2 n s2).
  Proof.
    intros R.
    assert (H : agree (vm (map (ren_part f))) (size s1) (run (@body) g1 n parse_parts s1) (run (@body) g2 n parse_parts s2)).
    { unfold run. refine ((_ : rl n _ _ (size s1) (vm (map (ren_part f))) _ _) s1 s2 R (Nat.le_refl _)).
      pose proof (run_call_ren n) as HR. unfold parse_parts. apply rl_loop with (U := vm (map (ren_part f))); [reflexivity|]. intros acc _ ->.
      apply rl_bind with (V := eq).
      - unfold look_tok, look. apply rl_bind with (V := rsame); [apply rl_look|]. intros a1 a2 H. apply rl_ret. apply H.
      - intros t _ <-. destruct (is_eof t); [apply rl_ret; reflexivity|]. apply rl_bind with (V := vm (ren_part f)); [apply (rl_call _ _ _ HR _ _ CNextPart)|].
        intros p _ ->. apply rl_ret. cbn. unfold vm. rewrite map_app. reflexivity. }
    unfold parse. unfold agree in H. rewrite <- same_module.
    destruct (run _ g1 _ _ _) as [[?|?| |] ?], (run _ g2 _ _ _) as [[?|?| |] ?]; try tauto; cbn [agree]; auto.
    destruct H as (-> & H). split; [destruct (g_module g1); reflexivity|exact H].
  Qed.
  Lemma agree_outcome A k (m : A -> A) (x1 x2 : outcome A * state) : agree (vm m) k x1 x2 -> ren_outcome f m (fst x1) = unplaced_outcome (fst x2).
  Proof.
    destruct x1 as [[?|?| |] ?], x2 as [[?|?| |] ?]; cbn; try tauto.
    - intros (-> & _). reflexivity.
    - intros (-> & _). reflexivity.
  Qed.
  Lemma iter_next_ren n s1 s2 : RR s1 s2 ->
    option_map (ren_outcome f (ren_part f)) (fst (iter_next g1 n s1)) = option_map unplaced_outcome (fst (iter_next g2 n s2))
    /\ (fst (iter_next g1 n s1) <> Some NoFuel -> fst (iter_next g1 n s1) <> Some Panic -> RR (snd (iter_next g1 n s1)) (snd (iter_next g2 n s2))).
  Proof.
    intros R. unfold iter_next. pose proof (RR_look _ _ R) as [L _]. rewrite <- L. destruct (is_eof _); [split; [reflexivity|auto]|].
    pose proof (run_call_ren n (size s1) _ CNextPart s1 s2 R (Nat.le_refl _)) as H. pose proof (agree_outcome _ _ _ _ _ H) as O.
    cbn [ren_call] in *. unfold agree in H.
    destruct (run_call _ g1 _ _ _) as [[?|?| |] ?], (run_call _ g2 _ _ _) as [[?|?| |] ?]; try tauto; cbn [fst snd option_map] in *.
    all: split; [first [reflexivity|f_equal; exact O]|]; intros; try congruence; try apply H.
  Qed.
End Renamed.

(** ** A fresh parser *)

(** The second text has the tokens of the first, spelled as [f] says; templates and regular
    expressions are spelled as they were. *)
Definition renames (f : text -> text) (sc : scanner) (js1 js2 : text) : Prop :=
  signs sc js2 = map (ren_sign f) (signs sc js1) /\ sc_end_nl sc js1 = sc_end_nl sc js2
  /\ forall t w b, In (t, Some w, b) (signs sc js1) -> cut_up t = true -> f w = w.

Lemma start_ren f sc tolerant module js1 js2 i1 s1 i2 s2 :
  scan_contract js1 (sc_scan sc js1) -> scan_contract js2 (sc_scan sc js2) -> renames f sc js1 js2 ->
  start (make_cfg sc tolerant module js1) (sc_scan sc js1) = (Ok i1, s1) ->
  start (make_cfg sc tolerant module js2) (sc_scan sc js2) = (Ok i2, s2) ->
  RR (make_cfg sc tolerant module js1) (make_cfg sc tolerant module js2) (sc_scan sc js1) (sc_scan sc js2) f s1 s2.
Proof.
  intros C1 C2 (Hs & He & Hu) E1 E2.
  assert (M : forall js, map (raw_sign false js) (filter nc (sc_scan sc js)) = signs sc js).
  { intros js. unfold signs. apply map_ext. intros r. unfold raw_sign, sign, mark. cbn. rewrite andb_true_r. reflexivity. }
  assert (B : forall js i s, scan_contract js (sc_scan sc js) -> start (make_cfg sc tolerant module js) (sc_scan sc js) = (Ok i, s) ->
    before false js s = signs sc js /\ st_ctx s = default_ctx /\ st_found_eof s = false /\ is_comment (it_tok (st_look s)) = false).
  { intros js i s C E. unfold start, next_item in E. assert (Hn : filter nc (sc_scan sc js) <> []) by (apply ends_not_comments; apply C).
    apply (loop_before false) in E; [|right; exact Hn]. change (g_stream (make_cfg sc tolerant module js)) with js in E.
    destruct E as (E & Ec & Ef). split; [rewrite <- M; exact E|]. split; [exact Ec|]. split; [exact Ef|].
    change (st_rest (initial_state (sc_scan sc js))) with (sc_scan sc js) in E. unfold before in E. destruct (filter nc (sc_scan sc js)) as [|r q] eqn:Er; [congruence|].
    assert (T1 : it_tok (st_look s) = it_tok (r_item r)) by exact (f_equal (fun l => fst (fst (hd (TEoF, None, false) l))) E). rewrite T1. assert (Ir : In r (filter nc (sc_scan sc js))) by (rewrite Er; left; reflexivity).
    apply filter_In in Ir. destruct Ir as [_ Ir]. unfold nc in Ir. apply negb_true_iff in Ir. exact Ir. }
  destruct (B js1 i1 s1 C1 E1) as (B1 & X1 & Y1 & Z1). destruct (B js2 i2 s2 C2 E2) as (B2 & X2 & Y2 & Z2).
  split; [rewrite X1, X2; split; [reflexivity|split; [exact Logic.I|exists []; split; reflexivity]]|]. split; [congruence|].
  change (g_stream (make_cfg sc tolerant module js1)) with js1. change (g_stream (make_cfg sc tolerant module js2)) with js2.
  split; [rewrite B1, B2; exact Hs|]. split; [|split; [exact Z1|split; eapply start_placed; eauto]].
  rewrite B1. apply Forall_forall. intros [[t [w|]] b] Hx Hc; cbn in *; [|reflexivity]. f_equal. eapply Hu; eauto.
Qed.
