(** The parser of /repo/src/lib.rs, function by function.

    Every [fn parse_*(&mut self, ..) -> Res<T>] is a constructor of [call T]
    and a definition below it; [body] ties the two together.  Not modelled
    anywhere: [debug!]/[trace!]/[error!] logging, backtraces, the unused
    [&mut Vec<Item>] argument [params] of the pattern functions (only ever
    pushed to), and empty [if cond { //error }] blocks whose condition has no
    effect.  The [format!]s inside error messages are kept symbolic. *)
From Verif Require Export Prog.

(** lib.rs:4567-4572 [struct FormalParams]. *)
Record FormalParams := mkFP {
  fp_simple : bool; fp_params : list FunctionArg; fp_strict : bool; fp_found_restricted : bool }.

Inductive call : Type -> Type :=
| CNextPart : call ProgramPart
| CDirectivePrologues : call (list ProgramPart)
| CDirective : call ProgramPart
| CStatementListItem : call ProgramPart
| CImportDecl : call ModImport
| CNamedImports : call (list ImportSpecifier)
| CImportSpecifier : call ImportSpecifier
| CImportNamespaceSpecifier : call ImportSpecifier
| CImportDefaultSpecifier : call ImportSpecifier
| CExportDecl : call ModExport
| CExportSpecifier : call ExportSpecifier
| CModuleSpecifier : call Literal
| CStatement : call Stmt
| CWithStmt : call Stmt
| CWhileStmt : call Stmt
| CVarStmt : call Stmt
| CVarDeclList (in_for : bool) : call (list VariableDecl)
| CVarDecl (in_for : bool) : call VariableDecl
| CTryStmt : call Stmt
| CCatchClause : call CatchClause
| CFinallyClause : call (list ProgramPart)
| CThrowStmt : call Expr
| CSwitchStmt : call Stmt
| CSwitchCase : call SwitchCase
| CReturnStmt : call (option Expr)
| CIfStmt : call Stmt
| CIfClause : call Stmt
| CFnStmt : call Expr
| CForStmt : call Stmt
| CForLoop (kind : VariableKind) : call Stmt
| CForLoopCont (init : option LoopInit) : call Stmt
| CForInLoop (left : LoopLeft) : call Stmt
| CForOfLoop (left : LoopLeft) (is_await : bool) : call Stmt
| CLoopBody : call Stmt
| CDoWhileStmt : call Stmt
| CBreakStmt : call (option Identifier)
| CContinueStmt : call (option Identifier)
| COptionallyLabeled (k : keyword) : call (option Identifier)
| CDebuggerStmt : call Stmt
| CLabelledStatement : call Stmt
| CExpressionStatement : call Expr
| CExpression : call Expr
| CBlock : call (list ProgramPart)
| CLexicalDecl (in_for : bool) : call Decl
| CBindingList (kind : VariableKind) (in_for : bool) : call (list VariableDecl)
| CVariableDeclList (in_for : bool) : call (list VariableDecl)
| CVariableDecl (in_for : bool) : call VariableDecl
| CLexicalBinding (kind : VariableKind) (in_for : bool) : call VariableDecl
| CFunctionDecl (opt_ident : bool) : call Function
| CFunctionSourceEl : call (list ProgramPart)
| CClassDecl (opt_ident : bool) : call Class
| CClassBody : call (list Property)
| CClassEl (has_ctor : bool) : call (bool * Property)
| CAsyncPropertyMethod : call PropertyValue
| CPropertyMethod : call PropertyValue
| CGeneratorMethod : call PropertyValue
| CGetterMethod : call PropertyValue
| CMethodBody (simple found_restricted : bool) : call (list ProgramPart)
| CSetterMethod : call PropertyValue
| CPropertyMethodBody (simple found_restricted : bool) : call (list ProgramPart)
| CObjectPropertyKey : call PropertyKey
| CPrimaryExpression : call Expr
| CGroupExpr : call Expr
| CArrayInit : call Expr
| CObjInit : call Expr
| CObjProp (has_proto : bool) : call (bool * ObjectProperty)
| CTemplateLiteral : call TemplateLiteral
| CTemplateElement : call TemplateElement
| CFunctionExpr : call Expr
| CFnName (is_gen : bool) : call Identifier
| CIdentName : call Identifier
| CVarIdent (is_var : bool) : call Identifier
| CFormalParams : call FormalParams
| CFormalParam (simple : bool) : call (bool * bool * FunctionArg)
| CRestElement : call (bool * Pat)
| CBindingRestEl : call (bool * Pat)
| CPatternWithDefault : call (bool * Pat)
| CPattern (kind : option VariableKind) : call (bool * Pat)
| CArrayPattern : call (bool * Pat)
| CObjectPattern : call (bool * Pat)
| CRestProp : call ObjectPatPart
| CPropertyPattern : call ObjectPatPart
| CAssignmentExpr : call Expr
| CYieldExpr : call Expr
| CConditionalExpr : call Expr
| CBinaryExpression : call Expr
| CExponentiation : call Expr
| CUnaryExpression : call Expr
| CAwaitExpr : call Expr
| CUpdateExpr : call Expr
| CLeftHandSideExpr : call Expr
| CSuper : call Expr
| CLeftHandSideExprAllowCall : call Expr
| CAsyncArgs : call (list Expr)
| CAsyncArg : call Expr
| CSpreadElement : call Expr
| CArgs : call (list Expr)
| CNewExpr : call Expr
| CConsumeSemicolon : call unit.

Notation P := (prog call).

Declare Scope prog_scope.
Delimit Scope prog_scope with prog.
Notation "x <- p ;; q" := (Bind p (fun x => q))
  (at level 61, p at next level, right associativity) : prog_scope.
Notation "' pat <- p ;; q" := (Bind p (fun x => match x with pat => q end))
  (at level 61, pat pattern, p at next level, right associativity) : prog_scope.
Notation "p ;; q" := (Bind p (fun _ => q)) (at level 61, right associativity) : prog_scope.
Notation "'ifM' c 'then' p 'else' q" := (Bind c (fun b : bool => if b then p else q))
  (at level 62, c at level 60, p at level 62, q at level 62) : prog_scope.
Open Scope prog_scope.
Open Scope string_scope.
Open Scope nat_scope.
Open Scope list_scope.

(** ** Helpers that only read *)

Definition next : P item := Do ONext.
Definition look : P item := Do OLook.
Definition look_tok : P token := la <- look ;; Ret (it_tok la).
Definition upd (f : ctx -> ctx) : P unit := Do (OUpd f).
Definition get {A} (f : ctx -> A) : P A := c <- Do OCtx ;; Ret (f c).

(** lib.rs:4317-4323 [at_punct], [at_keyword]. *)
Definition at_punct (p : punct) : P bool := t <- look_tok ;; Ret (is_punct p t).
Definition at_keyword (k : keyword) : P bool := t <- look_tok ;; Ret (is_keyword k t).

(** [self.expected_token_error(&self.look_ahead, exps)]. *)
Definition fail_look {A} (exps : list string) : P A :=
  la <- look ;; Fail (FExpected la exps).

(** lib.rs:4240-4256 [expect_punct], [expect_keyword]. *)
Definition expect_punct (p : punct) : P unit :=
  i <- next ;; if is_punct p (it_tok i) then Ret tt else Fail (FExpected i [punct_debug p]).
Definition expect_keyword (k : keyword) : P unit :=
  i <- next ;; if is_keyword k (it_tok i) then Ret tt else Fail (FExpected i [keyword_debug k]).

(** [&self.scanner.stream[i.span.start..i.span.end]]: panics outside a [char] boundary. *)
Definition stream_at (i : item) : P text :=
  o <- Do (OStr i) ;; match o with Some t => Ret t | None => Crash end.

(** lib.rs:4449-4451 [get_string]. *)
Definition get_string (i : item) : P text :=
  o <- Do (OStr i) ;;
  match o with Some t => Ret t | None => Fail (FOperation "Unable to get string") end.

(** [self.scanner.string_for(&span).unwrap_or(String::new())]. *)
Definition string_or_empty (i : item) : P text :=
  o <- Do (OStr i) ;; Ret (match o with Some t => t | None => [] end).

(** lib.rs:4390-4394 [at_contextual_keyword]. *)
Definition at_contextual (w : string) : P bool :=
  la <- look ;; t <- stream_at la ;; Ret (text_eqb t (str w)).

(** lib.rs:4357-4373 [at_async_function]. *)
Definition at_async_function : P bool :=
  ifM at_contextual "async" then
    o <- Do OPeek ;;
    match o with
    | Some pk =>
        pos <- Do OLookPos ;;
        next_pos <- Do (OItemPos pk) ;;
        Ret ((p_line pos =? p_line next_pos) && is_keyword KFunction (it_tok pk))
    | None => Ret false
    end
  else Ret false.

(** lib.rs:4267-4282 [at_import_call]. *)
Definition at_import_call : P bool :=
  ifM at_keyword KImport then
    o <- Do OPeekSkip ;;
    Ret (match o with Some i => is_punct POpenParen (it_tok i) | None => false end)
  else Ret false.

(** lib.rs:4301-4315 [at_lexical_decl]. *)
Definition at_lexical_decl : P bool :=
  o <- Do OPeekSkip ;;
  Ret (match o with
       | Some i =>
           let t := it_tok i in
           is_ident t || is_punct POpenBracket t || is_punct POpenBrace t
           || is_keyword KLet t || is_keyword KYield t
       | None => false
       end).

(** lib.rs:4258-4265 [at_return_arg]. *)
Definition at_return_arg : P bool :=
  nl <- Do ONewLine ;;
  t <- look_tok ;;
  if nl then Ret (is_string t || is_template t)
  else Ret (negb (is_punct PSemiColon t) && negb (is_punct PCloseBrace t) && negb (is_eof t)).

(** lib.rs:4284-4295 [at_qualified_prop_key]. *)
Definition qualified_prop_key (t : token) : bool :=
  match t with
  | TIdent | TString | TBoolean _ | TNumeric | TNull | TKeyword _ => true
  | TPunct p => punct_eqb POpenBracket p
  | _ => false
  end.

(** lib.rs:2192-2198 [qualified_prop_name]. *)
Definition qualified_prop_name (t : token) : P bool :=
  l <- Do (OQuery (QLiteral t)) ;;
  Ret (is_ident t || is_any_keyword t || l || is_punct POpenBracket t).

(** lib.rs:2674-2679 [at_possible_ident]. *)
Definition possible_ident (t : token) : bool :=
  is_ident t || is_any_keyword t || is_bool t || is_null t.

(** lib.rs:4326-4353 [at_assign]. *)
Definition assign_tok (t : token) : bool :=
  is_punct PAssign t || is_punct PMultiplyAssign t || is_punct PExponentAssign t
  || is_punct PDivideAssign t || is_punct PModuloAssign t || is_punct PAddAssign t
  || is_punct PSubtractAssign t || is_punct PLeftShiftAssign t || is_punct PRightShiftAssign t
  || is_punct PUnsignedRightShiftAssign t || is_punct PAddAssign t || is_punct PBitwiseOrAssign t
  || is_punct PBitwiseXOrAssign t || is_punct PBitwiseAndAssign t.

(** lib.rs:4417-4447 [is_start_of_expr]. *)
Definition start_of_expr (t : token) : bool :=
  if is_regex t then true
  else if is_any_keyword t then
    is_keyword KClass t || is_keyword KDelete t || is_keyword KFunction t || is_keyword KLet t
    || is_keyword KNew t || is_keyword KSuper t || is_keyword KThis t || is_keyword KTypeOf t
    || is_keyword KVoid t || is_keyword KYield t
  else if is_any_punct t then
    is_punct POpenBracket t || is_punct POpenParen t || is_punct POpenBracket t
    || is_punct PPlus t || is_punct PMinus t || is_punct PNot t || is_punct PBitwiseNot t
    || is_punct PIncrement t || is_punct PDecrement t
  else true.

(** lib.rs:4398-4413 [is_restricted_word], [is_strict_reserved]. *)
Definition is_restricted_word (w : text) : bool :=
  text_eqb w (str "eval") || text_eqb w (str "arguments").
Definition is_strict_reserved (w : text) : bool :=
  text_eqb w (str "implements") || text_eqb w (str "interface") || text_eqb w (str "package")
  || text_eqb w (str "private") || text_eqb w (str "protected") || text_eqb w (str "public")
  || text_eqb w (str "static") || text_eqb w (str "yield") || text_eqb w (str "let").

(** [format!("not {}", i)], lib.rs:3131, 3137; reached for the words above only, which are ASCII. *)
Definition not_word (i : text) : string := "not " ++ string_of_list_ascii (map ascii_of_N i).

(** lib.rs:1675-1680 [is_restricted], 1633-1638 [is_pat_ident]. *)
Definition is_restricted (p : Pat) : bool :=
  match p with PIdentifier i => is_restricted_word i | _ => false end.
Definition is_pat_ident (p : Pat) : bool :=
  match p with PIdentifier _ => true | _ => false end.

(** lib.rs:3766-3771 [is_ident] on expressions. *)
Definition is_ident_expr (e : Expr) : bool := match e with EIdent _ => true | _ => false end.

(** ** Cover-grammar bookkeeping: lib.rs:4100-4156 *)
Definition cover := (bool * bool * option item)%type.
Definition get_cover : P cover :=
  c <- Do OCtx ;; Ret (c_binding_element c, c_assign_target c, c_first_covert c).
Definition isolate_cover : P cover :=
  cg <- get_cover ;;
  upd (fun c => set_first_covert None (set_assign_target true (set_binding_element true c))) ;;
  Ret cg.
Definition set_isolate_cover (cg : cover) : P unit :=
  let '(b, a, f) := cg in
  upd (fun c => set_first_covert f (set_assign_target a (set_binding_element b c))).
Definition inherit_cover : P cover := isolate_cover.
Definition set_inherit_cover (cg : cover) : P unit :=
  let '(b, a, f) := cg in
  upd (fun c => set_first_covert (match f with Some _ => f | None => c_first_covert c end)
                 (set_assign_target (c_assign_target c && a)
                   (set_binding_element (c_binding_element c && b) c))).

(** The recurring pair
    [self.context.is_assignment_target = a; self.context.is_binding_element = b;]. *)
Definition set_target_binding (a b : bool) : P unit :=
  upd (fun c => set_binding_element b (set_assign_target a c)).
Definition not_target : P unit := set_target_binding false false.

(** [isolate_cover_grammar(); p?; set_isolate_cover_grammar_state(..)?]. *)
Definition isolated {A} (p : P A) : P A :=
  cg <- isolate_cover ;; r <- p ;; set_isolate_cover cg ;; Ret r.
(** [inherit_cover_grammar(); p?; set_inherit_cover_grammar_state(..)]. *)
Definition inheriting {A} (p : P A) : P A :=
  cg <- inherit_cover ;; r <- p ;; set_inherit_cover cg ;; Ret r.

(** lib.rs:4378-4387. *)
Definition consume_semicolon : P unit :=
  ifM at_punct PSemiColon then next ;; Ret tt
  else
    nl <- Do ONewLine ;;
    if nl then Ret tt
    else
      t <- look_tok ;;
      if is_eof t || is_punct PCloseBrace t then Ret tt
      else fail_look ["`;`"; "`eof`"; "`}`"].

(** ** Program parts: lib.rs:4533-4549, 512-608 *)

(** [str::trim_matches] with the two quote characters (code points 39 and 34), lib.rs:535. *)
Fixpoint drop_quotes (t : text) : text :=
  match t with
  | c :: t' => if N.eqb c 39 || N.eqb c 34 then drop_quotes t' else t
  | [] => []
  end.
Definition trim_quotes (t : text) : text := rev (drop_quotes (rev (drop_quotes t))).

Definition next_part : P ProgramPart :=
  past <- get c_past_prolog ;;
  t <- look_tok ;;
  if negb past && is_string t then
    part <- Call CDirective ;;
    upd (set_past_prolog (match part with PPDir _ _ => false | _ => true end)) ;;
    Ret part
  else
    upd (set_past_prolog true) ;;
    Call CStatementListItem.

Definition directive_prologues : P (list ProgramPart) :=
  Loop [] (fun ret =>
    t <- look_tok ;;
    if is_string t then d <- Call CDirective ;; Ret (inl (ret ++ [d])) else Ret (inr ret)).

Definition directive : P ProgramPart :=
  orig <- look ;;
  expr <- Call CExpression ;;
  match expr with
  | ELiteral (LString s) =>
      allow <- get c_allow_strict_directive ;;
      if negb allow && text_eqb s (str "use strict")
      then Fail (FUnexpected orig "use strict in an invalid location")
      else
        Call CConsumeSemicolon ;;
        Ret (PPDir (trim_quotes s) (LString s))
  | ELiteral lit => Ret (PPStmt (SExpr (ELiteral lit)))
  | _ => Call CConsumeSemicolon ;; Ret (PPStmt (SExpr expr))
  end.

Definition statement_list_item : P ProgramPart :=
  set_target_binding true true ;;
  t <- look_tok ;;
  match t with
  | TKeyword KImport =>
      ifM at_import_call then s <- Call CStatement ;; Ret (PPStmt s)
      else i <- Call CImportDecl ;; Ret (PPDecl (DImport i))
  | TKeyword KExport => e <- Call CExportDecl ;; Ret (PPDecl (DExport e))
  | TKeyword KConst => d <- Call (CLexicalDecl false) ;; Ret (PPDecl d)
  | TKeyword KFunction => f <- Call (CFunctionDecl true) ;; Ret (PPDecl (DFunction f))
  | TKeyword KClass => c <- Call (CClassDecl false) ;; Ret (PPDecl (DClass c))
  | TKeyword KLet =>
      ifM at_lexical_decl then d <- Call (CLexicalDecl false) ;; Ret (PPDecl d)
      else s <- Call CStatement ;; Ret (PPStmt s)
  | _ => s <- Call CStatement ;; Ret (PPStmt s)
  end.

(** ** Imports and exports: lib.rs:618-862 *)

Definition import_decl : P ModImport :=
  expect_keyword KImport ;;
  t <- look_tok ;;
  if is_string t then
    source <- Call CModuleSpecifier ;;
    Call CConsumeSemicolon ;;
    Ret (mkImport [] source)
  else
    specifiers <-
      (if is_punct POpenBrace t then Call CNamedImports
       else if is_punct PAsterisk t then s <- Call CImportNamespaceSpecifier ;; Ret [s]
       else if possible_ident t && negb (is_keyword KDefault t) then
         d <- Call CImportDefaultSpecifier ;;
         ifM at_punct PComma then
           next ;;
           ifM at_punct PAsterisk then s <- Call CImportNamespaceSpecifier ;; Ret [d; s]
           else ifM at_punct POpenBrace then l <- Call CNamedImports ;; Ret (d :: l)
           else fail_look ["{"; "*"]
         else Ret [d]
       else fail_look ["{"; "*"; "[ident]"; "[string]"]) ;;
    ifM at_contextual "from" then
      next ;;
      source <- Call CModuleSpecifier ;;
      Call CConsumeSemicolon ;;
      Ret (mkImport specifiers source)
    else fail_look ["from"].

Definition named_imports : P (list ImportSpecifier) :=
  expect_punct POpenBrace ;;
  ret <- Loop [] (fun ret =>
    ifM at_punct PCloseBrace then Ret (inr ret)
    else
      s <- Call CImportSpecifier ;;
      ifM at_punct PCloseBrace then Ret (inl (ret ++ [s]))
      else expect_punct PComma ;; Ret (inl (ret ++ [s]))) ;;
  expect_punct PCloseBrace ;;
  Ret ret.

Definition import_specifier : P ImportSpecifier :=
  t <- look_tok ;;
  if is_ident t then
    imported <- Call (CVarIdent false) ;;
    ifM at_contextual "as" then
      Do ONextIgnored ;;
      l <- Call (CVarIdent false) ;; Ret (ISNormal imported (Some l))
    else Ret (ISNormal imported None)
  else
    imported <- Call CIdentName ;;
    ifM at_contextual "as" then
      next ;;
      l <- Call (CVarIdent false) ;; Ret (ISNormal imported (Some l))
    else Ret (ISNormal imported None).

Definition import_namespace_specifier : P ImportSpecifier :=
  expect_punct PAsterisk ;;
  ifM at_contextual "as" then
    next ;;
    i <- Call CIdentName ;; Ret (ISNamespace i)
  else fail_look ["as"].

Definition import_default_specifier : P ImportSpecifier :=
  i <- Call CIdentName ;; Ret (ISDefault i).

Definition export_decl : P ModExport :=
  expect_keyword KExport ;;
  t <- look_tok ;;
  if is_keyword KDefault t then
    next ;;
    t2 <- look_tok ;;
    decl <-
      (if is_keyword KFunction t2 then f <- Call (CFunctionDecl true) ;; Ret (DEDecl (DFunction f))
       else if is_keyword KClass t2 then c <- Call (CClassDecl true) ;; Ret (DEDecl (DClass c))
       else ifM at_contextual "async" then
         ifM at_async_function then f <- Call (CFunctionDecl true) ;; Ret (DEDecl (DFunction f))
         else e <- Call CAssignmentExpr ;; Ret (DEExpr e)
       else
         at_contextual "from" ;;
         if is_punct POpenBrace t2 then e <- Call CObjInit ;; Ret (DEExpr e)
         else if is_punct POpenBracket t2 then e <- Call CArrayInit ;; Ret (DEExpr e)
         else e <- Call CAssignmentExpr ;; Ret (DEExpr e)) ;;
    Ret (MEDefault decl)
  else if is_punct PAsterisk t then
    next ;;
    at_contextual "from" ;;
    next ;;
    source <- Call CModuleSpecifier ;;
    Call CConsumeSemicolon ;;
    Ret (MEAll source)
  else if is_any_keyword t then
    if is_keyword KLet t || is_keyword KConst t then
      lex <- Call (CLexicalDecl false) ;;
      Call CConsumeSemicolon ;;
      Ret (MENamed (NEDecl lex))
    else if is_keyword KVar t then
      next ;;
      l <- Call (CVariableDeclList false) ;;
      Call CConsumeSemicolon ;;
      Ret (MENamed (NEDecl (DVariable VVar l)))
    else if is_keyword KClass t then
      c <- Call (CClassDecl true) ;; Ret (MENamed (NEDecl (DClass c)))
    else if is_keyword KFunction t then
      f <- Call (CFunctionDecl true) ;; Ret (MENamed (NEDecl (DFunction f)))
    else fail_look ["let"; "var"; "const"; "class"; "function"]
  else ifM at_async_function then
    f <- Call (CFunctionDecl false) ;; Ret (MENamed (NEDecl (DFunction f)))
  else
    expect_punct POpenBrace ;;
    '(specifiers, found_default) <-
      Loop ([], false) (fun '(specifiers, found_default) =>
        ifM at_punct PCloseBrace then Ret (inr (specifiers, found_default))
        else
          d <- at_keyword KDefault ;;
          s <- Call CExportSpecifier ;;
          ifM at_punct PCloseBrace then Ret (inl (specifiers ++ [s], found_default || d))
          else expect_punct PComma ;; Ret (inl (specifiers ++ [s], found_default || d))) ;;
    next ;;
    ifM at_contextual "from" then
      next ;;
      source <- Call CModuleSpecifier ;;
      Call CConsumeSemicolon ;;
      Ret (MENamed (NESpecifier specifiers (Some source)))
    else if found_default then fail_look [""]
    else
      Call CConsumeSemicolon ;;
      Ret (MENamed (NESpecifier specifiers None)).

Definition export_specifier : P ExportSpecifier :=
  local <- Call CIdentName ;;
  ifM at_contextual "as" then
    next ;;
    e <- Call CIdentName ;; Ret (mkExportSpec local (Some e))
  else Ret (mkExportSpec local None).

Definition module_specifier : P Literal :=
  i <- next ;;
  match it_tok i with
  | TString => t <- get_string i ;; Ret (LString t)
  | _ => Fail (FExpected i ["[string]"])
  end.

(** ** Statements: lib.rs:864-1572 *)

Definition statement : P Stmt :=
  t <- look_tok ;;
  match t with
  | TBoolean _ | TNull | TNumeric | TString | TRegEx | TTemplate _ =>
      e <- Call CExpressionStatement ;; Ret (SExpr e)
  | TPunct POpenBrace => b <- Call CBlock ;; Ret (SBlock b)
  | TPunct POpenParen => e <- Call CExpressionStatement ;; Ret (SExpr e)
  | TPunct PSemiColon => next ;; Ret SEmpty
  | TPunct _ => e <- Call CExpressionStatement ;; Ret (SExpr e)
  | TIdent =>
      ifM at_async_function then f <- Call (CFunctionDecl true) ;; Ret (SExpr (EFunction f))
      else Call CLabelledStatement
  | TKeyword KBreak => l <- Call CBreakStmt ;; Ret (SBreak l)
  | TKeyword KContinue => l <- Call CContinueStmt ;; Ret (SContinue l)
  | TKeyword KDebugger => Call CDebuggerStmt
  | TKeyword KDo => Call CDoWhileStmt
  | TKeyword KFor => Call CForStmt
  | TKeyword KFunction => e <- Call CFnStmt ;; Ret (SExpr e)
  | TKeyword KIf => Call CIfStmt
  | TKeyword KReturn => e <- Call CReturnStmt ;; Ret (SReturn e)
  | TKeyword KSwitch => Call CSwitchStmt
  | TKeyword KThrow => e <- Call CThrowStmt ;; Ret (SThrow e)
  | TKeyword KTry => Call CTryStmt
  | TKeyword KVar => Call CVarStmt
  | TKeyword KWhile => Call CWhileStmt
  | TKeyword KWith => Call CWithStmt
  | TKeyword _ => e <- Call CExpressionStatement ;; Ret (SExpr e)
  | _ => fail_look []
  end.

Definition with_stmt : P Stmt :=
  strict <- get c_strict ;;
  (if strict then
     pos <- Do OCurPos ;;
     Do (OTolerate (FError (NonStrictFeatureInStrictContext pos "with statements")))
   else Ret tt) ;;
  expect_keyword KWith ;;
  expect_punct POpenParen ;;
  obj <- Call CExpression ;;
  ifM at_punct PCloseParen then
    expect_punct PCloseParen ;;
    b <- Call CStatement ;;
    Ret (SWith obj b)
  else
    la <- look ;;
    Do (OTolerate (FExpected la [")"])) ;;
    Ret (SWith obj SEmpty).

Definition while_stmt : P Stmt :=
  expect_keyword KWhile ;;
  expect_punct POpenParen ;;
  test <- Call CExpression ;;
  ifM at_punct PCloseParen then
    expect_punct PCloseParen ;;
    prev_iter <- get c_in_iteration ;;
    b <- Call CStatement ;;
    upd (set_in_iteration prev_iter) ;;
    Ret (SWhile test b)
  else
    la <- look ;;
    Do (OTolerate (FExpected la [")"])) ;;
    Ret (SWhile test SEmpty).

Definition var_stmt : P Stmt :=
  expect_keyword KVar ;;
  decls <- Call (CVarDeclList false) ;;
  Call CConsumeSemicolon ;;
  Ret (SVar decls).

(** [vec![f()?]; while at(Comma) { next_item()?; push(f()?) }]: the shape of
    lib.rs:985-992, 1591-1608. *)
Definition comma_list {A} (f : P A) : P (list A) :=
  x <- f ;;
  Loop [x] (fun ret =>
    ifM at_punct PComma then next ;; y <- f ;; Ret (inl (ret ++ [y]))
    else Ret (inr ret)).

Definition var_decl_list (in_for : bool) : P (list VariableDecl) :=
  comma_list (Call (CVarDecl in_for)).

Definition var_decl (in_for : bool) : P VariableDecl :=
  '(_, patt) <- Call (CPattern (Some VVar)) ;;
  ifM at_punct PAssign then
    next ;;
    init <- isolated (Call CAssignmentExpr) ;;
    Ret (mkVarDecl patt (Some init))
  else if negb (is_pat_ident patt) && negb in_for then fail_look ["="]
  else Ret (mkVarDecl patt None).

Definition try_stmt : P Stmt :=
  expect_keyword KTry ;;
  block <- Call CBlock ;;
  handler <- (ifM at_keyword KCatch then h <- Call CCatchClause ;; Ret (Some h) else Ret None) ;;
  finalizer <- (ifM at_keyword KFinally then f <- Call CFinallyClause ;; Ret (Some f) else Ret None) ;;
  Ret (STry block handler finalizer).

Definition catch_clause : P CatchClause :=
  expect_keyword KCatch ;;
  param <-
    (ifM at_punct POpenParen then
       expect_punct POpenParen ;;
       '(_, p) <- Call (CPattern None) ;;
       expect_punct PCloseParen ;;
       Ret (Some p)
     else Ret None) ;;
  b <- Call CBlock ;;
  Ret (mkCatch param b).

Definition finally_clause : P (list ProgramPart) :=
  expect_keyword KFinally ;;
  Call CBlock.

Definition throw_stmt : P Expr :=
  expect_keyword KThrow ;;
  arg <- Call CExpression ;;
  Call CConsumeSemicolon ;;
  Ret arg.

Definition case_test (c : SwitchCase) : option Expr := match c with mkCase t _ => t end.

Definition switch_stmt : P Stmt :=
  expect_keyword KSwitch ;;
  expect_punct POpenParen ;;
  discriminant <- Call CExpression ;;
  expect_punct PCloseParen ;;
  expect_punct POpenBrace ;;
  prev_sw <- get c_in_switch ;;
  upd (set_in_switch true) ;;
  cases <- Loop (false, []) (fun '(found_default, cases) =>
    ifM at_punct PCloseBrace then Ret (inr cases)
    else
      case <- Call CSwitchCase ;;
      match case_test case with
      | None => if found_default : bool then fail_look [] else Ret (inl (true, cases ++ [case]))
      | Some _ => Ret (inl (found_default, cases ++ [case]))
      end) ;;
  expect_punct PCloseBrace ;;
  upd (set_in_switch prev_sw) ;;
  Ret (SSwitch discriminant cases).

Definition switch_case : P SwitchCase :=
  test <-
    (ifM at_keyword KDefault then expect_keyword KDefault ;; Ret None
     else
       expect_keyword KCase ;;
       e <- Call CExpression ;;
       Ret (Some e)) ;;
  expect_punct PColon ;;
  consequent <- Loop [] (fun acc =>
    t <- look_tok ;;
    if is_punct PCloseBrace t || is_keyword KDefault t || is_keyword KCase t then Ret (inr acc)
    else p <- Call CStatementListItem ;; Ret (inl (acc ++ [p]))) ;;
  Ret (mkCase test consequent).

Definition return_stmt : P (option Expr) :=
  inf <- get c_in_function_body ;;
  if negb inf then
    la <- look ;; Fail (FUnexpected la "cannot return in the global context")
  else
    expect_keyword KReturn ;;
    ret <- (ifM at_return_arg then e <- Call CExpression ;; Ret (Some e) else Ret None) ;;
    Call CConsumeSemicolon ;;
    Ret ret.

Definition if_stmt : P Stmt :=
  expect_keyword KIf ;;
  expect_punct POpenParen ;;
  test <- Call CExpression ;;
  ifM at_punct PCloseParen then
    expect_punct PCloseParen ;;
    c <- Call CIfClause ;;
    a <- (ifM at_keyword KElse then next ;; s <- Call CIfClause ;; Ret (Some s) else Ret None) ;;
    Ret (SIf test c a)
  else
    la <- look ;;
    Do (OTolerate (FExpected la [")"])) ;;
    Ret (SIf test SEmpty None).

Definition if_clause : P Stmt :=
  strict <- get c_strict ;;
  la <- look ;;
  (if strict && is_keyword KFunction (it_tok la)
   then Do (OTolerate (FUnexpected la "")) else Ret tt) ;;
  Call CStatement.

Definition fn_stmt : P Expr :=
  f <- Call (CFunctionDecl true) ;; Ret (EFunction f).

(** lib.rs:1195-1349.  [bindings.len() == 1] followed by [pop] is the match on
    the list; the [else] of the [pop] cannot be reached. *)
Definition for_stmt : P Stmt :=
  expect_keyword KFor ;;
  is_await <- (ifM at_keyword KAwait then next ;; Ret true else Ret false) ;;
  expect_punct POpenParen ;;
  t <- look_tok ;;
  if is_punct PSemiColon t then Call (CForLoop VVar)
  else if is_keyword KVar t then
    next ;;
    prev_in <- get c_allow_in ;;
    upd (set_allow_in false) ;;
    bindings <- Call (CVariableDeclList true) ;;
    upd (set_allow_in prev_in) ;;
    match bindings with
    | [decl] =>
        ifM at_keyword KIn then Call (CForInLoop (LLVariable VVar decl))
        else ifM at_contextual "of" then Call (CForOfLoop (LLVariable VVar decl) is_await)
        else Call (CForLoopCont (Some (LIVariable VVar [decl])))
    | _ => Call (CForLoopCont (Some (LIVariable VVar bindings)))
    end
  else if is_keyword KConst t || is_keyword KLet t then
    ki <- next ;;
    kind <-
      (match it_tok ki with
       | TKeyword KConst => Ret VConst
       | TKeyword KLet => Ret VLet
       | TKeyword _ => Crash
       | _ => Fail (FExpected ki ["const"; "let"])
       end) ;;
    strict <- get c_strict ;;
    t2 <- look_tok ;;
    if negb strict && is_keyword KIn t2 then
      next ;;
      let k := match kind with VVar => str "var" | VLet => str "let" | VConst => str "const" end in
      right <- Call CExpression ;;
      b <- Call CLoopBody ;;
      Ret (SForIn (LLExpr (EIdent k)) right b)
    else
      prev_in <- get c_allow_in ;;
      upd (set_allow_in false) ;;
      decls <- Call (CBindingList kind true) ;;
      upd (set_allow_in prev_in) ;;
      match decls with
      | [mkVarDecl id init as decl] =>
          let no_init := match init with None => true | Some _ => false end in
          i <- at_keyword KIn ;;
          if no_init && i then
            next ;;
            right <- Call CExpression ;;
            b <- Call CLoopBody ;;
            Ret (SForIn (LLVariable kind decl) right b)
          else
            o <- (if no_init then at_contextual "of" else Ret false) ;;
            if o then Call (CForOfLoop (LLVariable kind decl) is_await)
            else Call (CForLoopCont (Some (LIVariable kind [decl])))
      | _ => Call (CForLoopCont (Some (LIVariable kind decls)))
      end
  else
    prev_in <- get c_allow_in ;;
    upd (set_allow_in false) ;;
    init <- inheriting (Call CAssignmentExpr) ;;
    upd (set_allow_in prev_in) ;;
    ifM at_keyword KIn then
      next ;;
      right <- Call CExpression ;;
      b <- Call CLoopBody ;;
      Ret (SForIn (LLExpr init) right b)
    else ifM at_contextual "of" then
      next ;;
      right <- Call CAssignmentExpr ;;
      b <- Call CLoopBody ;;
      Ret (SForOf (LLExpr init) right b is_await)
    else
      li <-
        (ifM at_punct PComma then
           seq <- Loop [init] (fun seq =>
             ifM at_punct PComma then
               next ;;
               e <- inheriting (Call CAssignmentExpr) ;;
               Ret (inl (seq ++ [e]))
             else Ret (inr seq)) ;;
           Ret (LIExpr (ESequence seq))
         else Ret (LIExpr init)) ;;
      Call (CForLoopCont (Some li)).

Definition for_loop (kind : VariableKind) : P Stmt :=
  ifM at_punct PSemiColon then Call (CForLoopCont None)
  else
    l <- Call (CVariableDeclList true) ;;
    Call (CForLoopCont (Some (LIVariable kind l))).

Definition for_loop_cont (init : option LoopInit) : P Stmt :=
  expect_punct PSemiColon ;;
  test <- (ifM at_punct PSemiColon then Ret None else e <- Call CExpression ;; Ret (Some e)) ;;
  expect_punct PSemiColon ;;
  update <- (ifM at_punct PCloseParen then Ret None else e <- Call CExpression ;; Ret (Some e)) ;;
  b <- Call CLoopBody ;;
  Ret (SFor init test update b).

Definition for_in_loop (left : LoopLeft) : P Stmt :=
  next ;;
  right <- Call CExpression ;;
  b <- Call CLoopBody ;;
  Ret (SForIn left right b).

Definition for_of_loop (left : LoopLeft) (is_await : bool) : P Stmt :=
  next ;;
  right <- Call CAssignmentExpr ;;
  b <- Call CLoopBody ;;
  Ret (SForOf left right b is_await).

Definition loop_body : P Stmt :=
  expect_punct PCloseParen ;;
  prev_iter <- get c_in_iteration ;;
  upd (set_in_iteration true) ;;
  ret <- isolated (Call CStatement) ;;
  upd (set_in_iteration prev_iter) ;;
  Ret ret.

Definition do_while_stmt : P Stmt :=
  expect_keyword KDo ;;
  prev_iter <- get c_in_iteration ;;
  upd (set_in_iteration true) ;;
  b <- Call CStatement ;;
  upd (set_in_iteration prev_iter) ;;
  expect_keyword KWhile ;;
  expect_punct POpenParen ;;
  test <- Call CExpression ;;
  expect_punct PCloseParen ;;
  ifM at_punct PSemiColon then expect_punct PSemiColon ;; Ret (SDoWhile test b)
  else Ret (SDoWhile test b).

Definition optionally_labeled (k : keyword) : P (option Identifier) :=
  expect_keyword k ;;
  t <- look_tok ;;
  nl <- Do ONewLine ;;
  ret <- (if is_ident t && negb nl then id <- Call (CVarIdent false) ;; Ret (Some id) else Ret None) ;;
  Call CConsumeSemicolon ;;
  Ret ret.

Definition break_stmt : P (option Identifier) := Call (COptionallyLabeled KBreak).
Definition continue_stmt : P (option Identifier) := Call (COptionallyLabeled KContinue).

Definition debugger_stmt : P Stmt :=
  expect_keyword KDebugger ;;
  Call CConsumeSemicolon ;;
  Ret SDebugger.

(** [HashSet<String>] operations of lib.rs:1490-1513. *)
Definition set_mem (x : text) (l : list text) : bool := existsb (text_eqb x) l.
Definition set_remove (x : text) (l : list text) : list text :=
  filter (fun y => negb (text_eqb x y)) l.
(** [format!("${}", &id)]. *)
Definition label_key (id : text) : text := str "$" ++ id.

Definition labelled_statement : P Stmt :=
  ret <- Call CExpression ;;
  colon <- at_punct PColon ;;
  match ret, colon with
  | EIdent id, true =>
      next ;;
      labels <- get c_label_set ;;
      if set_mem (label_key id) labels then Fail (FRedecl id)
      else
        upd (set_label_set (label_key id :: labels)) ;;
        b <-
          (ifM at_keyword KClass then
             class <- next ;;
             Do (OTolerate (FUnexpected class "")) ;;
             b <- Call CClassBody ;;
             Ret (SExpr (EClass (mkClass None None b)))
           else ifM at_keyword KFunction then
             f <- Call (CFunctionDecl true) ;; Ret (SExpr (EFunction f))
           else Call CStatement) ;;
        upd (fun c => set_label_set (set_remove (label_key id) (c_label_set c)) c) ;;
        Ret (SLabeled id b)
  | _, _ =>
      Call CConsumeSemicolon ;;
      Ret (SExpr ret)
  end.

Definition expression_statement : P Expr :=
  ret <- Call CExpression ;;
  Call CConsumeSemicolon ;;
  Ret ret.

Definition expression : P Expr :=
  ret <- isolated (Call CAssignmentExpr) ;;
  ifM at_punct PComma then
    l <- Loop [ret] (fun l =>
      t <- look_tok ;;
      if is_eof t then Ret (inr l)
      else if negb (is_punct PComma t) then Ret (inr l)
      else
        next ;;
        e <- isolated (Call CAssignmentExpr) ;;
        Ret (inl (l ++ [e]))) ;;
    Ret (ESequence l)
  else Ret ret.

Definition block : P (list ProgramPart) :=
  expect_punct POpenBrace ;;
  ret <- Loop [] (fun ret =>
    ifM at_punct PCloseBrace then Ret (inr ret)
    else p <- Call CStatementListItem ;; Ret (inl (ret ++ [p]))) ;;
  expect_punct PCloseBrace ;;
  Ret ret.

(** ** Declarations: lib.rs:1574-1834 *)

Definition lexical_decl (in_for : bool) : P Decl :=
  i <- next ;;
  kind <-
    (match it_tok i with
     | TKeyword KLet => Ret VLet
     | TKeyword KConst => Ret VConst
     | _ => Fail (FExpected i ["let"; "const"])
     end) ;;
  decl <- Call (CBindingList kind in_for) ;;
  Call CConsumeSemicolon ;;
  Ret (DVariable kind decl).

Definition binding_list (kind : VariableKind) (in_for : bool) : P (list VariableDecl) :=
  comma_list (Call (CLexicalBinding kind in_for)).

Definition variable_decl_list (in_for : bool) : P (list VariableDecl) :=
  comma_list (Call (CVariableDecl in_for)).

Definition variable_decl (in_for : bool) : P VariableDecl :=
  start <- look ;;
  '(_, id) <- Call (CPattern (Some VVar)) ;;
  strict <- get c_strict ;;
  (if strict && is_restricted id
   then Do (OTolerate (FUnexpected start "restricted word")) else Ret tt) ;;
  ifM at_punct PAssign then
    next ;;
    init <- isolated (Call CAssignmentExpr) ;;
    Ret (mkVarDecl id (Some init))
  else if negb (is_pat_ident id) && negb in_for then
    expect_punct PAssign ;;
    Ret (mkVarDecl id None)
  else Ret (mkVarDecl id None).

Definition lexical_binding (kind : VariableKind) (in_for : bool) : P VariableDecl :=
  start <- look ;;
  '(_, id) <- Call (CPattern (Some kind)) ;;
  strict <- get c_strict ;;
  (if strict && is_restricted id
   then Do (OTolerate (FUnexpected start "restricted word")) else Ret tt) ;;
  a <- at_punct PAssign ;;
  match kind with
  | VConst =>
      ifM at_keyword KIn then Ret (mkVarDecl id None)
      else ifM at_contextual "of" then Ret (mkVarDecl id None)
      else if a then
        next ;;
        init <- isolated (Call CAssignmentExpr) ;;
        Ret (mkVarDecl id (Some init))
      else fail_look ["="]
  | _ =>
      if (negb in_for && negb (is_pat_ident id)) || a then
        expect_punct PAssign ;;
        init <- isolated (Call CAssignmentExpr) ;;
        Ret (mkVarDecl id (Some init))
      else Ret (mkVarDecl id None)
  end.

Definition function_decl (opt_ident : bool) : P Function :=
  is_async <- (ifM at_contextual "async" then next ;; Ret true else Ret false) ;;
  expect_keyword KFunction ;;
  is_gen <-
    (if is_async : bool then Ret false
     else ifM at_punct PAsterisk then next ;; Ret true else Ret false) ;;
  op <- at_punct POpenParen ;;
  '(id, first_restricted) <-
    (if negb opt_ident || negb op then
       start <- look ;;
       id <- Call (CVarIdent false) ;;
       strict <- get c_strict ;;
       restr <- Do (OQuery (QRestricted (it_tok start))) ;;
       resv <- Do (OQuery (QStrictReserved (it_tok start))) ;;
       if strict then
         if restr then Fail (FExpected start []) else Ret (Some id, None)
       else if restr || resv then Ret (Some id, Some start)
       else Ret (Some id, None)
     else Ret (None, None)) ;;
  prev_await <- get c_await ;;
  prev_yield <- get c_allow_yield ;;
  upd (set_await is_async) ;;
  upd (set_allow_yield (negb is_gen)) ;;
  fp <- Call CFormalParams ;;
  prev_strict <- get c_strict ;;
  prev_allow_strict <- get c_allow_strict_directive ;;
  upd (set_allow_strict_directive (fp_simple fp)) ;;
  b <- Call CFunctionSourceEl ;;
  strict <- get c_strict ;;
  (match first_restricted with
   | Some i => if strict then Fail (FExpected i []) else Ret tt
   | None => Ret tt
   end) ;;
  (if strict && fp_strict fp then fail_look [] else Ret tt) ;;
  upd (set_strict prev_strict) ;;
  upd (set_allow_strict_directive prev_allow_strict) ;;
  upd (set_await prev_await) ;;
  upd (set_allow_yield prev_yield) ;;
  Ret (mkFunction id (fp_params fp) b is_gen is_async).

Definition function_source_el : P (list ProgramPart) :=
  expect_punct POpenBrace ;;
  b0 <- Call CDirectivePrologues ;;
  prev <- Do OCtx ;;
  upd (fun c => set_in_function_body true (set_in_switch false (set_in_iteration false
                  (set_label_set [] c)))) ;;
  b <- Loop b0 (fun b =>
    t <- look_tok ;;
    if is_eof t then Ret (inr b)
    else if is_punct PCloseBrace t then Ret (inr b)
    else p <- Call CStatementListItem ;; Ret (inl (b ++ [p]))) ;;
  expect_punct PCloseBrace ;;
  upd (fun c => set_in_function_body (c_in_function_body prev)
                  (set_in_switch (c_in_switch prev) (set_in_iteration (c_in_iteration prev)
                    (set_label_set (c_label_set prev) c)))) ;;
  Ret b.

Definition class_decl (opt_ident : bool) : P Class :=
  prev_strict <- get c_strict ;;
  upd (set_strict true) ;;
  expect_keyword KClass ;;
  super0 <-
    (ifM at_contextual "extends" then
       next ;; e <- isolated (Call CLeftHandSideExpr) ;; Ret (Some e)
     else Ret None) ;;
  t <- look_tok ;;
  id <-
    (if opt_ident && negb (is_ident t) then Ret None
     else i <- Call (CVarIdent false) ;; Ret (Some i)) ;;
  super1 <-
    (match super0 with
     | Some _ => Ret None
     | None =>
         ifM at_contextual "extends" then
           next ;; e <- isolated (Call CLeftHandSideExpr) ;; Ret (Some e)
         else Ret None
     end) ;;
  b <- Call CClassBody ;;
  upd (set_strict prev_strict) ;;
  Ret (mkClass id super1 b).

Definition class_body : P (list Property) :=
  expect_punct POpenBrace ;;
  ret <- Loop (false, []) (fun '(has_ctor, ret) =>
    ifM at_punct PCloseBrace then Ret (inr ret)
    else ifM at_punct PSemiColon then next ;; Ret (inl (has_ctor, ret))
    else
      '(ctor, el) <- Call (CClassEl has_ctor) ;;
      Ret (inl (ctor, ret ++ [el]))) ;;
  expect_punct PCloseBrace ;;
  Ret ret.

(** ** Class elements and methods: lib.rs:1836-2251 *)

(** lib.rs:1989-2007 [is_key]; [is_static] (2023-2041) is [is_key "static"]. *)
Definition is_key (k : PropertyKey) (w : string) : bool :=
  match k with
  | PKLiteral (LString s) => text_eqb s (str w)
  | PKExpr (EIdent s) => text_eqb s (str w)
  | PKPat (PIdentifier s) => text_eqb s (str w)
  | _ => false
  end.

(** lib.rs:2009-2018 [is_generator]. *)
Definition is_generator (v : PropertyValue) : bool :=
  match v with
  | PVExpr (EFunction (mkFunction _ _ _ g _)) => g
  | PVExpr (EArrowFunction _ _ _ _ g _) => g
  | _ => false
  end.

(** What [parse_class_el] knows after lib.rs:1836-1882. *)
Record el_head := mkHead {
  eh_tok : token; eh_key : option PropertyKey; eh_computed : bool; eh_static : bool; eh_async : bool }.

Definition class_el_head : P el_head :=
  token0 <- look_tok ;;
  is_async <- (ifM at_contextual "async" then next ;; Ret true else Ret false) ;;
  ifM at_punct PAsterisk then
    next ;;
    Ret (mkHead token0 None false false is_async)
  else
    computed0 <- at_punct POpenBracket ;;
    new_key <- Call CObjectPropertyKey ;;
    t <- look_tok ;;
    q <- qualified_prop_name t ;;
    h <-
      (if is_key new_key "static" && (q || is_punct PAsterisk t) then
         if is_punct PAsterisk t then
           next ;;
           Ret (mkHead t None (is_punct POpenBracket t) true is_async)
         else
           k <- Call CObjectPropertyKey ;;
           Ret (mkHead t (Some k) (is_punct POpenBracket t) true is_async)
       else Ret (mkHead token0 (Some new_key) computed0 false is_async)) ;;
    nl <- Do ONewLine ;;
    (if is_ident (eh_tok h) && negb nl then
       ifM at_contextual "async" then
         t2 <- look_tok ;;
         if negb (is_punct PColon t2) && negb (is_punct POpenParen t2) && negb (is_punct PAsterisk t2)
         then fail_look [":"; "("; "*"] else Ret tt
       else Ret tt
     else Ret tt) ;;
    Ret h.

(** lib.rs:1884-1928: kind, key, value, method flag and computed flag. *)
Record el_mid := mkMid {
  em_kind : option PropertyKind; em_key : option PropertyKey; em_value : option PropertyValue;
  em_method : bool; em_computed : bool }.

Definition class_el_mid (h : el_head) : P el_mid :=
  t <- look_tok ;;
  q <- qualified_prop_name t ;;
  let unchanged := mkMid None (eh_key h) None false (eh_computed h) in
  m <-
    (if is_ident (eh_tok h) then
       let at_get := match eh_key h with Some k => is_key k "get" && q | None => false end in
       let at_set := match eh_key h with Some k => is_key k "set" && q | None => false end in
       if at_get then
         computed <- at_punct POpenBracket ;;
         upd (set_allow_yield false) ;;
         k <- Call CObjectPropertyKey ;;
         v <- Call CGetterMethod ;;
         Ret (mkMid (Some KGet) (Some k) (Some v) false computed)
       else if at_set then
         computed <- at_punct POpenBracket ;;
         k <- Call CObjectPropertyKey ;;
         v <- Call CSetterMethod ;;
         Ret (mkMid (Some KSet) (Some k) (Some v) false computed)
       else Ret unchanged
     else if is_punct PAsterisk (eh_tok h) && q then
       computed <- at_punct POpenBracket ;;
       k <- Call CObjectPropertyKey ;;
       v <- Call CGeneratorMethod ;;
       Ret (mkMid (Some KInit) (Some k) (Some v) true computed)
     else Ret unchanged) ;;
  p <- at_punct POpenParen ;;
  match em_kind m, em_key m with
  | None, Some k =>
      if p then
        v <- (if eh_async h then Call CAsyncPropertyMethod else Call CPropertyMethod) ;;
        Ret (mkMid (Some KInit) (Some k) (Some v) true (em_computed m))
      else Ret m
  | _, _ => Ret m
  end.

Definition class_el (has_ctor : bool) : P (bool * Property) :=
  h <- class_el_head ;;
  m <- class_el_mid h ;;
  match em_kind m with
  | None => fail_look ["method identifier"]
  | Some kind0 =>
      let kind := match kind0 with KInit => KMethod | k => k end in
      match em_key m with
      | None => fail_look []
      | Some key =>
          '(has_ctor', kind') <-
            (if em_computed m then Ret (has_ctor, kind)
             else if eh_static h && is_key key "prototype" then fail_look []
             else if negb (eh_static h) && is_key key "constructor" then
               match kind, em_method m with
               | KMethod, true =>
                   if match em_value m with Some v => is_generator v | None => false end
                   then fail_look ["[non-generator function declaration]"]
                   else if has_ctor then fail_look []
                   else Ret (true, KCtor)
               | _, _ => fail_look ["[constructor declaration]"]
               end
             else Ret (has_ctor, kind)) ;;
          match em_value m with
          | None => fail_look []
          | Some v => Ret (has_ctor', mkProperty key v kind' (em_method m) (em_computed m) false)
          end
      end
  end.

Definition async_property_method : P PropertyValue :=
  prev_yield <- get c_allow_yield ;;
  prev_await <- get c_await ;;
  upd (set_allow_yield false) ;;
  upd (set_await true) ;;
  fp <- Call CFormalParams ;;
  b <- Call (CPropertyMethodBody (fp_simple fp) (fp_found_restricted fp)) ;;
  upd (set_allow_yield prev_yield) ;;
  upd (set_await prev_await) ;;
  Ret (PVExpr (EFunction (mkFunction None (fp_params fp) b false true))).

Definition property_method : P PropertyValue :=
  prev_yield <- get c_allow_yield ;;
  upd (set_allow_yield false) ;;
  fp <- Call CFormalParams ;;
  b <- Call (CPropertyMethodBody (fp_simple fp) (fp_found_restricted fp)) ;;
  upd (set_allow_yield prev_yield) ;;
  Ret (PVExpr (EFunction (mkFunction None (fp_params fp) b false false))).

Definition generator_method : P PropertyValue :=
  prev_yield <- get c_allow_yield ;;
  upd (set_allow_yield true) ;;
  fp <- Call CFormalParams ;;
  upd (set_allow_yield false) ;;
  b <- Call (CMethodBody (fp_simple fp) (fp_found_restricted fp)) ;;
  upd (set_allow_yield prev_yield) ;;
  Ret (PVExpr (EFunction (mkFunction None (fp_params fp) b true false))).

Definition getter_method : P PropertyValue :=
  prev_yield <- get c_allow_yield ;;
  start_position <- Do OLookPos ;;
  fp <- Call CFormalParams ;;
  (if 0 <? length (fp_params fp)
   then Do (OTolerate (FError (InvalidGetterParams start_position))) else Ret tt) ;;
  b <- Call (CMethodBody (fp_simple fp) (fp_found_restricted fp)) ;;
  upd (set_allow_yield prev_yield) ;;
  Ret (PVExpr (EFunction (mkFunction None (fp_params fp) b false false))).

Definition method_body (simple found_restricted : bool) : P (list ProgramPart) :=
  not_target ;;
  prev_strict <- get c_strict ;;
  prev_allow_strict <- get c_allow_strict_directive ;;
  upd (set_allow_strict_directive simple) ;;
  start <- look ;;
  b <- isolated (Call CFunctionSourceEl) ;;
  strict <- get c_strict ;;
  (if strict && found_restricted
   then Do (OTolerate (FUnexpected start "restricted ident")) else Ret tt) ;;
  upd (set_strict prev_strict) ;;
  upd (set_allow_strict_directive prev_allow_strict) ;;
  Ret b.

(** lib.rs:2154-2167 [is_rest]. *)
Definition is_rest (a : FunctionArg) : bool :=
  match a with
  | FAExpr (ESpread _) => true
  | FAPat (PRestElement _) => true
  | _ => false
  end.

Definition setter_method : P PropertyValue :=
  prev_allow <- get c_allow_yield ;;
  upd (set_allow_yield true) ;;
  start_position <- Do OLookPos ;;
  fp <- Call CFormalParams ;;
  upd (set_allow_yield prev_allow) ;;
  (match fp_params fp with
   | [param] =>
       if is_rest param
       then Do (OTolerate (FError (InvalidSetterParams start_position))) else Ret tt
   | _ => Do (OTolerate (FError (InvalidSetterParams start_position)))
   end) ;;
  b <- Call (CPropertyMethodBody (fp_simple fp) (fp_found_restricted fp)) ;;
  Ret (PVExpr (EFunction (mkFunction None (fp_params fp) b false false))).

Definition property_method_body (simple found_restricted : bool) : P (list ProgramPart) :=
  not_target ;;
  prev_strict <- get c_strict ;;
  prev_allow <- get c_allow_strict_directive ;;
  upd (set_allow_strict_directive simple) ;;
  start_pos <- Do OLookPos ;;
  b <- inheriting (Call CFunctionSourceEl) ;;
  strict <- get c_strict ;;
  (if strict && found_restricted
   then Do (OTolerate (FError (NonStrictFeatureInStrictContext start_pos "restriced ident")))
   else Ret tt) ;;
  upd (set_strict prev_strict) ;;
  upd (set_allow_strict_directive prev_allow) ;;
  Ret b.

(** lib.rs:2253-2261 [is_valid_property_key_literal] and the match after its use. *)
Definition key_of_expr (e : Expr) : PropertyKey :=
  match e with
  | ELiteral (LString s) => PKLiteral (LString s)
  | ELiteral (LNumber s) => PKLiteral (LNumber s)
  | ELiteral (LBoolean b) => PKLiteral (LBoolean b)
  | _ => PKExpr e
  end.

Definition object_property_key : P PropertyKey :=
  i <- next ;;
  match it_tok i with
  | TString => t <- get_string i ;; Ret (PKLiteral (LString t))
  | TNumeric => t <- get_string i ;; Ret (PKLiteral (LNumber t))
  | TIdent | TBoolean _ | TNull | TKeyword _ => t <- get_string i ;; Ret (PKExpr (EIdent t))
  | TPunct POpenBracket =>
      key <- isolated (Call CAssignmentExpr) ;;
      expect_punct PCloseBracket ;;
      Ret (key_of_expr key)
  | _ => Fail (FExpected i ["[string]"; "[number]"; "[ident]"; "[boolean]"; "null"; "[keyword]"; "["])
  end.

(** ** Primary expressions: lib.rs:2263-2719 *)

(** [raw.rfind('/')] as a byte index, lib.rs:2331. *)
Fixpoint rfind_slash (off : nat) (t : text) : option nat :=
  match t with
  | [] => None
  | c :: t' =>
      match rfind_slash (off + len_utf8 c) t' with
      | Some i => Some i
      | None => if N.eqb c 47 then Some off else None
      end
  end.

(** The inner test of lib.rs:2266 ([at_keyword(Await)] while the look-ahead is
    an identifier token) can never hold and is left out. *)
Definition primary_expression : P Expr :=
  t <- look_tok ;;
  if is_ident t then
    ifM at_async_function then Call CFunctionExpr
    else i <- next ;; s <- get_string i ;; Ret (EIdent s)
  else if is_number t || is_string t then
    not_target ;;
    i <- next ;;
    match it_tok i with
    | TNumeric => s <- string_or_empty i ;; Ret (ELiteral (LNumber s))
    | TString => s <- string_or_empty i ;; Ret (ELiteral (LString s))
    | _ => Crash
    end
  else if is_bool t then
    not_target ;;
    i <- next ;;
    match it_tok i with TBoolean b => Ret (ELiteral (LBoolean b)) | _ => Crash end
  else if is_template t then
    l <- Call CTemplateLiteral ;; Ret (ELiteral (LTemplate l))
  else if is_any_punct t then
    inheriting
      (if is_punct POpenParen t then Call CGroupExpr
       else if is_punct POpenBracket t then Call CArrayInit
       else if is_punct POpenBrace t then Call CObjInit
       else fail_look ["{"; "["; "("])
  else if is_regex t then
    not_target ;;
    i <- next ;;
    match it_tok i with
    | TRegEx =>
        rw <- string_or_empty i ;;
        match rfind_slash 0 rw with
        | None =>
            pos <- Do OCurPos ;;
            Fail (FError (UnexpectedToken pos (MPlain "malformed regex")))
        | Some e =>
            match slice rw 1 e, slice rw (e + 1) (byte_len rw) with
            | Some pattern, Some flags => Ret (ELiteral (LRegEx pattern flags))
            | _, _ => Crash
            end
        end
    | _ => Crash
    end
  else if is_any_keyword t then
    strict <- get c_strict ;;
    allow_yield <- get c_allow_yield ;;
    resv <- Do (OQuery (QStrictReserved t)) ;;
    if negb strict && ((allow_yield && is_keyword KYield t) || is_keyword KLet t) then
      s <- Call CIdentName ;; Ret (EIdent s)
    else if negb strict && resv then
      s <- Call CIdentName ;; Ret (EIdent s)
    else
      not_target ;;
      if is_keyword KFunction t then Call CFunctionExpr
      else if is_keyword KThis t then next ;; Ret EThis
      else if is_keyword KClass t then c <- Call (CClassDecl true) ;; Ret (EClass c)
      else ifM at_import_call then s <- Call CIdentName ;; Ret (EIdent s)
      else fail_look ["function"; "this"; "class"; "import"]
  else fail_look ["[identifier]"; "async"; "[Number]"; "[String]"; "[RegEx]"; "yield"; "let";
                  "function"; "this"; "class"; "import"].

(** lib.rs:2391-2475.  The loop returns either an early result of the function
    ([inl]) or the collected sequence ([inr]). *)
Definition group_expr : P Expr :=
  expect_punct POpenParen ;;
  ifM at_punct PCloseParen then
    next ;;
    ifM at_punct PFatArrow then Ret (EArrowParamPlaceHolder [] false)
    else expect_punct PFatArrow ;; Ret (EArrowParamPlaceHolder [] false)
  else ifM at_punct PSpread then
    '(_, p) <- Call CRestElement ;;
    expect_punct PCloseParen ;;
    ifM at_punct PFatArrow then Ret (EArrowParamPlaceHolder [FAPat p] false)
    else expect_punct PFatArrow ;; Ret (EArrowParamPlaceHolder [FAPat p] false)
  else
    upd (set_binding_element true) ;;
    ex <- inheriting (Call CAssignmentExpr) ;;
    r <-
      (ifM at_punct PComma then
         Loop [ex] (fun exprs =>
           t <- look_tok ;;
           if is_eof t then Ret (inr (inr (ESequence exprs)))
           else if negb (is_punct PComma t) then Ret (inr (inr (ESequence exprs)))
           else
             next ;;
             ifM at_punct PCloseParen then
               next ;;
               Ret (inr (inl (EArrowParamPlaceHolder (map FAExpr exprs) false)))
             else ifM at_punct PSpread then
               b <- get c_binding_element ;;
               if negb b then fail_look ["not ..."]
               else
                 '(_, rest) <- Call CRestElement ;;
                 expect_punct PCloseParen ;;
                 Ret (inr (inl (EArrowParamPlaceHolder (map FAExpr exprs ++ [FAPat rest]) false)))
             else
               e <- inheriting (Call CAssignmentExpr) ;;
               Ret (inl (exprs ++ [e])))
       else Ret (inr ex)) ;;
    match r : Expr + Expr with
    | inl early => Ret early
    | inr ex =>
        expect_punct PCloseParen ;;
        ifM at_punct PFatArrow then
          match ex with
          | EIdent _ =>
              upd (set_binding_element false) ;;
              Ret (EArrowParamPlaceHolder [FAExpr ex] false)
          | _ =>
              b <- get c_binding_element ;;
              if negb b then fail_look ["binding element"]
              else
                match ex with
                | ESequence seq => Ret (EArrowParamPlaceHolder (map FAExpr seq) false)
                | _ => Ret (EArrowParamPlaceHolder [FAExpr ex] false)
                end
          end
        else Ret ex
    end.

Definition array_init : P Expr :=
  expect_punct POpenBracket ;;
  elements <- Loop [] (fun elements =>
    ifM at_punct PCloseBracket then Ret (inr elements)
    else ifM at_punct PComma then next ;; Ret (inl (elements ++ [None]))
    else ifM at_punct PSpread then
      el <- Call CSpreadElement ;;
      ifM at_punct PCloseBracket then Ret (inl (elements ++ [Some el]))
      else
        not_target ;;
        expect_punct PComma ;;
        Ret (inl (elements ++ [Some el]))
    else
      el <- inheriting (Call CAssignmentExpr) ;;
      ifM at_punct PCloseBracket then Ret (inl (elements ++ [Some el]))
      else expect_punct PComma ;; Ret (inl (elements ++ [Some el]))) ;;
  expect_punct PCloseBracket ;;
  Ret (EArray elements).

Definition obj_init : P Expr :=
  expect_punct POpenBrace ;;
  props <- Loop (false, []) (fun '(has_proto, props) =>
    ifM at_punct PCloseBrace then Ret (inr props)
    else
      '(has_proto', prop) <-
        (ifM at_punct PSpread then
           s <- Call CSpreadElement ;; Ret (has_proto, OPSpread s)
         else
           '(found_proto, prop) <- Call (CObjProp has_proto) ;;
           Ret (has_proto || found_proto, prop)) ;;
      ifM at_punct PCloseBrace then Ret (inl (has_proto', props ++ [prop]))
      else Do OExpectComma ;; Ret (inl (has_proto', props ++ [prop]))) ;;
  expect_punct PCloseBrace ;;
  Ret (EObject props).

(** lib.rs:2664-2672 [is_proto_]. *)
Definition is_proto_ (k : PropertyKey) : bool :=
  match k with PKLiteral (LString s) => text_eqb s (str "_proto_") | _ => false end.

(** lib.rs:2528-2560: the key, whether [async] was consumed, and the computed flag. *)
Definition obj_prop_head (start : item) : P (option PropertyKey * bool * bool) :=
  match it_tok start with
  | TIdent =>
      id <- string_or_empty start ;;
      next ;;
      computed <- at_punct POpenBracket ;;
      if text_eqb id (str "async") then
        k <- Call CObjectPropertyKey ;; Ret (Some k, true, computed)
      else Ret (Some (PKExpr (EIdent id)), false, computed)
  | _ =>
      ifM at_punct PAsterisk then next ;; Ret (None, false, false)
      else
        computed <- at_punct POpenBracket ;;
        k <- Call CObjectPropertyKey ;;
        Ret (Some k, false, computed)
  end.

(** lib.rs:2594-2658: the branch that is neither getter, setter nor generator. *)
Definition obj_prop_plain (start : item) (start_pos : position) (has_proto : bool)
    (key : PropertyKey) (is_async computed : bool) : P (bool * ObjectProperty) :=
  colon <- at_punct PColon ;;
  if colon && negb is_async then
    has_proto' <-
      (if negb computed && is_proto_ key then
         (if has_proto
          then Do (OTolerate (FError (Redecl start_pos (str "prototype can only be declared once"))))
          else Ret tt) ;;
         Ret true
       else Ret has_proto) ;;
    next ;;
    cg <- get_cover ;;
    v <- Call CAssignmentExpr ;;
    set_inherit_cover cg ;;
    Ret (has_proto', OPProperty (mkProperty key (PVExpr v) KInit false computed false))
  else ifM at_punct POpenParen then
    v <- (if is_async then Call CAsyncPropertyMethod else Call CPropertyMethod) ;;
    Ret (has_proto, OPProperty (mkProperty key v KInit true computed false))
  else if is_ident (it_tok start) then
    ifM at_punct PAssign then
      la <- look ;;
      upd (set_first_covert (Some la)) ;;
      next ;;
      cg <- inherit_cover ;;
      inner <- Call CAssignmentExpr ;;
      set_isolate_cover cg ;;
      Ret (has_proto, OPProperty (mkProperty key (PVExpr inner) KInit false computed true))
    else Ret (has_proto, OPProperty (mkProperty key PVNone KInit false computed true))
  else Fail (FExpected start ["object property value"]).

Definition obj_prop (has_proto : bool) : P (bool * ObjectProperty) :=
  start <- look ;;
  start_pos <- Do OLookPos ;;
  '(key, is_async, computed) <- obj_prop_head start ;;
  t <- look_tok ;;
  let at_qualified := qualified_prop_key t in
  w <- stream_at start ;;
  if text_eqb w (str "get") && at_qualified && negb is_async then
    c <- at_punct POpenBracket ;;
    k <- Call CObjectPropertyKey ;;
    v <- Call CGetterMethod ;;
    Ret (has_proto, OPProperty (mkProperty k v KGet false c false))
  else if text_eqb w (str "set") && at_qualified && negb is_async then
    c <- at_punct POpenBracket ;;
    k <- Call CObjectPropertyKey ;;
    v <- Call CSetterMethod ;;
    Ret (has_proto, OPProperty (mkProperty k v KSet false c false))
  else if is_punct PAsterisk (it_tok start) && at_qualified then
    c <- at_punct POpenBracket ;;
    k <- Call CObjectPropertyKey ;;
    v <- Call CGeneratorMethod ;;
    Ret (has_proto, OPProperty (mkProperty k v KInit true c false))
  else
    match key with
    | Some key => obj_prop_plain start start_pos has_proto key is_async computed
    | None => Fail (FExpected start ["object property key"])
    end.

Definition template_literal : P TemplateLiteral :=
  t <- look_tok ;;
  if negb (is_template_head t) then fail_look ["template head"; "template no sub"]
  else
    quasi <- Call CTemplateElement ;;
    '(expressions, quasis) <-
      Loop (q_tail quasi, [], [quasi]) (fun '(breaking, expressions, quasis) =>
        if breaking : bool then Ret (inr (expressions, quasis))
        else
          e <- Call CExpression ;;
          quasi <- Call CTemplateElement ;;
          Ret (inl (q_tail quasi, expressions ++ [e], quasis ++ [quasi]))) ;;
    Ret (mkTemplate quasis expressions).

(** [&raw[1..raw.len() - k]]: panics when out of range. *)
Definition inner_slice (rw : text) (k : nat) : P text :=
  if byte_len rw <? k then Crash
  else match slice rw 1 (byte_len rw - k) with Some c => Ret c | None => Crash end.

Definition template_element : P TemplateElement :=
  i <- next ;;
  match it_tok i with
  | TTemplate k =>
      rw <- get_string i ;;
      match k with
      | THead | TBody => c <- inner_slice rw 2 ;; Ret (mkQuasi rw c false)
      | TTail | TNoSub => c <- inner_slice rw 1 ;; Ret (mkQuasi rw c true)
      end
  | _ => fail_look ["Template part"]
  end.

(** ** Functions, identifiers, patterns: lib.rs:2721-3058 *)

Definition function_expr : P Expr :=
  is_async <- at_contextual "async" ;;
  (if is_async then next ;; Ret tt else Ret tt) ;;
  expect_keyword KFunction ;;
  is_gen <- at_punct PAsterisk ;;
  (if is_gen then next ;; Ret tt else Ret tt) ;;
  prev_await <- get c_await ;;
  prev_yield <- get c_allow_yield ;;
  upd (set_await is_async) ;;
  upd (set_allow_yield (negb is_gen)) ;;
  '(id, found_restricted0) <-
    (ifM at_punct POpenParen then Ret (None, false)
     else
       i <- look ;;
       id <- Call (CFnName is_gen) ;;
       restr <- Do (OQuery (QRestricted (it_tok i))) ;;
       resv <- Do (OQuery (QStrictReserved (it_tok i))) ;;
       strict <- get c_strict ;;
       (if restr && strict
        then Do (OTolerate (FUnexpected i "restricted ident in strict context")) else Ret tt) ;;
       Ret (Some id, (restr && negb strict) || resv)) ;;
  fp <- Call CFormalParams ;;
  let found_restricted := found_restricted0 || fp_found_restricted fp in
  prev_strict <- get c_strict ;;
  start <- look ;;
  b <- Call CFunctionSourceEl ;;
  strict <- get c_strict ;;
  (if strict && found_restricted
   then Do (OTolerate (FUnexpected start "restricted ident in strict context")) else Ret tt) ;;
  upd (set_strict prev_strict) ;;
  upd (set_allow_strict_directive (fp_simple fp)) ;;
  upd (set_allow_yield prev_yield) ;;
  upd (set_await prev_await) ;;
  Ret (EFunction (mkFunction id (fp_params fp) b is_gen is_async)).

Definition fn_name (is_gen : bool) : P Identifier :=
  strict <- get c_strict ;;
  y <- at_keyword KYield ;;
  if strict && negb is_gen && y then Call CIdentName else Call (CVarIdent false).

Definition ident_name : P Identifier :=
  i <- next ;; get_string i.

Definition var_ident (is_var : bool) : P Identifier :=
  i <- next ;;
  strict <- get c_strict ;;
  allow_yield <- get c_allow_yield ;;
  await <- get c_await ;;
  resv <- Do (OQuery (QStrictReserved (it_tok i))) ;;
  let bad := FExpected i ["variable identifier"] in
  match it_tok i with
  | TIdent =>
      (if await then
         s <- stream_at i ;;
         if text_eqb s (str "await") then Fail bad else Ret tt
       else
         o <- Do (OStr i) ;;
         Do (OGuardModule (option_map (fun s => text_eqb s (str "await")) o) bad)) ;;
      string_or_empty i
  | TKeyword KYield => if strict || negb allow_yield then Fail bad else Ret (kw_text KYield)
  | TKeyword k =>
      if strict && resv then Fail bad
      else if strict || keyword_eqb KLet k || negb is_var then Fail bad
      else Ret (kw_text k)
  | _ =>
      (* strict-reserved, strict, not [is_var], or the final match: all give the same error *)
      Fail bad
  end.

Definition formal_params : P FormalParams :=
  expect_punct POpenParen ;;
  '(simple, found_restricted, args) <-
    (ifM at_punct PCloseParen then Ret (true, false, [])
     else
       Loop (true, false, []) (fun '(simple, found_restricted, args) =>
         t <- look_tok ;;
         if is_eof t then Ret (inr (simple, found_restricted, args))
         else
           '(s, r, arg) <- Call (CFormalParam simple) ;;
           let acc := (simple && s, found_restricted || r, args ++ [arg]) in
           ifM at_punct PCloseParen then Ret (inr acc)
           else
             expect_punct PComma ;;
             ifM at_punct PCloseParen then Ret (inr acc) else Ret (inl acc))) ;;
  expect_punct PCloseParen ;;
  Ret (mkFP simple args false found_restricted).

(** lib.rs:3329-3340 [is_simple]. *)
Definition is_simple (a : FunctionArg) : bool :=
  match a with
  | FAPat (PIdentifier _) => true
  | FAExpr (EIdent _) => true
  | _ => false
  end.

Definition formal_param (simple : bool) : P (bool * bool * FunctionArg) :=
  '(r, p) <- (ifM at_punct PSpread then Call CRestElement else Call CPatternWithDefault) ;;
  Ret (simple && is_simple (FAPat p), r, FAPat p).

Definition rest_element : P (bool * Pat) :=
  expect_punct PSpread ;;
  '(restricted, arg) <- Call (CPattern None) ;;
  ifM at_punct PAssign then fail_look ["not assignment"]
  else ifM at_punct PCloseParen then Ret (restricted, PRestElement arg)
  else fail_look [")"].

Definition binding_rest_el : P (bool * Pat) :=
  expect_punct PSpread ;;
  Call (CPattern None).

Definition pattern_with_default : P (bool * Pat) :=
  '(r, ret) <- Call (CPattern None) ;;
  ifM at_punct PAssign then
    next ;;
    prev_yield <- get c_allow_yield ;;
    upd (set_allow_yield true) ;;
    right <- isolated (Call CAssignmentExpr) ;;
    upd (set_allow_yield prev_yield) ;;
    Ret (r, PAssignment ret right)
  else Ret (r, ret).

Definition pattern (kind : option VariableKind) : P (bool * Pat) :=
  ifM at_punct POpenBracket then Call CArrayPattern
  else ifM at_punct POpenBrace then Call CObjectPattern
  else
    is_var <-
      (match kind with
       | Some VConst | Some VLet => ifM at_keyword KLet then fail_look ["identifier"] else Ret false
       | Some VVar | None => Ret true
       end) ;;
    ident <- Call (CVarIdent is_var) ;;
    Ret (is_restricted_word ident, PIdentifier ident).

(** lib.rs:2959-2986.  The loop ends either at [`]`] or by the [break] after a rest element. *)
Definition array_pattern : P (bool * Pat) :=
  expect_punct POpenBracket ;;
  elements <- Loop [] (fun elements =>
    ifM at_punct PCloseBracket then Ret (inr elements)
    else ifM at_punct PComma then next ;; Ret (inl (elements ++ [None]))
    else ifM at_punct PSpread then
      '(_, el) <- Call CBindingRestEl ;;
      Ret (inr (elements ++ [Some (APPat el)]))
    else
      '(_, el) <- Call CPatternWithDefault ;;
      ifM at_punct PCloseBracket then Ret (inl (elements ++ [Some (APPat el)]))
      else expect_punct PComma ;; Ret (inl (elements ++ [Some (APPat el)]))) ;;
  expect_punct PCloseBracket ;;
  Ret (false, PArray elements).

Definition object_pattern : P (bool * Pat) :=
  expect_punct POpenBrace ;;
  parts <- Loop [] (fun parts =>
    ifM at_punct PCloseBrace then Ret (inr parts)
    else
      el <- (ifM at_punct PSpread then Call CRestProp else Call CPropertyPattern) ;;
      ifM at_punct PCloseBrace then Ret (inl (parts ++ [el]))
      else expect_punct PComma ;; Ret (inl (parts ++ [el]))) ;;
  expect_punct PCloseBrace ;;
  Ret (false, PObject parts).

Definition rest_prop : P ObjectPatPart :=
  expect_punct PSpread ;;
  '(_, arg) <- Call (CPattern None) ;;
  Ret (OPPRest (PRestElement arg)).

Definition property_pattern : P ObjectPatPart :=
  t <- look_tok ;;
  if is_ident t then
    i <- Call (CVarIdent false) ;;
    let key := PKExpr (EIdent i) in
    ifM at_punct PAssign then
      expect_punct PAssign ;;
      e <- Call CAssignmentExpr ;;
      Ret (OPPAssignment (mkProperty key (PVExpr e) KInit false false true))
    else ifM at_punct PColon then
      expect_punct PColon ;;
      '(_, p) <- Call CPatternWithDefault ;;
      Ret (OPPAssignment (mkProperty key (PVPat p) KInit false false false))
    else Ret (OPPAssignment (mkProperty key PVNone KInit false false true))
  else
    key <- Call CObjectPropertyKey ;;
    expect_punct PColon ;;
    '(_, p) <- Call CPatternWithDefault ;;
    Ret (OPPAssignment (mkProperty key (PVPat p) KInit false (is_punct POpenBracket t) false)).

(** ** Assignment expressions: lib.rs:3060-3388 *)

(** lib.rs:3189-3196 [is_async]. *)
Definition is_async_expr (e : Expr) : bool :=
  match e with
  | EFunction (mkFunction _ _ _ _ a) => a
  | EArrowFunction _ _ _ _ _ a => a
  | EArrowParamPlaceHolder _ a => a
  | _ => false
  end.

(** lib.rs:3198-3217. *)
Definition assignment_operator (p : punct) : option AssignmentOperator :=
  match p with
  | PAssign => Some AEqual
  | PAddAssign => Some APlusEqual
  | PSubtractAssign => Some AMinusEqual
  | PMultiplyAssign => Some ATimesEqual
  | PDivideAssign => Some ADivEqual
  | PModuloAssign => Some AModEqual
  | PLeftShiftAssign => Some ALeftShiftEqual
  | PRightShiftAssign => Some ARightShiftEqual
  | PUnsignedRightShiftAssign => Some AUnsignedRightShiftEqual
  | PBitwiseOrAssign => Some AOrEqual
  | PBitwiseXOrAssign => Some AXOrEqual
  | PBitwiseAndAssign => Some AAndEqual
  | PExponentAssign => Some APowerOfEqual
  | _ => None
  end.

(** lib.rs:3219-3224. *)
Definition is_placeholder (e : Expr) : bool :=
  match e with EArrowParamPlaceHolder _ _ => true | _ => false end.

(** lib.rs:3303-3315 [is_await]. *)
Definition is_await (a : FunctionArg) : bool :=
  match a with
  | FAExpr (EIdent i) => text_eqb i (str "await")
  | FAPat (PIdentifier i) => text_eqb i (str "await")
  | _ => false
  end.

(** The closure of lib.rs:3237-3275: the converted parameter and whether it is invalid. *)
Definition cover_param (async_arrow : bool) (p : FunctionArg) : FunctionArg * bool :=
  match p with
  | FAPat (PAssignment _ (EYield (Some _) _)) => (p, true)
  | FAPat (PAssignment _ (EYield None _)) => (FAPat (PIdentifier (str "yield")), false)
  | FAPat (PAssignment _ _) => (p, false)
  | FAExpr (EAssignment _ _ (EYield (Some _) _)) => (p, true)
  | FAExpr (EAssignment _ _ (EYield None _)) => (FAExpr (EIdent (str "yield")), false)
  | FAExpr (EAssignment _ _ _) => (p, false)
  | _ => (p, async_arrow && is_await p)
  end.

Definition is_yield_arg (p : FunctionArg) : bool :=
  match p with FAExpr (EYield _ _) => true | _ => false end.

(** lib.rs:3226-3301. *)
Definition cover_formals (e : Expr) : P (option (list FunctionArg)) :=
  let o := match e with
           | EIdent _ => Some ([FAExpr e], false)
           | EArrowParamPlaceHolder params is_async => Some (params, is_async)
           | _ => None
           end in
  match o with
  | None => Ret None
  | Some (params0, async_arrow) =>
      let conv := map (cover_param async_arrow) params0 in
      let params := map fst conv in
      if existsb snd conv then fail_look ["not a yield expression in a function param"]
      else
        strict <- get c_strict ;;
        allow_yield <- get c_allow_yield ;;
        if strict && negb allow_yield && existsb is_yield_arg params
        then fail_look ["not a yield expression in a function param"]
        else Ret (Some params)
  end.

(** lib.rs:3342-3388 [reinterpret_expr_as_pat]; [None] is the
    [UnableToReinterpret] error. *)
Fixpoint expr_as_pat (e : Expr) : option Pat :=
  match e with
  | EArray a => Some (PArray (map (option_map APExpr) a))
  | ESpread s => option_map PRestElement (expr_as_pat s)
  | EObject o =>
      let fix props (l : list ObjectProperty) : option (list ObjectPatPart) :=
        match l with
        | [] => Some []
        | OPProperty p :: l' => option_map (cons (OPPAssignment p)) (props l')
        | OPSpread s :: l' =>
            match expr_as_pat s with
            | Some p => option_map (cons (OPPRest p)) (props l')
            | None => None
            end
        end in
      option_map PObject (props o)
  | EAssignment _ l r =>
      match l with
      | ALPat p => Some (PAssignment p r)
      | ALExpr e' => option_map (fun p => PAssignment p r) (expr_as_pat e')
      end
  | EIdent i => Some (PIdentifier i)
  | _ => None
  end.

Definition all_assign_ops : list string :=
  ["="; "+="; "-="; "/="; "*="; "**="; "|="; "&="; "~="; "%="; "<<="; ">>="; ">>>="].

(** lib.rs:3082-3117: the arrow-function branch. *)
Definition arrow_rest (current : Expr) : P Expr :=
  not_target ;;
  let is_async := is_async_expr current in
  o <- cover_formals current ;;
  match o with
  | None => Ret current
  | Some params =>
      expect_punct PFatArrow ;;
      ifM at_punct POpenBrace then
        prev_in <- get c_allow_in ;;
        upd (set_allow_in true) ;;
        b <- Call CFunctionSourceEl ;;
        upd (set_allow_in prev_in) ;;
        Ret (EArrowFunction None params (AFBody b) false false is_async)
      else
        a <- isolated (Call CAssignmentExpr) ;;
        Ret (EArrowFunction None params (AFExpr a) true false is_async)
  end.

(** lib.rs:3118-3183: the assignment branch. *)
Definition assign_rest (current : Expr) : P Expr :=
  la <- look ;;
  target <- get c_assign_target ;;
  (if negb target then Do (OTolerate (FUnexpected la "Not at assignment target")) else Ret tt) ;;
  strict <- get c_strict ;;
  (match current with
   | EIdent i =>
       if strict && (is_restricted_word i || is_strict_reserved i)
       then fail_look [not_word i] else Ret tt
   | _ => Ret tt
   end) ;;
  (if is_punct PAssign (it_tok la) then Ret tt else not_target) ;;
  i <- next ;;
  match it_tok i with
  | TPunct p =>
      match assignment_operator p with
      | Some o =>
          right <- isolated (Call CAssignmentExpr) ;;
          upd (set_first_covert None) ;;
          Ret (EAssignment o (ALExpr current) right)
      | None => Fail (FExpected i all_assign_ops)
      end
  | _ => Fail (FExpected i all_assign_ops)
  end.

Definition assignment_expr : P Expr :=
  allow_yield <- get c_allow_yield ;;
  start <- look ;;
  if negb allow_yield && is_keyword KYield (it_tok start) then Call CYieldExpr
  else
    start_pos <- Do OLookPos ;;
    current0 <- Call CConditionalExpr ;;
    curr_pos <- Do OLookPos ;;
    w <- stream_at start ;;
    t <- look_tok ;;
    current <-
      (if text_eqb w (str "async") && (p_line curr_pos =? p_line start_pos)
          && (is_ident t || is_keyword KYield t) then
         arg <- Call CPrimaryExpression ;;
         match expr_as_pat arg with
         | Some p => Ret (EArrowParamPlaceHolder [FAPat p] true)
         | None => Fail (FReinterpret "expression" "pattern")
         end
       else Ret current0) ;;
    t2 <- look_tok ;;
    if is_placeholder current || is_punct PFatArrow t2 then arrow_rest current
    else if assign_tok t2 then assign_rest current
    else Ret current.

Definition yield_expr : P Expr :=
  expect_keyword KYield ;;
  nl <- Do ONewLine ;;
  if nl then Ret (EYield None false)
  else
    prev_yield <- get c_allow_yield ;;
    upd (set_allow_yield false) ;;
    t <- look_tok ;;
    '(arg, delegate) <-
      (if is_punct PAsterisk t then next ;; e <- Call CAssignmentExpr ;; Ret (Some e, true)
       else if start_of_expr t then e <- Call CAssignmentExpr ;; Ret (Some e, false)
       else Ret (None, false)) ;;
    upd (set_allow_yield prev_yield) ;;
    Ret (EYield arg delegate).

Definition conditional_expr : P Expr :=
  expr <- inheriting (Call CBinaryExpression) ;;
  ifM at_punct PQuestionMark then
    next ;;
    prev_in <- get c_allow_in ;;
    upd (set_allow_in true) ;;
    if_true <- isolated (Call CAssignmentExpr) ;;
    upd (set_allow_in prev_in) ;;
    expect_punct PColon ;;
    if_false <- isolated (Call CAssignmentExpr) ;;
    not_target ;;
    Ret (EConditional expr if_false if_true)
  else Ret expr.

(** ** Operators: lib.rs:3445-3670, 4060-4097 *)

(** lib.rs:4075-4097 [determine_precedence]. *)
Definition punct_precedence (p : punct) : nat :=
  match p with
  | PLogicalOr => 1
  | PLogicalAnd => 2
  | PPipe => 3
  | PCaret => 4
  | PAnd => 5
  | PEqual | PNotEqual | PStrictEquals | PStrictNotEquals => 6
  | PGreaterThan | PLessThan | PLessThanEqual | PGreaterThanEqual => 7
  | PLeftShift | PRightShift | PUnsignedRightShift => 8
  | PPlus | PMinus => 9
  | PAsterisk | PForwardSlash | PModulo => 11
  | _ => 0
  end.

(** lib.rs:4060-4072 [bin_precedence]. *)
Definition bin_precedence (allow_in : bool) (t : token) : nat :=
  match t with
  | TPunct p => punct_precedence p
  | TKeyword KInstanceOf => 7
  | TKeyword KIn => if allow_in then 7 else 0
  | _ => 0
  end.

(** lib.rs:3609-3626. *)
Definition unary_operator (t : token) : option UnaryOperator :=
  match t with
  | TPunct PMinus => Some UMinus
  | TPunct PPlus => Some UPlus
  | TPunct PNot => Some UNot
  | TPunct PBitwiseNot => Some UTilde
  | TKeyword KTypeOf => Some UTypeOf
  | TKeyword KVoid => Some UVoid
  | TKeyword KDelete => Some UDelete
  | _ => None
  end.

(** lib.rs:3628-3659. *)
Definition binary_operator (t : token) : option BinaryOperator :=
  match t with
  | TKeyword KInstanceOf => Some BInstanceOf
  | TKeyword KIn => Some BIn
  | TPunct PEqual => Some BEqual
  | TPunct PNotEqual => Some BNotEqual
  | TPunct PStrictEquals => Some BStrictEqual
  | TPunct PStrictNotEquals => Some BStrictNotEqual
  | TPunct PLessThan => Some BLessThan
  | TPunct PLessThanEqual => Some BLessThanEqual
  | TPunct PGreaterThan => Some BGreaterThan
  | TPunct PGreaterThanEqual => Some BGreaterThanEqual
  | TPunct PLeftShift => Some BLeftShift
  | TPunct PRightShift => Some BRightShift
  | TPunct PUnsignedRightShift => Some BUnsignedRightShift
  | TPunct PPlus => Some BPlus
  | TPunct PMinus => Some BMinus
  | TPunct PAsterisk => Some BTimes
  | TPunct PForwardSlash => Some BOver
  | TPunct PModulo => Some BMod
  | TPunct PAnd => Some BAnd
  | TPunct PPipe => Some BOr
  | TPunct PCaret => Some BXOr
  | _ => None
  end.

(** lib.rs:3661-3670. *)
Definition logical_operator (t : token) : option LogicalOperator :=
  match t with
  | TPunct PLogicalAnd => Some LAnd
  | TPunct PLogicalOr => Some LOr
  | _ => None
  end.

(** The node built for an operator, lib.rs:3489-3506 and 3523-3541. *)
Definition make_binary (op : token) (left right : Expr) : Expr + string :=
  if is_punct PLogicalAnd op || is_punct PLogicalOr op then
    match logical_operator op with
    | Some o => inl (ELogical o left right)
    | None => inr "Unable to convert logical operator"
    end
  else
    match binary_operator op with
    | Some o => inl (EBinary o left right)
    | None => inr "Unable to convert binary operator"
    end.

(** The inner [while] of lib.rs:3473-3507.  [stack], [ops] and [precs] are Rust
    vectors used as stacks; here the head of the list is the top.  [inr] is the
    [OperationError] the loop returns with. *)
Fixpoint reduce_while (prec : nat) (ops : list token) (precs : list nat) (stack : list Expr)
  : (list token * list nat * list Expr) + string :=
  match ops, precs, stack with
  | op :: ops', p :: precs', rgt :: lft :: stack' =>
      if prec <=? p then
        match make_binary op lft rgt with
        | inl e => reduce_while prec ops' precs' (e :: stack')
        | inr m => inr m
        end
      else inl (ops, precs, stack)
  | _, _, _ => inl (ops, precs, stack)
  end.

(** The final [while] of lib.rs:3519-3542. *)
Fixpoint reduce_all (ops : list token) (stack : list Expr) (current : Expr) : Expr + string :=
  match ops, stack with
  | op :: ops', lft :: stack' =>
      match make_binary op lft current with
      | inl e => reduce_all ops' stack' e
      | inr m => inr m
      end
  | _, _ => inl current
  end.

Definition binary_expression : P Expr :=
  current <- inheriting (Call CExponentiation) ;;
  t <- look_tok ;;
  ai <- get c_allow_in ;;
  let prec := bin_precedence ai t in
  if prec =? 0 then Ret current
  else
    next ;;
    not_target ;;
    cg <- isolate_cover ;;
    set_isolate_cover cg ;;
    right <- isolated (Call CExponentiation) ;;
    '(ops, stack) <-
      Loop ([t], [prec], [right; current]) (fun '(ops, precs, stack) =>
        t <- look_tok ;;
        ai <- get c_allow_in ;;
        let prec := bin_precedence ai t in
        if prec =? 0 then Ret (inr (ops, stack))
        else
          match reduce_while prec ops precs stack with
          | inr m => Fail (FOperation m)
          | inl (ops, precs, stack) =>
              i <- next ;;
              exp <- isolated (Call CExponentiation) ;;
              Ret (inl (it_tok i :: ops, prec :: precs, exp :: stack))
          end) ;;
    match stack with
    | [] => Fail (FOperation "invalid binary operation, too few expressions")
    | top :: stack' =>
        match reduce_all ops stack' top with
        | inl e => Ret e
        | inr m => Fail (FOperation m)
        end
    end.

Definition exponentiation : P Expr :=
  expr <- inheriting (Call CUnaryExpression) ;;
  ifM at_punct PExponent then
    next ;;
    not_target ;;
    right <- isolated (Call CExponentiation) ;;
    Ret (EBinary BPowerOf expr right)
  else Ret expr.

Definition unary_expression : P Expr :=
  t <- look_tok ;;
  if is_punct PPlus t || is_punct PMinus t || is_punct PBitwiseNot t || is_punct PNot t
     || is_keyword KDelete t || is_keyword KVoid t || is_keyword KTypeOf t then
    op <- next ;;
    arg <- inheriting (Call CUnaryExpression) ;;
    strict <- get c_strict ;;
    (if is_keyword KDelete (it_tok op) && strict && is_ident_expr arg
     then Do (OTolerate (FUnexpected op "Cannot delete ident in strict mode")) else Ret tt) ;;
    not_target ;;
    match unary_operator (it_tok op) with
    | Some o => Ret (EUnary o true arg)
    | None => Fail (FOperation "Unable to convert unary operator")
    end
  else
    await <- get c_await ;;
    if await && is_keyword KAwait t then Call CAwaitExpr else Call CUpdateExpr.

Definition await_expr : P Expr :=
  next ;;
  arg <- Call CUnaryExpression ;;
  Ret (EAwait arg).

Definition restricted_ident (e : Expr) : bool :=
  match e with EIdent i => is_restricted_word i | _ => false end.

Definition update_expr : P Expr :=
  start <- look ;;
  let t := it_tok start in
  if is_punct PIncrement t || is_punct PDecrement t then
    op <- next ;;
    operator <-
      (match it_tok op with
       | TPunct PIncrement => Ret UIncrement
       | TPunct PDecrement => Ret UDecrement
       | _ => Crash
       end) ;;
    start2 <- look ;;
    ex <- inheriting (Call CUnaryExpression) ;;
    strict <- get c_strict ;;
    (if strict && restricted_ident ex
     then Do (OTolerate (FUnexpected start2 "restricted ident")) else Ret tt) ;;
    target <- get c_assign_target ;;
    (if negb target
     then Do (OTolerate (FUnexpected op "Cannot increment when not at assignment target"))
     else Ret tt) ;;
    not_target ;;
    Ret (EUpdate operator ex true)
  else
    expr <- inheriting (Call CLeftHandSideExprAllowCall) ;;
    nl <- Do ONewLine ;;
    t2 <- look_tok ;;
    if negb nl && (is_punct PIncrement t2 || is_punct PDecrement t2) then
      strict <- get c_strict ;;
      if strict && restricted_ident expr then Fail (FExpected start [])
      else
        op <- next ;;
        target <- get c_assign_target ;;
        (if negb target
         then Do (OTolerate (FUnexpected op "Cannot increment when not at assignment target"))
         else Ret tt) ;;
        not_target ;;
        if is_punct PIncrement (it_tok op) then Ret (EUpdate UIncrement expr false)
        else if is_punct PDecrement (it_tok op) then Ret (EUpdate UDecrement expr false)
        else Fail (FExpected op ["++"; "--"])
    else Ret expr.

(** ** Left-hand sides, calls, [new]: lib.rs:3773-4056 *)

(** [self.expect_punct(OpenBracket)?; isolate; parse_expression()?; set_isolate;
    self.expect_punct(CloseBracket)?]: lib.rs:3793-3799, 3893-3899. *)
Definition computed_member : P Expr :=
  expect_punct POpenBracket ;;
  prop <- isolated (Call CExpression) ;;
  expect_punct PCloseBracket ;;
  Ret prop.

Definition left_hand_side_expr : P Expr :=
  sup <- at_keyword KSuper ;;
  inf <- get c_in_function_body ;;
  expr <-
    (if sup && inf then Call CSuper
     else inheriting (ifM at_keyword KNew then Call CNewExpr else Call CPrimaryExpression)) ;;
  Loop expr (fun expr =>
    t <- look_tok ;;
    if is_punct POpenBracket t then
      set_target_binding true false ;;
      prop <- computed_member ;;
      Ret (inl (EMember expr prop true))
    else if is_punct PPeriod t then
      set_target_binding false false ;;
      expect_punct PPeriod ;;
      prop <- Call CIdentName ;;
      Ret (inl (EMember expr (EIdent prop) false))
    else if is_template t then
      quasi <- Call CTemplateLiteral ;;
      Ret (inl (ETaggedTemplate expr quasi))
    else Ret (inr expr)).

Definition super : P Expr :=
  expect_keyword KSuper ;;
  t <- look_tok ;;
  if is_punct POpenBracket t || is_punct PPeriod t then Ret ESuper
  else fail_look ["["; "."].

Definition lhs_allow_call : P Expr :=
  start_pos <- Do OLookPos ;;
  is_async <- at_contextual "async" ;;
  prev_in <- get c_allow_in ;;
  upd (set_allow_in true) ;;
  sup <- at_keyword KSuper ;;
  inf <- get c_in_function_body ;;
  expr <-
    (if sup && inf then
       next ;;
       t <- look_tok ;;
       if is_punct POpenParen t || is_punct PPeriod t || is_punct POpenBracket t then Ret ESuper
       else fail_look ["("; "."; "["]
     else inheriting (ifM at_keyword KNew then Call CNewExpr else Call CPrimaryExpression)) ;;
  expr <- Loop expr (fun expr =>
    t <- look_tok ;;
    if is_punct PPeriod t then
      set_target_binding true false ;;
      expect_punct PPeriod ;;
      prop <- Call CIdentName ;;
      Ret (inl (EMember expr (EIdent prop) false))
    else if is_punct POpenParen t then
      current_pos <- Do OLookPos ;;
      let async_arrow := is_async && (p_line start_pos =? p_line current_pos) in
      not_target ;;
      args <- (if async_arrow then Call CAsyncArgs else Call CArgs) ;;
      fat <- at_punct PFatArrow ;;
      if async_arrow && fat then Ret (inl (EArrowParamPlaceHolder (map FAExpr args) true))
      else Ret (inl (ECall expr args))
    else if is_punct POpenBracket t then
      set_target_binding true false ;;
      prop <- computed_member ;;
      Ret (inl (EMember expr prop true))
    else if is_template_head t then
      quasi <- Call CTemplateLiteral ;;
      Ret (inl (ETaggedTemplate expr quasi))
    else Ret (inr expr)) ;;
  upd (set_allow_in prev_in) ;;
  Ret expr.

(** The shared shape of lib.rs:3926-3951 and 3992-4018. *)
Definition arg_list (arg : P Expr) : P (list Expr) :=
  expect_punct POpenParen ;;
  args <-
    (ifM at_punct PCloseParen then Ret []
     else Loop [] (fun args =>
       e <- (ifM at_punct PSpread then Call CSpreadElement else isolated arg) ;;
       ifM at_punct PCloseParen then Ret (inr (args ++ [e]))
       else
         Do OExpectComma ;;
         ifM at_punct PCloseParen then Ret (inr (args ++ [e]))
         else Ret (inl (args ++ [e])))) ;;
  expect_punct PCloseParen ;;
  Ret args.

Definition async_args : P (list Expr) := arg_list (Call CAsyncArg).
Definition args : P (list Expr) := arg_list (Call CAssignmentExpr).

Definition async_arg : P Expr :=
  e <- Call CAssignmentExpr ;;
  upd (set_first_covert None) ;;
  Ret e.

Definition spread_element : P Expr :=
  expect_punct PSpread ;;
  arg <- inheriting (Call CAssignmentExpr) ;;
  Ret (ESpread arg).

Definition new_expr : P Expr :=
  expect_keyword KNew ;;
  ifM at_punct PPeriod then
    next ;;
    tg <- at_contextual "target" ;;
    inf <- get c_in_function_body ;;
    if tg && inf then
      property <- Call CIdentName ;;
      Ret (EMetaProperty (str "new") property)
    else fail_look ["[constructor function call]"]
  else ifM at_keyword KImport then fail_look ["not import"]
  else
    callee <- isolated (Call CLeftHandSideExpr) ;;
    arguments <- (ifM at_punct POpenParen then Call CArgs else Ret []) ;;
    not_target ;;
    Ret (ENew callee arguments).

(** ** The table of functions *)
Definition body {B} (c : call B) : P B :=
  match c in call B return P B with
  | CNextPart => next_part
  | CDirectivePrologues => directive_prologues
  | CDirective => directive
  | CStatementListItem => statement_list_item
  | CImportDecl => import_decl
  | CNamedImports => named_imports
  | CImportSpecifier => import_specifier
  | CImportNamespaceSpecifier => import_namespace_specifier
  | CImportDefaultSpecifier => import_default_specifier
  | CExportDecl => export_decl
  | CExportSpecifier => export_specifier
  | CModuleSpecifier => module_specifier
  | CStatement => statement
  | CWithStmt => with_stmt
  | CWhileStmt => while_stmt
  | CVarStmt => var_stmt
  | CVarDeclList f => var_decl_list f
  | CVarDecl f => var_decl f
  | CTryStmt => try_stmt
  | CCatchClause => catch_clause
  | CFinallyClause => finally_clause
  | CThrowStmt => throw_stmt
  | CSwitchStmt => switch_stmt
  | CSwitchCase => switch_case
  | CReturnStmt => return_stmt
  | CIfStmt => if_stmt
  | CIfClause => if_clause
  | CFnStmt => fn_stmt
  | CForStmt => for_stmt
  | CForLoop k => for_loop k
  | CForLoopCont i => for_loop_cont i
  | CForInLoop l => for_in_loop l
  | CForOfLoop l a => for_of_loop l a
  | CLoopBody => loop_body
  | CDoWhileStmt => do_while_stmt
  | CBreakStmt => break_stmt
  | CContinueStmt => continue_stmt
  | COptionallyLabeled k => optionally_labeled k
  | CDebuggerStmt => debugger_stmt
  | CLabelledStatement => labelled_statement
  | CExpressionStatement => expression_statement
  | CExpression => expression
  | CBlock => block
  | CLexicalDecl f => lexical_decl f
  | CBindingList k f => binding_list k f
  | CVariableDeclList f => variable_decl_list f
  | CVariableDecl f => variable_decl f
  | CLexicalBinding k f => lexical_binding k f
  | CFunctionDecl o => function_decl o
  | CFunctionSourceEl => function_source_el
  | CClassDecl o => class_decl o
  | CClassBody => class_body
  | CClassEl h => class_el h
  | CAsyncPropertyMethod => async_property_method
  | CPropertyMethod => property_method
  | CGeneratorMethod => generator_method
  | CGetterMethod => getter_method
  | CMethodBody s r => method_body s r
  | CSetterMethod => setter_method
  | CPropertyMethodBody s r => property_method_body s r
  | CObjectPropertyKey => object_property_key
  | CPrimaryExpression => primary_expression
  | CGroupExpr => group_expr
  | CArrayInit => array_init
  | CObjInit => obj_init
  | CObjProp h => obj_prop h
  | CTemplateLiteral => template_literal
  | CTemplateElement => template_element
  | CFunctionExpr => function_expr
  | CFnName g => fn_name g
  | CIdentName => ident_name
  | CVarIdent v => var_ident v
  | CFormalParams => formal_params
  | CFormalParam s => formal_param s
  | CRestElement => rest_element
  | CBindingRestEl => binding_rest_el
  | CPatternWithDefault => pattern_with_default
  | CPattern k => pattern k
  | CArrayPattern => array_pattern
  | CObjectPattern => object_pattern
  | CRestProp => rest_prop
  | CPropertyPattern => property_pattern
  | CAssignmentExpr => assignment_expr
  | CYieldExpr => yield_expr
  | CConditionalExpr => conditional_expr
  | CBinaryExpression => binary_expression
  | CExponentiation => exponentiation
  | CUnaryExpression => unary_expression
  | CAwaitExpr => await_expr
  | CUpdateExpr => update_expr
  | CLeftHandSideExpr => left_hand_side_expr
  | CSuper => super
  | CLeftHandSideExprAllowCall => lhs_allow_call
  | CAsyncArgs => async_args
  | CAsyncArg => async_arg
  | CSpreadElement => spread_element
  | CArgs => args
  | CNewExpr => new_expr
  | CConsumeSemicolon => consume_semicolon
  end.
