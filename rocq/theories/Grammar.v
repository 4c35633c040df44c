(** The grammar the parser implements, as a set of productions over tokens.

    [d S nt l v l'] reads: in scope [S], the tokens [l] begin with a sentence of the
    nonterminal [nt] whose tree is [v], and [l'] is what follows it.  The nonterminals are
    those of ECMAScript 2019, lists are left-recursive as there, and nothing here
    mentions the functions or the state of the parser.  A production marked (!) is one
    ECMAScript does not have: the parser accepts more than the language, and this file says
    exactly where.  Conditions that only reject programs (assignment targets, restricted
    identifiers, repeated labels, ...) are not part of the grammar; Properties5.v has them. *)
From Verif Require Export Token Ast.

(** ** Tokens *)

(** A token, its source text, and whether a line terminator precedes it. *)
Record tk := mkTk { k_tok : token; k_text : text; k_nl : bool }.

Definition hd_tok (l : list tk) : token := match l with x :: _ => k_tok x | [] => TEoF end.
Definition hd_text (l : list tk) : text := match l with x :: _ => k_text x | [] => [] end.
Definition newline (l : list tk) : bool := match l with x :: _ => k_nl x | [] => false end.

(** [l] begins with the token [t] and continues with [l']; [l'] is never empty, since the last
    token is the end-of-file token. *)
Definition reads (t : token) (l l' : list tk) : Prop :=
  l' <> [] /\ exists w b, l = mkTk t w b :: l'.
Definition reads_as (t : token) (w : text) (l l' : list tk) : Prop :=
  l' <> [] /\ exists b, l = mkTk t w b :: l'.
(** Any token at all; the end-of-file token can be read and stays. *)
Definition takes (l l' : list tk) : Prop :=
  (l' <> [] /\ exists x, l = x :: l') \/ (l' = l /\ exists w b, l = [mkTk TEoF w b]).
(** A token spelled [w], whatever its kind. *)
Definition anything (w : text) (l l' : list tk) : Prop := takes l l' /\ hd_text l = w.
Definition word (w : string) : list tk -> list tk -> Prop := anything (str w).
(** Tokens that can be names: identifiers, [null], [true], [false] and keywords. *)
Definition name_token (t : token) : Prop :=
  t = TIdent \/ t = TNull \/ (exists b, t = TBoolean b) \/ exists x, t = TKeyword x.

(** Automatic semicolon insertion. *)
Definition semi (l l' : list tk) : Prop :=
  reads (TPunct PSemiColon) l l'
  \/ (l' = l /\ (newline l = true \/ hd_tok l = TEoF \/ hd_tok l = TPunct PCloseBrace)).

Definition comma : list tk -> list tk -> Prop := reads (TPunct PComma).

(** Tokens with which a statement other than an expression statement begins. *)
Definition starts_statement (t : token) : bool :=
  match t with
  | TPunct POpenBrace | TPunct PSemiColon
  | TKeyword KBreak | TKeyword KContinue | TKeyword KDebugger | TKeyword KDo | TKeyword KFor
  | TKeyword KFunction | TKeyword KIf | TKeyword KReturn | TKeyword KSwitch | TKeyword KThrow
  | TKeyword KTry | TKeyword KVar | TKeyword KWhile | TKeyword KWith => true
  | _ => false
  end.

(** ** Scopes: the parameters of the nonterminals *)
Record scope := mkScope {
  s_in : bool;       (* the [in] operator is allowed *)
  s_await : bool;    (* [await] is an operator *)
  s_strict : bool;   (* class bodies *)
  s_fn : bool }.     (* inside a function body *)
Definition with_in v S := mkScope v (s_await S) (s_strict S) (s_fn S).
Definition with_await v S := mkScope (s_in S) v (s_strict S) (s_fn S).
Definition with_strict v S := mkScope (s_in S) (s_await S) v (s_fn S).
Definition with_fn v S := mkScope (s_in S) (s_await S) (s_strict S) v.

(** ** Operators: the level of each, loosest first (there is no level 10), and its tree *)
Definition bin_ops : list (token * (nat * (Expr -> Expr -> Expr))) :=
  [ (TPunct PLogicalOr, (1, ELogical LOr)); (TPunct PLogicalAnd, (2, ELogical LAnd));
    (TPunct PPipe, (3, EBinary BOr)); (TPunct PCaret, (4, EBinary BXOr)); (TPunct PAnd, (5, EBinary BAnd));
    (TPunct PEqual, (6, EBinary BEqual)); (TPunct PNotEqual, (6, EBinary BNotEqual));
    (TPunct PStrictEquals, (6, EBinary BStrictEqual)); (TPunct PStrictNotEquals, (6, EBinary BStrictNotEqual));
    (TPunct PLessThan, (7, EBinary BLessThan)); (TPunct PGreaterThan, (7, EBinary BGreaterThan));
    (TPunct PLessThanEqual, (7, EBinary BLessThanEqual));
    (TPunct PGreaterThanEqual, (7, EBinary BGreaterThanEqual));
    (TKeyword KInstanceOf, (7, EBinary BInstanceOf)); (TKeyword KIn, (7, EBinary BIn));
    (TPunct PLeftShift, (8, EBinary BLeftShift)); (TPunct PRightShift, (8, EBinary BRightShift));
    (TPunct PUnsignedRightShift, (8, EBinary BUnsignedRightShift));
    (TPunct PPlus, (9, EBinary BPlus)); (TPunct PMinus, (9, EBinary BMinus));
    (TPunct PAsterisk, (11, EBinary BTimes)); (TPunct PForwardSlash, (11, EBinary BOver));
    (TPunct PModulo, (11, EBinary BMod)) ].
Definition prefix_ops : list (token * UnaryOperator) :=
  [ (TPunct PMinus, UMinus); (TPunct PPlus, UPlus); (TPunct PNot, UNot); (TPunct PBitwiseNot, UTilde);
    (TKeyword KTypeOf, UTypeOf); (TKeyword KVoid, UVoid); (TKeyword KDelete, UDelete) ].
Definition update_ops : list (token * UpdateOperator) :=
  [ (TPunct PIncrement, UIncrement); (TPunct PDecrement, UDecrement) ].
Definition assign_ops : list (token * AssignmentOperator) :=
  [ (TPunct PAssign, AEqual); (TPunct PAddAssign, APlusEqual); (TPunct PSubtractAssign, AMinusEqual);
    (TPunct PMultiplyAssign, ATimesEqual); (TPunct PDivideAssign, ADivEqual);
    (TPunct PModuloAssign, AModEqual); (TPunct PLeftShiftAssign, ALeftShiftEqual);
    (TPunct PRightShiftAssign, ARightShiftEqual);
    (TPunct PUnsignedRightShiftAssign, AUnsignedRightShiftEqual);
    (TPunct PBitwiseOrAssign, AOrEqual); (TPunct PBitwiseXOrAssign, AXOrEqual);
    (TPunct PBitwiseAndAssign, AAndEqual); (TPunct PExponentAssign, APowerOfEqual) ].

(** ** Trees of tokens *)

(** A template token: one delimiting byte, the text, and [`] or [${]. *)
Definition quasi_of (k : template_kind) (w : text) (q : TemplateElement) : Prop :=
  q_raw q = w /\
  exists c e, w = c :: q_cooked q ++ e /\ len_utf8 c = 1
    /\ match k with
       | THead | TBody => byte_len e = 2 /\ q_tail q = false
       | TTail | TNoSub => byte_len e = 1 /\ q_tail q = true
       end.
(** A regular-expression token: a delimiter, the pattern, a slash, the flags. *)
Definition regex_of (w pattern flags : text) : Prop :=
  exists c, len_utf8 c = 1 /\ w = c :: pattern ++ [47%N] ++ flags /\ ~ In 47%N flags.
(** A directive without the quotes around it. *)
Definition quote_char (c : N) : Prop := c = 39%N \/ c = 34%N.
Definition directive_of (w d : text) : Prop :=
  exists a b, w = a ++ d ++ b /\ Forall quote_char a /\ Forall quote_char b
    /\ (forall c d', d = c :: d' -> ~ quote_char c) /\ (forall d' c, d = d' ++ [c] -> ~ quote_char c).

(** A computed property key that is a literal becomes a literal key. *)
Definition computed_key (e : Expr) : PropertyKey :=
  match e with
  | ELiteral (LString s) => PKLiteral (LString s)
  | ELiteral (LNumber s) => PKLiteral (LNumber s)
  | ELiteral (LBoolean b) => PKLiteral (LBoolean b)
  | _ => PKExpr e
  end.
Definition key_is (k : PropertyKey) (w : string) : Prop :=
  k = PKExpr (EIdent (str w)) \/ k = PKLiteral (LString (str w)).

(** (!) An arrow-function parameter [x = yield] becomes the identifier [yield]. *)
Definition arrow_param (a : FunctionArg) : FunctionArg :=
  match a with
  | FAPat (PAssignment _ (EYield None _)) => FAPat (PIdentifier (str "yield"))
  | FAExpr (EAssignment _ _ (EYield None _)) => FAExpr (EIdent (str "yield"))
  | _ => a
  end.

Definition is_rest_arg (a : FunctionArg) : Prop := exists p, a = FAPat (PRestElement p).
Definition is_name (p : Pat) : Prop := exists i, p = PIdentifier i.
Definition method (ps : list FunctionArg) (b : list ProgramPart) (gen async : bool) : PropertyValue :=
  PVExpr (EFunction (mkFunction None ps b gen async)).

(** ** Nonterminals and values *)
Inductive nt :=
| Directive | Directives | Item | Items | Statement | Block | Cases | Case
| VarDecls (in_for : bool) | VarDecl (in_for : bool)
| LexDecls (kind : VariableKind) (in_for : bool) | LexDecl (kind : VariableKind) (in_for : bool)
| LexicalDeclaration | ForRest (init : option LoopInit) | LoopBody
| Expression | Commas | Assignment | Conditional | Level (k : nat) | Exponent | Unary | Update
| CallExpression | MemberExpression | NewExpression | Arguments | ArgumentList | Argument | Spread
| Primary | Parenthesised | ArrayLiteral | Elements | ObjectLiteral | Properties | PropertyDef
| PropertyName | Method (async : bool) | GeneratorMethod | Getter | Setter
| Template | Spans | Quasi
| FunctionDeclaration (optional_name : bool) | FunctionExpression | Params | ParamList | Param
| FunctionBody
| ClassDef (optional_name : bool) | ClassBody | ClassElements | ClassElement | ClassPrefix
| Binding (var : bool) | Pattern (var : bool) | PatternDefault | ArrayPattern | ObjectPattern
| PatElements | PatProperties | PatProperty
| ImportDeclaration | Imports | NamedImports | NamedImportList | NamedImport | Namespace
| ExportDeclaration | DefaultExport | ExportList | ExportName | ModuleName.

Inductive val :=
| VPart (p : ProgramPart) | VParts (l : list ProgramPart) | VStmt (s : Stmt)
| VCase (c : SwitchCase) | VCases (l : list SwitchCase)
| VVarDecl (d : VariableDecl) | VVarDecls (l : list VariableDecl) | VDecl (d : Decl)
| VExpr (e : Expr) | VExprs (l : list Expr) | VElements (l : list (option Expr))
| VProperty (p : ObjectProperty) | VProperties (l : list ObjectProperty)
| VKey (k : PropertyKey) (computed : bool) | VMethod (v : PropertyValue)
| VTemplate (t : TemplateLiteral) | VSpans (qs : list TemplateElement) (es : list Expr)
| VQuasi (q : TemplateElement)
| VFunction (f : Function) | VParam (a : FunctionArg) | VParams (l : list FunctionArg)
| VClass (c : Class) | VMember (p : Property) | VMembers (l : list Property) | VPrefix (async static : bool)
| VName (i : Identifier) | VPat (p : Pat) | VPats (l : list (option ArrayPatPart))
| VPatProperty (p : ObjectPatPart) | VPatProperties (l : list ObjectPatPart)
| VImport (i : ModImport) | VSpecifier (i : ImportSpecifier) | VSpecifiers (l : list ImportSpecifier)
| VExport (e : ModExport) | VDefault (e : DefaultExportDecl)
| VExportName (e : ExportSpecifier) | VExportNames (l : list ExportSpecifier)
| VLiteral (l : Literal).

Section Grammar.
  (** The options of the parser, and the keywords [ress] calls strict-reserved. *)
  Variable tolerant module : bool.
  Variable reserved : token -> bool.

  Notation "'p' x" := (reads (TPunct x)) (at level 9, x at level 9).
  Notation "'k' x" := (reads (TKeyword x)) (at level 9, x at level 9).

  Inductive d : scope -> nt -> list tk -> val -> list tk -> Prop :=

  (** *** Program parts *)
  | d_directive : forall S l w dir l1 l',
      reads_as TString w l l1 -> semi l1 l' -> directive_of w dir ->
      d S Directive l (VPart (PPDir dir (LString w))) l'
  (* a string at the head of a prologue that is part of a longer expression *)
  | d_directive_other : forall S l e l1 l',
      hd_tok l = TString -> (forall w, e <> ELiteral (LString w)) ->
      d S Expression l (VExpr e) l1 -> semi l1 l' ->
      d S Directive l (VPart (PPStmt (SExpr e))) l'
  | d_directives_nil : forall S l, d S Directives l (VParts []) l
  | d_directives : forall S l ps l1 x l',
      d S Directives l (VParts ps) l1 -> d S Directive l1 (VPart x) l' ->
      d S Directives l (VParts (ps ++ [x])) l'
  | d_item_import : forall S l i l',
      d S ImportDeclaration l (VImport i) l' -> d S Item l (VPart (PPDecl (DImport i))) l'
  | d_item_export : forall S l e l',
      d S ExportDeclaration l (VExport e) l' -> d S Item l (VPart (PPDecl (DExport e))) l'
  | d_item_lexical : forall S l x l',
      d S LexicalDeclaration l (VDecl x) l' -> d S Item l (VPart (PPDecl x)) l'
  | d_item_function : forall S l f l', hd_tok l = TKeyword KFunction ->
      d S (FunctionDeclaration true) l (VFunction f) l' -> d S Item l (VPart (PPDecl (DFunction f))) l'
  | d_item_class : forall S l c l',
      d S (ClassDef false) l (VClass c) l' -> d S Item l (VPart (PPDecl (DClass c))) l'
  | d_item_statement : forall S l s l',
      ~ In (hd_tok l) [TKeyword KExport; TKeyword KConst; TKeyword KFunction; TKeyword KClass] ->
      (hd_tok l = TKeyword KImport -> hd_tok (tl l) = TPunct POpenParen) ->
      (hd_tok l = TKeyword KLet -> ~ In (hd_tok (tl l)) [TIdent; TPunct POpenBracket; TPunct POpenBrace;
                                                    TKeyword KLet; TKeyword KYield]) ->
      d S Statement l (VStmt s) l' -> d S Item l (VPart (PPStmt s)) l'
  | d_items_nil : forall S l, d S Items l (VParts []) l
  | d_items : forall S l ps l1 x l',
      d S Items l (VParts ps) l1 -> d S Item l1 (VPart x) l' -> d S Items l (VParts (ps ++ [x])) l'

  (** *** Statements *)
  | d_expression_statement : forall S l e l1 l',
      starts_statement (hd_tok l) = false -> d S Expression l (VExpr e) l1 -> semi l1 l' ->
      d S Statement l (VStmt (SExpr e)) l'
  | d_block_statement : forall S l b l',
      d S Block l (VParts b) l' -> d S Statement l (VStmt (SBlock b)) l'
  | d_block : forall S l l1 b l2 l',
      p POpenBrace l l1 -> d S Items l1 (VParts b) l2 -> p PCloseBrace l2 l' -> d S Block l (VParts b) l'
  | d_empty : forall S l l', p PSemiColon l l' -> d S Statement l (VStmt SEmpty) l'
  (* (!) a function declaration in statement position is stored as an expression statement *)
  | d_function_statement : forall S l f l',
      d S (FunctionDeclaration true) l (VFunction f) l' -> d S Statement l (VStmt (SExpr (EFunction f))) l'
  | d_break : forall S l l1 l', k KBreak l l1 -> semi l1 l' -> d S Statement l (VStmt (SBreak None)) l'
  | d_break_label : forall S l l1 i l2 l',
      k KBreak l l1 -> newline l1 = false -> d S (Binding false) l1 (VName i) l2 -> semi l2 l' ->
      d S Statement l (VStmt (SBreak (Some i))) l'
  | d_continue : forall S l l1 l', k KContinue l l1 -> semi l1 l' -> d S Statement l (VStmt (SContinue None)) l'
  | d_continue_label : forall S l l1 i l2 l',
      k KContinue l l1 -> newline l1 = false -> d S (Binding false) l1 (VName i) l2 -> semi l2 l' ->
      d S Statement l (VStmt (SContinue (Some i))) l'
  | d_debugger : forall S l l1 l', k KDebugger l l1 -> semi l1 l' -> d S Statement l (VStmt SDebugger) l'
  | d_return : forall S l l1 l',
      s_fn S = true -> k KReturn l l1 -> semi l1 l' -> d S Statement l (VStmt (SReturn None)) l'
  (* (!) a string or a template after a line terminator is still taken as the argument *)
  | d_return_argument : forall S l l1 e l2 l',
      s_fn S = true -> k KReturn l l1 ->
      (newline l1 = false \/ hd_tok l1 = TString \/ exists t, hd_tok l1 = TTemplate t) ->
      d S Expression l1 (VExpr e) l2 -> semi l2 l' -> d S Statement l (VStmt (SReturn (Some e))) l'
  (* (!) a line terminator may follow [throw] *)
  | d_throw : forall S l l1 e l2 l',
      k KThrow l l1 -> d S Expression l1 (VExpr e) l2 -> semi l2 l' -> d S Statement l (VStmt (SThrow e)) l'
  | d_var : forall S l l1 ds l2 l',
      k KVar l l1 -> d S (VarDecls false) l1 (VVarDecls ds) l2 -> semi l2 l' ->
      d S Statement l (VStmt (SVar ds)) l'
  | d_if : forall S l l1 l2 e l3 l4 s l',
      k KIf l l1 -> p POpenParen l1 l2 -> d S Expression l2 (VExpr e) l3 -> p PCloseParen l3 l4 ->
      d S Statement l4 (VStmt s) l' -> hd_tok l' <> TKeyword KElse ->
      d S Statement l (VStmt (SIf e s None)) l'
  | d_if_else : forall S l l1 l2 e l3 l4 s l5 l6 s' l',
      k KIf l l1 -> p POpenParen l1 l2 -> d S Expression l2 (VExpr e) l3 -> p PCloseParen l3 l4 ->
      d S Statement l4 (VStmt s) l5 -> k KElse l5 l6 -> d S Statement l6 (VStmt s') l' ->
      d S Statement l (VStmt (SIf e s (Some s'))) l'
  (* (!) tolerant parsers stop at a missing closing parenthesis *)
  | d_if_tolerant : forall S l l1 l2 e l',
      tolerant = true -> hd_tok l' <> TPunct PCloseParen ->
      k KIf l l1 -> p POpenParen l1 l2 -> d S Expression l2 (VExpr e) l' ->
      d S Statement l (VStmt (SIf e SEmpty None)) l'
  | d_while : forall S l l1 l2 e l3 l4 s l',
      k KWhile l l1 -> p POpenParen l1 l2 -> d S Expression l2 (VExpr e) l3 -> p PCloseParen l3 l4 ->
      d S Statement l4 (VStmt s) l' -> d S Statement l (VStmt (SWhile e s)) l'
  | d_while_tolerant : forall S l l1 l2 e l',
      tolerant = true -> hd_tok l' <> TPunct PCloseParen ->
      k KWhile l l1 -> p POpenParen l1 l2 -> d S Expression l2 (VExpr e) l' ->
      d S Statement l (VStmt (SWhile e SEmpty)) l'
  | d_with : forall S l l1 l2 e l3 l4 s l',
      (s_strict S = true -> tolerant = true) ->
      k KWith l l1 -> p POpenParen l1 l2 -> d S Expression l2 (VExpr e) l3 -> p PCloseParen l3 l4 ->
      d S Statement l4 (VStmt s) l' -> d S Statement l (VStmt (SWith e s)) l'
  | d_with_tolerant : forall S l l1 l2 e l',
      tolerant = true -> hd_tok l' <> TPunct PCloseParen ->
      k KWith l l1 -> p POpenParen l1 l2 -> d S Expression l2 (VExpr e) l' ->
      d S Statement l (VStmt (SWith e SEmpty)) l'
  | d_do_while : forall S l l1 s l2 l3 l4 e l5 l6 l',
      k KDo l l1 -> d S Statement l1 (VStmt s) l2 -> k KWhile l2 l3 -> p POpenParen l3 l4 ->
      d S Expression l4 (VExpr e) l5 -> p PCloseParen l5 l6 ->
      p PSemiColon l6 l' \/ (l' = l6 /\ hd_tok l6 <> TPunct PSemiColon) ->
      d S Statement l (VStmt (SDoWhile e s)) l'
  | d_labelled : forall S l i l1 l2 s l',
      reads_as TIdent i l l1 -> p PColon l1 l2 ->
      d S Statement l2 (VStmt s) l' -> d S Statement l (VStmt (SLabeled i s)) l'
  (* (!) tolerant parsers accept a nameless class body as a labelled statement *)
  | d_labelled_class : forall S l i l1 l2 l3 b l',
      tolerant = true -> reads_as TIdent i l l1 -> p PColon l1 l2 -> k KClass l2 l3 ->
      d S ClassBody l3 (VMembers b) l' ->
      d S Statement l (VStmt (SLabeled i (SExpr (EClass (mkClass None None b))))) l'
  | d_switch : forall S l l1 l2 e l3 l4 l5 cs l6 l',
      k KSwitch l l1 -> p POpenParen l1 l2 -> d S Expression l2 (VExpr e) l3 -> p PCloseParen l3 l4 ->
      p POpenBrace l4 l5 -> d S Cases l5 (VCases cs) l6 -> p PCloseBrace l6 l' ->
      d S Statement l (VStmt (SSwitch e cs)) l'
  | d_cases_nil : forall S l, d S Cases l (VCases []) l
  | d_cases : forall S l cs l1 c l',
      d S Cases l (VCases cs) l1 -> d S Case l1 (VCase c) l' -> d S Cases l (VCases (cs ++ [c])) l'
  | d_case : forall S l l1 e l2 l3 b l',
      k KCase l l1 -> d S Expression l1 (VExpr e) l2 -> p PColon l2 l3 -> d S Items l3 (VParts b) l' ->
      d S Case l (VCase (mkCase (Some e) b)) l'
  | d_case_default : forall S l l1 l2 b l',
      k KDefault l l1 -> p PColon l1 l2 -> d S Items l2 (VParts b) l' ->
      d S Case l (VCase (mkCase None b)) l'
  (* (!) [try] needs neither [catch] nor [finally] *)
  | d_try : forall S l l1 b l2 h l3 f l',
      k KTry l l1 -> d S Block l1 (VParts b) l2 ->
      (h = None /\ l3 = l2
       \/ exists l4 l5 c, k KCatch l2 l4 /\ d S Block l5 (VParts c) l3
            /\ (h = Some (mkCatch None c) /\ l5 = l4
                \/ exists l6 x l7, h = Some (mkCatch (Some x) c) /\ p POpenParen l4 l6
                     /\ d S (Pattern true) l6 (VPat x) l7 /\ p PCloseParen l7 l5)) ->
      (f = None /\ l' = l3
       \/ exists l4 c, f = Some c /\ k KFinally l3 l4 /\ d S Block l4 (VParts c) l') ->
      d S Statement l (VStmt (STry b h f)) l'
  (* [for]; (!) [await] is read in every form and kept only by [for of] *)
  | d_for_nothing : forall S l l1 aw l2 l3 s l',
      k KFor l l1 -> (aw = true /\ k KAwait l1 l2 \/ aw = false /\ l2 = l1) -> p POpenParen l2 l3 ->
      d S (ForRest None) l3 (VStmt s) l' -> d S Statement l (VStmt s) l'
  | d_for_var : forall S l l1 aw l2 l3 l4 ds l5 s l',
      k KFor l l1 -> (aw = true /\ k KAwait l1 l2 \/ aw = false /\ l2 = l1) -> p POpenParen l2 l3 ->
      k KVar l3 l4 -> d (with_in false S) (VarDecls true) l4 (VVarDecls ds) l5 ->
      d S (ForRest (Some (LIVariable VVar ds))) l5 (VStmt s) l' -> d S Statement l (VStmt s) l'
  (* (!) with an initialiser too *)
  | d_for_var_in : forall S l l1 aw l2 l3 l4 x l5 l6 e l7 s l',
      k KFor l l1 -> (aw = true /\ k KAwait l1 l2 \/ aw = false /\ l2 = l1) -> p POpenParen l2 l3 ->
      k KVar l3 l4 -> d (with_in false S) (VarDecls true) l4 (VVarDecls [x]) l5 ->
      k KIn l5 l6 -> d S Expression l6 (VExpr e) l7 -> d S LoopBody l7 (VStmt s) l' ->
      d S Statement l (VStmt (SForIn (LLVariable VVar x) e s)) l'
  | d_for_var_of : forall S l l1 aw l2 l3 l4 x l5 l6 e l7 s l',
      k KFor l l1 -> (aw = true /\ k KAwait l1 l2 \/ aw = false /\ l2 = l1) -> p POpenParen l2 l3 ->
      k KVar l3 l4 -> d (with_in false S) (VarDecls true) l4 (VVarDecls [x]) l5 ->
      word "of" l5 l6 -> d S Assignment l6 (VExpr e) l7 -> d S LoopBody l7 (VStmt s) l' ->
      d S Statement l (VStmt (SForOf (LLVariable VVar x) e s aw)) l'
  | d_for_lex : forall S l l1 aw l2 l3 kind l4 ds l5 s l',
      k KFor l l1 -> (aw = true /\ k KAwait l1 l2 \/ aw = false /\ l2 = l1) -> p POpenParen l2 l3 ->
      (kind = VConst /\ k KConst l3 l4 \/ kind = VLet /\ k KLet l3 l4) ->
      d (with_in false S) (LexDecls kind true) l4 (VVarDecls ds) l5 ->
      d S (ForRest (Some (LIVariable kind ds))) l5 (VStmt s) l' -> d S Statement l (VStmt s) l'
  | d_for_lex_in : forall S l l1 aw l2 l3 kind l4 x l5 l6 e l7 s l',
      k KFor l l1 -> (aw = true /\ k KAwait l1 l2 \/ aw = false /\ l2 = l1) -> p POpenParen l2 l3 ->
      (kind = VConst /\ k KConst l3 l4 \/ kind = VLet /\ k KLet l3 l4) ->
      d (with_in false S) (LexDecls kind true) l4 (VVarDecls [mkVarDecl x None]) l5 ->
      k KIn l5 l6 -> d S Expression l6 (VExpr e) l7 -> d S LoopBody l7 (VStmt s) l' ->
      d S Statement l (VStmt (SForIn (LLVariable kind (mkVarDecl x None)) e s)) l'
  | d_for_lex_of : forall S l l1 aw l2 l3 kind l4 x l5 l6 e l7 s l',
      k KFor l l1 -> (aw = true /\ k KAwait l1 l2 \/ aw = false /\ l2 = l1) -> p POpenParen l2 l3 ->
      (kind = VConst /\ k KConst l3 l4 \/ kind = VLet /\ k KLet l3 l4) ->
      d (with_in false S) (LexDecls kind true) l4 (VVarDecls [mkVarDecl x None]) l5 ->
      word "of" l5 l6 -> d S Assignment l6 (VExpr e) l7 -> d S LoopBody l7 (VStmt s) l' ->
      d S Statement l (VStmt (SForOf (LLVariable kind (mkVarDecl x None)) e s aw)) l'
  (* (!) [const] as well as [let] can be the name iterated over *)
  | d_for_let_in : forall S l l1 aw l2 l3 name l4 l5 e l6 s l',
      s_strict S = false ->
      k KFor l l1 -> (aw = true /\ k KAwait l1 l2 \/ aw = false /\ l2 = l1) -> p POpenParen l2 l3 ->
      (name = str "const" /\ k KConst l3 l4 \/ name = str "let" /\ k KLet l3 l4) ->
      k KIn l4 l5 -> d S Expression l5 (VExpr e) l6 -> d S LoopBody l6 (VStmt s) l' ->
      d S Statement l (VStmt (SForIn (LLExpr (EIdent name)) e s)) l'
  | d_for_expr : forall S l l1 aw l2 l3 e l4 s l',
      k KFor l l1 -> (aw = true /\ k KAwait l1 l2 \/ aw = false /\ l2 = l1) -> p POpenParen l2 l3 ->
      d (with_in false S) Assignment l3 (VExpr e) l4 ->
      d S (ForRest (Some (LIExpr e))) l4 (VStmt s) l' -> d S Statement l (VStmt s) l'
  (* (!) [in] is allowed after the first comma *)
  | d_for_exprs : forall S l l1 aw l2 l3 e l4 l5 es l6 s l',
      k KFor l l1 -> (aw = true /\ k KAwait l1 l2 \/ aw = false /\ l2 = l1) -> p POpenParen l2 l3 ->
      d (with_in false S) Assignment l3 (VExpr e) l4 -> comma l4 l5 ->
      d S Commas l5 (VExprs es) l6 ->
      d S (ForRest (Some (LIExpr (ESequence (e :: es))))) l6 (VStmt s) l' -> d S Statement l (VStmt s) l'
  | d_for_expr_in : forall S l l1 aw l2 l3 x l4 l5 e l6 s l',
      k KFor l l1 -> (aw = true /\ k KAwait l1 l2 \/ aw = false /\ l2 = l1) -> p POpenParen l2 l3 ->
      d (with_in false S) Assignment l3 (VExpr x) l4 ->
      k KIn l4 l5 -> d S Expression l5 (VExpr e) l6 -> d S LoopBody l6 (VStmt s) l' ->
      d S Statement l (VStmt (SForIn (LLExpr x) e s)) l'
  | d_for_expr_of : forall S l l1 aw l2 l3 x l4 l5 e l6 s l',
      k KFor l l1 -> (aw = true /\ k KAwait l1 l2 \/ aw = false /\ l2 = l1) -> p POpenParen l2 l3 ->
      d (with_in false S) Assignment l3 (VExpr x) l4 ->
      word "of" l4 l5 -> d S Assignment l5 (VExpr e) l6 -> d S LoopBody l6 (VStmt s) l' ->
      d S Statement l (VStmt (SForOf (LLExpr x) e s aw)) l'
  | d_for_rest : forall S init l l1 test l2 l3 update l4 s l',
      p PSemiColon l l1 ->
      (test = None /\ l2 = l1 \/ exists e, test = Some e /\ d S Expression l1 (VExpr e) l2) ->
      p PSemiColon l2 l3 ->
      (update = None /\ l4 = l3 \/ exists e, update = Some e /\ d S Expression l3 (VExpr e) l4) ->
      d S LoopBody l4 (VStmt s) l' ->
      d S (ForRest init) l (VStmt (SFor init test update s)) l'
  | d_loop_body : forall S l l1 s l',
      p PCloseParen l l1 -> d S Statement l1 (VStmt s) l' -> d S LoopBody l (VStmt s) l'

  (** *** Variable declarations *)
  | d_var_decls_one : forall S f l x l',
      d S (VarDecl f) l (VVarDecl x) l' -> d S (VarDecls f) l (VVarDecls [x]) l'
  | d_var_decls : forall S f l xs l1 l2 x l',
      d S (VarDecls f) l (VVarDecls xs) l1 -> comma l1 l2 -> d S (VarDecl f) l2 (VVarDecl x) l' ->
      d S (VarDecls f) l (VVarDecls (xs ++ [x])) l'
  | d_var_decl : forall S (f : bool) l x l',
      d S (Pattern true) l (VPat x) l' -> (f = true \/ is_name x) ->
      d S (VarDecl f) l (VVarDecl (mkVarDecl x None)) l'
  | d_var_decl_init : forall S f l x l1 l2 e l',
      d S (Pattern true) l (VPat x) l1 -> p PAssign l1 l2 -> d S Assignment l2 (VExpr e) l' ->
      d S (VarDecl f) l (VVarDecl (mkVarDecl x (Some e))) l'
  | d_lexical_declaration : forall S l kind l1 ds l2 l',
      (kind = VConst /\ k KConst l l1 \/ kind = VLet /\ k KLet l l1) ->
      d S (LexDecls kind false) l1 (VVarDecls ds) l2 -> semi l2 l' ->
      d S LexicalDeclaration l (VDecl (DVariable kind ds)) l'
  | d_lex_decls_one : forall S kind f l x l',
      d S (LexDecl kind f) l (VVarDecl x) l' -> d S (LexDecls kind f) l (VVarDecls [x]) l'
  | d_lex_decls : forall S kind f l xs l1 l2 x l',
      d S (LexDecls kind f) l (VVarDecls xs) l1 -> comma l1 l2 -> d S (LexDecl kind f) l2 (VVarDecl x) l' ->
      d S (LexDecls kind f) l (VVarDecls (xs ++ [x])) l'
  | d_lex_decl : forall S (f : bool) l x l',
      d S (Pattern false) l (VPat x) l' -> (f = true \/ is_name x) ->
      d S (LexDecl VLet f) l (VVarDecl (mkVarDecl x None)) l'
  (* (!) not only in the head of a [for]: see C29 *)
  | d_lex_decl_const : forall S f l x l',
      d S (Pattern false) l (VPat x) l' -> (hd_tok l' = TKeyword KIn \/ hd_text l' = str "of") ->
      d S (LexDecl VConst f) l (VVarDecl (mkVarDecl x None)) l'
  | d_lex_decl_init : forall S kind f l x l1 l2 e l',
      d S (Pattern false) l (VPat x) l1 -> p PAssign l1 l2 -> d S Assignment l2 (VExpr e) l' ->
      d S (LexDecl kind f) l (VVarDecl (mkVarDecl x (Some e))) l'

  (** *** Expressions *)
  | d_expression_one : forall S l e l', d S Assignment l (VExpr e) l' -> d S Expression l (VExpr e) l'
  | d_expression : forall S l es l',
      d S Commas l (VExprs es) l' -> 2 <= length es -> d S Expression l (VExpr (ESequence es)) l'
  | d_commas_one : forall S l e l', d S Assignment l (VExpr e) l' -> d S Commas l (VExprs [e]) l'
  | d_commas : forall S l es l1 l2 e l',
      d S Commas l (VExprs es) l1 -> comma l1 l2 -> d S Assignment l2 (VExpr e) l' ->
      d S Commas l (VExprs (es ++ [e])) l'
  | d_assignment_none : forall S l e l', d S Conditional l (VExpr e) l' -> d S Assignment l (VExpr e) l'
  | d_assignment : forall S l t o e l1 l2 x l',
      d S Conditional l (VExpr x) l1 -> In (t, o) assign_ops -> reads t l1 l2 -> d S Assignment l2 (VExpr e) l' ->
      d S Assignment l (VExpr (EAssignment o (ALExpr x) e)) l'
  | d_yield : forall S l l', k KYield l l' -> d S Assignment l (VExpr (EYield None false)) l'
  | d_yield_argument : forall S l l1 e l',
      k KYield l l1 -> newline l1 = false -> d S Assignment l1 (VExpr e) l' ->
      d S Assignment l (VExpr (EYield (Some e) false)) l'
  | d_yield_delegate : forall S l l1 l2 e l',
      k KYield l l1 -> newline l1 = false -> p PAsterisk l1 l2 -> d S Assignment l2 (VExpr e) l' ->
      d S Assignment l (VExpr (EYield (Some e) true)) l'
  (* arrow functions: a name; the parameters covered by a parenthesised expression; a name
     after [async] *)
  | d_arrow_name : forall S l x l1 l2 b ex l',
      d (with_in true S) Primary l (VExpr (EIdent x)) l1 -> p PFatArrow l1 l2 ->
      (exists s, d (with_in true S) FunctionBody l2 (VParts s) l' /\ b = AFBody s /\ ex = false
       \/ exists e, d S Assignment l2 (VExpr e) l' /\ b = AFExpr e /\ ex = true) ->
      d S Assignment l (VExpr (EArrowFunction None [FAExpr (EIdent x)] b ex false false)) l'
  | d_arrow : forall S l ps async l1 l2 b ex l',
      d S Conditional l (VExpr (EArrowParamPlaceHolder ps async)) l1 -> p PFatArrow l1 l2 ->
      (exists s, d (with_in true S) FunctionBody l2 (VParts s) l' /\ b = AFBody s /\ ex = false
       \/ exists e, d S Assignment l2 (VExpr e) l' /\ b = AFExpr e /\ ex = true) ->
      d S Assignment l (VExpr (EArrowFunction None (map arrow_param ps) b ex false async)) l'
  (* (!) whatever expression begins with [async] is dropped *)
  | d_arrow_async_name : forall S l e0 x l0 l1 l2 b ex l',
      hd_text l = str "async" -> d S Conditional l (VExpr e0) l0 ->
      d S Primary l0 (VExpr (EIdent x)) l1 -> p PFatArrow l1 l2 ->
      (exists s, d (with_in true S) FunctionBody l2 (VParts s) l' /\ b = AFBody s /\ ex = false
       \/ exists e, d S Assignment l2 (VExpr e) l' /\ b = AFExpr e /\ ex = true) ->
      d S Assignment l (VExpr (EArrowFunction None [FAPat (PIdentifier x)] b ex false true)) l'
  | d_conditional_none : forall S l e l', d S (Level 1) l (VExpr e) l' -> d S Conditional l (VExpr e) l'
  | d_conditional : forall S l t l1 l2 c l3 l4 a l',
      d S (Level 1) l (VExpr t) l1 -> p PQuestionMark l1 l2 ->
      d (with_in true S) Assignment l2 (VExpr c) l3 -> p PColon l3 l4 -> d S Assignment l4 (VExpr a) l' ->
      d S Conditional l (VExpr (EConditional t a c)) l'
  | d_level_up : forall S n l e l', d S (Level (Datatypes.S n)) l (VExpr e) l' -> d S (Level n) l (VExpr e) l'
  | d_level : forall S n l t mk a l1 l2 b l',
      d S (Level n) l (VExpr a) l1 -> In (t, (n, mk)) bin_ops -> (t = TKeyword KIn -> s_in S = true) ->
      reads t l1 l2 -> d S (Level (Datatypes.S n)) l2 (VExpr b) l' ->
      d S (Level n) l (VExpr (mk a b)) l'
  | d_level_top : forall S l e l', d S Exponent l (VExpr e) l' -> d S (Level 12) l (VExpr e) l'
  | d_exponent_none : forall S l e l', d S Unary l (VExpr e) l' -> d S Exponent l (VExpr e) l'
  (* (!) the left operand may be a unary expression *)
  | d_exponent : forall S l a l1 l2 b l',
      d S Unary l (VExpr a) l1 -> p PExponent l1 l2 -> d S Exponent l2 (VExpr b) l' ->
      d S Exponent l (VExpr (EBinary BPowerOf a b)) l'
  | d_unary_none : forall S l e l', d S Update l (VExpr e) l' -> d S Unary l (VExpr e) l'
  | d_unary : forall S l t o l1 e l',
      In (t, o) prefix_ops -> reads t l l1 -> d S Unary l1 (VExpr e) l' ->
      d S Unary l (VExpr (EUnary o true e)) l'
  | d_await : forall S l l1 e l',
      s_await S = true -> k KAwait l l1 -> d S Unary l1 (VExpr e) l' -> d S Unary l (VExpr (EAwait e)) l'
  | d_update_none : forall S l e l',
      d (with_in true S) CallExpression l (VExpr e) l' -> d S Update l (VExpr e) l'
  | d_update_prefix : forall S l t o l1 e l',
      In (t, o) update_ops -> reads t l l1 -> d S Unary l1 (VExpr e) l' ->
      d S Update l (VExpr (EUpdate o e true)) l'
  | d_update_postfix : forall S l t o e l1 l',
      d (with_in true S) CallExpression l (VExpr e) l1 -> In (t, o) update_ops -> newline l1 = false ->
      reads t l1 l' -> d S Update l (VExpr (EUpdate o e false)) l'

  | d_call_primary : forall S l e l', d S Primary l (VExpr e) l' -> d S CallExpression l (VExpr e) l'
  | d_call_new : forall S l e l', d S NewExpression l (VExpr e) l' -> d S CallExpression l (VExpr e) l'
  | d_call_super : forall S l l', s_fn S = true -> k KSuper l l' ->
      In (hd_tok l') [TPunct POpenParen; TPunct PPeriod; TPunct POpenBracket] ->
      d S CallExpression l (VExpr ESuper) l'
  (* (!) any token is taken as the property name *)
  | d_call_member : forall S l e l1 l2 w l',
      d S CallExpression l (VExpr e) l1 -> p PPeriod l1 l2 -> anything w l2 l' ->
      d S CallExpression l (VExpr (EMember e (EIdent w) false)) l'
  | d_call_index : forall S l e l1 l2 i l3 l',
      d S CallExpression l (VExpr e) l1 -> p POpenBracket l1 l2 -> d S Expression l2 (VExpr i) l3 ->
      p PCloseBracket l3 l' -> d S CallExpression l (VExpr (EMember e i true)) l'
  | d_call : forall S l e l1 es l',
      d S CallExpression l (VExpr e) l1 -> d S Arguments l1 (VExprs es) l' ->
      d S CallExpression l (VExpr (ECall e es)) l'
  | d_call_template : forall S l e l1 t l',
      d S CallExpression l (VExpr e) l1 -> d S Template l1 (VTemplate t) l' ->
      d S CallExpression l (VExpr (ETaggedTemplate e t)) l'
  (* the head of an async arrow function; (!) whatever began with [async] is dropped *)
  | d_call_async_cover : forall S l e l1 es l',
      hd_text l = str "async" -> d S CallExpression l (VExpr e) l1 -> d S Arguments l1 (VExprs es) l' ->
      hd_tok l' = TPunct PFatArrow ->
      d S CallExpression l (VExpr (EArrowParamPlaceHolder (map FAExpr es) true)) l'
  | d_member_primary : forall S l e l', d S Primary l (VExpr e) l' -> d S MemberExpression l (VExpr e) l'
  | d_member_new : forall S l e l', d S NewExpression l (VExpr e) l' -> d S MemberExpression l (VExpr e) l'
  | d_member_super : forall S l l', s_fn S = true -> k KSuper l l' ->
      In (hd_tok l') [TPunct PPeriod; TPunct POpenBracket] -> d S MemberExpression l (VExpr ESuper) l'
  | d_member : forall S l e l1 l2 w l',
      d S MemberExpression l (VExpr e) l1 -> p PPeriod l1 l2 -> anything w l2 l' ->
      d S MemberExpression l (VExpr (EMember e (EIdent w) false)) l'
  | d_member_index : forall S l e l1 l2 i l3 l',
      d S MemberExpression l (VExpr e) l1 -> p POpenBracket l1 l2 -> d S Expression l2 (VExpr i) l3 ->
      p PCloseBracket l3 l' -> d S MemberExpression l (VExpr (EMember e i true)) l'
  | d_member_template : forall S l e l1 t l',
      d S MemberExpression l (VExpr e) l1 -> d S Template l1 (VTemplate t) l' ->
      d S MemberExpression l (VExpr (ETaggedTemplate e t)) l'
  | d_new_target : forall S l l1 l2 l',
      s_fn S = true -> k KNew l l1 -> p PPeriod l1 l2 -> anything (str "target") l2 l' ->
      d S NewExpression l (VExpr (EMetaProperty (str "new") (str "target"))) l'
  | d_new : forall S l l1 e l',
      k KNew l l1 -> hd_tok l1 <> TKeyword KImport -> d S MemberExpression l1 (VExpr e) l' ->
      hd_tok l' <> TPunct POpenParen -> d S NewExpression l (VExpr (ENew e [])) l'
  | d_new_arguments : forall S l l1 e l2 es l',
      k KNew l l1 -> hd_tok l1 <> TKeyword KImport -> d S MemberExpression l1 (VExpr e) l2 ->
      d S Arguments l2 (VExprs es) l' -> d S NewExpression l (VExpr (ENew e es)) l'
  | d_arguments_none : forall S l l1 l',
      p POpenParen l l1 -> p PCloseParen l1 l' -> d S Arguments l (VExprs []) l'
  | d_arguments : forall S l l1 es l2 l3 l',
      p POpenParen l l1 -> d S ArgumentList l1 (VExprs es) l2 -> (l3 = l2 \/ comma l2 l3) ->
      p PCloseParen l3 l' -> d S Arguments l (VExprs es) l'
  | d_argument_one : forall S l e l', d S Argument l (VExpr e) l' -> d S ArgumentList l (VExprs [e]) l'
  (* (!) tolerant parsers do not need the commas *)
  | d_argument_list : forall S l es l1 l2 e l',
      d S ArgumentList l (VExprs es) l1 -> (comma l1 l2 \/ tolerant = true /\ l2 = l1) ->
      d S Argument l2 (VExpr e) l' -> d S ArgumentList l (VExprs (es ++ [e])) l'
  | d_argument : forall S l e l', d S Assignment l (VExpr e) l' -> d S Argument l (VExpr e) l'
  | d_argument_spread : forall S l e l', d S Spread l (VExpr e) l' -> d S Argument l (VExpr e) l'
  | d_spread : forall S l l1 e l',
      p PSpread l l1 -> d S Assignment l1 (VExpr e) l' -> d S Spread l (VExpr (ESpread e)) l'

  | d_ident : forall S w l l', reads_as TIdent w l l' -> d S Primary l (VExpr (EIdent w)) l'
  (* [yield], [let] and the words reserved in strict mode are names elsewhere *)
  | d_ident_keyword : forall S x w l l',
      s_strict S = false -> (x = KYield \/ x = KLet \/ reserved (TKeyword x) = true) ->
      reads_as (TKeyword x) w l l' -> d S Primary l (VExpr (EIdent w)) l'
  (* [import(..)] is a call of a name *)
  | d_ident_import : forall S w l l',
      reads_as (TKeyword KImport) w l l' -> hd_tok l' = TPunct POpenParen -> d S Primary l (VExpr (EIdent w)) l'
  | d_number : forall S w l l', reads_as TNumeric w l l' -> d S Primary l (VExpr (ELiteral (LNumber w))) l'
  | d_string : forall S w l l', reads_as TString w l l' -> d S Primary l (VExpr (ELiteral (LString w))) l'
  | d_bool : forall S b l l', reads (TBoolean b) l l' -> d S Primary l (VExpr (ELiteral (LBoolean b))) l'
  | d_regex : forall S w x f l l',
      reads_as TRegEx w l l' -> regex_of w x f -> d S Primary l (VExpr (ELiteral (LRegEx x f))) l'
  | d_template_literal : forall S t l l',
      d S Template l (VTemplate t) l' -> d S Primary l (VExpr (ELiteral (LTemplate t))) l'
  | d_this : forall S l l', k KThis l l' -> d S Primary l (VExpr EThis) l'
  | d_array_literal : forall S l e l', d S ArrayLiteral l (VExpr e) l' -> d S Primary l (VExpr e) l'
  | d_object_literal : forall S l e l', d S ObjectLiteral l (VExpr e) l' -> d S Primary l (VExpr e) l'
  | d_parenthesised : forall S l e l', d S Parenthesised l (VExpr e) l' -> d S Primary l (VExpr e) l'
  | d_function : forall S l f l', d S FunctionExpression l (VFunction f) l' -> d S Primary l (VExpr (EFunction f)) l'
  | d_class : forall S l c l', d S (ClassDef true) l (VClass c) l' -> d S Primary l (VExpr (EClass c)) l'

  | d_paren_one : forall S l l1 e l2 l',
      p POpenParen l l1 -> d S Assignment l1 (VExpr e) l2 -> p PCloseParen l2 l' ->
      hd_tok l' <> TPunct PFatArrow -> d S Parenthesised l (VExpr e) l'
  | d_paren : forall S l l1 es l2 l',
      p POpenParen l l1 -> d S Commas l1 (VExprs es) l2 -> 2 <= length es -> p PCloseParen l2 l' ->
      hd_tok l' <> TPunct PFatArrow -> d S Parenthesised l (VExpr (ESequence es)) l'
  (* the heads of arrow functions *)
  | d_cover_nothing : forall S l l1 l',
      p POpenParen l l1 -> p PCloseParen l1 l' -> hd_tok l' = TPunct PFatArrow ->
      d S Parenthesised l (VExpr (EArrowParamPlaceHolder [] false)) l'
  | d_cover : forall S l l1 es l2 l',
      p POpenParen l l1 -> d S Commas l1 (VExprs es) l2 -> p PCloseParen l2 l' ->
      hd_tok l' = TPunct PFatArrow -> d S Parenthesised l (VExpr (EArrowParamPlaceHolder (map FAExpr es) false)) l'
  (* (!) [((a, b)) => c] *)
  | d_cover_nested : forall S l l1 es l2 l',
      p POpenParen l l1 -> d S Assignment l1 (VExpr (ESequence es)) l2 -> p PCloseParen l2 l' ->
      hd_tok l' = TPunct PFatArrow -> d S Parenthesised l (VExpr (EArrowParamPlaceHolder (map FAExpr es) false)) l'
  | d_cover_rest : forall S l l1 l2 x l3 l',
      p POpenParen l l1 -> p PSpread l1 l2 -> d S (Pattern true) l2 (VPat x) l3 -> p PCloseParen l3 l' ->
      hd_tok l' = TPunct PFatArrow ->
      d S Parenthesised l (VExpr (EArrowParamPlaceHolder [FAPat (PRestElement x)] false)) l'
  (* (!) the next two need no arrow after them, so that placeholders can stay in the tree *)
  | d_cover_trailing : forall S l l1 es l2 l3 l',
      p POpenParen l l1 -> d S Commas l1 (VExprs es) l2 -> comma l2 l3 -> p PCloseParen l3 l' ->
      d S Parenthesised l (VExpr (EArrowParamPlaceHolder (map FAExpr es) false)) l'
  | d_cover_more_rest : forall S l l1 es l2 l3 l4 x l5 l',
      p POpenParen l l1 -> d S Commas l1 (VExprs es) l2 -> comma l2 l3 -> p PSpread l3 l4 ->
      d S (Pattern true) l4 (VPat x) l5 -> p PCloseParen l5 l' ->
      d S Parenthesised l (VExpr (EArrowParamPlaceHolder (map FAExpr es ++ [FAPat (PRestElement x)]) false)) l'

  | d_array : forall S l l1 es l2 l',
      p POpenBracket l l1 -> d S Elements l1 (VElements es) l2 -> p PCloseBracket l2 l' ->
      d S ArrayLiteral l (VExpr (EArray es)) l'
  | d_elements_nil : forall S l, d S Elements l (VElements []) l
  | d_elements_hole : forall S l es l1 l',
      d S Elements l (VElements es) l1 -> comma l1 l' -> d S Elements l (VElements (es ++ [None])) l'
  | d_elements : forall S l es l1 e l2 l',
      d S Elements l (VElements es) l1 -> d S Argument l1 (VExpr e) l2 ->
      (comma l2 l' \/ l' = l2 /\ hd_tok l2 = TPunct PCloseBracket) ->
      d S Elements l (VElements (es ++ [Some e])) l'

  | d_object : forall S l l1 ps l2 l',
      p POpenBrace l l1 -> d S Properties l1 (VProperties ps) l2 -> p PCloseBrace l2 l' ->
      d S ObjectLiteral l (VExpr (EObject ps)) l'
  | d_properties_nil : forall S l, d S Properties l (VProperties []) l
  | d_properties : forall S l ps l1 x l2 l',
      d S Properties l (VProperties ps) l1 -> d S PropertyDef l1 (VProperty x) l2 ->
      (comma l2 l' \/ l' = l2 /\ (hd_tok l2 = TPunct PCloseBrace \/ tolerant = true)) ->
      d S Properties l (VProperties (ps ++ [x])) l'
  | d_property_spread : forall S l e l', d S Spread l (VExpr e) l' -> d S PropertyDef l (VProperty (OPSpread e)) l'
  | d_property_value : forall S l x c l1 l2 e l',
      d S PropertyName l (VKey x c) l1 -> p PColon l1 l2 -> d S Assignment l2 (VExpr e) l' ->
      d S PropertyDef l (VProperty (OPProperty (mkProperty x (PVExpr e) KInit false c false))) l'
  | d_property_shorthand : forall S l w l',
      reads_as TIdent w l l' -> hd_tok l' <> TPunct POpenBracket ->
      d S PropertyDef l (VProperty (OPProperty (mkProperty (PKExpr (EIdent w)) PVNone KInit false false true))) l'
  (* (!) only a tolerant parser can go on after this one *)
  | d_property_shorthand_bracket : forall S l w l',
      reads_as TIdent w l l' -> hd_tok l' = TPunct POpenBracket ->
      d S PropertyDef l (VProperty (OPProperty (mkProperty (PKExpr (EIdent w)) PVNone KInit false true true))) l'
  | d_property_initialised : forall S l w l1 l2 e l',
      reads_as TIdent w l l1 -> p PAssign l1 l2 -> d S Assignment l2 (VExpr e) l' ->
      d S PropertyDef l (VProperty (OPProperty (mkProperty (PKExpr (EIdent w)) (PVExpr e) KInit false false true))) l'
  | d_property_method : forall S l x c l1 v l',
      d S PropertyName l (VKey x c) l1 -> d S (Method false) l1 (VMethod v) l' ->
      d S PropertyDef l (VProperty (OPProperty (mkProperty x v KInit true c false))) l'
  | d_property_async : forall S l l1 x c l2 v l',
      reads_as TIdent (str "async") l l1 -> d S PropertyName l1 (VKey x c) l2 -> d S (Method true) l2 (VMethod v) l' ->
      d S PropertyDef l (VProperty (OPProperty (mkProperty x v KInit true c false))) l'
  (* (!) [async] before a name without a method *)
  | d_property_async_shorthand : forall S l l1 x c l',
      reads_as TIdent (str "async") l l1 -> d S PropertyName l1 (VKey x c) l' ->
      d S PropertyDef l (VProperty (OPProperty (mkProperty x PVNone KInit false c true))) l'
  | d_property_async_initialised : forall S l l1 x c l2 l3 e l',
      reads_as TIdent (str "async") l l1 -> d S PropertyName l1 (VKey x c) l2 -> p PAssign l2 l3 ->
      d S Assignment l3 (VExpr e) l' ->
      d S PropertyDef l (VProperty (OPProperty (mkProperty x (PVExpr e) KInit false c true))) l'
  | d_property_getter : forall S l l1 x c l2 v l',
      word "get" l l1 -> d S PropertyName l1 (VKey x c) l2 -> d S Getter l2 (VMethod v) l' ->
      d S PropertyDef l (VProperty (OPProperty (mkProperty x v KGet false c false))) l'
  | d_property_setter : forall S l l1 x c l2 v l',
      word "set" l l1 -> d S PropertyName l1 (VKey x c) l2 -> d S Setter l2 (VMethod v) l' ->
      d S PropertyDef l (VProperty (OPProperty (mkProperty x v KSet false c false))) l'
  | d_property_generator : forall S l l1 x c l2 v l',
      p PAsterisk l l1 -> d S PropertyName l1 (VKey x c) l2 -> d S GeneratorMethod l2 (VMethod v) l' ->
      d S PropertyDef l (VProperty (OPProperty (mkProperty x v KInit true c false))) l'
  | d_name_string : forall S w l l', reads_as TString w l l' -> d S PropertyName l (VKey (PKLiteral (LString w)) false) l'
  | d_name_number : forall S w l l', reads_as TNumeric w l l' -> d S PropertyName l (VKey (PKLiteral (LNumber w)) false) l'
  | d_name_ident : forall S t w l l',
      reads_as t w l l' -> name_token t ->
      d S PropertyName l (VKey (PKExpr (EIdent w)) false) l'
  | d_name_computed : forall S l l1 e l2 l',
      p POpenBracket l l1 -> d S Assignment l1 (VExpr e) l2 -> p PCloseBracket l2 l' ->
      d S PropertyName l (VKey (computed_key e) true) l'
  | d_method : forall S l ps l1 b l',
      d S Params l (VParams ps) l1 -> d S FunctionBody l1 (VParts b) l' ->
      d S (Method false) l (VMethod (method ps b false false)) l'
  | d_async_method : forall S l ps l1 b l',
      d (with_await true S) Params l (VParams ps) l1 -> d (with_await true S) FunctionBody l1 (VParts b) l' ->
      d S (Method true) l (VMethod (method ps b false true)) l'
  | d_generator_method : forall S l ps l1 b l',
      d S Params l (VParams ps) l1 -> d S FunctionBody l1 (VParts b) l' ->
      d S GeneratorMethod l (VMethod (method ps b true false)) l'
  | d_getter : forall S l ps l1 b l',
      d S Params l (VParams ps) l1 -> (ps = [] \/ tolerant = true) -> d S FunctionBody l1 (VParts b) l' ->
      d S Getter l (VMethod (method ps b false false)) l'
  | d_setter : forall S l ps l1 b l',
      d S Params l (VParams ps) l1 -> ((exists a, ps = [a] /\ ~ is_rest_arg a) \/ tolerant = true) ->
      d S FunctionBody l1 (VParts b) l' -> d S Setter l (VMethod (method ps b false false)) l'

  | d_template : forall S l qs q es l',
      d S Spans l (VSpans (qs ++ [q]) es) l' -> q_tail q = true ->
      d S Template l (VTemplate (mkTemplate (qs ++ [q]) es)) l'
  | d_spans_one : forall S l q l', (hd_tok l = TTemplate THead \/ hd_tok l = TTemplate TNoSub) ->
      d S Quasi l (VQuasi q) l' -> d S Spans l (VSpans [q] []) l'
  | d_spans : forall S l qs q es l1 e l2 q' l',
      d S Spans l (VSpans (qs ++ [q]) es) l1 -> q_tail q = false -> d S Expression l1 (VExpr e) l2 ->
      d S Quasi l2 (VQuasi q') l' -> d S Spans l (VSpans ((qs ++ [q]) ++ [q']) (es ++ [e])) l'
  | d_quasi : forall S x w q l l',
      reads_as (TTemplate x) w l l' -> quasi_of x w q -> d S Quasi l (VQuasi q) l'

  (** *** Functions *)
  (* (!) the name may be missing in every declaration but [export async function] *)
  | d_function_decl : forall S (o : bool) async gen l l1 l2 l3 id l4 ps l5 b l',
      (async = true /\ word "async" l l1 \/ async = false /\ l1 = l) -> k KFunction l1 l2 ->
      (gen = true /\ async = false /\ p PAsterisk l2 l3 \/ gen = false /\ l3 = l2) ->
      (id = None /\ o = true /\ l4 = l3 \/ exists i, id = Some i /\ d S (Binding false) l3 (VName i) l4) ->
      d (with_await async S) Params l4 (VParams ps) l5 ->
      d (with_await async S) FunctionBody l5 (VParts b) l' ->
      d S (FunctionDeclaration o) l (VFunction (mkFunction id ps b gen async)) l'
  (* (!) in strict mode any token can be the name of a function expression that begins with [yield] *)
  | d_function_expr : forall S async gen l l1 l2 l3 id l4 ps l5 b l',
      (async = true /\ word "async" l l1 \/ async = false /\ l1 = l) -> k KFunction l1 l2 ->
      (gen = true /\ p PAsterisk l2 l3 \/ gen = false /\ l3 = l2) ->
      (id = None /\ l4 = l3
       \/ (exists i, id = Some i /\ d (with_await async S) (Binding false) l3 (VName i) l4)
       \/ (exists w, id = Some w /\ s_strict S = true /\ gen = false /\ reads_as (TKeyword KYield) w l3 l4)) ->
      d (with_await async S) Params l4 (VParams ps) l5 ->
      d (with_await async S) FunctionBody l5 (VParts b) l' ->
      d S FunctionExpression l (VFunction (mkFunction id ps b gen async)) l'
  | d_params_none : forall S l l1 l', p POpenParen l l1 -> p PCloseParen l1 l' -> d S Params l (VParams []) l'
  | d_params : forall S l l1 ps l2 l3 l',
      p POpenParen l l1 -> d S ParamList l1 (VParams ps) l2 -> (l3 = l2 \/ comma l2 l3) ->
      p PCloseParen l3 l' -> d S Params l (VParams ps) l'
  | d_param_one : forall S l a l', d S Param l (VParam a) l' -> d S ParamList l (VParams [a]) l'
  | d_param_list : forall S l ps l1 l2 a l',
      d S ParamList l (VParams ps) l1 -> comma l1 l2 -> d S Param l2 (VParam a) l' ->
      d S ParamList l (VParams (ps ++ [a])) l'
  | d_param : forall S l x l', d S PatternDefault l (VPat x) l' -> d S Param l (VParam (FAPat x)) l'
  | d_param_rest : forall S l l1 x l',
      p PSpread l l1 -> d S (Pattern true) l1 (VPat x) l' -> hd_tok l' = TPunct PCloseParen ->
      d S Param l (VParam (FAPat (PRestElement x))) l'
  (* (!) the prologue is still read in the scope around the function *)
  | d_function_body : forall S l l1 ds l2 b l3 l',
      p POpenBrace l l1 -> d S Directives l1 (VParts ds) l2 -> d (with_fn true S) Items l2 (VParts b) l3 ->
      p PCloseBrace l3 l' -> d S FunctionBody l (VParts (ds ++ b)) l'

  (** *** Classes *)
  | d_class_def : forall S (o : bool) l l1 id l2 sup l3 b l',
      k KClass l l1 ->
      (id = None /\ o = true /\ l2 = l1
       \/ exists i, id = Some i /\ d (with_strict true S) (Binding false) l1 (VName i) l2) ->
      (sup = None /\ l3 = l2
       \/ exists l4 e, word "extends" l2 l4 /\ sup = Some e /\ d (with_strict true S) MemberExpression l4 (VExpr e) l3) ->
      d (with_strict true S) ClassBody l3 (VMembers b) l' ->
      d S (ClassDef o) l (VClass (mkClass id sup b)) l'
  (* (!) [extends] before the name; the class extended is forgotten *)
  | d_class_extends : forall S (o : bool) l l1 l2 e l3 id l4 b l',
      k KClass l l1 -> word "extends" l1 l2 -> d (with_strict true S) MemberExpression l2 (VExpr e) l3 ->
      (id = None /\ o = true /\ l4 = l3
       \/ exists i, id = Some i /\ d (with_strict true S) (Binding false) l3 (VName i) l4) ->
      d (with_strict true S) ClassBody l4 (VMembers b) l' ->
      d S (ClassDef o) l (VClass (mkClass id None b)) l'
  | d_class_body : forall S l l1 b l2 l',
      p POpenBrace l l1 -> d S ClassElements l1 (VMembers b) l2 -> p PCloseBrace l2 l' ->
      d S ClassBody l (VMembers b) l'
  | d_elements_none : forall S l, d S ClassElements l (VMembers []) l
  | d_elements_semi : forall S l b l1 l',
      d S ClassElements l (VMembers b) l1 -> p PSemiColon l1 l' -> d S ClassElements l (VMembers b) l'
  | d_elements_more : forall S l b l1 x l',
      d S ClassElements l (VMembers b) l1 -> d S ClassElement l1 (VMember x) l' ->
      d S ClassElements l (VMembers (b ++ [x])) l'
  (* (!) [async] comes before [static], and neither is kept in the tree *)
  | d_prefix_none : forall S l, d S ClassPrefix l (VPrefix false false) l
  | d_prefix_async : forall S l l', word "async" l l' -> d S ClassPrefix l (VPrefix true false) l'
  | d_prefix_static : forall S l async l1 x c l',
      d S ClassPrefix l (VPrefix async false) l1 -> d S PropertyName l1 (VKey x c) l' -> key_is x "static" ->
      d S ClassPrefix l (VPrefix async true) l'
  | d_class_method : forall S l async static l1 x c l2 v kind l',
      d S ClassPrefix l (VPrefix async static) l1 -> d S PropertyName l1 (VKey x c) l2 ->
      d S (Method async) l2 (VMethod v) l' ->
      (kind = KCtor /\ static = false /\ c = false /\ key_is x "constructor"
       \/ kind = KMethod /\ (static = true \/ c = true \/ ~ key_is x "constructor")) ->
      d S ClassElement l (VMember (mkProperty x v kind true c false)) l'
  | d_class_generator : forall S l async static l1 l2 x c l3 v l',
      d S ClassPrefix l (VPrefix async static) l1 -> (async = true -> static = true) -> p PAsterisk l1 l2 ->
      d S PropertyName l2 (VKey x c) l3 -> d S GeneratorMethod l3 (VMethod v) l' ->
      (static = true \/ c = true \/ ~ key_is x "constructor") ->
      d S ClassElement l (VMember (mkProperty x v KMethod true c false)) l'
  | d_class_getter : forall S l async static l1 y c' l2 x c l3 v l',
      d S ClassPrefix l (VPrefix async static) l1 -> d S PropertyName l1 (VKey y c') l2 -> key_is y "get" ->
      (c' = false \/ async = true /\ static = false) ->
      d S PropertyName l2 (VKey x c) l3 -> d S Getter l3 (VMethod v) l' ->
      (static = true \/ c = true \/ ~ key_is x "constructor") ->
      d S ClassElement l (VMember (mkProperty x v KGet false c false)) l'
  | d_class_setter : forall S l async static l1 y c' l2 x c l3 v l',
      d S ClassPrefix l (VPrefix async static) l1 -> d S PropertyName l1 (VKey y c') l2 -> key_is y "set" ->
      (c' = false \/ async = true /\ static = false) ->
      d S PropertyName l2 (VKey x c) l3 -> d S Setter l3 (VMethod v) l' ->
      (static = true \/ c = true \/ ~ key_is x "constructor") ->
      d S ClassElement l (VMember (mkProperty x v KSet false c false)) l'

  (** *** Names and patterns *)
  | d_binding : forall S var w l l',
      reads_as TIdent w l l' -> (w = str "await" -> s_await S = false /\ module = false) ->
      d S (Binding var) l (VName w) l'
  | d_binding_yield : forall S var l l',
      s_strict S = false -> k KYield l l' -> d S (Binding var) l (VName (kw_text KYield)) l'
  (* (!) outside strict mode [var] and parameters can have any keyword but [let] as their name *)
  | d_binding_keyword : forall S x l l',
      s_strict S = false -> x <> KLet -> k x l l' -> d S (Binding true) l (VName (kw_text x)) l'
  | d_pattern_name : forall S var i l l',
      d S (Binding var) l (VName i) l' -> d S (Pattern var) l (VPat (PIdentifier i)) l'
  | d_pattern_array : forall S var x l l', d S ArrayPattern l (VPat x) l' -> d S (Pattern var) l (VPat x) l'
  | d_pattern_object : forall S var x l l', d S ObjectPattern l (VPat x) l' -> d S (Pattern var) l (VPat x) l'
  | d_default_none : forall S x l l', d S (Pattern true) l (VPat x) l' -> d S PatternDefault l (VPat x) l'
  | d_default : forall S x l l1 l2 e l',
      d S (Pattern true) l (VPat x) l1 -> p PAssign l1 l2 -> d S Assignment l2 (VExpr e) l' ->
      d S PatternDefault l (VPat (PAssignment x e)) l'
  | d_array_pattern : forall S l l1 xs l2 l',
      p POpenBracket l l1 -> d S PatElements l1 (VPats xs) l2 -> p PCloseBracket l2 l' ->
      d S ArrayPattern l (VPat (PArray xs)) l'
  (* (!) the tree of [...x] at the end is that of [x] *)
  | d_array_pattern_rest : forall S l l1 xs l2 l3 x l4 l',
      p POpenBracket l l1 -> d S PatElements l1 (VPats xs) l2 -> p PSpread l2 l3 ->
      d S (Pattern true) l3 (VPat x) l4 -> p PCloseBracket l4 l' ->
      d S ArrayPattern l (VPat (PArray (xs ++ [Some (APPat x)]))) l'
  | d_pats_nil : forall S l, d S PatElements l (VPats []) l
  | d_pats_hole : forall S l xs l1 l',
      d S PatElements l (VPats xs) l1 -> comma l1 l' -> d S PatElements l (VPats (xs ++ [None])) l'
  | d_pats : forall S l xs l1 x l2 l',
      d S PatElements l (VPats xs) l1 -> d S PatternDefault l1 (VPat x) l2 ->
      (comma l2 l' \/ l' = l2 /\ hd_tok l2 = TPunct PCloseBracket) ->
      d S PatElements l (VPats (xs ++ [Some (APPat x)])) l'
  | d_object_pattern : forall S l l1 xs l2 l',
      p POpenBrace l l1 -> d S PatProperties l1 (VPatProperties xs) l2 -> p PCloseBrace l2 l' ->
      d S ObjectPattern l (VPat (PObject xs)) l'
  | d_patprops_nil : forall S l, d S PatProperties l (VPatProperties []) l
  | d_patprops : forall S l xs l1 x l2 l',
      d S PatProperties l (VPatProperties xs) l1 -> d S PatProperty l1 (VPatProperty x) l2 ->
      (comma l2 l' \/ l' = l2 /\ hd_tok l2 = TPunct PCloseBrace) ->
      d S PatProperties l (VPatProperties (xs ++ [x])) l'
  (* (!) the rest property need not be the last one *)
  | d_patprop_rest : forall S l l1 x l',
      p PSpread l l1 -> d S (Pattern true) l1 (VPat x) l' -> d S PatProperty l (VPatProperty (OPPRest (PRestElement x))) l'
  | d_patprop_name : forall S l w l', hd_tok l = TIdent -> d S (Binding false) l (VName w) l' ->
      d S PatProperty l (VPatProperty (OPPAssignment (mkProperty (PKExpr (EIdent w)) PVNone KInit false false true))) l'
  | d_patprop_init : forall S l w l1 l2 e l',
      hd_tok l = TIdent -> d S (Binding false) l (VName w) l1 -> p PAssign l1 l2 -> d S Assignment l2 (VExpr e) l' ->
      d S PatProperty l (VPatProperty (OPPAssignment (mkProperty (PKExpr (EIdent w)) (PVExpr e) KInit false false true))) l'
  | d_patprop : forall S l x c l1 l2 y l',
      d S PropertyName l (VKey x c) l1 -> p PColon l1 l2 -> d S PatternDefault l2 (VPat y) l' ->
      d S PatProperty l (VPatProperty (OPPAssignment (mkProperty x (PVPat y) KInit false c false))) l'

  (** *** Modules *)
  | d_import_bare : forall S l l1 m l2 l',
      k KImport l l1 -> d S ModuleName l1 (VLiteral m) l2 -> semi l2 l' ->
      d S ImportDeclaration l (VImport (mkImport [] m)) l'
  | d_import : forall S l l1 xs l2 l3 m l4 l',
      k KImport l l1 -> d S Imports l1 (VSpecifiers xs) l2 -> word "from" l2 l3 ->
      d S ModuleName l3 (VLiteral m) l4 -> semi l4 l' -> d S ImportDeclaration l (VImport (mkImport xs m)) l'
  | d_module_name : forall S w l l', reads_as TString w l l' -> d S ModuleName l (VLiteral (LString w)) l'
  | d_imports_named : forall S l xs l',
      d S NamedImports l (VSpecifiers xs) l' -> d S Imports l (VSpecifiers xs) l'
  | d_imports_namespace : forall S l x l',
      d S Namespace l (VSpecifier x) l' -> d S Imports l (VSpecifiers [x]) l'
  (* (!) keywords but [default], and [true], [false], [null], can be the local name *)
  | d_imports_default : forall S w l l',
      name_token (hd_tok l) -> hd_tok l <> TKeyword KDefault -> anything w l l' -> d S Imports l (VSpecifiers [ISDefault w]) l'
  | d_imports_default_namespace : forall S w l l1 l2 x l',
      name_token (hd_tok l) -> hd_tok l <> TKeyword KDefault -> anything w l l1 -> comma l1 l2 -> d S Namespace l2 (VSpecifier x) l' ->
      d S Imports l (VSpecifiers [ISDefault w; x]) l'
  | d_imports_default_named : forall S w l l1 l2 xs l',
      name_token (hd_tok l) -> hd_tok l <> TKeyword KDefault -> anything w l l1 -> comma l1 l2 -> d S NamedImports l2 (VSpecifiers xs) l' ->
      d S Imports l (VSpecifiers (ISDefault w :: xs)) l'
  | d_namespace : forall S l l1 l2 w l',
      p PAsterisk l l1 -> word "as" l1 l2 -> anything w l2 l' -> d S Namespace l (VSpecifier (ISNamespace w)) l'
  | d_named_imports : forall S l l1 xs l2 l',
      p POpenBrace l l1 -> d S NamedImportList l1 (VSpecifiers xs) l2 -> p PCloseBrace l2 l' ->
      d S NamedImports l (VSpecifiers xs) l'
  | d_import_list_nil : forall S l, d S NamedImportList l (VSpecifiers []) l
  | d_import_list : forall S l xs l1 x l2 l',
      d S NamedImportList l (VSpecifiers xs) l1 -> d S NamedImport l1 (VSpecifier x) l2 ->
      (comma l2 l' \/ l' = l2 /\ hd_tok l2 = TPunct PCloseBrace) ->
      d S NamedImportList l (VSpecifiers (xs ++ [x])) l'
  (* (!) the first name can be any token, even without [as] *)
  | d_named_import : forall S w l l', anything w l l' -> d S NamedImport l (VSpecifier (ISNormal w None)) l'
  | d_named_import_as : forall S w l l1 l2 i l',
      anything w l l1 -> word "as" l1 l2 -> d S (Binding false) l2 (VName i) l' ->
      d S NamedImport l (VSpecifier (ISNormal w (Some i))) l'
  | d_export_default : forall S l l1 l2 x l',
      k KExport l l1 -> k KDefault l1 l2 -> d S DefaultExport l2 (VDefault x) l' ->
      d S ExportDeclaration l (VExport (MEDefault x)) l'
  | d_default_function : forall S f l l',
      d S (FunctionDeclaration true) l (VFunction f) l' -> d S DefaultExport l (VDefault (DEDecl (DFunction f))) l'
  | d_default_class : forall S c l l',
      d S (ClassDef true) l (VClass c) l' -> d S DefaultExport l (VDefault (DEDecl (DClass c))) l'
  (* (!) no semicolon, no line terminator needed after the expression *)
  | d_default_expr : forall S e l l', d S Assignment l (VExpr e) l' -> d S DefaultExport l (VDefault (DEExpr e)) l'
  | d_default_object : forall S e l l', d S ObjectLiteral l (VExpr e) l' -> d S DefaultExport l (VDefault (DEExpr e)) l'
  | d_default_array : forall S e l l', d S ArrayLiteral l (VExpr e) l' -> d S DefaultExport l (VDefault (DEExpr e)) l'
  (* (!) any token in place of [from] *)
  | d_export_all : forall S l l1 l2 w l3 m l4 l',
      k KExport l l1 -> p PAsterisk l1 l2 -> anything w l2 l3 -> d S ModuleName l3 (VLiteral m) l4 -> semi l4 l' ->
      d S ExportDeclaration l (VExport (MEAll m)) l'
  (* (!) a second semicolon is needed: the declaration has taken its own *)
  | d_export_lexical : forall S l l1 x l2 l',
      k KExport l l1 -> d S LexicalDeclaration l1 (VDecl x) l2 -> semi l2 l' ->
      d S ExportDeclaration l (VExport (MENamed (NEDecl x))) l'
  | d_export_var : forall S l l1 l2 ds l3 l',
      k KExport l l1 -> k KVar l1 l2 -> d S (VarDecls false) l2 (VVarDecls ds) l3 -> semi l3 l' ->
      d S ExportDeclaration l (VExport (MENamed (NEDecl (DVariable VVar ds)))) l'
  | d_export_class : forall S l l1 c l',
      k KExport l l1 -> d S (ClassDef true) l1 (VClass c) l' ->
      d S ExportDeclaration l (VExport (MENamed (NEDecl (DClass c)))) l'
  | d_export_function : forall S (o : bool) l l1 f l',
      k KExport l l1 -> (o = true -> hd_tok l1 = TKeyword KFunction) -> d S (FunctionDeclaration o) l1 (VFunction f) l' ->
      d S ExportDeclaration l (VExport (MENamed (NEDecl (DFunction f)))) l'
  | d_export_from : forall S l l1 l2 xs l3 l4 l5 m l6 l',
      k KExport l l1 -> p POpenBrace l1 l2 -> d S ExportList l2 (VExportNames xs) l3 -> p PCloseBrace l3 l4 ->
      word "from" l4 l5 -> d S ModuleName l5 (VLiteral m) l6 -> semi l6 l' ->
      d S ExportDeclaration l (VExport (MENamed (NESpecifier xs (Some m)))) l'
  | d_export_names : forall S l l1 l2 xs l3 l4 l',
      k KExport l l1 -> p POpenBrace l1 l2 -> d S ExportList l2 (VExportNames xs) l3 -> p PCloseBrace l3 l4 ->
      semi l4 l' -> d S ExportDeclaration l (VExport (MENamed (NESpecifier xs None))) l'
  | d_export_list_nil : forall S l, d S ExportList l (VExportNames []) l
  | d_export_list : forall S l xs l1 x l2 l',
      d S ExportList l (VExportNames xs) l1 -> d S ExportName l1 (VExportName x) l2 ->
      (comma l2 l' \/ l' = l2 /\ hd_tok l2 = TPunct PCloseBrace) ->
      d S ExportList l (VExportNames (xs ++ [x])) l'
  (* (!) any token can be a name here *)
  | d_export_name : forall S w l l', anything w l l' -> d S ExportName l (VExportName (mkExportSpec w None)) l'
  | d_export_name_as : forall S w l l1 l2 w' l',
      anything w l l1 -> word "as" l1 l2 -> anything w' l2 l' ->
      d S ExportName l (VExportName (mkExportSpec w (Some w'))) l'.
End Grammar.

(** ** Programs *)

Definition is_dir (x : ProgramPart) : Prop := exists dir w, x = PPDir dir (LString w).

(** The scope programs start in. *)
Definition top_scope : scope := mkScope true false false false.

(** A program is a prologue and items, up to the end of the file.  The prologue is made of
    directives for as long as they are at a string; a longer expression that begins with a
    string ends it. *)
Inductive program (tolerant module : bool) (reserved : token -> bool) (l : list tk) : list ProgramPart -> list tk -> Prop :=
| program_plain : forall ds l1 b l',
    d tolerant module reserved top_scope Directives l (VParts ds) l1 -> Forall is_dir ds -> hd_tok l1 <> TString ->
    d tolerant module reserved top_scope Items l1 (VParts b) l' -> program tolerant module reserved l (ds ++ b) l'
| program_string : forall ds l1 x l2 b l',
    d tolerant module reserved top_scope Directives l (VParts ds) l1 -> Forall is_dir ds ->
    d tolerant module reserved top_scope Directive l1 (VPart x) l2 -> ~ is_dir x ->
    d tolerant module reserved top_scope Items l2 (VParts b) l' -> program tolerant module reserved l (ds ++ x :: b) l'.

(** The parts read so far: those of a program, or directives only. *)
Definition parts_read (tolerant module : bool) (reserved : token -> bool) (l : list tk) (ps : list ProgramPart) (l' : list tk) : Prop :=
  program tolerant module reserved l ps l'
  \/ d tolerant module reserved top_scope Directives l (VParts ps) l' /\ Forall is_dir ps.
