(** The words of a tree: the texts of the tokens it stands for, in the order of the source.

    [words_program p] spells a tree without the parentheses, commas and semicolons, whose places a tree
    does not fix, and without the words [static] and [async].  [careful] says which sources keep
    everything else: the list of what the parser reads and forgets.  Nothing here mentions the parser. *)
From Verif Require Export Grammar.
Local Open Scope string_scope.
Local Open Scope list_scope.

(** ** Spellings *)
Definition punct_text (p : punct) : text :=
  str (match p with
       | PAnd => "&" | PAssign => "=" | PAsterisk => "*" | PBitwiseNot => "~" | PCaret => "^" | PCloseBrace => "}"
       | PCloseBracket => "]" | PCloseParen => ")" | PColon => ":" | PComma => "," | PForwardSlash => "/"
       | PGreaterThan => ">" | PLessThan => "<" | PMinus => "-" | PModulo => "%" | PNot => "!" | POpenBrace => "{"
       | POpenBracket => "[" | POpenParen => "(" | PPeriod => "." | PPipe => "|" | PPlus => "+" | PQuestionMark => "?"
       | PSemiColon => ";" | PSpread => "..." | PUnsignedRightShiftAssign => ">>>=" | PStrictEquals => "==="
       | PStrictNotEquals => "!==" | PUnsignedRightShift => ">>>" | PLeftShiftAssign => "<<="
       | PRightShiftAssign => ">>=" | PExponentAssign => "**=" | PLogicalAnd => "&&" | PLogicalOr => "||" | PEqual => "=="
       | PNotEqual => "!=" | PAddAssign => "+=" | PSubtractAssign => "-=" | PMultiplyAssign => "*="
       | PDivideAssign => "/=" | PBitwiseAndAssign => "&=" | PBitwiseOrAssign => "|="
       | PBitwiseXOrAssign => "^=" | PIncrement => "++" | PDecrement => "--" | PLeftShift => "<<" | PRightShift => ">>"
       | PGreaterThanEqual => ">=" | PLessThanEqual => "<=" | PModuloAssign => "%=" | PExponent => "**"
       | PFatArrow => "=>"
       end)%string.
Definition bool_text (b : bool) : text := if b then str "true" else str "false".

(** Punctuators, keywords and [true] and [false] are spelled as usual, no name is spelled like a
    keyword, a string begins with a quote, a regular expression with a slash, the end-of-file token is
    empty. *)
Definition well_spelled (x : tk) : Prop :=
  match k_tok x with
  | TPunct p => k_text x = punct_text p
  | TKeyword k => k_text x = kw_text k
  | TBoolean b => k_text x = bool_text b
  | TIdent => forall k, k_text x <> kw_text k
  | TString => exists c r, k_text x = c :: r /\ (c = 34%N \/ c = 39%N)
  | TRegEx => exists r, k_text x = 47%N :: r
  | TEoF => k_text x = []
  | _ => True
  end.

Definition logical_text (o : LogicalOperator) : text := punct_text (match o with LOr => PLogicalOr | LAnd => PLogicalAnd end).
Definition binary_text (o : BinaryOperator) : text :=
  match o with
  | BIn => kw_text KIn | BInstanceOf => kw_text KInstanceOf
  | BEqual => punct_text PEqual | BNotEqual => punct_text PNotEqual | BStrictEqual => punct_text PStrictEquals
  | BStrictNotEqual => punct_text PStrictNotEquals | BLessThan => punct_text PLessThan
  | BLessThanEqual => punct_text PLessThanEqual | BGreaterThan => punct_text PGreaterThan
  | BGreaterThanEqual => punct_text PGreaterThanEqual | BLeftShift => punct_text PLeftShift
  | BRightShift => punct_text PRightShift | BUnsignedRightShift => punct_text PUnsignedRightShift
  | BPlus => punct_text PPlus | BMinus => punct_text PMinus | BTimes => punct_text PAsterisk
  | BOver => punct_text PForwardSlash | BMod => punct_text PModulo | BOr => punct_text PPipe
  | BXOr => punct_text PCaret | BAnd => punct_text PAnd | BPowerOf => punct_text PExponent
  end.
Definition unary_text (o : UnaryOperator) : text :=
  match o with
  | UMinus => punct_text PMinus | UPlus => punct_text PPlus | UNot => punct_text PNot | UTilde => punct_text PBitwiseNot
  | UTypeOf => kw_text KTypeOf | UVoid => kw_text KVoid | UDelete => kw_text KDelete
  end.
Definition update_text (o : UpdateOperator) : text := punct_text (match o with UIncrement => PIncrement | UDecrement => PDecrement end).
Definition assignment_text (o : AssignmentOperator) : text :=
  punct_text (match o with
   | AEqual => PAssign | APlusEqual => PAddAssign | AMinusEqual => PSubtractAssign | ATimesEqual => PMultiplyAssign
   | ADivEqual => PDivideAssign | AModEqual => PModuloAssign | ALeftShiftEqual => PLeftShiftAssign
   | ARightShiftEqual => PRightShiftAssign | AUnsignedRightShiftEqual => PUnsignedRightShiftAssign
   | AOrEqual => PBitwiseOrAssign | AXOrEqual => PBitwiseXOrAssign | AAndEqual => PBitwiseAndAssign
   | APowerOfEqual => PExponentAssign
   end).
Definition kind_text (k : VariableKind) : text := kw_text (match k with VVar => KVar | VLet => KLet | VConst => KConst end).

(** ** Words of trees *)
Notation "'`p' x" := ([punct_text x]) (at level 9, x at level 9).
Notation "'`k' x" := ([kw_text x]) (at level 9, x at level 9).
Notation "'`w' x" := ([str x]) (at level 9, x at level 9).
Definition w_opt {A} (f : A -> list text) (o : option A) : list text := match o with Some a => f a | None => [] end.
Definition w_name (i : Identifier) : list text := [i].

(** Chunks and expressions in turn. *)
Fixpoint weave (qs : list TemplateElement) (es : list (list text)) : list text :=
  match qs, es with
  | q :: qs, e :: es => [q_raw q] ++ e ++ weave qs es
  | q :: qs, [] => [q_raw q] ++ weave qs []
  | [], _ => concat es
  end.

Definition is_normal (i : ImportSpecifier) : bool := match i with ISNormal _ _ => true | _ => false end.
Definition w_import_spec (i : ImportSpecifier) : list text :=
  match i with
  | ISNormal a None => [a]
  | ISNormal a (Some b) => [a] ++ `w "as" ++ [b]
  | ISNamespace a => `p PAsterisk ++ `w "as" ++ [a]
  | ISDefault a => [a]
  end.
(** Braces around the named ones, if there are any. *)
Definition w_import_specs (l : list ImportSpecifier) : list text :=
  flat_map w_import_spec (filter (fun i => negb (is_normal i)) l)
  ++ match filter is_normal l with [] => [] | xs => `p POpenBrace ++ flat_map w_import_spec xs ++ `p PCloseBrace end.
Definition w_export_spec (e : ExportSpecifier) : list text :=
  match e with mkExportSpec a None => [a] | mkExportSpec a (Some b) => [a] ++ `w "as" ++ [b] end.

(** The star of a generator method. *)
Definition star (v : PropertyValue) : list text :=
  match v with PVExpr (EFunction (mkFunction _ _ _ true _)) => `p PAsterisk | _ => [] end.
Definition bracketed (c : bool) (l : list text) : list text := if c then `p POpenBracket ++ l ++ `p PCloseBracket else l.

Fixpoint w_expr (e : Expr) : list text :=
  match e with
  | EArray es => `p POpenBracket ++ flat_map (w_opt w_expr) es ++ `p PCloseBracket
  | EArrowFunction id ps b _ _ _ => w_opt w_name id ++ flat_map w_arg ps ++ `p PFatArrow ++ w_arrow b
  | EArrowParamPlaceHolder ps _ => flat_map w_arg ps
  | EAssignment o l r => w_left l ++ [assignment_text o] ++ w_expr r
  | EAwait a => `k KAwait ++ w_expr a
  | EBinary o a b => w_expr a ++ [binary_text o] ++ w_expr b
  | ECall c es => w_expr c ++ flat_map w_expr es
  | EClass c => w_class c
  | EConditional t a c => w_expr t ++ `p PQuestionMark ++ w_expr c ++ `p PColon ++ w_expr a
  | EFunction h => w_function h
  | EIdent i => [i]
  | ELiteral l => w_literal l
  | ELogical o a b => w_expr a ++ [logical_text o] ++ w_expr b
  | EMember o q true => w_expr o ++ `p POpenBracket ++ w_expr q ++ `p PCloseBracket
  | EMember o q false => w_expr o ++ `p PPeriod ++ w_expr q
  | EMetaProperty m q => [m] ++ `p PPeriod ++ [q]
  | ENew c es => `k KNew ++ w_expr c ++ flat_map w_expr es
  | EObject ps => `p POpenBrace ++ flat_map w_object_property ps ++ `p PCloseBrace
  | ESequence es => flat_map w_expr es
  | ESpread a => `p PSpread ++ w_expr a
  | ESuper => `k KSuper
  | ETaggedTemplate t q => w_expr t ++ w_template q
  | EThis => `k KThis
  | EUnary o _ a => [unary_text o] ++ w_expr a
  | EUpdate o a true => [update_text o] ++ w_expr a
  | EUpdate o a false => w_expr a ++ [update_text o]
  | EYield a d => `k KYield ++ (if d then `p PAsterisk else []) ++ w_opt w_expr a
  end
with w_left (l : AssignmentLeft) : list text :=
  match l with ALPat q => w_pat q | ALExpr e => w_expr e end
with w_arrow (b : ArrowFunctionBody) : list text :=
  match b with AFBody ps => `p POpenBrace ++ flat_map w_part ps ++ `p PCloseBrace | AFExpr e => w_expr e end
with w_literal (l : Literal) : list text :=
  match l with
  | LNull => `w "null"
  | LString s | LNumber s => [s]
  | LBoolean b => [bool_text b]
  | LRegEx x y => [[47%N] ++ x ++ [47%N] ++ y]
  | LTemplate t => w_template t
  end
with w_template (t : TemplateLiteral) : list text :=
  match t with mkTemplate qs es => weave qs (map w_expr es) end
with w_function (h : Function) : list text :=
  match h with
  | mkFunction id ps b g _ =>
      `k KFunction ++ (if g then `p PAsterisk else []) ++ w_opt w_name id ++ flat_map w_arg ps
      ++ `p POpenBrace ++ flat_map w_part b ++ `p PCloseBrace
  end
with w_method (v : PropertyValue) : list text :=
  match v with
  | PVExpr (EFunction (mkFunction _ ps b _ _)) => flat_map w_arg ps ++ `p POpenBrace ++ flat_map w_part b ++ `p PCloseBrace
  | _ => []
  end
with w_arg (a : FunctionArg) : list text :=
  match a with FAExpr e => w_expr e | FAPat q => w_pat q end
with w_class (c : Class) : list text :=
  match c with
  | mkClass id h b =>
      `k KClass ++ w_opt w_name id ++ w_opt (fun e => `w "extends" ++ w_expr e) h
      ++ `p POpenBrace ++ flat_map w_property b ++ `p PCloseBrace
  end
with w_property (x : Property) : list text :=
  match x with
  | mkProperty n v kind m c s =>
      match kind with
      | KGet => `w "get" ++ bracketed c (w_key n) ++ w_method v
      | KSet => `w "set" ++ bracketed c (w_key n) ++ w_method v
      | KMethod | KCtor => star v ++ bracketed c (w_key n) ++ w_method v
      | KInit =>
          if m then star v ++ bracketed c (w_key n) ++ w_method v
          else if s then bracketed c (w_key n) ++ match v with PVNone => [] | _ => `p PAssign ++ w_value v end
          else bracketed c (w_key n) ++ `p PColon ++ w_value v
      end
  end
with w_key (n : PropertyKey) : list text :=
  match n with PKLiteral l => w_literal l | PKExpr e => w_expr e | PKPat q => w_pat q end
with w_value (v : PropertyValue) : list text :=
  match v with PVExpr e => w_expr e | PVPat q => w_pat q | PVNone => [] end
with w_object_property (x : ObjectProperty) : list text :=
  match x with OPProperty q => w_property q | OPSpread e => w_expr e end
with w_pat (x : Pat) : list text :=
  match x with
  | PIdentifier i => [i]
  | PObject ps => `p POpenBrace ++ flat_map w_pat_part ps ++ `p PCloseBrace
  | PArray es => `p POpenBracket ++ flat_map (w_opt w_array_part) es ++ `p PCloseBracket
  | PRestElement q => `p PSpread ++ w_pat q
  | PAssignment q e => w_pat q ++ `p PAssign ++ w_expr e
  end
with w_array_part (x : ArrayPatPart) : list text :=
  match x with APPat q => w_pat q | APExpr e => w_expr e end
with w_pat_part (x : ObjectPatPart) : list text :=
  match x with OPPAssignment q => w_property q | OPPRest q => w_pat q end
with w_stmt (s : Stmt) : list text :=
  match s with
  | SExpr e => w_expr e
  | SBlock b => `p POpenBrace ++ flat_map w_part b ++ `p PCloseBrace
  | SEmpty => []
  | SDebugger => `k KDebugger
  | SWith e u => `k KWith ++ w_expr e ++ w_stmt u
  | SReturn e => `k KReturn ++ w_opt w_expr e
  | SLabeled l u => [l] ++ `p PColon ++ w_stmt u
  | SBreak l => `k KBreak ++ w_opt w_name l
  | SContinue l => `k KContinue ++ w_opt w_name l
  | SIf e u v => `k KIf ++ w_expr e ++ w_stmt u ++ w_opt (fun z => `k KElse ++ w_stmt z) v
  | SSwitch e cs => `k KSwitch ++ w_expr e ++ `p POpenBrace ++ flat_map w_case cs ++ `p PCloseBrace
  | SThrow e => `k KThrow ++ w_expr e
  | STry b h z =>
      `k KTry ++ `p POpenBrace ++ flat_map w_part b ++ `p PCloseBrace ++ w_opt w_catch h
      ++ w_opt (fun c => `k KFinally ++ `p POpenBrace ++ flat_map w_part c ++ `p PCloseBrace) z
  | SWhile e u => `k KWhile ++ w_expr e ++ w_stmt u
  | SDoWhile e u => `k KDo ++ w_stmt u ++ `k KWhile ++ w_expr e
  | SFor i e u b => `k KFor ++ w_opt w_init i ++ w_opt w_expr e ++ w_opt w_expr u ++ w_stmt b
  | SForIn l e b => `k KFor ++ w_loop_left l ++ `k KIn ++ w_expr e ++ w_stmt b
  | SForOf l e b a => `k KFor ++ (if a then `k KAwait else []) ++ w_loop_left l ++ `w "of" ++ w_expr e ++ w_stmt b
  | SVar ds => `k KVar ++ flat_map w_var ds
  end
with w_case (c : SwitchCase) : list text :=
  match c with
  | mkCase (Some e) b => `k KCase ++ w_expr e ++ `p PColon ++ flat_map w_part b
  | mkCase None b => `k KDefault ++ `p PColon ++ flat_map w_part b
  end
with w_catch (c : CatchClause) : list text :=
  match c with mkCatch x b => `k KCatch ++ w_opt w_pat x ++ `p POpenBrace ++ flat_map w_part b ++ `p PCloseBrace end
with w_init (i : LoopInit) : list text :=
  match i with LIVariable n ds => [kind_text n] ++ flat_map w_var ds | LIExpr e => w_expr e end
with w_loop_left (l : LoopLeft) : list text :=
  match l with LLVariable n x => [kind_text n] ++ w_var x | LLExpr e => w_expr e end
with w_var (x : VariableDecl) : list text :=
  match x with mkVarDecl q e => w_pat q ++ w_opt (fun e => `p PAssign ++ w_expr e) e end
with w_decl (x : Decl) : list text :=
  match x with
  | DVariable n ds => [kind_text n] ++ flat_map w_var ds
  | DFunction h => w_function h
  | DClass c => w_class c
  | DImport i => w_import i
  | DExport e => w_export e
  end
with w_import (i : ModImport) : list text :=
  match i with
  | mkImport [] s => `k KImport ++ w_literal s
  | mkImport xs s => `k KImport ++ w_import_specs xs ++ `w "from" ++ w_literal s
  end
with w_export (e : ModExport) : list text :=
  match e with
  | MEDefault x => `k KExport ++ `k KDefault ++ w_default x
  | MENamed x => `k KExport ++ w_named x
  | MEAll s => `k KExport ++ `p PAsterisk ++ `w "from" ++ w_literal s
  end
with w_default (x : DefaultExportDecl) : list text :=
  match x with DEDecl y => w_decl y | DEExpr e => w_expr e end
with w_named (x : NamedExportDecl) : list text :=
  match x with
  | NEDecl y => w_decl y
  | NESpecifier xs s =>
      `p POpenBrace ++ flat_map w_export_spec xs ++ `p PCloseBrace ++ w_opt (fun l => `w "from" ++ w_literal l) s
  end
with w_part (x : ProgramPart) : list text :=
  match x with
  | PPDir _ l => w_literal l
  | PPDecl y => w_decl y
  | PPStmt s => w_stmt s
  end.
Definition words_parts (ps : list ProgramPart) : list text := flat_map w_part ps.
Definition words_program (p : Program) : list text :=
  match p with PMod b | PScript b => words_parts b end.

(** ** What is compared, and of which sources *)

(** What the tree has no trace of. *)
Definition unfixed : list text :=
  [punct_text POpenParen; punct_text PCloseParen; punct_text PComma; punct_text PSemiColon; str "static"; str "async"; []].
Definition forgets (kept : text -> bool) : Prop := forall w, In w unfixed -> kept w = false.

(** The first tokens of [l]. *)
Definition begins (l : list tk) (a b : token) : Prop := hd_tok l = a /\ hd_tok (tl l) = b.
Definition some (src : list tk) (f : tk -> Prop) : Prop := exists x, In x src /\ f x.

(** The word does not stand before a closing bracket or parenthesis. *)
Definition never_closed (w : string) (src : list tk) : Prop := forall u l, src = u ++ l -> hd_text l = str w ->
  hd_tok (tl l) <> TPunct PCloseBracket /\ hd_tok (tl l) <> TPunct PCloseParen.

(** What the parser reads and forgets, place by place.  [l] ranges over the tails of the source. *)
Record careful (tolerant : bool) (kept : text -> bool) (src : list tk) : Prop := {
  (* [...x] at the end of an array pattern is [x] *)
  no_spread : kept (punct_text PSpread) = true -> ~ some src (fun x => k_tok x = TPunct PSpread);
  (* [await] in loops other than [for of] *)
  no_for_await : kept (kw_text KAwait) = true -> forall u l, src = u ++ l -> ~ begins l (TKeyword KFor) (TKeyword KAwait);
  (* the class extended by one without a name before [extends] *)
  no_nameless : forall u l, src = u ++ l -> hd_tok l = TKeyword KClass -> hd_text (tl l) <> str "extends";
  (* what stands before the parameters of an arrow function that begins with [async] *)
  no_async_arrow : some src (fun x => k_tok x = TPunct PFatArrow) -> ~ some src (fun x => k_text x = str "async");
  (* the parameter [x = yield] of an arrow function becomes [yield] *)
  no_yield_arrow : some src (fun x => k_tok x = TPunct PFatArrow) -> ~ some src (fun x => k_tok x = TKeyword KYield);
  (* [export *] takes any token for [from] *)
  export_from : forall u l, src = u ++ l -> begins l (TKeyword KExport) (TPunct PAsterisk) -> hd_text (tl (tl l)) = str "from";
  (* [import {} from] and [import x, {} from] *)
  no_empty_import : forall u l, src = u ++ l -> hd_tok l = TKeyword KImport \/ hd_tok l = TPunct PComma ->
    begins (tl l) (TPunct POpenBrace) (TPunct PCloseBrace) -> hd_text (tl (tl (tl l))) <> str "from";
  (* [static] in brackets before a member of a class without a name that has a label *)
  no_static_key : tolerant = true -> forall u l, src = u ++ l -> begins l (TPunct PColon) (TKeyword KClass) -> never_closed "static" src;
  (* a name for a property, the comma after it left out, is marked as if it had the brackets that follow *)
  no_tolerated : tolerant = true -> forall u l, src = u ++ l -> ~ begins l TIdent (TPunct POpenBracket);
  (* [get] and [set] in brackets after [async] *)
  no_async_key : forall u l, src = u ++ l -> hd_text l = str "async" -> hd_tok (tl l) = TPunct POpenBracket -> never_closed "get" src /\ never_closed "set" src
}.
