(** A part of ECMAScript in which every program is read in exactly one way, as productions over
    tokens.

    [std S nt l v l'] reads: in scope [S], the tokens [l] begin with a spelling of the tree [v]
    as an [nt], and [l'] is what follows.  The productions are those of ECMAScript 2019, with
    operator levels written as numbers and lists right-recursive; nothing here mentions the
    parser.  Properties8.v proves that the parser reads every spelling back. *)
From Verif Require Export Grammar.
From Coq Require Export Lia.
Local Open Scope string_scope.
Local Open Scope nat_scope.
Local Open Scope list_scope.

(** ** Scopes *)
Record view := mkView {
  v_in : bool;            (* the [in] operator is allowed *)
  v_yield : bool;         (* [yield] is not an operator *)
  v_await : bool;         (* [await] is an operator *)
  v_fn : bool;            (* inside a function body *)
  v_labels : list text;   (* labels in scope, each with a dollar sign before it *)
  v_strict : bool;        (* class bodies *)
  v_past : bool }.        (* past the directives of the program *)
Definition in_ v S := mkView v (v_yield S) (v_await S) (v_fn S) (v_labels S) (v_strict S) (v_past S).
Definition yield_ v S := mkView (v_in S) v (v_await S) (v_fn S) (v_labels S) (v_strict S) (v_past S).
Definition await_ v S := mkView (v_in S) (v_yield S) v (v_fn S) (v_labels S) (v_strict S) (v_past S).
Definition fn_ v S := mkView (v_in S) (v_yield S) (v_await S) v (v_labels S) (v_strict S) (v_past S).
Definition labels_ v S := mkView (v_in S) (v_yield S) (v_await S) (v_fn S) v (v_strict S) (v_past S).
Definition strict_ v S := mkView (v_in S) (v_yield S) (v_await S) (v_fn S) (v_labels S) v (v_past S).

(** What is asked of the source: only identifiers are spelled like the words the parser
    recognises by their text, and no punctuator is spelled [extends]. *)
Definition quiet_words : list text := map str ["async"; "of"; "get"; "set"; "as"; "from"; "target"].
Definition quiet (t : tk) : Prop :=
  (k_tok t = TIdent \/ ~ In (k_text t) quiet_words)
  /\ (forall p, k_tok t = TPunct p -> k_text t <> str "extends").
(** The first token is not the word [async]. *)
Definition calm (l : list tk) : Prop := hd_tok l = TIdent -> hd_text l <> str "async".
(** The first tokens are not [async function]. *)
Definition plain_start (l : list tk) : Prop := calm l \/ hd_tok (tl l) <> TKeyword KFunction.
(** [async x] is the beginning of an arrow function. *)
Definition after_async (l l' : list tk) : Prop :=
  calm l \/ newline l' = true \/ hd_tok l' <> TIdent /\ hd_tok l' <> TKeyword KYield.

(** ** Levels of expressions
    0 comma, 1 assignment, 2 conditional, 3-13 binary operators ([2 + p] for the operators of
    level [p] in [bin_ops]), 14 exponentiation, 15 unary, 16 update, 17 calls, 18 members,
    19 primary.  The level of the expressions that the first token of [l] would continue: *)
Definition goes_on (i : bool) (l : list tk) : option nat :=
  match hd_tok l with
  | TTemplate THead | TTemplate TNoSub => Some 18
  | TKeyword KInstanceOf => Some 9
  | TKeyword KIn => if i then Some 9 else None
  | TPunct p =>
      match p with
      | PComma => Some 0
      | PFatArrow | PAssign | PAddAssign | PSubtractAssign | PMultiplyAssign | PDivideAssign
      | PModuloAssign | PLeftShiftAssign | PRightShiftAssign | PUnsignedRightShiftAssign
      | PBitwiseOrAssign | PBitwiseXOrAssign | PBitwiseAndAssign | PExponentAssign => Some 1
      | PQuestionMark => Some 2
      | PLogicalOr => Some 3 | PLogicalAnd => Some 4 | PPipe => Some 5 | PCaret => Some 6 | PAnd => Some 7
      | PEqual | PNotEqual | PStrictEquals | PStrictNotEquals => Some 8
      | PLessThan | PGreaterThan | PLessThanEqual | PGreaterThanEqual => Some 9
      | PLeftShift | PRightShift | PUnsignedRightShift => Some 10
      | PPlus | PMinus => Some 11
      | PAsterisk | PForwardSlash | PModulo => Some 13
      | PExponent => Some 14
      | PIncrement | PDecrement => if newline l then None else Some 16
      | POpenParen => Some 17
      | PPeriod | POpenBracket => Some 18
      | _ => None
      end
  | _ => None
  end.
(** An expression of level [n] ends before [l]. *)
Definition follow (i : bool) (n : nat) (l : list tk) : bool :=
  match goes_on i l with None => true | Some m => m <? n end.

(** The end of a statement: a semicolon, or a place where one is inserted.  After an expression
    the next token must not continue it. *)
Definition stops (l l' : list tk) : Prop :=
  reads (TPunct PSemiColon) l l'
  \/ l' = l /\ hd_tok l <> TPunct PSemiColon /\ (newline l = true \/ hd_tok l = TEoF \/ hd_tok l = TPunct PCloseBrace).
Definition ends (l l' : list tk) : Prop :=
  stops l l' /\ follow true 0 l = true /\ hd_tok l <> TPunct PColon.

(** Nothing is left of a statement that ended without a semicolon of its own. *)
Definition fresh (l : list tk) : Prop := hd_tok l <> TPunct PSemiColon /\ (newline l = true \/ hd_tok l = TEoF).

(** Tokens that begin a primary expression. *)
Definition primary_head (t : token) : bool :=
  match t with
  | TIdent | TNumeric | TString | TBoolean _ | TRegEx | TTemplate THead | TTemplate TNoSub => true
  | TPunct POpenParen | TPunct POpenBracket | TPunct POpenBrace => true
  | TKeyword KThis | TKeyword KFunction | TKeyword KClass | TKeyword KNew => true
  | _ => false
  end.
(** Tokens that begin a call expression. *)
Definition call_head (t : token) : bool :=
  primary_head t || match t with TKeyword KSuper | TKeyword KImport => true | _ => false end.
(** Tokens an expression statement does not begin with. *)
Definition not_statement (t : token) : bool :=
  match t with TPunct POpenBrace | TKeyword KFunction | TKeyword KClass => true | _ => false end.

(** What can be assigned to here. *)
Definition is_target (e : Expr) : bool :=
  match e with EIdent _ | EMember _ _ _ => true | _ => false end.
Definition is_var (e : Expr) : bool := match e with EIdent _ => true | _ => false end.
Definition reserved_words : list text :=
  map str ["eval"; "arguments"; "implements"; "interface"; "package"; "private"; "protected"; "public"; "static"; "yield"; "let"].
Definition strict_target (S : view) (e : Expr) : Prop :=
  v_strict S = true -> forall w, e = EIdent w -> ~ In w reserved_words.
(** Assignments, also behind [yield]: what cannot stand bare as the value of a property. *)
Fixpoint assigns (e : Expr) : bool :=
  match e with EAssignment _ _ _ => true | EYield (Some e') _ => assigns e' | _ => false end.

Definition is_yield (e : Expr) : bool := match e with EYield _ _ => true | _ => false end.

(** [e], or the comma expression. *)
Definition sequence (l : list Expr) : Expr := match l with [e] => e | _ => ESequence l end.

Definition binding_name (S : view) (w : text) : Prop :=
  w <> str "await" /\ (v_strict S = true -> w <> str "eval" /\ w <> str "arguments").

(** Members of classes. *)
Definition key_named (k : PropertyKey) (w : text) : bool :=
  match k with
  | PKExpr (EIdent v) | PKLiteral (LString v) | PKPat (PIdentifier v) => text_eqb v w
  | _ => false
  end.
Definition is_ctor (p : Property) : bool := match p with mkProperty _ _ KCtor _ _ _ => true | _ => false end.
(** A member that is not the constructor: [st] static, [c] a computed name. *)
Definition member_name (st c : bool) (k : PropertyKey) : Prop :=
  c = false -> key_named k (if st then str "prototype" else str "constructor") = false.
Definition static_mark (st : bool) (l l' : list tk) : Prop :=
  if st then exists t, name_token t /\ reads_as t (str "static") l l' else l' = l.

Definition is_default (c : SwitchCase) : bool := match c with mkCase None _ => true | _ => false end.

(** ** Nonterminals and their trees *)
Inductive nt :=
| NX (n : nat) | NCommas | NArg | NArgs | NElems | NProps | NProp | NKey | NQuasis
| NParam | NParams | NPat | NPatDefault | NPatElems | NPatProps | NPatProp
| NBody | NDirectives | NItems | NItem | NStmt | NBlock
| NVar (k : VariableKind) (in_for : bool) | NVars (k : VariableKind) (in_for : bool)
| NCase | NCases | NFunction (named async : bool)
| NTarget (b : bool) | NTargetBase (b : bool) | NTargetElem (b : bool) | NTargetElems (b : bool)   (* [b]: names only *)
| NTargetProp (b : bool) | NTargetProps (b : bool)
| NArrowArg | NArrow | NArrowAsync | NArrowHead (async : bool) | NInit | NLeft | NOpt | NLoop
| NHandler | NClass (named : bool) | NHeritage | NMembers | NMember
| NModule | NModItem | NImports | NImportNames | NImportName | NExportNames (from : bool) | NExportName (from : bool).
Definition ty (c : nt) : Type :=
  match c with
  | NX _ | NArg => Expr
  | NCommas | NArgs => list Expr
  | NElems => list (option Expr)
  | NProps => list ObjectProperty
  | NProp => ObjectProperty
  | NKey => PropertyKey * bool
  | NQuasis => list Expr * list TemplateElement
  | NParam => FunctionArg
  | NParams => list FunctionArg
  | NPat | NPatDefault => Pat
  | NPatElems => list (option ArrayPatPart)
  | NPatProps => list ObjectPatPart
  | NPatProp => ObjectPatPart
  | NBody | NDirectives | NItems | NBlock => list ProgramPart
  | NItem => ProgramPart
  | NStmt => Stmt
  | NVar _ _ => VariableDecl
  | NVars _ _ => list VariableDecl
  | NCase => SwitchCase
  | NCases => list SwitchCase
  | NFunction _ _ => Function
  | NTarget _ | NTargetBase _ | NTargetElem _ => Expr
  | NTargetElems _ => list (option Expr)
  | NTargetProp _ => ObjectProperty
  | NTargetProps _ => list ObjectProperty
  | NArrowArg => Expr
  | NArrow | NArrowAsync | NArrowHead _ => list FunctionArg
  | NInit => option LoopInit
  | NLeft => LoopLeft
  | NOpt => option Expr
  | NLoop => Stmt
  | NHandler => CatchClause
  | NClass _ => Class
  | NHeritage => option Expr
  | NMembers => list Property
  | NMember => Property
  | NModule => list ProgramPart
  | NModItem => ProgramPart
  | NImports | NImportNames => list ImportSpecifier
  | NImportName => ImportSpecifier
  | NExportNames _ => list ExportSpecifier
  | NExportName _ => ExportSpecifier
  end.

Notation pct p := (TPunct p) (only parsing).
Notation kw k := (TKeyword k) (only parsing).

(** [function], or [async function] on one line. *)
Definition function_mark (a : bool) (l l' : list tk) : Prop :=
  if a then exists l1, reads_as TIdent (str "async") l l1 /\ newline l1 = false /\ reads (kw KFunction) l1 l'
  else reads (kw KFunction) l l'.

(** [odd]: what the scanner says of identifier tokens that are function names in strict code. *)
Inductive std (odd : bool) : view -> forall c : nt, list tk -> ty c -> list tk -> Prop :=

(** *** Primary expressions *)
| std_ident S w l l' : reads_as TIdent w l l' -> w <> str "async" -> std odd S (NX 19) l (EIdent w) l'
| std_number S w l l' : reads_as TNumeric w l l' -> std odd S (NX 19) l (ELiteral (LNumber w)) l'
| std_string S w l l' : reads_as TString w l l' -> std odd S (NX 19) l (ELiteral (LString w)) l'
| std_bool S b l l' : reads (TBoolean b) l l' -> std odd S (NX 19) l (ELiteral (LBoolean b)) l'
| std_regex S w p f l l' : reads_as TRegEx w l l' -> regex_of w p f ->
    std odd S (NX 19) l (ELiteral (LRegEx p f)) l'
| std_this S l l' : reads (kw KThis) l l' -> std odd S (NX 19) l EThis l'
| std_template S w q l l' : reads_as (TTemplate TNoSub) w l l' -> quasi_of TNoSub w q ->
    std odd S (NX 19) l (ELiteral (LTemplate (mkTemplate [q] []))) l'
| std_template_parts S w q es qs l l1 l' : reads_as (TTemplate THead) w l l1 -> quasi_of THead w q ->
    std odd S NQuasis l1 (es, qs) l' ->
    std odd S (NX 19) l (ELiteral (LTemplate (mkTemplate (q :: qs) es))) l'
| std_quasis_last S e w q l l1 l' : std odd S (NX 0) l e l1 -> reads_as (TTemplate TTail) w l1 l' -> quasi_of TTail w q ->
    std odd S NQuasis l ([e], [q]) l'
| std_quasis_more S e w q es qs l l1 l2 l' : std odd S (NX 0) l e l1 -> reads_as (TTemplate TBody) w l1 l2 ->
    quasi_of TBody w q -> std odd S NQuasis l2 (es, qs) l' -> std odd S NQuasis l (e :: es, q :: qs) l'
| std_paren S es l l1 l2 l' : reads (pct POpenParen) l l1 -> std odd S NCommas l1 es l2 ->
    reads (pct PCloseParen) l2 l' -> hd_tok l' <> pct PFatArrow -> std odd S (NX 19) l (sequence es) l'
| std_array S es l l1 l' : reads (pct POpenBracket) l l1 -> std odd S NElems l1 es l' -> std odd S (NX 19) l (EArray es) l'
| std_object S ps l l1 l' : reads (pct POpenBrace) l l1 -> std odd S NProps l1 ps l' -> std odd S (NX 19) l (EObject ps) l'
| std_function S f l l1 l' : reads (kw KFunction) l l1 -> std odd S (NFunction false false) l1 f l' -> std odd S (NX 19) l (EFunction f) l'
| std_class_expr S c l l1 l' : reads (kw KClass) l l1 -> std odd (strict_ true S) (NClass false) l1 c l' -> std odd S (NX 19) l (EClass c) l'
| std_new S e es l l1 l2 l3 l' : reads (kw KNew) l l1 -> std odd S (NX 18) l1 e l2 ->
    reads (pct POpenParen) l2 l3 -> std odd S NArgs l3 es l' -> std odd S (NX 19) l (ENew e es) l'
| std_new_bare S e l l1 l' : reads (kw KNew) l l1 -> std odd S (NX 18) l1 e l' -> follow true 17 l' = true ->
    hd_tok l' <> TTemplate TBody -> hd_tok l' <> TTemplate TTail -> std odd S (NX 19) l (ENew e []) l'
| std_new_target S l l1 l2 l' : v_fn S = true -> reads (kw KNew) l l1 -> reads (pct PPeriod) l1 l2 ->
    reads_as TIdent (str "target") l2 l' -> std odd S (NX 19) l (EMetaProperty (str "new") (str "target")) l'

(** *** Members and calls *)
| std_member_up S e l l' : std odd S (NX 19) l e l' -> std odd S (NX 18) l e l'
| std_member S e t w l l1 l2 l' : std odd S (NX 18) l e l1 -> reads (pct PPeriod) l1 l2 -> name_token t ->
    reads_as t w l2 l' -> std odd S (NX 18) l (EMember e (EIdent w) false) l'
| std_index S e x l l1 l2 l3 l' : std odd S (NX 18) l e l1 -> reads (pct POpenBracket) l1 l2 ->
    std odd S (NX 0) l2 x l3 -> reads (pct PCloseBracket) l3 l' -> std odd S (NX 18) l (EMember e x true) l'
| std_member_tagged S e w q l l1 l' : std odd S (NX 18) l e l1 -> reads_as (TTemplate TNoSub) w l1 l' -> quasi_of TNoSub w q ->
    std odd S (NX 18) l (ETaggedTemplate e (mkTemplate [q] [])) l'
| std_member_tagged_parts S e w q es qs l l1 l2 l' : std odd S (NX 18) l e l1 -> reads_as (TTemplate THead) w l1 l2 ->
    quasi_of THead w q -> std odd S NQuasis l2 (es, qs) l' ->
    std odd S (NX 18) l (ETaggedTemplate e (mkTemplate (q :: qs) es)) l'
| std_call_up S e l l' : std odd S (NX 19) l e l' -> std odd S (NX 17) l e l'
| std_call_member S e t w l l1 l2 l' : std odd S (NX 17) l e l1 -> reads (pct PPeriod) l1 l2 -> name_token t ->
    reads_as t w l2 l' -> std odd S (NX 17) l (EMember e (EIdent w) false) l'
| std_call_index S e x l l1 l2 l3 l' : std odd S (NX 17) l e l1 -> reads (pct POpenBracket) l1 l2 ->
    std odd S (NX 0) l2 x l3 -> reads (pct PCloseBracket) l3 l' -> std odd S (NX 17) l (EMember e x true) l'
| std_call S e es l l1 l2 l' : std odd S (NX 17) l e l1 -> reads (pct POpenParen) l1 l2 ->
    std odd S NArgs l2 es l' -> std odd S (NX 17) l (ECall e es) l'
| std_tagged S e w q l l1 l' : std odd S (NX 17) l e l1 -> reads_as (TTemplate TNoSub) w l1 l' -> quasi_of TNoSub w q ->
    std odd S (NX 17) l (ETaggedTemplate e (mkTemplate [q] [])) l'
| std_tagged_parts S e w q es qs l l1 l2 l' : std odd S (NX 17) l e l1 -> reads_as (TTemplate THead) w l1 l2 ->
    quasi_of THead w q -> std odd S NQuasis l2 (es, qs) l' ->
    std odd S (NX 17) l (ETaggedTemplate e (mkTemplate (q :: qs) es)) l'
| std_super_member S t w l l1 l2 l' : v_fn S = true -> reads (kw KSuper) l l1 -> reads (pct PPeriod) l1 l2 -> name_token t ->
    reads_as t w l2 l' -> std odd S (NX 17) l (EMember ESuper (EIdent w) false) l'
| std_super_index S x l l1 l2 l3 l' : v_fn S = true -> reads (kw KSuper) l l1 -> reads (pct POpenBracket) l1 l2 ->
    std odd S (NX 0) l2 x l3 -> reads (pct PCloseBracket) l3 l' -> std odd S (NX 17) l (EMember ESuper x true) l'
| std_super_call S es l l1 l2 l' : v_fn S = true -> reads (kw KSuper) l l1 -> reads (pct POpenParen) l1 l2 ->
    std odd S NArgs l2 es l' -> std odd S (NX 17) l (ECall ESuper es) l'
(** The parser keeps the keyword as a name. *)
| std_import_call S e l l1 l2 l3 l' : reads_as (kw KImport) (str "import") l l1 -> reads (pct POpenParen) l1 l2 ->
    std odd S (NX 1) l2 e l3 -> reads (pct PCloseParen) l3 l' -> std odd S (NX 17) l (ECall (EIdent (str "import")) [e]) l'
(** Arguments, from after the opening parenthesis to after the closing one. *)
| std_arg S e l l' : std odd S (NX 1) l e l' -> std odd S NArg l e l'
| std_arg_spread S e l l1 l' : reads (pct PSpread) l l1 -> std odd S (NX 1) l1 e l' -> std odd S NArg l (ESpread e) l'
| std_args_none S l l' : reads (pct PCloseParen) l l' -> std odd S NArgs l [] l'
| std_args_last S e l l1 l' : std odd S NArg l e l1 -> reads (pct PCloseParen) l1 l' -> std odd S NArgs l [e] l'
| std_args_more S e es l l1 l2 l' : std odd S NArg l e l1 -> comma l1 l2 -> std odd S NArgs l2 es l' ->
    std odd S NArgs l (e :: es) l'
(** Elements, to after the closing bracket. *)
| std_elems_none S l l' : reads (pct PCloseBracket) l l' -> std odd S NElems l [] l'
| std_elems_hole S es l l1 l' : comma l l1 -> std odd S NElems l1 es l' -> std odd S NElems l (None :: es) l'
| std_elems_last S e l l1 l' : std odd S NArg l e l1 -> reads (pct PCloseBracket) l1 l' -> std odd S NElems l [Some e] l'
| std_elems_more S e es l l1 l2 l' : std odd S NArg l e l1 -> comma l1 l2 -> std odd S NElems l2 es l' ->
    std odd S NElems l (Some e :: es) l'
(** Properties, to after the closing brace. *)
| std_props_none S l l' : reads (pct PCloseBrace) l l' -> std odd S NProps l [] l'
| std_props_last S p l l1 l' : std odd S NProp l p l1 -> reads (pct PCloseBrace) l1 l' -> std odd S NProps l [p] l'
| std_props_more S p ps l l1 l2 l' : std odd S NProp l p l1 -> comma l1 l2 -> std odd S NProps l2 ps l' ->
    std odd S NProps l (p :: ps) l'
| std_prop S k c e l l1 l2 l' : calm l -> std odd S NKey l (k, c) l1 -> reads (pct PColon) l1 l2 -> std odd S (NX 1) l2 e l' ->
    assigns e = false ->
    std odd S NProp l (OPProperty (mkProperty k (PVExpr e) KInit false c false)) l'
| std_prop_short S w l l' : reads_as TIdent w l l' -> w <> str "async" -> hd_tok l' = pct PComma \/ hd_tok l' = pct PCloseBrace ->
    std odd S NProp l (OPProperty (mkProperty (PKExpr (EIdent w)) PVNone KInit false false true)) l'
| std_prop_spread S e l l1 l' : reads (pct PSpread) l l1 -> std odd S (NX 1) l1 e l' -> std odd S NProp l (OPSpread (ESpread e)) l'
| std_prop_method S k c ps b l l1 l2 l3 l' : calm l -> std odd S NKey l (k, c) l1 -> reads (pct POpenParen) l1 l2 ->
    std odd (yield_ false S) NParams l2 ps l3 -> std odd (yield_ false S) NBody l3 b l' ->
    std odd S NProp l (OPProperty (mkProperty k (method ps b false false) KInit true c false)) l'
| std_prop_async S k c ps b l l1 l2 l3 l4 l' : reads_as TIdent (str "async") l l1 -> newline l1 = false -> std odd S NKey l1 (k, c) l2 ->
    reads (pct POpenParen) l2 l3 -> std odd (await_ true (yield_ false S)) NParams l3 ps l4 -> std odd (await_ true (yield_ false S)) NBody l4 b l' ->
    std odd S NProp l (OPProperty (mkProperty k (method ps b false true) KInit true c false)) l'
| std_prop_generator S k c ps b l l1 l2 l3 l4 l' : reads (pct PAsterisk) l l1 -> std odd S NKey l1 (k, c) l2 ->
    reads (pct POpenParen) l2 l3 -> std odd (yield_ true S) NParams l3 ps l4 -> std odd (yield_ false S) NBody l4 b l' ->
    std odd S NProp l (OPProperty (mkProperty k (method ps b true false) KInit true c false)) l'
| std_prop_get S k c b l l1 l2 l3 l4 l' : reads_as TIdent (str "get") l l1 -> std odd S NKey l1 (k, c) l2 ->
    reads (pct POpenParen) l2 l3 -> reads (pct PCloseParen) l3 l4 -> std odd S NBody l4 b l' ->
    std odd S NProp l (OPProperty (mkProperty k (method [] b false false) KGet false c false)) l'
| std_prop_set S k c x b l l1 l2 l3 l4 l5 l' : reads_as TIdent (str "set") l l1 -> std odd S NKey l1 (k, c) l2 ->
    reads (pct POpenParen) l2 l3 -> std odd (yield_ true S) NPatDefault l3 x l4 -> reads (pct PCloseParen) l4 l5 ->
    std odd S NBody l5 b l' ->
    std odd S NProp l (OPProperty (mkProperty k (method [FAPat x] b false false) KSet false c false)) l'
| std_key_string S w l l' : reads_as TString w l l' -> w <> str "_proto_" -> std odd S NKey l (PKLiteral (LString w), false) l'
| std_key_number S w l l' : reads_as TNumeric w l l' -> std odd S NKey l (PKLiteral (LNumber w), false) l'
| std_key_name S t w l l' : name_token t -> reads_as t w l l' -> std odd S NKey l (PKExpr (EIdent w), false) l'
| std_key_computed S e l l1 l2 l' : reads (pct POpenBracket) l l1 -> std odd S (NX 1) l1 e l2 ->
    reads (pct PCloseBracket) l2 l' -> std odd S NKey l (computed_key e, true) l'

(** *** Operators *)
| std_async_function S f l l1 l' : function_mark true l l1 -> std odd (in_ true S) (NFunction false true) l1 f l' -> std odd S (NX 16) l (EFunction f) l'
| std_update_up S e l l' : std odd (in_ true S) (NX 17) l e l' -> std odd S (NX 16) l e l'
| std_postfix S e t o l l1 l' : std odd (in_ true S) (NX 17) l e l1 -> is_target e = true -> strict_target S e ->
    In (t, o) update_ops -> newline l1 = false -> reads t l1 l' -> std odd S (NX 16) l (EUpdate o e false) l'
| std_prefix S e t o l l1 l' : In (t, o) update_ops -> reads t l l1 -> std odd S (NX 15) l1 e l' ->
    is_target e = true -> strict_target S e -> std odd S (NX 16) l (EUpdate o e true) l'
| std_unary_up S e l l' : std odd S (NX 16) l e l' -> std odd S (NX 15) l e l'
| std_unary S e t o l l1 l' : In (t, o) prefix_ops -> reads t l l1 -> std odd S (NX 15) l1 e l' ->
    (v_strict S = true -> o = UDelete -> is_var e = false) -> std odd S (NX 15) l (EUnary o true e) l'
| std_await S e l l1 l' : v_await S = true -> reads (kw KAwait) l l1 -> std odd S (NX 15) l1 e l' -> std odd S (NX 15) l (EAwait e) l'
| std_power_up S e l l' : std odd S (NX 15) l e l' -> std odd S (NX 14) l e l'
| std_power S a b l l1 l2 l' : std odd S (NX 16) l a l1 -> reads (pct PExponent) l1 l2 -> std odd S (NX 14) l2 b l' ->
    std odd S (NX 14) l (EBinary BPowerOf a b) l'
| std_binary_up S n e l l' : 3 <= n <= 13 -> std odd S (NX (Datatypes.S n)) l e l' -> std odd S (NX n) l e l'
| std_binary S p t mk a b l l1 l2 l' : In (t, (p, mk)) bin_ops -> (t = kw KIn -> v_in S = true) ->
    std odd S (NX (2 + p)) l a l1 -> reads t l1 l2 -> std odd S (NX (3 + p)) l2 b l' ->
    std odd S (NX (2 + p)) l (mk a b) l'
| std_conditional_up S e l l' : std odd S (NX 3) l e l' -> std odd S (NX 2) l e l'
| std_conditional S t a c l l1 l2 l3 l4 l' : std odd S (NX 3) l t l1 -> reads (pct PQuestionMark) l1 l2 ->
    std odd (in_ true S) (NX 1) l2 c l3 -> reads (pct PColon) l3 l4 -> std odd S (NX 1) l4 a l' ->
    std odd S (NX 2) l (EConditional t a c) l'
| std_assignment_up S e l l' : std odd S (NX 2) l e l' -> after_async l l' -> std odd S (NX 1) l e l'
| std_assignment S t o a b l l1 l2 l' : std odd (in_ true S) (NX 17) l a l1 -> is_target a = true -> strict_target S a ->
    In (t, o) assign_ops -> reads t l1 l2 -> std odd S (NX 1) l2 b l' ->
    std odd S (NX 1) l (EAssignment o (ALExpr a) b) l'
(** A pattern before [=], or as a parameter of an arrow function; the tree is that of the array or object literal. *)
| std_assignment_pattern S a b l l1 l2 l' : std odd (in_ true S) (NTarget false) l a l1 -> reads (pct PAssign) l1 l2 ->
    std odd S (NX 1) l2 b l' -> std odd S (NX 1) l (EAssignment AEqual (ALExpr a) b) l'
| std_target_array S b es l l1 l' : reads (pct POpenBracket) l l1 -> std odd S (NTargetElems b) l1 es l' -> std odd S (NTarget b) l (EArray es) l'
| std_target_object S b ps l l1 l' : reads (pct POpenBrace) l l1 -> std odd S (NTargetProps b) l1 ps l' -> std odd S (NTarget b) l (EObject ps) l'
| std_base_name S b w l l' : reads_as TIdent w l l' -> w <> str "async" -> strict_target S (EIdent w) -> std odd S (NTargetBase b) l (EIdent w) l'
| std_base_target S e l l' : std odd S (NX 17) l e l' -> is_target e = true -> strict_target S e -> std odd S (NTargetBase false) l e l'
| std_base_pattern S b e l l' : std odd S (NTarget b) l e l' -> std odd S (NTargetBase b) l e l'
| std_elem S b e l l' : std odd S (NTargetBase b) l e l' -> std odd S (NTargetElem b) l e l'
| std_elem_default S b e d l l1 l2 l' : std odd S (NTargetBase b) l e l1 -> reads (pct PAssign) l1 l2 -> std odd S (NX 1) l2 d l' ->
    std odd S (NTargetElem b) l (EAssignment AEqual (ALExpr e) d) l'
| std_telems_none S b l l' : reads (pct PCloseBracket) l l' -> std odd S (NTargetElems b) l [] l'
| std_telems_hole S b es l l1 l' : comma l l1 -> std odd S (NTargetElems b) l1 es l' -> std odd S (NTargetElems b) l (None :: es) l'
| std_telems_last S b e l l1 l' : std odd S (NTargetElem b) l e l1 -> reads (pct PCloseBracket) l1 l' -> std odd S (NTargetElems b) l [Some e] l'
| std_telems_more S b e es l l1 l2 l' : std odd S (NTargetElem b) l e l1 -> comma l1 l2 -> std odd S (NTargetElems b) l2 es l' ->
    std odd S (NTargetElems b) l (Some e :: es) l'
| std_telems_rest S b e l l1 l2 l' : reads (pct PSpread) l l1 -> std odd S (NTargetBase b) l1 e l2 -> reads (pct PCloseBracket) l2 l' ->
    std odd S (NTargetElems b) l [Some (ESpread e)] l'
| std_tprops_none S b l l' : reads (pct PCloseBrace) l l' -> std odd S (NTargetProps b) l [] l'
| std_tprops_last S b p l l1 l' : std odd S (NTargetProp b) l p l1 -> reads (pct PCloseBrace) l1 l' -> std odd S (NTargetProps b) l [p] l'
| std_tprops_more S b p ps l l1 l2 l' : std odd S (NTargetProp b) l p l1 -> comma l1 l2 -> std odd S (NTargetProps b) l2 ps l' ->
    std odd S (NTargetProps b) l (p :: ps) l'
| std_tprops_rest S b e l l1 l2 l' : reads (pct PSpread) l l1 -> std odd S (NTargetBase b) l1 e l2 -> is_target e = true ->
    reads (pct PCloseBrace) l2 l' -> std odd S (NTargetProps b) l [OPSpread (ESpread e)] l'
| std_tprop_short S b w l l' : reads_as TIdent w l l' -> w <> str "async" -> strict_target S (EIdent w) ->
    std odd S (NTargetProp b) l (OPProperty (mkProperty (PKExpr (EIdent w)) PVNone KInit false false true)) l'
| std_tprop_short_default S b w e l l1 l2 l' : reads_as TIdent w l l1 -> w <> str "async" -> strict_target S (EIdent w) -> reads (pct PAssign) l1 l2 ->
    std odd S (NX 1) l2 e l' ->
    std odd S (NTargetProp b) l (OPProperty (mkProperty (PKExpr (EIdent w)) (PVExpr e) KInit false false true)) l'
| std_tprop S b k c e l l1 l2 l' : calm l -> std odd S NKey l (k, c) l1 -> reads (pct PColon) l1 l2 -> std odd S (NTargetElem b) l2 e l' ->
    std odd S (NTargetProp b) l (OPProperty (mkProperty k (PVExpr e) KInit false c false)) l'
(** The body of an asynchronous arrow function is in the scope around it: there the parser does not make
    [await] an operator (C46_expressions_refuted). *)
| std_arrow S a ps e l l1 l2 l' : std odd (in_ true S) (NArrowHead a) l ps l1 -> reads (pct PFatArrow) l1 l2 -> hd_tok l2 <> pct POpenBrace ->
    std odd S (NX 1) l2 e l' -> std odd S (NX 1) l (EArrowFunction None ps (AFExpr e) true false a) l'
| std_arrow_body S a ps b l l1 l2 l' : std odd (in_ true S) (NArrowHead a) l ps l1 -> reads (pct PFatArrow) l1 l2 ->
    std odd (in_ true S) NBody l2 b l' -> std odd S (NX 1) l (EArrowFunction None ps (AFBody b) false false a) l'
| std_arrow_name S w l l' : reads_as TIdent w l l' -> w <> str "async" -> std odd S (NArrowHead false) l [FAExpr (EIdent w)] l'
| std_arrow_parens S ps l l1 l' : reads (pct POpenParen) l l1 -> std odd S NArrow l1 ps l' -> hd_tok l' = pct PFatArrow ->
    std odd S (NArrowHead false) l ps l'
| std_arrow_async_name S w l l1 l' : reads_as TIdent (str "async") l l1 -> newline l1 = false -> reads_as TIdent w l1 l' -> w <> str "async" ->
    w <> str "await" -> std odd S (NArrowHead true) l [FAPat (PIdentifier w)] l'
| std_arrow_async_parens S ps l l1 l2 l' : reads_as TIdent (str "async") l l1 -> newline l1 = false -> reads (pct POpenParen) l1 l2 ->
    std odd S NArrowAsync l2 ps l' -> hd_tok l' = pct PFatArrow -> std odd S (NArrowHead true) l ps l'
| std_async_none S l l' : reads (pct PCloseParen) l l' -> std odd S NArrowAsync l [] l'
| std_async_rest S e l l1 l2 l' : reads (pct PSpread) l l1 -> std odd S (NTargetBase true) l1 e l2 -> reads (pct PCloseParen) l2 l' ->
    std odd S NArrowAsync l [FAExpr (ESpread e)] l'
| std_async_last S e l l1 l' : std odd S NArrowArg l e l1 -> e <> EIdent (str "await") -> reads (pct PCloseParen) l1 l' ->
    std odd S NArrowAsync l [FAExpr e] l'
| std_async_more S e ps l l1 l2 l' : std odd S NArrowArg l e l1 -> e <> EIdent (str "await") -> comma l1 l2 -> std odd S NArrowAsync l2 ps l' ->
    std odd S NArrowAsync l (FAExpr e :: ps) l'
| std_arrow_none S l l' : reads (pct PCloseParen) l l' -> std odd S NArrow l [] l'
| std_arrow_rest S x l l1 l2 l' : reads (pct PSpread) l l1 -> std odd S NPat l1 x l2 -> reads (pct PCloseParen) l2 l' ->
    std odd S NArrow l [FAPat (PRestElement x)] l'
| std_arrow_last S e l l1 l' : std odd S NArrowArg l e l1 -> reads (pct PCloseParen) l1 l' -> std odd S NArrow l [FAExpr e] l'
| std_arrow_more S e ps l l1 l2 l' : std odd S NArrowArg l e l1 -> comma l1 l2 -> std odd S NArrow l2 ps l' ->
    std odd S NArrow l (FAExpr e :: ps) l'
| std_arrow_arg S w l l' : reads_as TIdent w l l' -> w <> str "async" -> std odd S NArrowArg l (EIdent w) l'
| std_arrow_default S w e l l1 l2 l' : reads_as TIdent w l l1 -> w <> str "async" -> strict_target S (EIdent w) -> reads (pct PAssign) l1 l2 ->
    std odd S (NX 1) l2 e l' -> is_yield e = false -> std odd S NArrowArg l (EAssignment AEqual (ALExpr (EIdent w)) e) l'
| std_arrow_pattern S a l l' : std odd S (NTarget true) l a l' -> std odd S NArrowArg l a l'
| std_arrow_pattern_default S a e l l1 l2 l' : std odd S (NTarget true) l a l1 -> reads (pct PAssign) l1 l2 ->
    std odd S (NX 1) l2 e l' -> is_yield e = false -> std odd S NArrowArg l (EAssignment AEqual (ALExpr a) e) l'
| std_yield S l l1 : v_yield S = false -> reads (kw KYield) l l1 ->
    hd_tok l1 = pct PSemiColon \/ hd_tok l1 = pct PCloseParen \/ hd_tok l1 = pct PCloseBracket
    \/ hd_tok l1 = pct PCloseBrace \/ hd_tok l1 = pct PComma \/ hd_tok l1 = pct PColon ->
    std odd S (NX 1) l (EYield None false) l1
| std_yield_line S l l1 : v_yield S = false -> reads (kw KYield) l l1 -> newline l1 = true -> hd_tok l1 <> TEoF ->
    std odd S (NX 1) l (EYield None false) l1
| std_yield_arg S e l l1 l' : v_yield S = false -> reads (kw KYield) l l1 -> newline l1 = false ->
    hd_tok l1 <> pct POpenBrace -> hd_tok l1 <> kw KAwait -> hd_tok l1 <> kw KImport -> std odd S (NX 1) l1 e l' -> std odd S (NX 1) l (EYield (Some e) false) l'
| std_yield_all S e l l1 l2 l' : v_yield S = false -> reads (kw KYield) l l1 -> newline l1 = false ->
    reads (pct PAsterisk) l1 l2 -> std odd S (NX 1) l2 e l' -> std odd S (NX 1) l (EYield (Some e) true) l'
| std_commas_one S e l l' : std odd S (NX 1) l e l' -> std odd S NCommas l [e] l'
| std_commas_more S e es l l1 l2 l' : std odd S (NX 1) l e l1 -> comma l1 l2 -> std odd S NCommas l2 es l' ->
    std odd S NCommas l (e :: es) l'
| std_expression S es l l' : std odd S NCommas l es l' -> std odd S (NX 0) l (sequence es) l'

(** *** Functions, after the keyword; [named]: a declaration; [a]: asynchronous.
    The parser reads no declarations of asynchronous generators (C46_classes_refuted). *)
| std_function_anon S (gen a : bool) ps b l l1 l2 l3 l' :
    (if gen then reads (pct PAsterisk) l l1 else l1 = l) -> reads (pct POpenParen) l1 l2 ->
    std odd (yield_ (negb gen) (await_ a S)) NParams l2 ps l3 -> std odd (yield_ (negb gen) (await_ a S)) NBody l3 b l' ->
    std odd S (NFunction false a) l (mkFunction None ps b gen a) l'
| std_function_named S named (gen a : bool) w ps b l l1 l2 l3 l4 l' : (named = true -> a = true -> gen = false) ->
    (if gen then reads (pct PAsterisk) l l1 else l1 = l) -> binding_name S w -> (v_strict S = true -> odd = false) ->
    reads_as TIdent w l1 l2 -> reads (pct POpenParen) l2 l3 ->
    std odd (yield_ (negb gen) (await_ a S)) NParams l3 ps l4 -> std odd (yield_ (negb gen) (await_ a S)) NBody l4 b l' ->
    std odd S (NFunction named a) l (mkFunction (Some w) ps b gen a) l'
| std_param S x l l' : std odd S NPatDefault l x l' -> std odd S NParam l (FAPat x) l'
| std_param_rest S x l l1 l' : reads (pct PSpread) l l1 -> std odd S NPat l1 x l' -> hd_tok l' = pct PCloseParen ->
    std odd S NParam l (FAPat (PRestElement x)) l'
| std_params_none S l l' : reads (pct PCloseParen) l l' -> std odd S NParams l [] l'
| std_params_last S x l l1 l' : std odd S NParam l x l1 -> reads (pct PCloseParen) l1 l' -> std odd S NParams l [x] l'
| std_params_more S x xs l l1 l2 l' : std odd S NParam l x l1 -> comma l1 l2 -> std odd S NParams l2 xs l' ->
    std odd S NParams l (x :: xs) l'
| std_body S ds b l l1 l2 l3 l' : reads (pct POpenBrace) l l1 -> std odd S NDirectives l1 ds l2 -> hd_tok l2 <> TString ->
    std odd (fn_ true (labels_ [] S)) NItems l2 b l3 -> reads (pct PCloseBrace) l3 l' -> std odd S NBody l (ds ++ b) l'
| std_directives_none S l : std odd S NDirectives l [] l
| std_directives S w x ds l l1 l2 l' : reads_as TString w l l1 -> w <> str "use strict" -> directive_of w x -> ends l1 l2 ->
    std odd S NDirectives l2 ds l' -> std odd S NDirectives l (PPDir x (LString w) :: ds) l'

(** *** Classes, after the keyword; [named]: a declaration.  In strict scopes only. *)
| std_class_anon S ms l l1 l' : v_strict S = true -> reads (pct POpenBrace) l l1 -> std odd S NMembers l1 ms l' ->
    length (filter is_ctor ms) <= 1 -> std odd S (NClass false) l (mkClass None None ms) l'
| std_class_named S named w h ms l l1 l2 l3 l' : v_strict S = true -> reads_as TIdent w l l1 -> binding_name S w -> w <> str "extends" ->
    std odd S NHeritage l1 h l2 -> reads (pct POpenBrace) l2 l3 -> std odd S NMembers l3 ms l' ->
    length (filter is_ctor ms) <= 1 -> std odd S (NClass named) l (mkClass (Some w) h ms) l'
| std_heritage_none S l : hd_tok l = pct POpenBrace -> std odd S NHeritage l None l
| std_heritage S t e l l1 l' : reads_as t (str "extends") l l1 -> std odd S (NX 18) l1 e l' -> hd_tok l' = pct POpenBrace ->
    std odd S NHeritage l (Some e) l'
| std_members_none S l l' : reads (pct PCloseBrace) l l' -> std odd S NMembers l [] l'
| std_members_semicolon S ms l l1 l' : reads (pct PSemiColon) l l1 -> std odd S NMembers l1 ms l' -> std odd S NMembers l ms l'
| std_members S m ms l l1 l' : std odd S NMember l m l1 -> std odd S NMembers l1 ms l' -> std odd S NMembers l (m :: ms) l'
| std_member_ctor S ps b l l1 l2 l3 l' : calm l -> std odd S NKey l (PKExpr (EIdent (str "constructor")), false) l1 -> reads (pct POpenParen) l1 l2 ->
    std odd (yield_ false S) NParams l2 ps l3 -> std odd (yield_ false S) NBody l3 b l' ->
    std odd S NMember l (mkProperty (PKExpr (EIdent (str "constructor"))) (method ps b false false) KCtor true false false) l'
| std_member_method S st k c ps b l l0 l1 l2 l3 l' : calm l -> static_mark st l l0 -> std odd S NKey l0 (k, c) l1 -> member_name st c k -> reads (pct POpenParen) l1 l2 ->
    std odd (yield_ false S) NParams l2 ps l3 -> std odd (yield_ false S) NBody l3 b l' ->
    std odd S NMember l (mkProperty k (method ps b false false) KMethod true c false) l'
(** Not after [static]: the parser rejects that (C46_classes_refuted). *)
| std_member_async S k c ps b l l1 l2 l3 l4 l' : reads_as TIdent (str "async") l l1 -> newline l1 = false -> std odd S NKey l1 (k, c) l2 ->
    member_name false c k -> reads (pct POpenParen) l2 l3 ->
    std odd (await_ true (yield_ false S)) NParams l3 ps l4 -> std odd (await_ true (yield_ false S)) NBody l4 b l' ->
    std odd S NMember l (mkProperty k (method ps b false true) KMethod true c false) l'
| std_member_generator S st k c ps b l l0 l1 l2 l3 l4 l' : static_mark st l l0 -> reads (pct PAsterisk) l0 l1 -> std odd S NKey l1 (k, c) l2 -> member_name st c k ->
    reads (pct POpenParen) l2 l3 -> std odd (yield_ true S) NParams l3 ps l4 -> std odd (yield_ false S) NBody l4 b l' ->
    std odd S NMember l (mkProperty k (method ps b true false) KMethod true c false) l'
(** Only where [yield] is an operator: elsewhere the parser makes it one for the rest of the
    program (C21_yield_refuted). *)
| std_member_get S st k c b l l0 l1 l2 l3 l4 l' : v_yield S = false -> static_mark st l l0 -> reads_as TIdent (str "get") l0 l1 -> calm l1 -> std odd S NKey l1 (k, c) l2 ->
    member_name st c k -> reads (pct POpenParen) l2 l3 -> reads (pct PCloseParen) l3 l4 -> std odd S NBody l4 b l' ->
    std odd S NMember l (mkProperty k (method [] b false false) KGet false c false) l'
| std_member_set S st k c x b l l0 l1 l2 l3 l4 l5 l' : static_mark st l l0 -> reads_as TIdent (str "set") l0 l1 -> calm l1 -> std odd S NKey l1 (k, c) l2 ->
    member_name st c k -> reads (pct POpenParen) l2 l3 -> std odd (yield_ true S) NPatDefault l3 x l4 -> reads (pct PCloseParen) l4 l5 ->
    std odd S NBody l5 b l' ->
    std odd S NMember l (mkProperty k (method [FAPat x] b false false) KSet false c false) l'

(** *** Patterns *)
| std_pat_name S w l l' : reads_as TIdent w l l' -> binding_name S w -> std odd S NPat l (PIdentifier w) l'
| std_pat_array S es l l1 l' : reads (pct POpenBracket) l l1 -> std odd S NPatElems l1 es l' -> std odd S NPat l (PArray es) l'
| std_pat_object S ps l l1 l' : reads (pct POpenBrace) l l1 -> std odd S NPatProps l1 ps l' -> std odd S NPat l (PObject ps) l'
| std_pat_plain S x l l' : std odd S NPat l x l' -> hd_tok l' <> pct PAssign -> std odd S NPatDefault l x l'
| std_pat_default S x e l l1 l2 l' : std odd S NPat l x l1 -> reads (pct PAssign) l1 l2 ->
    std odd (yield_ true S) (NX 1) l2 e l' -> std odd S NPatDefault l (PAssignment x e) l'
| std_pat_elems_none S l l' : reads (pct PCloseBracket) l l' -> std odd S NPatElems l [] l'
| std_pat_elems_hole S es l l1 l' : comma l l1 -> std odd S NPatElems l1 es l' -> std odd S NPatElems l (None :: es) l'
| std_pat_elems_last S x l l1 l' : std odd S NPatDefault l x l1 -> reads (pct PCloseBracket) l1 l' ->
    std odd S NPatElems l [Some (APPat x)] l'
| std_pat_elems_more S x es l l1 l2 l' : std odd S NPatDefault l x l1 -> comma l1 l2 -> std odd S NPatElems l2 es l' ->
    std odd S NPatElems l (Some (APPat x) :: es) l'
| std_pat_props_none S l l' : reads (pct PCloseBrace) l l' -> std odd S NPatProps l [] l'
| std_pat_props_last S p l l1 l' : std odd S NPatProp l p l1 -> reads (pct PCloseBrace) l1 l' -> std odd S NPatProps l [p] l'
| std_pat_props_more S p ps l l1 l2 l' : std odd S NPatProp l p l1 -> comma l1 l2 -> std odd S NPatProps l2 ps l' ->
    std odd S NPatProps l (p :: ps) l'
| std_pat_prop_name S w l l' : reads_as TIdent w l l' -> binding_name S w -> hd_tok l' = pct PComma \/ hd_tok l' = pct PCloseBrace ->
    std odd S NPatProp l (OPPAssignment (mkProperty (PKExpr (EIdent w)) PVNone KInit false false true)) l'
| std_pat_prop_default S w e l l1 l2 l' : reads_as TIdent w l l1 -> binding_name S w -> reads (pct PAssign) l1 l2 ->
    std odd S (NX 1) l2 e l' -> assigns e = false ->
    std odd S NPatProp l (OPPAssignment (mkProperty (PKExpr (EIdent w)) (PVExpr e) KInit false false true)) l'
| std_pat_prop S k c x l l1 l2 l' : std odd S NKey l (k, c) l1 -> (forall w, k = PKExpr (EIdent w) -> w <> str "await") ->
    reads (pct PColon) l1 l2 -> std odd S NPatDefault l2 x l' ->
    std odd S NPatProp l (OPPAssignment (mkProperty k (PVPat x) KInit false c false)) l'
| std_pat_prop_rest S x l l1 l' : reads (pct PSpread) l l1 -> std odd S NPat l1 x l' -> hd_tok l' = pct PCloseBrace ->
    std odd S NPatProp l (OPPRest (PRestElement x)) l'

(** *** Statements *)
| std_items_none S l : std odd S NItems l [] l
| std_items S p ps l l1 l' : std odd S NItem l p l1 -> std odd S NItems l1 ps l' -> std odd S NItems l (p :: ps) l'
| std_item_stmt S t l l' : std odd S NStmt l t l' -> std odd S NItem l (PPStmt t) l'
| std_item_let S vs l l1 l2 l' : reads (kw KLet) l l1 -> std odd S (NVars VLet false) l1 vs l2 -> ends l2 l' ->
    std odd S NItem l (PPDecl (DVariable VLet vs)) l'
| std_item_const S vs l l1 l2 l' : reads (kw KConst) l l1 -> std odd S (NVars VConst false) l1 vs l2 -> ends l2 l' ->
    std odd S NItem l (PPDecl (DVariable VConst vs)) l'
| std_item_function S f l l1 l' : reads (kw KFunction) l l1 -> std odd S (NFunction true false) l1 f l' -> std odd S NItem l (PPDecl (DFunction f)) l'
(** The parser has no declaration for these: it keeps the function as an expression. *)
| std_item_async S f l l1 l' : function_mark true l l1 -> std odd S (NFunction true true) l1 f l' ->
    std odd S NItem l (PPStmt (SExpr (EFunction f))) l'
| std_item_class S c l l1 l' : reads (kw KClass) l l1 -> std odd (strict_ true S) (NClass true) l1 c l' -> std odd S NItem l (PPDecl (DClass c)) l'
| std_vars_one S k f v l l' : std odd S (NVar k f) l v l' -> std odd S (NVars k f) l [v] l'
| std_vars_more S k f v vs l l1 l2 l' : std odd S (NVar k f) l v l1 -> comma l1 l2 -> std odd S (NVars k f) l2 vs l' ->
    std odd S (NVars k f) l (v :: vs) l'
| std_var S k f w l l' : k <> VConst -> reads_as TIdent w l l' -> binding_name S w -> std odd S (NVar k f) l (mkVarDecl (PIdentifier w) None) l'
| std_var_init S k f x e l l1 l2 l' : std odd S NPat l x l1 -> reads (pct PAssign) l1 l2 -> std odd S (NX 1) l2 e l' ->
    std odd S (NVar k f) l (mkVarDecl x (Some e)) l'
| std_block S ps l l1 l2 l' : reads (pct POpenBrace) l l1 -> std odd S NItems l1 ps l2 -> reads (pct PCloseBrace) l2 l' ->
    std odd S NBlock l ps l'
| std_stmt_expr S e l l1 l' : std odd S (NX 0) l e l1 -> not_statement (hd_tok l) = false -> plain_start l -> ends l1 l' -> std odd S NStmt l (SExpr e) l'
| std_stmt_block S ps l l' : std odd S NBlock l ps l' -> std odd S NStmt l (SBlock ps) l'
| std_stmt_empty S l l' : reads (pct PSemiColon) l l' -> std odd S NStmt l SEmpty l'
| std_stmt_debugger S l l1 l' : reads (kw KDebugger) l l1 -> stops l1 l' -> std odd S NStmt l SDebugger l'
| std_stmt_var S vs l l1 l2 l' : reads (kw KVar) l l1 -> std odd S (NVars VVar false) l1 vs l2 -> ends l2 l' -> std odd S NStmt l (SVar vs) l'
| std_stmt_if S e t l l1 l2 l3 l4 l' : reads (kw KIf) l l1 -> reads (pct POpenParen) l1 l2 -> std odd S (NX 0) l2 e l3 ->
    reads (pct PCloseParen) l3 l4 -> std odd S NStmt l4 t l' -> hd_tok l' <> kw KElse -> std odd S NStmt l (SIf e t None) l'
| std_stmt_if_else S e t u l l1 l2 l3 l4 l5 l6 l' : reads (kw KIf) l l1 -> reads (pct POpenParen) l1 l2 -> std odd S (NX 0) l2 e l3 ->
    reads (pct PCloseParen) l3 l4 -> std odd S NStmt l4 t l5 -> reads (kw KElse) l5 l6 -> std odd S NStmt l6 u l' ->
    std odd S NStmt l (SIf e t (Some u)) l'
| std_stmt_while S e t l l1 l2 l3 l4 l' : reads (kw KWhile) l l1 -> reads (pct POpenParen) l1 l2 -> std odd S (NX 0) l2 e l3 ->
    reads (pct PCloseParen) l3 l4 -> std odd S NStmt l4 t l' -> std odd S NStmt l (SWhile e t) l'
| std_stmt_do S e t l l1 l2 l3 l4 l5 l6 l' : reads (kw KDo) l l1 -> std odd S NStmt l1 t l2 -> reads (kw KWhile) l2 l3 ->
    reads (pct POpenParen) l3 l4 -> std odd S (NX 0) l4 e l5 -> reads (pct PCloseParen) l5 l6 ->
    reads (pct PSemiColon) l6 l' \/ l' = l6 /\ hd_tok l6 <> pct PSemiColon -> std odd S NStmt l (SDoWhile e t) l'
| std_stmt_with S e t l l1 l2 l3 l4 l' : v_strict S = false -> reads (kw KWith) l l1 -> reads (pct POpenParen) l1 l2 ->
    std odd S (NX 0) l2 e l3 -> reads (pct PCloseParen) l3 l4 -> std odd S NStmt l4 t l' -> std odd S NStmt l (SWith e t) l'
| std_stmt_return S l l1 l' : v_fn S = true -> reads (kw KReturn) l l1 -> stops l1 l' ->
    is_string (hd_tok l1) = false -> is_template (hd_tok l1) = false -> std odd S NStmt l (SReturn None) l'
| std_stmt_return_value S e l l1 l2 l' : v_fn S = true -> reads (kw KReturn) l l1 -> newline l1 = false -> std odd S (NX 0) l1 e l2 -> ends l2 l' ->
    std odd S NStmt l (SReturn (Some e)) l'
| std_stmt_throw S e l l1 l2 l' : reads (kw KThrow) l l1 -> newline l1 = false -> std odd S (NX 0) l1 e l2 -> ends l2 l' -> std odd S NStmt l (SThrow e) l'
| std_stmt_break S l l1 l' : reads (kw KBreak) l l1 -> stops l1 l' -> hd_tok l1 <> TIdent \/ newline l1 = true -> std odd S NStmt l (SBreak None) l'
| std_stmt_break_label S w l l1 l2 l' : reads (kw KBreak) l l1 -> newline l1 = false -> reads_as TIdent w l1 l2 -> w <> str "await" -> stops l2 l' ->
    std odd S NStmt l (SBreak (Some w)) l'
| std_stmt_continue S l l1 l' : reads (kw KContinue) l l1 -> stops l1 l' -> hd_tok l1 <> TIdent \/ newline l1 = true -> std odd S NStmt l (SContinue None) l'
| std_stmt_continue_label S w l l1 l2 l' : reads (kw KContinue) l l1 -> newline l1 = false -> reads_as TIdent w l1 l2 -> w <> str "await" -> stops l2 l' ->
    std odd S NStmt l (SContinue (Some w)) l'
| std_stmt_label S w t l l1 l2 l' : reads_as TIdent w l l1 -> w <> str "async" -> reads (pct PColon) l1 l2 -> ~ In (str "$" ++ w)%list (v_labels S) ->
    hd_tok l2 <> kw KClass -> hd_tok l2 <> kw KFunction ->
    std odd (labels_ ((str "$" ++ w)%list :: v_labels S) S) NStmt l2 t l' -> std odd S NStmt l (SLabeled w t) l'
| std_stmt_switch S e cs l l1 l2 l3 l4 l5 l6 l' : reads (kw KSwitch) l l1 -> reads (pct POpenParen) l1 l2 -> std odd S (NX 0) l2 e l3 ->
    reads (pct PCloseParen) l3 l4 -> reads (pct POpenBrace) l4 l5 -> std odd S NCases l5 cs l6 -> reads (pct PCloseBrace) l6 l' ->
    length (filter is_default cs) <= 1 -> std odd S NStmt l (SSwitch e cs) l'
| std_cases_none S l : std odd S NCases l [] l
| std_cases S c cs l l1 l' : std odd S NCase l c l1 -> std odd S NCases l1 cs l' -> std odd S NCases l (c :: cs) l'
| std_case S e ps l l1 l2 l3 l' : reads (kw KCase) l l1 -> std odd S (NX 0) l1 e l2 -> reads (pct PColon) l2 l3 -> std odd S NItems l3 ps l' ->
    hd_tok l' = pct PCloseBrace \/ hd_tok l' = kw KCase \/ hd_tok l' = kw KDefault -> std odd S NCase l (mkCase (Some e) ps) l'
| std_case_default S ps l l1 l2 l' : reads (kw KDefault) l l1 -> reads (pct PColon) l1 l2 -> std odd S NItems l2 ps l' ->
    hd_tok l' = pct PCloseBrace \/ hd_tok l' = kw KCase \/ hd_tok l' = kw KDefault -> std odd S NCase l (mkCase None ps) l'
| std_handler S x h l l1 l2 l3 l4 l' : reads (kw KCatch) l l1 -> reads (pct POpenParen) l1 l2 -> std odd S NPat l2 x l3 -> reads (pct PCloseParen) l3 l4 ->
    std odd S NBlock l4 h l' -> std odd S NHandler l (mkCatch (Some x) h) l'
| std_handler_plain S h l l1 l' : reads (kw KCatch) l l1 -> std odd S NBlock l1 h l' -> std odd S NHandler l (mkCatch None h) l'
| std_stmt_try_catch S b h l l1 l2 l' : reads (kw KTry) l l1 -> std odd S NBlock l1 b l2 -> std odd S NHandler l2 h l' -> hd_tok l' <> kw KFinally ->
    std odd S NStmt l (STry b (Some h) None) l'
| std_stmt_try_finally S b f l l1 l2 l3 l' : reads (kw KTry) l l1 -> std odd S NBlock l1 b l2 -> reads (kw KFinally) l2 l3 -> std odd S NBlock l3 f l' ->
    std odd S NStmt l (STry b None (Some f)) l'
| std_stmt_try_both S b h f l l1 l2 l3 l4 l' : reads (kw KTry) l l1 -> std odd S NBlock l1 b l2 -> std odd S NHandler l2 h l3 ->
    reads (kw KFinally) l3 l4 -> std odd S NBlock l4 f l' -> std odd S NStmt l (STry b (Some h) (Some f)) l'
| std_stmt_for S i c u t l l1 l2 l3 l4 l5 l6 l7 l' : reads (kw KFor) l l1 -> reads (pct POpenParen) l1 l2 -> std odd S NInit l2 i l3 ->
    reads (pct PSemiColon) l3 l4 -> std odd S NOpt l4 c l5 -> reads (pct PSemiColon) l5 l6 -> std odd S NOpt l6 u l7 ->
    std odd S NLoop l7 t l' -> std odd S NStmt l (SFor i c u t) l'
| std_stmt_for_in S x e t l l1 l2 l3 l4 l5 l' : reads (kw KFor) l l1 -> reads (pct POpenParen) l1 l2 -> std odd S NLeft l2 x l3 ->
    reads (kw KIn) l3 l4 -> std odd S (NX 0) l4 e l5 -> std odd S NLoop l5 t l' -> std odd S NStmt l (SForIn x e t) l'
| std_stmt_for_of S x e t l l1 l2 l3 l4 l5 l' : reads (kw KFor) l l1 -> reads (pct POpenParen) l1 l2 -> std odd S NLeft l2 x l3 ->
    reads_as TIdent (str "of") l3 l4 -> std odd S (NX 1) l4 e l5 -> assigns e = false -> std odd S NLoop l5 t l' ->
    std odd S NStmt l (SForOf x e t false) l'
| std_stmt_for_await S x e t l l0 l1 l2 l3 l4 l5 l' : v_await S = true -> reads (kw KFor) l l0 -> reads (kw KAwait) l0 l1 -> reads (pct POpenParen) l1 l2 ->
    std odd S NLeft l2 x l3 -> reads_as TIdent (str "of") l3 l4 -> std odd S (NX 1) l4 e l5 -> assigns e = false -> std odd S NLoop l5 t l' ->
    std odd S NStmt l (SForOf x e t true) l'
| std_loop S t l l1 l' : reads (pct PCloseParen) l l1 -> std odd S NStmt l1 t l' -> std odd S NLoop l t l'
| std_opt_none S l : std odd S NOpt l None l
| std_opt S e l l' : std odd S (NX 0) l e l' -> std odd S NOpt l (Some e) l'
| std_init_none S l : std odd S NInit l None l
| std_init_var S vs l l1 l' : reads (kw KVar) l l1 -> std odd (in_ false S) (NVars VVar true) l1 vs l' ->
    std odd S NInit l (Some (LIVariable VVar vs)) l'
| std_init_let S vs l l1 l' : reads (kw KLet) l l1 -> std odd (in_ false S) (NVars VLet true) l1 vs l' ->
    std odd S NInit l (Some (LIVariable VLet vs)) l'
| std_init_const S vs l l1 l' : reads (kw KConst) l l1 -> std odd (in_ false S) (NVars VConst true) l1 vs l' ->
    std odd S NInit l (Some (LIVariable VConst vs)) l'
| std_init_expr S es l l' : std odd (in_ false S) NCommas l es l' -> std odd S NInit l (Some (LIExpr (sequence es))) l'
| std_left_var S x l l1 l' : reads (kw KVar) l l1 -> std odd (in_ false S) NPat l1 x l' ->
    std odd S NLeft l (LLVariable VVar (mkVarDecl x None)) l'
| std_left_let S x l l1 l' : reads (kw KLet) l l1 -> std odd (in_ false S) NPat l1 x l' ->
    std odd S NLeft l (LLVariable VLet (mkVarDecl x None)) l'
| std_left_const S x l l1 l' : reads (kw KConst) l l1 -> std odd (in_ false S) NPat l1 x l' ->
    std odd S NLeft l (LLVariable VConst (mkVarDecl x None)) l'
| std_left_expr S e l l' : std odd S (NX 17) l e l' -> is_target e = true -> std odd S NLeft l (LLExpr e) l'
| std_left_pattern S a l l' : std odd S (NTarget false) l a l' -> std odd S NLeft l (LLExpr a) l'

(** *** Modules: imports and exports, at the top level only.
    After [export default] and an expression, and after the semicolon of an exported [let] or
    [const], a new line is asked for: the parser takes no semicolon there, or a second one
    (C46_exports_refuted).  An expression after [export default] that begins with a brace or
    bracket is a lone object or array.  Module code is not strict here, as in the parser. *)
| std_module_none S l : std odd S NModule l [] l
| std_module S p ps l l1 l' : std odd S NModItem l p l1 -> std odd S NModule l1 ps l' -> std odd S NModule l (p :: ps) l'
| std_mod_item S p l l' : std odd S NItem l p l' -> std odd S NModItem l p l'
| std_import S ns w l l1 l2 l3 l4 l' : reads (kw KImport) l l1 -> std odd S NImports l1 ns l2 -> reads_as TIdent (str "from") l2 l3 ->
    reads_as TString w l3 l4 -> stops l4 l' -> std odd S NModItem l (PPDecl (DImport (mkImport ns (LString w)))) l'
| std_import_bare S w l l1 l2 l' : reads (kw KImport) l l1 -> reads_as TString w l1 l2 -> stops l2 l' ->
    std odd S NModItem l (PPDecl (DImport (mkImport [] (LString w)))) l'
| std_imports_names S ns l l1 l' : reads (pct POpenBrace) l l1 -> std odd S NImportNames l1 ns l' -> std odd S NImports l ns l'
| std_imports_all S w l l1 l2 l' : reads (pct PAsterisk) l l1 -> reads_as TIdent (str "as") l1 l2 -> reads_as TIdent w l2 l' ->
    binding_name S w -> std odd S NImports l [ISNamespace w] l'
| std_imports_default S w l l' : reads_as TIdent w l l' -> binding_name S w -> hd_tok l' = TIdent -> std odd S NImports l [ISDefault w] l'
| std_imports_both S w v l l1 l2 l3 l4 l' : reads_as TIdent v l l1 -> binding_name S v -> comma l1 l2 -> reads (pct PAsterisk) l2 l3 ->
    reads_as TIdent (str "as") l3 l4 -> reads_as TIdent w l4 l' -> binding_name S w -> std odd S NImports l [ISDefault v; ISNamespace w] l'
| std_imports_default_names S v ns l l1 l2 l3 l' : reads_as TIdent v l l1 -> binding_name S v -> comma l1 l2 -> reads (pct POpenBrace) l2 l3 ->
    std odd S NImportNames l3 ns l' -> std odd S NImports l (ISDefault v :: ns) l'
| std_import_names_none S l l' : reads (pct PCloseBrace) l l' -> std odd S NImportNames l [] l'
| std_import_names_last S n l l1 l' : std odd S NImportName l n l1 -> reads (pct PCloseBrace) l1 l' -> std odd S NImportNames l [n] l'
| std_import_names_more S n ns l l1 l2 l' : std odd S NImportName l n l1 -> comma l1 l2 -> std odd S NImportNames l2 ns l' ->
    std odd S NImportNames l (n :: ns) l'
| std_import_name S w l l' : reads_as TIdent w l l' -> binding_name S w -> hd_tok l' = pct PComma \/ hd_tok l' = pct PCloseBrace ->
    std odd S NImportName l (ISNormal w None) l'
| std_import_name_as S t w v l l1 l2 l' : name_token t -> reads_as t w l l1 -> w <> str "await" -> reads_as TIdent (str "as") l1 l2 ->
    reads_as TIdent v l2 l' -> binding_name S v -> std odd S NImportName l (ISNormal w (Some v)) l'
| std_export_default S e l l1 l2 l' : reads (kw KExport) l l1 -> reads (kw KDefault) l1 l2 -> not_statement (hd_tok l2) = false ->
    hd_tok l2 <> pct POpenBracket -> plain_start l2 -> std odd S (NX 1) l2 e l' -> fresh l' -> follow true 0 l' = true ->
    std odd S NModItem l (PPDecl (DExport (MEDefault (DEExpr e)))) l'
| std_export_default_object S ps l l1 l2 l3 l' : reads (kw KExport) l l1 -> reads (kw KDefault) l1 l2 -> reads (pct POpenBrace) l2 l3 ->
    std odd S NProps l3 ps l' -> fresh l' -> follow true 0 l' = true ->
    std odd S NModItem l (PPDecl (DExport (MEDefault (DEExpr (EObject ps))))) l'
| std_export_default_array S es l l1 l2 l3 l' : reads (kw KExport) l l1 -> reads (kw KDefault) l1 l2 -> reads (pct POpenBracket) l2 l3 ->
    std odd S NElems l3 es l' -> fresh l' -> follow true 0 l' = true ->
    std odd S NModItem l (PPDecl (DExport (MEDefault (DEExpr (EArray es))))) l'
| std_export_default_function S a f l l1 l2 l3 l' : reads (kw KExport) l l1 -> reads (kw KDefault) l1 l2 -> function_mark a l2 l3 ->
    std odd S (NFunction true a) l3 f l' -> std odd S NModItem l (PPDecl (DExport (MEDefault (DEDecl (DFunction f))))) l'
| std_export_default_anon S (gen a : bool) ps b l l1 l2 l3 l4 l5 l6 l' : reads (kw KExport) l l1 -> reads (kw KDefault) l1 l2 -> function_mark a l2 l3 ->
    (a = true -> gen = false) -> (if gen then reads (pct PAsterisk) l3 l4 else l4 = l3) -> reads (pct POpenParen) l4 l5 ->
    std odd (yield_ (negb gen) (await_ a S)) NParams l5 ps l6 -> std odd (yield_ (negb gen) (await_ a S)) NBody l6 b l' ->
    std odd S NModItem l (PPDecl (DExport (MEDefault (DEDecl (DFunction (mkFunction None ps b gen a)))))) l'
| std_export_default_class S c l l1 l2 l3 l' : reads (kw KExport) l l1 -> reads (kw KDefault) l1 l2 -> reads (kw KClass) l2 l3 ->
    std odd (strict_ true S) (NClass false) l3 c l' -> std odd S NModItem l (PPDecl (DExport (MEDefault (DEDecl (DClass c))))) l'
| std_export_all S w l l1 l2 l3 l4 l' : reads (kw KExport) l l1 -> reads (pct PAsterisk) l1 l2 -> reads_as TIdent (str "from") l2 l3 ->
    reads_as TString w l3 l4 -> stops l4 l' -> std odd S NModItem l (PPDecl (DExport (MEAll (LString w)))) l'
| std_export_let S vs l l1 l2 l3 l' : reads (kw KExport) l l1 -> reads (kw KLet) l1 l2 -> std odd S (NVars VLet false) l2 vs l3 ->
    ends l3 l' -> fresh l' -> std odd S NModItem l (PPDecl (DExport (MENamed (NEDecl (DVariable VLet vs))))) l'
| std_export_const S vs l l1 l2 l3 l' : reads (kw KExport) l l1 -> reads (kw KConst) l1 l2 -> std odd S (NVars VConst false) l2 vs l3 ->
    ends l3 l' -> fresh l' -> std odd S NModItem l (PPDecl (DExport (MENamed (NEDecl (DVariable VConst vs))))) l'
| std_export_var S vs l l1 l2 l3 l' : reads (kw KExport) l l1 -> reads (kw KVar) l1 l2 -> std odd S (NVars VVar false) l2 vs l3 ->
    ends l3 l' -> std odd S NModItem l (PPDecl (DExport (MENamed (NEDecl (DVariable VVar vs))))) l'
| std_export_function S a f l l1 l2 l' : reads (kw KExport) l l1 -> function_mark a l1 l2 -> std odd S (NFunction true a) l2 f l' ->
    std odd S NModItem l (PPDecl (DExport (MENamed (NEDecl (DFunction f))))) l'
| std_export_class S w h ms l l1 l2 l' : reads (kw KExport) l l1 -> reads (kw KClass) l1 l2 ->
    std odd (strict_ true S) (NClass false) l2 (mkClass (Some w) h ms) l' ->
    std odd S NModItem l (PPDecl (DExport (MENamed (NEDecl (DClass (mkClass (Some w) h ms)))))) l'
| std_export_names S ns l l1 l2 l3 l' : reads (kw KExport) l l1 -> reads (pct POpenBrace) l1 l2 -> std odd S (NExportNames false) l2 ns l3 ->
    hd_tok l3 <> TIdent \/ hd_text l3 <> str "from" -> stops l3 l' ->
    std odd S NModItem l (PPDecl (DExport (MENamed (NESpecifier ns None)))) l'
| std_export_from S ns w l l1 l2 l3 l4 l5 l' : reads (kw KExport) l l1 -> reads (pct POpenBrace) l1 l2 -> std odd S (NExportNames true) l2 ns l3 ->
    reads_as TIdent (str "from") l3 l4 -> reads_as TString w l4 l5 -> stops l5 l' ->
    std odd S NModItem l (PPDecl (DExport (MENamed (NESpecifier ns (Some (LString w)))))) l'
| std_export_names_none S f l l' : reads (pct PCloseBrace) l l' -> std odd S (NExportNames f) l [] l'
| std_export_names_last S f n l l1 l' : std odd S (NExportName f) l n l1 -> reads (pct PCloseBrace) l1 l' -> std odd S (NExportNames f) l [n] l'
| std_export_names_more S f n ns l l1 l2 l' : std odd S (NExportName f) l n l1 -> comma l1 l2 -> std odd S (NExportNames f) l2 ns l' ->
    std odd S (NExportNames f) l (n :: ns) l'
| std_export_name S (f : bool) t w l l' : name_token t -> (f = false -> t = TIdent) -> reads_as t w l l' ->
    hd_tok l' = pct PComma \/ hd_tok l' = pct PCloseBrace -> std odd S (NExportName f) l (mkExportSpec w None) l'
| std_export_name_as S (f : bool) t w u v l l1 l2 l' : name_token t -> (f = false -> t = TIdent) -> reads_as t w l l1 ->
    reads_as TIdent (str "as") l1 l2 -> name_token u -> reads_as u v l2 l' -> std odd S (NExportName f) l (mkExportSpec w (Some v)) l'.

(** ** Programs *)
Definition top_view : view := mkView true true false false [] false true.
Definition spells (odd module : bool) (l : list tk) (ps : list ProgramPart) : Prop :=
  Forall quiet l /\ exists ds b l1 l2, ps = (ds ++ b)%list /\ std odd top_view NDirectives l ds l1 /\ hd_tok l1 <> TString
    /\ (if module then std odd top_view NModule l1 b l2 else std odd top_view NItems l1 b l2) /\ hd_tok l2 = TEoF.
(** The beginning [l] of a text spells an expression, read by a parser that has read nothing;
    [l'] is the rest, which does not go on with the expression. *)
Definition start_view : view := mkView true true false false [] false false.
Definition spells_expression (odd : bool) (l : list tk) (e : Expr) (l' : list tk) : Prop :=
  Forall quiet l /\ std odd start_view (NX 0) l e l' /\ follow true 0 l' = true.
