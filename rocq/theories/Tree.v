(** Syntax trees as nodes and children, and where in a tree a node lies: the vocabulary in
    which the properties of returned trees are stated. *)
From Verif Require Export Safe.
Export Parser.

(** Every sort of the syntax tree.  Three sorts mark positions rather than constructors:
    [NBody], the statements between the braces of a function or arrow function; [NMethod],
    the value of a property that is a method or accessor; [NName], an identifier. *)
Inductive node :=
| NName (i : Identifier) | NLit (l : Literal) | NQuasi (q : TemplateElement)
| NTemplate (t : TemplateLiteral) | NExpr (e : Expr) | NFunction (f : Function)
| NBody (b : list ProgramPart) | NArg (a : FunctionArg) | NClass (c : Class)
| NProperty (p : Property) | NKey (k : PropertyKey) | NMethod (v : PropertyValue)
| NValue (v : PropertyValue) | NObjProp (p : ObjectProperty) | NPat (p : Pat)
| NArrPart (p : ArrayPatPart) | NObjPart (p : ObjectPatPart) | NStmt (s : Stmt)
| NCase (c : SwitchCase) | NCatch (c : CatchClause) | NVarDecl (d : VariableDecl)
| NDecl (d : Decl) | NImport (i : ModImport) | NExport (e : ModExport) | NPart (p : ProgramPart).

Definition opt {A} (f : A -> node) (o : option A) : list node :=
  match o with Some a => [f a] | None => [] end.
Definition opts {A} (f : A -> node) (l : list (option A)) : list node :=
  flat_map (opt f) l.

Definition init_nodes (i : LoopInit) : list node :=
  match i with LIVariable _ ds => map NVarDecl ds | LIExpr e => [NExpr e] end.
Definition left_nodes (l : LoopLeft) : list node :=
  match l with LLVariable _ d => [NVarDecl d] | LLExpr e => [NExpr e] end.
Definition import_names (i : ImportSpecifier) : list node :=
  match i with
  | ISNormal i l => NName i :: opt NName l
  | ISNamespace i | ISDefault i => [NName i]
  end.
Definition export_names (e : ExportSpecifier) : list node :=
  match e with mkExportSpec l o => NName l :: opt NName o end.
(** Methods, getters, setters and constructors, as opposed to [key: value]. *)
Definition is_method (k : PropertyKind) (method : bool) : bool :=
  match k with KInit => method | _ => true end.

Definition children (n : node) : list node :=
  match n with
  | NName _ | NQuasi _ => []
  | NLit l => match l with LTemplate t => [NTemplate t] | _ => [] end
  | NTemplate (mkTemplate qs es) => map NQuasi qs ++ map NExpr es
  | NExpr e =>
      match e with
      | EArray l => opts NExpr l
      | EArrowFunction id ps b _ _ _ =>
          opt NName id ++ map NArg ps ++ match b with AFBody b => [NBody b] | AFExpr e => [NExpr e] end
      | EArrowParamPlaceHolder ps _ => map NArg ps
      | EAssignment _ l r => match l with ALPat p => NPat p | ALExpr e => NExpr e end :: [NExpr r]
      | EAwait e => [NExpr e]
      | EBinary _ a b | ELogical _ a b => [NExpr a; NExpr b]
      | ECall f l | ENew f l => NExpr f :: map NExpr l
      | EClass c => [NClass c]
      | EConditional a b c => [NExpr a; NExpr b; NExpr c]
      | EFunction f => [NFunction f]
      | EIdent i => [NName i]
      | ELiteral l => [NLit l]
      | EMember o p _ => [NExpr o; NExpr p]
      | EMetaProperty a b => [NName a; NName b]
      | EObject l => map NObjProp l
      | ESequence l => map NExpr l
      | ESpread e => [NExpr e]
      | ESuper | EThis => []
      | ETaggedTemplate e t => [NExpr e; NTemplate t]
      | EUnary _ _ e | EUpdate _ e _ => [NExpr e]
      | EYield o _ => opt NExpr o
      end
  | NFunction (mkFunction id ps b _ _) => opt NName id ++ map NArg ps ++ [NBody b]
  | NBody b => map NPart b
  | NArg a => match a with FAExpr e => [NExpr e] | FAPat p => [NPat p] end
  | NClass (mkClass id sup b) => opt NName id ++ opt NExpr sup ++ map NProperty b
  | NProperty (mkProperty k v kind m _ _) =>
      [NKey k; if is_method kind m then NMethod v else NValue v]
  | NKey k => match k with PKLiteral l => [NLit l] | PKExpr e => [NExpr e] | PKPat p => [NPat p] end
  | NMethod v | NValue v =>
      match v with PVExpr e => [NExpr e] | PVPat p => [NPat p] | PVNone => [] end
  | NObjProp p => match p with OPProperty p => [NProperty p] | OPSpread e => [NExpr e] end
  | NPat p =>
      match p with
      | PIdentifier i => [NName i]
      | PObject l => map NObjPart l
      | PArray l => opts NArrPart l
      | PRestElement p => [NPat p]
      | PAssignment p e => [NPat p; NExpr e]
      end
  | NArrPart p => match p with APPat p => [NPat p] | APExpr e => [NExpr e] end
  | NObjPart p => match p with OPPAssignment p => [NProperty p] | OPPRest p => [NPat p] end
  | NStmt s =>
      match s with
      | SExpr e | SThrow e => [NExpr e]
      | SBlock b => map NPart b
      | SEmpty | SDebugger => []
      | SWith e s | SWhile e s | SDoWhile e s => [NExpr e; NStmt s]
      | SReturn o => opt NExpr o
      | SLabeled l s => [NName l; NStmt s]
      | SBreak l | SContinue l => opt NName l
      | SIf e s o => NExpr e :: NStmt s :: opt NStmt o
      | SSwitch e l => NExpr e :: map NCase l
      | STry b h f => map NPart b ++ opt NCatch h ++ match f with Some b => map NPart b | None => [] end
      | SFor i t u s =>
          match i with Some i => init_nodes i | None => [] end ++ opt NExpr t ++ opt NExpr u ++ [NStmt s]
      | SForIn l e s | SForOf l e s _ => left_nodes l ++ [NExpr e; NStmt s]
      | SVar ds => map NVarDecl ds
      end
  | NCase (mkCase t l) => opt NExpr t ++ map NPart l
  | NCatch (mkCatch p b) => opt NPat p ++ map NPart b
  | NVarDecl (mkVarDecl p i) => NPat p :: opt NExpr i
  | NDecl d =>
      match d with
      | DVariable _ ds => map NVarDecl ds
      | DFunction f => [NFunction f]
      | DClass c => [NClass c]
      | DImport i => [NImport i]
      | DExport e => [NExport e]
      end
  | NImport (mkImport l src) => flat_map import_names l ++ [NLit src]
  | NExport e =>
      match e with
      | MEDefault (DEDecl d) | MENamed (NEDecl d) => [NDecl d]
      | MEDefault (DEExpr e) => [NExpr e]
      | MENamed (NESpecifier l src) => flat_map export_names l ++ opt NLit src
      | MEAll src => [NLit src]
      end
  | NPart p => match p with PPDir _ l => [NLit l] | PPDecl d => [NDecl d] | PPStmt s => [NStmt s] end
  end.

(** [inside root above n]: [n] lies in the tree [root], and [above] are the nodes on the way
    from [root] (first) to the parent of [n] (last). *)
Inductive inside : node -> list node -> node -> Prop :=
| inside_here : forall n, inside n [] n
| inside_child : forall r k above n, In k (children r) -> inside k above n -> inside r (r :: above) n.

Definition parts_of (p : Program) : list ProgramPart :=
  match p with PMod l | PScript l => l end.

(** The trees handed out for a text before the first error: program parts from the iterator or
    from [parse], and what [parse_expression] returns. *)
Inductive handed_out (sc : scanner) (tolerant module : bool) (js : text) : node -> Prop :=
| out_part : forall i s parts s' p,
    start (make_cfg sc tolerant module js) (sc_scan sc js) = (Ok i, s) ->
    yields (make_cfg sc tolerant module js) s parts s' -> In p parts ->
    handed_out sc tolerant module js (NPart p)
| out_program : forall i s parts s1 n p s2 q,
    start (make_cfg sc tolerant module js) (sc_scan sc js) = (Ok i, s) ->
    yields (make_cfg sc tolerant module js) s parts s1 ->
    parse (make_cfg sc tolerant module js) n s1 = (Ok p, s2) -> In q (parts_of p) ->
    handed_out sc tolerant module js (NPart q)
| out_expression : forall i s parts s1 n e s2,
    start (make_cfg sc tolerant module js) (sc_scan sc js) = (Ok i, s) ->
    yields (make_cfg sc tolerant module js) s parts s1 ->
    parse_expression (make_cfg sc tolerant module js) n s1 = (Ok e, s2) ->
    handed_out sc tolerant module js (NExpr e).

(** [n] occurs in a tree handed out, below the nodes [above]. *)
Definition occurs (sc : scanner) (tolerant module : bool) (js : text) (above : list node) (n : node) : Prop :=
  exists root, handed_out sc tolerant module js root /\ inside root above n.
