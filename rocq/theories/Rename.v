(** Renaming: a tree with every name, string and number in it replaced.

    [ren f] applies [f] to each text of a tree that is the whole spelling of a token: names,
    keys, labels, strings, numbers.  Regular expressions and the chunks of templates, of which the
    tree has pieces, are left alone; the text of a directive is what the new string has between its quotes. *)
From Verif Require Export Parser Prog.
Local Open Scope string_scope.
Local Open Scope list_scope.

Section Ren.
  Variable f : text -> text.

  Definition ren_import_spec (i : ImportSpecifier) : ImportSpecifier :=
    match i with
    | ISNormal a b => ISNormal (f a) (option_map f b)
    | ISNamespace a => ISNamespace (f a)
    | ISDefault a => ISDefault (f a)
    end.
  Definition ren_export_spec (e : ExportSpecifier) : ExportSpecifier :=
    match e with mkExportSpec a b => mkExportSpec (f a) (option_map f b) end.

  Fixpoint ren_expr (e : Expr) : Expr :=
    match e with
    | EArray es => EArray (map (option_map ren_expr) es)
    | EArrowFunction id ps b x g a => EArrowFunction (option_map f id) (map ren_arg ps) (ren_arrow b) x g a
    | EArrowParamPlaceHolder ps a => EArrowParamPlaceHolder (map ren_arg ps) a
    | EAssignment o l r => EAssignment o (ren_left l) (ren_expr r)
    | EAwait a => EAwait (ren_expr a)
    | EBinary o a b => EBinary o (ren_expr a) (ren_expr b)
    | ECall c es => ECall (ren_expr c) (map ren_expr es)
    | EClass c => EClass (ren_class c)
    | EConditional t a c => EConditional (ren_expr t) (ren_expr a) (ren_expr c)
    | EFunction h => EFunction (ren_function h)
    | EIdent i => EIdent (f i)
    | ELiteral l => ELiteral (ren_literal l)
    | ELogical o a b => ELogical o (ren_expr a) (ren_expr b)
    | EMember o p c => EMember (ren_expr o) (ren_expr p) c
    | EMetaProperty m p => EMetaProperty (f m) (f p)
    | ENew c es => ENew (ren_expr c) (map ren_expr es)
    | EObject ps => EObject (map ren_object_property ps)
    | ESequence es => ESequence (map ren_expr es)
    | ESpread a => ESpread (ren_expr a)
    | ESuper => ESuper
    | ETaggedTemplate t q => ETaggedTemplate (ren_expr t) (ren_template q)
    | EThis => EThis
    | EUnary o p a => EUnary o p (ren_expr a)
    | EUpdate o a p => EUpdate o (ren_expr a) p
    | EYield a d => EYield (option_map ren_expr a) d
    end
  with ren_left (l : AssignmentLeft) : AssignmentLeft :=
    match l with ALPat p => ALPat (ren_pat p) | ALExpr e => ALExpr (ren_expr e) end
  with ren_arrow (b : ArrowFunctionBody) : ArrowFunctionBody :=
    match b with AFBody ps => AFBody (map ren_part ps) | AFExpr e => AFExpr (ren_expr e) end
  with ren_literal (l : Literal) : Literal :=
    match l with
    | LNull => LNull
    | LString s => LString (f s)
    | LNumber s => LNumber (f s)
    | LBoolean b => LBoolean b
    | LRegEx p q => LRegEx p q
    | LTemplate t => LTemplate (ren_template t)
    end
  with ren_template (t : TemplateLiteral) : TemplateLiteral :=
    match t with mkTemplate qs es => mkTemplate qs (map ren_expr es) end
  with ren_function (h : Function) : Function :=
    match h with mkFunction id ps b g a => mkFunction (option_map f id) (map ren_arg ps) (map ren_part b) g a end
  with ren_arg (a : FunctionArg) : FunctionArg :=
    match a with FAExpr e => FAExpr (ren_expr e) | FAPat p => FAPat (ren_pat p) end
  with ren_class (c : Class) : Class :=
    match c with mkClass id h b => mkClass (option_map f id) (option_map ren_expr h) (map ren_property b) end
  with ren_property (p : Property) : Property :=
    match p with mkProperty k v n m c s => mkProperty (ren_key k) (ren_value v) n m c s end
  with ren_key (k : PropertyKey) : PropertyKey :=
    match k with PKLiteral l => PKLiteral (ren_literal l) | PKExpr e => PKExpr (ren_expr e) | PKPat p => PKPat (ren_pat p) end
  with ren_value (v : PropertyValue) : PropertyValue :=
    match v with PVExpr e => PVExpr (ren_expr e) | PVPat p => PVPat (ren_pat p) | PVNone => PVNone end
  with ren_object_property (p : ObjectProperty) : ObjectProperty :=
    match p with OPProperty q => OPProperty (ren_property q) | OPSpread e => OPSpread (ren_expr e) end
  with ren_pat (p : Pat) : Pat :=
    match p with
    | PIdentifier i => PIdentifier (f i)
    | PObject ps => PObject (map ren_pat_part ps)
    | PArray es => PArray (map (option_map ren_array_part) es)
    | PRestElement q => PRestElement (ren_pat q)
    | PAssignment q e => PAssignment (ren_pat q) (ren_expr e)
    end
  with ren_array_part (p : ArrayPatPart) : ArrayPatPart :=
    match p with APPat q => APPat (ren_pat q) | APExpr e => APExpr (ren_expr e) end
  with ren_pat_part (p : ObjectPatPart) : ObjectPatPart :=
    match p with OPPAssignment q => OPPAssignment (ren_property q) | OPPRest q => OPPRest (ren_pat q) end
  with ren_stmt (t : Stmt) : Stmt :=
    match t with
    | SExpr e => SExpr (ren_expr e)
    | SBlock b => SBlock (map ren_part b)
    | SEmpty => SEmpty
    | SDebugger => SDebugger
    | SWith e u => SWith (ren_expr e) (ren_stmt u)
    | SReturn e => SReturn (option_map ren_expr e)
    | SLabeled l u => SLabeled (f l) (ren_stmt u)
    | SBreak l => SBreak (option_map f l)
    | SContinue l => SContinue (option_map f l)
    | SIf e u v => SIf (ren_expr e) (ren_stmt u) (option_map ren_stmt v)
    | SSwitch e cs => SSwitch (ren_expr e) (map ren_case cs)
    | SThrow e => SThrow (ren_expr e)
    | STry b h z => STry (map ren_part b) (option_map ren_catch h) (option_map (map ren_part) z)
    | SWhile e u => SWhile (ren_expr e) (ren_stmt u)
    | SDoWhile e u => SDoWhile (ren_expr e) (ren_stmt u)
    | SFor i e u b => SFor (option_map ren_init i) (option_map ren_expr e) (option_map ren_expr u) (ren_stmt b)
    | SForIn l e b => SForIn (ren_loop_left l) (ren_expr e) (ren_stmt b)
    | SForOf l e b a => SForOf (ren_loop_left l) (ren_expr e) (ren_stmt b) a
    | SVar ds => SVar (map ren_var ds)
    end
  with ren_case (c : SwitchCase) : SwitchCase :=
    match c with mkCase e b => mkCase (option_map ren_expr e) (map ren_part b) end
  with ren_catch (c : CatchClause) : CatchClause :=
    match c with mkCatch p b => mkCatch (option_map ren_pat p) (map ren_part b) end
  with ren_init (i : LoopInit) : LoopInit :=
    match i with LIVariable k ds => LIVariable k (map ren_var ds) | LIExpr e => LIExpr (ren_expr e) end
  with ren_loop_left (l : LoopLeft) : LoopLeft :=
    match l with LLVariable k d => LLVariable k (ren_var d) | LLExpr e => LLExpr (ren_expr e) end
  with ren_var (d : VariableDecl) : VariableDecl :=
    match d with mkVarDecl p e => mkVarDecl (ren_pat p) (option_map ren_expr e) end
  with ren_decl (d : Decl) : Decl :=
    match d with
    | DVariable k ds => DVariable k (map ren_var ds)
    | DFunction h => DFunction (ren_function h)
    | DClass c => DClass (ren_class c)
    | DImport i => DImport (ren_import i)
    | DExport e => DExport (ren_export e)
    end
  with ren_import (i : ModImport) : ModImport :=
    match i with mkImport ss s => mkImport (map ren_import_spec ss) (ren_literal s) end
  with ren_export (e : ModExport) : ModExport :=
    match e with
    | MEDefault d => MEDefault (ren_default d)
    | MENamed d => MENamed (ren_named d)
    | MEAll s => MEAll (ren_literal s)
    end
  with ren_default (d : DefaultExportDecl) : DefaultExportDecl :=
    match d with DEDecl x => DEDecl (ren_decl x) | DEExpr e => DEExpr (ren_expr e) end
  with ren_named (d : NamedExportDecl) : NamedExportDecl :=
    match d with
    | NEDecl x => NEDecl (ren_decl x)
    | NESpecifier ss s => NESpecifier (map ren_export_spec ss) (option_map ren_literal s)
    end
  with ren_part (p : ProgramPart) : ProgramPart :=
    match p with
    | PPDir d l =>
        match l with
        | LString s => PPDir (trim_quotes (f s)) (LString (f s))
        | _ => PPDir d (ren_literal l)
        end
    | PPDecl d => PPDecl (ren_decl d)
    | PPStmt t => PPStmt (ren_stmt t)
    end.

  Definition ren_program (p : Program) : Program :=
    match p with PMod b => PMod (map ren_part b) | PScript b => PScript (map ren_part b) end.

  (** Errors: without their place, and with the new text of the token found. *)
  Definition ren_error (e : error) : error :=
    match e with
    | UnexpectedToken _ m =>
        UnexpectedToken (mkPos 0 0) (match m with MUnexpected w note => MUnexpected (f w) note | _ => m end)
    | UnexpectedEoF => UnexpectedEoF
    | ParseAfterEoF => ParseAfterEoF
    | UnableToReinterpret _ a b => UnableToReinterpret (mkPos 0 0) a b
    | Redecl _ i => Redecl (mkPos 0 0) (f i)
    | OperationError _ m => OperationError (mkPos 0 0) m
    | InvalidGetterParams _ => InvalidGetterParams (mkPos 0 0)
    | InvalidSetterParams _ => InvalidSetterParams (mkPos 0 0)
    | NonStrictFeatureInStrictContext _ m => NonStrictFeatureInStrictContext (mkPos 0 0) m
    | OtherError => OtherError
    end.
  Definition ren_outcome {A} (r : A -> A) (o : outcome A) : outcome A :=
    match o with Ok a => Ok (r a) | Err e => Err (ren_error e) | Panic => Panic | NoFuel => NoFuel end.
End Ren.

(** ** Words that mean something to the parser *)

(** Identifiers and strings are compared with these (lib.rs:535-537, 664-726, 829, 1230-1330, 1764-1790,
    1849-1966, 2532-2672, 2722, 2821, 3069, 3306, 4022, 4357-4413). *)
Definition compared_words : list string :=
  [ "async"; "as"; "from"; "of"; "extends"; "target"; "get"; "set"; "static"; "constructor"; "prototype"; "await";
    "eval"; "arguments"; "implements"; "interface"; "package"; "private"; "protected"; "public"; "yield"; "let";
    "use strict"; "_proto_" ].
(** The parser puts these into trees and errors itself: keywords used as names, nothing, and a note. *)
Definition produced_words : list string := [ ""; "var"; "const"; "new"; "prototype can only be declared once" ].

(** A renaming: one to one, and it leaves those words alone. *)
Definition renaming (f : text -> text) : Prop :=
  (forall a b, f a = f b -> a = b)
  /\ (forall w, In w (compared_words ++ produced_words) -> f (str w) = str w)
  /\ (forall k, f (kw_text k) = kw_text k).
