(** The syntax tree of the external crate [resast] 0.2
    ([use resast::prelude::*], /repo/src/lib.rs:62).  The crate's source is not
    in /repo: constructors and field names are read off the places in lib.rs
    that build them (cited per type).  Rust structs used by one enum variant
    are inlined as constructor arguments; [Box] is dropped. *)
From Verif Require Export Text.

Definition Identifier := text.

Inductive VariableKind := VVar | VLet | VConst.                    (* 1218,1251 *)
Inductive AssignmentOperator :=                                     (* 3198-3217 *)
| AEqual | APlusEqual | AMinusEqual | ATimesEqual | ADivEqual | AModEqual
| ALeftShiftEqual | ARightShiftEqual | AUnsignedRightShiftEqual
| AOrEqual | AXOrEqual | AAndEqual | APowerOfEqual.
Inductive BinaryOperator :=                                         (* 3628-3659, 3562 *)
| BEqual | BNotEqual | BStrictEqual | BStrictNotEqual | BLessThan
| BLessThanEqual | BGreaterThan | BGreaterThanEqual | BLeftShift
| BRightShift | BUnsignedRightShift | BPlus | BMinus | BTimes | BOver | BMod
| BOr | BXOr | BAnd | BIn | BInstanceOf | BPowerOf.
Inductive LogicalOperator := LOr | LAnd.                            (* 3661-3670 *)
Inductive UnaryOperator :=                                          (* 3609-3626 *)
| UMinus | UPlus | UNot | UTilde | UTypeOf | UVoid | UDelete.
Inductive UpdateOperator := UIncrement | UDecrement.                (* 3684-3691 *)
Inductive PropertyKind := KGet | KSet | KInit | KMethod | KCtor.    (* 1885-1966 *)

Record TemplateElement :=                                           (* 2704-2719 *)
  mkQuasi { q_raw : text; q_cooked : text; q_tail : bool }.

Inductive ImportSpecifier :=                                        (* 715,725,730 *)
| ISNormal (imported : Identifier) (local : option Identifier)
| ISNamespace (id : Identifier)
| ISDefault (id : Identifier).

Record ExportSpecifier := mkExportSpec { es_local : Identifier; es_exported : option Identifier }. (* 853 *)

Inductive Expr : Type :=
| EArray (elements : list (option Expr))                                       (* 2503 *)
| EArrowFunction (id : option Identifier) (params : list FunctionArg) (body : ArrowFunctionBody)
    (expression generator is_async : bool)                                     (* 3094-3113 *)
| EArrowParamPlaceHolder (params : list FunctionArg) (is_async : bool)         (* 2399.. *)
| EAssignment (operator : AssignmentOperator) (left : AssignmentLeft) (right : Expr) (* 3178 *)
| EAwait (arg : Expr)                                                          (* 3676 *)
| EBinary (operator : BinaryOperator) (left right : Expr)                      (* 3500 *)
| ECall (callee : Expr) (arguments : list Expr)                                (* 3890 *)
| EClass (c : Class)                                                           (* 2359 *)
| EConditional (test alternate consequent : Expr)                              (* 3433 *)
| EFunction (f : Function)                                                     (* 2780 *)
| EIdent (i : Identifier)                                                      (* 2278 *)
| ELiteral (l : Literal)                                                       (* 2296 *)
| ELogical (operator : LogicalOperator) (left right : Expr)                    (* 3491 *)
| EMember (object property : Expr) (computed : bool)                           (* 3798 *)
| EMetaProperty (meta property : Identifier)                                   (* 4029 *)
| ENew (callee : Expr) (arguments : list Expr)                                 (* 4049 *)
| EObject (props : list ObjectProperty)                                        (* 2525 *)
| ESequence (l : list Expr)                                                    (* 1548 *)
| ESpread (e : Expr)                                                           (* 3989 *)
| ESuper                                                                       (* 3834 *)
| ETaggedTemplate (tag : Expr) (quasi : TemplateLiteral)                       (* 3818 *)
| EThis                                                                        (* 2356 *)
| EUnary (operator : UnaryOperator) (prefix : bool) (argument : Expr)          (* 3597 *)
| EUpdate (operator : UpdateOperator) (argument : Expr) (prefix : bool)        (* 3714 *)
| EYield (argument : option Expr) (delegate : bool)                            (* 3407 *)
with AssignmentLeft : Type :=
| ALPat (p : Pat) | ALExpr (e : Expr)                                          (* 3145, 3376 *)
with ArrowFunctionBody : Type :=
| AFBody (body : list ProgramPart) | AFExpr (e : Expr)                         (* 3100, 3112 *)
with Literal : Type :=
| LNull | LString (s : text) | LNumber (s : text) | LBoolean (b : bool)
| LRegEx (pattern flags : text) | LTemplate (t : TemplateLiteral)              (* 2287-2338 *)
with TemplateLiteral : Type :=
| mkTemplate (quasis : list TemplateElement) (expressions : list Expr)         (* 2698 *)
with Function : Type :=
| mkFunction (id : option Identifier) (params : list FunctionArg) (body : list ProgramPart)
    (generator is_async : bool)                                                (* 1745 *)
with FunctionArg : Type :=
| FAExpr (e : Expr) | FAPat (p : Pat)                                          (* 2874, 2404 *)
with Class : Type :=
| mkClass (id : option Identifier) (super_class : option Expr) (body : list Property) (* 1811 *)
with Property : Type :=
| mkProperty (key : PropertyKey) (value : PropertyValue) (kind : PropertyKind)
    (method computed short_hand : bool)                                        (* 1978 *)
with PropertyKey : Type :=
| PKLiteral (l : Literal) | PKExpr (e : Expr) | PKPat (p : Pat)                (* 1989 *)
with PropertyValue : Type :=
| PVExpr (e : Expr) | PVPat (p : Pat) | PVNone                                 (* 2007, 2648 *)
with ObjectProperty : Type :=
| OPProperty (p : Property) | OPSpread (e : Expr)                              (* 2513 *)
with Pat : Type :=
| PIdentifier (i : Identifier)                                                 (* 2953 *)
| PObject (parts : list ObjectPatPart)                                         (* 3003 *)
| PArray (elements : list (option ArrayPatPart))                               (* 2984 *)
| PRestElement (p : Pat)                                                       (* 2887 *)
| PAssignment (left : Pat) (right : Expr)                                      (* 2916 *)
with ArrayPatPart : Type :=
| APPat (p : Pat) | APExpr (e : Expr)                                          (* 2972, 3350 *)
with ObjectPatPart : Type :=
| OPPAssignment (p : Property) | OPPRest (p : Pat)                             (* 3017, 3050 *)
with Stmt : Type :=
| SExpr (e : Expr) | SBlock (b : list ProgramPart) | SEmpty | SDebugger        (* 867-919 *)
| SWith (object : Expr) (body : Stmt)                                          (* 946 *)
| SReturn (e : option Expr)                                                    (* 1148 *)
| SLabeled (label : Identifier) (body : Stmt)                                  (* 1514 *)
| SBreak (l : option Identifier) | SContinue (l : option Identifier)           (* 904 *)
| SIf (test : Expr) (consequent : Stmt) (alternate : option Stmt)              (* 1172 *)
| SSwitch (discriminant : Expr) (cases : list SwitchCase)                      (* 1100 *)
| SThrow (e : Expr)                                                            (* 1070 *)
| STry (block : list ProgramPart) (handler : option CatchClause)
    (finalizer : option (list ProgramPart))                                    (* 1030 *)
| SWhile (test : Expr) (body : Stmt)                                           (* 970 *)
| SDoWhile (test : Expr) (body : Stmt)                                         (* 1438 *)
| SFor (init : option LoopInit) (test update : option Expr) (body : Stmt)      (* 1379 *)
| SForIn (left : LoopLeft) (right : Expr) (body : Stmt)                        (* 1392 *)
| SForOf (left : LoopLeft) (right : Expr) (body : Stmt) (is_await : bool)      (* 1404 *)
| SVar (decls : list VariableDecl)                                             (* 980 *)
with SwitchCase : Type :=
| mkCase (test : option Expr) (consequent : list ProgramPart)                  (* 1126 *)
with CatchClause : Type :=
| mkCatch (param : option Pat) (body : list ProgramPart)                       (* 1053 *)
with LoopInit : Type :=
| LIVariable (kind : VariableKind) (decls : list VariableDecl) | LIExpr (e : Expr) (* 1238 *)
with LoopLeft : Type :=
| LLVariable (kind : VariableKind) (decl : VariableDecl) | LLExpr (e : Expr)   (* 1230 *)
with VariableDecl : Type :=
| mkVarDecl (id : Pat) (init : option Expr)                                    (* 1010 *)
with Decl : Type :=
| DVariable (kind : VariableKind) (decls : list VariableDecl)                  (* 1588 *)
| DFunction (f : Function) | DClass (c : Class)                                (* 582, 587 *)
| DImport (i : ModImport) | DExport (e : ModExport)                            (* 567, 573 *)
with ModImport : Type :=
| mkImport (specifiers : list ImportSpecifier) (source : Literal)              (* 628 *)
with ModExport : Type :=
| MEDefault (d : DefaultExportDecl) | MENamed (d : NamedExportDecl) | MEAll (source : Literal) (* 770-779 *)
with DefaultExportDecl : Type :=
| DEDecl (d : Decl) | DEExpr (e : Expr)                                        (* 742, 753 *)
with NamedExportDecl : Type :=
| NEDecl (d : Decl) | NESpecifier (l : list ExportSpecifier) (source : option Literal) (* 785, 833 *)
with ProgramPart : Type :=
| PPDir (dir : text) (expr : Literal)                                          (* 534 *)
| PPDecl (d : Decl) | PPStmt (s : Stmt).                                       (* 568, 561 *)

Inductive Program := PMod (body : list ProgramPart) | PScript (body : list ProgramPart). (* 505-509 *)
