(** A printer: for a tree, a sequence of tokens that spells it.

    Parentheses are put where the levels of the operators ask for them, around an expression
    statement that would begin like a declaration, a block or a directive, and around a [yield]
    without argument.  Every statement that can end in a semicolon does.  The result says of
    each token what a source has to have there: [fits].  Trees with no spelling (a sequence of
    one expression, a directive after a statement, ...) and trees outside Subset.v have no
    result. *)
From Verif Require Export Subset.
Local Open Scope string_scope.
Local Open Scope nat_scope.
Local Open Scope list_scope.

(** ** Printed tokens *)
Inductive shape :=
| Just (t : token)                (* the token, however it is spelled *)
| Word (t : token) (w : text)     (* the token, spelled [w] *)
| Name (w : text).                (* an identifier or keyword, spelled [w] *)
(** Whether a line terminator stands before the token: that does not matter, there is none,
    there is one. *)
Inductive line := AnyLine | SameLine | NewLine.
Record ptk := mkPtk { p_shape : shape; p_line : line }.
Definition fits (p : ptk) (t : tk) : Prop :=
  (match p_shape p with
   | Just x => k_tok t = x
   | Word x w => k_tok t = x /\ k_text t = w
   | Name w => name_token (k_tok t) /\ k_text t = w
   end) /\ (match p_line p with AnyLine => True | SameLine => k_nl t = false | NewLine => k_nl t = true end).

Definition printed := option (list ptk).
Definition tok (t : token) : printed := Some [mkPtk (Just t) AnyLine].
Definition spelled_as (t : token) (w : text) : printed := Some [mkPtk (Word t w) AnyLine].
Definition named (w : text) : printed := Some [mkPtk (Name w) AnyLine].
Definition only_if (b : bool) : printed := if b then Some [] else None.
Fixpoint cat (l : list printed) : printed :=
  match l with
  | [] => Some []
  | Some p :: r => match cat r with Some q => Some (p ++ q) | None => None end
  | None :: _ => None
  end.
(** The same, on the line of the token before. *)
Definition tight (p : printed) : printed :=
  match p with Some (mkPtk x AnyLine :: r) | Some (mkPtk x SameLine :: r) => Some (mkPtk x SameLine :: r) | _ => None end.
(** The same, on a new line if there is anything. *)
Definition apart (p : printed) : printed :=
  match p with
  | Some (mkPtk x AnyLine :: r) | Some (mkPtk x NewLine :: r) => Some (mkPtk x NewLine :: r)
  | Some [] => Some []
  | _ => None
  end.
Definition head_is (f : token -> bool) (p : list ptk) : bool :=
  match p with mkPtk (Just t) _ :: _ | mkPtk (Word t _) _ :: _ => f t | _ => true end.
(** [p], or [q] when [p] begins with a token of [f]. *)
Definition unless (f : token -> bool) (p q : printed) : printed :=
  match p with Some l => if head_is f l then q else p | None => None end.

(** [p], or [q] when [p] may begin with the word [async]. *)
Definition async_shape (x : shape) : bool :=
  match x with Just TIdent => true | Word TIdent w | Name w => text_eqb w (str "async") | _ => false end.
Definition unless_async (p q : printed) : printed :=
  match p with Some (x :: _) => if async_shape (p_shape x) then q else p | Some [] => q | None => None end.

(** [p], if it does not begin with a token of [f]. *)
Definition unless_first (f : token -> bool) (p : printed) : printed := match p with Some [] => p | _ => unless f p None end.

Notation pun p := (tok (TPunct p)).
Notation key k := (tok (TKeyword k)).
Notation id_ w := (spelled_as TIdent w).

(** ** Operators *)
Definition logical_op (o : LogicalOperator) : token * nat :=
  match o with LOr => (TPunct PLogicalOr, 1) | LAnd => (TPunct PLogicalAnd, 2) end.
Definition binary_op (o : BinaryOperator) : token * nat :=
  match o with
  | BOr => (TPunct PPipe, 3) | BXOr => (TPunct PCaret, 4) | BAnd => (TPunct PAnd, 5)
  | BEqual => (TPunct PEqual, 6) | BNotEqual => (TPunct PNotEqual, 6)
  | BStrictEqual => (TPunct PStrictEquals, 6) | BStrictNotEqual => (TPunct PStrictNotEquals, 6)
  | BLessThan => (TPunct PLessThan, 7) | BGreaterThan => (TPunct PGreaterThan, 7)
  | BLessThanEqual => (TPunct PLessThanEqual, 7) | BGreaterThanEqual => (TPunct PGreaterThanEqual, 7)
  | BInstanceOf => (TKeyword KInstanceOf, 7) | BIn => (TKeyword KIn, 7)
  | BLeftShift => (TPunct PLeftShift, 8) | BRightShift => (TPunct PRightShift, 8)
  | BUnsignedRightShift => (TPunct PUnsignedRightShift, 8)
  | BPlus => (TPunct PPlus, 9) | BMinus => (TPunct PMinus, 9)
  | BTimes => (TPunct PAsterisk, 11) | BOver => (TPunct PForwardSlash, 11) | BMod => (TPunct PModulo, 11)
  | BPowerOf => (TPunct PExponent, 12)
  end.
Definition unary_op (o : UnaryOperator) : token :=
  match o with
  | UMinus => TPunct PMinus | UPlus => TPunct PPlus | UNot => TPunct PNot | UTilde => TPunct PBitwiseNot
  | UTypeOf => TKeyword KTypeOf | UVoid => TKeyword KVoid | UDelete => TKeyword KDelete
  end.
Definition update_op (o : UpdateOperator) : token :=
  match o with UIncrement => TPunct PIncrement | UDecrement => TPunct PDecrement end.
Definition assign_op (o : AssignmentOperator) : token :=
  TPunct match o with
  | AEqual => PAssign | APlusEqual => PAddAssign | AMinusEqual => PSubtractAssign | ATimesEqual => PMultiplyAssign
  | ADivEqual => PDivideAssign | AModEqual => PModuloAssign | ALeftShiftEqual => PLeftShiftAssign
  | ARightShiftEqual => PRightShiftAssign | AUnsignedRightShiftEqual => PUnsignedRightShiftAssign
  | AOrEqual => PBitwiseOrAssign | AXOrEqual => PBitwiseXOrAssign | AAndEqual => PBitwiseAndAssign
  | APowerOfEqual => PExponentAssign
  end.

(** ** Levels (see Subset.v) *)
Definition level (e : Expr) : nat :=
  match e with
  | ESequence _ => 0
  | EAssignment _ _ _ | EArrowFunction _ _ _ _ _ _ | EYield _ _ => 1
  | EConditional _ _ _ => 2
  | ELogical o _ _ => 2 + snd (logical_op o)
  | EBinary o _ _ => 2 + snd (binary_op o)
  | EUnary _ _ _ | EAwait _ => 15
  | EUpdate _ _ _ => 16
  | EFunction (mkFunction _ _ _ _ true) => 16
  | ECall _ _ | ETaggedTemplate _ _ => 17
  | EMember ESuper _ _ => 17
  | EMember _ _ _ => 18
  | _ => 19
  end.
(** The expressions a comma expression consists of. *)
Definition parts (e : Expr) : list Expr := match e with ESequence l => l | _ => [e] end.

(** ** Tokens with parts *)
Fixpoint after_prefix (p w : text) : option text :=
  match p, w with
  | [], _ => Some w
  | a :: p', b :: w' => if N.eqb a b then after_prefix p' w' else None
  | _ :: _, [] => None
  end.
Definition quasi (k : template_kind) (q : TemplateElement) : printed :=
  match q_raw q with
  | c :: r =>
      match after_prefix (q_cooked q) r with
      | Some e =>
          if (len_utf8 c =? 1) && (byte_len e =? match k with THead | TBody => 2 | _ => 1 end)
             && Bool.eqb (q_tail q) (match k with THead | TBody => false | _ => true end)
          then spelled_as (TTemplate k) (q_raw q) else None
      | None => None
      end
  | [] => None
  end.
Definition regex (pattern flags : text) : printed :=
  cat [only_if (negb (existsb (N.eqb 47) flags)); spelled_as TRegEx (47%N :: pattern ++ [47%N] ++ flags)].
Definition is_quote (c : N) : bool := N.eqb c 39 || N.eqb c 34.
Fixpoint strip_quotes (w : text) : text :=
  match w with c :: r => if is_quote c then strip_quotes r else w | [] => [] end.
Definition unquote (w : text) : text := rev (strip_quotes (rev (strip_quotes w))).

(** ** Statements that an [else] would continue *)
Fixpoint open_if (t : Stmt) : bool :=
  match t with
  | SIf _ _ None => true
  | SIf _ _ (Some u) => open_if u
  | SWhile _ u | SWith _ u | SLabeled _ u | SFor _ _ _ u | SForIn _ _ u | SForOf _ _ u _ => open_if u
  | _ => false
  end.

Definition starts_badly (t : token) : bool := not_statement t || is_string t.
(** Tokens the expression of [export default] does not begin with. *)
Definition opens_badly (t : token) : bool := not_statement t || is_punct POpenBracket t.
(** Tokens that go on with a statement on the line before, and semicolons. *)
Definition carries_on (t : token) : bool := negb (follow true 0 [mkTk t [] true]) || is_punct PSemiColon t.
(** Parts of a module that end where the next one begins on a new line. *)
Definition loose (p : ProgramPart) : bool :=
  match p with
  | PPDecl (DExport (MEDefault (DEExpr _))) | PPDecl (DExport (MENamed (NEDecl (DVariable VLet _))))
  | PPDecl (DExport (MENamed (NEDecl (DVariable VConst _)))) => true
  | _ => false
  end.
Definition opens_brace (t : token) : bool := is_punct POpenBrace t.
(** Tokens the argument of [yield] does not begin with: the parser does not take [await] or
    [import] for the beginning of an expression there. *)
Definition opens_yield (t : token) : bool := is_punct POpenBrace t || is_keyword KAwait t || is_keyword KImport t.
Definition declares (t : token) : bool := is_keyword KClass t || is_keyword KFunction t.
Fixpoint split_directives (ps : list ProgramPart) : list ProgramPart * list ProgramPart :=
  match ps with
  | PPDir x w :: r => let '(ds, b) := split_directives r in (PPDir x w :: ds, b)
  | _ => ([], ps)
  end.
(** Names that can be declared, and expressions that can be assigned to. *)
Definition bindable (S : view) (w : text) : bool :=
  negb (text_eqb w (str "await"))
  && (negb (v_strict S) || negb (text_eqb w (str "eval")) && negb (text_eqb w (str "arguments"))).
Definition assignable (S : view) (e : Expr) : bool :=
  negb (v_strict S) || match e with EIdent w => negb (existsb (text_eqb w) reserved_words) | _ => true end.
(** Names that are not taken for the mark of a function. *)
Definition free (w : text) : bool := negb (text_eqb w (str "async")).
Definition free_key (k : PropertyKey) (c : bool) : bool :=
  c || match k with PKExpr (EIdent w) => free w | _ => true end.
Definition not_await (e : Expr) : bool := match e with EIdent w => negb (text_eqb w (str "await")) | _ => true end.
(** [function], or [async function]. *)
Definition mark (a : bool) : printed :=
  if a then cat [id_ (str "async"); tight (key KFunction)] else key KFunction.
Definition is_pattern (e : Expr) : bool := match e with EArray _ | EObject _ => true | _ => false end.
Definition target (S : view) (e : Expr) : bool := is_target e && assignable S e.
(** A member of a class that is not the constructor has [static] before it only where it has to. *)
Definition member_mark (k : PropertyKey) (c : bool) : printed :=
  if negb c && key_named k (str "constructor") then named (str "static") else Some [].

Section Step.
  Variable odd : bool.   (* the scanner objects to the names of functions in strict code *)
  Variable pr : view -> forall c : nt, ty c -> printed.

  Definition paren (S : view) (e : Expr) : printed :=
    match e with
    | ESequence [_] | ESequence [] => None
    | _ => cat [pun POpenParen; pr S NCommas (parts e); pun PCloseParen]
    end.
  Definition template (S : view) (t : TemplateLiteral) : printed :=
    match t with
    | mkTemplate [q] [] => quasi TNoSub q
    | mkTemplate (q :: qs) es => cat [quasi THead q; pr S NQuasis (es, qs)]
    | _ => None
    end.
  Definition literal (S : view) (l : Literal) : printed :=
    match l with
    | LNull => None
    | LString w => spelled_as TString w
    | LNumber w => spelled_as TNumeric w
    | LBoolean b => tok (TBoolean b)
    | LRegEx p f => regex p f
    | LTemplate t => template S t
    end.
  (** Without parentheses; [n] is where it stands, and matters to members only. *)
  Definition bare (S : view) (n : nat) (e : Expr) : printed :=
    let T := if n <=? 16 then in_ true S else S in
    let m := if n =? 18 then 18 else 17 in
    match e with
    | EIdent w => cat [only_if (free w); id_ w]
    | ELiteral l => literal T l
    | EThis => key KThis
    | EArray es => cat [pun POpenBracket; pr T NElems es]
    | EObject ps => cat [pun POpenBrace; pr T NProps ps]
    | EFunction f =>
        match f with mkFunction _ _ _ _ a => cat [mark a; pr T (NFunction false a) f] end
    | EAwait a => cat [only_if (v_await S); key KAwait; pr S (NX 15) a]
    | EClass c => cat [key KClass; pr (strict_ true T) (NClass false) c]
    | ENew c es => cat [key KNew; pr T (NX 18) c; pun POpenParen; pr T NArgs es]
    | EMetaProperty a b =>
        cat [only_if (v_fn S && text_eqb a (str "new") && text_eqb b (str "target"));
             key KNew; pun PPeriod; id_ (str "target")]
    | EMember ESuper (EIdent w) false => cat [only_if (v_fn S); key KSuper; pun PPeriod; named w]
    | EMember ESuper x true => cat [only_if (v_fn S); key KSuper; pun POpenBracket; pr T (NX 0) x; pun PCloseBracket]
    | ECall ESuper es => cat [only_if (v_fn S); key KSuper; pun POpenParen; pr T NArgs es]
    | ECall (EIdent w) es =>
        if text_eqb w (str "import") then
          match es with
          | [a] => cat [spelled_as (TKeyword KImport) w; pun POpenParen; pr T (NX 1) a; pun PCloseParen]
          | _ => None
          end
        else cat [pr T (NX 17) (EIdent w); pun POpenParen; pr T NArgs es]
    | EMember o (EIdent w) false => cat [pr T (NX m) o; pun PPeriod; named w]
    | EMember o x true => cat [pr T (NX m) o; pun POpenBracket; pr T (NX 0) x; pun PCloseBracket]
    | ECall c es => cat [pr T (NX 17) c; pun POpenParen; pr T NArgs es]
    | ETaggedTemplate c t => cat [pr T (NX 17) c; template T t]
    | EUpdate o a true => cat [only_if (target S a); tok (update_op o); pr S (NX 15) a]
    | EUpdate o a false => cat [only_if (target S a); pr (in_ true S) (NX 17) a; tight (tok (update_op o))]
    | EUnary o true a => cat [only_if (negb (v_strict S) || match o with UDelete => negb (is_var a) | _ => true end); tok (unary_op o); pr S (NX 15) a]
    | EBinary BPowerOf a b => cat [pr S (NX 16) a; pun PExponent; pr S (NX 14) b]
    | EBinary o a b => let '(t, p) := binary_op o in cat [pr S (NX (2 + p)) a; tok t; pr S (NX (3 + p)) b]
    | ELogical o a b => let '(t, p) := logical_op o in cat [pr S (NX (2 + p)) a; tok t; pr S (NX (3 + p)) b]
    | EConditional t a c =>
        cat [pr S (NX 3) t; pun PQuestionMark; pr (in_ true S) (NX 1) c; pun PColon; pr S (NX 1) a]
    | EAssignment o (ALExpr a) b =>
        if is_pattern a then
          cat [only_if (match o with AEqual => true | _ => false end); pr (in_ true S) (NTarget false) a; pun PAssign; pr S (NX 1) b]
        else cat [only_if (target S a); pr (in_ true S) (NX 17) a; tok (assign_op o); pr S (NX 1) b]
    | EArrowFunction None ps (AFExpr e) true false a =>
        cat [pr (in_ true S) (NArrowHead a) ps; pun PFatArrow; unless opens_brace (pr S (NX 1) e) (paren (in_ true S) e)]
    | EArrowFunction None ps (AFBody b) false false a =>
        cat [pr (in_ true S) (NArrowHead a) ps; pun PFatArrow; pr (in_ true S) NBody b]
    | EYield (Some e) true =>
        cat [only_if (negb (v_yield S)); key KYield; tight (pun PAsterisk); pr S (NX 1) e]
    | EYield (Some e) false =>
        cat [only_if (negb (v_yield S)); key KYield; tight (unless opens_yield (pr S (NX 1) e) (paren (in_ true S) e))]
    | ESequence (x :: y :: r) => pr S NCommas (x :: y :: r)
    | _ => None
    end.
  (** Does the operator [in] at the top have to be hidden? *)
  Definition hidden_in (S : view) (n : nat) (e : Expr) : bool :=
    match e with EBinary BIn _ _ => (n <=? 16) && negb (v_in S) | _ => false end.
  Definition expr (S : view) (n : nat) (e : Expr) : printed :=
    let T := if n <=? 16 then in_ true S else S in
    match e with
    | EYield None false => cat [only_if (negb (v_yield S)); pun POpenParen; key KYield; pun PCloseParen]
    | _ => if (n <=? level e) && negb (hidden_in S n e) then bare S n e else paren T e
    end.

  Definition prop_key (S : view) (k : PropertyKey) (computed : bool) : printed :=
    if computed then
      let bracket e := cat [pun POpenBracket; pr S (NX 1) e; pun PCloseBracket] in
      match k with
      | PKLiteral (LString w) => bracket (ELiteral (LString w))
      | PKLiteral (LNumber w) => bracket (ELiteral (LNumber w))
      | PKLiteral (LBoolean b) => bracket (ELiteral (LBoolean b))
      | PKExpr (ELiteral (LString _)) | PKExpr (ELiteral (LNumber _)) | PKExpr (ELiteral (LBoolean _)) => None
      | PKExpr e => bracket e
      | _ => None
      end
    else
      match k with
      | PKLiteral (LString w) => cat [only_if (negb (text_eqb w (str "_proto_"))); spelled_as TString w]
      | PKLiteral (LNumber w) => spelled_as TNumeric w
      | PKExpr (EIdent w) => named w
      | _ => None
      end.
  Definition function_parts (S : view) (f : Function) : printed :=
    match f with
    | mkFunction _ ps b gen a =>
        let T := yield_ (negb gen) (await_ a S) in
        cat [pun POpenParen; pr T NParams ps; pr T NBody b]
    end.
  Definition property (S : view) (p : ObjectProperty) : printed :=
    match p with
    | OPSpread e => match e with ESpread x => cat [pun PSpread; pr S (NX 1) x] | _ => None end
    | OPProperty (mkProperty k v kind is_method c short) =>
        match kind, is_method, short with
        | KInit, false, true =>
            match k, v, c with PKExpr (EIdent w), PVNone, false => cat [only_if (free w); id_ w] | _, _, _ => None end
        | KInit, false, false =>
            match v with
            | PVExpr e => cat [only_if (negb (assigns e) && free_key k c); pr S NKey (k, c); pun PColon; pr S (NX 1) e]
            | _ => None
            end
        | KInit, true, false =>
            match v with
            | PVExpr (EFunction (mkFunction None ps b gen false)) =>
                cat [only_if (gen || free_key k c); if gen then pun PAsterisk else Some []; pr S NKey (k, c); pun POpenParen;
                     pr (yield_ gen S) NParams ps; pr (yield_ false S) NBody b]
            | PVExpr (EFunction (mkFunction None ps b false true)) =>
                cat [id_ (str "async"); tight (pr S NKey (k, c)); pun POpenParen;
                     pr (await_ true (yield_ false S)) NParams ps; pr (await_ true (yield_ false S)) NBody b]
            | _ => None
            end
        | KGet, false, false =>
            match v with
            | PVExpr (EFunction (mkFunction None [] b false false)) =>
                cat [id_ (str "get"); pr S NKey (k, c); pun POpenParen; pun PCloseParen; pr S NBody b]
            | _ => None
            end
        | KSet, false, false =>
            match v with
            | PVExpr (EFunction (mkFunction None [FAPat x] b false false)) =>
                cat [id_ (str "set"); pr S NKey (k, c); pun POpenParen; pr (yield_ true S) NPatDefault x; pun PCloseParen;
                     pr S NBody b]
            | _ => None
            end
        | _, _, _ => None
        end
    end.
  Definition class_member (S : view) (p : Property) : printed :=
    match p with
    | mkProperty k v kind is_method c false =>
        match kind, is_method, v with
        | KCtor, true, PVExpr (EFunction (mkFunction None ps b false false)) =>
            cat [only_if (negb c && match k with PKExpr (EIdent w) => text_eqb w (str "constructor") | _ => false end);
                 pr S NKey (k, c); pun POpenParen; pr (yield_ false S) NParams ps; pr (yield_ false S) NBody b]
        | KMethod, true, PVExpr (EFunction (mkFunction None ps b gen false)) =>
            cat [only_if (gen || free_key k c); member_mark k c; if gen then pun PAsterisk else Some []; pr S NKey (k, c); pun POpenParen;
                 pr (yield_ gen S) NParams ps; pr (yield_ false S) NBody b]
        | KMethod, true, PVExpr (EFunction (mkFunction None ps b false true)) =>
            cat [only_if (c || negb (key_named k (str "constructor"))); id_ (str "async"); tight (pr S NKey (k, c)); pun POpenParen;
                 pr (await_ true (yield_ false S)) NParams ps; pr (await_ true (yield_ false S)) NBody b]
        | KGet, false, PVExpr (EFunction (mkFunction None [] b false false)) =>
            cat [only_if (negb (v_yield S) && free_key k c); member_mark k c; id_ (str "get"); pr S NKey (k, c); pun POpenParen; pun PCloseParen;
                 pr S NBody b]
        | KSet, false, PVExpr (EFunction (mkFunction None [FAPat x] b false false)) =>
            cat [only_if (free_key k c); member_mark k c; id_ (str "set"); pr S NKey (k, c); pun POpenParen; pr (yield_ true S) NPatDefault x;
                 pun PCloseParen; pr S NBody b]
        | _, _, _ => None
        end
    | _ => None
    end.
  Definition pat_property (S : view) (p : ObjectPatPart) : printed :=
    match p with
    | OPPAssignment (mkProperty (PKExpr (EIdent w)) PVNone KInit false false true) =>
        cat [only_if (bindable S w); id_ w]
    | OPPAssignment (mkProperty (PKExpr (EIdent w)) (PVExpr e) KInit false false true) =>
        cat [only_if (bindable S w && negb (assigns e)); id_ w; pun PAssign; pr S (NX 1) e]
    | OPPAssignment (mkProperty k (PVPat x) KInit false c false) =>
        cat [only_if (match k with PKExpr (EIdent w) => negb (text_eqb w (str "await")) | _ => true end);
             pr S NKey (k, c); pun PColon; pr S NPatDefault x]
    | _ => None
    end.
  Definition target_property (S : view) (b : bool) (p : ObjectProperty) : printed :=
    match p with
    | OPProperty (mkProperty (PKExpr (EIdent w)) PVNone KInit false false true) => cat [only_if (assignable S (EIdent w) && free w); id_ w]
    | OPProperty (mkProperty (PKExpr (EIdent w)) (PVExpr e) KInit false false true) =>
        cat [only_if (assignable S (EIdent w) && free w); id_ w; pun PAssign; pr S (NX 1) e]
    | OPProperty (mkProperty k (PVExpr e) KInit false c false) => cat [only_if (free_key k c); pr S NKey (k, c); pun PColon; pr S (NTargetElem b) e]
    | _ => None
    end.
  Definition declarators (S : view) (k : VariableKind) (f : bool) (vs : list VariableDecl) : printed :=
    match vs with
    | [] => None
    | [v] => pr S (NVar k f) v
    | v :: r => cat [pr S (NVar k f) v; pun PComma; pr S (NVars k f) r]
    end.
  Definition statement (S : view) (t : Stmt) : printed :=
    match t with
    | SExpr e =>
        let q := paren (in_ true S) e in cat [unless starts_badly (unless_async (pr S (NX 0) e) q) q; pun PSemiColon]
    | SBlock ps => pr S NBlock ps
    | SEmpty => pun PSemiColon
    | SDebugger => cat [key KDebugger; pun PSemiColon]
    | SVar vs => cat [key KVar; pr S (NVars VVar false) vs; pun PSemiColon]
    | SIf e t None => cat [key KIf; pun POpenParen; pr S (NX 0) e; pun PCloseParen; pr S NStmt t]
    | SIf e t (Some u) =>
        cat [only_if (negb (open_if t)); key KIf; pun POpenParen; pr S (NX 0) e; pun PCloseParen; pr S NStmt t;
             key KElse; pr S NStmt u]
    | SWhile e t => cat [key KWhile; pun POpenParen; pr S (NX 0) e; pun PCloseParen; pr S NStmt t]
    | SDoWhile e t =>
        cat [key KDo; pr S NStmt t; key KWhile; pun POpenParen; pr S (NX 0) e; pun PCloseParen; pun PSemiColon]
    | SWith e t => cat [only_if (negb (v_strict S)); key KWith; pun POpenParen; pr S (NX 0) e; pun PCloseParen; pr S NStmt t]
    | SReturn None => cat [only_if (v_fn S); key KReturn; pun PSemiColon]
    | SReturn (Some e) => cat [only_if (v_fn S); key KReturn; tight (pr S (NX 0) e); pun PSemiColon]
    | SThrow e => cat [key KThrow; tight (pr S (NX 0) e); pun PSemiColon]
    | SBreak None => cat [key KBreak; pun PSemiColon]
    | SBreak (Some w) => cat [only_if (negb (text_eqb w (str "await"))); key KBreak; tight (id_ w); pun PSemiColon]
    | SContinue None => cat [key KContinue; pun PSemiColon]
    | SContinue (Some w) => cat [only_if (negb (text_eqb w (str "await"))); key KContinue; tight (id_ w); pun PSemiColon]
    | SLabeled w t =>
        cat [only_if (negb (existsb (text_eqb (str "$" ++ w)) (v_labels S)) && free w); id_ w; pun PColon;
             unless declares (pr (labels_ ((str "$" ++ w) :: v_labels S) S) NStmt t) None]
    | SSwitch e cs =>
        cat [only_if (length (filter is_default cs) <=? 1); key KSwitch; pun POpenParen; pr S (NX 0) e; pun PCloseParen;
             pun POpenBrace; pr S NCases cs; pun PCloseBrace]
    | STry b (Some h) None => cat [key KTry; pr S NBlock b; pr S NHandler h]
    | STry b None (Some f) => cat [key KTry; pr S NBlock b; key KFinally; pr S NBlock f]
    | STry b (Some h) (Some f) => cat [key KTry; pr S NBlock b; pr S NHandler h; key KFinally; pr S NBlock f]
    | SFor i c u t =>
        cat [key KFor; pun POpenParen; pr S NInit i; pun PSemiColon; pr S NOpt c; pun PSemiColon; pr S NOpt u;
             pr S NLoop t]
    | SForIn x e t => cat [key KFor; pun POpenParen; pr S NLeft x; key KIn; pr S (NX 0) e; pr S NLoop t]
    | SForOf x e t false =>
        cat [only_if (negb (assigns e)); key KFor; pun POpenParen; pr S NLeft x; id_ (str "of"); pr S (NX 1) e; pr S NLoop t]
    | SForOf x e t true =>
        cat [only_if (negb (assigns e) && v_await S); key KFor; key KAwait; pun POpenParen; pr S NLeft x; id_ (str "of"); pr S (NX 1) e;
             pr S NLoop t]
    | _ => None
    end.
  Definition import_names (S : view) (ns : list ImportSpecifier) : printed := cat [pun POpenBrace; pr S NImportNames ns].
  Definition imports (S : view) (ns : list ImportSpecifier) : printed :=
    match ns with
    | [ISNamespace w] => cat [only_if (bindable S w); pun PAsterisk; id_ (str "as"); id_ w]
    | [ISDefault v; ISNamespace w] =>
        cat [only_if (bindable S v && bindable S w); id_ v; pun PComma; pun PAsterisk; id_ (str "as"); id_ w]
    | [ISDefault v] => cat [only_if (bindable S v); id_ v]
    | ISDefault v :: r => cat [only_if (bindable S v); id_ v; pun PComma; import_names S r]
    | _ => import_names S ns
    end.
  Definition module_item (S : view) (p : ProgramPart) : printed :=
    match p with
    | PPDecl (DImport (mkImport ns (LString w))) =>
        match ns with
        | [] => cat [key KImport; spelled_as TString w; pun PSemiColon]
        | _ => cat [key KImport; pr S NImports ns; id_ (str "from"); spelled_as TString w; pun PSemiColon]
        end
    | PPDecl (DExport (MEDefault (DEExpr e))) =>
        match e with
        | EObject ps => cat [key KExport; key KDefault; pun POpenBrace; pr S NProps ps]
        | EArray es => cat [key KExport; key KDefault; pun POpenBracket; pr S NElems es]
        | _ =>
            let q := paren (in_ true S) e in cat [key KExport; key KDefault; unless opens_badly (unless_async (pr S (NX 1) e) q) q]
        end
    | PPDecl (DExport (MEDefault (DEDecl (DFunction (mkFunction (Some w) ps b gen a))))) =>
        cat [key KExport; key KDefault; mark a; pr S (NFunction true a) (mkFunction (Some w) ps b gen a)]
    | PPDecl (DExport (MEDefault (DEDecl (DFunction (mkFunction None ps b gen a))))) =>
        cat [only_if (negb (a && gen)); key KExport; key KDefault; mark a; if gen then pun PAsterisk else Some [];
             function_parts S (mkFunction None ps b gen a)]
    | PPDecl (DExport (MEDefault (DEDecl (DClass c)))) =>
        cat [key KExport; key KDefault; key KClass; pr (strict_ true S) (NClass false) c]
    | PPDecl (DExport (MEAll (LString w))) =>
        cat [key KExport; pun PAsterisk; id_ (str "from"); spelled_as TString w; pun PSemiColon]
    | PPDecl (DExport (MENamed (NEDecl (DVariable VLet vs)))) => cat [key KExport; key KLet; pr S (NVars VLet false) vs; pun PSemiColon]
    | PPDecl (DExport (MENamed (NEDecl (DVariable VConst vs)))) => cat [key KExport; key KConst; pr S (NVars VConst false) vs; pun PSemiColon]
    | PPDecl (DExport (MENamed (NEDecl (DVariable VVar vs)))) => cat [key KExport; key KVar; pr S (NVars VVar false) vs; pun PSemiColon]
    | PPDecl (DExport (MENamed (NEDecl (DFunction (mkFunction i ps b gen a))))) =>
        cat [key KExport; mark a; pr S (NFunction true a) (mkFunction i ps b gen a)]
    | PPDecl (DExport (MENamed (NEDecl (DClass (mkClass (Some w) h ms))))) =>
        cat [key KExport; key KClass; pr (strict_ true S) (NClass false) (mkClass (Some w) h ms)]
    | PPDecl (DExport (MENamed (NESpecifier ns None))) => cat [key KExport; pun POpenBrace; pr S (NExportNames false) ns; pun PSemiColon]
    | PPDecl (DExport (MENamed (NESpecifier ns (Some (LString w))))) =>
        cat [key KExport; pun POpenBrace; pr S (NExportNames true) ns; id_ (str "from"); spelled_as TString w; pun PSemiColon]
    | PPDecl (DImport _) | PPDecl (DExport _) => None
    | _ => pr S NItem p
    end.

  Definition step (S : view) (c : nt) : ty c -> printed :=
    match c with
    | NX n => fun e => if n <=? 19 then expr S n e else None
    | NCommas => fun es =>
        match es with
        | [] => None
        | [e] => pr S (NX 1) e
        | e :: r => cat [pr S (NX 1) e; pun PComma; pr S NCommas r]
        end
    | NArg => fun e => match e with ESpread x => cat [pun PSpread; pr S (NX 1) x] | _ => pr S (NX 1) e end
    | NArgs => fun es =>
        match es with
        | [] => pun PCloseParen
        | [e] => cat [pr S NArg e; pun PCloseParen]
        | e :: r => cat [pr S NArg e; pun PComma; pr S NArgs r]
        end
    | NElems => fun es =>
        match es with
        | [] => pun PCloseBracket
        | [Some e] => cat [pr S NArg e; pun PCloseBracket]
        | Some e :: r => cat [pr S NArg e; pun PComma; pr S NElems r]
        | None :: r => cat [pun PComma; pr S NElems r]
        end
    | NProps => fun ps =>
        match ps with
        | [] => pun PCloseBrace
        | [p] => cat [pr S NProp p; pun PCloseBrace]
        | p :: r => cat [pr S NProp p; pun PComma; pr S NProps r]
        end
    | NProp => property S
    | NKey => fun k => prop_key S (fst k) (snd k)
    | NQuasis => fun p =>
        match p with
        | ([e], [q]) => cat [pr S (NX 0) e; quasi TTail q]
        | (e :: es, q :: qs) => cat [pr S (NX 0) e; quasi TBody q; pr S NQuasis (es, qs)]
        | _ => None
        end
    | NParam => fun a =>
        match a with FAPat (PRestElement x) => cat [pun PSpread; pr S NPat x] | FAPat x => pr S NPatDefault x | _ => None end
    | NParams => fun ps =>
        match ps with
        | [] => pun PCloseParen
        | [a] => cat [pr S NParam a; pun PCloseParen]
        | FAPat (PRestElement _) :: _ => None
        | a :: r => cat [pr S NParam a; pun PComma; pr S NParams r]
        end
    | NPat => fun x =>
        match x with
        | PIdentifier w => cat [only_if (bindable S w); id_ w]
        | PArray es => cat [pun POpenBracket; pr S NPatElems es]
        | PObject ps => cat [pun POpenBrace; pr S NPatProps ps]
        | _ => None
        end
    | NPatDefault => fun x =>
        match x with
        | PAssignment y e => cat [pr S NPat y; pun PAssign; pr (yield_ true S) (NX 1) e]
        | _ => pr S NPat x
        end
    | NPatElems => fun es =>
        match es with
        | [] => pun PCloseBracket
        | [Some (APPat x)] => cat [pr S NPatDefault x; pun PCloseBracket]
        | Some (APPat x) :: r => cat [pr S NPatDefault x; pun PComma; pr S NPatElems r]
        | None :: r => cat [pun PComma; pr S NPatElems r]
        | _ => None
        end
    | NPatProps => fun ps =>
        match ps with
        | [] => pun PCloseBrace
        | [OPPRest (PRestElement x)] => cat [pun PSpread; pr S NPat x; pun PCloseBrace]
        | [p] => cat [pr S NPatProp p; pun PCloseBrace]
        | p :: r => cat [pr S NPatProp p; pun PComma; pr S NPatProps r]
        end
    | NPatProp => pat_property S
    | NBody => fun ps =>
        cat [pun POpenBrace; pr S NDirectives (fst (split_directives ps));
             pr (fn_ true (labels_ [] S)) NItems (snd (split_directives ps)); pun PCloseBrace]
    | NDirectives => fun ds =>
        match ds with
        | [] => Some []
        | PPDir x (LString w) :: r =>
            cat [only_if (text_eqb x (unquote w) && negb (text_eqb w (str "use strict"))); spelled_as TString w;
                 pun PSemiColon; pr S NDirectives r]
        | _ => None
        end
    | NItems => fun ps => match ps with [] => Some [] | p :: r => cat [pr S NItem p; pr S NItems r] end
    | NItem => fun p =>
        match p with
        | PPStmt (SExpr (EFunction (mkFunction (Some w) ps b false true))) =>
            cat [mark true; pr S (NFunction true true) (mkFunction (Some w) ps b false true)]
        | PPStmt t => pr S NStmt t
        | PPDecl (DVariable VLet vs) => cat [key KLet; pr S (NVars VLet false) vs; pun PSemiColon]
        | PPDecl (DVariable VConst vs) => cat [key KConst; pr S (NVars VConst false) vs; pun PSemiColon]
        | PPDecl (DFunction f) => cat [key KFunction; pr S (NFunction true false) f]
        | PPDecl (DClass c) => cat [key KClass; pr (strict_ true S) (NClass true) c]
        | _ => None
        end
    | NStmt => statement S
    | NBlock => fun ps => cat [pun POpenBrace; pr S NItems ps; pun PCloseBrace]
    | NVar k _ => fun v =>
        match v with
        | mkVarDecl (PIdentifier w) None => cat [only_if (bindable S w && match k with VConst => false | _ => true end); id_ w]
        | mkVarDecl x (Some e) => cat [pr S NPat x; pun PAssign; pr S (NX 1) e]
        | _ => None
        end
    | NVars k f => declarators S k f
    | NCase => fun c =>
        match c with
        | mkCase (Some e) ps => cat [key KCase; pr S (NX 0) e; pun PColon; pr S NItems ps]
        | mkCase None ps => cat [key KDefault; pun PColon; pr S NItems ps]
        end
    | NCases => fun cs => match cs with [] => Some [] | c :: r => cat [pr S NCase c; pr S NCases r] end
    | NFunction named a => fun f =>
        match f with
        | mkFunction i _ _ gen a' =>
            cat [only_if (Bool.eqb a a' && negb (named && a && gen)); if gen then pun PAsterisk else Some [];
                 match i with Some w => cat [only_if (bindable S w && (negb (v_strict S) || negb odd)); id_ w] | None => only_if (negb named) end;
                 function_parts S f]
        end
    | NTarget b => fun e =>
        match e with
        | EArray es => cat [pun POpenBracket; pr S (NTargetElems b) es]
        | EObject ps => cat [pun POpenBrace; pr S (NTargetProps b) ps]
        | _ => None
        end
    | NTargetBase b => fun e =>
        if is_pattern e then pr S (NTarget b) e
        else match e with
             | EIdent w => cat [only_if (assignable S (EIdent w) && free w); id_ w]
             | _ => cat [only_if (negb b && target S e); pr S (NX 17) e]
             end
    | NTargetElem b => fun e =>
        match e with
        | EAssignment AEqual (ALExpr a) d => cat [pr S (NTargetBase b) a; pun PAssign; pr S (NX 1) d]
        | _ => pr S (NTargetBase b) e
        end
    | NTargetElems b => fun es =>
        match es with
        | [] => pun PCloseBracket
        | [Some (ESpread e)] => cat [pun PSpread; pr S (NTargetBase b) e; pun PCloseBracket]
        | [Some e] => cat [pr S (NTargetElem b) e; pun PCloseBracket]
        | Some e :: r => cat [pr S (NTargetElem b) e; pun PComma; pr S (NTargetElems b) r]
        | None :: r => cat [pun PComma; pr S (NTargetElems b) r]
        end
    | NTargetProps b => fun ps =>
        match ps with
        | [] => pun PCloseBrace
        | [OPSpread (ESpread e)] => cat [only_if (is_target e); pun PSpread; pr S (NTargetBase b) e; pun PCloseBrace]
        | [p] => cat [pr S (NTargetProp b) p; pun PCloseBrace]
        | p :: r => cat [pr S (NTargetProp b) p; pun PComma; pr S (NTargetProps b) r]
        end
    | NTargetProp b => target_property S b
    | NArrowArg => fun e =>
        match e with
        | EArray _ | EObject _ => pr S (NTarget true) e
        | EAssignment AEqual (ALExpr (EArray es)) e => cat [only_if (negb (is_yield e)); pr S (NTarget true) (EArray es); pun PAssign; pr S (NX 1) e]
        | EAssignment AEqual (ALExpr (EObject ps)) e => cat [only_if (negb (is_yield e)); pr S (NTarget true) (EObject ps); pun PAssign; pr S (NX 1) e]
        | EIdent w => cat [only_if (free w); id_ w]
        | EAssignment AEqual (ALExpr (EIdent w)) e => cat [only_if (negb (is_yield e) && assignable S (EIdent w) && free w); id_ w; pun PAssign; pr S (NX 1) e]
        | _ => None
        end
    | NArrow => fun ps =>
        match ps with
        | [] => pun PCloseParen
        | [FAPat (PRestElement x)] => cat [pun PSpread; pr S NPat x; pun PCloseParen]
        | [FAExpr e] => cat [pr S NArrowArg e; pun PCloseParen]
        | FAExpr e :: r => cat [pr S NArrowArg e; pun PComma; pr S NArrow r]
        | _ => None
        end
    | NArrowAsync => fun ps =>
        match ps with
        | [] => pun PCloseParen
        | [FAExpr (ESpread e)] => cat [pun PSpread; pr S (NTargetBase true) e; pun PCloseParen]
        | [FAExpr e] => cat [only_if (not_await e); pr S NArrowArg e; pun PCloseParen]
        | FAExpr e :: r => cat [only_if (not_await e); pr S NArrowArg e; pun PComma; pr S NArrowAsync r]
        | _ => None
        end
    | NArrowHead false => fun ps => cat [pun POpenParen; pr S NArrow ps]
    | NArrowHead true => fun ps =>
        match ps with
        | [FAPat (PIdentifier w)] => cat [only_if (free w && not_await (EIdent w)); id_ (str "async"); tight (id_ w)]
        | _ => cat [id_ (str "async"); tight (pun POpenParen); pr S NArrowAsync ps]
        end
    | NInit => fun i =>
        match i with
        | None => Some []
        | Some (LIVariable VVar vs) => cat [key KVar; pr (in_ false S) (NVars VVar true) vs]
        | Some (LIVariable VLet vs) => cat [key KLet; pr (in_ false S) (NVars VLet true) vs]
        | Some (LIVariable VConst vs) => cat [key KConst; pr (in_ false S) (NVars VConst true) vs]
        | Some (LIExpr (ESequence [])) | Some (LIExpr (ESequence [_])) => None
        | Some (LIExpr e) => pr (in_ false S) NCommas (parts e)
        end
    | NLeft => fun x =>
        match x with
        | LLVariable VVar (mkVarDecl p None) => cat [key KVar; pr (in_ false S) NPat p]
        | LLVariable VLet (mkVarDecl p None) => cat [key KLet; pr (in_ false S) NPat p]
        | LLVariable VConst (mkVarDecl p None) => cat [key KConst; pr (in_ false S) NPat p]
        | LLExpr (EArray es) => pr S (NTarget false) (EArray es)
        | LLExpr (EObject ps) => pr S (NTarget false) (EObject ps)
        | LLExpr e => cat [only_if (is_target e); pr S (NX 17) e]
        | _ => None
        end
    | NOpt => fun o => match o with None => Some [] | Some e => pr S (NX 0) e end
    | NLoop => fun t => cat [pun PCloseParen; pr S NStmt t]
    | NHandler => fun h =>
        match h with
        | mkCatch (Some x) b => cat [key KCatch; pun POpenParen; pr S NPat x; pun PCloseParen; pr S NBlock b]
        | mkCatch None b => cat [key KCatch; pr S NBlock b]
        end
    | NClass named => fun c =>
        match c with
        | mkClass None None ms =>
            cat [only_if (negb named && v_strict S && (length (filter is_ctor ms) <=? 1)); pun POpenBrace; pr S NMembers ms]
        | mkClass (Some w) h ms =>
            cat [only_if (bindable S w && negb (text_eqb w (str "extends")) && v_strict S && (length (filter is_ctor ms) <=? 1));
                 id_ w; pr S NHeritage h; pun POpenBrace; pr S NMembers ms]
        | _ => None
        end
    | NHeritage => fun h =>
        match h with
        | None => Some []
        | Some e => cat [spelled_as (TKeyword KExtends) (str "extends"); pr S (NX 18) e]
        end
    | NMembers => fun ms =>
        match ms with [] => pun PCloseBrace | m :: r => cat [pr S NMember m; pr S NMembers r] end
    | NMember => class_member S
    | NModule => fun ps =>
        match ps with
        | [] => Some []
        | p :: r => cat [pr S NModItem p; if loose p then apart (unless_first carries_on (pr S NModule r)) else pr S NModule r]
        end
    | NModItem => module_item S
    | NImports => imports S
    | NImportNames => fun ns =>
        match ns with
        | [] => pun PCloseBrace
        | [n] => cat [pr S NImportName n; pun PCloseBrace]
        | n :: r => cat [pr S NImportName n; pun PComma; pr S NImportNames r]
        end
    | NImportName => fun n =>
        match n with
        | ISNormal w None => cat [only_if (bindable S w); id_ w]
        | ISNormal w (Some v) => cat [only_if (bindable S v && negb (text_eqb w (str "await"))); named w; id_ (str "as"); id_ v]
        | _ => None
        end
    | NExportNames f => fun ns =>
        match ns with
        | [] => pun PCloseBrace
        | [n] => cat [pr S (NExportName f) n; pun PCloseBrace]
        | n :: r => cat [pr S (NExportName f) n; pun PComma; pr S (NExportNames f) r]
        end
    | NExportName f => fun n =>
        match n with
        | mkExportSpec w None => if f then named w else id_ w
        | mkExportSpec w (Some v) => cat [if f then named w else id_ w; id_ (str "as"); named v]
        end
    end.
End Step.

(** [n] bounds the depth of the tree. *)
Fixpoint print (odd : bool) (n : nat) (S : view) (c : nt) : ty c -> printed :=
  match n with
  | 0 => fun _ => None
  | Datatypes.S n => step odd (print odd n) S c
  end.

(** A program: directives, then items. *)
Definition print_program (odd module : bool) (n : nat) (ps : list ProgramPart) : printed :=
  let '(ds, b) := split_directives ps in
  cat [print odd n top_view NDirectives ds; if module then print odd n top_view NModule b else print odd n top_view NItems b; tok TEoF].
(** An expression and the end of the text. *)
Definition print_expression (odd : bool) (n : nat) (e : Expr) : printed := cat [print odd n start_view (NX 0) e; tok TEoF].
