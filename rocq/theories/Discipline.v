(** The discipline every returned tree obeys, as one inductive predicate over nodes: a local
    condition at each node, relative to what lies above it. *)
From Verif Require Export Tree.
Export Parser.

(** What lies above a node: a function body, an async function, a generator function or
    method, the labels declared since the last function body, a class. *)
Record env := mkEnv {
  e_fn : bool; e_async : bool; e_gen : bool; e_labels : list text; e_class : bool }.
Definition env0 : env := mkEnv false false false [] false.
Definition env_top : env := mkEnv true true true [] false.

Definition enter (e : env) (n : node) : env :=
  match n with
  | NBody _ => mkEnv true (e_async e) (e_gen e) [] (e_class e)
  | NFunction (mkFunction _ _ _ gen async) =>
      mkEnv (e_fn e) (async || e_async e) (gen || e_gen e) (e_labels e) (e_class e)
  | NMethod _ => mkEnv (e_fn e) (e_async e) true (e_labels e) (e_class e)
  | NStmt (SLabeled l _) => mkEnv (e_fn e) (e_async e) (e_gen e) (l :: e_labels e) (e_class e)
  | NClass _ => mkEnv (e_fn e) (e_async e) (e_gen e) (e_labels e) true
  | _ => e
  end.

Definition is_dir (p : ProgramPart) : bool := match p with PPDir _ _ => true | _ => false end.
Definition undirected (l : list ProgramPart) : Prop := forall p, In p l -> is_dir p = false.
Definition prop_kind (p : Property) : PropertyKind := match p with mkProperty _ _ k _ _ _ => k end.
Definition is_ctor (p : Property) : bool := match prop_kind p with KCtor => true | _ => false end.
Definition is_default (c : SwitchCase) : bool := match c with mkCase None _ => true | _ => false end.
Definition count {A} (f : A -> bool) (l : list A) : nat := length (filter f l).
Definition decl_init (d : VariableDecl) : option Expr := match d with mkVarDecl _ i => i end.
Definition decl_pat (d : VariableDecl) : Pat := match d with mkVarDecl p _ => p end.

(** Expressions that cannot be assigned to (functions are missing from this list: see
    Properties5). *)
Definition target_ok (e : Expr) : bool :=
  match e with
  | ELiteral (LNumber _) | ELiteral (LString _) | ELiteral (LBoolean _) | ELiteral (LRegEx _ _)
  | EClass _ | ECall _ _ | ENew _ _ | EUpdate _ _ _ | EUnary _ _ _ | EBinary _ _ _
  | ELogical _ _ _ | EConditional _ _ _ => false
  | _ => true
  end.

Definition named (k : PropertyKey) (w : string) : Prop :=
  k = PKExpr (EIdent (str w)) \/ k = PKLiteral (LString (str w)) \/ k = PKPat (PIdentifier (str w)).

Definition normal_spec (i : ImportSpecifier) : Prop := exists a b, i = ISNormal a b.
Definition import_shape (l : list ImportSpecifier) : Prop :=
  (exists d, l = [ISDefault d])
  \/ (exists d n, l = [ISDefault d; ISNamespace n])
  \/ (exists d l', l = ISDefault d :: l' /\ Forall normal_spec l')
  \/ (exists n, l = [ISNamespace n])
  \/ Forall normal_spec l.

Definition quote (c : N) : Prop := c = 39%N \/ c = 34%N.
(** [d] is [s] without the quote characters at its ends. *)
Definition unquoted (d s : text) : Prop :=
  exists a b, s = a ++ d ++ b /\ Forall quote a /\ Forall quote b
    /\ (forall c d', d = c :: d' -> ~ quote c) /\ (forall d' c, d = d' ++ [c] -> ~ quote c).

Definition rest_last (ps : list FunctionArg) : Prop :=
  forall l a l', ps = l ++ a :: l' -> is_rest a = true -> l' = [].

Section Discipline.
  Variable g : cfg.
  Variable items : list raw.
  (** [true] to speak of texts without a token spelled [get] *)
  Variable ng : bool.
  Notation js := (g_stream g).
  Notation inp := (input_item items).

  Definition name_ok (w : text) : Prop :=
    exists i, inp i /\ (w = text_of js i \/ exists k, it_tok i = TKeyword k /\ w = kw_text k).
  Definition verbatim (t : token) (w : text) : Prop := exists i, inp i /\ it_tok i = t /\ w = text_of js i.
  Definition in_or_of (i : item) : Prop := is_keyword KIn (it_tok i) = true \/ text_of js i = str "of".

  (** The parts of a template or regular-expression token. *)
  Definition quasi_ok (q : TemplateElement) : Prop :=
    exists k d e, verbatim (TTemplate k) (q_raw q) /\ q_raw q = d :: q_cooked q ++ e
      /\ len_utf8 d = 1
      /\ match k with
         | THead | TBody => byte_len e = 2 /\ q_tail q = false
         | TTail | TNoSub => byte_len e = 1 /\ q_tail q = true
         end.
  Definition regex_ok (p f : text) : Prop :=
    exists d, len_utf8 d = 1 /\ verbatim TRegEx (d :: p ++ [47%N] ++ f) /\ ~ In 47%N f.

  Definition pat_init (d : VariableDecl) : Prop :=
    is_pat_ident (decl_pat d) = false -> decl_init d <> None.
  Definition const_init (ds : list VariableDecl) : Prop :=
    forall l d l', ds = l ++ d :: l' -> decl_init d = None ->
      exists i, inp i /\ in_or_of i /\ (l' = [] \/ is_punct PComma (it_tok i) = true).

  Definition is_fn (v : PropertyValue) (gen : bool) (P : list FunctionArg -> Prop) : Prop :=
    exists ps b a, v = PVExpr (EFunction (mkFunction None ps b gen a)) /\ P ps.

  Definition local (e : env) (n : node) : Prop :=
    match n with
    | NName w => name_ok w
    | NLit l =>
        match l with
        | LString s => verbatim TString s
        | LNumber s => verbatim TNumeric s
        | LBoolean b => exists i, inp i /\ it_tok i = TBoolean b
        | LRegEx p f => regex_ok p f
        | LNull => False
        | LTemplate _ => True
        end
    | NQuasi q => quasi_ok q
    | NTemplate (mkTemplate qs es) =>
        length qs = S (length es) /\
        (forall l q l', qs = l ++ q :: l' -> q_tail q = match l' with [] => true | _ => false end)
    | NExpr x =>
        match x with
        | ESuper | EMetaProperty _ _ => e_fn e = true
        | EAwait _ => e_async e = true
        | EYield _ _ => (ng = true -> e_gen e = true) /\ exists i, inp i /\ it_tok i = TKeyword KYield
        | EAssignment _ l _ =>
            match l with
            | ALExpr x => g_tolerant g = false -> target_ok x = true
            | ALPat _ => False
            end
        | EUpdate _ x _ => g_tolerant g = false -> target_ok x = true
        | EUnary UDelete _ (EIdent _) => g_tolerant g = false -> e_class e = false
        | _ => True
        end
    | NFunction (mkFunction _ ps _ _ _) => rest_last ps
    | NClass (mkClass _ _ b) => count is_ctor b <= 1
    | NProperty (mkProperty k v kind m computed _) =>
        match kind with
        | KGet => is_fn v false (fun ps => g_tolerant g = false -> ps = [])
        | KSet => is_fn v false (fun ps => g_tolerant g = false -> exists p, ps = [p] /\ is_rest p = false)
        | KCtor => computed = false /\ named k "constructor" /\ is_fn v false (fun _ => True)
        | KMethod => exists gen, is_fn v gen (fun _ => True)
        | KInit => m = true -> exists gen, is_fn v gen (fun _ => True)
        end
    | NStmt x =>
        match x with
        | SReturn _ => e_fn e = true
        | SLabeled l _ => ~ In l (e_labels e)
        | SWith _ _ => g_tolerant g = false -> e_class e = false
        | SSwitch _ cs => count is_default cs <= 1
        | SBlock b => undirected b
        | STry b _ f => undirected b /\ match f with Some b => undirected b | None => True end
        | SVar ds => Forall pat_init ds
        | _ => True
        end
    | NCase (mkCase _ l) => undirected l
    | NCatch (mkCatch _ b) => undirected b
    | NDecl (DVariable k ds) => match k with VConst => const_init ds | _ => Forall pat_init ds end
    | NImport (mkImport l src) => import_shape l /\ exists w, src = LString w
    | NPart (PPDir d l) => exists s, l = LString s /\ unquoted d s
    | _ => True
    end.

  Inductive ok : env -> node -> Prop :=
  | ok_node : forall e n, local e n -> Forall (ok (enter e n)) (children n) -> ok e n.

  Lemma ok_local e n : ok e n -> local e n.
  Proof. intros H. inversion H. assumption. Qed.
  Lemma ok_children e n : ok e n -> Forall (ok (enter e n)) (children n).
  Proof. intros H. inversion H. assumption. Qed.

  Lemma ok_inside r above n : inside r above n -> forall e, ok e r -> ok (fold_left enter above e) n.
  Proof.
    induction 1 as [n|r k above n Hk Hin IH]; intros e H; cbn [fold_left]; auto.
    apply IH. apply ok_children in H. rewrite Forall_forall in H. apply H. exact Hk.
  Qed.
End Discipline.
