(** Every tree the parser builds obeys the discipline of Discipline.v, and every construct
    leaves the context as it found it: one pass over all the functions of Parser.v. *)
From Verif Require Export Discipline.
Export Parser.

Lemma next_item_ctx g s : st_ctx (snd (next_item g s)) = st_ctx s.
Proof.
  unfold next_item. generalize (it_start (st_look s), it_end (st_look s)).
  generalize (st_rest s) at 1. intros l. revert s.
  induction l as [|r l IH]; intros s sp; cbn [next_item_loop].
  - destruct (is_eof _); [destruct (st_found_eof s)|]; reflexivity.
  - destruct (update_positions _ _ _ _ _) as [[? ?]|]; [|reflexivity].
    destruct (it_tok (r_item r)) eqn:Ht; try reflexivity.
    destruct (slice _ _ _); [|reflexivity]. rewrite IH. reflexivity.
Qed.

(** The part of the context that matters.  With [ng = false] the flag for [yield] is ignored. *)
Record core := mkCore {
  k_fn : bool; k_await : bool; k_yield : bool; k_labels : list text; k_strict : bool;
  k_in : bool; k_iter : bool; k_switch : bool; k_past : bool }.
Definition tgt (s : state) : bool := c_assign_target (st_ctx s).

Section PassC.
  Variable g : cfg.
  Variable items : list raw.
  Variable ng : bool.
  Notation js := (g_stream g).
  Notation inp := (input_item items).
  Notation okn := (ok g items ng).
  Definition classy : Prop := exists i, inp i /\ it_tok i = TKeyword KClass.

  Definition core_of (c : ctx) : core :=
    mkCore (c_in_function_body c) (c_await c) (negb ng || c_allow_yield c) (c_label_set c) (c_strict c)
           (c_allow_in c) (c_in_iteration c) (c_in_switch c) (c_past_prolog c).
  Definition embed (k : core) : ctx :=
    mkCtx (k_in k) true (k_yield k) (k_await k) None false false (k_fn k) (k_iter k) (k_switch k)
          (k_labels k) (k_strict k) (k_past k).

  Definition covers (e : env) (k : core) : Prop :=
    (k_fn k = true -> e_fn e = true) /\ (k_await k = true -> e_async e = true)
    /\ (k_yield k = false -> e_gen e = true)
    /\ (forall l, In l (e_labels e) -> In (label_key l) (k_labels k))
    /\ (g_tolerant g = false -> e_class e = true -> k_strict k = true).

  Definition tree (k : core) (l : list node) : Prop := forall e, covers e k -> Forall (okn e) l.

  Definition invC (s : state) (k : core) : Prop := invB g items s /\ core_of (st_ctx s) = k.

  Definition nodes {B} (c : call B) : B -> list node :=
    match c in call B return B -> list node with
    | CNextPart | CDirective | CStatementListItem => fun p => [NPart p]
    | CDirectivePrologues | CFinallyClause | CBlock => fun l => map NPart l
    | CImportDecl => fun i => [NImport i]
    | CNamedImports => fun l => flat_map import_names l
    | CImportSpecifier | CImportNamespaceSpecifier | CImportDefaultSpecifier => import_names
    | CExportDecl => fun e => [NExport e]
    | CExportSpecifier => export_names
    | CModuleSpecifier => fun l => [NLit l]
    | CStatement | CWithStmt | CWhileStmt | CVarStmt | CTryStmt | CSwitchStmt | CIfStmt | CIfClause
    | CForStmt | CForLoop _ | CForLoopCont _ | CForInLoop _ | CForOfLoop _ _ | CLoopBody | CDoWhileStmt
    | CDebuggerStmt | CLabelledStatement => fun s => [NStmt s]
    | CVarDeclList _ | CBindingList _ _ | CVariableDeclList _ => fun l => map NVarDecl l
    | CVarDecl _ | CVariableDecl _ | CLexicalBinding _ _ => fun d => [NVarDecl d]
    | CCatchClause => fun c => [NCatch c]
    | CThrowStmt | CFnStmt | CExpressionStatement | CExpression => fun e => [NExpr e]
    | CSwitchCase => fun c => [NCase c]
    | CReturnStmt => opt NExpr
    | CBreakStmt | CContinueStmt | COptionallyLabeled _ => opt NName
    | CLexicalDecl _ => fun d => [NDecl d]
    | CFunctionDecl _ => fun f => [NFunction f]
    | CFunctionSourceEl => fun b => [NBody b]
    | CClassDecl _ => fun c => [NClass c]
    | CClassBody => map NProperty
    | CClassEl _ => fun r => [NProperty (snd r)]
    | CAsyncPropertyMethod | CPropertyMethod | CGeneratorMethod | CGetterMethod | CSetterMethod =>
        fun v => [NMethod v]
    | CMethodBody _ _ | CPropertyMethodBody _ _ => fun b => [NBody b]
    | CObjectPropertyKey => fun k => [NKey k]
    | CObjProp _ => fun r => [NObjProp (snd r)]
    | CTemplateLiteral => fun t => [NTemplate t]
    | CTemplateElement => fun q => [NQuasi q]
    | CFnName _ | CIdentName | CVarIdent _ => fun i => [NName i]
    | CFormalParams => fun fp => map NArg (fp_params fp)
    | CFormalParam _ => fun r => [NArg (snd r)]
    | CRestElement | CBindingRestEl | CPatternWithDefault | CPattern _ | CArrayPattern | CObjectPattern =>
        fun r => [NPat (snd r)]
    | CRestProp | CPropertyPattern => fun p => [NObjPart p]
    | CPrimaryExpression | CGroupExpr | CArrayInit | CObjInit | CFunctionExpr
    | CAssignmentExpr | CYieldExpr | CConditionalExpr | CBinaryExpression | CExponentiation
    | CUnaryExpression | CAwaitExpr | CUpdateExpr | CLeftHandSideExpr | CSuper
    | CLeftHandSideExprAllowCall | CAsyncArg | CSpreadElement | CNewExpr => fun e => [NExpr e]
    | CAsyncArgs | CArgs => map NExpr
    | CConsumeSemicolon => fun _ => []
    end.

  Definition argn {B} (c : call B) : list node :=
    match c with
    | CForLoopCont (Some i) => init_nodes i
    | CForInLoop l | CForOfLoop l _ => left_nodes l
    | _ => []
    end.

  Definition kp {B} (c : call B) : B -> core -> core :=
    match c in call B return B -> core -> core with
    | CNextPart => fun p k => mkCore (k_fn k) (k_await k) (k_yield k) (k_labels k) (k_strict k) (k_in k)
                                (k_iter k) (k_switch k) (negb (is_dir p))
    | _ => fun _ k => k
    end.

  Definition not_restp (p : Pat) : Prop := match p with PRestElement _ => False | _ => True end.
  Definition full (kind : VariableKind) (in_for : bool) (s' : state) (d : VariableDecl) : Prop :=
    match kind with
    | VConst => decl_init d = None -> in_or_of g (st_look s')
    | _ => in_for = false -> pat_init d
    end.
  Definition full_list (kind : VariableKind) (in_for : bool) (s' : state) (ds : list VariableDecl) : Prop :=
    exists l d, ds = l ++ [d] /\ full kind in_for s' d
      /\ match kind with
         | VConst => forall d, In d l -> decl_init d = None ->
             exists i, inp i /\ in_or_of g i /\ is_punct PComma (it_tok i) = true
         | _ => in_for = false -> Forall pat_init l
         end.

  (** What more is promised of some calls. *)
  Definition extra {B} (c : call B) (s : state) : B -> state -> Prop :=
    match c in call B return B -> state -> Prop with
    | CNextPart => fun p _ => is_dir p = true -> c_past_prolog (st_ctx s) = false
    | CStatementListItem => fun p _ => is_dir p = false
    | CReturnStmt => fun _ _ => c_in_function_body (st_ctx s) = true
    | CBlock | CFinallyClause => fun l _ => undirected l
    | CNamedImports => fun l _ => Forall normal_spec l
    | CImportSpecifier => fun i _ => normal_spec i
    | CImportNamespaceSpecifier => fun i _ => exists n, i = ISNamespace n
    | CImportDefaultSpecifier => fun i _ => exists n, i = ISDefault n
    | CModuleSpecifier => fun l _ => exists w, l = LString w
    | CVarDeclList f | CVariableDeclList f => fun ds _ => f = false -> Forall pat_init ds
    | CBindingList k f => fun ds s' => full_list k f s' ds
    | CVarDecl f | CVariableDecl f => fun d _ => f = false -> pat_init d
    | CLexicalBinding k f => fun d s' => full k f s' d
    | CClassEl hc => fun r s' =>
        (is_ctor (snd r) = true -> hc = false /\ fst r = true) /\ (hc = true -> fst r = true) /\ tgt s' = false
    | CClassBody => fun b s' => count is_ctor b <= 1 /\ (tgt s' = true -> tgt s = true)
    | CClassDecl _ => fun _ s' => tgt s' = true -> tgt s = true
    | CPropertyMethod | CAsyncPropertyMethod => fun v s' => is_fn v false (fun _ => True) /\ tgt s' = false
    | CGeneratorMethod => fun v s' => is_fn v true (fun _ => True) /\ tgt s' = false
    | CGetterMethod => fun v s' => is_fn v false (fun ps => g_tolerant g = false -> ps = []) /\ tgt s' = false
    | CSetterMethod => fun v s' =>
        is_fn v false (fun ps => g_tolerant g = false -> exists p, ps = [p] /\ is_rest p = false) /\ tgt s' = false
    | CMethodBody _ _ | CPropertyMethodBody _ _ => fun _ s' => tgt s' = false
    | CFormalParam _ => fun r s' =>
        is_rest (snd r) = true -> is_punct PCloseParen (it_tok (st_look s')) = true
    | CFormalParams => fun fp _ => rest_last (fp_params fp)
    | CRestElement => fun _ s' => is_punct PCloseParen (it_tok (st_look s')) = true
    | CPattern _ | CPatternWithDefault | CArrayPattern | CObjectPattern => fun r _ => not_restp (snd r)
    | CPrimaryExpression | CGroupExpr | CArrayInit | CObjInit | CFunctionExpr
    | CAssignmentExpr | CYieldExpr | CConditionalExpr | CBinaryExpression | CExponentiation
    | CUnaryExpression | CAwaitExpr | CUpdateExpr | CLeftHandSideExpr | CSuper
    | CLeftHandSideExprAllowCall | CAsyncArg | CNewExpr => fun e s' => tgt s' = true -> target_ok e = true
    | CAsyncArgs | CArgs => fun _ s' => tgt s' = true -> tgt s = true
    | CSpreadElement => fun _ s' => tgt s' = true -> tgt s = true
    | CVarIdent _ | CIdentName => fun _ s' => tgt s' = tgt s
    | _ => fun _ _ => True
    end.

  Definition prex {B} (c : call B) (k : core) : Prop :=
    match c with
    | CYieldExpr => ng = true -> k_yield k = false
    | CAwaitExpr => k_await k = true
    | CSuper => k_fn k = true
    | CClassBody | CClassEl _ => ng = true -> classy
    | CLexicalDecl in_for => in_for = false
    | _ => True
    end.

  Definition preC (m : nat) B (c : call B) (s : state) : Prop :=
    invB g items s /\ prex c (core_of (st_ctx s)) /\ tree (core_of (st_ctx s)) (argn c).
  Definition postC B (c : call B) (s : state) (b : B) (s' : state) : Prop :=
    invC s' (kp c b (core_of (st_ctx s))) /\ tree (core_of (st_ctx s)) (nodes c b) /\ extra c s b s'.

  Notation wpC m p Q s := (wp g false preC postC (fun _ _ => True) True m p Q s).

  Lemma inv_lookC s k : invC s k -> inp (st_look s).
  Proof. intros [H _]. apply H. Qed.
  Lemma core_get s k : invC s k -> core_of (st_ctx s) = k.
  Proof. intros H. apply H. Qed.

  Lemma core_fn s k : invC s k -> c_in_function_body (st_ctx s) = k_fn k.
  Proof. intros [_ <-]. reflexivity. Qed.
  Lemma core_past s k : invC s k -> c_past_prolog (st_ctx s) = k_past k.
  Proof. intros [_ <-]. reflexivity. Qed.

  Lemma wpC_ret m A (a : A) (Q : A -> state -> Prop) s : Q a s -> wpC m (Ret a) Q s.
  Proof. exact (fun H => H). Qed.
  Lemma wpC_bind m A B (p : P A) (k : A -> P B) Q s :
    wpC m p (fun a s' => wpC m (k a) Q s') s -> wpC m (Bind p k) Q s.
  Proof. exact (fun H => H). Qed.
  Lemma wpC_cut m A B (k' : core) (R : A -> state -> Prop) (p : P A) (k : A -> P B) Q s :
    wpC m p (fun a s' => invC s' k' /\ R a s') s ->
    (forall a s', invC s' k' -> R a s' -> wpC m (k a) Q s') ->
    wpC m (Bind p k) Q s.
  Proof. intros H1 H2. apply wpC_bind. eapply wp_mono; [|exact H1]. cbn. intros a s' [? ?]. auto. Qed.
  Lemma wpC_quiet m B (p : P unit) (k : unit -> P B) Q s :
    wpC m p (fun _ s' => s' = s) s -> wpC m (k tt) Q s -> wpC m (Bind p k) Q s.
  Proof. intros H1 H2. apply wpC_bind. eapply wp_mono; [|exact H1]. cbn. intros [] s' ->. auto. Qed.

  Lemma next_item_C s k : invC s k ->
    match next_item g s with
    | (Ok i, s') => i = st_look s /\ invC s' k /\ tgt s' = tgt s
    | (Err _, s') | (Panic, s') => invC s' k /\ tgt s' = tgt s
    | (NoFuel, _) => False
    end.
  Proof.
    intros [Hi Hk]. pose proof (next_item_B g items s Hi) as N. pose proof (next_item_ctx g s) as C.
    destruct (next_item g s) as [[i|e| |] s'] eqn:E; cbn [snd] in C; unfold invC, tgt; try rewrite C; tauto.
  Qed.
  Lemma wpC_next m (Q : item -> state -> Prop) s k :
    invC s k -> (forall s', invC s' k -> tgt s' = tgt s -> inp (st_look s) -> Q (st_look s) s') -> wpC m next Q s.
  Proof.
    intros Hi H. unfold next. cbn [wp]. unfold wp_out, exec.
    pose proof (next_item_C s k Hi) as N. destruct (next_item g s) as [[i|e| |] s'] eqn:E; auto.
    destruct N as (-> & N & T). eapply H; eauto. eapply inv_lookC; eauto.
  Qed.
  Lemma wpC_nextignored m (Q : unit -> state -> Prop) s k :
    invC s k -> (forall s', invC s' k -> tgt s' = tgt s -> Q tt s') -> wpC m (Do ONextIgnored) Q s.
  Proof.
    intros Hi H. cbn [wp]. unfold wp_out, exec.
    pose proof (next_item_C s k Hi) as N. destruct (next_item g s) as [[i|e| |] s'] eqn:E; auto; apply H; tauto.
  Qed.
  Lemma wpC_expectcomma m (Q : unit -> state -> Prop) s k :
    invC s k -> (forall s', invC s' k -> tgt s' = tgt s -> Q tt s') -> wpC m (Do OExpectComma) Q s.
  Proof.
    intros Hi H. cbn [wp]. unfold wp_out, exec.
    pose proof (next_item_C s k Hi) as N.
    destruct (g_tolerant g).
    - destruct (is_punct _ _); [|auto]. destruct (next_item g s) as [[i|e| |] s'] eqn:E; auto. apply H; tauto.
    - destruct (next_item g s) as [[i|e| |] s'] eqn:E; auto. destruct (is_punct _ _); auto. apply H; tauto.
  Qed.
  Lemma wpC_upd m f (Q : unit -> state -> Prop) s k :
    invC s k -> (forall c, core_of (f c) = core_of (f (embed (core_of c)))) ->
    (forall s', invC s' (core_of (f (embed k))) -> st_look s' = st_look s ->
       tgt s' = c_assign_target (f (st_ctx s)) -> Q tt s') ->
    wpC m (Do (OUpd f)) Q s.
  Proof.
    intros [Hi Hk] Hf H. cbn. apply H; auto. split; [exact Hi|]. cbn. rewrite Hf, Hk. reflexivity.
  Qed.
  Lemma wpC_tolerate m d (Q : unit -> state -> Prop) s :
    (g_tolerant g = true -> Q tt s) -> wpC m (Do (OTolerate d)) Q s.
  Proof. intros H. cbn. destruct (g_tolerant g); cbn; auto. Qed.
  Lemma wpC_if_tolerate m B (b : bool) d (k : unit -> P B) (Q : B -> state -> Prop) s :
    ((b = true -> g_tolerant g = true) -> wpC m (k tt) Q s) ->
    wpC m (Bind (if b then Do (OTolerate d) else Ret tt) k) Q s.
  Proof.
    intros H. apply wpC_bind. destruct b; [apply wpC_tolerate|apply wpC_ret]; intros; apply H; auto. discriminate.
  Qed.
  Lemma wpC_guard m b d (Q : unit -> state -> Prop) s :
    Q tt s -> wpC m (Do (OGuardModule b d)) Q s.
  Proof. intros H. cbn. destruct (g_module g); [destruct b as [[]|]|]; cbn; auto. Qed.
  Lemma wpC_str m i (Q : option text -> state -> Prop) s :
    (forall o, o = slice js (it_start i) (it_end i) -> Q o s) -> wpC m (Do (OStr i)) Q s.
  Proof. intros H. cbn. apply H; auto. Qed.
  Lemma wpC_pure m B (o : op B) (Q : B -> state -> Prop) s :
    match o with
    | ONext | ONextIgnored | OUpd _ | OExpectComma | OTolerate _ | OGuardModule _ _ | OStr _ | OLook | OCtx => False
    | _ => True
    end ->
    (forall b, Q b s) -> wpC m (Do o) Q s.
  Proof. intros Ho H. destruct o; cbn in *; try tauto; auto. Qed.
  Lemma wpC_look m (Q : item -> state -> Prop) s k :
    invC s k -> (inp (st_look s) -> Q (st_look s) s) -> wpC m look Q s.
  Proof. intros Hi H. apply H. eapply inv_lookC; eauto. Qed.
  Lemma wpC_call m B (c : call B) (Q : B -> state -> Prop) s k :
    invC s k -> prex c k -> tree k (argn c) ->
    (forall b s', invC s' (kp c b k) -> tree k (nodes c b) -> extra c s b s' -> Q b s') -> wpC m (Call c) Q s.
  Proof.
    intros [Hi Hk] Hp Ht H. cbn [wp]. unfold preC, postC. rewrite Hk. split; auto.
    intros b s' (H1 & H2 & H3). auto.
  Qed.
  Lemma wpC_loop m A X k (R : X -> state -> Prop) (x : X) (b : X -> P (X + A)) (Q : A -> state -> Prop) s :
    invC s k -> R x s ->
    (forall y s1, invC s1 k -> R y s1 ->
       wpC m (b y) (fun r s2 => match r with inl y' => invC s2 k /\ R y' s2 | inr a => Q a s2 end) s1) ->
    wpC m (Loop x b) Q s.
  Proof.
    intros H1 H2 H3. cbn [wp]. exists (fun y s1 => invC s1 k /\ R y s1).
    split; [auto|]. split; [discriminate|]. intros y s1 [? ?].
    eapply wp_mono; [|apply H3; auto]. cbn beta. intros [y'|a] s2 Hq; auto. split; auto; discriminate.
  Qed.
  Lemma wpC_get m A (f : ctx -> A) (Q : A -> state -> Prop) s k :
    invC s k -> (forall c, core_of c = k -> c_assign_target c = tgt s -> Q (f c) s) -> wpC m (get f) Q s.
  Proof. intros [Hi Hk] H. cbn. apply H; auto. Qed.
  Lemma wpC_ctx m (Q : ctx -> state -> Prop) s k :
    invC s k -> (forall c, core_of c = k -> c_assign_target c = tgt s -> Q c s) -> wpC m (Do OCtx) Q s.
  Proof. intros [Hi Hk] H. cbn. apply H; auto. Qed.
  Lemma wpC_look_tok m (Q : token -> state -> Prop) s : Q (it_tok (st_look s)) s -> wpC m look_tok Q s.
  Proof. intros H. cbn. auto. Qed.
  Lemma wpC_at_punct m p (Q : bool -> state -> Prop) s :
    Q (is_punct p (it_tok (st_look s))) s -> wpC m (at_punct p) Q s.
  Proof. intros H. cbn. auto. Qed.
  Lemma wpC_at_keyword m p (Q : bool -> state -> Prop) s :
    Q (is_keyword p (it_tok (st_look s))) s -> wpC m (at_keyword p) Q s.
  Proof. intros H. cbn. auto. Qed.
  Lemma wpC_expect_punct m p (Q : unit -> state -> Prop) s k :
    invC s k -> (forall s', invC s' k -> tgt s' = tgt s -> is_punct p (it_tok (st_look s)) = true -> Q tt s') ->
    wpC m (expect_punct p) Q s.
  Proof.
    intros Hi H. apply wpC_bind. eapply wpC_next; eauto. intros s' E T _. destruct (is_punct _ _) eqn:Ep; [cbn; auto|].
    exact I.
  Qed.
  Lemma wpC_expect_keyword m p (Q : unit -> state -> Prop) s k :
    invC s k -> (forall s', invC s' k -> tgt s' = tgt s -> is_keyword p (it_tok (st_look s)) = true ->
       inp (st_look s) -> Q tt s') -> wpC m (expect_keyword p) Q s.
  Proof.
    intros Hi H. apply wpC_bind. eapply wpC_next; eauto. intros s' E T Hp. destruct (is_keyword _ _) eqn:Ek; [cbn; auto|].
    exact I.
  Qed.
  Lemma wpC_stream_at m i (Q : text -> state -> Prop) s :
    (forall a, a = text_of js i -> Q a s) -> wpC m (stream_at i) Q s.
  Proof.
    intros H. apply wpC_bind, wpC_str; auto. intros [w|] E; [|exact I]. cbn. apply H.
    unfold text_of. rewrite <- E. reflexivity.
  Qed.
  Lemma wpC_get_string m i (Q : text -> state -> Prop) s :
    (forall a, a = text_of js i -> Q a s) -> wpC m (get_string i) Q s.
  Proof.
    intros H. apply wpC_bind, wpC_str; auto. intros [w|] E; [|exact I]. cbn. apply H.
    unfold text_of. rewrite <- E. reflexivity.
  Qed.
  Lemma wpC_string_or_empty m i (Q : text -> state -> Prop) s :
    (forall a, a = text_of js i -> Q a s) -> wpC m (string_or_empty i) Q s.
  Proof. intros H. cbn. apply H. reflexivity. Qed.
  Lemma wpC_at_contextual m w (Q : bool -> state -> Prop) s :
    (forall a, (a = true -> text_of js (st_look s) = str w) -> Q a s) -> wpC m (at_contextual w) Q s.
  Proof.
    intros H. apply wpC_bind. cbn -[stream_at text_eqb str]. apply wpC_stream_at. intros a Ha.
    cbn -[text_eqb str]. apply H. intros E. apply text_eqb_eq in E. congruence.
  Qed.
  Lemma wpC_at_async_function m (Q : bool -> state -> Prop) s :
    (forall a, Q a s) -> wpC m at_async_function Q s.
  Proof.
    intros H. apply wpC_bind, wpC_at_contextual; auto. intros [] _; [|cbn; auto].
    apply wpC_bind, wpC_pure; cbn; auto. intros [pk|]; cbn; auto.
  Qed.
  Lemma wpC_at_import_call m (Q : bool -> state -> Prop) s :
    (forall a, Q a s) -> wpC m at_import_call Q s.
  Proof. intros H. cbn. destruct (is_keyword _ _); cbn; auto. Qed.
  Lemma wpC_at_lexical_decl m (Q : bool -> state -> Prop) s :
    (forall a, Q a s) -> wpC m at_lexical_decl Q s.
  Proof. intros H. cbn. auto. Qed.
  Lemma wpC_at_return_arg m (Q : bool -> state -> Prop) s :
    (forall a, Q a s) -> wpC m at_return_arg Q s.
  Proof. intros H. cbn. destruct (st_nl s); cbn; auto. Qed.
  Lemma wpC_qualified m t (Q : bool -> state -> Prop) s :
    (forall a, Q a s) -> wpC m (qualified_prop_name t) Q s.
  Proof. intros H. cbn. auto. Qed.
  Lemma core_cover f a b c : core_of (set_first_covert f (set_assign_target a (set_binding_element b c))) = core_of c.
  Proof. reflexivity. Qed.
  Lemma wpC_isolated m A (p : P A) (Q : A -> state -> Prop) s k :
    invC s k -> (forall s1, invC s1 k -> st_look s1 = st_look s -> tgt s1 = true ->
      wpC m p (fun a s2 => invC s2 k /\ forall s3, invC s3 k -> st_look s3 = st_look s2 -> tgt s3 = tgt s -> Q a s3) s1) ->
    wpC m (isolated p) Q s.
  Proof.
    intros [Hi Hk] H. unfold isolated, isolate_cover, get_cover.
    cbn [wp exec wp_out upd]. eapply wp_mono; [|apply H; auto; split; auto].
    cbn beta. intros a s2 [[Hj Hj2] Hq]. cbn. apply Hq; auto. split; [exact Hj|]. cbn [upd_ctx st_ctx].
    rewrite core_cover. exact Hj2.
  Qed.
  Lemma wpC_inheriting m A (p : P A) (Q : A -> state -> Prop) s k :
    invC s k -> (forall s1, invC s1 k -> st_look s1 = st_look s -> tgt s1 = true ->
      wpC m p (fun a s2 => invC s2 k /\
        forall s3, invC s3 k -> st_look s3 = st_look s2 -> tgt s3 = tgt s2 && tgt s -> Q a s3) s1) ->
    wpC m (inheriting p) Q s.
  Proof. intros [Hi Hk] H. unfold inheriting, inherit_cover, isolate_cover, get_cover.
    cbn [wp exec wp_out upd]. eapply wp_mono; [|apply H; auto; split; auto].
    cbn beta. intros a s2 [[Hj Hj2] Hq]. cbn. apply Hq; auto. split; [exact Hj|]. cbn [upd_ctx st_ctx].
    rewrite core_cover. exact Hj2.
  Qed.

  Lemma tree_nil k : tree k [].
  Proof. intros e He. constructor. Qed.
  Lemma tree_one k n e : tree k [n] -> covers e k -> okn e n.
  Proof. intros H He. exact (Forall_inv (H e He)). Qed.
  Lemma tree_all k l e : tree k l -> covers e k -> Forall (okn e) l.
  Proof. auto. Qed.
  Lemma tree_node k n : (forall e, covers e k -> local g items ng e n /\ Forall (okn (enter e n)) (children n)) ->
    tree k [n].
  Proof. intros H e He. constructor; [|constructor]. destruct (H e He). apply ok_node; auto. Qed.
  Lemma tree_name k i : tree k [NExpr (EIdent i)] -> tree k [NName i].
  Proof. intros H e He. exact (ok_children _ _ _ _ _ (tree_one _ _ _ H He)). Qed.
  Lemma tree_lit k l : tree k [NExpr (ELiteral l)] -> tree k [NLit l].
  Proof. intros H e He. exact (ok_children _ _ _ _ _ (tree_one _ _ _ H He)). Qed.
  Lemma tree_app k a b : tree k a -> tree k b -> tree k (a ++ b).
  Proof. intros Ha Hb e He. apply Forall_app. auto. Qed.
  Lemma tree_sub k k' l : (forall e, covers e k' -> covers e k) -> tree k l -> tree k' l.
  Proof. intros H Ht e He. auto. Qed.
  Lemma post_intro B (c : call B) s b s' k :
    invC s k -> invC s' (kp c b k) -> tree k (nodes c b) -> extra c s b s' -> postC B c s b s'.
  Proof. intros [_ H1] H2 H3 H4. unfold postC. rewrite H1. auto. Qed.
  Lemma covers_top k : covers env_top k.
  Proof. repeat split; cbn; auto; [tauto|discriminate]. Qed.
End PassC.

(** ** Functions on trees *)
Section Pure.
  Variable g : cfg.
  Variable items : list raw.
  Variable ng : bool.
  Notation js := (g_stream g).
  Notation inp := (input_item items).
  Notation okn := (ok g items ng).

  Lemma Forall_opts A (f : A -> node) l (Q : node -> Prop) :
    Forall Q (opts f l) <-> Forall (fun o => match o with Some a => Q (f a) | None => True end) l.
  Proof.
    unfold opts. induction l as [|[a|] l IH]; cbn; split; intros H; try constructor; auto.
    - inversion H; auto.
    - inversion H; subst. tauto.
    - inversion H; auto.
    - inversion H; subst. tauto.
    - tauto.
    - inversion H; subst. tauto.
  Qed.
  Lemma Forall_mapn A (f : A -> node) l (Q : node -> Prop) : Forall Q (map f l) <-> Forall (fun a => Q (f a)) l.
  Proof. apply Forall_map. Qed.

  Ltac kids H := apply ok_children in H; cbn [enter children map app] in H.

  Lemma expr_as_pat_ok : forall x p e, okn e (NExpr x) -> expr_as_pat x = Some p -> okn e (NPat p).
  Proof.
    fix IH 1. intros x p e H E.
    destruct x; cbn [expr_as_pat] in E; try discriminate E.
    - inversion E; subst. apply ok_node; [exact I|]. kids H. cbn [enter children].
      rewrite Forall_opts in *. rewrite Forall_map. eapply Forall_impl; [|exact H].
      intros [a|] Ha; cbn; auto. apply ok_node; [exact I|]. cbn. auto.
    - destruct left as [q|y].
      + apply ok_local in H. destruct H.
      + destruct (expr_as_pat y) as [q|] eqn:Ex; inversion E; subst. kids H. inversion H as [|? ? H1 H2]; subst.
        apply ok_node; [exact I|]. cbn [enter children]. constructor; [|exact H2].
        eapply IH; eauto.
    - inversion E; subst. kids H. apply ok_node; [exact I|exact H].
    - set (F := fix props (l : list ObjectProperty) : option (list ObjectPatPart) :=
        match l with
        | [] => Some []
        | OPProperty p :: l' => option_map (cons (OPPAssignment p)) (props l')
        | OPSpread s :: l' =>
            match expr_as_pat s with
            | Some p => option_map (cons (OPPRest p)) (props l')
            | None => None
            end
        end) in E.
      kids H. rewrite Forall_map in H.
      assert (G : forall l ps, Forall (fun a => okn e (NObjProp a)) l -> F l = Some ps ->
                  Forall (okn e) (map NObjPart ps)).
      { clear - IH. induction l as [|[q|x] l IHl]; intros ps Hl El; cbn in El.
        - inversion El; subst. constructor.
        - fold F in El. destruct (F l) as [ps'|] eqn:Ef; inversion El; subst. inversion Hl; subst. cbn.
          constructor; auto. kids H1. apply ok_node; [exact I|]. exact H1.
        - fold F in El. destruct (expr_as_pat x) as [q|] eqn:Ex; [|discriminate].
          destruct (F l) as [ps'|] eqn:Ef; inversion El; subst. inversion Hl; subst. cbn.
          constructor; auto. kids H1. inversion H1; subst. apply ok_node; [exact I|]. cbn.
          constructor; [|constructor]. eapply IH; eauto. }
      destruct (F props) as [ps|] eqn:Ef; inversion E; subst.
      apply ok_node; [exact I|]. cbn [enter children]. eapply G; eauto.
    - destruct (expr_as_pat x) as [q|] eqn:Ex; inversion E; subst. kids H. inversion H as [|? ? H1 H2]; subst.
      apply ok_node; [exact I|]. cbn [enter children]. constructor; [|constructor]. eapply IH; eauto.
  Qed.

  Lemma yield_name e a d : okn e (NExpr (EYield a d)) -> okn e (NName (str "yield")).
  Proof.
    intros H. apply ok_local in H. cbn in H. destruct H as (_ & i & Hi & Ht).
    apply ok_node; [|constructor]. exists i. split; auto. right. exists KYield. auto.
  Qed.

  Lemma cover_param_ok e a p : okn e (NArg p) -> okn e (NArg (fst (cover_param a p))).
  Proof.
    intros H. destruct p as [x|p]; cbn [cover_param].
    - destruct x as [| | |o l r| | | | | | | | | | | | | | | | | | | | |]; auto.
      destruct r as [| | | | | | | | | | | | | | | | | | | | | | | |arg d]; auto. destruct arg; auto. cbn [fst].
      kids H. inversion H as [|? ? H1 _]; subst. kids H1. inversion H1 as [|? ? _ H2]; subst.
      apply Forall_inv in H2. apply yield_name in H2.
      apply ok_node; [exact I|]. cbn. constructor; [|constructor]. apply ok_node; [exact I|]. cbn. auto.
    - destruct p as [| | | |l r]; auto.
      destruct r as [| | | | | | | | | | | | | | | | | | | | | | | |arg d]; auto. destruct arg; auto. cbn [fst].
      kids H. inversion H as [|? ? H1 _]; subst. kids H1. inversion H1 as [|? ? _ H2]; subst.
      apply Forall_inv in H2. apply yield_name in H2.
      apply ok_node; [exact I|]. cbn. constructor; [|constructor]. apply ok_node; [exact I|]. cbn. auto.
  Qed.

  Lemma cover_params_ok e a ps : Forall (okn e) (map NArg ps) ->
    Forall (okn e) (map NArg (map fst (map (cover_param a) ps))).
  Proof.
    rewrite !Forall_map. intros H. eapply Forall_impl; [|exact H]. intros p. apply cover_param_ok.
  Qed.

  Lemma make_binary_ok e t a b x : okn e (NExpr a) -> okn e (NExpr b) -> make_binary t a b = inl x ->
    okn e (NExpr x) /\ target_ok x = false.
  Proof.
    intros Ha Hb E. unfold make_binary in E.
    destruct (_ || _); [destruct (logical_operator t)|destruct (binary_operator t)]; inversion E; subst;
      (split; [|reflexivity]); (apply ok_node; [exact I|]); cbn; auto.
  Qed.
  Lemma reduce_while_ok e prec : forall ops precs stack ops' precs' stack',
    Forall (okn e) (map NExpr stack) -> reduce_while prec ops precs stack = inl (ops', precs', stack') ->
    Forall (okn e) (map NExpr stack').
  Proof.
    induction ops as [|o ops IH]; intros precs stack ops' precs' stack' H E; cbn in E.
    - inversion E; subst. exact H.
    - destruct precs as [|p precs]; [inversion E; subst; exact H|].
      destruct stack as [|r [|l st]]; [inversion E; subst; exact H..|].
      destruct (prec <=? p); [|inversion E; subst; exact H].
      destruct (make_binary o l r) as [x|] eqn:Em; [|discriminate].
      cbn in H. inversion H as [|? ? H1 H2]; subst. inversion H2 as [|? ? H3 H4]; subst.
      eapply IH; [|exact E]. cbn. constructor; auto. exact (proj1 (make_binary_ok e o l r x H3 H1 Em)).
  Qed.
  Lemma reduce_all_ok e : forall ops stack x y,
    Forall (okn e) (map NExpr stack) -> okn e (NExpr x) -> reduce_all ops stack x = inl y -> okn e (NExpr y).
  Proof.
    induction ops as [|o ops IH]; intros stack x y H Hx E; cbn in E; [inversion E; subst; auto|].
    destruct stack as [|l st]; [inversion E; subst; auto|].
    destruct (make_binary o l x) as [z|] eqn:Em; [|discriminate].
    cbn in H. inversion H as [|? ? H1 H2]; subst. eapply IH; [exact H2| |exact E].
    exact (proj1 (make_binary_ok e o l x z H1 Hx Em)).
  Qed.

  Lemma key_of_expr_ok e x : okn e (NExpr x) -> okn e (NKey (key_of_expr x)).
  Proof.
    intros H. assert (D : okn e (NKey (PKExpr x))) by (apply ok_node; [exact I|]; cbn; auto).
    destruct x; auto. destruct l; auto; cbn [key_of_expr]; kids H; (apply ok_node; [exact I|]); exact H.
  Qed.

  Lemma is_key_named k w : is_key k w = true -> named k w.
  Proof.
    unfold is_key, named. destruct k as [l|x|p]; try discriminate;
      [destruct l|destruct x|destruct p]; try discriminate; intros E; apply text_eqb_eq in E; subst; auto.
  Qed.
  Lemma kw_text_get k : kw_text k <> str "get".
  Proof. destruct k; discriminate. Qed.
  Lemma named_get e k : (ng = true -> forall i, inp i -> text_of js i <> str "get") -> okn e (NKey k) -> named k "get" -> ng = false.
  Proof.
    intros no_get H Hn. destruct (Bool.bool_dec ng true) as [E|E]; [exfalso|destruct ng; congruence].
    assert (N : forall e, okn e (NName (str "get")) -> False).
    { intros e' H'. apply ok_local in H'. destruct H' as (i & Hi & [H'|(kw & _ & H')]).
      - symmetry in H'. eapply no_get; eauto.
      - symmetry in H'. eapply kw_text_get; eauto. }
    destruct Hn as [E1|[E1|E1]]; subst k; kids H; apply Forall_inv in H.
    - kids H. apply Forall_inv in H. eauto.
    - apply ok_local in H. destruct H as (i & Hi & _ & H'). symmetry in H'. eapply no_get; eauto.
    - kids H. apply Forall_inv in H. eauto.
  Qed.

  Lemma set_remove_added x l : set_mem x l = false -> set_remove x (x :: l) = l.
  Proof.
    unfold set_mem, set_remove. intros H. cbn. rewrite (proj2 (text_eqb_eq x x) eq_refl). cbn.
    induction l as [|y l IH]; auto. cbn in *. apply orb_false_iff in H. destruct H as [H1 H2].
    rewrite H1. cbn. f_equal. auto.
  Qed.
  Lemma set_mem_in x l : set_mem x l = false -> ~ In x l.
  Proof.
    unfold set_mem. intros H Hin. assert (existsb (text_eqb x) l = true); [|congruence].
    apply existsb_exists. exists x. split; auto. apply text_eqb_eq. reflexivity.
  Qed.

  Lemma count_app A (f : A -> bool) l x : count f (l ++ [x]) = count f l + (if f x then 1 else 0).
  Proof. unfold count. rewrite filter_app, app_length. cbn. destruct (f x); cbn; lia. Qed.
  Lemma undirected_nil : undirected [].
  Proof. intros p []. Qed.
  Lemma undirected_snoc l p : undirected l -> is_dir p = false -> undirected (l ++ [p]).
  Proof. intros H1 H2 q Hq. apply in_app_or in Hq. destruct Hq as [Hq|[Hq|[]]]; subst; auto. Qed.
  Lemma snoc_split A (l : list A) x l1 y l2 :
    l ++ [x] = l1 ++ y :: l2 -> (l2 = [] /\ l = l1 /\ x = y) \/ (exists l2', l2 = l2' ++ [x] /\ l = l1 ++ y :: l2').
  Proof.
    intros H. destruct l2 as [|z l2] using rev_ind.
    - left. apply app_inj_tail in H. destruct H. auto.
    - right. exists l2. clear IHl2. rewrite app_comm_cons, app_assoc in H. apply app_inj_tail in H.
      destruct H as [H1 H2]. subst. auto.
  Qed.

  (** [trim_quotes] *)
  Lemma drop_quotes_spec t : exists a, t = a ++ drop_quotes t /\ Forall quote a
    /\ forall c d, drop_quotes t = c :: d -> ~ quote c.
  Proof.
    induction t as [|c t IH]; cbn [drop_quotes].
    - exists []. repeat split; auto. discriminate.
    - destruct (N.eqb c 39 || N.eqb c 34) eqn:E.
      + destruct IH as (a & H1 & H2 & H3). exists (c :: a). cbn. rewrite <- H1. repeat split; auto.
        constructor; auto. apply orb_true_iff in E. destruct E as [E|E]; apply N.eqb_eq in E; [left|right]; auto.
      + exists []. repeat split; auto. intros c' d H. inversion H; subst. intros [Hq|Hq]; subst; discriminate.
  Qed.
  Lemma trim_quotes_spec s : unquoted (trim_quotes s) s.
  Proof.
    unfold trim_quotes, unquoted. destruct (drop_quotes_spec s) as (a & H1 & H2 & H3).
    destruct (drop_quotes_spec (rev (drop_quotes s))) as (b & H4 & H5 & H6).
    exists a, (rev b).
    assert (E : drop_quotes s = rev (drop_quotes (rev (drop_quotes s))) ++ rev b).
    { rewrite <- rev_app_distr, <- H4, rev_involutive. reflexivity. }
    split; [rewrite <- E; exact H1|]. split; [exact H2|]. split; [apply Forall_rev; exact H5|].
    split.
    - intros c d' Ed. rewrite Ed in E. cbn in E. eapply H3. exact E.
    - intros d' c Ed. apply (f_equal (@rev N)) in Ed. rewrite rev_involutive, rev_app_distr in Ed. cbn in Ed.
      eapply H6. exact Ed.
  Qed.
End Pure.
