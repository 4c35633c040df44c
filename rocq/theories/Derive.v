(** The parser against the grammar of Grammar.v: what each function promises, and the steps of
    the proof that keeps the unread tokens in view. *)
From Verif Require Export Safe Grammar.
Export Parser.

(** ** The tokens a state has before it *)
Definition tk_of (js : text) (i : item) (nl : bool) : tk :=
  mkTk (it_tok i) (text_of js i) (nl && negb (is_eof (it_tok i))).
Definition raw_tk (js : text) (r : raw) : tk := tk_of js (r_item r) (r_nl r).
(** The look-ahead, then what the scanner still holds, without the comments. *)
Definition toks (js : text) (s : state) : list tk :=
  tk_of js (st_look s) (st_nl s) :: map (raw_tk js) (filter nc (st_rest s)).

Definition scope_of (c : ctx) : scope :=
  mkScope (c_allow_in c) (c_await c) (c_strict c) (c_in_function_body c).
(** The scope, and whether the directive prologue is over. *)
Definition frame : Type := scope * bool.
Definition frame_of (c : ctx) : frame := (scope_of c, c_past_prolog c).
Definition in_ctx (k : frame) : ctx :=
  mkCtx (s_in (fst k)) false false (s_await (fst k)) None false false (s_fn (fst k)) false false []
        (s_strict (fst k)) (snd k).

(** What is asked of the scanner: items lie in the text, and no punctuator is spelled like one
    of the words the parser recognises by their text alone. *)
Definition plain_item (js : text) (i : item) : Prop :=
  slice js (it_start i) (it_end i) <> None /\
  forall p, it_tok i = TPunct p -> text_of js i <> str "async" /\ text_of js i <> str "get" /\ text_of js i <> str "set".
Definition clean (js : text) (s : state) : Prop :=
  plain_item js (st_look s) /\ Forall (fun r => plain_item js (r_item r)) (st_rest s).

Definition is_directive (p : ProgramPart) : bool := match p with PPDir _ _ => true | _ => false end.

Definition pat_var (k : option VariableKind) : bool :=
  match k with Some VConst | Some VLet => false | _ => true end.

Section PassD.
  Variable g : cfg.
  Notation js := (g_stream g).
  Notation D := (d (g_tolerant g) (g_module g) (g_strict_reserved g)).

  Definition At (s : state) (l : list tk) (k : frame) : Prop :=
    toks js s = l /\ frame_of (st_ctx s) = k /\ clean js s.

  (** What a call of [c] before the tokens [l] promises when it returns [b] before [l']. *)
  Definition reads_call {B} (c : call B) (S : scope) (past : bool) (l : list tk) : B -> list tk -> Prop :=
    match c in call B return B -> list tk -> Prop with
    | CNextPart => fun b l' =>
        if negb past && is_string (hd_tok l) then D S Directive l (VPart b) l' else D S Item l (VPart b) l'
    | CDirectivePrologues => fun b l' => D S Directives l (VParts b) l'
    | CDirective => fun b l' => hd_tok l = TString -> D S Directive l (VPart b) l'
    | CStatementListItem => fun b l' => D S Item l (VPart b) l'
    | CImportDecl => fun b l' => D S ImportDeclaration l (VImport b) l'
    | CNamedImports => fun b l' => D S NamedImports l (VSpecifiers b) l'
    | CImportSpecifier => fun b l' => D S NamedImport l (VSpecifier b) l'
    | CImportNamespaceSpecifier => fun b l' => D S Namespace l (VSpecifier b) l'
    | CImportDefaultSpecifier => fun b l' => exists w, b = ISDefault w /\ anything w l l'
    | CExportDecl => fun b l' => D S ExportDeclaration l (VExport b) l'
    | CExportSpecifier => fun b l' => D S ExportName l (VExportName b) l'
    | CModuleSpecifier => fun b l' => D S ModuleName l (VLiteral b) l'
    | CStatement | CWithStmt | CWhileStmt | CVarStmt | CTryStmt | CSwitchStmt | CIfStmt | CIfClause | CForStmt
    | CDoWhileStmt | CDebuggerStmt => fun b l' => D S Statement l (VStmt b) l'
    | CLabelledStatement => fun b l' => hd_tok l = TIdent -> D S Statement l (VStmt b) l'
    | CVarDeclList f | CVariableDeclList f => fun b l' => D S (VarDecls f) l (VVarDecls b) l'
    | CVarDecl f | CVariableDecl f => fun b l' => D S (VarDecl f) l (VVarDecl b) l'
    | CCatchClause => fun b l' =>
        exists l4 l5 c, reads (TKeyword KCatch) l l4 /\ D S Block l5 (VParts c) l'
          /\ (b = mkCatch None c /\ l5 = l4
              \/ exists l6 x l7, b = mkCatch (Some x) c /\ reads (TPunct POpenParen) l4 l6
                   /\ D S (Pattern true) l6 (VPat x) l7 /\ reads (TPunct PCloseParen) l7 l5)
    | CFinallyClause => fun b l' => exists l4, reads (TKeyword KFinally) l l4 /\ D S Block l4 (VParts b) l'
    | CThrowStmt => fun b l' => D S Statement l (VStmt (SThrow b)) l'
    | CSwitchCase => fun b l' => D S Case l (VCase b) l'
    | CReturnStmt => fun b l' => D S Statement l (VStmt (SReturn b)) l'
    | CFnStmt => fun b l' => D S Statement l (VStmt (SExpr b)) l'
    | CForLoop _ => fun b l' => hd_tok l = TPunct PSemiColon -> D S (ForRest None) l (VStmt b) l'
    | CForLoopCont i => fun b l' => D S (ForRest i) l (VStmt b) l'
    | CForInLoop x => fun b l' =>
        exists l1 l2 e t, b = SForIn x e t /\ takes l l1 /\ D S Expression l1 (VExpr e) l2 /\ D S LoopBody l2 (VStmt t) l'
    | CForOfLoop x a => fun b l' =>
        exists l1 l2 e t, b = SForOf x e t a /\ takes l l1 /\ D S Assignment l1 (VExpr e) l2 /\ D S LoopBody l2 (VStmt t) l'
    | CLoopBody => fun b l' => D S LoopBody l (VStmt b) l'
    | CBreakStmt => fun b l' => D S Statement l (VStmt (SBreak b)) l'
    | CContinueStmt => fun b l' => D S Statement l (VStmt (SContinue b)) l'
    | COptionallyLabeled k => fun b l' =>
        exists l1, reads (TKeyword k) l l1 /\
          (b = None /\ semi l1 l'
           \/ exists i l2, b = Some i /\ newline l1 = false /\ D S (Binding false) l1 (VName i) l2 /\ semi l2 l')
    | CExpressionStatement => fun b l' => exists l1, D S Expression l (VExpr b) l1 /\ semi l1 l'
    | CExpression => fun b l' => D S Expression l (VExpr b) l'
    | CBlock => fun b l' => D S Block l (VParts b) l'
    | CLexicalDecl f => fun b l' => f = false -> D S LexicalDeclaration l (VDecl b) l'
    | CBindingList k f => fun b l' => k <> VVar -> D S (LexDecls k f) l (VVarDecls b) l'
    | CLexicalBinding k f => fun b l' => k <> VVar -> D S (LexDecl k f) l (VVarDecl b) l'
    | CFunctionDecl o => fun b l' => D S (FunctionDeclaration o) l (VFunction b) l'
    | CFunctionSourceEl | CMethodBody _ _ | CPropertyMethodBody _ _ => fun b l' => D S FunctionBody l (VParts b) l'
    | CClassDecl o => fun b l' => D S (ClassDef o) l (VClass b) l'
    | CClassBody => fun b l' => D S ClassBody l (VMembers b) l'
    | CClassEl _ => fun b l' => D S ClassElement l (VMember (snd b)) l'
    | CAsyncPropertyMethod => fun b l' => D S (Method true) l (VMethod b) l'
    | CPropertyMethod => fun b l' => D S (Method false) l (VMethod b) l'
    | CGeneratorMethod => fun b l' => D S GeneratorMethod l (VMethod b) l'
    | CGetterMethod => fun b l' => D S Getter l (VMethod b) l'
    | CSetterMethod => fun b l' => D S Setter l (VMethod b) l'
    | CObjectPropertyKey => fun b l' => D S PropertyName l (VKey b (is_punct POpenBracket (hd_tok l))) l'
    | CPrimaryExpression => fun b l' => D S Primary l (VExpr b) l'
    | CGroupExpr => fun b l' => D S Parenthesised l (VExpr b) l'
    | CArrayInit => fun b l' => D S ArrayLiteral l (VExpr b) l'
    | CObjInit => fun b l' => D S ObjectLiteral l (VExpr b) l'
    | CObjProp _ => fun b l' => D S PropertyDef l (VProperty (snd b)) l'
    | CTemplateLiteral => fun b l' => D S Template l (VTemplate b) l'
    | CTemplateElement => fun b l' => D S Quasi l (VQuasi b) l'
    | CFunctionExpr => fun b l' => exists f, b = EFunction f /\ D S FunctionExpression l (VFunction f) l'
    | CFnName gen => fun b l' =>
        D S (Binding false) l (VName b) l'
        \/ s_strict S = true /\ gen = false /\ reads_as (TKeyword KYield) b l l'
    | CIdentName => fun b l' => anything b l l'
    | CVarIdent v => fun b l' => D S (Binding v) l (VName b) l'
    | CFormalParams => fun b l' => D S Params l (VParams (fp_params b)) l'
    | CFormalParam _ => fun b l' => D S Param l (VParam (snd b)) l'
    | CRestElement => fun b l' =>
        exists l1 x, snd b = PRestElement x /\ reads (TPunct PSpread) l l1 /\ D S (Pattern true) l1 (VPat x) l'
                     /\ hd_tok l' = TPunct PCloseParen
    | CBindingRestEl => fun b l' =>
        exists l1, reads (TPunct PSpread) l l1 /\ D S (Pattern true) l1 (VPat (snd b)) l'
    | CPatternWithDefault => fun b l' => D S PatternDefault l (VPat (snd b)) l'
    | CPattern k => fun b l' => D S (Pattern (pat_var k)) l (VPat (snd b)) l'
    | CArrayPattern => fun b l' => D S ArrayPattern l (VPat (snd b)) l'
    | CObjectPattern => fun b l' => D S ObjectPattern l (VPat (snd b)) l'
    | CRestProp | CPropertyPattern => fun b l' => D S PatProperty l (VPatProperty b) l'
    | CAssignmentExpr | CYieldExpr | CAsyncArg => fun b l' => D S Assignment l (VExpr b) l'
    | CConditionalExpr => fun b l' => D S Conditional l (VExpr b) l'
    | CBinaryExpression => fun b l' => D S (Level 1) l (VExpr b) l'
    | CExponentiation => fun b l' => D S Exponent l (VExpr b) l'
    | CUnaryExpression => fun b l' => D S Unary l (VExpr b) l'
    | CAwaitExpr => fun b l' => s_await S = true -> hd_tok l = TKeyword KAwait -> D S Unary l (VExpr b) l'
    | CUpdateExpr => fun b l' => D S Update l (VExpr b) l'
    | CLeftHandSideExpr => fun b l' => D S MemberExpression l (VExpr b) l'
    | CSuper => fun b l' => s_fn S = true -> D S MemberExpression l (VExpr b) l'
    | CLeftHandSideExprAllowCall => fun b l' => D (with_in true S) CallExpression l (VExpr b) l'
    | CAsyncArgs | CArgs => fun b l' => D S Arguments l (VExprs b) l'
    | CSpreadElement => fun b l' => D S Spread l (VExpr b) l'
    | CNewExpr => fun b l' => D S NewExpression l (VExpr b) l'
    | CConsumeSemicolon => fun _ l' => semi l l'
    end.

  (** The frame afterwards: unchanged, except that program parts end the prologue. *)
  Definition leaves {B} (c : call B) (past : bool) (l : list tk) : B -> bool :=
    match c in call B return B -> bool with
    | CNextPart => fun b => if negb past && is_string (hd_tok l) then negb (is_directive b) else true
    | _ => fun _ => past
    end.

  Definition preD (m : nat) B (c : call B) (s : state) : Prop := clean js s.
  Definition postD B (c : call B) (s : state) (b : B) (s' : state) : Prop :=
    let l := toks js s in let k := frame_of (st_ctx s) in
    exists l', At s' l' (fst k, leaves c (snd k) l b) /\ reads_call c (fst k) (snd k) l b l'.

  Notation wpD m p Q s := (wp g false preD postD (fun _ _ => True) True m p Q s).

  Lemma at_look s l k : At s l k -> it_tok (st_look s) = hd_tok l /\ text_of js (st_look s) = hd_text l.
  Proof. intros (<- & _). split; reflexivity. Qed.

  Lemma wpD_ret m A (a : A) (Q : A -> state -> Prop) s : Q a s -> wpD m (Ret a) Q s.
  Proof. exact (fun H => H). Qed.
  Lemma wpD_bind m A B (p : P A) (k : A -> P B) Q s :
    wpD m p (fun a s' => wpD m (k a) Q s') s -> wpD m (Bind p k) Q s.
  Proof. exact (fun H => H). Qed.

  (** [next_item] with every item in the text: it moves on, or it is at the end. *)
  Lemma next_item_loop_clean : forall rest sp s, st_rest s = rest -> clean js s ->
    let r := next_item_loop g rest sp s in
    clean js (snd r) /\ st_ctx (snd r) = st_ctx s /\
    match fst r with
    | Err _ => st_look (snd r) = st_look s /\ filter nc (st_rest s) = [] /\ filter nc (st_rest (snd r)) = []
    | _ => True
    end.
  Proof.
    induction rest as [|r rest IH]; intros sp s Hr [Hl Hf]; cbn [next_item_loop].
    - assert (Hc : forall fe p q nl cs, clean js (mkState (st_ctx s) (st_look s) fe p q [] nl cs))
        by (split; [exact Hl|constructor]).
      destruct (is_eof (it_tok (st_look s))); [destruct (st_found_eof s)|]; cbn [fst snd st_ctx st_look st_rest];
        rewrite ?Hr; auto.
    - rewrite Hr in Hf. inversion Hf as [|? ? Hr1 Hr2]; subst.
      destruct (update_positions _ _ _ _ _) as [[cur lpos]|]; cbn [fst snd];
        [|split; [split; [exact Hl|rewrite Hr; exact Hf]|auto]].
      assert (Hd : match it_tok (r_item r) with TComment _ => False | _ => True end
        \/ exists c, it_tok (r_item r) = TComment c).
      { destruct (it_tok (r_item r)) eqn:Ht; auto. right. eauto. }
      destruct Hd as [Hd|[c Hd]].
      + assert (Hc : forall fe p q nl cs, clean js (mkState (st_ctx s) (r_item r) fe p q rest nl cs))
          by (split; [exact Hr1|exact Hr2]).
        destruct (it_tok (r_item r)) eqn:Ht; try contradiction; cbn [fst snd st_ctx st_look st_rest]; auto.
      + rewrite Hd. destruct (slice js (it_start (r_item r)) (it_end (r_item r))) as [t|] eqn:Es;
          [|exfalso; apply (proj1 Hr1); exact Es].
        rewrite Hr. cbn [filter].
        replace (nc r) with false by (unfold nc; rewrite Hd; reflexivity).
        match goal with |- context [next_item_loop g rest ?sp' ?s1] => specialize (IH sp' s1 eq_refl) end.
        cbn [st_ctx st_look st_rest] in IH. apply IH. split; auto.
  Qed.

  Lemma next_item_D s l k : At s l k ->
    match next_item g s with
    | (Ok i, s') => it_tok i = hd_tok l /\ text_of js i = hd_text l /\ exists l', takes l l' /\ At s' l' k
    | (Err _, s') => exists x y, l = [x] /\ At s' [y] k
    | _ => True
    end.
  Proof.
    intros (Hl & Hk & Hc).
    pose proof (next_item_loop_clean (st_rest s) (it_start (st_look s), it_end (st_look s)) s eq_refl Hc) as H.
    change (next_item_loop g (st_rest s) (it_start (st_look s), it_end (st_look s)) s) with (next_item g s) in H.
    destruct (next_item g s) as [[i|e| |] s'] eqn:E; auto; cbn [fst snd] in H; destruct H as (H1 & H2 & H3).
    - unfold next_item in E. apply next_item_loop_ok in E; auto. destruct E as (-> & _ & E).
      subst l. split; [reflexivity|]. split; [reflexivity|].
      destruct E as [(r & E1 & _ & E3 & E4 & _)|(E1 & E2 & _ & _ & E5 & E6)].
      + exists (toks js s'). split; [|split; [reflexivity|split; congruence]].
        left. split; [discriminate|]. exists (tk_of js (st_look s) (st_nl s)).
        unfold toks at 1. rewrite E1. cbn [map]. unfold toks. rewrite E3, E4. reflexivity.
      + exists (toks js s). assert (T : toks js s = [mkTk TEoF (text_of js (st_look s)) false]).
        { unfold toks. rewrite E1. unfold tk_of. rewrite E6. cbn. rewrite andb_false_r.
          destruct (it_tok (st_look s)); try discriminate. reflexivity. }
        split.
        * right. split; [reflexivity|]. rewrite T. eauto.
        * split; [|split; congruence]. rewrite T. unfold toks. rewrite E2, E5. unfold tk_of. rewrite E6. cbn.
          rewrite andb_false_r. destruct (it_tok (st_look s)); try discriminate. reflexivity.
    - destruct H3 as (H3 & H4 & H5). subst l. unfold At. unfold toks. rewrite H4, H5. cbn [map].
      eexists; eexists. split; [reflexivity|]. split; [reflexivity|]. split; congruence.
  Qed.

  Lemma wpD_next m (Q : item -> state -> Prop) s l k : At s l k ->
    (forall i s' l', At s' l' k -> takes l l' -> it_tok i = hd_tok l -> text_of js i = hd_text l -> Q i s') ->
    wpD m next Q s.
  Proof.
    intros Hi H. unfold next. cbn [wp]. unfold wp_out, exec. pose proof (next_item_D s l k Hi) as N.
    destruct (next_item g s) as [[i|e| |] s'] eqn:E; auto.
    destruct N as (N1 & N2 & l' & N3 & N4). eapply H; eauto.
  Qed.
  Lemma wpD_nextignored m (Q : unit -> state -> Prop) s l k : At s l k ->
    (forall s' l', At s' l' k -> (takes l l' \/ exists y, l' = [y]) -> Q tt s') ->
    wpD m (Do ONextIgnored) Q s.
  Proof.
    intros Hi H. cbn [wp]. unfold wp_out, exec. pose proof (next_item_D s l k Hi) as N.
    destruct (next_item g s) as [[i|e| |] s'] eqn:E; auto.
    - destruct N as (N1 & N2 & l' & N3 & N4). eapply H; eauto.
    - destruct N as (x & y & _ & N). eapply H; eauto.
    - exfalso. eapply next_item_not_nofuel; eauto.
  Qed.
  Lemma wpD_tolerate m x (Q : unit -> state -> Prop) s :
    (g_tolerant g = true -> Q tt s) -> wpD m (Do (OTolerate x)) Q s.
  Proof. intros H. cbn. destruct (g_tolerant g); cbn; auto. Qed.
  Lemma wpD_if_tolerate m B (b : bool) x (k : unit -> P B) (Q : B -> state -> Prop) s :
    ((b = true -> g_tolerant g = true) -> wpD m (k tt) Q s) ->
    wpD m (Bind (if b then Do (OTolerate x) else Ret tt) k) Q s.
  Proof.
    intros H. apply wpD_bind. destruct b; [apply wpD_tolerate|apply wpD_ret]; intros; apply H; auto. discriminate.
  Qed.
  Lemma takes_punct l l' p : takes l l' -> hd_tok l = TPunct p -> reads (TPunct p) l l'.
  Proof.
    intros [(H1 & [t w b] & ->)|(-> & w & b & ->)] E; cbn in E; [|discriminate]. subst t. split; eauto.
  Qed.
  Lemma takes_reads l l' : takes l l' -> hd_tok l <> TEoF -> reads_as (hd_tok l) (hd_text l) l l'.
  Proof.
    intros [(H1 & [t w b] & ->)|(-> & w & b & ->)] E; cbn in E; [|contradiction]. split; eauto.
  Qed.
  Lemma reads_as_reads t w l l' : reads_as t w l l' -> reads t l l'.
  Proof. intros (H & b & E). split; eauto. Qed.
  Lemma reads_hd t l l' : reads t l l' -> hd_tok l = t.
  Proof. intros (_ & w & b & ->). reflexivity. Qed.
  Lemma reads_as_hd t w l l' : reads_as t w l l' -> hd_tok l = t /\ hd_text l = w.
  Proof. intros (_ & b & ->). split; reflexivity. Qed.
  Lemma reads_tl t l l' : reads t l l' -> tl l = l'.
  Proof. intros (_ & w & b & ->). reflexivity. Qed.
  Lemma reads_takes t l l' : reads t l l' -> takes l l'.
  Proof. intros (H & w & b & ->). left. split; eauto. Qed.
  Lemma reads_as_takes t w l l' : reads_as t w l l' -> takes l l'.
  Proof. intros (H & b & ->). left. split; eauto. Qed.
  Lemma reads_one t y l' : ~ reads t [y] l'.
  Proof. intros (H & w & b & E). inversion E; subst. apply H. reflexivity. Qed.
  Lemma reads_as_one t w y l' : ~ reads_as t w [y] l'.
  Proof. intros H. apply reads_as_reads in H. eapply reads_one; eauto. Qed.

  Lemma wpD_expectcomma m (Q : unit -> state -> Prop) s l k : At s l k ->
    (forall s' l', At s' l' k -> comma l l' \/ g_tolerant g = true /\ l' = l -> Q tt s') ->
    wpD m (Do OExpectComma) Q s.
  Proof.
    intros Hi H. cbn [wp]. unfold wp_out, exec. destruct (at_look _ _ _ Hi) as [E1 _].
    pose proof (next_item_D s l k Hi) as N.
    destruct (g_tolerant g) eqn:Et.
    - rewrite E1. destruct (is_punct PComma (hd_tok l)) eqn:Ep; [|eapply H; eauto].
      destruct (next_item g s) as [[i|e| |] s'] eqn:E; auto.
      destruct N as (_ & _ & l' & N3 & N4). eapply H; eauto. left. apply takes_punct; auto.
      destruct (hd_tok l); try discriminate. apply punct_eqb_eq in Ep. congruence.
    - destruct (next_item g s) as [[i|e| |] s'] eqn:E; auto.
      destruct N as (N1 & _ & l' & N3 & N4). destruct (is_punct PComma (it_tok i)) eqn:Ep; auto.
      eapply H; eauto. left. apply takes_punct; auto.
      rewrite N1 in Ep. destruct (hd_tok l); try discriminate. apply punct_eqb_eq in Ep. congruence.
  Qed.
  Lemma wpD_upd m f (Q : unit -> state -> Prop) s l k : At s l k ->
    (forall c, frame_of (f c) = frame_of (f (in_ctx (frame_of c)))) ->
    (forall s', At s' l (frame_of (f (in_ctx k))) -> Q tt s') ->
    wpD m (Do (OUpd f)) Q s.
  Proof.
    intros (Hl & Hk & Hc) Hf H. cbn. apply H. split; [exact Hl|]. split; [|exact Hc].
    cbn [upd_ctx st_ctx]. rewrite Hf, Hk. reflexivity.
  Qed.
  Lemma wpD_guard m b x (Q : unit -> state -> Prop) s :
    ((g_module g = true -> b = Some false) -> Q tt s) -> wpD m (Do (OGuardModule b x)) Q s.
  Proof.
    intros H. cbn. destruct (g_module g); [destruct b as [[]|]|]; cbn; auto; apply H; auto; discriminate.
  Qed.
  Lemma wpD_str m i (Q : option text -> state -> Prop) s :
    (forall o, o = slice js (it_start i) (it_end i) -> Q o s) -> wpD m (Do (OStr i)) Q s.
  Proof. intros H. cbn. apply H; auto. Qed.
  Lemma wpD_newline m (Q : bool -> state -> Prop) s l k : At s l k ->
    (forall b, (b = false -> newline l = false) -> (b = true -> newline l = true \/ hd_tok l = TEoF) -> Q b s) ->
    wpD m (Do ONewLine) Q s.
  Proof.
    intros (<- & _) H. cbn. apply H; intros E; cbn; rewrite E; auto.
    destruct (it_tok (st_look s)); auto.
  Qed.
  Lemma wpD_pure m B (o : op B) (Q : B -> state -> Prop) s :
    match o with
    | OLookPos | OCurPos | OItemPos _ | OPeek | OQuery _ => True
    | _ => False
    end ->
    (forall b, Q b s) -> wpD m (Do o) Q s.
  Proof. intros Ho H. destruct o; cbn in *; try tauto; auto. Qed.
  Lemma wpD_query m t (Q : bool -> state -> Prop) s :
    Q (g_strict_reserved g t) s -> wpD m (Do (OQuery (QStrictReserved t))) Q s.
  Proof. exact (fun H => H). Qed.
  Lemma wpD_look m (Q : item -> state -> Prop) s l k : At s l k ->
    (forall i, it_tok i = hd_tok l -> text_of js i = hd_text l -> plain_item js i -> Q i s) -> wpD m look Q s.
  Proof. intros Hi H. destruct (at_look _ _ _ Hi). apply H; auto. apply Hi. Qed.
  Lemma wpD_call m B (c : call B) (Q : B -> state -> Prop) s l k : At s l k ->
    (forall b s' l', At s' l' (fst k, leaves c (snd k) l b) -> reads_call c (fst k) (snd k) l b l' -> Q b s') ->
    wpD m (Call c) Q s.
  Proof.
    intros (Hl & Hk & Hc) H. cbn [wp]. unfold preD, postD. split; [exact Hc|]. rewrite Hl, Hk.
    intros b s' (l' & H1 & H2). eapply H; eauto.
  Qed.
  Lemma wpD_loop m A X l k (R : X -> list tk -> Prop) (x : X) (b : X -> P (X + A)) (Q : A -> state -> Prop) s :
    At s l k -> R x l ->
    (forall y s1 l1, At s1 l1 k -> R y l1 ->
       wpD m (b y) (fun r s2 => match r with inl y' => exists l2, At s2 l2 k /\ R y' l2 | inr a => Q a s2 end) s1) ->
    wpD m (Loop x b) Q s.
  Proof.
    intros H1 H2 H3. cbn [wp]. exists (fun y s1 => exists l1, At s1 l1 k /\ R y l1).
    split; [eauto|]. split; [discriminate|]. intros y s1 (l1 & ? & ?).
    eapply wp_mono; [|eapply H3; eauto]. cbn beta. intros [y'|a] s2 Hq; auto. split; auto; discriminate.
  Qed.
  Lemma wpD_get m A (f : ctx -> A) (Q : A -> state -> Prop) s l k : At s l k ->
    (forall c, frame_of c = k -> Q (f c) s) -> wpD m (get f) Q s.
  Proof. intros (_ & Hk & _) H. cbn. apply H; auto. Qed.
  Lemma wpD_ctx m (Q : ctx -> state -> Prop) s l k : At s l k ->
    (forall c, frame_of c = k -> Q c s) -> wpD m (Do OCtx) Q s.
  Proof. intros (_ & Hk & _) H. cbn. apply H; auto. Qed.
  Lemma wpD_look_tok m (Q : token -> state -> Prop) s l k : At s l k -> Q (hd_tok l) s -> wpD m look_tok Q s.
  Proof. intros Hi H. destruct (at_look _ _ _ Hi) as [E _]. cbn. rewrite E. auto. Qed.
  Lemma wpD_at_punct m p (Q : bool -> state -> Prop) s l k : At s l k ->
    Q (is_punct p (hd_tok l)) s -> wpD m (at_punct p) Q s.
  Proof. intros Hi H. destruct (at_look _ _ _ Hi) as [E _]. cbn. rewrite E. auto. Qed.
  Lemma wpD_at_keyword m p (Q : bool -> state -> Prop) s l k : At s l k ->
    Q (is_keyword p (hd_tok l)) s -> wpD m (at_keyword p) Q s.
  Proof. intros Hi H. destruct (at_look _ _ _ Hi) as [E _]. cbn. rewrite E. auto. Qed.
  Lemma is_punct_tok p t : is_punct p t = true <-> t = TPunct p.
  Proof.
    split; [|intros ->; cbn; apply punct_eqb_eq; reflexivity].
    destruct t; try discriminate. cbn. intros H. apply punct_eqb_eq in H. congruence.
  Qed.
  Lemma is_keyword_tok p t : is_keyword p t = true <-> t = TKeyword p.
  Proof.
    split; [|intros ->; cbn; apply keyword_eqb_eq; reflexivity].
    destruct t; try discriminate. cbn. intros H. apply keyword_eqb_eq in H. congruence.
  Qed.
  Lemma wpD_expect_punct m p (Q : unit -> state -> Prop) s l k : At s l k ->
    (forall s' l', At s' l' k -> reads (TPunct p) l l' -> Q tt s') -> wpD m (expect_punct p) Q s.
  Proof.
    intros Hi H. apply wpD_bind. eapply wpD_next; eauto. intros i s' l' H1 H2 H3 _.
    destruct (is_punct p (it_tok i)) eqn:Ep; [|exact I]. apply wpD_ret. eapply H; eauto.
    apply is_punct_tok in Ep. apply takes_punct; congruence.
  Qed.
  Lemma takes_keyword l l' p : takes l l' -> hd_tok l = TKeyword p -> reads (TKeyword p) l l'.
  Proof.
    intros [(H1 & [t w b] & ->)|(-> & w & b & ->)] E; cbn in E; [|discriminate]. subst t. split; eauto.
  Qed.
  Lemma wpD_expect_keyword m p (Q : unit -> state -> Prop) s l k : At s l k ->
    (forall s' l', At s' l' k -> reads (TKeyword p) l l' -> Q tt s') -> wpD m (expect_keyword p) Q s.
  Proof.
    intros Hi H. apply wpD_bind. eapply wpD_next; eauto. intros i s' l' H1 H2 H3 _.
    destruct (is_keyword p (it_tok i)) eqn:Ep; [|exact I]. apply wpD_ret. eapply H; eauto.
    apply is_keyword_tok in Ep. apply takes_keyword; congruence.
  Qed.
  Lemma wpD_stream_at m i (Q : text -> state -> Prop) s : Q (text_of js i) s -> wpD m (stream_at i) Q s.
  Proof.
    intros H. apply wpD_bind, wpD_str; auto. intros [w|] E; [|exact I]. cbn.
    unfold text_of in H. rewrite <- E in H. exact H.
  Qed.
  Lemma wpD_get_string m i (Q : text -> state -> Prop) s : Q (text_of js i) s -> wpD m (get_string i) Q s.
  Proof.
    intros H. apply wpD_bind, wpD_str; auto. intros [w|] E; [|exact I]. cbn.
    unfold text_of in H. rewrite <- E in H. exact H.
  Qed.
  Lemma wpD_string_or_empty m i (Q : text -> state -> Prop) s : Q (text_of js i) s -> wpD m (string_or_empty i) Q s.
  Proof. intros H. exact H. Qed.
  Lemma wpD_at_contextual m w (Q : bool -> state -> Prop) s l k : At s l k ->
    Q (text_eqb (hd_text l) (str w)) s -> wpD m (at_contextual w) Q s.
  Proof.
    intros Hi H. destruct (at_look _ _ _ Hi) as [_ E]. apply wpD_bind. cbn -[stream_at text_eqb str].
    apply wpD_stream_at. cbn -[text_eqb str]. rewrite E. exact H.
  Qed.
  Lemma wpD_at_async_function m (Q : bool -> state -> Prop) s l k : At s l k ->
    (forall a, Q a s) -> wpD m at_async_function Q s.
  Proof.
    intros Hi H. apply wpD_bind. eapply wpD_at_contextual; eauto. destruct (text_eqb _ _); [|cbn; auto].
    apply wpD_bind, wpD_pure; cbn; auto. intros [pk|]; cbn; auto.
  Qed.
  Lemma at_peek s l k : At s l k ->
    match first_non_comment (st_rest s) with Some i => it_tok i | None => TEoF end = hd_tok (tl l).
  Proof.
    intros (<- & _). unfold toks. cbn [tl]. induction (st_rest s) as [|r rest IH]; [reflexivity|].
    cbn [first_non_comment filter]. unfold nc at 1. destruct (is_comment (it_tok (r_item r))); [exact IH|reflexivity].
  Qed.
  Lemma wpD_at_import_call m (Q : bool -> state -> Prop) s l k : At s l k ->
    Q (is_keyword KImport (hd_tok l) && is_punct POpenParen (hd_tok (tl l))) s -> wpD m at_import_call Q s.
  Proof.
    intros Hi H. apply wpD_bind. eapply wpD_at_keyword; eauto. destruct (is_keyword _ _); [|exact H].
    rewrite <- (at_peek _ _ _ Hi) in H. cbn. destruct (first_non_comment _); exact H.
  Qed.
  Lemma wpD_at_lexical_decl m (Q : bool -> state -> Prop) s l k : At s l k ->
    (let t := hd_tok (tl l) in
     Q (is_ident t || is_punct POpenBracket t || is_punct POpenBrace t || is_keyword KLet t || is_keyword KYield t) s) ->
    wpD m at_lexical_decl Q s.
  Proof.
    intros Hi H. rewrite <- (at_peek _ _ _ Hi) in H. cbn. destruct (first_non_comment _); exact H.
  Qed.
  Lemma wpD_at_return_arg m (Q : bool -> state -> Prop) s l k : At s l k ->
    (forall a, (a = true -> newline l = false \/ hd_tok l = TString \/ exists t, hd_tok l = TTemplate t) -> Q a s) ->
    wpD m at_return_arg Q s.
  Proof.
    intros Hi H. apply wpD_bind. eapply wpD_newline; eauto. intros b H1 H2.
    apply wpD_bind. eapply wpD_look_tok; eauto. destruct b; apply wpD_ret, H; auto.
    intros E. apply orb_true_iff in E. right. destruct (hd_tok l); destruct E as [E|E]; try discriminate; eauto.
  Qed.
  Lemma wpD_qualified m t (Q : bool -> state -> Prop) s :
    (forall a, Q a s) -> wpD m (qualified_prop_name t) Q s.
  Proof. intros H. cbn. auto. Qed.
  Lemma frame_cover f a b c : frame_of (set_first_covert f (set_assign_target a (set_binding_element b c))) = frame_of c.
  Proof. reflexivity. Qed.
  Lemma at_cover s l k f a b : At s l k ->
    At (upd_ctx (fun c => set_first_covert (f c) (set_assign_target (a c) (set_binding_element (b c) c))) s) l k.
  Proof. intros (H1 & H2 & H3). split; [exact H1|]. split; [exact H2|exact H3]. Qed.
  Lemma wpD_isolated m A (p : P A) (Q : A -> state -> Prop) s l k : At s l k ->
    (forall s1, At s1 l k ->
      wpD m p (fun a s2 => exists l' k', At s2 l' k' /\ forall s3, At s3 l' k' -> Q a s3) s1) ->
    wpD m (isolated p) Q s.
  Proof.
    intros Hi H. unfold isolated, isolate_cover, get_cover.
    cbn [wp exec wp_out upd]. eapply wp_mono; [|apply H; apply at_cover, Hi].
    cbn beta. intros a s2 (l' & k' & H1 & H2). cbn. apply H2, at_cover, H1.
  Qed.
  Lemma wpD_inheriting m A (p : P A) (Q : A -> state -> Prop) s l k : At s l k ->
    (forall s1, At s1 l k ->
      wpD m p (fun a s2 => exists l' k', At s2 l' k' /\ forall s3, At s3 l' k' -> Q a s3) s1) ->
    wpD m (inheriting p) Q s.
  Proof.
    intros Hi H. unfold inheriting, inherit_cover, isolate_cover, get_cover.
    cbn [wp exec wp_out upd]. eapply wp_mono; [|apply H; apply at_cover, Hi].
    cbn beta. intros a s2 (l' & k' & H1 & H2). cbn.
    apply H2. exact (at_cover _ _ _ _ _ _ H1).
  Qed.
  Lemma wpD_get_cover m (Q : cover -> state -> Prop) s : (forall c, Q c s) -> wpD m get_cover Q s.
  Proof. intros H. apply H. Qed.
  Lemma wpD_isolate_cover m (Q : cover -> state -> Prop) s l k : At s l k ->
    (forall c s', At s' l k -> Q c s') -> wpD m isolate_cover Q s.
  Proof. intros Hi H. cbn. apply H, at_cover, Hi. Qed.
  Lemma wpD_set_isolate_cover m cg (Q : unit -> state -> Prop) s l k : At s l k ->
    (forall s', At s' l k -> Q tt s') -> wpD m (set_isolate_cover cg) Q s.
  Proof. intros Hi H. destruct cg as [[b a] f]. cbn. apply H, at_cover, Hi. Qed.
  Lemma wpD_set_inherit_cover m cg (Q : unit -> state -> Prop) s l k : At s l k ->
    (forall s', At s' l k -> Q tt s') -> wpD m (set_inherit_cover cg) Q s.
  Proof. intros Hi H. destruct cg as [[b a] f]. cbn. apply H. exact (at_cover _ _ _ _ _ _ Hi). Qed.

  Lemma post_introD B (c : call B) s b s' l k l' k' :
    At s l k -> At s' l' k' -> k' = (fst k, leaves c (snd k) l b) -> reads_call c (fst k) (snd k) l b l' -> postD B c s b s'.
  Proof. intros (<- & <- & _) H1 -> H2. exists l'. split; auto. Qed.
  Lemma start_At s : clean js s -> exists ai aw st fn pp l, At s l (mkScope ai aw st fn, pp).
  Proof.
    intros H. do 5 eexists. exists (toks js s). split; [reflexivity|]. split; [reflexivity|exact H].
  Qed.
End PassD.

(** ** Facts about the grammar alone *)
Section Facts.
  Variable tolerant module : bool.
  Variable reserved : token -> bool.
  Notation D := (d tolerant module reserved).

  Definition atom (e : Expr) : Prop :=
    match e with ELiteral _ | EIdent _ => True | _ => False end.

  Lemma bin_ops_not_atom t n mk a b : In (t, (n, mk)) bin_ops -> ~ atom (mk a b).
  Proof. cbn. intros H. repeat destruct H as [H|H]; try contradiction; inversion H; subst; cbn; tauto. Qed.

  Lemma level_atom S n l v l' : D S n l v l' -> forall k e, n = Level k -> v = VExpr e -> atom e ->
    D S Exponent l (VExpr e) l'.
  Proof.
    induction 1; intros k' e' En Ev Ha; try discriminate; inversion En; inversion Ev; subst.
    - eapply IHd; eauto.
    - exfalso. eapply bin_ops_not_atom; eauto.
    - assumption.
  Qed.

  Lemma conditional_atom S l e l' : D S Conditional l (VExpr e) l' -> atom e -> D (with_in true S) Primary l (VExpr e) l'.
  Proof.
    intros H Ha. inversion H; subst; [|contradiction].
    assert (HE : D S Exponent l (VExpr e) l') by (eapply level_atom; eauto).
    inversion HE; subst; [|contradiction].
    match goal with X : D S Unary _ _ _ |- _ => inversion X; subst; try contradiction end.
    match goal with X : D S Update _ _ _ |- _ => inversion X; subst; try contradiction end.
    match goal with X : D _ CallExpression _ _ _ |- _ => inversion X; subst; try contradiction end; auto.
    match goal with X : D _ NewExpression _ _ _ |- _ => inversion X; subst; contradiction end.
  Qed.
  Lemma expression_atom S l e l' : D S Expression l (VExpr e) l' -> atom e -> D (with_in true S) Primary l (VExpr e) l'.
  Proof.
    intros H Ha. inversion H; subst; [|contradiction].
    match goal with X : D S Assignment _ _ _ |- _ => inversion X; subst; try contradiction end.
    eapply conditional_atom; eauto.
  Qed.

  Lemma reads_to t l l' : reads t l l' -> hd_tok l = t.
  Proof. intros (_ & w & b & ->). reflexivity. Qed.
  Lemma reads_as_to t w l l' : reads_as t w l l' -> hd_tok l = t.
  Proof. intros (_ & b & ->). reflexivity. Qed.

  Lemma spans_hd S n l v l' : D S n l v l' -> n = Spans ->
    hd_tok l = TTemplate THead \/ hd_tok l = TTemplate TNoSub.
  Proof. induction 1; intros E; try discriminate; auto. Qed.
  Lemma template_hd S l v l' : D S Template l v l' -> hd_tok l = TTemplate THead \/ hd_tok l = TTemplate TNoSub.
  Proof. intros H. inversion H; subst. eapply spans_hd; eauto. Qed.
  Lemma parenthesised_hd S l v l' : D S Parenthesised l v l' -> hd_tok l = TPunct POpenParen.
  Proof. intros H. inversion H; subst; eapply reads_to; eauto. Qed.
  Lemma array_hd S l v l' : D S ArrayLiteral l v l' -> hd_tok l = TPunct POpenBracket.
  Proof. intros H. inversion H; subst; eapply reads_to; eauto. Qed.
  Lemma object_hd S l v l' : D S ObjectLiteral l v l' -> hd_tok l = TPunct POpenBrace.
  Proof. intros H. inversion H; subst; eapply reads_to; eauto. Qed.
  Lemma class_hd S o l v l' : D S (ClassDef o) l v l' -> hd_tok l = TKeyword KClass.
  Proof. intros H. inversion H; subst; eapply reads_to; eauto. Qed.

  (** Kills derivations that start with the wrong token. *)
  Ltac heads :=
    repeat match goal with
    | H : D _ Template _ _ _ |- _ => apply template_hd in H; destruct H
    | H : D _ Parenthesised _ _ _ |- _ => apply parenthesised_hd in H
    | H : D _ ArrayLiteral _ _ _ |- _ => apply array_hd in H
    | H : D _ ObjectLiteral _ _ _ |- _ => apply object_hd in H
    | H : D _ (ClassDef _) _ _ _ |- _ => apply class_hd in H
    | H : reads _ ?l _ , E : hd_tok ?l = _ |- _ => apply reads_to in H
    | H : reads_as _ _ ?l _ , E : hd_tok ?l = _ |- _ => apply reads_as_to in H
    end.

  Lemma string_expression S l e l' : D S Expression l (VExpr e) l' -> hd_tok l = TString ->
    forall lit, e = ELiteral lit -> exists w, lit = LString w /\ reads_as TString w l l'.
  Proof.
    intros H Hd lit ->. apply expression_atom in H; [|exact I].
    inversion H; subst; try (exfalso; heads; congruence). eauto.
  Qed.
  Lemma name_expression S l x l' : D S Expression l (VExpr (EIdent x)) l' -> hd_tok l = TIdent ->
    reads_as TIdent x l l'.
  Proof.
    intros H Hd. apply expression_atom in H; [|exact I].
    inversion H; subst; auto; exfalso; heads; congruence.
  Qed.
  Lemma name_primary S l e l' : D S Primary l (VExpr e) l' -> hd_tok l = TIdent \/ hd_tok l = TKeyword KYield ->
    (exists x, e = EIdent x) \/ (exists f, e = EFunction f).
  Proof. intros H Hd. inversion H; subst; eauto; destruct Hd; exfalso; heads; congruence. Qed.

  Lemma key_token S l x c l' : D S PropertyName l (VKey x c) l' -> hd_tok l <> TPunct POpenBracket ->
    exists t w, reads_as t w l l' /\ (t = TString \/ t = TNumeric \/ name_token t).
  Proof.
    intros H Hd. inversion H; subst; eauto 6.
    exfalso. apply Hd. eapply reads_to; eauto.
  Qed.
  Lemma key_pat S l x c l' : D S PropertyName l (VKey x c) l' -> forall p, x <> PKPat p.
  Proof.
    intros H p ->. inversion H; subst.
    match goal with X : computed_key ?e = PKPat _ |- _ => destruct e; try discriminate;
      match type of X with computed_key (ELiteral ?y) = _ => destruct y; discriminate | _ => discriminate end end.
  Qed.
  Lemma binding_one S v y x l' : ~ D S (Binding v) [y] x l'.
  Proof.
    intros H. inversion H; subst;
      match goal with X : reads _ _ _ |- _ => destruct X as (N & ? & ? & E); inversion E; subst; apply N; reflexivity
                 | X : reads_as _ _ _ _ |- _ => destruct X as (N & ? & E); inversion E; subst; apply N; reflexivity end.
  Qed.
  Lemma binding_ident S v l x l' : D S (Binding v) l (VName x) l' -> hd_tok l = TIdent -> reads_as TIdent x l l'.
  Proof. intros H Hd. inversion H; subst; auto; exfalso; heads; congruence. Qed.
  Lemma generator_value S l v l' : D S GeneratorMethod l (VMethod v) l' -> exists ps b, v = method ps b true false.
  Proof. intros H. inversion H; subst; eauto. Qed.
  Lemma method_value S l a v l' : D S (Method a) l (VMethod v) l' -> exists ps b, v = method ps b false a.
  Proof. intros H. inversion H; subst; eauto. Qed.
End Facts.
