(** Every statement, expression, declaration and part inside a derived tree is itself derived,
    from a place in the source. *)
From Verif Require Import Grammar Derive Derived Sentence.
From Verif Require Export Tree.
Export Parser.

(** [l] is what remains of [src] from some place on. *)
Definition tail_of (src l : list tk) : Prop := exists w, src = w ++ l.
Lemma tail_refl src : tail_of src src.
Proof. exists []. reflexivity. Qed.
Lemma tail_cons src x l : tail_of src (x :: l) -> tail_of src l.
Proof. intros [w ->]. exists (w ++ [x]). rewrite <- app_assoc. reflexivity. Qed.
Lemma tail_reads src t l l' : reads t l l' -> tail_of src l -> tail_of src l'.
Proof. intros (_ & w & b & ->). apply tail_cons. Qed.
Lemma tail_reads_as src t w l l' : reads_as t w l l' -> tail_of src l -> tail_of src l'.
Proof. intros (_ & b & ->). apply tail_cons. Qed.
Lemma tail_takes src l l' : takes l l' -> tail_of src l -> tail_of src l'.
Proof. intros [(_ & x & ->)|(-> & _)]; [apply tail_cons|auto]. Qed.
Lemma tail_anything src w l l' : anything w l l' -> tail_of src l -> tail_of src l'.
Proof. intros [H _]. apply tail_takes. exact H. Qed.
Lemma tail_word src w l l' : word w l l' -> tail_of src l -> tail_of src l'.
Proof. apply tail_anything. Qed.
Lemma tail_comma src l l' : comma l l' -> tail_of src l -> tail_of src l'.
Proof. apply tail_reads. Qed.
Lemma tail_semi src l l' : semi l l' -> tail_of src l -> tail_of src l'.
Proof. intros [H|(-> & _)]; [eapply tail_reads; eauto|auto]. Qed.

Section Found.
  Variable tolerant module : bool.
  Variable reserved : token -> bool.
  Variable src : list tk.
  Notation D := (d tolerant module reserved).
  Notation tl_ := (tail_of src).

  (** [v] is derived at some place of the source. *)
  Definition spelled (v : val) : Prop := exists S nt l l', tail_of src l /\ D S nt l v l'.

  Definition found (n : node) : Prop :=
    match n with
    | NExpr e =>
        (exists i, e = EIdent i) \/ spelled (VExpr e) \/ spelled (VMethod (PVExpr e))
        \/ (exists f, e = EFunction f /\ spelled (VFunction f))
        \/ (exists x es, e = ESequence (x :: es) /\ spelled (VExpr x) /\ spelled (VExprs es))
        \/ exists b, tolerant = true /\ e = EClass (mkClass None None b)
    | NStmt s =>
        spelled (VStmt s)
        \/ (exists e, s = SExpr e /\ spelled (VPart (PPStmt s)))
        \/ tolerant = true /\ (s = SEmpty \/ exists b, s = SExpr (EClass (mkClass None None b)))
    | NDecl (DVariable k ds) =>
        spelled (VDecl (DVariable k ds)) \/ spelled (VExport (MENamed (NEDecl (DVariable k ds))))
    | NImport i => spelled (VImport i)
    | NExport e => spelled (VExport e)
    | NPart x => spelled (VPart x)
    | _ => True
    end.
  Definition all (n : node) : Prop := forall above m, inside n above m -> found m.
  Lemma all_intro n : found n -> Forall all (children n) -> all n.
  Proof.
    intros H K above m X. inversion X; subst; [exact H|].
    rewrite Forall_forall in K. eapply K; eauto.
  Qed.
  Lemma all_name i : all (NName i).
  Proof. apply all_intro; [exact I|constructor]. Qed.
  Lemma all_quasi i : all (NQuasi i).
  Proof. apply all_intro; [exact I|constructor]. Qed.

  Definition nodes_of (v : val) : list node :=
    match v with
    | VPart p => [NPart p] | VParts l => map NPart l | VStmt s => [NStmt s]
    | VCase c => [NCase c] | VCases l => map NCase l
    | VVarDecl x => [NVarDecl x] | VVarDecls l => map NVarDecl l | VDecl x => [NDecl x]
    | VExpr e => [NExpr e] | VExprs l => map NExpr l | VElements l => opts NExpr l
    | VProperty x => [NObjProp x] | VProperties l => map NObjProp l
    | VKey x _ => [NKey x] | VMethod v => [NMethod v]
    | VTemplate t => [NTemplate t] | VSpans qs es => map NQuasi qs ++ map NExpr es
    | VQuasi q => []
    | VFunction f => [NFunction f] | VParam a => [NArg a] | VParams l => map NArg l
    | VClass c => [NClass c] | VMember x => [NProperty x] | VMembers l => map NProperty l
    | VPrefix _ _ => []
    | VName i => [] | VPat x => [NPat x] | VPats l => opts NArrPart l
    | VPatProperty x => [NObjPart x] | VPatProperties l => map NObjPart l
    | VImport i => [NImport i] | VSpecifier i => import_names i | VSpecifiers l => flat_map import_names l
    | VExport e => [NExport e] | VDefault (DEDecl x) => [NDecl x] | VDefault (DEExpr e) => [NExpr e]
    | VExportName e => export_names e | VExportNames l => flat_map export_names l
    | VLiteral l => [NLit l]
    end.
  Definition needs (n : nt) : Prop :=
    match n with ForRest (Some i) => Forall all (init_nodes i) | _ => True end.

  Lemma all_arrow_param a : all (NArg a) -> all (NArg (arrow_param a)).
  Proof.
    intros H. assert (X : all (NArg (FAPat (PIdentifier (str "yield")))) /\ all (NArg (FAExpr (EIdent (str "yield"))))).
    { split; repeat (apply all_intro; [cbn; eauto|]; repeat constructor); apply all_name. }
    destruct X as [X1 X2].
    destruct a as [e|p]; [destruct e as [| | |o l r| | | | | | | | | | | | | | | | | | | | |]|destruct p as [| | | |l r]]; try exact H;
      destruct r; try exact H; destruct argument; try exact H; assumption.
  Qed.
  Lemma all_arrow_params l : Forall all (map NArg l) -> Forall all (map NArg (map arrow_param l)).
  Proof. induction l; cbn [map]; intros H; [constructor|]. inversion H; subst. constructor; [apply all_arrow_param|]; auto. Qed.
  Lemma all_key e : all (NExpr e) -> all (NKey (computed_key e)).
  Proof.
    intros H. assert (X : all (NKey (PKExpr e))) by (apply all_intro; [exact I|cbn; auto]).
    destruct e; try exact X. destruct l; try exact X; repeat (apply all_intro; [exact I|]; repeat constructor).
  Qed.
  Lemma all_children n : all n -> Forall all (children n).
  Proof. intros H. apply Forall_forall. intros k K above m X. eapply H. econstructor; eauto. Qed.
  Lemma opts_app {A} (f : A -> node) l m : opts f (l ++ m) = opts f l ++ opts f m.
  Proof. apply flat_map_app. Qed.
  Lemma args_exprs es : Forall all (map NExpr es) -> Forall all (map NArg (map FAExpr es)).
  Proof. induction es; cbn [map]; intros H; [constructor|]. inversion H; subst. constructor; [apply all_intro; [exact I|cbn; auto]|auto]. Qed.

  Ltac chain :=
    repeat match goal with
    | H : reads _ ?a ?b, T : tail_of src ?a |- _ =>
        lazymatch goal with T' : tail_of src b |- _ => fail | _ => pose proof (tail_reads _ _ _ _ H T) end
    | H : reads_as _ _ ?a ?b, T : tail_of src ?a |- _ =>
        lazymatch goal with T' : tail_of src b |- _ => fail | _ => pose proof (tail_reads_as _ _ _ _ _ H T) end
    | H : comma ?a ?b, T : tail_of src ?a |- _ =>
        lazymatch goal with T' : tail_of src b |- _ => fail | _ => pose proof (tail_comma _ _ _ H T) end
    | H : semi ?a ?b, T : tail_of src ?a |- _ =>
        lazymatch goal with T' : tail_of src b |- _ => fail | _ => pose proof (tail_semi _ _ _ H T) end
    | H : word _ ?a ?b, T : tail_of src ?a |- _ =>
        lazymatch goal with T' : tail_of src b |- _ => fail | _ => pose proof (tail_word _ _ _ _ H T) end
    | H : anything _ ?a ?b, T : tail_of src ?a |- _ =>
        lazymatch goal with T' : tail_of src b |- _ => fail | _ => pose proof (tail_anything _ _ _ _ H T) end
    | H : tail_of src ?a -> _, T : tail_of src ?a |- _ =>
        let X := fresh "F" in pose proof (H T) as X; clear H; destruct X
    end.
  Ltac split_prem :=
    repeat match goal with
    | H : _ /\ _ |- _ => destruct H
    | H : exists _, _ |- _ => destruct H
    | H : _ \/ _ |- _ => destruct H
    end; subst.
  Ltac simp :=
    cbn [nodes_of needs map opts flat_map opt app init_nodes left_nodes children import_names export_names] in *;
    repeat match goal with
    | H : True -> _ |- _ => specialize (H I)
    | H : Forall all [] |- _ => clear H
    | H : Forall all (_ :: _) |- _ => inversion H; clear H; subst
    | H : Forall all (_ ++ _) |- _ => apply Forall_app in H; destruct H
    end.
  Ltac derived := eexists; eexists; eexists; eexists; split; [|eassumption]; assumption.
  Ltac foundP :=
    lazymatch goal with
    | |- found (NExpr (EIdent _)) => left; eexists; reflexivity
    | |- found (NExpr _) => first [right; left; derived | right; right; left; derived | right; right; right; left; eexists; split; [reflexivity|derived] | right; right; right; right; left; eexists; eexists; split; [reflexivity|split; derived] | right; right; right; right; right; eexists; split; [assumption|reflexivity]]
    | |- found (NStmt _) => first [left; derived | right; left; eexists; split; [reflexivity|derived] | right; right; split; [assumption|left; reflexivity] | right; right; split; [assumption|right; eexists; reflexivity]]
    | |- found (NDecl (DVariable _ _)) => first [left; derived | right; derived]
    | |- found (NImport _) => derived
    | |- found (NExport _) => derived
    | |- found (NPart _) => derived
    | |- found _ => exact I
    end.
  Ltac go :=
    lazymatch goal with
    | |- Forall all [] => constructor
    | |- Forall all (_ :: _) => constructor; go
    | |- Forall all (_ ++ _) => apply Forall_app; split; go
    | |- Forall all (map NName _) => apply Forall_forall; intros ? X; apply in_map_iff in X as (? & <- & _); apply all_name
    | |- Forall all (map NArg (map arrow_param _)) => apply all_arrow_params; go
    | |- Forall all (map NArg (map FAExpr _)) => apply args_exprs; go
    | |- Forall all (map _ (_ ++ _)) => rewrite map_app; go
    | |- Forall all (opts _ (_ ++ _)) => rewrite opts_app; go
    | |- Forall all (flat_map _ (_ ++ _)) => rewrite flat_map_app; go
    | |- Forall all (map NQuasi _) => apply Forall_forall; intros ? X; apply in_map_iff in X as (? & <- & _); apply all_quasi
    | |- Forall all _ => first [assumption | progress cbn [map opts flat_map opt app init_nodes left_nodes children import_names export_names is_method method]; go | eauto]
    | |- all (NName _) => apply all_name
    | |- all (NKey (computed_key _)) => apply all_key; go
    | |- all _ => first [assumption | apply all_intro; [foundP|]; cbn [map opts flat_map opt app init_nodes left_nodes children import_names export_names is_method]; go]
    end.
  Definition motive n l v l' : Prop := tail_of src l -> tail_of src l' /\ (needs n -> Forall all (nodes_of v)).

  Lemma der_found : forall S n l v l', D S n l v l' -> D S n l v l' -> motive n l v l'.
  Proof.
    fix IH 6. intros S n l v l' H. destruct H.
    all: split_prem.
    all: repeat match goal with
         | H : D ?S0 ?n0 ?a ?w ?b |- _ =>
             lazymatch goal with M : motive n0 a w b |- _ => fail | _ => pose proof (IH S0 n0 a w b H H) end
         end.
    all: clear IH.
    all: intros D0 T.
    all: unfold motive in *.
    all: chain.
    all: split; [first [assumption|idtac]|].
    all: intros N.
    all: simp.
    all: try solve [go].
    all: try match goal with H : Forall all _ -> Forall all [NStmt ?s] |- Forall all [NStmt ?s] => apply H; go end.
    all: try solve [destruct init as [[kind ds|e0]|]; cbn [needs init_nodes] in N; try (inversion N; subst); go].
    all: try match goal with
         | H : all (NExpr (EArrowParamPlaceHolder _ _)) |- _ => apply all_children in H; cbn [children] in H; solve [go]
         | H : all (NExpr (ESequence _)) |- _ => apply all_children in H; cbn [children] in H; solve [go]
         | H : In (_, (_, ?mk)) bin_ops |- Forall all [NExpr (?mk _ _)] =>
             unfold bin_ops in H; cbn [In] in H; split_prem;
             repeat match goal with H : (_, _) = (_, _) |- _ => inversion H; clear H; subst end; first [contradiction|go]
         end.
  Qed.
End Found.

Section Occurring.
  Variables (sc : scanner) (tolerant module : bool) (js : text).
  Hypothesis plain : plain_scan sc js.
  Notation src := (source_tokens sc js).
  Notation D := (d tolerant module (sc_strict_reserved sc)).
  Notation all := (all tolerant module (sc_strict_reserved sc) src).

  Lemma parts_found ds l1 S n : D S n src (VParts ds) l1 -> needs tolerant module (sc_strict_reserved sc) src n ->
    tail_of src l1 /\ Forall all (map NPart ds).
  Proof. intros H N. destruct (der_found _ _ _ _ _ _ _ _ _ H H (tail_refl _)) as [T F]. auto. Qed.
  Lemma parts_read_found parts l' : parts_read tolerant module (sc_strict_reserved sc) src parts l' ->
    tail_of src l' /\ Forall all (map NPart parts).
  Proof.
    intros [[ds l1 b l2 H1 _ _ H2|ds l1 x l2 b l3 H1 _ H2 _ H3]|[H _]].
    - apply parts_found in H1 as [T F]; [|exact I].
      destruct (der_found _ _ _ _ _ _ _ _ _ H2 H2 T) as [T2 F2]. split; [exact T2|]. rewrite map_app. apply Forall_app. split; [exact F|exact (F2 I)].
    - apply parts_found in H1 as [T F]; [|exact I].
      destruct (der_found _ _ _ _ _ _ _ _ _ H2 H2 T) as [T2 F2].
      destruct (der_found _ _ _ _ _ _ _ _ _ H3 H3 T2) as [T3 F3]. split; [exact T3|]. rewrite map_app. apply Forall_app.
      split; [exact F|]. specialize (F2 I). specialize (F3 I). cbn [nodes_of map] in *. inversion F2; subst. constructor; auto.
    - apply parts_found in H; [exact H|exact I].
  Qed.
  Lemma handed_found n : handed_out sc tolerant module js n -> all n.
  Proof.
    destruct 1 as [i s parts s' q Hs Hy Hi|i s parts s1 m q s2 x Hs Hy Hp Hi|i s parts s1 m e s2 Hs Hy Hp].
    - destruct (yields_sentence sc tolerant module js plain i s Hs _ _ Hy) as [l' H]. apply parts_read_found in H as [_ H].
      rewrite Forall_forall in H. apply H. apply in_map. exact Hi.
    - destruct (program_sentence sc tolerant module js plain i s Hs _ _ _ _ _ Hy Hp) as (l' & H & _).
      assert (H' : parts_read tolerant module (sc_strict_reserved sc) src (parts ++ parts_of q) l') by (left; exact H).
      apply parts_read_found in H' as [_ K]. rewrite Forall_forall in K. apply K. apply in_map. apply in_or_app. auto.
    - destruct (expression_sentence sc tolerant module js plain i s Hs _ _ _ _ _ Hy Hp) as (l1 & l' & H & K).
      apply parts_read_found in H as [T _]. destruct (der_found _ _ _ _ _ _ _ _ _ K K T) as [_ F].
      specialize (F I). inversion F; subst. assumption.
  Qed.
  (** Every node of a tree handed out is found in the source. *)
  Theorem occurs_found above n : occurs sc tolerant module js above n ->
    found tolerant module (sc_strict_reserved sc) src n.
  Proof. intros (root & H & K). apply handed_found in H. eapply H. exact K. Qed.
End Occurring.

(** ** Inversions *)
Section Inversions.
  Variable tolerant module : bool.
  Variable reserved : token -> bool.
  Variable src : list tk.
  Notation D := (d tolerant module reserved).

  Definition plain_stmt (s : Stmt) : bool :=
    match s with
    | SVar _ | SReturn _ | SThrow _ | SBreak _ | SContinue _ | SDebugger | SExpr _ => true
    | _ => false
    end.
  Lemma for_rest_stmt S i l s l' : D S (ForRest i) l (VStmt s) l' -> plain_stmt s = false.
  Proof. intros H. inversion H; subst; reflexivity. Qed.
  Lemma plain_stmt_core s : spelled tolerant module reserved src (VStmt s) -> plain_stmt s = true ->
    exists S l l', tail_of src l /\ D S Statement l (VStmt s) l'.
  Proof.
    intros (S & n & l & l' & T & H) P.
    inversion H; subst; cbn [plain_stmt] in P; try discriminate P;
      try match goal with H : d _ _ _ _ (ForRest _) _ _ _ |- _ => apply for_rest_stmt in H; congruence end.
    all: try match goal with T0 : tail_of _ ?a, H2 : d _ _ _ ?S0 Statement ?a _ ?b |- _ => exists S0, a, b; split; [exact T0|exact H2] end.
    all: match goal with T0 : tail_of _ ?z, H1 : reads _ ?z ?a, H2 : d _ _ _ ?S0 Statement ?a _ ?b |- _ => exists S0, a, b; split; [eapply tail_reads; eauto|exact H2] end.
  Qed.

  (** A property of an expression that the productions passing it on keep. *)
  Lemma update_core o e : spelled tolerant module reserved src (VExpr (EUpdate o e false)) ->
    exists S t l l1 l', tail_of src l /\ D S CallExpression l (VExpr e) l1 /\ In (t, o) update_ops
      /\ newline l1 = false /\ reads t l1 l'.
  Proof.
    intros (S & n & l & l' & T & H). remember (VExpr (EUpdate o e false)) as v eqn:E. revert T.
    induction H; intros T; try discriminate E; try (inversion E; subst; eauto 10; fail); try (eapply IHd; eauto using tail_reads; fail).
    all: try (inversion E; subst; eauto 10 using tail_reads; fail).
    - exfalso. unfold bin_ops in *. cbn [In] in *.
      repeat match goal with H : _ \/ _ |- _ => destruct H | H : (_, _) = (_, _) |- _ => inversion H; clear H; subst end; try discriminate E; contradiction.
  Qed.
  Lemma yield_core e dg : spelled tolerant module reserved src (VExpr (EYield (Some e) dg)) ->
    exists S l l1 l', tail_of src l /\ reads (TKeyword KYield) l l1 /\ newline l1 = false
      /\ (dg = false /\ D S Assignment l1 (VExpr e) l'
          \/ dg = true /\ exists l2, reads (TPunct PAsterisk) l1 l2 /\ D S Assignment l2 (VExpr e) l').
  Proof.
    intros (S & n & l & l' & T & H). remember (VExpr (EYield (Some e) dg)) as v eqn:E. revert T.
    induction H; intros T; try discriminate E; try (inversion E; subst; eauto 10; fail); try (eapply IHd; eauto using tail_reads; fail).
    all: try (inversion E; subst; eauto 10 using tail_reads; fail).
    all: try (inversion E; subst; do 4 eexists; split; [exact T|]; eauto 10; fail).
    - exfalso. unfold bin_ops in *. cbn [In] in *.
      repeat match goal with H : _ \/ _ |- _ => destruct H | H : (_, _) = (_, _) |- _ => inversion H; clear H; subst end; try discriminate E; contradiction.
  Qed.
End Inversions.
