(** Termination and progress: every function consumes input, and the recursion
    depth is at most linear in the number of unread tokens. *)
From Verif Require Export Runs.

(** Length of the longest chain of calls that may start from [c] before any token is consumed. *)
Definition rank {B} (c : call B) : nat :=
  match c with
  | CNextPart => 15
  | CStatementListItem | CIfClause => 14
  | CStatement | CDirectivePrologues => 13
  | CDirective | CLabelledStatement | CExpressionStatement => 12
  | CExpression | CAsyncArg => 11
  | CAssignmentExpr => 10
  | CConditionalExpr => 9
  | CBinaryExpression => 8
  | CExponentiation => 7
  | CUnaryExpression => 6
  | CUpdateExpr => 5
  | CLeftHandSideExprAllowCall | CLeftHandSideExpr => 4
  | CPrimaryExpression => 3
  | CForLoop _ => 5
  | CVarDeclList _ | CBindingList _ _ | CVariableDeclList _ | CFormalParam _ => 4
  | CVarDecl _ | CVariableDecl _ | CLexicalBinding _ _ | CPatternWithDefault => 3
  | CPattern _ | CTemplateLiteral | CFnStmt | CFnName _ | CImportSpecifier | CImportDefaultSpecifier
  | CExportSpecifier | CBreakStmt | CContinueStmt | CMethodBody _ _ | CPropertyMethodBody _ _
  | CAsyncPropertyMethod | CPropertyMethod | CGeneratorMethod | CGetterMethod | CSetterMethod
  | CClassEl _ | CObjProp _ | CPropertyPattern => 2
  | _ => 1
  end.

(** Tokens consumed at least. *)
Definition consumes {B} (c : call B) : nat :=
  match c with
  | CConsumeSemicolon | CDirectivePrologues => 0
  | _ => 1
  end.

Definition preA (m : nat) B (c : call B) (s : state) : Prop := 20 * size s + rank c < m.
Definition postA B (c : call B) (s : state) (b : B) (s' : state) : Prop :=
  size s' + consumes c <= size s.

Section PassA.
  Variable g : cfg.
  Notation wpA m p Q s := (wp g true preA postA (fun _ _ => True) True m p Q s).

  Lemma wpA_ret m A (a : A) (Q : A -> state -> Prop) s : Q a s -> wpA m (Ret a) Q s.
  Proof. exact (fun H => H). Qed.

  Lemma wpA_bind m A B (p : P A) (k : A -> P B) Q s :
    wpA m p (fun a s' => wpA m (k a) Q s') s -> wpA m (Bind p k) Q s.
  Proof. exact (fun H => H). Qed.

  (** Cut at a sequence point: only the consumption of the first half is remembered. *)
  Lemma wpA_cut c m A B (p : P A) (k : A -> P B) Q s :
    wpA m p (fun _ s' => size s' + c <= size s) s ->
    (forall a s', size s' + c <= size s -> wpA m (k a) Q s') ->
    wpA m (Bind p k) Q s.
  Proof. intros H1 H2. apply wpA_bind. eapply wp_mono; [|exact H1]. intros. apply H2. auto. Qed.

  Lemma wpA_next m (Q : item -> state -> Prop) s :
    (forall s', size s = S (size s') -> Q (st_look s) s') -> wpA m next Q s.
  Proof.
    intros H. unfold next. cbn [wp]. unfold wp_out, exec.
    destruct (next_item g s) as [[i|e| |] s'] eqn:E; auto.
    - destruct (next_item_ok _ _ _ _ E) as (-> & _ & ?). auto.
    - exfalso. eapply next_item_not_nofuel; eauto.
  Qed.

  Lemma wpA_nextignored m (Q : unit -> state -> Prop) s :
    (forall s', size s' <= size s -> Q tt s') -> wpA m (Do ONextIgnored) Q s.
  Proof.
    intros H. cbn [wp]. unfold wp_out, exec.
    destruct (next_item g s) as [[i|e| |] s'] eqn:E; auto.
    - destruct (next_item_ok _ _ _ _ E) as (-> & _ & ?). apply H. lia.
    - destruct (next_item_err_size _ _ _ _ E). auto.
    - exfalso. eapply next_item_not_nofuel; eauto.
  Qed.

  Lemma size_upd f s : size (upd_ctx f s) = size s.
  Proof. reflexivity. Qed.

  Lemma wpA_upd m f (Q : unit -> state -> Prop) s :
    (forall s', size s' = size s -> Q tt s') -> wpA m (Do (OUpd f)) Q s.
  Proof. intros H. cbn. apply H. reflexivity. Qed.

  (** Operations that leave the state alone. *)
  Lemma wpA_pure m B (o : op B) (Q : B -> state -> Prop) s :
    match o with
    | ONext | ONextIgnored | OUpd _ | OExpectComma => False
    | _ => True
    end ->
    (forall b, Q b s) -> wpA m (Do o) Q s.
  Proof.
    intros Ho H. destruct o; cbn in *; try tauto; auto.
    - destruct (g_tolerant g); cbn; auto.
    - destruct (g_module g); [destruct b as [[]|]|]; cbn; auto.
  Qed.

  Lemma wpA_expectcomma m (Q : unit -> state -> Prop) s :
    (forall s', size s' <= size s -> Q tt s') -> wpA m (Do OExpectComma) Q s.
  Proof.
    intros H. cbn [wp]. unfold wp_out, exec.
    destruct (g_tolerant g).
    - destruct (is_punct _ _); [|auto].
      destruct (next_item g s) as [[i|e| |] s'] eqn:E; auto.
      + destruct (next_item_ok _ _ _ _ E) as (-> & _ & ?). apply H. lia.
      + exfalso. eapply next_item_not_nofuel; eauto.
    - destruct (next_item g s) as [[i|e| |] s'] eqn:E; auto.
      + destruct (next_item_ok _ _ _ _ E) as (-> & _ & ?).
        destruct (is_punct _ _); auto. apply H. lia.
      + exfalso. eapply next_item_not_nofuel; eauto.
  Qed.

  Lemma wpA_call m B (c : call B) (Q : B -> state -> Prop) s :
    20 * size s + rank c < m ->
    (forall b s', size s' + consumes c <= size s -> Q b s') -> wpA m (Call c) Q s.
  Proof. intros H1 H2. cbn [wp]. split; auto. Qed.

  (** A loop, each iteration of which consumes. *)
  Lemma wpA_loop m A X (x : X) (b : X -> P (X + A)) (Q : A -> state -> Prop) s :
    size s < m ->
    (forall y s1, size s1 <= size s ->
       wpA m (b y) (fun r s2 =>
         match r with
         | inl _ => size s2 < size s1
         | inr a => size s2 <= size s1
         end) s1) ->
    (forall a s', size s' <= size s -> Q a s') ->
    wpA m (Loop x b) Q s.
  Proof.
    intros H1 H2 H3. cbn [wp]. exists (fun _ s1 => size s1 <= size s).
    split; [auto|]. split; [auto|]. intros y s1 Hs.
    eapply wp_mono; [|apply H2; auto]. cbn beta. intros [y'|a] s2 Hq; [split; intros; lia|].
    apply H3. lia.
  Qed.

  Lemma wpA_get m A (f : ctx -> A) (Q : A -> state -> Prop) s :
    (forall a, Q a s) -> wpA m (get f) Q s.
  Proof. intros H. cbn. auto. Qed.
  Lemma wpA_look_tok m (Q : token -> state -> Prop) s : (forall a, Q a s) -> wpA m look_tok Q s.
  Proof. intros H. cbn. auto. Qed.
  Lemma wpA_at_punct m p (Q : bool -> state -> Prop) s : (forall a, Q a s) -> wpA m (at_punct p) Q s.
  Proof. intros H. cbn. auto. Qed.
  Lemma wpA_at_keyword m p (Q : bool -> state -> Prop) s : (forall a, Q a s) -> wpA m (at_keyword p) Q s.
  Proof. intros H. cbn. auto. Qed.
  Lemma wpA_fail_look m A l (Q : A -> state -> Prop) s : wpA m (fail_look l) Q s.
  Proof. cbn. auto. Qed.
  Lemma wpA_expect_punct m p (Q : unit -> state -> Prop) s :
    (forall s', size s = S (size s') -> Q tt s') -> wpA m (expect_punct p) Q s.
  Proof.
    intros H. apply wpA_bind, wpA_next. intros s' E. destruct (is_punct _ _); cbn; auto.
  Qed.
  Lemma wpA_expect_keyword m p (Q : unit -> state -> Prop) s :
    (forall s', size s = S (size s') -> Q tt s') -> wpA m (expect_keyword p) Q s.
  Proof.
    intros H. apply wpA_bind, wpA_next. intros s' E. destruct (is_keyword _ _); cbn; auto.
  Qed.
  Lemma wpA_stream_at m i (Q : text -> state -> Prop) s : (forall a, Q a s) -> wpA m (stream_at i) Q s.
  Proof. intros H. cbn. destruct (slice _ _ _); cbn; auto. Qed.
  Lemma wpA_get_string m i (Q : text -> state -> Prop) s : (forall a, Q a s) -> wpA m (get_string i) Q s.
  Proof. intros H. cbn. destruct (slice _ _ _); cbn; auto. Qed.
  Lemma wpA_string_or_empty m i (Q : text -> state -> Prop) s :
    (forall a, Q a s) -> wpA m (string_or_empty i) Q s.
  Proof. intros H. cbn. auto. Qed.
  Lemma wpA_at_contextual m w (Q : bool -> state -> Prop) s :
    (forall a, Q a s) -> wpA m (at_contextual w) Q s.
  Proof. intros H. cbn. destruct (slice _ _ _); cbn; auto. Qed.
  Lemma wpA_at_async_function m (Q : bool -> state -> Prop) s :
    (forall a, Q a s) -> wpA m at_async_function Q s.
  Proof.
    intros H. apply wpA_bind, wpA_at_contextual. intros []; [|cbn; auto].
    apply wpA_bind, wpA_pure; cbn; auto. intros [pk|]; cbn; auto.
  Qed.
  Lemma wpA_at_import_call m (Q : bool -> state -> Prop) s :
    (forall a, Q a s) -> wpA m at_import_call Q s.
  Proof. intros H. cbn. destruct (is_keyword _ _); cbn; auto. Qed.
  Lemma wpA_at_lexical_decl m (Q : bool -> state -> Prop) s :
    (forall a, Q a s) -> wpA m at_lexical_decl Q s.
  Proof. intros H. cbn. auto. Qed.
  Lemma wpA_at_return_arg m (Q : bool -> state -> Prop) s :
    (forall a, Q a s) -> wpA m at_return_arg Q s.
  Proof. intros H. cbn. destruct (st_nl s); cbn; auto. Qed.
  Lemma wpA_qualified m t (Q : bool -> state -> Prop) s :
    (forall a, Q a s) -> wpA m (qualified_prop_name t) Q s.
  Proof. intros H. cbn. auto. Qed.

  Lemma wpA_isolated m A (p : P A) (Q : A -> state -> Prop) s :
    (forall s1, size s1 = size s -> wpA m p (fun a s2 => forall s3, size s3 = size s2 -> Q a s3) s1) ->
    wpA m (isolated p) Q s.
  Proof.
    intros H. unfold isolated, isolate_cover, get_cover.
    cbn [wp exec wp_out upd]. eapply wp_mono; [|apply H; reflexivity].
    cbn beta. intros a s2 Hq. apply Hq. reflexivity.
  Qed.
  Lemma wpA_inheriting m A (p : P A) (Q : A -> state -> Prop) s :
    (forall s1, size s1 = size s -> wpA m p (fun a s2 => forall s3, size s3 = size s2 -> Q a s3) s1) ->
    wpA m (inheriting p) Q s.
  Proof.
    intros H. unfold inheriting, inherit_cover, isolate_cover, get_cover.
    cbn [wp exec wp_out upd]. eapply wp_mono; [|apply H; reflexivity].
    cbn beta. intros a s2 Hq. apply Hq. reflexivity.
  Qed.
  Lemma wpA_cover_formals m e (Q : option (list FunctionArg) -> state -> Prop) s :
    (forall a, Q a s) -> wpA m (cover_formals e) Q s.
  Proof.
    intros H. unfold cover_formals.
    destruct (match e with EIdent _ => _ | _ => _ end) as [[ps a]|]; [|cbn; auto].
    destruct (existsb snd _); [cbn; auto|]. cbn. destruct (_ && _ && _); cbn; auto.
  Qed.
End PassA.

Ltac finA := unfold postA in *; cbn [rank consumes] in *; intros; lia.

Ltac stepA :=
  match goal with
  | |- wp _ _ _ _ _ _ _ (Ret _) _ _ => apply wpA_ret; cbn beta
  | |- wp _ _ _ _ _ _ _ (Fail _) _ _ => exact I
  | |- wp _ _ _ _ _ _ _ Crash _ _ => exact I
  | |- wp _ _ _ _ _ _ _ (fail_look _) _ _ => apply wpA_fail_look
  | |- wp _ _ _ _ _ _ _ next _ _ => apply wpA_next; intros
  | |- wp _ _ _ _ _ _ _ (Do ONextIgnored) _ _ => apply wpA_nextignored; intros
  | |- wp _ _ _ _ _ _ _ (Do OExpectComma) _ _ => apply wpA_expectcomma; intros
  | |- wp _ _ _ _ _ _ _ (Do (OUpd _)) _ _ => apply wpA_upd; intros
  | |- wp _ _ _ _ _ _ _ (upd _) _ _ => apply wpA_upd; intros
  | |- wp _ _ _ _ _ _ _ not_target _ _ => apply wpA_upd; intros
  | |- wp _ _ _ _ _ _ _ (set_target_binding _ _) _ _ => apply wpA_upd; intros
  | |- wp _ _ _ _ _ _ _ (set_isolate_cover ?c) _ _ => destruct c as [[? ?] ?]; apply wpA_upd; intros
  | |- wp _ _ _ _ _ _ _ (set_inherit_cover ?c) _ _ => destruct c as [[? ?] ?]; apply wpA_upd; intros
  | |- wp _ _ _ _ _ _ _ isolate_cover _ _ => unfold isolate_cover
  | |- wp _ _ _ _ _ _ _ inherit_cover _ _ => unfold inherit_cover, isolate_cover
  | |- wp _ _ _ _ _ _ _ get_cover _ _ => unfold get_cover
  | |- wp _ _ _ _ _ _ _ (Do _) _ _ => apply wpA_pure; [exact I|intros]
  | |- wp _ _ _ _ _ _ _ look _ _ => apply wpA_pure; [exact I|intros]
  | |- wp _ _ _ _ _ _ _ (get _) _ _ => apply wpA_get; intros
  | |- wp _ _ _ _ _ _ _ look_tok _ _ => apply wpA_look_tok; intros
  | |- wp _ _ _ _ _ _ _ (at_punct _) _ _ => apply wpA_at_punct; intros
  | |- wp _ _ _ _ _ _ _ (at_keyword _) _ _ => apply wpA_at_keyword; intros
  | |- wp _ _ _ _ _ _ _ (expect_punct _) _ _ => apply wpA_expect_punct; intros
  | |- wp _ _ _ _ _ _ _ (expect_keyword _) _ _ => apply wpA_expect_keyword; intros
  | |- wp _ _ _ _ _ _ _ (stream_at _) _ _ => apply wpA_stream_at; intros
  | |- wp _ _ _ _ _ _ _ (get_string _) _ _ => apply wpA_get_string; intros
  | |- wp _ _ _ _ _ _ _ (string_or_empty _) _ _ => apply wpA_string_or_empty; intros
  | |- wp _ _ _ _ _ _ _ (at_contextual _) _ _ => apply wpA_at_contextual; intros
  | |- wp _ _ _ _ _ _ _ at_async_function _ _ => apply wpA_at_async_function; intros
  | |- wp _ _ _ _ _ _ _ at_import_call _ _ => apply wpA_at_import_call; intros
  | |- wp _ _ _ _ _ _ _ at_lexical_decl _ _ => apply wpA_at_lexical_decl; intros
  | |- wp _ _ _ _ _ _ _ at_return_arg _ _ => apply wpA_at_return_arg; intros
  | |- wp _ _ _ _ _ _ _ (qualified_prop_name _) _ _ => apply wpA_qualified; intros
  | |- wp _ _ _ _ _ _ _ (cover_formals _) _ _ => apply wpA_cover_formals; intros
  | |- wp _ _ _ _ _ _ _ (Call _) _ _ => apply wpA_call; [finA|cbn [consumes]; intros]
  | |- wp _ _ _ _ _ _ _ (isolated _) _ _ => apply wpA_isolated; intros
  | |- wp _ _ _ _ _ _ _ (inheriting _) _ _ => apply wpA_inheriting; intros
  | |- wp _ _ _ _ _ _ _ (Loop _ _) _ _ => apply wpA_loop; [finA|intros|intros]
  | |- wp _ _ _ _ _ _ _ (Bind (match _ with _ => _ end) _) _ _ => cutA
  | |- wp _ _ _ _ _ _ _ (Bind (Bind _ (fun b => if b then _ else _)) _) _ _ => cutA
  | |- wp _ _ _ _ _ _ _ (Bind class_el_head _) _ _ => cutA
  | |- wp _ _ _ _ _ _ _ (Bind (class_el_mid _) _) _ _ => cutA
  | |- wp _ _ _ _ _ _ _ (Bind (obj_prop_head _) _) _ _ => cutA
  | |- wp _ _ _ _ _ _ _ (inner_slice _ _) _ _ => unfold inner_slice
  | |- wp _ _ _ _ _ _ _ (comma_list _) _ _ => unfold comma_list
  | |- wp _ _ _ _ _ _ _ (arg_list _) _ _ => unfold arg_list
  | |- wp _ _ _ _ _ _ _ class_el_head _ _ => unfold class_el_head
  | |- wp _ _ _ _ _ _ _ (class_el_mid _) _ _ => unfold class_el_mid
  | |- wp _ _ _ _ _ _ _ (obj_prop_head _) _ _ => unfold obj_prop_head
  | |- wp _ _ _ _ _ _ _ (obj_prop_plain _ _ _ _ _ _) _ _ => unfold obj_prop_plain
  | |- wp _ _ _ _ _ _ _ (arrow_rest _) _ _ => unfold arrow_rest
  | |- wp _ _ _ _ _ _ _ (assign_rest _) _ _ => unfold assign_rest
  | |- wp _ _ _ _ _ _ _ computed_member _ _ => unfold computed_member
  | |- wp _ _ _ _ _ _ _ (Bind _ _) _ _ => apply wpA_bind
  | |- wp _ _ _ _ _ _ _ (match ?x with _ => _ end) _ _ => destruct x
  | |- forall _, _ => intros
  | |- _ /\ _ => split
  | |- match ?x with _ => _ end => destruct x
  end
with cutA := first [ apply (wpA_cut _ 1); [solve [repeat stepA; finA] | intros]
                   | apply (wpA_cut _ 0); [solve [repeat stepA; finA] | intros] ].

Ltac unfold_head p :=
  match p with
  | ?f _ _ => unfold f
  | ?f _ => unfold f
  | ?f => unfold f
  end.
Ltac goA := repeat stepA; try finA.

Section Bodies.
  Variable g : cfg.
  Lemma bodiesA : forall m B (c : call B) s, preA (S m) _ c s ->
    wp g true preA postA (fun _ _ => True) True m (body c) (postA _ c s) s.
  Proof.
    intros m B c s H. unfold preA in H.
    destruct c; cbn [rank] in H; cbn [body].
    all: match goal with |- wp _ _ _ _ _ _ _ ?p _ _ => unfold_head p end.
    all: goA.
  Qed.
End Bodies.

Section Total.
  Variable g : cfg.

  (** Every call returns within recursion depth [20 * size + rank + 1], and consumes. *)
  Lemma call_total n B (c : call B) s : 20 * size s + rank c < n ->
    match run_call bd g n c s with
    | (Ok _, s') => size s' + consumes c <= size s
    | (NoFuel, _) => False
    | _ => True
    end.
  Proof.
    intros H.
    pose proof (wp_sound call bd g true preA postA (fun _ _ => True) True) as W.
    unfold preA in W. specialize (W ltac:(intros; lia) (bodiesA g) n B c s H).
    unfold wp_out, postA in W. destruct (run_call bd g n c s) as [[?| | |] ?]; auto; discriminate.
  Qed.

  Lemma prog_total n B (p : P B) Q s :
    wp g true preA postA (fun _ _ => True) True n p Q s ->
    match run bd g n p s with
    | (Ok b, s') => Q b s'
    | (NoFuel, _) => False
    | _ => True
    end.
  Proof.
    intros H.
    pose proof (wp_sound_prog call bd g true preA postA (fun _ _ => True) True) as W.
    unfold preA in W at 1. specialize (W ltac:(intros; lia) (bodiesA g) n B p Q s H).
    unfold wp_out in W. destruct (run bd g n p s) as [[?| | |] ?]; auto; discriminate.
  Qed.

  Lemma rank_max B (c : call B) : rank c <= 15.
  Proof. destruct c; cbn; lia. Qed.

  Lemma parse_total n s : 20 * size s + 15 < n -> fst (parse g n s) <> NoFuel.
  Proof.
    intros H. unfold parse.
    assert (W : wp g true preA postA (fun _ _ => True) True n parse_parts (fun _ _ => True) s).
    { unfold parse_parts. apply wpA_loop; [lia| |auto]. intros y s1 Hs.
      repeat stepA; finA. }
    apply prog_total in W. destruct (run bd g n parse_parts s) as [[?| | |] ?]; cbn; try discriminate. tauto.
  Qed.

  Lemma next_total n s : 20 * size s + 15 < n -> fst (iter_next g n s) <> Some NoFuel.
  Proof.
    intros H. unfold iter_next. destruct (is_eof _); [discriminate|].
    pose proof (call_total n _ CNextPart s H). destruct (run_call bd g n CNextPart s) as [[?| | |] ?]; cbn; congruence || tauto.
  Qed.

  Lemma parse_expression_total n s : 20 * size s + 15 < n -> fst (parse_expression g n s) <> NoFuel.
  Proof.
    intros H. unfold parse_expression.
    pose proof (call_total n _ CExpression s ltac:(cbn; lia)).
    destruct (run_call bd g n CExpression s) as [[?| | |] ?]; cbn; congruence || tauto.
  Qed.
End Total.

(** Tokens the scanner has yet to yield, comments apart. *)
Lemma size_rest s : size s <= S (length (filter nc (st_rest s))).
Proof. unfold size, view. destruct (st_found_eof s); cbn; lia. Qed.

Lemma start_size g items i s : start g items = (Ok i, s) -> size s <= length (filter nc items).
Proof.
  unfold start. intros H. apply next_item_ok in H. destruct H as (_ & _ & H).
  pose proof (size_rest (initial_state items)) as K. cbn [initial_state st_rest] in K. lia.
Qed.

Lemma yields_size g s parts s' : yields g s parts s' -> length parts + size s' <= size s.
Proof.
  induction 1 as [|s p s1 parts s2 [Hn [n H]] Hy IH]; cbn [length]; [lia|].
  unfold iter_next in H. destruct (is_eof _) eqn:He; [discriminate|].
  set (m := Nat.max n (20 * size s + 16)).
  destruct (run_call bd g n CNextPart s) as [o t] eqn:E. inversion H; subst.
  assert (E' : run_call bd g m CNextPart s = (Ok p, s1)).
  { eapply run_call_mono; [|exact E|discriminate]. unfold m. lia. }
  pose proof (call_total g m _ CNextPart s ltac:(cbn; unfold m; lia)) as K.
  rewrite E' in K. cbn in K. lia.
Qed.

Lemma filter_length_le {A} (f : A -> bool) l : length (filter f l) <= length l.
Proof. induction l; cbn; auto. destruct (f a); cbn; lia. Qed.

Lemma reachable_size g items s : reachable g items s -> size s <= S (length items).
Proof.
  intros H. apply reachable_comments in H. destruct H as (l & -> & _).
  pose proof (size_rest s). rewrite app_length. pose proof (filter_length_le nc (st_rest s)). lia.
Qed.

Lemma reachable_terminates g items s n : reachable g items s -> 20 * length items + 36 <= n ->
  fst (parse g n s) <> NoFuel /\ fst (iter_next g n s) <> Some NoFuel
  /\ fst (parse_expression g n s) <> NoFuel.
Proof.
  intros H Hn. apply reachable_size in H.
  repeat split; [apply parse_total|apply next_total|apply parse_expression_total]; lia.
Qed.

Lemma parse_text_total sc b : exists o s', parse_text sc b o s'.
Proof.
  unfold parse_text, build.
  set (g := make_cfg _ _ _ _). destruct (start g _) as [[i|e| |] s] eqn:E.
  - pose proof (parse_total g (20 * size s + 16) s ltac:(lia)) as H.
    destruct (parse g (20 * size s + 16) s) as [o s'] eqn:P. exists o, s'. split; eauto.
  - eauto.
  - eauto.
  - exfalso. eapply next_item_not_nofuel; exact E.
Qed.

Lemma parts_bounded g items i s parts s' : start g items = (Ok i, s) -> yields g s parts s' ->
  length parts <= length (filter nc items).
Proof.
  intros H1 H2. apply start_size in H1. apply yields_size in H2. lia.
Qed.

(** The number of unread tokens falls with each part. *)
Lemma part_consumes g s part s' : next_returns g s (Some (Ok part)) s' -> size s' < size s.
Proof.
  intros H. assert (Hy : yields g s [part] s') by (econstructor; [exact H|constructor]).
  apply yields_size in Hy. cbn in Hy. lia.
Qed.
