(** Which of the flags of the context matter.  The record of an initialised shorthand property
    (lib.rs:102) and the flags for loops and switches (lib.rs:110-112) are written, saved and
    restored, but nothing depends on them: the one test of the latter (lib.rs:1467-1469) has an empty branch.

    The proof runs the parser from two states that differ in these alone. *)
From Verif Require Export Api.
Export Parser.
Local Open Scope list_scope.

(** [s2] is [s1] with another context, related by [C] to that of [s1]. *)
Definition shifted (C : ctx -> ctx -> Prop) (s1 s2 : state) : Prop :=
  C (st_ctx s1) (st_ctx s2) /\ s2 = upd_ctx (fun _ => st_ctx s2) s1.
(** All but the record of an initialised shorthand and the flags for loops and switches. *)
Definition but_unread (c1 c2 : ctx) : Prop :=
  c1 = set_first_covert (c_first_covert c1) (set_in_iteration (c_in_iteration c1) (set_in_switch (c_in_switch c1) c2)).
(** All but these and the two other flags of the cover grammar. *)
Definition but_cover (c1 c2 : ctx) : Prop :=
  c1 = set_first_covert (c_first_covert c1) (set_in_iteration (c_in_iteration c1) (set_in_switch (c_in_switch c1)
         (set_assign_target (c_assign_target c1) (set_binding_element (c_binding_element c1) c2)))).

Definition outcomes {A} (V : A -> A -> Prop) (o1 o2 : outcome A) : Prop :=
  match o1, o2 with
  | Ok a, Ok b => V a b
  | Err e, Err e' => e = e'
  | Panic, Panic | NoFuel, NoFuel => True
  | _, _ => False
  end.
Lemma outcomes_eq A (o1 o2 : outcome A) : outcomes eq o1 o2 -> o1 = o2.
Proof. destruct o1, o2; cbn; intros H; try destruct H; congruence. Qed.

Lemma next_loop_ctx g f : forall rest sp s, next_item_loop g rest sp (upd_ctx f s)
  = (fst (next_item_loop g rest sp s), upd_ctx f (snd (next_item_loop g rest sp s))).
Proof.
  induction rest as [|r rest IH]; intros sp s; cbn [next_item_loop].
  - cbn. destruct (is_eof _); [destruct (st_found_eof s)|]; reflexivity.
  - change (st_look_pos (upd_ctx f s)) with (st_look_pos s). destruct (update_positions _ _ _ _ _) as [[cur lpos]|]; [|reflexivity].
    destruct (it_tok (r_item r)); try reflexivity. destruct (slice _ _ _) as [t|]; [|reflexivity].
    match goal with |- _ = (fst (next_item_loop _ _ _ ?s0), _) => exact (IH _ s0) end.
Qed.

Section Shift.
  Variable g : cfg.
  Variable C : ctx -> ctx -> Prop.
  Notation R := (shifted C).
  Definition agrees {A} (V : A -> A -> Prop) (x1 x2 : outcome A * state) : Prop :=
    outcomes V (fst x1) (fst x2) /\ R (snd x1) (snd x2).

  Lemma shifted_with f s1 s2 : R s1 s2 -> (forall c1 c2, C c1 c2 -> C (f c1) (f c2)) -> R (upd_ctx f s1) (upd_ctx f s2).
  Proof. intros [H E] Hf. split; [apply Hf; exact H|]. rewrite E. reflexivity. Qed.
  Lemma next_agrees s1 s2 : R s1 s2 -> agrees eq (next_item g s1) (next_item g s2).
  Proof.
    intros [H E]. unfold next_item. rewrite E at 1 2 3 4. cbn [upd_ctx st_rest st_look]. rewrite next_loop_ctx.
    assert (K : st_ctx (snd (next_item_loop g (st_rest s1) (it_start (st_look s1), it_end (st_look s1)) s1)) = st_ctx s1).
    { generalize (it_start (st_look s1), it_end (st_look s1)). generalize (st_rest s1). clear. intros rest sp. revert sp s1.
      induction rest as [|r rest IH]; intros sp s; cbn [next_item_loop].
      - destruct (is_eof _); [destruct (st_found_eof s)|]; reflexivity.
      - destruct (update_positions _ _ _ _ _) as [[cur lpos]|]; [|reflexivity].
        destruct (it_tok (r_item r)); try reflexivity. destruct (slice _ _ _) as [t|]; [|reflexivity]. rewrite IH. reflexivity. }
    split; [cbn [fst]; destruct (fst _); cbn; auto|]. cbn [snd]. split; [rewrite K; exact H|reflexivity].
  Qed.
  Lemma mk_error_shifted s1 s2 d : R s1 s2 -> mk_error g s1 d = mk_error g s2 d.
  Proof. intros [_ ->]. destruct d; reflexivity. Qed.

  Section Rel.
    Variable n : nat.
    Variable rec : forall B, call B -> state -> outcome B * state.
    Hypothesis rec_agrees : forall B (c : call B) s1 s2, R s1 s2 -> agrees eq (rec B c s1) (rec B c s2).
    Notation run_ := (run_in g n rec).
    Definition rel {A} (V : A -> A -> Prop) (p1 p2 : P A) : Prop := forall s1 s2, R s1 s2 -> agrees V (run_ p1 s1) (run_ p2 s2).

    Lemma rel_ret A (V : A -> A -> Prop) a1 a2 : V a1 a2 -> rel V (Ret a1) (Ret a2).
    Proof. intros H s1 s2 Hs. split; [exact H|exact Hs]. Qed.
    Lemma rel_fail A (V : A -> A -> Prop) d : rel V (Fail d) (Fail d).
    Proof. intros s1 s2 Hs. split; [cbn; apply mk_error_shifted; exact Hs|exact Hs]. Qed.
    Lemma rel_crash A (V : A -> A -> Prop) : rel V Crash Crash.
    Proof. intros s1 s2 Hs. split; [exact I|exact Hs]. Qed.
    Lemma rel_call B (c : call B) : rel eq (Call c) (Call c).
    Proof. intros s1 s2 Hs. apply rec_agrees. exact Hs. Qed.
    Lemma rel_bind A B (V : A -> A -> Prop) (W : B -> B -> Prop) p1 p2 q1 q2 :
      rel V p1 p2 -> (forall a1 a2, V a1 a2 -> rel W (q1 a1) (q2 a2)) -> rel W (Bind p1 q1) (Bind p2 q2).
    Proof.
      intros H K s1 s2 Hs. specialize (H s1 s2 Hs). unfold agrees in *. cbn [run_in].
      destruct (run_ p1 s1) as [[a1|e1| |] t1], (run_ p2 s2) as [[a2|e2| |] t2]; cbn [fst snd outcomes] in *; destruct H as [H1 H2]; try tauto.
      exact (K _ _ H1 _ _ H2).
    Qed.
    Definition steps {X A} (U : X -> X -> Prop) (V : A -> A -> Prop) (x1 x2 : X + A) : Prop :=
      match x1, x2 with inl a, inl b => U a b | inr a, inr b => V a b | _, _ => False end.
    Lemma rel_loop X A (U : X -> X -> Prop) (V : A -> A -> Prop) x1 x2 b1 b2 : U x1 x2 ->
      (forall y1 y2, U y1 y2 -> rel (steps U V) (b1 y1) (b2 y2)) -> rel V (Loop x1 b1) (Loop x2 b2).
    Proof.
      intros H0 H s1 s2 Hs. cbn [run_in]. 
      enough (G : forall m x1 x2 s1 s2, U x1 x2 -> R s1 s2 ->
        agrees V (iter (fun y s' => run_ (b1 y) s') m x1 s1) (iter (fun y s' => run_ (b2 y) s') m x2 s2)) by (apply G; assumption).
      clear x1 x2 s1 s2 H0 Hs. induction m as [|m IH]; intros x1 x2 s1 s2 H0 Hs; cbn [iter].
      { split; [exact I|exact Hs]. }
      specialize (H x1 x2 H0 s1 s2 Hs). unfold agrees in *.
      destruct (run_ (b1 x1) s1) as [[[y1|a1]|e1| |] t1], (run_ (b2 x2) s2) as [[[y2|a2]|e2| |] t2];
        cbn [fst snd outcomes steps] in *; destruct H as [H1 H2]; try tauto.
      apply IH; assumption.
    Qed.
    Lemma rel_next : rel eq (Do ONext) (Do ONext).
    Proof. intros s1 s2 Hs. apply next_agrees. exact Hs. Qed.
    Lemma rel_nextignored : rel eq (Do ONextIgnored) (Do ONextIgnored).
    Proof.
      intros s1 s2 Hs. pose proof (next_agrees _ _ Hs) as H. unfold agrees in *. cbn [run_in exec].
      destruct (next_item g s1) as [[?|?| |] ?], (next_item g s2) as [[?|?| |] ?]; cbn in *; tauto.
    Qed.
    Lemma rel_ctx : rel C (Do OCtx) (Do OCtx).
    Proof. intros s1 s2 Hs. split; [apply Hs|exact Hs]. Qed.
    Lemma rel_upd f1 f2 : (forall c1 c2, C c1 c2 -> C (f1 c1) (f2 c2)) -> rel eq (Do (OUpd f1)) (Do (OUpd f2)).
    Proof. intros H s1 s2 [H1 H2]. split; [reflexivity|]. split; [apply H; exact H1|]. rewrite H2. reflexivity. Qed.
    Lemma rel_expectcomma : rel eq (Do OExpectComma) (Do OExpectComma).
    Proof.
      intros s1 s2 Hs. pose proof (next_agrees _ _ Hs) as H. unfold agrees in *. cbn [run_in exec].
      replace (st_look s2) with (st_look s1) by (destruct Hs as [_ ->]; reflexivity).
      destruct (g_tolerant g); [destruct (is_punct PComma (it_tok (st_look s1))); [|split; [reflexivity|exact Hs]]|].
      all: destruct (next_item g s1) as [[a1|?| |] t1], (next_item g s2) as [[a2|?| |] t2]; cbn in H; destruct H as [H1 H2]; subst; try tauto; try (split; [reflexivity|exact H2]).
      destruct (is_punct PComma (it_tok a2)); (split; [reflexivity|exact H2]).
    Qed.
    (** The other operations do not touch the context. *)
    Lemma rel_do A (o : op A) : match o with OCtx | OUpd _ => False | _ => True end -> rel eq (Do o) (Do o).
    Proof.
      intros Ho. destruct o; try destruct Ho; try apply rel_next; try apply rel_nextignored; try apply rel_expectcomma.
      all: intros s1 s2 Hs; pose proof Hs as [_ E]; unfold agrees; cbn [run_in exec].
      all: try (destruct (g_tolerant g)); try (destruct (g_module g)); try (destruct b as [[]|]).
      all: split; [cbn; first [exact I|reflexivity|apply mk_error_shifted; exact Hs|rewrite E; reflexivity]|exact Hs].
    Qed.
  End Rel.
End Shift.

Section Unread.
  Variable g : cfg.
  Section Bodies.
    Variable n : nat.
    Variable rec : forall B, call B -> state -> outcome B * state.
    Hypothesis rec_agrees : forall B (c : call B) s1 s2, shifted but_unread s1 s2 -> agrees but_unread eq (rec B c s1) (rec B c s2).
    Notation rl := (rel g but_unread n rec).
    Definition cvsame (x y : cover) : Prop := fst x = fst y.

    Ltac vrel A := lazymatch eval hnf in A with
      | ctx => constr:(but_unread)
      | (bool * bool * option item)%type => constr:(cvsame)
      | _ => constr:(@eq A)
      end.
    Ltac vclean := lazymatch goal with
      | |- forall a1 a2, but_unread a1 a2 -> _ =>
          let E := fresh "E" in
          intros [] [] E; unfold but_unread in E; cbn in E; injection E; clear E; intros; subst;
          cbn [c_allow_in c_allow_strict_directive c_allow_yield c_await c_first_covert c_assign_target
               c_binding_element c_in_function_body c_in_iteration c_in_switch c_label_set c_strict c_past_prolog]
      | |- forall a1 a2, cvsame a1 a2 -> _ =>
          let E := fresh "E" in
          intros [[? ?] ?] [[? ?] ?] E; unfold cvsame in E; cbn in E; injection E; clear E; intros; subst
      | |- forall a1 a2, a1 = a2 -> _ => intros ? ? <-
      | |- forall a1 a2, True -> _ => intros ? ? _
      end.
    Ltac vsolve := cbn [steps]; lazymatch goal with
      | |- ?x = ?x => reflexivity
      | |- cvsame _ _ => reflexivity
      | |- _ => cbn; auto
      end.
    Ltac csolve :=
      let E := fresh "E" in
      intros [] [] E; unfold but_unread in E; cbn in E; injection E; clear E; intros; subst; reflexivity.
    Ltac hd p := lazymatch p with ?f _ => hd f | _ => p end.
    Ltac rstep := cbn zeta; lazymatch goal with
      | |- rel _ _ _ _ _ (Ret _) (Ret _) => apply rel_ret; vsolve
      | |- rel _ _ _ _ _ (Fail _) (Fail _) => apply rel_fail
      | |- rel _ _ _ _ _ Crash Crash => apply rel_crash
      | |- rel _ _ _ _ _ (Call _) (Call _) => apply rel_call; exact rec_agrees
      | |- rel _ _ _ _ ?W (@Bind _ ?A ?B (get c_in_iteration) _) (Bind _ _) =>
          apply (rel_bind g but_unread n rec A B (fun _ _ => True) W); [|intros ? ? _]
      | |- rel _ _ _ _ ?W (@Bind _ ?A ?B (get c_in_switch) _) (Bind _ _) =>
          apply (rel_bind g but_unread n rec A B (fun _ _ => True) W); [|intros ? ? _]
      | |- rel _ _ _ _ ?W (@Bind _ ?A ?B _ _) (Bind _ _) => let V := vrel A in apply (rel_bind g but_unread n rec A B V W); [|vclean]
      | |- rel _ _ _ _ _ (@Loop _ ?A ?X _ _) (Loop _ _) => apply (rel_loop g but_unread n rec X A eq); [reflexivity|vclean]
      | |- rel _ _ _ _ _ (Do OCtx) _ => apply rel_ctx
      | |- rel _ _ _ _ _ (Do (OUpd _)) _ => apply rel_upd; csolve
      | |- rel _ _ _ _ _ (Do _) _ => apply rel_do; exact I
      | |- rel _ _ _ _ _ (match ?x with _ => _ end) (match ?x with _ => _ end) => destruct x
      | |- rel _ _ _ _ _ ?p ?q => let h := hd p in unfold h
      end.
    Lemma bodies_unread B (c : call B) : rl eq (body c) (body c).
    Proof. destruct c; cbn [body]; repeat rstep. Qed.
  End Bodies.

  Lemma call_unread n : forall B (c : call B) s1 s2, shifted but_unread s1 s2 ->
    agrees but_unread eq (run_call (@body) g n c s1) (run_call (@body) g n c s2).
  Proof.
    induction n as [|n IH]; intros B c s1 s2 H; cbn [run_call]; [split; [exact I|exact H]|]. apply bodies_unread; assumption.
  Qed.
End Unread.

(** ** Between parts: the other two flags of the cover grammar do not matter either, since what
    reads them sets them first. *)
Section Cover.
  Variable g : cfg.
  Lemma unread_cover s1 s2 : shifted but_unread s1 s2 -> shifted but_cover s1 s2.
  Proof.
    intros [H E]. split; [|exact E]. destruct (st_ctx s1), (st_ctx s2). unfold but_unread in H. cbn in H. injection H; clear H; intros; subst. reflexivity.
  Qed.
  Lemma agrees_cover A (x1 x2 : outcome A * state) : agrees but_unread eq x1 x2 -> agrees but_cover eq x1 x2.
  Proof. intros [H1 H2]. split; [exact H1|apply unread_cover; exact H2]. Qed.
  Lemma force s1 s2 f : shifted but_cover s1 s2 ->
    (forall c1 c2, but_cover c1 c2 -> but_unread (f c1) (f c2)) -> shifted but_unread (upd_ctx f s1) (upd_ctx f s2).
  Proof. intros [H E] Hf. split; [apply Hf; exact H|]. rewrite E. reflexivity. Qed.
  Ltac covers :=
    let E := fresh "E" in
    intros [] [] E; unfold but_cover in E; cbn in E; injection E; clear E; intros; subst; reflexivity.

  Section Bodies.
    Variable n : nat.
    Variable rec : forall B, call B -> state -> outcome B * state.
    Notation rl := (rel g but_cover n rec).
    Lemma rel_known B (c : call B) : (forall s1 s2, shifted but_cover s1 s2 -> agrees but_cover eq (rec B c s1) (rec B c s2)) -> rl eq (Call c) (Call c).
    Proof. intros H s1 s2 Hs. apply H. exact Hs. Qed.
    Lemma rel_isolated B (c : call B) : (forall s1 s2, shifted but_unread s1 s2 -> agrees but_unread eq (rec B c s1) (rec B c s2)) ->
      rl eq (isolated (Call c)) (isolated (Call c)).
    Proof.
      intros H s1 s2 Hs. unfold isolated, isolate_cover, get_cover, set_isolate_cover, upd. cbn [run_in exec]. unfold agrees in *.
      specialize (H (upd_ctx (fun c => set_first_covert None (set_assign_target true (set_binding_element true c))) s1)
                    (upd_ctx (fun c => set_first_covert None (set_assign_target true (set_binding_element true c))) s2)).
      destruct H as [H1 H2]; [apply force; [exact Hs|covers]|].
      destruct (rec B c (upd_ctx _ s1)) as [[?|?| |] t1], (rec B c (upd_ctx _ s2)) as [[?|?| |] t2]; cbn in *; try tauto.
      all: split; try tauto; try (apply unread_cover; exact H2).
      apply unread_cover in H2. destruct H2 as [H2 E]. split; [|rewrite E; reflexivity]. cbn.
      destruct (st_ctx t1), (st_ctx t2). unfold but_cover in H2. cbn in H2. injection H2; clear H2; intros; subst. reflexivity.
    Qed.
    Ltac hd p := lazymatch p with ?f _ => hd f | _ => p end.
    Ltac rstep := cbn zeta; lazymatch goal with
      | |- rel _ _ _ _ _ (Ret _) (Ret _) => apply rel_ret; reflexivity
      | |- rel _ _ _ _ _ (Fail _) (Fail _) => apply rel_fail
      | |- rel _ _ _ _ _ (isolated (Call _)) _ => apply rel_isolated; auto
      | |- rel _ _ _ _ _ (Call _) (Call _) => apply rel_known; auto
      | |- rel _ _ _ _ ?W (@Bind _ ?A ?B _ _) (Bind _ _) => apply (rel_bind g but_cover n rec A B eq W); [|intros ? ? <-]
      | |- rel _ _ _ _ _ (@Loop _ ?A ?X _ _) (Loop _ _) => apply (rel_loop g but_cover n rec X A eq); [reflexivity|intros ? ? <-]
      | |- rel _ _ _ _ _ (Do (OUpd _)) _ => apply rel_upd; covers
      | |- rel _ _ _ _ _ (get _) _ => apply (rel_bind g but_cover n rec _ _ but_cover); [apply rel_ctx|];
          let E := fresh "E" in intros [] [] E; unfold but_cover in E; cbn in E; injection E; clear E; intros; subst; apply rel_ret; reflexivity
      | |- rel _ _ _ _ _ (Do _) _ => apply rel_do; exact I
      | |- rel _ _ _ _ _ (match ?x with _ => _ end) (match ?x with _ => _ end) => destruct x
      | |- rel _ _ _ _ _ ?p ?q => let h := hd p in unfold h
      end.
    Lemma semicolon_cover : rl eq consume_semicolon consume_semicolon.
    Proof. repeat rstep. Qed.
    Lemma expression_cover : (forall B (c : call B) s1 s2, shifted but_unread s1 s2 -> agrees but_unread eq (rec B c s1) (rec B c s2)) -> rl eq expression expression.
    Proof. intros H. repeat rstep. Qed.
    Lemma directive_cover :
      (forall s1 s2, shifted but_cover s1 s2 -> agrees but_cover eq (rec _ CExpression s1) (rec _ CExpression s2)) ->
      (forall s1 s2, shifted but_cover s1 s2 -> agrees but_cover eq (rec _ CConsumeSemicolon s1) (rec _ CConsumeSemicolon s2)) -> rl eq directive directive.
    Proof. intros H1 H2. repeat rstep. Qed.
    Lemma part_cover :
      (forall s1 s2, shifted but_cover s1 s2 -> agrees but_cover eq (rec _ CDirective s1) (rec _ CDirective s2)) ->
      (forall s1 s2, shifted but_cover s1 s2 -> agrees but_cover eq (rec _ CStatementListItem s1) (rec _ CStatementListItem s2)) -> rl eq next_part next_part.
    Proof. intros H1 H2. repeat rstep. Qed.
    Lemma parts_cover :
      (forall s1 s2, shifted but_cover s1 s2 -> agrees but_cover eq (rec _ CNextPart s1) (rec _ CNextPart s2)) -> rl eq parse_parts parse_parts.
    Proof. intros H1. repeat rstep. Qed.
  End Bodies.

  Ltac fueled n := destruct n as [|n]; [intros s1 s2 H; split; [exact I|exact H]|]; intros s1 s2 H; cbn [run_call body].
  Lemma call_semicolon n : forall s1 s2, shifted but_cover s1 s2 -> agrees but_cover eq (run_call (@body) g n CConsumeSemicolon s1) (run_call (@body) g n CConsumeSemicolon s2).
  Proof. fueled n. apply semicolon_cover; exact H. Qed.
  Lemma call_expression n : forall s1 s2, shifted but_cover s1 s2 -> agrees but_cover eq (run_call (@body) g n CExpression s1) (run_call (@body) g n CExpression s2).
  Proof. fueled n. apply expression_cover; [|exact H]. apply call_unread. Qed.
  Lemma call_directive n : forall s1 s2, shifted but_cover s1 s2 -> agrees but_cover eq (run_call (@body) g n CDirective s1) (run_call (@body) g n CDirective s2).
  Proof. fueled n. apply directive_cover; [apply call_expression|apply call_semicolon|exact H]. Qed.
  Lemma call_item n : forall s1 s2, shifted but_cover s1 s2 -> agrees but_cover eq (run_call (@body) g n CStatementListItem s1) (run_call (@body) g n CStatementListItem s2).
  Proof.
    destruct n as [|n]; [intros s1 s2 H; split; [exact I|exact H]|]. intros s1 s2 H. apply agrees_cover.
    set (f := fun c => set_binding_element true (set_assign_target true c)).
    assert (K : forall s, run_call (@body) g (S n) CStatementListItem s = run_call (@body) g (S n) CStatementListItem (upd_ctx f s)).
    { intros s. cbn [run_call body]. unfold statement_list_item, set_target_binding, upd. cbn [run_in exec]. reflexivity. }
    rewrite (K s1), (K s2). apply call_unread. apply force; [exact H|covers].
  Qed.
  Lemma call_part n : forall s1 s2, shifted but_cover s1 s2 -> agrees but_cover eq (run_call (@body) g n CNextPart s1) (run_call (@body) g n CNextPart s2).
  Proof. fueled n. apply part_cover; [apply call_directive|apply call_item|exact H]. Qed.
  Lemma parse_cover n s1 s2 : shifted but_cover s1 s2 -> agrees but_cover eq (parse g n s1) (parse g n s2).
  Proof.
    intros H. pose proof (parts_cover n (fun B => @run_call _ (@body) g n B) (call_part n) s1 s2 H) as K. unfold parse, run, agrees in *.
    destruct (run_in g n _ parse_parts s1) as [[?|?| |] ?], (run_in g n _ parse_parts s2) as [[?|?| |] ?]; cbn in *; try tauto.
    destruct K as [-> K]. tauto.
  Qed.
  Lemma iter_cover n s1 s2 : shifted but_cover s1 s2 ->
    fst (iter_next g n s1) = fst (iter_next g n s2) /\ shifted but_cover (snd (iter_next g n s1)) (snd (iter_next g n s2)).
  Proof.
    intros H. unfold iter_next. replace (st_look s2) with (st_look s1) by (destruct H as [_ ->]; reflexivity).
    destruct (is_eof _); [auto|]. pose proof (call_part n s1 s2 H) as [K1 K2].
    destruct (run_call _ g n CNextPart s1), (run_call _ g n CNextPart s2). cbn in *. apply outcomes_eq in K1. split; congruence.
  Qed.
End Cover.
