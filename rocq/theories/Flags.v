(** What becomes of the flags [allow_strict_directive] and [allow_yield] of the context: one
    pass over all the functions of Parser.v.  C30_context_restored (Properties5.v) is about all
    the other flags. *)
From Verif Require Export Handed.
From Verif Require Import Operators.
Export Parser.

(** The tokens ahead: the look-ahead and what the scanner has left, comments left out. *)
Definition ahead (s : state) : list item := st_look s :: map r_item (filter nc (st_rest s)).
(** A token with keyword [k] was taken on the way from [s] to [s']. *)
Definition seen (k : keyword) (s s' : state) : Prop :=
  exists pre i, ahead s = pre ++ ahead s' /\ In i pre /\ it_tok i = TKeyword k.
Definition onward (s s' : state) : Prop := exists pre, ahead s = pre ++ ahead s'.

Definition strict_flag (s : state) : bool := c_allow_strict_directive (st_ctx s).
Definition yield_flag (s : state) : bool := c_allow_yield (st_ctx s).

(** 0: nothing is known; 1: unchanged unless [function] was taken; 2: unchanged. *)
Definition strict_rel (l : nat) (s s' : state) : Prop :=
  match l with
  | 0 => True
  | 1 => strict_flag s' = strict_flag s \/ seen KFunction s s'
  | _ => strict_flag s' = strict_flag s
  end.
(** 0: nothing is known; 1: unchanged or false; 2: unchanged, or false and [class] was taken;
    3: unchanged. *)
Definition yield_rel (l : nat) (s s' : state) : Prop :=
  match l with
  | 0 => True
  | 1 => yield_flag s' = yield_flag s \/ yield_flag s' = false
  | 2 => yield_flag s' = yield_flag s \/ (yield_flag s' = false /\ seen KClass s s')
  | _ => yield_flag s' = yield_flag s
  end.
Definition tr (d y : nat) (s s' : state) : Prop := onward s s' /\ strict_rel d s s' /\ yield_rel y s s'.

Lemma onward_refl s : onward s s.
Proof. exists []. reflexivity. Qed.
Lemma onward_trans s1 s2 s3 : onward s1 s2 -> onward s2 s3 -> onward s1 s3.
Proof. intros [p E] [q F]. exists (p ++ q). rewrite E, F, app_assoc. reflexivity. Qed.
Lemma seen_left k s1 s2 s3 : seen k s1 s2 -> onward s2 s3 -> seen k s1 s3.
Proof.
  intros (p & r & E & I1 & T) [q F]. exists (p ++ q), r. rewrite E, F, app_assoc. auto using in_or_app.
Qed.
Lemma seen_right k s1 s2 s3 : onward s1 s2 -> seen k s2 s3 -> seen k s1 s3.
Proof.
  intros [p E] (q & r & F & I1 & T). exists (p ++ q), r. rewrite E, F, app_assoc. auto using in_or_app.
Qed.
Lemma seen_onward k s1 s2 : seen k s1 s2 -> onward s1 s2.
Proof. intros (p & r & E & _). exists p. exact E. Qed.

Lemma tr_refl s : tr 2 3 s s.
Proof. split; [apply onward_refl|split; reflexivity]. Qed.
Lemma tr_down d y d' y' s s' : tr d y s s' -> d' <= d -> y' <= y -> tr d' y' s s'.
Proof.
  intros (O & D & Y) Hd Hy. split; [exact O|split].
  - destruct d' as [|[|d']], d as [|[|d]]; cbn in *; try lia; auto.
  - destruct y' as [|[|[|y']]], y as [|[|[|y]]]; cbn in *; try lia; auto. destruct Y as [Y|[Y _]]; auto.
Qed.
Lemma tr_trans_same d y s1 s2 s3 : tr d y s1 s2 -> tr d y s2 s3 -> tr d y s1 s3.
Proof.
  intros (O & D & Y) (O' & D' & Y'). split; [eapply onward_trans; eauto|]. split.
  - destruct d as [|[|d]]; cbn in *; auto.
    + destruct D' as [D'|D']; [|right; eapply seen_right; eauto]. destruct D as [D|D]; [left; congruence|].
      right. eapply seen_left; eauto.
    + congruence.
  - destruct y as [|[|[|y]]]; cbn in *; auto.
    + destruct Y' as [->|Y']; auto.
    + destruct Y' as [Y'|[Y' S']]; [|right; split; [exact Y'|eapply seen_right; eauto]].
      destruct Y as [Y|[Y S]]; [left; congruence|right; split; [congruence|eapply seen_left; eauto]].
    + congruence.
Qed.
Lemma tr_trans d y d' y' s1 s2 s3 : tr d y s1 s2 -> tr d' y' s2 s3 -> tr (Nat.min d d') (Nat.min y y') s1 s3.
Proof.
  intros H1 H2. eapply tr_trans_same; eapply tr_down; eauto; lia.
Qed.
Lemma tr_exact d y s1 s2 s3 : tr d y s1 s2 -> tr 2 3 s2 s3 -> tr d y s1 s3.
Proof.
  intros H1 H2. eapply tr_trans_same; [exact H1|]. destruct H2 as (O & D & Y). split; [exact O|].
  split; [destruct d as [|[|d]]|destruct y as [|[|[|y]]]]; cbn in *; auto.
Qed.

(** What each function promises. *)
Definition dlevel {B} (c : call B) : nat :=
  match c with
  | CMethodBody _ _ | CPropertyMethodBody _ _ | CVarIdent _ | CIdentName | CFnName _ => 2
  | _ => 1
  end.
Definition ylevel {B} (c : call B) : nat :=
  match c with
  | CFunctionDecl _ | CFunctionExpr | CAsyncPropertyMethod | CPropertyMethod | CGeneratorMethod | CGetterMethod
  | CVarIdent _ | CIdentName | CFnName _ => 3
  | CClassBody | CClassEl _ => 1
  | _ => 2
  end.

Lemma next_item_tr g s i s' : next_item g s = (Ok i, s') ->
  tr 2 3 s s' /\ i = st_look s /\ forall k, it_tok i = TKeyword k -> seen k s s'.
Proof.
  intros H. apply next_item_loop_ok in H; auto. destruct H as (-> & Hc & H).
  assert (F : strict_flag s' = strict_flag s /\ yield_flag s' = yield_flag s).
  { unfold strict_flag, yield_flag. rewrite Hc. auto. }
  destruct F as [F1 F2].
  destruct H as [(r & C1 & C2 & C3 & C4 & C5)|(C1 & C2 & C3 & C4 & C5 & C6)].
  - assert (E : ahead s = [st_look s] ++ ahead s') by (unfold ahead; rewrite C1, C3; reflexivity).
    split; [split; [eexists; exact E|split; assumption]|]. split; [reflexivity|].
    intros k Hk. exists [st_look s], (st_look s). split; [exact E|]. split; [left; reflexivity|exact Hk].
  - assert (E : ahead s = [] ++ ahead s') by (unfold ahead; rewrite C1, C2, C5; reflexivity).
    split; [split; [eexists; exact E|split; assumption]|]. split; [reflexivity|].
    intros k Hk. rewrite Hk in C6. discriminate.
Qed.
Lemma next_item_err_tr g s e s' : next_item g s = (Err e, s') -> tr 2 3 s s'.
Proof.
  unfold next_item. generalize (it_start (st_look s), it_end (st_look s)).
  intros sp. remember (st_rest s) as rest eqn:Hr. revert sp s Hr.
  assert (X : forall s s', st_ctx s' = st_ctx s -> ahead s' = ahead s -> tr 2 3 s s').
  { clear. intros s s' E F. split; [exists []; symmetry; exact F|]. unfold strict_rel, yield_rel, strict_flag, yield_flag.
    rewrite E. auto. }
  induction rest as [|r rest IH]; intros sp s Hr H; cbn [next_item_loop] in H.
  - destruct (is_eof _); [destruct (st_found_eof s) eqn:Hf|]; inversion H; subst;
      apply X; unfold ahead; cbn; rewrite <- ?Hr; reflexivity.
  - destruct (update_positions _ _ _ _ _) as [[cur lpos]|]; [|inversion H].
    destruct (it_tok (r_item r)) eqn:Ht; try (inversion H; fail).
    destruct (slice _ _ _).
    + apply IH in H; [|reflexivity]. eapply tr_trans_same; [|exact H]. apply X; [reflexivity|].
      unfold ahead. cbn. rewrite <- Hr. cbn. unfold nc at 2. rewrite Ht. reflexivity.
    + inversion H; subst. apply X; [reflexivity|]. unfold ahead. cbn. rewrite <- Hr. cbn.
      unfold nc at 2. rewrite Ht. reflexivity.
Qed.

Section PassF.
  Variable g : cfg.
  Definition preF (m : nat) B (c : call B) (s : state) : Prop := True.
  Definition postF B (c : call B) (s : state) (b : B) (s' : state) : Prop := tr (dlevel c) (ylevel c) s s'.
  Definition errF (e : error) (s : state) : Prop := True.
  Variable m : nat.
  Notation W := (wp g false preF postF errF True m).

  Lemma F_ret A (a : A) (Q : A -> state -> Prop) s : Q a s -> W (Ret a) Q s.
  Proof. exact (fun H => H). Qed.
  Lemma F_fail A e (Q : A -> state -> Prop) s : W (Fail e) Q s.
  Proof. exact Logic.I. Qed.
  Lemma F_crash A (Q : A -> state -> Prop) s : W Crash Q s.
  Proof. exact Logic.I. Qed.
  Lemma F_bind A B (p : P A) (k : A -> P B) Q s :
    W p (fun a s' => W (k a) Q s') s -> W (Bind p k) Q s.
  Proof. exact (fun H => H). Qed.
  Lemma F_cut d y A B (p : P A) (k : A -> P B) Q s :
    W p (fun _ s' => tr d y s s') s -> (forall a s', tr d y s s' -> W (k a) Q s') -> W (Bind p k) Q s.
  Proof. intros H1 H2. apply F_bind. eapply wp_mono; [|exact H1]. intros. apply H2; auto. Qed.

  Lemma F_next (Q : item -> state -> Prop) s :
    (forall s', tr 2 3 s s' -> (forall k, it_tok (st_look s) = TKeyword k -> seen k s s') -> Q (st_look s) s') ->
    W next Q s.
  Proof.
    intros H. unfold next. cbn [wp]. unfold exec.
    destruct (next_item g s) as [[i|e| |] s'] eqn:E; cbn; auto; try exact Logic.I.
    destruct (next_item_tr _ _ _ _ E) as (X & -> & Y). apply H; auto.
  Qed.
  Lemma F_nextignored (Q : unit -> state -> Prop) s :
    (forall s', tr 2 3 s s' -> Q tt s') -> W (Do ONextIgnored) Q s.
  Proof.
    intros H. cbn [wp]. unfold exec. destruct (next_item g s) as [[i|e| |] s'] eqn:E; cbn; auto.
    - apply H, (next_item_tr _ _ _ _ E).
    - apply H, (next_item_err_tr _ _ _ _ E).
    - exfalso. eapply next_item_not_nofuel; eauto.
  Qed.
  Lemma F_upd f (Q : unit -> state -> Prop) s :
    c_allow_strict_directive (f (st_ctx s)) = c_allow_strict_directive (st_ctx s) ->
    c_allow_yield (f (st_ctx s)) = c_allow_yield (st_ctx s) ->
    (forall s', tr 2 3 s s' -> Q tt s') -> W (Do (OUpd f)) Q s.
  Proof. intros Hs Hy H. cbn [wp exec]. apply H. split; [exists []; reflexivity|]. split; [exact Hs|exact Hy]. Qed.
  Lemma F_upd_yield v (Q : unit -> state -> Prop) s :
    (forall s', tr 2 0 s s' -> yield_flag s' = v -> Q tt s') -> W (upd (set_allow_yield v)) Q s.
  Proof. intros H. cbn [wp exec upd]. apply H; [|reflexivity]. split; [exists []; reflexivity|]. split; [reflexivity|exact Logic.I]. Qed.
  Lemma F_upd_strict v (Q : unit -> state -> Prop) s :
    (forall s', tr 0 3 s s' -> strict_flag s' = v -> Q tt s') -> W (upd (set_allow_strict_directive v)) Q s.
  Proof. intros H. cbn [wp exec upd]. apply H; [|reflexivity]. split; [exists []; reflexivity|]. split; [exact Logic.I|reflexivity]. Qed.
  Lemma F_pure B (o : op B) (Q : B -> state -> Prop) s :
    match o with
    | ONext | ONextIgnored | OUpd _ | OExpectComma => False
    | _ => True
    end -> (forall b, Q b s) -> W (Do o) Q s.
  Proof.
    intros Ho H. cbn [wp]. destruct o; cbn [exec] in *; try tauto; try (apply H).
    - destruct (g_tolerant g); [apply H|exact Logic.I].
    - destruct (g_module g); [destruct b as [[]|]|]; try exact Logic.I; apply H.
  Qed.
  Lemma F_expectcomma (Q : unit -> state -> Prop) s :
    (forall s', tr 2 3 s s' -> Q tt s') -> W (Do OExpectComma) Q s.
  Proof.
    intros H. cbn [wp]. unfold exec. destruct (g_tolerant g).
    - destruct (is_punct _ _); [|apply H, tr_refl].
      destruct (next_item g s) as [[i|e| |] s'] eqn:E; cbn; auto; try exact Logic.I.
      apply H, (next_item_tr _ _ _ _ E).
    - destruct (next_item g s) as [[i|e| |] s'] eqn:E; cbn; auto; try exact Logic.I.
      destruct (is_punct _ _); [|exact Logic.I]. apply H, (next_item_tr _ _ _ _ E).
  Qed.
  Lemma F_call B (c : call B) (Q : B -> state -> Prop) s :
    (forall b s', tr (dlevel c) (ylevel c) s s' -> Q b s') -> W (Call c) Q s.
  Proof. intros H. cbn [wp]. split; [exact Logic.I|exact H]. Qed.
  Lemma F_loop d y A X (x : X) (b : X -> P (X + A)) (Q : A -> state -> Prop) s :
    (forall x1 s1, tr d y s s1 -> W (b x1) (fun r s2 => tr d y s1 s2) s1) ->
    tr d y s s ->
    (forall a s', tr d y s s' -> Q a s') -> W (Loop x b) Q s.
  Proof.
    intros H1 H2 H3. cbn [wp]. exists (fun _ s1 => tr d y s s1).
    split; [exact H2|]. split; [discriminate|]. intros x1 s1 X1.
    eapply wp_mono; [|apply H1, X1]. cbn beta. intros [x2|a] s2 X2.
    - split; [|discriminate]. eapply tr_trans_same; eauto.
    - apply H3. eapply tr_trans_same; eauto.
  Qed.

  (** Helpers that only look. *)
  Lemma F_get A (f : ctx -> A) (Q : A -> state -> Prop) s : Q (f (st_ctx s)) s -> W (get f) Q s.
  Proof. exact (fun H => H). Qed.
  Lemma F_ctx (Q : ctx -> state -> Prop) s : Q (st_ctx s) s -> W (Do OCtx) Q s.
  Proof. exact (fun H => H). Qed.
  Lemma F_look (Q : item -> state -> Prop) s : (forall i, Q i s) -> W look Q s.
  Proof. intros H. apply H. Qed.
  Lemma F_look_tok (Q : token -> state -> Prop) s : (forall i, Q i s) -> W look_tok Q s.
  Proof. intros H. apply H. Qed.
  Lemma F_at_punct p (Q : bool -> state -> Prop) s : (forall i, Q i s) -> W (at_punct p) Q s.
  Proof. intros H. apply H. Qed.
  Lemma F_at_keyword p (Q : bool -> state -> Prop) s : (forall i, Q i s) -> W (at_keyword p) Q s.
  Proof. intros H. apply H. Qed.
  Lemma F_stream_at i (Q : text -> state -> Prop) s : (forall i, Q i s) -> W (stream_at i) Q s.
  Proof.
    intros H. apply F_bind, F_pure; [exact Logic.I|]. intros [t|]; [apply H|exact Logic.I].
  Qed.
  Lemma F_get_string i (Q : text -> state -> Prop) s : (forall i, Q i s) -> W (get_string i) Q s.
  Proof.
    intros H. apply F_bind, F_pure; [exact Logic.I|]. intros [t|]; [apply H|exact Logic.I].
  Qed.
  Lemma F_string_or_empty i (Q : text -> state -> Prop) s : (forall i, Q i s) -> W (string_or_empty i) Q s.
  Proof. intros H. apply F_bind, F_pure; [exact Logic.I|]. intros t. apply H. Qed.
  Lemma F_at_contextual w (Q : bool -> state -> Prop) s : (forall i, Q i s) -> W (at_contextual w) Q s.
  Proof. intros H. apply F_bind, F_look. intros i. apply F_bind, F_stream_at. intros t. apply F_ret, H. Qed.
  Lemma F_at_async_function (Q : bool -> state -> Prop) s : (forall i, Q i s) -> W at_async_function Q s.
  Proof.
    intros H. apply F_bind, F_at_contextual. intros []; [|apply F_ret, H].
    apply F_bind, F_pure; [exact Logic.I|]. intros [pk|]; [|apply F_ret, H].
    apply F_bind, F_pure; [exact Logic.I|]. intros ?. apply F_bind, F_pure; [exact Logic.I|]. intros ?. apply F_ret, H.
  Qed.
  Lemma F_at_import_call (Q : bool -> state -> Prop) s : (forall i, Q i s) -> W at_import_call Q s.
  Proof.
    intros H. apply F_bind, F_at_keyword. intros []; [|apply F_ret, H].
    apply F_bind, F_pure; [exact Logic.I|]. intros ?. apply F_ret, H.
  Qed.
  Lemma F_at_lexical_decl (Q : bool -> state -> Prop) s : (forall i, Q i s) -> W at_lexical_decl Q s.
  Proof. intros H. apply F_bind, F_pure; [exact Logic.I|]. intros ?. apply F_ret, H. Qed.
  Lemma F_at_return_arg (Q : bool -> state -> Prop) s : (forall i, Q i s) -> W at_return_arg Q s.
  Proof.
    intros H. apply F_bind, F_pure; [exact Logic.I|]. intros b. apply F_bind, F_look_tok. intros t. destruct b; apply F_ret, H.
  Qed.
  Lemma F_qualified t (Q : bool -> state -> Prop) s : (forall i, Q i s) -> W (qualified_prop_name t) Q s.
  Proof. intros H. apply F_bind, F_pure; [exact Logic.I|]. intros b. apply F_ret, H. Qed.
  Lemma F_fail_look A l (Q : A -> state -> Prop) s : W (fail_look l) Q s.
  Proof. apply F_bind, F_look. intros. apply F_fail. Qed.
  Lemma F_expect_punct p (Q : unit -> state -> Prop) s : (forall s', tr 2 3 s s' -> Q tt s') -> W (expect_punct p) Q s.
  Proof. intros H. apply F_bind, F_next. intros s' X _. destruct (is_punct _ _); [apply F_ret, H, X|apply F_fail]. Qed.
  Lemma F_expect_keyword k (Q : unit -> state -> Prop) s :
    (forall s', tr 2 3 s s' -> seen k s s' -> Q tt s') -> W (expect_keyword k) Q s.
  Proof.
    intros H. apply F_bind, F_next. intros s' X Y. destruct (is_keyword _ _) eqn:E; [|apply F_fail].
    apply F_ret, H; [exact X|]. apply Y, is_keyword_eq, E.
  Qed.
  Lemma F_isolated A (p : P A) (Q : A -> state -> Prop) s :
    (forall s1, tr 2 3 s s1 -> W p (fun a s2 => forall s3, tr 2 3 s2 s3 -> Q a s3) s1) ->
    W (isolated p) Q s.
  Proof.
    intros H. unfold isolated, isolate_cover, get_cover.
    apply F_bind, F_bind, F_bind, F_pure; [exact Logic.I|]. intros c. apply F_ret. apply F_bind, F_upd; [reflexivity|reflexivity|].
    intros s1 X. apply F_ret. apply F_bind. eapply wp_mono; [|apply H; exact X].
    cbn beta. intros a s2 Y. apply F_bind, F_upd; [reflexivity|reflexivity|]. intros. apply F_ret, Y; assumption.
  Qed.
  Lemma F_inheriting A (p : P A) (Q : A -> state -> Prop) s :
    (forall s1, tr 2 3 s s1 -> W p (fun a s2 => forall s3, tr 2 3 s2 s3 -> Q a s3) s1) ->
    W (inheriting p) Q s.
  Proof.
    intros H. unfold inheriting, inherit_cover, isolate_cover, get_cover.
    apply F_bind, F_bind, F_bind, F_pure; [exact Logic.I|]. intros c. apply F_ret. apply F_bind, F_upd; [reflexivity|reflexivity|].
    intros s1 X. apply F_ret. apply F_bind. eapply wp_mono; [|apply H; exact X].
    cbn beta. intros a s2 Y. apply F_bind, F_upd; [reflexivity|reflexivity|]. intros. apply F_ret, Y; assumption.
  Qed.
  Lemma F_cover_formals e (Q : option (list FunctionArg) -> state -> Prop) s : (forall i, Q i s) -> W (cover_formals e) Q s.
  Proof.
    intros H. unfold cover_formals.
    destruct (match e with EIdent _ => _ | _ => _ end) as [[ps a]|]; [|apply F_ret, H].
    destruct (existsb snd _); [apply F_fail_look|].
    apply F_bind, F_get. apply F_bind, F_get.
    destruct (_ && _ && _); [apply F_fail_look|apply F_ret, H].
  Qed.
End PassF.

(** The last hypothesis about the current state is kept, joined with the one before. *)
Ltac joinF :=
  match goal with
  | H : tr ?d ?y ?s0 ?s1, X : tr 2 3 ?s1 ?s2 |- _ =>
      let N := fresh "T" in pose proof (tr_exact _ _ _ _ _ H X) as N; clear H X
  | H : tr ?d ?y ?s0 ?s1, X : tr ?d' ?y' ?s1 ?s2 |- _ =>
      let N := fresh "T" in pose proof (tr_trans _ _ _ _ _ _ _ H X) as N; clear H X; cbn [Nat.min] in N
  end.
Ltac nowF := intros; cbn [dlevel ylevel] in *; repeat joinF.
Ltac doneF := cbn [dlevel ylevel] in *; first [ eassumption | eapply tr_down; [eassumption|lia|lia] ].
Ltac updF := apply F_upd; [reflexivity|reflexivity|nowF].

Ltac stepF :=
  match goal with
  | |- wp _ _ _ _ _ _ _ (Ret _) _ _ => apply F_ret; cbn beta
  | |- wp _ _ _ _ _ _ _ (Fail _) _ _ => apply F_fail
  | |- wp _ _ _ _ _ _ _ Crash _ _ => apply F_crash
  | |- wp _ _ _ _ _ _ _ (fail_look _) _ _ => apply F_fail_look
  | |- wp _ _ _ _ _ _ _ next _ _ => apply F_next; nowF
  | |- wp _ _ _ _ _ _ _ (Do ONextIgnored) _ _ => apply F_nextignored; nowF
  | |- wp _ _ _ _ _ _ _ (Do OExpectComma) _ _ => apply F_expectcomma; nowF
  | |- wp _ _ _ _ _ _ _ (Do (OUpd _)) _ _ => updF
  | |- wp _ _ _ _ _ _ _ (Bind (upd (set_allow_yield _)) _) _ _ => fail 1
  | |- wp _ _ _ _ _ _ _ (Bind (upd (set_allow_strict_directive _)) _) _ _ => fail 1
  | |- wp _ _ _ _ _ _ _ (upd _) _ _ => updF
  | |- wp _ _ _ _ _ _ _ not_target _ _ => updF
  | |- wp _ _ _ _ _ _ _ (set_target_binding _ _) _ _ => updF
  | |- wp _ _ _ _ _ _ _ (set_isolate_cover ?c) _ _ => destruct c as [[? ?] ?]; updF
  | |- wp _ _ _ _ _ _ _ (set_inherit_cover ?c) _ _ => destruct c as [[? ?] ?]; updF
  | |- wp _ _ _ _ _ _ _ isolate_cover _ _ => unfold isolate_cover
  | |- wp _ _ _ _ _ _ _ inherit_cover _ _ => unfold inherit_cover, isolate_cover
  | |- wp _ _ _ _ _ _ _ get_cover _ _ => unfold get_cover
  | |- wp _ _ _ _ _ _ _ (Do OCtx) _ _ => apply F_ctx
  | |- wp _ _ _ _ _ _ _ (Do _) _ _ => apply F_pure; [exact Logic.I|intros]
  | |- wp _ _ _ _ _ _ _ look _ _ => apply F_look; intros
  | |- wp _ _ _ _ _ _ _ (get _) _ _ => apply F_get
  | |- wp _ _ _ _ _ _ _ look_tok _ _ => apply F_look_tok; intros
  | |- wp _ _ _ _ _ _ _ (at_punct _) _ _ => apply F_at_punct; intros
  | |- wp _ _ _ _ _ _ _ (at_keyword _) _ _ => apply F_at_keyword; intros
  | |- wp _ _ _ _ _ _ _ (expect_punct _) _ _ => apply F_expect_punct; nowF
  | |- wp _ _ _ _ _ _ _ (expect_keyword _) _ _ => apply F_expect_keyword; nowF
  | |- wp _ _ _ _ _ _ _ (stream_at _) _ _ => apply F_stream_at; intros
  | |- wp _ _ _ _ _ _ _ (get_string _) _ _ => apply F_get_string; intros
  | |- wp _ _ _ _ _ _ _ (string_or_empty _) _ _ => apply F_string_or_empty; intros
  | |- wp _ _ _ _ _ _ _ (at_contextual _) _ _ => apply F_at_contextual; intros
  | |- wp _ _ _ _ _ _ _ at_async_function _ _ => apply F_at_async_function; intros
  | |- wp _ _ _ _ _ _ _ at_import_call _ _ => apply F_at_import_call; intros
  | |- wp _ _ _ _ _ _ _ at_lexical_decl _ _ => apply F_at_lexical_decl; intros
  | |- wp _ _ _ _ _ _ _ at_return_arg _ _ => apply F_at_return_arg; intros
  | |- wp _ _ _ _ _ _ _ (qualified_prop_name _) _ _ => apply F_qualified; intros
  | |- wp _ _ _ _ _ _ _ (cover_formals _) _ _ => apply F_cover_formals; intros
  | |- wp _ _ _ _ _ _ _ (Call _) _ _ => apply F_call; nowF
  | |- wp _ _ _ _ _ _ _ (isolated _) _ _ => apply F_isolated; nowF
  | |- wp _ _ _ _ _ _ _ (inheriting _) _ _ => apply F_inheriting; nowF
  | |- wp _ _ _ _ _ _ _ (Loop _ _) _ _ =>
      eapply (F_loop _ _ 1 2);
      [ let s := fresh "s" in let T := fresh "T" in intros ? s _; repeat match goal with H : tr _ _ _ _ |- _ => clear H end; assert (T : tr 2 3 s s) by apply tr_refl
      | eapply tr_down; [apply tr_refl|lia|lia]
      | nowF ]
  | |- wp _ _ _ _ _ _ _ (Bind (match _ with _ => _ end) _) _ _ => cutF
  | |- wp _ _ _ _ _ _ _ (Bind (Bind _ (fun b => if b then _ else _)) _) _ _ => cutF
  | |- wp _ _ _ _ _ _ _ (Bind class_el_head _) _ _ => cutF
  | |- wp _ _ _ _ _ _ _ (Bind (class_el_mid _) _) _ _ => cutF
  | |- wp _ _ _ _ _ _ _ (Bind (obj_prop_head _) _) _ _ => cutF
  | |- wp _ _ _ _ _ _ _ (inner_slice _ _) _ _ => unfold inner_slice
  | |- wp _ _ _ _ _ _ _ (comma_list _) _ _ => unfold comma_list
  | |- wp _ _ _ _ _ _ _ (arg_list _) _ _ => unfold arg_list
  | |- wp _ _ _ _ _ _ _ class_el_head _ _ => unfold class_el_head
  | |- wp _ _ _ _ _ _ _ (class_el_mid _) _ _ => unfold class_el_mid
  | |- wp _ _ _ _ _ _ _ (obj_prop_head _) _ _ => unfold obj_prop_head
  | |- wp _ _ _ _ _ _ _ (obj_prop_plain _ _ _ _ _ _) _ _ => unfold obj_prop_plain
  | |- wp _ _ _ _ _ _ _ (arrow_rest _) _ _ => unfold arrow_rest
  | |- wp _ _ _ _ _ _ _ (assign_rest _) _ _ => unfold assign_rest
  | |- wp _ _ _ _ _ _ _ computed_member _ _ => unfold computed_member
  | |- wp _ _ _ _ _ _ _ (Bind _ _) _ _ => apply F_bind
  | |- wp _ _ _ _ _ _ _ (match ?x with _ => _ end) _ _ => destruct x
  | |- tr _ _ _ _ => doneF
  | |- forall _, _ => nowF
  | |- _ /\ _ => split
  | |- match ?x with _ => _ end => destruct x
  end
with cutF :=
  first [ eapply (F_cut _ _ 2 3); [ solve [freshF; repeat stepF] | nowF ]
        | eapply (F_cut _ _ 1 2); [ solve [freshF; repeat stepF] | nowF ]
        | eapply (F_cut _ _ 1 1); [ solve [freshF; repeat stepF] | nowF ] ]
with freshF :=
  repeat match goal with H : tr _ _ _ _ |- _ => clear H end;
  match goal with |- wp _ _ _ _ _ _ _ _ _ ?s => let T := fresh "T" in assert (T : tr 2 3 s s) by apply tr_refl end.
Ltac goF := repeat stepF.

Section BodiesF.
  Variable g : cfg.
  Variable m : nat.
  Notation W := (wp g false preF postF errF True m).

  (** Starting afresh from the current state. *)
  Lemma F_rebase d' y' a b d y A (p : P A) s0 s : tr a b s0 s -> d <= Nat.min a d' -> y <= Nat.min b y' ->
    W p (fun _ s' => tr d' y' s s') s -> W p (fun _ s' => tr d y s0 s') s.
  Proof.
    intros T Hd Hy H. eapply wp_mono; [|exact H]. cbn beta. intros _ s' T'.
    eapply tr_down; [eapply tr_trans; [exact T|exact T']|assumption|assumption].
  Qed.
  Lemma F_rebase_fun y' b d y A (p : P A) s0 s : tr 2 b s0 s -> seen KFunction s0 s -> d <= 1 -> y <= Nat.min b y' ->
    W p (fun _ s' => tr 0 y' s s') s -> W p (fun _ s' => tr d y s0 s') s.
  Proof.
    intros T S Hd Hy H. eapply wp_mono; [|exact H]. cbn beta. intros _ s' T'.
    destruct (tr_trans _ _ _ _ _ _ _ T T') as (O & _ & Y).
    eapply (tr_down 1 (Nat.min b y')); [|exact Hd|exact Hy]. split; [exact O|split; [|exact Y]].
    right. eapply seen_left; [exact S|apply T'].
  Qed.
  Lemma F_rebase_class d' b d y A (p : P A) s0 s : tr 2 b s0 s -> seen KClass s0 s -> 1 <= b -> d <= d' -> d <= 2 -> y <= 2 ->
    W p (fun _ s' => tr d' 1 s s') s -> W p (fun _ s' => tr d y s0 s') s.
  Proof.
    intros T S Hb Hd1 Hd2 Hy H. eapply wp_mono; [|exact H]. cbn beta. intros _ s' T'.
    assert (T1 : tr 2 1 s0 s) by (eapply tr_down; [exact T|lia|lia]).
    destruct (tr_trans _ _ _ _ _ _ _ T1 T') as (O & D & Y).
    eapply (tr_down (Nat.min 2 d') 2); [|lia|exact Hy]. split; [exact O|split; [exact D|]].
    destruct Y as [Y|Y]; [left; exact Y|right]. split; [exact Y|]. eapply seen_left; [exact S|apply T'].
  Qed.
  (** Putting a flag back. *)
  Lemma F_put_yield v d y s0 s (Q : unit -> state -> Prop) : tr d y s0 s -> v = yield_flag s0 ->
    (forall s', tr d 3 s0 s' -> Q tt s') -> W (upd (set_allow_yield v)) Q s.
  Proof.
    intros (O & D & _) E H. apply F_upd_yield. intros s' T Ey. apply H.
    destruct T as (O' & D' & _). split; [eapply onward_trans; eauto|]. split; [|cbn; congruence].
    destruct d as [|[|d]]; cbn in *; auto.
    - destruct D as [D|D]; [left; congruence|right; eapply seen_left; eauto].
    - congruence.
  Qed.
  Lemma F_forget_yield d y s0 s (Q : unit -> state -> Prop) : tr d y s0 s ->
    (forall s', tr d 1 s0 s' -> Q tt s') -> W (upd (set_allow_yield false)) Q s.
  Proof.
    intros (O & D & _) H. apply F_upd_yield. intros s' T Ey. apply H.
    destruct T as (O' & D' & _). split; [eapply onward_trans; eauto|]. split; [|right; exact Ey].
    destruct d as [|[|d]]; cbn in *; auto.
    - destruct D as [D|D]; [left; congruence|right; eapply seen_left; eauto].
    - congruence.
  Qed.
  Lemma F_put_strict v d y s0 s (Q : unit -> state -> Prop) : tr d y s0 s -> v = strict_flag s0 ->
    (forall s', tr 2 y s0 s' -> Q tt s') -> W (upd (set_allow_strict_directive v)) Q s.
  Proof.
    intros (O & _ & Y) E H. apply F_upd_strict. intros s' T Ey. apply H.
    destruct T as (O' & _ & Y'). split; [eapply onward_trans; eauto|]. split; [cbn; congruence|].
    destruct y as [|[|[|y]]]; cbn in *; auto.
    - rewrite Y'. exact Y.
    - destruct Y as [Y|[Y S]]; [left; congruence|right; split; [congruence|eapply seen_left; eauto]].
    - congruence.
  Qed.
End BodiesF.

Ltac bindF := match goal with |- wp _ _ _ _ _ _ _ (Bind _ _) _ _ => apply F_bind | _ => idtac end.
Ltac drop_yield := bindF; apply F_upd_yield; nowF.
Ltac drop_strict := bindF; apply F_upd_strict; nowF.
Ltac keepT := repeat match goal with H : tr _ _ _ _ |- _ => clear H end; nowF.
Ltac put_yield := bindF; eapply F_put_yield; [eassumption|reflexivity|keepT].
Ltac put_strict := bindF; eapply F_put_strict; [eassumption|reflexivity|keepT].
Ltac rebase d y := eapply (F_rebase _ _ d y); [eassumption|cbn; lia|cbn; lia|]; freshF.

Section Bodies.
  Variable g : cfg.
  Variable m : nat.
  Notation good c := (forall s, wp g false preF postF errF True m (body c) (fun _ s' => tr (dlevel c) (ylevel c) s s') s).
  Ltac start := intros s; cbn [body dlevel ylevel];
    match goal with |- wp _ _ _ _ _ _ _ ?p _ _ => unfold_head p end; freshF.

  Lemma f_AsyncPropertyMethod : good CAsyncPropertyMethod.
  Proof. start. goF. drop_yield. goF. put_yield. goF. Qed.
  Lemma f_PropertyMethod : good CPropertyMethod.
  Proof. start. goF. drop_yield. goF. put_yield. goF. Qed.
  Lemma f_GeneratorMethod : good CGeneratorMethod.
  Proof. start. goF. drop_yield. goF. drop_yield. goF. put_yield. goF. Qed.
  Lemma f_GetterMethod : good CGetterMethod.
  Proof. start. goF. put_yield. goF. Qed.
  Lemma f_SetterMethod : good CSetterMethod.
  Proof. start. goF. drop_yield. goF. put_yield. goF. Qed.
  Lemma f_MethodBody b1 b2 : good (CMethodBody b1 b2).
  Proof. start. goF. rebase 2 2. drop_strict. goF. put_strict. goF. Qed.
  Lemma f_PropertyMethodBody b1 b2 : good (CPropertyMethodBody b1 b2).
  Proof. start. goF. rebase 2 2. drop_strict. goF. put_strict. goF. Qed.
  Lemma f_PatternWithDefault : good CPatternWithDefault.
  Proof. start. goF. rebase 1 2. drop_yield. goF. put_yield. goF. Qed.
  Lemma f_YieldExpr : good CYieldExpr.
  Proof. start. goF. rebase 1 2. drop_yield. goF. put_yield. goF. Qed.
  Ltac taken := apply F_bind, F_expect_keyword;
    let s1 := fresh "s" in let T1 := fresh "T" in let S1 := fresh "S" in intros s1 T1 S1;
    match goal with T : tr _ _ ?s0 ?s, S : seen _ ?s s1 |- _ => apply (seen_right _ _ _ _ (proj1 T)) in S end; nowF.
  Ltac to_yield := repeat (lazymatch goal with |- wp _ _ _ _ _ _ _ (Bind (get c_allow_yield) _) _ _ => fail | _ => stepF end).
  Lemma f_FunctionDecl o : good (CFunctionDecl o).
  Proof.
    start. stepF. taken. eapply (F_rebase_fun _ _ 3); [eassumption|eassumption|lia|cbn; lia|].
    freshF. to_yield. all: rebase 0 3; goF. all: drop_yield; goF. all: drop_strict; goF. all: drop_strict; goF. all: put_yield; goF.
  Qed.
  Lemma f_FunctionExpr : good CFunctionExpr.
  Proof.
    start. stepF. stepF. stepF. taken. eapply (F_rebase_fun _ _ 3); [eassumption|eassumption|lia|cbn; lia|].
    freshF. to_yield. all: rebase 0 3; goF. all: drop_yield; goF. all: drop_strict; goF. all: put_yield; goF.
  Qed.
  Lemma f_ClassDecl o : good (CClassDecl o).
  Proof.
    start. stepF. stepF. stepF. stepF. taken. eapply (F_rebase_class _ _ 1); [eassumption|eassumption|lia|lia|lia|lia|].
    freshF. goF.
  Qed.
  Lemma f_ClassBody : good CClassBody.
  Proof.
    start. stepF. stepF. apply F_bind. eapply (F_loop _ _ 1 1).
    - intros ? s1 _. freshF. goF.
    - eapply tr_down; [apply tr_refl|lia|lia].
    - nowF. goF.
  Qed.
  Lemma f_ClassEl h : good (CClassEl h).
  Proof.
    start. goF. bindF. eapply F_forget_yield; [eassumption|]. keepT. goF.
  Qed.

  Lemma f_LabelledStatement : good CLabelledStatement.
  Proof.
    start. do 4 stepF.
    assert (X : forall s1 (Q : Stmt -> state -> Prop), (forall b s2, tr 1 2 s1 s2 -> Q b s2) ->
      wp g false preF postF errF True m
        (ifM at_keyword KClass then
             class <- next ;;
             Do (OTolerate (FUnexpected class "")) ;;
             b <- Call CClassBody ;;
             Ret (SExpr (EClass (mkClass None None b)))
           else ifM at_keyword KFunction then
             f <- Call (CFunctionDecl true) ;; Ret (SExpr (EFunction f))
           else Call CStatement) Q s1).
    { clear. intros s1 Q HQ. apply F_bind.
      change (wp g false preF postF errF True m (if is_keyword KClass (it_tok (st_look s1)) then
             class <- next ;;
             Do (OTolerate (FUnexpected class "")) ;;
             b <- Call CClassBody ;;
             Ret (SExpr (EClass (mkClass None None b)))
           else ifM at_keyword KFunction then
             f <- Call (CFunctionDecl true) ;; Ret (SExpr (EFunction f))
           else Call CStatement) Q s1).
      destruct (is_keyword _ _) eqn:E.
      - apply F_bind, F_next. intros s2 T S.
        assert (S2 : seen KClass s1 s2).
        { apply S, is_keyword_eq, E. }
        eapply wp_mono with (Q := fun _ s' => tr 1 2 s1 s'); [intros b s'; apply HQ|].
        eapply (F_rebase_class _ _ 1); [eassumption|eassumption|lia|lia|lia|lia|].
        freshF. goF.
      - freshF. goF; apply HQ; goF. }
    destruct b.
    all: repeat (lazymatch goal with |- wp _ _ _ _ _ _ _ (Bind (Bind (at_keyword KClass) _) _) _ _ => fail | _ => stepF end).
    apply F_bind, X. nowF. goF.
  Qed.

  Lemma bodiesF B (c : call B) s : preF (S m) _ c s -> wp g false preF postF errF True m (body c) (postF _ c s) s.
  Proof.
    intros _. change (wp g false preF postF errF True m (body c) (fun _ s' => tr (dlevel c) (ylevel c) s s') s).
    destruct c.
    all: lazymatch goal with
      | |- wp _ _ _ _ _ _ _ (body CLabelledStatement) _ _ => apply f_LabelledStatement
      | |- wp _ _ _ _ _ _ _ (body (CAsyncPropertyMethod)) _ _ => apply f_AsyncPropertyMethod
      | |- wp _ _ _ _ _ _ _ (body (CPropertyMethod)) _ _ => apply f_PropertyMethod
      | |- wp _ _ _ _ _ _ _ (body (CGeneratorMethod)) _ _ => apply f_GeneratorMethod
      | |- wp _ _ _ _ _ _ _ (body (CGetterMethod)) _ _ => apply f_GetterMethod
      | |- wp _ _ _ _ _ _ _ (body (CSetterMethod)) _ _ => apply f_SetterMethod
      | |- wp _ _ _ _ _ _ _ (body (CMethodBody _ _)) _ _ => apply f_MethodBody
      | |- wp _ _ _ _ _ _ _ (body (CPropertyMethodBody _ _)) _ _ => apply f_PropertyMethodBody
      | |- wp _ _ _ _ _ _ _ (body (CPatternWithDefault)) _ _ => apply f_PatternWithDefault
      | |- wp _ _ _ _ _ _ _ (body (CYieldExpr)) _ _ => apply f_YieldExpr
      | |- wp _ _ _ _ _ _ _ (body (CFunctionDecl _)) _ _ => apply f_FunctionDecl
      | |- wp _ _ _ _ _ _ _ (body (CFunctionExpr)) _ _ => apply f_FunctionExpr
      | |- wp _ _ _ _ _ _ _ (body (CClassDecl _)) _ _ => apply f_ClassDecl
      | |- wp _ _ _ _ _ _ _ (body (CClassBody)) _ _ => apply f_ClassBody
      | |- wp _ _ _ _ _ _ _ (body (CClassEl _)) _ _ => apply f_ClassEl
      | _ => cbn [body dlevel ylevel]; match goal with |- wp _ _ _ _ _ _ _ ?p _ _ => unfold_head p end; freshF; goF
      end.
  Qed.
End Bodies.

Theorem call_flags g n B (c : call B) s b s' : run_call (@body) g n c s = (Ok b, s') ->
  tr (dlevel c) (ylevel c) s s'.
Proof.
  intros H. pose proof (wp_sound call (@body) g false preF postF errF True ltac:(discriminate)
    (fun m B c s => bodiesF g m B c s) n B c s Logic.I) as W.
  rewrite H in W. exact W.
Qed.
