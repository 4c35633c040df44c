(** Expressions, level by level: each function of the parser reads what is one level up. *)
From Verif Require Export Heads.
Local Open Scope nat_scope.
Local Open Scope list_scope.

Definition binds (e : Expr) : bool :=
  match e with EIdent _ => true | EAssignment AEqual (ALExpr (EIdent _)) _ => true | _ => false end.
(** What is said of an array or object literal: nothing, or that it reads as a pattern, of targets or of names. *)
Definition reading := option bool.
Definition stands (w : reading) (e : Expr) : bool :=
  match e with EArray _ | EObject _ => match w with Some _ => true | None => false end | _ => is_target e end.
Definition names (w : reading) (e : Expr) : bool :=
  match e with EArray _ | EObject _ => match w with Some b => b | None => false end | _ => binds e end.
(** The cover-grammar flags stay up over a target. *)
Definition flags (w : reading) (e : Expr) (k k' : ctx) : Prop :=
  (stands w e = true -> c_assign_target k = true -> c_assign_target k' = true)
  /\ (names w e = true -> c_binding_element k = true -> c_binding_element k' = true).
Lemma flags_refl w e k : flags w e k k.
Proof. split; auto. Qed.
Lemma flags_none w e k k' : stands w e = false -> names w e = false -> flags w e k k'.
Proof. intros A B. split; congruence. Qed.
Lemma target_stands w e : is_target e = true -> stands w e = true.
Proof. destruct e; try discriminate; reflexivity. Qed.

Lemma view_opened k : view_of (opened k) = view_of k.
Proof. reflexivity. Qed.
Lemma view_isolated k k2 : view_of (isolated_of k k2) = view_of k2.
Proof. reflexivity. Qed.
Lemma view_inherited k k2 : view_of (inherited_of k k2) = view_of k2.
Proof. reflexivity. Qed.

(** Two views agree, field by field. *)
Ltac vws :=
  unfold view_of, in_, yield_, await_, fn_, labels_, strict_ in *; cbn in *;
  repeat match goal with H : mkView _ _ _ _ _ _ _ = _ |- _ => injection H; clear H; intros end;
  congruence.

Section Ladder.
  Variable g : cfg.
  Context {rd : reading}.
  Notation evs := (evs g).
  Notation At := (At g).
  Notation leaves := (leaves g).
  Notation T := (fun _ : ctx => True).

  Lemma evs_inh_e (p : P Expr) s l k l' e : At s l k ->
    (forall s1, At s1 l (opened k) -> evs p s1 (leaves (opened k) l' (flags rd e (opened k)) e)) ->
    evs (inheriting p) s (leaves k l' (flags rd e k) e).
  Proof.
    intros A H. eapply evs_inheriting; [exact A|]. intros s1 A1. eapply evs_mono; [|exact (H s1 A1)].
    intros a s2 (-> & k2 & A2 & V & F1 & F2). exists l', k2. split; [exact A2|]. intros s3 A3. split; [reflexivity|].
    exists (inherited_of k k2). split; [exact A3|]. split; [exact V|]. split; cbn.
    - intros Ht Hk. rewrite (F1 Ht eq_refl), Hk. reflexivity.
    - intros Ht Hk. rewrite (F2 Ht eq_refl), Hk. reflexivity.
  Qed.
  Lemma evs_iso B (p : P B) s l k l' F (v : B) : At s l k ->
    (forall s1, At s1 l (opened k) -> evs p s1 (leaves (opened k) l' F v)) ->
    evs (isolated p) s (leaves k l' (fun k' => c_assign_target k' = c_assign_target k /\ c_binding_element k' = c_binding_element k) v).
  Proof.
    intros A H. eapply evs_isolated; [exact A|]. intros s1 A1. eapply evs_mono; [|exact (H s1 A1)].
    intros a s2 (-> & k2 & A2 & V & _). exists l', k2. split; [exact A2|]. intros s3 A3. split; [reflexivity|].
    exists (isolated_of k k2). split; [exact A3|]. split; [exact V|]. split; reflexivity.
  Qed.
  Lemma evs_inh B (p : P B) s l k l' F (v : B) : At s l k ->
    (forall s1, At s1 l (opened k) -> evs p s1 (leaves (opened k) l' F v)) ->
    evs (inheriting p) s (leaves k l' T v).
  Proof.
    intros A H. eapply evs_inheriting; [exact A|]. intros s1 A1. eapply evs_mono; [|exact (H s1 A1)].
    intros a s2 (-> & k2 & A2 & V & _). exists l', k2. split; [exact A2|]. intros s3 A3. split; [reflexivity|].
    exists (inherited_of k k2). split; [exact A3|]. split; [exact V|exact I].
  Qed.
  Lemma leave B s l' k k' (F : ctx -> Prop) (v : B) : At s l' k' -> view_of k' = view_of k -> F k' -> leaves k l' F v v s.
  Proof. intros A V H. split; [reflexivity|]. exists k'. auto. Qed.

  (** ** Levels 19 to 16 *)
  Definition prim : P Expr := ifM at_keyword KNew then Call CNewExpr else Call CPrimaryExpression.
  Definition X19 (S : view) l e l' : Prop := forall s k, At s l k -> view_of k = S -> evs prim s (leaves k l' (flags rd e k) e).

  Definition prim17 : P Expr :=
    sup <- at_keyword KSuper ;;
    inf <- get c_in_function_body ;;
    if sup && inf then
      next ;;
      t <- look_tok ;;
      if is_punct POpenParen t || is_punct PPeriod t || is_punct POpenBracket t then Ret ESuper
      else fail_look ["("; "."; "["]%string
    else inheriting prim.
  Definition chain17 (sp : position) (expr : Expr) : P (Expr + Expr) :=
    t <- look_tok ;;
    if is_punct PPeriod t then
      set_target_binding true false ;;
      expect_punct PPeriod ;;
      prop <- Call CIdentName ;;
      Ret (inl (EMember expr (EIdent prop) false))
    else if is_punct POpenParen t then
      current_pos <- Do OLookPos ;;
      let async_arrow := false && (p_line sp =? p_line current_pos) in
      not_target ;;
      args <- (if async_arrow then Call CAsyncArgs else Call CArgs) ;;
      fat <- at_punct PFatArrow ;;
      if async_arrow && fat then Ret (inl (EArrowParamPlaceHolder (map FAExpr args) true))
      else Ret (inl (ECall expr args))
    else if is_punct POpenBracket t then
      set_target_binding true false ;;
      prop <- computed_member ;;
      Ret (inl (EMember expr prop true))
    else if is_template_head t then
      quasi <- Call CTemplateLiteral ;;
      Ret (inl (ETaggedTemplate expr quasi))
    else Ret (inr expr).
  Definition X17 (S : view) l e l' : Prop := forall sp s k (Q : Expr -> state -> Prop), At s l k -> view_of k = S ->
    (forall s' k', At s' l' k' -> view_of k' = S -> flags rd e k k' -> evs (Loop e (chain17 sp)) s' Q) ->
    evs (Bind prim17 (fun e => Loop e (chain17 sp))) s Q.
  Definition chain18 (expr : Expr) : P (Expr + Expr) :=
    t <- look_tok ;;
    if is_punct POpenBracket t then
      set_target_binding true false ;;
      prop <- computed_member ;;
      Ret (inl (EMember expr prop true))
    else if is_punct PPeriod t then
      set_target_binding false false ;;
      expect_punct PPeriod ;;
      prop <- Call CIdentName ;;
      Ret (inl (EMember expr (EIdent prop) false))
    else if is_template t then
      quasi <- Call CTemplateLiteral ;;
      Ret (inl (ETaggedTemplate expr quasi))
    else Ret (inr expr).
  Definition X18 (S : view) l e l' : Prop := forall s k (Q : Expr -> state -> Prop), At s l k -> view_of k = S ->
    (forall s' k', At s' l' k' -> view_of k' = S -> evs (Loop e chain18) s' Q) ->
    evs (Bind (inheriting prim) (fun e => Loop e chain18)) s Q.
  Definition Xcall (c : call Expr) (n : nat) (S : view) l e l' : Prop := forall s k, At s l k -> view_of k = S ->
    follow (v_in S) n l' = true -> evs (Call c) s (leaves k l' (flags rd e k) e).
  Definition Xup (c : call Expr) (n : nat) (S : view) l e l' : Prop := forall s k, At s l k -> view_of k = S ->
    c_assign_target k = true -> follow (v_in S) n l' = true -> evs (Call c) s (leaves k l' (flags rd e k) e).
  Notation X16 := (Xup CUpdateExpr 16).
  Notation X15 := (Xup CUnaryExpression 15).
  Notation X14 := (Xcall CExponentiation 14).
  Notation X2 := (Xcall CConditionalExpr 2).
  Notation X0 := (Xcall CExpression 0).
  Definition X1 (S : view) l e l' : Prop := forall s k, At s l k -> view_of k = S ->
    follow (v_in S) 1 l' = true -> (assigns e = true -> c_assign_target k = true) ->
    evs (Call CAssignmentExpr) s (leaves k l' (flags rd e k) e).

  Lemma not_super l : primary_head (hd_tok l) = true -> is_keyword KSuper (hd_tok l) = false.
  Proof. destruct (hd_tok l) as [| | | | | | |[]|[]|[]|]; try discriminate; reflexivity. Qed.
  Lemma call_primary t : primary_head t = true -> call_head t = true.
  Proof. unfold call_head. intros ->. reflexivity. Qed.
  Lemma call_expr n t : n <= 17 -> call_head t = true -> expr_head n t = true.
  Proof. intros Hn H. apply (expr_head_up 17); [exact Hn|]. destruct t as [| | | | | | |[]|[]|[]|]; try discriminate; reflexivity. Qed.
  Definition call_at (l : list tk) : Prop := call_head (hd_tok l) = true /\ calm l.
  Definition primary_at (l : list tk) : Prop := primary_head (hd_tok l) = true /\ calm l.
  Lemma call_primary_at l : primary_at l -> call_at l.
  Proof. intros [H C]. split; [apply call_primary; exact H|exact C]. Qed.
  Lemma super_17 S l l1 : v_fn S = true -> reads (TKeyword KSuper) l l1 ->
    is_punct POpenParen (hd_tok l1) || is_punct PPeriod (hd_tok l1) || is_punct POpenBracket (hd_tok l1) = true -> X17 S l ESuper l1.
  Proof.
    intros Hf R E sp s k Q A V HQ. apply evs_bind. unfold prim17. ev.
    replace (c_in_function_body k) with true by (subst S; symmetry; exact Hf). ev. rewrite E. ev.
    eapply HQ; [eassumption|exact V|apply flags_none; reflexivity].
  Qed.
  Lemma up_17 S l e l' : primary_head (hd_tok l) = true -> X19 S l e l' -> X17 S l e l'.
  Proof.
    intros Hh H sp s k Q A V HQ. apply evs_bind. unfold prim17. ev. rewrite (not_super _ Hh). cbn [andb]. cbn iota.
    eapply evs_then; [eapply evs_inh_e; [exact A|]|].
    - intros s1 A1. apply H; [exact A1|exact V].
    - cbn beta. intros s' k' A' V' F. apply (HQ s' k'); [exact A'|congruence|exact F].
  Qed.
  Lemma up_18 S l e l' : X19 S l e l' -> X18 S l e l'.
  Proof.
    intros H s k Q A V HQ. apply evs_bind. eapply evs_then; [eapply evs_inh_e; [exact A|]|].
    - intros s1 A1. apply H; [exact A1|exact V].
    - cbn beta. intros s' k' A' V' F. apply (HQ s' k'); [exact A'|congruence].
  Qed.

  Lemma evs_ident_name s l k t w l' : At s l k -> reads_as t w l l' -> evs (Call CIdentName) s (leaves k l' (fun k' => k' = k) w).
  Proof.
    intros A R. apply evs_call. cbn [body]. unfold ident_name. ev. split; [apply (reads_as_hd _ _ _ _ R)|].
    eexists. split; [eassumption|]. auto.
  Qed.

  Lemma evs_computed S s l k l1 e l2 l' : At s l k -> view_of k = S -> v_in S = true -> reads (TPunct POpenBracket) l l1 -> X0 S l1 e l2 ->
    reads (TPunct PCloseBracket) l2 l' ->
    evs computed_member s (leaves k l' (fun k' => c_assign_target k' = c_assign_target k /\ c_binding_element k' = c_binding_element k) e).
  Proof.
    intros A V Hi R H R2. unfold computed_member. ev. eapply evs_then; [eapply evs_iso; [eassumption|]|].
    - intros s2 A2. apply H; [exact A2|exact V|]. rewrite Hi. unfold follow, goes_on. rewrite (reads_hd _ _ _ R2). reflexivity.
    - cbn beta. intros s2 k2 A2 V2 F2. ev. split; [reflexivity|]. exists k2. auto.
  Qed.

  Lemma step_member S l e l1 t w l2 l' : X17 S l e l1 -> reads (TPunct PPeriod) l1 l2 -> reads_as t w l2 l' ->
    X17 S l (EMember e (EIdent w) false) l'.
  Proof.
    intros H R R2 sp s k Q A V HQ. eapply H; [exact A|exact V|]. intros s1 k1 A1 V1 _.
    apply evs_loop. unfold chain17. ev. eapply evs_then; [eapply evs_ident_name; eassumption|]. cbn beta.
    intros s3 k3 A3 V3 ->. ev. eapply HQ; [eassumption|exact V1|]. split; [reflexivity|discriminate].
  Qed.
  Lemma step_member18 S l e l1 t w l2 l' : X18 S l e l1 -> reads (TPunct PPeriod) l1 l2 -> reads_as t w l2 l' ->
    X18 S l (EMember e (EIdent w) false) l'.
  Proof.
    intros H R R2 s k Q A V HQ. eapply H; [exact A|exact V|]. intros s1 k1 A1 V1.
    apply evs_loop. unfold chain18. ev. eapply evs_then; [eapply evs_ident_name; eassumption|]. cbn beta.
    intros s3 k3 A3 V3 ->. ev. eapply HQ; [eassumption|exact V1].
  Qed.
  Lemma step_index S l e l1 x l2 l3 l' : v_in S = true -> X17 S l e l1 -> reads (TPunct POpenBracket) l1 l2 -> X0 S l2 x l3 ->
    reads (TPunct PCloseBracket) l3 l' -> X17 S l (EMember e x true) l'.
  Proof.
    intros Hi H R Hx R2 sp s k Q A V HQ. eapply H; [exact A|exact V|]. intros s1 k1 A1 V1 _.
    apply evs_loop. unfold chain17. ev. eapply evs_then; [eapply (evs_computed S); eauto|]. cbn beta.
    intros s3 k3 A3 V3 [F1 F2]. ev. eapply HQ; [eassumption|rewrite V3; exact V1|]. split; [intros _ _; exact F1|discriminate].
  Qed.
  Lemma step_index18 S l e l1 x l2 l3 l' : v_in S = true -> X18 S l e l1 -> reads (TPunct POpenBracket) l1 l2 -> X0 S l2 x l3 ->
    reads (TPunct PCloseBracket) l3 l' -> X18 S l (EMember e x true) l'.
  Proof.
    intros Hi H R Hx R2 s k Q A V HQ. eapply H; [exact A|exact V|]. intros s1 k1 A1 V1.
    apply evs_loop. unfold chain18. ev. eapply evs_then; [eapply (evs_computed S); eauto|]. cbn beta.
    intros s3 k3 A3 V3 _. ev. eapply HQ; [eassumption|rewrite V3; exact V1].
  Qed.
  (** Arguments: from before the opening parenthesis. *)
  Definition Xargs (S : view) l es l' : Prop := forall s k l0, At s l0 k -> view_of k = S -> reads (TPunct POpenParen) l0 l ->
    evs (Call CArgs) s (leaves k l' T es).
  Lemma step_call S l e l1 es l2 l' : X17 S l e l1 -> reads (TPunct POpenParen) l1 l2 -> Xargs S l2 es l' ->
    X17 S l (ECall e es) l'.
  Proof.
    intros H R Ha sp s k Q A V HQ. eapply H; [exact A|exact V|]. intros s1 k1 A1 V1 _.
    apply evs_loop. unfold chain17. ev. cbn [andb]. eapply evs_then; [eapply Ha; eauto|]. cbn beta.
    intros s3 k3 A3 V3 _. ev. cbn [andb]. ev. eapply HQ; [eassumption|rewrite V3; exact V1|].
    apply flags_none; reflexivity.
  Qed.
  Definition Xtpl (S : view) l q l' : Prop := forall s k, At s l k -> view_of k = S ->
    evs (Call CTemplateLiteral) s (leaves k l' T q).
  Lemma step_tagged S l e l1 q l' : X17 S l e l1 -> is_template_head (hd_tok l1) = true -> Xtpl S l1 q l' ->
    X17 S l (ETaggedTemplate e q) l'.
  Proof.
    intros H Hh Hq sp s k Q A V HQ. eapply H; [exact A|exact V|]. intros s1 k1 A1 V1 _.
    apply evs_loop. unfold chain17. ev1. ev1. destruct (hd_tok l1) as [| | | | | | |[]|[]|[]|]; try discriminate; ev_bool; cbn iota.
    all: apply evs_bind; eapply evs_then; [eapply Hq; eauto|]; cbn beta; intros s3 k3 A3 V3 _; ev.
    all: eapply HQ; [eassumption|rewrite V3; exact V1|apply flags_none; reflexivity].
  Qed.

  Lemma step_tagged18 S l e l1 q l' : X18 S l e l1 -> is_template_head (hd_tok l1) = true -> Xtpl S l1 q l' ->
    X18 S l (ETaggedTemplate e q) l'.
  Proof.
    intros H Hh Hq s k Q A V HQ. eapply H; [exact A|exact V|]. intros s1 k1 A1 V1.
    apply evs_loop. unfold chain18. ev1. ev1. destruct (hd_tok l1) as [| | | | | | |[]|[]|[]|]; try discriminate; ev_bool; cbn iota.
    all: apply evs_bind; eapply evs_then; [eapply Hq; eauto|]; cbn beta; intros s3 k3 A3 V3 _; ev.
    all: eapply HQ; [eassumption|rewrite V3; exact V1].
  Qed.

  Lemma evs_bind_inv B C (p : P B) (q : B -> P C) s Q : evs (Bind p q) s Q -> evs p s (fun a s' => evs (q a) s' Q).
  Proof.
    intros (n & a & s' & E & H). unfold run in E. cbn [run_in] in E.
    destruct (run_in g n (@run_call call (@body) g n) p s) as [[b| | |] s1] eqn:E1; try discriminate.
    exists n, b, s1. split; [exact E1|]. exists n, a, s'. split; [exact E|exact H].
  Qed.
  Lemma evs_assoc B C D (p : P B) (q : B -> P C) (r : C -> P D) s Q :
    evs (Bind p q) s (fun c s' => evs (r c) s' Q) -> evs (Bind p (fun b => Bind (q b) r)) s Q.
  Proof.
    intros H. apply evs_bind. eapply evs_mono; [|exact (evs_bind_inv _ _ _ _ _ _ H)].
    intros b s' Hb. apply evs_bind. exact Hb.
  Qed.

  Lemma lhs_call S l e l' s k : X17 (in_ true S) l e l' -> call_at l -> follow (v_in S) 17 l' = true ->
    At s l k -> view_of k = S -> evs (Call CLeftHandSideExprAllowCall) s (leaves k l' (flags rd e k) e).
  Proof.
    intros H [Hh Hc] Hf A V. apply evs_call. cbn [body]. unfold lhs_allow_call. do 8 (ev1; cbn beta). not_async A.
    assert (X : evs (Bind prim17 (fun e => Loop e (chain17 p))) s0
      (fun e' s' => evs (upd (set_allow_in (c_allow_in k)) ;; Ret e') s' (leaves k l' (flags rd e k) e))).
    2:{ apply evs_bind_inv in X. unfold prim17 in X. apply evs_bind_inv in X. apply evs_bind.
        eapply evs_mono; [|exact X]. cbn beta. intros b1 s1 X1. apply evs_bind_inv in X1. apply evs_bind.
        eapply evs_mono; [|exact X1]. cbn beta. intros b2 s2 X2. apply evs_bind.
        eapply evs_mono; [|exact X2]. cbn beta. intros b s' Hb. apply evs_bind. exact Hb. }
    eapply (H p); [eassumption|subst S; reflexivity|].
    intros s1 k1 A1 V1 F1. destruct (stop_17 _ _ Hf) as (N1 & N2 & N3 & N4).
    apply evs_loop. unfold chain17. ev. rewrite N1, N2, N3, N4. ev. split; [reflexivity|].
    eexists. split; [eassumption|]. split; [subst S; clear - V1; vws|exact F1].
  Qed.

  Lemma no_update l : call_at l -> is_punct PIncrement (hd_tok l) || is_punct PDecrement (hd_tok l) = false.
  Proof. intros [H _]. revert H. destruct (hd_tok l) as [| | | | | | |[]|[]|[]|]; try discriminate; reflexivity. Qed.
  Lemma update_op t o : In (t, o) update_ops -> t = TPunct PIncrement /\ o = UIncrement \/ t = TPunct PDecrement /\ o = UDecrement.
  Proof. intros [E|[E|[]]]; inversion E; auto. Qed.
  Lemma not_restricted S e : strict_target S e -> v_strict S = true -> restricted_ident e = false.
  Proof.
    intros H Hs. destruct e; try reflexivity. cbn. unfold is_restricted_word. specialize (H Hs _ eq_refl).
    destruct (text_eqb i (str "eval")) eqn:E1; [apply text_eqb_eq in E1; destruct H; left; auto|].
    destruct (text_eqb i (str "arguments")) eqn:E2; [apply text_eqb_eq in E2; destruct H; right; left; auto|]. reflexivity.
  Qed.
  Definition Xlhs (S : view) l e l' : Prop := forall s k, At s l k -> view_of k = S -> follow (v_in S) 17 l' = true ->
    evs (Call CLeftHandSideExprAllowCall) s (leaves k l' (flags rd e k) e).
  Lemma lhs_16 S l e l' : Xlhs S l e l' -> is_punct PIncrement (hd_tok l) || is_punct PDecrement (hd_tok l) = false -> X16 S l e l'.
  Proof.
    intros H Hh s k A V _ Hf. apply evs_call. cbn [body]. unfold update_expr. ev. rewrite Hh.
    apply evs_bind. eapply evs_then; [eapply evs_inh_e; [exact A|]|].
    - intros s1 A1. apply H; [exact A1|exact V|]. eapply follow_up; [|exact Hf]. lia.
    - cbn beta. intros s1 k1 A1 V1 F1. ev. eapply evs_newline; [exact A1|]. intros b Hb. ev.
      replace (negb b && (is_punct PIncrement (hd_tok l') || is_punct PDecrement (hd_tok l'))) with false.
      + ev. eapply leave; eauto.
      + destruct b; [reflexivity|]. destruct Hb as [Hb|Hb]; [|rewrite Hb; reflexivity].
        destruct (stop_16 _ _ Hf (eq_sym Hb)) as [-> ->]. reflexivity.
  Qed.
  Lemma up_16 S l e l' : X17 (in_ true S) l e l' -> call_at l -> X16 S l e l'.
  Proof.
    intros H Hh. apply lhs_16; [|apply no_update; exact Hh]. intros s k A V Hf. eapply (lhs_call S); eauto.
  Qed.
  Lemma postfix S l e l1 t o l' : X17 (in_ true S) l e l1 -> call_at l -> is_target e = true -> strict_target S e ->
    In (t, o) update_ops -> newline l1 = false -> reads t l1 l' -> X16 S l (EUpdate o e false) l'.
  Proof.
    intros H Hh Ht Hs Ho Hn R s k A V Hk Hf. apply evs_call. cbn [body]. unfold update_expr. ev.
    rewrite (no_update _ Hh).
    apply evs_bind. eapply evs_then; [eapply evs_inh_e; [exact A|]|].
    - intros s1 A1. eapply (lhs_call S); eauto. unfold follow, goes_on. rewrite (reads_hd _ _ _ R), Hn.
      destruct (update_op _ _ Ho) as [[-> _]|[-> _]]; reflexivity.
    - cbn beta. intros s1 k1 A1 V1 [F1 _]. ev. eapply evs_newline; [exact A1|]. intros b Hb.
      destruct (update_op _ _ Ho) as [[-> ->]|[-> ->]].
      all: assert (b = false) as -> by (destruct Hb as [->|Hb]; [exact Hn|rewrite (reads_hd _ _ _ R) in Hb; discriminate]); clear Hb.
      all: ev; replace (c_strict k1 && restricted_ident e) with false by
        (destruct (c_strict k1) eqn:E; [rewrite (not_restricted S); auto; subst S; unfold view_of in V1; cbn; congruence|reflexivity]); ev.
      all: rewrite (F1 (target_stands _ _ Ht) Hk); cbn [negb]; cbn iota; ev.
      all: eapply leave; [eassumption|exact V1|apply flags_none; reflexivity].
  Qed.
  (** An asynchronous function where an operand is expected. *)
  Lemma async_16 S l l1 f l' : function_mark true l l1 ->
    (forall s k, At s l k -> view_of k = in_ true S -> evs (Call CFunctionExpr) s (leaves k l' T (EFunction f))) -> X16 S l (EFunction f) l'.
  Proof.
    intros M H. pose proof (function_mark_hd _ _ M) as Hi. apply lhs_16; [|rewrite Hi; reflexivity].
    intros s k A V Hf. apply evs_call. cbn [body]. unfold lhs_allow_call. do 8 (ev1; cbn beta). ev.
    eapply evs_then; [eapply evs_inh_e; [eassumption|]|].
    - intros s3 A3. ev. apply evs_call. cbn [body]. unfold primary_expression. ev. eapply evs_async_function; [exact A3|exact M|].
      cbn iota. eapply evs_then; [apply H; [exact A3|subst S; vws]|]. cbn beta. intros s4 k4 A4 V4 _.
      eapply leave; [exact A4|exact V4|apply flags_none; reflexivity].
    - cbn beta. intros s4 k4 A4 V4 _. destruct (stop_17 _ _ Hf) as (N1 & N2 & N3 & N4).
      ev. apply evs_loop. ev. rewrite N1, N2, N3, N4. ev. eapply leave; [eassumption|subst S; vws|apply flags_none; reflexivity].
  Qed.
  (** The word [async] itself, before anything but [function]. *)
  Lemma async_name l l1 s k : reads_as TIdent (str "async") l l1 -> hd_tok l1 <> TKeyword KFunction -> At s l k ->
    evs (Call CPrimaryExpression) s (leaves k l1 (flags rd (EIdent (str "async")) k) (EIdent (str "async"))).
  Proof.
    intros R Hn A. pose proof (reads_as_hd _ _ _ _ R) as [E1 E2]. apply evs_call. cbn [body]. unfold primary_expression. ev.
    eapply evs_at_async_function; [exact A|right; destruct R as (_ & b & ->); exact Hn|]. cbn iota. ev. rewrite E2.
    eapply leave; [eassumption|reflexivity|apply flags_refl].
  Qed.
  (** [async (x)] before an arrow. *)
  Definition Xasync (S : view) l ps l' : Prop := forall s k l0, At s l0 k -> view_of k = S -> reads (TPunct POpenParen) l0 l ->
    evs (Call CAsyncArgs) s (fun es s' => exists k', ps = map FAExpr es /\ At s' l' k' /\ view_of k' = S).
  Lemma async_lhs S l l1 l2 ps l' : reads_as TIdent (str "async") l l1 -> newline l1 = false -> reads (TPunct POpenParen) l1 l2 ->
    Xasync (in_ true S) l2 ps l' -> hd_tok l' = TPunct PFatArrow -> Xlhs S l (EArrowParamPlaceHolder ps true) l'.
  Proof.
    intros R Hn R2 H Hfat s k A V Hf. pose proof (reads_as_hd _ _ _ _ R) as [E1 E2].
    apply evs_call. cbn [body]. unfold lhs_allow_call. apply evs_bind. eapply evs_do; [reflexivity|]. do 5 (ev1; cbn beta). rewrite E2.
    change (text_eqb (str "async") (str "async")) with true.
    pose proof A as (Ht & _ & _ & _ & _ & items & Hok & Hpl). eapply evs_upd_placed; [exact A|exact Hpl|]. intros s0 A0 P0.
    do 4 (ev1; cbn beta). ev_known. ev_bool. cbn iota. apply evs_bind.
    eapply evs_mono; [|eapply evs_placed; [exact P0|]; eapply evs_inh_e; [exact A0|]; intros s2 A2; ev;
      eapply (async_name l l1); [exact R|rewrite (reads_hd _ _ _ R2); discriminate|exact A2]].
    cbn beta. intros x s1 [(-> & k1 & A1 & V1 & _) P1].
    assert (Hl : (p_line (st_look_pos s) =? p_line (st_look_pos s1)) = true).
    { apply Nat.eqb_eq. symmetry. eapply (same_line _ items s s1 l l1); eauto; try (rewrite (reads_hd _ _ _ R2); reflexivity). apply A1. }
    ev. apply evs_loop. ev1. ev1. ev_known. ev_bool. cbn beta iota zeta. apply evs_bind. eapply evs_do; [reflexivity|]. cbn [andb]. rewrite Hl. ev.
    eapply evs_mono; [|eapply H; [eassumption|subst S; vws|exact R2]]. cbn beta. intros es s5 (k5 & -> & A5 & V5). ev.
    apply evs_loop. ev. eapply leave; [eassumption|subst S; vws|apply flags_none; reflexivity].
  Qed.
  (** [async] before a name. *)
  Lemma async_word S l l1 : reads_as TIdent (str "async") l l1 -> hd_tok l1 = TIdent -> Xlhs S l (EIdent (str "async")) l1.
  Proof.
    intros R Hi s k A V Hf. apply evs_call. cbn [body]. unfold lhs_allow_call. do 8 (ev1; cbn beta). ev.
    eapply evs_then; [eapply evs_inh_e; [eassumption|]|].
    - intros s3 A3. ev. eapply (async_name l l1); [exact R|rewrite Hi; discriminate|exact A3].
    - cbn beta. intros s4 k4 A4 V4 F4. ev. apply evs_loop. ev. eapply leave; [eassumption|subst S; vws|].
      destruct F4 as [F4 F5]; split; exact F4 || exact F5.
  Qed.
  Lemma follow_15 i l : follow i 16 l = true -> follow i 15 l = true.
  Proof. intros F. by_follow F l; try reflexivity; destruct i; reflexivity. Qed.
  Lemma prefix S l e l1 t o l' : In (t, o) update_ops -> reads t l l1 -> X15 S l1 e l' ->
    is_target e = true -> strict_target S e -> X16 S l (EUpdate o e true) l'.
  Proof.
    intros Ho R H Ht Hs s k A V Hk Hf. apply evs_call. cbn [body]. unfold update_expr.
    destruct (update_op _ _ Ho) as [[-> ->]|[-> ->]]; ev.
    all: (eapply evs_then; [eapply evs_inh_e; [eassumption|]; intros s3 A3; apply H;
      [exact A3|exact V|reflexivity|apply follow_15; exact Hf]|]).
    all: cbn beta; intros s3 k3 A3 V3 [F1 _]; ev.
    all: replace (c_strict k3 && restricted_ident e) with false by
        (destruct (c_strict k3) eqn:E; [rewrite (not_restricted S); auto; subst S; unfold view_of in V3; cbn; congruence|reflexivity]); ev.
    all: rewrite (F1 (target_stands _ _ Ht) Hk); cbn [negb]; cbn iota; ev.
    all: eapply leave; [eassumption|exact V3|apply flags_none; reflexivity].
  Qed.

  (** ** Levels 15 and 14 *)
  Definition unary_tok (t : token) : bool :=
    is_punct PPlus t || is_punct PMinus t || is_punct PBitwiseNot t || is_punct PNot t
     || is_keyword KDelete t || is_keyword KVoid t || is_keyword KTypeOf t.
  Lemma no_unary n l : 16 <= n -> expr_head n (hd_tok l) = true -> unary_tok (hd_tok l) = false /\ is_keyword KAwait (hd_tok l) = false.
  Proof.
    intros Hn H. assert (H' : expr_head 16 (hd_tok l) = true) by (eapply expr_head_up; eauto). clear H.
    destruct (hd_tok l) as [| | | | | | |[]|[]|[]|]; try discriminate; split; reflexivity.
  Qed.
  Lemma up_15 S l e l' : X16 S l e l' -> expr_head 16 (hd_tok l) = true -> X15 S l e l'.
  Proof.
    intros H Hh s k A V Hk Hf. apply evs_call. cbn [body]. unfold unary_expression. ev.
    destruct (no_unary 16 _ (le_n _) Hh) as [N1 N2]. unfold unary_tok in N1. rewrite N1, N2. ev. rewrite andb_false_r. cbn iota.
    apply H; auto. eapply follow_up; [|exact Hf]. lia.
  Qed.
  Lemma unary S l e l1 t o l' : In (t, o) prefix_ops -> reads t l l1 -> X15 S l1 e l' ->
    (v_strict S = true -> o = UDelete -> is_var e = false) -> X15 S l (EUnary o true e) l'.
  Proof.
    intros Ho R H Hd s k A V Hk Hf. apply evs_call. cbn [body]. unfold unary_expression.
    assert (Hu : unary_operator t = Some o /\ unary_tok t = true /\ (is_keyword KDelete t = true -> o = UDelete)).
    { cbn in Ho. repeat destruct Ho as [Ho|Ho]; [..|destruct Ho]; inversion Ho; subst; cbn; auto 6; repeat split; try discriminate. }
    destruct Hu as (Hu1 & Hu2 & Hu3). unfold unary_tok in Hu2. ev. rewrite Hu2. ev.
    eapply evs_then; [eapply evs_inh_e; [eassumption|]; intros s3 A3; apply H; [exact A3|exact V|reflexivity|exact Hf]|].
    cbn beta. intros s1 k1 A1 V1 _. ev.
    replace (is_keyword KDelete t && c_strict k1 && is_ident_expr e) with false.
    - ev. rewrite Hu1. ev. eapply leave; [eassumption|exact V1|apply flags_none; reflexivity].
    - symmetry. destruct (is_keyword KDelete t) eqn:E1; [|reflexivity]. destruct (c_strict k1) eqn:E2; [|reflexivity].
      change (is_ident_expr e) with (is_var e). rewrite Hd; auto. subst S. unfold view_of in V1. cbn. congruence.
  Qed.
  Lemma await S l e l1 l' : v_await S = true -> reads (TKeyword KAwait) l l1 -> X15 S l1 e l' -> X15 S l (EAwait e) l'.
  Proof.
    intros Ha R H s k A V Hk Hf. apply evs_call. cbn [body]. unfold unary_expression. ev.
    replace (c_await k) with true by (subst S; symmetry; exact Ha). cbn [andb]. apply evs_call. cbn [body]. unfold await_expr. ev.
    eapply evs_then; [apply H; [eassumption|exact V|exact Hk|exact Hf]|].
    cbn beta. intros s1 k1 A1 V1 _. ev. eapply leave; [eassumption|exact V1|apply flags_none; reflexivity].
  Qed.
  Lemma up_14 S l e l' : X15 S l e l' -> X14 S l e l'.
  Proof.
    intros H s k A V Hf. apply evs_call. cbn [body]. unfold exponentiation. ev.
    eapply evs_then; [eapply evs_inh_e; [eassumption|]; intros s3 A3; apply H; [exact A3|exact V|reflexivity|]|].
    { eapply follow_up; [|exact Hf]. lia. }
    cbn beta. intros s1 k1 A1 V1 F1. ev. rewrite (stop_14 _ _ Hf). ev. eapply leave; eauto.
  Qed.
  Lemma follow_hd i n l t l' m : reads t l l' -> (forall b, goes_on i [mkTk t [] b] = m) ->
    match m with None => true | Some k => k <? n end = true -> follow i n l = true.
  Proof.
    intros (_ & w & b & ->) H E. unfold follow.
    replace (goes_on i (mkTk t w b :: l')) with (goes_on i [mkTk t [] b]) by reflexivity. rewrite H. exact E.
  Qed.
  Lemma power S l a l1 l2 b l' : X16 S l a l1 -> expr_head 16 (hd_tok l) = true -> reads (TPunct PExponent) l1 l2 -> X14 S l2 b l' ->
    X14 S l (EBinary BPowerOf a b) l'.
  Proof.
    intros H Hh R H2 s k A V Hf. apply evs_call. cbn [body]. unfold exponentiation. ev.
    eapply evs_then; [eapply evs_inh_e; [eassumption|]; intros s3 A3; apply (up_15 _ _ _ _ H Hh); [exact A3|exact V|reflexivity|]|].
    { eapply (follow_hd _ _ _ _ _ (Some 14)); [exact R|reflexivity|reflexivity]. }
    cbn beta. intros s1 k1 A1 V1 F1. ev.
    eapply evs_then; [eapply evs_iso; [eassumption|]; intros s3 A3; apply H2; [exact A3|rewrite <- V, <- V1; reflexivity|exact Hf]|].
    cbn beta. intros s3 k3 A3 V3 _. ev. eapply leave; [eassumption|rewrite V3; exact V1|apply flags_none; reflexivity].
  Qed.

  (** ** Binary operators: the operands and what the stack makes of them *)
  Definition op_ok (S : view) (t : token) (p : nat) (mk : Expr -> Expr -> Expr) : Prop :=
    In (t, (p, mk)) bin_ops /\ (t = TKeyword KIn -> v_in S = true).
  Lemma op_prec S t p mk : op_ok S t p mk -> bin_precedence (v_in S) t = p /\ 1 <= p <= 11
    /\ (forall a b, make_binary t a b = inl (mk a b)) /\ goes_on (v_in S) [mkTk t [] false] = Some (2 + p)
    /\ (forall a b, stands rd (mk a b) = false /\ names rd (mk a b) = false) /\ update_head t = false.
  Proof.
    intros [H Hi]. cbn in H. repeat destruct H as [H|H]; [..|destruct H]; inversion H; subst; try rewrite (Hi eq_refl);
      cbn; repeat split; try lia; reflexivity.
  Qed.
  Lemma op_follow S t p mk n l l' : op_ok S t p mk -> reads t l l' -> 2 + p < n -> follow (v_in S) n l = true.
  Proof.
    intros Ho R Hn. destruct (op_prec _ _ _ _ Ho) as (_ & _ & _ & Hg & _ & Hu). apply (follow_hd _ _ _ _ _ (Some (2 + p)) R).
    - intros b. rewrite <- Hg. unfold goes_on. cbn [hd_tok newline k_tok k_nl]. destruct t as [| | | | | | |[]|[]|[]|]; try discriminate; reflexivity.
    - apply Nat.ltb_lt. exact Hn.
  Qed.

  Inductive operands (S : view) : list tk -> list (token * nat * Expr) -> list tk -> Prop :=
  | operands_none l : operands S l [] l
  | operands_more t p mk b tl l l1 l2 l' : op_ok S t p mk -> reads t l l1 -> X14 S l1 b l2 -> operands S l2 tl l' ->
      operands S l ((t, p, b) :: tl) l'.
  Lemma operands_app S l a l1 b l2 : operands S l a l1 -> operands S l1 b l2 -> operands S l (a ++ b) l2.
  Proof. induction 1; [auto|]. intros H3. cbn. econstructor; eauto. Qed.

  Definition stacks := (list token * list nat * list Expr)%type.
  Definition reduced (m : nat) (st : stacks) : stacks + string := let '(o, p, k) := st in reduce_while m o p k.
  Fixpoint shift (st : stacks) (tl : list (token * nat * Expr)) : option stacks :=
    match tl with
    | [] => Some st
    | (t, p, b) :: tl' => match reduced p st with inl (o, ps, k) => shift (t :: o, p :: ps, b :: k) tl' | inr _ => None end
    end.
  Lemma shift_app a : forall st b, shift st (a ++ b) = match shift st a with Some st' => shift st' b | None => None end.
  Proof.
    induction a as [|[[t p] e] a IH]; intros st b; cbn; [reflexivity|]. destruct (reduced p st) as [[[o ps] k]|]; [apply IH|reflexivity].
  Qed.
  (** Operators that bind less than [n] wait. *)
  Definition waiting (n : nat) (ps : list nat) : Prop := match ps with p :: _ => p < n | [] => True end.
  Lemma reduced_waiting n o ps k : waiting n ps -> reduced n (o, ps, k) = inl (o, ps, k).
  Proof.
    intros H. cbn. destruct o, ps as [|q ps], k as [|x [|y k]]; try reflexivity. cbn in *.
    destruct (n <=? q) eqn:E; [|reflexivity]. apply Nat.leb_le in E. lia.
  Qed.
  Definition builds (n : nat) (e0 : Expr) (tl : list (token * nat * Expr)) (e : Expr) : Prop :=
    forall o ps k, waiting n ps -> exists st, shift (o, ps, e0 :: k) tl = Some st /\
      forall m, m <= n -> reduced m st = reduced m (o, ps, e :: k).
  Lemma builds_one n e : builds n e [] e.
  Proof. intros o ps k _. exists (o, ps, e :: k). auto. Qed.
  Lemma builds_up n e0 tl e : builds (Datatypes.S n) e0 tl e -> builds n e0 tl e.
  Proof.
    intros H o ps k Hw. destruct (H o ps k) as (st & E1 & E2); [destruct ps; cbn in *; lia|].
    exists st. split; [exact E1|]. intros m Hm. apply E2. lia.
  Qed.
  Lemma builds_two p t mk a0 ta a b0 tb b : (forall x y, make_binary t x y = inl (mk x y)) ->
    builds p a0 ta a -> builds (Datatypes.S p) b0 tb b -> builds p a0 (ta ++ (t, p, b0) :: tb) (mk a b).
  Proof.
    intros Hm Ha Hb o ps k Hw. destruct (Ha o ps k Hw) as (st & E1 & E2).
    destruct (Hb (t :: o) (p :: ps) (a :: k)) as (st2 & E3 & E4); [cbn; lia|].
    exists st2. split.
    - rewrite shift_app, E1. cbn [shift]. rewrite (E2 p (le_n _)), (reduced_waiting p); [|exact Hw]. exact E3.
    - intros m Hle. rewrite E4 by lia. cbn. replace (m <=? p) with true by (symmetry; apply Nat.leb_le; lia). rewrite Hm. reflexivity.
  Qed.
  Lemma reduce_all_of m e : forall o ps k top, reduce_while m o ps (top :: k) = inl ([], [], [e]) -> reduce_all o k top = inl e.
  Proof.
    induction o as [|op o IH]; intros ps k top; cbn; [intros E; inversion E; reflexivity|].
    destruct ps as [|p ps]; [discriminate|]. destruct k as [|x k]; [discriminate|].
    destruct (m <=? p); [|discriminate]. destruct (make_binary op x top); [|discriminate]. apply IH.
  Qed.

  Definition Xbin (n : nat) (S : view) l e l' : Prop :=
    exists e0 l0 tl, X14 S l e0 l0 /\ operands S l0 tl l' /\ builds (n - 2) e0 tl e
      /\ (tl = [] -> e = e0) /\ (tl <> [] -> stands rd e = false /\ names rd e = false).
  Lemma bin_one n S l e l' : X14 S l e l' -> Xbin n S l e l'.
  Proof.
    intros H. exists e, l', []. split; [exact H|]. split; [constructor|]. split; [apply builds_one|].
    split; [reflexivity|]. intros N. destruct (N eq_refl).
  Qed.
  Lemma bin_up n S l e l' : 3 <= n -> Xbin (Datatypes.S n) S l e l' -> Xbin n S l e l'.
  Proof.
    intros Hn (e0 & l0 & tl & H1 & H2 & H3 & H4). exists e0, l0, tl. split; [exact H1|]. split; [exact H2|].
    split; [|exact H4]. replace (Datatypes.S n - 2) with (Datatypes.S (n - 2)) in H3 by lia. apply builds_up. exact H3.
  Qed.
  Lemma bin_two S p t mk l a l1 l2 b l' : op_ok S t p mk -> Xbin (2 + p) S l a l1 -> reads t l1 l2 -> Xbin (3 + p) S l2 b l' ->
    Xbin (2 + p) S l (mk a b) l'.
  Proof.
    intros Ho (a0 & la & ta & A1 & A2 & A3 & _) R (b0 & lb & tb & B1 & B2 & B3 & _).
    destruct (op_prec _ _ _ _ Ho) as (_ & _ & Hm & _ & Ht & _).
    exists a0, la, (ta ++ (t, p, b0) :: tb). split; [exact A1|]. split.
    - eapply operands_app; [exact A2|]. econstructor; eauto.
    - split; [|split; [intros E; apply app_eq_nil in E; destruct E; discriminate|intros _; apply Ht]].
      replace (2 + p - 2) with p in * by lia. replace (3 + p - 2) with (Datatypes.S p) in B3 by lia. eapply builds_two; eauto.
  Qed.

  Definition bin_loop : stacks -> P (stacks + (list token * list Expr)) := fun '(ops, precs, stack) =>
        t <- look_tok ;;
        ai <- get c_allow_in ;;
        let prec := bin_precedence ai t in
        if prec =? 0 then Ret (inr (ops, stack))
        else
          match reduce_while prec ops precs stack with
          | inr m => Fail (FOperation m)
          | inl (ops, precs, stack) =>
              i <- next ;;
              exp <- isolated (Call CExponentiation) ;;
              Ret (inl (it_tok i :: ops, prec :: precs, exp :: stack))
          end.
  Lemma operands_loop S l tl l' : operands S l tl l' -> follow (v_in S) 3 l' = true ->
    forall st o ps k, shift st tl = Some (o, ps, k) -> forall s c, At s l c -> view_of c = S ->
    evs (Loop st bin_loop) s (leaves c l' T (o, k)).
  Proof.
    induction 1 as [l|t p mk b tl l l1 l2 l' Ho R Hb Htl IH]; intros Hf st o ps k E s c A V.
    - inversion E; subst st. apply evs_loop. unfold bin_loop at 1. ev.
      replace (c_allow_in c) with (v_in S) by (subst S; reflexivity). rewrite (stop_3 _ _ Hf). cbn. ev.
      eapply leave; [exact A|reflexivity|exact I].
    - destruct (op_prec _ _ _ _ Ho) as (Hp & Hr & _). destruct st as [[o1 p1] k1]. cbn in E.
      destruct (reduce_while p o1 p1 k1) as [[[o2 p2] k2]|] eqn:E2; [|discriminate].
      apply evs_loop. unfold bin_loop at 1. ev.
      replace (c_allow_in c) with (v_in S) by (subst S; reflexivity). rewrite Hp.
      replace (p =? 0) with false by (symmetry; apply Nat.eqb_neq; lia). rewrite E2. ev.
      eapply evs_then; [eapply evs_iso; [eassumption|]; intros s3 A3; apply Hb; [exact A3|exact V|]|].
      { inversion Htl; subst; [eapply follow_up; [|exact Hf]; lia|]. eapply op_follow; eauto. 
        match goal with H : op_ok _ _ ?q _ |- 2 + ?q < 14 => destruct (op_prec _ _ _ _ H) as (_ & ? & _); lia end. }
      cbn beta. intros s3 k3 A3 V3 _. ev. eapply evs_mono; [|eapply (IH Hf); [exact E|exact A3|congruence]].
      intros x s4 (-> & k4 & A4 & V4 & _). eapply leave; [exact A4|congruence|exact I].
  Qed.
  Lemma binary S l e l' : Xbin 3 S l e l' -> Xcall CBinaryExpression 3 S l e l'.
  Proof.
    intros (e0 & l0 & tl & H0 & Hops & Hb & H1 & H2) s k A V Hf. apply evs_call. cbn [body]. unfold binary_expression. ev.
    assert (F0 : follow (v_in S) 14 l0 = true).
    { inversion Hops; subst; [eapply follow_up; [|exact Hf]; lia|]. eapply op_follow; eauto.
      match goal with H : op_ok _ _ ?q _ |- 2 + ?q < 14 => destruct (op_prec _ _ _ _ H) as (_ & ? & _); lia end. }
    eapply evs_then; [eapply evs_inh_e; [exact A|]; intros s1 A1; apply H0; [exact A1|exact V|exact F0]|].
    cbn beta. intros s1 k1 A1 V1 F1. ev.
    replace (c_allow_in k1) with (v_in S) by (subst S; rewrite <- V1; reflexivity).
    destruct Hops as [ll|t p mk b tl ll l1 l2 l' Ho R Hb0 Htl].
    - rewrite (stop_3 _ _ Hf). cbn. ev. rewrite (H1 eq_refl) in *. eapply leave; eauto.
    - destruct (op_prec _ _ _ _ Ho) as (Hp & Hr & _). ev_known. rewrite Hp.
      replace (p =? 0) with false by (symmetry; apply Nat.eqb_neq; lia). ev.
      eapply evs_then; [eapply evs_iso; [eassumption|]; intros s9 A9; apply Hb0; [exact A9|rewrite <- V, <- V1; reflexivity|]|].
      { inversion Htl; subst; [eapply follow_up; [|exact Hf]; lia|]. eapply op_follow; eauto.
        match goal with H : op_ok _ _ ?q _ |- 2 + ?q < 14 => destruct (op_prec _ _ _ _ H) as (_ & ? & _); lia end. }
      cbn beta. intros s9 k9 A9 V9 _. ev.
      destruct (Hb [] [] [] I) as (st & E1 & E2). cbn in E1. destruct st as [[o ps] ks].
      eapply evs_then; [eapply (operands_loop S _ _ _ Htl Hf); [exact E1|exact A9|rewrite V9; rewrite <- V, <- V1; reflexivity]|].
      cbn beta. intros s10 k10 A10 V10 _. cbn iota beta.
      specialize (E2 1 (le_n _)). cbn in E2. destruct ks as [|top ks]; [destruct o, ps; discriminate|].
      rewrite (reduce_all_of _ _ _ _ _ _ E2). ev. eapply leave; [exact A10|rewrite V10, V9; exact V1|].
      destruct (H2 ltac:(discriminate)). apply flags_none; auto.
  Qed.
End Ladder.
