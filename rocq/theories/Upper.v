(** Conditional, assignment, arrow, yield and comma expressions, and the primary expressions. *)
From Verif Require Export Ladder.
Local Open Scope nat_scope.
Local Open Scope list_scope.

Section Upper.
  Variable g : cfg.
  Notation evs := (evs g).
  Notation At := (At g).
  Notation leaves := (leaves g).
  Notation T := (fun _ : ctx => True).
  Notation X19 := (@X19 g None). Notation X17 := (@X17 g None). Notation X18 := (X18 g).
  Notation X16 := (@Xup g None CUpdateExpr 16).
  Notation X15 := (@Xup g None CUnaryExpression 15).
  Notation X14 := (@Xcall g None CExponentiation 14).
  Notation X3 := (@Xcall g None CBinaryExpression 3).
  Notation X2 := (@Xcall g None CConditionalExpr 1).   (* the last operand is an assignment *)
  Notation X0 := (@Xcall g None CExpression 0).
  Notation X1 := (@X1 g None).

  Lemma up_2 rd S l e l' n : n <= 2 -> @Xcall g rd CBinaryExpression 3 S l e l' -> @Xcall g rd CConditionalExpr n S l e l'.
  Proof.
    intros Hn.
    intros H s k A V Hf. apply evs_call. cbn [body]. unfold conditional_expr. apply evs_bind.
    eapply evs_then; [eapply evs_inh_e; [exact A|]; intros s1 A1; apply H; [exact A1|exact V|]|].
    { eapply follow_up; [|exact Hf]. lia. }
    cbn beta. intros s1 k1 A1 V1 F1. ev. rewrite (stop_2 _ _ (follow_up _ _ _ _ Hn Hf)). ev. eapply leave; eauto.
  Qed.
  Lemma conditional S l t l1 l2 c l3 l4 a l' : X3 S l t l1 -> reads (TPunct PQuestionMark) l1 l2 -> X1 (in_ true S) l2 c l3 ->
    reads (TPunct PColon) l3 l4 -> X1 S l4 a l' -> X2 S l (EConditional t a c) l'.
  Proof.
    intros H R1 Hc R2 Ha s k A V Hf. apply evs_call. cbn [body]. unfold conditional_expr. apply evs_bind.
    eapply evs_then; [eapply evs_inh_e; [exact A|]; intros s1 A1; apply H; [exact A1|exact V|]|].
    { eapply (follow_hd _ _ _ _ _ (Some 2)); [exact R1|reflexivity|reflexivity]. }
    cbn beta. intros s1 k1 A1 V1 F1. ev.
    eapply evs_then; [eapply evs_iso; [eassumption|]; intros s3 A3; apply Hc; [exact A3| | |]|].
    { subst S. vws. }
    { eapply (follow_hd _ _ _ _ _ None); [exact R2|reflexivity|reflexivity]. }
    { reflexivity. }
    cbn beta. intros s3 k3 A3 V3 _. ev.
    eapply evs_then; [eapply evs_iso; [eassumption|]; intros s6 A6; apply Ha; [exact A6| | |reflexivity]|].
    { subst S. vws. }
    { exact Hf. }
    cbn beta. intros s6 k6 A6 V6 _. ev. eapply leave; [eassumption|subst S; vws|apply flags_none; reflexivity].
  Qed.

  Lemma up_cond rd S l e l' : @Ladder.X17 g rd (in_ true S) l e l' -> call_at l ->
    @Xcall g rd CConditionalExpr 2 S l e l'.
  Proof.
    intros H Hh. apply up_2; [lia|]. apply binary. apply bin_one. apply up_14. apply up_15; [apply up_16; assumption|].
    apply call_expr; [lia|apply Hh].
  Qed.

  Lemma not_yield n l : 2 <= n -> expr_head n (hd_tok l) = true -> is_keyword KYield (hd_tok l) = false.
  Proof.
    intros Hn H. apply (expr_head_up _ 2) in H; [|exact Hn].
    destruct (hd_tok l) as [| | | | | | |[]|[]|[]|]; try discriminate; reflexivity.
  Qed.
  Lemma up_1 S l e l' : X2 S l e l' -> expr_head 2 (hd_tok l) = true -> is_placeholder e = false -> length l' < length l -> after_async l l' -> X1 S l e l'.
  Proof.
    intros H Hh Hp Hl Ha s k A V Hf Hk. apply evs_call. cbn [body]. unfold assignment_expr. ev1. ev1. ev1. cbn beta.
    ev. rewrite (not_yield 2 l (le_n _) Hh), andb_false_r.
    apply evs_bind. eapply evs_do; [reflexivity|]. apply evs_bind. pose proof A as (At1 & _ & _ & _ & _ & items & Hok & Hpl).
    eapply evs_mono; [|eapply evs_placed; [exact Hpl|]; apply H; [exact A|exact V|exact Hf]].
    cbn beta. intros x s1 [(-> & k1 & A1 & V1 & F1) Hpl1]. apply evs_bind. eapply evs_do; [reflexivity|]. ev.
    replace (text_eqb (hd_text l) (str "async") && _ && _) with false.
    2:{ symmetry. destruct (text_eqb (hd_text l) (str "async")) eqn:E; [|reflexivity]. apply text_eqb_eq in E.
        destruct (is_ident (hd_tok l') || is_keyword KYield (hd_tok l')) eqn:E2; [|rewrite andb_false_r; reflexivity].
        assert (Hn : newline l' = true).
        { destruct Ha as [Ha|[Ha|[Ha1 Ha2]]]; [|exact Ha|].
          - pose proof (at_calm _ _ _ _ A Ha) as F. rewrite E in F. discriminate.
          - destruct (hd_tok l') as [| | | | | | |[]|[]|[]|]; try discriminate; congruence. }
        replace (_ =? _) with false; [reflexivity|]. symmetry. apply Nat.eqb_neq.
        eapply (later_line _ _ s s1 l l'); eauto. apply A1. }
    ev. rewrite Hp.
    destruct (stop_1 _ _ Hf) as [-> ->]. cbn [orb]. ev. eapply leave; eauto.
  Qed.
  Lemma up_1_calm S l e l' : X2 S l e l' -> expr_head 2 (hd_tok l) = true -> is_placeholder e = false -> length l' < length l -> calm l -> X1 S l e l'.
  Proof.
    intros H Hh Hp Hl C. apply up_1; try assumption. left. exact C.
  Qed.

  Lemma assign_op t o : In (t, o) assign_ops -> exists p, t = TPunct p /\ assignment_operator p = Some o
    /\ is_punct PFatArrow t = false /\ assign_tok t = true /\ (o = AEqual -> is_punct PAssign t = true)
    /\ (forall i b, goes_on i [mkTk t [] b] = Some 1).
  Proof.
    intros H. cbn in H. repeat destruct H as [H|H]; [..|destruct H]; inversion H; subst; eexists;
      repeat split; try reflexivity; try discriminate.
  Qed.
  Lemma target_plain e : is_target e = true -> is_placeholder e = false.
  Proof. destruct e; try discriminate; reflexivity. Qed.
  Lemma unreserved S a (st : bool) s (Q : unit -> state -> Prop) : strict_target S a -> v_strict S = st -> Q tt s ->
    evs (match a with
         | EIdent i => if st && (is_restricted_word i || is_strict_reserved i) then fail_look [not_word i] else Ret tt
         | _ => Ret tt
         end) s Q.
  Proof.
    intros Hs Est HQ. destruct a as [| | | | | | | | | | i | | | | | | | | | | | | | |]; try (apply evs_ret; exact HQ).
    replace (st && (is_restricted_word i || is_strict_reserved i)) with false; [apply evs_ret; exact HQ|].
    symmetry. destruct st; [|reflexivity]. cbn [andb].
    pose proof (Hs Est _ eq_refl) as Hn.
    apply not_true_iff_false. intros C. apply Hn. unfold is_restricted_word, is_strict_reserved in C.
    rewrite !orb_true_iff in C. repeat (rewrite text_eqb_eq in C). cbn. intuition.
  Qed.
  Lemma stands_plain rd e : stands rd e = true -> is_placeholder e = false.
  Proof. destruct e; try discriminate; reflexivity. Qed.
  Lemma assignment_keeps rd S l a l1 t o l2 b l' : @Ladder.X17 g rd (in_ true S) l a l1 -> call_at l ->
    stands rd a = true -> strict_target S a -> In (t, o) assign_ops -> reads t l1 l2 -> X1 S l2 b l' ->
    forall s k, At s l k -> view_of k = S -> follow (v_in S) 1 l' = true -> c_assign_target k = true ->
    evs (Call CAssignmentExpr) s (leaves k l' (fun k' => o = AEqual -> flags rd a k k') (EAssignment o (ALExpr a) b)).
  Proof.
    intros H Hh Ht Hs Ho R Hb s k A V Hf Hk.
    destruct (assign_op _ _ Ho) as (p & Ep & Eo & N1 & N2 & N3 & N4).
    apply evs_call. cbn [body]. unfold assignment_expr. ev.
    rewrite (not_yield 2 l (le_n _)), andb_false_r; [|apply call_expr; [lia|apply Hh]]. ev.
    eapply evs_then; [apply (up_cond _ S l a l1 H Hh); [exact A|exact V|]|].
    { eapply (follow_hd _ _ _ _ _ (Some 1)); [exact R|apply N4|reflexivity]. }
    cbn beta. intros s1 k1 A1 V1 [F1 F2]. ev. rewrite (at_calm _ _ _ _ A (proj2 Hh)). cbn [andb]. ev. rewrite (stands_plain _ _ Ht), N1, N2.
    cbn [orb]. unfold assign_rest. ev. rewrite (F1 Ht Hk). cbn [negb]. ev.
    apply (unreserved S); [exact Hs|subst S; unfold view_of in V1; cbn; congruence|]. ev.
    assert (A' : exists k2, (if is_punct PAssign t then k1 else set_binding_element false (set_assign_target false k1)) = k2) by eauto.
    destruct A' as [k2 Ek2].
    assert (G : forall s (Q : unit -> state -> Prop), At s l1 k1 -> (forall s', At s' l1 k2 -> Q tt s') ->
      evs (if is_punct PAssign t then Ret tt else not_target) s Q).
    { intros s9 Q A9 HQ. destruct (is_punct PAssign t); subst k2; [apply evs_ret; apply HQ; exact A9|]. ev. apply HQ. eassumption. }
    eapply G; [exact A1|]. intros s2 A2. clear G. ev. rewrite Ep, Eo.
    eapply evs_bind.
    eapply evs_then; [eapply evs_iso; [eassumption|]; intros s9 A9; apply Hb; [exact A9| |exact Hf|reflexivity]|].
    { rewrite <- V, <- V1, <- Ek2. destruct (is_punct PAssign t); reflexivity. }
    cbn beta. intros s9 k9 A9 V9 [G1 G2]. ev. eapply leave; [eassumption| |].
    - change (view_of k9 = view_of k). rewrite V9, <- V1, <- Ek2. destruct (is_punct PAssign t); reflexivity.
    - intros Eq. rewrite (N3 Eq) in Ek2. subst k2. split; cbn; [rewrite G1; exact F1|rewrite G2; exact F2].
  Qed.
  Lemma assignment S l a l1 t o l2 b l' : X17 (in_ true S) l a l1 -> call_at l ->
    is_target a = true -> strict_target S a -> In (t, o) assign_ops -> reads t l1 l2 -> X1 S l2 b l' ->
    X1 S l (EAssignment o (ALExpr a) b) l'.
  Proof.
    intros H Hh Ht Hs Ho R Hb s k A V Hf Hk. eapply evs_mono; [|eapply (assignment_keeps None); eauto; apply target_stands; exact Ht].
    intros x s1 (-> & k1 & A1 & V1 & F). eapply leave; [exact A1|exact V1|]. split; [discriminate|].
    destruct o; try discriminate. destruct a; try discriminate. intros _. apply (F eq_refl). reflexivity.
  Qed.
  (** A pattern of targets on the left. *)
  Lemma pattern_assignment S l a l1 l2 b l' : @Ladder.X19 g (Some false) (in_ true S) l a l1 -> primary_at l ->
    stands (Some false) a = true -> is_target a = false -> reads (TPunct PAssign) l1 l2 -> X1 S l2 b l' ->
    X1 S l (EAssignment AEqual (ALExpr a) b) l'.
  Proof.
    intros H Hh Ht Hn R Hb s k A V Hf Hk.
    eapply evs_mono; [|eapply (assignment_keeps (Some false)); [apply up_17; [apply Hh|eassumption]|apply call_primary_at; exact Hh|exact Ht| | |exact R|exact Hb|exact A|exact V|exact Hf|apply Hk; reflexivity]].
    - intros x s1 (-> & k1 & A1 & V1 & F). eapply leave; [exact A1|exact V1|]. apply flags_none; destruct a; try discriminate; reflexivity.
    - intros _ w ->. discriminate.
    - cbn. auto.
  Qed.

  (** ** Arrow functions *)
  Definition Xbody (S : view) l b l' : Prop := forall s k, At s l k -> view_of k = S ->
    evs (Call CFunctionSourceEl) s (leaves k l' T b).
  Definition clean (a : bool) (p : FunctionArg) : Prop := cover_param a p = (p, false) /\ is_yield_arg p = false.
  Definition Xhead (S : view) l ps l' : Prop := exists e, X19 S l e l' /\ Forall (clean false) ps
    /\ ((exists w, e = EIdent w /\ ps = [FAExpr e]) \/ e = EArrowParamPlaceHolder ps false).
  Lemma clean_map a ps : Forall (clean a) ps -> map fst (map (cover_param a) ps) = ps
    /\ existsb snd (map (cover_param a) ps) = false /\ existsb is_yield_arg ps = false.
  Proof.
    induction 1 as [|p ps [H1 H2] _ (E1 & E2 & E3)]; [auto|]. cbn. rewrite H1, H2, E1, E2, E3. auto.
  Qed.
  Lemma cover_ok a e ps s l k (Q : option (list FunctionArg) -> state -> Prop) : Forall (clean a) ps ->
    (a = false /\ (exists w, e = EIdent w /\ ps = [FAExpr e]) \/ e = EArrowParamPlaceHolder ps a) ->
    At s l k -> Q (Some ps) s -> evs (cover_formals e) s Q.
  Proof.
    intros Hc He A HQ. destruct (clean_map _ _ Hc) as (E1 & E2 & E3). unfold cover_formals.
    assert (Eo : match e with EIdent _ => Some ([FAExpr e], false) | EArrowParamPlaceHolder params is_async => Some (params, is_async)
      | _ => None end = Some (ps, a)) by (destruct He as [(-> & w & -> & ->)| ->]; reflexivity).
    rewrite Eo. cbn zeta. rewrite E1, E2. ev. rewrite E3, andb_false_r. ev. exact HQ.
  Qed.
  Lemma head_async a e ps : (a = false /\ (exists w, e = EIdent w /\ ps = [FAExpr e]) \/ e = EArrowParamPlaceHolder ps a) -> is_async_expr e = a.
  Proof. intros [(-> & w & -> & _)| ->]; reflexivity. Qed.
  (** The beginning of an arrow function, in the scope of the parameters. *)
  Definition Xstart (a : bool) (S : view) l ps l1 : Prop := forall l2 s k (Q : Expr -> state -> Prop),
    reads (TPunct PFatArrow) l1 l2 -> At s l k -> in_ true (view_of k) = S ->
    (forall s' k', At s' l2 k' -> view_of k' = view_of k ->
      evs (if is_punct POpenBrace (hd_tok l2) then
        prev_in <- get c_allow_in ;;
        upd (set_allow_in true) ;;
        b <- Call CFunctionSourceEl ;;
        upd (set_allow_in prev_in) ;;
        Ret (EArrowFunction None ps (AFBody b) false false a)
      else
        e <- isolated (Call CAssignmentExpr) ;;
        Ret (EArrowFunction None ps (AFExpr e) true false a)) s' Q) ->
    evs (Call CAssignmentExpr) s Q.
  Lemma arrow_start S l ps l1 : Xhead S l ps l1 -> primary_at l -> Xstart false S l ps l1.
  Proof.
    intros (e & H & Hc & He0) Hh l2 s k Q R A V HQ. apply evs_call. cbn [body]. unfold assignment_expr. ev.
    assert (He : false = false /\ (exists w, e = EIdent w /\ ps = [FAExpr e]) \/ e = EArrowParamPlaceHolder ps false) by tauto.
    rewrite (not_yield 2 l (le_n _)), andb_false_r; [|unfold expr_head; rewrite (proj1 Hh); reflexivity]. ev. subst S.
    eapply evs_then; [apply (up_cond _ (view_of k) l e l1 (up_17 g _ _ _ _ (proj1 Hh) H) (call_primary_at _ Hh)); [exact A|reflexivity|]|].
    { eapply (follow_hd _ _ _ _ _ (Some 1)); [exact R|reflexivity|reflexivity]. }
    cbn beta. intros s1 k1 A1 V1 _. ev. rewrite (at_calm _ _ _ _ A (proj2 Hh)). cbn [andb]. ev. rewrite orb_true_r.
    unfold arrow_rest. ev. eapply (cover_ok false e ps); [exact Hc|exact He|eassumption|]. cbn beta iota. rewrite (head_async _ _ _ He). ev.
    eapply HQ; [eassumption|exact V1].
  Qed.
  Lemma name_primary w l l' s k : reads_as TIdent w l l' -> w <> str "async" -> At s l k ->
    evs (Call CPrimaryExpression) s (leaves k l' (fun _ => True) (EIdent w)).
  Proof.
    intros R Hw A. apply evs_call. cbn [body]. unfold primary_expression. ev. rewrite (proj2 (reads_as_hd _ _ _ _ R)).
    eapply leave; [eassumption|reflexivity|exact I].
  Qed.
  (** [async x] *)
  Lemma async_name_start S w l l1 l' : reads_as TIdent (str "async") l l1 -> newline l1 = false -> reads_as TIdent w l1 l' -> w <> str "async" ->
    w <> str "await" -> Xstart true S l [FAPat (PIdentifier w)] l'.
  Proof.
    intros R Hn R1 Hw Hw' l2 s k Q R2 A V HQ. pose proof (reads_as_hd _ _ _ _ R) as [E1 E2]. pose proof (reads_as_hd _ _ _ _ R1) as [E3 E4].
    apply evs_call. cbn [body]. unfold assignment_expr. ev1. ev1. ev1. cbn beta. ev. rewrite andb_false_r.
    apply evs_bind. eapply evs_do; [reflexivity|]. apply evs_bind. pose proof A as (Ht & _ & _ & _ & _ & items & Hok & Hpl).
    assert (X : @Xcall g None CConditionalExpr 2 (view_of k) l (EIdent (str "async")) l1).
    { apply up_2; [lia|]. apply binary. apply bin_one. apply up_14. apply up_15; [|rewrite E1; reflexivity]. apply lhs_16; [|rewrite E1; reflexivity].
      apply async_word; [exact R|exact E3]. }
    eapply evs_mono; [|eapply evs_placed; [exact Hpl|]; apply X; [exact A|reflexivity|]].
    2:{ unfold follow, goes_on. rewrite E3. reflexivity. }
    cbn beta. intros x s1 [(-> & k1 & A1 & V1 & _) P1]. apply evs_bind. eapply evs_do; [reflexivity|]. ev. rewrite E2.
    change (text_eqb (str "async") (str "async")) with true.
    replace (_ =? _) with true.
    2:{ symmetry. apply Nat.eqb_eq. eapply (same_line _ items s s1 l l1); eauto; try (rewrite E3; reflexivity). apply A1. }
    cbn [andb orb]. cbn iota.
    apply evs_bind. eapply evs_then; [eapply (name_primary w l1 l' s1 k1); [exact R1|exact Hw|exact A1]|]. cbn beta. intros s2 k2 A2 V2 _.
    cbn [expr_as_pat]. ev. cbn [is_placeholder orb].
    unfold arrow_rest. ev. eapply (cover_ok true _ [FAPat (PIdentifier w)]); [|right; reflexivity|eassumption|].
    { constructor; [|constructor]. split; [|reflexivity]. unfold cover_param, is_await. f_equal. apply not_true_iff_false. intros C. apply text_eqb_eq in C. exact (Hw' C). }
    cbn beta iota. cbn [is_async_expr]. ev. eapply HQ; [eassumption|etransitivity; [exact V2|exact V1]].
  Qed.
  (** [async (x, y)] *)
  Lemma async_parens_start S ps l l1 l2 l' : reads_as TIdent (str "async") l l1 -> newline l1 = false -> reads (TPunct POpenParen) l1 l2 ->
    Xasync g S l2 ps l' -> Forall (clean true) ps -> hd_tok l' = TPunct PFatArrow -> Xstart true S l ps l'.
  Proof.
    intros R Hn R1 H Hc Hfat l3 s k Q R2 A V HQ. pose proof (reads_as_hd _ _ _ _ R) as [E1 E2].
    apply evs_call. cbn [body]. unfold assignment_expr. ev. rewrite andb_false_r. ev.
    assert (X : @Xcall g None CConditionalExpr 2 (view_of k) l (EArrowParamPlaceHolder ps true) l').
    { apply up_2; [lia|]. apply binary. apply bin_one. apply up_14. apply up_15; [|rewrite E1; reflexivity]. apply lhs_16; [|rewrite E1; reflexivity].
      eapply async_lhs; eauto. rewrite V. exact H. }
    eapply evs_then; [apply X; [exact A|reflexivity|]|].
    { unfold follow, goes_on. rewrite Hfat. reflexivity. }
    cbn beta. intros s1 k1 A1 V1 _. ev. cbn [orb]. rewrite andb_false_r. ev. cbn [is_placeholder orb].
    unfold arrow_rest. ev. eapply (cover_ok true _ ps); [exact Hc|right; reflexivity|eassumption|]. cbn beta iota. cbn [is_async_expr]. ev.
    eapply HQ; [eassumption|exact V1].
  Qed.
  Lemma arrow a S l ps l1 l2 e l' : Xstart a (in_ true S) l ps l1 -> reads (TPunct PFatArrow) l1 l2 ->
    hd_tok l2 <> TPunct POpenBrace -> X1 S l2 e l' -> X1 S l (EArrowFunction None ps (AFExpr e) true false a) l'.
  Proof.
    intros H R Hn He s k A V Hf _. subst S. eapply H; eauto. intros s1 k1 A1 V1.
    replace (is_punct POpenBrace (hd_tok l2)) with false.
    2:{ symmetry. apply not_true_iff_false. intros C. apply is_punct_tok in C. contradiction. }
    apply evs_bind. eapply evs_then; [eapply evs_iso; [eassumption|]; intros s9 A9; apply He; [exact A9|exact V1|exact Hf|reflexivity]|].
    cbn beta. intros s9 k9 A9 V9 _. ev. eapply leave; [eassumption|congruence|apply flags_none; reflexivity].
  Qed.
  Lemma arrow_body a S l ps l1 l2 b l' : Xstart a (in_ true S) l ps l1 -> reads (TPunct PFatArrow) l1 l2 ->
    hd_tok l2 = TPunct POpenBrace -> Xbody (in_ true S) l2 b l' -> X1 S l (EArrowFunction None ps (AFBody b) false false a) l'.
  Proof.
    intros H R Hn He s k A V Hf _. subst S. eapply H; eauto. intros s1 k1 A1 V1. ev_known. ev_bool. cbn iota. ev.
    eapply evs_then; [eapply He; [eassumption|vws]|].
    cbn beta. intros s9 k9 A9 V9 _. ev. eapply leave; [eassumption|vws|apply flags_none; reflexivity].
  Qed.

  (** ** Yield *)
  Lemma yield_start S l l1 s k (Q : Expr -> state -> Prop) : v_yield S = false -> reads (TKeyword KYield) l l1 ->
    At s l k -> view_of k = S -> (forall s' nl, nl = newline l1 \/ hd_tok l1 = TEoF -> At s' l1 k ->
      evs (if nl : bool then Ret (EYield None false)
        else
          prev_yield <- get c_allow_yield ;;
          upd (set_allow_yield false) ;;
          t <- look_tok ;;
          '(arg, delegate) <-
            (if is_punct PAsterisk t then next ;; e <- Call CAssignmentExpr ;; Ret (Some e, true)
             else if start_of_expr t then e <- Call CAssignmentExpr ;; Ret (Some e, false)
             else Ret (None, false)) ;;
          upd (set_allow_yield prev_yield) ;;
          Ret (EYield arg delegate)) s' Q) ->
    evs (Call CAssignmentExpr) s Q.
  Proof.
    intros Hy R A V HQ. apply evs_call. cbn [body]. unfold assignment_expr. ev.
    replace (c_allow_yield k) with false by (subst S; symmetry; exact Hy). ev. apply evs_call. cbn [body]. unfold yield_expr. ev.
    eapply evs_newline; [eassumption|]. intros b Hb. eapply HQ; eauto.
  Qed.
  Lemma yield_none S l l1 : v_yield S = false -> reads (TKeyword KYield) l l1 ->
    hd_tok l1 = TPunct PSemiColon \/ hd_tok l1 = TPunct PCloseParen \/ hd_tok l1 = TPunct PCloseBracket
    \/ hd_tok l1 = TPunct PCloseBrace \/ hd_tok l1 = TPunct PComma \/ hd_tok l1 = TPunct PColon -> X1 S l (EYield None false) l1.
  Proof.
    intros Hy R Ht s k A V Hf _. eapply yield_start; eauto. intros s' nl Hn A'. destruct nl.
    - ev. eapply leave; [eassumption|reflexivity|apply flags_none; reflexivity].
    - ev. decompose [or] Ht; ev_known; ev_bool; ev; (eapply leave; [eassumption| |apply flags_none; reflexivity]); subst S; vws.
  Qed.
  Lemma yield_line S l l1 : v_yield S = false -> reads (TKeyword KYield) l l1 -> newline l1 = true -> hd_tok l1 <> TEoF -> X1 S l (EYield None false) l1.
  Proof.
    intros Hy R Hl He s k A V Hf _. eapply yield_start; eauto. intros s' nl Hn A'.
    destruct nl; [ev; eapply leave; [eassumption|reflexivity|apply flags_none; reflexivity]|].
    destruct Hn as [Hn|Hn]; congruence.
  Qed.
  Lemma yield_arg S l l1 e l' : v_yield S = false -> reads (TKeyword KYield) l l1 -> newline l1 = false ->
    hd_tok l1 <> TPunct POpenBrace -> hd_tok l1 <> TKeyword KAwait -> hd_tok l1 <> TKeyword KImport -> expr_head 1 (hd_tok l1) = true -> X1 S l1 e l' -> X1 S l (EYield (Some e) false) l'.
  Proof.
    intros Hy R Hl Hb Hw Hm Hh H s k A V Hf Hk. eapply yield_start; eauto. intros s' nl Hn A'.
    assert (nl = false) as -> by (destruct Hn as [->|Hn]; [exact Hl|rewrite Hn in Hh; discriminate]). ev.
    replace (is_punct PAsterisk (hd_tok l1)) with false by (destruct (hd_tok l1) as [| | | | | | |[]|[]|[]|]; try discriminate; reflexivity).
    replace (start_of_expr (hd_tok l1)) with true
      by (destruct (hd_tok l1) as [| | | | | | |[]|[]|[]|]; try discriminate; try reflexivity; contradiction).
    ev. eapply evs_then; [eapply H; [eassumption| |exact Hf|exact Hk]|]. { subst S. vws. }
    cbn beta. intros s9 k9 A9 V9 _. ev. eapply leave; [eassumption| |apply flags_none; reflexivity]. subst S. vws.
  Qed.
  Lemma yield_all S l l1 l2 e l' : v_yield S = false -> reads (TKeyword KYield) l l1 -> newline l1 = false ->
    reads (TPunct PAsterisk) l1 l2 -> X1 S l2 e l' -> X1 S l (EYield (Some e) true) l'.
  Proof.
    intros Hy R Hl R2 H s k A V Hf Hk. eapply yield_start; eauto. intros s' nl Hn A'.
    assert (nl = false) as -> by (destruct Hn as [->|Hn]; [exact Hl|rewrite (reads_hd _ _ _ R2) in Hn; discriminate]). ev.
    eapply evs_then; [eapply H; [eassumption| |exact Hf|exact Hk]|]. { subst S. vws. }
    cbn beta. intros s9 k9 A9 V9 _. ev. eapply leave; [eassumption| |apply flags_none; reflexivity]. subst S. vws.
  Qed.

  (** ** Commas *)
  Inductive Commas (S : view) : list tk -> list Expr -> list tk -> Prop :=
  | commas_one e l l' : expr_head 0 (hd_tok l) = true -> X1 S l e l' -> Commas S l [e] l'
  | commas_more e es l l1 l2 l' : expr_head 0 (hd_tok l) = true -> X1 S l e l1 -> comma l1 l2 -> Commas S l2 es l' -> Commas S l (e :: es) l'.
  Lemma follow_comma i l l' : comma l l' -> follow i 1 l = true.
  Proof. intros R. eapply (follow_hd _ _ _ _ _ (Some 0)); [exact R|reflexivity|reflexivity]. Qed.
  Lemma commas_head S l es l' : Commas S l es l' -> expr_head 0 (hd_tok l) = true.
  Proof. destruct 1; assumption. Qed.
  Definition expr_loop : list Expr -> P (list Expr + list Expr) := fun l =>
      t <- look_tok ;;
      if is_eof t then Ret (inr l)
      else if negb (is_punct PComma t) then Ret (inr l)
      else
        next ;;
        e <- isolated (Call CAssignmentExpr) ;;
        Ret (inl (l ++ [e])).
  Definition SameFlags (k k' : ctx) : Prop := c_assign_target k' = c_assign_target k /\ c_binding_element k' = c_binding_element k.
  Lemma commas_loop S l es l' : Commas S l es l' -> follow (v_in S) 0 l' = true -> forall s k acc l0, At s l0 k -> view_of k = S ->
    comma l0 l -> evs (Loop acc expr_loop) s (leaves k l' (SameFlags k) (acc ++ es)).
  Proof.
    induction 1 as [e l l' Hh H|e es l l1 l2 l' Hh H R1 Hs IH]; intros Hf s k acc l0 A V R.
    - apply evs_loop. unfold expr_loop at 1. ev.
      eapply evs_then; [eapply evs_iso; [eassumption|]; intros s9 A9; apply H; [exact A9|exact V| |reflexivity]|].
      { eapply follow_up; [|exact Hf]. lia. }
      cbn beta. intros s9 k9 A9 V9 F9. ev.
      apply evs_loop. unfold expr_loop at 1. ev. rewrite (stop_0 _ _ Hf). cbn [negb]. destruct (is_eof (hd_tok l')); ev;
        (eapply leave; [eassumption|exact V9|exact F9]).
    - apply evs_loop. unfold expr_loop at 1. ev.
      eapply evs_then; [eapply evs_iso; [eassumption|]; intros s9 A9; apply H; [exact A9|exact V| |reflexivity]|].
      { eapply follow_comma; eauto. }
      cbn beta. intros s9 k9 A9 V9 [F9 F9']. ev.
      eapply evs_mono; [|eapply (IH Hf); [eassumption|congruence|eassumption]].
      intros x s10 (-> & k10 & A10 & V10 & F10 & F10'). rewrite <- app_assoc. eapply leave; [eassumption|congruence|split; congruence].
  Qed.
  Lemma expression_ok S l es l' : Commas S l es l' -> X0 S l (sequence es) l'.
  Proof.
    intros H s k A V Hf. apply evs_call. cbn [body]. unfold expression. apply evs_bind.
    destruct H as [e l l' Hh H|e es l l1 l2 l' Hh H R1 Hs].
    - eapply evs_then; [eapply evs_iso; [eassumption|]; intros s9 A9; apply H; [exact A9|exact V| |reflexivity]|].
      { eapply follow_up; [|exact Hf]. lia. }
      cbn beta. intros s9 k9 A9 V9 [F9 F9']. ev. rewrite (stop_0 _ _ Hf). ev. eapply leave; [eassumption|exact V9|].
      split; intros _; congruence.
    - eapply evs_then; [eapply evs_iso; [eassumption|]; intros s9 A9; apply H; [exact A9|exact V| |reflexivity]|].
      { eapply follow_comma; eauto. }
      cbn beta. intros s9 k9 A9 V9 [F9 F9']. ev.
      eapply evs_then; [eapply (commas_loop _ _ _ _ Hs Hf); [eassumption|congruence|eassumption]|].
      cbn beta. intros s10 k10 A10 V10 [F10 F10']. ev. replace (sequence (e :: es)) with (ESequence (e :: es)).
      + eapply leave; [eassumption|congruence|]. apply flags_none; reflexivity.
      + destruct Hs; reflexivity.
  Qed.
End Upper.
