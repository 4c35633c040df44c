(** Primary expressions: literals, templates, parentheses, arrays, [new], arguments. *)
From Verif Require Export Upper.
Local Open Scope nat_scope.
Local Open Scope list_scope.

(** Slices of tokens. *)
Lemma quasi_slice k w q : quasi_of k w q -> q_raw q = w /\
  match k with
  | THead | TBody => byte_len w <? 2 = false /\ slice w 1 (byte_len w - 2) = Some (q_cooked q) /\ q_tail q = false
  | TTail | TNoSub => byte_len w <? 1 = false /\ slice w 1 (byte_len w - 1) = Some (q_cooked q) /\ q_tail q = true
  end.
Proof.
  intros (E & c & e & Ew & Hc & Hk). split; [exact E|].
  assert (Hs : slice w 1 (1 + byte_len (q_cooked q)) = Some (q_cooked q)).
  { rewrite Ew. change (c :: q_cooked q ++ e) with ([c] ++ q_cooked q ++ e).
    replace 1 with (byte_len [c]) at 1 2 by (cbn; lia). apply slice_app. }
  assert (Hl : byte_len w = 1 + byte_len (q_cooked q) + byte_len e) by (rewrite Ew; cbn; rewrite byte_len_app; lia).
  destruct k; destruct Hk as [He Ht]; (split; [apply Nat.ltb_ge; lia|]);
    (split; [|exact Ht]); rewrite <- Hs; f_equal; lia.
Qed.
Lemma rfind_none off t : ~ In 47%N t -> rfind_slash off t = None.
Proof.
  revert off. induction t as [|c t IH]; intros off H; [reflexivity|]. cbn. rewrite IH; [|intros C; apply H; right; exact C].
  destruct (N.eqb c 47) eqn:E; [|reflexivity]. apply N.eqb_eq in E. destruct H. left. exact E.
Qed.
Lemma rfind_app a b : forall off, ~ In 47%N b -> rfind_slash off (a ++ 47%N :: b) = Some (off + byte_len a).
Proof.
  induction a as [|c a IH]; intros off H; cbn; [rewrite rfind_none by exact H; cbn; f_equal; lia|].
  rewrite IH by exact H. f_equal. lia.
Qed.
Lemma regex_slice w p f : regex_of w p f -> exists e, rfind_slash 0 w = Some e /\ slice w 1 e = Some p
  /\ slice w (e + 1) (byte_len w) = Some f.
Proof.
  intros (c & Hc & Ew & Hf). exists (1 + byte_len p). subst w. split; [|split].
  - change (c :: p ++ [47%N] ++ f) with ((c :: p) ++ 47%N :: f). rewrite rfind_app by exact Hf. cbn. f_equal. lia.
  - change (c :: p ++ [47%N] ++ f) with ([c] ++ p ++ ([47%N] ++ f)).
    replace 1 with (byte_len [c]) at 1 2 by (cbn; lia). apply slice_app.
  - replace (c :: p ++ [47%N] ++ f) with (([c] ++ p ++ [47%N]) ++ f ++ []) by (rewrite app_nil_r, <- !app_assoc; reflexivity).
    replace (1 + byte_len p + 1) with (byte_len ([c] ++ p ++ [47%N])) by (rewrite !byte_len_app; cbn; lia).
    rewrite (byte_len_app ([c] ++ p ++ [47%N])), app_nil_r.
    replace (([c] ++ p ++ [47%N]) ++ f) with (([c] ++ p ++ [47%N]) ++ f ++ []) by (rewrite app_nil_r; reflexivity). apply slice_app.
Qed.

Section Primary.
  Variable g : cfg.
  Hypothesis Hres : g_strict_reserved g (TKeyword KThis) = false /\ g_strict_reserved g (TKeyword KFunction) = false
    /\ g_strict_reserved g (TKeyword KClass) = false.
  Notation evs := (evs g).
  Notation At := (At g).
  Notation leaves := (leaves g).
  Notation T := (fun _ : ctx => True).
  Notation X19 := (@X19 g None). Notation X17 := (@X17 g None). Notation X18 := (X18 g).
  Notation X0 := (@Xcall g None CExpression 0).
  Notation X1 := (@X1 g None).
  Notation Commas := (Commas g).

  (** ** Literals *)
  Ltac start := intros s k A V; unfold prim; ev; try (apply evs_call; cbn [body]; unfold primary_expression; ev).
  Ltac done := eapply leave; [eassumption|reflexivity|first [apply flags_refl|apply flags_none; reflexivity]].
  Lemma p_ident S w l l' : reads_as TIdent w l l' -> w <> str "async" -> X19 S l (EIdent w) l'.
  Proof. intros R Hw. start. rewrite (proj2 (reads_as_hd _ _ _ _ R)). done. Qed.
  Lemma p_number S w l l' : reads_as TNumeric w l l' -> X19 S l (ELiteral (LNumber w)) l'.
  Proof. intros R. start. rewrite (proj2 (reads_as_hd _ _ _ _ R)). done. Qed.
  Lemma p_string S w l l' : reads_as TString w l l' -> X19 S l (ELiteral (LString w)) l'.
  Proof. intros R. start. rewrite (proj2 (reads_as_hd _ _ _ _ R)). done. Qed.
  Lemma p_bool S b l l' : reads (TBoolean b) l l' -> X19 S l (ELiteral (LBoolean b)) l'.
  Proof. intros R. start. done. Qed.
  Lemma p_regex S w p f l l' : reads_as TRegEx w l l' -> regex_of w p f -> X19 S l (ELiteral (LRegEx p f)) l'.
  Proof.
    intros R H. destruct (regex_slice _ _ _ H) as (e & E1 & E2 & E3). start. rewrite (proj2 (reads_as_hd _ _ _ _ R)), E1, E2, E3. ev. done.
  Qed.
  Lemma p_this S l l' : reads (TKeyword KThis) l l' -> X19 S l EThis l'.
  Proof. intros R. start. rewrite (proj1 Hres). destruct (c_strict k), (c_allow_yield k); cbn [negb andb orb]; ev; done. Qed.

  (** ** Templates *)
  Definition tpl_loop : bool * list Expr * list TemplateElement ->
      P ((bool * list Expr * list TemplateElement) + (list Expr * list TemplateElement)) := fun '(breaking, expressions, quasis) =>
        if breaking : bool then Ret (inr (expressions, quasis))
        else
          e <- Call CExpression ;;
          quasi <- Call CTemplateElement ;;
          Ret (inl (q_tail quasi, expressions ++ [e], quasis ++ [quasi])).
  Definition Xquasis (S : view) l (eq : list Expr * list TemplateElement) l' : Prop := forall s k es0 qs0, At s l k -> view_of k = S ->
    evs (Loop (false, es0, qs0) tpl_loop) s (leaves k l' T (es0 ++ fst eq, qs0 ++ snd eq)).
  Lemma element t w q l l' s k : reads_as (TTemplate t) w l l' -> quasi_of t w q -> At s l k ->
    evs (Call CTemplateElement) s (leaves k l' (fun k' => k' = k) q).
  Proof.
    intros R H A. destruct (quasi_slice _ _ _ H) as [E1 E2]. apply evs_call. cbn [body]. unfold template_element. ev.
    rewrite (proj2 (reads_as_hd _ _ _ _ R)). destruct q as [rw ck tl]. cbn [q_raw q_cooked q_tail] in E1, E2. subst rw.
    destruct t; destruct E2 as (E2 & E3 & ->); unfold inner_slice; rewrite E2, E3; ev;
      (eapply leave; [eassumption|reflexivity|reflexivity]).
  Qed.
  Lemma follow_template i t n w l l' : t = TTail \/ t = TBody -> reads_as (TTemplate t) w l l' -> follow i n l = true.
  Proof. intros Ht (_ & b & ->). unfold follow, goes_on. cbn [hd_tok k_tok]. destruct Ht as [->| ->]; reflexivity. Qed.
  Lemma quasis_last S e w q l l1 l' : X0 S l e l1 -> reads_as (TTemplate TTail) w l1 l' -> quasi_of TTail w q -> Xquasis S l ([e], [q]) l'.
  Proof.
    intros H R Hq s k es0 qs0 A V. apply evs_loop. unfold tpl_loop at 1. ev.
    eapply evs_then; [apply H; [exact A|exact V|eapply follow_template; [|exact R]; auto]|]. cbn beta. intros s1 k1 A1 V1 _. ev.
    eapply evs_then; [eapply element; eauto|]. cbn beta. intros s2 k2 A2 V2 ->. ev.
    replace (q_tail q) with true by (destruct (quasi_slice _ _ _ Hq) as (_ & _ & _ & ->); reflexivity).
    apply evs_loop. unfold tpl_loop at 1. ev. eapply leave; [eassumption|congruence|exact I].
  Qed.
  Lemma quasis_more S e w q es qs l l1 l2 l' : X0 S l e l1 -> reads_as (TTemplate TBody) w l1 l2 -> quasi_of TBody w q ->
    Xquasis S l2 (es, qs) l' -> Xquasis S l (e :: es, q :: qs) l'.
  Proof.
    intros H R Hq IH s k es0 qs0 A V. apply evs_loop. unfold tpl_loop at 1. ev.
    eapply evs_then; [apply H; [exact A|exact V|eapply follow_template; [|exact R]; auto]|]. cbn beta. intros s1 k1 A1 V1 _. ev.
    eapply evs_then; [eapply element; eauto|]. cbn beta. intros s2 k2 A2 V2 ->. ev.
    replace (q_tail q) with false by (destruct (quasi_slice _ _ _ Hq) as (_ & _ & _ & ->); reflexivity).
    eapply evs_mono; [|eapply IH; [eassumption|congruence]]. cbn [fst snd].
    intros x s3 (-> & k3 & A3 & V3 & _). rewrite <- !app_assoc. eapply leave; [eassumption|congruence|exact I].
  Qed.
  Lemma template S w q l l' : reads_as (TTemplate TNoSub) w l l' -> quasi_of TNoSub w q -> Xtpl g S l (mkTemplate [q] []) l'.
  Proof.
    intros R Hq s k A V. apply evs_call. cbn [body]. unfold template_literal. ev.
    eapply evs_then; [eapply element; eauto|]. cbn beta. intros s2 k2 A2 V2 ->. ev.
    replace (q_tail q) with true by (destruct (quasi_slice _ _ _ Hq) as (_ & _ & _ & ->); reflexivity).
    apply evs_loop. ev. eapply leave; [eassumption|congruence|exact I].
  Qed.
  Lemma template_parts S w q es qs l l1 l' : reads_as (TTemplate THead) w l l1 -> quasi_of THead w q -> Xquasis S l1 (es, qs) l' ->
    Xtpl g S l (mkTemplate (q :: qs) es) l'.
  Proof.
    intros R Hq IH s k A V. apply evs_call. cbn [body]. unfold template_literal. ev.
    eapply evs_then; [eapply element; eauto|]. cbn beta. intros s2 k2 A2 V2 ->. ev.
    replace (q_tail q) with false by (destruct (quasi_slice _ _ _ Hq) as (_ & _ & _ & ->); reflexivity).
    eapply evs_then; [eapply (IH _ _ [] [q]); [eassumption|congruence]|]. cbn beta. intros s3 k3 A3 V3 _. cbn iota. ev.
    eapply leave; [eassumption|congruence|exact I].
  Qed.
  Lemma p_template S q l l' : is_template_head (hd_tok l) = true -> Xtpl g S l q l' -> X19 S l (ELiteral (LTemplate q)) l'.
  Proof.
    intros Hh H s k A V. unfold prim. ev.
    destruct (hd_tok l) as [| | | | | | |[]|[]|[]|] eqn:E; try discriminate; ev_bool; cbn iota.
    all: apply evs_call; cbn [body]; unfold primary_expression; ev.
    all: eapply evs_then; [apply H; [exact A|exact V]|]; cbn beta; intros s3 k3 A3 V3 _; ev; eapply leave;
      [eassumption|congruence|apply flags_none; reflexivity].
  Qed.

  (** ** Arguments and array elements *)
  Definition Xarg (S : view) l e l' : Prop := (expr_head 0 (hd_tok l) = true /\ X1 S l e l')
    \/ (exists l1 e1, e = ESpread e1 /\ reads (TPunct PSpread) l l1 /\ X1 S l1 e1 l').
  Lemma no_punct p l : expr_head 0 (hd_tok l) = true -> expr_head 0 (TPunct p) = false -> is_punct p (hd_tok l) = false.
  Proof.
    intros H N. apply not_true_iff_false. intros C. apply is_punct_tok in C. rewrite C in H. congruence.
  Qed.
  Lemma spread S l l1 e l' s k : reads (TPunct PSpread) l l1 -> X1 S l1 e l' -> At s l k -> view_of k = S -> follow (v_in S) 1 l' = true ->
    evs (Call CSpreadElement) s (leaves k l' T (ESpread e)).
  Proof.
    intros R H A V Hf. apply evs_call. cbn [body]. unfold spread_element. ev.
    eapply evs_then; [eapply evs_inh; [eassumption|]; intros s9 A9; apply H; [exact A9|exact V|exact Hf|reflexivity]|].
    cbn beta. intros s9 k9 A9 V9 _. ev. eapply leave; [eassumption|exact V9|exact I].
  Qed.
  Lemma arg_runs S l e l' s k (Q : Expr -> state -> Prop) : Xarg S l e l' -> At s l k -> view_of k = S -> follow (v_in S) 1 l' = true ->
    (forall s' k', At s' l' k' -> view_of k' = S -> Q e s') ->
    evs (ifM at_punct PSpread then Call CSpreadElement else isolated (Call CAssignmentExpr)) s Q.
  Proof.
    intros [[Hh H]|(l1 & e1 & -> & R & H)] A V Hf HQ; ev.
    - rewrite (no_punct PSpread) by (assumption || reflexivity).
      eapply evs_then; [eapply evs_iso; [eassumption|]; intros s9 A9; apply H; [exact A9|exact V|exact Hf|reflexivity]|].
      cbn beta. intros s9 k9 A9 V9 _. eapply HQ; [eassumption|congruence].
    - eapply evs_then; [eapply spread; eauto|]. cbn beta. intros s9 k9 A9 V9 _. eapply HQ; [eassumption|congruence].
  Qed.
  Inductive Args (S : view) : list tk -> list Expr -> list tk -> Prop :=
  | args_none l l' : reads (TPunct PCloseParen) l l' -> Args S l [] l'
  | args_last e l l1 l' : Xarg S l e l1 -> reads (TPunct PCloseParen) l1 l' -> Args S l [e] l'
  | args_more e es l l1 l2 l' : Xarg S l e l1 -> comma l1 l2 -> Args S l2 es l' -> Args S l (e :: es) l'.
  Definition args_loop : list Expr -> P (list Expr + list Expr) := fun args =>
       e <- (ifM at_punct PSpread then Call CSpreadElement else isolated (Call CAssignmentExpr)) ;;
       ifM at_punct PCloseParen then Ret (inr (args ++ [e]))
       else
         Do OExpectComma ;;
         ifM at_punct PCloseParen then Ret (inr (args ++ [e]))
         else Ret (inl (args ++ [e])).
  Lemma follow_close i l l' n : reads (TPunct PCloseParen) l l' -> follow i n l = true.
  Proof. intros R. eapply (follow_hd _ _ _ _ _ None); [exact R|reflexivity|reflexivity]. Qed.
  Lemma not_close S l e l' : Xarg S l e l' -> is_punct PCloseParen (hd_tok l) = false /\ is_punct PCloseBracket (hd_tok l) = false
    /\ is_punct PComma (hd_tok l) = false.
  Proof.
    intros [[Hh _]|(l1 & e1 & _ & R & _)]; [repeat split; apply no_punct; (assumption || reflexivity)|].
    rewrite (reads_hd _ _ _ R). auto.
  Qed.
  (* the loop stops before the parenthesis *)
  Lemma args_loop_ok S l es l' : v_in S = true -> Args S l es l' -> es <> [] -> exists l9, reads (TPunct PCloseParen) l9 l' /\
    forall s k acc, At s l k -> view_of k = S -> evs (Loop acc args_loop) s (leaves k l9 T (acc ++ es)).
  Proof.
    intros Hi. induction 1 as [l l' R|e l l1 l' He R|e es l l1 l2 l' He R Hs IH]; intros Hn; [contradiction| |].
    - exists l1. split; [exact R|]. intros s k acc A V. apply evs_loop. unfold args_loop at 1. apply evs_bind.
      apply (arg_runs _ _ _ _ _ _ _ He A V). { eapply follow_close; eauto. } cbn beta. intros s1 k1 A1 V1. ev.
      eapply leave; [eassumption|congruence|exact I].
    - inversion Hs; subst.
      + exists l2. split; [assumption|]. intros s k acc A V. apply evs_loop. unfold args_loop at 1. apply evs_bind.
        apply (arg_runs _ _ _ _ _ _ _ He A V). { eapply follow_comma; eauto. } cbn beta. intros s1 k1 A1 V1. ev.
        eapply leave; [eassumption|congruence|exact I].
      + destruct IH as (l9 & R9 & IH); [discriminate|]. exists l9. split; [exact R9|].
        intros s k acc A V. apply evs_loop. unfold args_loop at 1. apply evs_bind.
        apply (arg_runs _ _ _ _ _ _ _ He A V). { eapply follow_comma; eauto. } cbn beta. intros s1 k1 A1 V1. ev.
        rewrite (proj1 (not_close _ _ _ _ H)). ev. eapply evs_mono; [|eapply IH; [eassumption|congruence]].
        intros x s4 (-> & k4 & A4 & V4 & _). rewrite <- app_assoc. eapply leave; [eassumption|congruence|exact I].
      + destruct IH as (l9 & R9 & IH); [discriminate|]. exists l9. split; [exact R9|].
        intros s k acc A V. apply evs_loop. unfold args_loop at 1. apply evs_bind.
        apply (arg_runs _ _ _ _ _ _ _ He A V). { eapply follow_comma; eauto. } cbn beta. intros s1 k1 A1 V1. ev.
        rewrite (proj1 (not_close _ _ _ _ H)). ev. eapply evs_mono; [|eapply IH; [eassumption|congruence]].
        intros x s4 (-> & k4 & A4 & V4 & _). rewrite <- app_assoc. eapply leave; [eassumption|congruence|exact I].
  Qed.
  Lemma args_ok S l es l' : v_in S = true -> Args S l es l' -> Xargs g S l es l'.
  Proof.
    intros Hi H s k l0 A V R. apply evs_call. cbn [body]. unfold args, arg_list. ev.
    destruct es as [|e es].
    - inversion H; subst. ek. eapply leave; [eassumption|congruence|exact I].
    - replace (is_punct PCloseParen (hd_tok l)) with false
        by (symmetry; inversion H; subst; eapply not_close; eassumption).
      destruct (args_loop_ok _ _ _ _ Hi H ltac:(discriminate)) as (l9 & R9 & IH).
      eapply evs_then; [eapply (IH _ _ []); [eassumption|congruence]|]. cbn beta. intros s4 k4 A4 V4 _. ev.
      eapply leave; [eassumption|congruence|exact I].
  Qed.
  (** The keyword [import] before a parenthesis is read as a name, and called. *)
  Lemma import_name S w l l1 s k : reads_as (TKeyword KImport) w l l1 -> hd_tok l1 = TPunct POpenParen -> At s l k -> view_of k = S ->
    evs prim s (leaves k l1 T (EIdent w)).
  Proof.
    intros R E A V. unfold prim; ev. apply evs_call; cbn [body]; unfold primary_expression; ev.
    assert (Ht : tl l = l1) by (destruct R as (_ & ? & ->); reflexivity).
    destruct (c_strict k), (c_allow_yield k), (g_strict_reserved g (TKeyword KImport)); cbn [negb andb orb]; ev;
      try (eapply evs_then; [eapply evs_ident_name; eassumption|]; cbn beta; intros s3 k3 A3 V3 ->; ev; eapply leave; [eassumption|reflexivity|exact I]).
    all: unfold at_import_call; ev; eapply evs_peekskip; [eassumption|]; intros o Ho; rewrite Ht, E in Ho; ev;
      destruct o as [i|]; [|discriminate Ho]; rewrite Ho; change (is_punct POpenParen (TPunct POpenParen)) with true; cbn iota; ev.
    all: eapply evs_then; [eapply evs_ident_name; eassumption|]; cbn beta; intros s3 k3 A3 V3 ->; ev; eapply leave; [eassumption|reflexivity|exact I].
  Qed.
  Lemma import_call S w es l l1 l2 l' : reads_as (TKeyword KImport) w l l1 -> reads (TPunct POpenParen) l1 l2 -> Xargs g S l2 es l' ->
    X17 S l (ECall (EIdent w) es) l'.
  Proof.
    intros R R1 Ha sp s k Q A V HQ. apply evs_bind. unfold prim17. ev. cbn [andb]. cbn iota.
    eapply evs_then; [eapply evs_inh; [exact A|]|].
    - intros s1 A1. eapply (import_name S); [exact R|apply (reads_hd _ _ _ R1)|exact A1|exact V].
    - cbn beta. intros s1 k1 A1 V1 _. assert (V2 : view_of k1 = S) by congruence. apply evs_loop. unfold chain17. ev. cbn [andb]. eapply evs_then; [eapply Ha; eauto|]. cbn beta.
      intros s3 k3 A3 V3 _. ev. cbn [andb]. ev. eapply HQ; [eassumption|rewrite V3; exact V2|]. apply flags_none; reflexivity.
  Qed.

  (** *** Arrays *)
  Inductive Elems (S : view) : list tk -> list (option Expr) -> list tk -> Prop :=
  | elems_none l l' : reads (TPunct PCloseBracket) l l' -> Elems S l [] l'
  | elems_hole es l l1 l' : comma l l1 -> Elems S l1 es l' -> Elems S l (None :: es) l'
  | elems_last e l l1 l' : Xarg S l e l1 -> reads (TPunct PCloseBracket) l1 l' -> Elems S l [Some e] l'
  | elems_more e es l l1 l2 l' : Xarg S l e l1 -> comma l1 l2 -> Elems S l2 es l' -> Elems S l (Some e :: es) l'.
  Definition array_loop : list (option Expr) -> P (list (option Expr) + list (option Expr)) := fun elements =>
    ifM at_punct PCloseBracket then Ret (inr elements)
    else ifM at_punct PComma then next ;; Ret (inl (elements ++ [None]))
    else ifM at_punct PSpread then
      el <- Call CSpreadElement ;;
      ifM at_punct PCloseBracket then Ret (inl (elements ++ [Some el]))
      else
        not_target ;;
        expect_punct PComma ;;
        Ret (inl (elements ++ [Some el]))
    else
      el <- inheriting (Call CAssignmentExpr) ;;
      ifM at_punct PCloseBracket then Ret (inl (elements ++ [Some el]))
      else expect_punct PComma ;; Ret (inl (elements ++ [Some el])).
  Lemma follow_bracket i l l' n : reads (TPunct PCloseBracket) l l' -> follow i n l = true.
  Proof. intros R. eapply (follow_hd _ _ _ _ _ None); [exact R|reflexivity|reflexivity]. Qed.
  (* one element, up to before the comma or the bracket *)
  Lemma array_step S l e l1 s k acc (Q : list (option Expr) -> state -> Prop) : v_in S = true -> Xarg S l e l1 -> At s l k -> view_of k = S ->
    (exists l2, reads (TPunct PCloseBracket) l1 l2 /\ (forall s' k', At s' l1 k' -> view_of k' = S -> evs (Loop (acc ++ [Some e]) array_loop) s' Q)
     \/ comma l1 l2 /\ (forall s' k', At s' l2 k' -> view_of k' = S -> evs (Loop (acc ++ [Some e]) array_loop) s' Q)) ->
    evs (Loop acc array_loop) s Q.
  Proof.
    intros Hi He A V (l2 & HQ). apply evs_loop. unfold array_loop at 1.
    assert (Hf : follow (v_in S) 1 l1 = true) by (destruct HQ as [[R _]|[R _]]; [eapply follow_bracket|eapply follow_comma]; exact R).
    destruct (not_close _ _ _ _ He) as (_ & N2 & N3). ev. rewrite N2. ev. rewrite N3. ev.
    destruct He as [[Hh H]|(l3 & e1 & -> & R & H)].
    - rewrite (no_punct PSpread) by (assumption || reflexivity). apply evs_bind.
      eapply evs_then; [eapply evs_inh; [exact A|]; intros s9 A9; apply H; [exact A9|exact V|exact Hf|reflexivity]|].
      cbn beta. intros s1 k1 A1 V1 _. destruct HQ as [[R HQ]|[R HQ]]; ek; (eapply HQ; [eassumption|congruence]).
    - ek. eapply evs_then; [eapply spread; eauto|]. cbn beta. intros s1 k1 A1 V1 _. destruct HQ as [[R2 HQ]|[R2 HQ]]; ek; (eapply HQ; [eassumption|]).
      + congruence.
      + change (view_of k1 = S). congruence.
  Qed.
  Lemma elems_loop S l es l' : v_in S = true -> Elems S l es l' -> exists l9, reads (TPunct PCloseBracket) l9 l' /\
    forall s k acc, At s l k -> view_of k = S -> evs (Loop acc array_loop) s (leaves k l9 T (acc ++ es)).
  Proof.
    intros Hi. induction 1 as [l l' R|es l l1 l' R Hs (l9 & R9 & IH)|e l l1 l' He R|e es l l1 l2 l' He R Hs (l9 & R9 & IH)].
    - exists l. split; [exact R|]. intros s k acc A V. apply evs_loop. unfold array_loop at 1. ev. rewrite app_nil_r.
      eapply leave; [eassumption|reflexivity|exact I].
    - exists l9. split; [exact R9|]. intros s k acc A V. apply evs_loop. unfold array_loop at 1. ev.
      eapply evs_mono; [|eapply IH; [eassumption|exact V]].
      intros x s4 (-> & k4 & A4 & V4 & _). rewrite <- app_assoc. eapply leave; [eassumption|congruence|exact I].
    - exists l1. split; [exact R|]. intros s k acc A V. eapply array_step; eauto. eexists. left. split; [exact R|].
      intros s1 k1 A1 V1. apply evs_loop. unfold array_loop at 1. ev. eapply leave; [eassumption|congruence|exact I].
    - exists l9. split; [exact R9|]. intros s k acc A V. eapply array_step; eauto. eexists. right. split; [exact R|].
      intros s1 k1 A1 V1. eapply evs_mono; [|eapply IH; [eassumption|exact V1]].
      intros x s4 (-> & k4 & A4 & V4 & _). rewrite <- app_assoc. eapply leave; [eassumption|congruence|exact I].
  Qed.
  Lemma array_ok S es l l1 l' : v_in S = true -> reads (TPunct POpenBracket) l l1 -> Elems S l1 es l' -> forall s k, At s l k -> view_of k = S ->
    evs (Call CArrayInit) s (leaves k l' T (EArray es)).
  Proof.
    intros Hi R H s k A V. destruct (elems_loop _ _ _ _ Hi H) as (l9 & R9 & IH).
    apply evs_call. cbn [body]. unfold array_init. ev.
    eapply evs_then; [eapply (IH _ _ []); [eassumption|exact V]|]. cbn beta. intros s4 k4 A4 V4 _. ev.
    eapply (leave _ _ _ _ _ _ T); [eassumption|exact V4|exact I].
  Qed.
  Lemma p_array S es l l1 l' : v_in S = true -> reads (TPunct POpenBracket) l l1 -> Elems S l1 es l' -> X19 S l (EArray es) l'.
  Proof.
    intros Hi R H s k A V. unfold prim. ev.
    apply evs_call. cbn [body]. unfold primary_expression. ev.
    eapply evs_mono; [|eapply (evs_inh _ _ _ _ _ _ _ T (EArray es)); [exact A|]; intros s1 A1].
    { intros a s2 (-> & k2 & A2 & V2 & _). eapply leave; [eassumption|exact V2|apply flags_none; reflexivity]. }
    eapply (array_ok S); eauto.
  Qed.

  (** ** Array patterns, read as literals *)
  Definition kept (b : bool) (k : ctx) : Prop := c_assign_target k = true /\ (b = true -> c_binding_element k = true).
  Definition Xkeep (b : bool) (S : view) l e l' : Prop := expr_head 0 (hd_tok l) = true /\
    forall s k, At s l k -> view_of k = S -> follow (v_in S) 1 l' = true -> kept b k ->
    evs (Call CAssignmentExpr) s (leaves k l' (kept b) e).
  (** A target, or a pattern: what may stand before [=] in a pattern. *)
  Definition Xbase (b : bool) (S : view) l e l' : Prop := call_at l /\ @Ladder.X17 g (Some b) (in_ true S) l e l'
    /\ stands (Some b) e = true /\ (b = true -> names (Some b) e = true) /\ strict_target S e.
  Lemma kept_flags b e k k' : stands (Some b) e = true -> (b = true -> names (Some b) e = true) -> flags (Some b) e k k' -> kept b k -> kept b k'.
  Proof. intros H1 H2 [F1 F2] [K1 K2]. split; [auto|]. intros E. apply F2; auto. Qed.
  Lemma kept_opened b k : kept b (opened k).
  Proof. split; reflexivity. Qed.
  Lemma base_keeps b S l e l' : Xbase b S l e l' -> Xkeep b S l e l'.
  Proof.
    intros (Hh & H & H1 & H2 & _). split; [apply call_expr; [lia|apply Hh]|]. intros s k A V Hf Hk.
    apply evs_call. cbn [body]. unfold assignment_expr. ev.
    rewrite (not_yield 2 l (le_n _)), andb_false_r; [|apply call_expr; [lia|apply Hh]]. ev.
    eapply evs_then; [apply (up_cond g _ S l e l' H Hh); [exact A|exact V|]|].
    { eapply follow_up; [|exact Hf]. lia. }
    cbn beta. intros s1 k1 A1 V1 F1. ev. rewrite (at_calm _ _ _ _ A (proj2 Hh)). cbn [andb]. ev. rewrite (stands_plain _ _ H1).
    destruct (stop_1 _ _ Hf) as [-> ->]. cbn [orb]. ev. eapply leave; [exact A1|exact V1|]. eapply kept_flags; eauto.
  Qed.
  Lemma default_keeps b S l e l1 l2 d l' : Xbase b S l e l1 -> reads (TPunct PAssign) l1 l2 -> X1 S l2 d l' ->
    Xkeep b S l (EAssignment AEqual (ALExpr e) d) l'.
  Proof.
    intros (Hh & H & H1 & H2 & H3) R Hd. split; [apply call_expr; [lia|apply Hh]|]. intros s k A V Hf Hk.
    eapply evs_mono; [|eapply (assignment_keeps g (Some b)); [exact H|exact Hh|exact H1|exact H3| |exact R|exact Hd|exact A|exact V|exact Hf|apply Hk]].
    - intros x s1 (-> & k1 & A1 & V1 & F). eapply leave; [exact A1|exact V1|]. eapply kept_flags; eauto.
    - cbn. auto.
  Qed.
  Lemma keep_inh b S l e l' s k : Xkeep b S l e l' -> At s l k -> view_of k = S -> follow (v_in S) 1 l' = true -> kept b k ->
    evs (inheriting (Call CAssignmentExpr)) s (leaves k l' (kept b) e).
  Proof.
    intros [_ H] A V Hf [K1 K2]. eapply evs_inheriting; [exact A|]. intros s1 A1.
    eapply evs_mono; [|apply (H s1 _ A1 V Hf (kept_opened b k))].
    intros a s2 (-> & k2 & A2 & V2 & F1 & F2). exists l', k2. split; [exact A2|]. intros s3 A3. split; [reflexivity|].
    exists (inherited_of k k2). split; [exact A3|]. split; [exact V2|]. split; cbn.
    - rewrite F1, K1. reflexivity.
    - intros E. rewrite (F2 E), (K2 E). reflexivity.
  Qed.
  Lemma keep_spread b S l l1 e l' s k : reads (TPunct PSpread) l l1 -> Xkeep b S l1 e l' -> At s l k -> view_of k = S ->
    follow (v_in S) 1 l' = true -> kept b k -> evs (Call CSpreadElement) s (leaves k l' (kept b) (ESpread e)).
  Proof.
    intros R H A V Hf Hk. apply evs_call. cbn [body]. unfold spread_element. ev.
    eapply evs_then; [eapply (keep_inh b S); [exact H|eassumption|exact V|exact Hf|exact Hk]|].
    cbn beta. intros s9 k9 A9 V9 F9. ev. eapply leave; [eassumption|exact V9|exact F9].
  Qed.
  Inductive Telems (b : bool) (S : view) : list tk -> list (option Expr) -> list tk -> Prop :=
  | telems_none l l' : reads (TPunct PCloseBracket) l l' -> Telems b S l [] l'
  | telems_hole es l l1 l' : comma l l1 -> Telems b S l1 es l' -> Telems b S l (None :: es) l'
  | telems_last e l l1 l' : Xkeep b S l e l1 -> reads (TPunct PCloseBracket) l1 l' -> Telems b S l [Some e] l'
  | telems_more e es l l1 l2 l' : Xkeep b S l e l1 -> comma l1 l2 -> Telems b S l2 es l' -> Telems b S l (Some e :: es) l'
  | telems_rest e l l1 l2 l' : reads (TPunct PSpread) l l1 -> Xkeep b S l1 e l2 -> reads (TPunct PCloseBracket) l2 l' ->
      Telems b S l [Some (ESpread e)] l'.
  Lemma telems_loop b S l es l' : Telems b S l es l' -> exists l9, reads (TPunct PCloseBracket) l9 l' /\
    forall s k acc, At s l k -> view_of k = S -> kept b k -> evs (Loop acc array_loop) s (leaves k l9 (kept b) (acc ++ es)).
  Proof.
    induction 1 as [l l' R|es l l1 l' R Hs (l9 & R9 & IH)|e l l1 l' He R|e es l l1 l2 l' He R Hs (l9 & R9 & IH)|e l l1 l2 l' R He R2].
    - exists l. split; [exact R|]. intros s k acc A V K. apply evs_loop. unfold array_loop at 1. ev. rewrite app_nil_r.
      eapply leave; [eassumption|reflexivity|exact K].
    - exists l9. split; [exact R9|]. intros s k acc A V K. apply evs_loop. unfold array_loop at 1. ev.
      eapply evs_mono; [|eapply IH; [eassumption|exact V|exact K]].
      intros x s4 (-> & k4 & A4 & V4 & F4). rewrite <- app_assoc. eapply leave; [eassumption|congruence|exact F4].
    - exists l1. split; [exact R|]. intros s k acc A V K. apply evs_loop. unfold array_loop at 1. ev.
      rewrite (no_punct PCloseBracket) by (apply He || reflexivity). ev. rewrite (no_punct PComma) by (apply He || reflexivity). ev.
      rewrite (no_punct PSpread) by (apply He || reflexivity). ev.
      eapply evs_then; [eapply (keep_inh b S); [exact He|exact A|exact V|eapply follow_bracket; exact R|exact K]|].
      cbn beta. intros s1 k1 A1 V1 F1. ek. apply evs_loop. unfold array_loop at 1. ev. eapply leave; [eassumption|exact V1|exact F1].
    - exists l9. split; [exact R9|]. intros s k acc A V K. apply evs_loop. unfold array_loop at 1. ev.
      rewrite (no_punct PCloseBracket) by (apply He || reflexivity). ev. rewrite (no_punct PComma) by (apply He || reflexivity). ev.
      rewrite (no_punct PSpread) by (apply He || reflexivity). ev.
      eapply evs_then; [eapply (keep_inh b S); [exact He|exact A|exact V|eapply follow_comma; exact R|exact K]|].
      cbn beta. intros s1 k1 A1 V1 F1. ek. eapply evs_mono; [|eapply IH; [eassumption|congruence|exact F1]].
      intros x s4 (-> & k4 & A4 & V4 & F4). rewrite <- app_assoc. eapply leave; [eassumption|congruence|exact F4].
    - exists l2. split; [exact R2|]. intros s k acc A V K. apply evs_loop. unfold array_loop at 1. ek.
      eapply evs_then; [eapply (keep_spread b S); [exact R|exact He|exact A|exact V|eapply follow_bracket; exact R2|exact K]|].
      cbn beta. intros s1 k1 A1 V1 F1. ek. apply evs_loop. unfold array_loop at 1. ev. eapply leave; [eassumption|exact V1|exact F1].
  Qed.
  Lemma target_array b S es l l1 l' : reads (TPunct POpenBracket) l l1 -> Telems b S l1 es l' -> @Ladder.X19 g (Some b) S l (EArray es) l'.
  Proof.
    intros R H s k A V. destruct (telems_loop _ _ _ _ _ H) as (l9 & R9 & IH). unfold prim. ev.
    apply evs_call. cbn [body]. unfold primary_expression. ev.
    eapply evs_inh_e; [exact A|]. intros s1 A1. apply evs_call. cbn [body]. unfold array_init. ev.
    eapply evs_then; [eapply (IH _ _ []); [eassumption|exact V|apply kept_opened]|]. cbn beta. intros s4 k4 A4 V4 [F1 F2]. ev.
    eapply leave; [eassumption|exact V4|]. split; cbn; auto.
  Qed.

  (** *** [new] *)
  Lemma p_new S e es l l1 l2 l3 l' : v_in S = true -> reads (TKeyword KNew) l l1 -> primary_head (hd_tok l1) = true -> X18 S l1 e l2 ->
    reads (TPunct POpenParen) l2 l3 -> Xargs g S l3 es l' -> X19 S l (ENew e es) l'.
  Proof.
    intros Hi R Hh H R2 Ha s k A V. unfold prim. ev. apply evs_call. cbn [body]. unfold new_expr. ev.
    replace (is_punct PPeriod (hd_tok l1)) with false by (destruct (hd_tok l1) as [| | | | | | |[]|[]|[]|]; try discriminate; reflexivity).
    ev. replace (is_keyword KImport (hd_tok l1)) with false by (destruct (hd_tok l1) as [| | | | | | |[]|[]|[]|]; try discriminate; reflexivity).
    apply evs_bind. eapply evs_then; [eapply (evs_iso _ _ _ _ _ _ l2 T e); [eassumption|]; intros s1 A1|].
    - apply evs_call. cbn [body]. unfold left_hand_side_expr. ev.
      replace (is_keyword KSuper (hd_tok l1)) with false by (destruct (hd_tok l1) as [| | | | | | |[]|[]|[]|]; try discriminate; reflexivity).
      cbn [andb]. cbn iota. apply evs_bind_inv. eapply H; [exact A1|exact V|]. intros s2 k2 A2 V2.
      apply evs_loop. unfold chain18. ev. eapply leave; [eassumption|rewrite V2; symmetry; exact V|exact I].
    - cbn beta. intros s1 k1 A1 V1 _. ev. eapply evs_then; [eapply Ha; [eassumption|congruence|eassumption]|].
      cbn beta. intros s3 k3 A3 V3 _. ev. eapply leave; [eassumption|change (view_of k3 = view_of k); congruence|apply flags_none; reflexivity].
  Qed.
  Lemma p_new_bare S e l l1 l' : v_in S = true -> reads (TKeyword KNew) l l1 -> primary_head (hd_tok l1) = true -> X18 S l1 e l' ->
    follow true 17 l' = true -> hd_tok l' <> TTemplate TBody -> hd_tok l' <> TTemplate TTail -> X19 S l (ENew e []) l'.
  Proof.
    intros Hi R Hh H Hf Hm Ht s k A V. unfold prim. ev. apply evs_call. cbn [body]. unfold new_expr. ev.
    replace (is_punct PPeriod (hd_tok l1)) with false by (destruct (hd_tok l1) as [| | | | | | |[]|[]|[]|]; try discriminate; reflexivity).
    ev. replace (is_keyword KImport (hd_tok l1)) with false by (destruct (hd_tok l1) as [| | | | | | |[]|[]|[]|]; try discriminate; reflexivity).
    assert (Ho : is_punct POpenBracket (hd_tok l') = false /\ is_punct PPeriod (hd_tok l') = false /\ is_template (hd_tok l') = false
                 /\ is_punct POpenParen (hd_tok l') = false).
    { unfold follow, goes_on in Hf. destruct (hd_tok l') as [| | | | | | |[]|[]|[]|]; try discriminate Hf; try congruence; auto. }
    destruct Ho as (Ho1 & Ho2 & Ho3 & Ho4).
    apply evs_bind. eapply evs_then; [eapply (evs_iso _ _ _ _ _ _ l' T e); [eassumption|]; intros s1 A1|].
    - apply evs_call. cbn [body]. unfold left_hand_side_expr. ev.
      replace (is_keyword KSuper (hd_tok l1)) with false by (destruct (hd_tok l1) as [| | | | | | |[]|[]|[]|]; try discriminate; reflexivity).
      cbn [andb]. cbn iota. apply evs_bind_inv. eapply H; [exact A1|exact V|]. intros s2 k2 A2 V2.
      apply evs_loop. unfold chain18. ev. rewrite Ho1. cbn iota. rewrite Ho2. cbn iota. rewrite Ho3. ev.
      eapply leave; [eassumption|rewrite V2; symmetry; exact V|exact I].
    - cbn beta. intros s1 k1 A1 V1 _. ev. rewrite Ho4. ev.
      eapply leave; [eassumption|change (view_of k1 = view_of k); congruence|apply flags_none; reflexivity].
  Qed.
  Lemma p_new_target S l l1 l2 l' : v_fn S = true -> reads (TKeyword KNew) l l1 -> reads (TPunct PPeriod) l1 l2 ->
    reads_as TIdent (str "target") l2 l' -> X19 S l (EMetaProperty (str "new") (str "target")) l'.
  Proof.
    intros Hfn R R1 R2 s k A V. unfold prim. ev. apply evs_call. cbn [body]. unfold new_expr. ev.
    rewrite (proj2 (reads_as_hd _ _ _ _ R2)), (proj2 (text_eqb_eq _ _) eq_refl).
    replace (c_in_function_body k) with true by (subst S; symmetry; exact Hfn). cbn [andb]. ev.
    eapply evs_then; [eapply evs_ident_name; eassumption|]. cbn beta. intros s3 k3 A3 V3 ->. ev.
    eapply leave; [eassumption|reflexivity|apply flags_none; reflexivity].
  Qed.

  (** *** Parentheses *)
  Definition group_loop : list Expr -> P (list Expr + (Expr + Expr)) := fun exprs =>
           t <- look_tok ;;
           if is_eof t then Ret (inr (inr (ESequence exprs)))
           else if negb (is_punct PComma t) then Ret (inr (inr (ESequence exprs)))
           else
             next ;;
             ifM at_punct PCloseParen then
               next ;;
               Ret (inr (inl (EArrowParamPlaceHolder (map FAExpr exprs) false)))
             else ifM at_punct PSpread then
               b <- get c_binding_element ;;
               if negb b then fail_look ["not ..."%string]
               else
                 '(_, rest) <- Call CRestElement ;;
                 expect_punct PCloseParen ;;
                 Ret (inr (inl (EArrowParamPlaceHolder (map FAExpr exprs ++ [FAPat rest]) false)))
             else
               e <- inheriting (Call CAssignmentExpr) ;;
               Ret (inl (exprs ++ [e])).
  Lemma group_commas S l es l' : Commas S l es l' -> forall l9, reads (TPunct PCloseParen) l' l9 -> forall s k acc l0, At s l0 k -> view_of k = S ->
    comma l0 l -> evs (Loop acc group_loop) s (leaves k l' T (inr (ESequence (acc ++ es)))).
  Proof.
    induction 1 as [e l l' Hh H|e es l l1 l2 l' Hh H R1 Hs IH]; intros l9 R9 s k acc l0 A V R.
    - apply evs_loop. unfold group_loop at 1. ev.
      rewrite (no_punct PCloseParen) by (assumption || reflexivity). ev.
      rewrite (no_punct PSpread) by (assumption || reflexivity). apply evs_bind.
      eapply evs_then; [eapply evs_inh; [eassumption|]; intros s9 A9; apply H; [exact A9|exact V|eapply follow_close; eassumption|reflexivity]|].
      cbn beta. intros s9 k9 A9 V9 F9. ev. apply evs_loop. unfold group_loop at 1. ek.
      eapply leave; [eassumption|exact V9|exact I].
    - apply evs_loop. unfold group_loop at 1. ev.
      rewrite (no_punct PCloseParen) by (assumption || reflexivity). ev.
      rewrite (no_punct PSpread) by (assumption || reflexivity). apply evs_bind.
      eapply evs_then; [eapply evs_inh; [eassumption|]; intros s9 A9; apply H; [exact A9|exact V|eapply follow_comma; eassumption|reflexivity]|].
      cbn beta. intros s9 k9 A9 V9 F9. ev.
      eapply evs_mono; [|eapply (IH _ R9); [eassumption|congruence|eassumption]].
      intros x s10 (-> & k10 & A10 & V10 & _). rewrite <- app_assoc. eapply leave; [eassumption|congruence|exact I].
  Qed.
  Lemma group_enter l l1 s k e l' : reads (TPunct POpenParen) l l1 -> At s l k ->
    (forall s1, At s1 l (opened k) -> evs (Call CGroupExpr) s1 (leaves (opened k) l' (flags None e (opened k)) e)) ->
    evs prim s (leaves k l' (flags None e k) e).
  Proof.
    intros R A H. unfold prim. ev. apply evs_call. cbn [body]. unfold primary_expression. ev. eapply evs_inh_e; eauto.
  Qed.
  Lemma p_paren S es l l1 l2 l' : reads (TPunct POpenParen) l l1 -> Commas S l1 es l2 -> reads (TPunct PCloseParen) l2 l' ->
    hd_tok l' <> TPunct PFatArrow -> X19 S l (sequence es) l'.
  Proof.
    intros R H R2 Hn s k A V. eapply group_enter; eauto. intros s1 A1. apply evs_call. cbn [body]. unfold group_expr.
    pose proof (commas_head _ _ _ _ _ H) as Hh.
    assert (N : is_punct PFatArrow (hd_tok l') = false) by (apply not_true_iff_false; intros C; apply is_punct_tok in C; contradiction).
    ev. rewrite (no_punct PCloseParen) by (assumption || reflexivity). ev.
    rewrite (no_punct PSpread) by (assumption || reflexivity). ev.
    destruct H as [e l1 l2 _ H|e es l1 l3 l4 l2 _ H R3 Hs].
    - eapply evs_then; [eapply evs_inh_e; [eassumption|]; intros s9 A9; apply H; [exact A9|exact V|eapply follow_close; eassumption|reflexivity]|].
      cbn beta. intros s9 k9 A9 V9 F9. ek. rewrite N. ev. eapply leave; [eassumption|exact V9|exact F9].
    - eapply evs_then; [eapply evs_inh; [eassumption|]; intros s9 A9; apply H; [exact A9|exact V|eapply follow_comma; eassumption|reflexivity]|].
      cbn beta. intros s9 k9 A9 V9 _. ek.
      eapply evs_then; [eapply (group_commas _ _ _ _ Hs _ R2); [eassumption|rewrite V9; exact V|eassumption]|].
      cbn beta iota. intros s10 k10 A10 V10 _. ek. rewrite N. ev. replace (sequence (e :: es)) with (ESequence (e :: es)).
      + eapply leave; [eassumption|rewrite V10; exact V9|]. apply flags_none; reflexivity.
      + destruct Hs; reflexivity.
  Qed.
End Primary.
