(** [for] statements and whole programs. *)
From Verif Require Export Stmts.
Local Open Scope nat_scope.
Local Open Scope list_scope.

Section Loops.
  Variable g : cfg.
  Notation evs := (evs g).
  Notation At := (At g).
  Notation leaves := (leaves g).
  Notation T := (fun _ : ctx => True).
  Notation X17 := (@X17 g None).
  Notation X1 := (@X1 g None).
  Notation X0 := (@Xcall g None CExpression 0).
  Notation Xpat := (Xpat g).
  Notation Xrun := (Xrun g).
  Notation Xstmt := (Xrun (Call CStatement)).
  Ltac finish := eapply leave; [eassumption|congruence|exact I].

  (** ** The parts of a [for] *)
  Lemma loop_ok S t l l1 l' : reads (TPunct PCloseParen) l l1 -> Xstmt S l1 t l' -> Xrun (Call CLoopBody) S l t l'.
  Proof.
    intros R H s k A V. apply evs_call. cbn [body]. unfold loop_body. ev.
    eapply evs_then; [eapply evs_iso; [eassumption|]; intros s9 A9; apply H; [exact A9|exact V]|]. cbn beta. intros s9 k9 A9 V9 _. ev.
    eapply leave; [eassumption|subst S; vws|exact I].
  Qed.
  Definition Xopt (S : view) l (o : option Expr) l' : Prop :=
    (o = None /\ l' = l) \/ exists e, o = Some e /\ expr_head 0 (hd_tok l) = true /\ X0 S l e l'.
  Lemma opt_ok p S l o l' : v_in S = true -> Xopt S l o l' -> hd_tok l' = TPunct p -> expr_head 0 (TPunct p) = false -> follow true 0 l' = true ->
    Xrun (ifM at_punct p then Ret None else e <- Call CExpression ;; Ret (Some e)) S l o l'.
  Proof.
    intros Hi H E Hp Hf s k A V. ev. destruct H as [(-> & ->)|(e & -> & Hh & H)].
    - rewrite E, is_punct_same. ev. finish.
    - rewrite (no_punct p) by assumption. ev.
      eapply evs_then; [eapply (expr_ok g S); [exact Hi|exact H|exact Hf|eassumption|exact V]|]. cbn beta. intros s2 k2 A2 V2 _. ev. finish.
  Qed.
  Lemma cont_ok S i c u t l l1 l2 l3 l4 l' : v_in S = true -> reads (TPunct PSemiColon) l l1 -> Xopt S l1 c l2 -> reads (TPunct PSemiColon) l2 l3 ->
    Xopt S l3 u l4 -> hd_tok l4 = TPunct PCloseParen -> Xrun (Call CLoopBody) S l4 t l' -> Xrun (Call (CForLoopCont i)) S l (SFor i c u t) l'.
  Proof.
    intros Hi R Hc R2 Hu Hp Ht s k A V. apply evs_call. cbn [body]. unfold for_loop_cont.
    ev1. ev1. cbn beta. apply evs_bind.
    eapply evs_then; [eapply (opt_ok PSemiColon S); [exact Hi|exact Hc|eapply reads_hd; exact R2|reflexivity|eapply follow_semi; exact R2|eassumption|exact V]|].
    cbn beta. intros s2 k2 A2 V2 _. ev1. ev1. cbn beta. apply evs_bind.
    eapply evs_then; [eapply (opt_ok PCloseParen S); [exact Hi|exact Hu|exact Hp|reflexivity|unfold follow, goes_on; rewrite Hp; reflexivity|eassumption|congruence]|].
    cbn beta. intros s3 k3 A3 V3 _. ev.
    eapply evs_then; [eapply Ht; [eassumption|congruence]|]. cbn beta. intros s4 k4 A4 V4 _. ev. finish.
  Qed.
  Lemma in_ok S x e t l l1 l2 l' : v_in S = true -> reads (TKeyword KIn) l l1 -> X0 S l1 e l2 -> hd_tok l2 = TPunct PCloseParen ->
    Xrun (Call CLoopBody) S l2 t l' -> Xrun (for_in_loop x) S l (SForIn x e t) l'.
  Proof.
    intros Hi R H Hp Ht s k A V. unfold for_in_loop. ev.
    eapply evs_then; [eapply (expr_ok g S); [exact Hi|exact H|unfold follow, goes_on; rewrite Hp; reflexivity|eassumption|exact V]|]. cbn beta. intros s2 k2 A2 V2 _. ev.
    eapply evs_then; [eapply Ht; [eassumption|congruence]|]. cbn beta. intros s4 k4 A4 V4 _. ev. finish.
  Qed.
  Lemma of_ok S (aw : bool) x e t l l1 l2 l' : reads_as TIdent (str "of") l l1 -> X1 S l1 e l2 -> assigns e = false -> hd_tok l2 = TPunct PCloseParen ->
    Xrun (Call CLoopBody) S l2 t l' -> Xrun (for_of_loop x aw) S l (SForOf x e t aw) l'.
  Proof.
    intros R H Ha Hp Ht s k A V. unfold for_of_loop. ev.
    eapply evs_then; [eapply H; [eassumption|exact V|unfold follow, goes_on; rewrite Hp; reflexivity|congruence]|]. cbn beta. intros s2 k2 A2 V2 _. ev.
    eapply evs_then; [eapply Ht; [eassumption|congruence]|]. cbn beta. intros s4 k4 A4 V4 _. ev. finish.
  Qed.

  (** ** The head of a [for] *)
  (** lib.rs:1207-1349, from after the opening parenthesis; [aw]: the word [await] was read. *)
  Definition for_tail (aw : bool) : P Stmt :=
    t <- look_tok ;;
    if is_punct PSemiColon t then Call (CForLoop VVar)
    else if is_keyword KVar t then
      next ;;
      prev_in <- get c_allow_in ;;
      upd (set_allow_in false) ;;
      bindings <- Call (CVariableDeclList true) ;;
      upd (set_allow_in prev_in) ;;
      match bindings with
      | [decl] =>
          ifM at_keyword KIn then Call (CForInLoop (LLVariable VVar decl))
          else ifM at_contextual "of" then Call (CForOfLoop (LLVariable VVar decl) aw)
          else Call (CForLoopCont (Some (LIVariable VVar [decl])))
      | _ => Call (CForLoopCont (Some (LIVariable VVar bindings)))
      end
    else if is_keyword KConst t || is_keyword KLet t then
      ki <- next ;;
      kind <-
        (match it_tok ki with
         | TKeyword KConst => Ret VConst
         | TKeyword KLet => Ret VLet
         | TKeyword _ => Crash
         | _ => Fail (FExpected ki ["const"%string; "let"%string])
         end) ;;
      strict <- get c_strict ;;
      t2 <- look_tok ;;
      if negb strict && is_keyword KIn t2 then
        next ;;
        let k := match kind with VVar => str "var" | VLet => str "let" | VConst => str "const" end in
        right <- Call CExpression ;;
        b <- Call CLoopBody ;;
        Ret (SForIn (LLExpr (EIdent k)) right b)
      else
        prev_in <- get c_allow_in ;;
        upd (set_allow_in false) ;;
        decls <- Call (CBindingList kind true) ;;
        upd (set_allow_in prev_in) ;;
        match decls with
        | [mkVarDecl id init as decl] =>
            let no_init := match init with None => true | Some _ => false end in
            i <- at_keyword KIn ;;
            if no_init && i then
              next ;;
              right <- Call CExpression ;;
              b <- Call CLoopBody ;;
              Ret (SForIn (LLVariable kind decl) right b)
            else
              o <- (if no_init then at_contextual "of" else Ret false) ;;
              if o then Call (CForOfLoop (LLVariable kind decl) aw)
              else Call (CForLoopCont (Some (LIVariable kind [decl])))
        | _ => Call (CForLoopCont (Some (LIVariable kind decls)))
        end
    else
      prev_in <- get c_allow_in ;;
      upd (set_allow_in false) ;;
      init <- inheriting (Call CAssignmentExpr) ;;
      upd (set_allow_in prev_in) ;;
      ifM at_keyword KIn then
        next ;;
        right <- Call CExpression ;;
        b <- Call CLoopBody ;;
        Ret (SForIn (LLExpr init) right b)
      else ifM at_contextual "of" then
        next ;;
        right <- Call CAssignmentExpr ;;
        b <- Call CLoopBody ;;
        Ret (SForOf (LLExpr init) right b aw)
      else
        li <-
          (ifM at_punct PComma then
             seq <- Loop [init] (fun seq =>
               ifM at_punct PComma then
                 next ;;
                 e <- inheriting (Call CAssignmentExpr) ;;
                 Ret (inl (seq ++ [e]))
               else Ret (inr seq)) ;;
             Ret (LIExpr (ESequence seq))
           else Ret (LIExpr init)) ;;
        Call (CForLoopCont (Some li)).
  Lemma for_enter S (aw : bool) t l l0 l1 l2 l' : reads (TKeyword KFor) l l0 -> (if aw then reads (TKeyword KAwait) l0 l1 else l1 = l0) ->
    reads (TPunct POpenParen) l1 l2 -> Xrun (for_tail aw) S l2 t l' -> Xstmt S l t l'.
  Proof.
    intros R R1 R2 H s k A V. apply evs_call. cbn [body]. unfold statement. ev. apply evs_call. cbn [body]. unfold for_stmt.
    do 2 ev1. cbn beta. do 3 ev1. cbn beta. destruct aw; [|subst l1]; ev_known; ev_bool; cbn iota; ev1.
    - ev1. cbn beta. ev1. cbn beta. do 2 ev1. cbn beta. eapply H; [eassumption|exact V].
    - do 2 ev1. cbn beta. eapply H; [eassumption|exact V].
  Qed.
  (** The initialisation is [i], to the first semicolon. *)
  Definition Xinit (S : view) l i l' : Prop := forall aw s k Q, At s l k -> view_of k = S -> hd_tok l' = TPunct PSemiColon ->
    (forall s' k', At s' l' k' -> view_of k' = S -> evs (Call (CForLoopCont i)) s' Q) -> evs (for_tail aw) s Q.
  (** What is assigned to is [x], to [in] or [of]. *)
  Definition Xleft (S : view) l x l' : Prop := forall aw s k Q, At s l k -> view_of k = S ->
    (hd_tok l' = TKeyword KIn /\ (forall s' k', At s' l' k' -> view_of k' = S -> evs (for_in_loop x) s' Q)
     \/ hd_tok l' = TIdent /\ hd_text l' = str "of" /\ (forall s' k', At s' l' k' -> view_of k' = S -> evs (for_of_loop x aw) s' Q)) ->
    evs (for_tail aw) s Q.
  Lemma text_eqb_refl w : text_eqb w w = true.
  Proof. apply text_eqb_eq. reflexivity. Qed.
  Lemma semi_not_of s l k : At s l k -> hd_tok l = TPunct PSemiColon -> text_eqb (hd_text l) (str "of") = false.
  Proof. intros A E. eapply at_word; [exact A|rewrite E; discriminate|cbn; tauto]. Qed.
  Lemma semi_follow i n l : hd_tok l = TPunct PSemiColon -> follow i n l = true.
  Proof. intros E. unfold follow, goes_on. rewrite E. reflexivity. Qed.

  Lemma init_none S l : Xinit S l None l.
  Proof.
    intros aw s k Q A V E H. unfold for_tail. ev. apply evs_call. cbn [body]. unfold for_loop. ev. eapply H; eauto.
  Qed.
  Lemma init_var S vs l l1 l' : v_in S = true -> reads (TKeyword KVar) l l1 -> Vars g VVar true (in_ false S) l1 vs l' -> Xinit S l (Some (LIVariable VVar vs)) l'.
  Proof.
    intros Hi R H aw s k Q A V E HQ. unfold for_tail. ev.
    eapply evs_then; [eapply (proj2 (var_list g (in_ false S) true vs l1 l' H (semi_follow _ _ _ E))); [eassumption|subst S; reflexivity]|].
    cbn beta. intros s5 k5 A5 V5 _. ev.
    assert (V6 : view_of (set_allow_in (c_allow_in k) k5) = S).
    { transitivity (in_ (c_allow_in k) (view_of k5)); [reflexivity|]. rewrite V5. subst S. reflexivity. }
    destruct vs as [|v [|v2 vs]]; [eapply HQ; eauto| |eapply HQ; eauto].
    ev. rewrite (semi_not_of _ _ _ A5 E). eapply HQ; eauto.
  Qed.
  Lemma init_lexical S kw kind vs l l1 l' : kw = KLet /\ kind = VLet \/ kw = KConst /\ kind = VConst -> v_in S = true -> reads (TKeyword kw) l l1 ->
    pat_head (hd_tok l1) = true -> Vars g kind true (in_ false S) l1 vs l' -> Xinit S l (Some (LIVariable kind vs)) l'.
  Proof.
    intros Hk Hi R Hh H aw s k Q A V E HQ.
    assert (N : is_keyword KIn (hd_tok l1) = false) by (destruct (hd_tok l1) as [| | | | | | |[]|[]|[]|]; try discriminate Hh; reflexivity).
    assert (Hv : kind <> VVar) by (destruct Hk as [[_ ->]|[_ ->]]; discriminate).
    unfold for_tail. ev1. ev1. destruct Hk as [[-> ->]|[-> ->]]; ek; rewrite N, andb_false_r; ev;
      (eapply evs_then; [eapply (binding_list_ok g (in_ false S) _ true vs l1 l' Hv H (semi_follow _ _ _ E)); [eassumption|subst S; reflexivity]|]);
      cbn beta; intros s5 k5 A5 V5 _; ev;
      (assert (V6 : view_of (set_allow_in (c_allow_in k) k5) = S);
       [transitivity (in_ (c_allow_in k) (view_of k5)); [reflexivity|]; rewrite V5; subst S; reflexivity|]);
      (destruct vs as [|[x o] [|v2 vs]]; [eapply HQ; eauto| |eapply HQ; eauto]);
      ev; rewrite andb_false_r; ev; destruct o; ev; rewrite ?(semi_not_of _ _ _ A5 E); (eapply HQ; eauto).
  Qed.
  Lemma for_head_not l : expr_head 0 (hd_tok l) = true -> is_punct PSemiColon (hd_tok l) = false /\ is_keyword KVar (hd_tok l) = false
    /\ is_keyword KConst (hd_tok l) = false /\ is_keyword KLet (hd_tok l) = false.
  Proof. intros Hh. destruct (hd_tok l) as [| | | | | | |[]|[]|[]|]; try discriminate Hh; auto. Qed.
  Definition init_step (seq : list Expr) : P (list Expr + list Expr) :=
    ifM at_punct PComma then
      next ;;
      e <- inheriting (Call CAssignmentExpr) ;;
      Ret (inl (seq ++ [e]))
    else Ret (inr seq).
  Lemma init_loop S l es l' : Commas g S l es l' -> hd_tok l' = TPunct PSemiColon -> forall s k acc l0, At s l0 k -> view_of k = S -> comma l0 l ->
    evs (Loop acc init_step) s (leaves k l' T (acc ++ es)).
  Proof.
    intros H E. induction H as [e l l' Hh He|e es l l1 l2 l' Hh He R H IH]; intros s k acc l0 A V Rc; apply evs_loop; unfold init_step at 1; ev.
    - eapply evs_then; [eapply evs_inh_e; [eassumption|]; intros s9 A9; apply He; [exact A9|exact V|apply semi_follow; exact E|reflexivity]|]. cbn beta.
      intros s9 k9 A9 V9 _. ev. apply evs_loop. unfold init_step at 1. ev. finish.
    - eapply evs_then; [eapply evs_inh_e; [eassumption|]; intros s9 A9; apply He; [exact A9|exact V|eapply follow_comma; exact R|reflexivity]|]. cbn beta.
      intros s9 k9 A9 V9 _. ev. eapply evs_mono; [|eapply (IH E); [eassumption|congruence|exact R]]. intros y s4 (-> & k4 & A4 & V4 & _). rewrite <- app_assoc. finish.
  Qed.
  (** Every expression of the list is read alike whether [in] is allowed or not. *)
  Inductive Both (S : view) : list tk -> list Expr -> list tk -> Prop :=
  | both_one e l l' : expr_head 0 (hd_tok l) = true -> X1 S l e l' -> X1 (in_ true S) l e l' -> Both S l [e] l'
  | both_more e es l l1 l2 l' : expr_head 0 (hd_tok l) = true -> X1 S l e l1 -> X1 (in_ true S) l e l1 -> comma l1 l2 -> Both S l2 es l' -> Both S l (e :: es) l'.
  Lemma both_commas S l es l' : Both S l es l' -> Commas g S l es l' /\ Commas g (in_ true S) l es l'.
  Proof. induction 1 as [|? ? ? ? ? ? ? ? ? ? ? [? ?]]; split; econstructor; eauto. Qed.
  Lemma init_expr S es l l' : v_in S = true -> Both (in_ false S) l es l' -> Xinit S l (Some (LIExpr (sequence es))) l'.
  Proof.
    intros Hi H aw s k Q A V E HQ. unfold for_tail. ev. pose proof (commas_head _ _ _ _ _ (proj1 (both_commas _ _ _ _ H))) as Hh.
    destruct (for_head_not _ Hh) as (-> & -> & -> & ->). cbn [orb]. ev.
    destruct H as [e l l' _ He _|e es l l1 l2 l' _ He _ R H].
    - eapply evs_then; [eapply evs_inh_e; [eassumption|]; intros s9 A9; apply He; [exact A9|subst S; reflexivity|apply semi_follow; exact E|reflexivity]|]. cbn beta.
      intros s9 k9 A9 V9 _. ev. rewrite (semi_not_of _ _ _ A9 E). ev. eapply HQ; [eassumption|].
      transitivity (in_ (c_allow_in k) (view_of k9)); [reflexivity|]. rewrite V9. subst S. reflexivity.
    - eapply evs_then; [eapply evs_inh_e; [eassumption|]; intros s9 A9; apply He; [exact A9|subst S; reflexivity|eapply follow_comma; exact R|reflexivity]|]. cbn beta.
      intros s9 k9 A9 V9 _. ev. rewrite (not_of _ _ _ _ _ _ A9 R) by discriminate. ev.
      assert (V6 : view_of (set_allow_in (c_allow_in k) k9) = S).
      { transitivity (in_ (c_allow_in k) (view_of k9)); [reflexivity|]. rewrite V9. subst S. reflexivity. }
      eapply evs_then; [eapply (init_loop S l2 es l'); [rewrite <- (in_back S Hi); apply both_commas; exact H|exact E|eassumption|exact V6|exact R]|].
      cbn beta. intros s7 k7 A7 V7 _. ev. replace (sequence (e :: es)) with (ESequence ([e] ++ es)) in HQ by (destruct H; reflexivity).
      eapply HQ; [eassumption|congruence].
  Qed.
  Lemma left_var S x l l1 l' : v_in S = true -> reads (TKeyword KVar) l l1 -> Xpat (in_ false S) l1 x l' -> pat_ok S x ->
    Xleft S l (LLVariable VVar (mkVarDecl x None)) l'.
  Proof.
    intros Hi R (r & _ & Hp) Hok aw s k Q A V HQ. unfold for_tail. ev. apply evs_call. cbn [body]. unfold variable_decl_list, comma_list. ev.
    apply evs_call. cbn [body]. unfold variable_decl. ev.
    eapply evs_then; [apply Hp; [eassumption|subst S; reflexivity]|]. cbn beta iota. intros s5 k5 A5 V5 _. ev.
    rewrite if_both by (intros E; apply Hok; rewrite <- E; change (v_strict S = v_strict (view_of k5)); rewrite V5; subst S; reflexivity). ev.
    assert (V6 : view_of (set_allow_in (c_allow_in k) k5) = S).
    { transitivity (in_ (c_allow_in k) (view_of k5)); [reflexivity|]. rewrite V5. subst S. reflexivity. }
    destruct HQ as [(E & HQ)|(E & Ew & HQ)]; ek; rewrite ?andb_false_r; cbn [andb]; ev; apply evs_loop; ev.
    - apply evs_call. cbn [body]. eapply HQ; eauto.
    - rewrite Ew, text_eqb_refl. apply evs_call. cbn [body]. eapply HQ; eauto.
  Qed.
  Lemma left_lexical S kw kind x l l1 l' : kw = KLet /\ kind = VLet \/ kw = KConst /\ kind = VConst -> v_in S = true -> reads (TKeyword kw) l l1 ->
    pat_head (hd_tok l1) = true -> Xpat (in_ false S) l1 x l' -> pat_ok S x -> Xleft S l (LLVariable kind (mkVarDecl x None)) l'.
  Proof.
    intros Hk Hi R Hh (r & _ & Hp) Hok aw s k Q A V HQ.
    assert (N : is_keyword KIn (hd_tok l1) = false) by (destruct (hd_tok l1) as [| | | | | | |[]|[]|[]|]; try discriminate Hh; reflexivity).
    unfold for_tail. ev1. ev1. destruct Hk as [[-> ->]|[-> ->]]; ek; rewrite N, andb_false_r; ev; apply evs_call; cbn [body]; unfold binding_list, comma_list; ev;
      apply evs_call; cbn [body]; unfold lexical_binding; ev;
      (eapply evs_then; [apply Hp; [eassumption|subst S; reflexivity]|]); cbn beta iota; intros s5 k5 A5 V5 _; ev;
      (rewrite if_both by (intros E; apply Hok; rewrite <- E; change (v_strict S = v_strict (view_of k5)); rewrite V5; subst S; reflexivity)); ev;
      (assert (V6 : view_of (set_allow_in (c_allow_in k) k5) = S);
       [transitivity (in_ (c_allow_in k) (view_of k5)); [reflexivity|]; rewrite V5; subst S; reflexivity|]);
      destruct HQ as [(E & HQ)|(E & Ew & HQ)]; ek; rewrite ?Ew, ?text_eqb_refl; cbn [orb andb negb]; ev; apply evs_loop; ev; cbn [andb]; ev;
      rewrite ?Ew, ?text_eqb_refl; try (apply evs_call; cbn [body]);
      first [eapply HQ; [eassumption|exact V6]|eapply (evs_bind_inv g _ _ _ _ _ _ (HQ _ _ ltac:(eassumption) V6))].
  Qed.
  Lemma left_expr S e l l' : v_in S = true -> X17 S l e l' -> call_at l -> length l' < length l -> is_target e = true -> Xleft S l (LLExpr e) l'.
  Proof.
    intros Hi H [Hh Hca] Hl Ht aw s k Q A V HQ. unfold for_tail. ev.
    assert (Hh0 : expr_head 0 (hd_tok l) = true) by (apply call_expr; [lia|exact Hh]).
    destruct (for_head_not _ Hh0) as (-> & -> & -> & ->). cbn [orb]. ev.
    assert (Hf : follow false 1 l' = true) by (unfold follow, goes_on; destruct HQ as [(E & _)|(E & _)]; rewrite E; reflexivity).
    assert (Hx : X1 (in_ false S) l e l').
    { apply up_1_calm; [intros s8 k8 A8 V8 F8; eapply up_cond; eauto; [rewrite (in_back S Hi); exact H|split; assumption|eapply follow_up; [|exact F8]; lia]
        |apply call_expr; [lia|exact Hh]|destruct e; try discriminate Ht; reflexivity|exact Hl|exact Hca]. }
    eapply evs_then; [eapply evs_inh_e; [eassumption|]; intros s9 A9; apply Hx; [exact A9|subst S; reflexivity|exact Hf|reflexivity]|]. cbn beta.
    intros s5 k5 A5 V5 _. ev.
    assert (V6 : view_of (set_allow_in (c_allow_in k) k5) = S).
    { transitivity (in_ (c_allow_in k) (view_of k5)); [reflexivity|]. rewrite V5. subst S. reflexivity. }
    destruct HQ as [(E & HQ)|(E & Ew & HQ)]; ek; rewrite ?Ew, ?text_eqb_refl; ev;
      (eapply (evs_bind_inv g _ _ _ _ _ _ (HQ _ _ ltac:(eassumption) V6))).
  Qed.

  Lemma left_pattern S e l l' : v_in S = true -> Xkeep g false (in_ false S) l e l' -> is_target e = false -> Xleft S l (LLExpr e) l'.
  Proof.
    intros Hi [Hh0 Hx] Hn aw s k Q A V HQ. unfold for_tail. ev.
    destruct (for_head_not _ Hh0) as (-> & -> & -> & ->). cbn [orb]. ev.
    assert (Hf : follow false 1 l' = true) by (unfold follow, goes_on; destruct HQ as [(E & _)|(E & _)]; rewrite E; reflexivity).
    eapply evs_then; [eapply evs_inh; [eassumption|]; intros s9 A9; apply Hx; [exact A9|subst S; reflexivity|exact Hf|apply kept_opened]|]. cbn beta.
    intros s5 k5 A5 V5 _. ev.
    assert (V6 : view_of (set_allow_in (c_allow_in k) k5) = S).
    { transitivity (in_ (c_allow_in k) (view_of k5)); [reflexivity|]. rewrite V5. subst S. reflexivity. }
    destruct HQ as [(E & HQ)|(E & Ew & HQ)]; ek; rewrite ?Ew, ?text_eqb_refl; ev;
      (eapply (evs_bind_inv g _ _ _ _ _ _ (HQ _ _ ltac:(eassumption) V6))).
  Qed.

  (** ** The statements *)
  Lemma stmt_for S i c u t l l1 l2 l3 l4 l5 l6 l7 l' : v_in S = true -> reads (TKeyword KFor) l l1 -> reads (TPunct POpenParen) l1 l2 -> Xinit S l2 i l3 ->
    reads (TPunct PSemiColon) l3 l4 -> Xopt S l4 c l5 -> reads (TPunct PSemiColon) l5 l6 -> Xopt S l6 u l7 -> hd_tok l7 = TPunct PCloseParen ->
    Xrun (Call CLoopBody) S l7 t l' -> Xstmt S l (SFor i c u t) l'.
  Proof.
    intros Hi R R1 Hn R3 Hc R5 Hu E Ht. eapply (for_enter S false); [exact R|reflexivity|exact R1|]. intros s k A V. eapply Hn; [exact A|exact V|eapply reads_hd; exact R3|].
    intros s1 k1 A1 V1. eapply evs_mono; [|eapply (cont_ok S i c u t l3 l4 l5 l6 l7 l'); eauto]. intros x s2 (-> & k2 & A2 & V2 & _). finish.
  Qed.
  Lemma stmt_for_in S x e t l l1 l2 l3 l4 l5 l' : v_in S = true -> reads (TKeyword KFor) l l1 -> reads (TPunct POpenParen) l1 l2 -> Xleft S l2 x l3 ->
    reads (TKeyword KIn) l3 l4 -> X0 S l4 e l5 -> hd_tok l5 = TPunct PCloseParen -> Xrun (Call CLoopBody) S l5 t l' -> Xstmt S l (SForIn x e t) l'.
  Proof.
    intros Hi R R1 Hn R3 Hc E Ht. eapply (for_enter S false); [exact R|reflexivity|exact R1|]. intros s k A V. eapply Hn; [exact A|exact V|]. left. split; [eapply reads_hd; exact R3|].
    intros s1 k1 A1 V1. eapply evs_mono; [|eapply (in_ok S x e t l3 l4 l5 l'); eauto]. intros y s2 (-> & k2 & A2 & V2 & _). finish.
  Qed.
  Lemma stmt_for_of S (aw : bool) x e t l l0 l1 l2 l3 l4 l5 l' : reads (TKeyword KFor) l l0 -> (if aw then reads (TKeyword KAwait) l0 l1 else l1 = l0) ->
    reads (TPunct POpenParen) l1 l2 -> Xleft S l2 x l3 ->
    reads_as TIdent (str "of") l3 l4 -> X1 S l4 e l5 -> assigns e = false -> hd_tok l5 = TPunct PCloseParen -> Xrun (Call CLoopBody) S l5 t l' ->
    Xstmt S l (SForOf x e t aw) l'.
  Proof.
    intros R R0 R1 Hn R3 Hc Ha E Ht. eapply (for_enter S aw); [exact R|exact R0|exact R1|]. intros s k A V. eapply Hn; [exact A|exact V|]. right.
    split; [apply (reads_as_hd _ _ _ _ R3)|]. split; [apply (reads_as_hd _ _ _ _ R3)|].
    intros s1 k1 A1 V1. eapply evs_mono; [|eapply (of_ok S aw x e t l3 l4 l5 l'); eauto]. intros y s2 (-> & k2 & A2 & V2 & _). finish.
  Qed.
End Loops.
