(** Statements, declarations and bodies. *)
From Verif Require Export Classes.
Local Open Scope nat_scope.
Local Open Scope list_scope.

Lemma drop_quotes_front a d : Forall quote_char a -> (forall c d', d = c :: d' -> ~ quote_char c) -> drop_quotes (a ++ d) = d.
Proof.
  intros Ha Hd. induction Ha as [|c a Hc _ IH]; cbn.
  - destruct d as [|c d']; [reflexivity|]. cbn. specialize (Hd c d' eq_refl).
    destruct (N.eqb_spec c 39); [destruct Hd; left; assumption|]. destruct (N.eqb_spec c 34); [destruct Hd; right; assumption|]. reflexivity.
  - destruct Hc as [-> | ->]; cbn; exact IH.
Qed.
Lemma directive_trim w d : directive_of w d -> trim_quotes w = d.
Proof.
  intros (a & b & -> & Ha & Hb & H1 & H2). unfold trim_quotes. destruct d as [|c d'] eqn:Ed.
  - cbn [app]. rewrite <- (app_nil_r (a ++ b)), drop_quotes_front; [reflexivity|apply Forall_app; auto|discriminate].
  - rewrite drop_quotes_front; [|exact Ha|cbn; intros ? ? E; inversion E; subst; eapply H1; reflexivity].
    rewrite rev_app_distr, drop_quotes_front; [apply rev_involutive|apply Forall_rev; exact Hb|].
    intros c0 d0 E. apply (f_equal (@rev N)) in E. rewrite rev_involutive in E. cbn [rev] in E. eapply H2. exact E.
Qed.
Lemma in_true S : v_in S = true -> in_ true S = S.
Proof. destruct S. cbn. intros ->. reflexivity. Qed.
Lemma in_back S : v_in S = true -> in_ true (in_ false S) = S.
Proof. destruct S. cbn. intros ->. reflexivity. Qed.
Lemma set_remove_out x l : ~ In x l -> set_remove x (x :: l) = l.
Proof.
  intros H. unfold set_remove. cbn. replace (text_eqb x x) with true by (symmetry; apply text_eqb_eq; reflexivity). cbn.
  induction l as [|y l IH]; [reflexivity|]. cbn. destruct (text_eqb x y) eqn:E.
  - apply text_eqb_eq in E. destruct H. left. auto.
  - cbn. f_equal. apply IH. intros C. apply H. right. exact C.
Qed.
Lemma set_mem_out x l : ~ In x l -> set_mem x l = false.
Proof.
  intros H. apply not_true_iff_false. intros C. apply existsb_exists in C. destruct C as (y & Hy & E). apply text_eqb_eq in E. subst. contradiction.
Qed.

Section Stmts.
  Variable g : cfg.
  Notation evs := (evs g).
  Notation At := (At g).
  Notation leaves := (leaves g).
  Notation T := (fun _ : ctx => True).
  Notation X19 := (@X19 g None).
  Notation X17 := (@X17 g None).
  Notation X1 := (@X1 g None).
  Notation X0 := (@Xcall g None CExpression 0).
  Notation Xpat := (Xpat g).

  Definition Xrun {B} (p : P B) (S : view) l v l' : Prop := forall s k, At s l k -> view_of k = S -> evs p s (leaves k l' T v).
  Notation Xstmt := (Xrun (Call CStatement)).
  Notation Xitem := (Xrun (Call CStatementListItem)).
  Notation Xblock := (Xrun (Call CBlock)).

  Lemma no_punct_is p l : hd_tok l <> TPunct p -> is_punct p (hd_tok l) = false.
  Proof. intros H. apply not_true_iff_false. intros C. apply is_punct_tok in C. contradiction. Qed.
  Lemma no_keyword_is p l : hd_tok l <> TKeyword p -> is_keyword p (hd_tok l) = false.
  Proof. intros H. apply not_true_iff_false. intros C. apply is_keyword_tok in C. contradiction. Qed.
  Lemma stop_ok S l l' : stops l l' -> Xrun (Call CConsumeSemicolon) S l tt l'.
  Proof.
    intros H s k A V. apply evs_call. cbn [body]. unfold consume_semicolon. ev. destruct H as [R|(-> & N & H)].
    - ek. eapply leave; [eassumption|reflexivity|exact I].
    - rewrite no_punct_is by exact N. apply evs_bind. eapply evs_newline; [exact A|]. intros b Hb.
      destruct b; [ev; eapply leave; [eassumption|reflexivity|exact I]|]. ev.
      destruct Hb as [Hb|Hb]; [destruct H as [H|[H|H]]; [congruence| |]|]; ek; (eapply leave; [eassumption|reflexivity|exact I]).
  Qed.
  Lemma expr_ok S l e l' s k : v_in S = true -> X0 S l e l' -> follow true 0 l' = true -> At s l k -> view_of k = S ->
    evs (Call CExpression) s (leaves k l' T e).
  Proof.
    intros Hi H Hf A V. eapply evs_mono; [|apply H; [exact A|exact V|rewrite Hi; exact Hf]].
    intros a s1 (-> & k1 & A1 & V1 & _). eapply leave; [eassumption|exact V1|exact I].
  Qed.
  Lemma follow_paren l l' : reads (TPunct PCloseParen) l l' -> follow true 0 l = true.
  Proof. intros R. unfold follow, goes_on. rewrite (reads_hd _ _ _ R). reflexivity. Qed.
  Lemma follow_colon l l' : reads (TPunct PColon) l l' -> follow true 0 l = true.
  Proof. intros R. unfold follow, goes_on. rewrite (reads_hd _ _ _ R). reflexivity. Qed.
  Lemma follow_semi i n l l' : reads (TPunct PSemiColon) l l' -> follow i n l = true.
  Proof. intros R. unfold follow, goes_on. rewrite (reads_hd _ _ _ R). reflexivity. Qed.

  (** ** Directives *)
  Inductive Directives : list tk -> list ProgramPart -> list tk -> Prop :=
  | dirs_none l : Directives l [] l
  | dirs_more w x ds l l1 l2 l' : reads_as TString w l l1 -> w <> str "use strict" -> directive_of w x -> ends l1 l2 -> Directives l2 ds l' ->
      Directives l (PPDir x (LString w) :: ds) l'.
  Lemma directive_ok S w x l l1 l2 : v_in S = true -> reads_as TString w l l1 -> w <> str "use strict" -> directive_of w x -> ends l1 l2 ->
    Xrun (Call CDirective) S l (PPDir x (LString w)) l2.
  Proof.
    intros Hi R Hw Hx (He & Hf & _) s k A V. apply evs_call. cbn [body]. unfold directive. ev.
    assert (E : hd_tok l = TString) by apply (reads_as_hd _ _ _ _ R).
    eapply evs_then; [eapply (expr_ok S l (ELiteral (LString w)) l1); [exact Hi| |exact Hf|exact A|exact V]|].
    { apply (expression_ok g S l [ELiteral (LString w)] l1). constructor; [rewrite E; reflexivity|].
      apply up_1_calm; [|rewrite E; reflexivity|reflexivity|destruct R as (_ & b & ->); cbn; lia|calm1]. intros s1 k1 A1 V1 Hf1.
      apply (up_cond g _ S l); [apply up_17; [rewrite E; reflexivity|]; apply p_string; exact R|split; [rewrite E; reflexivity|calm1]|exact A1|exact V1|eapply follow_up; [|exact Hf1]; lia]. }
    cbn beta iota. intros s1 k1 A1 V1 _. ev.
    replace (text_eqb w (str "use strict")) with false by (symmetry; apply not_true_iff_false; rewrite text_eqb_eq; exact Hw).
    rewrite andb_false_r. ev. eapply evs_then; [eapply (stop_ok S); [exact He|eassumption|congruence]|]. cbn beta. intros s2 k2 A2 V2 _. ev.
    rewrite (directive_trim _ _ Hx). eapply leave; [eassumption|congruence|exact I].
  Qed.
  Lemma prologue_ok S l ds l' : v_in S = true -> Directives l ds l' -> hd_tok l' <> TString -> forall s k acc, At s l k -> view_of k = S ->
    evs (Loop acc (fun ret =>
      t <- look_tok ;;
      if is_string t then d <- Call CDirective ;; Ret (inl (ret ++ [d])) else Ret (inr ret))) s (leaves k l' T (acc ++ ds)).
  Proof.
    intros Hi H Hn. induction H as [l|w x ds l l1 l2 l' R Hw Hx He H IH]; intros s k acc A V; apply evs_loop; ev.
    - replace (is_string (hd_tok l)) with false by (destruct (hd_tok l); try reflexivity; contradiction). ev.
      rewrite app_nil_r. eapply leave; [eassumption|reflexivity|exact I].
    - eapply evs_then; [eapply (directive_ok S); eauto|]. cbn beta. intros s1 k1 A1 V1 _. ev.
      eapply evs_mono; [|eapply (IH Hn); [eassumption|congruence]]. intros y s4 (-> & k4 & A4 & V4 & _).
      rewrite <- app_assoc. eapply leave; [eassumption|congruence|exact I].
  Qed.

  (** ** Lists of statements *)
  Definition item_head (t : token) : bool := head_of NModItem t.
  Inductive Items (S : view) : list tk -> list ProgramPart -> list tk -> Prop :=
  | items_none l : Items S l [] l
  | items_more p ps l l1 l' : item_head (hd_tok l) = true -> Xitem S l p l1 -> Items S l1 ps l' -> Items S l (p :: ps) l'.
  Lemma item_head_not t : item_head t = true -> is_eof t = false /\ is_punct PCloseBrace t = false /\ is_keyword KDefault t = false /\ is_keyword KCase t = false.
  Proof. destruct t as [| | | | | | |[]|[]|[]|]; cbn; try discriminate; auto. Qed.
  Definition items_step (stop : token -> bool) (acc : list ProgramPart) : P (list ProgramPart + list ProgramPart) :=
    t <- look_tok ;; if stop t then Ret (inr acc) else p <- Call CStatementListItem ;; Ret (inl (acc ++ [p])).
  Lemma items_loop stop S l ps l' : Items S l ps l' -> (forall t, item_head t = true -> stop t = false) -> stop (hd_tok l') = true ->
    forall step s k acc, At s l k -> view_of k = S ->
      (forall acc s Q, evs (items_step stop acc) s Q -> evs (step acc) s Q) ->
      evs (Loop acc step) s (leaves k l' T (acc ++ ps)).
  Proof.
    intros H Hstop Hend step. induction H as [l|p ps l l1 l' Hh Hp H IH]; intros s k acc A V Hs; apply evs_loop; apply Hs; unfold items_step; ev.
    - rewrite Hend. ev. rewrite app_nil_r. eapply leave; [eassumption|reflexivity|exact I].
    - rewrite (Hstop _ Hh). ev. eapply evs_then; [apply Hp; eauto|]. cbn beta. intros s1 k1 A1 V1 _. ev.
      eapply evs_mono; [|eapply (IH Hend); [eassumption|congruence|exact Hs]]. intros y s4 (-> & k4 & A4 & V4 & _).
      rewrite <- app_assoc. eapply leave; [eassumption|congruence|exact I].
  Qed.
  Lemma block_ok S ps l l1 l2 l' : reads (TPunct POpenBrace) l l1 -> Items S l1 ps l2 -> reads (TPunct PCloseBrace) l2 l' -> Xblock S l ps l'.
  Proof.
    intros R H R2 s k A V. apply evs_call. cbn [body]. unfold block. ev.
    eapply evs_then; [eapply (items_loop (is_punct PCloseBrace)); [exact H| |rewrite (reads_hd _ _ _ R2); reflexivity|eassumption|exact V|]|].
    - intros t Ht. apply (item_head_not t Ht).
    - intros acc s1 Q E. exact E.
    - cbn beta. intros s1 k1 A1 V1 _. cbn [app]. ev. eapply leave; [eassumption|exact V1|exact I].
  Qed.
  Lemma body_ok S ds b l l1 l2 l3 l' : v_in S = true -> reads (TPunct POpenBrace) l l1 -> Directives l1 ds l2 -> hd_tok l2 <> TString ->
    Items (fn_ true (labels_ [] S)) l2 b l3 -> reads (TPunct PCloseBrace) l3 l' -> Xbody g S l (ds ++ b) l'.
  Proof.
    intros Hi R Hd Hn H R2 s k A V. apply evs_call. cbn [body]. unfold function_source_el. ev.
    apply evs_call. cbn [body]. unfold directive_prologues.
    eapply evs_then; [eapply (prologue_ok S l1 ds l2 Hi Hd Hn _ _ []); [eassumption|exact V]|]. cbn beta. intros s1 k1 A1 V1 _. ev.
    eapply evs_then; [eapply (items_loop (fun t => is_eof t || is_punct PCloseBrace t)); [exact H| |rewrite (reads_hd _ _ _ R2); reflexivity|eassumption| |]|].
    - intros t Ht. destruct (item_head_not t Ht) as (-> & -> & _). reflexivity.
    - subst S. vws.
    - intros acc s20 Q E. unfold items_step in E. apply evs_bind. apply evs_bind_inv in E. eapply evs_mono; [|exact E]. cbn beta. intros t s30 E3.
      destruct (is_eof t); [exact E3|]. exact E3.
    - cbn beta. intros s20 k20 A20 V20 _. cbn [app]. ev. eapply leave; [eassumption|subst S; vws|exact I].
  Qed.

  (** ** Declarations *)
  Definition Xvar (kind : VariableKind) (in_for : bool) (S : view) l v l' : Prop := forall s k, At s l k -> view_of k = S ->
    follow (v_in S) 1 l' = true ->
    (kind = VVar -> evs (Call (CVarDecl in_for)) s (leaves k l' T v) /\ evs (Call (CVariableDecl in_for)) s (leaves k l' T v))
    /\ (kind <> VVar -> evs (Call (CLexicalBinding kind in_for)) s (leaves k l' T v)).
  Definition pat_ok (S : view) (x : Pat) : Prop := v_strict S = true -> is_restricted x = false.
  Lemma name_ok S w : binding_name S w -> pat_ok S (PIdentifier w).
  Proof.
    intros [_ H] E. destruct (H E) as [H1 H2]. cbn. unfold is_restricted_word. apply not_true_iff_false. rewrite orb_true_iff, !text_eqb_eq. tauto.
  Qed.
  Lemma follow_no_assign i l : follow i 1 l = true -> is_punct PAssign (hd_tok l) = false.
  Proof. unfold follow, goes_on. destruct (hd_tok l) as [| | | | | | |[]|[]|[]|]; try reflexivity. discriminate. Qed.
  Lemma var_none S kind f w l l' : kind <> VConst -> reads_as TIdent w l l' -> binding_name S w -> Xvar kind f S l (mkVarDecl (PIdentifier w) None) l'.
  Proof.
    intros Hk R Hw s k A V Hf. destruct (pat_name g S w l l' R Hw) as (r & _ & Hp). pose proof (name_ok _ _ Hw) as Hok.
    split; [intros ->; split|intros Hv]; apply evs_call; cbn [body]; unfold var_decl, variable_decl, lexical_binding; ev;
      (eapply evs_then; [apply Hp; eauto|]); cbn beta iota; intros s1 k1 A1 V1 _; ev; rewrite ?(follow_no_assign _ _ Hf).
    - cbn [is_pat_ident negb andb]. ev. eapply leave; [eassumption|congruence|exact I].
    - rewrite if_both by (intros E; apply Hok; subst S; vws). ev. rewrite ?(follow_no_assign _ _ Hf). cbn [is_pat_ident negb andb]. ev.
      eapply leave; [eassumption|congruence|exact I].
    - rewrite if_both by (intros E; apply Hok; subst S; vws). ev. rewrite ?(follow_no_assign _ _ Hf).
      destruct kind; try contradiction. cbn [is_pat_ident negb]. rewrite andb_false_r. cbn [orb]. ev. eapply leave; [eassumption|congruence|exact I].
  Qed.
  Lemma not_of s l k t l' : At s l k -> reads t l l' -> t <> TIdent -> text_eqb (hd_text l) (str "of") = false.
  Proof. intros A R N. eapply at_word; [exact A|rewrite (reads_hd _ _ _ R); exact N|cbn; tauto]. Qed.
  Lemma var_init S kind f x e l l1 l2 l' : Xpat S l x l1 -> pat_ok S x -> reads (TPunct PAssign) l1 l2 -> X1 S l2 e l' ->
    Xvar kind f S l (mkVarDecl x (Some e)) l'.
  Proof.
    intros (r & _ & Hp) Hok R H s k A V Hf.
    split; [intros ->; split|intros Hv]; apply evs_call; cbn [body]; unfold var_decl, variable_decl, lexical_binding; ev;
      (eapply evs_then; [apply Hp; eauto|]); cbn beta iota; intros s1 k1 A1 V1 _; ev.
    - eapply evs_then; [eapply evs_iso; [eassumption|]; intros s9 A9; apply H; [exact A9|rewrite view_opened; congruence|exact Hf|reflexivity]|]. cbn beta.
      intros s9 k9 A9 V9 _. ev. eapply leave; [eassumption|congruence|exact I].
    - rewrite if_both by (intros E; apply Hok; subst S; vws). ev.
      eapply evs_then; [eapply evs_iso; [eassumption|]; intros s9 A9; apply H; [exact A9|rewrite view_opened; congruence|exact Hf|reflexivity]|]. cbn beta.
      intros s9 k9 A9 V9 _. ev. eapply leave; [eassumption|congruence|exact I].
    - rewrite if_both by (intros E; apply Hok; subst S; vws). ev. destruct kind; [contradiction| |]; rewrite ?orb_true_r; ev.
      + eapply evs_then; [eapply evs_iso; [eassumption|]; intros s9 A9; apply H; [exact A9|rewrite view_opened; congruence|exact Hf|reflexivity]|]. cbn beta.
        intros s9 k9 A9 V9 _. ev. eapply leave; [eassumption|congruence|exact I].
      + rewrite (not_of _ _ _ _ _ A1 R) by discriminate. ev.
        eapply evs_then; [eapply evs_iso; [eassumption|]; intros s9 A9; apply H; [exact A9|rewrite view_opened; congruence|exact Hf|reflexivity]|]. cbn beta.
        intros s9 k9 A9 V9 _. ev. eapply leave; [eassumption|congruence|exact I].
  Qed.
  Inductive Vars (kind : VariableKind) (f : bool) (S : view) : list tk -> list VariableDecl -> list tk -> Prop :=
  | vars_one v l l' : Xvar kind f S l v l' -> Vars kind f S l [v] l'
  | vars_more v vs l l1 l2 l' : Xvar kind f S l v l1 -> comma l1 l2 -> Vars kind f S l2 vs l' -> Vars kind f S l (v :: vs) l'.
  Definition list_step {B} (p : P B) (ret : list B) : P (list B + list B) :=
    ifM at_punct PComma then next ;; y <- p ;; Ret (inl (ret ++ [y])) else Ret (inr ret).
  Lemma vars_loop kind f S (p : P VariableDecl) l vs l' : Vars kind f S l vs l' -> follow (v_in S) 0 l' = true ->
    (forall l v l' s k, Xvar kind f S l v l' -> At s l k -> view_of k = S -> follow (v_in S) 1 l' = true -> evs p s (leaves k l' T v)) ->
    forall s k acc, At s l k -> view_of k = S -> evs (Bind p (fun y => Loop (acc ++ [y]) (list_step p))) s (leaves k l' T (acc ++ vs)).
  Proof.
    intros H Hf Hp. induction H as [v l l' Hv|v vs l l1 l2 l' Hv R H IH]; intros s k acc A V; apply evs_bind.
    - eapply evs_then; [eapply Hp; [exact Hv|exact A|exact V|eapply follow_up; [|exact Hf]; lia]|]. cbn beta. intros s1 k1 A1 V1 _.
      apply evs_loop. unfold list_step at 1. ev. rewrite (stop_0 _ _ Hf). ev. eapply leave; [eassumption|congruence|exact I].
    - eapply evs_then; [eapply Hp; [exact Hv|exact A|exact V|eapply follow_comma; exact R]|]. cbn beta. intros s1 k1 A1 V1 _.
      apply evs_loop. unfold list_step at 1. ev. specialize (IH Hf _ _ (acc ++ [v]) A0 ltac:(congruence)). apply evs_bind_inv in IH.
      eapply evs_mono; [|exact IH]. cbn beta. intros y s3 E3. ev.
      eapply evs_mono; [|exact E3]. intros z s4 (-> & k4 & A4 & V4 & _). rewrite <- app_assoc. eapply leave; [eassumption|congruence|exact I].
  Qed.
  Lemma var_list S f vs l l' : Vars VVar f S l vs l' -> follow (v_in S) 0 l' = true ->
    Xrun (Call (CVarDeclList f)) S l vs l' /\ Xrun (Call (CVariableDeclList f)) S l vs l'.
  Proof.
    intros H Hf. split; intros s k A V; apply evs_call; cbn [body]; unfold var_decl_list, variable_decl_list, comma_list;
      eapply (vars_loop VVar f S _ l vs l' H Hf _ s k []); eauto; intros l0 v0 l1 s0 k0 Hv A0 V0 Hf0; apply Hv; auto.
    Unshelve. all: intros l0 v0 l1 s0 k0 Hv A0 V0 Hf0; apply Hv; auto.
  Qed.
  Lemma binding_list_ok S kind f vs l l' : kind <> VVar -> Vars kind f S l vs l' -> follow (v_in S) 0 l' = true ->
    Xrun (Call (CBindingList kind f)) S l vs l'.
  Proof.
    intros Hk H Hf s k A V. apply evs_call. cbn [body]. unfold binding_list, comma_list.
    eapply (vars_loop kind f S _ l vs l' H Hf _ s k []); eauto.
    Unshelve. all: intros l0 v0 l1 s0 k0 Hv A0 V0 Hf0; apply Hv; auto.
  Qed.
  Lemma lexical S kw kind vs l l1 l2 l' : kw = KLet /\ kind = VLet \/ kw = KConst /\ kind = VConst -> reads (TKeyword kw) l l1 ->
    Vars kind false S l1 vs l2 -> ends l2 l' -> v_in S = true -> Xrun (Call (CLexicalDecl false)) S l (DVariable kind vs) l'.
  Proof.
    intros Hk R H (He & Hf & _) Hi s k A V. apply evs_call. cbn [body]. unfold lexical_decl.
    destruct Hk as [[-> ->]|[-> ->]]; ev;
      (eapply evs_then; [eapply (binding_list_ok S); [discriminate|exact H|rewrite Hi; exact Hf|eassumption|exact V]|]); cbn beta; intros s1 k1 A1 V1 _; ev;
      (eapply evs_then; [eapply (stop_ok S); [exact He|eassumption|congruence]|]); cbn beta; intros s2 k2 A2 V2 _; ev;
      (eapply leave; [eassumption|congruence|exact I]).
  Qed.

  (** ** Items *)
  Lemma item_stmt S t l l' : stmt_head (hd_tok l) = true -> call_import l -> Xstmt S l t l' -> Xitem S l (PPStmt t) l'.
  Proof.
    intros Hh Hm H s k A V. apply evs_call. cbn [body]. unfold statement_list_item. ev.
    destruct (hd_tok l) as [| | | | | | |[]|[]|[]|] eqn:E; try discriminate Hh; ek;
      try (unfold at_import_call; ev; eapply evs_peekskip; [eassumption|]; intros o Ho; rewrite (Hm E) in Ho; ev;
           destruct o as [i|]; [|discriminate Ho]; rewrite Ho; change (is_punct POpenParen (TPunct POpenParen)) with true; cbn iota; ek);
      (eapply evs_then; [apply H; [eassumption|exact V]|]); cbn beta; intros s1 k1 A1 V1 _; ev; (eapply leave; [eassumption|exact V1|exact I]).
  Qed.
  Lemma item_let S vs l l1 l2 l' : v_in S = true -> reads (TKeyword KLet) l l1 -> pat_head (hd_tok l1) = true -> Vars VLet false S l1 vs l2 -> ends l2 l' ->
    Xitem S l (PPDecl (DVariable VLet vs)) l'.
  Proof.
    intros Hi R Hh H He s k A V. apply evs_call. cbn [body]. unfold statement_list_item. ev. unfold at_lexical_decl. apply evs_bind.
    eapply evs_peekskip; [eassumption|]. intros o Ho.
    assert (E : tl l = l1) by (destruct R as (_ & w & b & ->); reflexivity). rewrite E in Ho.
    destruct o as [i|]; [|rewrite <- Ho in Hh; discriminate]. ev.
    replace (_ || _) with true by (destruct (hd_tok l1) as [| | | | | | |[]|[]|[]|]; try discriminate Hh; reflexivity). ev.
    eapply evs_then; [eapply (lexical S KLet VLet); eauto|]. cbn beta. intros s1 k1 A1 V1 _. ev. eapply leave; [eassumption|exact V1|exact I].
  Qed.
  Lemma item_const S vs l l1 l2 l' : v_in S = true -> reads (TKeyword KConst) l l1 -> Vars VConst false S l1 vs l2 -> ends l2 l' ->
    Xitem S l (PPDecl (DVariable VConst vs)) l'.
  Proof.
    intros Hi R H He s k A V. apply evs_call. cbn [body]. unfold statement_list_item. ev.
    eapply evs_then; [eapply (lexical S KConst VConst); eauto|]. cbn beta. intros s1 k1 A1 V1 _. ev. eapply leave; [eassumption|exact V1|exact I].
  Qed.
  Lemma item_function S f l l1 l' : reads (TKeyword KFunction) l l1 -> Xdecl g false S l1 f l' -> Xitem S l (PPDecl (DFunction f)) l'.
  Proof.
    intros R H s k A V. apply evs_call. cbn [body]. unfold statement_list_item. ev.
    eapply evs_then; [eapply H; [eassumption|exact V|exact R]|]. cbn beta. intros s1 k1 A1 V1 _. ev. eapply leave; [eassumption|exact V1|exact I].
  Qed.

  Lemma item_async S f l l1 l' : function_mark true l l1 -> Xdecl g true S l1 f l' -> Xitem S l (PPStmt (SExpr (EFunction f))) l'.
  Proof.
    intros R H s k A V. pose proof R as (l9 & R9 & _). pose proof (reads_as_hd _ _ _ _ R9) as [E _]. apply evs_call. cbn [body]. unfold statement_list_item. ev.
    apply evs_call. cbn [body]. unfold statement. ev. eapply evs_async_function; [eassumption|exact R|]. ev.
    eapply evs_then; [eapply H; [eassumption|exact V|exact R]|]. cbn beta. intros s1 k1 A1 V1 _. ev. eapply leave; [eassumption|exact V1|exact I].
  Qed.

  Lemma item_class S c l l1 l' : reads (TKeyword KClass) l l1 -> Xclass g false (strict_ true S) l1 c l' -> Xitem S l (PPDecl (DClass c)) l'.
  Proof.
    intros R H s k A V. apply evs_call. cbn [body]. unfold statement_list_item. ev.
    eapply evs_then; [eapply H; [eassumption|subst S; reflexivity|exact R]|]. cbn beta. intros s1 k1 A1 V1 _. ev. eapply leave; [eassumption|exact V1|exact I].
  Qed.

  (** ** Statements *)
  Lemma stmt_expr S e l l1 l' : v_in S = true -> X0 S l e l1 -> expr_head 0 (hd_tok l) = true -> not_statement (hd_tok l) = false -> plain_start l -> ends l1 l' -> Xstmt S l (SExpr e) l'.
  Proof.
    intros Hi H Hh Hn Hps (He & Hf & Hc) s k A V. apply evs_call. cbn [body]. unfold statement. ev.
    assert (E1 : Xrun (Call CExpressionStatement) S l e l').
    { intros s1 k1 A1 V1. apply evs_call. cbn [body]. unfold expression_statement. ev.
      eapply evs_then; [eapply (expr_ok S); eauto|]. cbn beta. intros s2 k2 A2 V2 _. ev.
      eapply evs_then; [eapply (stop_ok S); [exact He|eassumption|congruence]|]. cbn beta. intros s3 k3 A3 V3 _. ev.
      eapply leave; [eassumption|congruence|exact I]. }
    destruct (hd_tok l) as [| | | | | | |[]|[]|[]|] eqn:E; try discriminate Hh; try discriminate Hn;
      try (apply evs_bind; eapply evs_then; [apply E1; eauto|]; cbn beta; intros s1 k1 A1 V1 _; ev; eapply leave; [eassumption|exact V1|exact I]).
    ev. apply evs_call. cbn [body]. unfold labelled_statement. ev.
    eapply evs_then; [eapply (expr_ok S); eauto|]. cbn beta. intros s2 k2 A2 V2 _. ev. rewrite no_punct_is by exact Hc.
    assert (E2 : evs (Call CConsumeSemicolon;; Ret (SExpr e)) s2 (leaves k l' T (SExpr e))).
    { ev. eapply evs_then; [eapply (stop_ok S); [exact He|eassumption|congruence]|]. cbn beta. intros s3 k3 A3 V3 _. ev.
      eapply leave; [eassumption|congruence|exact I]. }
    destruct e; exact E2.
  Qed.
  Lemma stmt_block S ps l l' : hd_tok l = TPunct POpenBrace -> Xblock S l ps l' -> Xstmt S l (SBlock ps) l'.
  Proof.
    intros E H s k A V. apply evs_call. cbn [body]. unfold statement. ev.
    eapply evs_then; [apply H; eauto|]. cbn beta. intros s1 k1 A1 V1 _. ev. eapply leave; [eassumption|exact V1|exact I].
  Qed.
  Lemma stmt_empty S l l' : reads (TPunct PSemiColon) l l' -> Xstmt S l SEmpty l'.
  Proof. intros R s k A V. apply evs_call. cbn [body]. unfold statement. ev. eapply leave; [eassumption|reflexivity|exact I]. Qed.
  Ltac finish := eapply leave; [eassumption|congruence|exact I].
  Ltac semicolon He := eapply evs_then; [eapply stop_ok; [exact He|eassumption|reflexivity]|]; cbn beta; intros s8 k8 A8 V8 _; ev; finish.
  Lemma stmt_debugger S l l1 l' : reads (TKeyword KDebugger) l l1 -> stops l1 l' -> Xstmt S l SDebugger l'.
  Proof.
    intros R He s k A V. apply evs_call. cbn [body]. unfold statement. ev. apply evs_call. cbn [body]. unfold debugger_stmt. ev. semicolon He.
  Qed.
  Lemma stmt_var S vs l l1 l2 l' : v_in S = true -> reads (TKeyword KVar) l l1 -> Vars VVar false S l1 vs l2 -> ends l2 l' -> Xstmt S l (SVar vs) l'.
  Proof.
    intros Hi R H (He & Hf & _) s k A V. apply evs_call. cbn [body]. unfold statement. ev. apply evs_call. cbn [body]. unfold var_stmt. ev.
    eapply evs_then; [eapply (var_list S); [exact H|rewrite Hi; exact Hf|eassumption|exact V]|]. cbn beta. intros s51 k51 A51 V51 _. ev. semicolon He.
  Qed.
  Lemma clause_ok S t l l' : stmt_head (hd_tok l) = true -> Xstmt S l t l' -> Xrun (Call CIfClause) S l t l'.
  Proof.
    intros Hh H s k A V. apply evs_call. cbn [body]. unfold if_clause. ev.
    replace (is_keyword KFunction (hd_tok l)) with false by (destruct (hd_tok l) as [| | | | | | |[]|[]|[]|]; try discriminate Hh; reflexivity).
    rewrite andb_false_r. ev. apply H; assumption.
  Qed.
  Lemma stmt_if S e t l l1 l2 l3 l4 l' : v_in S = true -> reads (TKeyword KIf) l l1 -> reads (TPunct POpenParen) l1 l2 -> X0 S l2 e l3 ->
    reads (TPunct PCloseParen) l3 l4 -> stmt_head (hd_tok l4) = true -> Xstmt S l4 t l' -> hd_tok l' <> TKeyword KElse -> Xstmt S l (SIf e t None) l'.
  Proof.
    intros Hi R R2 H R3 Hh Ht Hn s k A V. apply evs_call. cbn [body]. unfold statement. ev. apply evs_call. cbn [body]. unfold if_stmt. ev.
    eapply evs_then; [eapply (expr_ok S); [exact Hi|exact H|eapply follow_paren; eassumption|eassumption|exact V]|]. cbn beta. intros s52 k52 A52 V52 _. ev.
    eapply evs_then; [eapply (clause_ok S); [exact Hh|exact Ht|eassumption|congruence]|]. cbn beta. intros s53 k53 A53 V53 _. ev.
    rewrite no_keyword_is by exact Hn. ev. finish.
  Qed.
  Lemma stmt_if_else S e t u l l1 l2 l3 l4 l5 l6 l' : v_in S = true -> reads (TKeyword KIf) l l1 -> reads (TPunct POpenParen) l1 l2 -> X0 S l2 e l3 ->
    reads (TPunct PCloseParen) l3 l4 -> stmt_head (hd_tok l4) = true -> Xstmt S l4 t l5 -> reads (TKeyword KElse) l5 l6 -> stmt_head (hd_tok l6) = true -> Xstmt S l6 u l' ->
    Xstmt S l (SIf e t (Some u)) l'.
  Proof.
    intros Hi R R2 H R3 Hh Ht R4 Hh2 Hu s k A V. apply evs_call. cbn [body]. unfold statement. ev. apply evs_call. cbn [body]. unfold if_stmt. ev.
    eapply evs_then; [eapply (expr_ok S); [exact Hi|exact H|eapply follow_paren; eassumption|eassumption|exact V]|]. cbn beta. intros s52 k52 A52 V52 _. ev.
    eapply evs_then; [eapply (clause_ok S); [exact Hh|exact Ht|eassumption|congruence]|]. cbn beta. intros s53 k53 A53 V53 _. ev.
    eapply evs_then; [eapply (clause_ok S); [exact Hh2|exact Hu|eassumption|congruence]|]. cbn beta. intros s54 k54 A54 V54 _. ev. finish.
  Qed.
  Lemma stmt_while S e t l l1 l2 l3 l4 l' : v_in S = true -> reads (TKeyword KWhile) l l1 -> reads (TPunct POpenParen) l1 l2 -> X0 S l2 e l3 ->
    reads (TPunct PCloseParen) l3 l4 -> Xstmt S l4 t l' -> Xstmt S l (SWhile e t) l'.
  Proof.
    intros Hi R R2 H R3 Ht s k A V. apply evs_call. cbn [body]. unfold statement. ev. apply evs_call. cbn [body]. unfold while_stmt. ev.
    eapply evs_then; [eapply (expr_ok S); [exact Hi|exact H|eapply follow_paren; eassumption|eassumption|exact V]|]. cbn beta. intros s52 k52 A52 V52 _. ev.
    eapply evs_then; [eapply Ht; [eassumption|congruence]|]. cbn beta. intros s53 k53 A53 V53 _. ev. eapply leave; [eassumption|subst S; vws|exact I].
  Qed.
  Lemma stmt_with S e t l l1 l2 l3 l4 l' : v_in S = true -> v_strict S = false -> reads (TKeyword KWith) l l1 -> reads (TPunct POpenParen) l1 l2 -> X0 S l2 e l3 ->
    reads (TPunct PCloseParen) l3 l4 -> Xstmt S l4 t l' -> Xstmt S l (SWith e t) l'.
  Proof.
    intros Hi Hs R R2 H R3 Ht s k A V. apply evs_call. cbn [body]. unfold statement. ev. apply evs_call. cbn [body]. unfold with_stmt. ev.
    replace (c_strict k) with false by (subst S; symmetry; exact Hs). ev.
    eapply evs_then; [eapply (expr_ok S); [exact Hi|exact H|eapply follow_paren; eassumption|eassumption|exact V]|]. cbn beta. intros s52 k52 A52 V52 _. ev.
    eapply evs_then; [eapply Ht; [eassumption|congruence]|]. cbn beta. intros s53 k53 A53 V53 _. ev. finish.
  Qed.
  Lemma stmt_do S e t l l1 l2 l3 l4 l5 l6 l' : v_in S = true -> reads (TKeyword KDo) l l1 -> Xstmt S l1 t l2 -> reads (TKeyword KWhile) l2 l3 ->
    reads (TPunct POpenParen) l3 l4 -> X0 S l4 e l5 -> reads (TPunct PCloseParen) l5 l6 ->
    reads (TPunct PSemiColon) l6 l' \/ l' = l6 /\ hd_tok l6 <> TPunct PSemiColon -> Xstmt S l (SDoWhile e t) l'.
  Proof.
    intros Hi R Ht R2 R3 H R4 He s k A V. apply evs_call. cbn [body]. unfold statement. ev. apply evs_call. cbn [body]. unfold do_while_stmt. ev.
    eapply evs_then; [eapply Ht; [eassumption|exact V]|]. cbn beta. intros s53 k53 A53 V53 _. ev.
    eapply evs_then; [eapply (expr_ok S); [exact Hi|exact H|eapply follow_paren; eassumption|eassumption|subst S; vws]|]. cbn beta. intros s52 k52 A52 V52 _. ev.
    destruct He as [He|[-> He]]; [ek|rewrite no_punct_is by exact He; ev]; (eapply leave; [eassumption|subst S; vws|exact I]).
  Qed.
  Lemma stmt_return S l l1 l' : v_fn S = true -> reads (TKeyword KReturn) l l1 -> stops l1 l' -> is_string (hd_tok l1) = false ->
    is_template (hd_tok l1) = false -> Xstmt S l (SReturn None) l'.
  Proof.
    intros Hf R He H1 H2 s k A V. apply evs_call. cbn [body]. unfold statement. ev. apply evs_call. cbn [body]. unfold return_stmt. ev.
    replace (c_in_function_body k) with true by (subst S; symmetry; exact Hf). cbn [negb]. ev. unfold at_return_arg. apply evs_bind.
    eapply evs_newline; [eassumption|]. intros b Hb. ev.
    assert (E : (if b then is_string (hd_tok l1) || is_template (hd_tok l1)
                 else negb (is_punct PSemiColon (hd_tok l1)) && negb (is_punct PCloseBrace (hd_tok l1)) && negb (is_eof (hd_tok l1))) = false).
    { destruct b; [rewrite H1, H2; reflexivity|]. destruct He as [He|(-> & He & [N|[N|N]])].
      - rewrite (reads_hd _ _ _ He). reflexivity.
      - destruct Hb as [Hb|Hb]; [congruence|rewrite Hb; reflexivity].
      - rewrite N. reflexivity.
      - rewrite N. reflexivity. }
    destruct b; ev; rewrite E; ev; semicolon He.
  Qed.
  Lemma stmt_return_value S e l l1 l2 l' : v_in S = true -> v_fn S = true -> reads (TKeyword KReturn) l l1 -> newline l1 = false -> expr_head 0 (hd_tok l1) = true ->
    X0 S l1 e l2 -> ends l2 l' -> Xstmt S l (SReturn (Some e)) l'.
  Proof.
    intros Hi Hf R Hn Hh H (He & Hfo & _) s k A V. apply evs_call. cbn [body]. unfold statement. ev. apply evs_call. cbn [body]. unfold return_stmt. ev.
    replace (c_in_function_body k) with true by (subst S; symmetry; exact Hf). cbn [negb]. ev. unfold at_return_arg. apply evs_bind.
    eapply evs_newline; [eassumption|]. intros b Hb.
    destruct b; [destruct Hb as [Hb|Hb]; [congruence|rewrite Hb in Hh; discriminate]|]. ev.
    replace (_ && _) with true by (destruct (hd_tok l1) as [| | | | | | |[]|[]|[]|]; try discriminate Hh; reflexivity). ev.
    eapply evs_then; [eapply (expr_ok S); [exact Hi|exact H|exact Hfo|eassumption|exact V]|]. cbn beta. intros s52 k52 A52 V52 _. ev. semicolon He.
  Qed.
  Lemma stmt_throw S e l l1 l2 l' : v_in S = true -> reads (TKeyword KThrow) l l1 -> X0 S l1 e l2 -> ends l2 l' -> Xstmt S l (SThrow e) l'.
  Proof.
    intros Hi R H (He & Hfo & _) s k A V. apply evs_call. cbn [body]. unfold statement. ev. apply evs_call. cbn [body]. unfold throw_stmt. ev.
    eapply evs_then; [eapply (expr_ok S); [exact Hi|exact H|exact Hfo|eassumption|exact V]|]. cbn beta. intros s52 k52 A52 V52 _. ev. semicolon He.
  Qed.
  Lemma jump_none S kw l l1 l' : reads (TKeyword kw) l l1 -> stops l1 l' -> hd_tok l1 <> TIdent \/ newline l1 = true ->
    Xrun (Call (COptionallyLabeled kw)) S l None l'.
  Proof.
    intros R He Hn s k A V. apply evs_call. cbn [body]. unfold optionally_labeled. ev. eapply evs_newline; [eassumption|]. intros b Hb.
    replace (is_ident (hd_tok l1) && negb b) with false; [ev; semicolon He|].
    symmetry. destruct (is_ident (hd_tok l1)) eqn:E; [|reflexivity].
    assert (Et : hd_tok l1 = TIdent) by (destruct (hd_tok l1); try discriminate; reflexivity).
    destruct Hn as [Hn|Hn]; [contradiction|]. destruct Hb as [Hb|Hb]; [rewrite Hb, Hn; reflexivity|congruence].
  Qed.
  Lemma jump_label S kw w l l1 l2 l' : reads (TKeyword kw) l l1 -> newline l1 = false -> reads_as TIdent w l1 l2 -> w <> str "await" -> stops l2 l' ->
    Xrun (Call (COptionallyLabeled kw)) S l (Some w) l'.
  Proof.
    intros R Hn Rw Hw He s k A V. apply evs_call. cbn [body]. unfold optionally_labeled. ev. eapply evs_newline; [eassumption|]. intros b Hb.
    destruct b; [destruct Hb as [Hb|Hb]; [congruence|rewrite (proj1 (reads_as_hd _ _ _ _ Rw)) in Hb; discriminate]|]. ek.
    eapply evs_then; [eapply at_name; [exact Rw|exact Hw|eassumption]|]. cbn beta. intros s52 k52 A52 V52 _. ev. semicolon He.
  Qed.
  Lemma stmt_break S o l l' : hd_tok l = TKeyword KBreak -> Xrun (Call (COptionallyLabeled KBreak)) S l o l' -> Xstmt S l (SBreak o) l'.
  Proof.
    intros E H s k A V. apply evs_call. cbn [body]. unfold statement. ev. apply evs_call. cbn [body]. unfold break_stmt.
    eapply evs_then; [apply H; eauto|]. cbn beta. intros s51 k51 A51 V51 _. ev. finish.
  Qed.
  Lemma stmt_continue S o l l' : hd_tok l = TKeyword KContinue -> Xrun (Call (COptionallyLabeled KContinue)) S l o l' -> Xstmt S l (SContinue o) l'.
  Proof.
    intros E H s k A V. apply evs_call. cbn [body]. unfold statement. ev. apply evs_call. cbn [body]. unfold continue_stmt.
    eapply evs_then; [apply H; eauto|]. cbn beta. intros s51 k51 A51 V51 _. ev. finish.
  Qed.
  Lemma name_alone S w l l' : v_in S = true -> reads_as TIdent w l l' -> w <> str "async" -> X0 S l (EIdent w) l'.
  Proof.
    intros Hi R Ha. pose proof (reads_as_hd _ _ _ _ R) as [E _]. apply (expression_ok g S l [EIdent w] l'). constructor; [rewrite E; reflexivity|].
    apply ident_1; assumption.
  Qed.
  Lemma stmt_label S w t l l1 l2 l' : v_in S = true -> reads_as TIdent w l l1 -> w <> str "async" -> reads (TPunct PColon) l1 l2 -> ~ In (str "$" ++ w)%list (v_labels S) ->
    hd_tok l2 <> TKeyword KClass -> hd_tok l2 <> TKeyword KFunction ->
    Xstmt (labels_ ((str "$" ++ w)%list :: v_labels S) S) l2 t l' -> Xstmt S l (SLabeled w t) l'.
  Proof.
    intros Hi R Ha R2 Hl N1 N2 Ht s k A V. apply evs_call. cbn [body]. unfold statement. ev. apply evs_call. cbn [body]. unfold labelled_statement. ev.
    eapply evs_then; [eapply (expr_ok S); [exact Hi|apply name_alone; [exact Hi|exact R|exact Ha]|eapply follow_colon; exact R2|eassumption|exact V]|].
    cbn beta iota. intros s52 k52 A52 V52 _. ev.
    assert (El : c_label_set k52 = v_labels S) by (subst S; vws).
    rewrite set_mem_out by (rewrite El; exact Hl). ev. rewrite no_keyword_is by exact N1. ev. rewrite no_keyword_is by exact N2.
    eapply evs_then; [eapply Ht; [eassumption|transitivity (labels_ (label_key w :: c_label_set k52) (view_of k52)); [reflexivity|rewrite El, V52, V; reflexivity]]|]. cbn beta. intros s53 k53 A53 V53 _. ev.
    eapply leave; [eassumption| |exact I].
    assert (E3 : set_remove (label_key w) (c_label_set k53) = v_labels S).
    { replace (c_label_set k53) with (label_key w :: c_label_set k52) by (symmetry; exact (f_equal v_labels V53)). rewrite El. apply set_remove_out. exact Hl. }
    transitivity (labels_ (set_remove (label_key w) (c_label_set k53)) (view_of k53)); [reflexivity|]. rewrite E3, V53.
    transitivity (labels_ (v_labels S) (view_of k52)); [reflexivity|]. rewrite V52, V. destruct S. reflexivity.
  Qed.

  (** ** Switch *)
  Definition Xcase := Xrun (Call CSwitchCase).
  Inductive Cases (S : view) : list tk -> list SwitchCase -> list tk -> Prop :=
  | cases_none l : Cases S l [] l
  | cases_more c cs l l1 l' : is_punct PCloseBrace (hd_tok l) = false -> Xcase S l c l1 -> Cases S l1 cs l' -> Cases S l (c :: cs) l'.
  Definition case_end (t : token) : Prop := t = TPunct PCloseBrace \/ t = TKeyword KCase \/ t = TKeyword KDefault.
  Lemma consequent S ps l l' : Items S l ps l' -> case_end (hd_tok l') -> Xrun (Loop [] (fun acc =>
    t <- look_tok ;;
    if is_punct PCloseBrace t || is_keyword KDefault t || is_keyword KCase t then Ret (inr acc)
    else p <- Call CStatementListItem ;; Ret (inl (acc ++ [p])))) S l ps l'.
  Proof.
    intros H He s k A V. eapply (items_loop (fun t => is_punct PCloseBrace t || is_keyword KDefault t || is_keyword KCase t) S l ps l' H _ _ _ s k []); eauto.
    Unshelve.
    - intros t Ht. destruct (item_head_not t Ht) as (_ & -> & -> & ->). reflexivity.
    - destruct He as [-> | [-> | ->]]; reflexivity.
  Qed.
  Lemma case_ok S e ps l l1 l2 l3 l' : v_in S = true -> reads (TKeyword KCase) l l1 -> X0 S l1 e l2 -> reads (TPunct PColon) l2 l3 -> Items S l3 ps l' ->
    case_end (hd_tok l') -> Xcase S l (mkCase (Some e) ps) l'.
  Proof.
    intros Hi R H R2 Hs He s k A V. apply evs_call. cbn [body]. unfold switch_case. ev.
    eapply evs_then; [eapply (expr_ok S); [exact Hi|exact H|eapply follow_colon; eassumption|eassumption|exact V]|]. cbn beta. intros s52 k52 A52 V52 _. ev.
    eapply evs_then; [eapply consequent; [exact Hs|exact He|eassumption|congruence]|]. cbn beta. intros s53 k53 A53 V53 _. ev. finish.
  Qed.
  Lemma case_default S ps l l1 l2 l' : reads (TKeyword KDefault) l l1 -> reads (TPunct PColon) l1 l2 -> Items S l2 ps l' -> case_end (hd_tok l') ->
    Xcase S l (mkCase None ps) l'.
  Proof.
    intros R R2 Hs He s k A V. apply evs_call. cbn [body]. unfold switch_case. ev.
    eapply evs_then; [eapply consequent; [exact Hs|exact He|eassumption|congruence]|]. cbn beta. intros s53 k53 A53 V53 _. ev. finish.
  Qed.
  Definition cases_step : bool * list SwitchCase -> P ((bool * list SwitchCase) + list SwitchCase) := fun '(found_default, cases) =>
    ifM at_punct PCloseBrace then Ret (inr cases)
    else
      case <- Call CSwitchCase ;;
      match case_test case with
      | None => if found_default : bool then fail_look [] else Ret (inl (true, cases ++ [case]))
      | Some _ => Ret (inl (found_default, cases ++ [case]))
      end.
  Lemma cases_loop S l cs l' l9 : Cases S l cs l' -> reads (TPunct PCloseBrace) l' l9 -> forall s k (found : bool) acc,
    (if found then 1 else 0) + length (filter is_default cs) <= 1 -> At s l k -> view_of k = S -> evs (Loop (found, acc) cases_step) s (leaves k l' T (acc ++ cs)).
  Proof.
    intros H R9. induction H as [l|c cs l l1 l' Hh Hc H IH]; intros s k found acc Hd A V; apply evs_loop; unfold cases_step at 1; ev.
    - rewrite app_nil_r. finish.
    - rewrite Hh. ev. eapply evs_then; [apply Hc; eauto|]. cbn beta. intros s51 k51 A51 V51 _.
      destruct c as [[e|] ps]; cbn [case_test]; cbn [filter is_default length] in Hd.
      + ev. eapply evs_mono; [|eapply (IH R9); [exact Hd|eassumption|congruence]]. intros y s54 (-> & k54 & A54 & V54 & _). rewrite <- app_assoc. finish.
      + destruct found; [cbn in Hd; lia|]. ev.
        eapply evs_mono; [|eapply (IH R9); [cbn; cbn in Hd; lia|eassumption|congruence]]. intros y s54 (-> & k54 & A54 & V54 & _). rewrite <- app_assoc. finish.
  Qed.
  Lemma stmt_switch S e cs l l1 l2 l3 l4 l5 l6 l' : v_in S = true -> reads (TKeyword KSwitch) l l1 -> reads (TPunct POpenParen) l1 l2 -> X0 S l2 e l3 ->
    reads (TPunct PCloseParen) l3 l4 -> reads (TPunct POpenBrace) l4 l5 -> Cases S l5 cs l6 -> reads (TPunct PCloseBrace) l6 l' ->
    length (filter is_default cs) <= 1 -> Xstmt S l (SSwitch e cs) l'.
  Proof.
    intros Hi R R2 H R3 R4 Hc R5 Hd s k A V. apply evs_call. cbn [body]. unfold statement. ev. apply evs_call. cbn [body]. unfold switch_stmt. ev.
    eapply evs_then; [eapply (expr_ok S); [exact Hi|exact H|eapply follow_paren; eassumption|eassumption|exact V]|]. cbn beta. intros s52 k52 A52 V52 _. ev.
    eapply evs_then; [eapply (cases_loop S _ _ _ _ Hc R5 _ _ false []); [exact Hd|eassumption|subst S; vws]|]. cbn beta. intros s53 k53 A53 V53 _. ev.
    eapply leave; [eassumption|subst S; vws|exact I].
  Qed.

  (** ** Try *)
  Lemma catch_ok S x h l l1 l2 l3 l4 l' : reads (TKeyword KCatch) l l1 -> reads (TPunct POpenParen) l1 l2 -> Xpat S l2 x l3 -> reads (TPunct PCloseParen) l3 l4 ->
    Xblock S l4 h l' -> Xrun (Call CCatchClause) S l (mkCatch (Some x) h) l'.
  Proof.
    intros R R2 (r & _ & H) R3 Hb s k A V. apply evs_call. cbn [body]. unfold catch_clause. ev.
    eapply evs_then; [eapply H; [eassumption|exact V]|]. cbn beta iota. intros s52 k52 A52 V52 _. ev.
    eapply evs_then; [eapply Hb; [eassumption|congruence]|]. cbn beta. intros s53 k53 A53 V53 _. ev. finish.
  Qed.
  Lemma catch_plain S h l l1 l' : reads (TKeyword KCatch) l l1 -> is_punct POpenBrace (hd_tok l1) = true -> Xblock S l1 h l' -> Xrun (Call CCatchClause) S l (mkCatch None h) l'.
  Proof.
    intros R Hh Hb s k A V. apply is_punct_tok in Hh. apply evs_call. cbn [body]. unfold catch_clause. ev.
    eapply evs_then; [eapply Hb; [eassumption|congruence]|]. cbn beta. intros s53 k53 A53 V53 _. ev. finish.
  Qed.
  Lemma stmt_try_catch S b h l l1 l2 l' : reads (TKeyword KTry) l l1 -> Xblock S l1 b l2 -> is_keyword KCatch (hd_tok l2) = true ->
    Xrun (Call CCatchClause) S l2 h l' -> hd_tok l' <> TKeyword KFinally ->
    Xstmt S l (STry b (Some h) None) l'.
  Proof.
    intros R Hb R2 Hh Hn s k A V. apply evs_call. cbn [body]. unfold statement. ev. apply evs_call. cbn [body]. unfold try_stmt. ev.
    eapply evs_then; [eapply Hb; [eassumption|exact V]|]. cbn beta. intros s52 k52 A52 V52 _. ev.
    rewrite R2. ev. eapply evs_then; [eapply Hh; [eassumption|congruence]|]. cbn beta. intros s53 k53 A53 V53 _. ev.
    rewrite no_keyword_is by exact Hn. ev. finish.
  Qed.
  Lemma stmt_try_finally S b f l l1 l2 l3 l' : reads (TKeyword KTry) l l1 -> Xblock S l1 b l2 -> reads (TKeyword KFinally) l2 l3 -> Xblock S l3 f l' ->
    Xstmt S l (STry b None (Some f)) l'.
  Proof.
    intros R Hb R2 Hf s k A V. apply evs_call. cbn [body]. unfold statement. ev. apply evs_call. cbn [body]. unfold try_stmt. ev.
    eapply evs_then; [eapply Hb; [eassumption|exact V]|]. cbn beta. intros s52 k52 A52 V52 _. ev.
    apply evs_call. cbn [body]. unfold finally_clause. ev.
    eapply evs_then; [eapply Hf; [eassumption|congruence]|]. cbn beta. intros s53 k53 A53 V53 _. ev. finish.
  Qed.
  Lemma stmt_try_both S b h f l l1 l2 l3 l4 l' : reads (TKeyword KTry) l l1 -> Xblock S l1 b l2 -> is_keyword KCatch (hd_tok l2) = true ->
    Xrun (Call CCatchClause) S l2 h l3 -> reads (TKeyword KFinally) l3 l4 -> Xblock S l4 f l' -> Xstmt S l (STry b (Some h) (Some f)) l'.
  Proof.
    intros R Hb R2 Hh R5 Hf s k A V. apply evs_call. cbn [body]. unfold statement. ev. apply evs_call. cbn [body]. unfold try_stmt. ev.
    eapply evs_then; [eapply Hb; [eassumption|exact V]|]. cbn beta. intros s52 k52 A52 V52 _. ev.
    rewrite R2. ev. eapply evs_then; [eapply Hh; [eassumption|congruence]|]. cbn beta. intros s53 k53 A53 V53 _. ev.
    apply evs_call. cbn [body]. unfold finally_clause. ev.
    eapply evs_then; [eapply Hf; [eassumption|congruence]|]. cbn beta. intros s54 k54 A54 V54 _. ev. finish.
  Qed.
End Stmts.
