(** C68: members, calls, indexing and tagged templates. *)
From Verif Require Operators.
From Verif Require Export Lexer Spec Runs Safe Chains Properties1 Properties2 Properties3 Properties5 Properties21 Properties22 Properties26.
Local Open Scope string_scope.
Local Open Scope list_scope.

(** *** C68
    What a chain begins with: a primary expression or [new] and what belongs to it, read as if it
    stood alone. *)
Inductive begins (g : cfg) : state -> Expr -> state -> Prop :=
| begins_new s e u s' : it_tok (st_look s) = TKeyword KNew ->
    returns (fun n => run_call (@body) g n CNewExpr (alone s)) (Ok e) u -> same_but_6 u s' -> begins g s e s'
| begins_primary s e u s' : it_tok (st_look s) <> TKeyword KNew ->
    returns (fun n => run_call (@body) g n CPrimaryExpression (alone s)) (Ok e) u -> same_but_6 u s' -> begins g s e s'.
(** One link. *)
Inductive link : Type := LName (w : text) | LIndex (p : Expr) | LCall (l : list Expr) | LTemplate (q : TemplateLiteral).
Definition linked (e : Expr) (k : link) : Expr :=
  match k with
  | LName w => EMember e (EIdent w) false
  | LIndex p => EMember e p true
  | LCall l => ECall e l
  | LTemplate q => ETaggedTemplate e q
  end.
Inductive one_link (g : cfg) : state -> link -> state -> Prop :=
| link_name s s1 w s' : passes g (TPunct PPeriod) s s1 -> passes g (it_tok (st_look s1)) s1 s' ->
    slice (g_stream g) (it_start (st_look s1)) (it_end (st_look s1)) = Some w -> one_link g s (LName w) s'
| link_index s s1 p s2 s' : passes g (TPunct POpenBracket) s s1 -> returns (fun n => parse_expression g n s1) (Ok p) s2 ->
    passes g (TPunct PCloseBracket) s2 s' -> one_link g s (LIndex p) s'
| link_call s s1 l s2 s' : passes g (TPunct POpenParen) s s1 -> arguments g s1 l s2 -> passes g (TPunct PCloseParen) s2 s' -> one_link g s (LCall l) s'
| link_template s q s' : (exists x, it_tok (st_look s) = TTemplate x /\ (x = THead \/ x = TNoSub)) ->
    returns (fun n => run_call (@body) g n CTemplateLiteral s) (Ok q) s' -> one_link g s (LTemplate q) s'.
(** Links, one after the other. *)
Inductive links (g : cfg) : state -> list link -> state -> Prop :=
| links_nil s : links g s [] s
| links_more s k s1 l s' : one_link g s k s1 -> links g s1 l s' -> links g s (k :: l) s'.
(** What no link begins with. *)
Definition links_over (t : token) : Prop :=
  t <> TPunct PPeriod /\ t <> TPunct POpenBracket /\ t <> TPunct POpenParen /\ t <> TTemplate THead /\ t <> TTemplate TNoSub.
(** Inside a chain [in] is the operator again, whatever it is around it. *)
Definition within (b : bool) (s : state) : state := upd_ctx (set_allow_in b) s.

Lemma begins_head g s e s' : begins g s e s' <-> Chains.head g s e s'.
Proof.
  unfold Chains.head, head_call. split.
  - intros [s1 e1 u s2 T R Q|s1 e1 u s2 T R Q]; exists u; (split; [|apply same_sames; exact Q]).
    + rewrite T. exact R.
    + destruct (is_keyword KNew _) eqn:K; [|exact R]. exfalso. apply T. destruct (it_tok (st_look s1)); try discriminate K. destruct k; discriminate K || reflexivity.
  - intros (u & R & Q). apply same_sames in Q. destruct (is_keyword KNew _) eqn:K.
    + eapply begins_new; eauto. destruct (it_tok (st_look s)); try discriminate K. destruct k; discriminate K || reflexivity.
    + eapply begins_primary; eauto. intros E. rewrite E in K. discriminate K.
Qed.
Lemma over_linker t : links_over t <-> linker t = false.
Proof.
  unfold links_over, linker. split.
  - intros (A & B & C & D & E). rewrite (is_not PPeriod), (is_not POpenParen), (is_not POpenBracket) by assumption. cbn [orb].
    destruct t as [| | | | | | | | |x|]; try reflexivity. destruct x; reflexivity || contradiction.
  - intros H. repeat split; intros ->; discriminate H.
Qed.
Lemma template_head t : (exists x, t = TTemplate x /\ (x = THead \/ x = TNoSub)) <-> is_template_head t = true.
Proof.
  split; [intros (x & -> & [-> | ->]); reflexivity|]. intros H. destruct t as [| | | | | | | | |x|]; try discriminate H.
  exists x. split; [reflexivity|]. destruct x; discriminate H || auto.
Qed.
Lemma links_chain g s l t : links g s l t -> links_over (it_tok (st_look t)) -> forall e, chain g s e (fold_left linked l e) t.
Proof.
  induction 1 as [s|s k s1 l s' K L IH]; intros O e.
  - apply chain_end; [apply sames_refl|apply over_linker; exact O].
  - specialize (IH O (linked e k)). cbn [fold_left]. destruct K as [s s0 w s1 P1 P2 W|s s0 p s2 s1 P1 R P2|s s0 a s2 s1 P1 A P2|s q s1 T R]; cbn [linked] in *.
    + eapply chain_dot; eauto.
    + eapply chain_index; eauto.
    + apply arguments_argl in A. eapply chain_call; eauto.
    + apply template_head in T. eapply chain_template; eauto.
Qed.
Lemma chain_links g s e x s' : chain g s e x s' -> forall t, sames s t ->
  exists l t', links g t l t' /\ links_over (it_tok (st_look t')) /\ sames t' s' /\ x = fold_left linked l e.
Proof.
  induction 1 as [s e s' Q N|s s1 s2 w e x s' P1 P2 W C IH|s s1 a s2 s3 e x s' P1 A P2 C IH|s s1 p s2 s3 e x s' P1 R P2 C IH|s q s1 e x s' T R C IH]; intros t H.
  - exists [], t. split; [constructor|]. split; [rewrite (sames_tok _ _ H); apply over_linker; exact N|]. split; [|reflexivity].
    eapply sames_trans; [apply sames_sym; exact H|exact Q].
  - destruct (passes_sames _ _ _ _ _ P1 H) as (t1 & P1' & H1). destruct (passes_sames _ _ _ _ _ P2 H1) as (t2 & P2' & H2).
    destruct (IH t2 H2) as (l & t' & L & O & Q & E). exists (LName w :: l), t'. split; [|auto]. econstructor; [|exact L].
    eapply link_name; [exact P1'|rewrite (sames_tok _ _ H1); exact P2'|rewrite (sames_look _ _ H1); exact W].
  - destruct (passes_sames _ _ _ _ _ P1 H) as (t1 & P1' & H1). apply (argl_from _ _ _ _ _ A) in H1. apply argl_arguments in H1 as (t2 & A' & Q2).
    destruct (passes_sames _ _ _ _ _ P2 (sames_sym _ _ Q2)) as (t3 & P3 & H3). destruct (IH t3 H3) as (l & t' & L & O & Q & E).
    exists (LCall a :: l), t'. split; [|auto]. econstructor; [|exact L]. eapply link_call; eauto.
  - destruct (passes_sames _ _ _ _ _ P1 H) as (t1 & P1' & H1). destruct (expression_sames _ _ _ _ _ H1 R) as (t2 & R' & H2).
    destruct (passes_sames _ _ _ _ _ P2 H2) as (t3 & P3 & H3). destruct (IH t3 H3) as (l & t' & L & O & Q & E).
    exists (LIndex p :: l), t'. split; [|auto]. econstructor; [|exact L]. eapply link_index; eauto.
  - destruct (ends_all g _ _ (template_all g) _ _ _ _ R H) as (t1 & R' & H1). destruct (IH t1 H1) as (l & t' & L & O & Q & E).
    exists (LTemplate q :: l), t'. split; [|auto]. econstructor; [|exact L]. eapply link_template; [rewrite (sames_tok _ _ H); apply template_head; exact T|exact R'].
Qed.
Lemma returned_in g B (c : call B) s b s' : returns (fun n => run_call (@body) g n c s) (Ok b) s' -> c_allow_in (st_ctx s') = c_allow_in (st_ctx s).
Proof. intros [_ [n R]]. apply C30_context_restored in R. tauto. Qed.
Lemma begins_in g s e s' : begins g s e s' -> c_allow_in (st_ctx s') = c_allow_in (st_ctx s).
Proof.
  intros [s1 e1 u s2 T R Q|s1 e1 u s2 T R Q]; apply returned_in in R; apply same_sames in Q; rewrite (sames_in _ _ Q), R; unfold alone; cbn; destruct (st_ctx s1); reflexivity.
Qed.
Lemma arguments_in g s l s' : arguments g s l s' -> c_allow_in (st_ctx s') = c_allow_in (st_ctx s).
Proof.
  induction 1 as [s T|s e s' G T|s e s1 s2 l s' G P1 _ IH]; [reflexivity|exact (given_in _ _ _ _ G)|].
  rewrite IH, (passes_ctx _ _ _ _ P1). exact (given_in _ _ _ _ G).
Qed.
Lemma links_in g s l s' : links g s l s' -> c_allow_in (st_ctx s') = c_allow_in (st_ctx s).
Proof.
  induction 1 as [s|s k s1 l s' K L IH]; [reflexivity|]. rewrite IH. clear L IH.
  destruct K as [s s0 w s1 P1 P2 W|s s0 p s2 s1 P1 R P2|s s0 a s2 s1 P1 A P2|s q s1 T R].
  - rewrite (passes_ctx _ _ _ _ P2), (passes_ctx _ _ _ _ P1). reflexivity.
  - rewrite (passes_ctx _ _ _ _ P2), (returned_in g _ CExpression _ _ _ R), (passes_ctx _ _ _ _ P1). reflexivity.
  - rewrite (passes_ctx _ _ _ _ P2), (arguments_in _ _ _ _ A), (passes_ctx _ _ _ _ P1). reflexivity.
  - exact (returned_in _ _ _ _ _ _ R).
Qed.
Lemma within_id b s : c_allow_in (st_ctx s) = b -> within b s = s.
Proof. intros <-. destruct s. unfold within, upd_ctx. cbn. f_equal. destruct st_ctx. reflexivity. Qed.

(** A left-hand side is what it begins with and the links after it, each applied to what is before
    it; as many as there are, and nothing else is read.  (Not for [async], which may begin a function,
    nor for [super]; and the tolerant flag is off, as in C67.) *)
Theorem C68_chain : forall g s w x t, g_tolerant g = false ->
  slice (g_stream g) (it_start (st_look s)) (it_end (st_look s)) = Some w -> w <> str "async" -> it_tok (st_look s) <> TKeyword KSuper ->
  (exists s', returns (fun n => run_call (@body) g n CLeftHandSideExprAllowCall s) (Ok x) s' /\ same_but_6 s' t)
  <-> (exists e s1 l s2, begins g (within true s) e s1 /\ links g s1 l s2 /\ links_over (it_tok (st_look s2)) /\ x = fold_left linked l e
       /\ same_but_6 (within (c_allow_in (st_ctx s)) s2) t).
Proof.
  intros g s w x t T W A K. assert (NA : not_async g s) by (exists w; auto). split.
  - intros (s' & R & Q). apply same_sames in Q. destruct (run_lhs g T s x s' NA K R) as (e & s1 & s2 & Hd & C & ->). apply begins_head in Hd.
    destruct (chain_links _ _ _ _ _ C s1 (sames_refl s1)) as (l & t2 & L & O & Q2 & ->). exists e, s1, l, t2. split; [exact Hd|]. split; [exact L|]. split; [exact O|].
    split; [reflexivity|]. apply same_sames. eapply sames_trans; [apply with_in_sames; exact Q2|exact Q].
  - intros (e & s1 & l & s2 & Hd & L & O & -> & Q). apply same_sames in Q. apply begins_head in Hd. pose proof (links_chain _ _ _ _ L O e) as C.
    destruct (lhs_run g T s e s1 _ s2 s NA K Hd C (sames_refl s)) as (t' & R & H). exists t'. split; [exact R|]. apply same_sames.
    eapply sames_trans; [apply sames_sym; exact H|exact Q].
Qed.
Print Assumptions C68_chain.

(** A chain before which nothing stands, and after which the expression or the element ends, is an
    element: the operators read nothing more. *)
Definition no_operator (t : token) : Prop :=
  ~ In t [TPunct PIncrement; TPunct PDecrement; TPunct PPlus; TPunct PMinus; TPunct PBitwiseNot; TPunct PNot;
          TKeyword KDelete; TKeyword KVoid; TKeyword KTypeOf; TKeyword KAwait; TKeyword KYield; TKeyword KSuper].
Lemma no_operator_prefix t : no_operator t -> no_prefix t.
Proof.
  unfold no_operator, no_prefix. cbn [In]. intros H.
  assert (Kw : forall k, t <> TKeyword k -> is_keyword k t = false).
  { intros k N. destruct (is_keyword k t) eqn:E; [|reflexivity]. exfalso. apply N. apply Operators.is_keyword_eq in E. exact E. }
  rewrite !is_not by (intros E; apply H; rewrite <- E; tauto). rewrite !Kw by (intros E; apply H; rewrite <- E; tauto). auto.
Qed.
Theorem C68_element : forall g s w e s1 l t, g_tolerant g = false -> c_allow_in (st_ctx s) = true ->
  slice (g_stream g) (it_start (st_look s)) (it_end (st_look s)) = Some w -> w <> str "async" -> no_operator (it_tok (st_look s)) ->
  begins g s e s1 -> links g s1 l t -> (l = [] -> forall a b, e <> EArrowParamPlaceHolder a b) ->
  In (it_tok (st_look t)) (TPunct PComma :: no_more) -> element g s (fold_left linked l e) t.
Proof.
  intros g s w e s1 l t T A W N No B L Np F.
  assert (F' : In (it_tok (st_look t)) closers) by (unfold no_more, closers in *; cbn [In] in *; tauto).
  assert (O : links_over (it_tok (st_look t))).
  { unfold closers in F'. cbn [In] in F'. repeat split; intros E; rewrite E in F'; decompose [or] F'; try contradiction; discriminate. }
  assert (K : it_tok (st_look s) <> TKeyword KSuper) by (intros E; apply No; rewrite E; cbn [In]; tauto).
  assert (At : c_allow_in (st_ctx t) = true) by (rewrite (links_in _ _ _ _ L), (begins_in _ _ _ _ B); exact A).
  assert (Pl : is_placeholder (fold_left linked l e) = false).
  { destruct l as [|k l]; [cbn [fold_left]; destruct e; try reflexivity; exfalso; eapply Np; reflexivity|]. clear. cbn [fold_left].
    assert (H : is_placeholder (linked e k) = false) by (destruct k; reflexivity). revert H. generalize (linked e k). clear. induction l as [|k l IH]; intros e H; [exact H|].
    apply IH. destruct k; reflexivity. }
  assert (M : forall u, sames s u -> Forward.evs g (Call CLeftHandSideExprAllowCall) u (Post2 t (fold_left linked l e))).
  { intros u H. rewrite <- (within_id true s A) in B. apply begins_head in B. assert (NA : not_async g s) by (exists w; auto).
    destruct (lhs_run g T s e s1 _ t u NA K B (links_chain _ _ _ _ L O e) H) as (u' & [_ [n R]] & Q).
    rewrite A in Q. change (sames (within true t) u') in Q. rewrite (within_id true t At) in Q. exists n, (fold_left linked l e), u'. split; [exact R|]. split; [reflexivity|exact Q]. }
  destruct (Chains.reads_assignment g s t _ M Pl (no_operator_prefix _ No) F' (ex_intro _ w W) (alone s) (cleared_sames s)) as (n & a & u & R & -> & Q).
  exists u. split; [split; [discriminate|exists n; exact R]|]. apply same_sames. apply sames_sym. exact Q.
Qed.
Print Assumptions C68_element.
Theorem C68_expression : forall g s w e s1 l t, g_tolerant g = false -> c_allow_in (st_ctx s) = true ->
  slice (g_stream g) (it_start (st_look s)) (it_end (st_look s)) = Some w -> w <> str "async" -> no_operator (it_tok (st_look s)) ->
  begins g s e s1 -> links g s1 l t -> (l = [] -> forall a b, e <> EArrowParamPlaceHolder a b) ->
  In (it_tok (st_look t)) no_more ->
  exists s', returns (fun n => parse_expression g n s) (Ok (fold_left linked l e)) s' /\ same_but_6 s' t.
Proof.
  intros g s w e s1 l t T A W N No B L Np F. apply C67_sequence. exists [fold_left linked l e]. split; [|split; [|reflexivity]].
  - constructor. eapply C68_element; eauto. right. exact F.
  - intros E. rewrite E in F. unfold no_more in F. cbn [In] in F. decompose [or] F; try contradiction; discriminate.
Qed.
Print Assumptions C68_expression.
(** As a whole text. *)
Theorem C68_text : forall sc module js s w e s1 l t, let g := make_cfg sc false module js in c_allow_in (st_ctx s) = true ->
  slice (g_stream g) (it_start (st_look s)) (it_end (st_look s)) = Some w -> w <> str "async" -> no_operator (it_tok (st_look s)) ->
  begins g s e s1 -> links g s1 l t -> l <> [] -> it_tok (st_look t) = TEoF -> starts_expression g s ->
  let x := PPStmt (SExpr (fold_left linked l e)) in
  exists s', returns (fun n => parse g n s) (Ok (if module then PMod [x] else PScript [x])) s'.
Proof.
  intros sc module js s w e s1 l t g A W N No B L Ne E St x.
  destruct (C68_expression g s w e s1 l t eq_refl A W N No B L) as (u & R & Q); [contradiction|rewrite E; left; reflexivity|].
  apply same_but_6_look in Q. apply (C62_text sc false module js s _ u St); [|exact R|congruence].
  intros _ lit X. assert (K : forall l0 k e0, fold_left linked (k :: l0) e0 <> ELiteral lit).
  { clear. induction l0 as [|k' l0 IH]; intros k e0; [destruct k; discriminate|]. apply (IH k' (linked e0 k)). }
  destruct l as [|k l]; [contradiction|]. exact (K _ _ _ X).
Qed.
Print Assumptions C68_text.

(** A concrete case: all four kinds of link. *)
Definition after_call (g : cfg) B (c : call B) (s : state) : state := snd (run_call (@body) g 100 c s).
Lemma returned g B (c : call B) s b : fst (run_call (@body) g 100 c s) = Ok b -> returns (fun n => run_call (@body) g n c s) (Ok b) (after_call g B c s).
Proof. intros R. split; [discriminate|]. exists 100. unfold after_call. rewrite <- R. apply surjective_pairing. Qed.
Example C68_case : let g := ex_cfg "a.if[b, c](d, ...e)`f`" in let s := ex_start "a.if[b, c](d, ...e)`f`" in
  exists s1 q t, begins g s (EIdent (str "a")) s1
  /\ links g s1 [LName (str "if"); LIndex (ESequence [EIdent (str "b"); EIdent (str "c")]); LCall [EIdent (str "d"); ESpread (EIdent (str "e"))]; LTemplate q] t
  /\ c_allow_in (st_ctx s) = true /\ no_operator (it_tok (st_look s)) /\ starts_expression g s /\ it_tok (st_look t) = TEoF.
Proof.
  set (g := ex_cfg "a.if[b, c](d, ...e)`f`"). set (s := ex_start "a.if[b, c](d, ...e)`f`"). cbn zeta.
  set (s1 := after_call g _ CPrimaryExpression (alone s)). set (s2 := after_next g s1). set (s3 := after_next g s2). set (s4 := after_next g s3).
  set (s5 := after_call g _ CExpression s4). set (s6 := after_next g s5). set (s7 := after_next g s6). set (s8 := after_element g s7). set (s9 := after_next g s8).
  set (s10 := after_next g s9). set (s11 := after_element g s10). set (s12 := after_next g s11). set (s13 := after_call g _ CTemplateLiteral s12).
  exists s1. eexists. exists s13. split; [|split; [|split; [reflexivity|split; [|split; [|vm_compute; reflexivity]]]]].
  - eapply (begins_primary g s _ s1); [vm_compute; discriminate|apply returned; vm_compute; reflexivity|apply same_sames; apply sames_refl].
  - eapply links_more; [eapply (link_name g s1 s2 _ s3); [eapply passes_run; vm_compute; reflexivity|eapply passes_run; vm_compute; reflexivity|vm_compute; reflexivity]|].
    eapply links_more; [eapply (link_index g s3 s4 _ s5 s6); [eapply passes_run; vm_compute; reflexivity|apply (returned g _ CExpression s4); vm_compute; reflexivity|eapply passes_run; vm_compute; reflexivity]|].
    eapply links_more; [eapply (link_call g s6 s7 _ s11 s12); [eapply passes_run; vm_compute; reflexivity| |eapply passes_run; vm_compute; reflexivity]|].
    { eapply arguments_more; [apply given_element; apply (element_run g s7); vm_compute; reflexivity|eapply (passes_run g s8); vm_compute; reflexivity|].
      apply arguments_last; [eapply given_spread; [eapply (passes_run g s9); vm_compute; reflexivity|apply (element_run g s10); vm_compute; reflexivity]|vm_compute; reflexivity]. }
    eapply links_more; [eapply (link_template g s12 _ s13); [exists TNoSub; split; [vm_compute; reflexivity|auto]|apply returned; vm_compute; reflexivity]|]. apply links_nil.
  - intros H. vm_compute in H. decompose [or] H; try contradiction; discriminate.
  - vm_compute. eexists. split; [reflexivity|]. discriminate.
Qed.
Example C68_case_text : exists q, fst (parse (ex_cfg "a.if[b, c](d, ...e)`f`") 100 (ex_start "a.if[b, c](d, ...e)`f`"))
  = Ok (PScript [PPStmt (SExpr (ETaggedTemplate (ECall (EMember (EMember (EIdent (str "a")) (EIdent (str "if")) false)
      (ESequence [EIdent (str "b"); EIdent (str "c")]) true) [EIdent (str "d"); ESpread (EIdent (str "e"))]) q))]).
Proof. eexists. vm_compute. reflexivity. Qed.
(** [new a(b)] takes the first arguments with it; what follows are links. *)
Example C68_new : exists s1 t, let g := ex_cfg "new a(b)(c)" in begins g (ex_start "new a(b)(c)") (ENew (EIdent (str "a")) [EIdent (str "b")]) s1
  /\ links g s1 [LCall [EIdent (str "c")]] t /\ it_tok (st_look t) = TEoF.
Proof.
  set (g := ex_cfg "new a(b)(c)"). set (s := ex_start "new a(b)(c)"). cbn zeta.
  set (s1 := after_call g _ CNewExpr (alone s)). set (s2 := after_next g s1). set (s3 := after_element g s2). set (s4 := after_next g s3). exists s1, s4.
  split; [|split; [|vm_compute; reflexivity]].
  - eapply (begins_new g s _ s1); [vm_compute; reflexivity|apply returned; vm_compute; reflexivity|apply same_sames; apply sames_refl].
  - eapply links_more; [|apply links_nil]. eapply (link_call g s1 s2 _ s3 s4); [eapply passes_run; vm_compute; reflexivity| |eapply passes_run; vm_compute; reflexivity].
    apply arguments_last; [apply given_element; apply (element_run g s2); vm_compute; reflexivity|vm_compute; reflexivity].
Qed.
(** [async] has to be left out: its arguments may be the parameters of an arrow function. *)
Theorem C68_async_needed : exists g s x s', g_tolerant g = false /\ returns (fun n => run_call (@body) g n CLeftHandSideExprAllowCall s) (Ok x) s'
  /\ ~ exists e s1 l s2, begins g (within true s) e s1 /\ links g s1 l s2 /\ x = fold_left linked l e.
Proof.
  set (g := ex_cfg "async (a) => b"). set (s := ex_start "async (a) => b").
  exists g, s. eexists. exists (after_call g _ CLeftHandSideExprAllowCall s). split; [reflexivity|]. split; [apply returned; vm_compute; reflexivity|].
  intros (e & s1 & l & s2 & B & _ & X).
  assert (K : forall l0 k e0, is_placeholder (fold_left linked (k :: l0) e0) = false).
  { clear. induction l0 as [|k' l0 IH]; intros k e0; [destruct k; reflexivity|]. apply (IH k' (linked e0 k)). }
  destruct l as [|k l]; [|apply (f_equal is_placeholder) in X; rewrite K in X; discriminate X]. cbn [fold_left] in X.
  inversion B as [u e0 u1 u2 T R Q|u e0 u1 u2 T R Q]; subst; [vm_compute in T; discriminate T|].
  change (ends g (Call CPrimaryExpression) (alone (within true s)) (Ok (EArrowParamPlaceHolder [FAExpr (EIdent (str "a"))] true)) u1) in R.
  assert (R2 : ends g (Call CPrimaryExpression) (alone (within true s)) (Ok (EIdent (str "async"))) (after_call g _ CPrimaryExpression (alone (within true s))))
    by (apply returned; vm_compute; reflexivity).
  destruct (ends_fun _ _ _ _ _ _ _ _ R R2) as [E _]. discriminate E.
Qed.
Print Assumptions C68_async_needed.
