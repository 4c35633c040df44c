(** C67: lists of expressions. *)
From Verif Require Export Lexer Spec Runs Safe Lists Properties1 Properties2 Properties3 Properties5 Properties21 Properties22.
Local Open Scope string_scope.
Local Open Scope list_scope.

(** *** C67
    One element: an assignment expression, read as if it stood alone.  The six flags of the context
    C62 leaves out (the three of the cover grammar, the two of loops and switches, which are restored,
    and the one of directives) are left out here too. *)
Definition alone (s : state) : state :=
  upd_ctx (fun c => set_first_covert None (set_assign_target true (set_binding_element true c))) s.
Definition element (g : cfg) (s : state) (e : Expr) (s' : state) : Prop :=
  exists u, returns (fun n => run_call (@body) g n CAssignmentExpr (alone s)) (Ok e) u /\ same_but_6 u s'.
(** One element, or [...] and one. *)
Inductive given (g : cfg) : state -> Expr -> state -> Prop :=
| given_element s e s' : element g s e s' -> given g s e s'
| given_spread s s1 e s' : passes g (TPunct PSpread) s s1 -> element g s1 e s' -> given g s (ESpread e) s'.

(** Expression: elements with commas between them. *)
Inductive comma_list (g : cfg) : state -> list Expr -> state -> Prop :=
| comma_one s e s' : element g s e s' -> comma_list g s [e] s'
| comma_more s e s1 s2 l s' : element g s e s1 -> passes g (TPunct PComma) s1 s2 -> comma_list g s2 l s' -> comma_list g s (e :: l) s'.
(** What is between the brackets of an array literal: a comma with no element before it is a hole, and
    one at the end after an element adds nothing. *)
Inductive array_items (g : cfg) : state -> list (option Expr) -> state -> Prop :=
| items_nil s : it_tok (st_look s) = TPunct PCloseBracket -> array_items g s [] s
| items_hole s s1 l s' : passes g (TPunct PComma) s s1 -> array_items g s1 l s' -> array_items g s (None :: l) s'
| items_last s e s' : given g s e s' -> it_tok (st_look s') = TPunct PCloseBracket -> array_items g s [Some e] s'
| items_more s e s1 s2 l s' : given g s e s1 -> passes g (TPunct PComma) s1 s2 -> array_items g s2 l s' -> array_items g s (Some e :: l) s'.
Definition array (g : cfg) (s : state) (l : list (option Expr)) (s' : state) : Prop :=
  exists s1 s2, passes g (TPunct POpenBracket) s s1 /\ array_items g s1 l s2 /\ passes g (TPunct PCloseBracket) s2 s'.
(** Arguments: no holes; a comma at the end adds nothing. *)
Inductive arguments (g : cfg) : state -> list Expr -> state -> Prop :=
| arguments_nil s : it_tok (st_look s) = TPunct PCloseParen -> arguments g s [] s
| arguments_last s e s' : given g s e s' -> it_tok (st_look s') = TPunct PCloseParen -> arguments g s [e] s'
| arguments_more s e s1 s2 l s' : given g s e s1 -> passes g (TPunct PComma) s1 s2 -> arguments g s2 l s' -> arguments g s (e :: l) s'.

Lemma element_elem g s e s' : element g s e s' <-> elem g s e s'.
Proof. split; intros (u & R & Q); exists u; (split; [exact R|]); apply same_sames; exact Q. Qed.
Lemma given_val g s e s' : given g s e s' <-> val g s e s'.
Proof.
  split.
  - intros [s1 e1 s2 E|s1 s2 e1 s3 P E]; apply element_elem in E; [left; exact E|right; exists s2, e1; auto].
  - intros [E|(s1 & a & P & E & ->)]; apply element_elem in E; [apply given_element|eapply given_spread]; eauto.
Qed.
Lemma given_to g s e s' t : given g s e s' -> sames s' t -> given g s e t.
Proof. intros G H. apply given_val. eapply val_to; [apply given_val; exact G|exact H]. Qed.
Lemma comma_seq g s l s' : comma_list g s l s' <-> Lists.seq g s l s'.
Proof.
  split; (induction 1 as [s e s' E|s e s1 s2 l s' E P1 _ IH]; [apply element_elem in E; constructor; exact E|]);
    apply element_elem in E; econstructor; eauto.
Qed.
Lemma items_arr g s l s' : array_items g s l s' -> arr g s l s'.
Proof.
  induction 1 as [s T|s s1 l s' P1 _ IH|s e s' G T|s e s1 s2 l s' G P1 _ IH].
  - constructor; [apply sames_refl|exact T].
  - eapply arr_hole; eauto.
  - apply given_val in G. eapply arr_last; eauto. apply sames_refl.
  - apply given_val in G. eapply arr_more; eauto.
Qed.
Lemma arr_items g s l s' : arr g s l s' -> exists t, array_items g s l t /\ sames t s'.
Proof.
  induction 1 as [s s' Q T|s s1 l s' P1 _ (t & A & Q)|s e s1 s' G T Q|s e s1 s2 l s' G P1 _ (t & A & Q)].
  - exists s. split; [constructor; exact T|exact Q].
  - exists t. split; [eapply items_hole; eauto|exact Q].
  - apply given_val in G. exists s1. split; [eapply items_last; eauto|exact Q].
  - apply given_val in G. exists t. split; [eapply items_more; eauto|exact Q].
Qed.
Lemma arguments_argl g s l s' : arguments g s l s' -> argl g s l s'.
Proof.
  induction 1 as [s T|s e s' G T|s e s1 s2 l s' G P1 _ IH].
  - constructor; [apply sames_refl|exact T].
  - apply given_val in G. eapply argl_last; eauto. apply sames_refl.
  - apply given_val in G. eapply argl_more; eauto.
Qed.
Lemma argl_arguments g s l s' : argl g s l s' -> exists t, arguments g s l t /\ sames t s'.
Proof.
  induction 1 as [s s' Q T|s e s1 s' G T Q|s e s1 s2 l s' G P1 _ (t & A & Q)].
  - exists s. split; [constructor; exact T|exact Q].
  - apply given_val in G. exists s1. split; [eapply arguments_last; eauto|exact Q].
  - apply given_val in G. exists t. split; [eapply arguments_more; eauto|exact Q].
Qed.
Lemma element_in g s e s' : element g s e s' -> c_allow_in (st_ctx s') = c_allow_in (st_ctx s).
Proof.
  intros (u & [_ [n R]] & Q). apply same_sames in Q. apply C30_context_restored in R. rewrite (sames_in _ _ Q).
  transitivity (c_allow_in (st_ctx (alone s))); [tauto|]. unfold alone. cbn. destruct (st_ctx s). reflexivity.
Qed.
Lemma given_in g s e s' : given g s e s' -> c_allow_in (st_ctx s') = c_allow_in (st_ctx s).
Proof. intros [s1 e1 s2 E|s1 s2 e1 s3 P E]; rewrite (element_in _ _ _ _ E); [reflexivity|]. rewrite (passes_ctx _ _ _ _ P). reflexivity. Qed.
Lemma items_in g s l s' : array_items g s l s' -> c_allow_in (st_ctx s') = c_allow_in (st_ctx s).
Proof.
  induction 1 as [s T|s s1 l s' P1 _ IH|s e s' G T|s e s1 s2 l s' G P1 _ IH]; [reflexivity|rewrite IH, (passes_ctx _ _ _ _ P1); reflexivity|exact (given_in _ _ _ _ G)|].
  rewrite IH, (passes_ctx _ _ _ _ P1). exact (given_in _ _ _ _ G).
Qed.

Lemma expression_sames g s u e s' : sames s u -> returns (fun n => parse_expression g n s) (Ok e) s' ->
  exists u', returns (fun n => parse_expression g n u) (Ok e) u' /\ sames s' u'.
Proof.
  intros H [_ [n R]]. destruct (expression_all g n s u H) as [V Q]. unfold parse_expression in R. rewrite R in V, Q.
  destruct (run_call (@body) g n CExpression u) as [o2 t2] eqn:R2. cbn [fst snd] in V, Q. apply outcomes_eq in V. subst o2.
  exists t2. split; [split; [discriminate|exists n; exact R2]|exact Q].
Qed.

(** A whole expression is its elements, as many as there are commas between them, and nothing else is. *)
Theorem C67_sequence : forall g s x t,
  (exists s', returns (fun n => parse_expression g n s) (Ok x) s' /\ same_but_6 s' t)
  <-> (exists l, comma_list g s l t /\ it_tok (st_look t) <> TPunct PComma /\ x = match l with [e] => e | _ => ESequence l end).
Proof.
  intros g s x t. split.
  - intros (s' & R & Q). apply same_sames in Q. destruct (run_seq g s x s' R) as (l & S & N & ->). exists l. split; [|split; [|reflexivity]].
    + apply comma_seq. clear R N. revert Q. induction S as [s e s' E|s e s1 s2 l s' E P1 _ IH]; intros Q; [constructor; eapply elem_to; eauto|econstructor; eauto].
    + rewrite (sames_tok _ _ Q). exact N.
  - intros (l & S & N & ->). apply comma_seq in S. destruct (seq_run g s l t s S N (sames_refl s)) as (t' & R & Q). exists t'.
    split; [exact R|]. apply same_sames. apply sames_sym. exact Q.
Qed.
Print Assumptions C67_sequence.

(** The array literals are the lists of elements in brackets. *)
Theorem C67_array : forall g s x t,
  (exists s', returns (fun n => run_call (@body) g n CArrayInit s) (Ok x) s' /\ same_but_6 s' t)
  <-> (exists l t', array g s l t' /\ same_but_6 t' t /\ x = EArray l).
Proof.
  intros g s x t. split.
  - intros (s' & R & Q). destruct (run_init g s x s' R) as (l & s1 & s2 & -> & P1 & A & P2). apply arr_items in A as (t2 & A & Q2).
    destruct (passes_sames _ _ _ _ _ P2 (sames_sym _ _ Q2)) as (t3 & P3 & Q3). exists l, t3. split; [exists s1, t2; auto|]. split; [|reflexivity].
    apply same_sames in Q. apply same_sames. eapply sames_trans; [apply sames_sym; exact Q3|exact Q].
  - intros (l & t' & (s1 & s2 & P1 & A & P2) & Q & ->). apply items_arr in A. destruct (init_run g s s1 l s2 t' s P1 A P2 (sames_refl s)) as (u & R & H).
    exists u. split; [exact R|]. apply same_sames in Q. apply same_sames. eapply sames_trans; [apply sames_sym; exact H|exact Q].
Qed.
Print Assumptions C67_array.

Lemma literal_made g s l t : array g s l t -> forall u, sames s u -> Forward.evs g (Call CArrayInit) u (Lists.Post t l).
Proof.
  intros (s1 & s2 & P1 & A & P2) u H. apply items_arr in A. destruct (init_run g s s1 l s2 t u P1 A P2 H) as (u' & [_ [n R]] & Q).
  exists n, (EArray l), u'. split; [exact R|]. split; [reflexivity|exact Q].
Qed.
Lemma array_in g s l t : array g s l t -> c_allow_in (st_ctx t) = c_allow_in (st_ctx s).
Proof. intros (s1 & s2 & P1 & A & P2). rewrite (passes_ctx _ _ _ _ P2), (items_in _ _ _ _ A), (passes_ctx _ _ _ _ P1). reflexivity. Qed.

(** So such a list is an element itself, and an expression. *)
Theorem C67_array_element : forall g s l t, c_allow_in (st_ctx s) = true -> has_text g (st_look s) ->
  array g s l t -> In (it_tok (st_look t)) (TPunct PComma :: no_more) -> element g s (EArray l) t.
Proof.
  intros g s l t A W Ar F. assert (K : c_allow_in (st_ctx t) = true) by (rewrite (array_in _ _ _ _ Ar); exact A).
  assert (F' : In (it_tok (st_look t)) closers).
  { unfold no_more, closers in *. cbn [In] in *. tauto. }
  pose proof Ar as (s1 & s2 & (T & _) & _).
  destruct (Lists.reads_assignment g s t l T (literal_made _ _ _ _ Ar) F' W A K (alone s) (cleared_sames s)) as (n & e & u & R & -> & Q).
  exists u. split; [split; [discriminate|exists n; exact R]|]. apply same_sames. apply sames_sym. exact Q.
Qed.
Print Assumptions C67_array_element.
Theorem C67_array_expression : forall g s l t, c_allow_in (st_ctx s) = true -> has_text g (st_look s) ->
  array g s l t -> In (it_tok (st_look t)) no_more ->
  exists s', returns (fun n => parse_expression g n s) (Ok (EArray l)) s' /\ same_but_6 s' t.
Proof.
  intros g s l t A W Ar F. apply C67_sequence. exists [EArray l]. split; [|split; [|reflexivity]].
  - constructor. eapply C67_array_element; eauto. right. exact F.
  - intros E. rewrite E in F. unfold no_more in F. cbn [In] in F. decompose [or] F; try contradiction; discriminate.
Qed.
Print Assumptions C67_array_expression.
(** An element may be put in parentheses; and an expression with commas has to be, to be an element. *)
Theorem C67_group_element : forall g s0 s1 e s2 s3, c_allow_in (st_ctx s0) = true -> has_text g (st_look s0) ->
  passes g (TPunct POpenParen) s0 s1 -> wrapped g e s1 s2 -> passes g (TPunct PCloseParen) s2 s3 ->
  In (it_tok (st_look s3)) (TPunct PComma :: no_more) -> element g s0 e s3.
Proof.
  intros g s0 s1 e s2 s3 A W P1 Wr P2 F.
  assert (A1 : c_allow_in (st_ctx s1) = true) by (rewrite (passes_ctx _ _ _ _ P1); exact A).
  destruct (C63_any_number g e s1 s2 Wr A1) as (t2 & R & Q). apply same_sames in Q. destruct (passes_sames _ _ _ _ _ P2 Q) as (t3 & P3 & Q3).
  destruct (passes_sames _ _ _ _ _ P1 (cleared_sames s0)) as (u1 & P1' & U1).
  destruct (expression_sames g s1 u1 e t2 U1 R) as (u2 & R' & U2). destruct (passes_sames _ _ _ _ _ P3 U2) as (u3 & P3' & U3).
  destruct (C63_elements g (cleared s0) u1 e u2 u3) as (t & R4 & Q4); [unfold cleared; cbn; destruct (st_ctx s0); exact A|exact W|exact P1'|exact R'|exact P3'|
    rewrite (sames_look _ _ U3), (sames_look _ _ Q3); exact F|].
  exists t. split; [exact R4|]. apply same_sames in Q4. apply same_sames. apply sames_sym.
  eapply sames_trans; [exact Q3|]. eapply sames_trans; [exact U3|exact Q4].
Qed.
Print Assumptions C67_group_element.

(** The arguments of a call and of [new], the tolerant flag being off. *)
Theorem C67_arguments : forall g s l t, g_tolerant g = false ->
  (exists s', returns (fun n => run_call (@body) g n CArgs s) (Ok l) s' /\ same_but_6 s' t)
  <-> (exists s1 s2 t', passes g (TPunct POpenParen) s s1 /\ arguments g s1 l s2 /\ passes g (TPunct PCloseParen) s2 t' /\ same_but_6 t' t).
Proof.
  intros g s l t T. split.
  - intros (s' & R & Q). destruct (run_args g T s l s' R) as (s1 & s2 & P1 & A & P2). apply argl_arguments in A as (t2 & A & Q2).
    destruct (passes_sames _ _ _ _ _ P2 (sames_sym _ _ Q2)) as (t3 & P3 & Q3). exists s1, t2, t3. split; [exact P1|]. split; [exact A|]. split; [exact P3|].
    apply same_sames in Q. apply same_sames. eapply sames_trans; [apply sames_sym; exact Q3|exact Q].
  - intros (s1 & s2 & t' & P1 & A & P2 & Q). apply arguments_argl in A. destruct (args_run g T s s1 l s2 t' s P1 A P2 (sames_refl s)) as (u & R & H).
    exists u. split; [exact R|]. apply same_sames in Q. apply same_sames. eapply sames_trans; [apply sames_sym; exact H|exact Q].
Qed.
Print Assumptions C67_arguments.

(** As a whole text. *)
Theorem C67_text : forall sc tolerant module js s l t, let g := make_cfg sc tolerant module js in
  c_allow_in (st_ctx s) = true -> has_text g (st_look s) -> array g s l t -> it_tok (st_look t) = TEoF ->
  exists s', returns (fun n => parse g n s) (Ok (if module then PMod [PPStmt (SExpr (EArray l))] else PScript [PPStmt (SExpr (EArray l))])) s'.
Proof.
  intros sc tolerant module js s l t g A W Ar E.
  destruct (C67_array_expression g s l t A W Ar) as (u & R & Q); [rewrite E; left; reflexivity|].
  apply same_but_6_look in Q. pose proof Ar as (s1 & s2 & (T1 & _) & _).
  apply (C62_text sc tolerant module js s (EArray l) u); [unfold starts_expression; cbn zeta; rewrite T1; split; discriminate| |exact R|congruence].
  intros [_ D]. rewrite T1 in D. discriminate D.
Qed.
Print Assumptions C67_text.

(** A concrete case: a hole, a spread element, a sequence in parentheses, an array in the array and a
    comma at the end; built from its parts. *)
Definition after_next (g : cfg) (s : state) : state := snd (next_item g s).
Definition after_element (g : cfg) (s : state) : state := snd (run_call (@body) g 100 CAssignmentExpr (alone s)).
Lemma element_run g s e : fst (run_call (@body) g 100 CAssignmentExpr (alone s)) = Ok e -> element g s e (after_element g s).
Proof.
  intros R. exists (after_element g s). split; [split; [discriminate|]; exists 100; unfold after_element; rewrite <- R; apply surjective_pairing|].
  apply same_sames. apply sames_refl.
Qed.
Lemma passes_run g s t i : it_tok (st_look s) = t -> fst (next_item g s) = Ok i -> passes g t s (after_next g s).
Proof. intros T R. split; [exact T|]. exists i. unfold after_next. rewrite <- R. apply surjective_pairing. Qed.
Example C67_case : let g := ex_cfg "[, ...a, (b, c), [d],]" in let s := ex_start "[, ...a, (b, c), [d],]" in
  exists t, array g s [None; Some (ESpread (EIdent (str "a"))); Some (ESequence [EIdent (str "b"); EIdent (str "c")]); Some (EArray [Some (EIdent (str "d"))])] t
  /\ c_allow_in (st_ctx s) = true /\ has_text g (st_look s) /\ it_tok (st_look t) = TEoF.
Proof.
  set (g := ex_cfg "[, ...a, (b, c), [d],]"). set (s := ex_start "[, ...a, (b, c), [d],]"). cbn zeta.
  set (s1 := after_next g s). set (s2 := after_next g s1). set (s3 := after_next g s2). set (s4 := after_element g s3). set (s5 := after_next g s4).
  set (s6 := after_element g s5). set (s7 := after_next g s6). set (s8 := after_element g s7). set (s9 := after_next g s8). set (s10 := after_next g s9).
  exists s10. split; [|split; [reflexivity|split; [eexists; vm_compute; reflexivity|vm_compute; reflexivity]]].
  exists s1, s9. split; [eapply passes_run; vm_compute; reflexivity|]. split; [|eapply passes_run; vm_compute; reflexivity].
  eapply items_hole; [eapply (passes_run g s1); vm_compute; reflexivity|].
  eapply items_more; [eapply given_spread; [eapply (passes_run g s2); vm_compute; reflexivity|apply (element_run g s3); vm_compute; reflexivity]|eapply (passes_run g s4); vm_compute; reflexivity|].
  eapply items_more; [eapply given_element; apply (element_run g s5); vm_compute; reflexivity|eapply (passes_run g s6); vm_compute; reflexivity|].
  eapply items_more; [eapply given_element; apply (element_run g s7); vm_compute; reflexivity|eapply (passes_run g s8); vm_compute; reflexivity|].
  apply items_nil. vm_compute. reflexivity.
Qed.
Example C67_case_text : fst (parse (ex_cfg "[, ...a, (b, c), [d],]") 100 (ex_start "[, ...a, (b, c), [d],]"))
  = Ok (PScript [PPStmt (SExpr (EArray [None; Some (ESpread (EIdent (str "a"))); Some (ESequence [EIdent (str "b"); EIdent (str "c")]); Some (EArray [Some (EIdent (str "d"))])]))]).
Proof. vm_compute. reflexivity. Qed.
Example C67_sequence_case : let g := ex_cfg "a = 1, b" in exists t,
  comma_list g (ex_start "a = 1, b") [EAssignment AEqual (ALExpr (EIdent (str "a"))) (ELiteral (LNumber (str "1"))); EIdent (str "b")] t
  /\ it_tok (st_look t) = TEoF.
Proof.
  set (g := ex_cfg "a = 1, b"). set (s := ex_start "a = 1, b"). cbn zeta.
  set (s1 := after_element g s). set (s2 := after_next g s1). set (s3 := after_element g s2).
  exists s3. split; [|vm_compute; reflexivity].
  eapply comma_more; [apply (element_run g s); vm_compute; reflexivity|eapply (passes_run g s1); vm_compute; reflexivity|].
  apply comma_one. apply (element_run g s2). vm_compute. reflexivity.
Qed.
Example C67_arguments_case : let g := ex_cfg "(a, ...b,)" in exists s1 s2 t, g_tolerant g = false /\ passes g (TPunct POpenParen) (ex_start "(a, ...b,)") s1
  /\ arguments g s1 [EIdent (str "a"); ESpread (EIdent (str "b"))] s2 /\ passes g (TPunct PCloseParen) s2 t.
Proof.
  set (g := ex_cfg "(a, ...b,)"). set (s := ex_start "(a, ...b,)"). cbn zeta.
  set (s1 := after_next g s). set (s2 := after_element g s1). set (s3 := after_next g s2). set (s4 := after_next g s3). set (s5 := after_element g s4).
  set (s6 := after_next g s5). exists s1, s6, (after_next g s6). split; [reflexivity|]. split; [eapply passes_run; vm_compute; reflexivity|].
  split; [|eapply passes_run; vm_compute; reflexivity].
  eapply arguments_more; [apply given_element; apply (element_run g s1); vm_compute; reflexivity|eapply (passes_run g s2); vm_compute; reflexivity|].
  eapply arguments_more; [eapply given_spread; [eapply (passes_run g s3); vm_compute; reflexivity|apply (element_run g s4); vm_compute; reflexivity]|eapply (passes_run g s5); vm_compute; reflexivity|].
  apply arguments_nil. vm_compute. reflexivity.
Qed.
(** A hole is not an argument; and with the tolerant flag the commas may be missing. *)
Example C67_no_hole : exists e s', returns (fun n => run_call (@body) (ex_cfg "(a,,b)") n CArgs (ex_start "(a,,b)")) (Err e) s'.
Proof. do 2 eexists. split; [discriminate|]. exists 100. vm_compute. reflexivity. Qed.
Theorem C67_tolerant_needed : exists g s l s', g_tolerant g = true /\ returns (fun n => run_call (@body) g n CArgs s) (Ok l) s'
  /\ ~ exists s1 s2 t', passes g (TPunct POpenParen) s s1 /\ arguments g s1 l s2 /\ passes g (TPunct PCloseParen) s2 t'.
Proof.
  set (g := make_cfg test_scanner true false (str "(a b)")). set (s := snd (start g (ex_items "(a b)"))).
  set (l := [EIdent (str "a"); EIdent (str "b")]).
  exists g, s, l, (snd (run_call (@body) g 100 CArgs s)). split; [reflexivity|]. split; [split; [discriminate|exists 100; vm_compute; reflexivity]|].
  intros (s1 & s2 & t' & (_ & i & N) & A & _).
  assert (E1 : s1 = after_next g s) by (unfold after_next; rewrite N; reflexivity). subst s1.
  inversion A as [| |u e v w l' v' G (T & _) A']; subst.
  inversion G as [u e u' (x & R & Q)|u u1 e u' (T' & _)]; subst.
  apply same_but_6_look in Q. rewrite Q in T.
  assert (K : ends g (Call CAssignmentExpr) (alone (after_next g s)) (Ok (EIdent (str "a"))) (after_element g (after_next g s)))
    by (split; [discriminate|exists 100; vm_compute; reflexivity]).
  change (ends g (Call CAssignmentExpr) (alone (after_next g s)) (Ok (EIdent (str "a"))) x) in R.
  destruct (ends_fun _ _ _ _ _ _ _ _ R K) as [_ E]. rewrite E in T. vm_compute in T. discriminate T.
Qed.
Print Assumptions C67_tolerant_needed.
