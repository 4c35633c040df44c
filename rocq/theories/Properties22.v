(** C63: parentheses. *)
From Verif Require Export Lexer Spec Runs Safe Parens Properties1 Properties2 Properties3 Properties5 Properties21.
Local Open Scope string_scope.
Local Open Scope list_scope.

(** *** C63
    Taking a token leads from a state to the next. *)
Definition passes (g : cfg) (t : token) (s s' : state) : Prop :=
  it_tok (st_look s) = t /\ exists i, next_item g s = (Ok i, s').
(** The tokens after which no expression goes on, but for the comma, after which a list of them may. *)
Definition no_more : list token :=
  [TEoF; TPunct PSemiColon; TPunct PCloseParen; TPunct PCloseBracket; TPunct PCloseBrace; TPunct PColon].
(** The text of the token is there: C44. *)
Definition has_text (g : cfg) (i : item) : Prop := exists w, slice (g_stream g) (it_start i) (it_end i) = Some w.

(** [wrapped g e s s']: from [s] to [s'] there is the expression [e] in any number of parentheses. *)
Inductive wrapped (g : cfg) (e : Expr) : state -> state -> Prop :=
| wrapped_not s s' : returns (fun n => parse_expression g n s) (Ok e) s' -> wrapped g e s s'
| wrapped_more s0 s1 s2 s3 : has_text g (st_look s0) -> passes g (TPunct POpenParen) s0 s1 -> wrapped g e s1 s2 ->
    passes g (TPunct PCloseParen) s2 s3 -> In (it_tok (st_look s3)) no_more -> wrapped g e s0 s3.

Lemma same_sames s1 s2 : same_but_6 s1 s2 <-> sames s1 s2.
Proof. apply but_6. Qed.
Lemma evs_returns g s (Q : Expr -> state -> Prop) : Forward.evs g (Call CExpression) s Q ->
  exists e t, returns (fun n => parse_expression g n s) (Ok e) t /\ Q e t.
Proof.
  intros (n & e & t & R & H). exists e, t. split; [|exact H]. split; [discriminate|]. exists n. exact R.
Qed.
Lemma passes_sames g t s s' u : passes g t s s' -> sames s u -> exists u', passes g t u u' /\ sames s' u'.
Proof.
  intros (T & i & N) H. pose proof (next_agrees g but_all s u H) as [V Q]. rewrite N in V, Q.
  destruct (next_item g u) as [[j|x| |] u'] eqn:N'; cbn [fst snd outcomes] in V, Q; try contradiction. exists u'.
  split; [|exact Q]. split; [rewrite (sames_look _ _ H); exact T|]. exists j. exact N'.
Qed.
Lemma passes_ctx g t s s' : passes g t s s' -> st_ctx s' = st_ctx s.
Proof. intros (_ & i & N). apply Wp.next_item_ok in N. tauto. Qed.

(** An expression in parentheses is read as the expression between them. *)
Theorem C63_parentheses : forall g s0 s1 e s2 s3, c_allow_in (st_ctx s0) = true -> has_text g (st_look s0) ->
  passes g (TPunct POpenParen) s0 s1 -> returns (fun n => parse_expression g n s1) (Ok e) s2 -> passes g (TPunct PCloseParen) s2 s3 ->
  In (it_tok (st_look s3)) no_more ->
  exists s', returns (fun n => parse_expression g n s0) (Ok e) s' /\ same_but_6 s3 s'.
Proof.
  intros g s0 s1 e s2 s3 A W P1 R P2 F. pose proof (passes_ctx _ _ _ _ P1) as C1. pose proof (passes_ctx _ _ _ _ P2) as C2.
  destruct P1 as (T1 & i & N1), P2 as (T2 & j & N2).
  assert (K : c_allow_in (st_ctx s3) = true).
  { destruct R as [_ [n R]]. apply C30_context_restored in R. rewrite C2. rewrite <- A, <- C1. tauto. }
  assert (F' : In (it_tok (st_look s3)) closers /\ it_tok (st_look s3) <> TPunct PFatArrow /\ it_tok (st_look s3) <> TPunct PComma).
  { unfold no_more, closers in *. cbn [In] in *. decompose [or] F; try contradiction; match goal with X : _ = it_tok (st_look s3) |- _ => rewrite <- X end;
      (split; [tauto|]); split; discriminate. }
  destruct F' as (F1 & F2 & F3).
  destruct (evs_returns g s0 _ (reads_expression g s0 s1 s2 s3 i j e T1 N1 R T2 N2 F2 F1 W A K F3 s0 (sames_refl s0))) as (e' & t & R' & -> & Q).
  exists t. split; [exact R'|]. apply same_sames. exact Q.
Qed.
Print Assumptions C63_parentheses.
(** The same for the elements of a list, which a comma may follow: arguments, array elements, initial values. *)
Theorem C63_elements : forall g s0 s1 e s2 s3, c_allow_in (st_ctx s0) = true -> has_text g (st_look s0) ->
  passes g (TPunct POpenParen) s0 s1 -> returns (fun n => parse_expression g n s1) (Ok e) s2 -> passes g (TPunct PCloseParen) s2 s3 ->
  In (it_tok (st_look s3)) (TPunct PComma :: no_more) ->
  exists s', returns (fun n => run_call (@body) g n CAssignmentExpr s0) (Ok e) s' /\ same_but_6 s3 s'.
Proof.
  intros g s0 s1 e s2 s3 A W P1 R P2 F. pose proof (passes_ctx _ _ _ _ P1) as C1. pose proof (passes_ctx _ _ _ _ P2) as C2.
  destruct P1 as (T1 & i & N1), P2 as (T2 & j & N2).
  assert (K : c_allow_in (st_ctx s3) = true).
  { destruct R as [_ [n R]]. apply C30_context_restored in R. rewrite C2. rewrite <- A, <- C1. tauto. }
  assert (F' : In (it_tok (st_look s3)) closers /\ it_tok (st_look s3) <> TPunct PFatArrow).
  { unfold no_more, closers in *. cbn [In] in *. decompose [or] F; try contradiction; match goal with X : _ = it_tok (st_look s3) |- _ => rewrite <- X end;
      (split; [tauto|]); discriminate. }
  destruct F' as (F1 & F2).
  destruct (reads_assignment g s0 s1 s2 s3 i j e T1 N1 R T2 N2 F2 F1 W A K s0 (sames_refl s0)) as (n & e' & t & R' & -> & Q).
  exists t. split; [split; [discriminate|exists n; exact R']|]. apply same_sames. exact Q.
Qed.
Print Assumptions C63_elements.

(** Any number of them. *)
Theorem C63_any_number : forall g e s s', wrapped g e s s' -> c_allow_in (st_ctx s) = true ->
  exists t, returns (fun n => parse_expression g n s) (Ok e) t /\ same_but_6 s' t.
Proof.
  intros g e s s' H. induction H as [s s' R|s0 s1 s2 s3 W P1 Wr IH P2 F]; intros A.
  - exists s'. split; [exact R|]. apply same_sames. apply sames_refl.
  - assert (A1 : c_allow_in (st_ctx s1) = true) by (rewrite (passes_ctx _ _ _ _ P1); exact A).
    destruct (IH A1) as (t2 & R & Q). apply same_sames in Q.
    destruct (passes_sames _ _ _ _ _ P2 Q) as (t3 & P3 & Q3).
    destruct (C63_parentheses g s0 s1 e t2 t3 A W P1 R P3) as (t & R' & Q'); [rewrite (sames_look _ _ Q3); exact F|].
    exists t. split; [exact R'|]. apply same_sames. eapply sames_trans; [exact Q3|apply same_sames; exact Q'].
Qed.
Print Assumptions C63_any_number.

(** As a whole text: an expression in parentheses is a program of that expression. *)
Theorem C63_text : forall sc tolerant module js s0 s1 e s2 s3, let g := make_cfg sc tolerant module js in
  c_allow_in (st_ctx s0) = true -> has_text g (st_look s0) ->
  passes g (TPunct POpenParen) s0 s1 -> wrapped g e s1 s2 -> passes g (TPunct PCloseParen) s2 s3 ->
  it_tok (st_look s3) = TEoF ->
  exists s', returns (fun n => parse g n s0) (Ok (if module then PMod [PPStmt (SExpr e)] else PScript [PPStmt (SExpr e)])) s'.
Proof.
  intros sc tolerant module js s0 s1 e s2 s3 g A W P1 Wr P2 E.
  destruct (C63_any_number g e s0 s3) as (t & R & Q); [eapply wrapped_more; eauto; rewrite E; left; reflexivity|exact A|].
  apply same_but_6_look in Q. destruct P1 as (T1 & _).
  apply (C62_text sc tolerant module js s0 e t); [unfold starts_expression; cbn zeta; rewrite T1; split; discriminate| |exact R|congruence].
  intros [_ D]. rewrite T1 in D. discriminate D.
Qed.
Print Assumptions C63_text.

(** A concrete case: two pairs around a sequence. *)
Example C63_case : let g := ex_cfg "((a = b, c))" in exists s1 s2 s3 s4 s5 e, let s0 := ex_start "((a = b, c))" in
  c_allow_in (st_ctx s0) = true /\ has_text g (st_look s0) /\ has_text g (st_look s1) /\ passes g (TPunct POpenParen) s0 s1 /\ passes g (TPunct POpenParen) s1 s2
  /\ returns (fun n => parse_expression g n s2) (Ok e) s3 /\ passes g (TPunct PCloseParen) s3 s4 /\ passes g (TPunct PCloseParen) s4 s5
  /\ it_tok (st_look s5) = TEoF
  /\ e = ESequence [EAssignment AEqual (ALExpr (EIdent (str "a"))) (EIdent (str "b")); EIdent (str "c")].
Proof.
  set (g := ex_cfg "((a = b, c))"). set (s0 := ex_start "((a = b, c))").
  exists (snd (next_item g s0)), (snd (next_item g (snd (next_item g s0)))),
    (snd (parse_expression g 100 (snd (next_item g (snd (next_item g s0)))))),
    (snd (next_item g (snd (parse_expression g 100 (snd (next_item g (snd (next_item g s0)))))))),
    (snd (next_item g (snd (next_item g (snd (parse_expression g 100 (snd (next_item g (snd (next_item g s0))))))))) ). eexists. cbn zeta.
  split; [reflexivity|]. split; [eexists; vm_compute; reflexivity|]. split; [eexists; vm_compute; reflexivity|].
  split; [split; [vm_compute; reflexivity|eexists; vm_compute; reflexivity]|]. split; [split; [vm_compute; reflexivity|eexists; vm_compute; reflexivity]|].
  split; [split; [discriminate|exists 100; vm_compute; reflexivity]|]. split; [split; [vm_compute; reflexivity|eexists; vm_compute; reflexivity]|].
  split; [split; [vm_compute; reflexivity|eexists; vm_compute; reflexivity]|]. split; vm_compute; reflexivity.
Qed.
(** What follows matters: before an arrow the same tokens are parameters. *)
Theorem C63_arrow_needed : exists e s', returns (fun n => parse_expression (ex_cfg "(a) => a") n (ex_start "(a) => a")) (Ok e) s'
  /\ e = EArrowFunction None [FAExpr (EIdent (str "a"))] (AFExpr (EIdent (str "a"))) true false false.
Proof. do 2 eexists. split; [split; [discriminate|exists 100; vm_compute; reflexivity]|]. vm_compute. reflexivity. Qed.
Print Assumptions C63_arrow_needed.
(** Parentheses keep a string from being a directive. *)
Example C63_not_directive : fst (parse (ex_cfg "('a')") 100 (ex_start "('a')")) = Ok (PScript [PPStmt (SExpr (ELiteral (LString (str "'a'"))))])
  /\ fst (parse (ex_cfg "'a'") 100 (ex_start "'a'")) = Ok (PScript [PPDir (str "a") (LString (str "'a'"))]).
Proof. split; vm_compute; reflexivity. Qed.
