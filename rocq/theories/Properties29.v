(** C70: declarations, patterns, imports and class bodies. *)
From Verif Require Operators.
From Verif Require Export Lexer Spec Runs Safe Chains Properties1 Properties2 Properties3 Properties5 Properties21 Properties22 Properties26 Properties27.
Local Open Scope string_scope.
Local Open Scope list_scope.

(** *** C70 *)
Definition reads (g : cfg) {B} (c : call B) (s : state) (b : B) (s' : state) : Prop :=
  returns (fun n => run_call (@body) g n c s) (Ok b) s'.
Definition token_at (s : state) : token := it_tok (st_look s).
(** One or more, with commas between them. *)
Inductive separated (g : cfg) {A} (R : state -> A -> state -> Prop) : state -> list A -> state -> Prop :=
| separated_one s x s' : R s x s' -> token_at s' <> TPunct PComma -> separated g R s [x] s'
| separated_more s x s1 s2 l s' : R s x s1 -> passes g (TPunct PComma) s1 s2 -> separated g R s2 l s' -> separated g R s (x :: l) s'.
(** Any number in braces, with commas between them and perhaps one at the end. *)
Inductive until_brace (g : cfg) {A} (R : state -> A -> state -> Prop) : state -> list A -> state -> Prop :=
| until_nil s : token_at s = TPunct PCloseBrace -> until_brace g R s [] s
| until_last s x s' : token_at s <> TPunct PCloseBrace -> R s x s' -> token_at s' = TPunct PCloseBrace -> until_brace g R s [x] s'
| until_more s x s1 s2 l s' : token_at s <> TPunct PCloseBrace -> R s x s1 -> passes g (TPunct PComma) s1 s2 -> until_brace g R s2 l s' ->
    until_brace g R s (x :: l) s'.
Definition in_braces (g : cfg) {A} (R : state -> list A -> state -> Prop) (s : state) (l : list A) (s' : state) : Prop :=
  exists s1 s2, passes g (TPunct POpenBrace) s s1 /\ R s1 l s2 /\ passes g (TPunct PCloseBrace) s2 s'.
(** A part of an object pattern. *)
Definition pattern_part (g : cfg) (s : state) (x : ObjectPatPart) (s' : state) : Prop :=
  token_at s = TPunct PSpread /\ reads g CRestProp s x s' \/ token_at s <> TPunct PSpread /\ reads g CPropertyPattern s x s'.
(** What is between the brackets of an array pattern: a rest element is the last, with no comma after it. *)
Inductive pattern_items (g : cfg) : state -> list (option ArrayPatPart) -> state -> Prop :=
| pattern_nil s : token_at s = TPunct PCloseBracket -> pattern_items g s [] s
| pattern_hole s s1 l s' : passes g (TPunct PComma) s s1 -> pattern_items g s1 l s' -> pattern_items g s (None :: l) s'
| pattern_rest s r p s' : token_at s = TPunct PSpread -> reads g CBindingRestEl s (r, p) s' -> pattern_items g s [Some (APPat p)] s'
| pattern_last s r p s' : ~ In (token_at s) [TPunct PCloseBracket; TPunct PComma; TPunct PSpread] -> reads g CPatternWithDefault s (r, p) s' ->
    token_at s' = TPunct PCloseBracket -> pattern_items g s [Some (APPat p)] s'
| pattern_more s r p s1 s2 l s' : ~ In (token_at s) [TPunct PCloseBracket; TPunct PComma; TPunct PSpread] -> reads g CPatternWithDefault s (r, p) s1 ->
    passes g (TPunct PComma) s1 s2 -> pattern_items g s2 l s' -> pattern_items g s (Some (APPat p) :: l) s'.
(** The elements of a class, each told whether there has been a constructor; semicolons count for nothing. *)
Inductive class_elements (g : cfg) : bool -> state -> list Property -> state -> Prop :=
| elements_nil h s : token_at s = TPunct PCloseBrace -> class_elements g h s [] s
| elements_semi h s s1 l s' : passes g (TPunct PSemiColon) s s1 -> class_elements g h s1 l s' -> class_elements g h s l s'
| elements_more h s h' x s1 l s' : token_at s <> TPunct PCloseBrace -> token_at s <> TPunct PSemiColon -> reads g (CClassEl h) s (h', x) s1 ->
    class_elements g h' s1 l s' -> class_elements g h s (x :: l) s'.

Section Shapes.
  Variable g : cfg.
  Notation ends := (ends g).
  Ltac bd R := first
    [ let E := fresh in apply ret_ends in R as [E _]; discriminate E
    | apply ends_at in R; lazymatch type of R with ends (if ?b then _ else _) _ _ _ => destruct b end; bd R
    | let x := fresh in let s := fresh in apply bind_ends in R as (x & s & _ & R); try destruct x; bd R ].
  Lemma at_not p s : is_punct p (it_tok (st_look s)) = false -> token_at s <> TPunct p.
  Proof. intros T E. unfold token_at in E. rewrite E, is_it in T. discriminate T. Qed.

  Lemma sep_run A (p : P A) s l s' : separated g (fun s x s' => ends p s (Ok x) s') s l s' -> ends (Parser.comma_list p) s (Ok l) s'.
  Proof.
    intros S. unfold Parser.comma_list.
    assert (K : forall s l s', separated g (fun s x s' => ends p s (Ok x) s') s l s' -> exists x l1 s1, l = x :: l1 /\ ends p s (Ok x) s1
      /\ forall l0, ends (Loop (l0 ++ [x]) (fun ret => ifM at_punct PComma then next ;; y <- p ;; Ret (inl (ret ++ [y])) else Ret (inr ret))) s1 (Ok (l0 ++ l)) s').
    { clear. induction 1 as [s x s' R N|s x s1 s2 l s' R P1 _ (y & l1 & s3 & -> & R2 & IH)].
      - exists x, [], s'. split; [reflexivity|]. split; [exact R|]. intros l0. apply loop_stop. apply at_ends. rewrite is_not by exact N. apply ends_ret.
      - exists x, (y :: l1), s1. split; [reflexivity|]. split; [exact R|]. intros l0. specialize (IH (l0 ++ [x])). rewrite <- (app_assoc l0 [x] (y :: l1)) in IH.
        eapply loop_next; [|exact IH]. apply at_ends. pose proof P1 as (T & _). rewrite T, is_it. eapply ends_ok; [eapply pass_next; exact P1|]. eapply ends_ok; [exact R2|]. apply ends_ret. }
    destruct (K s l s' S) as (x & l1 & s1 & -> & R & L). eapply ends_ok; [exact R|]. exact (L []).
  Qed.
  Lemma run_sep A (p : P A) s l s' : ends (Parser.comma_list p) s (Ok l) s' -> separated g (fun s x s' => ends p s (Ok x) s') s l s'.
  Proof.
    intros R. unfold Parser.comma_list in R. apply bind_ends in R as (x & s1 & R1 & R).
    pose (J := fun (l0 : list A) s (l : list A) s' => forall x l1 s0, l0 = l1 ++ [x] -> ends p s0 (Ok x) s -> exists l2, l = l1 ++ l2 /\ separated g (fun s x s' => ends p s (Ok x) s') s0 l2 s').
    assert (K : J [x] s1 l s').
    { refine (loop_ends g _ _ _ J _ _ [x] s1 l s' R); clear R R1 s s1 x l s'; unfold J.
      - intros l0 s l s' R x l1 s0 -> R0. apply ends_at in R. destruct (is_punct PComma _) eqn:T; [bd R|]. apply ret_ends in R as [E ->]. injection E as ->.
        exists [x]. split; [reflexivity|]. apply separated_one; [exact R0|apply at_not; exact T].
      - intros l0 s l2 s1 l s' R IH x l1 s0 -> R0. apply ends_at in R. destruct (is_punct PComma _) eqn:T; [|apply ret_ends in R as [E _]; discriminate E].
        apply Operators.is_punct_eq in T. apply bind_ends in R as (i & s2 & P1 & R). apply next_pass in P1. rewrite T in P1. apply bind_ends in R as (y & s3 & R2 & R).
        apply ret_ends in R as [E ->]. injection E as ->. destruct (IH y (l1 ++ [x]) s2 eq_refl R2) as (l3 & -> & S). exists (x :: l3). rewrite <- app_assoc. split; [reflexivity|].
        eapply separated_more; eauto. }
    destruct (K x [] s eq_refl R1) as (l2 & -> & S). exact S.
  Qed.

  Definition brace_step {A} (p : P A) := fun ret =>
    ifM at_punct PCloseBrace then Ret (inr ret)
    else
      s <- p ;;
      ifM at_punct PCloseBrace then Ret (inl (ret ++ [s]))
      else expect_punct PComma ;; Ret (inl (ret ++ [s])) : P (list A + list A).
  Lemma brace_run A (p : P A) s l s' : until_brace g (fun s x s' => ends p s (Ok x) s') s l s' -> forall l0, ends (Loop l0 (brace_step p)) s (Ok (l0 ++ l)) s'.
  Proof.
    induction 1 as [s T|s x s' N M T|s x s1 s2 l s' N M P1 _ IH]; intros l0; unfold token_at in *.
    - rewrite app_nil_r. apply loop_stop. apply at_ends. rewrite T, is_it. apply ends_ret.
    - apply (loop_next g _ _ (brace_step p) l0 s (l0 ++ [x]) s').
      + apply at_ends. rewrite is_not by exact N. eapply ends_ok; [exact M|]. apply at_ends. rewrite T, is_it. apply ends_ret.
      + apply loop_stop. apply at_ends. rewrite T, is_it. apply ends_ret.
    - specialize (IH (l0 ++ [x])). rewrite <- app_assoc in IH. eapply loop_next; [|exact IH]. apply at_ends. rewrite is_not by exact N. eapply ends_ok; [exact M|].
      apply at_ends. rewrite is_not by (destruct P1 as (-> & _); discriminate). eapply ends_ok; [apply pass_expect; exact P1|]. apply ends_ret.
  Qed.
  Lemma run_brace A (p : P A) l0 s x s' : ends (Loop l0 (brace_step p)) s (Ok x) s' ->
    exists l, x = l0 ++ l /\ until_brace g (fun s x s' => ends p s (Ok x) s') s l s' /\ token_at s' = TPunct PCloseBrace.
  Proof.
    intros R. pose (J := fun (l0 : list A) s x s' => exists l, x = l0 ++ l /\ until_brace g (fun s x s' => ends p s (Ok x) s') s l s' /\ token_at s' = TPunct PCloseBrace).
    refine (loop_ends g _ _ (brace_step p) J _ _ l0 s x s' R); clear R l0 s x s'; unfold J.
    - intros l0 s x s' R. unfold brace_step in R. apply ends_at in R. destruct (is_punct PCloseBrace _) eqn:T; [|bd R].
      apply ret_ends in R as [E ->]. injection E as ->. apply Operators.is_punct_eq in T. exists []. rewrite app_nil_r. split; [reflexivity|]. split; [apply until_nil|]; exact T.
    - intros l0 s l1 s1 x s' R (l & -> & C & Cl). unfold brace_step in R. apply ends_at in R. destruct (is_punct PCloseBrace _) eqn:T; [apply ret_ends in R as [E _]; discriminate E|].
      apply at_not in T. apply bind_ends in R as (y & s2 & M & R). apply ends_at in R. destruct (is_punct PCloseBrace (it_tok (st_look s2))) eqn:T2.
      + apply ret_ends in R as [E ->]. injection E as ->. apply Operators.is_punct_eq in T2. exists (y :: l). split; [rewrite <- app_assoc; reflexivity|]. split; [|exact Cl].
        inversion C; subst; try contradiction. apply until_last; assumption.
      + apply bind_ends in R as (u & s3 & P1 & R). apply expect_pass in P1. apply ret_ends in R as [E ->]. injection E as ->.
        exists (y :: l). split; [rewrite <- app_assoc; reflexivity|]. split; [|exact Cl]. eapply until_more; eauto.
  Qed.
  Lemma until_mono A (R S : state -> A -> state -> Prop) : (forall s x s', R s x s' -> S s x s') -> forall s l s', until_brace g R s l s' -> until_brace g S s l s'.
  Proof. intros H s l s'. induction 1; [apply until_nil|apply until_last|eapply until_more]; eauto. Qed.

  Definition part_prog : P ObjectPatPart := ifM at_punct PSpread then Call CRestProp else Call CPropertyPattern.
  Lemma part_iff s x s' : ends part_prog s (Ok x) s' <-> pattern_part g s x s'.
  Proof.
    unfold part_prog, pattern_part, reads. split.
    - intros R. apply ends_at in R. destruct (is_punct PSpread _) eqn:T; [left; apply Operators.is_punct_eq in T|right; apply at_not in T]; split; assumption.
    - intros [[T R]|[T R]]; unfold token_at in T; apply at_ends; [rewrite T, is_it|rewrite is_not by exact T]; exact R.
  Qed.

  Definition items_step := fun elements =>
    ifM at_punct PCloseBracket then Ret (inr elements)
    else ifM at_punct PComma then next ;; Ret (inl (elements ++ [None]))
    else ifM at_punct PSpread then
      '(_, el) <- Call CBindingRestEl ;;
      Ret (inr (elements ++ [Some (APPat el)]))
    else
      '(_, el) <- Call CPatternWithDefault ;;
      ifM at_punct PCloseBracket then Ret (inl (elements ++ [Some (APPat el)]))
      else expect_punct PComma ;; Ret (inl (elements ++ [Some (APPat el)])) : P (list (option ArrayPatPart) + list (option ArrayPatPart)).
  Ltac nots N := rewrite !is_not by (let E := fresh in intros E; apply N; unfold token_at; rewrite E; cbn [In]; tauto).
  Lemma items_run s l s' : pattern_items g s l s' -> forall l0, ends (Loop l0 items_step) s (Ok (l0 ++ l)) s'.
  Proof.
    induction 1 as [s T|s s1 l s' P1 _ IH|s r p s' T R|s r p s' N R T|s r p s1 s2 l s' N R P1 _ IH]; intros l0; unfold token_at in *.
    - rewrite app_nil_r. apply loop_stop. apply at_ends. rewrite T, is_it. apply ends_ret.
    - specialize (IH (l0 ++ [None])). rewrite <- app_assoc in IH. eapply loop_next; [|exact IH]. pose proof P1 as (T & _). apply at_ends. rewrite T, is_not by discriminate.
      apply at_ends. rewrite T, is_it. eapply ends_ok; [eapply pass_next; exact P1|]. apply ends_ret.
    - apply loop_stop. apply at_ends. rewrite T, is_not by discriminate. apply at_ends. rewrite T, is_not by discriminate. apply at_ends. rewrite T, is_it.
      eapply ends_ok; [exact R|]. apply ends_ret.
    - apply (loop_next g _ _ items_step l0 s (l0 ++ [Some (APPat p)]) s').
      + do 3 (apply at_ends; nots N). eapply ends_ok; [exact R|]. apply at_ends. rewrite T, is_it. apply ends_ret.
      + apply loop_stop. apply at_ends. rewrite T, is_it. apply ends_ret.
    - specialize (IH (l0 ++ [Some (APPat p)])). rewrite <- app_assoc in IH. eapply loop_next; [|exact IH]. do 3 (apply at_ends; nots N). eapply ends_ok; [exact R|].
      apply at_ends. rewrite is_not by (destruct P1 as (-> & _); discriminate). eapply ends_ok; [apply pass_expect; exact P1|]. apply ends_ret.
  Qed.
  Lemma run_items l0 s x s' : ends (Loop l0 items_step) s (Ok x) s' -> exists l, x = l0 ++ l /\ pattern_items g s l s'.
  Proof.
    intros R. refine (loop_ends g _ _ items_step (fun l0 s x s' => exists l, x = l0 ++ l /\ pattern_items g s l s') _ _ l0 s x s' R); clear R l0 s x s'.
    - intros l0 s x s' R. unfold items_step in R. apply ends_at in R. destruct (is_punct PCloseBracket _) eqn:T1.
      { apply ret_ends in R as [E ->]. injection E as ->. apply Operators.is_punct_eq in T1. exists []. rewrite app_nil_r. split; [reflexivity|]. apply pattern_nil. exact T1. }
      apply ends_at in R. destruct (is_punct PComma _) eqn:T2; [bd R|]. apply ends_at in R. destruct (is_punct PSpread _) eqn:T3.
      + apply bind_ends in R as ([r p] & s1 & R1 & R). apply ret_ends in R as [E ->]. injection E as ->. apply Operators.is_punct_eq in T3. eexists. split; [reflexivity|]. eapply pattern_rest; eauto.
      + bd R.
    - intros l0 s l1 s1 x s' R (l & -> & C). unfold items_step in R. apply ends_at in R. destruct (is_punct PCloseBracket _) eqn:T1; [apply ret_ends in R as [E _]; discriminate E|].
      apply ends_at in R. destruct (is_punct PComma _) eqn:T2.
      { apply bind_ends in R as (i & s2 & P1 & R). apply next_pass in P1. apply Operators.is_punct_eq in T2. rewrite T2 in P1. apply ret_ends in R as [E ->]. injection E as ->.
        exists (None :: l). rewrite <- app_assoc. split; [reflexivity|]. eapply pattern_hole; eauto. }
      apply ends_at in R. destruct (is_punct PSpread _) eqn:T3; [apply bind_ends in R as ([r p] & s2 & _ & R); apply ret_ends in R as [E _]; discriminate E|].
      assert (N : ~ In (token_at s) [TPunct PCloseBracket; TPunct PComma; TPunct PSpread]).
      { apply at_not in T1, T2, T3. intros [E|[E|[E|[]]]]; symmetry in E; contradiction. }
      apply bind_ends in R as ([r p] & s2 & R1 & R). apply ends_at in R. destruct (is_punct PCloseBracket (it_tok (st_look s2))) eqn:T4.
      + apply ret_ends in R as [E ->]. injection E as ->. apply Operators.is_punct_eq in T4. exists (Some (APPat p) :: l). rewrite <- app_assoc. split; [reflexivity|].
        inversion C as [u E|u u1 l' u' (E & _)|u r' p' u' E|u r' p' u' E|u r' p' u1 u2 l' u' E]; subst; unfold token_at in *; try congruence.
        * eapply pattern_last; eauto.
        * exfalso. apply E. rewrite T4. left. reflexivity.
        * exfalso. apply E. rewrite T4. left. reflexivity.
      + apply bind_ends in R as (u & s3 & P1 & R). apply expect_pass in P1. apply ret_ends in R as [E ->]. injection E as ->.
        exists (Some (APPat p) :: l). rewrite <- app_assoc. split; [reflexivity|]. eapply pattern_more; eauto.
  Qed.

  Definition class_step := fun '(has_ctor, ret) =>
    ifM at_punct PCloseBrace then Ret (inr ret)
    else ifM at_punct PSemiColon then next ;; Ret (inl (has_ctor, ret))
    else
      '(ctor, el) <- Call (CClassEl has_ctor) ;;
      Ret (inl (ctor, ret ++ [el])) : P ((bool * list Property) + list Property).
  Lemma elements_run h s l s' : class_elements g h s l s' -> forall l0, ends (Loop (h, l0) class_step) s (Ok (l0 ++ l)) s'.
  Proof.
    induction 1 as [h s T|h s s1 l s' P1 _ IH|h s h' x s1 l s' N1 N2 R _ IH]; intros l0; unfold token_at in *.
    - rewrite app_nil_r. apply loop_stop. apply at_ends. rewrite T, is_it. apply ends_ret.
    - eapply loop_next; [|apply IH]. pose proof P1 as (T & _). apply at_ends. rewrite T, is_not by discriminate. apply at_ends. rewrite T, is_it.
      eapply ends_ok; [eapply pass_next; exact P1|]. apply ends_ret.
    - specialize (IH (l0 ++ [x])). rewrite <- app_assoc in IH. eapply loop_next; [|exact IH]. apply at_ends. rewrite is_not by exact N1. apply at_ends. rewrite is_not by exact N2.
      eapply ends_ok; [exact R|]. apply ends_ret.
  Qed.
  Lemma run_elements h l0 s x s' : ends (Loop (h, l0) class_step) s (Ok x) s' -> exists l, x = l0 ++ l /\ class_elements g h s l s'.
  Proof.
    intros R. pose (J := fun (y : bool * list Property) s x s' => exists l, x = snd y ++ l /\ class_elements g (fst y) s l s').
    refine (loop_ends g _ _ class_step J _ _ (h, l0) s x s' R); clear R h l0 s x s'; unfold J.
    - intros [h l0] s x s' R. unfold class_step in R. apply ends_at in R. destruct (is_punct PCloseBrace _) eqn:T1; [|bd R].
      apply ret_ends in R as [E ->]. injection E as ->. apply Operators.is_punct_eq in T1. exists []. rewrite app_nil_r. split; [reflexivity|]. apply elements_nil. exact T1.
    - intros [h l0] s [h1 l1] s1 x s' R (l & -> & C). unfold class_step in R. apply ends_at in R. destruct (is_punct PCloseBrace _) eqn:T1; [apply ret_ends in R as [E _]; discriminate E|].
      apply ends_at in R. destruct (is_punct PSemiColon _) eqn:T2.
      + apply bind_ends in R as (i & s2 & P1 & R). apply next_pass in P1. apply Operators.is_punct_eq in T2. rewrite T2 in P1. apply ret_ends in R as [E ->]. injection E as -> ->.
        exists l. split; [reflexivity|]. eapply elements_semi; eauto.
      + apply bind_ends in R as ([h2 y] & s2 & R1 & R). apply ret_ends in R as [E ->]. injection E as -> ->. exists (y :: l). cbn [fst snd]. rewrite <- app_assoc. split; [reflexivity|].
        eapply elements_more; eauto using at_not.
  Qed.
End Shapes.

Lemma declared g A (c : call (list A)) (d : call A) s l s' : body c = Parser.comma_list (Call d) -> reads g c s l s' <-> separated g (reads g d) s l s'.
Proof.
  intros E. split; intros R.
  - apply (run_sep g A (Call d)). change (ends g (Call c) s (Ok l) s') in R. apply body_ends in R. rewrite E in R. exact R.
  - change (ends g (Call c) s (Ok l) s'). apply ends_body. rewrite E. apply (sep_run g A (Call d)). exact R.
Qed.
(** The declarations of [var], and of [let] and [const], in a statement and in the head of a loop. *)
Theorem C70_declarations : forall g s l s' in_for kind,
  (reads g (CVarDeclList in_for) s l s' <-> separated g (reads g (CVarDecl in_for)) s l s')
  /\ (reads g (CVariableDeclList in_for) s l s' <-> separated g (reads g (CVariableDecl in_for)) s l s')
  /\ (reads g (CBindingList kind in_for) s l s' <-> separated g (reads g (CLexicalBinding kind in_for)) s l s').
Proof.
  intros g s l s' in_for kind. split; [|split]; apply declared; reflexivity.
Qed.
Print Assumptions C70_declarations.
(** The names of an import. *)
Theorem C70_imports : forall g s l s', reads g CNamedImports s l s' <-> in_braces g (until_brace g (reads g CImportSpecifier)) s l s'.
Proof.
  intros g s l s'. split.
  - intros R. change (ends g (Call CNamedImports) s (Ok l) s') in R. apply body_ends in R. cbn [body] in R. unfold named_imports in R.
    apply bind_ends in R as (u & s1 & P1 & R). apply expect_pass in P1. apply bind_ends in R as (l1 & s2 & R1 & R). apply (run_brace g _ (Call CImportSpecifier) []) in R1 as (l2 & -> & M & _).
    apply bind_ends in R as (v & s3 & P2 & R). apply expect_pass in P2. apply ret_ends in R as [-> ->]. exists s1, s2. auto.
  - intros (s1 & s2 & P1 & M & P2). change (ends g (Call CNamedImports) s (Ok l) s'). apply ends_body. cbn [body]. unfold named_imports.
    eapply ends_ok; [apply pass_expect; exact P1|]. eapply ends_ok; [exact (brace_run g _ (Call CImportSpecifier) s1 l s2 M [])|]. eapply ends_ok; [apply pass_expect; exact P2|]. apply ends_ret.
Qed.
Print Assumptions C70_imports.
(** Object and array patterns. *)
Theorem C70_object_pattern : forall g s r p s', reads g CObjectPattern s (r, p) s'
  <-> exists l, in_braces g (until_brace g (pattern_part g)) s l s' /\ r = false /\ p = PObject l.
Proof.
  intros g s r p s'. split.
  - intros R. change (ends g (Call CObjectPattern) s (Ok (r, p)) s') in R. apply body_ends in R. cbn [body] in R. unfold object_pattern in R.
    apply bind_ends in R as (u & s1 & P1 & R). apply expect_pass in P1. apply bind_ends in R as (l1 & s2 & R1 & R). apply (run_brace g _ part_prog []) in R1 as (l2 & -> & M & _).
    apply bind_ends in R as (v & s3 & P2 & R). apply expect_pass in P2. apply ret_ends in R as [E ->]. injection E as -> ->. exists l2. split; [|auto]. exists s1, s2.
    split; [exact P1|]. split; [|exact P2]. eapply until_mono; [|exact M]. intros a x b H. apply part_iff. exact H.
  - intros (l & (s1 & s2 & P1 & M & P2) & -> & ->). change (ends g (Call CObjectPattern) s (Ok (false, PObject l)) s'). apply ends_body. cbn [body]. unfold object_pattern.
    assert (M' : until_brace g (fun s x s' => ends g part_prog s (Ok x) s') s1 l s2) by (eapply until_mono; [|exact M]; intros a x b H; apply part_iff; exact H).
    eapply ends_ok; [apply pass_expect; exact P1|]. eapply ends_ok; [exact (brace_run g _ part_prog s1 l s2 M' [])|]. eapply ends_ok; [apply pass_expect; exact P2|]. apply ends_ret.
Qed.
Print Assumptions C70_object_pattern.
Theorem C70_array_pattern : forall g s r p s', reads g CArrayPattern s (r, p) s'
  <-> exists l s1 s2, passes g (TPunct POpenBracket) s s1 /\ pattern_items g s1 l s2 /\ passes g (TPunct PCloseBracket) s2 s' /\ r = false /\ p = PArray l.
Proof.
  intros g s r p s'. split.
  - intros R. change (ends g (Call CArrayPattern) s (Ok (r, p)) s') in R. apply body_ends in R. cbn [body] in R. unfold array_pattern in R.
    apply bind_ends in R as (u & s1 & P1 & R). apply expect_pass in P1. apply bind_ends in R as (l1 & s2 & R1 & R). apply (run_items g []) in R1 as (l2 & -> & M).
    apply bind_ends in R as (v & s3 & P2 & R). apply expect_pass in P2. apply ret_ends in R as [E ->]. injection E as -> ->. exists l2, s1, s2. auto.
  - intros (l & s1 & s2 & P1 & M & P2 & -> & ->). change (ends g (Call CArrayPattern) s (Ok (false, PArray l)) s'). apply ends_body. cbn [body]. unfold array_pattern.
    eapply ends_ok; [apply pass_expect; exact P1|]. eapply ends_ok; [exact (items_run g s1 l s2 M [])|]. eapply ends_ok; [apply pass_expect; exact P2|]. apply ends_ret.
Qed.
Print Assumptions C70_array_pattern.
(** Class bodies. *)
Theorem C70_class_body : forall g s l s', reads g CClassBody s l s' <-> in_braces g (class_elements g false) s l s'.
Proof.
  intros g s l s'. split.
  - intros R. change (ends g (Call CClassBody) s (Ok l) s') in R. apply body_ends in R. cbn [body] in R. unfold class_body in R.
    apply bind_ends in R as (u & s1 & P1 & R). apply expect_pass in P1. apply bind_ends in R as (l1 & s2 & R1 & R). apply (run_elements g false []) in R1 as (l2 & -> & M).
    apply bind_ends in R as (v & s3 & P2 & R). apply expect_pass in P2. apply ret_ends in R as [-> ->]. exists s1, s2. auto.
  - intros (s1 & s2 & P1 & M & P2). change (ends g (Call CClassBody) s (Ok l) s'). apply ends_body. cbn [body]. unfold class_body.
    eapply ends_ok; [apply pass_expect; exact P1|]. eapply ends_ok; [exact (elements_run g false s1 l s2 M [])|]. eapply ends_ok; [apply pass_expect; exact P2|]. apply ends_ret.
Qed.
Print Assumptions C70_class_body.

(** Concrete cases. *)
Ltac runs := apply returned; vm_compute; reflexivity.
Example C70_declarations_case : let js := "a = 1, [b] = c, d" in exists x y z t,
  separated (ex_cfg js) (reads (ex_cfg js) (CVarDecl false)) (ex_start js) [x; y; z] t /\ token_at t = TEoF.
Proof.
  cbn zeta. set (g := ex_cfg "a = 1, [b] = c, d"). set (s := ex_start "a = 1, [b] = c, d").
  assert (R : exists x y z, reads g (CVarDeclList false) s [x; y; z] (after_call g _ (CVarDeclList false) s)) by (do 3 eexists; runs).
  destruct R as (x & y & z & R). exists x, y, z, (after_call g _ (CVarDeclList false) s). split; [|vm_compute; reflexivity].
  apply (proj1 (C70_declarations g s _ _ false VVar)). exact R.
Qed.
Example C70_imports_case : let js := "{a, b as c,}" in exists x y t,
  in_braces (ex_cfg js) (until_brace (ex_cfg js) (reads (ex_cfg js) CImportSpecifier)) (ex_start js) [x; y] t /\ token_at t = TEoF.
Proof.
  cbn zeta. set (g := ex_cfg "{a, b as c,}"). set (s := ex_start "{a, b as c,}").
  assert (R : exists x y, reads g CNamedImports s [x; y] (after_call g _ CNamedImports s)) by (do 2 eexists; runs).
  destruct R as (x & y & R). exists x, y, (after_call g _ CNamedImports s). split; [|vm_compute; reflexivity]. apply C70_imports. exact R.
Qed.
(** A rest part is not kept to the end of an object pattern; in an array pattern it is. *)
Example C70_object_pattern_case : let js := "{a, ...b, c: [d] = e}" in exists x y z t,
  in_braces (ex_cfg js) (until_brace (ex_cfg js) (pattern_part (ex_cfg js))) (ex_start js) [x; OPPRest y; z] t /\ token_at t = TEoF.
Proof.
  cbn zeta. set (g := ex_cfg "{a, ...b, c: [d] = e}"). set (s := ex_start "{a, ...b, c: [d] = e}").
  assert (R : exists x y z, reads g CObjectPattern s (false, PObject [x; OPPRest y; z]) (after_call g _ CObjectPattern s)) by (do 3 eexists; runs).
  destruct R as (x & y & z & R). exists x, y, z, (after_call g _ CObjectPattern s). split; [|vm_compute; reflexivity].
  apply C70_object_pattern in R as (l & I & _ & E). injection E as <-. exact I.
Qed.
Example C70_array_pattern_case : let js := "[a, , b = 1, ...c]" in exists x y z s1 s2 t, passes (ex_cfg js) (TPunct POpenBracket) (ex_start js) s1
  /\ pattern_items (ex_cfg js) s1 [Some x; None; Some y; Some z] s2 /\ passes (ex_cfg js) (TPunct PCloseBracket) s2 t /\ token_at t = TEoF.
Proof.
  cbn zeta. set (g := ex_cfg "[a, , b = 1, ...c]"). set (s := ex_start "[a, , b = 1, ...c]").
  assert (R : exists x y z, reads g CArrayPattern s (false, PArray [Some x; None; Some y; Some z]) (after_call g _ CArrayPattern s)) by (do 3 eexists; runs).
  destruct R as (x & y & z & R). assert (T : token_at (after_call g _ CArrayPattern s) = TEoF) by (vm_compute; reflexivity).
  apply C70_array_pattern in R as (l & s1 & s2 & P1 & I & P2 & _ & E). injection E as <-. exists x, y, z, s1, s2, (after_call g _ CArrayPattern s). auto.
Qed.
Example C70_array_rest_last : exists e s', returns (fun n => run_call (@body) (ex_cfg "[...a, b]") n CArrayPattern (ex_start "[...a, b]")) (Err e) s'.
Proof. do 2 eexists. split; [discriminate|]. exists 100. vm_compute. reflexivity. Qed.
Example C70_class_body_case : let js := "{; a() {} ;; constructor() {} get b() {} }" in exists x y z t,
  in_braces (ex_cfg js) (class_elements (ex_cfg js) false) (ex_start js) [x; y; z] t /\ token_at t = TEoF.
Proof.
  cbn zeta. set (g := ex_cfg "{; a() {} ;; constructor() {} get b() {} }"). set (s := ex_start "{; a() {} ;; constructor() {} get b() {} }").
  assert (R : exists x y z, reads g CClassBody s [x; y; z] (after_call g _ CClassBody s)) by (do 3 eexists; runs).
  destruct R as (x & y & z & R). exists x, y, z, (after_call g _ CClassBody s). split; [|vm_compute; reflexivity]. apply C70_class_body. exact R.
Qed.
