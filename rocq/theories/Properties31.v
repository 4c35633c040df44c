(** C72: parameter lists and the clauses of a switch statement. *)
From Verif Require Operators.
From Verif Require Export Lexer Spec Runs Safe Chains Properties1 Properties2 Properties3 Properties5 Properties21 Properties22 Properties26 Properties27 Properties29.
Local Open Scope string_scope.
Local Open Scope list_scope.

(** *** C72
    One parameter, and whether its name is restricted: [...] and a pattern, or a pattern with perhaps a value. *)
Definition parameter (g : cfg) (s : state) (x : bool * Pat) (s' : state) : Prop :=
  token_at s = TPunct PSpread /\ reads g CRestElement s x s' \/ token_at s <> TPunct PSpread /\ reads g CPatternWithDefault s x s'.
(** One or more with commas between them, and perhaps one at the end. *)
Inductive some_parameters (g : cfg) : state -> list (bool * Pat) -> state -> Prop :=
| parameters_last s x s' : token_at s <> TEoF -> parameter g s x s' -> token_at s' = TPunct PCloseParen -> some_parameters g s [x] s'
| parameters_comma s x s1 s' : token_at s <> TEoF -> parameter g s x s1 -> passes g (TPunct PComma) s1 s' -> token_at s' = TPunct PCloseParen ->
    some_parameters g s [x] s'
| parameters_more s x s1 s2 l s' : token_at s <> TEoF -> parameter g s x s1 -> passes g (TPunct PComma) s1 s2 -> token_at s2 <> TPunct PCloseParen ->
    some_parameters g s2 l s' -> some_parameters g s (x :: l) s'.
Definition parameters (g : cfg) (s : state) (l : list (bool * Pat)) (s' : state) : Prop :=
  token_at s = TPunct PCloseParen /\ l = [] /\ s' = s \/ token_at s <> TPunct PCloseParen /\ some_parameters g s l s'.
(** A plain name. *)
Definition plain_name (p : Pat) : bool := match p with PIdentifier _ => true | _ => false end.
(** Clauses up to the closing brace. *)
Inductive clauses (g : cfg) : state -> list SwitchCase -> state -> Prop :=
| clauses_nil s : token_at s = TPunct PCloseBrace -> clauses g s [] s
| clauses_more s c s1 l s' : token_at s <> TPunct PCloseBrace -> reads g CSwitchCase s c s1 -> clauses g s1 l s' -> clauses g s (c :: l) s'.
Definition is_default (c : SwitchCase) : bool := match c with mkCase None _ => true | _ => false end.
Definition within_switch (b : bool) (s : state) : state := upd_ctx (set_in_switch b) s.

Section Loops.
  Variable g : cfg.
  Notation ends := (ends g).
  Definition param_prog : P (bool * Pat) := ifM at_punct PSpread then Call CRestElement else Call CPatternWithDefault.
  Lemma param_iff s x s' : ends param_prog s (Ok x) s' <-> parameter g s x s'.
  Proof.
    unfold param_prog, parameter, reads. split.
    - intros R. apply ends_at in R. destruct (is_punct PSpread _) eqn:T; [left; apply Operators.is_punct_eq in T|right; apply at_not in T]; split; assumption.
    - intros [[T R]|[T R]]; unfold token_at in T; apply at_ends; [rewrite T, is_it|rewrite is_not by exact T]; exact R.
  Qed.
  Lemma formal_iff simple s b r a s' : ends (Call (CFormalParam simple)) s (Ok (b, r, a)) s' <-> exists p, parameter g s (r, p) s' /\ a = FAPat p /\ b = simple && plain_name p.
  Proof.
    assert (E : forall p, Parser.is_simple (FAPat p) = plain_name p) by (intros p; destruct p; reflexivity).
    split.
    - intros R. apply body_ends in R. cbn [body] in R. unfold formal_param in R. apply bind_ends in R as ([r1 p] & s1 & R1 & R).
      apply ret_ends in R as [X ->]. injection X as -> -> ->. exists p. split; [apply param_iff; exact R1|]. split; [reflexivity|]. clear. destruct p; reflexivity.
    - intros (p & R & -> & ->). apply ends_body. cbn [body]. unfold formal_param. eapply ends_ok; [apply param_iff in R; exact R|]. rewrite <- E. apply ends_ret.
  Qed.

  Definition params_step : bool * bool * list FunctionArg -> P (bool * bool * list FunctionArg + bool * bool * list FunctionArg) := fun '(simple, found_restricted, args) =>
    t <- look_tok ;;
    if is_eof t then Ret (inr (simple, found_restricted, args))
    else
      '(s, r, arg) <- Call (CFormalParam simple) ;;
      let acc := (simple && s, found_restricted || r, args ++ [arg]) in
      ifM at_punct PCloseParen then Ret (inr acc)
      else
        expect_punct PComma ;;
        ifM at_punct PCloseParen then Ret (inr acc) else Ret (inl acc).
  Definition added (x : bool * bool * list FunctionArg) (l : list (bool * Pat)) : bool * bool * list FunctionArg :=
    let '(b, r, a) := x in (b && forallb (fun y => plain_name (snd y)) l, r || existsb fst l, a ++ map (fun y => FAPat (snd y)) l).
  Lemma added_cons x r p l : added x ((r, p) :: l) = added (added x [(r, p)]) l.
  Proof.
    destruct x as [[b q] a]. unfold added. cbn [forallb existsb map fst snd]. rewrite !andb_true_r, !orb_false_r, <- app_assoc, andb_assoc, orb_assoc. reflexivity.
  Qed.
  Lemma acc_added b q a r p : (b && (b && plain_name p), q || r, a ++ [FAPat p]) = added (b, q, a) [(r, p)].
  Proof. unfold added. cbn [forallb existsb map fst snd]. destruct b, (plain_name p), q, r; reflexivity. Qed.
  Lemma eof_not t : is_eof t = false <-> t <> TEoF.
  Proof. destruct t; cbn; split; congruence. Qed.
  Lemma params_run s l s' : some_parameters g s l s' -> forall x, ends (Loop x params_step) s (Ok (added x l)) s'.
  Proof.
    assert (H : forall s r p s' b q a o s3, token_at s <> TEoF -> parameter g s (r, p) s' ->
      ends (ifM at_punct PCloseParen then Ret (inr (added (b, q, a) [(r, p)])) else expect_punct PComma ;; ifM at_punct PCloseParen then Ret (inr (added (b, q, a) [(r, p)])) else Ret (inl (added (b, q, a) [(r, p)]))) s' o s3 ->
      ends (params_step (b, q, a)) s o s3).
    { clear. intros s r p s' b q a o s3 N R E. unfold params_step. apply look_ends. apply eof_not in N. unfold token_at in N. rewrite N.
      eapply ends_ok; [apply formal_iff; exists p; split; [exact R|split; reflexivity]|]. cbv beta iota zeta. rewrite acc_added. exact E. }
    induction 1 as [s [r p] s' N R T|s [r p] s1 s' N R P1 T|s [r p] s1 s2 l s' N R P1 T _ IH]; intros [[b q] a]; unfold token_at in T.
    - apply loop_stop. eapply H; [exact N|exact R|]. apply at_ends. rewrite T, is_it. apply ends_ret.
    - apply loop_stop. eapply H; [exact N|exact R|]. apply at_ends. rewrite is_not by (destruct P1 as (-> & _); discriminate).
      eapply ends_ok; [apply pass_expect; exact P1|]. apply at_ends. rewrite T, is_it. apply ends_ret.
    - rewrite added_cons. eapply loop_next; [|apply IH]. eapply H; [exact N|exact R|]. apply at_ends. rewrite is_not by (destruct P1 as (-> & _); discriminate).
      eapply ends_ok; [apply pass_expect; exact P1|]. apply at_ends. rewrite is_not by exact T. apply ends_ret.
  Qed.
  (** At the end of the text the loop stops too; but then no parenthesis follows. *)
  Lemma run_params x s y s' : ends (Loop x params_step) s (Ok y) s' -> token_at s' = TEoF \/ exists l, y = added x l /\ some_parameters g s l s'.
  Proof.
    intros R. refine (loop_ends g _ _ params_step (fun x s y s' => token_at s' = TEoF \/ exists l, y = added x l /\ some_parameters g s l s') _ _ x s y s' R); clear R x s y s'.
    - intros [[b q] a] s y s' R. unfold params_step in R. apply ends_look in R. destruct (is_eof _) eqn:T.
      { apply ret_ends in R as [_ ->]. left. unfold token_at. destruct (it_tok (st_look s)); try discriminate T. reflexivity. }
      right. apply bind_ends in R as ([[sm r] arg] & s1 & R1 & R). apply formal_iff in R1 as (p & R1 & -> & ->). cbv beta iota zeta in R. rewrite acc_added in R. apply eof_not in T.
      exists [(r, p)]. apply ends_at in R. destruct (is_punct PCloseParen _) eqn:T1.
      + apply ret_ends in R as [E ->]. injection E as ->. apply Operators.is_punct_eq in T1. split; [reflexivity|]. apply parameters_last; auto.
      + apply bind_ends in R as (u & s2 & P1 & R). apply expect_pass in P1. apply ends_at in R. destruct (is_punct PCloseParen (it_tok (st_look s2))) eqn:T2; apply ret_ends in R as [E ->]; [|discriminate E].
        injection E as ->. apply Operators.is_punct_eq in T2. split; [reflexivity|]. eapply parameters_comma; eauto.
    - intros [[b q] a] s x1 s1 y s' R [C|(l & -> & C)]; [left; exact C|]. right. unfold params_step in R. apply ends_look in R. destruct (is_eof _) eqn:T; [apply ret_ends in R as [E _]; discriminate E|].
      apply bind_ends in R as ([[sm r] arg] & s2 & R1 & R). apply formal_iff in R1 as (p & R1 & -> & ->). cbv beta iota zeta in R. rewrite acc_added in R. apply eof_not in T.
      apply ends_at in R. destruct (is_punct PCloseParen _) eqn:T1; [apply ret_ends in R as [E _]; discriminate E|].
      apply bind_ends in R as (u & s3 & P1 & R). apply expect_pass in P1. apply ends_at in R. destruct (is_punct PCloseParen (it_tok (st_look s3))) eqn:T2; apply ret_ends in R as [E ->]; [discriminate E|].
      injection E as ->. exists ((r, p) :: l). rewrite added_cons. split; [reflexivity|]. eapply parameters_more; eauto. apply at_not. exact T2.
  Qed.

  Lemma word_pass k s u s' : ends (expect_keyword k) s (Ok u) s' -> passes g (TKeyword k) s s'.
  Proof.
    intros [_ [n R]]. unfold expect_keyword, next in R. cbn [run_in exec] in R. destruct (next_item g s) as [[i|x| |] s1] eqn:N; try discriminate R.
    assert (E : i = st_look s) by (apply Wp.next_item_ok in N; tauto). subst i.
    destruct (is_keyword k (it_tok (st_look s))) eqn:T; cbn [run_in] in R; inversion R; subst. apply Operators.is_keyword_eq in T. split; [exact T|eauto].
  Qed.

  Definition clauses_step : bool * list SwitchCase -> P (bool * list SwitchCase + list SwitchCase) := fun '(found_default, cases) =>
    ifM at_punct PCloseBrace then Ret (inr cases)
    else
      case <- Call CSwitchCase ;;
      match case_test case with
      | None => if found_default : bool then fail_look [] else Ret (inl (true, cases ++ [case]))
      | Some _ => Ret (inl (found_default, cases ++ [case]))
      end.
  Definition defaults (l : list SwitchCase) : nat := List.length (filter is_default l).
  Lemma clauses_run s l s' : clauses g s l s' -> forall d l0, defaults l + (if d : bool then 1 else 0) <= 1 -> ends (Loop (d, l0) clauses_step) s (Ok (l0 ++ l)) s'.
  Proof.
    induction 1 as [s T|s c s1 l s' N R _ IH]; intros d l0 L; unfold token_at in *.
    - rewrite app_nil_r. apply loop_stop. apply at_ends. rewrite T, is_it. apply ends_ret.
    - destruct c as [[e|] b]; unfold defaults in L, IH; cbn [filter is_default List.length] in L.
      + specialize (IH d (l0 ++ [mkCase (Some e) b]) L). rewrite <- app_assoc in IH. eapply loop_next; [|exact IH].
        apply at_ends. rewrite is_not by exact N. eapply ends_ok; [exact R|]. apply ends_ret.
      + destruct d; [lia|]. specialize (IH true (l0 ++ [mkCase None b])). rewrite <- app_assoc in IH. eapply loop_next; [|apply IH; lia].
        apply at_ends. rewrite is_not by exact N. eapply ends_ok; [exact R|]. apply ends_ret.
  Qed.
  Lemma run_clauses d l0 s x s' : ends (Loop (d, l0) clauses_step) s (Ok x) s' ->
    exists l, x = l0 ++ l /\ clauses g s l s' /\ defaults l + (if d : bool then 1 else 0) <= 1.
  Proof.
    intros R. pose (J := fun (y : bool * list SwitchCase) s x s' => exists l, x = snd y ++ l /\ clauses g s l s' /\ defaults l + (if fst y : bool then 1 else 0) <= 1).
    refine (loop_ends g _ _ clauses_step J _ _ (d, l0) s x s' R); clear R d l0 s x s'; unfold J; cbn [fst snd].
    - intros [d l0] s x s' R. unfold clauses_step in R. apply ends_at in R. destruct (is_punct PCloseBrace _) eqn:T.
      + apply ret_ends in R as [E ->]. injection E as ->. apply Operators.is_punct_eq in T. exists []. rewrite app_nil_r. split; [reflexivity|]. split; [apply clauses_nil; exact T|]. cbn. destruct d; lia.
      + apply bind_ends in R as ([[e|] b] & s1 & _ & R); cbn [case_test] in R; [apply ret_ends in R as [E _]; discriminate E|]. destruct d; [|apply ret_ends in R as [E _]; discriminate E].
        unfold fail_look in R. apply bind_ends in R as (i & s2 & _ & R). destruct R as [_ [n R]]. discriminate R.
    - intros [d l0] s [d1 l1] s1 x s' R (l & -> & C & L). unfold clauses_step in R. apply ends_at in R. destruct (is_punct PCloseBrace _) eqn:T; [apply ret_ends in R as [E _]; discriminate E|].
      apply at_not in T. apply bind_ends in R as ([[e|] b] & s2 & M & R); cbn [case_test] in R.
      + apply ret_ends in R as [E ->]. injection E as -> ->. exists (mkCase (Some e) b :: l). cbn [fst snd] in *. rewrite <- app_assoc. split; [reflexivity|]. split; [eapply clauses_more; eauto|exact L].
      + destruct d; [unfold fail_look in R; apply bind_ends in R as (i & s3 & _ & R); destruct R as [_ [n R]]; discriminate R|].
        apply ret_ends in R as [E ->]. injection E as -> ->. exists (mkCase None b :: l). cbn [fst snd] in *. rewrite <- app_assoc. split; [reflexivity|].
        split; [eapply clauses_more; eauto|]. unfold defaults in *. cbn [filter is_default List.length]. lia.
  Qed.
End Loops.

(** Parameter lists: what is read, and what is told of it: whether all are plain names, and whether a name among
    them is restricted. *)
Theorem C72_parameters : forall g s x s', reads g CFormalParams s x s' <->
  exists l s1 s2, passes g (TPunct POpenParen) s s1 /\ parameters g s1 l s2 /\ passes g (TPunct PCloseParen) s2 s'
    /\ x = mkFP (forallb (fun y => plain_name (snd y)) l) (map (fun y => FAPat (snd y)) l) false (existsb fst l).
Proof.
  intros g s x s'. split.
  - intros R. change (ends g (Call CFormalParams) s (Ok x) s') in R. apply body_ends in R. cbn [body] in R. unfold formal_params in R.
    apply bind_ends in R as (u & s1 & P1 & R). apply expect_pass in P1. apply bind_ends in R as ([[b q] a] & s2 & R1 & R).
    apply bind_ends in R as (v & s3 & P2 & R). apply expect_pass in P2. apply ret_ends in R as [-> ->]. apply ends_at in R1. destruct (is_punct PCloseParen _) eqn:T.
    + apply ret_ends in R1 as [E ->]. injection E as -> -> ->. exists [], s1, s1. apply Operators.is_punct_eq in T. split; [exact P1|]. split; [left; auto|]. split; [exact P2|reflexivity].
    + change (ends g (Loop (true, false, []) params_step) s1 (Ok (b, q, a)) s2) in R1. apply run_params in R1 as [E|(l & E & M)]; [destruct P2 as (T2 & _); unfold token_at in E; congruence|].
      injection E as -> -> ->. exists l, s1, s2. split; [exact P1|]. split; [right; split; [apply at_not; exact T|exact M]|]. split; [exact P2|reflexivity].
  - intros (l & s1 & s2 & P1 & M & P2 & ->). change (ends g (Call CFormalParams) s (Ok (mkFP (forallb (fun y => plain_name (snd y)) l) (map (fun y => FAPat (snd y)) l) false (existsb fst l))) s').
    apply ends_body. cbn [body]. unfold formal_params. eapply ends_ok; [apply pass_expect; exact P1|]. destruct M as [(T & -> & ->)|(T & M)].
    + eapply ends_ok; [apply at_ends; unfold token_at in T; rewrite T, is_it; apply ends_ret|]. eapply ends_ok; [apply pass_expect; exact P2|]. apply ends_ret.
    + eapply ends_ok; [apply at_ends; unfold token_at in T; rewrite is_not by exact T; exact (params_run g s1 l s2 M (true, false, []))|].
      eapply ends_ok; [apply pass_expect; exact P2|]. apply ends_ret.
Qed.
Print Assumptions C72_parameters.
(** A rest parameter is followed by the closing parenthesis: it is the last, and no comma follows. *)
Theorem C72_rest : forall g s x s', reads g CRestElement s x s' <->
  exists r p s1, passes g (TPunct PSpread) s s1 /\ reads g (CPattern None) s1 (r, p) s' /\ token_at s' = TPunct PCloseParen /\ x = (r, PRestElement p).
Proof.
  intros g s x s'. split.
  - intros R. change (ends g (Call CRestElement) s (Ok x) s') in R. apply body_ends in R. cbn [body] in R. unfold rest_element in R.
    apply bind_ends in R as (u & s1 & P1 & R). apply expect_pass in P1. apply bind_ends in R as ([r p] & s2 & R1 & R).
    assert (F : forall (l : list string) s o, ~ ends g (fail_look l : P (bool * Pat)) s (Ok x) o).
    { clear. intros l s o R. unfold fail_look in R. apply bind_ends in R as (i & s2 & _ & R). destruct R as [_ [n R]]. discriminate R. }
    apply ends_at in R. destruct (is_punct PAssign _); [destruct (F _ _ _ R)|]. apply ends_at in R. destruct (is_punct PCloseParen _) eqn:T; [|destruct (F _ _ _ R)].
    apply ret_ends in R as [-> ->]. apply Operators.is_punct_eq in T. exists r, p, s1. auto.
  - intros (r & p & s1 & P1 & R & T & ->). change (ends g (Call CRestElement) s (Ok (r, PRestElement p)) s'). apply ends_body. cbn [body]. unfold rest_element, token_at in *.
    eapply ends_ok; [apply pass_expect; exact P1|]. eapply ends_ok; [exact R|]. cbv beta iota. apply at_ends. rewrite is_not by (rewrite T; discriminate).
    apply at_ends. rewrite T, is_it. apply ends_ret.
Qed.
Print Assumptions C72_rest.
(** A switch statement: the clauses are read as being in one, and at most one has no test. *)
Theorem C72_switch : forall g s x s', reads g CSwitchStmt s x s' <->
  exists d l s1 s2 s3 s4 s5 s6 s7, passes g (TKeyword KSwitch) s s1 /\ passes g (TPunct POpenParen) s1 s2 /\ reads g CExpression s2 d s3
    /\ passes g (TPunct PCloseParen) s3 s4 /\ passes g (TPunct POpenBrace) s4 s5 /\ clauses g (within_switch true s5) l s6
    /\ List.length (filter is_default l) <= 1
    /\ passes g (TPunct PCloseBrace) s6 s7 /\ s' = within_switch (c_in_switch (st_ctx s5)) s7 /\ x = SSwitch d l.
Proof.
  intros g s x s'.
  assert (U : forall b t, ends g (upd (set_in_switch b)) t (Ok tt) (within_switch b t)) by (intros b t; split; [discriminate|exists 0; reflexivity]).
  assert (G : forall t, ends g (get c_in_switch) t (Ok (c_in_switch (st_ctx t))) t) by (intros t; split; [discriminate|exists 0; reflexivity]).
  split.
  - intros R. change (ends g (Call CSwitchStmt) s (Ok x) s') in R. apply body_ends in R. cbn [body] in R. unfold switch_stmt in R.
    apply bind_ends in R as (u1 & s1 & P1 & R). apply word_pass in P1. apply bind_ends in R as (u2 & s2 & P2 & R). apply expect_pass in P2.
    apply bind_ends in R as (d & s3 & R3 & R). apply bind_ends in R as (u4 & s4 & P4 & R). apply expect_pass in P4. apply bind_ends in R as (u5 & s5 & P5 & R). apply expect_pass in P5.
    apply bind_ends in R as (pw & t5 & R5 & R). destruct (ends_fun _ _ _ _ _ _ _ _ R5 (G s5)) as [E ->]. injection E as ->. clear R5.
    apply bind_ends in R as (u6 & t6 & R6 & R). destruct (ends_fun _ _ _ _ _ _ _ _ R6 (U true s5)) as [_ ->]. clear R6.
    apply bind_ends in R as (l & s6 & R7 & R). change (ends g (Loop (false, []) clauses_step) (within_switch true s5) (Ok l) s6) in R7.
    apply run_clauses in R7 as (l1 & E & C & L). cbn [app] in E. subst l1. rewrite Nat.add_0_r in L.
    apply bind_ends in R as (u7 & s7 & P7 & R). apply expect_pass in P7. apply bind_ends in R as (u8 & t8 & R8 & R). destruct (ends_fun _ _ _ _ _ _ _ _ R8 (U _ s7)) as [_ ->].
    apply ret_ends in R as [-> ->]. exists d, l, s1, s2, s3, s4, s5, s6, s7. repeat (split; [assumption|]). split; reflexivity.
  - intros (d & l & s1 & s2 & s3 & s4 & s5 & s6 & s7 & P1 & P2 & R3 & P4 & P5 & C & L & P7 & -> & ->).
    change (ends g (Call CSwitchStmt) s (Ok (SSwitch d l)) (within_switch (c_in_switch (st_ctx s5)) s7)). apply ends_body. cbn [body]. unfold switch_stmt.
    eapply ends_ok; [destruct P1 as (T & i & N); eapply expect_word; [exact T|exact N]|]. eapply ends_ok; [apply pass_expect; exact P2|]. eapply ends_ok; [exact R3|].
    eapply ends_ok; [apply pass_expect; exact P4|]. eapply ends_ok; [apply pass_expect; exact P5|]. eapply ends_ok; [apply G|]. eapply ends_ok; [apply U|].
    eapply ends_ok; [apply (clauses_run g _ l s6 C false []); rewrite Nat.add_0_r; exact L|]. eapply ends_ok; [apply pass_expect; exact P7|]. eapply ends_ok; [apply U|]. apply ends_ret.
Qed.
Print Assumptions C72_switch.

(** Concrete cases. *)
Example C72_parameters_case : let js := "(a, [b] = c, ...eval)" in exists x y s1 s2 t, passes (ex_cfg js) (TPunct POpenParen) (ex_start js) s1
  /\ parameters (ex_cfg js) s1 [(false, PIdentifier (str "a")); (false, PAssignment x y); (true, PRestElement (PIdentifier (str "eval")))] s2
  /\ passes (ex_cfg js) (TPunct PCloseParen) s2 t /\ token_at t = TEoF.
Proof.
  cbn zeta. set (g := ex_cfg "(a, [b] = c, ...eval)"). set (s := ex_start "(a, [b] = c, ...eval)").
  set (u0 := after_next g s). set (u1 := after_call g _ CPatternWithDefault u0). set (u2 := after_next g u1). set (u3 := after_call g _ CPatternWithDefault u2).
  set (u4 := after_next g u3). set (u5 := after_call g _ CRestElement u4). do 2 eexists. exists u0, u5, (after_next g u5).
  split; [eapply passes_run; vm_compute; reflexivity|]. split; [|split; [eapply passes_run; vm_compute; reflexivity|vm_compute; reflexivity]].
  right. split; [vm_compute; discriminate|].
  eapply (parameters_more g u0 _ u1 u2); [vm_compute; discriminate|right; split; [vm_compute; discriminate|runs]|eapply passes_run; vm_compute; reflexivity|vm_compute; discriminate|].
  eapply (parameters_more g u2 _ u3 u4); [vm_compute; discriminate|right; split; [vm_compute; discriminate|runs]|eapply passes_run; vm_compute; reflexivity|vm_compute; discriminate|].
  eapply parameters_last; [vm_compute; discriminate|left; split; [vm_compute; reflexivity|runs]|vm_compute; reflexivity].
Qed.
(** A comma at the end adds nothing; one after a rest parameter, or alone, is refused. *)
Example C72_comma_case : let js := "(a, b,)" in exists x y t, reads (ex_cfg js) CFormalParams (ex_start js) (mkFP true [x; y] false false) t.
Proof. do 3 eexists. runs. Qed.
Example C72_rest_comma : exists e s', returns (fun n => run_call (@body) (ex_cfg "(...a,)") n CFormalParams (ex_start "(...a,)")) (Err e) s'.
Proof. do 2 eexists. split; [discriminate|]. exists 100. vm_compute. reflexivity. Qed.
Example C72_comma_alone : exists e s', returns (fun n => run_call (@body) (ex_cfg "(,)") n CFormalParams (ex_start "(,)")) (Err e) s'.
Proof. do 2 eexists. split; [discriminate|]. exists 100. vm_compute. reflexivity. Qed.
Example C72_switch_case : let js := "switch (a, b) { case c: d; break; default: case e: }" in exists d x y z t,
  reads (ex_cfg js) CSwitchStmt (ex_start js) (SSwitch d [mkCase (Some x) y; mkCase None []; mkCase (Some z) []]) t
  /\ List.length y = 2 /\ token_at t = TEoF.
Proof. do 4 eexists. exists (after_call (ex_cfg "switch (a, b) { case c: d; break; default: case e: }") _ CSwitchStmt (ex_start "switch (a, b) { case c: d; break; default: case e: }")). split; [runs|]. split; [reflexivity|vm_compute; reflexivity]. Qed.
Example C72_two_defaults : let js := "switch (a) { default: default: }" in exists e s', returns (fun n => run_call (@body) (ex_cfg js) n CSwitchStmt (ex_start js)) (Err e) s'.
Proof. do 2 eexists. split; [discriminate|]. exists 100. vm_compute. reflexivity. Qed.
