(** C69: templates and object literals. *)
From Verif Require Lines Primary Operators.
From Verif Require Export Lexer Spec Runs Safe Chains Grammar Properties1 Properties2 Properties3 Properties5 Properties21 Properties22 Properties26 Properties27.
Local Open Scope string_scope.
Local Open Scope list_scope.

(** *** C69
    One piece of text of a template: one token, its delimiters cut off. *)
Definition piece (g : cfg) (k : template_kind) (s : state) (q : TemplateElement) (s' : state) : Prop :=
  passes g (TTemplate k) s s' /\ exists w, slice (g_stream g) (it_start (st_look s)) (it_end (st_look s)) = Some w /\ quasi_of k w q.
(** After the first piece: expressions and pieces in turn until a piece that ends the template. *)
Inductive rest_of_template (g : cfg) : state -> list Expr -> list TemplateElement -> state -> Prop :=
| rest_last s e s1 k q s' : returns (fun n => parse_expression g n s) (Ok e) s1 -> piece g k s1 q s' -> k = TTail \/ k = TNoSub ->
    rest_of_template g s [e] [q] s'
| rest_more s e s1 k q s2 es qs s' : returns (fun n => parse_expression g n s) (Ok e) s1 -> piece g k s1 q s2 -> k = THead \/ k = TBody ->
    rest_of_template g s2 es qs s' -> rest_of_template g s (e :: es) (q :: qs) s'.
Inductive template_parts (g : cfg) : state -> list Expr -> list TemplateElement -> state -> Prop :=
| template_plain s q s' : piece g TNoSub s q s' -> template_parts g s [] [q] s'
| template_holes s q s1 es qs s' : piece g THead s q s1 -> rest_of_template g s1 es qs s' -> template_parts g s es (q :: qs) s'.

(** A member of an object literal, and whether [_proto_] has been given; and the members, with commas
    between them and perhaps one at the end. *)
Inductive member (g : cfg) : bool -> state -> ObjectProperty -> bool -> state -> Prop :=
| member_spread p s e s' : it_tok (st_look s) = TPunct PSpread -> returns (fun n => run_call (@body) g n CSpreadElement s) (Ok e) s' ->
    member g p s (OPSpread e) p s'
| member_property p s f x s' : it_tok (st_look s) <> TPunct PSpread -> returns (fun n => run_call (@body) g n (CObjProp p) s) (Ok (f, x)) s' ->
    member g p s x (p || f) s'.
Inductive members (g : cfg) : bool -> state -> list ObjectProperty -> state -> Prop :=
| members_nil p s : it_tok (st_look s) = TPunct PCloseBrace -> members g p s [] s
| members_last p s x p' s' : it_tok (st_look s) <> TPunct PCloseBrace -> member g p s x p' s' -> it_tok (st_look s') = TPunct PCloseBrace -> members g p s [x] s'
| members_more p s x p' s1 s2 l s' : it_tok (st_look s) <> TPunct PCloseBrace -> member g p s x p' s1 -> passes g (TPunct PComma) s1 s2 ->
    members g p' s2 l s' -> members g p s (x :: l) s'.
Definition object (g : cfg) (s : state) (l : list ObjectProperty) (s' : state) : Prop :=
  exists s1 s2, passes g (TPunct POpenBrace) s s1 /\ members g false s1 l s2 /\ passes g (TPunct PCloseBrace) s2 s'.

Section Parts.
  Local Open Scope nat_scope.
  Local Open Scope list_scope.
  Variable g : cfg.
  Notation ends := (ends g).
  Lemma piece_run k s q s' : piece g k s q s' -> ends (Call CTemplateElement) s (Ok q) s'.
  Proof.
    intros (P & w & W & Q). apply ends_body. cbn [body]. unfold template_element. eapply ends_ok; [eapply pass_next; exact P|].
    destruct P as (T & _). rewrite T. split; [discriminate|]. exists 0. unfold get_string. cbn [run_in exec]. rewrite W. cbn [run_in].
    destruct q as [rw cooked tail]. apply Primary.quasi_slice in Q. cbn [q_raw q_cooked q_tail] in Q.
    destruct k, Q as (-> & L & S & ->); unfold inner_slice; rewrite L, S; reflexivity.
  Qed.
  Lemma cut (m : nat) w c : byte_len w <? m = false -> slice w 1 (byte_len w - m) = Some c -> exists d e, w = d :: c ++ e /\ len_utf8 d = 1 /\ byte_len e = m.
  Proof.
    intros L S. apply Nat.ltb_ge in L. apply Lines.slice_inv in S as (pre & suf & E & Hp & Hl). exists (hd 0%N pre), suf.
    assert (K : pre = [hd 0%N pre] /\ len_utf8 (hd 0%N pre) = 1).
    { destruct pre as [|d [|d2 pre]]; cbn in Hp; [discriminate|cbn; split; [reflexivity|lia]|].
      assert (len_utf8 d >= 1 /\ len_utf8 d2 >= 1) by (split; unfold len_utf8; repeat destruct (_ <? _)%N; lia). lia. }
    destruct K as [K1 K2]. split; [rewrite E, K1 at 1; reflexivity|]. split; [exact K2|].
    assert (B : byte_len w = byte_len pre + (byte_len c + byte_len suf)) by (rewrite E, !Lines.byte_len_app; reflexivity). lia.
  Qed.
  Lemma run_piece s q s' : ends (Call CTemplateElement) s (Ok q) s' -> exists k, piece g k s q s' /\ q_tail q = match k with THead | TBody => false | _ => true end.
  Proof.
    intros R. apply body_ends in R. cbn [body] in R. unfold template_element in R. apply bind_ends in R as (i & s1 & R1 & R).
    pose proof (next_pass _ _ _ _ R1) as P. assert (E : i = st_look s) by (destruct R1 as [_ [n N]]; pose proof (Wp.next_item_ok _ _ _ _ N); tauto). subst i.
    destruct (it_tok (st_look s)) as [| | | | | | | | |k|] eqn:T; try (destruct R as [_ [n R]]; discriminate R).
    destruct R as [_ [n R]]. unfold get_string in R. cbn [run_in exec] in R. destruct (slice (g_stream g) _ _) as [w|] eqn:W; [|discriminate R].
    exists k. cbn [run_in] in R. unfold piece, quasi_of.
    destruct k; unfold inner_slice in R; cbn [run_in] in R;
      (match type of R with context [byte_len w <? ?m] => destruct (byte_len w <? m) eqn:L; [discriminate R|destruct (slice w 1 (byte_len w - m)) as [c|] eqn:S; [|discriminate R]];
         destruct (cut m w c L S) as (d & e & Ew & Hd & He) end);
      cbn [run_in] in R; inversion R; subst q s1; cbn [q_raw q_cooked q_tail];
      (split; [split; [exact P|exists w; split; [exact W|split; [reflexivity|exists d, e; auto]]]|reflexivity]).
  Qed.
  Lemma piece_tail k s q s' : piece g k s q s' -> q_tail q = match k with THead | TBody => false | _ => true end.
  Proof. intros (_ & w & _ & _ & c & e & _ & _ & H). destruct k; tauto. Qed.

  Definition template_step := fun '(breaking, expressions, quasis) =>
    if breaking : bool then Ret (inr (expressions, quasis))
    else
      e <- Call CExpression ;;
      quasi <- Call CTemplateElement ;;
      Ret (inl (q_tail quasi, expressions ++ [e], quasis ++ [quasi])) : P ((bool * list Expr * list TemplateElement) + (list Expr * list TemplateElement)).
  Lemma rest_run s es qs s' : rest_of_template g s es qs s' -> forall es0 qs0, ends (Loop (false, es0, qs0) template_step) s (Ok (es0 ++ es, qs0 ++ qs)) s'.
  Proof.
    induction 1 as [s e s1 k q s' R P K|s e s1 k q s2 es qs s' R P K _ IH]; intros es0 qs0; (eapply loop_next;
      [eapply ends_ok; [exact R|]; eapply ends_ok; [eapply piece_run; exact P|]; apply ends_ret|]); rewrite (piece_tail _ _ _ _ P).
    - destruct K as [-> | ->]; apply loop_stop; apply ends_ret.
    - specialize (IH (es0 ++ [e]) (qs0 ++ [q])). rewrite <- !app_assoc in IH. destruct K as [-> | ->]; exact IH.
  Qed.
  Lemma run_rest s es0 qs0 es qs s' : ends (Loop (false, es0, qs0) template_step) s (Ok (es, qs)) s' ->
    exists es1 qs1, es = es0 ++ es1 /\ qs = qs0 ++ qs1 /\ rest_of_template g s es1 qs1 s'.
  Proof.
    intros R. pose (J := fun (x : bool * list Expr * list TemplateElement) s (a : list Expr * list TemplateElement) s' =>
      let '(b, es0, qs0) := x in let '(es, qs) := a in
      if b : bool then es = es0 /\ qs = qs0 /\ s' = s else exists es1 qs1, es = es0 ++ es1 /\ qs = qs0 ++ qs1 /\ rest_of_template g s es1 qs1 s').
    refine (loop_ends g _ _ template_step J _ _ (false, es0, qs0) s (es, qs) s' R); clear.
    - intros [[b es0] qs0] s [es qs] s' R. cbn in R. destruct b; [apply ret_ends in R as [E ->]; injection E as -> ->; repeat split|].
      apply bind_ends in R as (e & s1 & _ & R). apply bind_ends in R as (q & s2 & _ & R). apply ret_ends in R as [E _]. discriminate E.
    - intros [[b es0] qs0] s [[b1 es1] qs1] s1 [es qs] s' R C. cbn in R. destruct b; [apply ret_ends in R as [E _]; discriminate E|].
      apply bind_ends in R as (e & s2 & R1 & R). apply bind_ends in R as (q & s3 & R2 & R). apply ret_ends in R as [E ->]. injection E as -> -> ->.
      apply run_piece in R2 as (k & P & K). cbn in C |- *. rewrite K in C. destruct k.
      + destruct C as (e1 & q1 & -> & -> & C). exists (e :: e1), (q :: q1). rewrite <- !app_assoc. split; [reflexivity|]. split; [reflexivity|]. eapply rest_more; eauto.
      + destruct C as (e1 & q1 & -> & -> & C). exists (e :: e1), (q :: q1). rewrite <- !app_assoc. split; [reflexivity|]. split; [reflexivity|]. eapply rest_more; eauto.
      + destruct C as (-> & -> & ->). exists [e], [q]. split; [reflexivity|]. split; [reflexivity|]. eapply rest_last; eauto.
      + destruct C as (-> & -> & ->). exists [e], [q]. split; [reflexivity|]. split; [reflexivity|]. eapply rest_last; eauto.
  Qed.
End Parts.

(** The template literals are exactly those. *)
Theorem C69_template : forall g s x s',
  returns (fun n => run_call (@body) g n CTemplateLiteral s) (Ok x) s'
  <-> (exists es qs, template_parts g s es qs s' /\ x = mkTemplate qs es).
Proof.
  intros g s x s'. split.
  - intros R. change (ends g (Call CTemplateLiteral) s (Ok x) s') in R. apply body_ends in R. cbn [body] in R. unfold template_literal in R. apply ends_look in R.
    destruct (is_template_head _) eqn:T; cbn [negb] in R; [|destruct R as [_ [n R]]; discriminate R].
    apply bind_ends in R as (q & s1 & R1 & R). apply run_piece in R1 as (k & P & K). apply bind_ends in R as ([es qs] & s2 & R2 & R). apply ret_ends in R as [-> ->].
    exists es, qs. split; [|reflexivity]. pose proof P as ((Tk & _) & _). rewrite Tk in T. rewrite K in R2.
    destruct k; try discriminate T.
    + apply run_rest in R2 as (e1 & q1 & -> & -> & C). eapply template_holes; eauto.
    + change (ends g (Loop (true, [], [q]) template_step) s1 (Ok (es, qs)) s2) in R2.
      assert (E : ends g (Loop (true, [], [q]) template_step) s1 (Ok ([], [q])) s1) by (apply loop_stop; apply ends_ret).
      destruct (ends_fun _ _ _ _ _ _ _ _ R2 E) as [E1 ->]. injection E1 as -> ->. apply template_plain. exact P.
  - intros (es & qs & P & ->). change (ends g (Call CTemplateLiteral) s (Ok (mkTemplate qs es)) s'). apply ends_body. cbn [body]. unfold template_literal. apply look_ends.
    destruct P as [s q s' P|s q s1 es qs s' P C].
    + replace (is_template_head _) with true by (destruct P as ((-> & _) & _); reflexivity). cbn [negb].
      eapply ends_ok; [eapply piece_run; exact P|]. rewrite (piece_tail _ _ _ _ _ P). eapply ends_ok; [apply loop_stop; apply ends_ret|]. apply ends_ret.
    + replace (is_template_head _) with true by (destruct P as ((-> & _) & _); reflexivity). cbn [negb].
      eapply ends_ok; [eapply piece_run; exact P|]. rewrite (piece_tail _ _ _ _ _ P). eapply ends_ok; [exact (rest_run g s1 es qs s' C [] [q])|]. apply ends_ret.
Qed.
Print Assumptions C69_template.

Section Objects.
  Variable g : cfg.
  Notation ends := (ends g).
  Hypothesis strict : g_tolerant g = false.
  Definition one_member (p : bool) : P (bool * ObjectProperty) :=
    ifM at_punct PSpread then
      s <- Call CSpreadElement ;; Ret (p, OPSpread s)
    else
      '(found_proto, prop) <- Call (CObjProp p) ;;
      Ret (p || found_proto, prop).
  Definition members_step := fun '(has_proto, props) =>
    ifM at_punct PCloseBrace then Ret (inr props)
    else
      '(has_proto', prop) <- one_member has_proto ;;
      ifM at_punct PCloseBrace then Ret (inl (has_proto', props ++ [prop]))
      else Do OExpectComma ;; Ret (inl (has_proto', props ++ [prop])) : P ((bool * list ObjectProperty) + list ObjectProperty).
  Lemma member_run p s x p' s' : member g p s x p' s' -> ends (one_member p) s (Ok (p', x)) s'.
  Proof.
    intros [q s1 e s2 T R|q s1 f y s2 T R]; unfold one_member; apply at_ends.
    - rewrite T, is_it. eapply ends_ok; [exact R|]. apply ends_ret.
    - rewrite is_not by exact T. eapply ends_ok; [exact R|]. apply ends_ret.
  Qed.
  Lemma run_member p s x p' s' : ends (one_member p) s (Ok (p', x)) s' -> member g p s x p' s'.
  Proof.
    intros R. unfold one_member in R. apply ends_at in R. destruct (is_punct PSpread _) eqn:T.
    - apply Operators.is_punct_eq in T. apply bind_ends in R as (e & s1 & R1 & R). apply ret_ends in R as [E ->]. injection E as -> ->. apply member_spread; assumption.
    - apply bind_ends in R as ([f y] & s1 & R1 & R). apply ret_ends in R as [E ->]. injection E as -> ->. apply member_property; [|exact R1].
      intros E. rewrite E, is_it in T. discriminate T.
  Qed.
  Lemma members_run p s l s' : members g p s l s' -> forall l0, ends (Loop (p, l0) members_step) s (Ok (l0 ++ l)) s'.
  Proof.
    induction 1 as [p s T|p s x p' s' N M T|p s x p' s1 s2 l s' N M P1 _ IH]; intros l0.
    - rewrite app_nil_r. apply loop_stop. cbn. apply at_ends. rewrite T, is_it. apply ends_ret.
    - apply (loop_next g _ _ members_step (p, l0) s (p', l0 ++ [x]) s').
      + cbn. apply at_ends. rewrite is_not by exact N. eapply ends_ok; [apply member_run; exact M|]. cbn. apply at_ends. rewrite T, is_it. apply ends_ret.
      + apply loop_stop. cbn. apply at_ends. rewrite T, is_it. apply ends_ret.
    - specialize (IH (l0 ++ [x])). rewrite <- app_assoc in IH. eapply loop_next; [|exact IH].
      cbn. apply at_ends. rewrite is_not by exact N. eapply ends_ok; [apply member_run; exact M|]. cbn. apply at_ends.
      rewrite is_not by (destruct P1 as (-> & _); discriminate). eapply ends_ok; [apply pass_comma; [exact strict|exact P1]|]. apply ends_ret.
  Qed.
  Lemma run_members p l0 s x s' : ends (Loop (p, l0) members_step) s (Ok x) s' -> exists l, x = l0 ++ l /\ members g p s l s' /\ it_tok (st_look s') = TPunct PCloseBrace.
  Proof.
    intros R. pose (J := fun (y : bool * list ObjectProperty) s x s' => exists l, x = snd y ++ l /\ members g (fst y) s l s' /\ it_tok (st_look s') = TPunct PCloseBrace).
    refine (loop_ends g _ _ members_step J _ _ (p, l0) s x s' R); clear R p l0 s x s'.
    - intros [p l0] s x s' R. cbn in R. apply ends_at in R. destruct (is_punct PCloseBrace _) eqn:T.
      + apply ret_ends in R as [E ->]. injection E as ->. apply Operators.is_punct_eq in T. exists []. rewrite app_nil_r. split; [reflexivity|]. split; [apply members_nil|]; exact T.
      + apply bind_ends in R as ([f y] & s1 & _ & R). apply ends_at in R. destruct (is_punct PCloseBrace (it_tok (st_look s1))).
        * apply ret_ends in R as [E _]. discriminate E.
        * apply bind_ends in R as (u & s2 & _ & R). apply ret_ends in R as [E _]. discriminate E.
    - intros [p l0] s [p1 l1] s1 x s' R (l & -> & C & Cl). cbn in R. apply ends_at in R. destruct (is_punct PCloseBrace _) eqn:T; [apply ret_ends in R as [E _]; discriminate E|].
      assert (N : it_tok (st_look s) <> TPunct PCloseBrace) by (intros E; rewrite E, is_it in T; discriminate T).
      apply bind_ends in R as ([p2 y] & s2 & M & R). apply run_member in M. apply ends_at in R. cbn [fst snd] in *. destruct (is_punct PCloseBrace (it_tok (st_look s2))) eqn:T2.
      + apply ret_ends in R as [E ->]. injection E as -> ->. apply Operators.is_punct_eq in T2. exists (y :: l). split; [cbn; rewrite <- app_assoc; reflexivity|]. split; [|exact Cl].
        inversion C as [q u E|q u z q' u' E|q u z q' u1 u2 m u' E]; subst; try contradiction. eapply members_last; eauto.
      + apply bind_ends in R as (u & s3 & P1 & R). apply comma_pass in P1; [|exact strict]. apply ret_ends in R as [E ->]. injection E as -> ->.
        exists (y :: l). split; [cbn; rewrite <- app_assoc; reflexivity|]. split; [|exact Cl]. eapply members_more; eauto.
  Qed.
End Objects.

(** The object literals are exactly those, the tolerant flag being off. *)
Theorem C69_object : forall g s x s', g_tolerant g = false ->
  returns (fun n => run_call (@body) g n CObjInit s) (Ok x) s' <-> (exists l, object g s l s' /\ x = EObject l).
Proof.
  intros g s x s' T. split.
  - intros R. change (ends g (Call CObjInit) s (Ok x) s') in R. apply body_ends in R. cbn [body] in R. unfold obj_init in R.
    apply bind_ends in R as (u & s1 & P1 & R). apply expect_pass in P1. apply bind_ends in R as (l & s2 & R1 & R).
    apply (run_members g T false [] s1 l s2) in R1 as (l' & -> & M & _). apply bind_ends in R as (v & s3 & P2 & R). apply expect_pass in P2. apply ret_ends in R as [-> ->].
    exists l'. split; [|reflexivity]. exists s1, s2. auto.
  - intros (l & (s1 & s2 & P1 & M & P2) & ->). change (ends g (Call CObjInit) s (Ok (EObject l)) s'). apply ends_body. cbn [body]. unfold obj_init.
    eapply ends_ok; [apply pass_expect; exact P1|]. eapply ends_ok; [exact (members_run g T false s1 l s2 M [])|]. eapply ends_ok; [apply pass_expect; exact P2|]. apply ends_ret.
Qed.
Print Assumptions C69_object.

(** A property with a name and a value.  The value is an assignment expression, but it is not read as
    if it stood alone: the flags it finds are the ones the members before it have left. *)
Definition kept (s s' : state) : state :=
  upd_ctx (fun c => set_first_covert (match c_first_covert (st_ctx s) with Some _ => c_first_covert (st_ctx s) | None => c_first_covert c end)
                     (set_assign_target (c_assign_target c && c_assign_target (st_ctx s))
                       (set_binding_element (c_binding_element c && c_binding_element (st_ctx s)) c))) s'.
Definition named_value (k : text) (v : Expr) : ObjectProperty := OPProperty (mkProperty (PKExpr (EIdent k)) (PVExpr v) KInit false false false).
Lemma named_step g n p s k s1 : it_tok (st_look s) = TIdent -> slice (g_stream g) (it_start (st_look s)) (it_end (st_look s)) = Some k -> k <> str "async" ->
  passes g TIdent s s1 -> it_tok (st_look s1) = TPunct PColon ->
  run_in g n (@run_call call (@body) g n) (obj_prop p) s
  = run_in g n (@run_call call (@body) g n) (next ;; cg <- get_cover ;; v <- Call CAssignmentExpr ;; set_inherit_cover cg ;; Ret (p, named_value k v)) s1.
Proof.
  intros T W N (_ & i & P) C. assert (Kn : text_eqb k (str "async") = false) by (destruct (text_eqb k (str "async")) eqn:E; [apply text_eqb_eq in E; contradiction|reflexivity]).
  unfold obj_prop, obj_prop_head, obj_prop_plain, string_or_empty, at_punct, look_tok, look, stream_at, next. cbn [run_in exec]. rewrite T. cbn [run_in exec]. rewrite W.
  cbn [run_in exec]. rewrite P. cbn [run_in exec]. rewrite Kn. cbn [run_in exec]. rewrite W, C. cbn [run_in exec qualified_prop_key].
  change (punct_eqb POpenBracket PColon) with false. rewrite !andb_false_r. cbn [andb]. change (is_punct PColon (TPunct PColon)) with true.
  change (is_punct POpenBracket (TPunct PColon)) with false. cbn [andb negb is_proto_ run_in]. cbn [run_in exec]. rewrite C. change (is_punct PColon (TPunct PColon)) with true. cbn [andb negb is_proto_ run_in exec]. reflexivity.
Qed.
Theorem C69_value : forall g s k p v t, it_tok (st_look s) = TIdent ->
  slice (g_stream g) (it_start (st_look s)) (it_end (st_look s)) = Some k -> k <> str "async" ->
  forall s1 s2, passes g TIdent s s1 -> passes g (TPunct PColon) s1 s2 ->
  returns (fun n => run_call (@body) g n (CObjProp p) s) (Ok (p, named_value k v)) t
  <-> (exists s3, returns (fun n => run_call (@body) g n CAssignmentExpr s2) (Ok v) s3 /\ t = kept s2 s3).
Proof.
  intros g s k p v t T W N s1 s2 P1 P2.
  pose proof (fun n => named_step g n p s k s1 T W N P1 (proj1 P2)) as E. destruct P2 as (_ & i & P2).
  assert (F : forall n, run_in g n (@run_call call (@body) g n) (next ;; cg <- get_cover ;; v <- Call CAssignmentExpr ;; set_inherit_cover cg ;; Ret (p, named_value k v)) s1
    = match run_call (@body) g n CAssignmentExpr s2 with (Ok v, s3) => (Ok (p, named_value k v), kept s2 s3) | (Err x, s3) => (Err x, s3) | (Panic, s3) => (Panic, s3) | (NoFuel, s3) => (NoFuel, s3) end).
  { intros n. unfold next, get_cover, set_inherit_cover, upd. cbn [run_in exec]. rewrite P2. cbn [run_in exec].
    destruct (run_call (@body) g n CAssignmentExpr s2) as [[a|x| |] s3]; cbn [run_in exec]; reflexivity. }
  split.
  - intros R. change (ends g (Call (CObjProp p)) s (Ok (p, named_value k v)) t) in R. apply body_ends in R. cbn [body] in R. destruct R as [_ [n R]].
    rewrite E, F in R. destruct (run_call (@body) g n CAssignmentExpr s2) as [[a|x| |] s3] eqn:A; try discriminate R. inversion R; subst.
    exists s3. split; [split; [discriminate|exists n; exact A]|reflexivity].
  - intros (s3 & [_ [n A]] & ->). change (ends g (Call (CObjProp p)) s (Ok (p, named_value k v)) (kept s2 s3)). apply ends_body. cbn [body]. split; [discriminate|]. exists n.
    rewrite E, F. rewrite A. reflexivity.
Qed.
Print Assumptions C69_value.
(** Where the flags are still set the value is an element, as it is in an array literal. *)
Theorem C69_value_element : forall g s s1 s2 k p v t, it_tok (st_look s) = TIdent ->
  slice (g_stream g) (it_start (st_look s)) (it_end (st_look s)) = Some k -> k <> str "async" ->
  passes g TIdent s s1 -> passes g (TPunct PColon) s1 s2 -> c_assign_target (st_ctx s) = true -> c_binding_element (st_ctx s) = true -> c_first_covert (st_ctx s) = None ->
  (exists t', returns (fun n => run_call (@body) g n (CObjProp p) s) (Ok (p, named_value k v)) t' /\ same_but_6 t' t)
  <-> element g s2 v t.
Proof.
  intros g s s1 s2 k p v t T W N P1 P2 F1 F2 F3.
  assert (A : alone s2 = s2).
  { pose proof (passes_ctx _ _ _ _ P1) as E1. pose proof (passes_ctx _ _ _ _ P2) as E2. rewrite E1 in E2. rewrite <- E2 in F1, F2, F3. clear - F1 F2 F3.
    destruct s2. unfold alone, upd_ctx. cbn in *. f_equal. destruct st_ctx. cbn in *. subst. reflexivity. }
  assert (Q : forall s3, sames s3 (kept s2 s3)) by (intros s3; split; [|reflexivity]; cbn; destruct (st_ctx s3); reflexivity).
  split.
  - intros (t' & R & S). apply same_sames in S. apply (C69_value g s k p v t' T W N s1 s2 P1 P2) in R as (s3 & R & ->). exists s3. rewrite A. split; [exact R|].
    apply same_sames. eapply sames_trans; [apply Q|exact S].
  - intros (u & R & S). rewrite A in R. apply same_sames in S. exists (kept s2 u). split; [apply (C69_value g s k p v _ T W N s1 s2 P1 P2); exists u; auto|].
    apply same_sames. eapply sames_trans; [apply sames_sym; apply Q|exact S].
Qed.
Print Assumptions C69_value_element.

(** Elsewhere it need not be: after a member whose value is no assignment target an assignment is
    refused, though it is an element there, and is accepted as the first member. *)
Definition after_member (g : cfg) (p : bool) (s : state) : state := after_call g _ (CObjProp p) s.
Theorem C69_value_alone_refuted : exists js e s1 s2 s3 s4 s5 v t, let g := ex_cfg js in
  c_assign_target (st_ctx s1) = true /\ c_binding_element (st_ctx s1) = true /\ passes g (TPunct POpenBrace) s1 s2 /\ member g false s2 e false s3 /\ passes g (TPunct PComma) s3 s4
  /\ (exists s, passes g TIdent s4 s /\ passes g (TPunct PColon) s s5) /\ element g s5 v t /\ it_tok (st_look t) = TPunct PCloseBrace
  /\ exists x s', returns (fun n => run_call (@body) g n CObjInit s1) (Err x) s'.
Proof.
  set (g := ex_cfg "({a: 1, b: c = 2})"). set (s1 := alone (after_next g (ex_start "({a: 1, b: c = 2})"))).
  set (s2 := after_next g s1). set (s3 := after_member g false s2). set (s4 := after_next g s3). set (s := after_next g s4). set (s5 := after_next g s).
  exists "({a: 1, b: c = 2})". eexists. exists s1, s2, s3, s4, s5. eexists. exists (after_element g s5). fold g. cbn zeta. split; [vm_compute; reflexivity|]. split; [vm_compute; reflexivity|].
  split; [eapply passes_run; vm_compute; reflexivity|].
  split; [apply (member_property g false s2 false); [vm_compute; discriminate|apply returned; vm_compute; reflexivity]|].
  split; [eapply passes_run; vm_compute; reflexivity|].
  split; [exists s; split; eapply passes_run; vm_compute; reflexivity|].
  split; [apply element_run; vm_compute; reflexivity|]. split; [vm_compute; reflexivity|].
  do 2 eexists. split; [discriminate|]. exists 100. vm_compute. reflexivity.
Qed.
Print Assumptions C69_value_alone_refuted.
Example C69_value_first : exists x, fst (parse (ex_cfg "({b: c = 2, a: 1})") 100 (ex_start "({b: c = 2, a: 1})")) = Ok x.
Proof. eexists. vm_compute. reflexivity. Qed.

(** Concrete cases. *)
Example C69_template_case : let g := ex_cfg "`a${b, c}d${e}f`" in exists q1 q2 q3 t,
  template_parts g (ex_start "`a${b, c}d${e}f`") [ESequence [EIdent (str "b"); EIdent (str "c")]; EIdent (str "e")] [q1; q2; q3] t
  /\ (q_cooked q1, q_cooked q2, q_cooked q3) = (str "a", str "d", str "f") /\ it_tok (st_look t) = TEoF.
Proof.
  set (g := ex_cfg "`a${b, c}d${e}f`"). set (s := ex_start "`a${b, c}d${e}f`"). cbn zeta.
  assert (R : exists x s', returns (fun n => run_call (@body) g n CTemplateLiteral s) (Ok x) s' /\ it_tok (st_look s') = TEoF
    /\ exists q1 q2 q3, x = mkTemplate [q1; q2; q3] [ESequence [EIdent (str "b"); EIdent (str "c")]; EIdent (str "e")]
    /\ (q_cooked q1, q_cooked q2, q_cooked q3) = (str "a", str "d", str "f")).
  { eexists. exists (after_call g _ CTemplateLiteral s). split; [apply returned; vm_compute; reflexivity|]. split; [vm_compute; reflexivity|].
    do 3 eexists. split; [reflexivity|vm_compute; reflexivity]. }
  destruct R as (x & s' & R & E & q1 & q2 & q3 & -> & Q). apply C69_template in R as (es & qs & P & X). injection X as <- <-.
  exists q1, q2, q3, s'. auto.
Qed.
Example C69_object_case : let g := ex_cfg "({a, b: c, ...d, e() {},})" in let s := after_next g (ex_start "({a, b: c, ...d, e() {},})") in
  exists x y z w t, g_tolerant g = false /\ object g s [x; y; z; w] t /\ it_tok (st_look t) = TPunct PCloseParen
  /\ y = named_value (str "b") (EIdent (str "c")) /\ z = OPSpread (ESpread (EIdent (str "d"))).
Proof.
  set (g := ex_cfg "({a, b: c, ...d, e() {},})"). set (s := after_next g (ex_start "({a, b: c, ...d, e() {},})")). cbn zeta.
  assert (R : exists x y z w s', returns (fun n => run_call (@body) g n CObjInit s) (Ok (EObject [x; y; z; w])) s' /\ it_tok (st_look s') = TPunct PCloseParen
    /\ y = named_value (str "b") (EIdent (str "c")) /\ z = OPSpread (ESpread (EIdent (str "d")))).
  { do 4 eexists. exists (after_call g _ CObjInit s). split; [apply returned; vm_compute; reflexivity|]. split; [vm_compute; reflexivity|]. split; reflexivity. }
  destruct R as (x & y & z & w & s' & R & E & Y & Z). apply C69_object in R as (l & O & X); [|reflexivity]. injection X as <-.
  exists x, y, z, w, s'. auto.
Qed.
Example C69_value_case : let g := ex_cfg "({b: c = 2})" in let s := alone (after_next g (after_next g (ex_start "({b: c = 2})"))) in
  it_tok (st_look s) = TIdent /\ slice (g_stream g) (it_start (st_look s)) (it_end (st_look s)) = Some (str "b")
  /\ c_assign_target (st_ctx s) = true /\ c_binding_element (st_ctx s) = true /\ c_first_covert (st_ctx s) = None
  /\ (exists s1 s2, passes g TIdent s s1 /\ passes g (TPunct PColon) s1 s2)
  /\ exists f x t, returns (fun n => run_call (@body) g n (CObjProp false) s) (Ok (f, x)) t.
Proof.
  set (g := ex_cfg "({b: c = 2})"). set (s := alone (after_next g (after_next g (ex_start "({b: c = 2})")))). cbn zeta.
  split; [vm_compute; reflexivity|]. split; [vm_compute; reflexivity|]. split; [vm_compute; reflexivity|]. split; [vm_compute; reflexivity|]. split; [vm_compute; reflexivity|].
  split; [exists (after_next g s), (after_next g (after_next g s)); split; eapply passes_run; vm_compute; reflexivity|].
  do 2 eexists. exists (after_member g false s). apply (returned g _ (CObjProp false) s). vm_compute. reflexivity.
Qed.
