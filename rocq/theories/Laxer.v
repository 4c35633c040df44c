(** A strict context against the same context made sloppy.  What is read in strict context is read
    to the same tree in sloppy context: the parser asks for strictness only in order to refuse.

    The one place where a strict context lets more through is the name of a function expression
    (lib.rs:2783-2790), which may be [yield] there; its callers have allowed [yield] as a name by
    then, so that the other branch takes it too. *)
From Verif Require Export Inert.
Local Open Scope string_scope.
Local Open Scope list_scope.

Section Laxer.
  Variable g : cfg.
  (** A token [yield] is so spelled. *)
  Definition plain_yield (i : item) : Prop :=
    it_tok i = TKeyword KYield -> slice (g_stream g) (it_start i) (it_end i) = Some (kw_text KYield).
  Definition yields (s : state) : Prop := plain_yield (st_look s) /\ Forall (fun r => plain_yield (r_item r)) (st_rest s).

  Lemma next_yields s : yields s -> yields (snd (next_item g s)).
  Proof.
    unfold next_item. intros [H1 H2]. generalize (it_start (st_look s), it_end (st_look s)). 
    assert (H : yields s) by (split; assumption). clear H1.
    revert H H2. generalize (st_rest s) as rest. intros rest H H2 sp. revert s H sp.
    induction rest as [|r rest IH]; intros s [H1 H3] sp; cbn [next_item_loop].
    - destruct (is_eof _); [destruct (st_found_eof s)|]; split; cbn; auto.
    - inversion H2; subst. destruct (update_positions _ _ _ _ _) as [[cur lpos]|]; [|split; assumption].
      destruct (it_tok (r_item r)); try (split; cbn; assumption).
      destruct (slice _ _ _); [|split; cbn; assumption]. apply IH; [assumption|split; cbn; assumption].
  Qed.
  Lemma run_yields n rec : (forall B (c : call B) s, yields s -> yields (snd (rec B c s))) ->
    forall A (p : P A) s, yields s -> yields (snd (run_in g n rec p s)).
  Proof.
    intros Hr A p. induction p as [A a|A e|A|A o|A c|A B p IHp k IHk|A X x b IHb]; intros s Hs; cbn [run_in]; try exact Hs.
    - destruct o; cbn [exec]; try exact Hs; try (apply next_yields; exact Hs).
      + pose proof (next_yields s Hs) as H. destruct (next_item g s) as [[?|?| |] ?]; exact H.
      + destruct (g_tolerant g); exact Hs.
      + destruct (g_tolerant g); [destruct (is_punct _ _); [|exact Hs]|]; pose proof (next_yields s Hs) as H;
          destruct (next_item g s) as [[?|?| |] ?]; cbn in *; try exact H; destruct (is_punct _ _); exact H.
      + destruct (g_module g), b as [[]|]; exact Hs.
    - apply Hr. exact Hs.
    - specialize (IHp s Hs). destruct (run_in g n rec p s) as [[?|?| |] s']; cbn in *; auto.
    - revert x s Hs. generalize n at 2. intros m. induction m as [|m IH]; intros x s Hs; cbn [iter]; [exact Hs|].
      specialize (IHb x s Hs). destruct (run_in g n rec (b x) s) as [[[?|?]|?| |] s']; cbn in *; auto.
  Qed.
  Lemma call_yields n : forall B (c : call B) s, yields s -> yields (snd (run_call (@body) g n c s)).
  Proof. induction n as [|n IH]; intros B c s Hs; cbn [run_call]; [exact Hs|]. apply run_yields; assumption. Qed.

  (** [s2] is [s1] made sloppy. *)
  Definition sloppier (s1 s2 : state) : Prop :=
    c_strict (st_ctx s1) = true /\ yields s1 /\ s2 = upd_ctx (set_strict false) s1.
  Notation R := sloppier.
  (** Whenever the first ends well, so does the second, with a value related by [V]. *)
  Definition follows {A} (V : A -> A -> Prop) (x1 x2 : outcome A * state) : Prop :=
    match fst x1 with
    | Ok a => exists b, fst x2 = Ok b /\ V a b /\ R (snd x1) (snd x2)
    | _ => True
    end.
  Lemma next_follows s1 s2 : R s1 s2 -> follows eq (next_item g s1) (next_item g s2).
  Proof.
    intros (H & Y & ->). pose proof (next_yields s1 Y) as Y'.
    pose proof (next_agrees g (fun c1 c2 => c1 = set_strict true c1 /\ c2 = set_strict false c1) s1 (upd_ctx (set_strict false) s1)) as K.
    destruct K as [K1 [[K2 K3] K4]].
    { split; [|reflexivity]. cbn. split; [|reflexivity]. destruct (st_ctx s1). cbn in *. subst. reflexivity. }
    unfold follows. destruct (next_item g s1) as [[a|e| |] t1]; cbn [fst snd] in *; auto.
    destruct (next_item g _) as [[b|e| |] t2]; cbn [fst snd outcomes] in *; try tauto. exists b. split; [reflexivity|]. split; [exact K1|].
    split; [|split; [exact Y'|]].
    - rewrite K2. reflexivity.
    - rewrite K4, K3. reflexivity.
  Qed.

  Section Rel.
    Variable n : nat.
    Variable rec : forall B, call B -> state -> outcome B * state.
    (** A call that may be made: before the name of a function that is not a generator, [yield] is allowed as a name. *)
    Definition fit {B} (c : call B) (s : state) : Prop :=
      match c with CFnName false => c_allow_yield (st_ctx s) = true | _ => True end.
    Hypothesis rec_yields : forall B (c : call B) s, yields s -> yields (snd (rec B c s)).
    Hypothesis rec_follows : forall B (c : call B) s1 s2, R s1 s2 -> fit c s1 -> follows eq (rec B c s1) (rec B c s2).
    (** No list of bindings starts with a keyword in strict context. *)
    Hypothesis rec_bindings : forall k f s ds, c_strict (st_ctx s) = true -> is_keyword KIn (it_tok (st_look s)) = true -> k <> VVar ->
      fst (rec _ (CBindingList k f) s) <> Ok ds.
    (** The two readings of [yield]. *)
    Hypothesis rec_yield : forall s1 s2, R s1 s2 -> is_keyword KYield (it_tok (st_look s1)) = true -> c_allow_yield (st_ctx s1) = true ->
      follows eq (rec _ CIdentName s1) (rec _ (CVarIdent false) s2).
    Notation run_ := (run_in g n rec).
    Definition lax {A} (V : A -> A -> Prop) (p1 p2 : P A) : Prop := forall s1 s2, R s1 s2 -> follows V (run_ p1 s1) (run_ p2 s2).

    Lemma lax_ret A (V : A -> A -> Prop) a1 a2 : V a1 a2 -> lax V (Ret a1) (Ret a2).
    Proof. intros H s1 s2 Hs. cbn. exists a2. auto. Qed.
    Lemma lax_fail A (V : A -> A -> Prop) d p2 : lax V (Fail d) p2.
    Proof. intros s1 s2 Hs. exact I. Qed.
    Lemma lax_crash A (V : A -> A -> Prop) p2 : lax V Crash p2.
    Proof. intros s1 s2 Hs. exact I. Qed.
    Lemma lax_call B (c : call B) : (forall s, fit c s) -> lax eq (Call c) (Call c).
    Proof. intros H s1 s2 Hs. apply rec_follows; [exact Hs|apply H]. Qed.
    Lemma lax_bind A B (V : A -> A -> Prop) (W : B -> B -> Prop) p1 p2 q1 q2 :
      lax V p1 p2 -> (forall a1 a2, V a1 a2 -> lax W (q1 a1) (q2 a2)) -> lax W (Bind p1 q1) (Bind p2 q2).
    Proof.
      intros H K s1 s2 Hs. specialize (H s1 s2 Hs). unfold follows in H. cbn [run_in].
      destruct (run_ p1 s1) as [[a1|e1| |] t1]; cbn [fst snd] in *; try exact I.
      destruct H as (b & E & Hv & Ht). destruct (run_ p2 s2) as [o2 t2]. cbn [fst snd] in *. subst. exact (K _ _ Hv _ _ Ht).
    Qed.
    Lemma lax_loop X A (U : X -> X -> Prop) (V : A -> A -> Prop) x1 x2 b1 b2 : U x1 x2 ->
      (forall y1 y2, U y1 y2 -> lax (steps U V) (b1 y1) (b2 y2)) -> lax V (Loop x1 b1) (Loop x2 b2).
    Proof.
      intros H0 H s1 s2 Hs. cbn [run_in].
      enough (G : forall m x1 x2 s1 s2, U x1 x2 -> R s1 s2 ->
        follows V (iter (fun y s' => run_ (b1 y) s') m x1 s1) (iter (fun y s' => run_ (b2 y) s') m x2 s2)) by (apply G; assumption).
      clear x1 x2 s1 s2 H0 Hs. induction m as [|m IH]; intros x1 x2 s1 s2 H0 Hs; cbn [iter]; [exact I|].
      specialize (H x1 x2 H0 s1 s2 Hs). unfold follows in H.
      destruct (run_ (b1 x1) s1) as [[[y1|a1]|e1| |] t1]; cbn [fst snd] in *; try exact I;
        destruct H as (b & E & Hv & Ht); destruct (run_ (b2 x2) s2) as [o2 t2]; cbn [fst snd] in *; subst; destruct b; cbn in Hv; try tauto.
      - apply IH; assumption.
      - exists a. auto.
    Qed.
    Lemma lax_next : lax eq (Do ONext) (Do ONext).
    Proof. intros s1 s2 Hs. apply next_follows. exact Hs. Qed.
    Lemma look_same s1 s2 : R s1 s2 -> st_look s2 = st_look s1.
    Proof. intros (_ & _ & ->). reflexivity. Qed.
    Lemma lax_nextignored : lax eq (Do ONextIgnored) (Do ONextIgnored).
    Proof.
      intros s1 s2 (H & Y & ->). cbn [run_in exec]. pose proof (next_yields s1 Y) as Y'.
      pose proof (next_agrees g (fun c1 c2 => c1 = set_strict true c1 /\ c2 = set_strict false c1) s1 (upd_ctx (set_strict false) s1)) as K.
      destruct K as [K1 [[K2 K3] K4]].
      { split; [|reflexivity]. cbn. split; [|reflexivity]. destruct (st_ctx s1). cbn in *. subst. reflexivity. }
      destruct (next_item g s1) as [[a|e| |] t1], (next_item g _) as [[b|e'| |] t2]; cbn [fst snd outcomes] in *; try tauto; try exact I.
      all: exists tt; split; [reflexivity|]; split; [reflexivity|]; cbn [snd]; split; [rewrite K2; reflexivity|]; split; [exact Y'|].
      all: rewrite K4, K3; reflexivity.
    Qed.
    Lemma lax_expectcomma : lax eq (Do OExpectComma) (Do OExpectComma).
    Proof.
      intros s1 s2 Hs. pose proof (next_follows _ _ Hs) as H. unfold follows in *. cbn [run_in exec].
      rewrite (look_same _ _ Hs).
      destruct (g_tolerant g); [destruct (is_punct PComma (it_tok (st_look s1))); [|exists tt; auto]|].
      all: destruct (next_item g s1) as [[a1|?| |] t1]; cbn [fst snd] in *; try exact I.
      all: destruct H as (b & E & <- & Ht); destruct (next_item g s2) as [o2 t2]; cbn [fst snd] in *; subst.
      all: try destruct (is_punct PComma (it_tok a1)); cbn [fst snd]; try exact I; exists tt; auto.
    Qed.
    Lemma lax_strict : lax (fun b1 b2 => b1 = true /\ b2 = false) (get c_strict) (get c_strict).
    Proof. intros s1 s2 Hs. pose proof Hs as (H & Y & ->). cbn. rewrite H. exists false. auto. Qed.
    Lemma lax_ctx : lax (fun c1 c2 => c2 = set_strict false c1 /\ c_strict c1 = true) (Do OCtx) (Do OCtx).
    Proof. intros s1 s2 Hs. pose proof Hs as (H & Y & ->). cbn. eexists. split; [reflexivity|]. cbn. auto. Qed.
    Lemma lax_upd f1 f2 : (forall c, c_strict c = true -> c_strict (f1 c) = true /\ f2 (set_strict false c) = set_strict false (f1 c)) ->
      lax eq (Do (OUpd f1)) (Do (OUpd f2)).
    Proof.
      intros H s1 s2 (H1 & Y & ->). exists tt. split; [reflexivity|]. split; [reflexivity|]. cbn. specialize (H _ H1).
      split; [apply H|]. split; [exact Y|]. unfold upd_ctx. cbn. rewrite (proj2 H). reflexivity.
    Qed.
    (** The other operations do not touch the context. *)
    Lemma lax_do A (o : op A) : match o with OCtx | OUpd _ => False | _ => True end -> lax eq (Do o) (Do o).
    Proof.
      intros Ho. destruct o; try destruct Ho; try apply lax_next; try apply lax_nextignored; try apply lax_expectcomma.
      all: intros s1 s2 Hs; pose proof Hs as (_ & _ & E); unfold follows; cbn [run_in exec].
      all: try (destruct (g_tolerant g)); try (destruct (g_module g)); try (destruct b as [[]|]); cbn [fst snd]; try exact I.
      all: eexists; (split; [reflexivity|]); split; [rewrite ?E; reflexivity|exact Hs].
    Qed.
    (** A test made in strict context alone. *)
    Lemma lax_test (b : bool) d : lax eq (if b then Do (OTolerate d) else Ret tt) (Ret tt).
    Proof. intros s1 s2 Hs. destruct b; cbn; [destruct (g_tolerant g); cbn; [|exact I]|]; exists tt; auto. Qed.

    Lemma lax_fail_look A (V : A -> A -> Prop) ws p2 : lax V (fail_look ws) p2.
    Proof. intros s1 s2 Hs. exact I. Qed.
    Lemma lax_look A (W : A -> A -> Prop) k1 k2 :
      (forall s1 s2, R s1 s2 -> follows W (run_ (k1 (it_tok (st_look s1))) s1) (run_ (k2 (it_tok (st_look s1))) s2)) ->
      lax W (Bind look_tok k1) (Bind look_tok k2).
    Proof. intros H s1 s2 Hs. specialize (H s1 s2 Hs). cbn [run_in look_tok look exec]. rewrite (look_same _ _ Hs). exact H. Qed.
    Ltac vrel A := lazymatch eval hnf in A with
      | ctx => constr:(fun c1 c2 => c2 = set_strict false c1 /\ c_strict c1 = true)
      | _ => constr:(@eq A)
      end.
    Ltac vclean := lazymatch goal with
      | |- forall a1 a2, a2 = set_strict false a1 /\ _ -> _ => intros ? ? [-> ?]
      | |- forall a1 a2, a1 = a2 -> _ => intros ? ? <-
      end.
    Ltac hd p := lazymatch p with ?f _ => hd f | _ => p end.
    Ltac rstep := cbn zeta; cbn [andb negb orb]; rewrite ?andb_true_r, ?andb_false_r; cbn [andb negb orb]; cbn iota beta;
      lazymatch goal with
      | |- lax _ (Ret _) (Ret _) => apply lax_ret; cbn; try reflexivity
      | |- lax _ (Fail _) _ => apply lax_fail
      | |- lax _ Crash _ => apply lax_crash
      | |- lax _ (Call _) (Call _) => apply lax_call; intros; exact I
      | |- lax ?W (@Bind _ ?A ?B (get c_strict) _) (Bind _ _) =>
          apply (lax_bind A B (fun b1 b2 => b1 = true /\ b2 = false) W); [apply lax_strict|intros ? ? [-> ->]]
      | |- lax ?W (@Bind _ ?A ?B _ _) (Bind _ _) => let V := vrel A in apply (lax_bind A B V W); [|vclean]
      | |- lax _ (@Loop _ ?A ?X _ _) (Loop _ _) => apply (lax_loop X A eq); [reflexivity|vclean]
      | |- lax _ (Do OCtx) _ => apply lax_ctx
      | |- lax _ (Do (OUpd _)) _ => apply lax_upd; let H := fresh in intros ? H; split; [first [exact H|reflexivity]|reflexivity]
      | |- lax _ (Do _) (Do _) => apply lax_do; exact I
      | |- lax _ (if _ then Do (OTolerate _) else Ret tt) (Ret tt) => apply lax_test
      | |- lax _ (match ?x with _ => _ end) (match ?x with _ => _ end) => destruct x
      | |- lax _ (fail_look _) _ => apply lax_fail_look
      | |- lax _ (if ?x then Fail _ else _) _ => destruct x
      | |- lax _ (if ?x then fail_look _ else _) _ => destruct x
      | |- lax _ ?p ?p => let h := hd p in unfold h
      | |- lax _ ?p ?q => let h := hd p in let h' := hd q in constr_eq h h'; unfold h
      end.

    Lemma lax_with : lax eq with_stmt with_stmt.
    Proof.
      unfold with_stmt. rstep. eapply (lax_bind _ _ eq); [|intros ? ? <-; repeat rstep].
      intros s1 s2 Hs. cbn. destruct (g_tolerant g); cbn; [|exact I]. exists tt. auto.
    Qed.
    Lemma lax_for : lax eq for_stmt for_stmt.
    Proof.
      unfold for_stmt. do 2 rstep. { repeat rstep. } { repeat rstep. } rstep. { repeat rstep. }
      rstep. { repeat rstep. } rstep; [repeat rstep|]. rstep; [repeat rstep|]. rstep; [|repeat rstep].
      rstep; [repeat rstep|].
      eapply (lax_bind _ _ (fun a b => a = b /\ a <> VVar)).
      { destruct (it_tok _) as [| | | | | | |k| | |]; try apply lax_fail. destruct k; first [apply lax_crash|apply lax_ret; split; [reflexivity|discriminate]]. }
      intros kd ? [<- Hk]. rstep. apply lax_look. intros s1 s2 Hs. cbn [negb andb].
      destruct (is_keyword KIn (it_tok (st_look s1))) eqn:E.
      - clear - Hs Hk E rec_bindings. unfold get, upd. cbn [run_in exec].
        set (s1' := upd_ctx (set_allow_in false) s1).
        specialize (rec_bindings kd true s1'). destruct (rec _ (CBindingList kd true) s1') as [[ds|e| |] t]; try exact I.
        exfalso. apply (rec_bindings ds); auto. apply Hs.
      - match goal with |- follows _ (run_ ?p _) _ => assert (L : lax eq p p) by (repeat rstep); exact (L s1 s2 Hs) end.
    Qed.
    Lemma lax_function_decl b : lax eq (function_decl b) (function_decl b).
    Proof.
      unfold function_decl. rstep; [repeat rstep|]. rstep; [repeat rstep|]. rstep; [repeat rstep|]. rstep; [repeat rstep|].
      eapply (lax_bind _ _ (fun x y => fst x = fst y /\ snd x = None)).
      { destruct (negb b || negb _); [|apply lax_ret; split; reflexivity]. do 5 (rstep; [solve [repeat rstep]|] || rstep). all: repeat rstep.
        all: try (split; reflexivity). all: destruct (_ || _); repeat rstep; split; reflexivity. }
      intros [x1 y1] [x2 y2] [E H]. cbn in E, H. subst x2 y1. repeat rstep. destruct y2; repeat rstep.
    Qed.
    (** From one state, to states that are related. *)
    Definition ends {A} (p1 p2 : P A) : Prop := forall s, yields s -> follows eq (run_ p1 s) (run_ p2 s).
    Lemma ends_bind A B (m : P A) (k1 k2 : A -> P B) : (forall a, ends (k1 a) (k2 a)) -> ends (Bind m k1) (Bind m k2).
    Proof.
      intros H s Hs. cbn [run_in]. pose proof (run_yields n rec rec_yields A m s Hs) as Y.
      destruct (run_ m s) as [[a|e| |] t]; try exact I. apply H. exact Y.
    Qed.
    Lemma ends_upd A (a : A) : ends (Bind (upd (set_strict true)) (fun _ => Ret a)) (Bind (upd (set_strict false)) (fun _ => Ret a)).
    Proof. intros s Hs. cbn. exists a. split; [reflexivity|]. split; [reflexivity|]. split; [reflexivity|]. split; [exact Hs|reflexivity]. Qed.
    Lemma lax_class_decl b : lax eq (class_decl b) (class_decl b).
    Proof.
      unfold class_decl. rstep. intros s1 s2 (H & Y & ->).
      match goal with |- follows _ (run_ (Bind ?u ?k) _) _ => set (k1 := k) end.
      match goal with |- follows _ _ (run_ (Bind ?u ?k) _) => set (k2 := k) end.
      cbn [run_in upd exec].
      replace (upd_ctx (set_strict true) (upd_ctx (set_strict false) s1)) with (upd_ctx (set_strict true) s1) by reflexivity.
      enough (E : ends (k1 tt) (k2 tt)) by (apply E; exact Y). unfold k1, k2.
      repeat (apply ends_bind; intros ?). apply ends_upd.
    Qed.
    Hypothesis plain : forall k, In k [KFunction; KThis; KClass; KImport] -> g_strict_reserved g (TKeyword k) = false.
    Ltac kws := repeat match goal with |- context [keyword_eqb ?a ?b] =>
      let v := eval vm_compute in (keyword_eqb a b) in change (keyword_eqb a b) with v end; cbn iota.
    Lemma lax_primary : lax eq primary_expression primary_expression.
    Proof.
      unfold primary_expression. apply lax_look. intros s1 s2 Hs.
      remember (it_tok (st_look s1)) as t eqn:Et.
      Ltac alike Hs := match goal with |- follows _ (run_in _ _ _ ?p ?s1) (run_in _ _ _ ?p ?s2) =>
        let L := fresh in assert (L : lax eq p p) by (repeat rstep); exact (L s1 s2 Hs) end.
      destruct (is_ident t) eqn:E1; [alike Hs|]. destruct (is_number t || is_string t) eqn:E2; [alike Hs|].
      destruct (is_bool t) eqn:E3; [alike Hs|]. destruct (is_template t) eqn:E4; [alike Hs|]. 
      destruct (is_any_punct t) eqn:E5; [alike Hs|]. destruct (is_regex t) eqn:E7; [alike Hs|].
      destruct (is_any_keyword t) eqn:E6; [|alike Hs]. clear E1 E2 E3 E4 E5 E7.
      pose proof Hs as (H & Y & E). unfold get. cbn [run_in exec]. rewrite H. 
      replace (c_strict (st_ctx s2)) with false by (rewrite E; reflexivity).
      replace (c_allow_yield (st_ctx s2)) with (c_allow_yield (st_ctx s1)) by (rewrite E; reflexivity). cbn [negb andb].
      match goal with |- follows _ (run_ ?p _) _ => set (q := p) end.
      assert (Hq : lax eq q q) by (unfold q; repeat rstep).
      assert (K : (exists k, t = TKeyword k /\ In k [KFunction; KThis; KClass; KImport]) \/ forall a, fst (run_ q s1) <> Ok a).
      { clear - E6 Et. unfold q. clear q. destruct t as [| | | | | | |k| | |]; try discriminate E6. symmetry in Et.
        destruct k; try (left; eexists; split; [reflexivity|cbn; tauto]); right; intros a; unfold not_target, set_target_binding, at_import_call, fail_look, at_keyword, look_tok, look, upd;
          cbn [is_keyword run_in exec upd_ctx st_look]; kws; cbn [is_keyword run_in exec upd_ctx st_look]; rewrite Et; cbn [is_keyword]; kws; cbn; discriminate. }
      destruct K as [(k & Ek & Hk)|K].
      - replace (g_strict_reserved g t) with false by (rewrite Ek; symmetry; apply plain; exact Hk). replace (_ && _ || _) with false by (rewrite Ek; destruct Hk as [<-|[<-|[<-|[<-|[]]]]]; cbn; rewrite andb_false_r; reflexivity).
        fold q. exact (Hq s1 s2 Hs).
      - unfold follows. destruct (fst (run_ q s1)) eqn:E0; try exact I. destruct (K _ eq_refl).
    Qed.
    Lemma lax_fn_name gen s1 s2 : R s1 s2 -> fit (CFnName gen) s1 -> follows eq (run_ (fn_name gen) s1) (run_ (fn_name gen) s2).
    Proof.
      intros Hs Hf. pose proof Hs as (H & Y & E). unfold fn_name, get, at_keyword, look_tok, look. cbn [run_in exec].
      rewrite (look_same _ _ Hs). rewrite H. replace (c_strict (st_ctx s2)) with false by (rewrite E; reflexivity). cbn [andb].
      destruct gen; cbn [negb andb]; [apply rec_follows; [exact Hs|exact I]|].
      destruct (is_keyword KYield _) eqn:K; [|apply rec_follows; [exact Hs|exact I]]. cbn [run_in]. apply rec_yield; assumption.
    Qed.
    Lemma run_upd A f (k : unit -> P A) s : run_ (Bind (upd f) k) s = run_ (k tt) (upd_ctx f s).
    Proof. reflexivity. Qed.
    Lemma run_look A (k : item -> P A) s : run_ (Bind look k) s = run_ (k (st_look s)) s.
    Proof. reflexivity. Qed.
    Lemma run_at A p (k : bool -> P A) s : run_ (Bind (at_punct p) k) s = run_ (k (is_punct p (it_tok (st_look s)))) s.
    Proof. reflexivity. Qed.
    Lemma follows_bind A B (V : A -> A -> Prop) (W : B -> B -> Prop) p1 p2 q1 q2 s1 s2 :
      follows V (run_ p1 s1) (run_ p2 s2) -> (forall a1 a2, V a1 a2 -> lax W (q1 a1) (q2 a2)) -> follows W (run_ (Bind p1 q1) s1) (run_ (Bind p2 q2) s2).
    Proof.
      intros H K. unfold follows in H. cbn [run_in].
      destruct (run_ p1 s1) as [[a1|e1| |] t1]; cbn [fst snd] in *; try exact I.
      destruct H as (b & E & Hv & Ht). destruct (run_ p2 s2) as [o2 t2]. cbn [fst snd] in *. subst. exact (K _ _ Hv _ _ Ht).
    Qed.
    Lemma lax_assoc A B D (W : D -> D -> Prop) (p1 p2 : P A) (q1 q2 : A -> P B) (k1 k2 : B -> P D) :
      lax W (Bind (Bind p1 q1) k1) (Bind (Bind p2 q2) k2) -> lax W (Bind p1 (fun a => Bind (q1 a) k1)) (Bind p2 (fun a => Bind (q2 a) k2)).
    Proof.
      intros H s1 s2 Hs. specialize (H s1 s2 Hs). cbn [run_in] in *.
      destruct (run_ p1 s1) as [[?|?| |] ?], (run_ p2 s2) as [[?|?| |] ?]; exact H.
    Qed.
    Lemma lax_function_expr : lax eq function_expr function_expr.
    Proof.
      unfold function_expr. rstep; [repeat rstep|]. rstep; [repeat rstep|]. rstep; [repeat rstep|]. rstep; [repeat rstep|].
      rstep; [repeat rstep|]. rstep; [repeat rstep|]. rstep; [repeat rstep|]. rstep; [repeat rstep|].
      apply lax_assoc. eapply (lax_bind _ _ (fun x y => fst x = fst y)).
      - intros s1 s2 Hs. set (gen := a3) in *. clearbody gen.
        assert (Hu : R (upd_ctx (set_allow_yield (negb gen)) s1) (upd_ctx (set_allow_yield (negb gen)) s2)).
        { destruct Hs as (H & Y & ->). split; [exact H|]. split; [exact Y|reflexivity]. }
        assert (Hf : fit (CFnName gen) (upd_ctx (set_allow_yield (negb gen)) s1)) by (destruct gen; [exact I|reflexivity]).
        rewrite !run_upd. revert Hu Hf. generalize (upd_ctx (set_allow_yield (negb gen)) s1), (upd_ctx (set_allow_yield (negb gen)) s2).
        clear s1 s2 Hs. intros s1 s2 Hs Hf.
        rewrite !run_at, (look_same _ _ Hs).
        destruct (is_punct POpenParen _); [eexists; split; [reflexivity|]; split; [reflexivity|exact Hs]|].
        rewrite !run_look, (look_same _ _ Hs).
        eapply follows_bind; [apply rec_follows; [exact Hs|exact Hf]|]. intros ? ? <-. repeat rstep.
      - intros [x1 y1] [x2 y2] E. cbn in E. subst x2. repeat rstep.
    Qed.
    Lemma bodies_lax B (c : call B) s1 s2 : R s1 s2 -> fit c s1 -> follows eq (run_ (body c) s1) (run_ (body c) s2).
    Proof.
      intros Hs Hf.
      enough (H : (exists gen, existT _ B c = existT _ _ (CFnName gen)) \/ lax eq (body c) (body c)).
      { destruct H as [[gen H]|H]; [|exact (H s1 s2 Hs)]. destruct c; try discriminate H. apply lax_fn_name; assumption. }
      destruct c; cbn [body]; try (left; eexists; reflexivity); right.
      all: first [exact lax_with|exact lax_for|apply lax_function_decl|apply lax_class_decl|exact lax_primary|exact lax_function_expr|solve [repeat rstep]].
    Qed.
    Lemma lax_parts : lax eq parse_parts parse_parts.
    Proof. repeat rstep. Qed.
  End Rel.

  Lemma next_ok s i t : next_item g s = (Ok i, t) -> i = st_look s /\ st_ctx t = st_ctx s.
  Proof.
    unfold next_item. generalize (it_start (st_look s), it_end (st_look s)). generalize (st_rest s). intros rest sp. revert sp s.
    induction rest as [|r rest IH]; intros sp s; cbn [next_item_loop].
    - destruct (is_eof _); [destruct (st_found_eof s)|]; intros H; injection H; intros; subst; try discriminate; auto.
    - destruct (update_positions _ _ _ _ _) as [[cur lpos]|]; [|discriminate].
      destruct (it_tok (r_item r)); try (intros H; injection H; intros; subst; split; reflexivity).
      destruct (slice _ _ _); [|discriminate]. intros H. destruct (IH _ _ H) as [H1 H2]. auto.
  Qed.
  Lemma no_var_ident n s i : c_strict (st_ctx s) = true -> is_keyword KIn (it_tok (st_look s)) = true ->
    fst (run_call (@body) g n (CVarIdent false) s) <> Ok i.
  Proof.
    intros H K. destruct n as [|n]; cbn [run_call body]; [discriminate|]. unfold var_ident, next, get. cbn [run_in exec].
    destruct (next_item g s) as [[a|e| |] t] eqn:E; try discriminate. apply next_ok in E as [-> E].
    destruct (it_tok (st_look s)) as [| | | | | | |k| | |]; try discriminate K. destruct k; try discriminate K.
    rewrite E, H. destruct (g_strict_reserved g (TKeyword KIn)); discriminate.
  Qed.
  Lemma no_bindings n k f s ds : c_strict (st_ctx s) = true -> is_keyword KIn (it_tok (st_look s)) = true -> k <> VVar ->
    fst (run_call (@body) g n (CBindingList k f) s) <> Ok ds.
  Proof.
    intros H K Hk. destruct n as [|n]; cbn [run_call body]; [discriminate|]. unfold binding_list, comma_list. cbn [run_in].
    assert (L : forall d, fst (run_call (@body) g n (CLexicalBinding k f) s) <> Ok d).
    { intros d. destruct n as [|n']; cbn [run_call body]; [discriminate|]. unfold lexical_binding, look. cbn [run_in exec].
      assert (P0 : forall x, fst (run_call (@body) g n' (CPattern (Some k)) s) <> Ok x).
      { intros x. destruct n' as [|n'']; cbn [run_call body]; [discriminate|]. unfold pattern, at_punct, at_keyword, look_tok, look. cbn [run_in exec].
        pose proof (fun i => no_var_ident n'' s i H K) as V. pose proof K as K'. destruct (it_tok (st_look s)) as [| | | | | | |kw| | |] eqn:E in K'; try discriminate K'.
        destruct kw; try discriminate K'.
        destruct k; [congruence| |]; repeat (cbn; rewrite ?E); cbn;
          match goal with |- fst (let (o, s') := ?X in _) <> _ => destruct X as [[i|?| |] ?] eqn:EV; try discriminate; destruct (V i (f_equal fst EV)) end. }
      destruct (run_call (@body) g n' (CPattern (Some k)) s) as [[x|?| |] ?]; try discriminate. destruct (P0 x eq_refl). }
    destruct (run_call (@body) g n (CLexicalBinding k f) s) as [[x|?| |] ?]; try discriminate. destruct (L x eq_refl).
  Qed.
  Lemma both_yield n s1 s2 : R s1 s2 -> is_keyword KYield (it_tok (st_look s1)) = true -> c_allow_yield (st_ctx s1) = true ->
    follows eq (run_call (@body) g n CIdentName s1) (run_call (@body) g n (CVarIdent false) s2).
  Proof.
    intros Hs K Ha. destruct n as [|n]; cbn [run_call body]; [exact I|]. unfold ident_name, get_string, var_ident, next, get. cbn [run_in exec].
    pose proof (next_follows _ _ Hs) as F. unfold follows in F. destruct (next_item g s1) as [[a|e| |] t1] eqn:E1; try exact I.
    apply next_ok in E1 as [-> E1]. cbn [fst snd] in F. destruct F as (b & Eb & <- & Ht). destruct (next_item g s2) as [o2 t2]. cbn [fst snd] in *. subst o2.
    pose proof Hs as (_ & [Y _] & _). unfold plain_yield in Y. pose proof Ht as (_ & _ & Et).
    destruct (it_tok (st_look s1)) as [| | | | | | |k| | |]; try discriminate K. destruct k; try discriminate K. rewrite (Y eq_refl). cbn [run_in].
    replace (c_strict (st_ctx t2)) with false by (rewrite Et; reflexivity). replace (c_allow_yield (st_ctx t2)) with true by (rewrite Et; cbn; congruence).
    cbn. eexists. split; [reflexivity|]. split; [reflexivity|exact Ht].
  Qed.

  Hypothesis plain : forall k, In k [KFunction; KThis; KClass; KImport] -> g_strict_reserved g (TKeyword k) = false.
  Lemma call_lax n : forall B (c : call B) s1 s2, R s1 s2 -> fit c s1 ->
    follows eq (run_call (@body) g n c s1) (run_call (@body) g n c s2).
  Proof.
    induction n as [|n IH]; intros B c s1 s2 Hs Hf; cbn [run_call]; [exact I|]. apply bodies_lax; auto.
    - intros. apply call_yields. assumption.
    - apply no_bindings.
    - apply both_yield.
  Qed.
  Lemma parse_lax n s1 s2 : R s1 s2 -> follows eq (parse g n s1) (parse g n s2).
  Proof.
    intros Hs. unfold parse, run.
    pose proof (lax_parts n (fun B => @run_call _ (@body) g n B) (call_lax n) s1 s2 Hs) as K. unfold follows in *.
    destruct (run_in g n _ parse_parts s1) as [[a|?| |] t1]; try exact I. cbn [fst snd] in *. destruct K as (b & E & <- & Ht).
    destruct (run_in g n _ parse_parts s2) as [o2 t2]. cbn [fst snd] in *. subst o2. eexists. split; [reflexivity|]. split; [reflexivity|exact Ht].
  Qed.
End Laxer.
