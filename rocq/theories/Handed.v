(** Every tree handed out obeys the discipline, and what the discipline says of a node in
    terms of the nodes above it. *)
From Verif Require Export Bodies Runs.
Export Parser.

Section Handed.
  Variable g : cfg.
  Variable items : list raw.
  Variable ng : bool.
  Notation js := (g_stream g).
  Notation inp := (input_item items).
  Hypothesis no_get : ng = true -> classy items -> forall i, inp i -> text_of js i <> str "get".

  Lemma call_tree n B (c : call B) s b s' :
    preC g items ng n B c s -> run_call (@body) g n c s = (Ok b, s') -> postC g items ng B c s b s'.
  Proof.
    intros H E.
    pose proof (wp_sound call (@body) g false (preC g items ng) (postC g items ng) (fun _ _ => True) True
      ltac:(discriminate) (fun m B c s => bodiesC g items ng no_get B c m s) n B c s H) as W.
    rewrite E in W. exact W.
  Qed.

  (** Between parts the context is the initial one, up to [past_prolog]. *)
  Definition top (s : state) : Prop := exists past, invC g items ng s (core_of ng (set_past_prolog past default_ctx)).

  Lemma top_covers past : covers g env0 (core_of ng (set_past_prolog past default_ctx)).
  Proof.
    repeat split; cbn; try discriminate; try tauto. rewrite Bool.orb_true_r. discriminate.
  Qed.

  Lemma start_top i s : start g items = (Ok i, s) -> top s.
  Proof.
    intros E. exists false. split.
    - pose proof (start_safe g items) as S. unfold safe_outcome in S. rewrite E in S. exact S.
    - unfold start in E. pose proof (next_item_ctx g (initial_state items)) as C. rewrite E in C.
      cbn [snd] in C. rewrite C. reflexivity.
  Qed.

  Lemma part_top n s p s' : top s -> run_call (@body) g n CNextPart s = (Ok p, s') ->
    top s' /\ ok g items ng env0 (NPart p)
    /\ (is_dir p = true -> c_past_prolog (st_ctx s) = false)
    /\ c_past_prolog (st_ctx s') = negb (is_dir p).
  Proof.
    intros [past [Hi Hk]] E. apply call_tree in E; [|split; [exact Hi|split; [exact I|intros ? ?; constructor]]].
    destruct E as [[Hi' Hk'] [Ht Hx]]. rewrite Hk in *. cbn [kp] in Hk'. cbn [nodes] in Ht. cbn [extra] in Hx.
    split; [|split; [|split]]; auto.
    - exists (negb (is_dir p)). split; [exact Hi'|]. rewrite Hk'. reflexivity.
    - specialize (Ht env0 (top_covers past)). inversion Ht; auto.
    - apply (f_equal k_past) in Hk'. exact Hk'.
  Qed.

  Lemma next_top s p s' : next_returns g s (Some (Ok p)) s' -> top s ->
    top s' /\ ok g items ng env0 (NPart p)
    /\ (is_dir p = true -> c_past_prolog (st_ctx s) = false)
    /\ c_past_prolog (st_ctx s') = negb (is_dir p).
  Proof.
    intros [_ [n E]] H. unfold iter_next in E. destruct (is_eof _); [discriminate|].
    destruct (run_call (@body) g n CNextPart s) as [r s1] eqn:E1. inversion E; subst.
    eapply part_top; eauto.
  Qed.

  Lemma yields_top s parts s' : yields g s parts s' -> top s ->
    top s' /\ Forall (fun p => ok g items ng env0 (NPart p)) parts.
  Proof.
    induction 1 as [s|s p s1 parts s2 Hn _ IH]; intros H; [auto|].
    destruct (next_top _ _ _ Hn H) as (H1 & H2 & _). destruct (IH H1). auto.
  Qed.

  Lemma yields_prefix s parts s' : yields g s parts s' -> top s ->
    exists dirs others, parts = dirs ++ others /\ (forall p, In p dirs -> is_dir p = true) /\
      undirected others /\ (c_past_prolog (st_ctx s) = true -> dirs = []).
  Proof.
    induction 1 as [s|s p s1 parts s2 Hn _ IH]; intros H.
    - exists [], []. unfold undirected. cbn. tauto.
    - destruct (next_top _ _ _ Hn H) as (H1 & _ & H3 & H4).
      destruct (IH H1) as (dirs & others & -> & Hd & Ho & Hp). destruct (is_dir p) eqn:Ep; cbn in H4.
      + exists (p :: dirs), others. split; [reflexivity|]. split; [|split; [exact Ho|]].
        * intros q [->|Hq]; auto.
        * intros Hq. rewrite (H3 eq_refl) in Hq. discriminate.
      + rewrite (Hp H4). exists [], (p :: others). split; [reflexivity|]. split; [intros ? []|].
        split; [|reflexivity]. intros q [->|Hq]; auto.
  Qed.

  Lemma yields_app s1 l1 s2 l2 s3 : yields g s1 l1 s2 -> yields g s2 l2 s3 -> yields g s1 (l1 ++ l2) s3.
  Proof. induction 1; cbn; auto. intros. econstructor; eauto. Qed.

  Lemma expression_tree n s e s' : top s -> parse_expression g n s = (Ok e, s') -> ok g items ng env0 (NExpr e).
  Proof.
    intros [past [Hi Hk]] E. unfold parse_expression in E.
    apply call_tree in E; [|split; [exact Hi|split; [exact I|intros ? ?; constructor]]].
    destruct E as [_ [Ht _]]. rewrite Hk in Ht. cbn [nodes] in Ht. specialize (Ht env0 (top_covers past)).
    inversion Ht; auto.
  Qed.
End Handed.

(** ** The context *)
Lemma any_inv g s : exists items, invB g items s.
Proof.
  exists (mkRaw (st_look s) false :: st_rest s ++ [mkRaw (mkItem TNull 0 0) false]).
  assert (H : forall l, ~ ends_with_eof (l ++ [mkRaw (mkItem TNull 0 0) false])).
  { induction l as [|r l IH]; cbn; [discriminate|]. intros H. destruct (l ++ _) eqn:E.
    - destruct l; discriminate.
    - rewrite <- E in H. apply IH. rewrite <- E in *. destruct H. auto. }
  split; [right; eexists; split; [left; reflexivity|reflexivity]|]. split; [|split].
  - apply Forall_forall. intros r Hr. right. exists r. split; [right; apply in_or_app; auto|reflexivity].
  - intros (_ & _ & E). exfalso. exact (H (_ :: _) E).
  - intros E. exfalso. exact (H (_ :: _) E).
Qed.

Lemma call_restores g n B (c : call B) s b s' : run_call (@body) g n c s = (Ok b, s') ->
  core_of false (st_ctx s') = kp c b (core_of false (st_ctx s)).
Proof.
  intros E. destruct (any_inv g s) as [items Hi].
  assert (F : frame g items false c -> core_of false (st_ctx s') = core_of false (st_ctx s)).
  { intros F. destruct n as [|m]; [discriminate|]. cbn [run_call] in E. specialize (F m s Hi).
    apply (wp_sound_prog call (@body) g false (preC g items false) (postC g items false) (fun _ _ => True) True
      ltac:(discriminate) (fun m B c s => bodiesC g items false ltac:(discriminate) B c m s)) in F.
    unfold run in F. rewrite E in F. apply F. }
  assert (N : prex items false c (core_of false (st_ctx s)) -> argn c = [] ->
    core_of false (st_ctx s') = kp c b (core_of false (st_ctx s))).
  { intros H1 H2. apply (call_tree g items false) in E; [|discriminate|].
    - destruct E as [[_ E] _]. exact E.
    - split; [exact Hi|split; [exact H1|]]. rewrite H2. intros ? ?. constructor. }
  destruct c; try (apply N; [cbn; trivial; discriminate|reflexivity]).
  - apply F, frame_for.
  - apply F, frame_for_in.
  - apply F, frame_for_of.
  - apply F, frame_lexical.
  - apply F, frame_await.
  - apply F, frame_super.
Qed.

(** ** What the nodes above say *)
Lemma enter_fn above : forall e, e_fn (fold_left enter above e) = true ->
  e_fn e = true \/ exists b, In (NBody b) above.
Proof.
  induction above as [|n l IH]; cbn [fold_left]; intros e H; auto.
  destruct (IH _ H) as [E|[b E]]; [|right; exists b; right; exact E].
  destruct n; try (left; exact E).
  - destruct f. left. exact E.
  - right. exists b. left. reflexivity.
  - destruct s; left; exact E.
Qed.
Lemma enter_async above : forall e, e_async (fold_left enter above e) = true ->
  e_async e = true \/ exists id ps b gen, In (NFunction (mkFunction id ps b gen true)) above.
Proof.
  induction above as [|n l IH]; cbn [fold_left]; intros e H; auto.
  destruct (IH _ H) as [E|(id & ps & b & gen & E)]; [|right; exists id, ps, b, gen; right; exact E].
  destruct n; try (left; exact E).
  - destruct f as [id ps b gen []]; cbn in E; [right|left; exact E]. exists id, ps, b, gen. left. reflexivity.
  - destruct s; left; exact E.
Qed.
Lemma enter_gen above : forall e, e_gen (fold_left enter above e) = true ->
  e_gen e = true \/ (exists id ps b async, In (NFunction (mkFunction id ps b true async)) above)
  \/ exists v, In (NMethod v) above.
Proof.
  induction above as [|n l IH]; cbn [fold_left]; intros e H; auto.
  destruct (IH _ H) as [E|[(id & ps & b & a & E)|[v E]]].
  - destruct n; try (left; exact E).
    + destruct f as [id ps b [] a]; cbn in E; [right; left|left; exact E]. exists id, ps, b, a. left. reflexivity.
    + right. right. exists v. left. reflexivity.
    + destruct s; left; exact E.
  - right. left. exists id, ps, b, a. right. exact E.
  - right. right. exists v. right. exact E.
Qed.
Lemma enter_class above : forall e, e_class e = true \/ (exists c, In (NClass c) above) ->
  e_class (fold_left enter above e) = true.
Proof.
  induction above as [|n l IH]; cbn [fold_left]; intros e H.
  - destruct H as [H|[c []]]. exact H.
  - apply IH. destruct H as [H|[c [->|H]]].
    + left. destruct n; try exact H; [destruct f; exact H|reflexivity|destruct s; exact H].
    + left. reflexivity.
    + right. exists c. exact H.
Qed.
Lemma enter_labels above l : forall e, In l (e_labels e) -> (forall b, ~ In (NBody b) above) ->
  In l (e_labels (fold_left enter above e)).
Proof.
  induction above as [|n k IH]; cbn [fold_left]; intros e H Hb; auto.
  apply IH; [|intros b Hi; apply (Hb b); right; exact Hi].
  destruct n; try exact H.
  - destruct f; exact H.
  - exfalso. apply (Hb b). left. reflexivity.
  - destruct s; try exact H. right. exact H.
Qed.

Section Occurs.
  Variable sc : scanner.
  Variables tolerant module : bool.
  Variable js : text.
  Notation g := (make_cfg sc tolerant module js).
  Notation items := (sc_scan sc js).
  Notation occurs := (occurs sc tolerant module js).
  Notation handed_out := (handed_out sc tolerant module js).
  Notation here above := (fold_left enter above env0).
  Definition spells_get : Prop := exists i, input_item items i /\ text_of js i = str "get".

  Lemma handed_ok ng n : (ng = true -> classy items -> ~ spells_get) -> handed_out n -> ok g items ng env0 n.
  Proof.
    intros Hng.
    assert (G : ng = true -> classy items -> forall i, input_item items i -> text_of (g_stream g) i <> str "get").
    { intros E Ec i Hi Ht. apply (Hng E Ec). exists i. auto. }
    intros [i s parts s' p Hs Hy Hp|i s parts s1 k p s2 q Hs Hy Hp Hq|i s parts s1 k e s2 Hs Hy He].
    - destruct (yields_top g items ng G _ _ _ Hy (start_top g items ng i s Hs)) as [_ F].
      rewrite Forall_forall in F. auto.
    - destruct (yields_top g items ng G _ _ _ Hy (start_top g items ng i s Hs)) as [T _].
      assert (R : returns (fun n => parse g n s1) (Ok p) s2) by (split; [discriminate|eauto]).
      apply parse_is_iteration in R. destruct R as (l & s3 & r & Hy2 & _ & R).
      destruct R as [[_ E]|[[? [_ E]]|[_ E]]]; try discriminate.
      destruct (yields_top g items ng G _ _ _ Hy2 T) as [_ F]. rewrite Forall_forall in F. apply F.
      inversion E; subst. destruct module; exact Hq.
    - destruct (yields_top g items ng G _ _ _ Hy (start_top g items ng i s Hs)) as [T _].
      eapply expression_tree; eauto.
  Qed.

  Lemma occurs_local ng above n : (ng = true -> classy items -> ~ spells_get) -> occurs above n -> local g items ng (here above) n.
  Proof.
    intros Hng (r & Hr & Hin). eapply ok_local, ok_inside; [exact Hin|]. apply handed_ok; auto.
  Qed.
  Lemma occurs_here above n : occurs above n -> local g items false (here above) n.
  Proof. apply occurs_local. discriminate. Qed.

  Lemma inp_text i : input_item items i -> text_of js i = [] \/ exists r, In r items /\ i = r_item r.
  Proof.
    intros [[-> _]|H]; [left|right; exact H]. unfold text_of. cbn [it_start it_end].
    pose proof (slice_app [] [] js) as E. cbn in E. cbn. rewrite E. reflexivity.
  Qed.
  Lemma verbatim_raw t w : t <> TEoF -> verbatim g items t w ->
    exists r, In r items /\ it_tok (r_item r) = t /\ text_of js (r_item r) = w.
  Proof.
    intros Ht (i & [[-> _]|(r & Hr & ->)] & E & ->); [cbn in E; congruence|]. exists r. auto.
  Qed.

  Lemma occ_name above w : occurs above (NName w) ->
    w = [] \/ exists r, In r items /\ (w = text_of js (r_item r) \/ exists k, it_tok (r_item r) = TKeyword k /\ w = kw_text k).
  Proof.
    intros H. apply occurs_here in H. destruct H as (i & Hi & [->|(k & E & ->)]).
    - destruct (inp_text i Hi) as [E|(r & Hr & ->)]; [left; exact E|]. right. exists r. auto.
    - destruct Hi as [[-> _]|(r & Hr & ->)]; [discriminate|]. right. exists r. split; auto. right. exists k. auto.
  Qed.
  Lemma occ_literal above l : occurs above (NLit l) ->
    match l with
    | LString w => exists r, In r items /\ it_tok (r_item r) = TString /\ text_of js (r_item r) = w
    | LNumber w => exists r, In r items /\ it_tok (r_item r) = TNumeric /\ text_of js (r_item r) = w
    | LBoolean b => exists r, In r items /\ it_tok (r_item r) = TBoolean b
    | LRegEx p f => exists r d, In r items /\ it_tok (r_item r) = TRegEx
        /\ text_of js (r_item r) = d :: p ++ 47%N :: f /\ len_utf8 d = 1 /\ ~ In 47%N f
    | LNull => False
    | LTemplate _ => True
    end.
  Proof.
    intros H. apply occurs_here in H. cbn [local] in H. destruct l; auto.
    - apply verbatim_raw; [discriminate|exact H].
    - apply verbatim_raw; [discriminate|exact H].
    - destruct H as (i & [[-> _]|(r & Hr & ->)] & E); [discriminate|]. eauto.
    - destruct H as (d & Hd & Hv & Hn). apply verbatim_raw in Hv; [|discriminate].
      destruct Hv as (r & H1 & H2 & H3). exists r, d. auto.
  Qed.
  Lemma occ_quasi above q : occurs above (NQuasi q) -> exists r k d e,
    In r items /\ it_tok (r_item r) = TTemplate k /\ text_of js (r_item r) = q_raw q
    /\ q_raw q = d :: q_cooked q ++ e /\ len_utf8 d = 1
    /\ byte_len e = (match k with THead | TBody => 2 | TTail | TNoSub => 1 end)
    /\ q_tail q = (match k with THead | TBody => false | TTail | TNoSub => true end).
  Proof.
    intros H. apply occurs_here in H. destruct H as (k & d & e & Hv & E & Hd & Hk).
    apply verbatim_raw in Hv; [|discriminate]. destruct Hv as (r & H1 & H2 & H3).
    exists r, k, d, e. destruct k, Hk as [? ?]; auto 10.
  Qed.
  Lemma in_body above : e_fn (here above) = true -> exists b, In (NBody b) above.
  Proof. intros H. apply enter_fn in H. destruct H as [H|H]; [discriminate|exact H]. Qed.
  Lemma occ_return above o : occurs above (NStmt (SReturn o)) -> exists b, In (NBody b) above.
  Proof. intros H. apply occurs_here in H. apply in_body, H. Qed.
  Lemma occ_super above : occurs above (NExpr ESuper) -> exists b, In (NBody b) above.
  Proof. intros H. apply occurs_here in H. apply in_body, H. Qed.
  Lemma occ_meta above a b : occurs above (NExpr (EMetaProperty a b)) -> exists b, In (NBody b) above.
  Proof. intros H. apply occurs_here in H. apply in_body, H. Qed.
  Lemma occ_await above e : occurs above (NExpr (EAwait e)) ->
    exists id ps b gen, In (NFunction (mkFunction id ps b gen true)) above.
  Proof. intros H. apply occurs_here in H. apply enter_async in H. destruct H as [H|H]; [discriminate|exact H]. Qed.
  Lemma occ_yield above o d : (classy items -> ~ spells_get) -> occurs above (NExpr (EYield o d)) ->
    (exists id ps b async, In (NFunction (mkFunction id ps b true async)) above) \/ exists v, In (NMethod v) above.
  Proof.
    intros Hn H. apply (occurs_local true) in H; auto. destruct H as [H _].
    specialize (H eq_refl). apply enter_gen in H. destruct H as [H|H]; [discriminate|exact H].
  Qed.
  Lemma occ_label a1 l s a2 s' : occurs (a1 ++ NStmt (SLabeled l s) :: a2) (NStmt (SLabeled l s')) ->
    exists b, In (NBody b) a2.
  Proof.
    intros H. apply occurs_here in H. cbn [local] in H. rewrite fold_left_app in H. cbn [fold_left] in H.
    assert (D : (exists b, In (NBody b) a2) \/ forall b, ~ In (NBody b) a2).
    { clear. induction a2 as [|n a IH]; [right; intros b []|].
      destruct IH as [[b Hb]|Hb]; [left; exists b; right; exact Hb|].
      destruct n; try (right; intros b' [E|E]; [discriminate|exact (Hb b' E)]).
      left. exists b. left. reflexivity. }
    destruct D as [D|D]; auto. exfalso. apply H. apply enter_labels; [|exact D]. left. reflexivity.
  Qed.
  Lemma occ_class_strict above c : tolerant = false -> In (NClass c) above ->
    (forall e s, ~ occurs above (NStmt (SWith e s))) /\
    (forall p x, ~ occurs above (NExpr (EUnary UDelete p (EIdent x)))).
  Proof.
    intros Ht Hc. assert (E : e_class (here above) = true) by (apply enter_class; eauto).
    split; intros ? ? H; apply occurs_here in H; specialize (H Ht); congruence.
  Qed.
  Lemma directives_first i s parts s' : start g items = (Ok i, s) -> yields g s parts s' ->
    exists dirs others, parts = dirs ++ others /\ (forall p, In p dirs -> exists d l, p = PPDir d l) /\ (forall p, In p others -> forall d l, p <> PPDir d l).
  Proof.
    intros Hs Hy. destruct (yields_prefix g items false ltac:(discriminate) _ _ _ Hy (start_top g items false i s Hs))
      as (dirs & others & -> & Hd & Ho & _).
    exists dirs, others. split; [reflexivity|]. split.
    - intros p Hp. specialize (Hd p Hp). destruct p; try discriminate. eauto.
    - intros p Hp d l ->. specialize (Ho _ Hp). discriminate.
  Qed.

  Lemma inside_last r above n : inside r above n ->
    (above = [] /\ r = n) \/ exists a p, above = a ++ [p] /\ In n (children p) /\ inside r a p.
  Proof.
    induction 1 as [n|r k above n Hk Hin IH]; [left; auto|right].
    destruct IH as [[-> ->]|(a & p & -> & Hn & Hp)].
    - exists [], r. split; [reflexivity|]. split; [exact Hk|constructor].
    - exists (r :: a), p. split; [reflexivity|]. split; [exact Hn|]. econstructor; eauto.
  Qed.
  Lemma count_twice A (f : A -> bool) l1 p l2 q l3 :
    count f (l1 ++ p :: l2 ++ q :: l3) <= 1 -> f p = true -> f q = true -> False.
  Proof.
    unfold count. intros H Hp Hq. rewrite filter_app in H. cbn [filter] in H. rewrite Hp in H.
    rewrite filter_app in H. cbn [filter] in H. rewrite Hq in H.
    rewrite !app_length in H. cbn [length] in H. rewrite app_length in H. cbn [length] in H. lia.
  Qed.
  Lemma occ_switch above e cs : occurs above (NStmt (SSwitch e cs)) ->
    forall l1 b1 l2 b2 l3, cs <> l1 ++ mkCase None b1 :: l2 ++ mkCase None b2 :: l3.
  Proof.
    intros H l1 b1 l2 b2 l3 ->. apply occurs_here in H. cbn [local] in H.
    exact (count_twice _ is_default _ _ _ _ _ H eq_refl eq_refl).
  Qed.
  Lemma occ_class above id sup b : occurs above (NClass (mkClass id sup b)) ->
    forall l1 p l2 q l3, b = l1 ++ p :: l2 ++ q :: l3 -> prop_kind p = KCtor -> prop_kind q <> KCtor.
  Proof.
    intros H l1 p l2 q l3 -> Hp Hq. apply occurs_here in H. cbn [local] in H.
    apply (count_twice _ is_ctor _ _ _ _ _ H); unfold is_ctor; [rewrite Hp|rewrite Hq]; reflexivity.
  Qed.
  Lemma occ_ctor above k v m computed sh : occurs above (NProperty (mkProperty k v KCtor m computed sh)) ->
    computed = false /\ named k "constructor" /\ exists ps b a, v = PVExpr (EFunction (mkFunction None ps b false a)).
  Proof.
    intros H. apply occurs_here in H. destruct H as (H1 & H2 & ps & b & a & H3 & _). eauto 8.
  Qed.
  Lemma occ_getter above k v m computed sh : tolerant = false ->
    occurs above (NProperty (mkProperty k v KGet m computed sh)) ->
    exists b a, v = PVExpr (EFunction (mkFunction None [] b false a)).
  Proof.
    intros Ht H. apply occurs_here in H. destruct H as (ps & b & a & -> & H). rewrite (H Ht). eauto.
  Qed.
  Lemma occ_setter above k v m computed sh : tolerant = false ->
    occurs above (NProperty (mkProperty k v KSet m computed sh)) ->
    exists p b a, v = PVExpr (EFunction (mkFunction None [p] b false a)) /\ is_rest p = false.
  Proof.
    intros Ht H. apply occurs_here in H. destruct H as (ps & b & a & -> & H).
    destruct (H Ht) as (p & -> & Hp). eauto 6.
  Qed.
  Lemma occ_template above qs es : occurs above (NTemplate (mkTemplate qs es)) ->
    length qs = S (length es) /\
    forall l q l', qs = l ++ q :: l' -> (q_tail q = true <-> l' = []).
  Proof.
    intros H. apply occurs_here in H. destruct H as [H1 H2]. split; [exact H1|].
    intros l q l' E. rewrite (H2 l q l' E). destruct l'; split; congruence.
  Qed.
  Lemma occ_rest above id ps b gen async : occurs above (NFunction (mkFunction id ps b gen async)) ->
    forall l a l', ps = l ++ a :: l' -> is_rest a = true -> l' = [].
  Proof. intros H. apply occurs_here in H. exact H. Qed.
  Lemma occ_assignment above o l r : occurs above (NExpr (EAssignment o l r)) ->
    exists x, l = ALExpr x /\ (tolerant = false -> target_ok x = true).
  Proof. intros H. apply occurs_here in H. cbn [local] in H. destruct l; [contradiction|]. eauto. Qed.
  Lemma occ_update above o x p : tolerant = false -> occurs above (NExpr (EUpdate o x p)) -> target_ok x = true.
  Proof. intros Ht H. apply occurs_here in H. cbn [local] in H. auto. Qed.
  Lemma occ_var above ds : occurs above (NStmt (SVar ds)) ->
    forall p, In (mkVarDecl p None) ds -> exists i, p = PIdentifier i.
  Proof.
    intros H p Hp. apply occurs_here in H. cbn [local] in H. rewrite Forall_forall in H. specialize (H _ Hp).
    unfold pat_init in H. destruct p; cbn in H; eauto; exfalso; apply H; reflexivity.
  Qed.
  Lemma occ_let above k ds : k <> VConst -> occurs above (NDecl (DVariable k ds)) ->
    forall p, In (mkVarDecl p None) ds -> exists i, p = PIdentifier i.
  Proof.
    intros Hk H p Hp. apply occurs_here in H. cbn [local] in H.
    assert (F : Forall pat_init ds) by (destruct k; congruence || exact H).
    rewrite Forall_forall in F. specialize (F _ Hp).
    unfold pat_init in F. destruct p; cbn in F; eauto; exfalso; apply F; reflexivity.
  Qed.
  Lemma occ_const above ds l p l' :
    (forall r, In r items -> it_tok (r_item r) = TPunct PComma -> text_of js (r_item r) <> str "of") ->
    occurs above (NDecl (DVariable VConst ds)) -> ds = l ++ mkVarDecl p None :: l' ->
    l' = [] /\ exists r, In r items /\ (it_tok (r_item r) = TKeyword KIn \/ text_of js (r_item r) = str "of").
  Proof.
    intros Hc H E. apply occurs_here in H. destruct (H _ _ _ E eq_refl) as (i & Hi & Ho & Hl).
    assert (R : exists r, In r items /\ i = r_item r).
    { destruct Hi as [[-> C]|Hi]; [|exact Hi]. destruct Ho as [Ho|Ho]; [discriminate|].
      destruct (inp_text (mkItem TEoF 0 0) (or_introl (conj eq_refl C))) as [E'|E']; [|exact E'].
      cbn [g_stream make_cfg] in Ho. rewrite E' in Ho. discriminate. }
    destruct R as (r & Hr & ->). split.
    - destruct Hl as [Hl|Hl]; [exact Hl|]. exfalso.
      assert (T : it_tok (r_item r) = TPunct PComma).
      { destruct (it_tok (r_item r)); try discriminate. cbn in Hl. destruct p0; try discriminate. reflexivity. }
      destruct Ho as [Ho|Ho]; [rewrite T in Ho; discriminate|]. exact (Hc r Hr T Ho).
    - exists r. split; [exact Hr|]. destruct Ho as [Ho|Ho]; [left|right; exact Ho].
      destruct (it_tok (r_item r)); try discriminate. cbn in Ho. destruct k; try discriminate. reflexivity.
  Qed.
  Lemma occ_import above l src : occurs above (NImport (mkImport l src)) ->
    import_shape l /\ exists w, src = LString w.
  Proof. intros H. apply occurs_here in H. exact H. Qed.
  Lemma occ_directive above d l : occurs above (NPart (PPDir d l)) ->
    (above = [] \/ exists a b, above = a ++ [NBody b]) /\ exists s, l = LString s /\ unquoted d s.
  Proof.
    intros H. split; [|apply occurs_here in H; exact H].
    destruct H as (r & Hr & Hin). apply inside_last in Hin.
    destruct Hin as [[-> _]|(a & p & -> & Hc & Hp)]; [left; reflexivity|right].
    assert (O : occurs a p) by (exists r; auto). apply occurs_here in O.
    assert (U : forall l', undirected l' -> ~ In (NPart (PPDir d l)) (map NPart l')).
    { intros l' U X. apply in_map_iff in X. destruct X as (q & E & Hq). inversion E; subst. specialize (U _ Hq).
      discriminate. }
    assert (M : forall A (f : A -> node) l', (forall x, f x <> NPart (PPDir d l)) -> ~ In (NPart (PPDir d l)) (map f l')).
    { intros A f l' F X. apply in_map_iff in X. destruct X as (x & E & _). exact (F x E). }
    assert (N : forall A (f : A -> node) o, (forall x, f x <> NPart (PPDir d l)) -> ~ In (NPart (PPDir d l)) (opt f o)).
    { intros A f [x|] F; cbn; [|tauto]. intros [X|[]]. exact (F x X). }
    assert (N' : forall A (f : A -> node) o, (forall x, f x <> NPart (PPDir d l)) -> ~ In (NPart (PPDir d l)) (opts f o)).
    { intros A f o F X. apply in_flat_map in X. destruct X as (x & _ & X). exact (N _ _ _ F X). }
    assert (In1 : forall l', ~ In (NPart (PPDir d l)) (flat_map import_names l')).
    { intros l' X. apply in_flat_map in X. destruct X as (x & _ & X).
      destruct x; cbn [import_names export_names In] in X; repeat destruct X as [X|X]; try discriminate; try contradiction;
        apply (N _ NName _ ltac:(discriminate) X). }
    assert (Ex1 : forall l', ~ In (NPart (PPDir d l)) (flat_map export_names l')).
    { intros l' X. apply in_flat_map in X. destruct X as (x & _ & X).
      destruct x; cbn [import_names export_names In] in X; repeat destruct X as [X|X]; try discriminate; try contradiction;
        apply (N _ NName _ ltac:(discriminate) X). }
    assert (Li : forall i, ~ In (NPart (PPDir d l)) (init_nodes i)).
    { intros [k ds|e] X; cbn [init_nodes] in X; [exact (M _ NVarDecl _ ltac:(discriminate) X)|destruct X as [X|[]]; discriminate]. }
    assert (Ll : forall i, ~ In (NPart (PPDir d l)) (left_nodes i)).
    { intros [k ds|e] [X|[]]; discriminate. }
    destruct p; try (exists a, b; reflexivity); exfalso; cbn [local] in O; cbn [children] in Hc;
      repeat match type of Hc with
             | context [match ?x with _ => _ end] => destruct x; cbn [children init_nodes left_nodes local] in Hc, O
             end;
      repeat (rewrite in_app_iff in Hc);
      repeat match type of Hc with _ \/ _ => destruct Hc as [Hc|Hc] | In _ (_ :: _) => destruct Hc as [Hc|Hc] end;
      try discriminate Hc; try contradiction;
      try (refine (M _ _ _ _ Hc); discriminate);
      try (refine (N _ _ _ _ Hc); discriminate);
      try (refine (N' _ _ _ _ Hc); discriminate);
      try (eapply In1; exact Hc); try (eapply Ex1; exact Hc);
      try (eapply Li; exact Hc); try (eapply Ll; exact Hc);
      try (eapply U; [|exact Hc]; tauto).
  Qed.
End Occurs.

Lemma binding_list_const g n in_for s ds s' :
  run_call (@body) g n (CBindingList VConst in_for) s = (Ok ds, s') ->
  exists l d, ds = l ++ [d] /\
    (decl_init d = None -> it_tok (st_look s') = TKeyword KIn \/ text_of (g_stream g) (st_look s') = str "of").
Proof.
  intros E. destruct (any_inv g s) as [items Hi].
  apply (call_tree g items false) in E; [|discriminate|split; [exact Hi|split; [exact I|intros ? ?; constructor]]].
  destruct E as (_ & _ & l & d & -> & H & _). exists l, d. split; [reflexivity|]. intros Hd.
  destruct (H Hd) as [Ho|Ho]; [left|right; exact Ho].
  destruct (it_tok (st_look s')); try discriminate. cbn in Ho. destruct k; try discriminate. reflexivity.
Qed.
