(** The end of the text and a closing token in its place.

    The parser is run on the same items twice, once with the end after them and once with a
    closing parenthesis, bracket or brace there.  Up to that point the two runs take the same steps; once
    the end is the look-ahead, what the run does next is compared with what it does at the closing token. *)
From Verif Require Import Meta.
From Verif Require Export Inert.
Local Open Scope list_scope.

Section Ended.
  Variable g : cfg.
  Variables r0 rt : raw.
  Variable more : list raw.
  Notation i0 := (r_item r0).
  Notation it := (r_item rt).
  (** Items that are not the end. *)
  Definition inner (r : list raw) : Prop := Forall (fun x => is_eof (it_tok (r_item x)) = false) r.
  Definition before_end (s1 s2 : state) : Prop :=
    st_found_eof s1 = false /\ is_eof (it_tok (st_look s1)) = false /\
    exists r, inner r /\ st_rest s1 = r ++ [r0] /\ s2 = with_rest (r ++ rt :: more) s1.
  Definition at_end (s1 s2 : state) : Prop :=
    st_found_eof s1 = false /\ st_look s1 = i0 /\ st_rest s1 = [] /\
    s2 = mkState (st_ctx s1) it false (st_cur_pos s1) (st_look_pos s1) more (st_nl s1) (st_comments s1).
  Definition stuck (s : state) : Prop := st_look s = i0 /\ st_rest s = [].
  Definition short (i : item) : Prop := forall w, slice (g_stream g) (it_start i) (it_end i) = Some w -> length w <= 1.

  (** What the look past the look-ahead (lib.rs:4267-4315, 4357-4373) asks for. *)
  Definition closing_tok (t : token) : Prop := is_comment t = false /\ is_keyword KFunction t = false /\ is_punct POpenParen t = false
    /\ is_ident t = false /\ is_punct POpenBracket t = false /\ is_punct POpenBrace t = false
    /\ is_keyword KLet t = false /\ is_keyword KYield t = false.
  Definition readable (i : item) : Prop := exists w, slice (g_stream g) (it_start i) (it_end i) = Some w.

  Hypothesis strict_cfg : g_tolerant g = false.
  Hypothesis tok0 : it_tok i0 = TEoF.
  Hypothesis same_start : it_start it = it_start i0.
  Hypothesis same_nl : r_nl rt = r_nl r0.
  Hypothesis closing : closing_tok (it_tok it).
  Hypothesis short0 : short i0.
  Hypothesis short1 : short it.
  Hypothesis text1 : readable it.

  (** *** What no step undoes *)
  Definition later (s s' : state) : Prop :=
    (st_found_eof s = true -> st_found_eof s' = true) /\ (stuck s -> stuck s').
  Lemma later_refl s : later s s. Proof. split; auto. Qed.
  Lemma later_trans a b c : later a b -> later b c -> later a c. Proof. unfold later. tauto. Qed.
  Lemma next_later s o s' : next_item g s = (o, s') -> later s s'.
  Proof.
    intros H. split.
    - unfold next_item in H. revert H. generalize (it_start (st_look s), it_end (st_look s)). generalize (st_rest s). intros rest. revert s.
      induction rest as [|r rest IH]; intros s sp H Hf; cbn [next_item_loop] in H.
      + destruct (is_eof _); [rewrite Hf in H|]; inversion H; subst; cbn; auto.
      + destruct (update_positions _ _ _ _ _) as [[cur lpos]|]; [|inversion H; subst; exact Hf].
        destruct (it_tok (r_item r)); try (inversion H; subst; exact Hf). destruct (slice _ _ _); [|inversion H; subst; exact Hf].
        eapply IH; [exact H|]. exact Hf.
    - intros [H1 H2]. unfold next_item in H. rewrite H2 in H. cbn [next_item_loop] in H. rewrite H1, tok0 in H. cbn in H.
      destruct (st_found_eof s); inversion H; subst; split; reflexivity || assumption.
  Qed.
  Lemma op_later B (o : op B) s r s' : exec g o s = (r, s') -> later s s'.
  Proof.
    destruct o; cbn [exec]; intros H; try (inversion H; subst; first [apply later_refl|split; auto]; fail).
    - eapply next_later; eauto.
    - destruct (next_item g s) as [[?|?| |] s1] eqn:E; inversion H; subst; eapply next_later; eauto.
    - destruct (g_tolerant g); inversion H; subst; apply later_refl.
    - destruct (g_tolerant g); [destruct (is_punct PComma (it_tok (st_look s))); [|inversion H; subst; apply later_refl]|];
        destruct (next_item g s) as [[i|?| |] s1] eqn:E; try (destruct (is_punct PComma (it_tok i))); inversion H; subst; eapply next_later; eauto.
    - destruct (g_module g); [destruct b as [[]|]|]; inversion H; subst; apply later_refl.
  Qed.

  (** *** Taking a token *)
  Lemma next_before s1 s2 o s1' : before_end s1 s2 -> next_item g s1 = (o, s1') ->
    exists s2', next_item g s2 = (o, s2') /\ (before_end s1' s2' \/ at_end s1' s2').
  Proof.
    intros (Hf & Hl & r & Hr & E1 & E2) H. subst s2. unfold next_item in *. cbn [with_rest st_look st_rest].
    rewrite E1 in H. revert H. generalize (it_start (st_look s1), it_end (st_look s1)). intros sp. revert s1 sp Hf Hl E1.
    induction Hr as [|x r Hx Hr IH]; intros s1 sp Hf Hl E1 H; cbn [app next_item_loop] in *.
    - rewrite same_start. cbn [with_rest st_look_pos st_look st_ctx st_found_eof st_comments].
      destruct (update_positions _ _ _ _ _) as [[cur lpos]|] eqn:U.
      + rewrite tok0 in H. inversion H; subst. eexists. split.
        { destruct closing as [C _]. destruct (it_tok it); try discriminate C; reflexivity. }
        right. repeat split; cbn; auto. rewrite same_nl, Hf. reflexivity.
      + inversion H; subst. eexists. split; [reflexivity|]. left. split; [exact Hf|]. split; [exact Hl|]. exists []. repeat split; auto. constructor.
    - cbn [with_rest st_look_pos st_look st_ctx st_found_eof st_comments].
      destruct (update_positions _ _ _ _ _) as [[cur lpos]|] eqn:U.
      2:{ inversion H; subst. eexists. split; [reflexivity|]. left. split; [exact Hf|]. split; [exact Hl|]. exists (x :: r). repeat split; auto. constructor; auto. }
      destruct (it_tok (r_item x)) eqn:Tx;
        try (inversion H; subst; eexists; split; [reflexivity|]; left; split; [exact Hf|]; split; [cbn; rewrite Tx; exact Hx|]; exists r; repeat split; auto; fail).
      destruct (slice _ _ _) as [w|].
      + match type of H with next_item_loop _ _ ?sp' ?s' = _ =>
          specialize (IH s' sp' Hf Hl eq_refl H) end. exact IH.
      + inversion H; subst. eexists. split; [reflexivity|]. left. split; [exact Hf|]. split; [exact Hl|]. exists r. repeat split; auto.
  Qed.
  Lemma next_stuck s o s' : stuck s -> st_found_eof s = false -> next_item g s = (o, s') -> st_found_eof s' = true.
  Proof.
    intros [H1 H2] Hf H. unfold next_item in H. rewrite H2 in H. cbn [next_item_loop] in H. rewrite H1, tok0, Hf in H. cbn in H. inversion H. reflexivity.
  Qed.
  Lemma at_end_stuck s1 s2 : at_end s1 s2 -> stuck s1.
  Proof. intros (_ & H1 & H2 & _). split; assumption. Qed.
  Lemma before_look s1 s2 : before_end s1 s2 -> st_look s2 = st_look s1 /\ st_ctx s2 = st_ctx s1 /\ st_nl s2 = st_nl s1
    /\ st_look_pos s2 = st_look_pos s1 /\ st_cur_pos s2 = st_cur_pos s1.
  Proof. intros (_ & _ & r & _ & _ & ->). repeat split. Qed.
  Lemma before_upd f s1 s2 : before_end s1 s2 -> before_end (upd_ctx f s1) (upd_ctx f s2).
  Proof. intros (Hf & Hl & r & Hr & E1 & ->). split; [exact Hf|]. split; [exact Hl|]. exists r. repeat split; auto. Qed.
  Lemma at_end_upd f s1 s2 : at_end s1 s2 -> at_end (upd_ctx f s1) (upd_ctx f s2).
  Proof. intros (Hf & Hl & Hr & ->). repeat split; auto. Qed.

  Section Rel.
    Variable n : nat.
    Variable rec : forall B, call B -> state -> outcome B * state.
    Hypothesis rec_later : forall B (c : call B) s r s', rec B c s = (r, s') -> later s s'.
    Notation R := (run_in g n rec).
    Lemma run_later A (p : P A) s r s' : R p s = (r, s') -> later s s'.
    Proof. apply (run_in_rel _ g later later_refl later_trans op_later n rec rec_later). Qed.
    Lemma iter_later A X (b : X -> P (X + A)) m : forall x s r s', iter (fun y s' => R (b y) s') m x s = (r, s') -> later s s'.
    Proof.
      induction m as [|m IH]; intros x s r s' H; cbn [iter] in H; [inversion H; apply later_refl|].
      destruct (R (b x) s) as [[[y|a]|e| |] s1] eqn:E; apply run_later in E; try (inversion H; subst; exact E).
      eapply later_trans; [exact E|]. eapply IH; eauto.
    Qed.
    Lemma found_back s s' : later s s' -> st_found_eof s' = false -> st_found_eof s = false.
    Proof. intros [H _] K. destruct (st_found_eof s); auto. rewrite H in K; auto. Qed.

    (** The four claims about a program: before the end; before it, and nothing further is looked at; at the end; and
        that a run that is at the end goes wrong or takes the end for a token. *)
    Definition relA {A} (p : P A) : Prop := forall s1 s2 a s1', before_end s1 s2 -> R p s1 = (Ok a, s1') -> st_found_eof s1' = false ->
      exists s2', R p s2 = (Ok a, s2') /\ (before_end s1' s2' \/ at_end s1' s2').
    Definition keepA {A} (p : P A) : Prop := forall s1 s2 a s1', before_end s1 s2 -> R p s1 = (Ok a, s1') ->
      exists s2', R p s2 = (Ok a, s2') /\ before_end s1' s2'.
    Definition relL {A} (p : P A) : Prop := forall s1 s2 a s1', before_end s1 s2 -> R p s1 = (Ok a, s1') -> st_found_eof s1' = false ->
      stuck s1' \/ exists s2', R p s2 = (Ok a, s2') /\ before_end s1' s2'.
    Definition relB {A} (p1 p2 : P A) : Prop := forall s1 s2 a s1', at_end s1 s2 -> R p1 s1 = (Ok a, s1') -> st_found_eof s1' = false ->
      exists s2', R p2 s2 = (Ok a, s2') /\ at_end s1' s2'.
    Definition dead {A} (p : P A) : Prop := forall s1 a s1', stuck s1 -> st_found_eof s1 = false -> R p s1 = (Ok a, s1') -> st_found_eof s1' = false -> False.

    Lemma ok_bind A B (p : P A) (k : A -> P B) s b s' : R (Bind p k) s = (Ok b, s') ->
      exists a s1, R p s = (Ok a, s1) /\ R (k a) s1 = (Ok b, s') /\ (st_found_eof s' = false -> st_found_eof s1 = false).
    Proof.
      cbn [run_in]. destruct (R p s) as [[a|x| |] s1] eqn:E; intros H; try discriminate H. exists a, s1. repeat split; auto.
      apply found_back. eapply run_later; eauto.
    Qed.
    Lemma bind_ok A B (p : P A) (k : A -> P B) s a s1 : R p s = (Ok a, s1) -> R (Bind p k) s = R (k a) s1.
    Proof. intros H. cbn [run_in]. rewrite H. reflexivity. Qed.

    (** *** Keeping the place *)
    Lemma keepA_ret A (a : A) : keepA (Ret a).
    Proof. intros s1 s2 b s1' H E. inversion E; subst. eexists. split; [reflexivity|exact H]. Qed.
    Lemma keepA_fail A d : keepA (@Fail call A d).
    Proof. intros s1 s2 b s1' H E. discriminate E. Qed.
    Lemma keepA_crash A : keepA (@Crash call A).
    Proof. intros s1 s2 b s1' H E. discriminate E. Qed.
    Lemma keepA_bind A B (p : P A) (k : A -> P B) : keepA p -> (forall a, keepA (k a)) -> keepA (Bind p k).
    Proof.
      intros Hp Hk s1 s2 b s1' H E. apply ok_bind in E as (a & t1 & E1 & E2 & _). destruct (Hp _ _ _ _ H E1) as (t2 & F1 & H1).
      destruct (Hk _ _ _ _ _ H1 E2) as (t3 & F2 & H2). exists t3. split; [|exact H2]. rewrite (bind_ok _ _ _ _ _ _ _ F1). exact F2.
    Qed.
    Lemma keepA_do A (o : op A) : match o with ONext | ONextIgnored | OExpectComma | OPeek | OPeekSkip => False | _ => True end -> keepA (Do o).
    Proof.
      intros Ho s1 s2 b s1' H E. cbn [run_in] in *. pose proof (before_look _ _ H) as (L1 & L2 & L3 & L4 & L5).
      destruct o; try destruct Ho; cbn [exec] in *; try (inversion E; subst; rewrite ?L1, ?L2, ?L3, ?L4, ?L5; eexists; split; [reflexivity|exact H]).
      - inversion E; subst. eexists; split; [reflexivity|apply before_upd; exact H].
      - rewrite strict_cfg in *. discriminate E.
      - destruct (g_module g); [destruct b0 as [[]|]|]; inversion E; subst; eexists; (split; [reflexivity|exact H]).
    Qed.
    Ltac hd p := lazymatch p with ?f _ => hd f | _ => p end.
    Ltac kstep := cbn zeta; lazymatch goal with
      | |- keepA (Ret _) => apply keepA_ret
      | |- keepA (Fail _) => apply keepA_fail
      | |- keepA Crash => apply keepA_crash
      | |- keepA (Bind _ _) => apply keepA_bind; [|intros ?]
      | |- keepA (Do _) => apply keepA_do; exact I
      | |- keepA (match ?x with _ => _ end) => destruct x
      | |- keepA (Call _) => fail
      | |- keepA (Loop _ _) => fail
      | |- keepA ?p => let h := hd p in unfold h
      end.
    Lemma first_app r x l : first_non_comment (r ++ x :: l) = match first_non_comment r with Some i => Some i | None => first_non_comment (x :: l) end.
    Proof. induction r as [|y r IH]; [reflexivity|]. cbn [app first_non_comment]. destruct (is_comment (it_tok (r_item y))); auto. Qed.
    Lemma peeked s1 s2 A (f : item -> A) : before_end s1 s2 -> f i0 = f it ->
      option_map f (first_non_comment (st_rest s1)) = option_map f (first_non_comment (st_rest s2)).
    Proof.
      intros (_ & _ & r & _ & E1 & ->) H. rewrite E1. cbn [with_rest st_rest]. rewrite !first_app. destruct (first_non_comment r); [reflexivity|].
      cbn [first_non_comment]. rewrite tok0. destruct closing as [C _]. rewrite C. cbn. rewrite H. reflexivity.
    Qed.
    Lemma keepA_import : keepA at_import_call.
    Proof.
      apply keepA_bind; [repeat kstep|]. intros []; [|repeat kstep]. intros s1 s2 b s1' H E. cbn [run_in exec] in *. inversion E; subst.
      pose proof (peeked s1' s2 _ (fun i => is_punct POpenParen (it_tok i)) H) as K. destruct closing as (_ & _ & C & _). cbn beta in K. rewrite tok0, C in K. specialize (K eq_refl).
      eexists. split; [|exact H]. destruct (first_non_comment (st_rest s1')), (first_non_comment (st_rest s2)); cbn in K; try discriminate K; [injection K as K; rewrite K|]; reflexivity.
    Qed.
    Lemma keepA_lexical : keepA at_lexical_decl.
    Proof.
      intros s1 s2 b s1' H E. unfold at_lexical_decl in *. cbn [run_in exec] in *. inversion E; subst.
      pose proof (peeked s1' s2 _ (fun i => let t := it_tok i in is_ident t || is_punct POpenBracket t || is_punct POpenBrace t
           || is_keyword KLet t || is_keyword KYield t) H) as K. destruct closing as (_ & _ & _ & C1 & C2 & C3 & C4 & C5). cbn beta zeta in K. rewrite tok0, C1, C2, C3, C4, C5 in K. specialize (K eq_refl).
      eexists. split; [|exact H]. destruct (first_non_comment (st_rest s1')), (first_non_comment (st_rest s2)); cbn [option_map] in K; try discriminate K; [injection K as K; cbn zeta; rewrite K|]; reflexivity.
    Qed.
    Lemma keepA_async : keepA at_async_function.
    Proof.
      apply keepA_bind; [repeat kstep|]. intros []; [|repeat kstep]. intros s1 s2 b s1' H E. pose proof H as (_ & _ & r & _ & E1 & E2).
      cbn [run_in exec] in *. unfold peek_raw in *. rewrite E1 in E. rewrite E2. cbn [with_rest st_rest]. destruct r as [|x r]; cbn [app run_in exec] in *.
      - inversion E; subst. destruct closing as (_ & C & _). rewrite C, tok0, !andb_false_r. eexists. split; [reflexivity|exact H].
      - inversion E; subst. eexists. split; [reflexivity|exact H].
    Qed.

    (** *** Before the end *)
    Lemma keep_rel A (p : P A) : keepA p -> relA p.
    Proof. intros Hp s1 s2 a s1' H E _. destruct (Hp _ _ _ _ H E) as (s2' & F & H'). eauto. Qed.
    Lemma relA_bind A B (p : P A) (k : A -> P B) : relA p -> (forall a, relA (k a)) -> (forall a, relB (k a) (k a)) -> relA (Bind p k).
    Proof.
      intros Hp HA HB s1 s2 b s1' H E Hf. apply ok_bind in E as (a & t1 & E1 & E2 & Ht). destruct (Hp _ _ _ _ H E1 (Ht Hf)) as (t2 & F1 & [H1|H1]).
      - destruct (HA _ _ _ _ _ H1 E2 Hf) as (t3 & F2 & H2). exists t3. split; [|exact H2]. rewrite (bind_ok _ _ _ _ _ _ _ F1). exact F2.
      - destruct (HB _ _ _ _ _ H1 E2 Hf) as (t3 & F2 & H2). exists t3. split; [|right; exact H2]. rewrite (bind_ok _ _ _ _ _ _ _ F1). exact F2.
    Qed.
    Lemma relA_keep A B (p : P A) (k : A -> P B) : keepA p -> (forall a, relA (k a)) -> relA (Bind p k).
    Proof.
      intros Hp HA s1 s2 b s1' H E Hf. apply ok_bind in E as (a & t1 & E1 & E2 & Ht). destruct (Hp _ _ _ _ H E1) as (t2 & F1 & H1).
      destruct (HA _ _ _ _ _ H1 E2 Hf) as (t3 & F2 & H2). exists t3. split; [|exact H2]. rewrite (bind_ok _ _ _ _ _ _ _ F1). exact F2.
    Qed.
    Lemma relA_lossy A B (p : P A) (k : A -> P B) : relL p -> (forall a, dead (k a)) -> (forall a, relA (k a)) -> relA (Bind p k).
    Proof.
      intros Hp HD HA s1 s2 b s1' H E Hf. apply ok_bind in E as (a & t1 & E1 & E2 & Ht). destruct (Hp _ _ _ _ H E1 (Ht Hf)) as [K|(t2 & F1 & H1)].
      - destruct (HD a t1 b s1' K (Ht Hf) E2 Hf).
      - destruct (HA _ _ _ _ _ H1 E2 Hf) as (t3 & F2 & H2). exists t3. split; [|exact H2]. rewrite (bind_ok _ _ _ _ _ _ _ F1). exact F2.
    Qed.
    Lemma relA_loop A X (x : X) (b : X -> P (X + A)) : (forall y, relA (b y)) -> (forall y, relB (b y) (b y)) -> relA (Loop x b).
    Proof.
      intros HA HB s1 s2 a s1' H E Hf. cbn [run_in] in *.
      assert (K : forall m x s1 s2, at_end s1 s2 -> iter (fun y s' => R (b y) s') m x s1 = (Ok a, s1') ->
        exists s2', iter (fun y s' => R (b y) s') m x s2 = (Ok a, s2') /\ at_end s1' s2').
      { clear x s1 s2 H E. induction m as [|m IH]; intros x s1 s2 H E; cbn [iter] in *; [discriminate E|].
        destruct (R (b x) s1) as [[[y|z]|e| |] t1] eqn:E1; try discriminate E.
        - destruct (HB x _ _ _ _ H E1) as (t2 & F & H2); [apply (found_back _ s1'); [eapply iter_later; eauto|exact Hf]|]. rewrite F. eapply IH; eauto.
        - inversion E; subst. destruct (HB x _ _ _ _ H E1 Hf) as (t2 & F & H2). rewrite F. eauto. }
      revert x s1 s2 H E. generalize n at 2 4. intros m. induction m as [|m IH]; intros x s1 s2 H E; cbn [iter] in *; [discriminate E|].
      destruct (R (b x) s1) as [[[y|z]|e| |] t1] eqn:E1; try discriminate E.
      - destruct (HA x _ _ _ _ H E1) as (t2 & F & [H2|H2]); [apply (found_back _ s1'); [eapply iter_later; eauto|exact Hf]| |]; rewrite F; [eapply IH; eauto|].
        destruct (K m y _ _ H2 E) as (u & G1 & G2). eauto.
      - inversion E; subst. destruct (HA x _ _ _ _ H E1 Hf) as (t2 & F & H2). rewrite F. eauto.
    Qed.
    Lemma relA_next : relA (Do ONext).
    Proof. intros s1 s2 a s1' H E Hf. cbn [run_in exec] in *. destruct (next_before _ _ _ _ H E) as (s2' & F & K). eauto. Qed.
    Lemma relA_nextignored : relA (Do ONextIgnored).
    Proof.
      intros s1 s2 a s1' H E Hf. cbn [run_in exec] in *. destruct (next_item g s1) as [o t1] eqn:E1. destruct (next_before _ _ _ _ H E1) as (s2' & F & K).
      rewrite F. destruct o; inversion E; subst; eauto.
    Qed.
    Lemma relA_expectcomma : relA (Do OExpectComma).
    Proof.
      intros s1 s2 a s1' H E Hf. cbn [run_in exec] in *. rewrite strict_cfg in *. destruct (next_item g s1) as [o t1] eqn:E1. destruct (next_before _ _ _ _ H E1) as (s2' & F & K).
      rewrite F. destruct o as [i|e| |]; try discriminate E. destruct (is_punct PComma (it_tok i)); inversion E; subst; eauto.
    Qed.

    (** *** Lossily *)
    Lemma relL_of A (p : P A) : relA p -> relL p.
    Proof. intros Hp s1 s2 a s1' H E Hf. destruct (Hp _ _ _ _ H E Hf) as (s2' & F & [K|K]); [eauto|left; eapply at_end_stuck; eauto]. Qed.
    Lemma relL_bind A B (p : P A) (k : A -> P B) : relL p -> (forall a, relL (k a)) -> relL (Bind p k).
    Proof.
      intros Hp HA s1 s2 b s1' H E Hf. apply ok_bind in E as (a & t1 & E1 & E2 & Ht). destruct (Hp _ _ _ _ H E1 (Ht Hf)) as [K|(t2 & F1 & H1)].
      - left. apply run_later in E2. apply E2. exact K.
      - destruct (HA _ _ _ _ _ H1 E2 Hf) as [K|(t3 & F2 & H2)]; [left; exact K|]. right. exists t3. split; [|exact H2]. rewrite (bind_ok _ _ _ _ _ _ _ F1). exact F2.
    Qed.
    Lemma relL_loop A X (x : X) (b : X -> P (X + A)) : (forall y, relL (b y)) -> relL (Loop x b).
    Proof.
      intros HA s1 s2 a s1' H E Hf. cbn [run_in] in *. revert x s1 s2 H E. generalize n at 2 4. intros m. induction m as [|m IH]; intros x s1 s2 H E; cbn [iter] in *; [discriminate E|].
      destruct (R (b x) s1) as [[[y|z]|e| |] t1] eqn:E1; try discriminate E.
      - destruct (HA x _ _ _ _ H E1) as [K|(t2 & F & H2)]; [apply (found_back _ s1'); [eapply iter_later; eauto|exact Hf]| |].
        + left. apply iter_later in E. apply E. exact K.
        + rewrite F. eapply IH; eauto.
      - inversion E; subst. destruct (HA x _ _ _ _ H E1 Hf) as [K|(t2 & F & H2)]; [left; exact K|]. right. rewrite F. eauto.
    Qed.

    (** *** At the end, in vain *)
    Lemma dead_fail A d : dead (@Fail call A d). Proof. intros s1 a s1' _ _ E. discriminate E. Qed.
    Lemma dead_crash A : dead (@Crash call A). Proof. intros s1 a s1' _ _ E. discriminate E. Qed.
    Lemma dead_next : dead (Do ONext).
    Proof. intros s1 a s1' H Hf E K. cbn [run_in exec] in E. rewrite (next_stuck _ _ _ H Hf E) in K. discriminate K. Qed.
    Lemma dead_nextignored : dead (Do ONextIgnored).
    Proof.
      intros s1 a s1' H Hf E K. cbn [run_in exec] in E. destruct (next_item g s1) as [o t] eqn:E1. pose proof (next_stuck _ _ _ H Hf E1) as F.
      destruct o; inversion E; subst; congruence.
    Qed.
    Lemma dead_comma : dead (Do OExpectComma).
    Proof.
      intros s1 a s1' H Hf E K. cbn [run_in exec] in E. rewrite strict_cfg in E. destruct (next_item g s1) as [o t] eqn:E1. pose proof (next_stuck _ _ _ H Hf E1) as F.
      destruct o as [i|e| |]; try discriminate E. destruct (is_punct PComma (it_tok i)); inversion E; subst; congruence.
    Qed.
    Lemma dead_tolerate d : dead (Do (OTolerate d)).
    Proof. intros s1 a s1' H Hf E K. cbn [run_in exec] in E. rewrite strict_cfg in E. discriminate E. Qed.
    Lemma dead_first A B (p : P A) (k : A -> P B) : dead p -> dead (Bind p k).
    Proof. intros Hp s1 b s1' H Hf E K. apply ok_bind in E as (a & t & E1 & E2 & Ht). eapply Hp; eauto. Qed.
    Lemma dead_then A B (p : P A) (k : A -> P B) : (forall a, dead (k a)) -> dead (Bind p k).
    Proof.
      intros Hk s1 b s1' H Hf E K. apply ok_bind in E as (a & t & E1 & E2 & Ht). refine (Hk a t b s1' _ (Ht K) E2 K).
      apply run_later in E1. apply E1. exact H.
    Qed.
    Lemma dead_assoc A B C (p : P A) (q : A -> P B) (k : B -> P C) : dead (Bind p (fun x => Bind (q x) k)) -> dead (Bind (Bind p q) k).
    Proof. intros H s1 b s1' Hs Hf E K. apply (H s1 b s1' Hs Hf); [|exact K]. cbn [run_in] in *. destruct (R p s1) as [[a|x| |] t]; exact E. Qed.
    Lemma dead_ret A B (a : A) (k : A -> P B) : dead (k a) -> dead (Bind (Ret a) k).
    Proof. intros H s1 b s1' Hs Hf E K. exact (H s1 b s1' Hs Hf E K). Qed.
    Lemma dead_look B (k : item -> P B) : dead (k i0) -> dead (Bind (Do OLook) k).
    Proof. intros H s1 b s1' Hs Hf E K. cbn [run_in exec] in E. rewrite (proj1 Hs) in E. exact (H s1 b s1' Hs Hf E K). Qed.
    Lemma dead_loop A X (x : X) (b : X -> P (X + A)) : (forall y, dead (b y)) -> dead (Loop x b).
    Proof.
      intros H s1 a s1' Hs Hf E K. cbn [run_in] in E. revert E. generalize n at 2. intros [|m] E; cbn [iter] in E; [discriminate E|].
      destruct (R (b x) s1) as [[[y|z]|e| |] t1] eqn:E1; try discriminate E.
      - refine (H x s1 _ t1 Hs Hf E1 _). apply (found_back _ s1'); [eapply iter_later; eauto|exact K].
      - inversion E; subst. exact (H x s1 _ s1' Hs Hf E1 K).
    Qed.
    Lemma not_word_short i w x : short i -> slice (g_stream g) (it_start i) (it_end i) = Some x -> 2 <= length (str w) -> text_eqb x (str w) = false.
    Proof.
      intros H E L. apply H in E. destruct x as [|c [|d x]]; cbn in E; [| |lia]; destruct (str w) as [|c1 [|c2 l]]; cbn in L; try lia; try reflexivity.
      cbn. apply andb_false_r.
    Qed.
    Lemma dead_contextual B w (k : bool -> P B) : 2 <= length (str w) -> dead (k false) -> dead (Bind (at_contextual w) k).
    Proof.
      intros L H s1 b s1' Hs Hf E K. apply ok_bind in E as (x & t & E1 & E2 & _). unfold at_contextual, stream_at, look in E1. cbn [run_in exec] in E1. rewrite (proj1 Hs) in E1.
      destruct (slice _ _ _) as [y|] eqn:S; cbn [run_in] in E1; [|discriminate E1]. rewrite (not_word_short _ _ _ short0 S L) in E1. inversion E1; subst.
      exact (H t b s1' Hs Hf E2 K).
    Qed.

    (** *** At the end *)
    Lemma relB_dead A (p1 p2 : P A) : dead p1 -> relB p1 p2.
    Proof. intros H s1 s2 a s1' Hs E K. destruct (H s1 a s1' (at_end_stuck _ _ Hs) (proj1 Hs) E K). Qed.
    Lemma relB_ret A (a : A) : relB (Ret a) (Ret a).
    Proof. intros s1 s2 b s1' H E K. inversion E; subst. eexists. split; [reflexivity|exact H]. Qed.
    Lemma relB_bind A B (p1 p2 : P A) (k1 k2 : A -> P B) : relB p1 p2 -> (forall a, relB (k1 a) (k2 a)) -> relB (Bind p1 k1) (Bind p2 k2).
    Proof.
      intros Hp Hk s1 s2 b s1' H E Hf. apply ok_bind in E as (a & t1 & E1 & E2 & Ht). destruct (Hp _ _ _ _ H E1 (Ht Hf)) as (t2 & F1 & H1).
      destruct (Hk _ _ _ _ _ H1 E2 Hf) as (t3 & F2 & H2). exists t3. split; [|exact H2]. rewrite (bind_ok _ _ _ _ _ _ _ F1). exact F2.
    Qed.
    Lemma relB_assoc A B C (p1 p2 : P A) (q1 q2 : A -> P B) (k1 k2 : B -> P C) :
      relB (Bind p1 (fun x => Bind (q1 x) k1)) (Bind p2 (fun x => Bind (q2 x) k2)) -> relB (Bind (Bind p1 q1) k1) (Bind (Bind p2 q2) k2).
    Proof.
      intros H s1 s2 b s1' Hs E K. destruct (H s1 s2 b s1' Hs) as (s2' & F & H'); [|exact K|].
      - cbn [run_in] in *. destruct (R p1 s1) as [[a|x| |] t]; exact E.
      - exists s2'. split; [|exact H']. cbn [run_in] in *. destruct (R p2 s2) as [[a|x| |] t]; exact F.
    Qed.
    Lemma relB_bindret A B (a1 a2 : A) (k1 k2 : A -> P B) : relB (k1 a1) (k2 a2) -> relB (Bind (Ret a1) k1) (Bind (Ret a2) k2).
    Proof. intros H s1 s2 b s1' Hs E K. exact (H s1 s2 b s1' Hs E K). Qed.
    Lemma relB_look B (k1 k2 : item -> P B) : relB (k1 i0) (k2 it) -> relB (Bind (Do OLook) k1) (Bind (Do OLook) k2).
    Proof.
      intros H s1 s2 b s1' Hs E K. cbn [run_in exec] in *. pose proof Hs as (_ & Hl & _ & E2). rewrite Hl in E.
      replace (st_look s2) with it by (rewrite E2; reflexivity). exact (H s1 s2 b s1' Hs E K).
    Qed.
    Lemma relB_do A (o : op A) : match o with OCtx | ONewLine | OLookPos | OCurPos | OStr _ | OQuery _ | OItemPos _ | OUpd _ | OGuardModule _ _ => True | _ => False end ->
      relB (Do o) (Do o).
    Proof.
      intros Ho s1 s2 a s1' Hs E K. pose proof Hs as (_ & _ & _ & E2). cbn [run_in] in *.
      destruct o; try destruct Ho; cbn [exec] in *; try (inversion E; subst; eexists; split; [reflexivity|exact Hs]).
      - inversion E; subst. eexists. split; [reflexivity|]. exact (at_end_upd f _ _ Hs).
      - destruct (g_module g); [destruct b as [[]|]|]; inversion E; subst s1'; eexists; (split; [reflexivity|exact Hs]).
    Qed.
    Lemma relB_loop A X (x : X) (b : X -> P (X + A)) : (forall y, relB (b y) (b y)) -> relB (Loop x b) (Loop x b).
    Proof.
      intros HB s1 s2 a s1' H E Hf. cbn [run_in] in *. revert x s1 s2 H E. generalize n at 2 4. intros m. induction m as [|m IH]; intros x s1 s2 H E; cbn [iter] in *; [discriminate E|].
      destruct (R (b x) s1) as [[[y|z]|e| |] t1] eqn:E1; try discriminate E.
      - destruct (HB x _ _ _ _ H E1) as (t2 & F & H2); [apply (found_back _ s1'); [eapply iter_later; eauto|exact Hf]|]. rewrite F. eapply IH; eauto.
      - inversion E; subst. destruct (HB x _ _ _ _ H E1 Hf) as (t2 & F & H2). rewrite F. eauto.
    Qed.
    Lemma relB_contextual B w (k1 k2 : bool -> P B) : 2 <= length (str w) -> relB (k1 false) (k2 false) -> relB (Bind (at_contextual w) k1) (Bind (at_contextual w) k2).
    Proof.
      intros L H s1 s2 b s1' Hs E K. apply ok_bind in E as (x & t & E1 & E2 & _). unfold at_contextual, stream_at, look in *. cbn [run_in exec] in *.
      pose proof Hs as (_ & Hl & _ & Es2). rewrite Hl in E1.
      destruct (slice _ _ _) as [y|] eqn:S; cbn [run_in] in E1; [|discriminate E1]. rewrite (not_word_short _ _ _ short0 S L) in E1. inversion E1; subst x t.
      replace (st_look s2) with it by (rewrite Es2; reflexivity). destruct text1 as [y1 S1]. rewrite S1. cbn [run_in]. rewrite (not_word_short _ _ _ short1 S1 L).
      exact (H s1 s2 b s1' Hs E2 K).
    Qed.

    (** *** The functions *)
    (** Those that can succeed at the end without taking it. *)
    Definition idle {B} (c : call B) : bool := match c with CConsumeSemicolon | CDirectivePrologues => true | _ => false end.
    Ltac closed_tests := repeat match goal with
      | |- context [punct_eqb ?a ?b] => let v := eval vm_compute in (punct_eqb a b) in
          match v with true => idtac | false => idtac end; change (punct_eqb a b) with v
      | |- context [assign_tok ?a] => let v := eval vm_compute in (assign_tok a) in
          match v with true => idtac | false => idtac end; change (assign_tok a) with v
      end; cbn [andb orb negb].
    Section Dead.
      Hypothesis rec_dead : forall B (c : call B), idle c = false -> dead (Call c).
      Ltac toks := rewrite ?tok0; cbn [is_punct is_keyword is_eof is_ident is_string is_number is_template is_template_head is_any_punct is_any_keyword is_regex is_bool is_null
        punct_eqb keyword_eqb andb orb negb possible_ident start_of_expr bin_precedence punct_precedence qualified_prop_key Nat.eqb]; closed_tests; rewrite ?andb_false_r; cbn [andb orb negb].
      Ltac dstep := cbn zeta; cbn beta; toks; lazymatch goal with
        | |- dead (Fail _) => apply dead_fail
        | |- dead Crash => apply dead_crash
        | |- dead (Do ONext) => apply dead_next
        | |- dead (Do ONextIgnored) => apply dead_nextignored
        | |- dead (Do OExpectComma) => apply dead_comma
        | |- dead (Do (OTolerate _)) => apply dead_tolerate
        | |- dead (Do _) => fail
        | |- dead (Ret _) => fail
        | |- dead (Call _) => apply rec_dead; reflexivity
        | |- dead (Bind (Do OLook) _) => apply dead_look
        | |- dead (Bind (Do ONext) _) => apply dead_first, dead_next
        | |- dead (Bind (Do _) _) => first [apply dead_first; solve [dstep]|apply dead_then; intros ?]
        | |- dead (Bind (Ret _) _) => apply dead_ret
        | |- dead (Bind (Bind _ _) _) => apply dead_assoc
        | |- dead (Bind (at_contextual _) _) => apply dead_contextual; [cbn; lia|]
        | |- dead (Bind (Fail _) _) => apply dead_first, dead_fail
        | |- dead (Bind Crash _) => apply dead_first, dead_crash
        | |- dead (Bind (Call _) _) => first [apply dead_first, rec_dead; reflexivity|apply dead_then; intros ?]
        | |- dead (Bind (Loop _ _) _) => first [apply dead_first; solve [repeat dstep]|apply dead_then; intros ?]
        | |- dead (Bind (match ?x with _ => _ end) _) => destruct x
        | |- dead (Bind ?p _) => let h := hd p in unfold h
        | |- dead (Loop _ _) => apply dead_loop; intros ?
        | |- dead (match ?x with _ => _ end) => destruct x
        | |- dead ?p => let h := hd p in unfold h
        end.
      Lemma bodies_dead B (c : call B) : idle c = false -> dead (body c).
      Proof. destruct c; intros E; try discriminate E; cbn [body]; clear E; repeat dstep. Qed.
    End Dead.

    Section Lossy.
      Hypothesis rec_lossy : forall B (c : call B), relL (Call c).
      Ltac lstep := cbn zeta; lazymatch goal with
        | |- relL (Ret _) => apply relL_of, keep_rel, keepA_ret
        | |- relL (Fail _) => apply relL_of, keep_rel, keepA_fail
        | |- relL Crash => apply relL_of, keep_rel, keepA_crash
        | |- relL (Do ONext) => apply relL_of, relA_next
        | |- relL (Do ONextIgnored) => apply relL_of, relA_nextignored
        | |- relL (Do OExpectComma) => apply relL_of, relA_expectcomma
        | |- relL (Do _) => apply relL_of, keep_rel, keepA_do; exact I
        | |- relL (Call _) => apply rec_lossy
        | |- relL at_import_call => apply relL_of, keep_rel, keepA_import
        | |- relL at_lexical_decl => apply relL_of, keep_rel, keepA_lexical
        | |- relL at_async_function => apply relL_of, keep_rel, keepA_async
        | |- relL (Bind _ _) => apply relL_bind; [|intros ?]
        | |- relL (Loop _ _) => apply relL_loop; intros ?
        | |- relL (match ?x with _ => _ end) => destruct x
        | |- relL ?p => let h := hd p in unfold h
        end.
      Lemma bodies_lossy B (c : call B) : relL (body c).
      Proof. destruct c; cbn [body]; repeat lstep. Qed.
      Lemma lossy_params : relL
        (ifM at_punct PCloseParen then Ret (true, false, [])
         else Loop (true, false, []) (fun '(simple, found_restricted, args) =>
           t <- look_tok ;;
           if is_eof t then Ret (inr (simple, found_restricted, args))
           else
             '(s, r, arg) <- Call (CFormalParam simple) ;;
             let acc := (simple && s, found_restricted || r, args ++ [arg]) in
             ifM at_punct PCloseParen then Ret (inr acc)
             else
               expect_punct PComma ;;
               ifM at_punct PCloseParen then Ret (inr acc) else Ret (inl acc))).
      Proof. repeat lstep. Qed.
      Lemma lossy_items b0 : relL (Loop b0 (fun b =>
        t <- look_tok ;;
        if is_eof t then Ret (inr b)
        else if is_punct PCloseBrace t then Ret (inr b)
        else p <- Call CStatementListItem ;; Ret (inl (b ++ [p])))).
      Proof. repeat lstep. Qed.
      Lemma lossy_class : relL (Loop (false, []) (fun '(has_ctor, ret) =>
        ifM at_punct PCloseBrace then Ret (inr ret)
        else ifM at_punct PSemiColon then next ;; Ret (inl (has_ctor, ret))
        else
          '(ctor, el) <- Call (CClassEl has_ctor) ;;
          Ret (inl (ctor, ret ++ [el])))).
      Proof. repeat lstep. Qed.
      Lemma lossy_args c : relL
        (ifM at_punct PCloseParen then Ret []
         else Loop [] (fun args =>
           e <- (ifM at_punct PSpread then Call CSpreadElement else isolated (Call c)) ;;
           ifM at_punct PCloseParen then Ret (inr (args ++ [e]))
           else
             Do OExpectComma ;;
             ifM at_punct PCloseParen then Ret (inr (args ++ [e]))
             else Ret (inl (args ++ [e])))).
      Proof. repeat lstep. Qed.
    End Lossy.

    (** The functions for expressions and what they call outside the bodies of functions. *)
    Definition for_expression {B} (c : call B) : bool := match c with
      | CExpression | CFunctionSourceEl | CClassDecl _ | CClassBody | CAsyncPropertyMethod | CPropertyMethod | CGeneratorMethod | CGetterMethod
      | CMethodBody _ _ | CSetterMethod | CPropertyMethodBody _ _ | CObjectPropertyKey | CPrimaryExpression | CGroupExpr | CArrayInit | CObjInit | CObjProp _
      | CTemplateLiteral | CTemplateElement | CFunctionExpr | CFnName _ | CIdentName | CVarIdent _ | CFormalParams | CFormalParam _ | CRestElement | CBindingRestEl
      | CPatternWithDefault | CPattern _ | CArrayPattern | CObjectPattern | CRestProp | CPropertyPattern | CAssignmentExpr | CYieldExpr | CConditionalExpr
      | CBinaryExpression | CExponentiation | CUnaryExpression | CAwaitExpr | CUpdateExpr | CLeftHandSideExpr | CSuper | CLeftHandSideExprAllowCall | CAsyncArgs
      | CAsyncArg | CSpreadElement | CArgs | CNewExpr => true
      | _ => false
      end.
    (** Before a closing brace statements end as they do at the end.  An element of a class is never the last thing read. *)
    Definition covered {B} (c : call B) : bool := match c with CClassEl _ => false | _ => match it_tok it with TPunct PCloseBrace => true | _ => for_expression c end end.
    Section Strong.
      Hypothesis rec_dead : forall B (c : call B), idle c = false -> dead (Call c).
      Hypothesis rec_lossy : forall B (c : call B), relL (Call c).
      Hypothesis rec_strong : forall B (c : call B), covered c = true -> relA (Call c).
      Ltac toks := rewrite ?tok0; cbn [is_punct is_keyword is_eof is_ident is_string is_number is_template is_template_head is_any_punct is_any_keyword is_regex is_bool is_null
        punct_eqb keyword_eqb andb orb negb possible_ident start_of_expr bin_precedence punct_precedence qualified_prop_key Nat.eqb]; closed_tests; rewrite ?andb_false_r; cbn [andb orb negb].
      Ltac dstep := cbn zeta; cbn beta; toks; lazymatch goal with
        | |- dead (Fail _) => apply dead_fail
        | |- dead Crash => apply dead_crash
        | |- dead (Do ONext) => apply dead_next
        | |- dead (Do ONextIgnored) => apply dead_nextignored
        | |- dead (Do OExpectComma) => apply dead_comma
        | |- dead (Do (OTolerate _)) => apply dead_tolerate
        | |- dead (Do _) => fail
        | |- dead (Ret _) => fail
        | |- dead (Call _) => apply rec_dead; reflexivity
        | |- dead (Bind (Do OLook) _) => apply dead_look
        | |- dead (Bind (Do ONext) _) => apply dead_first, dead_next
        | |- dead (Bind (Do _) _) => first [apply dead_first; solve [dstep]|apply dead_then; intros ?]
        | |- dead (Bind (Ret _) _) => apply dead_ret
        | |- dead (Bind (Bind _ _) _) => apply dead_assoc
        | |- dead (Bind (at_contextual _) _) => apply dead_contextual; [cbn; lia|]
        | |- dead (Bind (Fail _) _) => apply dead_first, dead_fail
        | |- dead (Bind Crash _) => apply dead_first, dead_crash
        | |- dead (Bind (Call _) _) => first [apply dead_first, rec_dead; reflexivity|apply dead_then; intros ?]
        | |- dead (Bind (Loop _ _) _) => first [apply dead_first; solve [repeat dstep]|apply dead_then; intros ?]
        | |- dead (Bind (match ?x with _ => _ end) _) => destruct x
        | |- dead (Bind ?p _) => let h := hd p in unfold h
        | |- dead (Loop _ _) => apply dead_loop; intros ?
        | |- dead (match ?x with _ => _ end) => destruct x
        | |- dead ?p => let h := hd p in unfold h
        end.
      Hypothesis rec_idle : forall B (c : call B), covered c = true -> idle c = true -> relB (Call c) (Call c).
      Ltac covers := unfold covered; match goal with H : it_tok it = _ |- _ => rewrite H end; reflexivity.
      Ltac known := try match goal with H : it_tok it = _ |- _ => rewrite ?H end.
      Ltac keeps := first [apply keepA_import|apply keepA_lexical|apply keepA_async|solve [repeat kstep]].
      Ltac dies := apply relB_dead; solve [repeat dstep].
      Ltac bstep := cbn zeta; cbn beta; known; toks; lazymatch goal with
        | |- relB (Ret ?a) (Ret ?a) => apply relB_ret
        | |- relB (Bind (Fail _) _) _ => apply relB_dead, dead_first, dead_fail
        | |- relB (Bind Crash _) _ => apply relB_dead, dead_first, dead_crash
        | |- relB (Bind (Do OLook) _) (Bind (Do OLook) _) => apply relB_look
        | |- relB (Bind (Bind _ _) _) (Bind (Bind _ _) _) => apply relB_assoc
        | |- relB (Bind (Ret _) _) (Bind (Ret _) _) => apply relB_bindret
        | |- relB (Bind (at_contextual _) _) (Bind (at_contextual _) _) => apply relB_contextual; [cbn; lia|]
        | |- relB (Bind (Do ?o) _) (Bind (Do ?o) _) => first [dies|apply relB_bind; [apply relB_do; exact I|intros ?]]
        | |- relB (Bind (Call ?c) _) (Bind (Call ?c) _) => first [dies|apply relB_bind; [apply rec_idle; [covers|reflexivity]|intros ?]]
        | |- relB (Bind (match ?x with _ => _ end) _) (Bind (match ?x with _ => _ end) _) => first [dies|destruct x]
        | |- relB (Bind (Loop ?x ?b) _) (Bind (Loop ?x ?b) _) => first [dies|apply relB_bind; [|intros ?]]
        | |- relB (Bind ?p _) (Bind ?p _) => first [let h := hd p in unfold h]
        | |- relB (Call ?c) (Call ?c) => first [dies|apply rec_idle; [covers|reflexivity]]
        | |- relB (Loop ?x ?b) (Loop ?x ?b) => first [dies|apply relB_loop; intros ?]
        | |- relB (Do ?o) (Do ?o) => first [dies|apply relB_do; exact I]
        | |- relB (match ?x with _ => _ end) (match ?x with _ => _ end) => first [dies|destruct x]
        | |- relB (Fail _) _ => apply relB_dead, dead_fail
        | |- relB Crash _ => apply relB_dead, dead_crash
        | |- relB ?p ?p => first [dies|let h := hd p in unfold h]
        | |- relB _ _ => dies
        end.
      Ltac astep := cbn zeta; lazymatch goal with
        | |- relB _ _ => bstep
        | |- relA (Ret _) => apply keep_rel, keepA_ret
        | |- relA (Fail _) => apply keep_rel, keepA_fail
        | |- relA Crash => apply keep_rel, keepA_crash
        | |- relA (Do ONext) => apply relA_next
        | |- relA (Do ONextIgnored) => apply relA_nextignored
        | |- relA (Do OExpectComma) => apply relA_expectcomma
        | |- relA (Do _) => apply keep_rel, keepA_do; exact I
        | |- relA (Call _) => apply rec_strong; covers
        | |- relA (Bind _ _) => first [apply relA_keep; [keeps|intros ?]|apply relA_bind; [|intros ?|intros ?]]
        | |- relA (Loop _ _) => apply relA_loop; intros ?
        | |- relA (match ?x with _ => _ end) => destruct x
        | |- relA ?p => let h := hd p in unfold h
        end.
      Lemma A_params : relA formal_params.
      Proof.
        unfold formal_params. apply relA_bind; [repeat astep|intros _|intros _; dies].
        apply relA_lossy; [apply lossy_params; exact rec_lossy|intros [[? ?] ?]; repeat dstep|intros [[? ?] ?]; repeat astep].
      Qed.
      Lemma B_semicolon : it_tok it = TPunct PCloseBrace -> relB consume_semicolon consume_semicolon.
      Proof.
        intros Ht s1 s2 a s1' Hs E K. pose proof Hs as (_ & Hl & _ & E2).
        unfold consume_semicolon, at_punct, look_tok, look in *. cbn [run_in exec] in *. rewrite Hl, tok0 in E. cbn in E.
        replace (st_look s2) with it by (rewrite E2; reflexivity). replace (st_nl s2) with (st_nl s1) by (rewrite E2; reflexivity). rewrite Ht. cbn.
        assert (X : (Ok tt, s1) = (Ok a, s1')) by (destruct (st_nl s1); cbn in E; [exact E|rewrite Hl, tok0 in E; exact E]). inversion X; subst.
        exists (mkState (st_ctx s1') it false (st_cur_pos s1') (st_look_pos s1') more (st_nl s1') (st_comments s1')). split; [|exact Hs].
        destruct (st_nl s1'); cbn; [reflexivity|]. rewrite Ht. reflexivity.
      Qed.
      Lemma A_body cl : it_tok it = TPunct cl -> cl = PCloseParen \/ cl = PCloseBracket \/ cl = PCloseBrace -> relA function_source_el.
      Proof.
        intros Ht Hc. unfold function_source_el. apply relA_bind; [repeat astep|intros _|intros _; dies].
        apply relA_lossy; [apply rec_lossy|intros ?; repeat dstep|intros ?]. apply relA_keep; [keeps|intros ?]. apply relA_keep; [keeps|intros ?].
        apply relA_lossy; [apply lossy_items; exact rec_lossy|intros ?; repeat dstep|intros ?]. repeat astep.
      Qed.
      Lemma A_class : relA class_body.
      Proof.
        unfold class_body. apply relA_bind; [repeat astep|intros _|intros _; dies].
        apply relA_lossy; [apply lossy_class; exact rec_lossy|intros ?; repeat dstep|intros ?]. repeat astep.
      Qed.
      Lemma A_args c : relA (arg_list (Call c)).
      Proof.
        unfold arg_list. apply relA_bind; [repeat astep|intros _|intros _].
        - apply relA_lossy; [apply lossy_args; exact rec_lossy|intros ?; repeat dstep|intros ?]. repeat astep.
        - apply relB_dead, dead_then. intros ?. repeat dstep.
      Qed.
      Ltac whole Ht := first [eapply A_body; [exact Ht|tauto]|apply A_params|apply A_class|apply A_args|repeat astep].
      Lemma bodies_brace B (c : call B) : it_tok it = TPunct PCloseBrace -> covered c = true -> relA (body c).
      Proof. intros Ht K. destruct c; try discriminate K; cbn [body]; clear K; whole Ht. Qed.
      Lemma bodies_paren B (c : call B) : it_tok it = TPunct PCloseParen -> covered c = true -> relA (body c).
      Proof. intros Ht K. unfold covered in K. rewrite Ht in K. destruct c; try discriminate K; cbn [body]; clear K; whole Ht. Qed.
      Lemma bodies_bracket B (c : call B) : it_tok it = TPunct PCloseBracket -> covered c = true -> relA (body c).
      Proof. intros Ht K. unfold covered in K. rewrite Ht in K. destruct c; try discriminate K; cbn [body]; clear K; whole Ht. Qed.
      Lemma B_prologues cl : it_tok it = TPunct cl -> relB directive_prologues directive_prologues.
      Proof. intros Ht. repeat bstep. Qed.
    End Strong.
  End Rel.

  (** *** All calls, by the depth of the recursion *)
  Notation rc := (fun n (B : Type) (c : call B) s => run_call (@body) g n c s).
  Lemma call_later n B (c : call B) s r s' : run_call (@body) g n c s = (r, s') -> later s s'.
  Proof. apply (run_call_rel _ (@body) g later later_refl later_trans op_later). Qed.
  Lemma call_dead n : forall k B (c : call B), idle c = false -> dead k (rc n) (Call c).
  Proof.
    induction n as [|n IH]; intros k B c K s1 a s1' S F E; cbn [run_in run_call] in E; [discriminate E|].
    exact (bodies_dead n (rc n) (call_later n) (IH n) B c K s1 a s1' S F E).
  Qed.
  Lemma call_lossy n : forall k B (c : call B), relL k (rc n) (Call c).
  Proof.
    induction n as [|n IH]; intros k B c s1 s2 a s1' S E; cbn [run_in run_call] in E |- *; [discriminate E|].
    exact (bodies_lossy n (rc n) (call_later n) (IH n) B c s1 s2 a s1' S E).
  Qed.
  Definition closer (t : token) : Prop := t = TPunct PCloseParen \/ t = TPunct PCloseBracket \/ t = TPunct PCloseBrace.
  Hypothesis closer_it : closer (it_tok it).
  Ltac close_rec := first [exact (call_later _)|exact (call_dead _ _)|exact (call_lossy _ _)|eassumption|match goal with H : forall k, _ |- _ => exact (H _) end].
  Lemma call_strong n :
    (forall k B (c : call B), covered c = true -> relA k (rc n) (Call c)) /\
    (forall k B (c : call B), covered c = true -> idle c = true -> relB k (rc n) (Call c) (Call c)).
  Proof.
    induction n as [|n [IHa IHb]]; split; intros k B c K.
    - intros s1 s2 a s1' _ E. discriminate E.
    - intros _ s1 s2 a s1' _ E. discriminate E.
    - intros s1 s2 a s1' S E F. cbn [run_in run_call] in E |- *. revert s1 s2 a s1' S E F.
      change (relA n (rc n) (body c)). destruct closer_it as [T|[T|T]].
      + apply bodies_paren; close_rec.
      + apply bodies_bracket; close_rec.
      + apply bodies_brace; close_rec.
    - intros D s1 s2 a s1' S E F. cbn [run_in run_call] in E |- *. revert s1 s2 a s1' S E F.
      change (relB n (rc n) (body c) (body c)). destruct c; try discriminate D; unfold covered in K; destruct closer_it as [T|[T|T]]; rewrite T in K; try discriminate K; cbn [body].
      + eapply B_prologues; close_rec.
      + apply B_semicolon; close_rec.
  Qed.
  Lemma call_ended n B (c : call B) s1 s2 a s1' : covered c = true -> before_end s1 s2 -> run_call (@body) g n c s1 = (Ok a, s1') -> st_found_eof s1' = false ->
    exists s2', run_call (@body) g n c s2 = (Ok a, s2') /\ (before_end s1' s2' \/ at_end s1' s2').
  Proof. intros K S E F. exact (proj1 (call_strong n) n B c K s1 s2 a s1' S E F). Qed.
End Ended.
