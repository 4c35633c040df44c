(** The parts of a block, of a function body and of a clause of a switch are read as the parts of
    a program are. *)
From Verif Require Import Spec Runs Meta Handed Operators Forward.
From Verif Require Export Parens.
Local Open Scope list_scope.

Section Ends.
  Variable g : cfg.
  Notation rn n := (run_in g n (@run_call call (@body) g n)).
  (** A program of the parser ends so, given enough fuel. *)
  Definition ends {A} (p : P A) (s : state) (o : outcome A) (s' : state) : Prop := o <> NoFuel /\ exists n, rn n p s = (o, s').
  Lemma rn_mono n n' A (p : P A) s o s' : n <= n' -> rn n p s = (o, s') -> o <> NoFuel -> rn n' p s = (o, s').
  Proof. intros L R N. exact (run_mono _ (@body) g n n' A p s o s' L R N). Qed.
  Lemma ends_fun A (p : P A) s o s' o2 s2 : ends p s o s' -> ends p s o2 s2 -> o = o2 /\ s' = s2.
  Proof.
    intros [N [n R]] [N2 [n2 R2]]. apply (rn_mono n (n + n2)) in R; [|lia|exact N]. apply (rn_mono n2 (n + n2)) in R2; [|lia|exact N2].
    rewrite R in R2. inversion R2. auto.
  Qed.
  Lemma ends_body B (c : call B) s o s' : ends (body c) s o s' -> ends (Call c) s o s'.
  Proof. intros [N [n R]]. split; [exact N|]. exists (S n). exact R. Qed.
  Lemma body_ends B (c : call B) s o s' : ends (Call c) s o s' -> ends (body c) s o s'.
  Proof. intros [N [[|n] R]]; [cbn in R; inversion R; congruence|]. split; [exact N|]. exists n. exact R. Qed.
  Lemma ends_ret A (a : A) s : ends (Ret a) s (Ok a) s.
  Proof. split; [discriminate|]. exists 0. reflexivity. Qed.
  Lemma ends_ok A B (p : P A) (k : A -> P B) s a s1 o s2 : ends p s (Ok a) s1 -> ends (k a) s1 o s2 -> ends (Bind p k) s o s2.
  Proof.
    intros [_ [n R]] [N [n2 R2]]. split; [exact N|]. exists (n + n2). cbn [run_in].
    rewrite (rn_mono n (n + n2) _ p s (Ok a) s1); [|lia|exact R|discriminate]. eapply rn_mono; [|exact R2|exact N]. lia.
  Qed.
  Lemma ends_err A B (p : P A) (k : A -> P B) s e s1 : ends p s (Err e) s1 -> ends (Bind p k) s (Err e) s1.
  Proof. intros [_ [n R]]. split; [discriminate|]. exists n. cbn [run_in]. rewrite R. reflexivity. Qed.
  Lemma bind_ends A B (p : P A) (k : A -> P B) s b s2 : ends (Bind p k) s (Ok b) s2 ->
    exists a s1, ends p s (Ok a) s1 /\ ends (k a) s1 (Ok b) s2.
  Proof.
    intros [_ [n R]]. cbn [run_in] in R. destruct (rn n p s) as [[a|x| |] s1] eqn:E; try discriminate R.
    exists a, s1. split; (split; [discriminate|]); exists n; assumption.
  Qed.
  Lemma loop_next A X (b : X -> P (X + A)) x s y s1 o s2 : ends (b x) s (Ok (inl y)) s1 -> ends (Loop y b) s1 o s2 -> ends (Loop x b) s o s2.
  Proof.
    intros [_ [n R]] [N [n2 R2]]. split; [exact N|]. exists (S (n + n2)). cbn [run_in iter].
    rewrite (rn_mono n (S (n + n2)) _ (b x) s (Ok (inl y)) s1); [|lia|exact R|discriminate].
    cbn [run_in] in R2. eapply iter_mono; [|idtac|exact R2|exact N]; [|lia].
    intros z t o' t' Ho Hn. apply (rn_mono n2 (S (n + n2)) _ (b z)); [lia|exact Ho|exact Hn].
  Qed.
  Lemma loop_stop A X (b : X -> P (X + A)) x s a s1 : ends (b x) s (Ok (inr a)) s1 -> ends (Loop x b) s (Ok a) s1.
  Proof.
    intros [_ [n R]]. split; [discriminate|]. exists (S n). cbn [run_in iter].
    rewrite (rn_mono n (S n) _ (b x) s (Ok (inr a)) s1); [reflexivity|lia|exact R|discriminate].
  Qed.
  Lemma loop_err A X (b : X -> P (X + A)) x s e s1 : ends (b x) s (Err e) s1 -> ends (Loop x b) s (Err e) s1.
  Proof.
    intros [_ [n R]]. split; [discriminate|]. exists (S n). cbn [run_in iter].
    rewrite (rn_mono n (S n) _ (b x) s (Err e) s1); [reflexivity|lia|exact R|discriminate].
  Qed.
  Lemma loop_ends A X (b : X -> P (X + A)) (I : X -> state -> A -> state -> Prop) :
    (forall x s a s', ends (b x) s (Ok (inr a)) s' -> I x s a s') ->
    (forall x s y s1 a s', ends (b x) s (Ok (inl y)) s1 -> I y s1 a s' -> I x s a s') ->
    forall x s a s', ends (Loop x b) s (Ok a) s' -> I x s a s'.
  Proof.
    intros H1 H2 x s a s' [_ [n R]]. cbn [run_in] in R.
    assert (K : forall k x s, iter (fun y => rn n (b y)) k x s = (Ok a, s') -> I x s a s'); [|exact (K _ _ _ R)]. clear x s R.
    induction k as [|k IH]; intros x s R; [discriminate R|]. cbn [iter] in R.
    destruct (rn n (b x) s) as [[[y|a1]|e| |] s1] eqn:E; try discriminate R.
    - eapply H2; [split; [discriminate|exists n; exact E]|]. apply IH. exact R.
    - inversion R; subst. apply H1. split; [discriminate|exists n; exact E].
  Qed.
  Lemma do_ends B (o : op B) s r s' : exec g o s = (r, s') -> r <> NoFuel -> ends (Do o) s r s'.
  Proof. intros E N. split; [exact N|]. exists 0. exact E. Qed.
  Lemma ends_do B (o : op B) s r s' : ends (Do o) s r s' -> exec g o s = (r, s').
  Proof. intros [_ [n R]]. exact R. Qed.

  Lemma expect_ends p s i s' : it_tok (st_look s) = TPunct p -> next_item g s = (Ok i, s') -> ends (expect_punct p) s (Ok tt) s'.
  Proof.
    intros T N. split; [discriminate|]. exists 0. unfold expect_punct, next. cbn [run_in exec]. rewrite N.
    assert (E : i = st_look s) by (apply Wp.next_item_ok in N; tauto). rewrite E, T. cbn [is_punct].
    replace (punct_eqb p p) with true by (symmetry; apply punct_eqb_eq; reflexivity). reflexivity.
  Qed.
  Lemma ends_expect p s u s' : ends (expect_punct p) s (Ok u) s' -> it_tok (st_look s) = TPunct p /\ exists i, next_item g s = (Ok i, s').
  Proof.
    intros [_ [n R]]. unfold expect_punct, next in R. cbn [run_in exec] in R. destruct (next_item g s) as [[i|x| |] s1] eqn:N; try discriminate R.
    assert (E : i = st_look s) by (apply Wp.next_item_ok in N; tauto). subst i.
    destruct (is_punct p (it_tok (st_look s))) eqn:T; cbn [run_in] in R; inversion R; subst. apply is_punct_eq in T. eauto.
  Qed.
  Lemma expect_word k s i s' : it_tok (st_look s) = TKeyword k -> next_item g s = (Ok i, s') -> ends (expect_keyword k) s (Ok tt) s'.
  Proof.
    intros T N. split; [discriminate|]. exists 0. unfold expect_keyword, next. cbn [run_in exec]. rewrite N.
    assert (E : i = st_look s) by (apply Wp.next_item_ok in N; tauto). rewrite E, T. cbn [is_keyword].
    replace (keyword_eqb k k) with true by (destruct k; reflexivity). reflexivity.
  Qed.

  (** ** Lists of parts *)
  Inductive items (stop : token -> bool) : state -> list ProgramPart -> state -> Prop :=
  | items_nil s : items stop s [] s
  | items_cons s p s1 l s2 : stop (it_tok (st_look s)) = false -> ends (Call CStatementListItem) s (Ok p) s1 ->
      items stop s1 l s2 -> items stop s (p :: l) s2.
  Section Loop.
    Variable stop : token -> bool.
    Variable b : list ProgramPart -> P (list ProgramPart + list ProgramPart).
    Hypothesis Hb : forall n acc s, rn n (b acc) s = if stop (it_tok (st_look s)) then (Ok (inr acc), s)
      else rn n (p <- Call CStatementListItem ;; Ret (inl (acc ++ [p]))) s.
    Lemma step_stop acc s : stop (it_tok (st_look s)) = true -> ends (b acc) s (Ok (inr acc)) s.
    Proof. intros H. split; [discriminate|]. exists 0. rewrite Hb, H. reflexivity. Qed.
    Lemma step_item acc s o s' : stop (it_tok (st_look s)) = false -> ends (p <- Call CStatementListItem ;; Ret (inl (acc ++ [p]))) s o s' ->
      ends (b acc) s o s'.
    Proof. intros H [N [n R]]. split; [exact N|]. exists n. rewrite Hb, H. exact R. Qed.
    Lemma list_ok s l s' : items stop s l s' -> stop (it_tok (st_look s')) = true -> forall acc, ends (Loop acc b) s (Ok (acc ++ l)) s'.
    Proof.
      intros H E. induction H as [s|s p s1 l s2 Hs R _ IH]; intros acc.
      - rewrite app_nil_r. apply loop_stop. apply step_stop. exact E.
      - replace (acc ++ p :: l) with ((acc ++ [p]) ++ l) by (rewrite <- app_assoc; reflexivity).
        eapply loop_next; [apply step_item; [exact Hs|]|apply IH; exact E]. eapply ends_ok; [exact R|]. apply ends_ret.
    Qed.
    Lemma list_err s l s1 e s2 : items stop s l s1 -> stop (it_tok (st_look s1)) = false -> ends (Call CStatementListItem) s1 (Err e) s2 ->
      forall acc, ends (Loop acc b) s (Err e) s2.
    Proof.
      intros H E X. induction H as [s|s p s1 l s3 Hs R _ IH]; intros acc.
      - apply loop_err. apply step_item; [exact E|]. apply ends_err. exact X.
      - eapply loop_next; [apply step_item; [exact Hs|]|apply IH; [exact E|exact X]]. eapply ends_ok; [exact R|]. apply ends_ret.
    Qed.
    Lemma list_inv acc s r s' : ends (Loop acc b) s (Ok r) s' -> exists l, r = acc ++ l /\ items stop s l s' /\ stop (it_tok (st_look s')) = true.
    Proof.
      revert acc s r s'. apply loop_ends.
      - intros acc s a s' [_ [n R]]. rewrite Hb in R. destruct (stop _) eqn:E.
        + inversion R; subst. exists []. rewrite app_nil_r. split; [reflexivity|]. split; [constructor|exact E].
        + cbn [run_in] in R. destruct (run_call _ g n CStatementListItem s) as [[|?| |] ?]; discriminate R.
      - intros acc s y s1 a s' [_ [n R]] (l & -> & I & E). rewrite Hb in R. destruct (stop (it_tok (st_look s))) eqn:E1; [inversion R|].
        cbn [run_in] in R. destruct (run_call _ g n CStatementListItem s) as [[p|?| |] s2] eqn:R1; inversion R; subst.
        exists (p :: l). split; [rewrite <- app_assoc; reflexivity|]. split; [|exact E]. econstructor; [exact E1| |exact I].
        split; [discriminate|]. exists n. exact R1.
    Qed.
  End Loop.

  (** ** Parts of a program *)
  Lemma item_all n : forall s1 s2, sames s1 s2 -> agrees but_all eq (run_call (@body) g n CStatementListItem s1) (run_call (@body) g n CStatementListItem s2).
  Proof.
    intros s1 s2 H. destruct n as [|n]; [split; [exact I|exact H]|]. cbn [run_call body]. unfold statement_list_item.
    set (k := t <- look_tok ;; _).
    assert (P : rel g but_past n (@run_call call (@body) g n) eq (set_target_binding true true ;; k) (set_target_binding true true ;; k)).
    { intros t1 t2 Ht. change (run_in g n (@run_call call (@body) g n) (set_target_binding true true ;; k)) with (run_call (@body) g (S n) CStatementListItem).
      apply call_past; [reflexivity|exact Ht]. }
    set (f := fun c => set_binding_element true (set_assign_target true c)).
    assert (E : forall s, run_in g n (@run_call call (@body) g n) (set_target_binding true true ;; k) (upd_ctx f s)
                = run_in g n (@run_call call (@body) g n) (set_target_binding true true ;; k) s) by (intros [[] ? ? ? ? ? ? ?]; reflexivity).
    rewrite <- (E s1), <- (E s2). destruct (P (upd_ctx f s1) (upd_ctx f s2)) as [P1 P2].
    - destruct H as [H F]. split; [|rewrite F; reflexivity]. cbn. destruct (st_ctx s1), (st_ctx s2). unfold but_all in H. cbn in H.
      injection H; clear H; intros; subst. reflexivity.
    - split; [exact P1|]. apply past_all. exact P2.
  Qed.
  Lemma item_sames s1 s2 o t1 : sames s1 s2 -> ends (Call CStatementListItem) s1 o t1 ->
    exists t2, ends (Call CStatementListItem) s2 o t2 /\ sames t1 t2.
  Proof.
    intros H [N [n R]]. cbn [run_in] in R. destruct (item_all n s1 s2 H) as [V Q]. rewrite R in V, Q.
    destruct (run_call (@body) g n CStatementListItem s2) as [o2 t2] eqn:R2. cbn [fst snd] in V, Q. apply outcomes_eq in V. subst o2.
    exists t2. split; [|exact Q]. split; [exact N|]. exists n. exact R2.
  Qed.
  Definition no_directive (s : state) : Prop := c_past_prolog (st_ctx s) = true \/ is_string (it_tok (st_look s)) = false.
  Lemma part_item n s : no_directive s -> run_call (@body) g (S n) CNextPart s = run_call (@body) g n CStatementListItem (upd_ctx (set_past_prolog true) s).
  Proof.
    intros D. transitivity (run_in g n (@run_call call (@body) g n) next_part s); [reflexivity|].
    unfold next_part, get, look_tok, look, upd. cbn [run_in exec].
    replace (negb _ && is_string _) with false by (destruct D as [-> | ->]; [reflexivity|symmetry; apply andb_false_r]). reflexivity.
  Qed.
  Lemma past_sames b s : sames s (upd_ctx (set_past_prolog b) s).
  Proof. split; [|reflexivity]. cbn. destruct (st_ctx s). reflexivity. Qed.
  Lemma next_item_ends s o s' : no_directive s -> next_returns g s (Some o) s' ->
    is_eof (it_tok (st_look s)) = false /\ ends (Call CStatementListItem) (upd_ctx (set_past_prolog true) s) o s'.
  Proof.
    intros D [N [n R]]. unfold iter_next in R. destruct (is_eof _) eqn:E; [discriminate R|]. split; [reflexivity|].
    assert (N' : o <> NoFuel) by congruence. split; [exact N'|].
    destruct n as [|n]; [cbn in R; inversion R; subst; congruence|]. rewrite (part_item n s D) in R.
    exists n. cbn [run_in]. destruct (run_call (@body) g n CStatementListItem _). congruence.
  Qed.
  Lemma item_past s p s' : ends (Call CStatementListItem) s (Ok p) s' -> c_past_prolog (st_ctx s') = c_past_prolog (st_ctx s).
  Proof. intros [_ [n R]]. cbn [run_in] in R. apply call_restores in R. apply (f_equal k_past) in R. exact R. Qed.
  Lemma ends_next_item s o s' : no_directive s -> is_eof (it_tok (st_look s)) = false ->
    ends (Call CStatementListItem) (upd_ctx (set_past_prolog true) s) o s' -> next_returns g s (Some o) s'.
  Proof.
    intros D E [N [n R]]. split; [congruence|]. exists (S n). unfold iter_next. rewrite E, (part_item n s D). cbn [run_in] in R. rewrite R. reflexivity.
  Qed.
  (** No part starts with a closing brace, or at the end. *)
  Lemma never_statement n s e s' : opener (it_tok (st_look s)) -> run_call (@body) g n CStatementListItem s <> (Ok e, s').
  Proof.
    intros H R.
    assert (X : forall n s e s', opener (it_tok (st_look s)) -> run_call (@body) g n CExpression s <> (Ok e, s')).
    { clear. intros n s e s' H R. destruct n as [|n]; [discriminate R|]. cbn [run_call body] in R. unfold expression in R.
      apply ok_first in R as (x & s1 & R & _). unfold isolated, isolate_cover, get_cover, upd in R. cbn [run_in exec] in R.
      destruct (run_call (@body) g n CAssignmentExpr (upd_ctx _ s)) as [[a|?| |] s2] eqn:R1; try discriminate R.
      eapply never_assignment; [|exact R1]. exact H. }
    assert (Y : forall n s e s', opener (it_tok (st_look s)) -> run_call (@body) g n CStatement s <> (Ok e, s')).
    { clear - X. intros n s e s' H R. destruct n as [|n]; [discriminate R|]. cbn [run_call body] in R. unfold statement, look_tok, look in R. cbn [run_in exec] in R.
      assert (Z : exists x t, run_call (@body) g n CExpressionStatement s = (Ok x, t)).
      { destruct H as [H|[H|H]]; rewrite H in R; cbn [run_in] in R;
          destruct (run_call (@body) g n CExpressionStatement s) as [[x|?| |] t]; try discriminate R; eauto. }
      destruct Z as (x & t & Z). destruct n as [|n]; [discriminate Z|]. cbn [run_call body] in Z. unfold expression_statement in Z.
      apply ok_first in Z as (y & t1 & Z & _). eapply X; [exact H|exact Z]. }
    destruct n as [|n]; [discriminate R|]. cbn [run_call body] in R. unfold statement_list_item, set_target_binding, upd, look_tok, look in R.
    cbn [run_in exec] in R. match type of R with context [st_look (upd_ctx ?f s)] => change (st_look (upd_ctx f s)) with (st_look s) in R; set (t := upd_ctx f s) in R end.
    assert (Z : exists x u, run_call (@body) g n CStatement t = (Ok x, u)).
    { destruct H as [H|[H|H]]; rewrite H in R; cbn [run_in] in R;
        destruct (run_call (@body) g n CStatement t) as [[x|?| |] u]; try discriminate R; eauto. }
    destruct Z as (x & u & Z). eapply Y; [|exact Z]. exact H.
  Qed.
  Lemma item_not_eof s p s' : ends (Call CStatementListItem) s (Ok p) s' -> is_eof (it_tok (st_look s)) = false.
  Proof.
    intros [_ [n R]]. destruct (is_eof (it_tok (st_look s))) eqn:E; [|reflexivity]. exfalso.
    assert (T : it_tok (st_look s) = TEoF) by (destruct (it_tok (st_look s)); discriminate E || reflexivity).
    cbn [run_in] in R. destruct n as [|n]; [discriminate R|]. cbn [run_call body] in R. unfold statement_list_item, set_target_binding, upd, look_tok, look in R.
    cbn [run_in exec] in R. match type of R with context [st_look (upd_ctx ?f s)] => change (st_look (upd_ctx f s)) with (st_look s) in R; set (t := upd_ctx f s) in R end.
    rewrite T in R. cbn [run_in] in R. destruct n as [|n]; [discriminate R|]. cbn [run_call body] in R. unfold statement, look_tok, look in R. cbn [run_in exec] in R.
    change (st_look t) with (st_look s) in R. rewrite T in R. discriminate R.
  Qed.
  Lemma item_not_brace s p s' : ends (Call CStatementListItem) s (Ok p) s' -> is_punct PCloseBrace (it_tok (st_look s)) = false.
  Proof.
    intros [_ [n R]]. destruct (is_punct PCloseBrace _) eqn:E; [|reflexivity]. apply is_punct_eq in E. exfalso. eapply never_statement; [|exact R]. right. right. exact E.
  Qed.
End Ends.
