(** An expression in parentheses is read as the expression between them. *)
From Verif Require Import Operators Forward.
From Verif Require Export Alone.
Local Open Scope list_scope.

Definition sames : state -> state -> Prop := shifted but_all.
Lemma sames_refl s : sames s s.
Proof. split; [destruct (st_ctx s); reflexivity|destruct s; reflexivity]. Qed.
Lemma but_all_sym c1 c2 : but_all c1 c2 -> but_all c2 c1.
Proof. unfold but_all. destruct c1, c2. cbn. intros H. injection H; clear H; intros; subst. reflexivity. Qed.
Lemma but_all_trans c1 c2 c3 : but_all c1 c2 -> but_all c2 c3 -> but_all c1 c3.
Proof. unfold but_all. destruct c1, c2, c3. cbn. intros H K. injection H; clear H; intros; subst. injection K; clear K; intros; subst. reflexivity. Qed.
Lemma sames_sym s1 s2 : sames s1 s2 -> sames s2 s1.
Proof. intros [H E]. split; [apply but_all_sym; exact H|]. rewrite E. destruct s1. reflexivity. Qed.
Lemma sames_trans s1 s2 s3 : sames s1 s2 -> sames s2 s3 -> sames s1 s3.
Proof. intros [H E] [K F]. split; [eapply but_all_trans; eauto|]. rewrite F, E. reflexivity. Qed.
Lemma sames_look s1 s2 : sames s1 s2 -> st_look s2 = st_look s1.
Proof. intros [_ ->]. reflexivity. Qed.
Lemma sames_in s1 s2 : sames s1 s2 -> c_allow_in (st_ctx s2) = c_allow_in (st_ctx s1).
Proof. intros [H _]. destruct (st_ctx s1), (st_ctx s2). unfold but_all in H. cbn in H. injection H; clear H; intros; subst. reflexivity. Qed.
Lemma sames_cover a b f s : sames s (upd_ctx (fun c => set_first_covert (f c) (set_assign_target (a c) (set_binding_element (b c) c))) s).
Proof. split; [|reflexivity]. cbn. destruct (st_ctx s). reflexivity. Qed.

Section Parens.
  Variable g : cfg.
  Notation evs := (evs g).
  Notation rn n := (run_in g n (@run_call call (@body) g n)).

  (** *** What an assignment expression cannot be *)
  Definition opener (t : token) : Prop := t = TPunct PCloseParen \/ t = TPunct PSpread \/ t = TPunct PCloseBrace.
  Definition never (c : call Expr) : Prop := forall n s e s', opener (it_tok (st_look s)) -> run_call (@body) g n c s <> (Ok e, s').
  Lemma ok_inh n (c : call Expr) e s s' : rn n (inheriting (Call c)) s = (Ok e, s') ->
    exists t t', sames s t /\ run_call (@body) g n c t = (Ok e, t') /\ sames t' s'.
  Proof.
    intros H. unfold inheriting, inherit_cover, isolate_cover, get_cover, set_inherit_cover, upd in H. cbn [run_in exec] in H.
    match type of H with context [run_call _ _ _ _ ?t] => set (t0 := t) in * end.
    destruct (run_call (@body) g n c t0) as [[a|x| |] t1] eqn:E; inversion H; subst. exists t0, t1. split; [|split; [exact E|]].
    - apply (sames_cover (fun _ => true) (fun _ => true) (fun _ => None)).
    - match goal with |- sames _ (upd_ctx ?f _) => split; [|reflexivity] end. cbn. destruct (st_ctx t1). reflexivity.
  Qed.
  Lemma opener_moved s t : sames s t -> opener (it_tok (st_look s)) -> opener (it_tok (st_look t)).
  Proof. intros H. rewrite (sames_look _ _ H). auto. Qed.
  Lemma never_primary : never CPrimaryExpression.
  Proof.
    intros n s e s' H R. destruct n as [|n]; [discriminate R|]. cbn [run_call body] in R.
    unfold primary_expression, look_tok, look in R. cbn [run_in exec] in R. destruct H as [H|[H|H]]; rewrite H in R; discriminate R.
  Qed.
  Lemma ok_first n A B (p : P A) (k : A -> P B) s b s' : rn n (Bind p k) s = (Ok b, s') ->
    exists a s1, rn n p s = (Ok a, s1) /\ rn n (k a) s1 = (Ok b, s').
  Proof. cbn [run_in]. destruct (rn n p s) as [[a|x| |] s1] eqn:E; intros H; try discriminate H. eauto. Qed.
  Lemma never_lhs : never CLeftHandSideExprAllowCall.
  Proof.
    intros n s e s' H R. destruct n as [|n]; [discriminate R|]. cbn [run_call body] in R.
    unfold lhs_allow_call, at_contextual, stream_at, look, get, upd, at_keyword, look_tok, look in R. cbn [run_in exec] in R.
    destruct (slice _ _ _); [|discriminate R]. cbn [run_in exec] in R.
    change (st_look (upd_ctx _ s)) with (st_look s) in R.
    replace (is_keyword KSuper _) with false in R by (destruct H as [-> |[-> | ->]]; reflexivity). cbn [andb] in R.
    match type of R with context [run_in g n ?r (inheriting ?q) ?t] => destruct (run_in g n r (inheriting q) t) as [[a|x| |] s1] eqn:R0; try discriminate R end.
    clear R. rename R0 into R. unfold inheriting in R.
    apply ok_first in R as (cg & s2 & R1 & R). unfold inherit_cover, isolate_cover, get_cover, upd in R1. cbn [run_in exec] in R1. inversion R1; subst; clear R1.
    apply ok_first in R as (e1 & s3 & R & _). cbn [run_in exec] in R. cbn [upd_ctx st_look] in R.
    replace (is_keyword KNew _) with false in R by (destruct H as [-> |[-> | ->]]; reflexivity). cbn [run_in] in R.
    eapply never_primary; [|exact R]. exact H.
  Qed.
  Lemma never_inh c : never c -> forall n s s' A (k : Expr -> P A) (a : A), opener (it_tok (st_look s)) ->
    rn n (Bind (inheriting (Call c)) k) s = (Ok a, s') -> False.
  Proof.
    intros N n s s' A k a H R. apply ok_first in R as (x & s1 & R & _). apply ok_inh in R as (t & t' & S & R & _).
    eapply N; [|exact R]. eapply opener_moved; eauto.
  Qed.
  Lemma never_update : never CUpdateExpr.
  Proof.
    intros n s e s' H R. destruct n as [|n]; [discriminate R|]. cbn [run_call body] in R.
    unfold update_expr, look in R. apply ok_first in R as (i & s1 & R1 & R). cbn [run_in exec] in R1. inversion R1; subst i s1; clear R1. cbn zeta in R.
    replace (is_punct PIncrement _ || _) with false in R by (destruct H as [-> |[-> | ->]]; reflexivity).
    eapply (never_inh _ never_lhs n s); eauto.
  Qed.
  Lemma never_unary : never CUnaryExpression.
  Proof.
    intros n s e s' H R. destruct n as [|n]; [discriminate R|]. cbn [run_call body] in R.
    unfold unary_expression, look_tok, look, get in R. cbn [run_in exec] in R.
    replace (is_punct PPlus _ || _ || _ || _ || _ || _ || _) with false in R by (destruct H as [-> |[-> | ->]]; reflexivity). cbn [run_in exec] in R.
    replace (_ && is_keyword KAwait _) with false in R by (symmetry; destruct H as [-> |[-> | ->]]; apply andb_false_r). cbn [run_in] in R.
    eapply never_update; eauto.
  Qed.
  Lemma never_exp : never CExponentiation.
  Proof. intros n s e s' H R. destruct n as [|n]; [discriminate R|]. cbn [run_call body] in R. eapply (never_inh _ never_unary n s); eauto. Qed.
  Lemma never_binary : never CBinaryExpression.
  Proof. intros n s e s' H R. destruct n as [|n]; [discriminate R|]. cbn [run_call body] in R. eapply (never_inh _ never_exp n s); eauto. Qed.
  Lemma never_conditional : never CConditionalExpr.
  Proof. intros n s e s' H R. destruct n as [|n]; [discriminate R|]. cbn [run_call body] in R. eapply (never_inh _ never_binary n s); eauto. Qed.
  Lemma never_assignment : never CAssignmentExpr.
  Proof.
    intros n s e s' H R. destruct n as [|n]; [discriminate R|]. cbn [run_call body] in R.
    unfold assignment_expr, get, look in R. cbn [run_in exec] in R.
    replace (_ && is_keyword KYield _) with false in R by (symmetry; destruct H as [-> |[-> | ->]]; apply andb_false_r). cbn [run_in exec] in R.
    destruct (run_call (@body) g n CConditionalExpr s) as [[a|x| |] s1] eqn:E; try discriminate R. eapply never_conditional; eauto.
  Qed.
  (** The stand-in for the parameters of an arrow function does not leave it. *)
  Lemma assignment_plain n s e s' : run_call (@body) g n CAssignmentExpr s = (Ok e, s') -> is_placeholder e = false.
  Proof.
    intros H. destruct n as [|n]; [discriminate H|]. cbn [run_call body] in H. unfold assignment_expr in H.
    apply ok_first in H as (ay & ? & _ & H). apply ok_first in H as (st & ? & _ & H). destruct (negb _ && _).
    { cbn [run_in] in H. destruct n as [|n]; [discriminate H|]. cbn [run_call body] in H. unfold yield_expr in H.
      apply ok_first in H as (? & ? & _ & H). apply ok_first in H as (nl & ? & _ & H).
      destruct nl; [cbn [run_in] in H; inversion H; reflexivity|].
      apply ok_first in H as (? & ? & _ & H). apply ok_first in H as (? & ? & _ & H). apply ok_first in H as (? & ? & _ & H).
      apply ok_first in H as ([? ?] & ? & _ & H). apply ok_first in H as (? & ? & _ & H). cbn [run_in] in H. inversion H. reflexivity. }
    do 5 apply ok_first in H as (? & ? & _ & H). apply ok_first in H as (c & ? & _ & H). apply ok_first in H as (t2 & ? & _ & H).
    destruct (is_placeholder c || is_punct PFatArrow t2) eqn:F.
    - apply ok_arrow_rest in H as [H|(H & -> & _)]; [|exact H]. unfold is_arrow in H. decompose [ex] H. subst e. reflexivity.
    - apply orb_false_elim in F as [F _]. destruct (assign_tok t2); [|cbn [run_in] in H; inversion H; subst; exact F].
      unfold assign_rest in H. do 6 apply ok_first in H as (? & ? & _ & H). apply ok_first in H as (i & ? & _ & H).
      destruct (it_tok i); try discriminate H. destruct (assignment_operator p); try discriminate H.
      do 2 apply ok_first in H as (? & ? & _ & H). cbn [run_in] in H. inversion H. reflexivity.
  Qed.

  (** *** The two loops *)
  Lemma call_sames n (c : call Expr) : c = CAssignmentExpr -> forall s t a b f a' b' f', sames s t ->
    let s1 := upd_ctx (fun x => set_first_covert f (set_assign_target a (set_binding_element b x))) s in
    let t1 := upd_ctx (fun x => set_first_covert f' (set_assign_target a' (set_binding_element b' x))) t in
    a = a' -> b = b' -> agrees but_past eq (run_call (@body) g n c s1) (run_call (@body) g n c t1).
  Proof.
    intros -> s t a b f a' b' f' [H E] s1 t1 <- <-. apply call_past; [reflexivity|]. unfold s1, t1. split; [|rewrite E; reflexivity]. cbn.
    destruct (st_ctx s), (st_ctx t). unfold but_all in H. cbn in H. injection H; clear H; intros; subst. reflexivity.
  Qed.
  Lemma seg n s t e s' : rn n (isolated (Call CAssignmentExpr)) s = (Ok e, s') -> sames s t ->
    exists t', rn n (inheriting (Call CAssignmentExpr)) t = (Ok e, t') /\ sames s' t'.
  Proof.
    intros R H. unfold isolated, inheriting, inherit_cover, isolate_cover, get_cover, set_isolate_cover, set_inherit_cover, upd in *. cbn [run_in exec] in *.
    pose proof (call_sames n _ eq_refl s t true true None true true None H eq_refl eq_refl) as [V Q]. cbn zeta in V, Q.
    destruct (run_call (@body) g n CAssignmentExpr (upd_ctx _ s)) as [[a|x| |] s1] eqn:R1; try discriminate R.
    destruct (run_call (@body) g n CAssignmentExpr (upd_ctx _ t)) as [[a'|x| |] t1] eqn:R2; cbn [fst snd outcomes] in V; try contradiction. subst a'.
    cbn [fst snd] in Q. inversion R; subst. eexists. split; [reflexivity|]. apply past_all in Q.
    eapply sames_trans; [apply sames_sym; apply (sames_cover (fun _ => c_assign_target (st_ctx s)) (fun _ => c_binding_element (st_ctx s)) (fun _ => c_first_covert (st_ctx s)))|].
    eapply sames_trans; [exact Q|]. split; [|reflexivity]. cbn. destruct (st_ctx t1). reflexivity.
  Qed.
  Definition step1 (l : list Expr) : P (list Expr + list Expr) :=
    t <- look_tok ;;
    if is_eof t then Ret (inr l)
    else if negb (is_punct PComma t) then Ret (inr l)
    else
      next ;;
      e <- isolated (Call CAssignmentExpr) ;;
      Ret (inl (l ++ [e])).
  Definition step2 (exprs : list Expr) : P (list Expr + (Expr + Expr)) :=
    t <- look_tok ;;
    if is_eof t then Ret (inr (inr (ESequence exprs)))
    else if negb (is_punct PComma t) then Ret (inr (inr (ESequence exprs)))
    else
      next ;;
      ifM at_punct PCloseParen then
        next ;;
        Ret (inr (inl (EArrowParamPlaceHolder (map FAExpr exprs) false)))
      else ifM at_punct PSpread then
        b <- get c_binding_element ;;
        if negb b then fail_look ["not ..."]%string
        else
          '(_, rest) <- Call CRestElement ;;
          expect_punct PCloseParen ;;
          Ret (inr (inl (EArrowParamPlaceHolder (map FAExpr exprs ++ [FAPat rest]) false)))
      else
        e <- inheriting (Call CAssignmentExpr) ;;
        Ret (inl (exprs ++ [e])).
  Lemma iso_head n e s s' : rn n (isolated (Call CAssignmentExpr)) s = (Ok e, s') ->
    is_punct PCloseParen (it_tok (st_look s)) = false /\ is_punct PSpread (it_tok (st_look s)) = false.
  Proof.
    intros R. assert (N : ~ opener (it_tok (st_look s))).
    { intros O. unfold isolated, isolate_cover, get_cover, upd in R. cbn [run_in exec] in R.
      destruct (run_call (@body) g n CAssignmentExpr (upd_ctx _ s)) as [[a|x| |] s1] eqn:R1; try discriminate R.
      eapply never_assignment; [|exact R1]. exact O. }
    split; match goal with |- ?x = false => destruct x eqn:E; [|reflexivity] end; apply is_punct_eq in E; exfalso; apply N; [left|right; left]; exact E.
  Qed.
  Lemma step_group n l s t r s' : rn n (step1 l) s = (Ok r, s') -> sames s t ->
    exists t', rn n (step2 l) t = (Ok (match r with inl x => inl x | inr x => inr (inr (ESequence x)) end), t') /\ sames s' t'.
  Proof.
    intros R H. unfold step1, look_tok, look, next in R. unfold step2, look_tok, look, next. cbn [run_in exec] in *. rewrite (sames_look _ _ H).
    destruct (is_eof (it_tok (st_look s))); [cbn [run_in] in *; inversion R; subst; eauto|].
    destruct (is_punct PComma (it_tok (st_look s))); cbn [negb] in *; [|cbn [run_in] in *; inversion R; subst; eauto].
    pose proof (next_agrees g but_all s t H) as [V Q].
    cbn [run_in exec] in R |- *.
    destruct (next_item g s) as [[i|x| |] s1]; try discriminate R.
    destruct (next_item g t) as [[i'|x| |] t1]; cbn [fst snd outcomes] in V, Q; try contradiction. subst i'.
    destruct (run_in g n _ (isolated _) s1) as [[e|x| |] s2] eqn:R1; try discriminate R.
    destruct (iso_head _ _ _ _ R1) as [O1 O2]. unfold at_punct, look_tok, look. cbn [run_in exec]. rewrite (sames_look _ _ Q), O1. cbn [run_in exec].
    rewrite (sames_look _ _ Q), O2.
    destruct (seg n s1 t1 e s2 R1 Q) as (t2 & R2 & Q2). cbn [run_in]. rewrite R2. inversion R; subst. eauto.
  Qed.
  Lemma loop_group n : forall k l s t l' s', iter (fun y s => rn n (step1 y) s) k l s = (Ok l', s') -> sames s t ->
    exists t', iter (fun y s => rn n (step2 y) s) k l t = (Ok (inr (ESequence l')), t') /\ sames s' t'.
  Proof.
    induction k as [|k IH]; intros l s t l' s' R H; [discriminate R|]. cbn [iter] in R |- *.
    destruct (run_in g n _ (step1 l) s) as [[r|x| |] s1] eqn:R1; try discriminate R.
    destruct (step_group n l s t r s1 R1 H) as (t1 & -> & Q). destruct r as [x|x]; [eapply IH; eauto|]. inversion R; subst. eauto.
  Qed.

  (** *** The group *)
  Variables (s0 s1 s2 s3 : state) (i j : item) (e : Expr).
  Hypothesis open_paren : it_tok (st_look s0) = TPunct POpenParen.
  Hypothesis opened : next_item g s0 = (Ok i, s1).
  Hypothesis read : returns (fun n => parse_expression g n s1) (Ok e) s2.
  Hypothesis close_paren : it_tok (st_look s2) = TPunct PCloseParen.
  Hypothesis closed : next_item g s2 = (Ok j, s3).
  Hypothesis no_arrow : it_tok (st_look s3) <> TPunct PFatArrow.
  Definition Post (a : Expr) (t : state) : Prop := a = e /\ sames s3 t.

  Lemma group_plain : is_placeholder e = false.
  Proof.
    destruct read as [_ [n R]]. unfold parse_expression in R. destruct n as [|n]; [discriminate R|]. cbn [run_call body] in R. unfold expression in R.
    apply ok_first in R as (x & t & R1 & R). apply ok_first in R as (c & t2 & _ & R). destruct c.
    - apply ok_first in R as (l & t3 & _ & R). cbn [run_in] in R. inversion R; subst. reflexivity.
    - cbn [run_in] in R. inversion R; subst. unfold isolated in R1. apply ok_first in R1 as (cg & t4 & _ & R1). apply ok_first in R1 as (y & t5 & R1 & R2).
      cbn [run_in] in R1. destruct cg as [[? ?] ?]. cbn in R2. inversion R2; subst. eapply assignment_plain. exact R1.
  Qed.
  Lemma group_run s : sames s0 s -> evs (Call CGroupExpr) s Post.
  Proof.
    intros H. destruct read as [_ [n R]]. unfold parse_expression in R. destruct n as [|n]; [discriminate R|].
    pose proof (next_agrees g but_all s0 s H) as [V Q]. rewrite opened in V, Q. destruct (next_item g s) as [[i'|x| |] u1] eqn:N1; cbn [fst snd outcomes] in V, Q; try contradiction. subst i'.
    pose proof (next_item_ok _ _ _ _ opened) as (Ei & _). pose proof (next_item_ok _ _ _ _ closed) as (Ej & _).
    cbn [run_call body] in R. unfold expression in R. apply ok_first in R as (x & v1 & R1 & R).
    destruct (iso_head _ _ _ _ R1) as [O1 O2].
    set (u1' := upd_ctx (set_binding_element true) u1).
    assert (Q' : sames s1 u1').
    { eapply sames_trans; [exact Q|]. unfold u1'. split; [|reflexivity]. cbn. destruct (st_ctx u1). reflexivity. }
    destruct (seg n s1 u1' x v1 R1 Q') as (w1 & R2 & Q2).
    exists (S n). cbn [run_in]. unfold run. cbn [run_in run_call body].
    unfold group_expr, expect_punct, next. cbn [run_in exec]. rewrite N1. rewrite Ei, open_paren. change (is_punct POpenParen (TPunct POpenParen)) with true. cbn [run_in exec].
    unfold at_punct, look_tok, look. cbn [run_in exec]. rewrite (sames_look _ _ Q), O1. cbn [run_in exec]. rewrite (sames_look _ _ Q), O2. cbn [run_in exec].
    unfold upd. cbn [run_in exec]. fold u1'. rewrite R2. cbn [run_in exec]. rewrite (sames_look _ _ Q2).
    unfold at_punct, look_tok, look in R. cbn [run_in exec] in R.
    assert (K : forall (ex : Expr) w, sames s2 w -> ex = e -> exists a t,
      run_in g n (@run_call call (@body) g n)
        (expect_punct PCloseParen ;;
        ifM at_punct PFatArrow then
          match ex with
          | EIdent _ =>
              upd (set_binding_element false) ;;
              Ret (EArrowParamPlaceHolder [FAExpr ex] false)
          | _ =>
              b <- get c_binding_element ;;
              if negb b then fail_look ["binding element"%string]
              else
                match ex with
                | ESequence seq => Ret (EArrowParamPlaceHolder (map FAExpr seq) false)
                | _ => Ret (EArrowParamPlaceHolder [FAExpr ex] false)
                end
          end
        else Ret ex) w = (Ok a, t) /\ Post a t).
    { intros ex w Hw ->. pose proof (next_agrees g but_all s2 w Hw) as [V3 Q3]. rewrite closed in V3, Q3.
      destruct (next_item g w) as [[j'|y| |] w3] eqn:N3; cbn [fst snd outcomes] in V3, Q3; try contradiction. subst j'.
      exists e, w3. split; [|split; [reflexivity|exact Q3]].
      unfold expect_punct, next. cbn [run_in exec]. rewrite N3, Ej, close_paren. change (is_punct PCloseParen (TPunct PCloseParen)) with true. cbn [run_in exec].
      unfold at_punct, look_tok, look. cbn [run_in exec]. rewrite (sames_look _ _ Q3).
      replace (is_punct PFatArrow (it_tok (st_look s3))) with false; [reflexivity|]. symmetry.
      destruct (is_punct PFatArrow (it_tok (st_look s3))) eqn:F; [|reflexivity]. apply is_punct_eq in F. contradiction. }
    destruct (is_punct PComma (it_tok (st_look v1))) eqn:C.
    - apply ok_first in R as (l & v2 & R3 & R). cbn [run_in] in R. injection R as E1 E2. rewrite E2 in R3.
      assert (R4 : iter (fun y s => run_in g n (@run_call call (@body) g n) (step1 y) s) n [x] v1 = (Ok l, s2)) by exact R3.
      destruct (loop_group n n [x] v1 w1 l s2 R4 Q2) as (w2 & R5 & Q5).
      cbn [run_in].
      match goal with |- context [iter ?f n [x] w1] => replace (iter f n [x] w1) with (Ok (@inr Expr Expr (ESequence l)), w2) by (symmetry; exact R5) end.
      exact (K (ESequence l) w2 Q5 E1).
    - cbn [run_in] in R. injection R as E1 E2. cbn [run_in]. rewrite E2 in Q2. exact (K x w1 Q2 E1).
  Qed.

  (** *** From the group up to the expression *)
  Definition closers : list token :=
    [TEoF; TPunct PSemiColon; TPunct PComma; TPunct PCloseParen; TPunct PCloseBracket; TPunct PCloseBrace; TPunct PColon].
  Hypothesis follows : In (it_tok (st_look s3)) closers.
  Hypothesis spelled : exists w, slice (g_stream g) (it_start (st_look s0)) (it_end (st_look s0)) = Some w.
  Hypothesis allowed : c_allow_in (st_ctx s0) = true.
  Hypothesis kept : c_allow_in (st_ctx s3) = true.
  Lemma post_moved a t t' : Post a t -> sames t t' -> Post a t'.
  Proof. intros [-> H] K. split; [reflexivity|eapply sames_trans; eauto]. Qed.
  Definition Reads (p : P Expr) : Prop := forall s, sames s0 s -> evs p s Post.
  Lemma reads_inh p : Reads p -> Reads (inheriting p).
  Proof.
    intros R s H. unfold inheriting, inherit_cover, isolate_cover, get_cover, upd.
    apply evs_bind. apply evs_bind. apply evs_bind. eapply evs_do; [reflexivity|]. apply evs_ret.
    apply evs_bind. eapply evs_do; [reflexivity|]. apply evs_ret. apply evs_bind. eapply evs_mono; [|apply R].
    2:{ eapply sames_trans; [exact H|]. apply (sames_cover (fun _ => true) (fun _ => true) (fun _ => None)). }
    intros a t Pt. cbn beta in *. apply evs_bind. unfold set_inherit_cover, upd. eapply evs_do; [reflexivity|]. apply evs_ret.
    eapply post_moved; [exact Pt|]. split; [|reflexivity]. cbn. destruct (st_ctx t). reflexivity.
  Qed.
  Lemma reads_iso p s : Reads p -> sames s0 s -> evs (isolated p) s Post.
  Proof.
    intros R H. unfold isolated, isolate_cover, get_cover, upd.
    apply evs_bind. apply evs_bind. apply evs_bind. eapply evs_do; [reflexivity|]. apply evs_ret.
    apply evs_bind. eapply evs_do; [reflexivity|]. apply evs_ret. apply evs_bind. eapply evs_mono; [|apply R].
    2:{ eapply sames_trans; [exact H|]. apply (sames_cover (fun _ => true) (fun _ => true) (fun _ => None)). }
    intros a t Pt. cbn beta in *. apply evs_bind. unfold set_isolate_cover, upd. eapply evs_do; [reflexivity|]. apply evs_ret.
    eapply post_moved; [exact Pt|]. split; [|reflexivity]. cbn. destruct (st_ctx t). reflexivity.
  Qed.
  Ltac lk := apply evs_bind; (eapply evs_do; [reflexivity|]); apply evs_ret.
  Lemma reads_primary : Reads (Call CPrimaryExpression).
  Proof.
    intros s H. apply evs_call. cbn [body]. unfold primary_expression, look_tok, look. apply evs_bind. lk.
    rewrite (sames_look _ _ H), open_paren. change (evs (inheriting (Call CGroupExpr)) s Post). apply reads_inh; [|exact H]. intros t. apply group_run.
  Qed.
  Lemma look_start s : sames s0 s -> it_tok (st_look s) = TPunct POpenParen.
  Proof. intros H. rewrite (sames_look _ _ H). exact open_paren. Qed.
  Lemma look_end a s : Post a s -> In (it_tok (st_look s)) closers.
  Proof. intros [_ H]. rewrite (sames_look _ _ H). exact follows. Qed.
  Lemma allow_id b s : c_allow_in (st_ctx s) = b -> sames s (upd_ctx (set_allow_in b) s).
  Proof. intros <-. split; [|reflexivity]. cbn. destruct (st_ctx s). reflexivity. Qed.
  Lemma reads_lhs : Reads (Call CLeftHandSideExprAllowCall).
  Proof.
    intros s H. apply evs_call. cbn [body]. unfold lhs_allow_call, at_contextual, stream_at, look, get, upd, at_keyword, look_tok, look.
    apply evs_bind. eapply evs_do; [reflexivity|]. apply evs_bind. apply evs_bind. eapply evs_do; [reflexivity|]. apply evs_bind. apply evs_bind. eapply evs_do; [reflexivity|].
    rewrite (sames_look _ _ H). destruct spelled as [w W]. rewrite W. apply evs_ret. apply evs_ret.
    apply evs_bind. lk. apply evs_bind. eapply evs_do; [reflexivity|]. apply evs_bind. apply evs_bind. lk. apply evs_ret.
    cbn [upd_ctx st_look]. rewrite (look_start s H). apply evs_bind. lk. change (is_keyword KSuper (TPunct POpenParen)) with false. cbn [andb].
    set (u := upd_ctx (set_allow_in true) s).
    assert (Hi : c_allow_in (st_ctx s) = true) by (rewrite (sames_in _ _ H); exact allowed).
    assert (U : sames s0 u) by (eapply sames_trans; [exact H|apply allow_id; exact Hi]).
    apply evs_bind. eapply evs_mono; [|apply (reads_inh (ifM (t <- (la <- Do OLook;; Ret (it_tok la));; Ret (is_keyword KNew t)) then Call CNewExpr else Call CPrimaryExpression)); [|exact U]].
    2:{ intros v Hv. apply evs_bind. apply evs_bind. lk. apply evs_ret. rewrite (look_start v Hv). apply reads_primary. exact Hv. }
    intros a t Pt. cbn beta. apply evs_bind. apply evs_loop. apply evs_bind. lk.
    pose proof (look_end _ _ Pt) as F. unfold closers in F. cbn [In] in F.
    assert (B : is_punct PPeriod (it_tok (st_look t)) = false /\ is_punct POpenParen (it_tok (st_look t)) = false
      /\ is_punct POpenBracket (it_tok (st_look t)) = false /\ is_template_head (it_tok (st_look t)) = false)
      by (decompose [or] F; try contradiction; match goal with X : _ = it_tok (st_look t) |- _ => rewrite <- X end; auto).
    destruct B as (-> & -> & -> & ->). apply evs_ret. apply evs_bind. eapply evs_do; [reflexivity|]. apply evs_ret.
    eapply post_moved; [exact Pt|]. apply allow_id. rewrite Hi. destruct Pt as [_ Pt]. rewrite (sames_in _ _ Pt).
    exact kept.
  Qed.
  Ltac ends t Pt :=
    let F := fresh "F" in
    pose proof (look_end _ _ Pt) as F; unfold closers in F; cbn [In] in F;
    decompose [or] F; clear F; try contradiction; match goal with X : _ = it_tok (st_look t) |- _ => rewrite <- X end.
  Lemma reads_update : Reads (Call CUpdateExpr).
  Proof.
    intros s H. apply evs_call. cbn [body]. unfold update_expr, look. apply evs_bind. eapply evs_do; [reflexivity|]. cbn zeta.
    rewrite (look_start s H). change (is_punct PIncrement (TPunct POpenParen) || is_punct PDecrement (TPunct POpenParen)) with false. cbn iota.
    apply evs_bind. eapply evs_mono; [|apply (reads_inh _ reads_lhs _ H)]. intros a t Pt. cbn beta.
    apply evs_bind. eapply evs_do; [reflexivity|]. apply evs_bind. unfold look_tok, look. lk.
    replace (negb (st_nl t) && _) with false by (symmetry; ends t Pt; apply andb_false_r). apply evs_ret. exact Pt.
  Qed.
  Lemma reads_unary : Reads (Call CUnaryExpression).
  Proof.
    intros s H. apply evs_call. cbn [body]. unfold unary_expression, look_tok, look, get. apply evs_bind. lk. rewrite (look_start s H).
    match goal with |- evs (if ?b then _ else _) _ _ => change b with false end. cbn iota. apply evs_bind. lk.
    replace (_ && is_keyword KAwait (TPunct POpenParen)) with false by (symmetry; apply andb_false_r). apply reads_update. exact H.
  Qed.
  Lemma reads_exp : Reads (Call CExponentiation).
  Proof.
    intros s H. apply evs_call. cbn [body]. unfold exponentiation. apply evs_bind. eapply evs_mono; [|apply (reads_inh _ reads_unary _ H)]. intros a t Pt. cbn beta.
    unfold at_punct, look_tok, look. apply evs_bind. apply evs_bind. lk. apply evs_ret.
    replace (is_punct PExponent _) with false by (ends t Pt; reflexivity). apply evs_ret. exact Pt.
  Qed.
  Lemma reads_binary : Reads (Call CBinaryExpression).
  Proof.
    intros s H. apply evs_call. cbn [body]. unfold binary_expression. apply evs_bind. eapply evs_mono; [|apply (reads_inh _ reads_exp _ H)]. intros a t Pt. cbn beta.
    unfold look_tok, look, get. apply evs_bind. lk. apply evs_bind. lk. cbn zeta.
    replace (bin_precedence _ _) with 0 by (ends t Pt; reflexivity). cbn [Nat.eqb]. apply evs_ret. exact Pt.
  Qed.
  Lemma reads_conditional : Reads (Call CConditionalExpr).
  Proof.
    intros s H. apply evs_call. cbn [body]. unfold conditional_expr. apply evs_bind. eapply evs_mono; [|apply (reads_inh _ reads_binary _ H)]. intros a t Pt. cbn beta.
    unfold at_punct, look_tok, look. apply evs_bind. apply evs_bind. lk. apply evs_ret.
    replace (is_punct PQuestionMark _) with false by (ends t Pt; reflexivity). apply evs_ret. exact Pt.
  Qed.
  Lemma reads_assignment : Reads (Call CAssignmentExpr).
  Proof.
    intros s H. apply evs_call. cbn [body]. unfold assignment_expr, get, look, look_tok, look, stream_at. apply evs_bind. lk.
    apply evs_bind. eapply evs_do; [reflexivity|]. rewrite (look_start s H).
    replace (_ && is_keyword KYield (TPunct POpenParen)) with false by (symmetry; apply andb_false_r).
    apply evs_bind. eapply evs_do; [reflexivity|]. apply evs_bind. eapply evs_mono; [|apply (reads_conditional _ H)]. intros a t Pt. cbn beta.
    apply evs_bind. eapply evs_do; [reflexivity|]. apply evs_bind. apply evs_bind. eapply evs_do; [reflexivity|].
    rewrite (sames_look _ _ H). destruct spelled as [w W]. rewrite W. apply evs_ret. apply evs_bind. lk. apply evs_bind.
    replace (_ && (is_ident _ || _)) with false by (symmetry; ends t Pt; apply andb_false_r). apply evs_ret. apply evs_bind. lk.
    destruct Pt as [-> Pt]. rewrite group_plain. pose proof (conj (eq_refl e) Pt) as Pt'. fold (Post e t) in Pt'.
    replace (is_punct PFatArrow _) with false by (ends t Pt'; reflexivity). cbn [orb].
    replace (assign_tok _) with false by (ends t Pt'; reflexivity). apply evs_ret. exact Pt'.
  Qed.
  Lemma reads_expression : it_tok (st_look s3) <> TPunct PComma -> Reads (Call CExpression).
  Proof.
    intros N s H. apply evs_call. cbn [body]. unfold expression. apply evs_bind. eapply evs_mono; [|apply (reads_iso _ _ reads_assignment H)]. intros a t Pt. cbn beta.
    unfold at_punct, look_tok, look. apply evs_bind. apply evs_bind. lk. apply evs_ret.
    replace (is_punct PComma _) with false; [apply evs_ret; exact Pt|]. symmetry. destruct (is_punct PComma _) eqn:E; [|reflexivity].
    apply is_punct_eq in E. destruct Pt as [_ Pt]. rewrite (sames_look _ _ Pt) in E. contradiction.
  Qed.
End Parens.
