(** Lists of expressions: sequences, array literals and arguments. *)
From Verif Require Import Spec Runs Meta Handed Operators Forward.
From Verif Require Export Blocks Properties22.
Local Open Scope list_scope.

(** Where the parser starts on an element. *)
Definition cleared (s : state) : state :=
  upd_ctx (fun c => set_first_covert None (set_assign_target true (set_binding_element true c))) s.

Section Lists.
  Variable g : cfg.
  Notation evs := (evs g).
  Notation ends := (ends g).
  Notation rn n := (run_in g n (@run_call call (@body) g n)).

  (** *** What an element cannot start with *)
  Definition closer (t : token) : Prop := t = TPunct PCloseBracket \/ t = TPunct PComma \/ t = TPunct PSpread \/ t = TPunct PCloseParen.
  Definition notyet (c : call Expr) : Prop := forall n s e s', closer (it_tok (st_look s)) -> run_call (@body) g n c s <> (Ok e, s').
  Lemma closer_moved s t : sames s t -> closer (it_tok (st_look s)) -> closer (it_tok (st_look t)).
  Proof. intros H. rewrite (sames_look _ _ H). auto. Qed.
  Lemma notyet_primary : notyet CPrimaryExpression.
  Proof.
    intros n s e s' H R. destruct n as [|n]; [discriminate R|]. cbn [run_call body] in R.
    unfold primary_expression, look_tok, look in R. cbn [run_in exec] in R. destruct H as [H|[H|[H|H]]]; rewrite H in R; discriminate R.
  Qed.
  Lemma notyet_lhs : notyet CLeftHandSideExprAllowCall.
  Proof.
    intros n s e s' H R. destruct n as [|n]; [discriminate R|]. cbn [run_call body] in R.
    unfold lhs_allow_call, at_contextual, stream_at, look, get, upd, at_keyword, look_tok, look in R. cbn [run_in exec] in R.
    destruct (slice _ _ _); [|discriminate R]. cbn [run_in exec] in R.
    change (st_look (upd_ctx _ s)) with (st_look s) in R.
    replace (is_keyword KSuper _) with false in R by (destruct H as [-> |[-> |[-> | ->]]]; reflexivity). cbn [andb] in R.
    match type of R with context [run_in g n ?r (inheriting ?q) ?t] => destruct (run_in g n r (inheriting q) t) as [[a|x| |] s1] eqn:R0; try discriminate R end.
    clear R. rename R0 into R. unfold inheriting in R.
    apply Parens.ok_first in R as (cg & s2 & R1 & R). unfold inherit_cover, isolate_cover, get_cover, upd in R1. cbn [run_in exec] in R1. inversion R1; subst; clear R1.
    apply Parens.ok_first in R as (e1 & s3 & R & _). cbn [run_in exec] in R. cbn [upd_ctx st_look] in R.
    replace (is_keyword KNew _) with false in R by (destruct H as [-> |[-> |[-> | ->]]]; reflexivity). cbn [run_in] in R.
    eapply notyet_primary; [|exact R]. exact H.
  Qed.
  Lemma notyet_inh c : notyet c -> forall n s s' A (k : Expr -> P A) (a : A), closer (it_tok (st_look s)) ->
    rn n (Bind (inheriting (Call c)) k) s = (Ok a, s') -> False.
  Proof.
    intros N n s s' A k a H R. apply Parens.ok_first in R as (x & s1 & R & _). apply Parens.ok_inh in R as (t & t' & S & R & _).
    eapply N; [|exact R]. eapply closer_moved; eauto.
  Qed.
  Lemma notyet_update : notyet CUpdateExpr.
  Proof.
    intros n s e s' H R. destruct n as [|n]; [discriminate R|]. cbn [run_call body] in R.
    unfold update_expr, look in R. apply Parens.ok_first in R as (i & s1 & R1 & R). cbn [run_in exec] in R1. inversion R1; subst i s1; clear R1. cbn zeta in R.
    replace (is_punct PIncrement _ || _) with false in R by (destruct H as [-> |[-> |[-> | ->]]]; reflexivity).
    eapply (notyet_inh _ notyet_lhs n s); eauto.
  Qed.
  Lemma notyet_unary : notyet CUnaryExpression.
  Proof.
    intros n s e s' H R. destruct n as [|n]; [discriminate R|]. cbn [run_call body] in R.
    unfold unary_expression, look_tok, look, get in R. cbn [run_in exec] in R.
    replace (is_punct PPlus _ || _ || _ || _ || _ || _ || _) with false in R by (destruct H as [-> |[-> |[-> | ->]]]; reflexivity). cbn [run_in exec] in R.
    replace (_ && is_keyword KAwait _) with false in R by (symmetry; destruct H as [-> |[-> |[-> | ->]]]; apply andb_false_r). cbn [run_in] in R.
    eapply notyet_update; eauto.
  Qed.
  Lemma notyet_exp : notyet CExponentiation.
  Proof. intros n s e s' H R. destruct n as [|n]; [discriminate R|]. cbn [run_call body] in R. eapply (notyet_inh _ notyet_unary n s); eauto. Qed.
  Lemma notyet_binary : notyet CBinaryExpression.
  Proof. intros n s e s' H R. destruct n as [|n]; [discriminate R|]. cbn [run_call body] in R. eapply (notyet_inh _ notyet_exp n s); eauto. Qed.
  Lemma notyet_conditional : notyet CConditionalExpr.
  Proof. intros n s e s' H R. destruct n as [|n]; [discriminate R|]. cbn [run_call body] in R. eapply (notyet_inh _ notyet_binary n s); eauto. Qed.
  Lemma notyet_assignment : notyet CAssignmentExpr.
  Proof.
    intros n s e s' H R. destruct n as [|n]; [discriminate R|]. cbn [run_call body] in R.
    unfold assignment_expr, get, look in R. cbn [run_in exec] in R.
    replace (_ && is_keyword KYield _) with false in R by (symmetry; destruct H as [-> |[-> |[-> | ->]]]; apply andb_false_r). cbn [run_in exec] in R.
    destruct (run_call (@body) g n CConditionalExpr s) as [[a|x| |] s1] eqn:E; try discriminate R. eapply notyet_conditional; eauto.
  Qed.

  (** *** One element *)
  Definition elem (s : state) (e : Expr) (s' : state) : Prop :=
    exists u, ends (Call CAssignmentExpr) (cleared s) (Ok e) u /\ sames u s'.
  Lemma cleared_sames s : sames s (cleared s).
  Proof. apply (sames_cover (fun _ => true) (fun _ => true) (fun _ => None)). Qed.
  Lemma elem_start s e s' : elem s e s' -> ~ closer (it_tok (st_look s)).
  Proof. intros (u & [_ [n R]] & _) C. eapply notyet_assignment; [|exact R]. exact C. Qed.
  Lemma elem_moved s e s' t : elem s e s' -> sames s t -> exists u, ends (Call CAssignmentExpr) (cleared t) (Ok e) u /\ sames s' u.
  Proof.
    intros (u & [_ [n R]] & Q) H. cbn [run_in] in R.
    pose proof (call_sames g n _ eq_refl s t true true None true true None H eq_refl eq_refl) as [V K]. cbn zeta in V, K.
    change (upd_ctx _ s) with (cleared s) in V, K. change (upd_ctx _ t) with (cleared t) in V, K. rewrite R in V, K.
    destruct (run_call (@body) g n CAssignmentExpr (cleared t)) as [[a|x| |] t1] eqn:R2; cbn [fst snd outcomes] in V, K; try contradiction. subst a.
    exists t1. split; [split; [discriminate|exists n; exact R2]|]. apply past_all in K. eapply sames_trans; [apply sames_sym; exact Q|exact K].
  Qed.
  Lemma elem_isolated s e s' t : elem s e s' -> sames s t -> exists t', ends (isolated (Call CAssignmentExpr)) t (Ok e) t' /\ sames s' t'.
  Proof.
    intros E H. destruct (elem_moved s e s' t E H) as (u & [_ [n R]] & Q). cbn [run_in] in R. unfold cleared in R.
    eexists. split; [split; [discriminate|]; exists n; unfold isolated, isolate_cover, get_cover, set_isolate_cover, upd; cbn [run_in exec]; rewrite R; reflexivity|].
    eapply sames_trans; [exact Q|]. split; [|reflexivity]. cbn. destruct (st_ctx u). reflexivity.
  Qed.
  Lemma elem_inheriting s e s' t : elem s e s' -> sames s t -> exists t', ends (inheriting (Call CAssignmentExpr)) t (Ok e) t' /\ sames s' t'.
  Proof.
    intros E H. destruct (elem_moved s e s' t E H) as (u & [_ [n R]] & Q). cbn [run_in] in R. unfold cleared in R.
    eexists. split; [split; [discriminate|]; exists n; unfold inheriting, inherit_cover, isolate_cover, get_cover, set_inherit_cover, upd; cbn [run_in exec]; rewrite R; reflexivity|].
    eapply sames_trans; [exact Q|]. split; [|reflexivity]. cbn. destruct (st_ctx u). reflexivity.
  Qed.
  Lemma isolated_elem s e s' : ends (isolated (Call CAssignmentExpr)) s (Ok e) s' -> elem s e s'.
  Proof.
    intros [_ [n R]]. unfold isolated, isolate_cover, get_cover, set_isolate_cover, upd in R. cbn [run_in exec] in R.
    destruct (run_call (@body) g n CAssignmentExpr (upd_ctx _ s)) as [[a|x| |] s1] eqn:R1; try discriminate R. inversion R; subst.
    exists s1. split; [split; [discriminate|exists n; exact R1]|]. split; [|reflexivity]. cbn. destruct (st_ctx s1). reflexivity.
  Qed.
  Lemma inheriting_elem s e s' : ends (inheriting (Call CAssignmentExpr)) s (Ok e) s' -> elem s e s'.
  Proof.
    intros [_ [n R]]. unfold inheriting, inherit_cover, isolate_cover, get_cover, set_inherit_cover, upd in R. cbn [run_in exec] in R.
    destruct (run_call (@body) g n CAssignmentExpr (upd_ctx _ s)) as [[a|x| |] s1] eqn:R1; try discriminate R. inversion R; subst.
    exists s1. split; [split; [discriminate|exists n; exact R1]|]. split; [|reflexivity]. cbn. destruct (st_ctx s1). reflexivity.
  Qed.

  (** *** Small programs *)
  Lemma at_ends A p (a b : P A) s o s' : ends (if is_punct p (it_tok (st_look s)) then a else b) s o s' -> ends (ifM at_punct p then a else b) s o s'.
  Proof. intros H. eapply ends_ok; [|exact H]. split; [discriminate|]. exists 0. reflexivity. Qed.
  Lemma ends_at A p (a b : P A) s x s' : ends (ifM at_punct p then a else b) s (Ok x) s' -> ends (if is_punct p (it_tok (st_look s)) then a else b) s (Ok x) s'.
  Proof.
    intros H. apply bind_ends in H as (c & s1 & H1 & H). assert (K : ends (at_punct p) s (Ok (is_punct p (it_tok (st_look s)))) s) by (split; [discriminate|exists 0; reflexivity]).
    destruct (ends_fun _ _ _ _ _ _ _ _ H1 K) as [E <-]. injection E as ->. exact H.
  Qed.
  Lemma ret_ends A (a : A) s b s' : ends (Ret a) s (Ok b) s' -> b = a /\ s' = s.
  Proof. intros [_ [n R]]. cbn in R. inversion R. auto. Qed.
  Lemma pass_expect p s s' : passes g (TPunct p) s s' -> ends (expect_punct p) s (Ok tt) s'.
  Proof. intros (T & i & N). eapply expect_ends; eauto. Qed.
  Lemma expect_pass p s u s' : ends (expect_punct p) s (Ok u) s' -> passes g (TPunct p) s s'.
  Proof. intros H. apply ends_expect in H. exact H. Qed.
  Lemma pass_next t s s' : passes g t s s' -> ends next s (Ok (st_look s)) s'.
  Proof. intros (T & i & N). pose proof (Wp.next_item_ok _ _ _ _ N) as (E & _). subst i. split; [discriminate|]. exists 0. exact N. Qed.
  Lemma next_pass s i s' : ends next s (Ok i) s' -> passes g (it_tok (st_look s)) s s'.
  Proof. intros [_ [n R]]. split; [reflexivity|]. exists i. exact R. Qed.
  Lemma is_not p t : t <> TPunct p -> is_punct p t = false.
  Proof. intros N. destruct (is_punct p t) eqn:E; [|reflexivity]. apply is_punct_eq in E. contradiction. Qed.
  Lemma is_it p : is_punct p (TPunct p) = true.
  Proof. apply punct_eqb_eq. reflexivity. Qed.

  (** *** An element or a spread one *)
  Definition val (s : state) (e : Expr) (s' : state) : Prop :=
    elem s e s' \/ exists s1 a, passes g (TPunct PSpread) s s1 /\ elem s1 a s' /\ e = ESpread a.
  Lemma spread_val s e s' : ends (Call CSpreadElement) s (Ok e) s' -> val s e s'.
  Proof.
    intros H. apply body_ends in H. cbn [body] in H. unfold spread_element in H. apply bind_ends in H as (u & s1 & H1 & H). apply expect_pass in H1.
    apply bind_ends in H as (a & s2 & H2 & H). apply inheriting_elem in H2. apply ret_ends in H as [-> ->]. right. exists s1, a. auto.
  Qed.
  Lemma val_spread s s1 a s' t : passes g (TPunct PSpread) s s1 -> elem s1 a s' -> sames s t ->
    exists t', ends (Call CSpreadElement) t (Ok (ESpread a)) t' /\ sames s' t'.
  Proof.
    intros P1 E H. destruct (passes_sames _ _ _ _ _ P1 H) as (t1 & P2 & H1). destruct (elem_inheriting _ _ _ _ E H1) as (t' & R & Q).
    exists t'. split; [|exact Q]. apply ends_body. cbn [body]. unfold spread_element. eapply ends_ok; [apply pass_expect; exact P2|].
    eapply ends_ok; [exact R|]. apply ends_ret.
  Qed.
  Lemma val_start s e s' : val s e s' -> it_tok (st_look s) <> TPunct PCloseBracket /\ it_tok (st_look s) <> TPunct PComma /\ it_tok (st_look s) <> TPunct PCloseParen.
  Proof.
    intros [E|(s1 & a & (T & _) & _)].
    - apply elem_start in E. unfold closer in E. tauto.
    - rewrite T. repeat split; discriminate.
  Qed.
  Lemma elem_not_spread s e s' : elem s e s' -> it_tok (st_look s) <> TPunct PSpread.
  Proof. intros E. apply elem_start in E. unfold closer in E. tauto. Qed.
  Lemma sames_tok s t : sames s t -> it_tok (st_look t) = it_tok (st_look s).
  Proof. intros H. rewrite (sames_look _ _ H). reflexivity. Qed.
  Lemma elem_to s e s' u : elem s e s' -> sames s' u -> elem s e u.
  Proof. intros (v & R & Q) H. exists v. split; [exact R|]. eapply sames_trans; eauto. Qed.
  Lemma elem_from s e s' t : elem s e s' -> sames s t -> elem t e s'.
  Proof. intros E H. destruct (elem_moved _ _ _ _ E H) as (u & R & Q). exists u. split; [exact R|apply sames_sym; exact Q]. Qed.
  Lemma val_to s e s' u : val s e s' -> sames s' u -> val s e u.
  Proof. intros [E|(s1 & a & P & E & ->)] H; [left|right; exists s1, a]; eauto using elem_to. Qed.

  (** *** Sequences *)
  Inductive seq : state -> list Expr -> state -> Prop :=
  | seq_one s e s' : elem s e s' -> seq s [e] s'
  | seq_more s e s1 s2 l s' : elem s e s1 -> passes g (TPunct PComma) s1 s2 -> seq s2 l s' -> seq s (e :: l) s'.
  Definition seq_step (l : list Expr) : P (list Expr + list Expr) :=
    t <- look_tok ;;
    if is_eof t then Ret (inr l)
    else if negb (is_punct PComma t) then Ret (inr l)
    else
      next ;;
      e <- isolated (Call CAssignmentExpr) ;;
      Ret (inl (l ++ [e])).
  (** The elements after the first. *)
  Inductive tail : state -> list Expr -> state -> Prop :=
  | tail_nil s s' : sames s s' -> it_tok (st_look s) <> TPunct PComma -> tail s [] s'
  | tail_cons s s1 e s2 l s' : passes g (TPunct PComma) s s1 -> elem s1 e s2 -> tail s2 l s' -> tail s (e :: l) s'.
  Lemma look_ends A (k : token -> P A) s o s' : ends (k (it_tok (st_look s))) s o s' -> ends (t <- look_tok ;; k t) s o s'.
  Proof. intros H. eapply ends_ok; [|exact H]. split; [discriminate|]. exists 0. reflexivity. Qed.
  Lemma ends_look A (k : token -> P A) s x s' : ends (t <- look_tok ;; k t) s (Ok x) s' -> ends (k (it_tok (st_look s))) s (Ok x) s'.
  Proof.
    intros H. apply bind_ends in H as (c & s1 & H1 & H). assert (K : ends look_tok s (Ok (it_tok (st_look s))) s) by (split; [discriminate|exists 0; reflexivity]).
    destruct (ends_fun _ _ _ _ _ _ _ _ H1 K) as [E <-]. injection E as ->. exact H.
  Qed.
  Lemma tail_run s l s' : tail s l s' -> forall acc t, sames s t -> exists t', ends (Loop acc seq_step) t (Ok (acc ++ l)) t' /\ sames s' t'.
  Proof.
    induction 1 as [s s' Q N|s s1 e s2 l s' P1 E _ IH]; intros acc t H.
    - exists t. split; [|eapply sames_trans; [apply sames_sym; exact Q|exact H]]. rewrite app_nil_r. apply loop_stop. unfold seq_step. apply look_ends. rewrite (sames_tok _ _ H).
      rewrite (is_not _ _ N). cbn [negb]. destruct (is_eof _); apply ends_ret.
    - destruct (passes_sames _ _ _ _ _ P1 H) as (t1 & P2 & H1). destruct (elem_isolated _ _ _ _ E H1) as (t2 & R & H2).
      destruct (IH (acc ++ [e]) t2 H2) as (t' & R' & Q). exists t'. split; [|exact Q]. rewrite <- app_assoc in R'. cbn [app] in R'.
      eapply loop_next; [|exact R']. unfold seq_step. apply look_ends. destruct P2 as (T & i & N). rewrite T. cbn [is_eof]. rewrite is_it. cbn [negb].
      eapply ends_ok; [apply pass_next with (t := TPunct PComma); split; eauto|]. eapply ends_ok; [exact R|]. apply ends_ret.
  Qed.
  Lemma run_tail acc s r s' : ends (Loop acc seq_step) s (Ok r) s' -> exists l, r = acc ++ l /\ tail s l s'.
  Proof.
    intros R. refine (loop_ends g _ _ seq_step (fun acc s r s' => exists l, r = acc ++ l /\ tail s l s') _ _ acc s r s' R).
    - clear. intros acc s r s' R. unfold seq_step in R. apply ends_look in R.
      destruct (is_eof _) eqn:F.
      + apply ret_ends in R as [R ->]. injection R as ->. exists []. rewrite app_nil_r. split; [reflexivity|]. constructor; [apply sames_refl|].
        intros T. rewrite T in F. discriminate F.
      + destruct (is_punct PComma _) eqn:C; cbn [negb] in R.
        * apply bind_ends in R as (? & ? & _ & R). apply bind_ends in R as (? & ? & _ & R). apply ret_ends in R as [R _]. discriminate R.
        * apply ret_ends in R as [R ->]. injection R as ->. exists []. rewrite app_nil_r. split; [reflexivity|]. constructor; [apply sames_refl|].
          intros T. rewrite T in C. rewrite is_it in C. discriminate C.
    - clear. intros acc s y s1 r s' R (l & -> & T). unfold seq_step in R. apply ends_look in R.
      destruct (is_eof _) eqn:F; [apply ret_ends in R as [R _]; discriminate R|]. destruct (is_punct PComma _) eqn:C; cbn [negb] in R; [|apply ret_ends in R as [R _]; discriminate R].
      apply is_punct_eq in C. apply bind_ends in R as (i & t1 & R1 & R). apply next_pass in R1. rewrite C in R1.
      apply bind_ends in R as (e & t2 & R2 & R). apply isolated_elem in R2. apply ret_ends in R as [R ->]. injection R as ->.
      exists (e :: l). split; [rewrite <- app_assoc; reflexivity|]. econstructor; eauto.
  Qed.
  Lemma seq_tail s l s' : seq s l s' -> it_tok (st_look s') <> TPunct PComma -> exists e l' s1, l = e :: l' /\ elem s e s1 /\ tail s1 l' s'.
  Proof.
    induction 1 as [s e s' E|s e s1 s2 l s' E P1 S IH]; intros N.
    - exists e, [], s'. repeat split; auto. constructor; [apply sames_refl|exact N].
    - destruct (IH N) as (e2 & l' & s3 & -> & E2 & T). exists e, (e2 :: l'), s1. repeat split; auto. econstructor; eauto.
  Qed.
  Lemma tail_seq s1 l s' : tail s1 l s' -> forall s e, elem s e s1 -> seq s (e :: l) s' /\ it_tok (st_look s') <> TPunct PComma.
  Proof.
    induction 1 as [s1 s' Q N|s1 s2 e2 s3 l s' P1 E2 T IH]; intros s e E.
    - split; [constructor; eapply elem_to; eauto|]. rewrite (sames_tok _ _ Q). exact N.
    - destruct (IH _ _ E2) as [S N]. split; [|exact N]. econstructor; eauto.
  Qed.
  Definition sequence_of (l : list Expr) : Expr := match l with [e] => e | _ => ESequence l end.
  Lemma seq_run s l s' t : seq s l s' -> it_tok (st_look s') <> TPunct PComma -> sames s t -> exists t', ends (Call CExpression) t (Ok (sequence_of l)) t' /\ sames s' t'.
  Proof.
    intros S N H. destruct (seq_tail _ _ _ S N) as (e & l' & s1 & -> & E & T). destruct (elem_isolated _ _ _ _ E H) as (t1 & R1 & H1).
    destruct T as [s1 s' Q N1|s1 s2 e2 s3 l' s' P1 E2 T].
    - exists t1. split; [|eapply sames_trans; [apply sames_sym; exact Q|exact H1]]. apply ends_body. cbn [body]. unfold expression. eapply ends_ok; [exact R1|].
      apply at_ends. rewrite (sames_tok _ _ H1), (is_not _ _ N1). apply ends_ret.
    - assert (T' : tail s1 (e2 :: l') s') by (econstructor; eauto).
      destruct (tail_run _ _ _ T' [e] t1 H1) as (t' & R & Q). exists t'. split; [|exact Q]. apply ends_body. cbn [body]. unfold expression. eapply ends_ok; [exact R1|].
      apply at_ends. destruct P1 as (C & _). rewrite (sames_tok _ _ H1), C, is_it. eapply ends_ok; [exact R|]. apply ends_ret.
  Qed.
  Lemma run_seq s x s' : ends (Call CExpression) s (Ok x) s' -> exists l, seq s l s' /\ it_tok (st_look s') <> TPunct PComma /\ x = sequence_of l.
  Proof.
    intros R. apply body_ends in R. cbn [body] in R. unfold expression in R. apply bind_ends in R as (e & s1 & R1 & R). apply isolated_elem in R1.
    apply ends_at in R. destruct (is_punct PComma _) eqn:C.
    - apply bind_ends in R as (r & s2 & R2 & R). change (ends (Loop [e] seq_step) s1 (Ok r) s2) in R2. apply run_tail in R2 as (l & -> & T). apply ret_ends in R as [-> ->].
      destruct T as [s1 s' Q N|s1 s3 e2 s4 l s' P1 E2 T].
      { apply is_punct_eq in C. contradiction. }
      assert (T' : tail s1 (e2 :: l) s') by (econstructor; eauto). destruct (tail_seq _ _ _ T' _ _ R1) as [S N]. exists (e :: e2 :: l). auto.
    - apply ret_ends in R as [-> ->]. exists [e]. split; [constructor; exact R1|]. split; [|reflexivity]. intros T. rewrite T, is_it in C. discriminate C.
  Qed.

  (** *** Array literals *)
  Inductive arr : state -> list (option Expr) -> state -> Prop :=
  | arr_nil s s' : sames s s' -> it_tok (st_look s) = TPunct PCloseBracket -> arr s [] s'
  | arr_hole s s1 l s' : passes g (TPunct PComma) s s1 -> arr s1 l s' -> arr s (None :: l) s'
  | arr_last s e s1 s' : val s e s1 -> it_tok (st_look s1) = TPunct PCloseBracket -> sames s1 s' -> arr s [Some e] s'
  | arr_more s e s1 s2 l s' : val s e s1 -> passes g (TPunct PComma) s1 s2 -> arr s2 l s' -> arr s (Some e :: l) s'.
  Definition arr_step (elements : list (option Expr)) : P (list (option Expr) + list (option Expr)) :=
    ifM at_punct PCloseBracket then Ret (inr elements)
    else ifM at_punct PComma then next ;; Ret (inl (elements ++ [None]))
    else ifM at_punct PSpread then
      el <- Call CSpreadElement ;;
      ifM at_punct PCloseBracket then Ret (inl (elements ++ [Some el]))
      else
        not_target ;;
        expect_punct PComma ;;
        Ret (inl (elements ++ [Some el]))
    else
      el <- inheriting (Call CAssignmentExpr) ;;
      ifM at_punct PCloseBracket then Ret (inl (elements ++ [Some el]))
      else expect_punct PComma ;; Ret (inl (elements ++ [Some el])).
  Lemma target_sames a b s : sames s (upd_ctx (fun c => set_binding_element b (set_assign_target a c)) s).
  Proof. split; [|reflexivity]. cbn. destruct (st_ctx s). reflexivity. Qed.
  Lemma not_target_ends s : exists s', ends not_target s (Ok tt) s' /\ sames s s'.
  Proof. eexists. split; [split; [discriminate|]; exists 0; reflexivity|]. apply target_sames. Qed.
  (** One element, and the comma after it unless the literal ends there. *)
  Lemma arr_one s e s1 acc t : val s e s1 -> sames s t -> exists t1, sames s1 t1 /\ forall o t',
    (if is_punct PCloseBracket (it_tok (st_look s1)) then ends (Ret (inl (acc ++ [Some e]))) t1 o t'
     else exists s2 t2, passes g (TPunct PComma) s1 s2 /\ passes g (TPunct PComma) t1 t2 /\ ends (Ret (inl (acc ++ [Some e]))) t2 o t') ->
    ends (arr_step acc) t o t'.
  Proof.
    intros V H. destruct (val_start _ _ _ V) as (V1 & V2 & _). destruct V as [E|(s0 & a & P1 & E & ->)].
    - destruct (elem_inheriting _ _ _ _ E H) as (t1 & R & H1). exists t1. split; [exact H1|]. intros o t' K.
      unfold arr_step. apply at_ends. rewrite (sames_tok _ _ H), (is_not _ _ V1). apply at_ends. rewrite (sames_tok _ _ H), (is_not _ _ V2).
      apply at_ends. rewrite (sames_tok _ _ H), (is_not _ _ (elem_not_spread _ _ _ E)). eapply ends_ok; [exact R|]. apply at_ends. rewrite (sames_tok _ _ H1).
      destruct (is_punct PCloseBracket _); [exact K|]. destruct K as (s2 & t2 & _ & P2 & K). eapply ends_ok; [apply pass_expect; exact P2|exact K].
    - destruct (val_spread _ _ _ _ _ P1 E H) as (t1 & R & H1).
      assert (St : forall o t', ends (el <- Call CSpreadElement ;;
          ifM at_punct PCloseBracket then Ret (inl (acc ++ [Some el])) else not_target ;; expect_punct PComma ;; Ret (inl (acc ++ [Some el]))) t o t' -> ends (arr_step acc) t o t').
      { intros o t' K. unfold arr_step. apply at_ends. rewrite (sames_tok _ _ H), (is_not _ _ V1). apply at_ends. rewrite (sames_tok _ _ H), (is_not _ _ V2).
        apply at_ends. destruct P1 as (T & _). rewrite (sames_tok _ _ H), T, is_it. exact K. }
      destruct (is_punct PCloseBracket (it_tok (st_look s1))) eqn:B.
      + exists t1. split; [exact H1|]. intros o t' K. apply St. eapply ends_ok; [exact R|]. apply at_ends. rewrite (sames_tok _ _ H1), B. exact K.
      + destruct (not_target_ends t1) as (t2 & R2 & H2). exists t2. split; [eapply sames_trans; eauto|]. intros o t' (s2 & t3 & _ & P2 & K). apply St.
        eapply ends_ok; [exact R|]. apply at_ends. rewrite (sames_tok _ _ H1), B. eapply ends_ok; [exact R2|]. eapply ends_ok; [apply pass_expect; exact P2|exact K].
  Qed.
  Lemma arr_run s l s' : arr s l s' -> forall acc t, sames s t -> exists t', ends (Loop acc arr_step) t (Ok (acc ++ l)) t' /\ sames s' t'.
  Proof.
    induction 1 as [s s' Q T|s s1 l s' P1 _ IH|s e s1 s' V T Q|s e s1 s2 l s' V P1 _ IH]; intros acc t H.
    - exists t. split; [|eapply sames_trans; [apply sames_sym; exact Q|exact H]]. rewrite app_nil_r. apply loop_stop. unfold arr_step. apply at_ends.
      rewrite (sames_tok _ _ H), T, is_it. apply ends_ret.
    - destruct (passes_sames _ _ _ _ _ P1 H) as (t1 & P2 & H1). destruct (IH (acc ++ [None]) t1 H1) as (t' & R & Q). exists t'. split; [|exact Q].
      rewrite <- app_assoc in R. eapply loop_next; [|exact R]. unfold arr_step. apply at_ends. destruct P1 as (T & _). rewrite (sames_tok _ _ H), T.
      change (is_punct PCloseBracket (TPunct PComma)) with false. cbn iota. apply at_ends. rewrite (sames_tok _ _ H), T, is_it. eapply ends_ok; [eapply pass_next; exact P2|apply ends_ret].
    - destruct (arr_one _ _ _ acc _ V H) as (t1 & H1 & K). exists t1. split; [|eapply sames_trans; [apply sames_sym; exact Q|exact H1]].
      eapply loop_next; [apply K; rewrite T, is_it; apply ends_ret|]. apply loop_stop. unfold arr_step. apply at_ends. rewrite (sames_tok _ _ H1), T, is_it. apply ends_ret.
    - destruct (arr_one _ _ _ acc _ V H) as (t1 & H1 & K). destruct (passes_sames _ _ _ _ _ P1 H1) as (t2 & P2 & H2).
      destruct (IH (acc ++ [Some e]) t2 H2) as (t' & R & Q). exists t'. split; [|exact Q]. rewrite <- app_assoc in R. eapply loop_next; [|exact R].
      apply K. pose proof P1 as (T & _). rewrite T. change (is_punct PCloseBracket (TPunct PComma)) with false. cbn iota. exists s2, t2. split; [exact P1|]. split; [exact P2|]. apply ends_ret.
  Qed.
  Lemma arr_app s e s1 l s' : val s e s1 -> it_tok (st_look s1) = TPunct PCloseBracket -> arr s1 l s' -> arr s (Some e :: l) s'.
  Proof.
    intros V T A. inversion A as [u u' Q T'|u u1 l' u' P1 A'|u x u1 u' V1 T1 Q|u x u1 u2 l' u' V1 P1 A']; subst.
    - eapply arr_last; eauto.
    - destruct P1 as (T' & _). rewrite T in T'. discriminate T'.
    - apply val_start in V1 as (N & _). contradiction.
    - apply val_start in V1 as (N & _). contradiction.
  Qed.
  Lemma run_arr acc s r s' : ends (Loop acc arr_step) s (Ok r) s' -> exists l, r = acc ++ l /\ arr s l s' /\ it_tok (st_look s') = TPunct PCloseBracket.
  Proof.
    intros R. refine (loop_ends g _ _ arr_step (fun acc s r s' => exists l, r = acc ++ l /\ arr s l s' /\ it_tok (st_look s') = TPunct PCloseBracket) _ _ acc s r s' R).
    - clear. intros acc s r s' R. unfold arr_step in R. apply ends_at in R. destruct (is_punct PCloseBracket _) eqn:B.
      + apply is_punct_eq in B. apply ret_ends in R as [R ->]. injection R as ->. exists []. rewrite app_nil_r. split; [reflexivity|]. split; [|exact B]. constructor; [apply sames_refl|exact B].
      + exfalso. apply ends_at in R. destruct (is_punct PComma _); [apply bind_ends in R as (? & ? & _ & R); apply ret_ends in R as [R _]; discriminate R|].
        apply ends_at in R. destruct (is_punct PSpread _); apply bind_ends in R as (? & ? & _ & R); apply ends_at in R; clear B; match type of R with Blocks.ends _ (if ?b then _ else _) _ _ _ => destruct b end;
          repeat (apply bind_ends in R as (? & ? & _ & R)); apply ret_ends in R as [R _]; discriminate R.
    - clear. intros acc s y s1 r s' R (l & -> & A & F). unfold arr_step in R. apply ends_at in R. destruct (is_punct PCloseBracket _) eqn:B;
        [apply ret_ends in R as [R _]; discriminate R|]. apply ends_at in R. destruct (is_punct PComma _) eqn:C.
      + apply is_punct_eq in C. apply bind_ends in R as (i & t1 & R1 & R). apply next_pass in R1. rewrite C in R1. apply ret_ends in R as [R ->]. injection R as ->.
        exists (None :: l). split; [rewrite <- app_assoc; reflexivity|]. split; [|exact F]. eapply arr_hole; eauto.
      + apply ends_at in R. destruct (is_punct PSpread _) eqn:Sp.
        * apply bind_ends in R as (e & t1 & R1 & R). apply spread_val in R1. apply ends_at in R. destruct (is_punct PCloseBracket (it_tok (st_look t1))) eqn:B1.
          { apply is_punct_eq in B1. apply ret_ends in R as [R ->]. injection R as ->. exists (Some e :: l). split; [rewrite <- app_assoc; reflexivity|]. split; [|exact F]. eapply arr_app; eauto. }
          apply bind_ends in R as (u & t2 & R2 & R). destruct (not_target_ends t1) as (t3 & R3 & Q). destruct (ends_fun _ _ _ _ _ _ _ _ R2 R3) as [_ ->].
          apply bind_ends in R as (v & t4 & R4 & R). apply expect_pass in R4. apply ret_ends in R as [R ->]. injection R as ->.
          exists (Some e :: l). split; [rewrite <- app_assoc; reflexivity|]. split; [|exact F]. eapply arr_more; [eapply val_to; eauto|exact R4|exact A].
        * apply bind_ends in R as (e & t1 & R1 & R). apply inheriting_elem in R1. assert (V : val s e t1) by (left; exact R1). apply ends_at in R.
          destruct (is_punct PCloseBracket (it_tok (st_look t1))) eqn:B1.
          { apply is_punct_eq in B1. apply ret_ends in R as [R ->]. injection R as ->. exists (Some e :: l). split; [rewrite <- app_assoc; reflexivity|]. split; [|exact F]. eapply arr_app; eauto. }
          apply bind_ends in R as (v & t4 & R4 & R). apply expect_pass in R4. apply ret_ends in R as [R ->]. injection R as ->.
          exists (Some e :: l). split; [rewrite <- app_assoc; reflexivity|]. split; [|exact F]. eapply arr_more; eauto.
  Qed.
  Lemma init_run s0 s1 l s2 s3 t : passes g (TPunct POpenBracket) s0 s1 -> arr s1 l s2 -> passes g (TPunct PCloseBracket) s2 s3 -> sames s0 t ->
    exists t', ends (Call CArrayInit) t (Ok (EArray l)) t' /\ sames s3 t'.
  Proof.
    intros P1 A P2 H. destruct (passes_sames _ _ _ _ _ P1 H) as (t1 & P1' & H1). destruct (arr_run _ _ _ A [] t1 H1) as (t2 & R & H2).
    destruct (passes_sames _ _ _ _ _ P2 H2) as (t3 & P3 & H3). exists t3. split; [|exact H3]. apply ends_body. cbn [body]. unfold array_init.
    eapply ends_ok; [apply pass_expect; exact P1'|]. eapply ends_ok; [exact R|]. eapply ends_ok; [apply pass_expect; exact P3|]. apply ends_ret.
  Qed.
  Lemma run_init s x s' : ends (Call CArrayInit) s (Ok x) s' -> exists l s1 s2, x = EArray l /\ passes g (TPunct POpenBracket) s s1 /\ arr s1 l s2 /\ passes g (TPunct PCloseBracket) s2 s'.
  Proof.
    intros R. apply body_ends in R. cbn [body] in R. unfold array_init in R. apply bind_ends in R as (u & s1 & R1 & R). apply expect_pass in R1.
    apply bind_ends in R as (l & s2 & R2 & R). change (ends (Loop [] arr_step) s1 (Ok l) s2) in R2. apply run_arr in R2 as (l' & -> & A & _). cbn [app] in R.
    apply bind_ends in R as (v & s3 & R3 & R). apply expect_pass in R3. apply ret_ends in R as [-> ->]. exists l', s1, s2. auto.
  Qed.

  (** *** Arguments *)
  Inductive argl : state -> list Expr -> state -> Prop :=
  | argl_nil s s' : sames s s' -> it_tok (st_look s) = TPunct PCloseParen -> argl s [] s'
  | argl_last s e s1 s' : val s e s1 -> it_tok (st_look s1) = TPunct PCloseParen -> sames s1 s' -> argl s [e] s'
  | argl_more s e s1 s2 l s' : val s e s1 -> passes g (TPunct PComma) s1 s2 -> argl s2 l s' -> argl s (e :: l) s'.
  Definition arg_step (args : list Expr) : P (list Expr + list Expr) :=
    e <- (ifM at_punct PSpread then Call CSpreadElement else isolated (Call CAssignmentExpr)) ;;
    ifM at_punct PCloseParen then Ret (inr (args ++ [e]))
    else
      Do OExpectComma ;;
      ifM at_punct PCloseParen then Ret (inr (args ++ [e]))
      else Ret (inl (args ++ [e])).
  Hypothesis strict : g_tolerant g = false.
  Lemma pass_comma s s' : passes g (TPunct PComma) s s' -> ends (Do OExpectComma) s (Ok tt) s'.
  Proof. intros (T & i & N). pose proof (Wp.next_item_ok _ _ _ _ N) as (E & _). subst i. split; [discriminate|]. exists 0. cbn [run_in exec]. rewrite strict, N, T, is_it. reflexivity. Qed.
  Lemma comma_pass s u s' : ends (Do OExpectComma) s (Ok u) s' -> passes g (TPunct PComma) s s'.
  Proof.
    intros [_ [n R]]. cbn [run_in exec] in R. rewrite strict in R. destruct (next_item g s) as [[i|x| |] s1] eqn:N; try discriminate R.
    pose proof (Wp.next_item_ok _ _ _ _ N) as (E & _). subst i. destruct (is_punct PComma _) eqn:C; [|discriminate R]. apply is_punct_eq in C. inversion R; subst. split; eauto.
  Qed.
  Lemma val_arg s e s1 t : val s e s1 -> sames s t -> exists t1,
    ends (ifM at_punct PSpread then Call CSpreadElement else isolated (Call CAssignmentExpr)) t (Ok e) t1 /\ sames s1 t1.
  Proof.
    intros [E|(s0 & a & P1 & E & ->)] H.
    - destruct (elem_isolated _ _ _ _ E H) as (t1 & R & H1). exists t1. split; [|exact H1]. apply at_ends. rewrite (sames_tok _ _ H), (is_not _ _ (elem_not_spread _ _ _ E)). exact R.
    - destruct (val_spread _ _ _ _ _ P1 E H) as (t1 & R & H1). exists t1. split; [|exact H1]. apply at_ends. destruct P1 as (T & _). rewrite (sames_tok _ _ H), T, is_it. exact R.
  Qed.
  Lemma arg_val s e s1 : ends (ifM at_punct PSpread then Call CSpreadElement else isolated (Call CAssignmentExpr)) s (Ok e) s1 -> val s e s1.
  Proof. intros R. apply ends_at in R. destruct (is_punct PSpread _); [apply spread_val; exact R|left; apply isolated_elem; exact R]. Qed.
  Lemma argl_run s l s' : argl s l s' -> l <> [] -> forall acc t, sames s t -> exists t', ends (Loop acc arg_step) t (Ok (acc ++ l)) t' /\ sames s' t'.
  Proof.
    induction 1 as [s s' Q T|s e s1 s' V T Q|s e s1 s2 l s' V P1 A IH]; intros L acc t H.
    - contradiction.
    - destruct (val_arg _ _ _ _ V H) as (t1 & R & H1). exists t1. split; [|eapply sames_trans; [apply sames_sym; exact Q|exact H1]].
      apply loop_stop. unfold arg_step. eapply ends_ok; [exact R|]. apply at_ends. rewrite (sames_tok _ _ H1), T, is_it. apply ends_ret.
    - destruct (val_arg _ _ _ _ V H) as (t1 & R & H1). destruct (passes_sames _ _ _ _ _ P1 H1) as (t2 & P2 & H2).
      assert (St : forall r t', ends (ifM at_punct PCloseParen then Ret (inr (acc ++ [e])) else Ret (inl (acc ++ [e]))) t2 r t' -> ends (arg_step acc) t r t').
      { intros r t' K. unfold arg_step. eapply ends_ok; [exact R|]. apply at_ends. destruct P1 as (T & _). rewrite (sames_tok _ _ H1), T.
        change (is_punct PCloseParen (TPunct PComma)) with false. cbn iota. eapply ends_ok; [apply pass_comma; exact P2|exact K]. }
      destruct l as [|e2 l].
      + inversion A as [u u' Q T| |]; subst. exists t2. split; [|eapply sames_trans; [apply sames_sym; exact Q|exact H2]]. apply loop_stop. apply St. apply at_ends.
        rewrite (sames_tok _ _ H2), T, is_it. apply ends_ret.
      + destruct (IH ltac:(discriminate) (acc ++ [e]) t2 H2) as (t' & R' & Q). exists t'. split; [|exact Q]. rewrite <- app_assoc in R'. eapply loop_next; [|exact R'].
        apply St. apply at_ends. assert (N : it_tok (st_look s2) <> TPunct PCloseParen) by (inversion A; subst; eapply val_start; eauto).
        rewrite (sames_tok _ _ H2), (is_not _ _ N). apply ends_ret.
  Qed.
  Lemma run_argl acc s r s' : ends (Loop acc arg_step) s (Ok r) s' -> exists l, r = acc ++ l /\ argl s l s' /\ l <> [].
  Proof.
    intros R. refine (loop_ends g _ _ arg_step (fun acc s r s' => exists l, r = acc ++ l /\ argl s l s' /\ l <> []) _ _ acc s r s' R).
    - intros acc0 s0 r0 s0' R0. unfold arg_step in R0. apply bind_ends in R0 as (e & s1 & R1 & R0). apply arg_val in R1. apply ends_at in R0.
      destruct (is_punct PCloseParen (it_tok (st_look s1))) eqn:B.
      + apply is_punct_eq in B. apply ret_ends in R0 as [R0 ->]. injection R0 as ->. exists [e]. split; [reflexivity|]. split; [|discriminate]. eapply argl_last; eauto. apply sames_refl.
      + apply bind_ends in R0 as (u & s2 & R2 & R0). apply comma_pass in R2. apply ends_at in R0. destruct (is_punct PCloseParen (it_tok (st_look s2))) eqn:B2.
        * apply is_punct_eq in B2. apply ret_ends in R0 as [R0 ->]. injection R0 as ->. exists [e]. split; [reflexivity|]. split; [|discriminate]. eapply argl_more; eauto. constructor; [apply sames_refl|exact B2].
        * apply ret_ends in R0 as [R0 _]. discriminate R0.
    - intros acc0 s0 y s1 r0 s0' R0 (l & -> & A & L). unfold arg_step in R0. apply bind_ends in R0 as (e & s2 & R1 & R0). apply arg_val in R1. apply ends_at in R0.
      destruct (is_punct PCloseParen (it_tok (st_look s2))) eqn:B; [apply ret_ends in R0 as [R0 _]; discriminate R0|].
      apply bind_ends in R0 as (u & s3 & R2 & R0). apply comma_pass in R2. apply ends_at in R0. destruct (is_punct PCloseParen (it_tok (st_look s3))); [apply ret_ends in R0 as [R0 _]; discriminate R0|].
      apply ret_ends in R0 as [R0 ->]. injection R0 as ->. exists (e :: l). split; [rewrite <- app_assoc; reflexivity|]. split; [|discriminate]. eapply argl_more; eauto.
  Qed.
  Lemma args_run s0 s1 l s2 s3 t : passes g (TPunct POpenParen) s0 s1 -> argl s1 l s2 -> passes g (TPunct PCloseParen) s2 s3 -> sames s0 t ->
    exists t', ends (Call CArgs) t (Ok l) t' /\ sames s3 t'.
  Proof.
    intros P1 A P2 H. destruct (passes_sames _ _ _ _ _ P1 H) as (t1 & P1' & H1).
    assert (K : exists t2, ends (ifM at_punct PCloseParen then Ret [] else Loop [] arg_step) t1 (Ok l) t2 /\ sames s2 t2).
    { destruct l as [|e l].
      - inversion A as [u u' Q T| |]; subst. exists t1. split; [|eapply sames_trans; [apply sames_sym; exact Q|exact H1]]. apply at_ends. rewrite (sames_tok _ _ H1), T, is_it. apply ends_ret.
      - destruct (argl_run _ _ _ A ltac:(discriminate) [] t1 H1) as (t2 & R & Q). exists t2. split; [|exact Q]. apply at_ends.
        assert (N : it_tok (st_look s1) <> TPunct PCloseParen) by (inversion A; subst; eapply val_start; eauto). rewrite (sames_tok _ _ H1), (is_not _ _ N). exact R. }
    destruct K as (t2 & R & H2). destruct (passes_sames _ _ _ _ _ P2 H2) as (t3 & P3 & H3). exists t3. split; [|exact H3]. apply ends_body. cbn [body]. unfold args, arg_list.
    eapply ends_ok; [apply pass_expect; exact P1'|]. eapply ends_ok; [exact R|]. eapply ends_ok; [apply pass_expect; exact P3|]. apply ends_ret.
  Qed.
  Lemma run_args s l s' : ends (Call CArgs) s (Ok l) s' -> exists s1 s2, passes g (TPunct POpenParen) s s1 /\ argl s1 l s2 /\ passes g (TPunct PCloseParen) s2 s'.
  Proof.
    intros R. apply body_ends in R. cbn [body] in R. unfold args, arg_list in R. apply bind_ends in R as (u & s1 & R1 & R). apply expect_pass in R1.
    apply bind_ends in R as (l1 & s2 & R2 & R). apply bind_ends in R as (v & s3 & R3 & R). apply expect_pass in R3. apply ret_ends in R as [-> ->].
    exists s1, s2. split; [exact R1|]. split; [|exact R3]. apply ends_at in R2. destruct (is_punct PCloseParen _) eqn:B.
    - apply is_punct_eq in B. apply ret_ends in R2 as [-> ->]. constructor; [apply sames_refl|exact B].
    - change (ends (Loop [] arg_step) s1 (Ok l1) s2) in R2. apply run_argl in R2 as (l & -> & A & _). exact A.
  Qed.
End Lists.

Section Literal.
  Variable g : cfg.
  Notation evs := (evs g).
  Variables (s0 s3 : state) (l : list (option Expr)).
  Definition Post (a : Expr) (t : state) : Prop := a = EArray l /\ sames s3 t.
  Hypothesis open_bracket : it_tok (st_look s0) = TPunct POpenBracket.
  Hypothesis made : forall s, sames s0 s -> evs (Call CArrayInit) s Post.
  (** *** From the literal up to the expression *)
  Hypothesis follows : In (it_tok (st_look s3)) closers.
  Hypothesis spelled : exists w, slice (g_stream g) (it_start (st_look s0)) (it_end (st_look s0)) = Some w.
  Hypothesis allowed : c_allow_in (st_ctx s0) = true.
  Hypothesis kept : c_allow_in (st_ctx s3) = true.
  Lemma post_moved a t t' : Post a t -> sames t t' -> Post a t'.
  Proof. intros [-> H] K. split; [reflexivity|eapply sames_trans; eauto]. Qed.
  Definition Reads (p : P Expr) : Prop := forall s, sames s0 s -> evs p s Post.
  Lemma reads_inh p : Reads p -> Reads (inheriting p).
  Proof.
    intros R s H. unfold inheriting, inherit_cover, isolate_cover, get_cover, upd.
    apply evs_bind. apply evs_bind. apply evs_bind. eapply evs_do; [reflexivity|]. apply evs_ret.
    apply evs_bind. eapply evs_do; [reflexivity|]. apply evs_ret. apply evs_bind. eapply evs_mono; [|apply R].
    2:{ eapply sames_trans; [exact H|]. apply (sames_cover (fun _ => true) (fun _ => true) (fun _ => None)). }
    intros a t Pt. cbn beta in *. apply evs_bind. unfold set_inherit_cover, upd. eapply evs_do; [reflexivity|]. apply evs_ret.
    eapply post_moved; [exact Pt|]. split; [|reflexivity]. cbn. destruct (st_ctx t). reflexivity.
  Qed.
  Lemma reads_iso p s : Reads p -> sames s0 s -> evs (isolated p) s Post.
  Proof.
    intros R H. unfold isolated, isolate_cover, get_cover, upd.
    apply evs_bind. apply evs_bind. apply evs_bind. eapply evs_do; [reflexivity|]. apply evs_ret.
    apply evs_bind. eapply evs_do; [reflexivity|]. apply evs_ret. apply evs_bind. eapply evs_mono; [|apply R].
    2:{ eapply sames_trans; [exact H|]. apply (sames_cover (fun _ => true) (fun _ => true) (fun _ => None)). }
    intros a t Pt. cbn beta in *. apply evs_bind. unfold set_isolate_cover, upd. eapply evs_do; [reflexivity|]. apply evs_ret.
    eapply post_moved; [exact Pt|]. split; [|reflexivity]. cbn. destruct (st_ctx t). reflexivity.
  Qed.
  Ltac lk := apply evs_bind; (eapply evs_do; [reflexivity|]); apply evs_ret.
  Lemma reads_primary : Reads (Call CPrimaryExpression).
  Proof.
    intros s H. apply evs_call. cbn [body]. unfold primary_expression, look_tok, look. apply evs_bind. lk.
    rewrite (sames_look _ _ H), open_bracket. change (evs (inheriting (Call CArrayInit)) s Post). apply reads_inh; [|exact H]. intros t. apply made.
  Qed.
  Lemma look_start s : sames s0 s -> it_tok (st_look s) = TPunct POpenBracket.
  Proof. intros H. rewrite (sames_look _ _ H). exact open_bracket. Qed.
  Lemma look_end a s : Post a s -> In (it_tok (st_look s)) closers.
  Proof. intros [_ H]. rewrite (sames_look _ _ H). exact follows. Qed.
  Lemma allow_id b s : c_allow_in (st_ctx s) = b -> sames s (upd_ctx (set_allow_in b) s).
  Proof. intros <-. split; [|reflexivity]. cbn. destruct (st_ctx s). reflexivity. Qed.
  Lemma reads_lhs : Reads (Call CLeftHandSideExprAllowCall).
  Proof.
    intros s H. apply evs_call. cbn [body]. unfold lhs_allow_call, at_contextual, stream_at, look, get, upd, at_keyword, look_tok, look.
    apply evs_bind. eapply evs_do; [reflexivity|]. apply evs_bind. apply evs_bind. eapply evs_do; [reflexivity|]. apply evs_bind. apply evs_bind. eapply evs_do; [reflexivity|].
    rewrite (sames_look _ _ H). destruct spelled as [w W]. rewrite W. apply evs_ret. apply evs_ret.
    apply evs_bind. lk. apply evs_bind. eapply evs_do; [reflexivity|]. apply evs_bind. apply evs_bind. lk. apply evs_ret.
    cbn [upd_ctx st_look]. rewrite (look_start s H). apply evs_bind. lk. change (is_keyword KSuper (TPunct POpenBracket)) with false. cbn [andb].
    set (u := upd_ctx (set_allow_in true) s).
    assert (Hi : c_allow_in (st_ctx s) = true) by (rewrite (sames_in _ _ H); exact allowed).
    assert (U : sames s0 u) by (eapply sames_trans; [exact H|apply allow_id; exact Hi]).
    apply evs_bind. eapply evs_mono; [|apply (reads_inh (ifM (t <- (la <- Do OLook;; Ret (it_tok la));; Ret (is_keyword KNew t)) then Call CNewExpr else Call CPrimaryExpression)); [|exact U]].
    2:{ intros v Hv. apply evs_bind. apply evs_bind. lk. apply evs_ret. rewrite (look_start v Hv). apply reads_primary. exact Hv. }
    intros a t Pt. cbn beta. apply evs_bind. apply evs_loop. apply evs_bind. lk.
    pose proof (look_end _ _ Pt) as F. unfold closers in F. cbn [In] in F.
    assert (B : is_punct PPeriod (it_tok (st_look t)) = false /\ is_punct POpenParen (it_tok (st_look t)) = false
      /\ is_punct POpenBracket (it_tok (st_look t)) = false /\ is_template_head (it_tok (st_look t)) = false)
      by (decompose [or] F; try contradiction; match goal with X : _ = it_tok (st_look t) |- _ => rewrite <- X end; auto).
    destruct B as (-> & -> & -> & ->). apply evs_ret. apply evs_bind. eapply evs_do; [reflexivity|]. apply evs_ret.
    eapply post_moved; [exact Pt|]. apply allow_id. rewrite Hi. destruct Pt as [_ Pt]. rewrite (sames_in _ _ Pt).
    exact kept.
  Qed.
  Ltac ends t Pt :=
    let F := fresh "F" in
    pose proof (look_end _ _ Pt) as F; unfold closers in F; cbn [In] in F;
    decompose [or] F; clear F; try contradiction; match goal with X : _ = it_tok (st_look t) |- _ => rewrite <- X end.
  Lemma reads_update : Reads (Call CUpdateExpr).
  Proof.
    intros s H. apply evs_call. cbn [body]. unfold update_expr, look. apply evs_bind. eapply evs_do; [reflexivity|]. cbn zeta.
    rewrite (look_start s H). change (is_punct PIncrement (TPunct POpenBracket) || is_punct PDecrement (TPunct POpenBracket)) with false. cbn iota.
    apply evs_bind. eapply evs_mono; [|apply (reads_inh _ reads_lhs _ H)]. intros a t Pt. cbn beta.
    apply evs_bind. eapply evs_do; [reflexivity|]. apply evs_bind. unfold look_tok, look. lk.
    replace (negb (st_nl t) && _) with false by (symmetry; ends t Pt; apply andb_false_r). apply evs_ret. exact Pt.
  Qed.
  Lemma reads_unary : Reads (Call CUnaryExpression).
  Proof.
    intros s H. apply evs_call. cbn [body]. unfold unary_expression, look_tok, look, get. apply evs_bind. lk. rewrite (look_start s H).
    match goal with |- evs (if ?b then _ else _) _ _ => change b with false end. cbn iota. apply evs_bind. lk.
    replace (_ && is_keyword KAwait (TPunct POpenBracket)) with false by (symmetry; apply andb_false_r). apply reads_update. exact H.
  Qed.
  Lemma reads_exp : Reads (Call CExponentiation).
  Proof.
    intros s H. apply evs_call. cbn [body]. unfold exponentiation. apply evs_bind. eapply evs_mono; [|apply (reads_inh _ reads_unary _ H)]. intros a t Pt. cbn beta.
    unfold at_punct, look_tok, look. apply evs_bind. apply evs_bind. lk. apply evs_ret.
    replace (is_punct PExponent _) with false by (ends t Pt; reflexivity). apply evs_ret. exact Pt.
  Qed.
  Lemma reads_binary : Reads (Call CBinaryExpression).
  Proof.
    intros s H. apply evs_call. cbn [body]. unfold binary_expression. apply evs_bind. eapply evs_mono; [|apply (reads_inh _ reads_exp _ H)]. intros a t Pt. cbn beta.
    unfold look_tok, look, get. apply evs_bind. lk. apply evs_bind. lk. cbn zeta.
    replace (bin_precedence _ _) with 0 by (ends t Pt; reflexivity). cbn [Nat.eqb]. apply evs_ret. exact Pt.
  Qed.
  Lemma reads_conditional : Reads (Call CConditionalExpr).
  Proof.
    intros s H. apply evs_call. cbn [body]. unfold conditional_expr. apply evs_bind. eapply evs_mono; [|apply (reads_inh _ reads_binary _ H)]. intros a t Pt. cbn beta.
    unfold at_punct, look_tok, look. apply evs_bind. apply evs_bind. lk. apply evs_ret.
    replace (is_punct PQuestionMark _) with false by (ends t Pt; reflexivity). apply evs_ret. exact Pt.
  Qed.
  Lemma reads_assignment : Reads (Call CAssignmentExpr).
  Proof.
    intros s H. apply evs_call. cbn [body]. unfold assignment_expr, get, look, look_tok, look, stream_at. apply evs_bind. lk.
    apply evs_bind. eapply evs_do; [reflexivity|]. rewrite (look_start s H).
    replace (_ && is_keyword KYield (TPunct POpenBracket)) with false by (symmetry; apply andb_false_r).
    apply evs_bind. eapply evs_do; [reflexivity|]. apply evs_bind. eapply evs_mono; [|apply (reads_conditional _ H)]. intros a t Pt. cbn beta.
    apply evs_bind. eapply evs_do; [reflexivity|]. apply evs_bind. apply evs_bind. eapply evs_do; [reflexivity|].
    rewrite (sames_look _ _ H). destruct spelled as [w W]. rewrite W. apply evs_ret. apply evs_bind. lk. apply evs_bind.
    replace (_ && (is_ident _ || _)) with false by (symmetry; ends t Pt; apply andb_false_r). apply evs_ret. apply evs_bind. lk.
    destruct Pt as [-> Pt]. change (is_placeholder (EArray l)) with false. pose proof (conj (eq_refl (EArray l)) Pt) as Pt'. fold (Post (EArray l) t) in Pt'.
    replace (is_punct PFatArrow _) with false by (ends t Pt'; reflexivity). cbn [orb].
    replace (assign_tok _) with false by (ends t Pt'; reflexivity). apply evs_ret. exact Pt'.
  Qed.
  Lemma reads_expression : it_tok (st_look s3) <> TPunct PComma -> Reads (Call CExpression).
  Proof.
    intros N s H. apply evs_call. cbn [body]. unfold expression. apply evs_bind. eapply evs_mono; [|apply (reads_iso _ _ reads_assignment H)]. intros a t Pt. cbn beta.
    unfold at_punct, look_tok, look. apply evs_bind. apply evs_bind. lk. apply evs_ret.
    replace (is_punct PComma _) with false; [apply evs_ret; exact Pt|]. symmetry. destruct (is_punct PComma _) eqn:E; [|reflexivity].
    apply is_punct_eq in E. destruct Pt as [_ Pt]. rewrite (sames_look _ _ Pt) in E. contradiction.
  Qed.
End Literal.
