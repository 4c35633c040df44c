(** Between two parts the parser remembers nothing of what it has read but two flags of its
    context: from there on it behaves as a fresh parser does on the text that is left. *)
From Verif Require Export Same Handed Spec Runs.
Export Parser.
Local Open Scope nat_scope.
Local Open Scope list_scope.

(** The end of the text is noted only when it is next. *)
Definition noted (s : state) : Prop := st_found_eof s = true -> is_eof (it_tok (st_look s)) = true.

Lemma next_item_noted g items s r s' : next_item g s = (r, s') -> placed (g_stream g) items s -> noted s -> noted s'.
Proof.
  intros E ((_ & _ & _ & Hs) & _) Hn.
  assert (L : forall rest sp s r s', next_item_loop g rest sp s = (r, s') -> st_found_eof s = false ->
    is_eof (it_tok (st_look s)) = false \/ rest = [] -> noted s').
  { clear. induction rest as [|x rest IH]; intros sp s r s'; cbn [next_item_loop].
    - intros H F _. destruct (is_eof (it_tok (st_look s))) eqn:Eo; rewrite ?F in H; inversion H; subst; intros K; cbn in *; congruence.
    - intros H F [Eo|?]; [|discriminate]. destruct (update_positions _ _ _ _ _) as [[cur lpos]|]; [|inversion H; subst; intros K; congruence].
      destruct (it_tok (r_item x)) eqn:Et.
      11:{ destruct (slice _ _ _); [|inversion H; subst; intros K; cbn in K; congruence]. eapply IH; [exact H|exact F|left; exact Eo]. }
      all: inversion H; subst; intros K; cbn in K; congruence. }
  destruct (st_found_eof s) eqn:F.
  - specialize (Hn F). rewrite Hn in Hs. unfold next_item in E. rewrite Hs in E. cbn [next_item_loop] in E. rewrite Hn, F in E.
    inversion E; subst. intros _. exact Hn.
  - eapply L; [exact E|exact F|]. destruct (is_eof (it_tok (st_look s))); auto.
Qed.
Lemma run_noted g items n B (p : P B) s r s' : run (@body) g n p s = (r, s') ->
  placed (g_stream g) items s /\ noted s -> placed (g_stream g) items s' /\ noted s'.
Proof.
  eapply (run_rel _ (@body) g (fun a b => placed (g_stream g) items a /\ noted a -> placed (g_stream g) items b /\ noted b)); auto.
  clear. intros B o s r s' H [P N]. split; [eapply exec_placed; eauto|].
  pose proof (fun r t E => next_item_noted g items s r t E P N) as Hn.
  destruct o; cbn -[next_item] in H;
    repeat match type of H with
           | context [match ?x with _ => _ end] => destruct x eqn:?
           end; try (inversion H; subst; auto; eapply Hn; eauto; fail).
Qed.

(** ** The context between parts *)

(** The flags that may be left changed are those of the cover grammar, which every statement sets
    anew, and the two that [settled] is about. *)
Definition settled (s : state) : Prop := c_allow_yield (st_ctx s) = true /\ c_allow_strict_directive (st_ctx s) = true.
Definition plain (c : ctx) : Prop :=
  c_in_function_body c = false /\ c_in_iteration c = false /\ c_in_switch c = false /\ c_await c = false
  /\ c_strict c = false /\ c_allow_in c = true /\ c_label_set c = [].

Lemma part_plain g n s b s' : run_call (@body) g n CNextPart s = (Ok b, s') -> plain (st_ctx s) -> plain (st_ctx s').
Proof.
  intros H P. apply call_restores in H.
  assert (E : exists past, core_of false (st_ctx s') =
    mkCore (c_in_function_body (st_ctx s)) (c_await (st_ctx s)) true (c_label_set (st_ctx s)) (c_strict (st_ctx s))
      (c_allow_in (st_ctx s)) (c_in_iteration (st_ctx s)) (c_in_switch (st_ctx s)) past) by (rewrite H; eexists; reflexivity).
  destruct E as [past E]. unfold core_of in E. inversion E. unfold plain in *. intuition congruence.
Qed.

Definition midway (g : cfg) (items : list raw) (s : state) : Prop :=
  placed (g_stream g) items s /\ noted s /\ plain (st_ctx s).
Lemma yields_midway g items s parts t : yields g s parts t -> midway g items s -> midway g items t.
Proof.
  induction 1 as [s|s part s' parts t (_ & n & E) _ IH]; intros M; [exact M|]. apply IH. clear IH.
  destruct M as (P & N & C). unfold iter_next in E. destruct (is_eof (it_tok (st_look s))); [discriminate|].
  destruct (run_call _ g n CNextPart s) as [r t'] eqn:R. injection E as -> ->.
  destruct (run_noted g items n _ (Call CNextPart) s _ _ R (conj P N)) as [P' N']. split; [exact P'|]. split; [exact N'|].
  eapply part_plain; eauto.
Qed.

(** ** The first part after *)
Definition forced (s : state) : state :=
  mkState (set_binding_element true (set_assign_target true (set_past_prolog true (st_ctx s)))) (st_look s) (st_found_eof s) (st_cur_pos s) (st_look_pos s)
    (st_rest s) (st_nl s) (st_comments s).
Lemma next_part_forced g n s : is_string (it_tok (st_look s)) = false ->
  (fst (run_call (@body) g n CNextPart s) = NoFuel /\ fst (run_call (@body) g n CNextPart (forced s)) = NoFuel)
  \/ run_call (@body) g n CNextPart s = run_call (@body) g n CNextPart (forced s).
Proof.
  intros H. destruct n as [|n]; [left; split; reflexivity|]. cbn [run_call body]. unfold next_part, look_tok, look, get, upd. cbn [run_in exec forced st_look st_ctx].
  rewrite H, !andb_false_r. cbn [run_in exec forced st_look st_ctx]. destruct n as [|n]; [left; split; reflexivity|]. right. reflexivity.
Qed.

Lemma yields_inv g s parts t : yields g s parts t ->
  (parts = [] /\ t = s) \/ exists part s' parts', parts = part :: parts' /\ next_returns g s (Some (Ok part)) s' /\ yields g s' parts' t.
Proof. inversion 1; subst; eauto 10. Qed.

Section Suffix.
  Variables (sc : scanner) (tolerant module : bool) (js1 js2 : text).
  Notation g1 := (make_cfg sc tolerant module js1).
  Notation g2 := (make_cfg sc tolerant module js2).
  Notation items1 := (sc_scan sc js1).
  Notation items2 := (sc_scan sc js2).
  Hypothesis contract2 : scan_contract js2 items2.
  Hypothesis ends : sc_end_nl sc js1 = sc_end_nl sc js2.
  Hypothesis async_agrees : async_alike js1 js2 items1 items2.

  (** What is left to read, as [signs] says it of a whole text. *)
  Definition left_signs (s : state) : list (token * option text * bool) :=
    (it_tok (st_look s), slice js1 (it_start (st_look s)) (it_end (st_look s)), st_nl s)
    :: map (fun r => (it_tok (r_item r), slice js1 (it_start (r_item r)) (it_end (r_item r)), r_nl r)) (filter nc (st_rest s)).

  Variables (t1 s2 : state) (i2 : item).
  Hypothesis mid : midway g1 items1 t1.
  Hypothesis set : settled t1.
  Hypothesis fresh : start g2 items2 = (Ok i2, s2).
  Hypothesis rest_is : left_signs t1 = signs sc js2.
  Hypothesis no_string : is_string (it_tok (st_look t1)) = false.

  Lemma fresh_before : before false js2 s2 = signs sc js2 /\ st_ctx s2 = default_ctx /\ st_found_eof s2 = false.
  Proof.
    unfold start, next_item in fresh. assert (Hn : filter nc items2 <> []) by (apply ends_not_comments; apply contract2).
    pose proof (loop_before false g2 items2 (0, 0) (initial_state items2) i2 s2 fresh (or_intror Hn)) as (E & Ec & Ef).
    split; [|split; [exact Ec|exact Ef]]. change (g_stream g2) with js2 in E. rewrite E. unfold signs. apply map_ext. intros r.
    unfold raw_sign, sign, mark. cbn. rewrite andb_true_r. reflexivity.
  Qed.
  Lemma left_before s : before false js1 s = left_signs s.
  Proof.
    unfold before, left_signs, sign, mark. cbn [andb negb]. rewrite andb_true_r. f_equal. apply map_ext. intros r.
    unfold raw_sign, sign, mark. cbn. rewrite andb_true_r. reflexivity.
  Qed.
  Lemma heads : it_tok (st_look s2) = it_tok (st_look t1) /\ is_comment (it_tok (st_look t1)) = false.
  Proof.
    destruct fresh_before as (B & _). assert (E : it_tok (st_look s2) = it_tok (st_look t1)).
    { rewrite <- rest_is, <- left_before in B. exact (f_equal (fun l => fst (fst (hd (TEoF, None, false) l))) B). }
    split; [exact E|]. rewrite <- rest_is in B. unfold left_signs in rest_is. unfold signs in rest_is.
    destruct (filter nc items2) as [|r q] eqn:Er; [discriminate|].
    pose proof (f_equal (fun l => fst (fst (hd (TEoF, None, false) l))) rest_is) as T. cbn in T. rewrite T.
    assert (Ir : In r (filter nc items2)) by (rewrite Er; left; reflexivity).
    apply filter_In in Ir. destruct Ir as [_ Ir]. unfold nc in Ir. apply negb_true_iff in Ir. exact Ir.
  Qed.
  Lemma forced_related : is_eof (it_tok (st_look t1)) = false -> Rs g1 g2 items1 items2 false (forced t1) (forced s2).
  Proof.
    intros Eo. destruct fresh_before as (B & C & F). destruct mid as (P & N & (Q1 & Q2 & Q3 & Q4 & Q5 & Q6 & Q7)). destruct set as [Y D].
    split.
    { unfold csame, forced. cbn [st_ctx]. rewrite C. destruct (st_ctx t1). cbn in *. subst. reflexivity. }
    split; [cbn; rewrite F; destruct (st_found_eof t1) eqn:E; [rewrite (N E) in Eo; discriminate|reflexivity]|].
    split; [change (before false js1 t1 = before false js2 s2); rewrite left_before, B; exact rest_is|].
    split; [apply Forall_forall; intros x _ ?; discriminate|].
    split; [apply heads|]. split; [exact P|exact (start_placed sc tolerant module js2 i2 s2 contract2 fresh)].
  Qed.

  (** [next] on both. *)
  Lemma first_next n :
    option_map unplaced_outcome (fst (iter_next g1 n t1)) = option_map unplaced_outcome (fst (iter_next g2 n s2))
    /\ (is_eof (it_tok (st_look t1)) = false -> fst (iter_next g1 n t1) <> Some NoFuel -> fst (iter_next g1 n t1) <> Some Panic ->
        Rs g1 g2 items1 items2 false (snd (iter_next g1 n t1)) (snd (iter_next g2 n s2))).
  Proof.
    destruct heads as [H _]. unfold iter_next. rewrite H. destruct (is_eof (it_tok (st_look t1))) eqn:Eo; [split; [reflexivity|discriminate]|].
    pose proof (iter_next_same g1 g2 items1 items2 false eq_refl eq_refl eq_refl eq_refl eq_refl (or_intror ends) eq_refl eq_refl async_agrees n _ _ (forced_related Eo)) as [X1 X2].
    unfold iter_next in X1, X2. change (st_look (forced t1)) with (st_look t1) in X1, X2. change (st_look (forced s2)) with (st_look s2) in X1, X2.
    rewrite H, Eo in X1, X2.
    pose proof (next_part_forced g1 n t1 no_string) as F1. pose proof (next_part_forced g2 n s2) as F2. rewrite H in F2. specialize (F2 no_string).
    destruct (run_call _ g1 n CNextPart t1) as [a1 u1], (run_call _ g1 n CNextPart (forced t1)) as [b1 v1],
      (run_call _ g2 n CNextPart s2) as [a2 u2], (run_call _ g2 n CNextPart (forced s2)) as [b2 v2]. cbn [fst snd option_map] in *.
    destruct F1 as [[-> ->]|F1].
    - cbn in X1. destruct b2; cbn in X1; try discriminate. destruct F2 as [[-> _]|F2]; [|injection F2 as -> _]; split; try reflexivity; intros; congruence.
    - injection F1 as -> ->. destruct F2 as [[-> ->]|F2].
      + cbn in X1. destruct b1; cbn in X1; try discriminate. split; [reflexivity|]. intros; congruence.
      + injection F2 as -> ->. split; [exact X1|]. intros _. exact X2.
  Qed.

  (** Both directions: what one hands out, the other does. *)
  Lemma related_iterations u1 u2 : Rs g1 g2 items1 items2 false u1 u2 ->
    (forall parts v1 r w1, yields g1 u1 parts v1 -> next_returns g1 v1 r w1 ->
      exists v2 r2 w2, yields g2 u2 parts v2 /\ next_returns g2 v2 r2 w2 /\ option_map unplaced_outcome r = option_map unplaced_outcome r2)
    /\ (forall parts v2 r w2, yields g2 u2 parts v2 -> next_returns g2 v2 r w2 ->
      exists v1 r1 w1, yields g1 u1 parts v1 /\ next_returns g1 v1 r1 w1 /\ option_map unplaced_outcome r1 = option_map unplaced_outcome r).
  Proof.
    intros R.
    pose proof (fun n a b => iter_next_same g1 g2 items1 items2 false eq_refl eq_refl eq_refl eq_refl eq_refl (or_intror ends) eq_refl eq_refl async_agrees n a b) as X.
    split; intros parts v r w Y N; revert dependent R; [revert u2|revert u1].
    - induction Y as [s|s part s' parts s'' (N1 & n & E) Y IH]; intros q R.
      + destruct N as (N1 & n & E). destruct (X n s q R) as [X1 _]. destruct (iter_next g2 n q) as [r2 w2] eqn:E2. rewrite E in X1. cbn [fst] in X1.
        exists q, r2, w2. split; [constructor|]. split; [|exact X1]. split; [|exists n; exact E2].
        intros ->. destruct r as [[?|?| |]|]; cbn in X1; congruence.
      + destruct (X n s q R) as [X1 X2]. rewrite E in X1, X2. cbn [fst snd] in X1, X2. destruct (iter_next g2 n q) as [r2 q2] eqn:E2. cbn [fst snd] in X1, X2.
        destruct r2 as [[a|?| |]|]; cbn in X1; try congruence. injection X1 as <-. specialize (X2 ltac:(discriminate) ltac:(discriminate)).
        destruct (IH N q2 X2) as (v2 & r2 & w2 & Y2 & N2 & E3). exists v2, r2, w2. split; [|split; assumption].
        econstructor; [|exact Y2]. split; [discriminate|]. exists n. exact E2.
    - induction Y as [s|s part s' parts s'' (N1 & n & E) Y IH]; intros q R.
      + destruct N as (N1 & n & E). destruct (X n q s R) as [X1 _]. destruct (iter_next g1 n q) as [r2 w2] eqn:E2. rewrite E in X1. cbn [fst] in X1.
        exists q, r2, w2. split; [constructor|]. split; [|exact X1]. split; [|exists n; exact E2].
        intros ->. destruct r as [[?|?| |]|]; cbn in X1; congruence.
      + destruct (X n q s R) as [X1 X2]. rewrite E in X1, X2. cbn [fst snd] in X1, X2. destruct (iter_next g1 n q) as [r2 q2] eqn:E2. cbn [fst snd] in X1, X2.
        destruct r2 as [[a|?| |]|]; cbn in X1; try congruence. injection X1 as ->. specialize (X2 ltac:(discriminate) ltac:(discriminate)).
        destruct (IH N q2 X2) as (v2 & r2 & w2 & Y2 & N2 & E3). exists v2, r2, w2. split; [|split; assumption].
        econstructor; [|exact Y2]. split; [discriminate|]. exists n. exact E2.
  Qed.

  Lemma suffix_iterations :
    (forall parts v1 r w1, yields g1 t1 parts v1 -> next_returns g1 v1 r w1 ->
      exists v2 r2 w2, yields g2 s2 parts v2 /\ next_returns g2 v2 r2 w2 /\ option_map unplaced_outcome r = option_map unplaced_outcome r2)
    /\ (forall parts v2 r w2, yields g2 s2 parts v2 -> next_returns g2 v2 r w2 ->
      exists v1 r1 w1, yields g1 t1 parts v1 /\ next_returns g1 v1 r1 w1 /\ option_map unplaced_outcome r1 = option_map unplaced_outcome r).
  Proof.
    destruct (is_eof (it_tok (st_look t1))) eqn:Eo.
    - assert (E1 : forall n, iter_next g1 n t1 = (None, t1)) by (intros n; unfold iter_next; rewrite Eo; reflexivity).
      assert (E2 : forall n, iter_next g2 n s2 = (None, s2)) by (intros n; unfold iter_next; rewrite (proj1 heads), Eo; reflexivity).
      split; intros parts v r w Y N; (inversion Y as [|? ? ? ? ? (_ & n & E) _]; subst; [|rewrite ?E1, ?E2 in E; discriminate]).
      + destruct N as (_ & n & E). rewrite E1 in E. injection E as <- <-. exists s2, None, s2.
        split; [constructor|]. split; [|reflexivity]. split; [discriminate|]. exists 0. apply E2.
      + destruct N as (_ & n & E). rewrite E2 in E. injection E as <- <-. exists t1, None, t1.
        split; [constructor|]. split; [|reflexivity]. split; [discriminate|]. exists 0. apply E1.
    - split; intros parts v r w Y N.
      + apply yields_inv in Y. destruct Y as [[-> ->]|(part & s' & parts' & -> & (N1 & n & E) & Y')].
        * destruct N as (N1 & n & E). destruct (first_next n) as [X1 _]. destruct (iter_next g2 n s2) as [r2 w2] eqn:E2. rewrite E in X1. cbn [fst] in X1.
          exists s2, r2, w2. split; [constructor|]. split; [|exact X1]. split; [|exists n; exact E2].
          intros ->. destruct r as [[?|?| |]|]; cbn in X1; congruence.
        * destruct (first_next n) as [X1 X2]. rewrite E in X1, X2. cbn [fst snd] in X1, X2. destruct (iter_next g2 n s2) as [r2 q2] eqn:E2. cbn [fst snd] in X1, X2.
          destruct r2 as [[a|?| |]|]; cbn in X1; try congruence. injection X1 as <-. specialize (X2 Eo ltac:(discriminate) ltac:(discriminate)).
          destruct (proj1 (related_iterations _ _ X2) _ _ _ _ Y' N) as (v2 & r2 & w2 & Y2 & N2 & E3). exists v2, r2, w2. split; [|split; assumption].
          econstructor; [|exact Y2]. split; [discriminate|]. exists n. exact E2.
      + apply yields_inv in Y. destruct Y as [[-> ->]|(part & s' & parts' & -> & (N1 & n & E) & Y')].
        * destruct N as (N1 & n & E). destruct (first_next n) as [X1 _]. destruct (iter_next g1 n t1) as [r2 w2] eqn:E2. rewrite E in X1. cbn [fst] in X1.
          exists t1, r2, w2. split; [constructor|]. split; [|exact X1]. split; [|exists n; exact E2].
          intros ->. destruct r as [[?|?| |]|]; cbn in X1; congruence.
        * destruct (first_next n) as [X1 X2]. rewrite E in X1, X2. cbn [fst snd] in X1, X2. destruct (iter_next g1 n t1) as [r2 q2] eqn:E2. cbn [fst snd] in X1, X2.
          destruct r2 as [[a|?| |]|]; cbn in X1; try congruence. injection X1 as ->. specialize (X2 Eo ltac:(discriminate) ltac:(discriminate)).
          destruct (proj2 (related_iterations _ _ X2) _ _ _ _ Y' N) as (v2 & r2 & w2 & Y2 & N2 & E3). exists v2, r2, w2. split; [|split; assumption].
          econstructor; [|exact Y2]. split; [discriminate|]. exists n. exact E2.
  Qed.
End Suffix.

(** A fresh parser is midway. *)
Lemma fresh_midway sc tolerant module js i s : scan_contract js (sc_scan sc js) ->
  start (make_cfg sc tolerant module js) (sc_scan sc js) = (Ok i, s) -> midway (make_cfg sc tolerant module js) (sc_scan sc js) s.
Proof.
  intros C E. destruct (fresh_before sc tolerant module js C s i E) as (_ & Ec & Ef). split; [eapply start_placed; eauto|].
  split; [intros H; congruence|]. rewrite Ec. repeat split.
Qed.
