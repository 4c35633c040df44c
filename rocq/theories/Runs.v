(** Proofs about the API that follow from the generic facts of Meta.v. *)
From Verif Require Export Spec Meta.

Notation bd := (@body).

(** ** [run] and [parse] do not depend on the fuel *)
Lemma parse_mono g n n' s o s' : n <= n' -> parse g n s = (o, s') -> o <> NoFuel -> parse g n' s = (o, s').
Proof.
  unfold parse. intros Hle H Ho.
  destruct (run bd g n parse_parts s) as [r t] eqn:Hr.
  assert (r <> NoFuel) by (destruct r; congruence).
  erewrite run_mono; eauto.
Qed.

Lemma iter_next_mono g n n' s o s' : n <= n' -> iter_next g n s = (o, s') -> o <> Some NoFuel ->
  iter_next g n' s = (o, s').
Proof.
  unfold iter_next. intros Hle H Ho. destruct (is_eof _); auto.
  destruct (run_call bd g n CNextPart s) as [r t] eqn:Hr. inversion H; subst.
  erewrite run_call_mono; eauto. congruence.
Qed.

Definition mono {A} (f : nat -> outcome A * state) : Prop :=
  forall n n' o s', n <= n' -> f n = (o, s') -> o <> NoFuel -> f n' = (o, s').

Lemma returns_fun {A} (f : nat -> outcome A * state) : mono f ->
  forall o1 s1 o2 s2, returns f o1 s1 -> returns f o2 s2 -> o1 = o2 /\ s1 = s2.
Proof.
  intros Hm o1 s1 o2 s2 [N1 [n1 H1]] [N2 [n2 H2]].
  pose proof (Hm n1 (n1 + n2) _ _ ltac:(lia) H1 N1) as E1.
  pose proof (Hm n2 (n1 + n2) _ _ ltac:(lia) H2 N2) as E2.
  rewrite E1 in E2. inversion E2; auto.
Qed.

Lemma returns_ge {A} (f : nat -> outcome A * state) : mono f ->
  forall o s, returns f o s -> exists n0, forall n, n0 <= n -> f n = (o, s).
Proof. intros Hm o s [N [n H]]. exists n. intros. eapply Hm; eauto. Qed.

(** ** parse() and the iterator *)
Lemma run_bind_eq g n {A B} (p : P A) (k : A -> P B) s :
  run bd g n (Bind p k) s =
  match run bd g n p s with
  | (Ok a, s') => run bd g n (k a) s'
  | (Err e, s') => (Err e, s')
  | (Panic, s') => (Panic, s')
  | (NoFuel, s') => (NoFuel, s')
  end.
Proof. reflexivity. Qed.

Definition parts_step (acc : list ProgramPart) : P (list ProgramPart + list ProgramPart) :=
  t <- look_tok ;;
  if is_eof t then Ret (inr acc)
  else p <- Call CNextPart ;; Ret (inl (acc ++ [p])).

Lemma parts_step_eq g n acc s :
  run bd g n (parts_step acc) s =
  if is_eof (it_tok (st_look s)) then (Ok (inr acc), s)
  else match run_call bd g n CNextPart s with
       | (Ok p, s') => (Ok (inl (acc ++ [p])), s')
       | (Err e, s') => (Err e, s')
       | (Panic, s') => (Panic, s')
       | (NoFuel, s') => (NoFuel, s')
       end.
Proof.
  unfold parts_step, run, look_tok, look. cbn [run_in exec].
  destruct (is_eof (it_tok (st_look s))); [reflexivity|]. cbn [run_in].
  destruct (run_call bd g n CNextPart s) as [[?| | |] ?]; reflexivity.
Qed.

Lemma iter_parts g n : forall k acc s o s',
  iter (fun y t => run bd g n (parts_step y) t) k acc s = (o, s') -> o <> NoFuel ->
  match o with
  | Ok l => exists parts, l = acc ++ parts /\ yields g s parts s' /\ is_eof (it_tok (st_look s')) = true
  | Err e => exists parts s1, yields g s parts s1 /\ next_returns g s1 (Some (Err e)) s'
  | Panic => exists parts s1, yields g s parts s1 /\ next_returns g s1 (Some Panic) s'
  | NoFuel => False
  end.
Proof.
  induction k; intros acc s o s' H Ho; cbn [iter] in H; [inversion H; congruence|].
  rewrite parts_step_eq in H.
  destruct (is_eof (it_tok (st_look s))) eqn:He.
  - inversion H; subst. exists []. rewrite app_nil_r. repeat split; auto. constructor.
  - assert (Hnr : forall r s1, run_call bd g n CNextPart s = (r, s1) -> r <> NoFuel ->
              next_returns g s (Some r) s1).
    { intros r s1 E Hr. split; [congruence|]. exists n. unfold iter_next. rewrite He, E. reflexivity. }
    destruct (run_call bd g n CNextPart s) as [[p|e| |] s1] eqn:Hc.
    + apply IHk in H; auto. specialize (Hnr _ _ eq_refl ltac:(congruence)).
      destruct o as [l|e| |]; auto.
      * destruct H as (parts & -> & Hy & He'). exists (p :: parts). rewrite <- app_assoc.
        repeat split; auto. econstructor; eauto.
      * destruct H as (parts & t & Hy & Hn). exists (p :: parts), t. split; auto. econstructor; eauto.
      * destruct H as (parts & t & Hy & Hn). exists (p :: parts), t. split; auto. econstructor; eauto.
    + inversion H; subst. exists [], s. split; [constructor|]. apply Hnr; congruence.
    + inversion H; subst. exists [], s. split; [constructor|]. apply Hnr; congruence.
    + inversion H; congruence.
Qed.

Definition end_of (r : option (outcome ProgramPart)) (l : list ProgramPart) : outcome (list ProgramPart) :=
  match r with
  | None => Ok l
  | Some (Err e) => Err e
  | Some Panic => Panic
  | Some _ => NoFuel
  end.

Lemma iter_parts_conv g parts : forall s s1, yields g s parts s1 ->
  forall r s2, next_returns g s1 r s2 -> (forall p, r <> Some (Ok p)) ->
  exists n0, forall n k acc, n0 <= n -> length parts < k ->
    iter (fun y t => run bd g n (parts_step y) t) k acc s = (end_of r (acc ++ parts), s2).
Proof.
  intros s s1 Hy. induction Hy as [s|s part s1 parts s2 Hn Hy IH]; intros r s3 [Hr [n Hnx]] Hnok.
  - exists n. intros n' [|k] acc Hle Hk; cbn in Hk; [lia|]. cbn [iter]. rewrite parts_step_eq.
    pose proof (iter_next_mono _ _ _ _ _ _ Hle Hnx Hr) as Hnx'.
    unfold iter_next in Hnx'. destruct (is_eof (it_tok (st_look s))).
    + inversion Hnx'; subst. rewrite app_nil_r. reflexivity.
    + destruct (run_call bd g n' CNextPart s) as [o t] eqn:Hc. inversion Hnx'; subst.
      destruct o; cbn; congruence.
  - destruct (IH r s3 (conj Hr (ex_intro _ n Hnx)) Hnok) as [n1 H1].
    destruct Hn as [Hne [n0 Hn0]].
    exists (n0 + n1). intros n' [|k] acc Hle Hk; cbn in Hk; [lia|]. cbn [iter]. rewrite parts_step_eq.
    apply (iter_next_mono g n0 n') in Hn0; [|lia|congruence].
    unfold iter_next in Hn0. destruct (is_eof (it_tok (st_look s))) eqn:He; [inversion Hn0|].
    destruct (run_call bd g n' CNextPart s) as [o t] eqn:Hc. inversion Hn0; subst.
    rewrite H1 by lia. rewrite <- app_assoc. reflexivity.
Qed.

Lemma parse_eq g n s :
  parse g n s = match iter (fun y t => run bd g n (parts_step y) t) n [] s with
                | (Ok l, s') => (Ok (make_program (g_module g) l), s')
                | (Err e, s') => (Err e, s')
                | (Panic, s') => (Panic, s')
                | (NoFuel, s') => (NoFuel, s')
                end.
Proof. reflexivity. Qed.

Lemma eof_next_none g s n : is_eof (it_tok (st_look s)) = true <-> iter_next g n s = (None, s).
Proof.
  unfold iter_next. destruct (is_eof _); [tauto|]. split; [discriminate|].
  destruct (run_call bd g n CNextPart s). discriminate.
Qed.

Lemma parse_is_iteration g s o s' :
  returns (fun n => parse g n s) o s' <->
  exists parts s1 r, yields g s parts s1 /\ next_returns g s1 r s' /\
    ((r = None /\ o = Ok (if g_module g then PMod parts else PScript parts))
     \/ (exists e, r = Some (Err e) /\ o = Err e)
     \/ (r = Some Panic /\ o = Panic)).
Proof.
  split.
  - intros [Hne [n H]]. rewrite parse_eq in H.
    destruct (iter _ n [] s) as [r t] eqn:Hi.
    assert (Hr : r <> NoFuel) by (destruct r; congruence).
    apply iter_parts in Hi; auto. destruct r as [l|e| |]; inversion H; subst; try congruence.
    + destruct Hi as (parts & -> & Hy & He). exists parts, s', None. split; auto. split.
      * split; [congruence|]. exists 0. apply eof_next_none. exact He.
      * left. split; auto.
    + destruct Hi as (parts & s1 & Hy & Hn). eauto 10.
    + destruct Hi as (parts & s1 & Hy & Hn). eauto 10.
  - intros (parts & s1 & r & Hy & Hn & Hc).
    destruct (iter_parts_conv g parts s s1 Hy r s' Hn) as [n0 H0].
    { destruct Hc as [[-> _]|[[e [-> _]]|[-> _]]]; congruence. }
    split; [destruct Hc as [[_ ->]|[[e [_ ->]]|[_ ->]]]; congruence|].
    exists (n0 + length parts + 1). rewrite parse_eq, H0 by lia. cbn [app].
    destruct Hc as [[-> ->]|[[e [-> ->]]|[-> ->]]]; cbn; auto.
Qed.

(** ** Tolerant and module options *)
Definition set_tol (v : bool) (g : cfg) : cfg :=
  mkCfg v (g_module g) (g_stream g) (g_lines g) (g_restricted g) (g_strict_reserved g)
        (g_literal g) (g_end_nl g).
Definition set_mod (v : bool) (g : cfg) : cfg :=
  mkCfg (g_tolerant g) v (g_stream g) (g_lines g) (g_restricted g) (g_strict_reserved g)
        (g_literal g) (g_end_nl g).

Lemma next_item_cfg g g' : g_stream g = g_stream g' -> g_end_nl g = g_end_nl g' ->
  forall s, next_item g s = next_item g' s.
Proof.
  intros H1 H2 s. unfold next_item. generalize (it_start (st_look s), it_end (st_look s)).
  generalize (st_rest s) as l. intros l; revert s.
  induction l as [|r l IH]; intros s sp; cbn [next_item_loop]; rewrite ?H1, ?H2; auto.
  destruct (update_positions _ _ _ _ _) as [[? ?]|]; auto.
  destruct (it_tok (r_item r)); auto. destruct (slice _ _ _); auto.
Qed.

Lemma exec_tolerant g B (o : op B) s b s' :
  exec (set_tol false g) o s = (Ok b, s') -> exec (set_tol true g) o s = (Ok b, s').
Proof.
  assert (Hn : next_item (set_tol false g) s = next_item (set_tol true g) s)
    by (apply next_item_cfg; reflexivity).
  intros H. destruct o; cbn -[next_item] in H |- *; try rewrite Hn in H; auto; try discriminate H.
  destruct (next_item (set_tol true g) s) as [[i|e| |] t] eqn:E; try discriminate H.
  pose proof (next_item_ok _ _ _ _ E) as [-> _].
  destruct (is_punct PComma (it_tok (st_look s))); auto. discriminate H.
Qed.

Lemma exec_module g B (o : op B) s b s' :
  exec (set_mod true g) o s = (Ok b, s') -> exec (set_mod false g) o s = (Ok b, s').
Proof.
  assert (Hn : next_item (set_mod true g) s = next_item (set_mod false g) s)
    by (apply next_item_cfg; reflexivity).
  intros H. destruct o; cbn -[next_item] in H |- *; try rewrite Hn in H; auto.
  all: repeat match type of H with
              | context [match ?x with _ => _ end] => destruct x
              end; try discriminate H; auto.
Qed.

Lemma parse_parts_sim g1 g2 :
  (forall B (o : op B) s b s', exec g1 o s = (Ok b, s') -> exec g2 o s = (Ok b, s')) ->
  forall n s l s', run bd g1 n parse_parts s = (Ok l, s') -> run bd g2 n parse_parts s = (Ok l, s').
Proof.
  intros Hx n s l s' H.
  destruct (run_sim_ok _ _ g1 g2 eq (fun B o s1 s2 b s1' (e : s1 = s2) Ho =>
              ex_intro _ s1' (conj (eq_ind s1 (fun z => exec g2 o z = _) (Hx B o s1 b s1' Ho) s2 e) eq_refl))
              n _ parse_parts s s l s' eq_refl H) as (s2 & E & <-). exact E.
Qed.

Lemma parse_ok_parts g n s p s' : parse g n s = (Ok p, s') <->
  exists l, run bd g n parse_parts s = (Ok l, s') /\ p = make_program (g_module g) l.
Proof.
  unfold parse. split.
  - destruct (run bd g n parse_parts s) as [[l| | |] t]; intros H; inversion H; subst; eauto.
  - intros (l & -> & ->). reflexivity.
Qed.

Lemma start_cfg g g' items : g_stream g = g_stream g' -> g_end_nl g = g_end_nl g' ->
  start g items = start g' items.
Proof. intros. apply next_item_cfg; auto. Qed.

Lemma tolerant_accepts_more sc module js p s' :
  parse_text sc (mkBuilder false module js) (Ok p) s' ->
  parse_text sc (mkBuilder true module js) (Ok p) s'.
Proof.
  unfold parse_text, build. cbn [b_tolerant b_module b_js].
  rewrite (start_cfg (make_cfg sc true module js) (make_cfg sc false module js)) by reflexivity.
  destruct (start _ _) as [[i|e| |] s]; auto.
  intros [Hn [n H]]. split; auto. exists n.
  apply parse_ok_parts in H. destruct H as (l & H & ->). apply parse_ok_parts. exists l. split; auto.
  revert H. apply parse_parts_sim.
  intros B o t b t' H. exact (exec_tolerant (make_cfg sc true module js) B o t b t' H).
Qed.

Lemma module_rejects_more sc tolerant js l s' :
  parse_text sc (mkBuilder tolerant true js) (Ok (PMod l)) s' ->
  parse_text sc (mkBuilder tolerant false js) (Ok (PScript l)) s'.
Proof.
  unfold parse_text, build. cbn [b_tolerant b_module b_js].
  rewrite (start_cfg (make_cfg sc tolerant false js) (make_cfg sc tolerant true js)) by reflexivity.
  destruct (start _ _) as [[i|e| |] s]; try (intros [? ?]; discriminate).
  - intros [Hn [n H]]. split; [congruence|]. exists n.
    apply parse_ok_parts in H. destruct H as (l' & H & E). apply parse_ok_parts. exists l. split; auto.
    cbn in E. inversion E; subst l'.
    revert H. apply parse_parts_sim.
    intros B o t b t' H. exact (exec_module (make_cfg sc tolerant true js) B o t b t' H).
  - auto.
Qed.

(** ** Builder *)
Lemma builder_last l : forall b,
  fold_left apply_setter l b =
  mkBuilder (last_such tolerant_set (b_tolerant b) l) (last_such module_set (b_module b) l)
            (last_such js_set (b_js b) l).
Proof. induction l as [|x l IH]; intros b; cbn; [destruct b; auto|]. rewrite IH. destruct x; reflexivity. Qed.

Lemma new_is_default_builder sc js : parser_new sc js = build sc (b_set_js js builder_new).
Proof. reflexivity. Qed.

(** ** Comments and unread items *)
Definition is_cm (r : raw) : Prop := is_comment (it_tok (r_item r)) = true.

(** What a step does to the scanner, the look-ahead and the comments. *)
Definition advance (js : text) (s s' : state) : Prop :=
  exists l, st_rest s = l ++ st_rest s' /\ st_comments s' = st_comments s ++ delivered js l /\
    ((Forall is_cm l /\ st_look s' = st_look s)
     \/ exists l1 r l2, l = l1 ++ r :: l2 /\ st_look s' = r_item r /\ Forall is_cm l2).

Lemma delivered_app js a b : delivered js (a ++ b) = delivered js a ++ delivered js b.
Proof. induction a; cbn; auto. destruct (comment_of js a); cbn; rewrite IHa; auto. Qed.

Lemma advance_refl js s : advance js s s.
Proof. exists []. cbn. rewrite app_nil_r. auto. Qed.

Lemma advance_trans js a b c : advance js a b -> advance js b c -> advance js a c.
Proof.
  intros (l & E1 & C1 & D1) (m & E2 & C2 & D2). exists (l ++ m).
  rewrite E1, E2, C2, C1, delivered_app, !app_assoc. repeat split; auto.
  destruct D2 as [[F2 L2]|(m1 & r & m2 & -> & L2 & F2)].
  - destruct D1 as [[F1 L1]|(l1 & r & l2 & -> & L1 & F1)].
    + left. split; [apply Forall_app; auto|congruence].
    + right. exists l1, r, (l2 ++ m). rewrite <- app_assoc. repeat split; [congruence|].
      apply Forall_app; auto.
  - right. exists (l ++ m1), r, m2. rewrite <- app_assoc. auto.
Qed.

Lemma next_item_loop_advance g : forall rest sp s r s',
  st_rest s = rest -> next_item_loop g rest sp s = (r, s') -> advance (g_stream g) s s'.
Proof.
  induction rest as [|x rest IH]; intros sp s r s' Hr H; cbn [next_item_loop] in H.
  - assert (s' = s \/ st_rest s' = [] /\ st_comments s' = st_comments s /\ st_look s' = st_look s) as HH.
    { destruct (is_eof _); [destruct (st_found_eof s)|]; inversion H; subst; auto. }
    destruct HH as [->|(A & B & C)]; [apply advance_refl|].
    exists []. rewrite Hr, A, B, C. cbn. rewrite app_nil_r. auto.
  - destruct (update_positions _ _ _ _ _) as [[cur lpos]|]; [|inversion H; subst; apply advance_refl].
    destruct (it_tok (r_item x)) eqn:Hk;
      try (inversion H; subst; exists [x]; cbn; unfold comment_of; rewrite Hk, app_nil_r;
           repeat split; auto; right; exists [], x, []; repeat split; auto).
    assert (Hc : is_cm x) by (unfold is_cm; rewrite Hk; reflexivity).
    destruct (slice _ _ _) as [t|] eqn:Hs.
    + apply IH in H; [|reflexivity]. eapply advance_trans; [|exact H].
      exists [x]. cbn. unfold comment_of. rewrite Hk, Hs. cbn. repeat split; auto.
    + inversion H; subst. exists [x]. cbn. unfold comment_of. rewrite Hk, Hs. cbn.
      rewrite app_nil_r. repeat split; auto.
Qed.

Lemma next_item_advance g s r s' : next_item g s = (r, s') -> advance (g_stream g) s s'.
Proof. apply next_item_loop_advance. reflexivity. Qed.

Lemma exec_advance g B (o : op B) s r s' : exec g o s = (r, s') -> advance (g_stream g) s s'.
Proof.
  pose proof (fun r t => next_item_advance g s r t) as Hn.
  intros H. destruct o; cbn -[next_item] in H;
    repeat match type of H with
           | context [match ?x with _ => _ end] => destruct x eqn:?
           end; try (inversion H; subst; try apply advance_refl; eapply Hn; eauto; fail).
  inversion H; subst. exists []. cbn. rewrite app_nil_r. repeat split; auto.
Qed.

Lemma run_call_advance g n B (c : call B) s r s' :
  run_call bd g n c s = (r, s') -> advance (g_stream g) s s'.
Proof.
  eapply run_call_rel; [apply advance_refl|apply advance_trans|apply exec_advance].
Qed.
Lemma run_advance g n B (p : P B) s r s' : run bd g n p s = (r, s') -> advance (g_stream g) s s'.
Proof. eapply run_rel; [apply advance_refl|apply advance_trans|apply exec_advance]. Qed.

Lemma iter_next_advance g n s r s' : iter_next g n s = (r, s') -> advance (g_stream g) s s'.
Proof.
  unfold iter_next. destruct (is_eof _); [intros H; inversion H; subst; apply advance_refl|].
  destruct (run_call bd g n CNextPart s) as [o t] eqn:Hc. intros H; inversion H; subst.
  eapply run_call_advance; eauto.
Qed.

Lemma parse_advance g n s r s' : parse g n s = (r, s') -> advance (g_stream g) s s'.
Proof.
  unfold parse. destruct (run bd g n parse_parts s) as [o t] eqn:Hc. intros H.
  assert (t = s') as <- by (destruct o; inversion H; auto). eapply run_advance; eauto.
Qed.

Lemma reachable_comments g items s : reachable g items s ->
  exists l, items = l ++ st_rest s /\ st_comments s = delivered (g_stream g) l.
Proof.
  intros H. assert (Ha : advance (g_stream g) (initial_state items) s).
  { induction H as [i s H|s n r s' H IH H1].
    - eapply next_item_advance; eauto.
    - eapply advance_trans; [exact IH|]. eapply iter_next_advance; eauto. }
  destruct Ha as (l & E & C & _). cbn in *. eauto.
Qed.

Lemma start_parse_exhausts g items i s n p s' : eof_only_last items ->
  start g items = (Ok i, s) -> parse g n s = (Ok p, s') ->
  st_rest s' = [] /\ is_eof (it_tok (st_look s')) = true
  /\ st_comments s' = delivered (g_stream g) items.
Proof.
  intros Hl Hs Hp.
  assert (He : is_eof (it_tok (st_look s')) = true).
  { assert (R : returns (fun n => parse g n s) (Ok p) s') by (split; [congruence|eauto]).
    apply parse_is_iteration in R. destruct R as (parts & s1 & r & Hy & Hn & Hc).
    destruct Hc as [[-> _]|[[e [_ ?]]|[_ ?]]]; try discriminate.
    destruct Hn as [_ [k Hk]]. unfold iter_next in Hk.
    destruct (is_eof (it_tok (st_look s1))) eqn:E; [|destruct (run_call bd g k CNextPart s1); discriminate].
    inversion Hk; subst; auto. }
  assert (Ha : advance (g_stream g) (initial_state items) s').
  { eapply advance_trans; [eapply next_item_advance; exact Hs|eapply parse_advance; eauto]. }
  assert (Hr : st_rest s' = []).
  { destruct Ha as (l & E & C & D). cbn in E, D.
    destruct D as [[F L]|(l1 & r & l2 & -> & L & F)].
    - (* the look-ahead was never replaced: the constructor consumed all items *)
      unfold start, next_item in Hs.
      apply next_item_loop_ok in Hs; [|reflexivity]. destruct Hs as (_ & _ & [Hs|Hs]).
      + destruct Hs as (r & H1 & _ & _ & _ & Hnc). cbn in H1.
        assert (Hin : In r (filter nc items)) by (rewrite H1; left; auto).
        apply filter_In in Hin. destruct Hin as [Hin _].
        pose proof (parse_advance _ _ _ _ _ Hp) as (m & Em & _ & Dm).
        exfalso. rewrite E in H1.
        assert (Hfl : filter nc l = []).
        { clear - F. induction F as [|x l Hx F IH]; auto. cbn. unfold nc at 1. rewrite Hx. auto. }
        rewrite filter_app, Hfl in H1. cbn in H1.
        rewrite Em, filter_app in H1.
        assert (Hlen : length (filter nc (st_rest s')) =
                       S (length (filter nc m) + length (filter nc (st_rest s')))).
        { rewrite H1 at 1. cbn. rewrite app_length. reflexivity. }
        lia.
      + destruct Hs as (_ & Hs & _).
        pose proof (parse_advance _ _ _ _ _ Hp) as (m & Em & _ & _).
        rewrite Hs in Em. symmetry in Em. apply app_eq_nil in Em. tauto.
    - rewrite L in He. rewrite <- app_assoc in E. cbn in E.
      specialize (Hl _ _ _ E He). apply app_eq_nil in Hl. tauto. }
  repeat split; auto. destruct Ha as (l & E & C & _). cbn in E, C.
  rewrite Hr, app_nil_r in E. subst. exact C.
Qed.

(** ** The handler cannot influence anything *)
Definition same_but_comments (s1 s2 : state) : Prop :=
  exists c, s2 = with_comments c s1.

Lemma next_item_comments g : forall rest sp s c,
  exists d, st_comments (snd (next_item_loop g rest sp s)) = st_comments s ++ d /\
  next_item_loop g rest sp (with_comments c s) =
  (fst (next_item_loop g rest sp s), with_comments (c ++ d) (snd (next_item_loop g rest sp s))).
Proof.
  induction rest as [|r rest IH]; intros sp s c; cbn [next_item_loop].
  - exists []. rewrite !app_nil_r.
    cbn [with_comments st_look st_found_eof st_ctx st_cur_pos st_look_pos st_comments].
    destruct (is_eof _); [destruct (st_found_eof s)|]; cbn; auto.
  - cbn [with_comments st_look st_found_eof st_ctx st_cur_pos st_look_pos st_comments].
    destruct (update_positions _ _ _ _ _) as [[cur lpos]|];
      [|exists []; rewrite !app_nil_r; cbn; auto].
    destruct (it_tok (r_item r)) eqn:Hk;
      try (exists []; rewrite !app_nil_r; cbn; auto; fail).
    destruct (slice _ _ _) as [t|]; [|exists []; rewrite !app_nil_r; cbn; auto].
    set (cm := mkComment _ t _ _).
    destruct (IH (it_start (r_item r), it_end (r_item r))
                (mkState (st_ctx s) (st_look s) (st_found_eof s) cur lpos rest (r_nl r) (st_comments s ++ [cm]))
                (c ++ [cm])) as (d & H1 & H2).
    exists (cm :: d). split.
    + rewrite H1. cbn. rewrite <- app_assoc. reflexivity.
    + etransitivity; [exact H2|]. rewrite <- app_assoc. reflexivity.
Qed.

Definition rel_comments (c0 : list comment) (c1 : list comment) (s1 s2 : state) : Prop :=
  exists d, st_comments s1 = c0 ++ d /\ s2 = with_comments (c1 ++ d) s1.

Lemma with_comments_twice c c' s : with_comments c (with_comments c' s) = with_comments c s.
Proof. reflexivity. Qed.

Lemma exec_comments g c0 c1 B (o : op B) s1 s2 b s1' :
  rel_comments c0 c1 s1 s2 -> exec g o s1 = (b, s1') ->
  exists s2', exec g o s2 = (b, s2') /\ rel_comments c0 c1 s1' s2'.
Proof.
  intros (d & Hd & ->) H.
  assert (Hn : forall r t, next_item g s1 = (r, t) ->
            exists d', st_comments t = c0 ++ d' /\
              next_item g (with_comments (c1 ++ d) s1) = (r, with_comments (c1 ++ d') t)).
  { intros r t E. unfold next_item in *.
    destruct (next_item_comments g (st_rest s1) (it_start (st_look s1), it_end (st_look s1)) s1 (c1 ++ d))
      as (d' & H1 & H2). rewrite E in H1, H2. cbn [fst snd] in H1, H2.
    exists (d ++ d'). split; [rewrite H1, Hd, app_assoc; reflexivity|].
    rewrite app_assoc. exact H2. }
  unfold rel_comments.
  assert (Hsame : b = b /\ s1' = s1' ->  True) by auto. clear Hsame.
  destruct o; cbn -[next_item with_comments] in H |- *;
    try (injection H as <- <-; eexists; split; [reflexivity|]; exists d; auto; fail).
  - destruct (Hn _ _ H) as (d' & H1 & H2). eauto.
  - destruct (next_item g s1) as [r t] eqn:E. destruct (Hn _ _ eq_refl) as (d' & H1 & H2). rewrite H2.
    destruct r; injection H as <- <-; eauto.
  - destruct (g_tolerant g); injection H as <- <-; eexists; (split; [|exists d; eauto]); auto.
  - destruct (g_tolerant g).
    + cbn [with_comments st_look].
      destruct (is_punct PComma (it_tok (st_look s1)));
        [|injection H as <- <-; eexists; split; [reflexivity|]; exists d; auto].
      destruct (next_item g s1) as [r t] eqn:E. destruct (Hn _ _ eq_refl) as (d' & H1 & H2). 
      cbn [with_comments] in H2. rewrite H2.
      destruct r; injection H as <- <-; eauto.
    + destruct (next_item g s1) as [r t] eqn:E. destruct (Hn _ _ eq_refl) as (d' & H1 & H2). rewrite H2.
      destruct r; try (injection H as <- <-; eauto; fail).
      destruct (is_punct PComma (it_tok a)); injection H as <- <-; eauto.
  - destruct (g_module g); [destruct b0 as [[]|]|]; injection H as <- <-; eexists; (split; [|exists d; eauto]); auto.
Qed.

Lemma mk_error_comments g c s d : mk_error g (with_comments c s) d = mk_error g s d.
Proof. destruct d; reflexivity. Qed.

Lemma parse_comments g n s o s' : parse g n s = (o, s') ->
  exists d, st_comments s' = st_comments s ++ d /\
    forall c, parse g n (with_comments c s) = (o, with_comments (c ++ d) s').
Proof.
  intros H.
  pose proof (parse_advance _ _ _ _ _ H) as (l & _ & Hc & _). eexists. split; [exact Hc|].
  intros c. unfold parse in *.
  destruct (run bd g n parse_parts s) as [r t] eqn:Hr.
  assert (t = s') as -> by (destruct r; inversion H; auto).
  destruct (run_sim _ bd g g (rel_comments (st_comments s) c)) with (n := n) (p := parse_parts)
    (s1 := s) (s2 := with_comments c s) (b := r) (s1' := s') as (s2 & E & (d & Hd & ->)).
  - intros. eapply exec_comments; eauto.
  - intros s1 s2 d (d' & _ & ->). symmetry. apply mk_error_comments.
  - exists []. rewrite !app_nil_r. auto.
  - exact Hr.
  - rewrite E. rewrite Hc in Hd. apply app_inv_head in Hd. subst d.
    destruct r; inversion H; subst; auto.
Qed.

(** ** Incrementality *)
Lemma next_incremental g n s part s' :
  iter_next g n s = (Some (Ok part), s') ->
  exists l, st_rest s = l ++ st_rest s' /\
    forall t, hd_error (map r_item t) = hd_error (map r_item (st_rest s')) ->
      first_non_comment t = first_non_comment (st_rest s') ->
      iter_next g n (with_rest (l ++ t) s) = (Some (Ok part), with_rest t s').
Proof.
  unfold iter_next. destruct (is_eof _) eqn:He; [discriminate|].
  destruct (run_call bd g n CNextPart s) as [o t] eqn:Hc. intros H; inversion H; subst.
  destruct (run_call_frame _ bd g n _ CNextPart s (Ok part) s' Hc) as (l & El & Hl).
  exists l. split; auto. intros t H1 H2.
  change (st_look (with_rest (l ++ t) s)) with (st_look s). rewrite He.
  rewrite Hl by (split; auto). reflexivity.
Qed.

(** The same for errors: what is rejected is rejected whatever comes after. *)
Lemma next_error_incremental g n s e s' :
  iter_next g n s = (Some (Err e), s') ->
  exists l, st_rest s = l ++ st_rest s' /\
    forall t, hd_error (map r_item t) = hd_error (map r_item (st_rest s')) ->
      first_non_comment t = first_non_comment (st_rest s') ->
      iter_next g n (with_rest (l ++ t) s) = (Some (Err e), with_rest t s').
Proof.
  unfold iter_next. destruct (is_eof _) eqn:He; [discriminate|].
  destruct (run_call bd g n CNextPart s) as [o t] eqn:Hc. intros H; inversion H; subst.
  destruct (run_call_frame _ bd g n _ CNextPart s (Err e) s' Hc) as (l & El & Hl).
  exists l. split; auto. intros t H1 H2.
  change (st_look (with_rest (l ++ t) s)) with (st_look s). rewrite He.
  rewrite Hl by (split; auto). reflexivity.
Qed.

Lemma parse_error_incremental g n s e s' :
  parse g n s = (Err e, s') ->
  exists l, st_rest s = l ++ st_rest s' /\
    forall t, hd_error (map r_item t) = hd_error (map r_item (st_rest s')) ->
      first_non_comment t = first_non_comment (st_rest s') ->
      parse g n (with_rest (l ++ t) s) = (Err e, with_rest t s').
Proof.
  unfold parse. destruct (run bd g n parse_parts s) as [r u] eqn:Hr. intros H.
  destruct r as [ps|e'| |]; inversion H; subst.
  destruct (run_frame _ bd g n _ parse_parts s (Err e) s' Hr) as (l & El & Hl).
  exists l. split; auto. intros t H1 H2. rewrite Hl by (split; auto). reflexivity.
Qed.

Lemma expression_error_incremental g n s e s' :
  parse_expression g n s = (Err e, s') ->
  exists l, st_rest s = l ++ st_rest s' /\
    forall t, hd_error (map r_item t) = hd_error (map r_item (st_rest s')) ->
      first_non_comment t = first_non_comment (st_rest s') ->
      parse_expression g n (with_rest (l ++ t) s) = (Err e, with_rest t s').
Proof.
  unfold parse_expression. intros H.
  destruct (run_call_frame _ bd g n _ _ s (Err e) s' H) as (l & El & Hl).
  exists l. split; auto. intros t H1 H2. apply Hl. split; auto.
Qed.

Lemma none_is_fused g s n s' : iter_next g n s = (None, s') -> forall m, iter_next g m s' = (None, s').
Proof.
  unfold iter_next at 1. destruct (is_eof _) eqn:E.
  - intros H m. inversion H; subst. apply eof_next_none. exact E.
  - destruct (run_call bd g n CNextPart s). discriminate.
Qed.

Lemma parse_is_mono g s : mono (fun n => parse g n s).
Proof. intros n n' o s' Hle H Ho. eapply parse_mono; eauto. Qed.

Lemma stack_does_not_matter g s :
  mono (fun n => parse g n s) /\ mono (fun n => parse_expression g n s) /\
  forall n n' o s', n <= n' -> iter_next g n s = (o, s') -> o <> Some NoFuel ->
    iter_next g n' s = (o, s').
Proof.
  split; [apply parse_is_mono|]. split.
  - intros n n' o s' Hle H Ho. unfold parse_expression in *. eapply run_call_mono; eauto.
  - intros. eapply iter_next_mono; eauto.
Qed.

Lemma parse_text_fun sc b o1 s1 o2 s2 :
  parse_text sc b o1 s1 -> parse_text sc b o2 s2 -> o1 = o2 /\ s1 = s2.
Proof.
  unfold parse_text. destruct (build sc b) as [g [[i|e| |] s]].
  - apply (returns_fun (fun n => parse g n s)), parse_is_mono.
  - intros [-> ->] [-> ->]. auto.
  - intros [-> ->] [-> ->]. auto.
  - tauto.
Qed.

Lemma module_result sc tolerant js p s' :
  parse_text sc (mkBuilder tolerant true js) (Ok p) s' -> exists l, p = PMod l.
Proof.
  unfold parse_text, build. cbn [b_tolerant b_module b_js].
  destruct (start _ _) as [[i|e| |] s]; try (intros [? ?]; discriminate).
  - intros [Hn [n H]]. apply parse_ok_parts in H. destruct H as (l & _ & ->). exists l. reflexivity.
  - tauto.
Qed.
