(** Facts about the evaluator that hold for every parser written in the language of
    Prog.v, whatever its functions: monotonicity in the fuel, simulations between
    configurations, invariants, framing of the unread scanner output. *)
From Verif Require Export Wp Api.

Section Meta.
  Variable call : Type -> Type.
  Variable body : forall B, call B -> prog call B.
  Arguments body {B}.
  Notation bd := (@body).

  (** ** More fuel never changes a result *)
  Lemma iter_mono {A X} (f f' : X -> state -> outcome (X + A) * state) :
    (forall x s o s', f x s = (o, s') -> o <> NoFuel -> f' x s = (o, s')) ->
    forall n n' x s o s', n <= n' ->
      iter f n x s = (o, s') -> o <> NoFuel -> iter f' n' x s = (o, s').
  Proof.
    intros Hf n. induction n; intros n' x s o s' Hle H Ho; cbn in H; [inversion H; congruence|].
    destruct n' as [|n']; [lia|]. cbn.
    destruct (f x s) as [o1 s1] eqn:Hx.
    destruct o1 as [[x'|a]|e| |];
      [ erewrite Hf by (eauto; congruence); apply IHn with (n' := n') in H; auto; lia
      | erewrite Hf by (eauto; congruence); exact H
      | erewrite Hf by (eauto; congruence); exact H
      | erewrite Hf by (eauto; congruence); exact H
      | inversion H; congruence ].
  Qed.

  Lemma run_in_mono g n n' (rec rec' : forall B, call B -> state -> outcome B * state) :
    n <= n' ->
    (forall B (c : call B) s o s', rec _ c s = (o, s') -> o <> NoFuel -> rec' _ c s = (o, s')) ->
    forall B (p : prog call B) s o s',
      run_in g n rec p s = (o, s') -> o <> NoFuel -> run_in g n' rec' p s = (o, s').
  Proof.
    intros Hle Hrec. induction p; intros s ob s' Hr Ho; cbn [run_in] in *; auto.
    - destruct (run_in g n rec p s) as [o1 s1] eqn:Hp.
      destruct o1 as [a|e| |];
        [erewrite IHp by (eauto; congruence); eapply H; eauto
        |erewrite IHp by (eauto; congruence); exact Hr
        |erewrite IHp by (eauto; congruence); exact Hr
        |inversion Hr; congruence].
    - eapply iter_mono; [|exact Hle|exact Hr|exact Ho].
      intros x0 t o1 t' Hx Ho1. eapply H; eauto.
  Qed.

  Theorem run_call_mono g : forall n n' B (c : call B) s o s',
    n <= n' -> run_call bd g n c s = (o, s') -> o <> NoFuel -> run_call bd g n' c s = (o, s').
  Proof.
    induction n; intros n' B c s o s' Hle H Ho; cbn in H; [inversion H; congruence|].
    destruct n' as [|n']; [lia|]. cbn.
    eapply run_in_mono; [| |exact H|exact Ho]; [lia|].
    intros. eapply IHn; eauto. lia.
  Qed.

  Theorem run_mono g n n' B (p : prog call B) s o s' :
    n <= n' -> run bd g n p s = (o, s') -> o <> NoFuel -> run bd g n' p s = (o, s').
  Proof.
    intros Hle H Ho. eapply run_in_mono; [exact Hle| |exact H|exact Ho].
    intros. eapply run_call_mono; eauto.
  Qed.

  (** ** Successful runs under a more permissive configuration *)
  Section SimOk.
    Variables (g1 g2 : cfg) (R : state -> state -> Prop).
    Hypothesis op_sim : forall B (o : op B) s1 s2 b s1',
      R s1 s2 -> exec g1 o s1 = (Ok b, s1') -> exists s2', exec g2 o s2 = (Ok b, s2') /\ R s1' s2'.

    Lemma run_in_sim_ok n (rec1 rec2 : forall B, call B -> state -> outcome B * state) :
      (forall B (c : call B) s1 s2 b s1', R s1 s2 -> rec1 _ c s1 = (Ok b, s1') ->
         exists s2', rec2 _ c s2 = (Ok b, s2') /\ R s1' s2') ->
      forall B (p : prog call B) s1 s2 b s1',
        R s1 s2 -> run_in g1 n rec1 p s1 = (Ok b, s1') ->
        exists s2', run_in g2 n rec2 p s2 = (Ok b, s2') /\ R s1' s2'.
    Proof.
      intros Hrec. induction p; intros s1 s2 b s1' HR Hr; cbn [run_in] in *; eauto.
      - inversion Hr; subst; eauto.
      - inversion Hr.
      - inversion Hr.
      - destruct (run_in g1 n rec1 p s1) as [[a|e| |] s1a] eqn:Hp; try (inversion Hr; fail).
        destruct (IHp _ _ _ _ HR Hp) as (s2a & E & HRa). rewrite E. eauto.
      - assert (Hgen : forall k x s1 s2, R s1 s2 ->
                  iter (fun y s' => run_in g1 n rec1 (body0 y) s') k x s1 = (Ok b, s1') ->
                  exists s2', iter (fun y s' => run_in g2 n rec2 (body0 y) s') k x s2 = (Ok b, s2')
                              /\ R s1' s2').
        { induction k; intros y t1 t2 HRt Ht; cbn in *; [inversion Ht|].
          destruct (run_in g1 n rec1 (body0 y) t1) as [[[y'|a]|e| |] t1'] eqn:Hy;
            try (inversion Ht; fail); destruct (H _ _ _ _ _ HRt Hy) as (t2' & E & HR');
            rewrite E; eauto.
          inversion Ht; subst; eauto. }
        eauto.
    Qed.

    Theorem run_call_sim_ok : forall n B (c : call B) s1 s2 b s1',
      R s1 s2 -> run_call bd g1 n c s1 = (Ok b, s1') ->
      exists s2', run_call bd g2 n c s2 = (Ok b, s2') /\ R s1' s2'.
    Proof.
      induction n; intros B c s1 s2 b s1' HR H; cbn in *; [inversion H|].
      eapply run_in_sim_ok; eauto.
    Qed.

    Theorem run_sim_ok n B (p : prog call B) s1 s2 b s1' :
      R s1 s2 -> run bd g1 n p s1 = (Ok b, s1') ->
      exists s2', run bd g2 n p s2 = (Ok b, s2') /\ R s1' s2'.
    Proof. intros HR H. eapply run_in_sim_ok; eauto. intros. eapply run_call_sim_ok; eauto. Qed.
  End SimOk.

  (** ** Runs that agree in every outcome *)
  Section SimFull.
    Variables (g1 g2 : cfg) (R : state -> state -> Prop).
    Hypothesis op_sim : forall B (o : op B) s1 s2 b s1',
      R s1 s2 -> exec g1 o s1 = (b, s1') -> exists s2', exec g2 o s2 = (b, s2') /\ R s1' s2'.
    Hypothesis err_sim : forall s1 s2 d, R s1 s2 -> mk_error g1 s1 d = mk_error g2 s2 d.

    Lemma run_in_sim n (rec1 rec2 : forall B, call B -> state -> outcome B * state) :
      (forall B (c : call B) s1 s2 b s1', R s1 s2 -> rec1 _ c s1 = (b, s1') ->
         exists s2', rec2 _ c s2 = (b, s2') /\ R s1' s2') ->
      forall B (p : prog call B) s1 s2 b s1',
        R s1 s2 -> run_in g1 n rec1 p s1 = (b, s1') ->
        exists s2', run_in g2 n rec2 p s2 = (b, s2') /\ R s1' s2'.
    Proof.
      intros Hrec. induction p; intros s1 s2 b s1' HR Hr; cbn [run_in] in *; eauto.
      - inversion Hr; subst; eauto.
      - inversion Hr; subst. erewrite <- err_sim; eauto.
      - inversion Hr; subst; eauto.
      - destruct (run_in g1 n rec1 p s1) as [o1 s1a] eqn:Hp.
        destruct (IHp _ _ _ _ HR Hp) as (s2a & E & HRa). rewrite E.
        destruct o1; [eauto| | |]; inversion Hr; subst; eauto.
      - assert (Hgen : forall k x s1 s2, R s1 s2 ->
                  iter (fun y s' => run_in g1 n rec1 (body0 y) s') k x s1 = (b, s1') ->
                  exists s2', iter (fun y s' => run_in g2 n rec2 (body0 y) s') k x s2 = (b, s2')
                              /\ R s1' s2').
        { induction k; intros y t1 t2 HRt Ht; cbn in *; [inversion Ht; subst; eauto|].
          destruct (run_in g1 n rec1 (body0 y) t1) as [o1 t1'] eqn:Hy.
          destruct (H _ _ _ _ _ HRt Hy) as (t2' & E & HR'). rewrite E.
          destruct o1 as [[y'|a]|e| |]; eauto; inversion Ht; subst; eauto. }
        eauto.
    Qed.

    Theorem run_call_sim : forall n B (c : call B) s1 s2 b s1',
      R s1 s2 -> run_call bd g1 n c s1 = (b, s1') ->
      exists s2', run_call bd g2 n c s2 = (b, s2') /\ R s1' s2'.
    Proof.
      induction n; intros B c s1 s2 b s1' HR H; cbn in *; [inversion H; subst; eauto|].
      eapply run_in_sim; eauto.
    Qed.

    Theorem run_sim n B (p : prog call B) s1 s2 b s1' :
      R s1 s2 -> run bd g1 n p s1 = (b, s1') ->
      exists s2', run bd g2 n p s2 = (b, s2') /\ R s1' s2'.
    Proof. intros HR H. eapply run_in_sim; eauto. intros. eapply run_call_sim; eauto. Qed.
  End SimFull.

  (** ** Reflexive-transitive relations between the first and the last state *)
  Section Rel.
    Variable g : cfg.
    Variable T : state -> state -> Prop.
    Hypothesis T_refl : forall s, T s s.
    Hypothesis T_trans : forall a b c, T a b -> T b c -> T a c.
    Hypothesis op_rel : forall B (o : op B) s r s', exec g o s = (r, s') -> T s s'.

    Lemma run_in_rel n (rec : forall B, call B -> state -> outcome B * state) :
      (forall B (c : call B) s r s', rec _ c s = (r, s') -> T s s') ->
      forall B (p : prog call B) s r s', run_in g n rec p s = (r, s') -> T s s'.
    Proof.
      intros Hrec. induction p; intros s r s' Hr; cbn [run_in] in *; eauto.
      - inversion Hr; subst; auto.
      - inversion Hr; subst; auto.
      - inversion Hr; subst; auto.
      - destruct (run_in g n rec p s) as [o1 s1a] eqn:Hp. apply IHp in Hp.
        destruct o1; [eauto| | |]; inversion Hr; subst; eauto.
      - assert (Hgen : forall k x s,
                  iter (fun y s' => run_in g n rec (body0 y) s') k x s = (r, s') -> T s s').
        { induction k; intros y t Ht; cbn in *; [inversion Ht; subst; eauto|].
          destruct (run_in g n rec (body0 y) t) as [o1 t1'] eqn:Hy. apply H in Hy.
          destruct o1 as [[y'|a]|e| |]; eauto; inversion Ht; subst; eauto. }
        eauto.
    Qed.

    Theorem run_call_rel : forall n B (c : call B) s r s', run_call bd g n c s = (r, s') -> T s s'.
    Proof.
      induction n; intros B c s r s' H; cbn in *; [inversion H; subst; eauto|].
      eapply run_in_rel; eauto.
    Qed.

    Theorem run_rel n B (p : prog call B) s r s' : run bd g n p s = (r, s') -> T s s'.
    Proof. intros H. eapply run_in_rel; eauto. intros. eapply run_call_rel; eauto. Qed.
  End Rel.

  (** ** Framing: a run, successful or not, only depends on the scanner items it takes, on
      the next item and on the next non-comment item *)
  Definition with_rest (l : list raw) (s : state) : state :=
    mkState (st_ctx s) (st_look s) (st_found_eof s) (st_cur_pos s) (st_look_pos s) l (st_nl s)
            (st_comments s).
  Definition agree (t r : list raw) : Prop :=
    hd_error (map r_item t) = hd_error (map r_item r) /\ first_non_comment t = first_non_comment r.

  Lemma agree_app l t r : agree t r -> agree (l ++ t) (l ++ r).
  Proof.
    intros [H1 H2]. split; [destruct l; auto|].
    induction l as [|x l IH]; cbn; auto. rewrite IH. reflexivity.
  Qed.

  Lemma with_rest_same s : with_rest (st_rest s) s = s.
  Proof. destruct s; reflexivity. Qed.

  Definition frames {B} (f : state -> outcome B * state) : Prop :=
    forall s o s', f s = (o, s') ->
      exists l, st_rest s = l ++ st_rest s' /\
        forall t, agree t (st_rest s') -> f (with_rest (l ++ t) s) = (o, with_rest t s').

  Lemma next_item_loop_frame g : forall rest sp s o s',
    st_rest s = rest -> next_item_loop g rest sp s = (o, s') ->
    exists l, rest = l ++ st_rest s' /\
      forall t, agree t (st_rest s') ->
        next_item_loop g (l ++ t) sp (with_rest (l ++ t) s) = (o, with_rest t s').
  Proof.
    induction rest as [|r rest IH]; intros sp s o s' Hr H; cbn [next_item_loop] in H.
    - exists []. destruct (is_eof _) eqn:He; [destruct (st_found_eof s) eqn:Hf|]; inversion H; subst;
        cbn; (split; [reflexivity|]); intros t [Ht _]; cbn in Ht; (destruct t; [|discriminate]);
        cbn; rewrite He; try rewrite Hf; reflexivity.
    - destruct (update_positions _ _ _ _ _) as [[cur lpos]|] eqn:Hu.
      2:{ (* a panic: nothing was taken *)
          inversion H; subst. exists []. rewrite Hr. split; [reflexivity|]. intros t [Ha _]. cbn [app].
          destruct t as [|r' t]; [discriminate Ha|]. cbn in Ha. injection Ha as Ha. cbn [next_item_loop].
          cbn [with_rest st_look_pos]. rewrite Ha, Hu. reflexivity. }
      assert (Hd :
         (Ok (st_look s), mkState (st_ctx s) (r_item r) (st_found_eof s) cur lpos rest (r_nl r)
                (st_comments s)) = (o, s') /\ is_comment (it_tok (r_item r)) = false
        \/ exists k, it_tok (r_item r) = TComment k).
      { destruct (it_tok (r_item r)) eqn:Ht; cbn; try (left; split; [exact H|reflexivity]). eauto. }
      destruct Hd as [[Hd Hc]|(k & Hk)].
      + inversion Hd; subst. exists [r]. split; auto. intros t Ha. cbn [app next_item_loop].
        cbn [with_rest st_look_pos st_look st_ctx st_found_eof st_comments]. rewrite Hu.
        destruct (it_tok (r_item r)); try discriminate Hc; reflexivity.
      + rewrite Hk in H. destruct (slice _ _ _) eqn:Hs.
        * apply IH in H; [|reflexivity].
          destruct H as (l & El & Hl). exists (r :: l). cbn. split; [f_equal; auto|].
          intros t' Ha. cbn [with_rest st_look_pos st_look st_ctx st_found_eof st_comments].
          rewrite Hu, Hk, Hs. specialize (Hl t' Ha). exact Hl.
        * inversion H; subst. exists [r]. split; auto. intros t' Ha. cbn [app next_item_loop].
          cbn [with_rest st_look_pos st_look st_ctx st_found_eof st_comments].
          rewrite Hu, Hk, Hs. reflexivity.
  Qed.

  Lemma next_item_frame g : frames (next_item g).
  Proof.
    intros s o s' H. unfold next_item in *. eapply next_item_loop_frame in H; [|reflexivity]. exact H.
  Qed.

  Lemma frame_same {B} (f : state -> outcome B * state) :
    (forall s o s', f s = (o, s') ->
       st_rest s' = st_rest s /\
       forall t, agree t (st_rest s) -> f (with_rest t s) = (o, with_rest t s')) -> frames f.
  Proof.
    intros Hf s o s' H. destruct (Hf _ _ _ H) as [H1 H2]. exists []. rewrite H1. split; auto.
  Qed.

  (** Errors are built from the state without the unread items. *)
  Lemma mk_error_frame g t s d : mk_error g (with_rest t s) d = mk_error g s d.
  Proof. destruct d; reflexivity. Qed.

  Lemma exec_frame g B (o : op B) : frames (exec g o).
  Proof.
    destruct o; try (apply frame_same; intros ? ? ? Hx; cbn in *; inversion Hx; subst; split;
                     [reflexivity|]; intros t Ha; cbn; try reflexivity; fail).
    - intros ? ? ? Hx. apply next_item_frame. exact Hx.
    - (* ONextIgnored *)
      intros s r s' Hx. cbn in Hx. destruct (next_item g s) as [r1 s1] eqn:Hn.
      destruct (next_item_frame g s _ _ Hn) as (l & El & Hl).
      destruct r1; inversion Hx; subst; exists l; (split; [exact El|]); intros t Ha; cbn [exec];
        rewrite Hl by auto; reflexivity.
    - apply frame_same. intros s b s' Hx. cbn in *. inversion Hx; subst. split; auto.
      intros t [Ha _]. cbn. unfold peek_raw. cbn. destruct t, (st_rest s'); cbn in *; congruence.
    - apply frame_same. intros s b s' Hx. cbn in *. inversion Hx; subst. split; auto.
      intros t [_ Ha]. cbn. rewrite Ha. reflexivity.
    - apply frame_same. intros s b s' Hx. cbn [exec] in *. destruct (g_tolerant g); inversion Hx; subst;
        (split; [reflexivity|]); intros t _; rewrite ?mk_error_frame; reflexivity.
    - intros s b s' Hx. cbn [exec] in Hx |- *. destruct (g_tolerant g) eqn:Ht.
      + destruct (is_punct PComma (it_tok (st_look s))) eqn:Hc.
        * destruct (next_item g s) as [r1 s1] eqn:Hn.
          destruct (next_item_frame g s _ _ Hn) as (l & El & Hl).
          destruct r1; inversion Hx; subst; exists l; (split; [exact El|]); intros t Ha;
            change (st_look (with_rest (l ++ t) s)) with (st_look s); rewrite Hc, Hl by auto; reflexivity.
        * inversion Hx; subst. exists []. split; auto. intros t Ha.
          change (st_look (with_rest ([] ++ t) s')) with (st_look s'). rewrite Hc. reflexivity.
      + destruct (next_item g s) as [r1 s1] eqn:Hn.
        destruct (next_item_frame g s _ _ Hn) as (l & El & Hl).
        destruct r1 as [i|e| |]; [destruct (is_punct PComma (it_tok i)) eqn:Hc|..]; inversion Hx; subst;
          exists l; (split; [exact El|]); intros t Ha; rewrite Hl by auto; try rewrite Hc;
          rewrite ?mk_error_frame; reflexivity.
    - apply frame_same. intros s x s' Hx. cbn [exec] in *.
      destruct (g_module g); [destruct b as [[]|]|]; inversion Hx; subst; (split; [reflexivity|]); intros t _;
        rewrite ?mk_error_frame; reflexivity.
  Qed.

  Lemma run_in_frame g n (rec : forall B, call B -> state -> outcome B * state) :
    (forall B (c : call B), frames (rec _ c)) ->
    forall B (p : prog call B), frames (run_in g n rec p).
  Proof.
    intros Hrec. induction p; intros s b s' Hr; cbn [run_in] in *.
    - inversion Hr; subst. exists []. auto.
    - inversion Hr; subst. exists []. split; [reflexivity|]. intros t _. rewrite mk_error_frame. reflexivity.
    - inversion Hr; subst. exists []. auto.
    - apply exec_frame. exact Hr.
    - apply Hrec. exact Hr.
    - destruct (run_in g n rec p s) as [r1 s1] eqn:Hp.
      destruct (IHp _ _ _ Hp) as (l1 & E1 & F1). destruct r1 as [a|e| |].
      { destruct (H a _ _ _ Hr) as (l2 & E2 & F2).
        exists (l1 ++ l2). rewrite E1, E2, app_assoc. split; auto. intros t Ha.
        rewrite <- app_assoc, F1; [apply F2; exact Ha|]. rewrite E2. apply agree_app. exact Ha. }
      all: inversion Hr; subst; exists l1; (split; [exact E1|]); intros t Ha; rewrite F1 by auto; reflexivity.
    - assert (Hgen : forall k x, frames (iter (fun y s' => run_in g n rec (body0 y) s') k x)).
      { induction k; intros y t a t' Ht; cbn in *; [inversion Ht; subst; exists []; auto|].
        destruct (run_in g n rec (body0 y) t) as [r1 t1] eqn:Hy.
        destruct (H y _ _ _ Hy) as (l1 & E1 & F1). destruct r1 as [[y'|a']|e| |].
        - destruct (IHk y' _ _ _ Ht) as (l2 & E2 & F2).
          exists (l1 ++ l2). rewrite E1, E2, app_assoc. split; auto. intros u Ha.
          rewrite <- app_assoc, F1; [apply F2; exact Ha|]. rewrite E2. apply agree_app. exact Ha.
        - inversion Ht; subst. exists l1. split; auto. intros u Ha. rewrite F1 by auto. reflexivity.
        - inversion Ht; subst. exists l1. split; auto. intros u Ha. rewrite F1 by auto. reflexivity.
        - inversion Ht; subst. exists l1. split; auto. intros u Ha. rewrite F1 by auto. reflexivity.
        - inversion Ht; subst. exists l1. split; auto. intros u Ha. rewrite F1 by auto. reflexivity. }
      apply Hgen. exact Hr.
  Qed.

  Theorem run_call_frame g : forall n B (c : call B), frames (run_call bd g n c).
  Proof.
    induction n; intros B c s b s' H; cbn in *; [inversion H; subst; exists []; auto|].
    exact (run_in_frame g n _ IHn _ (body c) s b s' H).
  Qed.
  Theorem run_frame g n B (p : prog call B) : frames (run bd g n p).
  Proof. apply run_in_frame. intros. apply run_call_frame. Qed.
End Meta.
