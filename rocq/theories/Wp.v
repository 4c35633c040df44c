(** Weakest preconditions for the language of Prog.v, and their soundness.

    [pre m c s]: calling [c] in state [s] with call depth [m] is allowed.
    [post c s b s']: what a successful call promises.
    [E e s']: what is promised of an error.  [PN]: whether panics are tolerated.
    [tot]: whether exhausting the fuel is excluded; then every loop iteration must
    shrink [size]. *)
From Verif Require Export Parser.

(** What the parser has not read yet: the look-ahead, then the scanner's remaining items,
    comments left out; nothing once the end-of-file item was consumed. *)
Definition nc (r : raw) : bool := negb (is_comment (it_tok (r_item r))).
Definition view (s : state) : list raw :=
  (if st_found_eof s then [] else [mkRaw (st_look s) (st_nl s)]) ++ filter nc (st_rest s).
Definition size (s : state) : nat := length (view s).

Section Wp.
  Variable call : Type -> Type.
  Variable body : forall B, call B -> prog call B.
  Variable g : cfg.
  Variable tot : bool.
  Variable pre : nat -> forall B, call B -> state -> Prop.
  Variable post : forall B, call B -> state -> B -> state -> Prop.
  Variable E : error -> state -> Prop.
  Variable PN : Prop.

  Definition wp_out {B} (Q : B -> state -> Prop) (r : outcome B * state) : Prop :=
    match r with
    | (Ok b, s') => Q b s'
    | (Err e, s') => E e s'
    | (Panic, _) => PN
    | (NoFuel, _) => tot = false
    end.

  Fixpoint wp (m : nat) {B} (p : prog call B) (Q : B -> state -> Prop) (s : state) {struct p}
    : Prop :=
    match p in prog _ B return (B -> state -> Prop) -> Prop with
    | Ret a => fun Q => Q a s
    | Fail d => fun _ => E (mk_error g s d) s
    | Crash => fun _ => PN
    | Do o => fun Q => wp_out Q (exec g o s)
    | Call c => fun Q => pre m _ c s /\ forall b s', post _ c s b s' -> Q b s'
    | Bind q k => fun Q => wp m q (fun a s' => wp m (k a) Q s') s
    | @Loop _ A X x bd => fun Q =>
        exists I : X -> state -> Prop,
          I x s /\ (tot = true -> size s < m) /\
          forall y s1, I y s1 ->
            wp m (bd y) (fun r s2 =>
              match r with
              | inl y' => I y' s2 /\ (tot = true -> size s2 < size s1)
              | inr a => Q a s2
              end) s1
    end Q.

  Lemma wp_mono : forall B (p : prog call B) m (Q Q' : B -> state -> Prop) s,
    (forall b s', Q b s' -> Q' b s') -> wp m p Q s -> wp m p Q' s.
  Proof.
    induction p; intros m Q Q' s HQ; cbn [wp]; auto.
    - unfold wp_out. destruct (exec g o s) as [[?| | |] ?]; auto.
    - intros [H1 H2]; split; auto.
    - apply IHp. intros b s'. apply H. exact HQ.
    - intros (I & H1 & H2 & H3). exists I. split; [exact H1|]. split; [exact H2|].
      intros y s1 Hy. eapply H; [|exact (H3 y s1 Hy)].
      intros [y'|a] s2; cbn; auto.
  Qed.

  Hypothesis exec_total : forall B (o : op B) s s', exec g o s <> (NoFuel, s').
  Hypothesis pre_pos : tot = true -> forall B (c : call B) s, ~ pre 0 _ c s.
  Hypothesis bodies : forall m B (c : call B) s,
    pre (S m) _ c s -> wp m (body _ c) (post _ c s) s.

  Lemma wp_run_in : forall m,
    (forall B (c : call B) s, pre m _ c s -> wp_out (post _ c s) (run_call body g m c s)) ->
    forall B (p : prog call B) (Q : B -> state -> Prop) s,
      wp m p Q s -> wp_out Q (run_in g m (@run_call call body g m) p s).
  Proof.
    intros m Hcall. induction p; intros Q s Hwp; cbn [wp run_in] in *; auto.
    - destruct Hwp as [H1 H2]. specialize (Hcall _ c s H1).
      unfold wp_out in *. destruct (run_call body g m c s) as [[?| | |] ?]; auto.
    - specialize (IHp _ s Hwp). unfold wp_out in IHp at 1.
      destruct (run_in g m (@run_call call body g m) p s) as [[a| | |] s']; auto.
    - destruct Hwp as (I & HI & Hsz & Hstep).
      assert (Hgen : forall k x s, I x s -> (tot = true -> size s < k) ->
                wp_out Q (iter (fun y s' => run_in g m (@run_call call body g m) (body0 y) s') k x s)).
      { induction k; intros x' s' HI' Hk; cbn [iter].
        - unfold wp_out. destruct tot; auto. specialize (Hk eq_refl). lia.
        - specialize (H x' _ s' (Hstep x' s' HI')).
          unfold wp_out in H.
          destruct (run_in g m (@run_call call body g m) (body0 x') s') as [[[x''|a]|e| |] s''];
            auto.
          destruct H as [H1 H2]. apply IHk; auto.
          intros Ht. specialize (H2 Ht). specialize (Hk Ht). lia. }
      apply Hgen; auto.
  Qed.

  Theorem wp_sound : forall m B (c : call B) s,
    pre m _ c s -> wp_out (post _ c s) (run_call body g m c s).
  Proof.
    induction m; intros B c s Hpre; cbn [run_call].
    - unfold wp_out. destruct tot eqn:Ht; auto. exfalso. eapply pre_pos; eauto.
    - apply wp_run_in; auto.
  Qed.

  Corollary wp_sound_prog : forall m B (p : prog call B) Q s,
    wp m p Q s -> wp_out Q (run body g m p s).
  Proof. intros. apply wp_run_in; auto using wp_sound. Qed.
End Wp.

Arguments wp {call} g tot pre post E PN m {B} p Q s.
Arguments wp_out tot E PN {B} Q r.

Lemma next_item_not_nofuel g s s' : next_item g s <> (NoFuel, s').
Proof.
  unfold next_item. generalize (it_start (st_look s), it_end (st_look s)).
  generalize (st_rest s) at 1. intros l. revert s.
  induction l as [|r l IH]; intros s sp H; cbn [next_item_loop] in H.
  - destruct (is_eof _); [destruct (st_found_eof s)|]; inversion H.
  - destruct (update_positions _ _ _ _ _) as [[? ?]|]; [|inversion H].
    destruct (it_tok (r_item r)) eqn:Ht; try inversion H.
    destruct (slice _ _ _); [|inversion H]. eapply IH; eauto.
Qed.

Lemma exec_not_nofuel g B (o : op B) s s' : exec g o s <> (NoFuel, s').
Proof.
  pose proof (next_item_not_nofuel g s) as Hn. intros H.
  destruct o; cbn in H; try discriminate H; try (eapply Hn; exact H);
    repeat (match type of H with
            | context [match ?x with _ => _ end] => destruct x eqn:?
            end; try discriminate H; try (eapply Hn; reflexivity));
    eapply Hn; eauto.
Qed.

(** ** What [next_item] does to the unread input *)
Lemma next_item_loop_ok g : forall rest sp s i s',
  st_rest s = rest ->
  next_item_loop g rest sp s = (Ok i, s') ->
  i = st_look s /\ st_ctx s' = st_ctx s /\
  ((exists r, filter nc (st_rest s) = r :: filter nc (st_rest s') /\ st_found_eof s' = st_found_eof s
              /\ st_look s' = r_item r /\ st_nl s' = r_nl r /\ nc r = true)
   \/ (filter nc (st_rest s) = [] /\ st_rest s' = [] /\ st_found_eof s = false
       /\ st_found_eof s' = true /\ st_look s' = st_look s /\ is_eof (it_tok i) = true)).
Proof.
  induction rest as [|r rest IH]; intros sp s i s' Hr H; cbn [next_item_loop] in H.
  - destruct (is_eof (it_tok (st_look s))) eqn:He; [|inversion H].
    destruct (st_found_eof s) eqn:Hf; inversion H; subst; cbn.
    rewrite Hr. repeat split; auto. right. cbn. auto 10.
  - destruct (update_positions _ _ _ _ _) as [[cur lpos]|]; [|inversion H].
    assert (Hd : nc r = true /\
       (Ok (st_look s), mkState (st_ctx s) (r_item r) (st_found_eof s) cur lpos rest (r_nl r)
                (st_comments s)) = (Ok i, s')
      \/ nc r = false /\ exists s1, st_rest s1 = rest /\ st_ctx s1 = st_ctx s /\ st_look s1 = st_look s
          /\ st_found_eof s1 = st_found_eof s
          /\ exists sp', next_item_loop g rest sp' s1 = (Ok i, s')).
    { unfold nc. destruct (it_tok (r_item r)) eqn:Ht; cbn; try (left; split; [reflexivity|exact H]).
      right. split; auto. destruct (slice _ _ _); [|inversion H].
      eexists. split; [|split; [|split; [|split; [|eexists; exact H]]]]; reflexivity. }
    rewrite Hr. cbn [filter]. destruct Hd as [[Hn Hd]|[Hn (s1 & H1 & H2 & H3 & H4 & sp' & H5)]].
    + inversion Hd; subst; cbn. split; auto. split; auto. left. exists r. rewrite Hn. auto 10.
    + rewrite Hn. destruct (IH sp' s1 i s' H1 H5) as (A & B & C).
      rewrite H1, H2, H3, H4 in *. auto.
Qed.

Lemma next_item_ok g s i s' : next_item g s = (Ok i, s') ->
  i = st_look s /\ st_ctx s' = st_ctx s /\ size s = S (size s').
Proof.
  intros H. apply next_item_loop_ok in H; auto.
  destruct H as (A & B & C). repeat split; auto.
  unfold size, view.
  destruct C as [(r & C1 & C2 & C3 & C4 & C5)|(C1 & C2 & C3 & C4 & C5 & C6)].
  - rewrite C1, C2. destruct (st_found_eof s); cbn; reflexivity.
  - rewrite C1, C2, C3, C4. reflexivity.
Qed.

Lemma next_item_err_size g s e s' : next_item g s = (Err e, s') ->
  st_ctx s' = st_ctx s /\ size s' <= size s.
Proof.
  unfold next_item. generalize (it_start (st_look s), it_end (st_look s)).
  intros sp. remember (st_rest s) as rest eqn:Hr. revert sp s Hr.
  induction rest as [|r rest IH]; intros sp s Hr H; cbn [next_item_loop] in H.
  - destruct (is_eof _); [destruct (st_found_eof s) eqn:Hf|]; inversion H; subst;
      unfold size, view; cbn; rewrite <- Hr; try rewrite Hf; cbn;
      try destruct (st_found_eof s); auto.
  - destruct (update_positions _ _ _ _ _) as [[cur lpos]|]; [|inversion H].
    destruct (it_tok (r_item r)) eqn:Ht; try (inversion H; fail).
    destruct (slice _ _ _).
    + apply IH in H; [|reflexivity]. cbn in H. destruct H as [H1 H2]. split; auto.
      etransitivity; [exact H2|]. unfold size, view. cbn. rewrite <- Hr. cbn.
      unfold nc at 2. rewrite Ht. cbn. destruct (st_found_eof s); cbn; lia.
    + inversion H; subst. cbn. split; auto. unfold size, view. cbn. rewrite <- Hr. cbn.
      unfold nc at 2. rewrite Ht. cbn. destruct (st_found_eof s); cbn; lia.
Qed.
