(** The work done by the parser: an evaluator that counts steps, and a bound linear in the
    number of tokens. *)
From Verif Require Export Term.
Export Parser.
From Coq Require Export BinInt Znat.
Open Scope nat_scope.

(** ** Counting
    One step for each operation on the parser state, each call and each iteration of a loop.
    The evaluator is that of Prog.v, with a count added to it (see [run_call_steps]). *)
Section Steps.
  Variable call : Type -> Type.
  Variable body : forall B, call B -> prog call B.
  Variable g : cfg.

  Definition counted (B : Type) : Type := outcome B * state * N.

  Section Iter.
    Context {A S : Type} (step : S -> state -> counted (S + A)).
    Fixpoint iter_steps (n : nat) (x : S) (s : state) (k : N) : counted A :=
      match n with
      | 0 => (NoFuel, s, k)
      | Datatypes.S n' =>
          match step x s with
          | (Ok (inl x'), s', k') => iter_steps n' x' s' (k + k' + 1)
          | (Ok (inr a), s', k') => (Ok a, s', k + k' + 1)
          | (Err e, s', k') => (Err e, s', k + k' + 1)
          | (Panic, s', k') => (Panic, s', k + k' + 1)
          | (NoFuel, s', k') => (NoFuel, s', k + k' + 1)
          end%N
      end.
  End Iter.

  Section RunIn.
    Variable n : nat.
    Variable rec : forall B, call B -> state -> counted B.
    Fixpoint run_in_steps {B} (p : prog call B) (s : state) {struct p} : counted B :=
      match p in prog _ B return counted B with
      | Ret a => (Ok a, s, 0%N)
      | Fail d => (Err (mk_error g s d), s, 0%N)
      | Crash => (Panic, s, 0%N)
      | Do o => (exec g o s, 1%N)
      | Call c => rec _ c s
      | Bind q f =>
          match run_in_steps q s with
          | (Ok a, s', k) => let '(r, k') := run_in_steps (f a) s' in (r, (k + k')%N)
          | (Err e, s', k) => (Err e, s', k)
          | (Panic, s', k) => (Panic, s', k)
          | (NoFuel, s', k) => (NoFuel, s', k)
          end
      | Loop x bd => iter_steps (fun y s' => run_in_steps (bd y) s') n x s 0
      end.
  End RunIn.

  Fixpoint run_call_steps (n : nat) {B} (c : call B) (s : state) {struct n} : counted B :=
    match n with
    | 0 => (NoFuel, s, 1%N)
    | S m => let '(r, k) := run_in_steps m (@run_call_steps m) (body _ c) s in (r, (k + 1)%N)
    end.

  Definition run_steps (n : nat) {B} (p : prog call B) (s : state) : counted B :=
    run_in_steps n (@run_call_steps n) p s.

  (** Forgetting the count gives the evaluator of Prog.v. *)
  Lemma run_in_steps_run n rec rec' :
    (forall B (c : call B) s, fst (rec B c s) = rec' B c s) ->
    forall B (p : prog call B) s, fst (run_in_steps n rec p s) = run_in g n rec' p s.
  Proof.
    intros Hr. induction p; intros s; cbn [run_in_steps run_in]; auto.
    - rewrite <- IHp. destruct (run_in_steps n rec p s) as [[[a|e| |] s'] c]; cbn [fst]; auto.
      rewrite <- H. destruct (run_in_steps n rec (k a) s') as [? ?]. reflexivity.
    - assert (X : forall j y t c, fst (iter_steps (fun y s' => run_in_steps n rec (body0 y) s') j y t c)
                                = iter (fun y s' => run_in g n rec' (body0 y) s') j y t); [|apply X].
      induction j as [|j IH]; intros y t c; cbn [iter_steps iter]; auto.
      rewrite <- H. destruct (run_in_steps n rec (body0 y) t) as [[[[x'|a]|e| |] s'] c']; cbn [fst]; auto.
  Qed.
  Lemma run_call_steps_run : forall n B (c : call B) s, fst (run_call_steps n c s) = run_call body g n c s.
  Proof.
    induction n as [|n IH]; intros B c s; cbn [run_call_steps run_call]; auto.
    rewrite <- (run_in_steps_run n (@run_call_steps n) (@run_call _ body g n) IH).
    destruct (run_in_steps n _ _ _) as [? ?]. reflexivity.
  Qed.
  Lemma run_steps_run n B (p : prog call B) s : fst (run_steps n p s) = run body g n p s.
  Proof. apply run_in_steps_run. intros. apply run_call_steps_run. Qed.
End Steps.
Arguments run_in_steps {call} g n rec {B}.
Arguments run_call_steps {call} body g n {B}.
Arguments run_steps {call} body g n {B}.

(** ** Credit
    Each unread token is worth [A] steps.  [wpc p Q s d]: with [d] steps in hand beside those of
    the unread tokens, [p] never runs out of steps, and ends as [Q] says. *)
Section Credit.
  Variable call : Type -> Type.
  Variable body : forall B, call B -> prog call B.
  Variable g : cfg.
  Variable A : Z.
  Hypothesis A_pos : (0 <= A)%Z.
  Variable need : forall B, call B -> Z.
  Variable gain : forall B, call B -> Z.
  Variable less : forall B, call B -> nat.
  Definition sz (s : state) : Z := Z.of_nat (size s).

  Open Scope Z_scope.
  Fixpoint wpc {B} (p : prog call B) (Q : B -> state -> Z -> Prop) (s : state) (d : Z) {struct p} : Prop :=
    match p in prog _ B return (B -> state -> Z -> Prop) -> Prop with
    | Ret a => fun Q => Q a s d
    | Fail _ => fun _ => 0 <= d
    | Crash => fun _ => 0 <= d
    | Do o => fun Q => 1 <= d /\
        match exec g o s with
        | (Ok b, s') => Q b s' (d - 1 + A * (sz s - sz s'))
        | _ => True
        end
    | Call c => fun Q => need _ c <= d /\
        forall b s' d', (size s' + less _ c <= size s)%nat -> d + gain _ c <= d' -> Q b s' d'
    | Bind q k => fun Q => wpc q (fun a s' d' => wpc (k a) Q s' d') s d
    | @Loop _ _ X x bd => fun Q =>
        exists I : X -> state -> Z -> Prop,
          I x s d /\
          forall y s1 d1, I y s1 d1 -> 0 <= d1 /\
            wpc (bd y) (fun r s2 d2 =>
              match r with
              | inl y' => I y' s2 d2
              | inr a => Q a s2 d2
              end) s1 (d1 - 1)
    end Q.

  Lemma wpc_mono : forall B (p : prog call B) (Q Q' : B -> state -> Z -> Prop) s d,
    (forall b s' d', Q b s' d' -> Q' b s' d') -> wpc p Q s d -> wpc p Q' s d.
  Proof.
    induction p; intros Q Q' s u HQ; cbn [wpc]; auto.
    - intros [H1 H2]. split; [exact H1|]. destruct (exec g o s) as [[?| | |] ?]; auto.
    - intros [H1 H2]; split; auto.
    - apply IHp. intros b s' d'. apply H. exact HQ.
    - intros (I & H1 & H2). exists I. split; [exact H1|]. intros y s1 d1 Hy. destruct (H2 y s1 d1 Hy) as [H3 H4]. split; [exact H3|].
      eapply H; [|exact H4]. intros [y'|a] s2 d2; cbn; auto.
  Qed.

  (** With [d] in hand at [s], the steps to the result. *)
  Definition within {B} (Q : B -> state -> Z -> Prop) (s : state) (d : Z) (r : counted B) : Prop :=
    match r with
    | (Ok b, s', k) => Q b s' (d + A * (sz s - sz s') - Z.of_N k)
    | (_, k) => Z.of_N k <= d + A * sz s
    end.

  Hypothesis bodies : forall B (c : call B) s d, need _ c <= d ->
    wpc (body _ c) (fun b s' d' => (size s' + less _ c <= size s)%nat /\ d + gain _ c <= d') s (d - 1).
  Hypothesis need_pos : forall B (c : call B), 1 <= need _ c.

  Lemma sz_pos s : 0 <= A * sz s. Proof. apply Z.mul_nonneg_nonneg; [exact A_pos|unfold sz; lia]. Qed.

  Lemma wpc_run_in : forall m,
    (forall B (c : call B) s d, need _ c <= d ->
       within (fun b s' d' => (size s' + less _ c <= size s)%nat /\ d + gain _ c <= d') s d (run_call_steps body g m c s)) ->
    forall B (p : prog call B) (Q : B -> state -> Z -> Prop) s d,
      wpc p Q s d -> within Q s d (run_in_steps g m (@run_call_steps call body g m) p s).
  Proof.
    intros m Hcall. induction p as [B0 a|B0 fd|B0|B0 o|B0 c|B0 B1 p IHp k H|B0 X x body0 H]; intros Q s d Hwp; cbn [wpc run_in_steps] in *; unfold within in *.
    - replace (d + A * (sz s - sz s) - Z.of_N 0) with d by lia. exact Hwp.
    - pose proof (sz_pos s). cbn. lia.
    - pose proof (sz_pos s). cbn. lia.
    - pose proof (sz_pos s). destruct Hwp as [H1 H2]. destruct (exec g o s) as [[b|e| |] s']; cbn [Z.of_N]; try lia.
      replace (d + A * (sz s - sz s') - 1) with (d - 1 + A * (sz s - sz s')) by lia. exact H2.
    - destruct Hwp as [H1 H2]. specialize (Hcall _ c s d H1). destruct (run_call_steps body g m c s) as [[[b|e| |] s'] k]; auto.
      apply H2; tauto.
    - specialize (IHp _ s d Hwp). destruct (run_in_steps g m (@run_call_steps call body g m) p s) as [[[a|e| |] s'] c]; auto.
      specialize (H a Q s' _ IHp). destruct (run_in_steps g m (@run_call_steps call body g m) (k a) s') as [[[b|e| |] s''] c']; rewrite ?N2Z.inj_add; try lia.
      replace (d + A * (sz s - sz s'') - (Z.of_N c + Z.of_N c')) with (d + A * (sz s - sz s') - Z.of_N c + A * (sz s' - sz s'') - Z.of_N c') by lia.
      exact H.
    - destruct Hwp as (I & HI & Hstep).
      assert (Hgen : forall j x s1 d1 k, I x s1 d1 -> d1 = d + A * (sz s - sz s1) - Z.of_N k ->
        within Q s d (iter_steps (fun y s' => run_in_steps g m (@run_call_steps call body g m) (body0 y) s') j x s1 k)).
      { induction j as [|j IH]; intros x1 s1 d1 k HI1 E; cbn [iter_steps]; destruct (Hstep x1 s1 d1 HI1) as [P0 P1].
        - unfold within. pose proof (sz_pos s1). lia.
        - specialize (H x1 _ s1 _ P1).
          destruct (run_in_steps g m (@run_call_steps call body g m) (body0 x1) s1) as [[[[x2|a]|e| |] s2] k2]; unfold within; rewrite ?N2Z.inj_add; try lia.
          + eapply IH; [exact H|]. rewrite ?N2Z.inj_add. lia.
          + replace (d + A * (sz s - sz s2) - (Z.of_N k + Z.of_N k2 + Z.of_N 1)) with (d1 - 1 + A * (sz s1 - sz s2) - Z.of_N k2) by lia. exact H. }
      eapply Hgen; [exact HI|]. cbn. lia.
  Qed.

  Theorem wpc_sound : forall m B (c : call B) s d, need _ c <= d ->
    within (fun b s' d' => (size s' + less _ c <= size s)%nat /\ d + gain _ c <= d') s d (run_call_steps body g m c s).
  Proof.
    induction m; intros B c s d H; cbn [run_call_steps].
    - unfold within. pose proof (sz_pos s). specialize (need_pos B c). lia.
    - pose proof (wpc_run_in m IHm _ _ _ _ _ (bodies _ c s d H)) as W. unfold within in *.
      destruct (run_in_steps g m (@run_call_steps call body g m) (body B c) s) as [[[b|e| |] s'] k]; rewrite ?N2Z.inj_add; try lia.
  Qed.
  Lemma wpc_sound_prog m B (p : prog call B) Q s d : wpc p Q s d -> within Q s d (run_steps body g m p s).
  Proof. apply wpc_run_in. intros. apply wpc_sound. assumption. Qed.
End Credit.
Arguments wpc {call} g A need gain less {B} p Q s d.
Arguments within A {B} Q s d r.

(** ** The parser's functions
    [need]: steps in hand when called; [gain]: what is left over from the tokens consumed. *)
Open Scope Z_scope.
Definition worth : Z := 500.
Definition unit_ : Z := 28.
Definition loss : Z := 7.
Definition needK B (c : call B) : Z := unit_ * Z.of_nat (rank c) + unit_.
Definition gainK B (c : call B) : Z :=
  match c with
  | CConsumeSemicolon => - 6
  | CDirectivePrologues => - 15
  | CClassEl _ => 480 - unit_ * 6
  | _ => 480 - unit_ * Z.of_nat (rank c)
  end.
Definition mid : Z := 480 - unit_ * 16.
Definition lessK B (c : call B) : nat := consumes c.

Section PassK.
  Variable g : cfg.
  Notation W := (wpc g worth needK gainK lessK).

  Lemma wpK_ret A (a : A) (Q : A -> state -> Z -> Prop) s d : Q a s d -> W (Ret a) Q s d.
  Proof. exact (fun H => H). Qed.
  Lemma wpK_fail A e (Q : A -> state -> Z -> Prop) s d : 0 <= d -> W (Fail e) Q s d.
  Proof. exact (fun H => H). Qed.
  Lemma wpK_crash A (Q : A -> state -> Z -> Prop) s d : 0 <= d -> W Crash Q s d.
  Proof. exact (fun H => H). Qed.
  Lemma wpK_bind A B (p : P A) (k : A -> P B) Q s d :
    W p (fun a s' d' => W (k a) Q s' d') s d -> W (Bind p k) Q s d.
  Proof. exact (fun H => H). Qed.

  (** Cut at a sequence point: only what was consumed and what is in hand are remembered. *)
  Lemma wpK_cut c w A B (p : P A) (k : A -> P B) Q s d :
    W p (fun _ s' d' => (size s' + c <= size s)%nat /\ d + w <= d') s d ->
    (forall a s' d', (size s' + c <= size s)%nat -> d + w <= d' -> W (k a) Q s' d') ->
    W (Bind p k) Q s d.
  Proof. intros H1 H2. apply wpK_bind. eapply wpc_mono; [|exact H1]. intros ? ? ? []. apply H2; auto. Qed.

  Lemma wpK_next (Q : item -> state -> Z -> Prop) s d : 1 <= d ->
    (forall s' d', size s = S (size s') -> d' = d - 1 + worth -> Q (st_look s) s' d') -> W next Q s d.
  Proof.
    intros Hd H. unfold next. cbn [wpc]. split; [exact Hd|]. unfold exec.
    destruct (next_item g s) as [[i|e| |] s'] eqn:E; auto.
    destruct (next_item_ok _ _ _ _ E) as (-> & _ & X). apply H; [exact X|]. unfold sz. rewrite X. lia.
  Qed.
  Lemma wpK_nextignored (Q : unit -> state -> Z -> Prop) s d : 1 <= d ->
    (forall s' d', (size s' <= size s)%nat -> d - 1 <= d' -> Q tt s' d') -> W (Do ONextIgnored) Q s d.
  Proof.
    intros Hd H. cbn [wpc]. split; [exact Hd|]. unfold exec, worth.
    destruct (next_item g s) as [[i|e| |] s'] eqn:E; auto.
    - destruct (next_item_ok _ _ _ _ E) as (-> & _ & ?). apply H; unfold sz; lia.
    - destruct (next_item_err_size _ _ _ _ E). apply H; unfold sz; lia.
    - exfalso. eapply next_item_not_nofuel; eauto.
  Qed.
  Lemma wpK_upd f (Q : unit -> state -> Z -> Prop) s d : 1 <= d ->
    (forall s' d', size s' = size s -> d' = d - 1 -> Q tt s' d') -> W (Do (OUpd f)) Q s d.
  Proof. intros Hd H. cbn [wpc exec]. split; [exact Hd|]. apply H; [reflexivity|]. unfold sz. rewrite size_upd. lia. Qed.
  Lemma wpK_pure B (o : op B) (Q : B -> state -> Z -> Prop) s d :
    match o with
    | ONext | ONextIgnored | OUpd _ | OExpectComma => False
    | _ => True
    end -> 1 <= d ->
    (forall b d', d' = d - 1 -> Q b s d') -> W (Do o) Q s d.
  Proof.
    intros Ho Hd H. cbn [wpc]. split; [exact Hd|]. destruct o; cbn [exec] in *; try tauto; try (apply H; lia).
    - destruct (g_tolerant g); auto. apply H; lia.
    - destruct (g_module g); [destruct b as [[]|]|]; auto; apply H; lia.
  Qed.
  Lemma wpK_expectcomma (Q : unit -> state -> Z -> Prop) s d : 1 <= d ->
    (forall s' d', (size s' <= size s)%nat -> d - 1 <= d' -> Q tt s' d') -> W (Do OExpectComma) Q s d.
  Proof.
    intros Hd H. cbn [wpc]. split; [exact Hd|]. unfold exec, worth. destruct (g_tolerant g).
    - destruct (is_punct _ _); [|apply H; lia].
      destruct (next_item g s) as [[i|e| |] s'] eqn:E; auto.
      destruct (next_item_ok _ _ _ _ E) as (-> & _ & ?). apply H; unfold sz; lia.
    - destruct (next_item g s) as [[i|e| |] s'] eqn:E; auto.
      destruct (next_item_ok _ _ _ _ E) as (-> & _ & ?).
      destruct (is_punct _ _); auto. apply H; unfold sz; lia.
  Qed.
  Lemma wpK_call B (c : call B) (Q : B -> state -> Z -> Prop) s d :
    needK _ c <= d ->
    (forall b s' d', (size s' + consumes c <= size s)%nat -> d + gainK _ c <= d' -> Q b s' d') -> W (Call c) Q s d.
  Proof. intros H1 H2. cbn [wpc]. split; auto. Qed.

  (** A loop, each iteration of which earns what it costs. *)
  Lemma wpK_loop A X (x : X) (b : X -> P (X + A)) (Q : A -> state -> Z -> Prop) s d :
    0 <= d ->
    (forall y s1 d1, (size s1 <= size s)%nat -> d <= d1 ->
       W (b y) (fun r s2 d2 =>
         match r with
         | inl _ => (size s2 <= size s1)%nat /\ d1 <= d2
         | inr a => (size s2 <= size s1)%nat /\ d1 - loss <= d2
         end) s1 (d1 - 1)) ->
    (forall a s' d', (size s' <= size s)%nat -> d - loss <= d' -> Q a s' d') ->
    W (Loop x b) Q s d.
  Proof.
    intros H1 H2 H3. cbn [wpc]. exists (fun _ s1 d1 => (size s1 <= size s)%nat /\ d <= d1).
    split; [split; lia|]. intros y s1 d1 [Hs Hd]. split; [lia|].
    eapply wpc_mono; [|apply H2; auto]. cbn beta. intros [y'|a] s2 d2 [Hq Hr]; [split; lia|].
    apply H3; lia.
  Qed.

  (** Helpers: at most five steps. *)
  Lemma wpK_get A (f : ctx -> A) (Q : A -> state -> Z -> Prop) s d : 1 <= d ->
    (forall a d', d' = d - 1 -> Q a s d') -> W (get f) Q s d.
  Proof. intros Hd H. unfold get, at_punct, at_keyword, look_tok, look. repeat apply wpK_bind. apply wpK_pure; [exact Logic.I|exact Hd|]. intros. cbn. apply H. assumption. Qed.
  Lemma wpK_look_tok (Q : token -> state -> Z -> Prop) s d : 1 <= d ->
    (forall a d', d' = d - 1 -> Q a s d') -> W look_tok Q s d.
  Proof. intros Hd H. unfold get, at_punct, at_keyword, look_tok, look. repeat apply wpK_bind. apply wpK_pure; [exact Logic.I|exact Hd|]. intros. cbn. apply H. assumption. Qed.
  Lemma wpK_at_punct p (Q : bool -> state -> Z -> Prop) s d : 1 <= d ->
    (forall a d', d' = d - 1 -> Q a s d') -> W (at_punct p) Q s d.
  Proof. intros Hd H. unfold get, at_punct, at_keyword, look_tok, look. repeat apply wpK_bind. apply wpK_pure; [exact Logic.I|exact Hd|]. intros. cbn. apply H. assumption. Qed.
  Lemma wpK_at_keyword p (Q : bool -> state -> Z -> Prop) s d : 1 <= d ->
    (forall a d', d' = d - 1 -> Q a s d') -> W (at_keyword p) Q s d.
  Proof. intros Hd H. unfold get, at_punct, at_keyword, look_tok, look. repeat apply wpK_bind. apply wpK_pure; [exact Logic.I|exact Hd|]. intros. cbn. apply H. assumption. Qed.
  Lemma wpK_fail_look A l (Q : A -> state -> Z -> Prop) s d : 1 <= d -> W (fail_look l) Q s d.
  Proof. intros Hd. unfold fail_look, look. apply wpK_bind, wpK_pure; [exact Logic.I|exact Hd|]. intros. apply wpK_fail. lia. Qed.
  Lemma wpK_expect_punct p (Q : unit -> state -> Z -> Prop) s d : 1 <= d ->
    (forall s' d', size s = S (size s') -> d' = d - 1 + worth -> Q tt s' d') -> W (expect_punct p) Q s d.
  Proof.
    intros Hd H. apply wpK_bind, wpK_next; [exact Hd|]. intros s' d' E E'. destruct (is_punct _ _); cbn; auto. unfold worth in *. lia.
  Qed.
  Lemma wpK_expect_keyword p (Q : unit -> state -> Z -> Prop) s d : 1 <= d ->
    (forall s' d', size s = S (size s') -> d' = d - 1 + worth -> Q tt s' d') -> W (expect_keyword p) Q s d.
  Proof.
    intros Hd H. apply wpK_bind, wpK_next; [exact Hd|]. intros s' d' E E'. destruct (is_keyword _ _); cbn; auto. unfold worth in *. lia.
  Qed.
  Lemma wpK_stream_at i (Q : text -> state -> Z -> Prop) s d : 1 <= d ->
    (forall a d', d' = d - 1 -> Q a s d') -> W (stream_at i) Q s d.
  Proof.
    intros Hd H. apply wpK_bind, wpK_pure; [exact Logic.I|exact Hd|]. intros [t|] d' E; [apply wpK_ret, H; exact E|apply wpK_crash; lia].
  Qed.
  Lemma wpK_get_string i (Q : text -> state -> Z -> Prop) s d : 1 <= d ->
    (forall a d', d' = d - 1 -> Q a s d') -> W (get_string i) Q s d.
  Proof.
    intros Hd H. apply wpK_bind, wpK_pure; [exact Logic.I|exact Hd|]. intros [t|] d' E; [apply wpK_ret, H; exact E|apply wpK_fail; lia].
  Qed.
  Lemma wpK_string_or_empty i (Q : text -> state -> Z -> Prop) s d : 1 <= d ->
    (forall a d', d' = d - 1 -> Q a s d') -> W (string_or_empty i) Q s d.
  Proof. intros Hd H. apply wpK_bind, wpK_pure; [exact Logic.I|exact Hd|]. intros t d' E. apply wpK_ret, H. exact E. Qed.
  Lemma wpK_at_contextual w (Q : bool -> state -> Z -> Prop) s d : 2 <= d ->
    (forall a d', d' = d - 2 -> Q a s d') -> W (at_contextual w) Q s d.
  Proof.
    intros Hd H. apply wpK_bind, wpK_pure; [exact Logic.I|lia|]. intros la d1 E1. apply wpK_bind, wpK_stream_at; [lia|]. intros t d2 E2.
    apply wpK_ret, H. lia.
  Qed.
  Lemma wpK_at_async_function (Q : bool -> state -> Z -> Prop) s d : 5 <= d ->
    (forall a d', d - 5 <= d' -> Q a s d') -> W at_async_function Q s d.
  Proof.
    intros Hd H. apply wpK_bind, wpK_at_contextual; [lia|]. intros [] d1 E1; [|apply wpK_ret, H; lia].
    apply wpK_bind, wpK_pure; [exact Logic.I|lia|]. intros [pk|] d2 E2; [|apply wpK_ret, H; lia].
    apply wpK_bind, wpK_pure; [exact Logic.I|lia|]. intros ? d3 E3. apply wpK_bind, wpK_pure; [exact Logic.I|lia|]. intros ? d4 E4. apply wpK_ret, H; lia.
  Qed.
  Lemma wpK_at_import_call (Q : bool -> state -> Z -> Prop) s d : 2 <= d ->
    (forall a d', d - 2 <= d' -> Q a s d') -> W at_import_call Q s d.
  Proof.
    intros Hd H. apply wpK_bind, wpK_at_keyword; [lia|]. intros [] d1 E1; [|apply wpK_ret, H; lia].
    apply wpK_bind, wpK_pure; [exact Logic.I|lia|]. intros ? d2 E2. apply wpK_ret, H; lia.
  Qed.
  Lemma wpK_at_lexical_decl (Q : bool -> state -> Z -> Prop) s d : 1 <= d ->
    (forall a d', d' = d - 1 -> Q a s d') -> W at_lexical_decl Q s d.
  Proof. intros Hd H. apply wpK_bind, wpK_pure; [exact Logic.I|lia|]. intros ? d2 E2. apply wpK_ret, H; lia. Qed.
  Lemma wpK_at_return_arg (Q : bool -> state -> Z -> Prop) s d : 2 <= d ->
    (forall a d', d' = d - 2 -> Q a s d') -> W at_return_arg Q s d.
  Proof.
    intros Hd H. apply wpK_bind, wpK_pure; [exact Logic.I|lia|]. intros b d1 E1. apply wpK_bind, wpK_look_tok; [lia|]. intros t d2 E2.
    destruct b; apply wpK_ret, H; lia.
  Qed.
  Lemma wpK_qualified t (Q : bool -> state -> Z -> Prop) s d : 1 <= d ->
    (forall a d', d' = d - 1 -> Q a s d') -> W (qualified_prop_name t) Q s d.
  Proof. intros Hd H. apply wpK_bind, wpK_pure; [exact Logic.I|lia|]. intros b d1 E1. apply wpK_ret, H; lia. Qed.

  Lemma wpK_isolated A (p : P A) (Q : A -> state -> Z -> Prop) s d : 3 <= d ->
    (forall s1 d1, size s1 = size s -> d1 = d - 2 -> W p (fun a s2 d2 => 1 <= d2 /\ forall s3 d3, size s3 = size s2 -> d3 = d2 - 1 -> Q a s3 d3) s1 d1) ->
    W (isolated p) Q s d.
  Proof.
    intros Hd H. unfold isolated, isolate_cover, get_cover.
    apply wpK_bind, wpK_bind, wpK_bind, wpK_pure; [exact Logic.I|lia|]. intros c d1 E1. apply wpK_ret. apply wpK_bind, wpK_upd; [lia|].
    intros s1 d2 S2 E2. apply wpK_ret. apply wpK_bind. eapply wpc_mono; [|apply H; [exact S2|lia]].
    cbn beta. intros a s2 d3 [X Y]. apply wpK_bind, wpK_upd; [exact X|]. intros. apply wpK_ret, Y; assumption.
  Qed.
  Lemma wpK_inheriting A (p : P A) (Q : A -> state -> Z -> Prop) s d : 3 <= d ->
    (forall s1 d1, size s1 = size s -> d1 = d - 2 -> W p (fun a s2 d2 => 1 <= d2 /\ forall s3 d3, size s3 = size s2 -> d3 = d2 - 1 -> Q a s3 d3) s1 d1) ->
    W (inheriting p) Q s d.
  Proof.
    intros Hd H. unfold inheriting, inherit_cover, isolate_cover, get_cover.
    apply wpK_bind, wpK_bind, wpK_bind, wpK_pure; [exact Logic.I|lia|]. intros c d1 E1. apply wpK_ret. apply wpK_bind, wpK_upd; [lia|].
    intros s1 d2 S2 E2. apply wpK_ret. apply wpK_bind. eapply wpc_mono; [|apply H; [exact S2|lia]].
    cbn beta. intros a s2 d3 [X Y]. apply wpK_bind, wpK_upd; [exact X|]. intros. apply wpK_ret, Y; assumption.
  Qed.
  Lemma wpK_cover_formals e (Q : option (list FunctionArg) -> state -> Z -> Prop) s d : 4 <= d ->
    (forall a d', d - 4 <= d' -> Q a s d') -> W (cover_formals e) Q s d.
  Proof.
    intros Hd H. unfold cover_formals.
    destruct (match e with EIdent _ => _ | _ => _ end) as [[ps a]|]; [|apply wpK_ret, H; lia].
    destruct (existsb snd _); [apply wpK_fail_look; lia|].
    apply wpK_bind, wpK_get; [lia|]. intros b1 d1 E1. apply wpK_bind, wpK_get; [lia|]. intros b2 d2 E2.
    destruct (_ && _ && _); [apply wpK_fail_look; lia|apply wpK_ret, H; lia].
  Qed.
End PassK.

Ltac finK := unfold needK, gainK, mid, worth, unit_, loss in *; cbn [rank consumes Z.of_nat Pos.of_succ_nat Pos.succ] in *; intros; lia.
Definition goal_gain (v : Z) : Prop := True.

Ltac stepK :=
  match goal with
  | |- wpc _ _ _ _ _ (Ret _) _ _ _ => apply wpK_ret; cbn beta
  | |- wpc _ _ _ _ _ (Fail _) _ _ _ => apply wpK_fail; finK
  | |- wpc _ _ _ _ _ Crash _ _ _ => apply wpK_crash; finK
  | |- wpc _ _ _ _ _ (fail_look _) _ _ _ => apply wpK_fail_look; finK
  | |- wpc _ _ _ _ _ next _ _ _ => apply wpK_next; [finK|intros]
  | |- wpc _ _ _ _ _ (Do ONextIgnored) _ _ _ => apply wpK_nextignored; [finK|intros]
  | |- wpc _ _ _ _ _ (Do OExpectComma) _ _ _ => apply wpK_expectcomma; [finK|intros]
  | |- wpc _ _ _ _ _ (Do (OUpd _)) _ _ _ => apply wpK_upd; [finK|intros]
  | |- wpc _ _ _ _ _ (upd _) _ _ _ => apply wpK_upd; [finK|intros]
  | |- wpc _ _ _ _ _ not_target _ _ _ => apply wpK_upd; [finK|intros]
  | |- wpc _ _ _ _ _ (set_target_binding _ _) _ _ _ => apply wpK_upd; [finK|intros]
  | |- wpc _ _ _ _ _ (set_isolate_cover ?c) _ _ _ => destruct c as [[? ?] ?]; apply wpK_upd; [finK|intros]
  | |- wpc _ _ _ _ _ (set_inherit_cover ?c) _ _ _ => destruct c as [[? ?] ?]; apply wpK_upd; [finK|intros]
  | |- wpc _ _ _ _ _ isolate_cover _ _ _ => unfold isolate_cover
  | |- wpc _ _ _ _ _ inherit_cover _ _ _ => unfold inherit_cover, isolate_cover
  | |- wpc _ _ _ _ _ get_cover _ _ _ => unfold get_cover
  | |- wpc _ _ _ _ _ (Do _) _ _ _ => apply wpK_pure; [exact Logic.I|finK|intros]
  | |- wpc _ _ _ _ _ look _ _ _ => apply wpK_pure; [exact Logic.I|finK|intros]
  | |- wpc _ _ _ _ _ (get _) _ _ _ => apply wpK_get; [finK|intros]
  | |- wpc _ _ _ _ _ look_tok _ _ _ => apply wpK_look_tok; [finK|intros]
  | |- wpc _ _ _ _ _ (at_punct _) _ _ _ => apply wpK_at_punct; [finK|intros]
  | |- wpc _ _ _ _ _ (at_keyword _) _ _ _ => apply wpK_at_keyword; [finK|intros]
  | |- wpc _ _ _ _ _ (expect_punct _) _ _ _ => apply wpK_expect_punct; [finK|intros]
  | |- wpc _ _ _ _ _ (expect_keyword _) _ _ _ => apply wpK_expect_keyword; [finK|intros]
  | |- wpc _ _ _ _ _ (stream_at _) _ _ _ => apply wpK_stream_at; [finK|intros]
  | |- wpc _ _ _ _ _ (get_string _) _ _ _ => apply wpK_get_string; [finK|intros]
  | |- wpc _ _ _ _ _ (string_or_empty _) _ _ _ => apply wpK_string_or_empty; [finK|intros]
  | |- wpc _ _ _ _ _ (at_contextual _) _ _ _ => apply wpK_at_contextual; [finK|intros]
  | |- wpc _ _ _ _ _ at_async_function _ _ _ => apply wpK_at_async_function; [finK|intros]
  | |- wpc _ _ _ _ _ at_import_call _ _ _ => apply wpK_at_import_call; [finK|intros]
  | |- wpc _ _ _ _ _ at_lexical_decl _ _ _ => apply wpK_at_lexical_decl; [finK|intros]
  | |- wpc _ _ _ _ _ at_return_arg _ _ _ => apply wpK_at_return_arg; [finK|intros]
  | |- wpc _ _ _ _ _ (qualified_prop_name _) _ _ _ => apply wpK_qualified; [finK|intros]
  | |- wpc _ _ _ _ _ (cover_formals _) _ _ _ => apply wpK_cover_formals; [finK|intros]
  | |- wpc _ _ _ _ _ (Call _) _ _ _ => apply wpK_call; [finK|cbn [consumes]; intros]
  | |- wpc _ _ _ _ _ (isolated _) _ _ _ => apply wpK_isolated; [finK|intros]
  | |- wpc _ _ _ _ _ (inheriting _) _ _ _ => apply wpK_inheriting; [finK|intros]
  | |- wpc _ _ _ _ _ (Loop _ _) _ _ _ => apply wpK_loop; [finK|intros|intros]
  | |- wpc _ _ _ _ _ (Bind (match _ with _ => _ end) _) _ _ _ => cutK
  | |- wpc _ _ _ _ _ (Bind (Bind _ (fun b => if b then _ else _)) _) _ _ _ => cutK
  | |- wpc _ _ _ _ _ (Bind class_el_head _) _ _ _ => cutK
  | |- wpc _ _ _ _ _ (Bind (class_el_mid _) _) _ _ _ => cutK
  | |- wpc _ _ _ _ _ (Bind (obj_prop_head _) _) _ _ _ => cutK
  | |- wpc _ _ _ _ _ (inner_slice _ _) _ _ _ => unfold inner_slice
  | |- wpc _ _ _ _ _ (comma_list _) _ _ _ => unfold comma_list
  | |- wpc _ _ _ _ _ (arg_list _) _ _ _ => unfold arg_list
  | |- wpc _ _ _ _ _ class_el_head _ _ _ => unfold class_el_head
  | |- wpc _ _ _ _ _ (class_el_mid _) _ _ _ => unfold class_el_mid
  | |- wpc _ _ _ _ _ (obj_prop_head _) _ _ _ => unfold obj_prop_head
  | |- wpc _ _ _ _ _ (obj_prop_plain _ _ _ _ _ _) _ _ _ => unfold obj_prop_plain
  | |- wpc _ _ _ _ _ (arrow_rest _) _ _ _ => unfold arrow_rest
  | |- wpc _ _ _ _ _ (assign_rest _) _ _ _ => unfold assign_rest
  | |- wpc _ _ _ _ _ computed_member _ _ _ => unfold computed_member
  | |- wpc _ _ _ _ _ (Bind _ _) _ _ _ => apply wpK_bind
  | |- wpc _ _ _ _ _ (match ?x with _ => _ end) _ _ _ => destruct x
  | |- forall _, _ => intros
  | |- _ /\ _ => split
  | |- match ?x with _ => _ end => destruct x
  end
with cutK :=
  match goal with
  | G : goal_gain ?v |- _ =>
      first [ apply (wpK_cut _ 1 v); [solve [repeat stepK; finK] | intros]
            | apply (wpK_cut _ 1 mid); [solve [repeat stepK; finK] | intros]
            | apply (wpK_cut _ 0 (- loss)); [solve [repeat stepK; finK] | intros] ]
  end.
Ltac goK := repeat stepK; try finK.

Section BodiesK.
  Variable g : cfg.
  Lemma bodiesK : forall B (c : call B) s d, needK _ c <= d ->
    wpc g worth needK gainK lessK (body c)
        (fun b s' d' => (size s' + lessK _ c <= size s)%nat /\ d + gainK _ c <= d') s (d - 1).
  Proof.
    intros B c s d H. assert (G : goal_gain (gainK _ c + 3 * loss)) by exact Logic.I. unfold needK, gainK, lessK, unit_, loss in *.
    destruct c; cbn [rank consumes Z.of_nat Pos.of_succ_nat Pos.succ] in *; cbn [body].
    all: match goal with |- wpc _ _ _ _ _ ?p _ _ _ => unfold_head p end.
    all: goK.
  Qed.

  Lemma call_steps n B (c : call B) s :
    match run_call_steps bd g n c s with
    | (Ok _, s', k) => Z.of_N k <= 500 * (sz s - sz s') - gainK _ c
    | (_, k) => Z.of_N k <= 500 * sz s + needK _ c
    end.
  Proof.
    pose proof (wpc_sound call bd g worth ltac:(unfold worth; lia) needK gainK lessK bodiesK) as W.
    assert (N1 : forall B (c : call B), 1 <= needK B c) by (intros; unfold needK, unit_; lia).
    specialize (W N1 n B c s (needK _ c) ltac:(lia)). unfold within, worth in W.
    destruct (run_call_steps bd g n c s) as [[[b|e| |] s'] k]; lia.
  Qed.

  (** [parse]: [parse_parts] is the loop of lib.rs:496-510. *)
  Lemma parse_steps_bound n s : Z.of_N (snd (run_steps bd g n parse_parts s)) <= 500 * sz s + 460.
  Proof.
    assert (X : wpc g worth needK gainK lessK parse_parts (fun _ _ d' => 0 <= d') s 460).
    { unfold parse_parts. cbn [wpc]. exists (fun _ _ d1 => 460 <= d1). split; [lia|]. intros y s1 d1 Hd. split; [lia|].
      apply wpK_bind, wpK_look_tok; [lia|]. intros t d2 E2. destruct (is_eof t); [apply wpK_ret; lia|].
      apply wpK_bind, wpK_call; [unfold needK, unit_; cbn [rank]; lia|]. intros b s2 d3 _ Hg. apply wpK_ret. revert Hg. unfold gainK, unit_. cbn [rank]. lia. }
    pose proof (wpc_sound_prog call bd g worth ltac:(unfold worth; lia) needK gainK lessK bodiesK) as W.
    assert (N1 : forall B (c : call B), 1 <= needK B c) by (intros; unfold needK, unit_; lia).
    specialize (W N1 n _ parse_parts _ s 460 X). unfold within, worth in W.
    destruct (run_steps bd g n parse_parts s) as [[[b|e| |] s'] k]; cbn [snd]; unfold sz in *; lia.
  Qed.
End BodiesK.
