(** Operators: what the operator-stack loop of [parse_binary_expression] computes, and how
    exponentiation, assignment and conditional chains associate. *)
From Verif Require Export Safe.
Export Parser.

(** ** Specification *)

(** The two states are in the same place of the input; only the cover-grammar fields of the
    context differ. *)
Definition same_place (s s' : state) : Prop :=
  st_look s' = st_look s /\ st_found_eof s' = st_found_eof s /\ st_cur_pos s' = st_cur_pos s
  /\ st_look_pos s' = st_look_pos s /\ st_rest s' = st_rest s /\ st_nl s' = st_nl s
  /\ st_comments s' = st_comments s
  /\ exists f t b, st_ctx s' = set_first_covert f (set_assign_target t (set_binding_element b (st_ctx s))).

(** [c] called in [s], up to cover-grammar fields, returns [b] and leaves [s'], up to
    cover-grammar fields. *)
Definition parses (g : cfg) {B} (c : call B) (s : state) (b : B) (s' : state) : Prop :=
  exists n s1 s2, same_place s s1 /\ run_call (@body) g n c s1 = (Ok b, s2) /\ same_place s2 s'.

(** The token at [s] is [t] and [s1] is the state after it was taken. *)
Definition takes (g : cfg) (s : state) (t : token) (s1 : state) : Prop :=
  exists i s0, next_item g s = (Ok i, s0) /\ it_tok i = t /\ same_place s0 s1.

(** The binary operators of the language: level (a larger one binds tighter) and node. *)
Definition operators : list (token * (nat * (Expr -> Expr -> Expr))) :=
  [ (TPunct PLogicalOr, (1, ELogical LOr));
    (TPunct PLogicalAnd, (2, ELogical LAnd));
    (TPunct PPipe, (3, EBinary BOr));
    (TPunct PCaret, (4, EBinary BXOr));
    (TPunct PAnd, (5, EBinary BAnd));
    (TPunct PEqual, (6, EBinary BEqual));
    (TPunct PNotEqual, (6, EBinary BNotEqual));
    (TPunct PStrictEquals, (6, EBinary BStrictEqual));
    (TPunct PStrictNotEquals, (6, EBinary BStrictNotEqual));
    (TPunct PLessThan, (7, EBinary BLessThan));
    (TPunct PGreaterThan, (7, EBinary BGreaterThan));
    (TPunct PLessThanEqual, (7, EBinary BLessThanEqual));
    (TPunct PGreaterThanEqual, (7, EBinary BGreaterThanEqual));
    (TKeyword KInstanceOf, (7, EBinary BInstanceOf));
    (TKeyword KIn, (7, EBinary BIn));
    (TPunct PLeftShift, (8, EBinary BLeftShift));
    (TPunct PRightShift, (8, EBinary BRightShift));
    (TPunct PUnsignedRightShift, (8, EBinary BUnsignedRightShift));
    (TPunct PPlus, (9, EBinary BPlus));
    (TPunct PMinus, (9, EBinary BMinus));
    (TPunct PAsterisk, (10, EBinary BTimes));
    (TPunct PForwardSlash, (10, EBinary BOver));
    (TPunct PModulo, (10, EBinary BMod)) ].

(** [is_op t k mk]: [t] is a binary operator of level [k] that builds nodes with [mk]. *)
Definition is_op (t : token) (k : nat) (mk : Expr -> Expr -> Expr) : Prop := In (t, (k, mk)) operators.
(** [t] continues an expression; [in] does not where it is not allowed (heads of [for]). *)
Definition continues (allow_in : bool) (t : token) : Prop :=
  (exists k mk, is_op t k mk) /\ (t = TKeyword KIn -> allow_in = true).

(** Operator trees over opaque operands. *)
Inductive optree := Leaf (e : Expr) | Node (t : token) (l r : optree).
Inductive builds : optree -> Expr -> Prop :=
| builds_leaf : forall e, builds (Leaf e) e
| builds_node : forall t k mk l r el er, is_op t k mk -> builds l el -> builds r er ->
    builds (Node t l r) (mk el er).
(** First operand, then operators and operands in source order. *)
Fixpoint in_order_of (T : optree) : Expr * list (token * Expr) :=
  match T with
  | Leaf e => (e, [])
  | Node t l r =>
      (fst (in_order_of l), snd (in_order_of l) ++ (t, fst (in_order_of r)) :: snd (in_order_of r))
  end.
(** The operators directly under an operator: on the left at least as tight, on the right
    strictly tighter. *)
Definition root_at_least (k : nat) (T : optree) : Prop :=
  match T with Leaf _ => True | Node t _ _ => exists k' mk, is_op t k' mk /\ k <= k' end.
Inductive by_precedence : optree -> Prop :=
| prec_leaf : forall e, by_precedence (Leaf e)
| prec_node : forall t k mk l r, is_op t k mk -> root_at_least k l -> root_at_least (S k) r ->
    by_precedence l -> by_precedence r -> by_precedence (Node t l r).

(** Operators and operands read from the input, to the first token that is no operator. *)
Inductive reads_operands (g : cfg) : state -> list (token * Expr) -> state -> Prop :=
| reads_end : forall s, ~ continues (c_allow_in (st_ctx s)) (it_tok (st_look s)) -> reads_operands g s [] s
| reads_more : forall s t s1 e s2 l s3,
    continues (c_allow_in (st_ctx s)) t -> takes g s t s1 ->
    parses g CExponentiation s1 e s2 -> reads_operands g s2 l s3 ->
    reads_operands g s ((t, e) :: l) s3.

(** [e0 ** e1 ** ... ** en], read from the input. *)
Inductive reads_powers (g : cfg) : state -> Expr -> list Expr -> state -> Prop :=
| powers_end : forall s e s',
    parses g CUnaryExpression s e s' -> it_tok (st_look s') <> TPunct PExponent -> reads_powers g s e [] s'
| powers_more : forall s e s1 s2 e' l s',
    parses g CUnaryExpression s e s1 -> takes g s1 (TPunct PExponent) s2 ->
    reads_powers g s2 e' l s' -> reads_powers g s e (e' :: l) s'.
Fixpoint right_powers (e : Expr) (l : list Expr) : Expr :=
  match l with [] => e | e' :: l' => EBinary BPowerOf e (right_powers e' l') end.

(** The assignment operators. *)
Definition assignments : list (token * AssignmentOperator) :=
  [ (TPunct PAssign, AEqual); (TPunct PAddAssign, APlusEqual); (TPunct PSubtractAssign, AMinusEqual);
    (TPunct PMultiplyAssign, ATimesEqual); (TPunct PDivideAssign, ADivEqual);
    (TPunct PModuloAssign, AModEqual); (TPunct PLeftShiftAssign, ALeftShiftEqual);
    (TPunct PRightShiftAssign, ARightShiftEqual);
    (TPunct PUnsignedRightShiftAssign, AUnsignedRightShiftEqual);
    (TPunct PBitwiseOrAssign, AOrEqual); (TPunct PBitwiseXOrAssign, AXOrEqual);
    (TPunct PBitwiseAndAssign, AAndEqual); (TPunct PExponentAssign, APowerOfEqual) ].
Definition is_arrow (e : Expr) : Prop :=
  exists params b x is_async, e = EArrowFunction None params b x false is_async.
(** [l0 op0 l1 op1 ... e]: targets and operators, then an expression that is not followed by
    an assignment operator (or a [yield] expression or an arrow function). *)
Inductive reads_assignments (g : cfg) : state -> list (Expr * AssignmentOperator) -> Expr -> state -> Prop :=
| assigns_end : forall s e s',
    parses g CConditionalExpr s e s' -> ~ In (it_tok (st_look s')) (map fst assignments) ->
    reads_assignments g s [] e s'
| assigns_yield : forall s e s',
    it_tok (st_look s) = TKeyword KYield -> parses g CYieldExpr s e s' -> reads_assignments g s [] e s'
| assigns_arrow : forall s e s', parses g CAssignmentExpr s e s' -> is_arrow e -> reads_assignments g s [] e s'
| assigns_more : forall s l s1 t o s2 rest e s3 s',
    parses g CConditionalExpr s l s1 -> takes g s1 t s2 -> In (t, o) assignments ->
    reads_assignments g s2 rest e s3 -> same_place s3 s' ->
    reads_assignments g s ((l, o) :: rest) e s'.
Definition right_assignments (l : list (Expr * AssignmentOperator)) (e : Expr) : Expr :=
  fold_right (fun x r => EAssignment (snd x) (ALExpr (fst x)) r) e l.

(** [t0 ? c0 : t1 ? c1 : ... : e], the last one not itself a conditional (unless
    parenthesised). *)
Definition set_in (v : bool) (s : state) : state := upd_ctx (set_allow_in v) s.
Inductive reads_conditionals (g : cfg) : state -> list (Expr * Expr) -> Expr -> state -> Prop :=
| conds_binary : forall s e s',
    parses g CBinaryExpression s e s' -> it_tok (st_look s') <> TPunct PQuestionMark ->
    reads_conditionals g s [] e s'
| conds_other : forall s e s',
    parses g CAssignmentExpr s e s' -> (forall a b c, e <> EConditional a b c) ->
    reads_conditionals g s [] e s'
| conds_more : forall s t s1 s2 c s3 s4 l e s5 s',
    parses g CBinaryExpression s t s1 -> takes g s1 (TPunct PQuestionMark) s2 ->
    parses g CAssignmentExpr (set_in true s2) c s3 ->
    takes g (set_in (c_allow_in (st_ctx s2)) s3) (TPunct PColon) s4 ->
    reads_conditionals g s4 l e s5 -> same_place s5 s' ->
    reads_conditionals g s ((t, c) :: l) e s'.
Definition right_conditionals (l : list (Expr * Expr)) (e : Expr) : Expr :=
  fold_right (fun x alt => EConditional (fst x) alt (snd x)) e l.

(** ** [same_place] *)
Lemma same_refl s : same_place s s.
Proof.
  repeat split. destruct (st_ctx s) eqn:E. exists c_first_covert, c_assign_target, c_binding_element. reflexivity.
Qed.
Lemma same_trans a b c : same_place a b -> same_place b c -> same_place a c.
Proof.
  intros (A1 & A2 & A3 & A4 & A5 & A6 & A7 & f & t & b' & A8) (B1 & B2 & B3 & B4 & B5 & B6 & B7 & f2 & t2 & b2 & B8).
  repeat split; try congruence. exists f2, t2, b2. rewrite B8, A8. reflexivity.
Qed.
Lemma same_upd s f t b :
  same_place s (upd_ctx (fun c => set_first_covert (f c) (set_assign_target (t c) (set_binding_element (b c) c))) s).
Proof. repeat split. exists (f (st_ctx s)), (t (st_ctx s)), (b (st_ctx s)). reflexivity. Qed.

Ltac same_solve :=
  repeat split; cbn; try reflexivity;
  match goal with
  | |- exists f t b, ?c = _ => exists (c_first_covert c), (c_assign_target c), (c_binding_element c)
  end;
  repeat match goal with s : state |- _ => destruct s as [[]] end; reflexivity.

(** ** Inverting successful runs *)
Section Inv.
  Variable g : cfg.
  Notation bd := (@body).
  Notation RUN n p s := (run_in g n (fun B => @run_call call bd g n B) p s).

  Lemma ok_ret n A (a b : A) s s' : RUN n (Ret a) s = (Ok b, s') -> b = a /\ s' = s.
  Proof. cbn. intros H. inversion H. auto. Qed.
  Lemma ok_bind n A B (p : P A) (k : A -> P B) s b s' : RUN n (Bind p k) s = (Ok b, s') ->
    exists a s1, RUN n p s = (Ok a, s1) /\ RUN n (k a) s1 = (Ok b, s').
  Proof. cbn [run_in]. destruct (RUN n p s) as [[a| | |] s1]; intros H; try discriminate. eauto. Qed.
  Lemma ok_call n B (c : call B) s b s' : RUN n (Call c) s = (Ok b, s') -> run_call bd g n c s = (Ok b, s').
  Proof. auto. Qed.
  Lemma ok_fail n A d (b : A) s s' : ~ RUN n (Fail d) s = (Ok b, s').
  Proof. cbn. discriminate. Qed.
  Lemma ok_crash n A (b : A) s s' : ~ RUN n Crash s = (Ok b, s').
  Proof. cbn. discriminate. Qed.
  Lemma ok_upd n f u s s' : RUN n (upd f) s = (Ok u, s') -> s' = upd_ctx f s.
  Proof. cbn. intros H. inversion H. auto. Qed.
  Lemma ok_get n A (f : ctx -> A) a s s' : RUN n (get f) s = (Ok a, s') -> a = f (st_ctx s) /\ s' = s.
  Proof. cbn. intros H. inversion H. auto. Qed.
  Lemma ok_look_tok n a s s' : RUN n look_tok s = (Ok a, s') -> a = it_tok (st_look s) /\ s' = s.
  Proof. cbn. intros H. inversion H. auto. Qed.
  Lemma ok_look n a s s' : RUN n look s = (Ok a, s') -> a = st_look s /\ s' = s.
  Proof. cbn. intros H. inversion H. auto. Qed.
  Lemma ok_at_punct n p a s s' : RUN n (at_punct p) s = (Ok a, s') -> a = is_punct p (it_tok (st_look s)) /\ s' = s.
  Proof. cbn. intros H. inversion H. auto. Qed.
  Lemma ok_next n i s s' : RUN n next s = (Ok i, s') -> next_item g s = (Ok i, s') /\ i = st_look s.
  Proof. intros H. split; auto. apply next_item_ok in H. apply H. Qed.
  Lemma ok_expect n p u s s' : RUN n (expect_punct p) s = (Ok u, s') ->
    exists i, next_item g s = (Ok i, s') /\ is_punct p (it_tok i) = true.
  Proof.
    unfold expect_punct. intros H. apply ok_bind in H. destruct H as (i & s1 & H1 & H2).
    apply ok_next in H1. destruct H1 as [H1 ->]. destruct (is_punct _ _) eqn:E; [|destruct (ok_fail _ _ _ _ _ _ H2)].
    apply ok_ret in H2. destruct H2 as [_ ->]. eauto.
  Qed.
  Lemma ok_tolerate n d u s s' : RUN n (Do (OTolerate d)) s = (Ok u, s') -> s' = s.
  Proof. cbn. destruct (g_tolerant g); intros H; inversion H. auto. Qed.
  Lemma ok_stream_at n i u s s' : RUN n (stream_at i) s = (Ok u, s') -> s' = s.
  Proof. cbn. destruct (slice _ _ _); cbn; intros H; inversion H. auto. Qed.
  Lemma ok_lookpos n u s s' : RUN n (Do OLookPos) s = (Ok u, s') -> s' = s.
  Proof. cbn. intros H. inversion H. auto. Qed.
  Lemma ok_not_target n u s s' : RUN n not_target s = (Ok u, s') -> same_place s s'.
  Proof.
    cbn. intros H. inversion H. same_solve.
  Qed.
  Lemma ok_isolated n B (p : P B) b s s' : RUN n (isolated p) s = (Ok b, s') ->
    exists s1 s2, same_place s s1 /\ RUN n p s1 = (Ok b, s2) /\ same_place s2 s'.
  Proof.
    unfold isolated. intros H. apply ok_bind in H. destruct H as (cg & s1 & H1 & H).
    apply ok_bind in H. destruct H as (r & s2 & H2 & H). apply ok_bind in H. destruct H as (u & s3 & H3 & H).
    apply ok_ret in H. destruct H as [-> ->]. exists s1, s2. split; [|split; auto].
    - cbn in H1. inversion H1. same_solve.
    - destruct cg as [[b1 b2] b3]. cbn in H3. inversion H3. same_solve.
  Qed.
  Lemma ok_inheriting n B (p : P B) b s s' : RUN n (inheriting p) s = (Ok b, s') ->
    exists s1 s2, same_place s s1 /\ RUN n p s1 = (Ok b, s2) /\ same_place s2 s'.
  Proof.
    unfold inheriting. intros H. apply ok_bind in H. destruct H as (cg & s1 & H1 & H).
    apply ok_bind in H. destruct H as (r & s2 & H2 & H). apply ok_bind in H. destruct H as (u & s3 & H3 & H).
    apply ok_ret in H. destruct H as [-> ->]. exists s1, s2. split; [|split; auto].
    - cbn in H1. inversion H1. same_solve.
    - destruct cg as [[b1 b2] b3]. cbn in H3. inversion H3. same_solve.
  Qed.
  Lemma ok_isolate_cover n b s s' : RUN n isolate_cover s = (Ok b, s') -> same_place s s'.
  Proof. cbn. intros H. inversion H. same_solve. Qed.
  Lemma ok_set_isolate n cg b s s' : RUN n (set_isolate_cover cg) s = (Ok b, s') -> same_place s s'.
  Proof. destruct cg as [[b1 b2] b3]. cbn. intros H. inversion H. same_solve. Qed.

  (** Loops, with an invariant. *)
  Lemma ok_loop n A X (I : X -> state -> Prop) (x : X) (b : X -> P (X + A)) a s s' :
    RUN n (Loop x b) s = (Ok a, s') -> I x s ->
    (forall y s1 y' s2, I y s1 -> RUN n (b y) s1 = (Ok (inl y'), s2) -> I y' s2) ->
    exists y s1, I y s1 /\ RUN n (b y) s1 = (Ok (inr a), s').
  Proof.
    intros H Hx Hstep.
    assert (G : forall k x s, I x s -> iter (fun y s' => RUN n (b y) s') k x s = (Ok a, s') ->
              exists y s1, I y s1 /\ RUN n (b y) s1 = (Ok (inr a), s')); [|eapply G; eauto].
    clear - Hstep. induction k; intros x s Hx H; cbn [iter] in H; [discriminate|].
    destruct (RUN n (b x) s) as [[[y'|a']| | |] s1] eqn:E; try discriminate.
    - eapply IHk; [|exact H]. eapply Hstep; eauto.
    - inversion H; subst. eauto.
  Qed.

  Lemma parses_call n B (c : call B) s b s' : run_call bd g n c s = (Ok b, s') -> parses g c s b s'.
  Proof. intros H. exists n, s, s'. auto using same_refl. Qed.
  Lemma parses_same B (c : call B) s0 s b s' s1 : same_place s0 s -> parses g c s b s' -> same_place s' s1 ->
    parses g c s0 b s1.
  Proof. intros H (n & t1 & t2 & A & B' & C) H2. exists n, t1, t2. eauto using same_trans. Qed.
  Lemma parses_isolated n B (c : call B) s b s' : RUN n (isolated (Call c)) s = (Ok b, s') -> parses g c s b s'.
  Proof. intros H. apply ok_isolated in H. destruct H as (s1 & s2 & A & B' & C). exists n, s1, s2. auto. Qed.
  Lemma parses_inheriting n B (c : call B) s b s' : RUN n (inheriting (Call c)) s = (Ok b, s') -> parses g c s b s'.
  Proof. intros H. apply ok_inheriting in H. destruct H as (s1 & s2 & A & B' & C). exists n, s1, s2. auto. Qed.
End Inv.

Ltac ok1 H :=
  let a := fresh "x" in let s := fresh "s" in let H1 := fresh "E" in
  apply ok_bind in H; destruct H as (a & s & H1 & H).

(** ** Tables *)
Lemma op_prec t k mk : is_op t k mk ->
  bin_precedence true t = (if k =? 10 then 11 else k) /\ 0 < k <= 10 /\
  forall l r, make_binary t l r = inl (mk l r).
Proof.
  unfold is_op. cbn [operators In].
  intros H. repeat destruct H as [H|H]; try (inversion H; subst; cbn; repeat split; auto; lia).
Qed.
Lemma continues_prec ai t : continues ai t <-> bin_precedence ai t <> 0.
Proof.
  split.
  - intros [(k & mk & H) Hin]. destruct (op_prec _ _ _ H) as (Hp & Hk & _).
    assert (E : bin_precedence ai t = bin_precedence true t).
    { destruct t as [| | | | | | |kw| | |]; try reflexivity. destruct kw; try reflexivity.
      rewrite Hin by reflexivity. reflexivity. }
    rewrite E, Hp. destruct (k =? 10); lia.
  - intros H. split.
    + destruct t as [| | | | | | |kw|p| |]; cbn in H; try congruence.
      * destruct kw; try congruence; do 2 eexists; unfold is_op; cbn; auto 30.
      * destruct p; cbn in H; try congruence; do 2 eexists; unfold is_op; cbn; auto 30.
    + intros ->. cbn in H. destruct ai; congruence.
Qed.
Lemma op_fun t k mk k' mk' : is_op t k mk -> is_op t k' mk' -> k' = k.
Proof.
  intros H H'. apply op_prec in H, H'. destruct H as (H1 & H2 & _), H' as (H1' & H2' & _).
  rewrite H1 in H1'. destruct (Nat.eqb_spec k 10), (Nat.eqb_spec k' 10); lia.
Qed.
Definition code (k : nat) : nat := if k =? 10 then 11 else k.
Lemma code_le a b : a <= 10 -> b <= 10 -> (code a <=? code b) = (a <=? b).
Proof.
  intros. unfold code. destruct (Nat.eqb_spec a 10), (Nat.eqb_spec b 10); subst; try reflexivity;
    apply Bool.eq_iff_eq_true; rewrite !Nat.leb_le; lia.
Qed.

(** ** The operator stack *)
(** Top of the stacks first.  [K]: level of the topmost operator (0 without); [T]: topmost tree. *)
Inductive forest : list token -> list nat -> list Expr -> nat -> optree -> Expr -> list (token * Expr) -> Prop :=
| forest_one : forall T e, builds T e -> by_precedence T ->
    forest [] [] [e] 0 T (fst (in_order_of T)) (snd (in_order_of T))
| forest_push : forall ops precs stack K T0 e0 l t k mk T e,
    forest ops precs stack K T0 e0 l -> is_op t k mk -> K < k -> root_at_least k T0 ->
    builds T e -> by_precedence T -> root_at_least (S k) T ->
    forest (t :: ops) (code k :: precs) (e :: stack) k T e0
           (l ++ (t, fst (in_order_of T)) :: snd (in_order_of T)).

Lemma root_at_least_le k k' T : k' <= k -> root_at_least k T -> root_at_least k' T.
Proof. intros H. destruct T; cbn; auto. intros (k2 & mk & A & B). exists k2, mk. split; auto. lia. Qed.

Lemma forest_combine t ops p precs rgt lft stack k T e0 l :
  forest (t :: ops) (p :: precs) (rgt :: lft :: stack) k T e0 l ->
  exists e K' T', make_binary t lft rgt = inl e /\ K' < k /\ forest ops precs (e :: stack) K' T' e0 l
    /\ root_at_least k T'.
Proof.
  intros H. inversion H as [|? ? ? K T0 ? l0 ? ? mk ? ? F O1 O2 O3 B1 B2 B3]; subst.
  destruct (op_prec _ _ _ O1) as (_ & _ & M).
  assert (R : forall l', root_at_least k (Node t l' T)) by (intros l'; exists k, mk; auto).
  inversion F as [T1 e1 C1 C2|? ? ? K2 T2 ? l2 t2 k2 mk2 ? ? F2 O4 O5 O6 B4 B5 B6]; subst.
  - exists (mk lft rgt), 0, (Node t T0 T). rewrite M. split; auto. split; [lia|]. split; [|apply R].
    change (fst (in_order_of T0)) with (fst (in_order_of (Node t T0 T))).
    change (snd (in_order_of T0) ++ (t, fst (in_order_of T)) :: snd (in_order_of T))
      with (snd (in_order_of (Node t T0 T))).
    constructor; econstructor; eauto.
  - exists (mk lft rgt), K, (Node t T0 T). rewrite M. split; auto. split; [lia|]. split; [|apply R].
    replace ((l2 ++ (t2, fst (in_order_of T0)) :: snd (in_order_of T0)) ++
             (t, fst (in_order_of T)) :: snd (in_order_of T))
      with (l2 ++ (t2, fst (in_order_of (Node t T0 T))) :: snd (in_order_of (Node t T0 T))).
    + econstructor; eauto; try (econstructor; eauto; fail).
    + cbn. rewrite <- app_assoc. reflexivity.
Qed.

Lemma forest_length ops precs stack K T e0 l : forest ops precs stack K T e0 l ->
  length stack = S (length ops) /\ length precs = length ops.
Proof. induction 1; cbn; lia. Qed.

Lemma reduce_while_forest k : k <= 10 -> forall ops precs stack K T e0 l,
  forest ops precs stack K T e0 l -> root_at_least k T -> 0 < k ->
  exists ops' precs' stack' K' T', reduce_while (code k) ops precs stack = inl (ops', precs', stack')
    /\ forest ops' precs' stack' K' T' e0 l /\ K' < k /\ root_at_least k T'.
Proof.
  intros Hk. induction ops as [|t ops IH]; intros precs stack K T e0 l F R Hpos.
  - inversion F; subst. cbn. do 5 eexists. repeat split; eauto.
  - pose proof (forest_length _ _ _ _ _ _ _ F) as [L1 L2].
    destruct precs as [|p precs]; [discriminate|]. destruct stack as [|rgt [|lft stack]]; try discriminate.
    cbn [reduce_while].
    assert (p = code K /\ K <= 10) as [-> HK].
    { inversion F as [|? ? ? ? ? ? ? ? ? mk ? ? ? O1]; subst. apply op_prec in O1. split; auto. lia. }
    rewrite code_le by auto. destruct (k <=? K) eqn:E.
    + apply Nat.leb_le in E.
      destruct (forest_combine _ _ _ _ _ _ _ _ _ _ _ F) as (e & K' & T' & M & HK' & F' & R'). rewrite M.
      eapply IH; eauto. eapply root_at_least_le; eauto.
    + apply Nat.leb_gt in E. do 5 eexists. repeat split; eauto.
Qed.

Lemma reduce_all_forest : forall ops precs stack top K T e0 l,
  forest ops precs (top :: stack) K T e0 l ->
  exists e T', reduce_all ops stack top = inl e /\ builds T' e /\ by_precedence T' /\ in_order_of T' = (e0, l).
Proof.
  induction ops as [|t ops IH]; intros precs stack top K T e0 l F.
  - inversion F; subst. cbn. exists top, T. repeat split; auto. destruct (in_order_of T); reflexivity.
  - pose proof (forest_length _ _ _ _ _ _ _ F) as [L1 L2].
    destruct precs as [|p precs]; [discriminate|]. destruct stack as [|lft stack]; try discriminate.
    destruct (forest_combine _ _ _ _ _ _ _ _ _ _ _ F) as (e & K' & T' & M & HK' & F' & R').
    cbn [reduce_all]. rewrite M. eapply IH; eauto.
Qed.

Lemma takes_same g s t s1 s2 : takes g s t s1 -> same_place s1 s2 -> takes g s t s2.
Proof. intros (i & s0 & A & B & C) H. exists i, s0. eauto using same_trans. Qed.

(** Reads so far, ready to be continued. *)
Definition prefix_read g (s : state) (l : list (token * Expr)) (s1 : state) : Prop :=
  forall l' s2, reads_operands g s1 l' s2 -> reads_operands g s (l ++ l') s2.
Lemma prefix_more g s l s1 t s2 e s3 : prefix_read g s l s1 ->
  continues (c_allow_in (st_ctx s1)) t -> takes g s1 t s2 -> parses g CExponentiation s2 e s3 ->
  prefix_read g s (l ++ [(t, e)]) s3.
Proof.
  intros H H1 H2 H3 l' s4 H4. rewrite <- app_assoc. apply H. cbn. econstructor; eauto.
Qed.

Theorem binary_by_precedence g n s e s' :
  run_call (@body) g n CBinaryExpression s = (Ok e, s') ->
  exists e0 l s0 T, parses g CExponentiation s e0 s0 /\ reads_operands g s0 l s' /\
    builds T e /\ in_order_of T = (e0, l) /\ by_precedence T.
Proof.
  intros H. destruct n; [discriminate H|]. cbn [run_call body] in H. unfold binary_expression in H.
  ok1 H. apply parses_inheriting in E. ok1 H. apply ok_look_tok in E0. destruct E0 as [-> ->].
  ok1 H. apply ok_get in E0. destruct E0 as [-> ->]. cbn zeta in H.
  destruct (Nat.eqb_spec (bin_precedence (c_allow_in (st_ctx s0)) (it_tok (st_look s0))) 0) as [E0|E0].
  { apply ok_ret in H. destruct H as [-> ->]. exists x, [], s0, (Leaf x). repeat split; auto; constructor.
    rewrite continues_prec. lia. }
  ok1 H. apply ok_next in E1. destruct E1 as [E1 ->]. ok1 H. apply ok_not_target in E2.
  ok1 H. apply ok_isolate_cover in E3. ok1 H. apply ok_set_isolate in E4.
  ok1 H. apply parses_isolated in E5. ok1 H.
  set (t := it_tok (st_look s0)) in *. set (ai := c_allow_in (st_ctx s0)) in *.
  assert (Hc : continues ai t) by (apply continues_prec; exact E0).
  destruct Hc as [(k & mk & Hop) Hin].
  assert (Hcode : bin_precedence ai t = code k).
  { destruct (op_prec _ _ _ Hop) as (Hp & _ & _). unfold code. rewrite <- Hp.
    destruct t as [| | | | | | |kw| | |]; try reflexivity. destruct kw; try reflexivity.
    rewrite Hin by reflexivity. reflexivity. }
  eapply (ok_loop _ _ _ _ (fun '(ops, precs, stack) s1 => exists K e1 l,
            forest ops precs stack K (Leaf e1) x l /\ prefix_read g s0 l s1)) in E6; cycle 1.
  - rewrite Hcode. exists k, x3, [(t, x3)]. split.
    + change [(t, x3)] with ([] ++ (t, fst (in_order_of (Leaf x3))) :: snd (in_order_of (Leaf x3))).
      apply forest_push with (K := 0) (T0 := Leaf x) (mk := mk); auto; try exact I; try constructor.
      all: try (apply op_prec in Hop; lia). all: repeat constructor.
    + apply (prefix_more g s0 [] s0 t s4 x3 s5); auto.
      * intros l' s8 Hr. exact Hr.
      * split; eauto.
      * exists (st_look s0), s1. split; auto. split; auto. eauto using same_trans.
  - intros [[ops precs] stack] t1 [[ops' precs'] stack'] t2 (K & e1 & l & F & Hpr) Hb.
    ok1 Hb. apply ok_look_tok in E7. destruct E7 as [-> ->].
    ok1 Hb. apply ok_get in E7. destruct E7 as [-> ->]. cbn zeta in Hb.
    destruct (Nat.eqb_spec (bin_precedence (c_allow_in (st_ctx t1)) (it_tok (st_look t1))) 0) as [E7|E7].
    { apply ok_ret in Hb. destruct Hb as [Hb _]. discriminate Hb. }
    assert (Hc : continues (c_allow_in (st_ctx t1)) (it_tok (st_look t1))) by (apply continues_prec; exact E7).
    pose proof Hc as [(k2 & mk2 & Hop2) Hin2].
    assert (Hcode2 : bin_precedence (c_allow_in (st_ctx t1)) (it_tok (st_look t1)) = code k2).
    { destruct (op_prec _ _ _ Hop2) as (Hp & _ & _). unfold code. rewrite <- Hp.
      destruct (it_tok (st_look t1)) as [| | | | | | |kw| | |]; try reflexivity. destruct kw; try reflexivity.
      rewrite Hin2 by reflexivity. reflexivity. }
    rewrite Hcode2 in Hb. destruct (op_prec _ _ _ Hop2) as (_ & Hk2 & _).
    destruct (reduce_while_forest k2 ltac:(lia) _ _ _ _ _ _ _ F ltac:(exact I) ltac:(lia))
      as (o1 & p1 & st1 & K1 & T1 & Er & F1 & HK1 & HR1).
    rewrite Er in Hb. cbn iota in Hb.
    ok1 Hb. apply ok_next in E8. destruct E8 as [E8 ->]. ok1 Hb. apply parses_isolated in E9.
    apply ok_ret in Hb. destruct Hb as [Hb ->]. inversion Hb; subst.
    exists k2, x5, (l ++ [(it_tok (st_look t1), x5)]). split.
    + change [(it_tok (st_look t1), x5)] with
        ((it_tok (st_look t1), fst (in_order_of (Leaf x5))) :: snd (in_order_of (Leaf x5))).
      apply forest_push with (K := K1) (T0 := T1) (mk := mk2); auto; constructor.
    + eapply prefix_more; eauto. exists (st_look t1), s7. split; auto. split; auto. apply same_refl.
  - destruct E6 as ([[ops precs] stack] & t1 & (K & e1 & l & F & Hpr) & Hb).
    ok1 Hb. apply ok_look_tok in E6. destruct E6 as [-> ->].
    ok1 Hb. apply ok_get in E6. destruct E6 as [-> ->]. cbn zeta in Hb.
    destruct (Nat.eqb_spec (bin_precedence (c_allow_in (st_ctx t1)) (it_tok (st_look t1))) 0) as [E7|E7].
    2:{ exfalso. destruct (reduce_while _ ops precs stack) as [[[? ?] ?]|?]; [|destruct (ok_fail _ _ _ _ _ _ _ Hb)].
        ok1 Hb. ok1 Hb. apply ok_ret in Hb. destruct Hb as [Hb _]. discriminate Hb. }
    apply ok_ret in Hb. destruct Hb as [Hb ->]. inversion Hb; subst. cbn iota in H.
    pose proof (forest_length _ _ _ _ _ _ _ F) as [L1 L2]. destruct stack as [|top stack]; [discriminate|].
    destruct (reduce_all_forest _ _ _ _ _ _ _ _ F) as (e2 & T2 & Er & B1 & B2 & B3).
    rewrite Er in H. apply ok_ret in H. destruct H as [-> ->].
    exists x, l, s0, T2. repeat split; auto.
    rewrite <- (app_nil_r l). apply Hpr. constructor. rewrite continues_prec. lia.
Qed.

(** The tree is determined by the sequence. *)
Definition op_level_at_least (k : nat) (x : token * Expr) : Prop := exists k' mk, is_op (fst x) k' mk /\ k <= k'.
Lemma by_precedence_all T : by_precedence T -> forall k, root_at_least k T ->
  Forall (op_level_at_least k) (snd (in_order_of T)).
Proof.
  induction 1 as [|t k0 mk l r O Hl Hr Pl IHl Pr IHr]; intros k H; [constructor|].
  cbn in *. destruct H as (k' & mk' & H1 & H2). assert (k' = k0) by exact (op_fun _ _ _ _ _ O H1). subst k'.
  apply Forall_app. split.
  - apply IHl. eapply root_at_least_le; eauto.
  - constructor; [exists k0, mk; auto|]. apply IHr. eapply root_at_least_le; [|eauto]. lia.
Qed.
Lemma split_unique (A : Type) (P Q : A -> Prop) : forall (a : list A) x b a' x' b',
  a ++ x :: b = a' ++ x' :: b' -> (forall y, P y -> Q y -> False) ->
  P x -> P x' -> Forall Q b -> Forall Q b' -> a = a' /\ x = x' /\ b = b'.
Proof.
  intros a. induction a as [|y a IH]; intros x b [|y' a'] x' b' E D Px Px' Fb Fb'; cbn in E; inversion E; subst; auto.
  - exfalso. apply Forall_app in Fb. destruct Fb as [_ Fb]. inversion Fb; subst. eauto.
  - exfalso. apply Forall_app in Fb'. destruct Fb' as [_ Fb']. inversion Fb'; subst. eauto.
  - destruct (IH _ _ _ _ _ H1 D Px Px' Fb Fb') as (-> & -> & ->). auto.
Qed.
Lemma by_precedence_unique T : forall T', by_precedence T -> by_precedence T' ->
  in_order_of T = in_order_of T' -> T = T'.
Proof.
  induction T as [e|t l IHl r IHr]; intros [e'|t' l' r'] H H' E; cbn in E.
  - inversion E. reflexivity.
  - inversion E as [[E1 E2]]. destruct (snd (in_order_of l')); discriminate E2.
  - inversion E as [[E1 E2]]. destruct (snd (in_order_of l)); discriminate E2.
  - inversion H as [|? k mk ? ? O Rl Rr Pl Pr]; subst. inversion H' as [|? k' mk' ? ? O' Rl' Rr' Pl' Pr']; subst.
    inversion E as [[E1 E2]].
    assert (Hk : k = k').
    { pose proof (by_precedence_all _ H k ltac:(exists k, mk; auto)) as F.
      pose proof (by_precedence_all _ H' k' ltac:(exists k', mk'; auto)) as F'.
      cbn in F, F'. rewrite <- E2 in F'. rewrite E2 in F.
      apply Forall_app in F. destruct F as [_ F]. inversion F as [|? ? (a & ? & A1 & A2) _]; subst.
      apply Forall_app in F'. destruct F' as [_ F']. inversion F' as [|? ? (b & ? & B1 & B2) _]; subst.
      cbn in A1, B1. pose proof (op_fun _ _ _ _ _ O' A1). pose proof (op_fun _ _ _ _ _ O B1). lia. }
    subst k'.
    destruct (split_unique _ (fun x => exists mk, is_op (fst x) k mk) (op_level_at_least (S k)) _ _ _ _ _ _ E2)
      as (A1 & A2 & A3); eauto using by_precedence_all.
    { intros y (m1 & Y1) (k1 & m2 & Y2 & Y3). pose proof (op_fun _ _ _ _ _ Y1 Y2). lia. }
    inversion A2; subst. f_equal.
    + apply IHl; auto. destruct (in_order_of l), (in_order_of l'); cbn in *; congruence.
    + apply IHr; auto. destruct (in_order_of r), (in_order_of r'); cbn in *; congruence.
Qed.
Lemma builds_fun T : forall e e', builds T e -> builds T e' -> e = e'.
Proof.
  induction T as [x|t l IHl r IHr]; intros e e' H H'; inversion H; inversion H'; subst; auto.
  match goal with A : is_op t ?k ?mk, B : is_op t ?k' ?mk' |- _ =>
    apply op_prec in A, B; destruct A as (_ & _ & A), B as (_ & _ & B) end.
  assert (el = el0) by eauto. assert (er = er0) by eauto. subst.
  match goal with A : forall l r, make_binary t l r = _, B : forall l r, make_binary t l r = _ |- _ =>
    specialize (A el0 er0); specialize (B el0 er0); congruence end.
Qed.

(** ** Exponentiation *)
Lemma is_punct_eq p t : is_punct p t = true -> t = TPunct p.
Proof. destruct t; cbn; try discriminate. destruct p, p0; cbn; intros H; try discriminate; reflexivity. Qed.
Lemma is_keyword_eq k t : is_keyword k t = true -> t = TKeyword k.
Proof. destruct t; cbn; try discriminate. destruct k, k0; cbn; intros H; try discriminate; reflexivity. Qed.
Lemma is_punct_neq p t : is_punct p t = false -> t <> TPunct p.
Proof. intros H ->. destruct p; discriminate H. Qed.

Lemma same_sym a b : same_place a b -> same_place b a.
Proof.
  intros (A1 & A2 & A3 & A4 & A5 & A6 & A7 & f & t & b' & A8).
  repeat split; try congruence. rewrite A8.
  destruct (st_ctx a) as [? ? ? ? f0 t0 b0]. exists f0, t0, b0. reflexivity.
Qed.
Lemma powers_same_left g s0 s e l s' : same_place s0 s -> reads_powers g s e l s' -> reads_powers g s0 e l s'.
Proof.
  intros H R. inversion R; subst.
  - constructor; auto. eapply parses_same; eauto using same_refl.
  - econstructor; eauto. eapply parses_same; eauto using same_refl.
Qed.
Lemma powers_same_right g s e l s' s1 : reads_powers g s e l s' -> same_place s' s1 -> reads_powers g s e l s1.
Proof.
  intros R. induction R; intros H1.
  - constructor; [eapply parses_same; eauto using same_refl|]. destruct H1 as (-> & _). auto.
  - econstructor; eauto.
Qed.

Theorem powers_right g : forall n s e s',
  run_call (@body) g n CExponentiation s = (Ok e, s') ->
  exists e0 l, reads_powers g s e0 l s' /\ e = right_powers e0 l.
Proof.
  induction n; intros s e s' H; [discriminate H|]. cbn [run_call body] in H. unfold exponentiation in H.
  ok1 H. apply parses_inheriting in E. ok1 H. apply ok_at_punct in E0. destruct E0 as [-> ->].
  destruct (is_punct _ _) eqn:E0.
  - ok1 H. apply ok_next in E1. destruct E1 as [E1 ->]. ok1 H. apply ok_not_target in E2.
    ok1 H. apply ok_isolated in E3. destruct E3 as (t1 & t2 & T1 & T2 & T3). apply IHn in T2.
    destruct T2 as (e0 & l & R & ->). apply ok_ret in H. destruct H as [-> ->].
    exists x, (e0 :: l). split; [|reflexivity].
    eapply powers_more; [exact E| |].
    + exists (st_look s0), s1. split; [exact E1|]. split; [apply is_punct_eq; exact E0|exact E2].
    + eapply powers_same_left; [exact T1|]. eapply powers_same_right; eauto.
  - apply ok_ret in H. destruct H as [-> ->]. exists x, []. split; [|reflexivity].
    constructor; auto. apply is_punct_neq. exact E0.
Qed.

(** ** Assignment *)
Lemma assign_tok_in t : assign_tok t = true <-> In t (map fst assignments).
Proof.
  split.
  - intros H. destruct t; try discriminate. destruct p; cbn in H; try discriminate; cbn; auto 20.
  - cbn. intros H. repeat destruct H as [<-|H]; try reflexivity. destruct H.
Qed.
Lemma assignment_operator_in p o : assignment_operator p = Some o -> In (TPunct p, o) assignments.
Proof. destruct p; cbn; intros H; inversion H; subst; auto 20. Qed.

Lemma assigns_same_left g s0 s l e s' : same_place s0 s -> reads_assignments g s l e s' -> reads_assignments g s0 l e s'.
Proof.
  intros H R. inversion R; subst.
  - constructor; auto. eapply parses_same; eauto using same_refl.
  - eapply assigns_yield; [destruct H as (<- & _); auto|]. eapply parses_same; eauto using same_refl.
  - apply assigns_arrow; auto. eapply parses_same; eauto using same_refl.
  - eapply assigns_more; eauto. eapply parses_same; eauto using same_refl.
Qed.
Lemma assigns_same_right g s l e s' s1 : reads_assignments g s l e s' -> same_place s' s1 -> reads_assignments g s l e s1.
Proof.
  intros R H. inversion R; subst.
  - constructor; [eapply parses_same; eauto using same_refl|]. destruct H as (-> & _). auto.
  - eapply assigns_yield; auto. eapply parses_same; eauto using same_refl.
  - apply assigns_arrow; auto. eapply parses_same; eauto using same_refl.
  - eapply assigns_more; eauto using same_trans.
Qed.

Definition with_ctx (c : ctx) (s : state) : state := upd_ctx (fun _ => c) s.
Lemma next_item_loop_ctx g c : forall rest sp s,
  next_item_loop g rest sp (with_ctx c s) =
  (fst (next_item_loop g rest sp s), with_ctx c (snd (next_item_loop g rest sp s))).
Proof.
  induction rest as [|r rest IH]; intros sp s; cbn [next_item_loop].
  - cbn. destruct (is_eof _); [destruct (st_found_eof s)|]; reflexivity.
  - cbn [with_ctx upd_ctx st_look_pos st_look st_found_eof st_comments st_ctx].
    destruct (update_positions _ _ _ _ _) as [[? ?]|]; [|reflexivity].
    destruct (it_tok (r_item r)); try reflexivity. destruct (slice _ _ _); [|reflexivity].
    rewrite <- IH. reflexivity.
Qed.
Lemma same_with_ctx s s1 : same_place s s1 -> s1 = with_ctx (st_ctx s1) s.
Proof.
  intros (A1 & A2 & A3 & A4 & A5 & A6 & A7 & _). destruct s, s1; cbn in *; subst. reflexivity.
Qed.
Lemma next_item_same g s s1 i t : same_place s s1 -> next_item g s = (Ok i, t) ->
  exists t1, next_item g s1 = (Ok i, t1) /\ same_place t1 t.
Proof.
  intros H E. pose proof (same_with_ctx _ _ H) as E1.
  assert (next_item g s1 = (Ok i, with_ctx (st_ctx s1) t)).
  { rewrite E1. unfold next_item. cbn [with_ctx upd_ctx st_rest st_look st_ctx].
    change (upd_ctx (fun _ => st_ctx s1) s) with (with_ctx (st_ctx s1) s).
    rewrite next_item_loop_ctx. unfold next_item in E. rewrite E. reflexivity. }
  exists (with_ctx (st_ctx s1) t). split; auto.
  destruct (next_item_ok _ _ _ _ E) as (_ & C & _). apply same_sym. repeat split.
  cbn. rewrite C. apply H.
Qed.

(** The four things an assignment expression can be. *)
Inductive assignment_case (g : cfg) (n : nat) (s : state) (e : Expr) (s' : state) : Prop :=
| case_yield : it_tok (st_look s) = TKeyword KYield -> run_call (@body) g n CYieldExpr s = (Ok e, s') ->
    assignment_case g n s e s'
| case_arrow : is_arrow e -> assignment_case g n s e s'
| case_conditional : forall s1, run_call (@body) g n CConditionalExpr s = (Ok e, s1) -> same_place s1 s' ->
    ~ In (it_tok (st_look s')) (map fst assignments) -> assignment_case g n s e s'
| case_assign : forall l o r s1 s2 t1 t2, run_call (@body) g n CConditionalExpr s = (Ok l, s1) ->
    takes g s1 (it_tok (st_look s1)) s2 -> In (it_tok (st_look s1), o) assignments ->
    same_place s2 t1 -> run_call (@body) g n CAssignmentExpr t1 = (Ok r, t2) -> same_place t2 s' ->
    e = EAssignment o (ALExpr l) r -> assignment_case g n s e s'.

Lemma ok_cover_formals g n e o s s' :
  run_in g n (fun B => @run_call call (@body) g n B) (cover_formals e) s = (Ok o, s') ->
  s' = s /\ (is_placeholder e = true -> o <> None).
Proof.
  unfold cover_formals. intros H. destruct e; try (apply ok_ret in H; destruct H as [-> ->]; split; [auto|discriminate]).
  all: cbn zeta iota beta in H; destruct (existsb snd _) eqn:E0; [ok1 H; destruct (ok_fail _ _ _ _ _ _ _ H)|];
    ok1 H; apply ok_get in E; destruct E as [-> ->]; ok1 H; apply ok_get in E; destruct E as [-> ->];
    destruct (_ && _ && _) eqn:E1; [ok1 H; destruct (ok_fail _ _ _ _ _ _ _ H)|];
    apply ok_ret in H; destruct H as [-> ->]; split; [reflexivity|discriminate].
Qed.

Lemma ok_arrow_rest g n c e s s' :
  run_in g n (fun B => @run_call call (@body) g n B) (arrow_rest c) s = (Ok e, s') ->
  is_arrow e \/ (is_placeholder c = false /\ e = c /\ same_place s s').
Proof.
  unfold arrow_rest. intros H. ok1 H. apply ok_not_target in E. cbn zeta in H. ok1 H.
  apply ok_cover_formals in E0. destruct E0 as [-> Hp]. destruct x0 as [params|].
  - left. ok1 H. ok1 H. apply ok_at_punct in E1. destruct E1 as [-> ->]. destruct (is_punct _ _).
    + ok1 H. ok1 H. ok1 H. ok1 H. apply ok_ret in H. destruct H as [-> _]. unfold is_arrow. eauto.
    + ok1 H. apply ok_ret in H. destruct H as [-> _]. unfold is_arrow. eauto.
  - right. apply ok_ret in H. destruct H as [-> ->]. split; auto.
    destruct (is_placeholder c); auto. exfalso. apply Hp; auto.
Qed.

Lemma assignment_inv g n s e s' :
  run_call (@body) g (S n) CAssignmentExpr s = (Ok e, s') -> assignment_case g n s e s'.
Proof.
  intros H. cbn [run_call body] in H. unfold assignment_expr in H.
  ok1 H. apply ok_get in E. destruct E as [-> ->]. ok1 H. apply ok_look in E. destruct E as [-> ->].
  destruct (negb _ && _) eqn:Ey.
  { apply ok_call in H. apply andb_prop in Ey. apply case_yield; auto. apply is_keyword_eq. apply Ey. }
  ok1 H. apply ok_lookpos in E. subst s0. ok1 H. apply ok_call in E. ok1 H. apply ok_lookpos in E0. subst s1.
  ok1 H. apply ok_stream_at in E0. subst s1. ok1 H. apply ok_look_tok in E0. destruct E0 as [-> ->].
  ok1 H. ok1 H. apply ok_look_tok in E1. destruct E1 as [-> ->].
  match type of E0 with context [if ?c then _ else _] => destruct c eqn:Ea in E0 end.
  - (* async *)
    ok1 E0. destruct (expr_as_pat _); [|destruct (ok_fail _ _ _ _ _ _ _ E0)].
    apply ok_ret in E0. destruct E0 as [-> ->]. cbn [is_placeholder orb] in H.
    apply ok_arrow_rest in H. destruct H as [H|[H _]]; [|discriminate]. apply case_arrow. exact H.
  - apply ok_ret in E0. destruct E0 as [-> ->].
    destruct (is_placeholder x0 || is_punct PFatArrow (it_tok (st_look s0))) eqn:Ef.
    + apply ok_arrow_rest in H. destruct H as [H|(H1 & -> & H2)]; [apply case_arrow; exact H|].
      rewrite H1 in Ef. cbn in Ef. apply is_punct_eq in Ef.
      eapply case_conditional; eauto. destruct H2 as (-> & _). rewrite <- assign_tok_in, Ef. discriminate.
    + destruct (assign_tok _) eqn:Et.
      * unfold assign_rest in H. ok1 H. apply ok_look in E0. destruct E0 as [-> ->].
        ok1 H. apply ok_get in E0. destruct E0 as [-> ->]. ok1 H.
        assert (s1 = s0) as -> by (match type of E0 with context [if ?c then _ else _] => destruct c end; [apply ok_tolerate in E0|apply ok_ret in E0]; tauto).
        clear E0. ok1 H. apply ok_get in E0. destruct E0 as [-> ->]. ok1 H.
        assert (s1 = s0) as ->.
        { destruct x0; try (apply ok_ret in E0; tauto). match type of E0 with context [if ?c then _ else _] => destruct c end; [|apply ok_ret in E0; tauto].
          ok1 E0. destruct (ok_fail _ _ _ _ _ _ _ E0). }
        clear E0. ok1 H.
        assert (S1 : same_place s0 s1).
        { match type of E0 with context [if ?c then _ else _] => destruct c end; [apply ok_ret in E0; destruct E0 as [_ ->]; apply same_refl|].
          eapply ok_not_target; eauto. }
        clear E0. ok1 H. apply ok_next in E0. destruct E0 as [E0 ->].
        assert (L1 : st_look s1 = st_look s0) by apply S1. rewrite L1 in *.
        destruct (it_tok (st_look s0)) as [| | | | | | | |p| |] eqn:Etk; try destruct (ok_fail _ _ _ _ _ _ _ H).
        destruct (assignment_operator p) as [o|] eqn:Eo; [|destruct (ok_fail _ _ _ _ _ _ _ H)].
        ok1 H. apply ok_isolated in E1. destruct E1 as (t1 & t2 & T1 & T2 & T3).
        ok1 H. apply ok_upd in E1. apply ok_ret in H. destruct H as [-> ->]. subst s4.
        apply ok_call in T2.
        assert (N : exists s2', next_item g s0 = (Ok (st_look s0), s2') /\ same_place s2' s2).
        { eapply next_item_same; [apply same_sym; exact S1|exact E0]. }
        destruct N as (s2' & N1 & N2).
        eapply case_assign with (s2 := s2); eauto.
        -- exists (st_look s0), s2'. auto.
        -- rewrite Etk. apply assignment_operator_in. exact Eo.
        -- eapply same_trans; [exact T3|]. same_solve.
      * apply ok_ret in H. destruct H as [-> ->]. eapply case_conditional; eauto using same_refl.
        rewrite <- assign_tok_in. congruence.
Qed.

Theorem assignments_right g : forall n s e s',
  run_call (@body) g n CAssignmentExpr s = (Ok e, s') ->
  exists l e', reads_assignments g s l e' s' /\ e = right_assignments l e'.
Proof.
  induction n; intros s e s' H; [discriminate H|]. pose proof H as H0. apply assignment_inv in H.
  destruct H as [H1 H2|H1|s1 H1 H2 H3|l o r s1 s2 t1 t2 H1 H2 H3 H4 H5 H6 ->].
  - exists [], e. split; [|reflexivity]. eapply assigns_yield; auto. eapply parses_call; eauto.
  - exists [], e. split; [|reflexivity]. eapply assigns_arrow; auto. eapply parses_call; eauto.
  - exists [], e. split; [|reflexivity]. constructor; auto.
    eapply parses_same; [apply same_refl|eapply parses_call; eauto|auto].
  - apply IHn in H5. destruct H5 as (l' & e' & R & ->). exists ((l, o) :: l'), e'. split; [|reflexivity].
    eapply assigns_more; eauto; [eapply parses_call; eauto|]. eapply assigns_same_left; eauto.
Qed.

(** ** Conditional *)
Lemma conds_same_left g s0 s l e s' : same_place s0 s -> reads_conditionals g s l e s' -> reads_conditionals g s0 l e s'.
Proof.
  intros H R. inversion R; subst.
  - apply conds_binary; auto. eapply parses_same; eauto using same_refl.
  - apply conds_other; auto. eapply parses_same; eauto using same_refl.
  - eapply conds_more; eauto. eapply parses_same; eauto using same_refl.
Qed.
Lemma conds_same_right g s l e s' s1 : reads_conditionals g s l e s' -> same_place s' s1 -> reads_conditionals g s l e s1.
Proof.
  intros R H. inversion R; subst.
  - apply conds_binary; [eapply parses_same; eauto using same_refl|]. destruct H as (-> & _). auto.
  - apply conds_other; auto. eapply parses_same; eauto using same_refl.
  - eapply conds_more; eauto using same_trans.
Qed.
Lemma ok_punct_takes g n p u s s' :
  run_in g n (fun B => @run_call call (@body) g n B) (expect_punct p) s = (Ok u, s') -> takes g s (TPunct p) s'.
Proof. intros H. apply ok_expect in H. destruct H as (i & H1 & H2). exists i, s'. auto using is_punct_eq, same_refl. Qed.

Lemma ok_yield g n s e s' : run_call (@body) g (S n) CYieldExpr s = (Ok e, s') -> exists a d, e = EYield a d.
Proof.
  intros H. cbn [run_call body] in H. unfold yield_expr in H. ok1 H. ok1 H. destruct (x0 : bool).
  - apply ok_ret in H. destruct H as [-> _]. eauto.
  - ok1 H. ok1 H. ok1 H. ok1 H. match type of H with context [match ?x with pair _ _ => _ end] => destruct x end.
    ok1 H. apply ok_ret in H. destruct H as [-> _]. eauto.
Qed.

Theorem conditionals_right g : forall n s e s',
  run_call (@body) g n CConditionalExpr s = (Ok e, s') ->
  exists l e', reads_conditionals g s l e' s' /\ e = right_conditionals l e'.
Proof.
  induction n as [n IH] using lt_wf_ind. intros s e s' H. destruct n; [discriminate H|].
  cbn [run_call body] in H. unfold conditional_expr in H.
  ok1 H. apply parses_inheriting in E. ok1 H. apply ok_at_punct in E0. destruct E0 as [-> ->].
  destruct (is_punct _ _) eqn:E0.
  - ok1 H. apply ok_next in E1. destruct E1 as [E1 ->]. ok1 H. apply ok_get in E2. destruct E2 as [-> ->].
    ok1 H. apply ok_upd in E2. subst s2. ok1 H. apply parses_isolated in E2. ok1 H. apply ok_upd in E3. subst s3.
    ok1 H. apply ok_punct_takes in E3. ok1 H. apply ok_isolated in E4. destruct E4 as (t1 & t2 & T1 & T2 & T3).
    ok1 H. apply ok_not_target in E4. apply ok_ret in H. destruct H as [-> ->]. apply ok_call in T2.
    assert (R : exists l e', reads_conditionals g t1 l e' t2 /\ x4 = right_conditionals l e').
    { destruct n; [discriminate T2|]. pose proof (parses_call g _ _ _ _ _ _ T2) as T2'.
      apply assignment_inv in T2. destruct T2 as [H1 H2|H1|r1 H1 H2 H3|l o r r1 r2 w1 w2 H1 H2 H3 H4 H5 H6 H7].
      - exists [], x4. split; [|reflexivity]. apply conds_other; auto.
        destruct n; [discriminate H2|]. apply ok_yield in H2. destruct H2 as (? & ? & ->). discriminate.
      - exists [], x4. split; [|reflexivity]. apply conds_other; auto.
        destruct H1 as (? & ? & ? & ? & ->). discriminate.
      - apply (IH n) in H1; [|lia]. destruct H1 as (l & e' & R & ->). exists l, e'. split; [|reflexivity].
        eapply conds_same_right; eauto.
      - exists [], x4. split; [|reflexivity]. apply conds_other; auto. subst. discriminate. }
    destruct R as (l & e' & R & ->). exists ((x, x1) :: l), e'. split; [|reflexivity].
    eapply conds_more; [exact E| |exact E2|exact E3| |].
    + exists (st_look s0), s1. split; [exact E1|]. split; [apply is_punct_eq; exact E0|apply same_refl].
    + eapply conds_same_left; eauto.
    + eapply same_trans; eauto.
  - apply ok_ret in H. destruct H as [-> ->]. exists [], x. split; [|reflexivity].
    apply conds_binary; auto. apply is_punct_neq. exact E0.
Qed.
