(** Two texts with the same tokens are parsed alike: spacing, comments and the places of the
    tokens do not matter.

    The proof runs the parser on both texts at once.  The two states have the same tokens before
    them; what differs is where those tokens lie, so positions and items are related and not
    equal.  Only after the word [async] does the parser decide by position
    (lib.rs:3069-3073, 3877, 4365). *)
From Verif Require Export Async Forward Sentence Term.
Export Parser.
Local Open Scope nat_scope.
Local Open Scope list_scope.

(** ** What must agree *)

(** What the scanner says of the tokens of a text, leaving out comments and places: kind,
    spelling, and whether a line terminator was seen before. *)
Definition signs (sc : scanner) (js : text) : list (token * option text * bool) :=
  map (fun r => (it_tok (r_item r), slice js (it_start (r_item r)) (it_end (r_item r)), r_nl r))
      (filter nc (sc_scan sc js)).

(** Errors without the place they report. *)
Definition unplaced (e : error) : error :=
  match e with
  | UnexpectedToken _ m => UnexpectedToken (mkPos 0 0) m
  | UnexpectedEoF => UnexpectedEoF
  | ParseAfterEoF => ParseAfterEoF
  | UnableToReinterpret _ a b => UnableToReinterpret (mkPos 0 0) a b
  | Redecl _ i => Redecl (mkPos 0 0) i
  | OperationError _ m => OperationError (mkPos 0 0) m
  | InvalidGetterParams _ => InvalidGetterParams (mkPos 0 0)
  | InvalidSetterParams _ => InvalidSetterParams (mkPos 0 0)
  | NonStrictFeatureInStrictContext _ m => NonStrictFeatureInStrictContext (mkPos 0 0) m
  | OtherError => OtherError
  end.
Definition unplaced_outcome {A} (o : outcome A) : outcome A :=
  match o with Err e => Err (unplaced e) | _ => o end.

(** The words [async] of the two texts are on the same line as the same later tokens. *)
Definition same_lines (js1 js2 : text) (items1 items2 : list raw) : Prop :=
  forall l1 r1 m1 f1 rest1 l2 r2 m2 f2 rest2,
    items1 = l1 ++ r1 :: m1 ++ f1 :: rest1 -> items2 = l2 ++ r2 :: m2 ++ f2 :: rest2 ->
    nc r1 = true -> nc r2 = true -> nc f1 = true -> nc f2 = true ->
    length (filter nc rest1) = length (filter nc rest2) -> length (filter nc m1) = length (filter nc m2) ->
    text_of js1 (r_item r1) = str "async" ->
    (line_feed_between js1 r1 f1 <-> line_feed_between js2 r2 f2).

Definition no_async (js : text) (items : list raw) : Prop :=
  forall r, In r items -> nc r = true -> text_of js (r_item r) <> str "async".

(** The keyword [function] is so spelled. *)
Definition functions_spelled (js : text) (items : list raw) : Prop :=
  forall r, In r items -> it_tok (r_item r) = TKeyword KFunction -> text_of js (r_item r) = str "function".

(** The end of the text is not spelled [async]. *)
Definition end_plain (js : text) (items : list raw) : Prop :=
  forall r, In r items -> it_tok (r_item r) = TEoF -> text_of js (r_item r) <> str "async".

(** What makes the decisions about [async] the same for both texts. *)
Definition async_alike (js1 js2 : text) (items1 items2 : list raw) : Prop :=
  no_async js1 items1 \/
  (async_ok js1 items1 /\ functions_spelled js1 items1 /\ end_plain js1 items1 /\
   async_ok js2 items2 /\ functions_spelled js2 items2 /\ end_plain js2 items2 /\ same_lines js1 js2 items1 items2).

Section Same.
  Variables g1 g2 : cfg.
  Variables items1 items2 : list raw.
  (** [lax]: the marks before the end of the text may differ. *)
  Variable lax : bool.
  Notation js1 := (g_stream g1).
  Notation js2 := (g_stream g2).
  Hypothesis same_tolerant : g_tolerant g1 = g_tolerant g2.
  Hypothesis same_module : g_module g1 = g_module g2.
  Hypothesis same_restricted : g_restricted g1 = g_restricted g2.
  Hypothesis same_reserved : g_strict_reserved g1 = g_strict_reserved g2.
  Hypothesis same_literal : g_literal g1 = g_literal g2.
  Hypothesis same_end : lax = true \/ g_end_nl g1 = g_end_nl g2.
  Hypothesis lines1 : g_lines g1 = get_lines js1.
  Hypothesis lines2 : g_lines g2 = get_lines js2.
  Hypothesis async_agrees : async_alike js1 js2 items1 items2.

  Definition same (i1 i2 : item) : Prop :=
    it_tok i1 = it_tok i2 /\ slice js1 (it_start i1) (it_end i1) = slice js2 (it_start i2) (it_end i2).
  Definition osame (o1 o2 : option item) : Prop :=
    match o1, o2 with Some i1, Some i2 => same i1 i2 | None, None => True | _, _ => False end.

  Definition mark (t : token) (b : bool) : bool := b && negb (lax && is_eof t).
  Definition sign (js : text) (i : item) (b : bool) : token * option text * bool :=
    (it_tok i, slice js (it_start i) (it_end i), mark (it_tok i) b).
  Definition raw_sign (js : text) (r : raw) := sign js (r_item r) (r_nl r).
  Definition before (js : text) (s : state) : list (token * option text * bool) :=
    sign js (st_look s) (st_nl s) :: map (raw_sign js) (filter nc (st_rest s)).
  Definition size (s : state) : nat := length (filter nc (st_rest s)).

  (** In lax mode [yield] must not occur. *)
  Definition unyielding (x : token * option text * bool) : Prop := lax = true -> fst (fst x) <> TKeyword KYield.

  (** [first_covert] is written and restored, but nothing depends on it. *)
  Definition csame (c1 c2 : ctx) : Prop := c1 = set_first_covert (c_first_covert c1) c2.

  Definition Rs (s1 s2 : state) : Prop :=
    csame (st_ctx s1) (st_ctx s2) /\ st_found_eof s1 = st_found_eof s2 /\
    before js1 s1 = before js2 s2 /\ Forall unyielding (before js1 s1) /\ is_comment (it_tok (st_look s1)) = false /\
    placed js1 items1 s1 /\ placed js2 items2 s2.

  Definition agrees {A} (V : A -> A -> Prop) (k : nat) (x1 x2 : outcome A * state) : Prop :=
    match x1, x2 with
    | (Ok a1, s1), (Ok a2, s2) => V a1 a2 /\ Rs s1 s2 /\ size s1 <= k
    | (Err e1, s1), (Err e2, s2) => unplaced e1 = unplaced e2 /\ Rs s1 s2 /\ size s1 <= k
    | (Panic, _), (Panic, _) => True
    | (NoFuel, _), (NoFuel, _) => True
    | _, _ => False
    end.
  Lemma agrees_weaken {A} (V W : A -> A -> Prop) k k' x1 x2 : k <= k' -> (forall a b, V a b -> W a b) ->
    agrees V k x1 x2 -> agrees W k' x1 x2.
  Proof.
    unfold agrees. destruct x1 as [[?|?| |] ?], x2 as [[?|?| |] ?]; try tauto.
    all: intros H HV (H1 & H2 & H3); split; [auto|split; [exact H2|lia]].
  Qed.

  Definition dsame (d1 d2 : fail_desc) : Prop :=
    match d1, d2 with
    | FExpected i1 e1, FExpected i2 e2 => same i1 i2 /\ e1 = e2
    | FUnexpected i1 e1, FUnexpected i2 e2 => same i1 i2 /\ e1 = e2
    | FRedecl a, FRedecl b => a = b
    | FOperation a, FOperation b => a = b
    | FReinterpret a b, FReinterpret a' b' => a = a' /\ b = b'
    | FError e1, FError e2 => unplaced e1 = unplaced e2
    | _, _ => False
    end.
  Lemma mk_error_same s1 s2 d1 d2 : dsame d1 d2 -> unplaced (mk_error g1 s1 d1) = unplaced (mk_error g2 s2 d2).
  Proof.
    destruct d1, d2; cbn [dsame mk_error unplaced]; try tauto; try congruence.
    - intros [[H _] ->]. rewrite H. reflexivity.
    - intros [[_ H] ->]. rewrite H. reflexivity.
    - intros [-> ->]. reflexivity.
  Qed.

  (** ** One item *)
  Lemma Rs_look s1 s2 : Rs s1 s2 -> same (st_look s1) (st_look s2).
  Proof. intros (_ & _ & H & _). unfold before, sign in H. inversion H. split; assumption. Qed.
  Lemma Rs_nl s1 s2 : Rs s1 s2 -> st_nl s1 = st_nl s2 \/ lax = true /\ it_tok (st_look s1) = TEoF /\ it_tok (st_look s2) = TEoF.
  Proof.
    intros H. pose proof (Rs_look _ _ H) as [L _]. destruct H as (_ & _ & H & _). unfold before, sign, mark in H. inversion H as [[H1 H2 H3 H4]].
    rewrite <- L in *. destruct lax; cbn [andb] in *; [|left; rewrite !andb_true_r in H3; exact H3].
    destruct (is_eof (it_tok (st_look s1))) eqn:E; cbn [negb] in H3; [right|left; rewrite !andb_true_r in H3; exact H3].
    destruct (it_tok (st_look s1)); try discriminate. auto.
  Qed.
  Lemma before_size js s : length (before js s) = S (size s).
  Proof. unfold before, size. cbn. rewrite map_length. reflexivity. Qed.
  Lemma Rs_size s1 s2 : Rs s1 s2 -> size s1 = size s2.
  Proof. intros (_ & _ & H & _). apply (f_equal (@length _)) in H. rewrite !before_size in H. lia. Qed.

  Lemma loop_before g : forall rest sp s i s', next_item_loop g rest sp s = (Ok i, s') -> is_eof (it_tok (st_look s)) = false \/ filter nc rest <> [] ->
    before (g_stream g) s' = map (raw_sign (g_stream g)) (filter nc rest) /\ st_ctx s' = st_ctx s /\ st_found_eof s' = st_found_eof s.
  Proof.
    induction rest as [|r rest IH]; intros sp s i s'; cbn [next_item_loop].
    - intros H [E|E]; [|destruct (E eq_refl)]. rewrite E in H. discriminate.
    - destruct (update_positions _ _ _ _ _) as [[cur lpos]|]; [|discriminate]. cbn [filter].
      change (nc r) with (negb (is_comment (it_tok (r_item r)))). destruct (it_tok (r_item r)) eqn:Et; cbn [is_comment negb].
      11:{ destruct (slice _ _ _) as [t|]; [|discriminate]. intros H E. apply IH in H; [|exact E]. exact H. }
      all: intros H _; inversion H; subst; unfold before; cbn [st_look st_nl st_rest st_ctx st_found_eof map]; auto.
  Qed.
  Lemma next_before g s : scan_ok (g_stream g) s -> is_eof (it_tok (st_look s)) = false ->
    exists s', next_item g s = (Ok (st_look s), s') /\ before (g_stream g) s' = tl (before (g_stream g) s)
      /\ st_ctx s' = st_ctx s /\ st_found_eof s' = st_found_eof s.
  Proof.
    intros Hs E. destruct (next_item_scan g s Hs) as (s' & S' & [Hn|(_ & _ & F)]); [|congruence].
    exists s'. split; [exact Hn|]. unfold next_item in Hn. apply loop_before in Hn; [|left; exact E]. exact Hn.
  Qed.
  Lemma next_end g s : scan_ok (g_stream g) s -> is_eof (it_tok (st_look s)) = true ->
    next_item g s = ((if st_found_eof s then Err ParseAfterEoF else Ok (st_look s)),
      mkState (st_ctx s) (st_look s) true (st_cur_pos s) (st_look_pos s) [] (g_end_nl g) (st_comments s)).
  Proof.
    intros (_ & _ & _ & H) E. rewrite E in H. unfold next_item. rewrite H. cbn [next_item_loop]. rewrite E.
    destruct (st_found_eof s) eqn:F; reflexivity.
  Qed.

  Lemma next_same s1 s2 k : Rs s1 s2 -> size s1 <= k -> agrees same k (next_item g1 s1) (next_item g2 s2).
  Proof.
    intros H Hk. pose proof (Rs_look _ _ H) as L. pose proof (Rs_size _ _ H) as Z.
    destruct H as (Hc & Hf & Hb & Hq & Hn & P1 & P2). pose proof P1 as (S1 & _). pose proof P2 as (S2 & _).
    destruct (is_eof (it_tok (st_look s1))) eqn:E1.
    - assert (E2 : is_eof (it_tok (st_look s2)) = true) by (rewrite <- (proj1 L); exact E1).
      pose proof (next_end g1 s1 S1 E1) as N1. pose proof (next_end g2 s2 S2 E2) as N2.
      pose proof (next_item_placed g1 items1 _ _ _ N1 P1) as P1'. pose proof (next_item_placed g2 items2 _ _ _ N2 P2) as P2'.
      rewrite N1, N2. rewrite <- Hf in *.
      assert (R : Rs (mkState (st_ctx s1) (st_look s1) true (st_cur_pos s1) (st_look_pos s1) [] (g_end_nl g1) (st_comments s1))
                     (mkState (st_ctx s2) (st_look s2) true (st_cur_pos s2) (st_look_pos s2) [] (g_end_nl g2) (st_comments s2))).
      { split; [exact Hc|]. split; [reflexivity|]. split; [|split; [|split; [|split; assumption]]].
        - unfold before, sign. cbn [st_look st_nl st_rest filter map]. destruct L as [L1 L2]. rewrite L1, L2. unfold mark.
          rewrite <- L1, E1. destruct same_end as [Ee|Ee]; rewrite Ee; cbn; rewrite ?andb_false_r; reflexivity.
        - unfold before, sign in *. cbn [st_look st_nl st_rest filter map]. inversion Hq as [|? ? Hq1 Hq2]; subst. constructor; [|constructor].
          exact Hq1.
        - exact Hn. }
      destruct (st_found_eof s1); cbn [agrees]; (split; [first [reflexivity|exact L]|split; [exact R|unfold size; cbn; lia]]).
    - assert (E2 : is_eof (it_tok (st_look s2)) = false) by (rewrite <- (proj1 L); exact E1).
      destruct (next_before g1 s1 S1 E1) as (s1' & N1 & B1 & C1 & F1). destruct (next_before g2 s2 S2 E2) as (s2' & N2 & B2 & C2 & F2).
      pose proof (next_item_placed g1 items1 _ _ _ N1 P1) as P1'. pose proof (next_item_placed g2 items2 _ _ _ N2 P2) as P2'.
      rewrite N1, N2. cbn [agrees]. split; [exact L|]. split.
      + split; [rewrite C1, C2; exact Hc|]. split; [congruence|]. split; [congruence|]. split; [|split; [|split; assumption]].
        * rewrite B1. destruct (before js1 s1); [constructor|]. inversion Hq; assumption.
        * unfold before in B1. cbn [tl] in B1. destruct (filter nc (st_rest s1)) as [|r q] eqn:Ef; [discriminate|].
          cbn [map] in B1. inversion B1 as [[T1 T2 T3 T4]]. rewrite T1. assert (Ir : In r (filter nc (st_rest s1))) by (rewrite Ef; left; reflexivity).
          apply filter_In in Ir. destruct Ir as [_ Ir]. unfold nc in Ir. apply negb_true_iff in Ir. exact Ir.
      + pose proof (before_size js1 s1') as Z1. rewrite B1 in Z1. unfold before in Z1. cbn [tl] in Z1. rewrite map_length in Z1.
        unfold size in *. lia.
  Qed.

  Lemma peek_same s1 s2 : Rs s1 s2 -> osame (first_non_comment (st_rest s1)) (first_non_comment (st_rest s2)).
  Proof.
    intros (_ & _ & H & _). unfold before in H. apply (f_equal (@tl _)) in H. cbn [tl] in H. rename H into H1.
    assert (F : forall l, first_non_comment l = match filter nc l with [] => None | r :: _ => Some (r_item r) end).
    { induction l as [|r l IH]; [reflexivity|]. cbn [first_non_comment filter]. unfold nc at 1.
      destruct (is_comment (it_tok (r_item r))); [exact IH|reflexivity]. }
    rewrite !F. destruct (filter nc (st_rest s1)), (filter nc (st_rest s2)); try discriminate; cbn; [auto|].
    cbn in H1. inversion H1. split; assumption.
  Qed.

  (** ** Lines *)
  Lemma place_line js items s t : async_ok js items -> placed js items s -> placed js items t ->
    text_of js (st_look s) = str "async" -> size t < size s ->
    exists l r m f, items = l ++ r :: m ++ f :: st_rest t /\ st_look s = r_item r /\ st_look t = r_item f /\ st_rest s = m ++ f :: st_rest t
      /\ ((p_line (st_look_pos t) =? p_line (st_look_pos s)) = false <-> line_feed_between js r f).
  Proof.
    intros Hok ((W1 & W2 & W3 & _) & l0 & r & E1 & E2 & _ & E4) (_ & l2 & f & F1 & F2 & _ & F4) Hw Hz.
    rewrite E1 in F1. destruct (later_rest _ _ _ _ _ _ F1 Hz) as (m & Es).
    exists l0, r, m, f. split; [rewrite E1, Es; reflexivity|]. split; [exact E2|]. split; [exact F2|]. split; [exact Es|].
    rewrite Es in E1, W2, W3. rewrite E2 in *. destruct (Hok l0 r m f (st_rest t) E1 Hw) as (Hlf & _).
    apply Forall_app in W2. destruct W2 as [Wm W2]. inversion W2 as [|? ? Wf _]; subst.
    destruct W1 as (B1 & B2 & B3 & _). pose proof Wf as (C1 & C2 & C3 & _).
    destruct (boundary_slice js (it_start (r_item r)) (it_start (r_item f)) B1 C1) as (p0 & u & s0 & G1 & G2 & G3 & Gu).
    { assert (O : forall e x, Forall (fun r => well_formed js (r_item r)) x -> in_order e (x ++ f :: st_rest t) -> e <= it_start (r_item f)).
      { intros e x. revert e. induction x as [|y x IH]; intros e Hw9 H; cbn in H; destruct H as [H1 H2]; [exact H1|].
        inversion Hw9 as [|? ? (_ & _ & H3 & _) Hw9']; subst. specialize (IH _ Hw9' H2). lia. }
      specialize (O _ _ Wm W3). lia. }
    rewrite (offset_lines js _ _ _ _ u Hlf (E4 Hlf) (F4 Hlf) Gu).
    assert (Hu : lf_only u).
    { rewrite G1 in Hlf. apply lf_only_app in Hlf. destruct Hlf as [_ Hlf]. apply lf_only_app in Hlf. tauto. }
    unfold line_feed_between. rewrite Gu. rewrite Nat.eqb_neq. split.
    - intros Hne. exists u. split; [reflexivity|]. apply lf_count; [exact Hu|lia].
    - intros (v & Ev & HL). inversion Ev; subst v. apply lf_count in HL; [lia|exact Hu].
  Qed.
  Lemma same_place (l0 : list raw) r a l2 f b : l0 ++ r :: a = l2 ++ f :: b -> length (filter nc b) = length (filter nc a) ->
    nc r = true -> nc f = true -> r = f /\ a = b.
  Proof.
    intros F1 Hlen Hr Hf. destruct (app_eq_app _ _ _ _ F1) as (x & [[X1 X2]|[X1 X2]]).
    - destruct x as [|y x]; cbn in X2; inversion X2 as [[Y1 Y2]]; subst; [auto|].
      rewrite filter_app, app_length in Hlen. cbn [filter] in Hlen. rewrite Hr in Hlen. cbn in Hlen. lia.
    - destruct x as [|y x]; cbn in X2; inversion X2 as [[Y1 Y2]]; subst; [auto|].
      rewrite filter_app, app_length in Hlen. cbn [filter] in Hlen. rewrite Hf in Hlen. cbn in Hlen. lia.
  Qed.
  Lemma eqb_same a b c d : ((a =? b) = false <-> (c =? d) = false) -> (a =? b) = (c =? d).
  Proof. destruct (a =? b), (c =? d); try reflexivity; intuition discriminate. Qed.

  Lemma Rs_text s1 s2 : Rs s1 s2 -> text_of js1 (st_look s1) = text_of js2 (st_look s2).
  Proof. intros H. apply Rs_look in H. destruct H as [_ H]. unfold text_of. rewrite H. reflexivity. Qed.
  Lemma no_async_here s1 s2 : Rs s1 s2 -> no_async js1 items1 -> text_eqb (text_of js1 (st_look s1)) (str "async") = false.
  Proof.
    intros (_ & _ & _ & _ & Hn & (_ & l & r & E & E2 & _) & _) H. destruct (text_eqb _ _) eqn:T; [|reflexivity].
    apply text_eqb_eq in T. rewrite E2 in *. exfalso. eapply H; [rewrite E; apply in_or_app; right; left; reflexivity| |exact T].
    unfold nc. rewrite Hn. reflexivity.
  Qed.
  (** Whether a later token is on the line of the word [async] is the same for both texts. *)
  Lemma line_same s1 s2 t1 t2 : Rs s1 s2 -> Rs t1 t2 -> size t1 <= size s1 -> text_of js1 (st_look s1) = str "async" ->
    (p_line (st_look_pos t1) =? p_line (st_look_pos s1)) = (p_line (st_look_pos t2) =? p_line (st_look_pos s2)).
  Proof.
    intros R T Hz Hw. pose proof (Rs_size _ _ R) as Z. pose proof (Rs_size _ _ T) as Z'.
    pose proof (Rs_text _ _ R) as Hw2. rewrite Hw in Hw2. symmetry in Hw2.
    pose proof (Rs_look _ _ R) as [LR _]. pose proof (Rs_look _ _ T) as [LT _].
    destruct async_agrees as [Hno|(A1 & _ & O1 & A2 & _ & O2 & HS)].
    { pose proof (no_async_here _ _ R Hno) as H. rewrite Hw in H. discriminate. }
    destruct R as (_ & _ & _ & _ & NR & P1 & P2). destruct T as (_ & _ & _ & _ & NT & Q1 & Q2).
    assert (Nn : forall i r, is_comment (it_tok i) = false -> i = r_item r -> nc r = true) by (intros i r H ->; unfold nc; rewrite H; reflexivity).
    destruct (Nat.eq_dec (size t1) (size s1)) as [Es|Ns].
    - assert (G : forall js items s t, async_ok js items -> end_plain js items -> placed js items s -> placed js items t -> text_of js (st_look s) = str "async" ->
        size t = size s -> is_comment (it_tok (st_look s)) = false -> is_comment (it_tok (st_look t)) = false ->
        p_line (st_look_pos t) = p_line (st_look_pos s)).
      { intros js items s t Hok Hend ((W1 & W2 & W3 & W4) & l0 & r & E1 & E2 & _ & E4) (_ & l2 & f & F1 & F2 & _ & F4) Hx Hs N1 N2.
        rewrite E1 in F1. destruct (same_place _ _ _ _ _ _ F1 Hs (Nn _ _ N1 E2) (Nn _ _ N2 F2)) as [<- Er].
        rewrite E2 in Hx. destruct (st_rest s) as [|y rest] eqn:Er'.
        { exfalso. destruct (is_eof (it_tok (st_look s))) eqn:Eo; [|destruct W4]. rewrite E2 in Eo.
          refine (Hend r _ _ Hx); [rewrite E1; apply in_or_app; right; left; reflexivity|].
          destruct (it_tok (r_item r)); try discriminate. reflexivity. }
        destruct (Hok l0 r [] y rest E1 Hx) as (Hlf & _).
        specialize (E4 Hlf). specialize (F4 Hlf). assert (B : boundary js (it_start (r_item r))) by (rewrite <- E2; apply W1).
        destruct (boundary_slice js _ _ B B (Nat.le_refl _)) as (p0 & u & s0 & G1 & G2 & G3 & Gu).
        rewrite (offset_lines js _ _ _ _ u Hlf E4 F4 Gu). destruct u as [|c u]; [cbn; lia|]. cbn [byte_len] in G3.
        pose proof (len_utf8_pos c). lia. }
      pose proof (G _ _ _ _ A1 O1 P1 Q1 Hw Es NR NT) as G1.
      rewrite LR in NR. rewrite LT in NT. pose proof (G _ _ _ _ A2 O2 P2 Q2 Hw2 ltac:(lia) NR NT) as G2.
      rewrite G1, G2, !Nat.eqb_refl. reflexivity.
    - destruct (place_line _ _ _ _ A1 P1 Q1 Hw ltac:(lia)) as (l & r & m & f & E1 & E2 & E3 & E4 & E5).
      destruct (place_line _ _ _ _ A2 P2 Q2 Hw2 ltac:(lia)) as (l' & r' & m' & f' & F1 & F2 & F3 & F4 & F5).
      apply eqb_same. rewrite E5, F5. rewrite E2 in Hw. rewrite LR in NR. rewrite LT in NT.
      eapply HS; eauto.
      + eapply Nn; [|exact E2]. rewrite LR. exact NR.
      + eapply Nn; [|exact E3]. rewrite LT. exact NT.
      + unfold size in *. rewrite E4, F4, !filter_app, !app_length in Z. cbn [filter] in Z.
        rewrite (Nn _ _ NT F3) in Z. rewrite (Nn (st_look t1) f) in Z; [cbn in Z; lia|rewrite LT; exact NT|exact E3].
  Qed.

  (** Whether an asynchronous function begins here. *)
  Definition async_here (g : cfg) (s : state) : bool :=
    match peek_raw s with
    | Some pk => (p_line (st_look_pos s) =? p_line (item_pos g pk)) && is_keyword KFunction (it_tok pk)
    | None => false
    end.
  Lemma async_here_tokens g items s : g_lines g = get_lines (g_stream g) -> placed (g_stream g) items s ->
    async_ok (g_stream g) items -> functions_spelled (g_stream g) items -> text_of (g_stream g) (st_look s) = str "async" ->
    async_here g s = match filter nc (st_rest s) with f :: _ => is_keyword KFunction (it_tok (r_item f)) && negb (r_nl f) | [] => false end.
  Proof.
    intros Hg (Hs & l0 & r & E1 & E2 & _ & E4) Hok Hsp Hw. unfold async_here, peek_raw. rewrite E2 in Hw. set (js := g_stream g) in *.
    destruct (filter nc (st_rest s)) as [|f q] eqn:Ef.
    - destruct (st_rest s) as [|x rest]; [reflexivity|]. cbn in Ef. destruct (nc x) eqn:Nx; [discriminate|]. unfold nc in Nx.
      apply negb_false_iff in Nx. destruct (it_tok (r_item x)); try discriminate. apply andb_false_r.
    - destruct (filter_split _ _ _ Ef) as (m & rest & Er & Hm & _). rewrite Er in E1.
      destruct (Hok l0 r m f rest E1 Hw) as (Hlf & Hlater & Hsame).
      assert (Nf : is_comment (it_tok (r_item f)) = false).
      { assert (I0 : In f (filter nc (st_rest s))) by (rewrite Ef; left; reflexivity). apply filter_In in I0. destruct I0 as [_ I0].
        unfold nc in I0. apply negb_true_iff in I0. exact I0. }
      destruct m as [|x m].
      + cbn [app] in Er. rewrite Er. destruct (is_keyword KFunction (it_tok (r_item f))) eqn:K; [|apply andb_false_r].
        rewrite andb_true_r. cbn [andb]. apply is_keyword_tok in K.
        assert (Hft : text_of js (r_item f) = str "function").
        { apply Hsp; [|exact K]. rewrite E1. apply in_or_app. right. right. left. reflexivity. }
        destruct Hs as (W1 & W2 & W3 & _). rewrite Er in W2, W3. inversion W2 as [|? ? Wf _]; subst. destruct W3 as [W3 _].
        destruct W1 as (B1 & B2 & B3 & _). pose proof Wf as (C1 & C2 & C3 & _).
        destruct (boundary_slice js (it_start (st_look s)) (it_start (r_item f)) B1 C1) as (p0 & u & s0 & F1 & F2 & F3 & Fu); [lia|].
        destruct (well_formed_slice js (r_item f) Wf) as (wf & Ew & _). unfold text_of in Hft. rewrite Ew in Hft. subst wf.
        assert (Of : at_offset js (it_start (r_item f)) (true_position (p0 ++ u))).
        { exists (p0 ++ u), s0. rewrite <- app_assoc, byte_len_app. repeat split; auto. }
        rewrite <- E2 in E4. pose proof (offset_lines js _ _ _ _ u Hlf (E4 Hlf) Of Fu) as Hl.
        assert (Hu : lf_only u).
        { rewrite F1 in Hlf. apply lf_only_app in Hlf. destruct Hlf as [_ Hlf]. apply lf_only_app in Hlf. tauto. }
        unfold item_pos. rewrite Hg. fold js. rewrite (lf_position js _ _ _ _ _ Hlf Of Ew) by discriminate. rewrite Hl.
        destruct (r_nl f) eqn:Nl; cbn [negb].
        * destruct (Hlater eq_refl) as (v & Ev & HL). rewrite <- E2, Fu in Ev. inversion Ev; subst v. apply lf_count in HL; [|exact Hu].
          apply Nat.eqb_neq. lia.
        * destruct (Hsame Hm Nf eq_refl) as (Hno & _). assert (Z : count_nl u = 0).
          { apply lf_count_0; [exact Hu|]. intros HL. apply Hno. exists u. rewrite <- E2. auto. }
          apply Nat.eqb_eq. lia.
      + rewrite Er. cbn [app]. inversion Hm as [|? ? Hx _]; subst.
        replace (is_keyword KFunction (it_tok (r_item x))) with false by (destruct (it_tok (r_item x)); try discriminate; reflexivity).
        rewrite andb_false_r. destruct (is_keyword KFunction (it_tok (r_item f))) eqn:K; [|reflexivity]. cbn [andb]. apply is_keyword_tok in K.
        destruct (r_nl f) eqn:Nl; [reflexivity|]. destruct (Hsame Hm Nf eq_refl) as (_ & G). destruct (G K). discriminate.
  Qed.
  Lemma async_same s1 s2 : Rs s1 s2 -> text_of js1 (st_look s1) = str "async" -> async_here g1 s1 = async_here g2 s2.
  Proof.
    intros R Hw. pose proof (Rs_text _ _ R) as Hw2. rewrite Hw in Hw2. symmetry in Hw2.
    destruct async_agrees as [Hno|(A1 & K1 & O1 & A2 & K2 & O2 & HS)].
    { pose proof (no_async_here _ _ R Hno) as H. rewrite Hw in H. discriminate. }
    destruct R as (_ & _ & B & _ & _ & P1 & P2).
    rewrite (async_here_tokens g1 items1), (async_here_tokens g2 items2); auto.
    unfold before in B. apply (f_equal (@tl _)) in B. cbn [tl] in B.
    destruct (filter nc (st_rest s1)) as [|f1 q1], (filter nc (st_rest s2)) as [|f2 q2]; try discriminate; [reflexivity|].
    cbn in B. unfold raw_sign, sign, mark in B. inversion B as [[T1 T2 T3 T4]]. rewrite <- T1 in *.
    destruct (is_keyword KFunction (it_tok (r_item f1))) eqn:K; [|reflexivity]. apply is_keyword_tok in K. rewrite K in T3.
    cbn in T3. rewrite andb_false_r in T3. cbn in T3. rewrite !andb_true_r in T3. rewrite T3. reflexivity.
  Qed.

  (** ** Programs *)
  Section Rel.
    Variable n : nat.
    Variable rec1 rec2 : forall B, call B -> state -> outcome B * state.
    Hypothesis rec_same : forall k B (c : call B) s1 s2, Rs s1 s2 -> size s1 <= k -> agrees eq k (rec1 B c s1) (rec2 B c s2).

    Notation run1 := (run_in g1 n rec1).
    Notation run2 := (run_in g2 n rec2).
    Definition rel {A} (k : nat) (V : A -> A -> Prop) (p1 p2 : P A) : Prop :=
      forall s1 s2, Rs s1 s2 -> size s1 <= k -> agrees V k (run1 p1 s1) (run2 p2 s2).

    Lemma rel_ret A k (V : A -> A -> Prop) a1 a2 : V a1 a2 -> rel k V (Ret a1) (Ret a2).
    Proof. intros H s1 s2 R Z. cbn. auto. Qed.
    Lemma rel_fail A k (V : A -> A -> Prop) d1 d2 : dsame d1 d2 -> rel k V (Fail d1) (Fail d2).
    Proof. intros H s1 s2 R Z. cbn. auto using mk_error_same. Qed.
    Lemma rel_crash A k (V : A -> A -> Prop) : rel k V Crash Crash.
    Proof. intros s1 s2 R Z. exact Logic.I. Qed.
    Lemma rel_call k B (c : call B) : rel k eq (Call c) (Call c).
    Proof. intros s1 s2 R Z. cbn [run_in]. apply rec_same; assumption. Qed.
    Lemma rel_weaken A k (V W : A -> A -> Prop) p1 p2 : (forall a b, V a b -> W a b) -> rel k V p1 p2 -> rel k W p1 p2.
    Proof. intros HV H s1 s2 R Z. eapply agrees_weaken; [apply Nat.le_refl|exact HV|]. apply H; assumption. Qed.
    Lemma agrees_bind A B k (V : A -> A -> Prop) (W : B -> B -> Prop) p1 p2 q1 q2 s1 s2 :
      agrees V k (run1 p1 s1) (run2 p2 s2) -> (forall a1 a2, V a1 a2 -> rel k W (q1 a1) (q2 a2)) ->
      agrees W k (run1 (Bind p1 q1) s1) (run2 (Bind p2 q2) s2).
    Proof.
      intros H K. cbn [run_in]. unfold agrees in H.
      destruct (run1 p1 s1) as [[a1|e1| |] t1], (run2 p2 s2) as [[a2|e2| |] t2]; try tauto; try exact H.
      destruct H as (HV & HR & HZ). exact (K a1 a2 HV t1 t2 HR HZ).
    Qed.
    Lemma rel_bind A B k (V : A -> A -> Prop) (W : B -> B -> Prop) p1 p2 q1 q2 :
      rel k V p1 p2 -> (forall a1 a2, V a1 a2 -> rel k W (q1 a1) (q2 a2)) -> rel k W (Bind p1 q1) (Bind p2 q2).
    Proof. intros H K s1 s2 R Z. eapply agrees_bind; [apply H; assumption|exact K]. Qed.
    Definition step_same {X A} (U : X -> X -> Prop) (V : A -> A -> Prop) (x1 x2 : X + A) : Prop :=
      match x1, x2 with inl a, inl b => U a b | inr a, inr b => V a b | _, _ => False end.
    Lemma rel_loop X A k (U : X -> X -> Prop) (V : A -> A -> Prop) x1 x2 b1 b2 : U x1 x2 ->
      (forall y1 y2, U y1 y2 -> rel k (step_same U V) (b1 y1) (b2 y2)) -> rel k V (Loop x1 b1) (Loop x2 b2).
    Proof.
      intros H0 H s1 s2 R Z. cbn [run_in].
      enough (G : forall m x1 x2 s1 s2, U x1 x2 -> Rs s1 s2 -> size s1 <= k ->
        agrees V k (iter (fun y s' => run1 (b1 y) s') m x1 s1) (iter (fun y s' => run2 (b2 y) s') m x2 s2)) by (apply G; assumption).
      clear x1 x2 s1 s2 H0 R Z. induction m as [|m IH]; intros x1 x2 s1 s2 H0 R Z; cbn [iter]; [exact Logic.I|].
      specialize (H x1 x2 H0 s1 s2 R Z). unfold agrees in H.
      destruct (run1 (b1 x1) s1) as [[[y1|a1]|e1| |] t1], (run2 (b2 x2) s2) as [[[y2|a2]|e2| |] t2];
        cbn [step_same] in H; try tauto; try exact H.
      destruct H as (HU & HR & HZ). apply IH; assumption.
    Qed.

    (** *** Operations *)
    Lemma rel_next k : rel k same (Do ONext) (Do ONext).
    Proof. intros s1 s2 R Z. cbn [run_in exec]. apply next_same; assumption. Qed.
    Lemma next_outcome g s : scan_ok (g_stream g) s -> match fst (next_item g s) with Ok _ | Err _ => True | _ => False end.
    Proof. intros H. destruct (next_item_scan g s H) as (s' & _ & [->|(-> & _)]); exact Logic.I. Qed.
    Lemma rel_nextignored k : rel k eq (Do ONextIgnored) (Do ONextIgnored).
    Proof.
      intros s1 s2 R Z. cbn [run_in exec]. pose proof (next_same s1 s2 k R Z) as H. unfold agrees in H.
      destruct R as (_ & _ & _ & _ & _ & (S1 & _) & _). pose proof (next_outcome g1 s1 S1) as N.
      destruct (next_item g1 s1) as [[a1|e1| |] t1], (next_item g2 s2) as [[a2|e2| |] t2]; cbn in N; try tauto; cbn [agrees].
      all: destruct H as (_ & H); auto.
    Qed.
    Lemma rel_look k : rel k same (Do OLook) (Do OLook).
    Proof. intros s1 s2 R Z. cbn. split; [apply Rs_look; exact R|auto]. Qed.
    Lemma rel_ctx k : rel k csame (Do OCtx) (Do OCtx).
    Proof. intros s1 s2 R Z. cbn. split; [apply R|auto]. Qed.
    Lemma rel_upd k f1 f2 : (forall c1 c2, csame c1 c2 -> csame (f1 c1) (f2 c2)) -> rel k eq (Do (OUpd f1)) (Do (OUpd f2)).
    Proof.
      intros H s1 s2 R Z. cbn. split; [reflexivity|]. split; [|exact Z]. destruct R as (Hc & H1 & H2 & H3 & H4 & H5 & H6).
      split; [apply H; exact Hc|]. auto 10.
    Qed.
    Lemma rel_lookpos k : rel k (fun _ _ => True) (Do OLookPos) (Do OLookPos).
    Proof. intros s1 s2 R Z. cbn. auto. Qed.
    Lemma rel_curpos k : rel k (fun _ _ => True) (Do OCurPos) (Do OCurPos).
    Proof. intros s1 s2 R Z. cbn. auto. Qed.
    Lemma rel_str k i1 i2 : same i1 i2 -> rel k eq (Do (OStr i1)) (Do (OStr i2)).
    Proof. intros [_ H] s1 s2 R Z. cbn. auto. Qed.
    Lemma rel_peekskip k : rel k osame (Do OPeekSkip) (Do OPeekSkip).
    Proof. intros s1 s2 R Z. cbn. split; [apply peek_same; exact R|auto]. Qed.
    Lemma rel_tolerate k d1 d2 : dsame d1 d2 -> rel k eq (Do (OTolerate d1)) (Do (OTolerate d2)).
    Proof.
      intros H s1 s2 R Z. cbn. rewrite <- same_tolerant. destruct (g_tolerant g1); cbn; auto using mk_error_same.
    Qed.
    Lemma rel_guardmodule k b d1 d2 : dsame d1 d2 -> rel k eq (Do (OGuardModule b d1)) (Do (OGuardModule b d2)).
    Proof.
      intros H s1 s2 R Z. cbn. rewrite <- same_module. destruct (g_module g1); cbn; auto.
      destruct b as [[]|]; cbn; auto using mk_error_same.
    Qed.
    Lemma rel_query k q : rel k eq (Do (OQuery q)) (Do (OQuery q)).
    Proof.
      intros s1 s2 R Z. cbn. rewrite same_restricted, same_reserved, same_literal. auto.
    Qed.
    Lemma rel_expectcomma k : rel k eq (Do OExpectComma) (Do OExpectComma).
    Proof.
      intros s1 s2 R Z. cbn [run_in exec]. rewrite <- same_tolerant.
      pose proof (Rs_look _ _ R) as [L _]. rewrite <- L.
      pose proof (next_same s1 s2 k R Z) as H. unfold agrees in H.
      destruct (g_tolerant g1).
      - destruct (is_punct PComma (it_tok (st_look s1))); [|cbn; auto].
        destruct (next_item g1 s1) as [[a1|e1| |] t1], (next_item g2 s2) as [[a2|e2| |] t2]; try tauto; cbn [agrees]; auto.
        destruct H as (_ & H); auto.
      - destruct (next_item g1 s1) as [[a1|e1| |] t1], (next_item g2 s2) as [[a2|e2| |] t2]; try tauto; cbn [agrees]; auto.
        destruct H as (Hs & H). pose proof Hs as [E _]. rewrite <- E. destruct (is_punct PComma (it_tok a1)); cbn [agrees]; auto.
        split; [|exact H]. apply mk_error_same. cbn. auto.
    Qed.
    (** The mark is the same, or nothing is left. *)
    Lemma rel_newline A k (W : A -> A -> Prop) q1 q2 : (forall b, rel k W (q1 b) (q2 b)) ->
      (lax = true -> forall b1 b2 s1 s2, Rs s1 s2 -> size s1 <= k -> it_tok (st_look s1) = TEoF -> it_tok (st_look s2) = TEoF ->
        agrees W k (run1 (q1 b1) s1) (run2 (q2 b2) s2)) ->
      rel k W (Bind (Do ONewLine) q1) (Bind (Do ONewLine) q2).
    Proof.
      intros H H' s1 s2 R Z. cbn [run_in exec]. destruct (Rs_nl _ _ R) as [E|(Hl & E1 & E2)].
      - rewrite E. apply H; assumption.
      - apply H'; assumption.
    Qed.

    (** *** The value relation of each type, and the walk through a body *)
    Definition cvsame (x y : cover) : Prop := fst x = fst y.

    Definition nsame (x y : option Identifier * option item) : Prop := fst x = fst y /\ osame (snd x) (snd y).

    Ltac vrel A := lazymatch eval hnf in A with
      | item => constr:(same)
      | option item => constr:(osame)
      | ctx => constr:(csame)
      | position => constr:(fun _ _ : position => True)
      | (bool * bool * option item)%type => constr:(cvsame)
      | (option Identifier * option item)%type => constr:(nsame)
      | _ => constr:(@eq A)
      end.
    Ltac items := repeat match goal with
      | H : same ?a ?b |- context [it_tok ?b] => rewrite <- (proj1 H)
      end.
    Ltac vclean := lazymatch goal with
      | |- forall a1 a2, same a1 a2 -> _ => intros ? ? ?; items
      | |- forall a1 a2, osame a1 a2 -> _ =>
          let o1 := fresh "o" in let o2 := fresh "o" in let H := fresh "H" in
          intros [o1|] [o2|] H; cbn [osame] in H; [items| | |]; try (destruct H; fail)
      | |- forall a1 a2, csame a1 a2 -> _ =>
          let E := fresh "E" in
          intros [] [] E; unfold csame in E; cbn in E; injection E; clear E; intros; subst;
          cbn [c_allow_in c_allow_strict_directive c_allow_yield c_await c_first_covert c_assign_target
               c_binding_element c_in_function_body c_in_iteration c_in_switch c_label_set c_strict c_past_prolog]
      | |- forall a1 a2, cvsame a1 a2 -> _ =>
          let E := fresh "E" in
          intros [[? ?] ?] [[? ?] ?] E; unfold cvsame in E; cbn in E; injection E; clear E; intros; subst
      | |- forall a1 a2, nsame a1 a2 -> _ =>
          let E := fresh "E" in let H := fresh "H" in
          intros [? [?|]] [? [?|]] [E H]; cbn in E, H; subst; try (destruct H; fail)
      | |- forall a1 a2, True -> _ => intros ? ? _
      | |- forall a1 a2, a1 = a2 -> _ => intros ? ? <-
      | |- forall a1 a2, (fun _ _ => True) a1 a2 -> _ => intros ? ? _
      end.
    Ltac vsolve := cbn [step_same]; lazymatch goal with
      | |- ?x = ?x => reflexivity
      | |- cvsame _ _ => reflexivity
      | |- nsame _ _ => split; cbn; auto
      | |- _ => cbn; items; auto
      end.
    Ltac dsolve := cbn [dsame unplaced]; first [reflexivity|split; [assumption|reflexivity]|split; reflexivity].
    Ltac csolve :=
      let E := fresh "E" in
      intros [] [] E; unfold csame in E; cbn in E; injection E; clear E; intros; subst; reflexivity.
    Ltac hd p := lazymatch p with ?f _ => hd f | _ => p end.
    Ltac rstep := cbn zeta; lazymatch goal with
      | |- rel _ _ (Ret _) (Ret _) => apply rel_ret; vsolve
      | |- rel _ _ (Fail _) (Fail _) => apply rel_fail; dsolve
      | |- rel _ _ Crash Crash => apply rel_crash
      | |- rel _ _ (Call _) (Call _) => apply rel_call
      | |- rel _ _ (Bind (Do ONewLine) _) (Bind (Do ONewLine) _) => apply rel_newline; [let b := fresh "nl" in intros b|]
      | |- rel ?k ?W (@Bind _ ?A ?B _ _) (Bind _ _) => let V := vrel A in apply (rel_bind A B k V); [|vclean]
      | |- rel ?k _ (@Loop _ ?A ?X _ _) (Loop _ _) => apply (rel_loop X A k eq); [reflexivity|vclean]
      | |- rel _ _ (Do ONext) _ => apply rel_next
      | |- rel _ _ (Do ONextIgnored) _ => apply rel_nextignored
      | |- rel _ _ (Do OLook) _ => apply rel_look
      | |- rel _ _ (Do OCtx) _ => apply rel_ctx
      | |- rel _ _ (Do (OUpd _)) _ => apply rel_upd; csolve
      | |- rel _ _ (Do OLookPos) _ => apply rel_lookpos
      | |- rel _ _ (Do OCurPos) _ => apply rel_curpos
      | |- rel _ _ (Do (OStr _)) _ => apply rel_str; assumption
      | |- rel _ _ (Do OPeekSkip) _ => apply rel_peekskip
      | |- rel _ _ (Do (OTolerate _)) _ => apply rel_tolerate; dsolve
      | |- rel _ _ (Do (OGuardModule _ _)) _ => apply rel_guardmodule; dsolve
      | |- rel _ _ (Do (OQuery _)) _ => items; apply rel_query
      | |- rel _ _ (Do OExpectComma) _ => apply rel_expectcomma
      | |- rel _ _ (match ?x with _ => _ end) (match ?x with _ => _ end) => destruct x
      | |- rel _ _ (match ?x with _ => _ end) (match ?y with _ => _ end) => progress items
      | |- rel _ _ ?p ?q => let h := hd p in unfold h
      end.
    Ltac rgo := repeat rstep.

    Lemma rel_at_async k : rel k eq at_async_function at_async_function.
    Proof.
      intros s1 s2 R Z. unfold at_async_function, at_contextual, look, stream_at. cbn [run_in exec].
      pose proof (Rs_look _ _ R) as [_ L]. rewrite <- L.
      destruct (slice js1 (it_start (st_look s1)) (it_end (st_look s1))) as [w|] eqn:E; cbn [run_in]; [|exact Logic.I].
      destruct (text_eqb w (str "async")) eqn:T; cbn [run_in exec]; [|cbn; auto].
      apply text_eqb_eq in T. subst w.
      assert (Hw : text_of js1 (st_look s1) = str "async") by (unfold text_of; rewrite E; reflexivity).
      pose proof (async_same _ _ R Hw) as H. unfold async_here in H.
      destruct (peek_raw s1), (peek_raw s2); cbn; auto.
    Qed.
    Lemma rel_at_return_arg k : rel k eq at_return_arg at_return_arg.
    Proof.
      unfold at_return_arg. rstep; [rgo|]. intros _ b1 b2 s1 s2 R Z E1 E2. cbn. rewrite E1, E2. destruct b1, b2; cbn; auto.
    Qed.
    Lemma rel_consume_semicolon k : rel k eq consume_semicolon consume_semicolon.
    Proof.
      unfold consume_semicolon. rstep; [rgo|]. destruct a1; [rgo|]. rstep; [rgo|].
      intros _ b1 b2 s1 s2 R Z E1 E2. destruct b1, b2; cbn; rewrite ?E1, ?E2; cbn; auto.
    Qed.

    Ltac rspecial := lazymatch goal with
      | |- rel _ _ at_async_function _ => apply rel_at_async
      | |- rel _ _ at_return_arg _ => apply rel_at_return_arg
      | |- rel _ _ consume_semicolon _ => apply rel_consume_semicolon
      | |- _ => rstep
      end.
    Ltac rall := repeat rspecial.

    (** Steps at given states. *)
    Lemma agrees_look_tok A k (W : A -> A -> Prop) q1 q2 s1 s2 :
      agrees W k (run1 (q1 (it_tok (st_look s1))) s1) (run2 (q2 (it_tok (st_look s2))) s2) ->
      agrees W k (run1 (Bind look_tok q1) s1) (run2 (Bind look_tok q2) s2).
    Proof. exact (fun H => H). Qed.
    Lemma agrees_look A k (W : A -> A -> Prop) q1 q2 s1 s2 :
      agrees W k (run1 (q1 (st_look s1)) s1) (run2 (q2 (st_look s2)) s2) ->
      agrees W k (run1 (Bind look q1) s1) (run2 (Bind look q2) s2).
    Proof. exact (fun H => H). Qed.
    Lemma agrees_newline A k (W : A -> A -> Prop) q1 q2 s1 s2 :
      agrees W k (run1 (q1 (st_nl s1)) s1) (run2 (q2 (st_nl s2)) s2) ->
      agrees W k (run1 (Bind (Do ONewLine) q1) s1) (run2 (Bind (Do ONewLine) q2) s2).
    Proof. exact (fun H => H). Qed.
    Lemma agrees_lookpos A k (W : A -> A -> Prop) q1 q2 s1 s2 :
      agrees W k (run1 (q1 (st_look_pos s1)) s1) (run2 (q2 (st_look_pos s2)) s2) ->
      agrees W k (run1 (Bind (Do OLookPos) q1) s1) (run2 (Bind (Do OLookPos) q2) s2).
    Proof. exact (fun H => H). Qed.
    Lemma agrees_bind' A B k (V : A -> A -> Prop) (W : B -> B -> Prop) p1 p2 q1 q2 s1 s2 :
      agrees V k (run1 p1 s1) (run2 p2 s2) ->
      (forall a1 a2 t1 t2, V a1 a2 -> Rs t1 t2 -> size t1 <= k -> agrees W k (run1 (q1 a1) t1) (run2 (q2 a2) t2)) ->
      agrees W k (run1 (Bind p1 q1) s1) (run2 (Bind p2 q2) s2).
    Proof. intros H K. eapply agrees_bind; [exact H|]. intros a1 a2 HV t1 t2 R Z. apply K; assumption. Qed.
    (** A word read at a look-ahead that is at hand. *)
    Lemma agrees_at_contextual A k w (W : A -> A -> Prop) q1 q2 s1 s2 : Rs s1 s2 ->
      agrees W k (run1 (q1 (text_eqb (text_of js1 (st_look s1)) (str w))) s1) (run2 (q2 (text_eqb (text_of js2 (st_look s2)) (str w))) s2) ->
      agrees W k (run1 (Bind (at_contextual w) q1) s1) (run2 (Bind (at_contextual w) q2) s2).
    Proof.
      intros R. unfold at_contextual, look, stream_at. cbn [run_in exec]. pose proof (Rs_look _ _ R) as [_ L].
      destruct R as (_ & _ & _ & _ & _ & ((W1 & _) & _) & ((W2 & _) & _)).
      destruct (well_formed_slice _ _ W1) as (w1 & E1 & _). destruct (well_formed_slice _ _ W2) as (w2 & E2 & _).
      unfold text_of. rewrite E1, E2. cbn [run_in]. exact (fun H => H).
    Qed.

    Lemma rel_optionally_labeled k w : rel k eq (optionally_labeled w) (optionally_labeled w).
    Proof.
      unfold optionally_labeled. rstep; [rall|]. intros s1 s2 R Z.
      pose proof (Rs_look _ _ R) as [L _]. apply agrees_look_tok, agrees_newline. destruct (Rs_nl _ _ R) as [E|(_ & E1 & E2)].
      - rewrite E, <- L. refine ((_ : rel k eq _ _) s1 s2 R Z). rall.
      - rewrite E1, E2. cbn [is_ident andb]. refine ((_ : rel k eq _ _) s1 s2 R Z). rall.
    Qed.
    Lemma rel_update_expr k : rel k eq update_expr update_expr.
    Proof.
      rall. intros _ b1 b2 s1 s2 R Z E1 E2. apply agrees_look_tok. rewrite E1, E2. cbn [is_punct orb]. rewrite !andb_false_r.
      refine ((_ : rel k eq _ _) s1 s2 R Z). rall.
    Qed.
    Lemma end_not_async s1 s2 : Rs s1 s2 -> it_tok (st_look s1) = TEoF -> text_eqb (text_of js1 (st_look s1)) (str "async") = false.
    Proof.
      intros R E. destruct async_agrees as [Hno|(_ & _ & O1 & _)]; [eapply no_async_here; eauto|].
      destruct R as (_ & _ & _ & _ & _ & (_ & l & r & F1 & F2 & _) & _). destruct (text_eqb _ _) eqn:T; [|reflexivity].
      apply text_eqb_eq in T. rewrite F2 in *. exfalso. refine (O1 r _ E T). rewrite F1. apply in_or_app. right. left. reflexivity.
    Qed.
    Lemma contextual_value g rec w s : well_formed (g_stream g) (st_look s) ->
      run_in g n rec (at_contextual w) s = (Ok (text_eqb (text_of (g_stream g) (st_look s)) (str w)), s).
    Proof.
      intros W. unfold at_contextual, look, stream_at. cbn [run_in exec].
      destruct (well_formed_slice _ _ W) as (w1 & E1 & _). unfold text_of. rewrite E1. reflexivity.
    Qed.
    Lemma rel_class_el_head k : rel k eq class_el_head class_el_head.
    Proof.
      rall. intros _ b1 b2 s1 s2 R Z E1 E2. pose proof (end_not_async _ _ R E1) as N. pose proof N as N2. rewrite (Rs_text _ _ R) in N2.
      apply (agrees_bind _ _ _ eq); [|intros ? ? <-; rall].
      pose proof R as (_ & _ & _ & _ & _ & ((W1 & _) & _) & ((W2 & _) & _)).
      destruct (is_ident _ && negb b1), (is_ident _ && negb b2); cbn [run_in]; rewrite ?contextual_value by assumption; rewrite ?N, ?N2; cbn; auto.
    Qed.
    Lemma rel_class_el k b : rel k eq (class_el b) (class_el b).
    Proof. unfold class_el. rstep; [apply rel_class_el_head|]. rall. Qed.

    Lemma next_look g s i s' : scan_ok (g_stream g) s -> next_item g s = (Ok i, s') -> i = st_look s.
    Proof. intros Hs E. destruct (next_item_scan g s Hs) as (t & _ & [H|(H & _)]); rewrite E in H; inversion H. reflexivity. Qed.
    Lemma rel_yield_expr k : rel k eq yield_expr yield_expr.
    Proof.
      unfold yield_expr. destruct (Bool.bool_dec lax true) as [Hl|Hl].
      - intros s1 s2 R Z. apply (agrees_bind _ _ _ (fun _ _ => False)); [|intros ? ? []].
        unfold expect_keyword, next. cbn [run_in exec]. pose proof (next_same s1 s2 k R Z) as H. unfold agrees in H.
        destruct R as (_ & _ & _ & Q & _ & (S1 & _) & _). pose proof (next_look g1 s1) as G.
        destruct (next_item g1 s1) as [[a1|e1| |] t1], (next_item g2 s2) as [[a2|e2| |] t2]; try tauto; try exact H.
        destruct H as (Hs & H). pose proof Hs as [E _]. rewrite <- E. specialize (G _ _ S1 eq_refl). subst a1.
        unfold before in Q. inversion Q as [|? ? Q1 _]; subst. specialize (Q1 Hl). cbn in Q1.
        destruct (is_keyword KYield (it_tok (st_look s1))) eqn:Ky; [apply is_keyword_tok in Ky; contradiction|].
        cbn [run_in agrees]. split; [|exact H]. apply mk_error_same. split; [exact Hs|reflexivity].
      - rstep; [rall|]. rstep; [rall|]. intros; contradiction.
    Qed.
    Lemma rel_assignment_expr k : rel k eq assignment_expr assignment_expr.
    Proof.
      unfold assignment_expr. rstep; [rall|]. intros s1 s2 R Z. apply agrees_look. pose proof (Rs_look _ _ R) as L. rewrite <- (proj1 L).
      destruct (negb _ && _); [refine ((_ : rel k eq _ _) s1 s2 R Z); rall|]. apply agrees_lookpos.
      eapply (agrees_weaken eq eq (size s1)); [exact Z|auto|].
      eapply (agrees_bind' _ _ _ eq); [apply rec_same; [exact R|apply Nat.le_refl]|]. intros e _ t1 t2 <- T Z'. apply agrees_lookpos.
      refine ((_ : rel (size s1) eq _ _) t1 t2 T Z').
      assert (Hline : forall w b, slice js1 (it_start (st_look s1)) (it_end (st_look s1)) = Some w ->
        text_eqb w (str "async") && (p_line (st_look_pos t2) =? p_line (st_look_pos s2)) && b
        = text_eqb w (str "async") && (p_line (st_look_pos t1) =? p_line (st_look_pos s1)) && b).
      { intros w b E. destruct (text_eqb w (str "async")) eqn:Tw; [|reflexivity]. apply text_eqb_eq in Tw. subst w.
        rewrite (line_same s1 s2 t1 t2 R T Z'); [reflexivity|]. unfold text_of. rewrite E. reflexivity. }
      apply (rel_bind _ _ _ (fun w1 w2 => w1 = w2 /\ slice js1 (it_start (st_look s1)) (it_end (st_look s1)) = Some w1)).
      { intros u1 u2 U Zu. unfold stream_at. cbn [run_in exec]. rewrite <- (proj2 L).
        destruct (slice js1 _ _); cbn; auto. }
      intros w _ [<- Ew]. rstep; [rall|]. rewrite (Hline w _ Ew). rall.
    Qed.
    Lemma rel_lhs_allow_call k : rel k eq lhs_allow_call lhs_allow_call.
    Proof.
      unfold lhs_allow_call. intros s1 s2 R Z. apply agrees_lookpos. eapply (agrees_weaken eq eq (size s1)); [exact Z|auto|].
      apply agrees_at_contextual; [exact R|]. rewrite <- (Rs_text _ _ R). 
      refine ((_ : rel (size s1) eq _ _) s1 s2 R (Nat.le_refl _)).
      do 5 (rstep; [rall|]). rstep; [|rall].
      apply (rel_loop _ _ _ eq); [reflexivity|]. intros x _ <-.
      apply (rel_bind _ _ _ eq); [rall|]. intros t _ <-. destruct (is_punct PPeriod t); [rall|]. destruct (is_punct POpenParen t); [|rall].
      intros t1 t2 T Z'. apply agrees_lookpos. cbn zeta.
      assert (Hline : text_eqb (text_of js1 (st_look s1)) (str "async") && (p_line (st_look_pos s2) =? p_line (st_look_pos t2))
        = text_eqb (text_of js1 (st_look s1)) (str "async") && (p_line (st_look_pos s1) =? p_line (st_look_pos t1))).
      { destruct (text_eqb (text_of js1 (st_look s1)) (str "async")) eqn:Tw; [|reflexivity]. apply text_eqb_eq in Tw.
        rewrite (Nat.eqb_sym _ (p_line (st_look_pos t2))), (Nat.eqb_sym _ (p_line (st_look_pos t1))).
        rewrite (line_same s1 s2 t1 t2 R T Z' Tw). reflexivity. }
      rewrite Hline. refine ((_ : rel (size s1) _ _ _) t1 t2 T Z'). rall.
    Qed.

    Lemma bodies_same k B (c : call B) : rel k eq (body c) (body c).
    Proof.
      destruct c; cbn [body];
        lazymatch goal with
        | |- rel _ _ (optionally_labeled _) _ => apply rel_optionally_labeled
        | |- rel _ _ yield_expr _ => apply rel_yield_expr
        | |- rel _ _ assignment_expr _ => apply rel_assignment_expr
        | |- rel _ _ lhs_allow_call _ => apply rel_lhs_allow_call
        | |- rel _ _ update_expr _ => apply rel_update_expr
        | |- rel _ _ (class_el _) _ => apply rel_class_el
        | |- _ => rall
        end.
    Qed.
  End Rel.

  (** ** Runs *)
  Lemma run_call_same n : forall k B (c : call B) s1 s2, Rs s1 s2 -> size s1 <= k ->
    agrees eq k (run_call (@body) g1 n c s1) (run_call (@body) g2 n c s2).
  Proof.
    induction n as [|n IH]; intros k B c s1 s2 R Z; cbn [run_call]; [exact Logic.I|].
    apply bodies_same; auto.
  Qed.
  Lemma parse_same n s1 s2 : Rs s1 s2 -> agrees eq (size s1) (parse g1 n s1) (parse g2 n s2).
  Proof.
    intros R.
    assert (H : agrees eq (size s1) (run (@body) g1 n parse_parts s1) (run (@body) g2 n parse_parts s2)).
    { unfold run. refine ((_ : rel n _ _ (size s1) eq _ _) s1 s2 R (Nat.le_refl _)).
      pose proof (run_call_same n) as HR. unfold parse_parts. apply rel_loop with (U := eq); [reflexivity|]. intros acc _ <-.
      apply rel_bind with (V := eq).
      - unfold look_tok, look. apply rel_bind with (V := same); [apply rel_look|]. intros a1 a2 H. apply rel_ret. apply H.
      - intros t _ <-. destruct (is_eof t); [apply rel_ret; reflexivity|]. apply rel_bind with (V := eq); [apply rel_call; exact HR|].
        intros p _ <-. apply rel_ret. reflexivity. }
    unfold parse. unfold agrees in H. rewrite <- same_module.
    destruct (run _ g1 _ _ _) as [[?|?| |] ?], (run _ g2 _ _ _) as [[?|?| |] ?]; try tauto; cbn [agrees]; auto.
    destruct H as (<- & H). auto.
  Qed.
  Lemma agrees_outcome A k (x1 x2 : outcome A * state) : agrees eq k x1 x2 -> unplaced_outcome (fst x1) = unplaced_outcome (fst x2).
  Proof.
    clear same_end. destruct x1 as [[?|?| |] ?], x2 as [[?|?| |] ?]; cbn; try tauto.
    - intros (-> & _). reflexivity.
    - intros (H & _). rewrite H. reflexivity.
  Qed.
  Lemma iter_next_same n s1 s2 : Rs s1 s2 ->
    option_map unplaced_outcome (fst (iter_next g1 n s1)) = option_map unplaced_outcome (fst (iter_next g2 n s2))
    /\ (fst (iter_next g1 n s1) <> Some NoFuel -> fst (iter_next g1 n s1) <> Some Panic -> Rs (snd (iter_next g1 n s1)) (snd (iter_next g2 n s2))).
  Proof.
    intros R. unfold iter_next. pose proof (Rs_look _ _ R) as [L _]. rewrite <- L. destruct (is_eof _); [split; [reflexivity|auto]|].
    pose proof (run_call_same n (size s1) _ CNextPart s1 s2 R (Nat.le_refl _)) as H. pose proof (agrees_outcome _ _ _ _ H) as O.
    unfold agrees in H. destruct (run_call _ g1 _ _ _) as [[?|?| |] ?], (run_call _ g2 _ _ _) as [[?|?| |] ?]; try tauto; cbn in *.
    all: split; [congruence|]; intros; try congruence; try apply H.
  Qed.
End Same.

(** ** A fresh parser *)
Definition end_unmarked (x : token * option text * bool) : token * option text * bool :=
  match x with (t, w, b) => (t, w, b && negb (is_eof t)) end.
(** The two texts have the same tokens, and the marks the scanner makes before them agree; those
    before the end need not if there is no [yield]. *)
Definition alike (sc : scanner) (js1 js2 : text) : Prop :=
  signs sc js1 = signs sc js2 /\ sc_end_nl sc js1 = sc_end_nl sc js2
  \/ map end_unmarked (signs sc js1) = map end_unmarked (signs sc js2) /\ forall w b, ~ In (TKeyword KYield, w, b) (signs sc js1).

Lemma ends_not_comments l : ends_with_eof l -> filter nc l <> [].
Proof.
  induction l as [|r l IH]; [intros []|]. intros H. cbn [filter]. unfold nc at 1. destruct (is_comment (it_tok (r_item r))) eqn:E; [|discriminate].
  destruct l; [cbn in H; destruct (it_tok (r_item r)); discriminate|]. apply IH. apply H.
Qed.

Lemma start_same sc tolerant module js1 js2 i1 s1 i2 s2 :
  scan_contract js1 (sc_scan sc js1) -> scan_contract js2 (sc_scan sc js2) -> alike sc js1 js2 ->
  start (make_cfg sc tolerant module js1) (sc_scan sc js1) = (Ok i1, s1) ->
  start (make_cfg sc tolerant module js2) (sc_scan sc js2) = (Ok i2, s2) ->
  exists lax, (lax = true \/ sc_end_nl sc js1 = sc_end_nl sc js2)
    /\ Rs (make_cfg sc tolerant module js1) (make_cfg sc tolerant module js2) (sc_scan sc js1) (sc_scan sc js2) lax s1 s2.
Proof.
  intros C1 C2 Ha E1 E2.
  assert (M : forall lax js, map (raw_sign lax js) (filter nc (sc_scan sc js))
    = map (fun x => match x with (t, w, b) => (t, w, mark lax t b) end) (signs sc js)).
  { intros lax js. unfold signs. rewrite map_map. reflexivity. }
  assert (B : forall lax js i s, scan_contract js (sc_scan sc js) -> start (make_cfg sc tolerant module js) (sc_scan sc js) = (Ok i, s) ->
    before lax js s = map (fun x => match x with (t, w, b) => (t, w, mark lax t b) end) (signs sc js)
    /\ st_ctx s = default_ctx /\ st_found_eof s = false /\ is_comment (it_tok (st_look s)) = false).
  { intros lax js i s C E. unfold start, next_item in E. assert (Hn : filter nc (sc_scan sc js) <> []) by (apply ends_not_comments; apply C).
    apply (loop_before lax) in E; [|right; exact Hn]. change (g_stream (make_cfg sc tolerant module js)) with js in E.
    destruct E as (E & Ec & Ef). rewrite M in E. split; [exact E|]. split; [exact Ec|]. split; [exact Ef|].
    rewrite <- M in E. unfold before in E. destruct (filter nc (sc_scan sc js)) as [|r q] eqn:Er; [congruence|].
    cbn [map] in E. inversion E as [[T1 T2 T3 T4]]. rewrite T1. assert (Ir : In r (filter nc (sc_scan sc js))) by (rewrite Er; left; reflexivity).
    apply filter_In in Ir. destruct Ir as [_ Ir]. unfold nc in Ir. apply negb_true_iff in Ir. exact Ir. }
  assert (K : forall lax, map (fun x => match x with (t, w, b) => (t, w, mark lax t b) end) (signs sc js1)
      = map (fun x => match x with (t, w, b) => (t, w, mark lax t b) end) (signs sc js2) ->
    (lax = true -> forall w b, ~ In (TKeyword KYield, w, b) (signs sc js1)) ->
    Rs (make_cfg sc tolerant module js1) (make_cfg sc tolerant module js2) (sc_scan sc js1) (sc_scan sc js2) lax s1 s2).
  { intros lax Hs Hy. destruct (B lax js1 i1 s1 C1 E1) as (B1 & X1 & Y1 & Z1). destruct (B lax js2 i2 s2 C2 E2) as (B2 & X2 & Y2 & Z2).
    split; [rewrite X1, X2; reflexivity|]. split; [congruence|].
    change (g_stream (make_cfg sc tolerant module js1)) with js1. change (g_stream (make_cfg sc tolerant module js2)) with js2.
    split; [congruence|]. split; [|split; [exact Z1|split; eapply start_placed; eauto]].
    rewrite B1. apply Forall_forall. intros x Hx Hl. apply in_map_iff in Hx. destruct Hx as ([[t w] b] & <- & Hx). cbn. intros ->. exact (Hy Hl w b Hx). }
  assert (U : forall l, map (fun x => match x with (t, w, b) => (t, w, mark true t b) end) l = map end_unmarked l) by reflexivity.
  destruct Ha as [[Hs He]|[Hs Hy]].
  - exists false. split; [right; exact He|]. apply K; [rewrite Hs; reflexivity|discriminate].
  - exists true. split; [left; reflexivity|]. apply K; [rewrite !U; exact Hs|intros _; exact Hy].
Qed.
