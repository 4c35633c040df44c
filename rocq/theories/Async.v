(** Where lines matter: [async] and the word after it.

    The parser takes [async function] for the beginning of an asynchronous function only if the
    two words are on one line, which it decides by the positions it computes, not by the
    scanner's new-line marks; and the second word must be the scanner's very next item, so
    there may be no comment in between. *)
From Verif Require Export Positions Derive.
Export Parser.
Local Open Scope nat_scope.

(** What is asked of a text in which something is spelled [async]: line feeds are its only line
    terminators, and the scanner's marks after that word are true: a token with a mark is on a later
    line, the next token without a mark is on the same line, and if it is the keyword [function]
    then it is so spelled and there is no comment before it. *)
Definition line_feed_between (js : text) (r f : raw) : Prop :=
  exists t, slice js (it_start (r_item r)) (it_start (r_item f)) = Some t /\ In LF t.
Definition async_ok (js : text) (items : list raw) : Prop :=
  forall l r m f rest, items = l ++ r :: m ++ f :: rest -> text_of js (r_item r) = str "async" ->
  lf_only js /\ (r_nl f = true -> line_feed_between js r f)
  /\ (only_comments m -> is_comment (it_tok (r_item f)) = false -> r_nl f = false ->
      ~ line_feed_between js r f /\ (it_tok (r_item f) = TKeyword KFunction -> m = [] /\ text_of js (r_item f) = str "function")).

Lemma lf_count t : lf_only t -> count_nl t > 0 <-> In LF t.
Proof.
  induction 1 as [|c t Hc H IH]; [cbn; lia|]. rewrite count_nl_cons, (lf_nl c Hc). cbn [In].
  destruct (N.eqb_spec c LF) as [->|N]; [split; [auto|lia]|]. rewrite <- IH. split; [intros G; right; lia|intros [E|G]; [congruence|lia]].
Qed.
Lemma lf_count_0 t : lf_only t -> count_nl t = 0 <-> ~ In LF t.
Proof. intros H. rewrite <- (lf_count t H). lia. Qed.

Lemma same_prefix (p1 s1 p2 s2 : text) : p1 ++ s1 = p2 ++ s2 -> byte_len p1 = byte_len p2 -> p1 = p2 /\ s1 = s2.
Proof.
  intros E L. destruct (prefix_split p1 s1 p2 s2 E) as [x ->]; [lia|].
  rewrite byte_len_app in L. destruct x as [|c x]; [|cbn [byte_len] in L; pose proof (len_utf8_pos c); lia].
  rewrite app_nil_r in *. split; [reflexivity|]. apply app_inv_head in E. exact E.
Qed.
Lemma offset_lines js a b p q u : lf_only js -> at_offset js a p -> at_offset js b q -> slice js a b = Some u ->
  p_line q = p_line p + count_nl u.
Proof.
  intros Hlf (pre & suf & E & L & ->) (pre' & suf' & E' & L' & ->) Hs.
  apply slice_inv in Hs. destruct Hs as (p1 & s1 & E1 & L1 & L2).
  destruct (same_prefix p1 (u ++ s1) pre suf) as [-> _]; [congruence|lia|].
  destruct (same_prefix (pre ++ u) s1 pre' suf') as [<- _]; [rewrite <- app_assoc; congruence|rewrite byte_len_app; lia|].
  rewrite E1 in Hlf. apply lf_only_app in Hlf. destruct Hlf as [Hp Hu]. apply lf_only_app in Hu. destruct Hu as [Hu _].
  unfold true_position. rewrite (pos_from_app pre) by exact Hp. apply pos_from_line. exact Hu.
Qed.
Lemma lf_position js o p c t b : lf_only js -> at_offset js o p -> slice js o b = Some (c :: t) -> c <> LF ->
  item_position (get_lines js) o = Some p.
Proof.
  intros Hlf (pre & suf & E & <- & ->) Hs Hc. apply slice_inv in Hs. destruct Hs as (p1 & s1 & E1 & L1 & _).
  destruct (same_prefix p1 ((c :: t) ++ s1) pre suf) as [-> E2]; [congruence|lia|]. rewrite E in *. apply item_position_true.
  - intros a d E3. exfalso. rewrite E3 in Hlf. apply lf_only_app in Hlf. destruct Hlf as [_ H]. inversion H as [|? ? [Hd _] _]; congruence.
  - rewrite <- E2. cbn. split; [|exact Hc]. rewrite <- E2 in Hlf. apply lf_only_app in Hlf. destruct Hlf as [_ H].
    inversion H as [|? ? [Hd _] _]. exact Hd.
Qed.

(** ** Where the parser is among the scanner's items *)
Definition placed (js : text) (items : list raw) (s : state) : Prop :=
  scan_ok js s /\ exists l r, items = l ++ r :: st_rest s /\ st_look s = r_item r
    /\ (is_eof (it_tok (st_look s)) = false -> st_nl s = r_nl r)
    /\ (lf_only js -> at_offset js (it_start (r_item r)) (st_look_pos s)).

Lemma next_item_loop_split g : forall rest sp s i s', next_item_loop g rest sp s = (Ok i, s') ->
  (exists c r, rest = c ++ r :: st_rest s' /\ st_look s' = r_item r /\ st_nl s' = r_nl r)
  \/ is_eof (it_tok (st_look s)) = true /\ only_comments rest.
Proof.
  induction rest as [|r rest IH]; intros sp s i s'; cbn [next_item_loop].
  - destruct (is_eof (it_tok (st_look s))) eqn:E; [|discriminate]. destruct (st_found_eof s); [discriminate|].
    intros _. right. split; [reflexivity|constructor].
  - destruct (update_positions _ _ _ _ _) as [[cur lpos]|]; [|discriminate].
    destruct (it_tok (r_item r)) eqn:Et.
    11:{ destruct (slice _ _ _) as [t|]; [|discriminate]. intros H. apply IH in H. cbn [st_look] in H.
         destruct H as [(c' & r' & E1 & E2)|[H1 H2]]; [|right; split; [exact H1|constructor; [rewrite Et; reflexivity|exact H2]]].
         left. exists (r :: c'), r'. split; [cbn; rewrite E1; reflexivity|exact E2]. }
    all: intros H; inversion H; subst; left; exists [], r; repeat split.
Qed.

Lemma next_item_placed g items s r s' : next_item g s = (r, s') -> placed (g_stream g) items s -> placed (g_stream g) items s'.
Proof.
  intros E (Hs & l & x & E1 & E2 & E3 & E4).
  destruct (next_item_scan g s Hs) as (s2 & S2 & Hr). rewrite E in Hr.
  destruct (is_eof (it_tok (st_look s))) eqn:Eo.
  - destruct Hs as (_ & _ & _ & Hs). rewrite Eo in Hs. unfold next_item in E. rewrite Hs in *. cbn [next_item_loop] in E. rewrite Eo in E.
    assert (Es : st_look s' = st_look s /\ st_look_pos s' = st_look_pos s /\ st_rest s' = [] /\ s' = s2).
    { destruct (st_found_eof s); inversion E; subst; cbn; destruct Hr as [Hr|(Hr & _)]; inversion Hr; subst; auto. }
    destruct Es as (F1 & F2 & F3 & ->). split; [exact S2|]. exists l, x. rewrite F1, F2, F3. repeat split; auto. congruence.
  - destruct Hr as [Hr|(_ & _ & Hr)]; [|congruence]. inversion Hr; subst r s2. clear Hr. split; [exact S2|].
    assert (Ps : lf_only (g_stream g) -> positions_ok (g_stream g) (mkRaw (st_look s) (st_nl s) :: st_rest s) s').
    { intros Hlf. destruct Hs as (H1 & H2 & H3 & H4). rewrite Eo in H4.
      pose proof (next_item_loop_positions g (mkRaw (st_look s) (st_nl s) :: st_rest s) Hlf (st_rest s) (it_start (st_look s), it_end (st_look s)) s
        [mkRaw (st_look s) (st_nl s)] eq_refl eq_refl eq_refl) as P. unfold next_item in E. rewrite E in P. apply P; auto.
      - cbn [fst]. rewrite E2. apply E4. exact Hlf.
      - apply H1.
      - apply H1. }
    unfold next_item in E. destruct (next_item_loop_split _ _ _ _ _ _ E) as [(c & y & F1 & F2 & F3)|[F1 _]]; [|congruence].
    exists (l ++ x :: c), y. split; [rewrite E1, F1, <- app_assoc; reflexivity|]. split; [exact F2|]. split; [auto|].
    intros Hlf. destruct (Ps Hlf) as (l3 & y3 & G1 & G2 & G3 & _). rewrite <- F2, G2. exact G3.
Qed.
Lemma exec_placed g items B (o : op B) s r s' : exec g o s = (r, s') -> placed (g_stream g) items s -> placed (g_stream g) items s'.
Proof.
  pose proof (fun r t => next_item_placed g items s r t) as Hn.
  intros H. destruct o; cbn -[next_item] in H;
    repeat match type of H with
           | context [match ?x with _ => _ end] => destruct x eqn:?
           end; try (inversion H; subst; auto; eapply Hn; eauto; fail).
Qed.
Lemma run_placed g items n B (p : P B) s r s' : run (@body) g n p s = (r, s') -> placed (g_stream g) items s -> placed (g_stream g) items s'.
Proof.
  eapply (run_rel _ (@body) g (fun a b => placed (g_stream g) items a -> placed (g_stream g) items b)); auto.
  intros. eapply exec_placed; eauto.
Qed.
Lemma start_placed sc tolerant module js i s : scan_contract js (sc_scan sc js) ->
  start (make_cfg sc tolerant module js) (sc_scan sc js) = (Ok i, s) -> placed js (sc_scan sc js) s.
Proof.
  intros Hc E. set (g := make_cfg sc tolerant module js) in *.
  destruct (start_scan sc tolerant module js Hc) as (i' & s2 & E' & S' & _). fold g in E'. rewrite E in E'. inversion E'; subst i' s2.
  split; [exact S'|]. destruct Hc as (C1 & C2 & C3). unfold start, next_item in E.
  assert (Hne : sc_scan sc js <> []) by (intros H0; rewrite H0 in C3; destruct C3).
  change (next_item_loop g (sc_scan sc js) (0, 0) (initial_state (sc_scan sc js)) = (Ok i, s)) in E.
  assert (Ps : lf_only js -> positions_ok js (sc_scan sc js) s).
  { intros Hlf. pose proof (next_item_loop_positions g (sc_scan sc js) Hlf (sc_scan sc js) (0, 0)
                  (initial_state (sc_scan sc js)) [] eq_refl eq_refl eq_refl) as P.
    rewrite E in P. apply P; auto; exists [], js; auto. }
  destruct (next_item_loop_split _ _ _ _ _ _ E) as [(c & y & F1 & F2 & F3)|[_ F1]].
  - exists c, y. split; [exact F1|]. split; [exact F2|]. split; [auto|].
    intros Hlf. destruct (Ps Hlf) as (l3 & y3 & G1 & G2 & G3 & _). rewrite <- F2, G2. exact G3.
  - exfalso. clear - C3 F1. induction F1 as [|r rest H F IH]; [destruct C3|]. destruct rest as [|r2 rest].
    + cbn in C3. destruct (it_tok (r_item r)); discriminate.
    + apply IH. apply C3.
Qed.
