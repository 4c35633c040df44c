(** A text and the text of another parser's items between an opening and a closing token: the parser of the
    second, after the opening token, compared with the parser of the first. *)
From Verif Require Import Lexer Spec Runs Scan Async Same Ended.
From Verif Require Import Properties24.
Local Open Scope list_scope.
Local Open Scope nat_scope.

(** The items up to the closing one, and the end of the text in its place. *)
Definition end_for (t : raw) : raw := mkRaw (mkItem TEoF (it_start (r_item t)) (it_start (r_item t))) (r_nl t).
Lemma in_order_cut : forall l e t more, in_order e (l ++ t :: more) -> in_order e (l ++ [end_for t]).
Proof.
  induction l as [|x l IH]; intros e t more H; cbn [app in_order] in *.
  - destruct H as [H _]. split; [exact H|exact Logic.I].
  - destruct H as [H1 H2]. split; [exact H1|]. eapply IH; eauto.
Qed.
Lemma slice_nil js a : boundary js a -> slice js a a = Some [].
Proof.
  intros B. destruct (boundary_slice js a a B B) as (p & u & q & E & L1 & L2 & S); [lia|]. rewrite S.
  destruct u as [|c u]; [reflexivity|]. cbn [byte_len] in L2. pose proof (len_utf8_pos c). lia.
Qed.
Lemma end_well_formed js t : well_formed js (r_item t) -> well_formed js (r_item (end_for t)).
Proof. intros (B & _). split; [exact B|]. split; [exact B|]. split; [apply Nat.le_refl|]. intros w _. exact Logic.I. Qed.
Lemma ends_cut : forall l t, Forall (fun x => is_eof (it_tok (r_item x)) = false) l -> ends_with_eof (l ++ [end_for t]).
Proof.
  induction l as [|x l IH]; intros t H; [reflexivity|]. inversion H; subst. cbn [app ends_with_eof].
  destruct (l ++ [end_for t]) eqn:E; [destruct l; discriminate E|]. split; [assumption|]. rewrite <- E. apply IH. assumption.
Qed.
Lemma ends_inner : forall l t more, ends_with_eof (l ++ t :: more) -> more <> [] -> Forall (fun x => is_eof (it_tok (r_item x)) = false) (l ++ [t]).
Proof.
  induction l as [|x l IH]; intros t more H N; cbn [app ends_with_eof] in *.
  - destruct more; [contradiction|]. constructor; [apply H|constructor].
  - destruct (l ++ t :: more) eqn:E; [destruct l; discriminate E|]. destruct H as [H1 H2]. constructor; [exact H1|]. apply (IH t more); [rewrite E; exact H2|exact N].
Qed.

Definition marks (lax : bool) (l : list (token * option text * bool)) := map (fun x => match x with (t, w, b) => (t, w, mark lax t b) end) l.
Lemma marks_app lax a b : marks lax (a ++ b) = marks lax a ++ marks lax b.
Proof. apply map_app. Qed.
Lemma fresh_before sc tolerant module js lax i s : scan_contract js (sc_scan sc js) -> start (make_cfg sc tolerant module js) (sc_scan sc js) = (Ok i, s) ->
  Same.before lax js s = marks lax (signs sc js) /\ st_ctx s = default_ctx /\ st_found_eof s = false /\ is_comment (it_tok (st_look s)) = false.
Proof.
  assert (M : map (raw_sign lax js) (filter nc (sc_scan sc js)) = marks lax (signs sc js)).
  { unfold signs, marks. rewrite map_map. reflexivity. }
  intros C E. unfold start, next_item in E. assert (Hn : filter nc (sc_scan sc js) <> []) by (apply ends_not_comments; apply C).
  apply (loop_before lax) in E; [|right; exact Hn]. change (g_stream (make_cfg sc tolerant module js)) with js in E.
  destruct E as (E & Ec & Ef). change (st_rest (initial_state (sc_scan sc js))) with (sc_scan sc js) in E. rewrite M in E. split; [exact E|]. split; [exact Ec|]. split; [exact Ef|].
  rewrite <- M in E. unfold Same.before in E. destruct (filter nc (sc_scan sc js)) as [|r q] eqn:Er; [congruence|].
  cbn [map] in E. inversion E as [[T1 T2 T3 T4]]. rewrite T1. assert (Ir : In r (filter nc (sc_scan sc js))) by (rewrite Er; left; reflexivity).
  apply filter_In in Ir. destruct Ir as [_ Ir]. unfold nc in Ir. apply negb_true_iff in Ir. exact Ir.
Qed.
Lemma split_signs A (f : raw -> A) : forall rest a x b, map f (filter nc rest) = a ++ x :: b ->
  exists l r more, rest = l ++ r :: more /\ map f (filter nc l) = a /\ f r = x /\ map f (filter nc more) = b /\ nc r = true.
Proof.
  induction rest as [|y rest IH]; intros a x b H; [destruct a; discriminate H|]. cbn [filter] in H. destruct (nc y) eqn:Ey.
  - destruct a as [|z a]; cbn [map app] in H; injection H as Ez H.
    + exists [], y, rest. repeat split; auto.
    + destruct (IH a x b H) as (l & r & more & -> & E1 & E2 & E3 & E4). exists (y :: l), r, more. split; [reflexivity|].
      split; [cbn [filter]; rewrite Ey; cbn [map]; rewrite Ez, E1; reflexivity|]. auto.
  - destruct (IH a x b H) as (l & r & more & -> & E1 & E2 & E3 & E4). exists (y :: l), r, more. split; [reflexivity|].
    split; [cbn [filter]; rewrite Ey; exact E1|]. auto.
Qed.
Lemma csame_refl c : csame c c.
Proof. destruct c. reflexivity. Qed.
Lemma mark_not_end lax t b : is_eof t = false -> mark lax t b = b.
Proof. intros H. unfold mark. rewrite H, andb_false_r. apply andb_true_r. Qed.

(** Before the closing token. *)
Definition cut_items (items fab : list raw) (t : raw) : Prop := exists pre more, items = pre ++ t :: more /\ fab = pre ++ [end_for t].
Section Two.
  Variables (sc : scanner) (module : bool) (js1 js2 : text).
  Notation g1 := (make_cfg sc false module js1).
  Notation g2 := (make_cfg sc false module js2).
  Variables (op cl : token) (m : list (token * option text * bool)) (b b0 b1 b2 : bool) (w0 w1 w2 : option text).
  Hypothesis C1 : scan_contract js1 (sc_scan sc js1).
  Hypothesis C2 : scan_contract js2 (sc_scan sc js2).
  Hypothesis S1 : signs sc js1 = m ++ [(TEoF, Some [], b)].
  Hypothesis S2 : signs sc js2 = (op, w0, b0) :: m ++ [(cl, w1, b1); (TEoF, w2, b2)].
  Hypothesis open_not_end : is_eof op = false.
  Hypothesis close_not_end : is_eof cl = false.
  Variable lax : bool.
  Hypothesis strictly : lax = false -> b = b1.
  Hypothesis laxly : lax = true -> forall w x, ~ In (TKeyword KYield, w, x) m.

  Lemma enclosed_related i1 s i2 t0 : start g1 (sc_scan sc js1) = (Ok i1, s) -> start g2 (sc_scan sc js2) = (Ok i2, t0) ->
    exists t1 u t more fab, it_tok (st_look t0) = op /\ slice js2 (it_start (st_look t0)) (it_end (st_look t0)) = w0
      /\ next_item g2 t0 = (Ok (st_look t0), t1) /\ placed js2 (sc_scan sc js2) t1
      /\ st_ctx t0 = default_ctx /\ st_ctx t1 = default_ctx
      /\ instead (end_for t) t more u t1 /\ it_tok (r_item t) = cl /\ slice js2 (it_start (r_item t)) (it_end (r_item t)) = w1 /\ well_formed js2 (r_item t)
      /\ map (raw_sign lax js2) (filter nc more) = [(TEoF, w2, mark lax TEoF b2)]
      /\ cut_items (sc_scan sc js2) fab t /\ Rs g1 g2 (sc_scan sc js1) fab lax s u.
  Proof.
    intros E1 E2.
    destruct (fresh_before sc false module js1 lax i1 s C1 E1) as (B1 & X1 & F1 & N1).
    destruct (fresh_before sc false module js2 lax i2 t0 C2 E2) as (B2 & X2 & F2 & N2).
    pose proof (start_placed sc false module js1 i1 s C1 E1) as P1. pose proof (start_placed sc false module js2 i2 t0 C2 E2) as P2.
    rewrite S2 in B2. cbn [marks map] in B2. fold (marks lax (m ++ [(cl, w1, b1); (TEoF, w2, b2)])) in B2. rewrite marks_app in B2.
    assert (L0 : it_tok (st_look t0) = op) by (unfold Same.before, sign in B2; injection B2 as -> _ _ _; reflexivity).
    assert (L1 : slice js2 (it_start (st_look t0)) (it_end (st_look t0)) = w0) by (unfold Same.before, sign in B2; injection B2 as _ -> _ _; reflexivity).
    destruct (Same.next_before lax g2 t0 (proj1 P2)) as (t1 & Nx & B3 & X3 & F3); [rewrite L0; exact open_not_end|].
    change (g_stream g2) with js2 in B3. rewrite B2 in B3. cbn [tl] in B3. rewrite F2 in F3.
    pose proof (next_item_placed g2 (sc_scan sc js2) t0 _ t1 Nx P2) as P3. change (g_stream g2) with js2 in P3.
    assert (Fm : forall x, In x (signs sc js1) -> unyielding lax x).
    { intros x Hx Hl. rewrite S1 in Hx. apply in_app_or in Hx as [Hx|[<-|[]]]; [|discriminate]. destruct x as [[t w] y]. cbn. intros ->. exact (laxly Hl w y Hx). }
    assert (U : Forall (unyielding lax) (Same.before lax js1 s)).
    { rewrite B1. apply Forall_forall. intros x Hx. unfold marks in Hx. apply in_map_iff in Hx as ([[t w] y] & <- & Hx). exact (Fm _ Hx). }
    assert (K : mark lax TEoF b = mark lax TEoF b1).
    { unfold mark. destruct lax eqn:El; [rewrite !andb_false_r; reflexivity|]. rewrite (strictly eq_refl). reflexivity. }
    pose proof P3 as ((W1 & W2 & W3 & W4) & l0 & r & I1 & I2 & I3 & I4).
    rewrite S1, marks_app in B1. destruct m as [|[[tx wx] bx] m'].
    - (* nothing between the two *)
      cbn [marks map app] in B1, B3. unfold Same.before, sign in B3. cbn [map] in B3. injection B3 as T3 T4 T5 T6.
      rewrite (mark_not_end _ cl b1) in T5 by assumption. rewrite T3, close_not_end in I3. specialize (I3 eq_refl).
      rewrite mark_not_end in T5 by (rewrite T3; assumption).
      rewrite I2 in *. set (u := mkState (st_ctx t1) (r_item (end_for r)) false (st_cur_pos t1) (st_look_pos t1) [] (st_nl t1) (st_comments t1)).
      exists t1, u, r, (st_rest t1), (l0 ++ [end_for r]).
      assert (B : boundary js2 (it_start (r_item r))) by apply W1.
      repeat (split; [first [assumption|congruence]|]).
      split. { assert (Q : mkState (st_ctx t1) (r_item r) false (st_cur_pos t1) (st_look_pos t1) (st_rest t1) (st_nl t1) (st_comments t1) = t1)
          by (rewrite <- I2, <- F3; destruct t1; reflexivity). refine (eq_ind _ (fun z => instead _ _ _ u z) _ _ Q). apply there. }
      split; [exact T3|]. split; [exact T4|]. split; [exact W1|]. split; [exact T6|].
      split; [exists l0, (st_rest t1); split; [exact I1|reflexivity]|].
      split; [cbn [u st_ctx]; rewrite X1, X3, X2; apply csame_refl|]. split; [cbn [u st_found_eof]; exact F1|].
      change (g_stream g1) with js1. change (g_stream g2) with js2.
      split; [|split; [exact U|split; [exact N1|split; [exact P1|]]]].
      + rewrite B1. unfold Same.before, sign. cbn [u st_look st_rest st_nl filter map end_for r_item it_tok it_start it_end marks]. rewrite (slice_nil _ _ B), T5, K. reflexivity.
      + split; [split; [exact (end_well_formed _ _ W1)|split; [constructor|split; [exact Logic.I|reflexivity]]]|].
        exists l0, (end_for r). split; [reflexivity|]. split; [reflexivity|]. split; [discriminate|exact I4].
    - cbn [marks map app] in B1, B3. fold (marks lax m') in B1, B3. unfold Same.before, sign in B3. cbn [map] in B3. injection B3 as T3 T4 T5 T6.
      destruct (split_signs _ _ _ _ _ _ T6) as (l & t & more & Er & El & Et & Em & Nt). unfold raw_sign, sign in Et. injection Et as Et1 Et2 Et3.
      rewrite (mark_not_end _ cl b1) in Et3 by assumption. rewrite mark_not_end in Et3 by (rewrite Et1; assumption).
      assert (NL : is_eof (it_tok (st_look t1)) = false).
      { destruct (is_eof (it_tok (st_look t1))) eqn:X; [|reflexivity]. rewrite W4 in Er. destruct l; discriminate Er. }
      rewrite NL in W4. rewrite Er in W2, W3, W4.
      assert (Nm : more <> []) by (intros ->; discriminate Em).
      pose proof (ends_inner l t more W4 Nm) as Hi. apply Forall_app in Hi as [Hi _]. apply Forall_app in W2 as [W2 W5]. inversion W5 as [|? ? W6 W7]; subst.
      assert (B : boundary js2 (it_start (r_item t))) by apply W6.
      set (u := mkState (st_ctx t1) (st_look t1) false (st_cur_pos t1) (st_look_pos t1) (l ++ [end_for t]) (st_nl t1) (st_comments t1)).
      exists t1, u, t, more, (l0 ++ r :: l ++ [end_for t]).
      repeat (split; [first [assumption|congruence|reflexivity]|]).
      split. { assert (Q : mkState (st_ctx t1) (st_look t1) false (st_cur_pos t1) (st_look_pos t1) (l ++ t :: more) (st_nl t1) (st_comments t1) = t1)
          by (rewrite <- Er, <- F3; destruct t1; reflexivity). refine (eq_ind _ (fun z => instead _ _ _ u z) _ _ Q). apply ahead; [intros X; rewrite X in NL; discriminate NL|].
          eapply Forall_impl; [|exact Hi]. cbn. intros x Hx X. rewrite X in Hx. discriminate Hx. }
      split; [reflexivity|]. split; [reflexivity|]. split; [exact W6|]. split; [exact Em|].
      split; [exists (l0 ++ r :: l), more; rewrite <- !app_assoc; cbn [app]; split; [rewrite I1, Er; reflexivity|reflexivity]|].
      split; [cbn [u st_ctx]; rewrite X1, X3, X2; apply csame_refl|]. split; [cbn [u st_found_eof]; exact F1|].
      change (g_stream g1) with js1. change (g_stream g2) with js2.
      split; [|split; [exact U|split; [exact N1|split; [exact P1|]]]].
      + rewrite B1. unfold Same.before, sign. cbn [u st_look st_rest st_nl]. rewrite filter_app, map_app, El.
        cbn [filter nc end_for r_item it_tok is_comment negb map raw_sign sign it_start it_end r_nl]. unfold raw_sign, sign. cbn [r_item end_for it_tok it_start it_end r_nl].
        rewrite (slice_nil _ _ B), K, T5. cbn [app marks map]. reflexivity.
      + split; [split; [exact W1|split; [apply Forall_app; split; [exact W2|constructor; [exact (end_well_formed _ _ W6)|constructor]]|split; [exact (in_order_cut _ _ _ _ W3)|cbn [u st_look st_rest]; rewrite NL; apply ends_cut; exact Hi]]]|].
        exists l0, r. split; [reflexivity|]. split; [exact I2|]. split; [exact I3|exact I4].
  Qed.
End Two.
