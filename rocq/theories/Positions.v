(** The running positions [current_position] and [look_ahead_position]. *)
From Verif Require Export Scan.

(** The only line terminator of [t] is LF. *)
Definition lf_only (t : text) : Prop := Forall (fun c => c <> CR /\ c <> LS /\ c <> PS) t.

(** [p] is the true position of byte offset [o] of [js]. *)
Definition at_offset (js : text) (o : nat) (p : position) : Prop :=
  exists pre suf, js = pre ++ suf /\ byte_len pre = o /\ p = true_position pre.

Lemma lf_only_app a b : lf_only (a ++ b) <-> lf_only a /\ lf_only b.
Proof. apply Forall_app. Qed.

Lemma lf_nl c : c <> CR /\ c <> LS /\ c <> PS -> is_nl c = N.eqb c LF.
Proof.
  intros (H1 & H2 & H3). apply N.eqb_neq in H1, H2, H3. unfold is_nl. rewrite H1, H2, H3.
  rewrite !orb_false_r. reflexivity.
Qed.

Lemma pos_from_cons line col c t : c <> CR ->
  pos_from line col (c :: t) = if is_nl c then pos_from (line + 1) 0 t else pos_from line (col + len_utf8 c) t.
Proof.
  intros H. apply N.eqb_neq in H. cbn [pos_from]. rewrite H. cbn [andb]. destruct (is_nl c); auto.
  destruct t; reflexivity.
Qed.

Lemma pos_from_app a : forall line col b, lf_only a ->
  pos_from line col (a ++ b) = pos_from (p_line (pos_from line col a)) (p_col (pos_from line col a)) b.
Proof.
  induction a as [|c a IH]; intros line col b H; [reflexivity|].
  inversion H as [|? ? Hc Ha]; subst. cbn [app]. rewrite !pos_from_cons by apply Hc.
  destruct (is_nl c); apply IH; exact Ha.
Qed.

Lemma last_opt_cons {A} (x : A) l : last_opt (x :: l) = match last_opt l with Some y => Some y | None => Some x end.
Proof.
  destruct l as [|y l]; auto. cbn [last_opt]. f_equal. revert x y.
  induction l as [|a l IH]; intros x y; [reflexivity|].
  change (last (a :: l) x = last (a :: l) y). rewrite !IH. reflexivity.
Qed.

Lemma count_nl_cons c t : count_nl (c :: t) = (if is_nl c then 1 else 0) + count_nl t.
Proof. unfold count_nl. cbn. destruct (is_nl c); reflexivity. Qed.

Lemma pos_from_line t : forall line col, lf_only t -> p_line (pos_from line col t) = line + count_nl t.
Proof.
  induction t as [|c t IH]; intros line col H; [cbn; lia|].
  inversion H as [|? ? Hc Ha]; subst. rewrite pos_from_cons, count_nl_cons by apply Hc.
  destruct (is_nl c); rewrite IH by exact Ha; lia.
Qed.

Lemma pos_from_ends_nl t : forall line col c, lf_only t -> last_opt t = Some c -> is_nl c = true ->
  p_col (pos_from line col t) = 0.
Proof.
  induction t as [|d t IH]; intros line col c H Hl Hc; [discriminate|].
  inversion H as [|? ? Hd Ha]; subst. rewrite pos_from_cons by apply Hd.
  rewrite last_opt_cons in Hl. destruct t as [|e t].
  - cbn in Hl. inversion Hl; subst. rewrite Hc. reflexivity.
  - destruct (last_opt (e :: t)) as [y|] eqn:E; [|rewrite last_opt_cons in E; destruct (last_opt t); discriminate].
    inversion Hl; subst. destruct (is_nl d); eapply IH; eauto.
Qed.

Lemma pos_from_last_line t : forall line col cur c, lf_only t -> last_opt t = Some c -> is_nl c = false ->
  exists L, last_opt (str_lines_aux cur t) = Some L /\
    (if count_nl t =? 0
     then L = rev cur ++ t /\ p_col (pos_from line col t) = col + byte_len t
     else p_col (pos_from line col t) = byte_len L).
Proof.
  induction t as [|d t IH]; intros line col cur c H Hl Hc; [discriminate|].
  inversion H as [|? ? Hd Ha]; subst. rewrite pos_from_cons by apply Hd.
  pose proof (lf_nl d Hd) as Hnl.
  destruct t as [|e t].
  - cbn in Hl. inversion Hl; subst. cbn [str_lines_aux]. rewrite count_nl_cons, Hc. rewrite <- Hnl, Hc.
    eexists. split; [reflexivity|]. cbn. split; [reflexivity|lia].
  - rewrite last_opt_cons in Hl.
    destruct (last_opt (e :: t)) as [y|] eqn:E; [|rewrite last_opt_cons in E; destruct (last_opt t); discriminate].
    inversion Hl; subst. rewrite count_nl_cons. cbn [str_lines_aux] in *. rewrite <- Hnl.
    destruct (is_nl d) eqn:En.
    + destruct (IH (line + 1) 0 [] c Ha eq_refl Hc) as (L & HL & HP). exists L.
      rewrite last_opt_cons. fold (str_lines_aux [] (e :: t)) in HL |- *. cbn [str_lines_aux] in HL |- *. rewrite HL.
      split; auto. cbn [Nat.add Nat.eqb]. destruct (count_nl (e :: t) =? 0); auto.
      destruct HP as [-> ->]. cbn. lia.
    + destruct (IH line (col + len_utf8 d) (d :: cur) c Ha eq_refl Hc) as (L & HL & HP).
      exists L. cbn [str_lines_aux] in HL. rewrite HL. split; auto. cbn [Nat.add].
      destruct (count_nl (e :: t) =? 0); auto. destruct HP as [-> ->]. cbn [rev]. rewrite <- app_assoc. cbn [byte_len app].
      split; auto. lia.
Qed.

Lemma no_crlf t : lf_only t -> count_crlf t = 0.
Proof.
  induction t as [|c [|d t] IH]; intros H; auto.
  change (count_crlf (c :: d :: t)) with ((if N.eqb c CR && N.eqb d LF then 1 else 0) + count_crlf (d :: t)).
  inversion H as [|? ? Hc Ha]; subst. rewrite IH by exact Ha. destruct Hc as [Hc _].
  apply N.eqb_neq in Hc. rewrite Hc. reflexivity.
Qed.

Lemma at_offset_boundary js o p : at_offset js o p -> boundary js o.
Proof. intros (pre & suf & H1 & H2 & _). exists pre, suf. auto. Qed.

Lemma update_positions_lf js a b c p : lf_only js ->
  at_offset js a p -> boundary js b -> boundary js c -> a <= b -> b <= c ->
  exists q, update_positions js a b c p = Some (p, q) /\ at_offset js c q.
Proof.
  intros Hlf (pre & suf & E & L & ->) Hb Hc H1 H2.
  assert (Ha : boundary js a) by (exists pre, suf; auto).
  unfold update_positions.
  destruct (boundary_slice js a c Ha Hc) as (p1 & u & s1 & E1 & L1 & L1' & ->); [lia|].
  destruct (boundary_slice js b c Hb Hc) as (p2 & w & s2 & E2 & L2 & L2' & ->); [lia|].
  assert (p1 = pre) as ->.
  { destruct (prefix_split p1 (u ++ s1) pre suf) as [x Hx]; [congruence|lia|].
    assert (byte_len pre = byte_len p1 + byte_len x) by (rewrite Hx, byte_len_app; reflexivity).
    destruct x as [|y x]; [rewrite Hx, app_nil_r; auto|]. cbn [byte_len] in *.
    pose proof (len_utf8_pos y). lia. }
  assert (Hlf' := Hlf). rewrite E1 in Hlf'. apply lf_only_app in Hlf'. destruct Hlf' as [Hp Hlf'].
  apply lf_only_app in Hlf'. destruct Hlf' as [Hu _].
  assert (Hw : lf_only w).
  { rewrite E2 in Hlf. apply lf_only_app in Hlf. destruct Hlf as [_ Hlf]. apply lf_only_app in Hlf. tauto. }
  rewrite (no_crlf w Hw). rewrite Nat.sub_0_r. replace (count_nl u <? 0) with false by reflexivity.
  assert (Hq : forall q, q = pos_from (p_line (true_position pre)) (p_col (true_position pre)) u ->
               at_offset js c q).
  { intros q ->. exists (pre ++ u), s1. rewrite <- app_assoc, byte_len_app. repeat split; auto.
    unfold true_position. rewrite (pos_from_app pre) by exact Hp. reflexivity. }
  set (P := true_position pre) in *.
  assert (Hline := pos_from_line u (p_line P) (p_col P) Hu).
  destruct (count_nl u =? 0) eqn:E0.
  - eexists. split; [reflexivity|]. apply Hq. apply Nat.eqb_eq in E0.
    destruct (last_opt u) as [ch|] eqn:El.
    + destruct (is_nl ch) eqn:En.
      * exfalso. clear - E0 El En. induction u as [|d u IH]; [discriminate|].
        rewrite count_nl_cons in E0. rewrite last_opt_cons in El.
        destruct (last_opt u) as [y|] eqn:Eu.
        -- inversion El; subst. apply IH; auto. lia.
        -- inversion El; subst. rewrite En in E0. lia.
      * destruct (pos_from_last_line u (p_line P) (p_col P) [] ch Hu El En) as (Lst & _ & HP).
        rewrite E0 in HP. cbn in HP. destruct HP as [_ HP].
        destruct (pos_from _ _ u) as [l' c'] eqn:Epos. cbn in *. f_equal; lia.
    + destruct u as [|d u]; [|rewrite last_opt_cons in El; destruct (last_opt u); discriminate].
      cbn. f_equal; lia.
  - eexists. split; [reflexivity|]. apply Hq. apply Nat.eqb_neq in E0.
    destruct (pos_from (p_line P) (p_col P) u) as [l' c'] eqn:Epos. cbn [p_line] in Hline. subst l'. f_equal.
    destruct (last_opt u) as [ch|] eqn:El.
    + destruct (is_nl ch) eqn:En.
      * pose proof (pos_from_ends_nl u (p_line P) (p_col P) ch Hu El En) as HP. rewrite Epos in HP. cbn in HP.
        destruct (last_opt (str_lines u)); auto.
      * destruct (pos_from_last_line u (p_line P) (p_col P) [] ch Hu El En) as (Lst & HL & HP).
        unfold str_lines. rewrite HL. apply Nat.eqb_neq in E0. rewrite E0, Epos in HP. cbn in HP. auto.
    + destruct u as [|d u]; [cbn in E0; lia|rewrite last_opt_cons in El; destruct (last_opt u); discriminate].
Qed.

(** ** The invariant *)
Definition last_offset (l : list raw) : nat :=
  match last_opt l with Some r => it_start (r_item r) | None => 0 end.

(** [l]: scanned before the look-ahead. *)
Definition positions_ok (js : text) (items : list raw) (s : state) : Prop :=
  exists l r, items = l ++ r :: st_rest s /\ st_look s = r_item r
    /\ at_offset js (it_start (r_item r)) (st_look_pos s)
    /\ at_offset js (last_offset l) (st_cur_pos s).

Lemma last_offset_snoc l r : last_offset (l ++ [r]) = it_start (r_item r).
Proof.
  unfold last_offset. induction l as [|x l IH]; [reflexivity|]. cbn [app]. rewrite last_opt_cons.
  destruct (last_opt (l ++ [r])) eqn:E; [exact IH|].
  destruct l; cbn in E; discriminate.
Qed.

Lemma next_item_loop_positions g items : lf_only (g_stream g) ->
  forall rest sp s l,
  st_rest s = rest -> items = l ++ rest ->
  fst sp = last_offset l ->
  at_offset (g_stream g) (fst sp) (st_look_pos s) -> boundary (g_stream g) (snd sp) -> fst sp <= snd sp ->
  Forall (fun r => well_formed (g_stream g) (r_item r)) rest -> in_order (snd sp) rest ->
  ends_with_eof rest ->
  positions_ok (g_stream g) items (snd (next_item_loop g rest sp s)).
Proof.
  intros Hlf. induction rest as [|r rest IH]; intros sp s l Hr Hi Hsp B1 B2 Hle Hw Ho He; [destruct He|].
  cbn [next_item_loop]. inversion Hw as [|? ? Hr1 Hw']; subst. destruct Hr1 as (R1 & R2 & R3 & R4).
  destruct Ho as [Ho1 Ho2].
  destruct (update_positions_lf (g_stream g) (fst sp) (snd sp) (it_start (r_item r)) (st_look_pos s))
    as (q & -> & Hq); auto.
  assert (Hcm : is_comment (it_tok (r_item r)) = true -> ends_with_eof rest).
  { intros Hc. destruct rest as [|r' rest].
    - cbn in He. destruct (it_tok (r_item r)); discriminate.
    - destruct He as [_ He]. exact He. }
  destruct (it_tok (r_item r)) eqn:Ht;
    try (exists l, r; cbn [snd st_rest st_look st_look_pos st_cur_pos]; repeat split; auto; rewrite <- Hsp; exact B1).
  destruct (boundary_slice (g_stream g) _ _ R1 R2 R3) as (? & u & ? & _ & _ & _ & ->).
  apply (IH _ _ (l ++ [r])); cbn; auto.
  - rewrite <- app_assoc. reflexivity.
  - rewrite last_offset_snoc. reflexivity.
Qed.

Lemma next_item_positions g items s : lf_only (g_stream g) ->
  scan_ok (g_stream g) s -> positions_ok (g_stream g) items s ->
  positions_ok (g_stream g) items (snd (next_item g s)).
Proof.
  intros Hlf (H1 & H2 & H3 & H4) (l & r & E & L & P1 & P2). unfold next_item.
  destruct (is_eof (it_tok (st_look s))) eqn:Eo.
  - rewrite H4 in *. cbn [next_item_loop]. rewrite Eo.
    destruct (st_found_eof s); exists l, r; cbn [snd st_rest st_look st_look_pos st_cur_pos]; auto.
  - eapply (next_item_loop_positions g items Hlf _ _ s (l ++ [r])); cbn [fst snd]; auto.
    + rewrite <- app_assoc. exact E.
    + rewrite last_offset_snoc, L. reflexivity.
    + rewrite L. exact P1.
    + apply H1.
    + apply H1.
Qed.

Definition pos_inv (js : text) (items : list raw) (s : state) : Prop :=
  scan_ok js s /\ positions_ok js items s.

Lemma next_item_pos_inv g items s r s' : lf_only (g_stream g) -> next_item g s = (r, s') ->
  pos_inv (g_stream g) items s -> pos_inv (g_stream g) items s'.
Proof.
  intros Hlf E [H1 H2]. pose proof (next_item_positions g items s Hlf H1 H2) as P. rewrite E in P. split; auto.
  destruct (next_item_scan g s H1) as (s2 & S2 & [E2|[E2 _]]); rewrite E in E2; inversion E2; subst; auto.
Qed.

Lemma exec_pos_inv g items B (o : op B) s r s' : lf_only (g_stream g) -> exec g o s = (r, s') ->
  pos_inv (g_stream g) items s -> pos_inv (g_stream g) items s'.
Proof.
  intros Hlf. pose proof (fun r t => next_item_pos_inv g items s r t Hlf) as Hn.
  intros H. destruct o; cbn -[next_item] in H;
    repeat match type of H with
           | context [match ?x with _ => _ end] => destruct x eqn:?
           end; try (inversion H; subst; auto; eapply Hn; eauto; fail).
Qed.

Lemma reachable_positions sc tolerant module js s :
  let g := make_cfg sc tolerant module js in
  lf_only js -> scan_contract js (sc_scan sc js) -> reachable g (sc_scan sc js) s ->
  pos_inv js (sc_scan sc js) s.
Proof.
  intros g Hlf Hc H. induction H as [i s H|s n r s' H IH H1].
  - destruct (start_scan sc tolerant module js Hc) as (i' & s2 & E & S & _). fold g in E.
    rewrite H in E. inversion E; subst. split; auto.
    unfold start, next_item in H. destruct Hc as (C1 & C2 & C3).
    pose proof (next_item_loop_positions g (sc_scan sc js) Hlf (sc_scan sc js) (0, 0)
                  (initial_state (sc_scan sc js)) [] eq_refl eq_refl eq_refl) as P.
    change (next_item_loop g (sc_scan sc js) (0, 0) (initial_state (sc_scan sc js)) = (Ok i', s2)) in H.
    rewrite H in P. apply P; auto.
    + exists [], js. auto.
    + exists [], js. auto.
  - unfold iter_next in H1. destruct (is_eof _); [inversion H1; subst; auto|].
    destruct (run_call bd g n CNextPart s) as [o t] eqn:Er. inversion H1; subst.
    revert IH. change js with (g_stream g) at 1 3.
    eapply (run_call_rel _ bd g (fun a b => pos_inv (g_stream g) (sc_scan sc js) a -> pos_inv (g_stream g) (sc_scan sc js) b)); eauto.
    intros. eapply exec_pos_inv; eauto.
Qed.
