(** What a well-behaved scanner yields, and what [next_item] then does. *)
From Verif Require Export Term Lines.

(** ** The contract *)

(** [o] is a [char] boundary of [js]. *)
Definition boundary (js : text) (o : nat) : Prop :=
  exists pre suf, js = pre ++ suf /\ byte_len pre = o.

(** The text of a token has the delimiters of its kind. *)
Definition delimited (t : token) (w : text) : Prop :=
  match t with
  | TRegEx => exists b f, w = [47%N] ++ b ++ [47%N] ++ f                    (* /b/f *)
  | TTemplate THead => exists b, w = [96%N] ++ b ++ [36%N; 123%N]          (* `b${ *)
  | TTemplate TBody => exists b, w = [125%N] ++ b ++ [36%N; 123%N]         (* }b${ *)
  | TTemplate TTail => exists b, w = [125%N] ++ b ++ [96%N]                 (* }b` *)
  | TTemplate TNoSub => exists b, w = [96%N] ++ b ++ [96%N]                 (* `b` *)
  | _ => True
  end.

Definition well_formed (js : text) (i : item) : Prop :=
  boundary js (it_start i) /\ boundary js (it_end i) /\ it_start i <= it_end i /\
  forall w, slice js (it_start i) (it_end i) = Some w -> delimited (it_tok i) w.

(** In order, without overlap, starting at or after offset [e]. *)
Fixpoint in_order (e : nat) (l : list raw) : Prop :=
  match l with
  | [] => True
  | r :: l' => e <= it_start (r_item r) /\ in_order (it_end (r_item r)) l'
  end.

(** The end-of-file token comes last and only last. *)
Fixpoint ends_with_eof (l : list raw) : Prop :=
  match l with
  | [] => False
  | [r] => is_eof (it_tok (r_item r)) = true
  | r :: l' => is_eof (it_tok (r_item r)) = false /\ ends_with_eof l'
  end.

Definition scan_contract (js : text) (items : list raw) : Prop :=
  Forall (fun r => well_formed js (r_item r)) items /\ in_order 0 items /\ ends_with_eof items.

(** ** Slices between boundaries *)
Lemma prefix_split (p1 s1 p2 s2 : text) : p1 ++ s1 = p2 ++ s2 -> byte_len p1 <= byte_len p2 ->
  exists u, p2 = p1 ++ u.
Proof.
  revert p2. induction p1 as [|c p1 IH]; intros p2 E H; [exists p2; auto|].
  destruct p2 as [|d p2].
  - cbn in H. pose proof (len_utf8_pos c). lia.
  - cbn in E. inversion E; subst. cbn [byte_len] in H. destruct (IH p2) as [u ->]; auto; [lia|]. exists u. auto.
Qed.

Lemma boundary_slice js a b : boundary js a -> boundary js b -> a <= b ->
  exists pre u suf, js = pre ++ u ++ suf /\ byte_len pre = a /\ byte_len pre + byte_len u = b
    /\ slice js a b = Some u.
Proof.
  intros (p1 & s1 & E1 & <-) (p2 & s2 & E2 & <-) H.
  destruct (prefix_split p1 s1 p2 s2) as [u ->]; [congruence|exact H|].
  exists p1, u, s2. rewrite byte_len_app. rewrite E2 at 1 2.
  rewrite <- app_assoc. repeat split; auto. apply slice_app.
Qed.

Lemma count_nl_app a b : count_nl (a ++ b) = count_nl a + count_nl b.
Proof. unfold count_nl. rewrite filter_app, app_length. reflexivity. Qed.

Lemma count_crlf_le t : count_crlf t <= count_nl t.
Proof.
  induction t as [|c [|d t] IH]; try (cbn; lia).
  change (count_crlf (c :: d :: t)) with ((if N.eqb c CR && N.eqb d LF then 1 else 0) + count_crlf (d :: t)).
  change (count_nl (c :: d :: t)) with (count_nl ([c] ++ (d :: t))). rewrite count_nl_app.
  destruct (N.eqb c CR && N.eqb d LF) eqn:E; [|lia].
  apply andb_true_iff in E. destruct E as [E _]. apply N.eqb_eq in E. subst c.
  change (count_nl [CR]) with 1. lia.
Qed.

Lemma update_positions_some js a b c p :
  boundary js a -> boundary js b -> boundary js c -> a <= b -> b <= c ->
  exists q, update_positions js a b c p = Some (p, q).
Proof.
  intros Ha Hb Hc H1 H2. unfold update_positions.
  destruct (boundary_slice js a c Ha Hc) as (p1 & u & s1 & E1 & L1 & L1' & ->); [lia|].
  destruct (boundary_slice js b c Hb Hc) as (p2 & w & s2 & E2 & L2 & L2' & ->); [lia|].
  assert (count_crlf w <= count_nl u) as Hle.
  { destruct (prefix_split p1 (u ++ s1) p2 (w ++ s2)) as [v ->]; [congruence|lia|].
    assert (Hu : u ++ s1 = v ++ w ++ s2).
    { rewrite E1 in E2. rewrite <- app_assoc in E2. apply app_inv_head in E2. exact E2. }
    rewrite byte_len_app in L2, L2'.
    assert (Hu' : u ++ s1 = (v ++ w) ++ s2) by (rewrite <- app_assoc; exact Hu).
    assert (u = v ++ w) as ->.
    { destruct (prefix_split u s1 (v ++ w) s2 Hu') as [x Hx]; [rewrite byte_len_app; lia|].
      rewrite Hx.
      assert (byte_len (v ++ w) = byte_len u + byte_len x) by (rewrite Hx, byte_len_app; lia).
      rewrite byte_len_app in H. destruct x as [|y x]; [rewrite app_nil_r; auto|].
      cbn [byte_len] in *. pose proof (len_utf8_pos y). lia. }
    rewrite count_nl_app. pose proof (count_crlf_le w). lia. }
  destruct (count_nl u <? count_crlf w) eqn:E; [apply Nat.ltb_lt in E; lia|].
  destruct (_ =? 0); eauto.
Qed.

(** ** Invariant of a parser on such a scanner *)
Definition scan_ok (js : text) (s : state) : Prop :=
  well_formed js (st_look s) /\ Forall (fun r => well_formed js (r_item r)) (st_rest s) /\
  in_order (it_end (st_look s)) (st_rest s) /\
  (if is_eof (it_tok (st_look s)) then st_rest s = [] else ends_with_eof (st_rest s)).

Lemma next_item_loop_scan g : forall rest sp s,
  st_rest s = rest ->
  boundary (g_stream g) (fst sp) -> boundary (g_stream g) (snd sp) -> fst sp <= snd sp ->
  Forall (fun r => well_formed (g_stream g) (r_item r)) rest -> in_order (snd sp) rest ->
  ends_with_eof rest ->
  exists s', next_item_loop g rest sp s = (Ok (st_look s), s') /\ scan_ok (g_stream g) s'
    /\ st_found_eof s' = st_found_eof s.
Proof.
  induction rest as [|r rest IH]; intros sp s Hr B1 B2 Hle Hw Ho He; [destruct He|].
  cbn [next_item_loop]. inversion Hw as [|? ? Hr1 Hw']; subst. destruct Hr1 as (R1 & R2 & R3 & R4).
  destruct Ho as [Ho1 Ho2].
  destruct (update_positions_some (g_stream g) (fst sp) (snd sp) (it_start (r_item r)) (st_look_pos s))
    as [q ->]; auto.
  assert (Hend : is_comment (it_tok (r_item r)) = false ->
    scan_ok (g_stream g) (mkState (st_ctx s) (r_item r) (st_found_eof s) (st_look_pos s) q rest (r_nl r) (st_comments s))).
  { intros _. unfold scan_ok. cbn [st_look st_rest]. repeat split; auto.
    destruct rest as [|r' rest].
    - cbn in He. rewrite He. reflexivity.
    - destruct He as [He1 He2]. rewrite He1. exact He2. }
  assert (Hcm : is_comment (it_tok (r_item r)) = true -> ends_with_eof rest).
  { intros Hc. destruct rest as [|r' rest].
    - cbn in He. destruct (it_tok (r_item r)); discriminate.
    - destruct He as [_ He]. exact He. }
  destruct (it_tok (r_item r)) eqn:Ht;
    try (eexists; split; [reflexivity|split; [apply Hend; reflexivity|reflexivity]]).
  destruct (boundary_slice (g_stream g) _ _ R1 R2 R3) as (? & u & ? & _ & _ & _ & ->).
  match goal with |- context [next_item_loop g rest ?sp' ?s'] =>
    destruct (IH sp' s') as (s2 & E2 & H2 & H3) end; cbn; auto.
  exists s2. auto.
Qed.

(** The three things [next_item] can do. *)
Lemma next_item_scan g s : scan_ok (g_stream g) s ->
  exists s', scan_ok (g_stream g) s' /\
    (next_item g s = (Ok (st_look s), s') \/
     (next_item g s = (Err ParseAfterEoF, s') /\ st_found_eof s = true
      /\ is_eof (it_tok (st_look s)) = true)).
Proof.
  intros (H1 & H2 & H3 & H4). destruct H1 as (W1 & W2 & W3 & W4).
  unfold next_item. destruct (is_eof (it_tok (st_look s))) eqn:E.
  - rewrite H4. cbn [next_item_loop]. rewrite E.
    destruct (st_found_eof s) eqn:F; eexists; (split; [|(left; reflexivity) || (right; repeat split; reflexivity)]).
    all: unfold scan_ok; cbn [st_look st_rest]; rewrite E; repeat split; auto.
  - destruct (next_item_loop_scan g (st_rest s) (it_start (st_look s), it_end (st_look s)) s) as (s' & E' & S' & _); auto.
    exists s'. auto.
Qed.

Lemma start_scan sc tolerant module js : scan_contract js (sc_scan sc js) ->
  exists i s, start (make_cfg sc tolerant module js) (sc_scan sc js) = (Ok i, s) /\ scan_ok js s
    /\ st_found_eof s = false.
Proof.
  intros (H1 & H2 & H3). unfold start, next_item.
  destruct (next_item_loop_scan (make_cfg sc tolerant module js) (sc_scan sc js) (0, 0) (initial_state (sc_scan sc js)))
    as (s' & E' & S' & F'); auto.
  - exists [], js. auto.
  - exists [], js. auto.
  - eexists _, s'. split; [exact E'|]. split; auto.
Qed.

Lemma scan_ok_upd js f s : scan_ok js s -> scan_ok js (upd_ctx f s).
Proof. exact (fun H => H). Qed.

(** The text of a token. *)
Lemma well_formed_slice js i : well_formed js i ->
  exists w, slice js (it_start i) (it_end i) = Some w /\ delimited (it_tok i) w.
Proof.
  intros (H1 & H2 & H3 & H4). destruct (boundary_slice js _ _ H1 H2 H3) as (? & u & ? & _ & _ & _ & E).
  eauto.
Qed.
