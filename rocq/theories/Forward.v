(** Running the parser forwards: what a program does when the tokens before it are known. *)
From Verif Require Export Async Scan Api Subset.
Export Parser.

(** The parts of the context the parser decides by, and restores. *)
Definition view_of (c : ctx) : view :=
  mkView (c_allow_in c) (c_allow_yield c) (c_await c) (c_in_function_body c) (c_label_set c) (c_strict c) (c_past_prolog c).

Section Forward.
  Variable g : cfg.
  Notation js := (g_stream g).

  Definition evs {A} (p : P A) (s : state) (Q : A -> state -> Prop) : Prop :=
    exists n a s', run (@body) g n p s = (Ok a, s') /\ Q a s'.

  Lemma evs_ret A (a : A) s (Q : A -> state -> Prop) : Q a s -> evs (Ret a) s Q.
  Proof. intros H. exists 0, a, s. auto. Qed.
  Lemma evs_mono A (p : P A) s (Q Q' : A -> state -> Prop) :
    (forall a s', Q a s' -> Q' a s') -> evs p s Q -> evs p s Q'.
  Proof. intros H (n & a & s' & E & HQ). exists n, a, s'. auto. Qed.
  Lemma run_up n n' A (p : P A) s a s' : n <= n' -> run (@body) g n p s = (Ok a, s') ->
    run (@body) g n' p s = (Ok a, s').
  Proof. intros Hle E. eapply run_mono; [exact Hle|exact E|discriminate]. Qed.
  Lemma evs_bind A B (p : P A) (k : A -> P B) s (Q : B -> state -> Prop) :
    evs p s (fun a s' => evs (k a) s' Q) -> evs (Bind p k) s Q.
  Proof.
    intros (n & a & s1 & E & n2 & b & s2 & E2 & H). exists (n + n2), b, s2. split; [|exact H].
    apply (run_up n (n + n2)) in E; [|lia]. apply (run_up n2 (n + n2)) in E2; [|lia].
    unfold run in *. cbn [run_in]. rewrite E. exact E2.
  Qed.
  Lemma evs_call B (c : call B) s (Q : B -> state -> Prop) : evs (body c) s Q -> evs (Call c) s Q.
  Proof.
    intros (n & a & s1 & E & H). exists (S n), a, s1. split; [|exact H].
    unfold run in *. cbn [run_in run_call]. exact E.
  Qed.
  Lemma evs_loop A X (x : X) (b : X -> P (X + A)) s (Q : A -> state -> Prop) :
    evs (b x) s (fun r s' => match r with inl y => evs (Loop y b) s' Q | inr a => Q a s' end) ->
    evs (Loop x b) s Q.
  Proof.
    intros (n & [y|a] & s1 & E & H).
    - destruct H as (n2 & a & s2 & E2 & H). exists (S (n + n2)), a, s2. split; [|exact H].
      apply (run_up n (S (n + n2))) in E; [|lia].
      unfold run in *. cbn [run_in] in *. cbn [iter]. rewrite E.
      eapply iter_mono; [|idtac|exact E2|discriminate]; [|lia].
      intros y' t o t' Ho Hn. apply (run_mono _ (@body) g n2 (S (n + n2)) _ (b y') t o t'); [lia|exact Ho|exact Hn].
    - exists (S n), a, s1. split; [|exact H].
      apply (run_up n (S n)) in E; [|lia]. unfold run in *. cbn [run_in iter]. rewrite E. reflexivity.
  Qed.

  (** ** Where a parser is *)
  Definition lined (s : state) : Prop := g_lines g = get_lines js /\ exists items, async_ok js items /\ placed js items s.
  Definition At (s : state) (l : list tk) (k : ctx) : Prop :=
    toks js s = l /\ st_ctx s = k /\ scan_ok js s /\ Forall quiet l /\ lined s.

  Lemma at_look s l k : At s l k -> it_tok (st_look s) = hd_tok l /\ text_of js (st_look s) = hd_text l.
  Proof. intros (<- & _). split; reflexivity. Qed.
  Lemma at_word s l k w : At s l k -> hd_tok l <> TIdent -> In (str w) quiet_words ->
    text_eqb (hd_text l) (str w) = false.
  Proof.
    intros (<- & _ & _ & H & _) Hn Hi. inversion H as [|? ? [[H1|H1] _] _]; subst; [contradiction|].
    destruct (text_eqb _ _) eqn:E; [|reflexivity]. apply text_eqb_eq in E. destruct H1. cbn [hd_text toks] in E.
    rewrite E. exact Hi.
  Qed.
  Lemma at_calm s l k : At s l k -> calm l -> text_eqb (hd_text l) (str "async") = false.
  Proof.
    intros A Hc. assert (D : hd_tok l = TIdent \/ hd_tok l <> TIdent) by (destruct (hd_tok l); auto; right; discriminate).
    destruct D as [D|D]; [|eapply at_word; [exact A|exact D|cbn; auto]].
    destruct (text_eqb _ _) eqn:E; [|reflexivity]. apply text_eqb_eq in E. destruct (Hc D E).
  Qed.

  Lemma at_extends s l k p : At s l k -> hd_tok l = TPunct p -> text_eqb (hd_text l) (str "extends") = false.
  Proof.
    intros (<- & _ & _ & H & _) Hn. inversion H as [|? ? (_ & H1) _]; subst.
    destruct (text_eqb _ _) eqn:E; [|reflexivity]. apply text_eqb_eq in E. destruct (H1 p Hn E).
  Qed.

  (** ** Primitive steps *)
  Lemma evs_do B (o : op B) s b s' (Q : B -> state -> Prop) : exec g o s = (Ok b, s') -> Q b s' -> evs (Do o) s Q.
  Proof. intros E H. exists 0, b, s'. auto. Qed.

  Lemma next_item_at s x l k : l <> [] -> At s (x :: l) k ->
    exists s', next_item g s = (Ok (st_look s), s') /\ At s' l k.
  Proof.
    intros Hl (Ht & Hc & Hs & Hq & Hg & items & Ha & Hp).
    assert (He : is_eof (it_tok (st_look s)) = false).
    { destruct Hs as (_ & _ & _ & He). destruct (is_eof (it_tok (st_look s))); [|reflexivity].
      exfalso. apply Hl. unfold toks in Ht. rewrite He in Ht. cbn in Ht. inversion Ht. reflexivity. }
    destruct (next_item_scan g s Hs) as (s' & S' & [E|(_ & _ & E)]); [|congruence].
    exists s'. split; [exact E|].
    pose proof E as E'. unfold next_item in E'. apply next_item_loop_ok in E'; [|reflexivity].
    destruct E' as (_ & E1 & [(r & E2 & _ & E4 & E5 & _)|(_ & _ & _ & _ & _ & E7)]); [|congruence].
    inversion Hq; subst. split; [|split; [congruence|split; [exact S'|split; [assumption|split; [exact Hg|]]]]].
    2:{ exists items. split; [exact Ha|]. eapply next_item_placed; eauto. }
    unfold toks in Ht |- *. rewrite E2 in Ht. cbn [map] in Ht. inversion Ht. rewrite E4, E5. reflexivity.
  Qed.

  (** An item spelled [w]. *)
  Definition spelt (i : item) (w : text) : Prop := slice js (it_start i) (it_end i) = Some w.
  Lemma spelt_text i w : spelt i w -> text_of js i = w.
  Proof. unfold spelt, text_of. intros ->. reflexivity. Qed.
  Lemma look_spelt s l k : At s l k -> spelt (st_look s) (hd_text l).
  Proof.
    intros H. destruct (at_look _ _ _ H) as [_ E]. destruct H as (_ & _ & Hs & _).
    destruct (well_formed_slice js (st_look s) (proj1 Hs)) as (w & E1 & _).
    unfold spelt. unfold text_of in E. rewrite E1 in *. congruence.
  Qed.

  Lemma evs_next s l l' k t (Q : item -> state -> Prop) : At s l k -> reads t l l' ->
    (forall i s', At s' l' k -> it_tok i = t -> spelt i (hd_text l) -> Q i s') -> evs next s Q.
  Proof.
    intros Ha Hr H. pose proof (look_spelt _ _ _ Ha) as Hw. destruct (at_look _ _ _ Ha) as [Ht _].
    pose proof (reads_hd _ _ _ Hr) as Hh.
    destruct Hr as (Hn & w & b & ->). destruct (next_item_at s _ _ _ Hn Ha) as (s' & E & A').
    eapply evs_do; [exact E|]. apply H; auto; congruence.
  Qed.
  Lemma evs_next_ignored s l l' k t (Q : unit -> state -> Prop) : At s l k -> reads t l l' ->
    (forall s', At s' l' k -> Q tt s') -> evs (Do ONextIgnored) s Q.
  Proof.
    intros Ha Hr H. destruct Hr as (Hn & w & b & ->). destruct (next_item_at s _ _ _ Hn Ha) as (s' & E & A').
    eapply evs_do; [cbn [exec]; rewrite E; reflexivity|]. apply H. exact A'.
  Qed.
  Lemma evs_look s l k (Q : item -> state -> Prop) : At s l k ->
    (forall i, it_tok i = hd_tok l -> spelt i (hd_text l) -> Q i s) -> evs look s Q.
  Proof.
    intros Ha H. eapply evs_do; [reflexivity|]. apply H; [apply (at_look _ _ _ Ha)|eapply look_spelt; eauto].
  Qed.
  Lemma evs_look_tok s l k (Q : token -> state -> Prop) : At s l k -> Q (hd_tok l) s -> evs look_tok s Q.
  Proof.
    intros Ha H. apply evs_bind. eapply evs_look; [exact Ha|]. intros i E _. apply evs_ret. rewrite E. exact H.
  Qed.
  Lemma evs_at_punct s l k p (Q : bool -> state -> Prop) : At s l k -> Q (is_punct p (hd_tok l)) s -> evs (at_punct p) s Q.
  Proof. intros Ha H. apply evs_bind. eapply evs_look_tok; [exact Ha|]. apply evs_ret. exact H. Qed.
  Lemma evs_at_keyword s l k p (Q : bool -> state -> Prop) : At s l k -> Q (is_keyword p (hd_tok l)) s -> evs (at_keyword p) s Q.
  Proof. intros Ha H. apply evs_bind. eapply evs_look_tok; [exact Ha|]. apply evs_ret. exact H. Qed.
  Lemma evs_stream_at s i w (Q : text -> state -> Prop) : spelt i w -> Q w s -> evs (stream_at i) s Q.
  Proof. intros E H. apply evs_bind. eapply evs_do; [reflexivity|]. rewrite E. apply evs_ret. exact H. Qed.
  Lemma evs_get_string s i w (Q : text -> state -> Prop) : spelt i w -> Q w s -> evs (get_string i) s Q.
  Proof. intros E H. apply evs_bind. eapply evs_do; [reflexivity|]. rewrite E. apply evs_ret. exact H. Qed.
  Lemma evs_string_or_empty s i w (Q : text -> state -> Prop) : spelt i w -> Q w s -> evs (string_or_empty i) s Q.
  Proof. intros E H. apply evs_bind. eapply evs_do; [reflexivity|]. rewrite E. apply evs_ret. exact H. Qed.
  Lemma evs_str s i w (Q : option text -> state -> Prop) : spelt i w -> Q (Some w) s -> evs (Do (OStr i)) s Q.
  Proof. intros E H. eapply evs_do; [reflexivity|]. rewrite E. exact H. Qed.
  Lemma evs_at_contextual s l k w (Q : bool -> state -> Prop) : At s l k ->
    Q (text_eqb (hd_text l) (str w)) s -> evs (at_contextual w) s Q.
  Proof.
    intros Ha H. apply evs_bind. eapply evs_look; [exact Ha|]. intros i _ E. apply evs_bind.
    eapply evs_stream_at; [exact E|]. apply evs_ret. exact H.
  Qed.
  (** A function is asynchronous if the word stands before it on the same line. *)
  Lemma filter_split (c : list raw) f q : filter nc c = f :: q -> exists m rest, c = m ++ f :: rest /\ only_comments m /\ filter nc rest = q.
  Proof.
    induction c as [|x c IH]; cbn [filter]; [discriminate|]. unfold nc at 1. destruct (is_comment (it_tok (r_item x))) eqn:E; cbn [negb].
    - intros H. destruct (IH H) as (m & rest & -> & Hm & Hr). exists (x :: m), rest. split; [reflexivity|]. split; [constructor; assumption|exact Hr].
    - intros H. inversion H; subst. exists [], c. split; [reflexivity|]. split; [constructor|reflexivity].
  Qed.
  Lemma evs_at_async_function s l k (Q : bool -> state -> Prop) : At s l k -> plain_start l -> Q false s -> evs at_async_function s Q.
  Proof.
    intros Ha Hp H. apply evs_bind. eapply evs_at_contextual; [exact Ha|].
    destruct (text_eqb (hd_text l) (str "async")) eqn:E; [|apply evs_ret; exact H].
    destruct Hp as [Hp|Hp]; [rewrite (at_calm _ _ _ Ha Hp) in E; discriminate|].
    apply evs_bind. eapply evs_do; [reflexivity|]. destruct Ha as (<- & _). unfold toks in Hp. cbn [tl] in Hp.
    unfold peek_raw. destruct (st_rest s) as [|r rest]; [apply evs_ret; exact H|].
    apply evs_bind. eapply evs_do; [reflexivity|]. apply evs_bind. eapply evs_do; [reflexivity|].
    apply evs_ret. replace (is_keyword KFunction (it_tok (r_item r))) with false; [rewrite andb_false_r; exact H|].
    symmetry. destruct (is_keyword KFunction (it_tok (r_item r))) eqn:K; [|reflexivity]. apply is_keyword_tok in K. destruct Hp.
    cbn [filter]. unfold nc at 1. rewrite K. cbn. exact K.
  Qed.
  Lemma evs_async_function s l l' k (Q : bool -> state -> Prop) : At s l k -> function_mark true l l' -> Q true s -> evs at_async_function s Q.
  Proof.
    intros Ha (l1 & R & Hn & R1) H. apply evs_bind. eapply evs_at_contextual; [exact Ha|].
    destruct (reads_as_hd _ _ _ _ R) as [Ht Hw]. rewrite Hw. change (text_eqb (str "async") (str "async")) with true. cbn iota.
    apply evs_bind. eapply evs_do; [reflexivity|].
    destruct Ha as (<- & _ & _ & _ & Hg & items & Hok & (Hs & l0 & r & E1 & E2 & _ & E4)).
    assert (Es : exists f q, filter nc (st_rest s) = f :: q /\ it_tok (r_item f) = TKeyword KFunction /\ r_nl f = false).
    { destruct R as (N1 & b & E). unfold toks in E. inversion E as [[X1 X2 X3 X4]]. subst l1. clear E.
      destruct R1 as (N2 & w & b1 & E). destruct (filter nc (st_rest s)) as [|f q]; [discriminate|]. exists f, q. split; [reflexivity|].
      cbn [map] in E. inversion E as [[Y1 Y2 Y3 Y4]]. split; [reflexivity|].
      cbn in Hn. rewrite Y1 in Hn. cbn in Hn. rewrite andb_true_r in Hn. exact Hn. }
    destruct Es as (f & q & Ef & Kf & Nf). destruct (filter_split _ _ _ Ef) as (m & rest & Er & Hm & _).
    assert (Hx : text_of js (r_item r) = str "async").
    { rewrite <- E2. exact Hw. }
    rewrite Er in E1. destruct (Hok l0 r m f rest E1 Hx) as (Hlf & _ & Hsame).
    destruct (Hsame Hm) as (Hno & Hf); [rewrite Kf; reflexivity|exact Nf|]. destruct (Hf Kf) as [-> Hft]. cbn [app] in Er.
    unfold peek_raw. rewrite Er. apply evs_bind. eapply evs_do; [reflexivity|]. apply evs_bind. eapply evs_do; [reflexivity|].
    apply evs_ret. rewrite Kf. change (is_keyword KFunction (TKeyword KFunction)) with true. rewrite andb_true_r.
    destruct Hs as (W1 & W2 & W3 & _). rewrite Er in W2, W3. inversion W2 as [|? ? Wf _]; subst. destruct W3 as [W3 _].
    destruct W1 as (B1 & B2 & B3 & _). pose proof Wf as (C1 & C2 & C3 & _).
    destruct (boundary_slice js (it_start (st_look s)) (it_start (r_item f)) B1 C1) as (p0 & u & s0 & F1 & F2 & F3 & Fu); [lia|].
    destruct (well_formed_slice js (r_item f) Wf) as (wf & Ew & _). unfold text_of in Hft. rewrite Ew in Hft. subst wf.
    assert (Of : at_offset js (it_start (r_item f)) (true_position (p0 ++ u))).
    { exists (p0 ++ u), s0. rewrite <- app_assoc, byte_len_app. repeat split; auto. }
    rewrite <- E2 in E4.
    pose proof (offset_lines js _ _ _ _ u Hlf (E4 Hlf) Of Fu) as Hl.
    assert (Hu : count_nl u = 0).
    { apply lf_count_0; [|intros HL; apply Hno; exists u; rewrite <- E2; auto].
      rewrite F1 in Hlf. apply lf_only_app in Hlf. destruct Hlf as [_ Hlf]. apply lf_only_app in Hlf. tauto. }
    unfold item_pos. rewrite Hg, (lf_position js _ _ _ _ _ Hlf Of Ew) by discriminate. rewrite Hl, Hu, Nat.add_0_r, Nat.eqb_refl. exact H.
  Qed.
  (** The line of a later place is another one. *)
  Lemma evs_placed B (p : P B) s (Q : B -> state -> Prop) items : placed js items s -> evs p s Q -> evs p s (fun a s' => Q a s' /\ placed js items s').
  Proof. intros Hp (n & a & s' & E & HQ). exists n, a, s'. split; [exact E|]. split; [exact HQ|]. eapply run_placed; eauto. Qed.
  Lemma later_rest (l0 : list raw) r a l2 f b : l0 ++ r :: a = l2 ++ f :: b -> length (filter nc b) < length (filter nc a) ->
    exists m, a = m ++ f :: b.
  Proof.
    intros F1 Hlen. destruct (app_eq_app _ _ _ _ F1) as (x & [[X1 X2]|[X1 X2]]).
    - destruct x as [|y x].
      + cbn in X2. inversion X2 as [[Y1 Y2]]. subst. lia.
      + cbn in X2. inversion X2 as [[Y1 Y2]]. rewrite Y2, filter_app, app_length in Hlen. cbn in Hlen. destruct (nc r); cbn in Hlen; lia.
    - destruct x as [|y x].
      + cbn in X2. inversion X2 as [[Y1 Y2]]. subst. lia.
      + cbn in X2. inversion X2 as [[Y1 Y2]]. exists x. reflexivity.
  Qed.
  Lemma later_line js items s s' l l' : async_ok js items -> placed js items s -> placed js items s' -> toks js s = l -> toks js s' = l' ->
    hd_text l = str "async" -> length l' < length l -> newline l' = true -> p_line (st_look_pos s') <> p_line (st_look_pos s).
  Proof.
    intros Hok ((W1 & _) & l0 & r & E1 & E2 & _ & E4) ((W2 & _) & l2 & f & F1 & F2 & F3 & F4) <- <- Hw Hlen Hn.
    unfold toks in Hlen. cbn [length] in Hlen. rewrite !map_length in Hlen.
    assert (Hn' : is_eof (it_tok (st_look s')) = false /\ st_nl s' = true).
    { cbn in Hn. apply andb_true_iff in Hn. destruct Hn as [N1 N2]. apply negb_true_iff in N2. auto. }
    destruct Hn' as [N1 N2]. rewrite (F3 N1) in N2.
    rewrite E1 in F1. destruct (later_rest _ _ _ _ _ _ F1 ltac:(lia)) as (m & Es). rewrite Es in E1.
    assert (Hx : text_of js (r_item r) = str "async") by (rewrite <- E2; exact Hw).
    destruct (Hok l0 r m f (st_rest s') E1 Hx) as (Hlf & Hlater & _). destruct (Hlater N2) as (u & Hu & HL).
    pose proof (offset_lines js _ _ _ _ u Hlf (E4 Hlf) (F4 Hlf) Hu) as Hl. apply lf_count in HL; [lia|].
    apply slice_inv in Hu. destruct Hu as (p0 & s0 & G1 & _). rewrite G1 in Hlf. apply lf_only_app in Hlf. destruct Hlf as [_ Hlf].
    apply lf_only_app in Hlf. tauto.
  Qed.
  (** The line of the next place is the same. *)
  Lemma same_line js items s s' l l' : async_ok js items -> placed js items s -> placed js items s' -> toks js s = l -> toks js s' = l' ->
    reads_as TIdent (str "async") l l' -> newline l' = false -> is_eof (hd_tok l') = false -> is_comment (hd_tok l') = false ->
    p_line (st_look_pos s') = p_line (st_look_pos s).
  Proof.
    intros Hok ((W1 & W2 & W3 & _) & l0 & r & E1 & E2 & _ & E4) (_ & l2 & f & F1 & F2 & F3 & F4) <- <- R Hn He Hc.
    destruct (reads_as_hd _ _ _ _ R) as [_ Hw]. destruct R as (_ & b & R).
    assert (Hlen : length (toks js s) = Datatypes.S (length (toks js s'))) by (rewrite R; reflexivity).
    unfold toks in Hlen. cbn [length] in Hlen. rewrite !map_length in Hlen.
    assert (N2 : st_nl s' = false). { cbn in Hn, He. rewrite He in Hn. cbn [negb] in Hn. rewrite andb_true_r in Hn. exact Hn. }
    rewrite (F3 He) in N2. cbn in Hc. rewrite F2 in Hc.
    rewrite E1 in F1. destruct (later_rest _ _ _ _ _ _ F1 ltac:(lia)) as (m & Es). rewrite Es in E1.
    assert (Hm : only_comments m).
    { rewrite Es, filter_app, app_length in Hlen. cbn [filter] in Hlen. unfold nc at 2 in Hlen. rewrite Hc in Hlen. cbn in Hlen.
      clear - Hlen. assert (Z : length (filter nc m) = 0) by lia. clear Hlen. induction m as [|x m IH]; [constructor|]. cbn in Z. unfold nc at 1 in Z.
      destruct (is_comment (it_tok (r_item x))) eqn:E; cbn in Z; [constructor; [exact E|apply IH; exact Z]|discriminate]. }
    assert (Hx : text_of js (r_item r) = str "async") by (rewrite <- E2; exact Hw).
    destruct (Hok l0 r m f (st_rest s') E1 Hx) as (Hlf & _ & Hsame). destruct (Hsame Hm Hc N2) as [Hno _].
    rewrite Es in W2, W3. apply Forall_app in W2. destruct W2 as [Wm W2]. inversion W2 as [|? ? Wf _]; subst.
    destruct W1 as (B1 & B2 & B3 & _). pose proof Wf as (C1 & C2 & C3 & _).
    destruct (boundary_slice js (it_start (st_look s)) (it_start (r_item f)) B1 C1) as (p0 & u & s0 & G1 & G2 & G3 & Gu).
    { assert (O : forall e x, Forall (fun r => well_formed js (r_item r)) x -> in_order e (x ++ f :: st_rest s') -> e <= it_start (r_item f)).
      { intros e x. revert e. induction x as [|y x IH]; intros e Hw9 H; cbn in H; destruct H as [H1 H2]; [exact H1|].
        inversion Hw9 as [|? ? (_ & _ & H3 & _) Hw9']; subst. specialize (IH _ Hw9' H2). lia. }
      specialize (O _ _ Wm W3). lia. }
    rewrite E2 in *. rewrite (offset_lines js _ _ _ _ u Hlf (E4 Hlf) (F4 Hlf) Gu).
    assert (Hu : count_nl u = 0); [|lia].
    apply lf_count_0; [|intros HL; apply Hno; exists u; auto].
    rewrite G1 in Hlf. apply lf_only_app in Hlf. destruct Hlf as [_ Hlf]. apply lf_only_app in Hlf. tauto.
  Qed.
  Lemma evs_peekskip s l k (Q : option item -> state -> Prop) : At s l k ->
    (forall o, match o with Some i => it_tok i | None => TEoF end = hd_tok (tl l) -> Q o s) -> evs (Do OPeekSkip) s Q.
  Proof.
    intros (<- & _) H. eapply evs_do; [reflexivity|]. apply H. unfold toks. cbn [tl].
    induction (st_rest s) as [|r rest IH]; [reflexivity|].
    cbn [first_non_comment filter]. unfold nc at 1. destruct (is_comment (it_tok (r_item r))); [exact IH|reflexivity].
  Qed.
  Lemma evs_newline s l k (Q : bool -> state -> Prop) : At s l k ->
    (forall b, b = newline l \/ hd_tok l = TEoF -> Q b s) -> evs (Do ONewLine) s Q.
  Proof.
    intros (<- & _) H. eapply evs_do; [reflexivity|]. apply H. cbn.
    destruct (it_tok (st_look s)); cbn; rewrite ?andb_true_r; auto.
  Qed.
  Lemma evs_get s l k A (f : ctx -> A) (Q : A -> state -> Prop) : At s l k -> Q (f k) s -> evs (get f) s Q.
  Proof.
    intros (_ & <- & _) H. apply evs_bind. eapply evs_do; [reflexivity|]. apply evs_ret. exact H.
  Qed.
  Lemma evs_ctx s l k (Q : ctx -> state -> Prop) : At s l k -> Q k s -> evs (Do OCtx) s Q.
  Proof. intros (_ & <- & _) H. eapply evs_do; [reflexivity|]. exact H. Qed.
  Lemma evs_upd s l k f (Q : unit -> state -> Prop) : At s l k ->
    (forall s', At s' l (f k) -> Q tt s') -> evs (upd f) s Q.
  Proof.
    intros (A1 & A2 & A3 & A4 & A5) H. eapply evs_do; [reflexivity|]. apply H.
    split; [exact A1|]. split; [cbn; congruence|]. split; [exact A3|]. split; [exact A4|]. exact A5.
  Qed.
  Lemma evs_upd_placed s l k f items (Q : unit -> state -> Prop) : At s l k -> placed js items s ->
    (forall s', At s' l (f k) -> placed js items s' -> Q tt s') -> evs (upd f) s Q.
  Proof.
    intros A Hp H. eapply evs_mono; [|eapply (evs_placed _ _ _ (fun _ s' => At s' l (f k))); [exact Hp|]; eapply evs_upd; [exact A|]; intros s' A'; exact A'].
    cbn beta. intros [] s' [A' P']. apply H; assumption.
  Qed.
  Lemma evs_lookpos s (Q : position -> state -> Prop) : (forall p, Q p s) -> evs (Do OLookPos) s Q.
  Proof. intros H. eapply evs_do; [reflexivity|]. apply H. Qed.
  Lemma evs_curpos s (Q : position -> state -> Prop) : (forall p, Q p s) -> evs (Do OCurPos) s Q.
  Proof. intros H. eapply evs_do; [reflexivity|]. apply H. Qed.
  Lemma evs_query s q (Q : bool -> state -> Prop) : (forall b, Q b s) -> evs (Do (OQuery q)) s Q.
  Proof. intros H. eapply evs_do; [reflexivity|]. apply H. Qed.
  Lemma evs_restricted s t (Q : bool -> state -> Prop) : Q (g_restricted g t) s -> evs (Do (OQuery (QRestricted t))) s Q.
  Proof. intros H. eapply evs_do; [reflexivity|]. apply H. Qed.
  Lemma evs_reserved s t (Q : bool -> state -> Prop) : Q (g_strict_reserved g t) s -> evs (Do (OQuery (QStrictReserved t))) s Q.
  Proof. intros H. eapply evs_do; [reflexivity|]. apply H. Qed.
  Lemma evs_literal s t (Q : bool -> state -> Prop) : Q (g_literal g t) s -> evs (Do (OQuery (QLiteral t))) s Q.
  Proof. intros H. eapply evs_do; [reflexivity|]. apply H. Qed.
  Lemma evs_guard s d (Q : unit -> state -> Prop) : Q tt s -> evs (Do (OGuardModule (Some false) d)) s Q.
  Proof. intros H. eapply evs_do; [|exact H]. cbn. destruct (g_module g); reflexivity. Qed.
  Lemma is_punct_same p : is_punct p (TPunct p) = true.
  Proof. apply is_punct_tok. reflexivity. Qed.
  Lemma is_keyword_same p : is_keyword p (TKeyword p) = true.
  Proof. apply is_keyword_tok. reflexivity. Qed.
  Lemma evs_expect_punct s l l' k p (Q : unit -> state -> Prop) : At s l k -> reads (TPunct p) l l' ->
    (forall s', At s' l' k -> Q tt s') -> evs (expect_punct p) s Q.
  Proof.
    intros Ha Hr H. apply evs_bind. eapply evs_next; [exact Ha|exact Hr|]. intros i s' A' E _.
    rewrite E, is_punct_same. apply evs_ret. auto.
  Qed.
  Lemma evs_expect_keyword s l l' k p (Q : unit -> state -> Prop) : At s l k -> reads (TKeyword p) l l' ->
    (forall s', At s' l' k -> Q tt s') -> evs (expect_keyword p) s Q.
  Proof.
    intros Ha Hr H. apply evs_bind. eapply evs_next; [exact Ha|exact Hr|]. intros i s' A' E _.
    rewrite E, is_keyword_same. apply evs_ret. auto.
  Qed.
  Lemma evs_expect_comma s l l' k (Q : unit -> state -> Prop) : At s l k -> comma l l' ->
    (forall s', At s' l' k -> Q tt s') -> evs (Do OExpectComma) s Q.
  Proof.
    intros Ha Hr H. destruct (at_look _ _ _ Ha) as [Ht _]. pose proof (reads_hd _ _ _ Hr) as Hh.
    destruct Hr as (Hn & w & b & ->). destruct (next_item_at s _ _ _ Hn Ha) as (s' & E & A').
    eapply evs_do; [|apply H; exact A']. cbn [exec]. rewrite E, Ht, Hh. cbn. destruct (g_tolerant g); reflexivity.
  Qed.

  (** The cover-grammar flags, before and after. *)
  Definition opened (k : ctx) : ctx := set_first_covert None (set_assign_target true (set_binding_element true k)).
  Definition isolated_of (k k2 : ctx) : ctx :=
    set_first_covert (c_first_covert k) (set_assign_target (c_assign_target k) (set_binding_element (c_binding_element k) k2)).
  Definition inherited_of (k k2 : ctx) : ctx :=
    set_first_covert (match c_first_covert k with Some _ => c_first_covert k | None => c_first_covert k2 end)
      (set_assign_target (c_assign_target k2 && c_assign_target k)
        (set_binding_element (c_binding_element k2 && c_binding_element k) k2)).
  Lemma evs_get_cover s l k (Q : cover -> state -> Prop) : At s l k ->
    Q (c_binding_element k, c_assign_target k, c_first_covert k) s -> evs get_cover s Q.
  Proof. intros Ha H. apply evs_bind. eapply evs_ctx; [exact Ha|]. apply evs_ret. exact H. Qed.
  Lemma evs_isolate s l k (Q : cover -> state -> Prop) : At s l k ->
    (forall s', At s' l (opened k) -> Q (c_binding_element k, c_assign_target k, c_first_covert k) s') ->
    evs isolate_cover s Q.
  Proof.
    intros Ha H. apply evs_bind. eapply evs_get_cover; [exact Ha|]. apply evs_bind. eapply evs_upd; [exact Ha|].
    intros s' A'. apply evs_ret. apply H. exact A'.
  Qed.
  Lemma evs_isolated A (p : P A) s l k (Q : A -> state -> Prop) : At s l k ->
    (forall s1, At s1 l (opened k) -> evs p s1 (fun a s2 => exists l2 k2, At s2 l2 k2 /\
       forall s3, At s3 l2 (isolated_of k k2) -> Q a s3)) ->
    evs (isolated p) s Q.
  Proof.
    intros Ha H. apply evs_bind. eapply evs_isolate; [exact Ha|]. intros s1 A1. apply evs_bind.
    eapply evs_mono; [|apply H; exact A1]. cbn beta. intros a s2 (l2 & k2 & A2 & H2). apply evs_bind.
    eapply evs_upd; [exact A2|]. intros s3 A3. apply evs_ret. apply H2. exact A3.
  Qed.
  Lemma evs_inheriting A (p : P A) s l k (Q : A -> state -> Prop) : At s l k ->
    (forall s1, At s1 l (opened k) -> evs p s1 (fun a s2 => exists l2 k2, At s2 l2 k2 /\
       forall s3, At s3 l2 (inherited_of k k2) -> Q a s3)) ->
    evs (inheriting p) s Q.
  Proof.
    intros Ha H. apply evs_bind. eapply evs_isolate; [exact Ha|]. intros s1 A1. apply evs_bind.
    eapply evs_mono; [|apply H; exact A1]. cbn beta. intros a s2 (l2 & k2 & A2 & H2). apply evs_bind.
    eapply evs_upd; [exact A2|]. intros s3 A3. apply evs_ret. apply H2. exact A3.
  Qed.

  (** ** What a step leaves behind: the value, the tokens, the same view *)
  Definition leaves {B} (k : ctx) (l' : list tk) (F : ctx -> Prop) (v : B) : B -> state -> Prop :=
    fun v' s' => v' = v /\ exists k', At s' l' k' /\ view_of k' = view_of k /\ F k'.
  Lemma evs_then B (p : P B) s k l' F (v : B) (Q : B -> state -> Prop) : evs p s (leaves k l' F v) ->
    (forall s' k', At s' l' k' -> view_of k' = view_of k -> F k' -> Q v s') -> evs p s Q.
  Proof.
    intros E H. eapply evs_mono; [|exact E]. intros b s' (-> & k' & A' & V & HF). eapply H; eauto.
  Qed.
End Forward.

Ltac ev_known :=
  repeat match goal with
  | H : it_tok ?i = _ |- context [it_tok ?i] => rewrite H
  | H : reads ?t ?l _ |- context [hd_tok ?l] => rewrite (reads_hd _ _ _ H)
  | H : comma ?l _ |- context [hd_tok ?l] => rewrite (reads_hd _ _ _ H)
  | H : reads_as ?t ?w ?l _ |- context [hd_tok ?l] => rewrite (proj1 (reads_as_hd _ _ _ _ H))
  | H : hd_tok ?l = _ |- context [hd_tok ?l] => rewrite H
  end.
Ltac to_bool x :=
  let b := eval cbv in x in
  lazymatch b with true => idtac | false => idtac end; change x with b.
Ltac ev_bool :=
  repeat match goal with
  | |- context [is_punct ?p ?t] => to_bool constr:(is_punct p t)
  | |- context [is_keyword ?p ?t] => to_bool constr:(is_keyword p t)
  | |- context [is_ident ?t] => to_bool constr:(is_ident t)
  | |- context [is_any_keyword ?t] => to_bool constr:(is_any_keyword t)
  | |- context [is_any_punct ?t] => to_bool constr:(is_any_punct t)
  | |- context [is_number ?t] => to_bool constr:(is_number t)
  | |- context [is_string ?t] => to_bool constr:(is_string t)
  | |- context [is_bool ?t] => to_bool constr:(is_bool t)
  | |- context [is_null ?t] => to_bool constr:(is_null t)
  | |- context [is_template ?t] => to_bool constr:(is_template t)
  | |- context [is_template_head ?t] => to_bool constr:(is_template_head t)
  | |- context [is_regex ?t] => to_bool constr:(is_regex t)
  | |- context [is_eof ?t] => to_bool constr:(is_eof t)
  | |- context [assign_tok ?t] => to_bool constr:(assign_tok t)
  | |- context [qualified_prop_key ?t] => to_bool constr:(qualified_prop_key t)
  | |- context [start_of_expr ?t] => to_bool constr:(start_of_expr t)
  end; cbn [negb andb orb].
(** The next token is not the word [async]. *)
Lemma calm_other l : hd_tok l <> TIdent -> calm l.
Proof. intros H E. contradiction. Qed.
Lemma calm_reads t l l' : reads t l l' -> t <> TIdent -> calm l.
Proof. intros R H. apply calm_other. rewrite (reads_hd _ _ _ R). exact H. Qed.
Lemma calm_reads_as t w l l' : reads_as t w l l' -> t <> TIdent \/ w <> str "async" -> calm l.
Proof. intros R [H|H] E; destruct (reads_as_hd _ _ _ _ R) as [E1 E2]; congruence. Qed.
Ltac calm1 :=
  first [assumption
        |eapply calm_reads; [eassumption|discriminate]
        |eapply calm_reads_as; [eassumption|first [left; discriminate|right; first [assumption|discriminate]]]
        |apply calm_other; first [assumption|discriminate|congruence]].
Ltac not_async A := rewrite (at_calm _ _ _ _ A) by calm1.
(** One step of a program whose next token is known. *)
Ltac ev1 :=
  lazymatch goal with
  | |- evs _ (Bind _ _) _ _ => apply evs_bind
  | |- evs _ (Ret _) _ _ => apply evs_ret
  | H : At _ ?s ?l ?k |- evs _ look_tok ?s _ => eapply evs_look_tok; [exact H|]
  | H : At _ ?s ?l ?k |- evs _ (at_punct _) ?s _ => eapply evs_at_punct; [exact H|]
  | H : At _ ?s ?l ?k |- evs _ (at_keyword _) ?s _ => eapply evs_at_keyword; [exact H|]
  | H : At _ ?s ?l ?k |- evs _ (get _) ?s _ => eapply evs_get; [exact H|]
  | H : At _ ?s ?l ?k |- evs _ (Do OCtx) ?s _ => eapply evs_ctx; [exact H|]
  | H : At _ ?s ?l ?k |- evs _ (upd _) ?s _ =>
      let s' := fresh "s" in let A' := fresh "A" in eapply evs_upd; [exact H|]; intros s' A'
  | |- evs _ (set_target_binding _ _) ?s _ => unfold set_target_binding
  | |- evs _ not_target ?s _ => unfold not_target, set_target_binding
  | |- evs _ (set_inherit_cover _) ?s _ => unfold set_inherit_cover
  | |- evs _ (set_isolate_cover _) ?s _ => unfold set_isolate_cover
  | |- evs _ (Do OLookPos) _ _ => apply evs_lookpos; intros ?
  | |- evs _ (Do OCurPos) _ _ => apply evs_curpos; intros ?
  | |- evs _ (Do (OQuery (QRestricted _))) _ _ => apply evs_restricted
  | |- evs _ (Do (OQuery (QStrictReserved _))) _ _ => apply evs_reserved
  | |- evs _ (Do (OQuery (QLiteral _))) _ _ => apply evs_literal
  | H : At _ ?s ?l ?k, R : reads ?t ?l _ |- evs _ next ?s _ =>
      let i := fresh "i" in let s' := fresh "s" in let A' := fresh "A" in
      let E := fresh "Ei" in let W := fresh "Wi" in
      eapply evs_next; [exact H|exact R|]; intros i s' A' E W
  | H : At _ ?s ?l ?k, R : reads_as ?t ?w ?l _ |- evs _ next ?s _ =>
      let i := fresh "i" in let s' := fresh "s" in let A' := fresh "A" in
      let E := fresh "Ei" in let W := fresh "Wi" in
      eapply evs_next; [exact H|exact (reads_as_reads _ _ _ _ R)|]; intros i s' A' E W
  | H : At _ ?s ?l ?k |- evs _ look ?s _ =>
      let i := fresh "i" in let E := fresh "Ei" in let W := fresh "Wi" in
      eapply evs_look; [exact H|]; intros i E W
  | H : At _ ?s ?l ?k, R : reads _ ?l _ |- evs _ (expect_punct _) ?s _ =>
      let s' := fresh "s" in let A' := fresh "A" in
      eapply evs_expect_punct; [exact H|exact R|]; intros s' A'
  | H : At _ ?s ?l ?k, R : comma ?l _ |- evs _ (expect_punct _) ?s _ =>
      let s' := fresh "s" in let A' := fresh "A" in
      eapply evs_expect_punct; [exact H|exact R|]; intros s' A'
  | H : At _ ?s ?l ?k, R : comma ?l _ |- evs _ next ?s _ =>
      let i := fresh "i" in let s' := fresh "s" in let A' := fresh "A" in
      let E := fresh "Ei" in let W := fresh "Wi" in
      eapply evs_next; [exact H|exact R|]; intros i s' A' E W
  | H : At _ ?s ?l ?k, R : comma ?l _ |- evs _ (Do OExpectComma) ?s _ =>
      let s' := fresh "s" in let A' := fresh "A" in
      eapply evs_expect_comma; [exact H|exact R|]; intros s' A'
  | H : At _ ?s ?l ?k, R : reads _ ?l _ |- evs _ (expect_keyword _) ?s _ =>
      let s' := fresh "s" in let A' := fresh "A" in
      eapply evs_expect_keyword; [exact H|exact R|]; intros s' A'
  | W : spelt _ ?i ?w |- evs _ (stream_at ?i) ?s _ => eapply evs_stream_at; [exact W|]
  | W : spelt _ ?i ?w |- evs _ (get_string ?i) ?s _ => eapply evs_get_string; [exact W|]
  | W : spelt _ ?i ?w |- evs _ (string_or_empty ?i) ?s _ => eapply evs_string_or_empty; [exact W|]
  | H : At _ ?s ?l ?k |- evs _ (at_contextual _) ?s _ => eapply evs_at_contextual; [exact H|]
  | H : At _ ?s ?l ?k |- evs _ at_async_function ?s _ =>
      eapply evs_at_async_function; [exact H|first [assumption|left; calm1]|]
  | H : At _ ?s ?l ?k |- evs _ get_cover ?s _ => eapply evs_get_cover; [exact H|]
  | H : At _ ?s ?l ?k |- evs _ isolate_cover ?s _ =>
      let s' := fresh "s" in let A' := fresh "A" in eapply evs_isolate; [exact H|]; intros s' A'
  end.
Ltac ev := repeat (ev1; cbn beta; ev_known; ev_bool; cbn beta iota zeta).
(** The same, looking at the goal first. *)
Ltac ek := ev_known; ev_bool; cbn beta iota zeta; ev.
(** Views are compared field by field. *)
Ltac views :=
  repeat match goal with
  | H : view_of ?a = view_of ?b |- _ => unfold view_of in H; injection H; clear H; intros
  | H : view_of ?a = ?b |- _ => is_var b; subst b
  end.
Ltac vw := views; unfold view_of, opened, isolated_of, inherited_of in *; cbn in *; try congruence.
