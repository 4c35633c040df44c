(** Which errors and panics are possible: unexpected-token errors name tokens of the input,
    and on what a well-behaved scanner yields there is no panic, no [UnexpectedEoF] and no
    [OperationError]. *)
From Verif Require Export Positions.
Export Parser.

(** What a caller has looked at before it calls. *)
Definition seen_before B (c : call B) (t : token) : Prop :=
  match c with
  | CLexicalDecl _ => is_keyword KLet t || is_keyword KConst t = true
  | CImportDecl => is_keyword KImport t = true
  | CExportDecl => is_keyword KExport t = true
  | CWithStmt => is_keyword KWith t = true
  | CWhileStmt => is_keyword KWhile t = true
  | CVarStmt => is_keyword KVar t = true
  | CTryStmt => is_keyword KTry t = true
  | CCatchClause => is_keyword KCatch t = true
  | CFinallyClause => is_keyword KFinally t = true
  | CThrowStmt => is_keyword KThrow t = true
  | CSwitchStmt => is_keyword KSwitch t = true
  | CReturnStmt => is_keyword KReturn t = true
  | CIfStmt => is_keyword KIf t = true
  | CForStmt => is_keyword KFor t = true
  | CDoWhileStmt => is_keyword KDo t = true
  | CBreakStmt => is_keyword KBreak t = true
  | CContinueStmt => is_keyword KContinue t = true
  | COptionallyLabeled k => is_keyword k t = true
  | CDebuggerStmt => is_keyword KDebugger t = true
  | CClassDecl _ => is_keyword KClass t = true
  | CYieldExpr => is_keyword KYield t = true
  | CSuper => is_keyword KSuper t = true
  | CNewExpr => is_keyword KNew t = true
  | CArrayInit | CArrayPattern => is_punct POpenBracket t = true
  | CImportNamespaceSpecifier => is_punct PAsterisk t = true
  | CRestElement | CBindingRestEl | CRestProp | CSpreadElement => is_punct PSpread t = true
  | _ => True
  end.

(** Expectations that are in the source and are never reported, because the token they complain
    about has been looked at before: those listed, four punctuators, and all keywords but
    three. *)
Fixpoint strings_eqb (a b : list string) : bool :=
  match a, b with
  | [], [] => true
  | x :: a, y :: b => String.eqb x y && strings_eqb a b
  | _, _ => false
  end.
Definition keywords_unasked : list keyword :=
  [KAwait; KBreak; KCatch; KClass; KConst; KContinue; KDebugger; KDefault; KImport; KDelete; KDo;
   KElse; KEnum; KExport; KExtends; KFinally; KFor; KIf; KIn; KImplements; KInstanceOf; KInterface;
   KLet; KNew; KPackage; KPrivate; KProtected; KPublic; KReturn; KStatic; KSuper; KSwitch; KThis;
   KThrow; KTry; KTypeOf; KVar; KVoid; KWith; KYield].
Definition unsaid : list (list string) :=
  [["const"; "let"]; ["let"; "const"]; ["++"; "--"]; all_assign_ops]%string
  ++ map (fun p => [punct_debug p]) [PAsterisk; PSpread; PPeriod; POpenBracket]
  ++ map (fun k => [keyword_debug k]) keywords_unasked.
Definition reportable (l : list string) : Prop := existsb (strings_eqb l) unsaid = false.

Section PassB.
  Variable g : cfg.
  Variable items : list raw.
  Notation js := (g_stream g).
  Notation contract := (scan_contract js items).
  Notation inp := (input_item items).

  Definition eof_ok (s : state) : Prop :=
    ends_with_eof items ->
    if is_eof (it_tok (st_look s)) then st_rest s = [] else ends_with_eof (st_rest s).

  Definition invB (s : state) : Prop :=
    inp (st_look s) /\ Forall (fun r => inp (r_item r)) (st_rest s) /\ (contract -> scan_ok js s)
    /\ eof_ok s.

  Definition errB (e : error) (_ : state) : Prop :=
    match e with
    | UnexpectedToken p (MExpected l found) =>
        (exists i, inp i /\ p = item_pos g i /\ found = it_tok i) /\ reportable l
    | UnexpectedToken p (MUnexpected w note) =>
        exists i, inp i /\ p = item_pos g i /\ w = text_of js i
    | UnexpectedToken _ (MPlain m) => m = "malformed regex"%string /\ ~ contract
    | UnexpectedEoF => ~ ends_with_eof items
    | OperationError _ m => m = "Unable to get string"%string /\ ~ contract
    | OtherError => False
    | _ => True
    end.

  Definition preB (m : nat) B (c : call B) (s : state) : Prop := invB s /\ seen_before B c (it_tok (st_look s)).
  Definition postB B (c : call B) (s : state) (b : B) (s' : state) : Prop := invB s'.

  Notation wpB m p Q s := (wp g false preB postB errB (~ contract) m p Q s).

  Lemma inp_wf i : contract -> inp i -> well_formed js i.
  Proof.
    intros (H & _) [[-> _]|(r & Hr & ->)].
    - assert (boundary js 0) by (exists [], js; auto).
      repeat split; auto.
    - rewrite Forall_forall in H. apply H. exact Hr.
  Qed.

  Lemma inv_look s : invB s -> inp (st_look s).
  Proof. intros H. apply H. Qed.

  Lemma inv_upd f s : invB s -> invB (upd_ctx f s).
  Proof. exact (fun H => H). Qed.

  (** [next_item] with the contract or without. *)
  Lemma next_item_loop_inp : forall rest sp s, st_rest s = rest ->
    inp (st_look s) -> Forall (fun r => inp (r_item r)) rest ->
    let r := next_item_loop g rest sp s in
    inp (st_look (snd r)) /\ Forall (fun r => inp (r_item r)) (st_rest (snd r)).
  Proof.
    induction rest as [|r rest IH]; intros sp s Hr Hl Hf; cbn [next_item_loop].
    - destruct (is_eof _); [destruct (st_found_eof s)|]; cbn; auto.
    - inversion Hf; subst. destruct (update_positions _ _ _ _ _) as [[cur lpos]|]; [|cbn; rewrite Hr; auto].
      destruct (it_tok (r_item r)) eqn:Ht; try (cbn; auto; fail).
      destruct (slice _ _ _); [|cbn; auto]. apply IH; auto.
  Qed.

  Lemma next_item_loop_rest : forall rest sp s, st_rest s = rest ->
    Forall (fun r => inp (r_item r)) rest -> Forall (fun r => inp (r_item r)) (st_rest (snd (next_item_loop g rest sp s))).
  Proof.
    induction rest as [|r rest IH]; intros sp s Hr Hf; cbn [next_item_loop].
    - destruct (is_eof _); [destruct (st_found_eof s)|]; cbn; auto.
    - inversion Hf; subst. destruct (update_positions _ _ _ _ _) as [[cur lpos]|]; [|cbn; rewrite Hr; auto].
      destruct (it_tok (r_item r)) eqn:Ht; try (cbn; auto; fail).
      destruct (slice _ _ _); [|cbn; auto]. apply IH; auto.
  Qed.

  Lemma start_inp : forall rest sp s i s', st_look s = mkItem TEoF 0 0 ->
    next_item_loop g rest sp s = (Ok i, s') ->
    (exists r, In r rest /\ st_look s' = r_item r) \/ (st_look s' = mkItem TEoF 0 0 /\ only_comments rest).
  Proof.
    induction rest as [|r rest IH]; intros sp s i s' Hl H; cbn [next_item_loop] in H.
    - right. rewrite Hl in H. cbn in H. destruct (st_found_eof s); inversion H; subst. split; [reflexivity|constructor].
    - destruct (update_positions _ _ _ _ _) as [[cur lpos]|]; [|inversion H].
      destruct (it_tok (r_item r)) eqn:Ht; try (left; exists r; inversion H; subst; cbn; auto; fail).
      destruct (slice _ _ _); [|discriminate]. apply IH in H; [|exact Hl]. destruct H as [(r' & H1 & H2)|[H1 H2]].
      + left. exists r'. cbn. auto.
      + right. split; [exact H1|]. constructor; [rewrite Ht; reflexivity|exact H2].
  Qed.

  Lemma next_item_loop_err : forall rest sp s e s',
    next_item_loop g rest sp s = (Err e, s') ->
    e = ParseAfterEoF \/ e = UnexpectedEoF \/ exists p, e = OperationError p "Unable to get string"%string.
  Proof.
    induction rest as [|r rest IH]; intros sp s e s' H; cbn [next_item_loop] in H.
    - destruct (is_eof _); [destruct (st_found_eof s)|]; inversion H; auto.
    - destruct (update_positions _ _ _ _ _) as [[cur lpos]|]; [|inversion H].
      destruct (it_tok (r_item r)) eqn:Ht; try (inversion H; fail).
      destruct (slice _ _ _); [eapply IH; eauto|]. inversion H. eauto.
  Qed.

  Lemma next_item_loop_eof : forall rest sp s, st_rest s = rest ->
    (if is_eof (it_tok (st_look s)) then rest = [] \/ ends_with_eof rest else ends_with_eof rest) ->
    let r := next_item_loop g rest sp s in
    fst r <> Err UnexpectedEoF /\
    (if is_eof (it_tok (st_look (snd r)))
     then st_rest (snd r) = [] \/ ends_with_eof (st_rest (snd r)) /\ forall i, fst r <> Ok i
     else ends_with_eof (st_rest (snd r))).
  Proof.
    induction rest as [|r rest IH]; intros sp s Hr Hl; cbn [next_item_loop].
    - destruct (is_eof (it_tok (st_look s))) eqn:E; [destruct (st_found_eof s)|destruct Hl]; cbn; rewrite E;
        split; auto; discriminate.
    - assert (He : ends_with_eof (r :: rest))
        by (destruct (is_eof (it_tok (st_look s))); [destruct Hl; [discriminate|assumption]|assumption]).
      destruct (update_positions _ _ _ _ _) as [[cur lpos]|].
      2:{ cbn. split; [discriminate|]. rewrite Hr. destruct (is_eof (it_tok (st_look s))); auto.
          right. split; auto. discriminate. }
      assert (Hn : if is_eof (it_tok (r_item r)) then rest = [] else ends_with_eof rest).
      { destruct rest; cbn in He; [rewrite He; reflexivity|]. destruct He as [-> He]. exact He. }
      destruct (it_tok (r_item r)) eqn:Ht;
        try (cbn; rewrite Ht; cbn; split; [discriminate|]; cbn in Hn; auto; fail).
      cbn in Hn. destruct (slice _ _ _).
      + match goal with |- context [next_item_loop g rest ?sp' ?s'] => specialize (IH sp' s' eq_refl) end.
        cbn zeta in *. cbn [st_look] in IH. destruct IH as [I1 I2]; [destruct (is_eof (it_tok (st_look s))); auto|].
        split; auto.
      + cbn. split; [discriminate|]. destruct (is_eof (it_tok (st_look s))); auto.
        right. split; auto. discriminate.
  Qed.

  Lemma next_item_eof s : eof_ok s -> eof_ok (snd (next_item g s)) /\
    (fst (next_item g s) = Err UnexpectedEoF -> ~ ends_with_eof items).
  Proof.
    intros H. split; [intros C|intros E C]; specialize (H C);
      destruct (next_item_loop_eof (st_rest s) (it_start (st_look s), it_end (st_look s)) s eq_refl) as [H1 H2];
      try (destruct (is_eof (it_tok (st_look s))); auto; fail); try (apply H1, E).
    fold (next_item g s) in *. destruct (is_eof (it_tok (st_look (snd (next_item g s))))) eqn:E; auto.
    destruct H2 as [H2|[H2 H3]]; auto. destruct (is_eof (it_tok (st_look s))) eqn:E'.
    - unfold next_item. rewrite H. cbn. rewrite E'. destruct (st_found_eof s); reflexivity.
    - exfalso. clear - E E' H3. unfold next_item in *.
      assert (G : forall rest sp s, is_eof (it_tok (st_look s)) = false ->
                (forall i, fst (next_item_loop g rest sp s) <> Ok i) ->
                st_look (snd (next_item_loop g rest sp s)) = st_look s).
      { induction rest as [|r rest IH]; intros sp t Ht Hf; cbn [next_item_loop] in *.
        - rewrite Ht in *. reflexivity.
        - destruct (update_positions _ _ _ _ _) as [[cur lpos]|]; [|reflexivity].
          destruct (it_tok (r_item r)); try (cbn in Hf; exfalso; eapply Hf; reflexivity).
          destruct (slice _ _ _); [|reflexivity]. rewrite IH; auto. }
      rewrite G in E by auto. congruence.
  Qed.

  Lemma next_item_B s : invB s ->
    match next_item g s with
    | (Ok i, s') => i = st_look s /\ invB s'
    | (Err e, s') => errB e s' /\ invB s'
    | (Panic, s') => ~ contract /\ invB s'
    | (NoFuel, _) => False
    end.
  Proof.
    intros (H1 & H2 & H3 & H4).
    pose proof (next_item_loop_inp (st_rest s) (it_start (st_look s), it_end (st_look s)) s eq_refl H1 H2) as Hi.
    fold (next_item g s) in Hi. cbn zeta in Hi.
    destruct (next_item_eof s H4) as [He1 He2].
    assert (Hc : contract -> exists s', scan_ok js s' /\
       (next_item g s = (Ok (st_look s), s') \/ next_item g s = (Err ParseAfterEoF, s'))).
    { intros C. destruct (next_item_scan g s (H3 C)) as (s' & S' & [E|[E _]]); exists s'; auto. }
    assert (Hv : invB (snd (next_item g s))).
    { split; [apply Hi|]. split; [apply Hi|]. split; [|exact He1].
      intros C. destruct (Hc C) as (s2 & S2 & [E2|E2]); rewrite E2; auto. }
    destruct (next_item g s) as [[i|e| |] s'] eqn:E; cbn [snd fst] in *.
    - destruct (next_item_ok _ _ _ _ E) as (-> & _). auto.
    - split; auto.
      destruct (next_item_loop_err _ _ _ _ _ E) as [->|[->|[p ->]]]; cbn; auto.
      split; auto. intros C. destruct (Hc C) as (s2 & S2 & [E2|E2]); inversion E2.
    - split; auto. intros C. destruct (Hc C) as (s2 & S2 & [E2|E2]); inversion E2.
    - eapply next_item_not_nofuel; eauto.
  Qed.

  Lemma wpB_ret m A (a : A) (Q : A -> state -> Prop) s : Q a s -> wpB m (Ret a) Q s.
  Proof. exact (fun H => H). Qed.
  Lemma wpB_bind m A B (p : P A) (k : A -> P B) Q s :
    wpB m p (fun a s' => wpB m (k a) Q s') s -> wpB m (Bind p k) Q s.
  Proof. exact (fun H => H). Qed.
  Lemma wpB_cut m A B (R : A -> Prop) (p : P A) (k : A -> P B) Q s :
    wpB m p (fun a s' => invB s' /\ R a) s ->
    (forall a s', invB s' -> R a -> wpB m (k a) Q s') ->
    wpB m (Bind p k) Q s.
  Proof. intros H1 H2. apply wpB_bind. eapply wp_mono; [|exact H1]. cbn. intros a s' [? ?]. auto. Qed.

  (** Error descriptions that are allowed anywhere. *)
  Definition good_desc (d : fail_desc) : Prop :=
    match d with
    | FExpected i l => inp i /\ reportable l
    | FUnexpected i _ => inp i
    | FRedecl _ | FReinterpret _ _ => True
    | FOperation m => m = "Unable to get string"%string /\ ~ contract
    | FError e => errB e (initial_state [])
    end.
  Lemma good_desc_ok d s s' : good_desc d -> errB (mk_error g s d) s'.
  Proof.
    destruct d; cbn; auto.
    - intros [H U]. split; [exists i; auto|exact U].
    - intros H. exists i. unfold text_of. auto.
  Qed.

  Lemma wpB_fail m A d (Q : A -> state -> Prop) s : good_desc d -> wpB m (Fail d) Q s.
  Proof. apply good_desc_ok. Qed.
  Lemma wpB_next m (Q : item -> state -> Prop) s :
    invB s -> (forall s', invB s' -> Q (st_look s) s') -> wpB m next Q s.
  Proof.
    intros Hi H. unfold next. cbn [wp]. unfold wp_out, exec.
    pose proof (next_item_B s Hi) as N. destruct (next_item g s) as [[i|e| |] s'] eqn:E; try tauto.
    destruct N as [-> N]. auto.
  Qed.
  Lemma wpB_nextignored m (Q : unit -> state -> Prop) s :
    invB s -> (forall s', invB s' -> Q tt s') -> wpB m (Do ONextIgnored) Q s.
  Proof.
    intros Hi H. cbn [wp]. unfold wp_out, exec.
    pose proof (next_item_B s Hi) as N. destruct (next_item g s) as [[i|e| |] s'] eqn:E; try tauto; apply H; tauto.
  Qed.
  Lemma wpB_upd m f (Q : unit -> state -> Prop) s :
    invB s -> (forall s', invB s' -> st_look s' = st_look s -> Q tt s') -> wpB m (Do (OUpd f)) Q s.
  Proof. intros Hi H. cbn. apply H; auto. Qed.
  Lemma wpB_tolerate m d (Q : unit -> state -> Prop) s :
    good_desc d -> Q tt s -> wpB m (Do (OTolerate d)) Q s.
  Proof. intros Hd H. cbn. destruct (g_tolerant g); cbn; auto. apply good_desc_ok. exact Hd. Qed.
  Lemma wpB_guard m b d (Q : unit -> state -> Prop) s :
    good_desc d -> (b = None -> ~ contract) -> Q tt s -> wpB m (Do (OGuardModule b d)) Q s.
  Proof.
    intros Hd Hb H. cbn. destruct (g_module g); [destruct b as [[]|]|]; cbn; auto.
    apply good_desc_ok. exact Hd.
  Qed.
  Lemma wpB_str m i (Q : option text -> state -> Prop) s :
    inp i -> (forall o, (o = None -> ~ contract) -> o = slice js (it_start i) (it_end i) -> Q o s) ->
    wpB m (Do (OStr i)) Q s.
  Proof.
    intros Hi H. cbn. apply H; auto. intros E C. destruct (well_formed_slice js i) as (w & E' & _); [|congruence].
    apply inp_wf; auto.
  Qed.
  Lemma wpB_pure m B (o : op B) (Q : B -> state -> Prop) s :
    match o with
    | ONext | ONextIgnored | OUpd _ | OExpectComma | OTolerate _ | OGuardModule _ _ | OStr _ | OLook => False
    | _ => True
    end ->
    (forall b, Q b s) -> wpB m (Do o) Q s.
  Proof. intros Ho H. destruct o; cbn in *; try tauto; auto. Qed.
  Lemma wpB_look m (Q : item -> state -> Prop) s : Q (st_look s) s -> wpB m look Q s.
  Proof. intros H. exact H. Qed.
  Lemma wpB_expectcomma m (Q : unit -> state -> Prop) s :
    invB s -> (forall s', invB s' -> Q tt s') -> wpB m (Do OExpectComma) Q s.
  Proof.
    intros Hi H. cbn [wp]. unfold wp_out, exec.
    pose proof (next_item_B s Hi) as N.
    destruct (g_tolerant g).
    - destruct (is_punct _ _); [|auto].
      destruct (next_item g s) as [[i|e| |] s'] eqn:E; try tauto. apply H. tauto.
    - destruct (next_item g s) as [[i|e| |] s'] eqn:E; try tauto.
      destruct (is_punct _ _); auto. + apply H; tauto.
      + apply good_desc_ok. destruct N as [-> N]. split; [apply inv_look; exact Hi|reflexivity].
  Qed.
  Lemma wpB_call m B (c : call B) (Q : B -> state -> Prop) s :
    invB s -> seen_before B c (it_tok (st_look s)) -> (forall b s', invB s' -> Q b s') -> wpB m (Call c) Q s.
  Proof. intros H1 H2 H3. cbn [wp]. split; [split|]; auto. Qed.
  Lemma wpB_loop m A X (R : X -> Prop) (x : X) (b : X -> P (X + A)) (Q : A -> state -> Prop) s :
    invB s -> R x ->
    (forall y s1, invB s1 -> R y ->
       wpB m (b y) (fun r s2 => match r with inl y' => invB s2 /\ R y' | inr a => Q a s2 end) s1) ->
    wpB m (Loop x b) Q s.
  Proof.
    intros H1 H2 H3. cbn [wp]. exists (fun y s1 => invB s1 /\ R y).
    split; [auto|]. split; [discriminate|]. intros y s1 [? ?].
    eapply wp_mono; [|apply H3; auto]. cbn beta. intros [y'|a] s2 Hq; auto. split; auto; discriminate.
  Qed.
  Lemma wpB_get m A (f : ctx -> A) (Q : A -> state -> Prop) s :
    (forall a, Q a s) -> wpB m (get f) Q s.
  Proof. intros H. cbn. auto. Qed.
  Lemma wpB_look_tok m (Q : token -> state -> Prop) s : Q (it_tok (st_look s)) s -> wpB m look_tok Q s.
  Proof. intros H. cbn. auto. Qed.
  Lemma wpB_at_punct m p (Q : bool -> state -> Prop) s :
    Q (is_punct p (it_tok (st_look s))) s -> wpB m (at_punct p) Q s.
  Proof. intros H. cbn. auto. Qed.
  Lemma wpB_at_keyword m p (Q : bool -> state -> Prop) s :
    Q (is_keyword p (it_tok (st_look s))) s -> wpB m (at_keyword p) Q s.
  Proof. intros H. cbn. auto. Qed.
  Lemma wpB_fail_look m A l (Q : A -> state -> Prop) s : invB s -> reportable l -> wpB m (fail_look l) Q s.
  Proof. intros H U. apply wpB_bind, wpB_look, wpB_fail. split; [apply inv_look; exact H|exact U]. Qed.
  Lemma wpB_expect_punct m p (Q : unit -> state -> Prop) s :
    invB s -> is_punct p (it_tok (st_look s)) = true \/ reportable [punct_debug p] ->
    (forall s', invB s' -> Q tt s') -> wpB m (expect_punct p) Q s.
  Proof.
    intros Hi U H. apply wpB_bind, wpB_next; auto. intros s' E. destruct (is_punct _ _) eqn:Ek; [cbn; auto|].
    apply wpB_fail. destruct U as [U|U]; [congruence|]. split; [apply inv_look; exact Hi|exact U].
  Qed.
  Lemma wpB_expect_keyword m p (Q : unit -> state -> Prop) s :
    invB s -> is_keyword p (it_tok (st_look s)) = true \/ reportable [keyword_debug p] ->
    (forall s', invB s' -> Q tt s') -> wpB m (expect_keyword p) Q s.
  Proof.
    intros Hi U H. apply wpB_bind, wpB_next; auto. intros s' E. destruct (is_keyword _ _) eqn:Ek; [cbn; auto|].
    apply wpB_fail. destruct U as [U|U]; [congruence|]. split; [apply inv_look; exact Hi|exact U].
  Qed.
  Lemma wpB_stream_at m i (Q : text -> state -> Prop) s :
    inp i -> (forall a, Q a s) -> wpB m (stream_at i) Q s.
  Proof.
    intros Hi H. apply wpB_bind, wpB_str; auto. intros [w|] Ho _; [cbn; auto|]. exact (Ho eq_refl).
  Qed.
  Lemma wpB_get_string m i (Q : text -> state -> Prop) s :
    inp i -> (forall a, a = text_of js i -> Q a s) -> wpB m (get_string i) Q s.
  Proof.
    intros Hi H. apply wpB_bind, wpB_str; auto. intros [w|] Ho E.
    - cbn. apply H. unfold text_of. rewrite <- E. reflexivity.
    - apply wpB_fail. cbn. split; auto.
  Qed.
  Lemma wpB_string_or_empty m i (Q : text -> state -> Prop) s :
    Q (text_of js i) s -> wpB m (string_or_empty i) Q s.
  Proof. intros H. exact H. Qed.
  Lemma wpB_at_contextual m w (Q : bool -> state -> Prop) s :
    invB s -> (forall a, Q a s) -> wpB m (at_contextual w) Q s.
  Proof.
    intros Hi H. apply wpB_bind, wpB_look, wpB_bind, wpB_stream_at; [apply inv_look; exact Hi|].
    intros a. cbn. auto.
  Qed.
  Lemma wpB_at_async_function m (Q : bool -> state -> Prop) s :
    invB s -> (forall a, Q a s) -> wpB m at_async_function Q s.
  Proof.
    intros Hi H. apply wpB_bind, wpB_at_contextual; auto. intros []; [|cbn; auto].
    apply wpB_bind, wpB_pure; cbn; auto. intros [pk|]; cbn; auto.
  Qed.
  Lemma wpB_at_import_call m (Q : bool -> state -> Prop) s :
    (forall a, Q a s) -> wpB m at_import_call Q s.
  Proof. intros H. cbn. destruct (is_keyword _ _); cbn; auto. Qed.
  Lemma wpB_at_lexical_decl m (Q : bool -> state -> Prop) s :
    (forall a, Q a s) -> wpB m at_lexical_decl Q s.
  Proof. intros H. cbn. auto. Qed.
  Lemma wpB_at_return_arg m (Q : bool -> state -> Prop) s :
    (forall a, Q a s) -> wpB m at_return_arg Q s.
  Proof. intros H. cbn. destruct (st_nl s); cbn; auto. Qed.
  Lemma wpB_qualified m t (Q : bool -> state -> Prop) s :
    (forall a, Q a s) -> wpB m (qualified_prop_name t) Q s.
  Proof. intros H. cbn. auto. Qed.
  Lemma wpB_isolated m A (p : P A) (Q : A -> state -> Prop) s :
    invB s -> (forall s1, invB s1 -> st_look s1 = st_look s ->
      wpB m p (fun a s2 => invB s2 /\ forall s3, invB s3 -> Q a s3) s1) ->
    wpB m (isolated p) Q s.
  Proof.
    intros Hi H. unfold isolated, isolate_cover, get_cover.
    cbn [wp exec wp_out upd]. eapply wp_mono; [|apply H; auto].
    cbn beta. intros a s2 [Hj Hq]. apply Hq. exact Hj.
  Qed.
  Lemma wpB_inheriting m A (p : P A) (Q : A -> state -> Prop) s :
    invB s -> (forall s1, invB s1 -> st_look s1 = st_look s ->
      wpB m p (fun a s2 => invB s2 /\ forall s3, invB s3 -> Q a s3) s1) ->
    wpB m (inheriting p) Q s.
  Proof. intros Hi H. unfold inheriting, inherit_cover, isolate_cover, get_cover.
    cbn [wp exec wp_out upd]. eapply wp_mono; [|apply H; auto].
    cbn beta. intros a s2 [Hj Hq]. apply Hq. exact Hj.
  Qed.
  Lemma wpB_cover_formals m e (Q : option (list FunctionArg) -> state -> Prop) s :
    invB s -> (forall a, Q a s) -> wpB m (cover_formals e) Q s.
  Proof.
    intros Hi H. unfold cover_formals.
    destruct (match e with EIdent _ => _ | _ => _ end) as [[ps a]|]; [|cbn; auto].
    destruct (existsb snd _); [apply wpB_fail_look; [exact Hi|reflexivity]|]. apply wpB_bind, wpB_get. intros.
    apply wpB_bind, wpB_get. intros. destruct (_ && _ && _); [apply wpB_fail_look; [exact Hi|reflexivity]|]. cbn; auto.
  Qed.
End PassB.

(** From what has been looked at. *)
Ltac seenB :=
  cbn [seen_before] in *;
  repeat match goal with
         | H : _ && _ = true |- _ => apply andb_prop in H; destruct H
         end;
  repeat match goal with H : st_look _ = st_look _ |- _ => rewrite H in *; clear H end;
  first [ assumption | match goal with E : it_tok _ = _ |- _ => rewrite E; reflexivity end
        | match goal with E : _ = it_tok _ |- _ => rewrite <- E; reflexivity end ].

Ltac finB :=
  unfold postB in *;
  repeat match goal with H : st_look _ = st_look _ |- _ => rewrite H in *; clear H end;
  solve [ assumption | exact I | (split; [solve [assumption | eapply inv_look; eassumption]|reflexivity]) | (split; solve [assumption | exact I]) | (eapply inv_look; eassumption)
        | (cbn; auto; eapply inv_look; eassumption) | (exfalso; congruence)
        | (exfalso; repeat match goal with H : _ = _ :> token |- _ => rewrite H in * end; cbn in *; discriminate) ].

Ltac stepB :=
  match goal with
  | |- wp _ _ _ _ _ _ _ (Ret _) _ _ => apply wpB_ret; cbn beta
  | |- wp _ _ _ _ _ _ _ (Fail _) _ _ => apply wpB_fail; cbn [good_desc]
  | |- wp _ _ _ _ _ _ _ (fail_look _) _ _ => apply wpB_fail_look; [assumption|reflexivity]
  | |- wp _ _ _ _ _ _ _ next _ _ => apply wpB_next; [assumption|intros]
  | |- wp _ _ _ _ _ _ _ (Do ONextIgnored) _ _ => apply wpB_nextignored; [assumption|intros]
  | |- wp _ _ _ _ _ _ _ (Do OExpectComma) _ _ => apply wpB_expectcomma; [assumption|intros]
  | |- wp _ _ _ _ _ _ _ (Do (OUpd _)) _ _ => apply wpB_upd; [assumption|intros]
  | |- wp _ _ _ _ _ _ _ (Do (OTolerate _)) _ _ => apply wpB_tolerate; [cbn [good_desc errB]; try finB|]
  | |- wp _ _ _ _ _ _ _ (Do (OGuardModule _ _)) _ _ => apply wpB_guard; [cbn [good_desc]; try finB| |]
  | |- wp _ _ _ _ _ _ _ (Do (OStr _)) _ _ => apply wpB_str; [finB|intros]
  | |- wp _ _ _ _ _ _ _ (upd _) _ _ => apply wpB_upd; [assumption|intros]
  | |- wp _ _ _ _ _ _ _ not_target _ _ => apply wpB_upd; [assumption|intros]
  | |- wp _ _ _ _ _ _ _ (set_target_binding _ _) _ _ => apply wpB_upd; [assumption|intros]
  | |- wp _ _ _ _ _ _ _ (set_isolate_cover ?c) _ _ => destruct c as [[? ?] ?]; apply wpB_upd; [assumption|intros]
  | |- wp _ _ _ _ _ _ _ (set_inherit_cover ?c) _ _ => destruct c as [[? ?] ?]; apply wpB_upd; [assumption|intros]
  | |- wp _ _ _ _ _ _ _ isolate_cover _ _ => unfold isolate_cover
  | |- wp _ _ _ _ _ _ _ inherit_cover _ _ => unfold inherit_cover, isolate_cover
  | |- wp _ _ _ _ _ _ _ get_cover _ _ => unfold get_cover
  | |- wp _ _ _ _ _ _ _ look _ _ => apply wpB_look
  | |- wp _ _ _ _ _ _ _ (Do _) _ _ => apply wpB_pure; [exact I|intros]
  | |- wp _ _ _ _ _ _ _ (get _) _ _ => apply wpB_get; intros
  | |- wp _ _ _ _ _ _ _ look_tok _ _ => apply wpB_look_tok
  | |- wp _ _ _ _ _ _ _ (at_punct _) _ _ => apply wpB_at_punct
  | |- wp _ _ _ _ _ _ _ (at_keyword _) _ _ => apply wpB_at_keyword
  | |- wp _ _ _ _ _ _ _ (expect_punct _) _ _ => apply wpB_expect_punct; [assumption|solve [right; reflexivity | left; seenB]|intros]
  | |- wp _ _ _ _ _ _ _ (expect_keyword _) _ _ => apply wpB_expect_keyword; [assumption|solve [right; reflexivity | left; seenB]|intros]
  | |- wp _ _ _ _ _ _ _ (stream_at _) _ _ => apply wpB_stream_at; [finB|intros]
  | |- wp _ _ _ _ _ _ _ (get_string _) _ _ => apply wpB_get_string; [finB|intros]
  | |- wp _ _ _ _ _ _ _ (string_or_empty _) _ _ => apply wpB_string_or_empty
  | |- wp _ _ _ _ _ _ _ (at_contextual _) _ _ => apply wpB_at_contextual; [assumption|intros]
  | |- wp _ _ _ _ _ _ _ at_async_function _ _ => apply wpB_at_async_function; [assumption|intros]
  | |- wp _ _ _ _ _ _ _ at_import_call _ _ => apply wpB_at_import_call; intros
  | |- wp _ _ _ _ _ _ _ at_lexical_decl _ _ => apply wpB_at_lexical_decl; intros
  | |- wp _ _ _ _ _ _ _ at_return_arg _ _ => apply wpB_at_return_arg; intros
  | |- wp _ _ _ _ _ _ _ (qualified_prop_name _) _ _ => apply wpB_qualified; intros
  | |- wp _ _ _ _ _ _ _ (cover_formals _) _ _ => apply wpB_cover_formals; [assumption|intros]
  | |- wp _ _ _ _ _ _ _ (Call _) _ _ => apply wpB_call; [assumption|solve [cbn [seen_before]; (exact I || seenB)]|intros]
  | |- wp _ _ _ _ _ _ _ (isolated _) _ _ => apply wpB_isolated; [assumption|intros]
  | |- wp _ _ _ _ _ _ _ (inheriting _) _ _ => apply wpB_inheriting; [assumption|intros]
  | |- wp _ _ _ _ _ _ _ (Loop _ _) _ _ => apply (wpB_loop _ _ _ _ _ (fun _ => True)); [assumption|exact I|intros]
  | |- wp _ _ _ _ _ _ _ (Bind (match _ with _ => _ end) _) _ _ => cutB
  | |- wp _ _ _ _ _ _ _ (Bind (Bind _ (fun b => if b then _ else _)) _) _ _ => cutB
  | |- wp _ _ _ _ _ _ _ (Bind class_el_head _) _ _ => cutB
  | |- wp _ _ _ _ _ _ _ (Bind (class_el_mid _) _) _ _ => cutB
  | |- wp _ _ _ _ _ _ _ (Bind (obj_prop_head _) _) _ _ => cutB
  | |- wp _ _ _ _ _ _ _ (comma_list _) _ _ => unfold comma_list
  | |- wp _ _ _ _ _ _ _ (arg_list _) _ _ => unfold arg_list
  | |- wp _ _ _ _ _ _ _ class_el_head _ _ => unfold class_el_head
  | |- wp _ _ _ _ _ _ _ (class_el_mid _) _ _ => unfold class_el_mid
  | |- wp _ _ _ _ _ _ _ (obj_prop_head _) _ _ => unfold obj_prop_head
  | |- wp _ _ _ _ _ _ _ (obj_prop_plain _ _ _ _ _ _) _ _ => unfold obj_prop_plain
  | |- wp _ _ _ _ _ _ _ (arrow_rest _) _ _ => unfold arrow_rest
  | |- wp _ _ _ _ _ _ _ (assign_rest _) _ _ => unfold assign_rest
  | |- wp _ _ _ _ _ _ _ computed_member _ _ => unfold computed_member
  | |- wp _ _ _ _ _ _ _ (Bind _ _) _ _ => apply wpB_bind
  | |- wp _ _ _ _ _ _ _ (match ?x with _ => _ end) _ _ => destruct x eqn:?
  | |- forall _, _ => intros
  | |- match ?x with _ => _ end => destruct x
  | |- invB _ _ _ /\ _ => split
  end
with cutB := apply (wpB_cut _ _ _ _ _ (fun _ => True)); [solve [repeat stepB; try finB] | intros].
Ltac goB := repeat stepB; try finB.

(** ** Delimiters *)
Lemma rfind_slash_spec : forall t off, match rfind_slash off t with
  | Some i => exists a b, t = a ++ [47%N] ++ b /\ i = off + byte_len a /\ ~ In 47%N b
  | None => ~ In 47%N t
  end.
Proof.
  induction t as [|c t IH]; intros off; cbn [rfind_slash]; [tauto|].
  specialize (IH (off + len_utf8 c)). destruct (rfind_slash (off + len_utf8 c) t) as [i|].
  - destruct IH as (a & b & -> & -> & H). exists (c :: a), b. cbn [app byte_len]. repeat split; auto. lia.
  - destruct (N.eqb c 47) eqn:E.
    + apply N.eqb_eq in E. subst c. exists [], t. cbn [app byte_len]. repeat split; auto.
    + apply N.eqb_neq in E. cbn. intros [H|H]; [congruence|tauto].
Qed.

Lemma regex_parts w : delimited TRegEx w ->
  exists e a b, rfind_slash 0 w = Some e /\ w = 47%N :: a ++ [47%N] ++ b /\ ~ In 47%N b
    /\ slice w 1 e = Some a /\ slice w (e + 1) (byte_len w) = Some b.
Proof.
  intros (b & f & ->). pose proof (rfind_slash_spec ([47%N] ++ b ++ [47%N] ++ f) 0) as H.
  destruct (rfind_slash 0 ([47%N] ++ b ++ [47%N] ++ f)) as [e|].
  - destruct H as (x & y & E & -> & Hn). destruct x as [|c x].
    + exfalso. cbn in E. inversion E; subst. apply Hn. apply in_or_app. right. left. reflexivity.
    + cbn [app] in E. injection E as <- E.
      exists (0 + byte_len (47%N :: x)), x, y. split; [reflexivity|].
      cbn [app]. rewrite E. split; [reflexivity|]. split; [exact Hn|].
      assert (L : len_utf8 47 = 1) by reflexivity. split.
      * pose proof (slice_app [47%N] x ([47%N] ++ y)) as K. cbn [byte_len app] in K. rewrite L in K.
        cbn [byte_len]. rewrite L. exact K.
      * pose proof (slice_app (47%N :: x ++ [47%N]) y []) as K.
        rewrite app_nil_r in K. cbn [byte_len app] in *. rewrite !byte_len_app in *. cbn [byte_len] in *. rewrite L in *.
        rewrite <- app_assoc in K. cbn [app] in K. rewrite <- K. f_equal; lia.
  - exfalso. apply H. left. reflexivity.
Qed.

Lemma inner_slice_between c1 b tl k : len_utf8 c1 = 1 -> byte_len tl = k ->
  inner_slice (c1 :: b ++ tl) k = Ret b.
Proof.
  intros H1 H2. unfold inner_slice. cbn [byte_len]. rewrite byte_len_app, H1, H2.
  replace (1 + (byte_len b + k) <? k) with false by (symmetry; apply Nat.ltb_ge; lia).
  pose proof (slice_app [c1] b tl) as K. cbn [byte_len app] in K. rewrite H1 in K.
  replace (1 + (byte_len b + k) - k) with (1 + 0 + byte_len b) by lia. change (slice (c1 :: b ++ tl) 1) with (slice (c1 :: b ++ tl) (1 + 0)). rewrite K. reflexivity.
Qed.

Lemma template_cooked w k : delimited (TTemplate k) w ->
  exists c, inner_slice w (match k with THead | TBody => 2 | TTail | TNoSub => 1 end) = Ret c.
Proof.
  destruct k; intros (b & ->); exists b; apply (inner_slice_between _ b); reflexivity.
Qed.

(** ** The operator stacks *)
Definition operator_token (t : token) : Prop :=
  is_punct PLogicalAnd t || is_punct PLogicalOr t = true \/ binary_operator t <> None.

Lemma make_binary_ok t l r : operator_token t -> exists e, make_binary t l r = inl e.
Proof.
  intros H. unfold make_binary.
  destruct (is_punct PLogicalAnd t || is_punct PLogicalOr t) eqn:E.
  - destruct t as [| | | | | | | |p| |]; try discriminate E. destruct p; try discriminate E; cbn; eauto.
  - destruct H as [H|H]; [congruence|]. destruct (binary_operator t); [eauto|congruence].
Qed.

Lemma precedence_operator ai t : (bin_precedence ai t =? 0) = false -> operator_token t.
Proof.
  unfold operator_token. destruct t as [| | | | | | |k|p| |]; try discriminate.
  - destruct k; try discriminate; intros; right; cbn; discriminate.
  - destruct p; try discriminate; intros; ((left; reflexivity) || (right; cbn; discriminate)).
Qed.

Definition stacks_ok (ops : list token) (precs : list nat) (stack : list Expr) : Prop :=
  length precs = length ops /\ length stack = S (length ops) /\ Forall operator_token ops.

Lemma reduce_while_ok prec : forall ops precs stack, stacks_ok ops precs stack ->
  exists ops' precs' stack', reduce_while prec ops precs stack = inl (ops', precs', stack')
    /\ stacks_ok ops' precs' stack'.
Proof.
  induction ops as [|op ops IH]; intros precs stack H.
  - exists [], precs, stack. destruct precs; auto.
  - destruct H as (H1 & H2 & H3). destruct precs as [|p precs]; [discriminate|].
    destruct stack as [|r [|l stack]]; try discriminate.
    cbn [reduce_while]. inversion H3; subst. destruct (prec <=? p).
    + destruct (make_binary_ok op l r) as [e ->]; auto. apply IH. cbn in *. repeat split; auto; cbn; lia.
    + exists (op :: ops), (p :: precs), (r :: l :: stack). repeat split; auto.
Qed.

Lemma reduce_all_ok : forall ops stack current, Forall operator_token ops ->
  exists e, reduce_all ops stack current = inl e.
Proof.
  induction ops as [|op ops IH]; intros stack current H; [exists current; reflexivity|].
  inversion H; subst. destruct stack as [|l stack]; [exists current; reflexivity|].
  cbn [reduce_all]. destruct (make_binary_ok op l current) as [e ->]; auto.
Qed.

Section Bodies.
  Variable g : cfg.
  Variable items : list raw.
  Notation wpB m p Q s := (wp g false (preB g items) (postB g items) (errB g items)
    (~ scan_contract (g_stream g) items) m p Q s).

  Lemma delimited_text i : scan_contract (g_stream g) items -> input_item items i ->
    delimited (it_tok i) (text_of (g_stream g) i).
  Proof.
    intros C Hi. destruct (well_formed_slice (g_stream g) i) as (w & E & D); [eapply inp_wf; eauto|].
    unfold text_of. rewrite E. exact D.
  Qed.

  Lemma wpB_template m s : invB g items s -> wpB m template_element (postB g items _ CTemplateElement s) s.
  Proof.
    intros Hi. unfold template_element. apply wpB_bind, wpB_next; auto. intros s' Hi'.
    destruct (it_tok (st_look s)) eqn:Et; try (apply wpB_fail_look; [assumption|reflexivity]).
    apply wpB_bind, wpB_get_string; [eapply inv_look; eassumption|]. intros w ->.
    assert (D : scan_contract (g_stream g) items ->
              exists c, inner_slice (text_of (g_stream g) (st_look s))
                          (match t with THead | TBody => 2 | TTail | TNoSub => 1 end) = Ret c).
    { intros C. apply template_cooked. rewrite <- Et. apply delimited_text; auto. eapply inv_look; eassumption. }
    assert (W : forall k tl, (scan_contract (g_stream g) items ->
                exists c, inner_slice (text_of (g_stream g) (st_look s)) k = Ret c) ->
              wpB m (c <- inner_slice (text_of (g_stream g) (st_look s)) k ;;
                     Ret (mkQuasi (text_of (g_stream g) (st_look s)) c tl))
                  (postB g items _ CTemplateElement s) s').
    { intros k tl D'. clear D. unfold inner_slice in *. destruct (_ <? k).
      - cbn. intros C. destruct (D' C) as [c E]. discriminate E.
      - destruct (slice _ _ _); [exact Hi'|]. cbn. intros C. destruct (D' C) as [c E]. discriminate E. }
    destruct t; apply W; exact D.
  Qed.

  Lemma wpB_regex m s s' : invB g items s -> invB g items s' -> st_look s' = st_look s -> is_regex (it_tok (st_look s)) = true ->
    wpB m (i <- next ;;
      match it_tok i with
      | TRegEx =>
          rw <- string_or_empty i ;;
          match rfind_slash 0 rw with
          | None =>
              pos <- Do OCurPos ;;
              Fail (FError (UnexpectedToken pos (MPlain "malformed regex")))
          | Some e =>
              match slice rw 1 e, slice rw (e + 1) (byte_len rw) with
              | Some pattern, Some flags => Ret (ELiteral (LRegEx pattern flags))
              | _, _ => Crash
              end
          end
      | _ => Crash
      end) (postB g items _ CPrimaryExpression s) s'.
  Proof.
    intros Hi Hi' El Er. apply wpB_bind, wpB_next; auto. intros s2 Hi2. rewrite El.
    destruct (it_tok (st_look s)) eqn:Et; try discriminate Er.
    apply wpB_bind, wpB_string_or_empty.
    assert (D : scan_contract (g_stream g) items -> delimited TRegEx (text_of (g_stream g) (st_look s))).
    { intros C. rewrite <- Et. apply delimited_text; auto. eapply inv_look; eassumption. }
    destruct (rfind_slash 0 _) as [e|] eqn:Ee.
    - destruct (slice _ 1 e) eqn:E1; [destruct (slice _ (e + 1) _) eqn:E2|].
      + exact Hi2.
      + cbn. intros C. destruct (regex_parts _ (D C)) as (e' & a & b & F & _ & _ & F1 & F2). congruence.
      + cbn. intros C. destruct (regex_parts _ (D C)) as (e' & a & b & F & _ & _ & F1 & F2). congruence.
    - apply wpB_bind, wpB_pure; [exact I|]. intros p. apply wpB_fail. cbn. split; auto.
      intros C. destruct (regex_parts _ (D C)) as (e' & a & b & F & _). congruence.
  Qed.

  Lemma wpB_binary m s : invB g items s -> wpB m binary_expression (postB g items _ CBinaryExpression s) s.
  Proof.
    intros Hi. unfold binary_expression.
    repeat (lazymatch goal with
            | |- wp _ _ _ _ _ _ _ (Loop _ _) _ _ => fail
            | _ => stepB
            end; try assumption).
    apply (wpB_loop _ _ _ _ _ (fun '(ops, precs, stack) => stacks_ok ops precs stack)); [assumption| |].
    - repeat split; auto. constructor; auto. eapply precedence_operator; eauto.
    - intros [[ops precs] stack] s7 Hi7 Hst. stepB. stepB. stepB. stepB. cbn zeta.
      destruct (bin_precedence _ (it_tok (st_look s7)) =? 0) eqn:E1.
      + destruct Hst as (S1 & S2 & S3).
        destruct stack as [|top stack]; [discriminate|].
        destruct (reduce_all_ok ops stack top S3) as [e E2]. apply wpB_ret. cbv beta iota. rewrite E2. goB.
      + match goal with |- context [reduce_while ?p ops precs stack] =>
          destruct (reduce_while_ok p ops precs stack Hst) as (ops' & precs' & stack' & -> & Hst') end.
        cbn iota. do 4 stepB. stepB. split; [assumption|]. intros. stepB. split; [assumption|].
        destruct Hst' as (T1 & T2 & T3). repeat split; cbn; try lia. constructor; auto.
        eapply precedence_operator; eauto.
  Qed.

  Lemma wpB_function m o s : invB g items s ->
    wpB m (function_decl o) (postB g items _ (CFunctionDecl o) s) s.
  Proof.
    intros Hi. unfold function_decl.
    repeat (lazymatch goal with
            | |- wp _ _ _ _ _ _ _ (@Bind _ (option Identifier * option item) _ _ _) _ _ => fail
            | _ => stepB
            end; try assumption).
    apply (wpB_cut _ _ _ _ _ (fun r => forall i, snd r = Some i -> input_item items i)).
    - repeat stepB; try (split; [assumption|]); cbn; intros; try discriminate; try finB.
      cbn in *. match goal with H : Some _ = Some _ |- _ => injection H as <- end. finB.
    - intros [id fr] s1 Hi1 Hfr. cbn [snd] in Hfr. goB. split; [apply Hfr; reflexivity|reflexivity].
  Qed.

  Lemma unary_tokens t : is_punct PPlus t || is_punct PMinus t || is_punct PBitwiseNot t || is_punct PNot t
     || is_keyword KDelete t || is_keyword KVoid t || is_keyword KTypeOf t = true -> unary_operator t <> None.
  Proof.
    destruct t as [| | | | | | |k|p| |]; cbn; try discriminate.
    - destruct k; cbn; discriminate.
    - destruct p; cbn; discriminate.
  Qed.

  Lemma assign_tokens t : assign_tok t = true -> exists p o, t = TPunct p /\ assignment_operator p = Some o.
  Proof. destruct t as [| | | | | | | |p| |]; try discriminate. destruct p; try discriminate; intros; do 2 eexists; split; reflexivity. Qed.
  Lemma wpB_keep m A B (p : P A) (k : A -> P B) Q s :
    wpB m p (fun _ s' => invB g items s' /\ st_look s' = st_look s) s ->
    (forall a s', invB g items s' -> st_look s' = st_look s -> wpB m (k a) Q s') ->
    wpB m (Bind p k) Q s.
  Proof. intros H1 H2. apply wpB_bind. eapply wp_mono; [|exact H1]. cbn. intros a s' [? ?]. auto. Qed.
  Lemma wpB_assign m e s : invB g items s -> assign_tok (it_tok (st_look s)) = true ->
    wpB m (assign_rest e) (fun _ s' => invB g items s') s.
  Proof.
    intros Hi Ha. unfold assign_rest. do 4 stepB.
    apply wpB_keep; [destruct a; cbn [negb]; goB; split; auto|]. intros _ s1 H1 E1. do 2 stepB.
    apply wpB_keep; [goB; split; auto|]. intros _ s2 H2 E2.
    apply wpB_keep; [destruct (is_punct _ _); goB; split; auto|]. intros _ s3 H3 E3. do 2 stepB.
    rewrite E3, E2, E1. destruct (assign_tokens _ Ha) as (p & o & -> & ->). goB.
  Qed.

  Lemma bodiesB : forall m B (c : call B) s, preB g items (S m) _ c s ->
    wpB m (body c) (postB g items _ c s) s.
  Proof.
    intros m B c s [H U].
    destruct c; cbn [body].
    all: lazymatch goal with
         | |- wp _ _ _ _ _ _ _ template_element _ _ => apply wpB_template; exact H
         | |- wp _ _ _ _ _ _ _ binary_expression _ _ => apply wpB_binary; exact H
         | |- wp _ _ _ _ _ _ _ (function_decl _) _ _ => apply wpB_function; exact H
         | |- wp _ _ _ _ _ _ _ ?p _ _ => unfold_head p
         end.
    all: try solve [goB].
    - (* with_stmt *)
      do 2 stepB. apply wpB_keep; [goB; split; auto|]. intros _ s1 H1 E1. goB.
    - (* primary_expression *)
      repeat (lazymatch goal with
              | H : is_regex _ = true |- wp _ _ _ _ _ _ _ (Bind next _) _ _ => apply wpB_regex; assumption
              | _ => stepB
              end); try finB.
    - (* var_ident *)
      goB. apply H1. destruct o; [discriminate|reflexivity].
    - (* assignment_expr *)
      repeat (lazymatch goal with
              | |- wp _ _ _ _ _ _ _ (assign_rest _) _ _ => apply wpB_assign; assumption
              | _ => stepB
              end); try finB.
    - (* unary_expression *)
      goB. exfalso. eapply unary_tokens; eassumption.
    - (* postfix_expr *)
      goB. exfalso. repeat match goal with E : _ = false |- _ => rewrite E in * end.
      rewrite ?andb_false_r in *. discriminate.
  Qed.
End Bodies.

(** ** Runs *)
Section Safe.
  Variable g : cfg.
  Variable items : list raw.
  Notation contract := (scan_contract (g_stream g) items).

  Definition safe_outcome {A} (r : outcome A * state) : Prop :=
    match r with
    | (Ok _, s') => invB g items s'
    | (Err e, s') => errB g items e s'
    | (Panic, _) => ~ contract
    | (NoFuel, _) => True
    end.

  Lemma call_safe n B (c : call B) s : invB g items s -> seen_before B c (it_tok (st_look s)) -> safe_outcome (run_call bd g n c s).
  Proof.
    intros H U. pose proof (wp_sound call bd g false (preB g items) (postB g items) (errB g items) (~ contract)
      ltac:(discriminate) (bodiesB g items) n B c s (conj H U)) as W.
    unfold wp_out, postB in W. unfold safe_outcome. destruct (run_call bd g n c s) as [[?| | |] ?]; auto.
  Qed.

  Lemma parse_safe n s : invB g items s -> safe_outcome (parse g n s).
  Proof.
    intros H. unfold parse.
    assert (W : wp g false (preB g items) (postB g items) (errB g items) (~ contract) n parse_parts
                  (fun _ s' => invB g items s') s) by (unfold parse_parts; goB).
    apply (wp_sound_prog call bd g false (preB g items) (postB g items) (errB g items) (~ contract)
             ltac:(discriminate) (bodiesB g items)) in W.
    unfold wp_out in W. unfold safe_outcome. destruct (run bd g n parse_parts s) as [[?| | |] ?]; auto.
  Qed.

  (** The invariant holds even after errors and panics. *)
  Lemma exec_inv B (o : op B) s r s' : exec g o s = (r, s') -> invB g items s -> invB g items s'.
  Proof.
    intros H Hi. pose proof (next_item_B g items s Hi) as N.
    destruct o; cbn -[next_item] in H;
      repeat match type of H with
             | context [match ?x with _ => _ end] => destruct x eqn:?
             end; inversion H; subst; try tauto.
    rewrite H in N. destruct r; tauto.
  Qed.

  Lemma call_inv n B (c : call B) s r s' : run_call bd g n c s = (r, s') -> invB g items s -> invB g items s'.
  Proof.
    intros H. eapply (run_call_rel call bd g (fun s s' => invB g items s -> invB g items s')); eauto.
    intros. eapply exec_inv; eauto.
  Qed.

  Lemma start_safe :
    match start g items with
    | (Ok _, s) => invB g items s
    | (Err e, s) => errB g items e s
    | (Panic, _) => ~ contract
    | (NoFuel, _) => False
    end.
  Proof.
    unfold start.
    pose proof (next_item_loop_rest g items items (0, 0) (initial_state items) eq_refl) as I2.
    specialize (I2 ltac:(rewrite Forall_forall; intros r Hr; right; eauto)).
    pose proof (start_inp g items (0, 0) (initial_state items)) as I1.
    assert (Hc : contract -> exists s', next_item g (initial_state items) = (Ok (mkItem TEoF 0 0), s')
                   /\ scan_ok (g_stream g) s').
    { intros (C1 & C2 & C3).
      destruct (next_item_loop_scan g items (0, 0) (initial_state items)) as (s' & E' & S' & _); auto;
        try (exists [], (g_stream g); auto; fail). exists s'. auto. }
    pose proof (next_item_loop_eof g items (0, 0) (initial_state items) eq_refl) as He.
    change (next_item_loop g items (0, 0) (initial_state items)) with (next_item g (initial_state items)) in *.
    cbn zeta in *. cbn [initial_state st_look it_tok is_eof] in He.
    destruct (next_item g (initial_state items)) as [[i|e| |] s] eqn:E; cbn [fst snd] in *.
    - split; [specialize (I1 _ _ eq_refl eq_refl); destruct I1 as [?|[? ?]]; [right; assumption|left; auto]|]. split; [exact I2|]. split.
      + intros C. destruct (Hc C) as (s' & E' & S'). inversion E'; subst. exact S'.
      + intros C. destruct He as [_ He]; auto. destruct (is_eof (it_tok (st_look s))); auto.
        destruct He as [He|[_ He]]; auto. exfalso. eapply He. reflexivity.
    - destruct (next_item_loop_err g _ _ _ _ _ E) as [->|[->|[p ->]]]; cbn; auto.
      + intros C. destruct He as [He _]; auto.
      + split; auto. intros C. destruct (Hc C) as (s' & E' & S'). inversion E'.
    - intros C. destruct (Hc C) as (s' & E' & S'). inversion E'.
    - eapply next_item_not_nofuel; eauto.
  Qed.

  Lemma iter_inv n s r s' : iter_next g n s = (r, s') -> invB g items s -> invB g items s'.
  Proof.
    unfold iter_next. destruct (is_eof _); [intros H; inversion H; auto|].
    destruct (run_call _ g n CNextPart s) as [o t] eqn:E. intros H Hi. inversion H; subst. eapply call_inv; eauto.
  Qed.
  Lemma reachable_inv s : reachable g items s -> invB g items s.
  Proof.
    intros H. induction H as [i s H|s n r s' H IH H1].
    - pose proof start_safe as S. rewrite H in S. exact S.
    - eapply iter_inv; eauto.
  Qed.

  Lemma iter_safe n s : invB g items s ->
    match iter_next g n s with
    | (Some (Err e), s') => errB g items e s'
    | (Some Panic, _) => ~ contract
    | _ => True
    end.
  Proof.
    intros Hi. unfold iter_next. destruct (is_eof _); [exact I|].
    pose proof (call_safe n _ CNextPart s Hi Logic.I) as S. unfold safe_outcome in S.
    destruct (run_call _ g n CNextPart s) as [[| | |] ?]; auto.
  Qed.
End Safe.

(** ** The end-of-file token is taken once *)
Lemma moves_trans g a b c : moves g a b -> moves g b c -> moves g a c.
Proof. induction 1; eauto using moves_step. Qed.
Lemma call_moves g n B (c : call B) s r s' : run_call bd g n c s = (r, s') -> moves g s s'.
Proof.
  eapply (run_call_rel call bd g (moves g)); [constructor|apply moves_trans|].
  intros. econstructor; eauto. constructor.
Qed.
Lemma reachable_moves g items s : reachable g items s -> exists i s0, start g items = (Ok i, s0) /\ moves g s0 s.
Proof.
  intros H. induction H as [i s H|s n r s' H (i & s0 & H1 & H2) H3].
  - exists i, s. split; auto. constructor.
  - exists i, s0. split; auto. eapply moves_trans; eauto. unfold iter_next in H3.
    destruct (is_eof _); [inversion H3; constructor|].
    destruct (run_call _ g n CNextPart s) as [o t] eqn:E. inversion H3; subst. eapply call_moves; eauto.
Qed.
Lemma moves_inv g items s s' : moves g s s' -> invB g items s -> invB g items s'.
Proof. induction 1; auto. intros. apply IHmoves. eapply exec_inv; eauto. Qed.

Definition at_end (s : state) : Prop :=
  st_found_eof s = true /\ st_rest s = [] /\ is_eof (it_tok (st_look s)) = true.
Lemma at_end_next g s : at_end s -> exists s', next_item g s = (Err ParseAfterEoF, s') /\ at_end s'.
Proof.
  intros (H1 & H2 & H3). unfold next_item. rewrite H2. cbn. rewrite H3, H1. eexists. split; [reflexivity|].
  split; auto.
Qed.
Lemma at_end_exec g B (o : op B) s r s' : exec g o s = (r, s') -> at_end s -> at_end s'.
Proof.
  intros H Ha. destruct (at_end_next g s Ha) as (t & E & Ht).
  destruct o; cbn -[next_item] in H; rewrite ?E in H;
    repeat match type of H with
           | context [match ?x with _ => _ end] => destruct x eqn:?
           end; inversion H; subst; auto.
Qed.
Lemma at_end_moves g s s' : moves g s s' -> at_end s -> at_end s'.
Proof. induction 1; eauto using at_end_exec. Qed.

Lemma eof_taken_once g items i0 s0 s i s1 s2 :
  ends_with_eof items -> start g items = (Ok i0, s0) ->
  moves g s0 s -> next_item g s = (Ok i, s1) -> is_eof (it_tok i) = true -> moves g s1 s2 ->
  exists s3, next_item g s2 = (Err ParseAfterEoF, s3).
Proof.
  intros He Hs Hm Hn Hi Hm2.
  pose proof (start_safe g items) as S. rewrite Hs in S.
  pose proof (moves_inv g items _ _ Hm S) as (_ & _ & _ & E). specialize (E He).
  destruct (next_item_ok _ _ _ _ Hn) as (-> & _). rewrite Hi in E.
  unfold next_item in Hn. rewrite E in Hn. cbn in Hn. rewrite Hi in Hn.
  destruct (st_found_eof s); inversion Hn; subst.
  assert (A : at_end s2) by (eapply at_end_moves; [eassumption|repeat split; auto]).
  destruct (at_end_next g s2 A) as (s3 & E3 & _). eauto.
Qed.

(** ** What is returned *)
Section Returns.
  Variable sc : scanner.
  Variables (tolerant module : bool) (js : text).
  Notation g := (make_cfg sc tolerant module js).
  Notation items := (sc_scan sc js).

  Notation api_outcome := (api_outcome sc tolerant module js).

  Lemma api_error A (e : error) : api_outcome (@Err A e) -> exists s, errB g items e s.
  Proof.
    intros H. remember (Err e) as o eqn:Ho. destruct H as [|s n H|s n r H Hr|s n H].
    - pose proof (start_safe g items) as S. destruct (start g items) as [r s]. cbn in Ho. subst. eauto.
    - pose proof (parse_safe g items n s (reachable_inv _ _ _ H)) as S. unfold safe_outcome in S.
      destruct (parse g n s) as [r t]. cbn in Ho. subst. eauto.
    - pose proof (iter_safe g items n s (reachable_inv _ _ _ H)) as S.
      destruct (iter_next g n s) as [r' t]. cbn in Hr. subst. eauto.
    - pose proof (call_safe g items n _ CExpression s (reachable_inv _ _ _ H) Logic.I) as S. unfold safe_outcome in S.
      unfold parse_expression in Ho. destruct (run_call _ g n CExpression s) as [r t]. cbn in Ho. subst. eauto.
  Qed.
  Lemma api_panic A : api_outcome (@Panic A) -> ~ scan_contract js items.
  Proof.
    intros H. remember Panic as o eqn:Ho. destruct H as [|s n H|s n r H Hr|s n H].
    - pose proof (start_safe g items) as S. destruct (start g items) as [r s]. cbn in Ho. subst. auto.
    - pose proof (parse_safe g items n s (reachable_inv _ _ _ H)) as S. unfold safe_outcome in S.
      destruct (parse g n s) as [r t]. cbn in Ho. subst. auto.
    - pose proof (iter_safe g items n s (reachable_inv _ _ _ H)) as S.
      destruct (iter_next g n s) as [r' t]. cbn in Hr. subst. auto.
    - pose proof (call_safe g items n _ CExpression s (reachable_inv _ _ _ H) Logic.I) as S. unfold safe_outcome in S.
      unfold parse_expression in Ho. destruct (run_call _ g n CExpression s) as [r t]. cbn in Ho. subst. auto.
  Qed.
End Returns.
