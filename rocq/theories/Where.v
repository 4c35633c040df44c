(** Where errors are found: an error that names a token names one that has been read since the
    call began, or the one being looked at. *)
From Verif Require Export Safe.
Export Parser.

Definition left (s : state) : nat := length (st_rest s).

Section PassW.
  Variable g : cfg.
  (** The tokens from the one looked at when the call began. *)
  Variable base : list raw.

  (** [i] is one of them, and at least [n] come after it. *)
  Definition before (i : item) (n : nat) : Prop :=
    exists l r l', base = l ++ r :: l' /\ i = r_item r /\ n <= length l'.
  Definition invW (s : state) : Prop :=
    before (st_look s) (left s) /\ exists l, base = l ++ st_rest s.
  Definition errW (e : error) (s : state) : Prop :=
    match e with
    | UnexpectedToken p (MExpected _ found) => exists i, before i (left s) /\ p = item_pos g i /\ found = it_tok i
    | UnexpectedToken p (MUnexpected w _) => exists i, before i (left s) /\ p = item_pos g i /\ w = text_of (g_stream g) i
    | _ => True
    end.

  Definition preW (m : nat) B (c : call B) (s : state) : Prop := invW s.
  Definition postW B (c : call B) (s : state) (b : B) (s' : state) : Prop := invW s' /\ left s' <= left s.

  Notation wpW m p Q s := (wp g false preW postW errW True m p Q s).

  Lemma before_mono i n n' : before i n -> n' <= n -> before i n'.
  Proof. intros (l & r & l' & E & Hi & H) L. exists l, r, l'. repeat split; auto. lia. Qed.
  Lemma inv_look s : invW s -> before (st_look s) (left s).
  Proof. intros H. apply H. Qed.

  Lemma next_item_loop_W : forall rest sp s o s', st_rest s = rest -> invW s ->
    next_item_loop g rest sp s = (o, s') -> invW s' /\ left s' <= left s.
  Proof.
    induction rest as [|r rest IH]; intros sp s o s' Hr [Hb [l Hl]] E; cbn [next_item_loop] in E.
    - assert (K : before (st_look s) 0) by (eapply before_mono; [exact Hb|lia]).
      destruct (is_eof _); [destruct (st_found_eof s)|]; inversion E; subst; unfold left; cbn [st_rest length];
        (split; [split; [exact K|exists base; cbn [st_rest]; rewrite app_nil_r; reflexivity]|lia]).
    - destruct (update_positions _ _ _ _ _) as [[cur lpos]|];
        [|inversion E; subst; split; [split; [exact Hb|eauto]|lia]].
      assert (Hl' : exists l, base = l ++ rest) by (exists (l ++ [r]); rewrite <- app_assoc, Hl, Hr; reflexivity).
      assert (Hb' : before (st_look s) (length rest))
        by (eapply before_mono; [exact Hb|unfold left; rewrite Hr; cbn; lia]).
      destruct (it_tok (r_item r)) eqn:Ht;
        try (inversion E; subst; unfold left; rewrite Hr; cbn [st_rest st_look length];
             split; [split; [exists l, r, rest; rewrite Hl, Hr; auto|exact Hl']|lia]; fail).
      destruct (slice _ _ _).
      + eapply IH in E; [|reflexivity|split; assumption].
        destruct E as [E1 E2]. split; [exact E1|]. unfold left in *. rewrite Hr. cbn [st_rest length] in *. lia.
      + inversion E; subst. unfold left. rewrite Hr. cbn [st_rest length]. split; [split; assumption|lia].
  Qed.
  Lemma next_item_W s o s' : invW s -> next_item g s = (o, s') -> invW s' /\ left s' <= left s.
  Proof. intros H E. eapply next_item_loop_W; [reflexivity|exact H|exact E]. Qed.

  Lemma wpW_ret m A (a : A) (Q : A -> state -> Prop) s : Q a s -> wpW m (Ret a) Q s.
  Proof. exact (fun H => H). Qed.
  Lemma wpW_bind m A B (p : P A) (k : A -> P B) Q s :
    wpW m p (fun a s' => wpW m (k a) Q s') s -> wpW m (Bind p k) Q s.
  Proof. exact (fun H => H). Qed.
  Lemma wpW_cut m A B (R : A -> Prop) (p : P A) (k : A -> P B) Q s :
    wpW m p (fun a s' => invW s' /\ left s' <= left s /\ R a) s ->
    (forall a s', invW s' -> left s' <= left s -> R a -> wpW m (k a) Q s') ->
    wpW m (Bind p k) Q s.
  Proof. intros H1 H2. apply wpW_bind. eapply wp_mono; [|exact H1]. cbn. intros a s' (? & ? & ?). auto. Qed.

  Definition desc_at (d : fail_desc) (n : nat) : Prop :=
    match d with
    | FExpected i _ | FUnexpected i _ => before i n
    | FRedecl _ | FReinterpret _ _ | FOperation _ => True
    | FError (UnexpectedToken _ (MPlain _)) => True
    | FError (UnexpectedToken _ _) => False
    | FError _ => True
    end.
  Lemma desc_at_ok d s : desc_at d (left s) -> errW (mk_error g s d) s.
  Proof.
    destruct d as [i l|i l| | | |e]; cbn; auto.
    - intros H. exists i. auto.
    - intros H. exists i. unfold text_of. auto.
    - destruct e as [p [| |]| | | | | | | | |]; cbn; tauto.
  Qed.

  Lemma wpW_fail m A d (Q : A -> state -> Prop) s : desc_at d (left s) -> wpW m (Fail d) Q s.
  Proof. apply desc_at_ok. Qed.
  Lemma next_err s e s' : next_item g s = (Err e, s') -> errW e s'.
  Proof. intros E. destruct (next_item_loop_err g _ _ _ _ _ E) as [->|[->|[p ->]]]; exact I. Qed.
  Lemma wpW_next m (Q : item -> state -> Prop) s :
    invW s -> (forall s', invW s' -> left s' <= left s -> Q (st_look s) s') -> wpW m next Q s.
  Proof.
    intros Hi H. unfold next. cbn [wp]. unfold wp_out, exec.
    destruct (next_item g s) as [[i|e| |] s'] eqn:E; try exact I.
    - destruct (next_item_W _ _ _ Hi E). destruct (next_item_ok _ _ _ _ E) as (-> & _). auto.
    - eapply next_err; eauto.
    - exfalso. eapply next_item_not_nofuel; eauto.
  Qed.
  Lemma wpW_nextignored m (Q : unit -> state -> Prop) s :
    invW s -> (forall s', invW s' -> left s' <= left s -> Q tt s') -> wpW m (Do ONextIgnored) Q s.
  Proof.
    intros Hi H. cbn [wp]. unfold wp_out, exec.
    destruct (next_item g s) as [[i|e| |] s'] eqn:E; try exact I.
    - destruct (next_item_W _ _ _ Hi E). auto.
    - destruct (next_item_W _ _ _ Hi E). auto.
    - exfalso. eapply next_item_not_nofuel; eauto.
  Qed.
  Lemma wpW_upd m f (Q : unit -> state -> Prop) s :
    invW s -> (forall s', invW s' -> left s' <= left s -> st_look s' = st_look s -> Q tt s') -> wpW m (Do (OUpd f)) Q s.
  Proof. intros Hi H. cbn. apply H; auto. Qed.
  Lemma wpW_tolerate m d (Q : unit -> state -> Prop) s :
    desc_at d (left s) -> Q tt s -> wpW m (Do (OTolerate d)) Q s.
  Proof. intros Hd H. cbn. destruct (g_tolerant g); cbn; auto. apply desc_at_ok. exact Hd. Qed.
  Lemma wpW_guard m b d (Q : unit -> state -> Prop) s :
    desc_at d (left s) -> Q tt s -> wpW m (Do (OGuardModule b d)) Q s.
  Proof.
    intros Hd H. cbn. destruct (g_module g); [destruct b as [[]|]|]; cbn; auto.
    apply desc_at_ok. exact Hd.
  Qed.
  Lemma wpW_str m i (Q : option text -> state -> Prop) s : (forall o, Q o s) -> wpW m (Do (OStr i)) Q s.
  Proof. intros H. cbn. auto. Qed.
  Lemma wpW_pure m B (o : op B) (Q : B -> state -> Prop) s :
    match o with
    | ONext | ONextIgnored | OUpd _ | OExpectComma | OTolerate _ | OGuardModule _ _ | OLook => False
    | _ => True
    end ->
    (forall b, Q b s) -> wpW m (Do o) Q s.
  Proof. intros Ho H. destruct o; cbn in *; try tauto; auto. Qed.
  Lemma wpW_look m (Q : item -> state -> Prop) s : Q (st_look s) s -> wpW m look Q s.
  Proof. intros H. exact H. Qed.
  Lemma wpW_expectcomma m (Q : unit -> state -> Prop) s :
    invW s -> (forall s', invW s' -> left s' <= left s -> Q tt s') -> wpW m (Do OExpectComma) Q s.
  Proof.
    intros Hi H. cbn [wp]. unfold wp_out, exec.
    destruct (next_item g s) as [[i|e| |] s'] eqn:E.
    - destruct (next_item_W _ _ _ Hi E). destruct (next_item_ok _ _ _ _ E) as (-> & _).
      destruct (g_tolerant g); destruct (is_punct _ _); auto.
      apply desc_at_ok. cbn [desc_at]. eapply before_mono; [apply inv_look; exact Hi|assumption].
    - destruct (g_tolerant g); [destruct (is_punct _ _); auto|]; eapply next_err; eauto.
    - destruct (g_tolerant g); [destruct (is_punct _ _); auto|]; exact I.
    - exfalso. eapply next_item_not_nofuel; eauto.
  Qed.
  Lemma wpW_call m B (c : call B) (Q : B -> state -> Prop) s :
    invW s -> (forall b s', invW s' -> left s' <= left s -> Q b s') -> wpW m (Call c) Q s.
  Proof. intros H1 H2. cbn [wp]. split; auto. intros b s' [? ?]. auto. Qed.
  Lemma wpW_loop m A X (R : X -> Prop) (x : X) (b : X -> P (X + A)) (Q : A -> state -> Prop) s :
    invW s -> R x ->
    (forall y s1, invW s1 -> left s1 <= left s -> R y ->
       wpW m (b y) (fun r s2 => match r with inl y' => invW s2 /\ left s2 <= left s /\ R y' | inr a => Q a s2 end) s1) ->
    wpW m (Loop x b) Q s.
  Proof.
    intros H1 H2 H3. cbn [wp]. exists (fun y s1 => invW s1 /\ left s1 <= left s /\ R y).
    split; [auto|]. split; [discriminate|]. intros y s1 (? & ? & ?).
    eapply wp_mono; [|apply H3; auto]. cbn beta. intros [y'|a] s2 Hq; auto. split; auto; discriminate.
  Qed.
  Lemma wpW_get m A (f : ctx -> A) (Q : A -> state -> Prop) s :
    (forall a, Q a s) -> wpW m (get f) Q s.
  Proof. intros H. cbn. auto. Qed.
  Lemma wpW_look_tok m (Q : token -> state -> Prop) s : Q (it_tok (st_look s)) s -> wpW m look_tok Q s.
  Proof. intros H. cbn. auto. Qed.
  Lemma wpW_at_punct m p (Q : bool -> state -> Prop) s :
    Q (is_punct p (it_tok (st_look s))) s -> wpW m (at_punct p) Q s.
  Proof. intros H. cbn. auto. Qed.
  Lemma wpW_at_keyword m p (Q : bool -> state -> Prop) s :
    Q (is_keyword p (it_tok (st_look s))) s -> wpW m (at_keyword p) Q s.
  Proof. intros H. cbn. auto. Qed.
  Lemma wpW_fail_look m A l (Q : A -> state -> Prop) s : invW s -> wpW m (fail_look l) Q s.
  Proof. intros H. apply wpW_bind, wpW_look, wpW_fail. apply inv_look. exact H. Qed.
  Lemma wpW_expect_punct m p (Q : unit -> state -> Prop) s :
    invW s -> (forall s', invW s' -> left s' <= left s -> Q tt s') -> wpW m (expect_punct p) Q s.
  Proof.
    intros Hi H. apply wpW_bind, wpW_next; auto. intros s' E L. destruct (is_punct _ _); [cbn; auto|].
    apply wpW_fail. cbn [desc_at]. eapply before_mono; [apply inv_look; exact Hi|exact L].
  Qed.
  Lemma wpW_expect_keyword m p (Q : unit -> state -> Prop) s :
    invW s -> (forall s', invW s' -> left s' <= left s -> Q tt s') -> wpW m (expect_keyword p) Q s.
  Proof.
    intros Hi H. apply wpW_bind, wpW_next; auto. intros s' E L. destruct (is_keyword _ _); [cbn; auto|].
    apply wpW_fail. cbn [desc_at]. eapply before_mono; [apply inv_look; exact Hi|exact L].
  Qed.
  Lemma wpW_stream_at m i (Q : text -> state -> Prop) s : (forall a, Q a s) -> wpW m (stream_at i) Q s.
  Proof. intros H. apply wpW_bind, wpW_str. intros [w|]; [cbn; auto|exact I]. Qed.
  Lemma wpW_get_string m i (Q : text -> state -> Prop) s : (forall a, Q a s) -> wpW m (get_string i) Q s.
  Proof. intros H. apply wpW_bind, wpW_str. intros [w|]; [cbn; auto|]. apply wpW_fail. exact I. Qed.
  Lemma wpW_string_or_empty m i (Q : text -> state -> Prop) s :
    (forall a, Q a s) -> wpW m (string_or_empty i) Q s.
  Proof. intros H. cbn. auto. Qed.
  Lemma wpW_at_contextual m w (Q : bool -> state -> Prop) s : (forall a, Q a s) -> wpW m (at_contextual w) Q s.
  Proof. intros H. apply wpW_bind, wpW_look, wpW_bind, wpW_stream_at. intros a. cbn. auto. Qed.
  Lemma wpW_at_async_function m (Q : bool -> state -> Prop) s : (forall a, Q a s) -> wpW m at_async_function Q s.
  Proof.
    intros H. apply wpW_bind, wpW_at_contextual. intros []; [|cbn; auto].
    apply wpW_bind, wpW_pure; cbn; auto. intros [pk|]; cbn; auto.
  Qed.
  Lemma wpW_at_import_call m (Q : bool -> state -> Prop) s :
    (forall a, Q a s) -> wpW m at_import_call Q s.
  Proof. intros H. cbn. destruct (is_keyword _ _); cbn; auto. Qed.
  Lemma wpW_at_lexical_decl m (Q : bool -> state -> Prop) s :
    (forall a, Q a s) -> wpW m at_lexical_decl Q s.
  Proof. intros H. cbn. auto. Qed.
  Lemma wpW_at_return_arg m (Q : bool -> state -> Prop) s :
    (forall a, Q a s) -> wpW m at_return_arg Q s.
  Proof. intros H. cbn. destruct (st_nl s); cbn; auto. Qed.
  Lemma wpW_qualified m t (Q : bool -> state -> Prop) s :
    (forall a, Q a s) -> wpW m (qualified_prop_name t) Q s.
  Proof. intros H. cbn. auto. Qed.
  Lemma wpW_isolated m A (p : P A) (Q : A -> state -> Prop) s :
    invW s -> (forall s1, invW s1 -> left s1 <= left s -> st_look s1 = st_look s ->
      wpW m p (fun a s2 => invW s2 /\ forall s3, invW s3 -> left s3 <= left s2 -> Q a s3) s1) ->
    wpW m (isolated p) Q s.
  Proof.
    intros Hi H. unfold isolated, isolate_cover, get_cover.
    cbn [wp exec wp_out upd]. eapply wp_mono; [|apply H; auto].
    cbn beta. intros a s2 [Hj Hq]. apply Hq; [exact Hj|apply le_n].
  Qed.
  Lemma wpW_inheriting m A (p : P A) (Q : A -> state -> Prop) s :
    invW s -> (forall s1, invW s1 -> left s1 <= left s -> st_look s1 = st_look s ->
      wpW m p (fun a s2 => invW s2 /\ forall s3, invW s3 -> left s3 <= left s2 -> Q a s3) s1) ->
    wpW m (inheriting p) Q s.
  Proof.
    intros Hi H. unfold inheriting, inherit_cover, isolate_cover, get_cover.
    cbn [wp exec wp_out upd]. eapply wp_mono; [|apply H; auto].
    cbn beta. intros a s2 [Hj Hq]. apply Hq; [exact Hj|apply le_n].
  Qed.
  Lemma wpW_cover_formals m e (Q : option (list FunctionArg) -> state -> Prop) s :
    invW s -> (forall a, Q a s) -> wpW m (cover_formals e) Q s.
  Proof.
    intros Hi H. unfold cover_formals.
    destruct (match e with EIdent _ => _ | _ => _ end) as [[ps a]|]; [|cbn; auto].
    destruct (existsb snd _); [apply wpW_fail_look; exact Hi|]. apply wpW_bind, wpW_get. intros.
    apply wpW_bind, wpW_get. intros. destruct (_ && _ && _); [apply wpW_fail_look; exact Hi|]. cbn; auto.
  Qed.
End PassW.

Ltac beforeW := eapply before_mono; [first [eassumption | eapply inv_look; eassumption]|lia].
Ltac finW :=
  unfold postW in *;
  repeat match goal with H : st_look _ = st_look _ |- _ => rewrite H in *; clear H end;
  solve [ assumption | exact I | lia | beforeW | (split; [assumption|lia]) | (split; [assumption|split; [lia|exact I]]) ].

Ltac stepW :=
  match goal with
  | |- wp _ _ _ _ _ _ _ Crash _ _ => exact I
  | |- wp _ _ _ _ _ _ _ (inner_slice _ _) _ _ => unfold inner_slice
  | |- wp _ _ _ _ _ _ _ (Ret _) _ _ => apply wpW_ret; cbn beta
  | |- wp _ _ _ _ _ _ _ (Fail _) _ _ => apply wpW_fail; cbn [desc_at]
  | |- wp _ _ _ _ _ _ _ (fail_look _) _ _ => apply wpW_fail_look; [assumption]
  | |- wp _ _ _ _ _ _ _ next _ _ => apply wpW_next; [assumption|intros]
  | |- wp _ _ _ _ _ _ _ (Do ONextIgnored) _ _ => apply wpW_nextignored; [assumption|intros]
  | |- wp _ _ _ _ _ _ _ (Do OExpectComma) _ _ => apply wpW_expectcomma; [assumption|intros]
  | |- wp _ _ _ _ _ _ _ (Do (OUpd _)) _ _ => apply wpW_upd; [assumption|intros]
  | |- wp _ _ _ _ _ _ _ (Do (OTolerate _)) _ _ => apply wpW_tolerate; [cbn [desc_at errW]; try finW|]
  | |- wp _ _ _ _ _ _ _ (Do (OGuardModule _ _)) _ _ => apply wpW_guard; [cbn [desc_at]; try finW|]
  | |- wp _ _ _ _ _ _ _ (Do (OStr _)) _ _ => apply wpW_str; intros
  | |- wp _ _ _ _ _ _ _ (upd _) _ _ => apply wpW_upd; [assumption|intros]
  | |- wp _ _ _ _ _ _ _ not_target _ _ => apply wpW_upd; [assumption|intros]
  | |- wp _ _ _ _ _ _ _ (set_target_binding _ _) _ _ => apply wpW_upd; [assumption|intros]
  | |- wp _ _ _ _ _ _ _ (set_isolate_cover ?c) _ _ => destruct c as [[? ?] ?]; apply wpW_upd; [assumption|intros]
  | |- wp _ _ _ _ _ _ _ (set_inherit_cover ?c) _ _ => destruct c as [[? ?] ?]; apply wpW_upd; [assumption|intros]
  | |- wp _ _ _ _ _ _ _ isolate_cover _ _ => unfold isolate_cover
  | |- wp _ _ _ _ _ _ _ inherit_cover _ _ => unfold inherit_cover, isolate_cover
  | |- wp _ _ _ _ _ _ _ get_cover _ _ => unfold get_cover
  | |- wp _ _ _ _ _ _ _ look _ _ => apply wpW_look
  | |- wp _ _ _ _ _ _ _ (Do _) _ _ => apply wpW_pure; [exact I|intros]
  | |- wp _ _ _ _ _ _ _ (get _) _ _ => apply wpW_get; intros
  | |- wp _ _ _ _ _ _ _ look_tok _ _ => apply wpW_look_tok
  | |- wp _ _ _ _ _ _ _ (at_punct _) _ _ => apply wpW_at_punct
  | |- wp _ _ _ _ _ _ _ (at_keyword _) _ _ => apply wpW_at_keyword
  | |- wp _ _ _ _ _ _ _ (expect_punct _) _ _ => apply wpW_expect_punct; [assumption|intros]
  | |- wp _ _ _ _ _ _ _ (expect_keyword _) _ _ => apply wpW_expect_keyword; [assumption|intros]
  | |- wp _ _ _ _ _ _ _ (stream_at _) _ _ => apply wpW_stream_at; intros
  | |- wp _ _ _ _ _ _ _ (get_string _) _ _ => apply wpW_get_string; intros
  | |- wp _ _ _ _ _ _ _ (string_or_empty _) _ _ => apply wpW_string_or_empty; intros
  | |- wp _ _ _ _ _ _ _ (at_contextual _) _ _ => apply wpW_at_contextual; intros
  | |- wp _ _ _ _ _ _ _ at_async_function _ _ => apply wpW_at_async_function; intros
  | |- wp _ _ _ _ _ _ _ at_import_call _ _ => apply wpW_at_import_call; intros
  | |- wp _ _ _ _ _ _ _ at_lexical_decl _ _ => apply wpW_at_lexical_decl; intros
  | |- wp _ _ _ _ _ _ _ at_return_arg _ _ => apply wpW_at_return_arg; intros
  | |- wp _ _ _ _ _ _ _ (qualified_prop_name _) _ _ => apply wpW_qualified; intros
  | |- wp _ _ _ _ _ _ _ (cover_formals _) _ _ => apply wpW_cover_formals; [assumption|intros]
  | |- wp _ _ _ _ _ _ _ (Call _) _ _ => apply wpW_call; [assumption|intros]
  | |- wp _ _ _ _ _ _ _ (isolated _) _ _ => apply wpW_isolated; [assumption|intros]
  | |- wp _ _ _ _ _ _ _ (inheriting _) _ _ => apply wpW_inheriting; [assumption|intros]
  | |- wp _ _ _ _ _ _ _ (Loop _ _) _ _ => apply (wpW_loop _ _ _ _ _ (fun _ => True)); [assumption|exact I|intros]
  | |- wp _ _ _ _ _ _ _ (Bind (match _ with _ => _ end) _) _ _ => cutW
  | |- wp _ _ _ _ _ _ _ (Bind (Bind _ (fun b => if b then _ else _)) _) _ _ => cutW
  | |- wp _ _ _ _ _ _ _ (Bind class_el_head _) _ _ => cutW
  | |- wp _ _ _ _ _ _ _ (Bind (class_el_mid _) _) _ _ => cutW
  | |- wp _ _ _ _ _ _ _ (Bind (obj_prop_head _) _) _ _ => cutW
  | |- wp _ _ _ _ _ _ _ (comma_list _) _ _ => unfold comma_list
  | |- wp _ _ _ _ _ _ _ (arg_list _) _ _ => unfold arg_list
  | |- wp _ _ _ _ _ _ _ class_el_head _ _ => unfold class_el_head
  | |- wp _ _ _ _ _ _ _ (class_el_mid _) _ _ => unfold class_el_mid
  | |- wp _ _ _ _ _ _ _ (obj_prop_head _) _ _ => unfold obj_prop_head
  | |- wp _ _ _ _ _ _ _ (obj_prop_plain _ _ _ _ _ _) _ _ => unfold obj_prop_plain
  | |- wp _ _ _ _ _ _ _ (arrow_rest _) _ _ => unfold arrow_rest
  | |- wp _ _ _ _ _ _ _ (assign_rest _) _ _ => unfold assign_rest
  | |- wp _ _ _ _ _ _ _ computed_member _ _ => unfold computed_member
  | |- wp _ _ _ _ _ _ _ (Bind _ _) _ _ => apply wpW_bind
  | |- wp _ _ _ _ _ _ _ (match ?x with _ => _ end) _ _ => destruct x eqn:?
  | |- forall _, _ => intros
  | |- match ?x with _ => _ end => destruct x
  | |- invW _ _ /\ _ => split
  end
with cutW := apply (wpW_cut _ _ _ _ _ (fun _ => True)); [solve [repeat stepW; try finW] | intros].
Ltac goW := repeat stepW; try finW.

Section Bodies.
  Variable g : cfg.
  Variable base : list raw.
  Notation wpW m p Q s := (wp g false (preW base) (postW base) (errW g base) True m p Q s).

  Lemma wpW_function m o s : invW base s ->
    wpW m (function_decl o) (postW base _ (CFunctionDecl o) s) s.
  Proof.
    intros Hi. unfold function_decl.
    repeat (lazymatch goal with
            | |- wp _ _ _ _ _ _ _ (@Bind _ (option Identifier * option item) _ _ _) _ _ => fail
            | _ => stepW
            end; try assumption).
    match goal with |- wp _ _ _ _ _ _ _ _ _ ?s1 =>
      apply (wpW_cut _ _ _ _ _ (fun r => forall i, snd r = Some i -> before base i (left s1))) end.
    - repeat stepW; repeat match goal with |- _ /\ _ => split end; try finW;
        cbn; intros; try discriminate; match goal with E : Some _ = Some _ |- _ => injection E as <- end; finW.
    - intros [id fr] s1 Hi1 L1 Hfr. cbn [snd] in Hfr. goW.
      all: eapply before_mono; [apply Hfr; reflexivity|lia].
  Qed.

  Lemma bodiesW : forall m B (c : call B) s, preW base (S m) _ c s ->
    wpW m (body c) (postW base _ c s) s.
  Proof.
    intros m B c s H. unfold preW in H.
    destruct c; cbn [body].
    all: lazymatch goal with
         | |- wp _ _ _ _ _ _ _ (function_decl _) _ _ => apply wpW_function; exact H
         | |- wp _ _ _ _ _ _ _ ?p _ _ => unfold_head p
         end.
    all: try solve [goW].
  Qed.
End Bodies.

(** ** Runs *)
Section Runs.
  Variable g : cfg.

  (** The tokens a call takes from the scanner, and the one looked at before. *)
  Definition base_of (s : state) : list raw := mkRaw (st_look s) (st_nl s) :: st_rest s.
  Lemma inv_start s : invW (base_of s) s.
  Proof.
    split; [exists [], (mkRaw (st_look s) (st_nl s)), (st_rest s); auto|].
    exists [mkRaw (st_look s) (st_nl s)]. reflexivity.
  Qed.
  Definition onward base (s s' : state) : Prop := invW base s -> invW base s' /\ left s' <= left s.
  Lemma exec_invW base B (o : op B) s r s' : exec g o s = (r, s') -> onward base s s'.
  Proof.
    intros H Hi. destruct (next_item g s) as [x t] eqn:N. destruct (next_item_W g base s x t Hi N) as [Ht Hn].
    destruct o; cbn -[next_item] in H; rewrite ?N in H;
      repeat match type of H with
             | context [match ?x with _ => _ end] => destruct x eqn:?
             end; inversion H; subst; (split; [assumption|unfold left in *; cbn in *; lia]).
  Qed.
  Lemma onward_refl base s : onward base s s.
  Proof. intros H. auto. Qed.
  Lemma onward_trans base a b c : onward base a b -> onward base b c -> onward base a c.
  Proof. intros H1 H2 H. destruct (H1 H) as [H3 H4]. destruct (H2 H3). split; auto. lia. Qed.
  Lemma call_onward base n B (c : call B) s r s' : run_call bd g n c s = (r, s') -> onward base s s'.
  Proof.
    eapply (run_call_rel call bd g (onward base)); eauto using onward_refl, onward_trans.
    intros. eapply exec_invW; eauto.
  Qed.
  Lemma run_onward base n B (p : P B) s r s' : run bd g n p s = (r, s') -> onward base s s'.
  Proof.
    eapply (run_rel call bd g (onward base)); eauto using onward_refl, onward_trans.
    intros. eapply exec_invW; eauto.
  Qed.
  Lemma call_where n B (c : call B) s e s' : run_call bd g n c s = (Err e, s') ->
    errW g (base_of s) e s' /\ invW (base_of s) s' /\ left s' <= left s.
  Proof.
    intros E. split; [|eapply call_onward; eauto using inv_start].
    pose proof (wp_sound call bd g false (preW (base_of s)) (postW (base_of s)) (errW g (base_of s)) True
      ltac:(discriminate) (bodiesW g (base_of s)) n B c s (inv_start s)) as W.
    rewrite E in W. exact W.
  Qed.
  Lemma parse_where n s e s' : parse g n s = (Err e, s') ->
    errW g (base_of s) e s' /\ invW (base_of s) s' /\ left s' <= left s.
  Proof.
    unfold parse. intros E. destruct (run bd g n parse_parts s) as [[?| | |] t] eqn:R; try discriminate. inversion E; subst.
    split; [|eapply run_onward; eauto using inv_start].
    assert (W : wp g false (preW (base_of s)) (postW (base_of s)) (errW g (base_of s)) True n parse_parts
                  (fun _ s' => invW (base_of s) s') s) by (pose proof (inv_start s); unfold parse_parts; goW).
    apply (wp_sound_prog call bd g false (preW (base_of s)) (postW (base_of s)) (errW g (base_of s)) True
             ltac:(discriminate) (bodiesW g (base_of s))) in W.
    rewrite R in W. exact W.
  Qed.
  Lemma before_taken s s' i : before (base_of s) i (left s') -> invW (base_of s) s' -> left s' <= left s ->
    exists l, st_rest s = l ++ st_rest s' /\ (i = st_look s \/ exists r, In r l /\ i = r_item r).
  Proof.
    intros (l & r & l' & E & -> & L) [_ [l0 H]] Hs. unfold base_of, left in *.
    destruct l0 as [|r0 l0].
    { cbn in H. rewrite <- H in Hs. cbn in Hs. lia. }
    injection H as _ H. exists l0. split; [exact H|]. destruct l as [|r1 l].
    - left. injection E as <- _. reflexivity.
    - right. exists r. split; [|reflexivity]. injection E as _ E. rewrite H in E.
      clear - E L. revert l0 E. induction l as [|x l IH]; intros [|y l0] E; cbn in *.
      + exfalso. rewrite E in L. cbn in L. lia.
      + injection E as -> _. auto.
      + exfalso. rewrite E in L. cbn in L. rewrite app_length in L. cbn in L. lia.
      + injection E as _ E. auto.
  Qed.
End Runs.
