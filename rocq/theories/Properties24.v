(** C65: what can end a text can end a group. *)
From Verif Require Import Properties15.
From Verif Require Export Lexer Spec Runs Safe Ended Properties1 Properties2 Properties3 Properties5 Properties21 Properties22 Properties23.
Local Open Scope string_scope.
Local Open Scope list_scope.

(** *** C65
    Two parsers over the same text.  In the first the scanner items end with [fin], the end of the text; in
    the second the token [t] stands there, and more may follow.  The first is not past the end. *)
Inductive instead (fin t : raw) (more : list raw) : state -> state -> Prop :=
| ahead : forall c look pos lpos l nl cms, it_tok look <> TEoF -> Forall (fun x => it_tok (r_item x) <> TEoF) l ->
    instead fin t more (mkState c look false pos lpos (l ++ [fin]) nl cms) (mkState c look false pos lpos (l ++ t :: more) nl cms)
| there : forall c pos lpos nl cms,
    instead fin t more (mkState c (r_item fin) false pos lpos [] nl cms) (mkState c (r_item t) false pos lpos more nl cms).
(** [fin] is the end of the text and [t] is at the same place: it has a text, of one character. *)
Definition at_most_one (g : cfg) (i : item) : Prop := forall w, slice (g_stream g) (it_start i) (it_end i) = Some w -> List.length w <= 1.
Definition in_the_place (g : cfg) (fin t : raw) : Prop :=
  it_tok (r_item fin) = TEoF /\ it_start (r_item t) = it_start (r_item fin) /\ r_nl t = r_nl fin
  /\ at_most_one g (r_item fin) /\ at_most_one g (r_item t) /\ has_text g (r_item t).
(** The parser got to the end of the text without taking it for a token. *)
Definition got_to_the_end (s : state) : Prop := it_tok (st_look s) = TEoF /\ st_found_eof s = false.

Lemma instead_cases fin t more s1 s2 : instead fin t more s1 s2 -> before_end fin t more s1 s2 \/ Ended.at_end fin t more s1 s2.
Proof.
  intros [c look pos lpos l nl cms N F|c pos lpos nl cms].
  - left. split; [reflexivity|]. split; [destruct (is_eof (it_tok look)) eqn:E; [|exact E]; destruct (it_tok look); discriminate E || (exfalso; apply N; reflexivity)|].
    exists l. split; [|split; reflexivity]. unfold inner. eapply Forall_impl; [|exact F]. cbn. intros x K.
    destruct (is_eof (it_tok (r_item x))) eqn:E; [|reflexivity]. destruct (it_tok (r_item x)); discriminate E || (exfalso; apply K; reflexivity).
  - right. repeat split.
Qed.
Lemma cases_instead fin t more s1 s2 : before_end fin t more s1 s2 \/ Ended.at_end fin t more s1 s2 -> instead fin t more s1 s2.
Proof.
  intros [(Hf & Hl & r & Hr & E & ->)|(Hf & Hl & E & ->)]; destruct s1 as [c look found pos lpos rest nl cms]; cbn in *; subst.
  - unfold with_rest. cbn. apply ahead; [intros K; rewrite K in Hl; discriminate Hl|]. unfold inner in Hr. eapply Forall_impl; [|exact Hr].
    cbn. intros x K E. rewrite E in K. discriminate K.
  - apply there.
Qed.
Lemma closes_closing t : closer t -> closing_tok t.
Proof. intros [->|[->| ->]]; repeat split. Qed.
Lemma call_instead g fin t more n B (c : call B) s1 s2 a s1' : g_tolerant g = false -> in_the_place g fin t -> closer (it_tok (r_item t)) ->
  covered t c = true -> idle c = false -> instead fin t more s1 s2 -> run_call (@body) g n c s1 = (Ok a, s1') -> st_found_eof s1' = false ->
  exists s2', run_call (@body) g n c s2 = (Ok a, s2') /\ instead fin t more s1' s2'.
Proof.
  intros T (P1 & P2 & P3 & P4 & P5 & P6) C K D H R F. apply instead_cases in H as [H|H].
  - destruct (call_ended g fin t more T P1 P2 P3 (closes_closing _ C) P4 P5 P6 C n B c s1 s2 a s1' K H R F) as (s2' & R' & Q). exists s2'. split; [exact R'|]. apply cases_instead. exact Q.
  - exfalso. refine (call_dead g fin t T P1 P2 P4 n n B c D s1 a s1' (at_end_stuck _ _ _ _ _ H) _ R F). destruct H as (Hf & _). exact Hf.
Qed.
Lemma instead_end fin t more s1 s2 : instead fin t more s1 s2 -> it_tok (st_look s1) = TEoF ->
  s2 = mkState (st_ctx s1) (r_item t) false (st_cur_pos s1) (st_look_pos s1) more (st_nl s1) (st_comments s1).
Proof. intros [c look pos lpos l nl cms N F|c pos lpos nl cms] E; [contradiction|reflexivity]. Qed.

(** An expression that ends with the text ends before a closing parenthesis, bracket or brace just so, and the
    parser is in the same state but for the token it is at. *)
Theorem C65_expression : forall g fin t more s1 s2 e s1', g_tolerant g = false -> in_the_place g fin t ->
  In (it_tok (r_item t)) [TPunct PCloseParen; TPunct PCloseBracket; TPunct PCloseBrace] ->
  instead fin t more s1 s2 -> returns (fun n => parse_expression g n s1) (Ok e) s1' -> got_to_the_end s1' ->
  exists s2', returns (fun n => parse_expression g n s2) (Ok e) s2' /\ st_look s2' = r_item t /\ instead fin t more s1' s2'.
Proof.
  intros g fin t more s1 s2 e s1' T P C H [_ [n R]] [E F].
  assert (C' : closer (it_tok (r_item t))) by (unfold closer; cbn [In] in C; intuition congruence).
  destruct (call_instead g fin t more n Expr CExpression s1 s2 e s1' T P C') as (s2' & R' & Q); auto.
  { unfold covered. destruct C' as [->|[->| ->]]; reflexivity. }
  exists s2'. split; [split; [discriminate|exists n; exact R']|]. split; [|exact Q]. rewrite (instead_end _ _ _ _ _ Q E). reflexivity.
Qed.
Print Assumptions C65_expression.

(** In front of a closing brace, what the iterator yields. *)
Theorem C65_parts : forall g fin t more s1 s2 l s1', g_tolerant g = false -> in_the_place g fin t -> it_tok (r_item t) = TPunct PCloseBrace ->
  instead fin t more s1 s2 -> yields g s1 l s1' -> got_to_the_end s1' ->
  exists s2', yields g s2 l s2' /\ st_look s2' = r_item t /\ instead fin t more s1' s2'.
Proof.
  intros g fin t more s1 s2 l s1' T P C H Y [E F].
  assert (C' : closer (it_tok (r_item t))) by (unfold closer; auto).
  revert s2 H. revert E F. induction Y as [s|s p u l s' [N [n R]] Y IH]; intros E F s2 H.
  - exists s2. split; [constructor|]. split; [rewrite (instead_end _ _ _ _ _ H E); reflexivity|exact H].
  - unfold iter_next in R. destruct (is_eof (it_tok (st_look s))) eqn:I; [discriminate R|].
    destruct (run_call (@body) g n CNextPart s) as [o w] eqn:X. inversion R; subst o w.
    assert (Fu : st_found_eof u = false).
    { clear - Y F P T. induction Y as [s|s p s1 l s2 [_ [n R]] _ IH]; [auto|]. specialize (IH F).
      unfold iter_next in R. destruct (is_eof _); [discriminate R|]. destruct (run_call (@body) g n CNextPart s) as [o v] eqn:X. inversion R; subst.
      apply (call_later g fin T (proj1 P)) in X as [X _]. destruct (st_found_eof s); [specialize (X eq_refl); congruence|reflexivity]. }
    destruct (call_instead g fin t more n ProgramPart CNextPart s s2 p u T P C') as (s2' & R' & Q); auto.
    { unfold covered. rewrite C. reflexivity. }
    destruct (IH E F s2' Q) as (s2'' & Y' & K & Q'). exists s2''. split; [|split; assumption]. econstructor; [|exact Y'].
    split; [discriminate|]. exists n. unfold iter_next.
    assert (J : is_eof (it_tok (st_look s2)) = false).
    { destruct H; [exact I|]. cbn. rewrite C. reflexivity. }
    rewrite J, R'. reflexivity.
Qed.
Print Assumptions C65_parts.

(** So with C63 and C64: what is an expression up to the end of the text is one in parentheses, ... *)
Theorem C65_parentheses : forall g fin t more s0 s1 s e s', g_tolerant g = false -> in_the_place g fin t -> it_tok (r_item t) = TPunct PCloseParen ->
  c_allow_in (st_ctx s0) = true -> has_text g (st_look s0) -> passes g (TPunct POpenParen) s0 s1 ->
  instead fin t more s s1 -> returns (fun n => parse_expression g n s) (Ok e) s' -> got_to_the_end s' ->
  exists s2, instead fin t more s' s2 /\ forall s3, passes g (TPunct PCloseParen) s2 s3 -> In (it_tok (st_look s3)) no_more ->
  exists s4, returns (fun n => parse_expression g n s0) (Ok e) s4 /\ same_but_6 s3 s4.
Proof.
  intros g fin t more s0 s1 s e s' T P C A W P1 H R G.
  destruct (C65_expression g fin t more s s1 e s' T P) as (s2 & R' & K & Q); [rewrite C; left; reflexivity|exact H|exact R|exact G|].
  exists s2. split; [exact Q|]. intros s3 P2 F. exact (C63_parentheses g s0 s1 e s2 s3 A W P1 R' P2 F).
Qed.
Print Assumptions C65_parentheses.
(** ... and what is a program is a block between braces. *)
Theorem C65_block : forall g fin t more s0 s1 s l s', g_tolerant g = false -> in_the_place g fin t -> it_tok (r_item t) = TPunct PCloseBrace ->
  passes g (TPunct POpenBrace) s0 s1 -> ~ may_be_directive s1 ->
  instead fin t more s s1 -> yields g s l s' -> got_to_the_end s' ->
  exists s2, instead fin t more s' s2 /\ forall s3, passes g (TPunct PCloseBrace) s2 s3 ->
  exists s4, next_returns g s0 (Some (Ok (PPStmt (SBlock l)))) s4 /\ same_but_6 s3 s4.
Proof.
  intros g fin t more s0 s1 s l s' T P C P1 D H Y G.
  destruct (C65_parts g fin t more s s1 l s' T P C H Y G) as (s2 & Y' & K & Q).
  exists s2. split; [exact Q|]. intros s3 P2. exact (C64_block g s0 s1 l s2 s3 P1 D Y' P2).
Qed.
Print Assumptions C65_block.

(** Concrete cases.  [cut_short n s]: the state [s] with the end of the text after [n] more items. *)
Definition end_at (k : nat) (nl : bool) : raw := mkRaw (mkItem TEoF k k) nl.
Definition cut_short (n : nat) (s : state) : state :=
  mkState (st_ctx s) (st_look s) (st_found_eof s) (st_cur_pos s) (st_look_pos s)
    (firstn n (st_rest s) ++ [match nth_error (st_rest s) n with Some r => end_at (it_start (r_item r)) (r_nl r) | None => end_at 0 false end])
    (st_nl s) (st_comments s).
Ltac in_place := repeat split; try (vm_compute; reflexivity);
  [intros w H; vm_compute in H; injection H as <-; vm_compute; auto|intros w H; vm_compute in H; injection H as <-; vm_compute; auto|eexists; vm_compute; reflexivity].
Ltac cut_here := vm_compute; apply (ahead _ _ _ _ _ _ _ (_ :: _ :: [])); [discriminate|repeat constructor; discriminate].
Example C65_case : let js := "(a = b)" in let g := ex_cfg js in let s0 := ex_start js in let s1 := snd (next_item g s0) in
  let s := cut_short 2 s1 in exists e s' fin t more, g_tolerant g = false /\ in_the_place g fin t /\ it_tok (r_item t) = TPunct PCloseParen
  /\ c_allow_in (st_ctx s0) = true /\ has_text g (st_look s0) /\ passes g (TPunct POpenParen) s0 s1
  /\ instead fin t more s s1 /\ returns (fun n => parse_expression g n s) (Ok e) s' /\ got_to_the_end s'
  /\ e = EAssignment AEqual (ALExpr (EIdent (str "a"))) (EIdent (str "b")).
Proof.
  cbn zeta. exists (EAssignment AEqual (ALExpr (EIdent (str "a"))) (EIdent (str "b"))),
    (snd (parse_expression (ex_cfg "(a = b)") 100 (cut_short 2 (snd (next_item (ex_cfg "(a = b)") (ex_start "(a = b)")))))),
    (end_at 6 false), (mkRaw (mkItem (TPunct PCloseParen) 6 7) false), [mkRaw (mkItem TEoF 7 7) false].
  split; [reflexivity|]. split; [in_place|]. split; [reflexivity|]. split; [reflexivity|]. split; [eexists; vm_compute; reflexivity|].
  split; [split; [vm_compute; reflexivity|eexists; vm_compute; reflexivity]|]. split; [cut_here|].
  split; [split; [discriminate|exists 100; vm_compute; reflexivity]|]. split; [split; vm_compute; reflexivity|reflexivity].
Qed.
Example C65_block_case : let js := "{ a; b }" in let g := ex_cfg js in let s0 := ex_start js in let s1 := snd (next_item g s0) in
  let s := cut_short 2 s1 in exists l s' fin t more, g_tolerant g = false /\ in_the_place g fin t /\ it_tok (r_item t) = TPunct PCloseBrace
  /\ passes g (TPunct POpenBrace) s0 s1 /\ ~ may_be_directive s1
  /\ instead fin t more s s1 /\ yields g s l s' /\ got_to_the_end s'
  /\ l = [PPStmt (SExpr (EIdent (str "a"))); PPStmt (SExpr (EIdent (str "b")))].
Proof.
  cbn zeta. set (g := ex_cfg "{ a; b }"). set (s := cut_short 2 (snd (next_item g (ex_start "{ a; b }")))).
  exists (fst (iterate g 100 2 s)), (snd (iterate g 100 2 s)),
    (end_at 7 false), (mkRaw (mkItem (TPunct PCloseBrace) 7 8) false), [mkRaw (mkItem TEoF 8 8) false].
  split; [reflexivity|]. split; [in_place|]. split; [reflexivity|].
  split; [split; [vm_compute; reflexivity|eexists; vm_compute; reflexivity]|]. split; [intros [_ H]; vm_compute in H; discriminate H|].
  split; [cut_here|]. split; [apply iterate_yields|]. split; [split; vm_compute; reflexivity|vm_compute; reflexivity].
Qed.
(** The end of the text must not have been taken for a token: after a dot it is, as a name, and so is whatever
    stands in its place. *)
Theorem C65_not_taken_needed : exists g fin t more s1 s2 e s1' e' s2', g_tolerant g = false /\ in_the_place g fin t
  /\ it_tok (r_item t) = TPunct PCloseParen /\ instead fin t more s1 s2
  /\ returns (fun n => parse_expression g n s1) (Ok e) s1' /\ it_tok (st_look s1') = TEoF
  /\ returns (fun n => parse_expression g n s2) (Ok e') s2' /\ e' <> e.
Proof.
  exists (ex_cfg "a . )"), (end_at 4 false), (mkRaw (mkItem (TPunct PCloseParen) 4 5) false), [mkRaw (mkItem TEoF 5 5) false],
    (cut_short 1 (ex_start "a . )")), (ex_start "a . )"). do 4 eexists.
  split; [reflexivity|]. split; [in_place|]. split; [reflexivity|].
  split; [vm_compute; apply (ahead _ _ _ _ _ _ _ (_ :: [])); [discriminate|repeat constructor; discriminate]|].
  split; [split; [discriminate|exists 100; vm_compute; reflexivity]|]. split; [vm_compute; reflexivity|].
  split; [split; [discriminate|exists 100; vm_compute; reflexivity]|]. discriminate.
Qed.
Print Assumptions C65_not_taken_needed.
(** And for statements it has to be a brace: no other closing token ends one. *)
Theorem C65_brace_needed : exists g fin t more s1 s2 l s1' e s2', g_tolerant g = false /\ in_the_place g fin t
  /\ it_tok (r_item t) = TPunct PCloseParen /\ instead fin t more s1 s2 /\ yields g s1 l s1' /\ got_to_the_end s1' /\ List.length l = 1
  /\ next_returns g s2 (Some (Err e)) s2'.
Proof.
  exists (ex_cfg "a = b )"), (end_at 6 false), (mkRaw (mkItem (TPunct PCloseParen) 6 7) false), [mkRaw (mkItem TEoF 7 7) false],
    (cut_short 2 (ex_start "a = b )")), (ex_start "a = b )"), (fst (iterate (ex_cfg "a = b )") 100 1 (cut_short 2 (ex_start "a = b )")))),
    (snd (iterate (ex_cfg "a = b )") 100 1 (cut_short 2 (ex_start "a = b )")))). do 2 eexists.
  split; [reflexivity|]. split; [in_place|]. split; [reflexivity|]. split; [cut_here|].
  split; [apply iterate_yields|]. split; [split; vm_compute; reflexivity|]. split; [vm_compute; reflexivity|].
  split; [discriminate|exists 100; vm_compute; reflexivity].
Qed.
Print Assumptions C65_brace_needed.
