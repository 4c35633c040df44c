(** C59: which flags of the context matter. *)
From Verif Require Export Lexer Spec Runs Safe Inert Properties1 Properties2 Properties3.
Local Open Scope string_scope.
Local Open Scope list_scope.

(** *** C59
    The context (lib.rs:90-134) has thirteen fields besides the mark of a line terminator.  [set5]
    replaces five of them: the item of the first initialised shorthand property, the flags for
    loops and switches, and the flags that say whether what was read may be assigned to, and
    whether it may be a binding element. *)
Definition set5 (first : option item) (iteration switch target binding : bool) (c : ctx) : ctx :=
  mkCtx (c_allow_in c) (c_allow_strict_directive c) (c_allow_yield c) (c_await c) first target binding
    (c_in_function_body c) iteration switch (c_label_set c) (c_strict c) (c_past_prolog c).
(** Two states are the same but for the first three. *)
Definition same_but_3 (s1 s2 : state) : Prop := exists first iteration switch,
  s2 = upd_ctx (fun c => set5 first iteration switch (c_assign_target c) (c_binding_element c) c) s1.
(** Two states are the same but for the five. *)
Definition same_but_5 (s1 s2 : state) : Prop := exists first iteration switch target binding,
  s2 = upd_ctx (set5 first iteration switch target binding) s1.

Lemma but_3 s1 s2 : same_but_3 s1 s2 <-> shifted but_unread s1 s2.
Proof.
  split.
  - intros (first & i & w & ->). split; [|reflexivity]. destruct s1 as [[] ? ? ? ? ? ? ?]. reflexivity.
  - intros [H E]. exists (c_first_covert (st_ctx s2)), (c_in_iteration (st_ctx s2)), (c_in_switch (st_ctx s2)). rewrite E at 1. unfold upd_ctx. f_equal.
    destruct (st_ctx s1), (st_ctx s2). unfold but_unread in H. cbn in *. injection H; clear H; intros; subst. reflexivity.
Qed.
Lemma but_5 s1 s2 : same_but_5 s1 s2 <-> shifted but_cover s1 s2.
Proof.
  split.
  - intros (first & i & w & a & b & ->). split; [|reflexivity]. destruct s1 as [[] ? ? ? ? ? ? ?]. reflexivity.
  - intros [H E]. exists (c_first_covert (st_ctx s2)), (c_in_iteration (st_ctx s2)), (c_in_switch (st_ctx s2)), (c_assign_target (st_ctx s2)), (c_binding_element (st_ctx s2)).
    rewrite E at 1. unfold upd_ctx. f_equal.
    destruct (st_ctx s1), (st_ctx s2). unfold but_cover in H. cbn in *. injection H; clear H; intros; subst. reflexivity.
Qed.

(** Three are kept for nothing: no function of the parser behaves differently for them.  So
    [{a = 1}] is never an error, pattern or not, nor is a [break] or [continue] for the place where
    it stands (C45_targets_refuted, C45_early_errors_refuted). *)
Theorem C59_never_read : forall g n B (c : call B) s1 s2, same_but_3 s1 s2 ->
  fst (run_call (@body) g n c s1) = fst (run_call (@body) g n c s2)
  /\ same_but_3 (snd (run_call (@body) g n c s1)) (snd (run_call (@body) g n c s2)).
Proof.
  intros g n B c s1 s2 H. apply but_3 in H. destruct (call_unread g n B c s1 s2 H) as [H1 H2].
  split; [apply outcomes_eq; exact H1|apply but_3; exact H2].
Qed.
Print Assumptions C59_never_read.

(** None of the five carries anything from one call of the interface to the next. *)
Theorem C59_nothing_carried : forall g n s1 s2, same_but_5 s1 s2 ->
  (fst (parse g n s1) = fst (parse g n s2) /\ same_but_5 (snd (parse g n s1)) (snd (parse g n s2)))
  /\ (fst (iter_next g n s1) = fst (iter_next g n s2) /\ same_but_5 (snd (iter_next g n s1)) (snd (iter_next g n s2)))
  /\ (fst (parse_expression g n s1) = fst (parse_expression g n s2)
      /\ same_but_5 (snd (parse_expression g n s1)) (snd (parse_expression g n s2))).
Proof.
  intros g n s1 s2 H. apply but_5 in H. rewrite !but_5. split; [|split].
  - destruct (parse_cover g n s1 s2 H) as [H1 H2]. split; [apply outcomes_eq; exact H1|exact H2].
  - apply iter_cover. exact H.
  - destruct (call_expression g n s1 s2 H) as [H1 H2]. split; [apply outcomes_eq; exact H1|exact H2].
Qed.
Print Assumptions C59_nothing_carried.

(** The other eight matter: for each there is a text that ends differently when it alone is changed. *)
Definition changes : list (ctx -> ctx) :=
  [ (fun c => set_allow_in (negb (c_allow_in c)) c);
    (fun c => set_allow_strict_directive (negb (c_allow_strict_directive c)) c);
    (fun c => set_allow_yield (negb (c_allow_yield c)) c);
    (fun c => set_await (negb (c_await c)) c);
    (fun c => set_in_function_body (negb (c_in_function_body c)) c);
    (fun c => set_label_set (str "$a" :: c_label_set c) c);
    (fun c => set_strict (negb (c_strict c)) c);
    (fun c => set_past_prolog (negb (c_past_prolog c)) c) ].
Definition verdict {A} (o : outcome A) : nat := match o with Ok _ => 0 | Err _ => 1 | Panic => 2 | NoFuel => 3 end.
Definition parts_of (o : outcome Program) : nat :=
  match o with Ok (PScript (PPDir _ _ :: _)) => 4 | o => verdict o end.
(** A scanner that takes the whole text for one string. *)
Definition one_string : scanner :=
  mkScanner (fun js => [mkRaw (mkItem TString 0 (byte_len js)) false; mkRaw (mkItem TEoF (byte_len js) (byte_len js)) false])
    (fun _ => false) (fun _ => false) (fun _ => false) (fun _ => true).
Definition witnesses : list (scanner * text) :=
  [ (test_scanner, str "a in b;"); (one_string, str "use strict"); (test_scanner, str "yield = 1;"); (test_scanner, str "await a;");
    (test_scanner, str "return;"); (test_scanner, str "a: ;");
    (test_scanner, str "with (a) b;"); (test_scanner, str "'a';") ].
Definition differs (x : (ctx -> ctx) * (scanner * text)) : bool :=
  let '(f, (sc, js)) := x in
  let g := make_cfg sc false false js in
  let s := snd (start g (sc_scan sc js)) in
  let o1 := fst (parse g 200 s) in let o2 := fst (parse g 200 (upd_ctx f s)) in
  contractb js (sc_scan sc js) && negb (Nat.eqb (parts_of o1) (parts_of o2)) && negb (Nat.eqb (parts_of o1) 3) && negb (Nat.eqb (parts_of o2) 3).
Theorem C59_others_matter : forall f, In f changes -> exists sc js,
  let g := make_cfg sc false false js in
  let s := snd (start g (sc_scan sc js)) in
  scan_contract js (sc_scan sc js) /\ exists n o1 o2, fst (parse g n s) = o1 /\ fst (parse g n (upd_ctx f s)) = o2
    /\ o1 <> o2 /\ o1 <> NoFuel /\ o2 <> NoFuel.
Proof.
  intros f Hf. assert (H : exists w, In (f, w) (combine changes witnesses)).
  { cbn [changes In] in Hf. decompose [or] Hf; try contradiction; subst f; eexists;
      cbn [changes witnesses combine In]; repeat (first [left; reflexivity|right]). }
  destruct H as [[sc js] H]. exists sc, js.
  assert (D : forallb differs (combine changes witnesses) = true) by (vm_compute; reflexivity).
  rewrite forallb_forall in D. specialize (D _ H). unfold differs in D. cbn zeta in *.
  apply andb_prop in D as [D D4]. apply andb_prop in D as [D D3]. apply andb_prop in D as [D1 D2].
  split; [apply contractb_ok; exact D1|]. exists 200. do 2 eexists. split; [reflexivity|]. split; [reflexivity|].
  repeat split; intros E; rewrite E in *; cbn in *; rewrite ?Nat.eqb_refl in *; discriminate.
Qed.
Print Assumptions C59_others_matter.

(** Within a part the flag for assignment targets matters: lib.rs:3118. *)
Theorem C59_target_matters : exists g n s o1 o2,
  fst (run_call (@body) g n CAssignmentExpr s) = o1
  /\ fst (run_call (@body) g n CAssignmentExpr (upd_ctx (fun c => set5 (c_first_covert c) (c_in_iteration c) (c_in_switch c) true (c_binding_element c) c) s)) = o2
  /\ verdict o1 = 1 /\ verdict o2 = 0.
Proof.
  exists (ex_cfg "a = 1"), 200, (ex_start "a = 1"). do 2 eexists. split; [reflexivity|]. split; [reflexivity|].
  split; vm_compute; reflexivity.
Qed.
Print Assumptions C59_target_matters.

(** Concrete states that differ in all of them: the end of a run that stopped at an error. *)
Definition broken : string := "({a = 1 b}); f".
Example C59_case : exists e s, parse (ex_cfg broken) 400 (ex_start broken) = (Err e, s)
  /\ c_first_covert (st_ctx s) <> c_first_covert (st_ctx (ex_start broken))
  /\ same_but_5 s (upd_ctx (set5 None true true true true) s) /\ same_but_3 s (upd_ctx (fun c => set5 None true true (c_assign_target c) (c_binding_element c) c) s)
  /\ exists r t, iter_next (ex_cfg broken) 400 s = (Some r, t).
Proof.
  assert (E : fst (parse (ex_cfg broken) 400 (ex_start broken)) = Err (UnexpectedToken (mkPos 1 8) (MExpected ["Comma"] TIdent))) by (vm_compute; reflexivity).
  destruct (parse (ex_cfg broken) 400 (ex_start broken)) as [o s] eqn:R. cbn in E. subst o. exists (UnexpectedToken (mkPos 1 8) (MExpected ["Comma"] TIdent)), s.
  assert (F : c_first_covert (st_ctx (snd (parse (ex_cfg broken) 400 (ex_start broken)))) <> c_first_covert (st_ctx (ex_start broken)))
    by (vm_compute; discriminate).
  assert (L : is_eof (it_tok (st_look (snd (parse (ex_cfg broken) 400 (ex_start broken))))) = false) by (vm_compute; reflexivity).
  rewrite R in F, L. cbn [snd] in F, L. split; [reflexivity|]. split; [exact F|]. split; [exists None, true, true, true, true; reflexivity|].
  split; [exists None, true, true; reflexivity|].
  unfold iter_next. rewrite L. destruct (run_call _ _ _ _ _) as [r t]. exists r, t. reflexivity.
Qed.
