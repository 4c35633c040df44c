(** C52, C53: what the options [tolerant] and [module] change; C54: the iterator and errors. *)
From Verif Require Import Lexer Spec Runs Options Told Properties1 Properties2 Properties3.
Open Scope string_scope.
Open Scope list_scope.

(** ** C52
    [forgivable] (Options.v) lists the errors: a missing comma between arguments or
    properties (or the end of the text in its place), a missing [)], a misplaced assignment or
    update, a restricted name, the parameters of accessors, [with] in strict code.  Any other
    outcome of the default mode, a tree or an error, is that of tolerant mode too. *)
Theorem C52_parse : forall sc module js o s', scan_contract js (sc_scan sc js) ->
  parse_text sc (mkBuilder false module js) o s' -> (forall e, o = Err e -> ~ forgivable e) ->
  parse_text sc (mkBuilder true module js) o s'.
Proof. intros sc module js o s' C. apply parse_tolerant. exact C. Qed.
Print Assumptions C52_parse.
Theorem C52_next : forall sc module js s r s', scan_contract js (sc_scan sc js) ->
  reachable (make_cfg sc false module js) (sc_scan sc js) s ->
  next_returns (make_cfg sc false module js) s r s' -> (forall e, r = Some (Err e) -> ~ forgivable e) ->
  next_returns (make_cfg sc true module js) s r s'.
Proof.
  intros sc module js s r s' C Hs H Hu. apply next_tolerant; auto. intros o -> e ->. apply Hu. reflexivity.
Qed.
Print Assumptions C52_next.
Theorem C52_expression : forall sc module js s n o s', scan_contract js (sc_scan sc js) ->
  reachable (make_cfg sc false module js) (sc_scan sc js) s ->
  parse_expression (make_cfg sc false module js) n s = (o, s') -> (forall e, o = Err e -> ~ forgivable e) ->
  parse_expression (make_cfg sc true module js) n s = (o, s').
Proof. intros. apply expression_tolerant; auto. Qed.
Print Assumptions C52_expression.

(** In tolerant mode no error of those kinds is ever reported, whatever the text and whatever the
    scanner.  (A missing [)], the end of the text and a name declared twice are reported at other
    places of the parser as well, by both modes.) *)
Definition left_out (e : error) : Prop :=
  match e with
  | UnexpectedToken _ (MUnexpected _ note) => In note forgiven_notes
  | InvalidGetterParams _ | InvalidSetterParams _ | NonStrictFeatureInStrictContext _ _ => True
  | _ => False
  end.
Theorem C52_never_reported : forall A sc module js e,
  api_outcome sc true module js (@Err A e) -> ~ left_out e.
Proof.
  intros A sc module js e H L. pose proof (api_said _ _ _ _ _ _ H) as S.
  destruct e as [p [l t|w note|m]| | | | | | | | |]; cbn [said left_out] in *; try contradiction; try discriminate.
  - destruct S as [->|[->|[S _]]]; [| |discriminate]; cbn in L;
      repeat (destruct L as [L|L]; [discriminate L|]); exact L.
  - destruct S; discriminate.
Qed.
Print Assumptions C52_never_reported.
(** A text that gets such an error in the default mode, and another error in tolerant mode. *)
Example C52_never_reported_case :
  match run_text false false (str "a() = 1 }"), run_text true false (str "a() = 1 }") with
  | Err (UnexpectedToken _ (MUnexpected _ note)), Err e => In note forgiven_notes /\ ~ left_out e
  | _, _ => False
  end.
Proof. vm_compute. split; [auto 20|exact (fun H => H)]. Qed.

(** An error that is not forgiven, and the same error in tolerant mode. *)
Example C52_case : exists e s',
  scan_contract (str "switch (a) { case 1 b }") (sc_scan test_scanner (str "switch (a) { case 1 b }")) /\
  parse_text test_scanner (mkBuilder false false (str "switch (a) { case 1 b }")) (Err e) s' /\
  ~ forgivable e /\
  parse_text test_scanner (mkBuilder true false (str "switch (a) { case 1 b }")) (Err e) s'.
Proof.
  assert (C : scan_contract (str "switch (a) { case 1 b }") (sc_scan test_scanner (str "switch (a) { case 1 b }")))
    by (apply contractb_ok; vm_compute; reflexivity).
  assert (P : exists p t s', parse_text test_scanner (mkBuilder false false (str "switch (a) { case 1 b }"))
                            (Err (UnexpectedToken p (MExpected ["Colon"] t))) s')
    by (do 3 eexists; split; [discriminate|exists 200; vm_compute; reflexivity]).
  destruct P as (p & t & s' & P). exists (UnexpectedToken p (MExpected ["Colon"] t)), s'.
  assert (N : ~ forgivable (UnexpectedToken p (MExpected ["Colon"] t))) by (cbn; intros [H|H]; discriminate H).
  split; [exact C|]. split; [exact P|]. split; [exact N|]. apply C52_parse; [exact C|exact P|].
  intros e H. inversion H. subst e. exact N.
Qed.
(** The errors listed are forgiven: each of these texts is rejected by default, with such an
    error, and accepted in tolerant mode. *)
Definition forgivableb (e : error) : bool :=
  match e with
  | UnexpectedToken _ (MExpected [w] _) => String.eqb w "Comma" || String.eqb w ")"
  | UnexpectedToken _ (MUnexpected _ note) => existsb (String.eqb note) forgiven_notes
  | InvalidGetterParams _ | InvalidSetterParams _ => true
  | NonStrictFeatureInStrictContext _ f => String.eqb f "with statements" || String.eqb f "restriced ident"
  | _ => false
  end.
Definition outcome_of (tolerant : bool) (js : string) : outcome Program :=
  let g := make_cfg test_scanner tolerant false (str js) in
  fst (parse g 200 (snd (start g (sc_scan test_scanner (str js))))).
Definition forgiven (js : string) : bool :=
  match outcome_of false js, outcome_of true js with Err e, Ok _ => forgivableb e | _, _ => false end.
Example C52_forgiven : forallb forgiven
  ["f(a b)"; "({a: 1 b: 2})"; "if (a b"; "while (a b"; "with (a b"; "a() = 1"; "1++"; "++1"; "({get a(b){}})";
   "({set a(){}})"; "({set a(...b){}})"; "class A {x(){with (a) b}}"; "class A {x(){ delete a }}"] = true.
Proof. vm_compute. reflexivity. Qed.
(** At the end of the text a missing comma is reported as [ParseAfterEoF] if a token was taken
    beyond it; tolerant mode reports something else. *)
Example C52_end : outcome_of false "f(a." = Err ParseAfterEoF /\ exists p m, outcome_of true "f(a." = Err (UnexpectedToken p m).
Proof. split; [vm_compute; reflexivity|]. do 2 eexists. vm_compute. reflexivity. Qed.

(** ** C53
    Module mode adds one error: the name [await]. *)
Definition at_await (js : text) (e : error) : Prop :=
  exists i p, it_tok i = TIdent /\ slice js (it_start i) (it_end i) = Some (str "await") /\
    item_position (get_lines js) (it_start i) = Some p /\
    e = UnexpectedToken p (MExpected ["variable identifier"] TIdent).
Lemma at_await_error sc tolerant js e : await_error js (make_cfg sc tolerant true js) e -> at_await js e.
Proof.
  intros (i & H1 & H2 & H3). exists i, (item_pos (make_cfg sc tolerant true js) i). repeat split; auto.
  apply (item_pos_position sc tolerant true).
Qed.
Definition script_of (o : outcome Program) : outcome Program :=
  match o with Ok (PMod l) => Ok (PScript l) | _ => o end.
Theorem C53_parse : forall sc tolerant js o s', scan_contract js (sc_scan sc js) ->
  parse_text sc (mkBuilder tolerant true js) o s' -> (forall e, o = Err e -> ~ at_await js e) ->
  parse_text sc (mkBuilder tolerant false js) (script_of o) s'.
Proof.
  intros sc tolerant js o s' C H Hu. apply (parse_module sc tolerant js C o s' H).
  intros e E K. exact (Hu e E (at_await_error _ _ _ _ K)).
Qed.
Print Assumptions C53_parse.
Theorem C53_next : forall sc tolerant js s r s', scan_contract js (sc_scan sc js) ->
  reachable (make_cfg sc tolerant true js) (sc_scan sc js) s ->
  next_returns (make_cfg sc tolerant true js) s r s' -> (forall e, r = Some (Err e) -> ~ at_await js e) ->
  next_returns (make_cfg sc tolerant false js) s r s'.
Proof.
  intros sc tolerant js s r s' C Hs H Hu. apply next_module; auto.
  intros o -> e -> K. exact (Hu e eq_refl (at_await_error _ _ _ _ K)).
Qed.
Print Assumptions C53_next.
Theorem C53_expression : forall sc tolerant js s n o s', scan_contract js (sc_scan sc js) ->
  reachable (make_cfg sc tolerant true js) (sc_scan sc js) s ->
  parse_expression (make_cfg sc tolerant true js) n s = (o, s') -> (forall e, o = Err e -> ~ at_await js e) ->
  parse_expression (make_cfg sc tolerant false js) n s = (o, s').
Proof.
  intros sc tolerant js s n o s' C Hs H Hu. apply expression_module; auto.
  intros e E K. exact (Hu e E (at_await_error _ _ _ _ K)).
Qed.
Print Assumptions C53_expression.
(** So a text in which the letters [await] do not occur is parsed alike by the two modes. *)
Theorem C53_no_await : forall sc tolerant js o s', scan_contract js (sc_scan sc js) ->
  (forall a b, slice js a b <> Some (str "await")) ->
  parse_text sc (mkBuilder tolerant true js) o s' ->
  parse_text sc (mkBuilder tolerant false js) (script_of o) s'.
Proof. intros sc tolerant js o s' C H P. apply C53_parse; auto. intros e _ (i & p & _ & E & _). exact (H _ _ E). Qed.
Print Assumptions C53_no_await.

(** An error of both modes; the error of module mode alone is that of [C07_converse_refuted]. *)
Example C53_case : exists e s',
  scan_contract (str "import a from 'b'; a b") (sc_scan test_scanner (str "import a from 'b'; a b")) /\
  parse_text test_scanner (mkBuilder false true (str "import a from 'b'; a b")) (Err e) s' /\
  ~ at_await (str "import a from 'b'; a b") e.
Proof.
  assert (P : exists e s', parse_text test_scanner (mkBuilder false true (str "import a from 'b'; a b")) (Err e) s' /\
    match e with UnexpectedToken _ (MExpected ["variable identifier"] _) => False | _ => True end).
  { do 2 eexists. split; [split; [discriminate|exists 200; vm_compute; reflexivity]|exact Logic.I]. }
  destruct P as (e & s' & P & N). exists e, s'. split; [apply contractb_ok; vm_compute; reflexivity|]. split; [exact P|].
  intros (i & p & _ & _ & _ & ->). exact N.
Qed.
Example C53_await : exists s', parse_text await_scanner (mkBuilder false true (str "var await"))
  (Err (UnexpectedToken (mkPos 1 4) (MExpected ["variable identifier"] TIdent))) s'.
Proof. eexists. split; [discriminate|]. exists 200. vm_compute. reflexivity. Qed.

(** ** C54
    A caller that goes on calling [next] after errors: however many calls there are, the parts
    handed out are no more than the tokens of the text. *)
Theorem C54_parts_bounded : forall g items i s l s',
  start g items = (Ok i, s) -> calls g s l s' ->
  length (filter is_part l) <= length (filter nc items).
Proof. exact calls_bounded. Qed.
Print Assumptions C54_parts_bounded.
(** But the iteration need not end: an error can leave the parser where it was, and then it is
    reported again at every call.  [for part in parser] that skips errors does not end on [)]. *)
Theorem C54_iteration_ends_refuted : exists sc js i s,
  start (make_cfg sc false false js) (sc_scan sc js) = (Ok i, s) /\
  scan_contract js (sc_scan sc js) /\
  forall n, exists l s', calls (make_cfg sc false false js) s l s' /\ length l = n /\
    Forall (fun r => exists e, r = Some (Err e)) l.
Proof.
  exists test_scanner, (str ")"). destruct (start (make_cfg test_scanner false false (str ")")) (sc_scan test_scanner (str ")"))) as [o s] eqn:E.
  vm_compute in E. injection E as Eo Es. exists (mkItem TEoF 0 0), s. split; [rewrite <- Eo; reflexivity|].
  split; [apply contractb_ok; vm_compute; reflexivity|].
  pose (g := make_cfg test_scanner false false (str ")")). fold g.
  assert (H : exists e s1, iter_next g 60 s = (Some (Err e), s1) /\ iter_next g 60 s1 = (Some (Err e), s1)).
  { rewrite <- Es. do 2 eexists. split; [vm_compute; reflexivity|vm_compute; reflexivity]. }
  destruct H as (e & s1 & H0 & H1).
  assert (A : forall n, calls g s1 (repeat (Some (Err e)) n) s1).
  { induction n; cbn; [constructor|]. econstructor; [|exact IHn]. split; [discriminate|eauto]. }
  intros [|n]; [exists [], s; split; [constructor|auto]|].
  exists (repeat (Some (Err e)) (S n)), s1. split; [|split; [apply repeat_length|]].
  - cbn. econstructor; [|apply A]. split; [discriminate|eauto].
  - apply Forall_forall. intros r Hr. apply repeat_spec in Hr. eauto.
Qed.
Print Assumptions C54_iteration_ends_refuted.
(** An error in the middle that does move on: the call after it hands out a part again. *)
Example C54_case : exists e p1 p2 s',
  calls (ex_cfg "a; b c; d") (ex_start "a; b c; d") [Some (Ok p1); Some (Err e); Some (Ok p2)] s'.
Proof.
  do 4 eexists. econstructor; [split; [discriminate|exists 60; vm_compute; reflexivity]|].
  econstructor; [split; [discriminate|exists 60; vm_compute; reflexivity]|].
  econstructor; [split; [discriminate|exists 60; vm_compute; reflexivity]|]. constructor.
Qed.
