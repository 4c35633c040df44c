(** Properties of the trees handed out.  [occurs sc tolerant module js above n] (Tree.v) says
    that the node [n] occurs in a tree returned for the text [js], below the nodes [above].
    Each theorem is followed by its assumptions and by a case that meets its hypotheses. *)
From Verif Require Import Handed Lexer Properties1 Flags Operators.
Open Scope string_scope.
Open Scope nat_scope.
Open Scope list_scope.

(** ** Finding nodes in the tree of a text, for the examples *)
Fixpoint follow (n : node) (path : list nat) : option (list node * node) :=
  match path with
  | [] => Some ([], n)
  | k :: path' =>
      match nth_error (children n) k with
      | Some c => option_map (fun r => (n :: fst r, snd r)) (follow c path')
      | None => None
      end
  end.
Definition parsed (tolerant module : bool) (js : text) : list ProgramPart :=
  let g := make_cfg test_scanner tolerant module js in
  match start g (lex js) with
  | (Ok _, s) => match fst (parse g 300 s) with Ok p => parts_of p | _ => [] end
  | _ => []
  end.
Definition at_path (tolerant module : bool) (js : string) (path : list nat) : option (list node * node) :=
  match path with
  | k :: path' =>
      match nth_error (parsed tolerant module (str js)) k with
      | Some p => follow (NPart p) path'
      | None => None
      end
  | [] => None
  end.
(** The node of a text of the examples at a path. *)
Definition node_at (js : string) (path : list nat) : option node := option_map snd (at_path false false js path).

Lemma follow_inside path : forall n above m, follow n path = Some (above, m) -> inside n above m.
Proof.
  induction path as [|k path IH]; cbn [follow]; intros n above m H.
  - inversion H; subst. constructor.
  - destruct (nth_error (children n) k) as [c|] eqn:E; [|discriminate].
    destruct (follow c path) as [[a x]|] eqn:F; [|discriminate]. inversion H; subst.
    econstructor; [eapply nth_error_In; exact E|]. apply IH. exact F.
Qed.
Lemma at_path_occurs tolerant module js path above n :
  at_path tolerant module js path = Some (above, n) -> occurs test_scanner tolerant module (str js) above n.
Proof.
  unfold at_path. destruct path as [|k path]; [discriminate|].
  destruct (nth_error (parsed tolerant module (str js)) k) as [p|] eqn:E; [|discriminate]. intros H.
  exists (NPart p). split; [|eapply follow_inside; exact H].
  apply nth_error_In in E. unfold parsed in E.
  destruct (start (make_cfg test_scanner tolerant module (str js)) (lex (str js))) as [[i|? | |] s] eqn:Hs; try destruct E.
  destruct (parse (make_cfg test_scanner tolerant module (str js)) 300 s) as [[q|? | |] s2] eqn:Hp; try destruct E.
  eapply out_program; [exact Hs|apply yields_nil|exact Hp|exact E].
Qed.
Lemma node_at_occurs js path n : node_at js path = Some n -> exists above, occurs test_scanner false false (str js) above n.
Proof.
  unfold node_at. destruct (at_path false false js path) as [[above m]|] eqn:E; [|discriminate].
  intros H. inversion H; subst. exists above. eapply at_path_occurs; exact E.
Qed.

(** Some node of the text, with what lies above it, passes the test. *)
Fixpoint search (fuel : nat) (f : list node -> node -> bool) (above : list node) (n : node) : option (list node * node) :=
  if f above n then Some (above, n)
  else match fuel with
       | 0 => None
       | S fuel' =>
           fold_left (fun r c => match r with Some _ => r | None => search fuel' f (above ++ [n]) c end)
                     (children n) None
       end.
Definition shows_with (tolerant module : bool) (js : string) (f : list node -> node -> bool) : bool :=
  existsb (fun p => match search 60 f [] (NPart p) with Some _ => true | None => false end)
          (parsed tolerant module (str js)).
Definition shows := shows_with false false.

Lemma inside_snoc r above n k : inside r above n -> In k (children n) -> inside r (above ++ [n]) k.
Proof.
  induction 1 as [n|r c above n Hc Hin IH]; intros Hk; cbn.
  - econstructor; [exact Hk|constructor].
  - econstructor; eauto.
Qed.
Lemma search_sound f r fuel : forall above n a m, inside r above n -> search fuel f above n = Some (a, m) ->
  inside r a m /\ f a m = true.
Proof.
  induction fuel as [|fuel IH]; cbn [search]; intros above n a m H.
  - destruct (f above n) eqn:E; [|discriminate]. intros X. inversion X; subst. auto.
  - destruct (f above n) eqn:E; [intros X; inversion X; subst; auto|].
    assert (Hc : forall k, In k (children n) -> inside r (above ++ [n]) k) by (intros; eapply inside_snoc; eauto).
    assert (G : forall l o a m, (forall k, In k l -> inside r (above ++ [n]) k) ->
      fold_left (fun r c => match r with Some _ => r | None => search fuel f (above ++ [n]) c end) l o = Some (a, m) ->
      o = Some (a, m) \/ (inside r a m /\ f a m = true)).
    { induction l as [|c l IHl]; cbn [fold_left]; intros o a0 m0 Hc0 X; auto.
      apply IHl in X; [|intros; apply Hc0; right; auto]. destruct X as [X|X]; auto.
      destruct o; auto. right. eapply IH; [|exact X]. apply Hc0. left. reflexivity. }
    intros X. apply G in X; auto. destruct X as [X|X]; [discriminate|exact X].
Qed.
Lemma shows_with_occurs tolerant module js f : shows_with tolerant module js f = true ->
  exists above n, occurs test_scanner tolerant module (str js) above n /\ f above n = true.
Proof.
  unfold shows_with. intros H. apply existsb_exists in H. destruct H as (p & Hp & H).
  destruct (search 60 f [] (NPart p)) as [[above n]|] eqn:E; [|discriminate].
  apply (search_sound f (NPart p)) in E; [|constructor]. exists above, n. split; [|apply E].
  exists (NPart p). split; [|apply E]. unfold parsed in Hp.
  destruct (start (make_cfg test_scanner tolerant module (str js)) (lex (str js))) as [[i|? | |] s] eqn:Hs; try destruct Hp.
  destruct (parse (make_cfg test_scanner tolerant module (str js)) 300 s) as [[q|? | |] s2] eqn:Hq; try destruct Hp.
  eapply out_program; [exact Hs|apply yields_nil|exact Hq|exact Hp].
Qed.

(** ** C17 *)
(** Every identifier is the source text of a token, or the text of a keyword used as a name.
    The only other possibility is the empty name, the text of the end of the file: see
    [C17_case_end_of_file]. *)
Theorem C17_names : forall sc tolerant module js above w,
  occurs sc tolerant module js above (NName w) ->
  w = [] \/ exists r, In r (sc_scan sc js) /\
    (w = text_of js (r_item r) \/ exists k, it_tok (r_item r) = TKeyword k /\ w = kw_text k).
Proof. exact occ_name. Qed.
Print Assumptions C17_names.

(** The keywords of ECMAScript (11.6.2, with the reserved words of strict code), by their spelling. *)
Definition reserved_words : list (string * keyword) :=
  [("await", KAwait); ("break", KBreak); ("case", KCase); ("catch", KCatch); ("class", KClass);
   ("const", KConst); ("continue", KContinue); ("debugger", KDebugger); ("default", KDefault);
   ("delete", KDelete); ("do", KDo); ("else", KElse); ("export", KExport); ("extends", KExtends);
   ("finally", KFinally); ("for", KFor); ("function", KFunction); ("if", KIf); ("import", KImport);
   ("in", KIn); ("instanceof", KInstanceOf); ("new", KNew); ("return", KReturn); ("super", KSuper);
   ("switch", KSwitch); ("this", KThis); ("throw", KThrow); ("try", KTry); ("typeof", KTypeOf);
   ("var", KVar); ("void", KVoid); ("while", KWhile); ("with", KWith); ("yield", KYield);
   ("enum", KEnum); ("implements", KImplements); ("interface", KInterface); ("let", KLet);
   ("package", KPackage); ("private", KPrivate); ("protected", KProtected); ("public", KPublic);
   ("static", KStatic)]%string.
(** A scanner that gives a keyword token to the spelling of that keyword only. *)
Definition spells_keywords (js : text) (rs : list raw) : Prop := forall r k,
  In r rs -> it_tok (r_item r) = TKeyword k ->
  exists w, In (w, k) reserved_words /\ text_of js (r_item r) = str w.

(** With such a scanner every name of the tree, also one written with a keyword, is the source
    text of a token. *)
Theorem C17_names_verbatim : forall sc tolerant module js above w,
  spells_keywords js (sc_scan sc js) ->
  occurs sc tolerant module js above (NName w) ->
  w = [] \/ exists r, In r (sc_scan sc js) /\ w = text_of js (r_item r).
Proof.
  intros sc tolerant module js above w K H.
  destruct (C17_names _ _ _ _ _ _ H) as [E|(r & Hr & [E|(k & Hk & E)])]; [now left|right; now exists r|].
  right. exists r. split; [exact Hr|]. destruct (K r k Hr Hk) as (v & Hv & ->). rewrite E.
  assert (A : Forall (fun p => kw_text (snd p) = str (fst p)) reserved_words) by (repeat constructor).
  rewrite Forall_forall in A. exact (A _ Hv).
Qed.
Print Assumptions C17_names_verbatim.
Example C17_case_reserved : (forall k, exists w, In (w, k) reserved_words)
  /\ spells_keywords (str "x.void(typeof y.in)") (sc_scan test_scanner (str "x.void(typeof y.in)"))
  /\ node_at "x.void(typeof y.in)" [0;0;0;0;1;0] = Some (NName (str "void")).
Proof.
  split; [intros []; eexists; cbn; repeat (first [left; reflexivity|right])|]. split; [|vm_compute; reflexivity].
  intros r k Hr Hk. vm_compute in Hr.
  repeat (destruct Hr as [<-|Hr]; [first [discriminate Hk|
    injection Hk as <-; eexists; split; [cbn; repeat (first [left; reflexivity|right])|vm_compute; reflexivity]]|]).
  destruct Hr.
Qed.

(** Strings and numbers are the source text of a token; a regular expression is that text,
    without its first character, split at the last slash.  [null] is never produced. *)
Theorem C17_literals : forall sc tolerant module js above l,
  occurs sc tolerant module js above (NLit l) ->
  match l with
  | LString w => exists r, In r (sc_scan sc js) /\ it_tok (r_item r) = TString /\ text_of js (r_item r) = w
  | LNumber w => exists r, In r (sc_scan sc js) /\ it_tok (r_item r) = TNumeric /\ text_of js (r_item r) = w
  | LBoolean b => exists r, In r (sc_scan sc js) /\ it_tok (r_item r) = TBoolean b
  | LRegEx p f => exists r d, In r (sc_scan sc js) /\ it_tok (r_item r) = TRegEx
      /\ text_of js (r_item r) = d :: p ++ 47%N :: f /\ len_utf8 d = 1 /\ ~ In 47%N f
  | LNull => False
  | LTemplate _ => True
  end.
Proof. exact occ_literal. Qed.
Print Assumptions C17_literals.

(** The raw text of a template chunk is a token; the cooked text is the raw one without the
    delimiters. *)
Theorem C17_templates : forall sc tolerant module js above q,
  occurs sc tolerant module js above (NQuasi q) -> exists r k d e,
    In r (sc_scan sc js) /\ it_tok (r_item r) = TTemplate k /\ text_of js (r_item r) = q_raw q
    /\ q_raw q = d :: q_cooked q ++ e /\ len_utf8 d = 1
    /\ byte_len e = (match k with THead | TBody => 2 | TTail | TNoSub => 1 end)
    /\ q_tail q = (match k with THead | TBody => false | TTail | TNoSub => true end).
Proof. exact occ_quasi. Qed.
Print Assumptions C17_templates.

Example C17_case_name : node_at "x.if(yz)" [0;0;0;0;1;0] = Some (NName (str "if"))
  /\ node_at "x.if(yz)" [0;0;0;1;0] = Some (NName (str "yz")).
Proof. vm_compute. auto. Qed.
Example C17_case_literals : node_at "f('a', 0x1F, /a[/]b/g)" [0;0;0;1;0] = Some (NLit (LString (str "'a'")))
  /\ node_at "f('a', 0x1F, /a[/]b/g)" [0;0;0;2;0] = Some (NLit (LNumber (str "0x1F")))
  /\ node_at "f('a', 0x1F, /a[/]b/g)" [0;0;0;3;0] = Some (NLit (LRegEx (str "a[/]b") (str "g"))).
Proof. vm_compute. auto. Qed.
Example C17_case_template : exists q1 q2, node_at "`a${b}c`" [0;0;0;0;0;0] = Some (NQuasi q1)
  /\ q_raw q1 = str "`a${" /\ q_cooked q1 = str "a"
  /\ node_at "`a${b}c`" [0;0;0;0;0;1] = Some (NQuasi q2) /\ q_raw q2 = str "}c`" /\ q_cooked q2 = str "c".
Proof. eexists. eexists. vm_compute. auto 10. Qed.
Example C17_case_end_of_file : node_at "a." [0;0;0;1;0] = Some (NName []).
Proof. vm_compute. reflexivity. Qed.

(** ** C18 *)
Theorem C18_return_in_body : forall sc tolerant module js above o,
  occurs sc tolerant module js above (NStmt (SReturn o)) -> exists b, In (NBody b) above.
Proof. exact occ_return. Qed.
Print Assumptions C18_return_in_body.
Example C18_case : shows "x = { m() { if (a) { return 1 } } }"
  (fun _ n => match n with NStmt (SReturn (Some _)) => true | _ => false end) = true.
Proof. vm_compute. reflexivity. Qed.
Example C18_case_arrow : shows "x = (a) => { return }"
  (fun _ n => match n with NStmt (SReturn None) => true | _ => false end) = true.
Proof. vm_compute. reflexivity. Qed.

(** After a call of [next] that returned an error, the promise is gone: the parser stays inside
    the function it was in. *)
Definition is_return (p : ProgramPart) : bool := match p with PPStmt (SReturn _) => true | _ => false end.
Theorem C18_after_an_error_refuted : exists sc js s p s',
  reachable (make_cfg sc false false js) (sc_scan sc js) s /\
  next_returns (make_cfg sc false false js) s (Some (Ok p)) s' /\ is_return p = true.
Proof.
  set (js := "function f() { a b; return 1 }").
  pose (g := ex_cfg js). pose (s0 := ex_start js).
  pose (s1 := snd (iter_next g 60 s0)). pose (s2 := snd (iter_next g 60 s1)).
  exists test_scanner, (str js), s2. eexists. eexists. repeat split.
  - eapply (reach_next _ _ s1 60); [|apply surjective_pairing].
    eapply (reach_next _ _ s0 60); [|apply surjective_pairing].
    eapply reach_new. vm_compute. reflexivity.
  - discriminate.
  - exists 60. vm_compute. reflexivity.
  - reflexivity.
Qed.
Print Assumptions C18_after_an_error_refuted.

(** ** C19 *)
Theorem C19_super_in_body : forall sc tolerant module js above,
  occurs sc tolerant module js above (NExpr ESuper) -> exists b, In (NBody b) above.
Proof. exact occ_super. Qed.
Print Assumptions C19_super_in_body.
Theorem C19_new_target_in_body : forall sc tolerant module js above m p,
  occurs sc tolerant module js above (NExpr (EMetaProperty m p)) -> exists b, In (NBody b) above.
Proof. exact occ_meta. Qed.
Print Assumptions C19_new_target_in_body.
Example C19_case : shows "class A { m() { return super.m() } }"
    (fun _ n => match n with NExpr ESuper => true | _ => false end) = true
  /\ shows "function f() { return new.target }"
    (fun _ n => match n with NExpr (EMetaProperty _ _) => true | _ => false end) = true.
Proof. vm_compute. auto. Qed.

(** ** C20 *)
Theorem C20_await_in_async : forall sc tolerant module js above e,
  occurs sc tolerant module js above (NExpr (EAwait e)) ->
  exists id ps b gen, In (NFunction (mkFunction id ps b gen true)) above.
Proof. exact occ_await. Qed.
Print Assumptions C20_await_in_async.
Example C20_case : shows "async function f() { g(await h()) }"
  (fun _ n => match n with NExpr (EAwait _) => true | _ => false end) = true.
Proof. vm_compute. reflexivity. Qed.

(** ** C21 *)
(** As stated the claim is false: a getter in a class leaves the parser expecting [yield]
    expressions (lib.rs:1902 clears [allow_yield] and nothing restores it). *)
Definition generator_like (n : node) : bool :=
  match n with
  | NFunction (mkFunction _ _ _ gen _) => gen
  | NMethod _ => true
  | _ => false
  end.
Theorem C21_yield_refuted : exists sc js above o d,
  occurs sc false false js above (NExpr (EYield o d)) /\ forall n, In n above -> generator_like n = false.
Proof.
  assert (H : shows "class A { get x() {} } yield 1;" (fun above n =>
    match n with NExpr (EYield _ _) => forallb (fun n => negb (generator_like n)) above | _ => false end) = true)
    by (vm_compute; reflexivity).
  apply shows_with_occurs in H. destruct H as (above & n & Ho & H).
  destruct n as [| | | |[]| | | | | | | | | | | | | | | | | | | |]; try discriminate.
  do 5 eexists. split; [exact Ho|]. intros n Hn. rewrite forallb_forall in H. specialize (H n Hn).
  destruct (generator_like n); [discriminate|reflexivity].
Qed.
Print Assumptions C21_yield_refuted.

(** It holds for every text without a token spelled [get], and for every text without the
    keyword [class].  Missing: texts with both, where [get] is not the mark of an accessor of
    a class. *)
Theorem C21_yield_partial : forall sc tolerant module js above o d,
  (forall i, input_item (sc_scan sc js) i -> text_of js i <> str "get")
  \/ (forall i, input_item (sc_scan sc js) i -> it_tok i <> TKeyword KClass) ->
  occurs sc tolerant module js above (NExpr (EYield o d)) ->
  (exists id ps b async, In (NFunction (mkFunction id ps b true async)) above) \/ (exists v, In (NMethod v) above).
Proof.
  intros sc tolerant module js above o d [H|H]; apply occ_yield; intros (i & Hi & Hc) (j & Hj & Ht); [exact (H j Hj Ht)|exact (H i Hi Hc)].
Qed.
Print Assumptions C21_yield_partial.
Example C21_case :
  forallb (fun r => negb (text_eqb (text_of (str "function* f() { yield a }") (r_item r)) (str "get")))
    (lex (str "function* f() { yield a }")) = true
  /\ shows "function* f() { yield a }" (fun _ n => match n with NExpr (EYield _ _) => true | _ => false end) = true
  /\ forallb (fun r => negb (is_keyword KClass (it_tok (r_item r)))) (lex (str "({*f() { yield a.get(b) }, get c() { return d }})")) = true
  /\ shows "({*f() { yield a.get(b) }, get c() { return d }})" (fun _ n => match n with NExpr (EYield _ _) => true | _ => false end) = true.
Proof. vm_compute. auto. Qed.

(** ** C22 *)
Theorem C22_labels : forall sc tolerant module js above1 l s above2 s',
  occurs sc tolerant module js (above1 ++ NStmt (SLabeled l s) :: above2) (NStmt (SLabeled l s')) ->
  exists b, In (NBody b) above2.
Proof. exact occ_label. Qed.
Print Assumptions C22_labels.
Example C22_case : shows "a: while (1) { b: x; (function() { a: y }) }"
  (fun above n => match n with
   | NStmt (SLabeled l _) => text_eqb l (str "a") && negb (match above with [_] => true | _ => false end)
   | _ => false end) = true.
Proof. vm_compute. reflexivity. Qed.

(** ** C23 *)
Theorem C23_one_default : forall sc tolerant module js above e cases,
  occurs sc tolerant module js above (NStmt (SSwitch e cases)) ->
  forall l1 b1 l2 b2 l3, cases <> l1 ++ mkCase None b1 :: l2 ++ mkCase None b2 :: l3.
Proof. exact occ_switch. Qed.
Print Assumptions C23_one_default.
Example C23_case : shows "switch (x) { case 1: a; default: b; case 2: c }"
  (fun _ n => match n with NStmt (SSwitch _ [mkCase (Some _) _; mkCase None _; mkCase (Some _) _]) => true | _ => false end) = true.
Proof. vm_compute. reflexivity. Qed.

(** ** C24 *)
Theorem C24_one_constructor : forall sc tolerant module js above id sup elements,
  occurs sc tolerant module js above (NClass (mkClass id sup elements)) ->
  forall l1 p l2 q l3, elements = l1 ++ p :: l2 ++ q :: l3 -> prop_kind p = KCtor -> prop_kind q <> KCtor.
Proof. exact occ_class. Qed.
Print Assumptions C24_one_constructor.
Theorem C24_constructor_is_plain : forall sc tolerant module js above k v m computed shorthand,
  occurs sc tolerant module js above (NProperty (mkProperty k v KCtor m computed shorthand)) ->
  computed = false /\ named k "constructor"
  /\ exists params b async, v = PVExpr (EFunction (mkFunction None params b false async)).
Proof. exact occ_ctor. Qed.
Print Assumptions C24_constructor_is_plain.
Example C24_case : shows "class A { m() {} constructor(x) { y } n() {} }"
  (fun _ n => match n with
   | NClass (mkClass _ _ [mkProperty _ _ KMethod _ _ _; mkProperty _ _ KCtor _ _ _; mkProperty _ _ KMethod _ _ _]) => true
   | _ => false end) = true.
Proof. vm_compute. reflexivity. Qed.

(** ** C25 *)
Theorem C25_getters : forall sc module js above k v m computed shorthand,
  occurs sc false module js above (NProperty (mkProperty k v KGet m computed shorthand)) ->
  exists b async, v = PVExpr (EFunction (mkFunction None [] b false async)).
Proof. intros. eapply occ_getter; eauto. Qed.
Print Assumptions C25_getters.
Theorem C25_setters : forall sc module js above k v m computed shorthand,
  occurs sc false module js above (NProperty (mkProperty k v KSet m computed shorthand)) ->
  exists p b async, v = PVExpr (EFunction (mkFunction None [p] b false async)) /\ is_rest p = false.
Proof. intros. eapply occ_setter; eauto. Qed.
Print Assumptions C25_setters.
Example C25_case : shows "({ get a() { return 1 }, set a(x) { y } })"
  (fun _ n => match n with
   | NExpr (EObject [OPProperty (mkProperty _ _ KGet _ _ _); OPProperty (mkProperty _ _ KSet _ _ _)]) => true
   | _ => false end) = true.
Proof. vm_compute. reflexivity. Qed.
(** With the tolerant option both fail. *)
Example C25_tolerant : shows_with true false "({ get a(x) {} })"
  (fun _ n => match n with
   | NProperty (mkProperty _ (PVExpr (EFunction (mkFunction None [_] _ _ _))) KGet _ _ _) => true
   | _ => false end) = true.
Proof. vm_compute. reflexivity. Qed.

(** ** C26 *)
Theorem C26_templates : forall sc tolerant module js above quasis exprs,
  occurs sc tolerant module js above (NTemplate (mkTemplate quasis exprs)) ->
  length quasis = S (length exprs) /\
  forall l q l', quasis = l ++ q :: l' -> (q_tail q = true <-> l' = []).
Proof. exact occ_template. Qed.
Print Assumptions C26_templates.
Example C26_case : shows "f`a${b}c${`x${y}z`}d`"
  (fun _ n => match n with NTemplate (mkTemplate [_; _; _] [_; _]) => true | _ => false end) = true.
Proof. vm_compute. reflexivity. Qed.

(** ** C27 *)
Theorem C27_rest_last : forall sc tolerant module js above id params b gen async,
  occurs sc tolerant module js above (NFunction (mkFunction id params b gen async)) ->
  forall l a l', params = l ++ a :: l' -> is_rest a = true -> l' = [].
Proof. exact occ_rest. Qed.
Print Assumptions C27_rest_last.
Example C27_case : shows "function f(a, b = 1, ...c) {}"
  (fun _ n => match n with NFunction (mkFunction _ [_; _; a] _ _ _) => is_rest a | _ => false end) = true.
Proof. vm_compute. reflexivity. Qed.
(** Arrow functions are not covered, and do not comply. *)
Example C27_arrow : shows "async (...a, b) => 1"
  (fun _ n => match n with NExpr (EArrowFunction _ [FAExpr (ESpread _); _] _ _ _ _) => true | _ => false end) = true.
Proof. vm_compute. reflexivity. Qed.

(** ** C28 *)
Definition unassignable (e : Expr) : bool :=
  match e with
  | ELiteral (LNumber _) | ELiteral (LString _) | ELiteral (LBoolean _) | ELiteral (LRegEx _ _)
  | EFunction _ | EClass _ | ECall _ _ | ENew _ _ | EUpdate _ _ _ | EUnary _ _ _ | EBinary _ _ _
  | ELogical _ _ _ | EConditional _ _ _ => true
  | _ => false
  end.
(** As stated the claim is false: functions pass. *)
Theorem C28_targets_refuted : exists sc js above o f r,
  occurs sc false false js above (NExpr (EAssignment o (ALExpr (EFunction f)) r)).
Proof.
  assert (H : shows "(async function() {}) = 1" (fun _ n =>
    match n with NExpr (EAssignment _ (ALExpr (EFunction _)) _) => true | _ => false end) = true)
    by (vm_compute; reflexivity).
  apply shows_with_occurs in H. destruct H as (above & n & Ho & H).
  destruct n as [| | | |[]| | | | | | | | | | | | | | | | | | | |]; try discriminate.
  destruct left as [|[]]; try discriminate. do 6 eexists. exact Ho.
Qed.
Print Assumptions C28_targets_refuted.
(** It holds for everything but functions. *)
Theorem C28_assignments_partial : forall sc module js above o l r,
  occurs sc false module js above (NExpr (EAssignment o l r)) ->
  exists x, l = ALExpr x /\ (unassignable x = true -> exists f, x = EFunction f).
Proof.
  intros sc module js above o l r H. apply occ_assignment in H. destruct H as (x & -> & H).
  exists x. split; [reflexivity|]. specialize (H eq_refl). intros U.
  destruct x; try discriminate; [eauto|]. destruct l; discriminate.
Qed.
Print Assumptions C28_assignments_partial.
Theorem C28_updates_partial : forall sc module js above o x prefix,
  occurs sc false module js above (NExpr (EUpdate o x prefix)) ->
  unassignable x = true -> exists f, x = EFunction f.
Proof.
  intros sc module js above o x p H U. apply occ_update in H; [|reflexivity].
  destruct x; try discriminate; [eauto|]. destruct l; discriminate.
Qed.
Print Assumptions C28_updates_partial.
Example C28_case : shows "a.b = c[1] += d++"
    (fun _ n => match n with NExpr (EAssignment _ (ALExpr (EMember _ _ _)) (EAssignment _ _ (EUpdate _ _ _))) => true | _ => false end) = true
  /\ parsed false false (str "f() = 1") = [] /\ parsed false false (str "1++") = []
  /\ parsed false false (str "--(a + b)") = [].
Proof. vm_compute. auto. Qed.

(** ** C29 *)
(** [var] and [let]. *)
Theorem C29_var_patterns : forall sc tolerant module js above ds,
  occurs sc tolerant module js above (NStmt (SVar ds)) ->
  forall p, In (mkVarDecl p None) ds -> exists i, p = PIdentifier i.
Proof. exact occ_var. Qed.
Print Assumptions C29_var_patterns.
Theorem C29_let_patterns : forall sc tolerant module js above k ds,
  k <> VConst -> occurs sc tolerant module js above (NDecl (DVariable k ds)) ->
  forall p, In (mkVarDecl p None) ds -> exists i, p = PIdentifier i.
Proof. exact occ_let. Qed.
Print Assumptions C29_let_patterns.
(** [const]: only the last declarator can lack an initializer, and then the text has a token
    [in] or [of]. *)
Theorem C29_const : forall sc tolerant module js above ds l p l',
  (forall r, In r (sc_scan sc js) -> it_tok (r_item r) = TPunct PComma -> text_of js (r_item r) <> str "of") ->
  occurs sc tolerant module js above (NDecl (DVariable VConst ds)) -> ds = l ++ mkVarDecl p None :: l' ->
  l' = [] /\ exists r, In r (sc_scan sc js) /\
    (it_tok (r_item r) = TKeyword KIn \/ text_of js (r_item r) = str "of").
Proof. exact occ_const. Qed.
Print Assumptions C29_const.
(** That token is the one that follows the list of declarators, in any state of the parser. *)
Theorem C29_const_follow : forall g n in_for s ds s',
  run_call (@body) g n (CBindingList VConst in_for) s = (Ok ds, s') ->
  exists l d, ds = l ++ [d] /\
    (decl_init d = None -> it_tok (st_look s') = TKeyword KIn \/ text_of (g_stream g) (st_look s') = str "of").
Proof. exact binding_list_const. Qed.
Print Assumptions C29_const_follow.
Example C29_case : shows "var [a] = b, c"
    (fun _ n => match n with NStmt (SVar [mkVarDecl (PArray _) (Some _); mkVarDecl (PIdentifier _) None]) => true | _ => false end) = true
  /\ shows "let { a } = b, c"
    (fun _ n => match n with NDecl (DVariable VLet [mkVarDecl (PObject _) (Some _); mkVarDecl (PIdentifier _) None]) => true | _ => false end) = true
  /\ shows "const a = 1, b = 2"
    (fun _ n => match n with NDecl (DVariable VConst [mkVarDecl _ (Some _); mkVarDecl _ (Some _)]) => true | _ => false end) = true
  /\ parsed false false (str "const a, b = 1") = [] /\ parsed false false (str "let [a]") = [].
Proof. vm_compute. auto 10. Qed.
(** The exception is not only for loops. *)
Example C29_exception : shows "const a
of"
    (fun _ n => match n with NDecl (DVariable VConst [mkVarDecl _ None]) => true | _ => false end) = true.
Proof. vm_compute. reflexivity. Qed.

(** ** C30 *)
(** Every function of the parser, from any state: all the flags but [past_prolog], which
    [next_part] sets, [allow_yield] and [allow_strict_directive]. *)
Theorem C30_context_restored : forall g n B (c : call B) s b s',
  run_call (@body) g n c s = (Ok b, s') ->
  c_in_function_body (st_ctx s') = c_in_function_body (st_ctx s)
  /\ c_in_iteration (st_ctx s') = c_in_iteration (st_ctx s)
  /\ c_in_switch (st_ctx s') = c_in_switch (st_ctx s)
  /\ c_await (st_ctx s') = c_await (st_ctx s)
  /\ c_strict (st_ctx s') = c_strict (st_ctx s)
  /\ c_allow_in (st_ctx s') = c_allow_in (st_ctx s)
  /\ c_label_set (st_ctx s') = c_label_set (st_ctx s).
Proof.
  intros g n B c s b s' H. apply call_restores in H.
  assert (E : exists past, core_of false (st_ctx s') =
    mkCore (c_in_function_body (st_ctx s)) (c_await (st_ctx s)) true (c_label_set (st_ctx s)) (c_strict (st_ctx s))
      (c_allow_in (st_ctx s)) (c_in_iteration (st_ctx s)) (c_in_switch (st_ctx s)) past).
  { rewrite H. destruct c; eexists; reflexivity. }
  destruct E as [past E]. inversion E. auto 10.
Qed.
Print Assumptions C30_context_restored.
Theorem C30_past_prolog : forall g n B (c : call B) s b s',
  run_call (@body) g n c s = (Ok b, s') ->
  c_past_prolog (st_ctx s') = c_past_prolog (st_ctx s) \/ exists p, existT (fun B => (call B * B)%type) B (c, b) = existT _ _ (CNextPart, p).
Proof.
  intros g n B c s b s' H. apply call_restores in H.
  destruct c; try (left; apply (f_equal k_past) in H; exact H). right. eexists. reflexivity.
Qed.
Print Assumptions C30_past_prolog.
Example C30_case : exists p s',
  run_call (@body) (ex_cfg "a: for (;;) { async function f() { class A { m() { x } } } }") 200 CStatementListItem
    (ex_start "a: for (;;) { async function f() { class A { m() { x } } } }") = (Ok p, s')
  /\ is_eof (it_tok (st_look s')) = true.
Proof. eexists. eexists. split; [vm_compute; reflexivity|]. reflexivity. Qed.
(** The two other flags are not restored by class getters and function expressions. *)
Theorem C30_all_flags_refuted : exists g n s b s', run_call (@body) g n CStatementListItem s = (Ok b, s')
  /\ c_allow_yield (st_ctx s') <> c_allow_yield (st_ctx s).
Proof.
  exists (ex_cfg "class A { get x() {} }"), 100, (ex_start "class A { get x() {} }").
  eexists. eexists. split; [vm_compute; reflexivity|]. discriminate.
Qed.
Print Assumptions C30_all_flags_refuted.
(** The flag [allow_yield] can only fall, and only where [class] was read; functions and
    methods put it back.  ([CClassBody] and [CClassEl] start behind that word.) *)
Theorem C30_allow_yield : forall g n B (c : call B) s b s',
  run_call (@body) g n c s = (Ok b, s') ->
  (match c with CClassBody | CClassEl _ => False | _ => True end) ->
  c_allow_yield (st_ctx s') = c_allow_yield (st_ctx s)
  \/ (c_allow_yield (st_ctx s') = false /\ exists pre i, ahead s = pre ++ ahead s' /\ In i pre /\ it_tok i = TKeyword KClass).
Proof.
  intros g n B c s b s' H N. apply call_flags in H. destruct H as (_ & _ & Y).
  destruct c; try destruct N; first [exact Y|left; exact Y].
Qed.
Print Assumptions C30_allow_yield.
Theorem C30_allow_yield_put_back : forall g n B (c : call B) s b s',
  run_call (@body) g n c s = (Ok b, s') ->
  (match c with
   | CFunctionDecl _ | CFunctionExpr | CAsyncPropertyMethod | CPropertyMethod | CGeneratorMethod | CGetterMethod => True
   | _ => False
   end) -> c_allow_yield (st_ctx s') = c_allow_yield (st_ctx s).
Proof.
  intros g n B c s b s' H N. apply call_flags in H. destruct H as (_ & _ & Y). destruct c; try destruct N; exact Y.
Qed.
Print Assumptions C30_allow_yield_put_back.
(** The flag [allow_strict_directive] only changes where [function] was read; method bodies put
    it back, function declarations leave it as their parameters do, and function expressions
    set it to whether their parameters are simple. *)
Theorem C30_allow_strict_directive : forall g n B (c : call B) s b s',
  run_call (@body) g n c s = (Ok b, s') ->
  c_allow_strict_directive (st_ctx s') = c_allow_strict_directive (st_ctx s)
  \/ exists pre i, ahead s = pre ++ ahead s' /\ In i pre /\ it_tok i = TKeyword KFunction.
Proof.
  intros g n B c s b s' H. apply call_flags in H. destruct H as (_ & D & _).
  destruct c; first [exact D|left; exact D].
Qed.
Print Assumptions C30_allow_strict_directive.
Theorem C30_method_body : forall g n B (c : call B) s b s',
  run_call (@body) g n c s = (Ok b, s') ->
  (match c with CMethodBody _ _ | CPropertyMethodBody _ _ => True | _ => False end) ->
  c_allow_strict_directive (st_ctx s') = c_allow_strict_directive (st_ctx s).
Proof.
  intros g n B c s b s' H N. apply call_flags in H. destruct H as (_ & D & _). destruct c; try destruct N; exact D.
Qed.
Print Assumptions C30_method_body.
Theorem C30_function_declaration : forall g n o s f s',
  run_call (@body) g n (CFunctionDecl o) s = (Ok f, s') ->
  exists m s1 fp s2, run_call (@body) g m CFormalParams s1 = (Ok fp, s2)
    /\ (match f with mkFunction _ ps _ _ _ => ps end) = fp_params fp
    /\ c_allow_strict_directive (st_ctx s') = c_allow_strict_directive (st_ctx s2).
Proof.
  intros g [|n] o s f s' H; [discriminate|]. cbn [run_call body] in H. unfold function_decl in H.
  do 5 ok1 H. destruct x3 as [id fr]. do 5 ok1 H.
  exists n. do 3 eexists. split; [match goal with E : run_in _ _ _ (Call CFormalParams) _ = _ |- _ => exact E end|].
  repeat ok1 H. apply ok_ret in H. destruct H as [-> ->]. split; [reflexivity|].
  repeat match goal with
  | E : run_in _ _ _ (upd _) _ = _ |- _ => apply ok_upd in E
  | E : run_in _ _ _ (get _) _ = _ |- _ => apply ok_get in E; destruct E as [? ?]
  end.
  subst. reflexivity.
Qed.
Print Assumptions C30_function_declaration.
Theorem C30_function_expression : forall g n s f s',
  run_call (@body) g n CFunctionExpr s = (Ok f, s') ->
  exists m s1 fp s2 id b gen async, run_call (@body) g m CFormalParams s1 = (Ok fp, s2)
    /\ f = EFunction (mkFunction id (fp_params fp) b gen async)
    /\ c_allow_strict_directive (st_ctx s') = fp_simple fp.
Proof.
  intros g [|n] s f s' H; [discriminate|]. cbn [run_call body] in H. unfold function_expr in H.
  do 10 ok1 H. destruct x8 as [id fr]. ok1 H.
  repeat ok1 H. apply ok_ret in H. destruct H as [-> ->].
  exists n. do 7 eexists. split; [match goal with E : run_in _ _ _ (Call CFormalParams) _ = _ |- _ => exact E end|].
  split; [reflexivity|].
  repeat match goal with
  | E : run_in _ _ _ (upd _) _ = _ |- _ => apply ok_upd in E
  end.
  subst. reflexivity.
Qed.
Print Assumptions C30_function_expression.
(** The statement in the case has all of these but generators; a class without getters leaves [allow_yield] alone,
    and an expression as parameter is where a declaration passes a flag on. *)
Definition flags_after (js : string) : bool * bool :=
  let c := st_ctx (snd (run_call (@body) (ex_cfg js) 200 CStatementListItem (ex_start js))) in
  (c_allow_yield c, c_allow_strict_directive c).
Example C30_flags_case :
  flags_after "async function f(a = 1) { class A { m(b = 2) { x } set n(c = 3) { } *o(d = 4) { yield } } }" = (true, true)
  /\ flags_after "class A { get x() { } }" = (false, true)
  /\ flags_after "(function (a = 1) { })" = (true, false)
  /\ flags_after "function f(a = function (b = 1) { }) { }" = (true, false)
  /\ flags_after "function f() { (function (b = 1) { }); class A { get x() { } } }" = (true, true).
Proof. vm_compute. auto 10. Qed.

(** ** C33 *)
Theorem C33_no_with_in_class : forall sc module js above c e s,
  In (NClass c) above -> ~ occurs sc false module js above (NStmt (SWith e s)).
Proof. intros. eapply occ_class_strict; eauto. Qed.
Print Assumptions C33_no_with_in_class.
Theorem C33_no_delete_in_class : forall sc module js above c prefix x,
  In (NClass c) above -> ~ occurs sc false module js above (NExpr (EUnary UDelete prefix (EIdent x))).
Proof. intros. eapply occ_class_strict; eauto. Qed.
Print Assumptions C33_no_delete_in_class.
(** Outside classes both are accepted, inside classes other statements and operands are. *)
Example C33_case : shows "with (a) { delete b }"
    (fun _ n => match n with NStmt (SWith _ _) => true | _ => false end) = true
  /\ shows "with (a) { delete b }"
    (fun _ n => match n with NExpr (EUnary UDelete _ (EIdent _)) => true | _ => false end) = true
  /\ shows "class A { m() { delete a.b } }"
    (fun above n => match n with NExpr (EUnary UDelete _ (EMember _ _ _)) =>
       existsb (fun n => match n with NClass _ => true | _ => false end) above | _ => false end) = true
  /\ parsed false false (str "class A { m() { with (a) b } }") = []
  /\ parsed false false (str "class A { m() { delete b } }") = [].
Proof. vm_compute. auto 10. Qed.

(** ** C38 *)
Theorem C38_imports : forall sc tolerant module js above specifiers src,
  occurs sc tolerant module js above (NImport (mkImport specifiers src)) ->
  ((exists d, specifiers = [ISDefault d])
   \/ (exists d n, specifiers = [ISDefault d; ISNamespace n])
   \/ (exists d l, specifiers = ISDefault d :: l /\ Forall normal_spec l)
   \/ (exists n, specifiers = [ISNamespace n])
   \/ Forall normal_spec specifiers)
  /\ exists w, src = LString w.
Proof. exact occ_import. Qed.
Print Assumptions C38_imports.
Example C38_case : shows_with false true "import d, { a, b as c } from 'm'"
    (fun _ n => match n with NImport (mkImport [ISDefault _; ISNormal _ None; ISNormal _ (Some _)] (LString _)) => true | _ => false end) = true
  /\ shows_with false true "import d, * as n from 'm'"
    (fun _ n => match n with NImport (mkImport [ISDefault _; ISNamespace _] (LString _)) => true | _ => false end) = true
  /\ shows_with false true "import 'm'"
    (fun _ n => match n with NImport (mkImport [] (LString _)) => true | _ => false end) = true.
Proof. vm_compute. auto. Qed.

(** ** C39 *)
(** The directives among the parts of a program come first. *)
Theorem C39_directives_first : forall sc tolerant module js i s parts s',
  start (make_cfg sc tolerant module js) (sc_scan sc js) = (Ok i, s) ->
  yields (make_cfg sc tolerant module js) s parts s' ->
  exists dirs others, parts = dirs ++ others /\ (forall p, In p dirs -> exists d l, p = PPDir d l) /\
    (forall p, In p others -> forall d l, p <> PPDir d l).
Proof. exact directives_first. Qed.
Print Assumptions C39_directives_first.
Theorem C39_directives_first_parse : forall sc tolerant module js p s',
  parse_text sc (mkBuilder tolerant module js) (Ok p) s' ->
  exists dirs others, parts_of p = dirs ++ others /\ (forall p, In p dirs -> exists d l, p = PPDir d l) /\
    (forall p, In p others -> forall d l, p <> PPDir d l).
Proof.
  intros sc tolerant module js p s' H. unfold parse_text, build in H. cbn [b_tolerant b_module b_js] in H.
  destruct (start _ _) as [[i|e| |] s] eqn:Hs; [|destruct H; discriminate|destruct H; discriminate|contradiction].
  apply parse_is_iteration in H. destruct H as (parts & s1 & r & Hy & _ & H).
  destruct H as [[_ E]|[[? [_ E]]|[_ E]]]; try discriminate.
  replace (parts_of p) with parts by (inversion E; destruct module; reflexivity).
  eapply directives_first; eauto.
Qed.
Print Assumptions C39_directives_first_parse.
(** A directive is a part of the program or stands directly in a function body: never in a
    block, a case or a clause of [try].  Its text is the literal stripped of the quote
    characters at its ends. *)
Theorem C39_directives_partial : forall sc tolerant module js above d l,
  occurs sc tolerant module js above (NPart (PPDir d l)) ->
  (above = [] \/ exists a b, above = a ++ [NBody b]) /\
  exists s a b, l = LString s /\ s = a ++ d ++ b
    /\ (forall c, In c (a ++ b) -> c = 39%N \/ c = 34%N)
    /\ (forall c d', d = c :: d' -> c <> 39%N /\ c <> 34%N) /\ (forall d' c, d = d' ++ [c] -> c <> 39%N /\ c <> 34%N).
Proof.
  intros sc tolerant module js above d l H. apply occ_directive in H. destruct H as (H1 & s & H2 & a & b & H3 & Ha & Hb & Hc & Hd).
  split; [exact H1|]. exists s, a, b. unfold quote in *. rewrite Forall_forall in Ha, Hb. repeat split; auto.
  - intros c Hi. apply in_app_or in Hi. destruct Hi; auto.
  - intros ->. exact (Hc _ _ H (or_introl eq_refl)).
  - intros ->. exact (Hc _ _ H (or_intror eq_refl)).
  - intros ->. exact (Hd _ _ H (or_introl eq_refl)).
  - intros ->. exact (Hd _ _ H (or_intror eq_refl)).
Qed.
Print Assumptions C39_directives_partial.
Example C39_case : parsed false false (str "'use strict'; 'b'; a; 'c'; function f() { 'd'; }") =
  match parsed false false (str "'use strict'; 'b'; a; 'c'; function f() { 'd'; }") with
  | [_; _; p; q; r] => [PPDir (str "use strict") (LString (str "'use strict'")); PPDir (str "b") (LString (str "'b'")); p; q; r]
  | _ => [] end
  /\ shows "'use strict'; 'b'; a; 'c'; function f() { 'd'; }"
    (fun above n => match n with NPart (PPDir _ _) => negb (match above with [] => true | _ => false end) | _ => false end) = true.
Proof. vm_compute. auto. Qed.
(** Stripping removes more than the delimiters. *)
Theorem C39_text_refuted : exists sc js above d s,
  occurs sc false false js above (NPart (PPDir d (LString s))) /\ length s <> length d + 2.
Proof.
  exists test_scanner, (str "'""a""'"), [], (str "a"), (str "'""a""'"). split; [|vm_compute; discriminate].
  apply (at_path_occurs false false "'""a""'" [0]). vm_compute. reflexivity.
Qed.
Print Assumptions C39_text_refuted.
(** In a function body a directive can follow other statements. *)
Theorem C39_function_prologue_refuted : exists sc js above b1 s b2 d l b3,
  occurs sc false false js above (NBody (b1 ++ PPStmt s :: b2 ++ PPDir d l :: b3)).
Proof.
  assert (H : shows "function f() { 'a' + b; 'c'; }" (fun _ n =>
    match n with NBody [PPStmt _; PPDir _ _] => true | _ => false end) = true) by (vm_compute; reflexivity).
  apply shows_with_occurs in H. destruct H as (above & n & Ho & H).
  destruct n as [| | | | | |[|p1 [|p2 [|]]]| | | | | | | | | | | | | | | | | |]; try discriminate;
    destruct p1; try discriminate; destruct p2; try discriminate.
  exists test_scanner, (str "function f() { 'a' + b; 'c'; }"), above, []. eexists. exists []. do 2 eexists. exists []. exact Ho.
Qed.
Print Assumptions C39_function_prologue_refuted.
