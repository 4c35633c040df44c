(** C44: byte offsets and UTF-8.  C45, C46, C47: where the parser and ECMAScript differ. *)
From Verif Require Import Lexer Properties1 Properties2 Properties8 Runs Scan Utf8.
Open Scope string_scope.
Open Scope nat_scope.
Open Scope list_scope.

(** ** C44: spans are ranges of UTF-8 bytes *)
Theorem C44_length : forall t, byte_len t = length (bytes t).
Proof. exact byte_len_bytes. Qed.
Print Assumptions C44_length.

(** [get_string] (lib.rs:4449-4454) slices bytes: the slice is a run of characters between two
    byte offsets. *)
Theorem C44_slice : forall t a b w,
  slice t a b = Some w <->
  exists pre suf, t = pre ++ w ++ suf /\ length (bytes pre) = a /\ length (bytes pre) + length (bytes w) = b.
Proof.
  intros t a b w. split.
  - intros H. destruct (slice_inv _ _ _ _ H) as (pre & suf & -> & <- & E). exists pre, suf. rewrite <- !byte_len_bytes. auto.
  - intros (pre & suf & -> & <- & <-). rewrite <- !byte_len_bytes. apply slice_app.
Qed.
Print Assumptions C44_slice.

Theorem C44_slice_bytes : forall t a b w,
  slice t a b = Some w -> bytes w = firstn (b - a) (skipn a (bytes t)).
Proof. intros t a b w H. apply slice_bytes in H as [_ H]. exact H. Qed.
Print Assumptions C44_slice_bytes.

(** It exists exactly when both ends are character boundaries in order: otherwise Rust panics. *)
Theorem C44_slice_exists : forall t a b,
  (exists w, slice t a b = Some w) <-> a <= b /\ char_boundary (bytes t) a /\ char_boundary (bytes t) b.
Proof.
  intros t a b. split.
  - intros [w H]. destruct (slice_inv _ _ _ _ H) as (pre & suf & -> & <- & <-).
    split; [lia|]. split; [apply boundary_bytes|]. rewrite app_assoc, <- byte_len_app. apply boundary_bytes.
  - intros (L & Ha & Hb). apply slice_some; assumption.
Qed.
Print Assumptions C44_slice_exists.

(** The offsets the scanner contract speaks of are the offsets of characters. *)
Theorem C44_boundary : forall t o, boundary t o <-> char_boundary (bytes t) o.
Proof.
  intros t o. split.
  - intros (pre & suf & -> & <-). apply boundary_bytes.
  - intros H. destruct (boundary_split _ _ H) as (pre & suf & -> & E). exists pre, suf. auto.
Qed.
Print Assumptions C44_boundary.

(** a (1 byte), é (2), euro sign (3), an emoji (4) *)
Definition wide : text := [97; 233; 8364; 128512]%N.
Example C44_bytes : bytes wide = [97; 195; 169; 226; 130; 172; 240; 159; 152; 128]%N.
Proof. reflexivity. Qed.
Example C44_slices : slice wide 1 6 = Some [233; 8364]%N /\ slice wide 2 6 = None /\ slice wide 6 10 = Some [128512]%N
  /\ slice wide 6 11 = None /\ slice wide 3 1 = None.
Proof. repeat split. Qed.

(** ** C45 to C47 *)
(** The text is scanned as ECMAScript has it (the token kinds can be read off
    [source_tokens test_scanner js]), in a way that keeps the contract, and parsed. *)
Definition accepted (module : bool) (js : text) (p : Program) : Prop :=
  scan_contract js (sc_scan test_scanner js) /\ parses_to test_scanner false module js p.
Definition rejected (module : bool) (js : text) : Prop :=
  scan_contract js (sc_scan test_scanner js)
  /\ let g := make_cfg test_scanner false module js in
     exists i s, start g (sc_scan test_scanner js) = (Ok i, s)
       /\ exists n e s', parse g n s = (Err e, s')
          /\ forall m o s'', parse g m s = (o, s'') -> o = NoFuel \/ o = Err e.

Lemma accepted_run module js p : contractb js (lex js) = true -> run_text false module js = Ok p -> accepted module js p.
Proof.
  intros C R. split; [apply contractb_ok; exact C|]. unfold run_text, build in R. cbn [b_tolerant b_module b_js] in R.
  unfold parses_to. cbv zeta. destruct (start _ _) as [[i|e| |] s] eqn:S; try discriminate.
  exists i, s. split; [reflexivity|]. destruct (parse _ _ s) as [o s'] eqn:Q. cbn in R. subst o. split; [eauto|].
  intros m o s1 Rm. destruct (Nat.le_ge_cases (60 * (length js + 4)) m) as [L|L].
  - rewrite (parse_mono _ _ _ _ _ _ L Q) in Rm by discriminate. injection Rm as <- _. auto.
  - destruct o as [q|e| |]; [right|right|right|left; reflexivity];
      rewrite (parse_mono _ _ _ _ _ _ L Rm) in Q by discriminate; injection Q as -> _; reflexivity.
Qed.
Lemma rejected_run module js e : contractb js (lex js) = true -> run_text false module js = Err e -> rejected module js.
Proof.
  intros C R. split; [apply contractb_ok; exact C|]. unfold run_text, build in R. cbn [b_tolerant b_module b_js] in R. cbv zeta.
  destruct (start_scan test_scanner false module js (contractb_ok _ _ C)) as (i & s & S & _). rewrite S in R. exists i, s. split; [exact S|].
  destruct (parse _ _ s) as [o s'] eqn:Q. cbn in R. subst o. eexists _, _, _. split; [exact Q|].
  intros m o s1 Rm. destruct (Nat.le_ge_cases (60 * (length js + 4)) m) as [L|L].
  - rewrite (parse_mono _ _ _ _ _ _ L Q) in Rm by discriminate. injection Rm as <- _. auto.
  - destruct o as [q|e'| |]; [right|right|right|left; reflexivity];
      rewrite (parse_mono _ _ _ _ _ _ L Rm) in Q by discriminate; injection Q as -> _; reflexivity.
Qed.

Definition runs_ok (module : bool) (js : text) : bool :=
  contractb js (lex js) && match run_text false module js with Ok _ => true | _ => false end.
Definition runs_err (module : bool) (js : text) : bool :=
  contractb js (lex js) && match run_text false module js with Err _ => true | _ => false end.
Lemma all_accepted module l : forallb (runs_ok module) l = true -> forall js, In js l -> exists p, accepted module js p.
Proof.
  intros H js I'. rewrite forallb_forall in H. specialize (H _ I'). unfold runs_ok in H. apply andb_prop in H as [C R].
  destruct (run_text false module js) as [p| | |] eqn:E; try discriminate. exists p. apply accepted_run; assumption.
Qed.
Lemma all_rejected module l : forallb (runs_err module) l = true -> forall js, In js l -> rejected module js.
Proof.
  intros H js I'. rewrite forallb_forall in H. specialize (H _ I'). unfold runs_err in H. apply andb_prop in H as [C R].
  destruct (run_text false module js) as [|e| |] eqn:E; try discriminate. eapply rejected_run; eassumption.
Qed.
Ltac accepts := apply all_accepted; vm_compute; reflexivity.
Ltac rejects := apply all_rejected; vm_compute; reflexivity.

(** *** C45: whatever is accepted is a program of ECMAScript 2019.  False. *)
(** Productions.  lib.rs:1031 (try without handler), :774 (export * from), :1780-1816 and
    :3837-3925 (class heads, names after a dot), :1682-1752 (names of functions), :2403-2425 and
    :3226-3302 (arrow parameters that are no arrow parameters), :1195-1350 (heads of for). *)
Theorem C45_productions_refuted : forall js, In js
  [ str "try {}";                         (* neither catch nor finally *)
    str "a.+;"; str "a.";                 (* no name after the dot *)
    str "class extends B C {}";           (* name after the heritage *)
    str "function () {}";                 (* declaration without a name *)
    str "(a,) + 1;"; str "(a, ...b) + 1;"; (* only arrow parameters may end so *)
    str "((a, b)) => 1;";                 (* parameters in parentheses *)
    str "async.foo x => 1;";              (* two expressions side by side *)
    str "for (a, b in c;;) ;";            (* [in] in the head of a for *)
    str "var {...a, b} = c;";             (* rest not last *)
    str "if (a) class B {}";              (* declaration as a branch *)
    str "-a ** b;" ]                      (* unary operand of ** *)
  -> exists p, accepted false js p.
Proof. accepts. Qed.
Print Assumptions C45_productions_refuted.

Theorem C45_modules_refuted : forall js, In js
  [ str "export * whatever 'm';";         (* any token stands for from *)
    str "export {if};" ]                  (* a keyword is no binding *)
  -> exists p, accepted true js p.
Proof. accepts. Qed.
Print Assumptions C45_modules_refuted.

(** Places where no line terminator may come.  lib.rs:1066 ([throw]: the test has an empty
    branch), :3060-3188 ([=>]: no test). *)
Theorem C45_line_terminators_refuted : forall js, In js
  [ str "throw" ++ [LF] ++ str "a;"; str "a" ++ [LF] ++ str "=> 1;"; str "async (a)" ++ [LF] ++ str "=> 1;" ]
  -> exists p, accepted false js p.
Proof. accepts. Qed.
Print Assumptions C45_line_terminators_refuted.

(** Targets of assignments and loops.  lib.rs:3342-3389, :1300-1335. *)
Theorem C45_targets_refuted : forall js, In js
  [ str "(a, b) = 1;"; str "`a` = 1;"; str "x => { new.target = 1; }";
    str "for (1 of x) ;"; str "for (1 in x) ;"; str "for (f() of x) ;";
    str "for (var i = 0 of x) ;"; str "({a = 1});"; str "f({a = 1});" ]
  -> exists p, accepted false js p.
Proof. accepts. Qed.
Print Assumptions C45_targets_refuted.

(** Early errors.  lib.rs:1454-1472 (labels and loops of break and continue), :2811-2837 (names),
    :3829 (super), :1989-2005 (constructors), :512-550 (strict mode from a directive). *)
Theorem C45_early_errors_refuted : forall js, In js
  [ str "break;"; str "a: while (b) continue c;";
    str "var if = 1;";
    str "function f() { super(); }"; str "({ m() { super(); } });";
    str "class A { 'constructor'() {} 'constructor'() {} }";
    str "'use strict'; with (a) b;";
    str "let a = 1, a = 2;"; str "(a, a) => 1;" ]
  -> exists p, accepted false js p.
Proof. accepts. Qed.
Print Assumptions C45_early_errors_refuted.

(** Asynchronous functions and generators.  lib.rs:1195-1215 ([await] after [for] is not tied to
    [of] nor to an asynchronous function), :1836-1988 (marks of class members in any order),
    :3926-3982 (parameters), :3060-3188 (bodies of arrow functions keep the rights of the function
    around them; no test for a target after [await]), :2528-2663 (no test for lines). *)
Theorem C45_async_refuted : forall js, In js
  [ str "for await (;;) ;"; str "for await (a of b) ;"; str "async function f() { for await (a in b) ; }";
    str "class A { async static m() {} }"; str "class A { async get x() {} }"; str "class A { async set x(a) {} }";
    str "({async" ++ [LF] ++ str "m() {}});"; str "async a" ++ [LF] ++ str "=> 1;";
    str "async (1) => 2;";
    str "async function f() { await a = 1; }"; str "async function f() { ++await a; }";
    str "async function f() { () => await a; }"; str "function* f() { () => yield; }";
    str "async function f(a = await b) {}"; str "function* f(a = yield) {}";
    str "async function f() { var await; }" ]
  -> exists p, accepted false js p.
Proof. accepts. Qed.
Print Assumptions C45_async_refuted.

(** Further: lib.rs:3837-3925 (a string after a dot), :953-975 (bodies of loops), :3226-3302 and
    :3342-3389 (parentheses in and around patterns are gone by then), :3060-3110 ([async] and an
    operator before a parameter), :1780-1816 (names of classes), :1836-1988 (an asynchronous
    constructor), :2664-2680 (the name compared with is [_proto_], with one underscore),
    :2054-2108 (methods are read as generators are), :551-617 (import and export may
    come in a block, and in a script), and no strict mode in modules, nor a table of exported names. *)
Theorem C45_more_refuted : forall js, In js
  [ str "a.'x';"; str "while (a) function f() {}"; str "async + b c => 1;";
    str "([(a)]) => 1;"; str "([a]) = b;";
    str "class eval {}"; str "class A { async constructor() {} }"; str "({ __proto__: a, __proto__: b });";
    str "({ m() { yield a } });"; str "import a from 'b';"; str "{ import a from 'b'; }"; str "if (a) { export { b }; }" ]
  -> exists p, accepted false js p.
Proof. accepts. Qed.
Print Assumptions C45_more_refuted.
Theorem C45_more_modules_refuted : forall js, In js
  [ str "with (a) b;"; str "delete a;"; str "eval = 1;"; str "{ import a from 'b'; }"; str "export { a }; export { a };"; str "export { a };" ]
  -> exists p, accepted true js p.
Proof. accepts. Qed.
Print Assumptions C45_more_modules_refuted.

(** *** C46: every program of ECMAScript 2019 is accepted.  False; C41 has the programs of a
    subset for which it is true. *)
(** lib.rs:2263-2389 (no branch for null), :2528-2663 and :1836-1988 ([async] as the start of a
    property), :3390-3413 (the argument of yield), :4022-4058 (new before the end of a template
    hole), :2034-2053 (async generators), :3926-3982 and :3150-3170 (async arrow functions: await
    is not allowed in the body). *)
Theorem C46_expressions_refuted : forall js, In js
  [ str "null;"; str "a = null;";
    str "({async: 1});"; str "({async});"; str "({async() {}});";
    str "`${new a}`;";
    str "({a: 1, b: c = 2});";
    str "async () => { await 1; };"; str "async x => await x;";
    str "function* g() { yield {}; }"; str "function* g() { yield {a: 1}; }" ]
  -> rejected false js.
Proof. rejects. Qed.
Print Assumptions C46_expressions_refuted.

Theorem C46_classes_refuted : forall js, In js
  [ str "class A { async() {} }"; str "class A { static async m() {} }"; str "class A { async *m() {} }";
    str "({async *m() {}});"; str "async function* f() {}" ]
  -> rejected false js.
Proof. rejects. Qed.
Print Assumptions C46_classes_refuted.

(** lib.rs:4357-4374 (the item after [async] may be a comment), :4417-4450 ([await] and [import] do
    not begin the argument of yield), :1836-1988 (accessors named [async]), :1780-1816 (heritage), and
    [await] as a name. *)
Theorem C46_async_refuted : forall js, In js
  [ str "async /* a */ function f() {}"; str "(async function* () { yield await a; });";
    str "function* g() { yield import(a); }";
    str "class A { get async() {} }"; str "class A { set async(a) {} }";
    str "class A extends f() {}"; str "await: 1;"; str "x = await;" ]
  -> rejected false js.
Proof. rejects. Qed.
Print Assumptions C46_async_refuted.

(** Names that are reserved in strict mode only: lib.rs:2528-2663, :2811-2837; heads of for:
    :1195-1350 (the start of a pattern in the head is read with [in] forbidden throughout; [async]
    and [let]); :3390-3413 (yield before the end of a hole). *)
Theorem C46_more_refuted : forall js, In js
  [ str "({ let });"; str "({ yield });"; str "var let;"; str "function await() {}";
    str "for (let;;) ;"; str "for (let = 1;;) ;"; str "for (async.a of b) ;";
    str "for (var [a = b in c] = d;;) ;"; str "for (var { a = b in c } = d;;) ;"; str "for (var { [a in b]: c } of d) ;";
    str "function* g() { `${yield}` }"; str "class A extends null {}" ]
  -> rejected false js.
Proof. rejects. Qed.
Print Assumptions C46_more_refuted.

(** lib.rs:780-787: a semicolon is wanted after the one that ends the declaration; :748-768: what
    follows the literal is left over. *)
Theorem C46_exports_refuted : forall js, In js
  [ str "export let a = 1; foo();"; str "export const a = 1; var b;";
    str "export default [1].a;"; str "export default {}.a;" ]
  -> rejected true js.
Proof. rejects. Qed.
Print Assumptions C46_exports_refuted.

(** *** C47: programs that differ in what they do get different trees.  False; C41_unambiguous is
    the converse for a subset (no program has two trees). *)
Definition same_tree (a b : text) : Prop := exists p, accepted false a p /\ accepted false b p.
Lemma same_tree_run a b p : contractb a (lex a) && contractb b (lex b) = true ->
  run_text false false a = Ok p -> run_text false false b = Ok p -> same_tree a b.
Proof. intros C A B. apply andb_prop in C as [C1 C2]. exists p. split; apply accepted_run; assumption. Qed.
Ltac same := eapply same_tree_run; vm_compute; reflexivity.

(** lib.rs:2963-2969: the rest marker of an array pattern is dropped. *)
Theorem C47_array_rest_refuted : same_tree (str "var [...a] = b;") (str "var [a] = b;")
  /\ same_tree (str "function f([...a]) {}") (str "function f([a]) {}")
  /\ same_tree (str "for (let [...a] of b) ;") (str "for (let [a] of b) ;").
Proof. split; [|split]; same. Qed.
Print Assumptions C47_array_rest_refuted.
(** lib.rs:1836-1988: [static] is dropped. *)
Theorem C47_static_refuted : same_tree (str "class A { static x() {} }") (str "class A { x() {} }")
  /\ same_tree (str "class A { static get x() {} }") (str "class A { get x() {} }")
  /\ same_tree (str "class A { static [x]() {} }") (str "class A { [x]() {} }").
Proof. split; [|split]; same. Qed.
Print Assumptions C47_static_refuted.
(** lib.rs:1786-1808: the heritage of a class without a name is dropped. *)
Theorem C47_heritage_refuted : same_tree (str "(class extends B {});") (str "(class {});")
  /\ same_tree (str "export default class extends B {}") (str "export default class {}").
Proof. split; same. Qed.
Print Assumptions C47_heritage_refuted.
(** lib.rs:3060-3188: what stands between [async] and the parameter is dropped. *)
Theorem C47_async_refuted : same_tree (str "async.foo x => 1;") (str "async x => 1;").
Proof. same. Qed.
Print Assumptions C47_async_refuted.

(** lib.rs:896-899: a declaration of an asynchronous function is kept as an expression. *)
Theorem C47_async_function_refuted : same_tree (str "async function f() {}") (str "(async function f() {});").
Proof. same. Qed.
Print Assumptions C47_async_function_refuted.

(** The checks above do not accept or reject everything. *)
Example C45_correct_neighbours :
  (forall js, In js [str "try {} finally {}"; str "a.b;"; str "throw a;"; str "(a, b) => 1;"; str "[a] = b;"] -> exists p, accepted false js p)
  /\ (forall js, In js [str "try"; str "a +;"; str "(a + b) => 1;"; str "0 = 1;"; str "a++ = 1;"] -> rejected false js)
  /\ ~ same_tree (str "[...a];") (str "[a];").
Proof.
  split; [accepts|]. split; [rejects|]. intros (p & [_ (i & s & S & (n & s' & R) & _)] & [_ (i' & s2 & S' & _ & U')]).
  assert (A : exists q, accepted false (str "[a];") q /\ forall q', accepted false (str "[...a];") q' -> q <> q').
  { eexists. split; [apply accepted_run; vm_compute; reflexivity|]. intros q' [_ (j & t & T & (m & t' & R2) & U2)].
    assert (B : run_text false false (str "[...a];") = Ok q').
    { unfold run_text, build. cbn [b_tolerant b_module b_js]. rewrite T. destruct (parse _ (60 * (length (str "[...a];") + 4)) t) as [o t2] eqn:Q.
      destruct (U2 _ _ _ Q) as [->| ->]; [|reflexivity]. exfalso. vm_compute in T. injection T as <- <-. vm_compute in Q. discriminate. }
    intros <-. vm_compute in B. discriminate. }
  destruct A as (q & [_ (j & t & T & (m & t' & R2) & _)] & D).
  rewrite S' in T. injection T as <- <-. destruct (U' _ _ _ R2) as [X|X]; [discriminate|]. injection X as ->.
  apply (D p); [|reflexivity]. split; [apply contractb_ok; vm_compute; reflexivity|].
  exists i, s. split; [exact S|]. split; [eauto|]. intros k o s'' Rk. destruct (Nat.le_ge_cases n k) as [L|L].
  - rewrite (parse_mono _ _ _ _ _ _ L R) in Rk by discriminate. injection Rk as <- _. auto.
  - destruct o as [q|e| |]; [right|right|right|left; reflexivity];
      rewrite (parse_mono _ _ _ _ _ _ L Rk) in R by discriminate; injection R as -> _; reflexivity.
Qed.
