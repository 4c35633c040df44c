(** C55: what names, strings and numbers say does not matter to the parser.

    [renames f sc js1 js2] (Renamed.v) says that the scanner finds the same kinds of tokens in both
    texts, with the same marks for line terminators, and that the text of each token of the second
    is [f] of the text of the first; templates and regular expressions stay as they are, since the
    parser cuts pieces out of them.  [renaming f] (Rename.v) says that [f] is one to one and leaves
    a fixed list of words alone.  The outcome for the second text is then the outcome for the first
    with [f] applied to all names, strings and numbers in it. *)
From Verif Require Import Lexer Properties1 Properties2 Properties8 Properties11 Runs Term Renamed.
Open Scope string_scope.
Open Scope nat_scope.
Open Scope list_scope.

Lemma fresh_renamed f sc tolerant module js1 js2 s1 s2 :
  scan_contract js1 (sc_scan sc js1) -> scan_contract js2 (sc_scan sc js2) -> renames f sc js1 js2 ->
  fresh_parser sc tolerant module js1 s1 -> fresh_parser sc tolerant module js2 s2 ->
  RR (make_cfg sc tolerant module js1) (make_cfg sc tolerant module js2) (sc_scan sc js1) (sc_scan sc js2) f s1 s2.
Proof. intros C1 C2 Ha (i1 & E1) (i2 & E2). eapply start_ren; eauto. Qed.

Theorem C55_parse : forall f sc tolerant module js1 js2 o1 s1, renaming f ->
  scan_contract js1 (sc_scan sc js1) -> scan_contract js2 (sc_scan sc js2) ->
  renames f sc js1 js2 -> async_alike js1 js2 (sc_scan sc js1) (sc_scan sc js2) ->
  parse_text sc (mkBuilder tolerant module js1) o1 s1 ->
  exists o2 s2, parse_text sc (mkBuilder tolerant module js2) o2 s2
    /\ ren_outcome f (ren_program f) o1 = unplaced_outcome o2.
Proof.
  intros f sc tolerant module js1 js2 o1 s1 F C1 C2 Ha Hs H.
  destruct (start_scan sc tolerant module js1 C1) as (i1 & t1 & E1 & _). destruct (start_scan sc tolerant module js2 C2) as (i2 & t2 & E2 & _).
  unfold parse_text, build in *. cbn [b_tolerant b_module b_js] in *. rewrite E1 in H. rewrite E2. destruct H as (N & n & H).
  pose proof (fresh_renamed f sc tolerant module js1 js2 t1 t2 C1 C2 Ha ltac:(exists i1; exact E1) ltac:(exists i2; exact E2)) as R.
  pose proof (parse_ren (make_cfg sc tolerant module js1) (make_cfg sc tolerant module js2) _ _ f F eq_refl eq_refl eq_refl eq_refl eq_refl (proj1 (proj2 Ha)) eq_refl eq_refl Hs n t1 t2 R) as P.
  apply agree_outcome in P. rewrite H in P. cbn [fst] in P.
  destruct (parse (make_cfg sc tolerant module js2) n t2) as [o2 s2] eqn:E. cbn [fst] in P. exists o2, s2. split; [|exact P].
  split; [|exists n; exact E]. intros ->. destruct o1; cbn in P; congruence.
Qed.
Print Assumptions C55_parse.

(** The iterator yields the renamed parts, and ends in the same way. *)
Theorem C55_iterator : forall f sc tolerant module js1 js2 s1 s2 parts t1 r u1,
  let g1 := make_cfg sc tolerant module js1 in let g2 := make_cfg sc tolerant module js2 in renaming f ->
  scan_contract js1 (sc_scan sc js1) -> scan_contract js2 (sc_scan sc js2) ->
  renames f sc js1 js2 -> async_alike js1 js2 (sc_scan sc js1) (sc_scan sc js2) ->
  fresh_parser sc tolerant module js1 s1 -> fresh_parser sc tolerant module js2 s2 ->
  yields g1 s1 parts t1 -> next_returns g1 t1 r u1 ->
  exists t2 r2 u2, yields g2 s2 (map (ren_part f) parts) t2 /\ next_returns g2 t2 r2 u2
    /\ option_map (ren_outcome f (ren_part f)) r = option_map unplaced_outcome r2.
Proof.
  intros f sc tolerant module js1 js2 s1 s2 parts t1 r u1 g1 g2 F C1 C2 Ha Hs F1 F2 Y N.
  pose proof (fresh_renamed _ _ _ _ _ _ _ _ C1 C2 Ha F1 F2) as R. fold g1 g2 in R. clear F1 F2.
  pose proof (fun n a b => iter_next_ren g1 g2 _ _ f F eq_refl eq_refl eq_refl eq_refl eq_refl (proj1 (proj2 Ha)) eq_refl eq_refl Hs n a b) as X.
  revert s2 R. induction Y as [s|s part s' parts s'' (N1 & n & E) Y IH]; intros s2 R.
  - destruct N as (N1 & n & E). destruct (X n s s2 R) as [X1 _]. destruct (iter_next g2 n s2) as [r2 u2] eqn:E2. rewrite E in X1. cbn [fst] in X1.
    exists s2, r2, u2. split; [constructor|]. split; [|exact X1]. split; [|exists n; exact E2].
    intros ->. destruct r as [[?|?| |]|]; cbn in X1; congruence.
  - destruct (X n s s2 R) as [X1 X2]. rewrite E in X1, X2. cbn [fst snd] in X1, X2. destruct (iter_next g2 n s2) as [r2 t2] eqn:E2. cbn [fst snd] in X1, X2.
    destruct r2 as [[a|?| |]|]; cbn in X1; try congruence. injection X1 as <-. specialize (X2 ltac:(discriminate) ltac:(discriminate)).
    destruct (IH N t2 X2) as (v2 & r2 & u2 & Y2 & N2 & E3). exists v2, r2, u2. split; [|split; assumption].
    cbn [map]. econstructor; [|exact Y2]. split; [discriminate|]. exists n. exact E2.
Qed.
Print Assumptions C55_iterator.

(** So does [parse_expression]. *)
Theorem C55_expression : forall f sc tolerant module js1 js2 s1 s2 n, renaming f ->
  scan_contract js1 (sc_scan sc js1) -> scan_contract js2 (sc_scan sc js2) ->
  renames f sc js1 js2 -> async_alike js1 js2 (sc_scan sc js1) (sc_scan sc js2) ->
  fresh_parser sc tolerant module js1 s1 -> fresh_parser sc tolerant module js2 s2 ->
  ren_outcome f (ren_expr f) (fst (parse_expression (make_cfg sc tolerant module js1) n s1))
  = unplaced_outcome (fst (parse_expression (make_cfg sc tolerant module js2) n s2)).
Proof.
  intros f sc tolerant module js1 js2 s1 s2 n F C1 C2 Ha Hs F1 F2. pose proof (fresh_renamed _ _ _ _ _ _ _ _ C1 C2 Ha F1 F2) as R.
  eapply agree_outcome. unfold parse_expression.
  eapply (run_call_ren (make_cfg sc tolerant module js1) (make_cfg sc tolerant module js2) _ _ f F eq_refl eq_refl eq_refl eq_refl eq_refl (proj1 (proj2 Ha)) eq_refl eq_refl Hs n _ _ CExpression);
    [exact R|apply Nat.le_refl].
Qed.
Print Assumptions C55_expression.

(** ** Exchanging two words *)
Definition swap (a b w : text) : text := if text_eqb w a then b else if text_eqb w b then a else w.
(** A word that the parser does not know. *)
Definition ordinary (a : text) : Prop :=
  (forall w, In w (compared_words ++ produced_words) -> a <> str w) /\ forall k, a <> kw_text k.

Lemma text_eqb_refl a : text_eqb a a = true. Proof. apply text_eqb_eq. reflexivity. Qed.
Lemma text_neqb a b : a <> b -> text_eqb a b = false.
Proof. intros H. destruct (text_eqb a b) eqn:E; [apply text_eqb_eq in E; contradiction|reflexivity]. Qed.
Lemma swap_other a b w : w <> a -> w <> b -> swap a b w = w.
Proof. intros. unfold swap. rewrite !text_neqb by assumption. reflexivity. Qed.
Lemma swap_swap a b w : swap a b (swap a b w) = w.
Proof.
  unfold swap. destruct (text_eqb w a) eqn:Ea.
  - apply text_eqb_eq in Ea. subst w. rewrite text_eqb_refl. destruct (text_eqb b a) eqn:Eb; [apply text_eqb_eq in Eb; exact Eb|reflexivity].
  - destruct (text_eqb w b) eqn:Eb; [rewrite text_eqb_refl; apply text_eqb_eq in Eb; congruence|]. rewrite Ea, Eb. reflexivity.
Qed.
Lemma swap_renaming a b : ordinary a -> ordinary b -> renaming (swap a b).
Proof.
  intros [A1 A2] [B1 B2]. split; [|split].
  - intros x y H. rewrite <- (swap_swap a b x), H. apply swap_swap.
  - intros w Hw. apply swap_other; intros E; [apply (A1 w Hw)|apply (B1 w Hw)]; congruence.
  - intros k. apply swap_other; intros E; [apply (A2 k)|apply (B2 k)]; congruence.
Qed.

(** Exchanging two ordinary words exchanges them in the tree, and nothing else. *)
Theorem C55_swap : forall a b sc tolerant module js1 js2 o1 s1, ordinary a -> ordinary b ->
  scan_contract js1 (sc_scan sc js1) -> scan_contract js2 (sc_scan sc js2) ->
  renames (swap a b) sc js1 js2 -> async_alike js1 js2 (sc_scan sc js1) (sc_scan sc js2) ->
  parse_text sc (mkBuilder tolerant module js1) o1 s1 ->
  exists o2 s2, parse_text sc (mkBuilder tolerant module js2) o2 s2
    /\ ren_outcome (swap a b) (ren_program (swap a b)) o1 = unplaced_outcome o2.
Proof. intros a b sc tolerant module js1 js2 o1 s1 A B. apply C55_parse. apply swap_renaming; assumption. Qed.
Print Assumptions C55_swap.

(** ** The directive that asks for strict mode asks in vain *)

(** [directive] (lib.rs:512-550) compares the text of the token, with its quotes, with
    use strict without quotes.  So exchanging the directive for any other string that the text does
    not use leaves everything else as it is. *)
Lemma quoted_ordinary q w : ~ In q (str "abcdefghijklmnopqrstuvwxyz _") -> ordinary (q :: w).
Proof.
  intros N. split.
  - intros v Hv E. destruct v as [|c v]; [discriminate|]. cbn [str] in E. injection E as E _. apply N. subst q. clear w.
    cbn in Hv. repeat (destruct Hv as [Hv|Hv]; [first [discriminate|injection Hv as <- _; vm_compute; tauto]|]). destruct Hv.
  - intros k E. apply (f_equal (hd 0%N)) in E. cbn [hd] in E. apply N. subst q. destruct k; vm_compute; tauto.
Qed.
Theorem C55_use_strict_inert : forall q w sc tolerant module js1 js2 o1 s1,
  let f := swap (str "'use strict'") (q :: w) in q = 39%N \/ q = 34%N ->
  scan_contract js1 (sc_scan sc js1) -> scan_contract js2 (sc_scan sc js2) ->
  renames f sc js1 js2 -> async_alike js1 js2 (sc_scan sc js1) (sc_scan sc js2) ->
  parse_text sc (mkBuilder tolerant module js1) o1 s1 ->
  exists o2 s2, parse_text sc (mkBuilder tolerant module js2) o2 s2 /\ ren_outcome f (ren_program f) o1 = unplaced_outcome o2.
Proof.
  intros q w sc tolerant module js1 js2 o1 s1 f Q. apply C55_swap.
  - apply (quoted_ordinary 39%N (str "use strict'")). vm_compute. intros H. repeat (destruct H as [H|H]; [discriminate|]). exact H.
  - apply quoted_ordinary. destruct Q; subst q; vm_compute; intros H; repeat (destruct H as [H|H]; [discriminate|]); exact H.
Qed.
Print Assumptions C55_use_strict_inert.

(** ** Cases *)
Definition uncutb (f : text -> text) (sc : scanner) (js : text) : bool :=
  forallb (fun x => match x with (t, Some w, _) => negb (cut_up t) || text_eqb (f w) w | _ => true end) (signs sc js).
Lemma renames_ok f sc js1 js2 : signs sc js2 = map (ren_sign f) (signs sc js1) -> sc_end_nl sc js1 = sc_end_nl sc js2 ->
  uncutb f sc js1 = true -> renames f sc js1 js2.
Proof.
  intros H1 H2 H3. split; [exact H1|]. split; [exact H2|]. unfold uncutb in H3. rewrite forallb_forall in H3.
  intros t w b X C. specialize (H3 _ X). cbn in H3. rewrite C in H3. apply text_eqb_eq. exact H3.
Qed.
Lemma async_alike_ok js1 js2 items1 items2 :
  async_okb js1 items1 && functions_spelledb js1 items1 && end_plainb js1 items1 && negb (existsb (N.eqb LF) js1)
  && async_okb js2 items2 && functions_spelledb js2 items2 && end_plainb js2 items2 && negb (existsb (N.eqb LF) js2) = true ->
  async_alike js1 js2 items1 items2.
Proof.
  rewrite !andb_true_iff, !negb_true_iff. intros H. right.
  split; [apply async_okb_ok; tauto|]. split; [apply functions_spelledb_ok; tauto|]. split; [apply end_plainb_ok; tauto|].
  split; [apply async_okb_ok; tauto|]. split; [apply functions_spelledb_ok; tauto|]. split; [apply end_plainb_ok; tauto|].
  apply same_lines_one_line; apply no_lf; tauto.
Qed.

(** Labels, patterns, calls, members, directives, asynchronous functions, templates, regular
    expressions; [x] is a variable, a label, a property and a parameter. *)
Definition with_x : text :=
  str "'hi'; x: while (x.x) { break x } var { x, z: [x] } = async (y, x) => x(`a${ x }`, /x/g, { x: 1, y }, async function () { await x });".
Definition with_y : text :=
  str "'hi'; why: while ( why.why ) { break why } var { why, z: [why] } = async (x, why) => why(`a${ why }`, /x/g, { why: 1, x }, async function () { await why });".
Definition cycle (w : text) : text :=
  if text_eqb w (str "x") then str "why" else if text_eqb w (str "y") then str "x" else if text_eqb w (str "why") then str "y" else w.
Lemma cycle_renaming : renaming cycle.
Proof.
  assert (C : forall w, cycle (cycle (cycle w)) = w).
  { intros w. unfold cycle. destruct (text_eqb w (str "x")) eqn:E1; [apply text_eqb_eq in E1; subst; reflexivity|].
    destruct (text_eqb w (str "y")) eqn:E2; [apply text_eqb_eq in E2; subst; reflexivity|].
    destruct (text_eqb w (str "why")) eqn:E3; [apply text_eqb_eq in E3; subst; reflexivity|]. rewrite E1, E2, E3, E1, E2, E3. reflexivity. }
  split; [intros a b E; rewrite <- (C a), E; apply C|]. split.
  - intros w H. cbn in H. repeat (destruct H as [H|H]; [subst w; reflexivity|]). destruct H.
  - intros k. destruct k; reflexivity.
Qed.
Example C55_case : renaming cycle /\ scan_contract with_x (sc_scan test_scanner with_x) /\ scan_contract with_y (sc_scan test_scanner with_y)
  /\ renames cycle test_scanner with_x with_y /\ async_alike with_x with_y (sc_scan test_scanner with_x) (sc_scan test_scanner with_y)
  /\ (exists p s, parse_text test_scanner (mkBuilder false false with_x) (Ok p) s) /\ with_x <> with_y.
Proof.
  split; [apply cycle_renaming|]. split; [apply contractb_ok; vm_compute; reflexivity|]. split; [apply contractb_ok; vm_compute; reflexivity|].
  split; [apply renames_ok; vm_compute; reflexivity|]. split; [apply async_alike_ok; vm_compute; reflexivity|].
  split; [|vm_compute; discriminate]. eexists; eexists. split; [discriminate|]. exists 60. vm_compute. reflexivity.
Qed.
(** What renaming does to a tree and to an error. *)
Example C55_case_tree : ren_program cycle (PScript
    [ PPDir (str "x") (LString (str "'x'"));
      PPStmt (SLabeled (str "x") (SExpr (EMember (EIdent (str "x")) (EIdent (str "y")) false)));
      PPDecl (DVariable VVar [mkVarDecl (PIdentifier (str "why")) (Some (ELiteral (LNumber (str "1"))))]) ])
  = PScript
    [ PPDir (str "x") (LString (str "'x'"));
      PPStmt (SLabeled (str "why") (SExpr (EMember (EIdent (str "why")) (EIdent (str "x")) false)));
      PPDecl (DVariable VVar [mkVarDecl (PIdentifier (str "y")) (Some (ELiteral (LNumber (str "1"))))]) ]
  /\ ren_error cycle (UnexpectedToken (mkPos 3 4) (MUnexpected (str "x") "")) = UnexpectedToken (mkPos 0 0) (MUnexpected (str "why") "").
Proof. split; reflexivity. Qed.

Definition strictly : text := str "'use strict'; function f() { 'use strict'; with (a) b }".
Definition loosely : text := str "'use whatever'; function f() { 'use whatever'; with (a) b }".
Example C55_case_strict : let f := swap (str "'use strict'") (str "'use whatever'") in
  scan_contract strictly (sc_scan test_scanner strictly) /\ scan_contract loosely (sc_scan test_scanner loosely)
  /\ renames f test_scanner strictly loosely /\ async_alike strictly loosely (sc_scan test_scanner strictly) (sc_scan test_scanner loosely)
  /\ (exists p s, parse_text test_scanner (mkBuilder false false strictly) (Ok p) s).
Proof.
  split; [apply contractb_ok; vm_compute; reflexivity|]. split; [apply contractb_ok; vm_compute; reflexivity|].
  split; [apply renames_ok; vm_compute; reflexivity|]. split; [apply async_alike_ok; vm_compute; reflexivity|].
  eexists; eexists. split; [discriminate|]. exists 60. vm_compute. reflexivity.
Qed.

(** The list of words cannot be dropped: the parser knows these. *)
Theorem C55_words_refuted : forall w js1 js2, In (w, js1, js2)
  [ ("async", "async function f() { }", "zz function f() { }");
    ("as", "import { a as b } from 'c';", "import { a zz b } from 'c';");
    ("from", "import { a as b } from 'c';", "import { a as b } zz 'c';");
    ("of", "for (a of b) ;", "for (a zz b) ;");
    ("target", "function f() { new.target }", "function f() { new.zz }");
    ("get", "({ get x() { } })", "({ zz x() { } })");
    ("set", "({ set x(a) { } })", "({ zz x(a) { } })");
    ("constructor", "class A { zz() { } zz() { } }", "class A { constructor() { } constructor() { } }");
    ("prototype", "class A { static zz() { } }", "class A { static prototype() { } }");
    ("eval", "class A { m(zz) { } }", "class A { m(eval) { } }");
    ("arguments", "class A { m() { zz++ } }", "class A { m() { arguments++ } }") ] ->
  let f := swap (str w) (str "zz") in
  scan_contract (str js1) (sc_scan test_scanner (str js1)) /\ scan_contract (str js2) (sc_scan test_scanner (str js2))
  /\ renames f test_scanner (str js1) (str js2) /\ async_alike (str js1) (str js2) (sc_scan test_scanner (str js1)) (sc_scan test_scanner (str js2))
  /\ exists o1 s1 o2 s2, parse_text test_scanner (mkBuilder false false (str js1)) o1 s1
    /\ parse_text test_scanner (mkBuilder false false (str js2)) o2 s2 /\ ren_outcome f (ren_program f) o1 <> unplaced_outcome o2.
Proof.
  intros w js1 js2 H. cbn [In] in H.
  repeat (destruct H as [H|H]; [injection H as <- <- <-;
    (split; [apply contractb_ok; vm_compute; reflexivity|]); (split; [apply contractb_ok; vm_compute; reflexivity|]);
    (split; [apply renames_ok; vm_compute; reflexivity|]); (split; [apply async_alike_ok; vm_compute; reflexivity|]);
    do 4 eexists; split; [|split]; [split; [|exists 60; vm_compute; reflexivity]; discriminate|split; [|exists 60; vm_compute; reflexivity]; discriminate|vm_compute; discriminate]|]).
  destruct H.
Qed.
Print Assumptions C55_words_refuted.
