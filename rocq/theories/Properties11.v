(** C50: texts with the same tokens are parsed alike.

    [alike sc js1 js2] (Same.v) says that the scanner finds the same tokens in both texts, spelled
    the same, with the same marks for line terminators before them; it says nothing of the places
    of the tokens and of the comments.  The outcome is then the same, except for the places that
    errors report.  Only the word [async] needs more ([async_alike]), because the parser looks at
    lines there and not at the scanner's marks. *)
From Verif Require Import Lexer Properties1 Properties2 Properties8 Runs Term Same.
Open Scope string_scope.
Open Scope nat_scope.
Open Scope list_scope.

Definition fresh_parser (sc : scanner) (tolerant module : bool) (js : text) (s : state) : Prop :=
  exists i, start (make_cfg sc tolerant module js) (sc_scan sc js) = (Ok i, s).

Lemma fresh_related sc tolerant module js1 js2 s1 s2 :
  scan_contract js1 (sc_scan sc js1) -> scan_contract js2 (sc_scan sc js2) -> alike sc js1 js2 ->
  fresh_parser sc tolerant module js1 s1 -> fresh_parser sc tolerant module js2 s2 ->
  exists lax, (lax = true \/ sc_end_nl sc js1 = sc_end_nl sc js2)
    /\ Rs (make_cfg sc tolerant module js1) (make_cfg sc tolerant module js2) (sc_scan sc js1) (sc_scan sc js2) lax s1 s2.
Proof. intros C1 C2 Ha (i1 & E1) (i2 & E2). eapply start_same; eauto. Qed.

Theorem C50_parse : forall sc tolerant module js1 js2 o1 s1,
  scan_contract js1 (sc_scan sc js1) -> scan_contract js2 (sc_scan sc js2) ->
  alike sc js1 js2 -> async_alike js1 js2 (sc_scan sc js1) (sc_scan sc js2) ->
  parse_text sc (mkBuilder tolerant module js1) o1 s1 ->
  exists o2 s2, parse_text sc (mkBuilder tolerant module js2) o2 s2 /\ unplaced_outcome o1 = unplaced_outcome o2.
Proof.
  intros sc tolerant module js1 js2 o1 s1 C1 C2 Ha Hs H.
  destruct (start_scan sc tolerant module js1 C1) as (i1 & t1 & E1 & _). destruct (start_scan sc tolerant module js2 C2) as (i2 & t2 & E2 & _).
  unfold parse_text, build in *. cbn [b_tolerant b_module b_js] in *. rewrite E1 in H. rewrite E2. destruct H as (N & n & H).
  destruct (fresh_related sc tolerant module js1 js2 t1 t2 C1 C2 Ha) as (lax & He & R); [exists i1; exact E1|exists i2; exact E2|].
  pose proof (parse_same (make_cfg sc tolerant module js1) (make_cfg sc tolerant module js2) _ _ lax eq_refl eq_refl eq_refl eq_refl eq_refl He eq_refl eq_refl Hs n t1 t2 R) as P.
  apply agrees_outcome in P. rewrite H in P. cbn [fst] in P.
  destruct (parse (make_cfg sc tolerant module js2) n t2) as [o2 s2] eqn:E. cbn [fst] in P. exists o2, s2. split; [|exact P].
  split; [|exists n; exact E]. intros ->. destruct o1; cbn in P; congruence.
Qed.
Print Assumptions C50_parse.

(** One accepted: both accepted, with one tree. *)
Theorem C50_tree : forall sc tolerant module js1 js2 p s1,
  scan_contract js1 (sc_scan sc js1) -> scan_contract js2 (sc_scan sc js2) ->
  alike sc js1 js2 -> async_alike js1 js2 (sc_scan sc js1) (sc_scan sc js2) ->
  parse_text sc (mkBuilder tolerant module js1) (Ok p) s1 ->
  exists s2, parse_text sc (mkBuilder tolerant module js2) (Ok p) s2.
Proof.
  intros sc tolerant module js1 js2 p s1 C1 C2 Ha Hs H. destruct (C50_parse _ _ _ _ _ _ _ C1 C2 Ha Hs H) as (o2 & s2 & H2 & E).
  exists s2. destruct o2; cbn in E; try discriminate. injection E as ->. exact H2.
Qed.
Print Assumptions C50_tree.

(** The iterator yields the same parts, and ends in the same way. *)
Theorem C50_iterator : forall sc tolerant module js1 js2 s1 s2 parts t1 r u1,
  let g1 := make_cfg sc tolerant module js1 in let g2 := make_cfg sc tolerant module js2 in
  scan_contract js1 (sc_scan sc js1) -> scan_contract js2 (sc_scan sc js2) ->
  alike sc js1 js2 -> async_alike js1 js2 (sc_scan sc js1) (sc_scan sc js2) ->
  fresh_parser sc tolerant module js1 s1 -> fresh_parser sc tolerant module js2 s2 ->
  yields g1 s1 parts t1 -> next_returns g1 t1 r u1 ->
  exists t2 r2 u2, yields g2 s2 parts t2 /\ next_returns g2 t2 r2 u2
    /\ option_map unplaced_outcome r = option_map unplaced_outcome r2.
Proof.
  intros sc tolerant module js1 js2 s1 s2 parts t1 r u1 g1 g2 C1 C2 Ha Hs F1 F2 Y N.
  destruct (fresh_related _ _ _ _ _ _ _ C1 C2 Ha F1 F2) as (lax & He & R). fold g1 g2 in R. clear F1 F2.
  pose proof (fun n a b => iter_next_same g1 g2 _ _ lax eq_refl eq_refl eq_refl eq_refl eq_refl He eq_refl eq_refl Hs n a b) as X.
  revert s2 R. induction Y as [s|s part s' parts s'' (N1 & n & E) Y IH]; intros s2 R.
  - destruct N as (N1 & n & E). destruct (X n s s2 R) as [X1 _]. destruct (iter_next g2 n s2) as [r2 u2] eqn:E2. rewrite E in X1. cbn [fst] in X1.
    exists s2, r2, u2. split; [constructor|]. split; [|exact X1]. split; [|exists n; exact E2].
    intros ->. destruct r as [[?|?| |]|]; cbn in X1; congruence.
  - destruct (X n s s2 R) as [X1 X2]. rewrite E in X1, X2. cbn [fst snd] in X1, X2. destruct (iter_next g2 n s2) as [r2 t2] eqn:E2. cbn [fst snd] in X1, X2.
    destruct r2 as [[a|?| |]|]; cbn in X1; try congruence. injection X1 as <-. specialize (X2 ltac:(discriminate) ltac:(discriminate)).
    destruct (IH N t2 X2) as (v2 & r2 & u2 & Y2 & N2 & E3). exists v2, r2, u2. split; [|split; assumption].
    econstructor; [|exact Y2]. split; [discriminate|]. exists n. exact E2.
Qed.
Print Assumptions C50_iterator.

(** So does [parse_expression]. *)
Theorem C50_expression : forall sc tolerant module js1 js2 s1 s2 n,
  scan_contract js1 (sc_scan sc js1) -> scan_contract js2 (sc_scan sc js2) ->
  alike sc js1 js2 -> async_alike js1 js2 (sc_scan sc js1) (sc_scan sc js2) ->
  fresh_parser sc tolerant module js1 s1 -> fresh_parser sc tolerant module js2 s2 ->
  unplaced_outcome (fst (parse_expression (make_cfg sc tolerant module js1) n s1))
  = unplaced_outcome (fst (parse_expression (make_cfg sc tolerant module js2) n s2)).
Proof.
  intros sc tolerant module js1 js2 s1 s2 n C1 C2 Ha Hs F1 F2. destruct (fresh_related _ _ _ _ _ _ _ C1 C2 Ha F1 F2) as (lax & He & R).
  eapply agrees_outcome. unfold parse_expression.
  eapply (run_call_same (make_cfg sc tolerant module js1) (make_cfg sc tolerant module js2) _ _ lax eq_refl eq_refl eq_refl eq_refl eq_refl He eq_refl eq_refl Hs); [exact R|apply Nat.le_refl].
Qed.
Print Assumptions C50_expression.

(** ** Cases *)
Definition no_asyncb (js : text) (items : list raw) : bool :=
  forallb (fun r => negb (nc r && text_eqb (text_of js (r_item r)) (str "async"))) items.
Lemma no_asyncb_ok js items : no_asyncb js items = true -> no_async js items.
Proof.
  unfold no_asyncb. rewrite forallb_forall. intros H r Hr Hn E. specialize (H r Hr). rewrite Hn, E in H. discriminate.
Qed.

(** Comments come and go; the line terminators that matter stay. *)
Definition dense : text := str "if(a){f(b,c)}else/x/.y" ++ [LF] ++ str "g=function*(){yield h};".
Definition loose : text :=
  str "/* one */ if (a) { f /* two */ ( b, c ) } else /x/ . y // three" ++ [LF] ++ [LF]
  ++ str "	g = function * ( ) { yield  h } /* four" ++ [LF] ++ str "*/ ;".
Example C50_case : scan_contract dense (sc_scan test_scanner dense) /\ scan_contract loose (sc_scan test_scanner loose)
  /\ alike test_scanner dense loose /\ async_alike dense loose (sc_scan test_scanner dense) (sc_scan test_scanner loose)
  /\ exists p s, parse_text test_scanner (mkBuilder false false dense) (Ok p) s.
Proof.
  split; [apply contractb_ok; vm_compute; reflexivity|]. split; [apply contractb_ok; vm_compute; reflexivity|].
  split; [left; split; vm_compute; reflexivity|]. split; [left; apply no_asyncb_ok; vm_compute; reflexivity|].
  eexists; eexists. unfold parse_text.
  split; [discriminate|]. exists 60. vm_compute. reflexivity.
Qed.
(** What follows the last token does not matter. *)
Example C50_case_end : signs test_scanner (str "a = 1") <> signs test_scanner (str "a = 1" ++ [LF])
  /\ alike test_scanner (str "a = 1") (str "a = 1" ++ [LF]).
Proof.
  split; [vm_compute; discriminate|]. right. split; [vm_compute; reflexivity|].
  vm_compute. intros w b X. repeat (destruct X as [X|X]; [discriminate|]). destruct X.
Qed.

(** With [async]: texts on one line. *)
Lemma same_lines_one_line js1 js2 items1 items2 : ~ In LF js1 -> ~ In LF js2 -> same_lines js1 js2 items1 items2.
Proof.
  intros H1 H2. assert (N : forall js r f, ~ In LF js -> ~ line_feed_between js r f).
  { intros js r f H (t & E & HL). apply slice_inv in E. destruct E as (p & q & -> & _). apply H. apply in_or_app. right. apply in_or_app. left. exact HL. }
  unfold same_lines. intros. split; intros X; [destruct (N _ _ _ H1 X)|destruct (N _ _ _ H2 X)].
Qed.

Definition functions_spelledb (js : text) (items : list raw) : bool :=
  forallb (fun r => negb (is_keyword KFunction (it_tok (r_item r))) || text_eqb (text_of js (r_item r)) (str "function")) items.
Lemma functions_spelledb_ok js items : functions_spelledb js items = true -> functions_spelled js items.
Proof.
  unfold functions_spelledb. rewrite forallb_forall. intros H r Hr E. specialize (H r Hr). rewrite E in H. apply text_eqb_eq. exact H.
Qed.
Definition end_plainb (js : text) (items : list raw) : bool :=
  forallb (fun r => negb (is_eof (it_tok (r_item r)) && text_eqb (text_of js (r_item r)) (str "async"))) items.
Lemma end_plainb_ok js items : end_plainb js items = true -> end_plain js items.
Proof.
  unfold end_plainb. rewrite forallb_forall. intros H r Hr E T. specialize (H r Hr). rewrite E, T in H. discriminate.
Qed.
Lemma no_lf js : existsb (N.eqb LF) js = false -> ~ In LF js.
Proof. intros H X. assert (Y : existsb (N.eqb LF) js = true); [|congruence]. apply existsb_exists. exists LF. split; [exact X|apply N.eqb_refl]. Qed.

Definition async_dense : text := str "async function f(){await g(async(a)=>a,async b=>b)}".
Definition async_loose : text := str "/* 1 */async   function f() { await g ( async /* 2 */ ( a ) => a , async b /* 3 */ => b ) }".
Example C50_case_async : scan_contract async_dense (sc_scan test_scanner async_dense) /\ scan_contract async_loose (sc_scan test_scanner async_loose)
  /\ alike test_scanner async_dense async_loose
  /\ async_alike async_dense async_loose (sc_scan test_scanner async_dense) (sc_scan test_scanner async_loose)
  /\ exists p s, parse_text test_scanner (mkBuilder false false async_dense) (Ok p) s.
Proof.
  split; [apply contractb_ok; vm_compute; reflexivity|]. split; [apply contractb_ok; vm_compute; reflexivity|].
  split; [left; split; vm_compute; reflexivity|]. split.
  - right. split; [apply async_okb_ok; vm_compute; reflexivity|]. split; [apply functions_spelledb_ok; vm_compute; reflexivity|].
    split; [apply end_plainb_ok; vm_compute; reflexivity|]. split; [apply async_okb_ok; vm_compute; reflexivity|].
    split; [apply functions_spelledb_ok; vm_compute; reflexivity|]. split; [apply end_plainb_ok; vm_compute; reflexivity|].
    apply same_lines_one_line; apply no_lf; vm_compute; reflexivity.
  - eexists; eexists. unfold parse_text. split; [discriminate|]. exists 60. vm_compute. reflexivity.
Qed.

(** [async_alike] cannot be dropped: a comment after [async] makes a difference. *)
Theorem C50_async_refuted : exists js1 js2 p s1 e s2,
  scan_contract js1 (sc_scan test_scanner js1) /\ scan_contract js2 (sc_scan test_scanner js2) /\ alike test_scanner js1 js2
  /\ parse_text test_scanner (mkBuilder false false js1) (Ok p) s1 /\ parse_text test_scanner (mkBuilder false false js2) (Err e) s2.
Proof.
  exists (str "async function f() { }"), (str "async /**/ function f() { }"). eexists. eexists. eexists. eexists.
  split; [apply contractb_ok; vm_compute; reflexivity|]. split; [apply contractb_ok; vm_compute; reflexivity|].
  split; [left; split; vm_compute; reflexivity|].
  split; (split; [discriminate|]; exists 60; vm_compute; reflexivity).
Qed.
Print Assumptions C50_async_refuted.
