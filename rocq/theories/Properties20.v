(** C61: where errors are found. *)
From Verif Require Import Lexer Spec Runs Safe Where Properties1 Properties2 Properties3.
Local Open Scope string_scope.
Local Open Scope list_scope.

(** ** C61
    [s] is the state before a call and [s'] the one after it.  [taken s s' i]: [i] is the token
    looked at before the call or one of those the call has taken from the scanner, the last of
    which is the one looked at when it returns. *)
Definition taken (s s' : state) (i : item) : Prop :=
  exists l, st_rest s = l ++ st_rest s' /\ (i = st_look s \/ exists r, In r l /\ i = r_item r).
Definition found_on_the_way (js : text) (s s' : state) (e : error) : Prop :=
  match e with
  | UnexpectedToken p (MExpected _ found) =>
      exists i, taken s s' i /\ item_position (get_lines js) (it_start i) = Some p /\ found = it_tok i
  | UnexpectedToken p (MUnexpected w _) =>
      exists i, taken s s' i /\ item_position (get_lines js) (it_start i) = Some p /\ w = text_of js i
  | _ => True
  end.
Lemma where_found sc tolerant module js s s' e : let g := make_cfg sc tolerant module js in
  errW g (base_of s) e s' /\ invW (base_of s) s' /\ left s' <= left s -> found_on_the_way js s s' e.
Proof.
  intros g (H & Hi & Hl). destruct e as [p [l f|w n|m]| | | | | | | | |]; try exact I; cbn [errW] in H; cbn [found_on_the_way].
  - destruct H as (i & B & -> & ->). exists i. split; [eapply before_taken; eauto|]. split; [|reflexivity].
    apply (item_pos_position sc tolerant module).
  - destruct H as (i & B & -> & ->). exists i. split; [eapply before_taken; eauto|]. split; [|reflexivity].
    apply (item_pos_position sc tolerant module).
Qed.

(** The error of a part names a token of that part: not one of an earlier part, and not one
    that has not been read. *)
Theorem C61_part : forall sc tolerant module js n s e s',
  iter_next (make_cfg sc tolerant module js) n s = (Some (Err e), s') -> found_on_the_way js s s' e.
Proof.
  intros sc tolerant module js n s e s' H. unfold iter_next in H. destruct (is_eof _); [discriminate|].
  destruct (run_call _ _ n CNextPart s) as [r t] eqn:E. inversion H; subst.
  eapply where_found. eapply call_where. exact E.
Qed.
Print Assumptions C61_part.
Theorem C61_parse : forall sc tolerant module js n s e s',
  parse (make_cfg sc tolerant module js) n s = (Err e, s') -> found_on_the_way js s s' e.
Proof. intros sc tolerant module js n s e s' H. eapply where_found. eapply parse_where. exact H. Qed.
Print Assumptions C61_parse.
Theorem C61_expression : forall sc tolerant module js n s e s',
  parse_expression (make_cfg sc tolerant module js) n s = (Err e, s') -> found_on_the_way js s s' e.
Proof. intros sc tolerant module js n s e s' H. eapply where_found. eapply call_where. exact H. Qed.
Print Assumptions C61_expression.

(** The second part of [a; f(b c)] is refused at [c], with [)] looked at and the end not yet read. *)
Example C61_case : let g := make_cfg test_scanner false false (str "a; f(b c)") in
  exists s s' i, reachable g (lex (str "a; f(b c)")) s /\
    iter_next g 200 s = (Some (Err (UnexpectedToken (mkPos 1 7) (MExpected ["Comma"] TIdent))), s') /\
    taken s s' i /\ text_of (str "a; f(b c)") i = str "c" /\ length (st_rest s') = 1.
Proof.
  cbn zeta. pose (g := make_cfg test_scanner false false (str "a; f(b c)")). fold g.
  destruct (start g (lex (str "a; f(b c)"))) as [o s0] eqn:E0.
  destruct (iter_next g 200 s0) as [o1 s1] eqn:E1. destruct (iter_next g 200 s1) as [o2 s2] eqn:E2.
  exists s1, s2. assert (R : reachable g (lex (str "a; f(b c)")) s1).
  { eapply reach_next; [|exact E1]. vm_compute in E0. inversion E0; subst. eapply reach_new. vm_compute. reflexivity. }
  vm_compute in E0. injection E0 as <- <-. vm_compute in E1. injection E1 as <- <-. vm_compute in E2. injection E2 as <- <-.
  eexists. split; [exact R|]. split; [reflexivity|]. split; [|].
  - match goal with |- taken ?s _ _ => exists (firstn 4 (st_rest s)) end. split; [reflexivity|]. right. eexists.
    split; [cbn; right; right; left; reflexivity|reflexivity].
  - split; vm_compute; reflexivity.
Qed.

(** The errors that name no token are less exact: that of [with] in strict code is reported at the
    token before the word. *)
Theorem C61_with_refuted : exists p i, let js := str "class A { a() { b; with (c) d } }" in
  scan_contract js (lex js) /\
  api_outcome test_scanner false false js (@Err Program (NonStrictFeatureInStrictContext p "with statements")) /\
  In i (map r_item (lex js)) /\ text_of js i = str ";" /\ item_position (get_lines js) (it_start i) = Some p.
Proof.
  exists (mkPos 1 17), (mkItem (TPunct PSemiColon) 17 18). cbn zeta. split; [apply contractb_ok; vm_compute; reflexivity|].
  split; [eapply (parse_outcome _ _ _ _ 200); [vm_compute; reflexivity|vm_compute; reflexivity]|].
  split; [vm_compute; tauto|]. split; vm_compute; reflexivity.
Qed.
Print Assumptions C61_with_refuted.
