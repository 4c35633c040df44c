(** C51: the work done is linear in the number of tokens.

    Cost.v repeats the evaluator of Prog.v with a count: one step for each operation on the
    parser's state (reading the next token, looking ahead, reading or writing a flag, slicing the
    text), each call of a function of the parser and each iteration of a loop.  What happens
    inside one such step is not counted: turning an expression into a pattern, and skipping the
    comments before a token. *)
From Verif Require Import Lexer Spec Runs Cost.
Open Scope string_scope.
Open Scope N_scope.
Open Scope list_scope.

(** The steps of [parse], of one [next] of the iterator and of [parse_expression]. *)
Definition parse_steps (g : cfg) (n : nat) (s : state) : N := snd (run_steps bd g n parse_parts s).
Definition next_steps (g : cfg) (n : nat) (s : state) : N := snd (run_call_steps bd g n CNextPart s).
Definition expression_steps (g : cfg) (n : nat) (s : state) : N := snd (run_call_steps bd g n CExpression s).

(** It is the runs of the parser that are counted. *)
Theorem C51_counted : forall g n,
  (forall s, fst (run_steps bd g n parse_parts s) = run bd g n parse_parts s) /\
  (forall B (c : call B) s, fst (run_call_steps bd g n c s) = run_call bd g n c s).
Proof. intros g n. split; intros; [apply run_steps_run|apply run_call_steps_run]. Qed.
Print Assumptions C51_counted.

(** Tokens the scanner finds, the end of the text included and comments apart. *)
Definition tokens (items : list raw) : N := N.of_nat (length (filter nc items)).

(** Whatever the outcome. *)
Theorem C51_parse : forall g items i s n, start g items = (Ok i, s) ->
  parse_steps g n s <= 500 * tokens items + 460.
Proof.
  intros g items i s n H. apply start_size in H. pose proof (parse_steps_bound g n s) as X. unfold parse_steps, tokens, sz in *. lia.
Qed.
Print Assumptions C51_parse.

(** From any state: a part costs no more than what it consumes is worth, an error no more than
    all that is left. *)
Theorem C51_next : forall g n s,
  match iter_next g n s with
  | (Some (Ok _), s') => next_steps g n s + 500 * N.of_nat (size s') <= 500 * N.of_nat (size s)
  | _ => next_steps g n s <= 500 * N.of_nat (size s) + 460
  end.
Proof.
  intros g n s. pose proof (call_steps g n _ CNextPart s) as X. unfold iter_next, next_steps. unfold gainK, needK, unit_, sz in X. cbn [rank] in X.
  assert (Y : (Z.of_N (snd (run_call_steps bd g n CNextPart s)) <= 500 * Z.of_nat (size s) + 448)%Z).
  { destruct (run_call_steps bd g n CNextPart s) as [[[b|e| |] s'] k]; cbn [snd]; lia. }
  destruct (is_eof _); [lia|]. rewrite <- run_call_steps_run.
  destruct (run_call_steps bd g n CNextPart s) as [[[b|e| |] s'] k]; cbn [fst snd] in *; lia.
Qed.
Print Assumptions C51_next.

Theorem C51_expression : forall g n s,
  match parse_expression g n s with
  | (Ok _, s') => expression_steps g n s + 500 * N.of_nat (size s') <= 500 * N.of_nat (size s)
  | _ => expression_steps g n s <= 500 * N.of_nat (size s) + 460
  end.
Proof.
  intros g n s. pose proof (call_steps g n _ CExpression s) as X. unfold parse_expression, expression_steps. unfold gainK, needK, unit_, sz in X. cbn [rank] in X.
  rewrite <- run_call_steps_run.
  destruct (run_call_steps bd g n CExpression s) as [[[b|e| |] s'] k]; cbn [fst snd] in *; lia.
Qed.
Print Assumptions C51_expression.

(** ** Cases *)
Definition steps_for (js : text) : N * N :=
  let g := make_cfg test_scanner false false js in
  let s := snd (start g (sc_scan test_scanner js)) in
  (tokens (sc_scan test_scanner js), parse_steps g 400 s).
Fixpoint copies (n : nat) (t : text) : text := match n with O => [] | S n => t ++ copies n t end.
Definition nested (n : nat) : text := copies n (str "(") ++ str "a" ++ copies n (str ")").
Definition arrows (n : nat) : text := copies n (str "(a, b = ") ++ str "1" ++ copies n (str ") => c").
(** Nested arrow functions in default values, where a parser that tries an expression first and
    then goes back would take time exponential in the depth. *)
Example C51_case : steps_for (nested 5) = (12, 403) /\ steps_for (nested 10) = (22, 728) /\ steps_for (nested 15) = (32, 1053)
  /\ steps_for (arrows 2) = (18, 591) /\ steps_for (arrows 4) = (34, 1105) /\ steps_for (arrows 6) = (50, 1619).
Proof. vm_compute. auto 10. Qed.
Example C51_case_start : exists i s, start (make_cfg test_scanner false false (arrows 4)) (sc_scan test_scanner (arrows 4)) = (Ok i, s)
  /\ exists p s', parse (make_cfg test_scanner false false (arrows 4)) 400 s = (Ok p, s').
Proof. eexists. eexists. split; [vm_compute; reflexivity|]. eexists. eexists. vm_compute. reflexivity. Qed.
