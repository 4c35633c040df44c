(** Operators. *)
From Verif Require Import Operators Lexer Properties1.
Export Parser.
Open Scope string_scope.
Open Scope nat_scope.
Open Scope list_scope.

(** ** C15 *)
Theorem C15_by_precedence : forall g n s e s',
  run_call (@body) g n CBinaryExpression s = (Ok e, s') ->
  exists e0 l s0 T, parses g CExponentiation s e0 s0 /\ reads_operands g s0 l s' /\
    builds T e /\ in_order_of T = (e0, l) /\ by_precedence T.
Proof. exact binary_by_precedence. Qed.
Print Assumptions C15_by_precedence.
(** The specification leaves no choice: operators and operands determine the tree. *)
Theorem C15_unique : forall T T', by_precedence T -> by_precedence T' ->
  in_order_of T = in_order_of T' -> T = T'.
Proof. exact by_precedence_unique. Qed.
Print Assumptions C15_unique.
Theorem C15_builds_unique : forall T e e', builds T e -> builds T e' -> e = e'.
Proof. exact builds_fun. Qed.
Print Assumptions C15_builds_unique.

(** The expression a text consists of. *)
Definition ex_expr (js : string) : outcome Expr := fst (parse_expression (ex_cfg js) 200 (ex_start js)).
Definition id (x : string) : Expr := EIdent (str x).
Example C15_case : exists s',
  run_call (@body) (ex_cfg "a - b - c * d ** e + f < g && h || i") 200 CBinaryExpression
    (ex_start "a - b - c * d ** e + f < g && h || i") =
  (Ok (ELogical LOr
        (ELogical LAnd
          (EBinary BLessThan
            (EBinary BPlus
              (EBinary BMinus (EBinary BMinus (id "a") (id "b"))
                              (EBinary BTimes (id "c") (EBinary BPowerOf (id "d") (id "e"))))
              (id "f"))
            (id "g"))
          (id "h"))
        (id "i")), s').
Proof. eexists. vm_compute. reflexivity. Qed.
Example C15_case_parentheses : ex_expr "a * (b + c) * d" =
  Ok (EBinary BTimes (EBinary BTimes (id "a") (EBinary BPlus (id "b") (id "c"))) (id "d")).
Proof. vm_compute. reflexivity. Qed.
(** A tree the specification rejects. *)
Example C15_rejects : ~ by_precedence (Node (TPunct PMinus) (Leaf (id "a"))
                                            (Node (TPunct PMinus) (Leaf (id "b")) (Leaf (id "c")))).
Proof.
  intros H. inversion H as [|? k mk ? ? O R0 R R1 R2]; subst. destruct R as (k' & mk' & O' & L).
  pose proof (op_fun _ _ _ _ _ O O'). lia.
Qed.

(** ** C16 *)
Theorem C16_powers : forall g n s e s',
  run_call (@body) g n CExponentiation s = (Ok e, s') ->
  exists e0 l, reads_powers g s e0 l s' /\ e = right_powers e0 l.
Proof. exact powers_right. Qed.
Print Assumptions C16_powers.
Theorem C16_assignments : forall g n s e s',
  run_call (@body) g n CAssignmentExpr s = (Ok e, s') ->
  exists l e', reads_assignments g s l e' s' /\ e = right_assignments l e'.
Proof. exact assignments_right. Qed.
Print Assumptions C16_assignments.
Theorem C16_conditionals : forall g n s e s',
  run_call (@body) g n CConditionalExpr s = (Ok e, s') ->
  exists l e', reads_conditionals g s l e' s' /\ e = right_conditionals l e'.
Proof. exact conditionals_right. Qed.
Print Assumptions C16_conditionals.

Example C16_case_powers : ex_expr "a ** b ** c ** d" =
  Ok (right_powers (id "a") [id "b"; id "c"; id "d"]).
Proof. vm_compute. reflexivity. Qed.
Example C16_case_assignments : ex_expr "a = b += c -= d" =
  Ok (right_assignments [(id "a", AEqual); (id "b", APlusEqual); (id "c", AMinusEqual)] (id "d")).
Proof. vm_compute. reflexivity. Qed.
Example C16_case_conditionals : ex_expr "a ? b : c ? d : e ? f : g" =
  Ok (right_conditionals [(id "a", id "b"); (id "c", id "d"); (id "e", id "f")] (id "g")).
Proof. vm_compute. reflexivity. Qed.
