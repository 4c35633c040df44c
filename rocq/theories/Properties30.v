(** C71: texts in brackets. *)
From Verif Require Import Scan Async Same.
From Verif Require Import Enclosed Properties8 Properties11.
From Verif Require Export Properties24 Properties26 Properties25.
Local Open Scope string_scope.
Local Open Scope list_scope.

(** *** C71
    An expression read as its elements: one, or a sequence of more. *)
Definition elements_make (l : list Expr) (e : Expr) : Prop := l <> [] /\ e = match l with [x] => x | _ => ESequence l end.

Lemma comma_items g s l t : Properties26.comma_list g s l t -> it_tok (st_look t) = TPunct PCloseBracket -> array_items g s (map Some l) t.
Proof.
  induction 1 as [s e s' E|s e s1 s2 l s' E P _ IH]; intros T; cbn [map].
  - apply items_last; [constructor; exact E|exact T].
  - eapply items_more; [constructor; exact E|exact P|auto].
Qed.

(** What is an expression up to the end of the text is, in brackets, the program of the array of its elements. *)
Theorem C71_brackets : forall sc module js1 js2 s e s', scan_contract js1 (sc_scan sc js1) -> scan_contract js2 (sc_scan sc js2) ->
  between sc (TPunct POpenBracket) (str "[") (TPunct PCloseBracket) (str "]") js1 js2 -> async_plain sc js1 js2 ->
  fresh_parser sc false module js1 s -> returns (fun n => parse_expression (make_cfg sc false module js1) n s) (Ok e) s' -> got_to_the_end s' ->
  exists l t', elements_make l e
    /\ parse_text sc (mkBuilder false module js2)
         (Ok (if module then PMod [PPStmt (SExpr (EArray (map Some l)))] else PScript [PPStmt (SExpr (EArray (map Some l)))])) t'.
Proof.
  intros sc module js1 js2 s e s' C1 C2 Bw As Fr [_ [n R]] [G1 G2].
  destruct (enclosed_parsers sc module js1 js2 POpenBracket PCloseBracket (str "[") (str "]") C1 C2 Bw As (Nat.le_refl 1) s Fr)
    as (t0 & t1 & u & t & more & lax & fab & (i2 & E2) & W0 & P1 & X0 & X1 & Sk & In & Pl & Tc & La & Al & Rl & Nx).
  set (g2 := make_cfg sc false module js2) in *. set (g1 := make_cfg sc false module js1) in *.
  pose proof (run_call_same g1 g2 _ _ lax eq_refl eq_refl eq_refl eq_refl eq_refl La eq_refl eq_refl Al n (Same.size s) _ CExpression s u Rl (Nat.le_refl _)) as A.
  change (run_call (@body) g1 n CExpression s) with (parse_expression g1 n s) in A. rewrite R in A.
  destruct (run_call (@body) g2 n CExpression u) as [o u'] eqn:Eu. destruct o as [e'|?| |]; cbn [agrees] in A; try contradiction. destruct A as (<- & Rl' & _).
  assert (Gu : got_to_the_end u').
  { pose proof (Rs_look _ _ _ _ _ _ _ Rl') as [L _]. destruct Rl' as (_ & F & _). split; congruence. }
  destruct (C65_expression g2 (end_for t) t more u t1 e u' eq_refl Pl) as (t2 & R2 & L2 & I2);
    [rewrite Tc; right; left; reflexivity|exact In|split; [discriminate|exists n; exact Eu]|exact Gu|].
  pose proof R2 as (_ & k & R2'). pose proof (run_placed g2 (sc_scan sc js2) k _ (Call CExpression) t1 (Ok e) t2 R2' Sk) as [Sk2 _].
  destruct (Nx t2 Sk2 L2) as (t3 & P3 & E3); [rewrite (instead_end _ _ _ _ _ I2 (proj1 Gu)); reflexivity|].
  destruct (proj1 (C67_sequence g2 t1 e t2)) as (l & Cl & _ & El); [exists t2; split; [exact R2|apply same_sames; apply sames_refl]|].
  destruct (C67_text sc false module js2 t0 (map Some l) t3) as (t' & Rt); [rewrite X0; reflexivity|exact W0| |exact E3|].
  { exists t1, t2. split; [exact P1|]. split; [|exact P3]. apply comma_items; [exact Cl|rewrite L2; exact Tc]. }
  exists l, t'. split; [split; [inversion Cl; discriminate|exact El]|].
  unfold parse_text, build. cbn [b_tolerant b_module b_js]. fold g2. rewrite E2. exact Rt.
Qed.
Print Assumptions C71_brackets.

(** So an expression that is not a sequence is the one element of the array. *)
Theorem C71_one : forall sc module js1 js2 s e s', scan_contract js1 (sc_scan sc js1) -> scan_contract js2 (sc_scan sc js2) ->
  between sc (TPunct POpenBracket) (str "[") (TPunct PCloseBracket) (str "]") js1 js2 -> async_plain sc js1 js2 ->
  fresh_parser sc false module js1 s -> returns (fun n => parse_expression (make_cfg sc false module js1) n s) (Ok e) s' -> got_to_the_end s' ->
  (forall l, e <> ESequence l) ->
  exists t', parse_text sc (mkBuilder false module js2)
    (Ok (if module then PMod [PPStmt (SExpr (EArray [Some e]))] else PScript [PPStmt (SExpr (EArray [Some e]))])) t'.
Proof.
  intros sc module js1 js2 s e s' C1 C2 Bw As Fr R G N. destruct (C71_brackets sc module js1 js2 s e s' C1 C2 Bw As Fr R G) as (l & t' & (L & E) & P).
  exists t'. destruct l as [|x [|y l]]; [destruct (L eq_refl)| |destruct (N _ E)]. subst x. exact P.
Qed.
Print Assumptions C71_one.

(** Concrete case: an expression of three elements, one of which is a sequence in parentheses. *)
Definition listed_text : text := str "/* 1 */ a = b ? c : d, (e, f), /x/.y".
Definition bracket_text : text := str "[ a = b ? c : d , ( e, f ), /x/ . y /* 2 */ ]".
Example C71_case : exists e s s', scan_contract listed_text (sc_scan test_scanner listed_text) /\ scan_contract bracket_text (sc_scan test_scanner bracket_text)
  /\ between test_scanner (TPunct POpenBracket) (str "[") (TPunct PCloseBracket) (str "]") listed_text bracket_text /\ async_plain test_scanner listed_text bracket_text
  /\ fresh_parser test_scanner false false listed_text s /\ returns (fun n => parse_expression (make_cfg test_scanner false false listed_text) n s) (Ok e) s' /\ got_to_the_end s'
  /\ match e with ESequence [EAssignment _ _ (EConditional _ _ _); ESequence [_; _]; EMember _ _ _] => True | _ => False end.
Proof.
  eexists. exists (ex_start "/* 1 */ a = b ? c : d, (e, f), /x/.y"). eexists.
  split; [apply contractb_ok; vm_compute; reflexivity|]. split; [apply contractb_ok; vm_compute; reflexivity|].
  split. { exists (removelast (signs test_scanner listed_text)). do 5 eexists. split; [vm_compute; reflexivity|]. split; [vm_compute; reflexivity|].
    right. intros w x X. vm_compute in X. repeat (destruct X as [X|X]; [discriminate X|]). destruct X. }
  split; [left; apply no_asyncb_ok; vm_compute; reflexivity|]. split; [eexists; vm_compute; reflexivity|].
  split; [split; [discriminate|exists 100; vm_compute; reflexivity]|]. split; [split; reflexivity|]. exact I.
Qed.
(** A sequence in parentheses is one element: the tree does not say which it was, and the list is not that of its parts. *)
Theorem C71_sequence_not_told : exists e1 s1 e2 s2, returns (fun n => parse_expression (ex_cfg "a, b") n (ex_start "a, b")) (Ok e1) s1
  /\ returns (fun n => parse_expression (ex_cfg "(a, b)") n (ex_start "(a, b)")) (Ok e2) s2 /\ e1 = e2 /\ got_to_the_end s1 /\ got_to_the_end s2
  /\ (exists t1, parse_text test_scanner (mkBuilder false false (str "[a, b]")) (Ok (PScript [PPStmt (SExpr (EArray [Some (EIdent (str "a")); Some (EIdent (str "b"))]))])) t1)
  /\ (exists t2, parse_text test_scanner (mkBuilder false false (str "[(a, b)]")) (Ok (PScript [PPStmt (SExpr (EArray [Some e2]))])) t2).
Proof.
  do 4 eexists. split; [split; [discriminate|exists 100; vm_compute; reflexivity]|]. split; [split; [discriminate|exists 100; vm_compute; reflexivity]|].
  split; [reflexivity|]. split; [split; vm_compute; reflexivity|]. split; [split; vm_compute; reflexivity|].
  split; eexists; (split; [discriminate|exists 100; vm_compute; reflexivity]).
Qed.
Print Assumptions C71_sequence_not_told.
