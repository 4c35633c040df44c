(** The public interface: termination, iteration, options, comments.
    Each theorem is followed by its assumptions and by a case that meets its hypotheses. *)
From Verif Require Import Term Lexer.
Open Scope string_scope.
Open Scope nat_scope.
Open Scope list_scope.

(** ** C01 *)
(** [Builder::..build()?.parse()] always comes back. *)
Theorem C01_parse_returns : forall sc b, exists o s', parse_text sc b o s'.
Proof. exact parse_text_total. Qed.
Print Assumptions C01_parse_returns.

(** From any reachable parser, every public entry point comes back within a recursion depth
    (and a number of iterations of each loop) linear in the number of tokens. *)
Theorem C01_linear_depth : forall g items s n,
  reachable g items s -> 20 * length items + 36 <= n ->
  fst (parse g n s) <> NoFuel /\ fst (iter_next g n s) <> Some NoFuel
  /\ fst (parse_expression g n s) <> NoFuel.
Proof. exact reachable_terminates. Qed.
Print Assumptions C01_linear_depth.

(** A few building blocks of the examples: a parser on a text, its first state, its parts. *)
Definition ex_cfg (js : string) : cfg := make_cfg test_scanner false false (str js).
Definition ex_items (js : string) : list raw := lex (str js).
Definition ex_start (js : string) : state := snd (start (ex_cfg js) (ex_items js)).

Example C01_case : reachable (ex_cfg "f(1, [a + b]); /* c */ x => { return -x }")
    (ex_items "f(1, [a + b]); /* c */ x => { return -x }")
    (ex_start "f(1, [a + b]); /* c */ x => { return -x }")
  /\ length (ex_items "f(1, [a + b]); /* c */ x => { return -x }") = 20.
Proof. split; [eapply reach_new|]; vm_compute; reflexivity. Qed.

(** A parser without the progress property would run forever: after an error without
    consumption, the iterator repeats the error; that is not a non-termination of a call. *)
Example C01_error_repeats :
  exists e s', iter_next (ex_cfg ")") 100 (ex_start ")") = (Some (Err e), s')
    /\ st_look s' = st_look (ex_start ")") /\ st_rest s' = st_rest (ex_start ")").
Proof. eexists. eexists. split; [vm_compute; reflexivity|]. split; reflexivity. Qed.

(** ** C02 *)
Theorem C02_part_consumes : forall g s part s',
  next_returns g s (Some (Ok part)) s' -> size s' < size s.
Proof. exact part_consumes. Qed.
Print Assumptions C02_part_consumes.

Theorem C02_parts_bounded : forall g items i s parts s',
  start g items = (Ok i, s) -> yields g s parts s' ->
  length parts <= length (filter nc items).
Proof. exact parts_bounded. Qed.
Print Assumptions C02_parts_bounded.

Example C02_case : exists p1 p2 p3 s',
  yields (ex_cfg ";a;/* x */b") (ex_start ";a;/* x */b") [p1; p2; p3] s'
  /\ length (filter nc (ex_items ";a;/* x */b")) = 5.
Proof.
  do 4 eexists. split; [|vm_compute; reflexivity].
  econstructor; [split; [discriminate|exists 30; vm_compute; reflexivity]|].
  econstructor; [split; [discriminate|exists 30; vm_compute; reflexivity]|].
  econstructor; [split; [discriminate|exists 30; vm_compute; reflexivity]|]. constructor.
Qed.

(** ** C03 *)
Theorem C03_parse_is_iteration : forall g s o s',
  returns (fun n => parse g n s) o s' <->
  exists parts s1 r, yields g s parts s1 /\ next_returns g s1 r s' /\
    ((r = None /\ o = Ok (if g_module g then PMod parts else PScript parts))
     \/ (exists e, r = Some (Err e) /\ o = Err e)
     \/ (r = Some Panic /\ o = Panic)).
Proof. exact parse_is_iteration. Qed.
Print Assumptions C03_parse_is_iteration.

Example C03_case_ok : returns (fun n => parse (ex_cfg "'a'; b") n (ex_start "'a'; b"))
    (Ok (PScript [PPDir (str "a") (LString (str "'a'")); PPStmt (SExpr (EIdent (str "b")))]))
    (snd (parse (ex_cfg "'a'; b") 50 (ex_start "'a'; b"))).
Proof. split; [discriminate|]. exists 50. vm_compute. reflexivity. Qed.
Example C03_case_err : exists e s', returns (fun n => parse (ex_cfg "a; var 1") n (ex_start "a; var 1")) (Err e) s'.
Proof. do 2 eexists. split; [|exists 50; vm_compute; reflexivity]. discriminate. Qed.

(** ** C04 *)
Theorem C04_whole_input : forall g items i s n p s', eof_only_last items ->
  start g items = (Ok i, s) -> parse g n s = (Ok p, s') ->
  st_rest s' = [] /\ is_eof (it_tok (st_look s')) = true
  /\ st_comments s' = delivered (g_stream g) items.
Proof. exact start_parse_exhausts. Qed.
Print Assumptions C04_whole_input.

Lemma eof_only_last_dec l : (forall a r, In (a, r) (combine l (tl l)) -> is_eof (it_tok (r_item a)) = false) ->
  eof_only_last l.
Proof.
  intros H l1 r l2 E Hr. destruct l2 as [|x l2]; auto. exfalso.
  enough (In (r, x) (combine l (tl l))) as Hin by (rewrite (H _ _ Hin) in Hr; discriminate).
  rewrite E. clear. induction l1 as [|y l1 IH]; [left; reflexivity|].
  destruct l1; cbn in *; auto.
Qed.
Example C04_case : exists p s', eof_only_last (ex_items "a; // c") /\
  parse (ex_cfg "a; // c") 60 (ex_start "a; // c") = (Ok p, s') /\ length (st_comments s') = 1.
Proof.
  do 2 eexists. split; [|split; vm_compute; reflexivity].
  apply eof_only_last_dec. vm_compute.
  intros a r H. repeat (destruct H as [H|H]; [inversion H; reflexivity|]). destruct H.
Qed.

(** The hypothesis is needed: a scanner that yields an end-of-file token in the middle
    makes the parser stop there. *)
Theorem C04_without_contract_refuted : exists g items i s n p s',
  start g items = (Ok i, s) /\ parse g n s = (Ok p, s') /\ st_rest s' <> [].
Proof.
  exists (ex_cfg "a"), [mkRaw (mkItem TEoF 0 0) false; mkRaw (mkItem TIdent 0 1) false].
  do 5 eexists. split; [vm_compute; reflexivity|]. split; [|shelve].
  instantiate (3 := 10). vm_compute. reflexivity.
  Unshelve. vm_compute. discriminate.
Qed.
Print Assumptions C04_without_contract_refuted.

(** ** C05 *)
Theorem C05_none_iff_eof : forall g s n,
  is_eof (it_tok (st_look s)) = true <-> iter_next g n s = (None, s).
Proof. exact eof_next_none. Qed.
Print Assumptions C05_none_iff_eof.

Theorem C05_fused : forall g s n s', iter_next g n s = (None, s') ->
  forall m, iter_next g m s' = (None, s').
Proof. exact none_is_fused. Qed.
Print Assumptions C05_fused.

Example C05_case : exists s', iter_next (ex_cfg "// only") 10 (ex_start "// only") = (None, s').
Proof. eexists. vm_compute. reflexivity. Qed.

(** ** C06 *)
Theorem C06_tolerant_accepts_more : forall sc module js p s',
  parse_text sc (mkBuilder false module js) (Ok p) s' ->
  parse_text sc (mkBuilder true module js) (Ok p) s'.
Proof. exact tolerant_accepts_more. Qed.
Print Assumptions C06_tolerant_accepts_more.

Example C06_case : exists p s', parse_text test_scanner (mkBuilder false false (str "({a: 1, b: 2})")) (Ok p) s'.
Proof. do 2 eexists. split; [discriminate|]. exists 200. vm_compute. reflexivity. Qed.
(** The converse fails: tolerant mode accepts strictly more. *)
Theorem C06_converse_refuted : exists sc module js p s',
  parse_text sc (mkBuilder true module js) (Ok p) s' /\
  ~ exists p' s'', parse_text sc (mkBuilder false module js) (Ok p') s''.
Proof.
  exists test_scanner, false, (str "({a: 1 b: 2})"). do 2 eexists. split.
  - split; [discriminate|]. exists 200. vm_compute. reflexivity.
  - intros (p' & s'' & H).
    assert (exists e t, parse_text test_scanner (mkBuilder false false (str "({a: 1 b: 2})")) (Err e) t)
      as (e & t & H').
    { do 2 eexists. split; [|exists 200; vm_compute; reflexivity]. discriminate. }
    destruct (parse_text_fun _ _ _ _ _ _ H H'). discriminate.
Qed.
Print Assumptions C06_converse_refuted.

(** ** C07 *)
Theorem C07_module_rejects_more : forall sc tolerant js l s',
  parse_text sc (mkBuilder tolerant true js) (Ok (PMod l)) s' ->
  parse_text sc (mkBuilder tolerant false js) (Ok (PScript l)) s'.
Proof. exact module_rejects_more. Qed.
Print Assumptions C07_module_rejects_more.

Theorem C07_module_result : forall sc tolerant js p s',
  parse_text sc (mkBuilder tolerant true js) (Ok p) s' -> exists l, p = PMod l.
Proof. exact module_result. Qed.
Print Assumptions C07_module_result.

Example C07_case : exists l s',
  parse_text test_scanner (mkBuilder false true (str "import a from 'b'; a")) (Ok (PMod l)) s'.
Proof. do 2 eexists. split; [discriminate|]. exists 200. vm_compute. reflexivity. Qed.
(** The converse fails, for a scanner that takes [await] for a plain identifier. *)
Definition await_scanner : scanner :=
  mkScanner (fun _ => [mkRaw (mkItem (TKeyword KVar) 0 3) false; mkRaw (mkItem TIdent 4 9) false;
                       mkRaw (mkItem TEoF 9 9) false])
            (fun _ => false) (fun _ => false) strict_reserved_kw literal_tok.
Theorem C07_converse_refuted : exists sc tolerant js p s',
  parse_text sc (mkBuilder tolerant false js) (Ok p) s' /\
  ~ exists p' s'', parse_text sc (mkBuilder tolerant true js) (Ok p') s''.
Proof.
  exists await_scanner, false, (str "var await"). do 2 eexists. split.
  - split; [discriminate|]. exists 200. vm_compute. reflexivity.
  - intros (p' & s'' & H).
    assert (exists e t, parse_text await_scanner (mkBuilder false true (str "var await")) (Err e) t)
      as (e & t & H').
    { do 2 eexists. split; [|exists 200; vm_compute; reflexivity]. discriminate. }
    destruct (parse_text_fun _ _ _ _ _ _ H H'). discriminate.
Qed.
Print Assumptions C07_converse_refuted.

(** ** C08 *)
Theorem C08_builder_last : forall l b,
  fold_left apply_setter l b =
  mkBuilder (last_such tolerant_set (b_tolerant b) l) (last_such module_set (b_module b) l)
            (last_such js_set (b_js b) l).
Proof. exact builder_last. Qed.
Print Assumptions C08_builder_last.

Theorem C08_new_is_default_builder : forall sc js,
  parser_new sc js = build sc (b_set_js js builder_new).
Proof. exact new_is_default_builder. Qed.
Print Assumptions C08_new_is_default_builder.

Example C08_case :
  fold_left apply_setter [SetJs (str "a"); SetModule true; SetTolerant true; SetModule false; SetJs (str "b")]
    builder_new = mkBuilder true false (str "b").
Proof. reflexivity. Qed.

(** ** C09 *)
Theorem C09_comments_so_far : forall g items s, reachable g items s ->
  exists l, items = l ++ st_rest s /\ st_comments s = delivered (g_stream g) l.
Proof. exact reachable_comments. Qed.
Print Assumptions C09_comments_so_far.

Example C09_case : exists s', 
  reachable (ex_cfg "a /* 1 */ ; // 2") (ex_items "a /* 1 */ ; // 2") s'
  /\ st_comments s' = [mkComment CMulti (str "/* 1 */") 2 9; mkComment CSingle (str "// 2") 12 16].
Proof.
  eexists. split.
  - eapply reach_next; [eapply reach_new; vm_compute; reflexivity|].
    instantiate (3 := 40). vm_compute. reflexivity.
  - reflexivity.
Qed.

(** ** C10 *)
Theorem C10_handler_cannot_influence : forall g n s o s', parse g n s = (o, s') ->
  exists d, st_comments s' = st_comments s ++ d /\
    forall c, parse g n (with_comments c s) = (o, with_comments (c ++ d) s').
Proof. exact parse_comments. Qed.
Print Assumptions C10_handler_cannot_influence.

Example C10_case :
  exists p s', parse (ex_cfg "a /* 1 */ ;") 40 (ex_start "a /* 1 */ ;") = (Ok p, s') /\ st_comments s' <> [].
Proof. do 2 eexists. split; [vm_compute; reflexivity|discriminate]. Qed.

(** ** C36 *)
Theorem C36_stack_does_not_matter : forall g s,
  mono (fun n => parse g n s) /\ mono (fun n => parse_expression g n s) /\
  forall n n' o s', n <= n' -> iter_next g n s = (o, s') -> o <> Some NoFuel ->
    iter_next g n' s = (o, s').
Proof. exact stack_does_not_matter. Qed.
Print Assumptions C36_stack_does_not_matter.

Theorem C36_one_result : forall sc b o1 s1 o2 s2,
  parse_text sc b o1 s1 -> parse_text sc b o2 s2 -> o1 = o2 /\ s1 = s2.
Proof. exact parse_text_fun. Qed.
Print Assumptions C36_one_result.

Example C36_case : exists p s',
  parse (ex_cfg "a") 16 (ex_start "a") = (Ok p, s') /\ fst (parse (ex_cfg "a") 5 (ex_start "a")) = NoFuel.
Proof. do 2 eexists. split; vm_compute; reflexivity. Qed.

(** ** C37
    What the parser may see of the items it has not consumed: the first, and the first that is not a comment. *)
Definition seen (l : list raw) : option item * option item :=
  (hd_error (map r_item l), find (fun i => match it_tok i with TComment _ => false | _ => true end) (map r_item l)).
Lemma seen_same t l : seen t = seen l -> hd_error (map r_item t) = hd_error (map r_item l) /\ first_non_comment t = first_non_comment l.
Proof.
  assert (F : forall l1, first_non_comment l1 = snd (seen l1)).
  { clear. induction l1 as [|r l1 IH]; [reflexivity|]. cbn in *. rewrite IH. destruct (it_tok (r_item r)); reflexivity. }
  intros H. rewrite !F. unfold seen in *. cbn [snd]. split; congruence.
Qed.

Theorem C37_incremental : forall g n s part s',
  iter_next g n s = (Some (Ok part), s') ->
  exists l, st_rest s = l ++ st_rest s' /\
    forall t, seen t = seen (st_rest s') ->
      iter_next g n (with_rest (l ++ t) s) = (Some (Ok part), with_rest t s').
Proof.
  intros g n s ? s' H. destruct (next_incremental _ _ _ _ _ H) as (l & E & F). exists l. split; [exact E|].
  intros t Ht. apply seen_same in Ht as [H1 H2]. exact (F t H1 H2).
Qed.
Print Assumptions C37_incremental.

Example C37_case : exists p s', iter_next (ex_cfg "a; b; c") 40 (ex_start "a; b; c") = (Some (Ok p), s')
  /\ length (st_rest s') = 3.
Proof. do 2 eexists. split; vm_compute; reflexivity. Qed.

(** ** C49 *)
Theorem C49_error_incremental : forall g n s e s',
  iter_next g n s = (Some (Err e), s') ->
  exists l, st_rest s = l ++ st_rest s' /\
    forall t, seen t = seen (st_rest s') ->
      iter_next g n (with_rest (l ++ t) s) = (Some (Err e), with_rest t s').
Proof.
  intros g n s ? s' H. destruct (next_error_incremental _ _ _ _ _ H) as (l & E & F). exists l. split; [exact E|].
  intros t Ht. apply seen_same in Ht as [H1 H2]. exact (F t H1 H2).
Qed.
Print Assumptions C49_error_incremental.

Theorem C49_expression : forall g n s e s',
  parse_expression g n s = (Err e, s') ->
  exists l, st_rest s = l ++ st_rest s' /\
    forall t, seen t = seen (st_rest s') ->
      parse_expression g n (with_rest (l ++ t) s) = (Err e, with_rest t s').
Proof.
  intros g n s ? s' H. destruct (expression_error_incremental _ _ _ _ _ H) as (l & E & F). exists l. split; [exact E|].
  intros t Ht. apply seen_same in Ht as [H1 H2]. exact (F t H1 H2).
Qed.
Print Assumptions C49_expression.

(** A rejected beginning has no accepted completion, whatever the depth of the stack. *)
Theorem C49_no_completion : forall g n s e s',
  parse g n s = (Err e, s') ->
  exists l, st_rest s = l ++ st_rest s' /\
    forall t, seen t = seen (st_rest s') ->
      parse g n (with_rest (l ++ t) s) = (Err e, with_rest t s') /\
      forall m o u, parse g m (with_rest (l ++ t) s) = (o, u) -> o <> NoFuel -> o = Err e /\ u = with_rest t s'.
Proof.
  intros g n s e s' H. destruct (parse_error_incremental _ _ _ _ _ H) as (l & E & F). exists l. split; [exact E|].
  intros t Ht. apply seen_same in Ht as [H1 H2]. specialize (F t H1 H2). split; [exact F|]. intros m o u M N.
  destruct (Nat.le_ge_cases n m) as [L|L].
  - assert (X : parse g m (with_rest (l ++ t) s) = (Err e, with_rest t s')) by (eapply parse_mono; [exact L|exact F|discriminate]).
    rewrite M in X. inversion X. auto.
  - assert (X : parse g n (with_rest (l ++ t) s) = (o, u)) by (eapply parse_mono; [exact L|exact M|exact N]).
    rewrite F in X. inversion X. auto.
Qed.
Print Assumptions C49_no_completion.

(** Three tokens after the offending one are still unread, and can be anything. *)
Example C49_case : exists e s', parse (ex_cfg "a; ) b c d") 60 (ex_start "a; ) b c d") = (Err e, s')
  /\ length (st_rest s') = 4.
Proof. do 2 eexists. split; vm_compute; reflexivity. Qed.
