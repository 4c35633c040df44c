(** Errors and panics. *)
From Verif Require Import Safe Lexer.
From Verif Require Import Properties1 Properties2.
Export Parser.
Open Scope string_scope.
Open Scope nat_scope.
Open Scope list_scope.

(** ** C14 *)
Lemma item_pos_position sc tolerant module js i :
  item_position (get_lines js) (it_start i) = Some (item_pos (make_cfg sc tolerant module js) i).
Proof.
  unfold item_pos, make_cfg. cbn [g_lines]. destruct (item_position_some js (it_start i)) as [p ->]. reflexivity.
Qed.
Lemma expected_token A sc tolerant module js p exps found :
  api_outcome sc tolerant module js (@Err A (UnexpectedToken p (MExpected exps found))) ->
  exists i, input_item (sc_scan sc js) i /\ item_position (get_lines js) (it_start i) = Some p
    /\ found = it_tok i.
Proof.
  intros H. destruct (api_error _ _ _ _ _ _ H) as (s & (i & H1 & -> & H3) & _). exists i.
  rewrite (item_pos_position sc tolerant module). auto.
Qed.
Lemma unexpected_token A sc tolerant module js p w note :
  api_outcome sc tolerant module js (@Err A (UnexpectedToken p (MUnexpected w note))) ->
  exists i, input_item (sc_scan sc js) i /\ item_position (get_lines js) (it_start i) = Some p
    /\ w = text_of js i.
Proof.
  intros H. destruct (api_error _ _ _ _ _ _ H) as (s & i & H1 & -> & H3). exists i. rewrite (item_pos_position sc tolerant module). auto.
Qed.
Theorem C14_expected : forall A sc tolerant module js p exps found,
  api_outcome sc tolerant module js (@Err A (UnexpectedToken p (MExpected exps found))) ->
  exists i, input_item (sc_scan sc js) i /\ item_position (get_lines js) (it_start i) = Some p
    /\ found = it_tok i.
Proof. exact expected_token. Qed.
Print Assumptions C14_expected.
Theorem C14_unexpected : forall A sc tolerant module js p w note,
  api_outcome sc tolerant module js (@Err A (UnexpectedToken p (MUnexpected w note))) ->
  exists i, input_item (sc_scan sc js) i /\ item_position (get_lines js) (it_start i) = Some p
    /\ w = text_of js i.
Proof. exact unexpected_token. Qed.
Print Assumptions C14_unexpected.

Lemma parse_outcome sc tolerant module js n i s o :
  start (make_cfg sc tolerant module js) (sc_scan sc js) = (Ok i, s) ->
  fst (parse (make_cfg sc tolerant module js) n s) = o -> api_outcome sc tolerant module js o.
Proof. intros H <-. constructor. eapply reach_new; eauto. Qed.

(** The errors of [(a ]] and of [a() = 1]. *)
Example C14_case_expected : exists exps,
  api_outcome test_scanner false false (str "(a ]")
    (@Err Program (UnexpectedToken (mkPos 1 3) (MExpected exps (TPunct PCloseBracket)))).
Proof.
  eexists. eapply (parse_outcome _ _ _ _ 200); [vm_compute; reflexivity|vm_compute; reflexivity].
Qed.
Example C14_case_unexpected : exists note,
  api_outcome test_scanner false false (str "a() = 1")
    (@Err Program (UnexpectedToken (mkPos 1 4) (MUnexpected (str "=") note))).
Proof.
  eexists. eapply (parse_outcome _ _ _ _ 200); [vm_compute; reflexivity|vm_compute; reflexivity].
Qed.

(** ** C34 *)
Lemma no_panic A sc tolerant module js :
  scan_contract js (sc_scan sc js) -> ~ api_outcome sc tolerant module js (@Panic A).
Proof. intros C H. exact (api_panic _ _ _ _ _ H C). Qed.
Theorem C34_no_panic : forall A sc tolerant module js,
  scan_contract js (sc_scan sc js) -> ~ api_outcome sc tolerant module js (@Panic A).
Proof. exact no_panic. Qed.
Print Assumptions C34_no_panic.
Example C34_case : scan_contract (str "x = a.b[1] /* c */ + f(function(){ return 'x' }); class A { get b() {} }")
  (sc_scan test_scanner (str "x = a.b[1] /* c */ + f(function(){ return 'x' }); class A { get b() {} }")).
Proof. apply contractb_ok. vm_compute. reflexivity. Qed.

(** The hypothesis is needed: a template token of one character makes the parser slice with a
    start beyond its end. *)
Definition short_template_scanner : scanner :=
  mkScanner (fun _ => [mkRaw (mkItem (TTemplate TNoSub) 0 1) false; mkRaw (mkItem TEoF 1 1) false])
            (fun _ => false) (fun _ => false) strict_reserved_kw literal_tok.
Theorem C34_any_scanner_refuted : exists sc js, api_outcome sc false false js (@Panic Program).
Proof.
  exists short_template_scanner, (str "`").
  eapply (parse_outcome _ _ _ _ 200); [vm_compute; reflexivity|vm_compute; reflexivity].
Qed.
Print Assumptions C34_any_scanner_refuted.

(** ** C35 *)
Lemma operation_errors A sc tolerant module js p m :
  api_outcome sc tolerant module js (@Err A (OperationError p m)) ->
  m = "Unable to get string" /\ ~ scan_contract js (sc_scan sc js).
Proof. intros H. destruct (api_error _ _ _ _ _ _ H) as [s H']. exact H'. Qed.
Theorem C35_operation_errors : forall A sc tolerant module js p m,
  api_outcome sc tolerant module js (@Err A (OperationError p m)) ->
  m = "Unable to get string" /\ ~ scan_contract js (sc_scan sc js).
Proof. exact operation_errors. Qed.
Print Assumptions C35_operation_errors.
(** A scanner whose comment extends past the text gets that error. *)
Definition long_comment_scanner : scanner :=
  mkScanner (fun _ => [mkRaw (mkItem (TComment CSingle) 0 9) false; mkRaw (mkItem TEoF 1 1) false])
            (fun _ => false) (fun _ => false) strict_reserved_kw literal_tok.
Example C35_case : api_outcome long_comment_scanner false false (str "//")
  (@Err item (OperationError (mkPos 1 0) "Unable to get string")).
Proof. exact (api_new long_comment_scanner false false (str "//")). Qed.
(** Uses of every operator the tables must know. *)
Example C35_operators : exists l s',
  parse_text test_scanner (mkBuilder false false (str
    "x = a + b - c * d / e % f << g >> h >>> i < j > k <= l >= m == n != o === p !== q & r ^ s | t && u || v ** w; x = !a; x = ~a; x = +a; x = -a; x = typeof a; x = void a; x = delete a; x = a in b; x = a instanceof b;"))
    (Ok (PScript l)) s' /\ length l = 10.
Proof. do 2 eexists. split; [split; [discriminate|exists 200; vm_compute; reflexivity]|reflexivity]. Qed.

(** ** C43 *)
Lemma no_unexpected_eof A sc tolerant module js :
  ends_with_eof (sc_scan sc js) -> ~ api_outcome sc tolerant module js (@Err A UnexpectedEoF).
Proof. intros C H. destruct (api_error _ _ _ _ _ _ H) as [s H']. exact (H' C). Qed.
Theorem C43_no_unexpected_eof : forall A sc tolerant module js,
  ends_with_eof (sc_scan sc js) -> ~ api_outcome sc tolerant module js (@Err A UnexpectedEoF).
Proof. exact no_unexpected_eof. Qed.
Print Assumptions C43_no_unexpected_eof.
(** Whatever the parser does after it was constructed, once it has taken an end-of-file token
    from the scanner every later attempt to take a token is answered [ParseAfterEoF]. *)
Theorem C43_eof_once : forall g items i0 s0 s i s1 s2,
  ends_with_eof items -> start g items = (Ok i0, s0) ->
  moves g s0 s -> next_item g s = (Ok i, s1) -> is_eof (it_tok i) = true -> moves g s1 s2 ->
  exists s3, next_item g s2 = (Err ParseAfterEoF, s3).
Proof. exact eof_taken_once. Qed.
Print Assumptions C43_eof_once.
(** [moves] covers the public interface. *)
Theorem C43_moves_reachable : forall g items s, reachable g items s ->
  exists i s0, start g items = (Ok i, s0) /\ moves g s0 s.
Proof. exact reachable_moves. Qed.
Print Assumptions C43_moves_reachable.

(** [a.] takes the end-of-file token as a member name. *)
Example C43_case : exists i0 s0 s i s1,
  ends_with_eof (ex_items "a") /\ start (ex_cfg "a") (ex_items "a") = (Ok i0, s0) /\
  moves (ex_cfg "a") s0 s /\ next_item (ex_cfg "a") s = (Ok i, s1) /\ is_eof (it_tok i) = true.
Proof.
  do 5 eexists. split; [vm_compute; repeat split; reflexivity|]. split; [vm_compute; reflexivity|].
  split; [eapply (moves_step _ _ ONext); [vm_compute; reflexivity|constructor]|].
  split; vm_compute; reflexivity.
Qed.
(** A scanner that ends without an end-of-file token gets [UnexpectedEoF]. *)
Definition no_eof_scanner : scanner :=
  mkScanner (fun _ => [mkRaw (mkItem TIdent 0 1) false])
            (fun _ => false) (fun _ => false) strict_reserved_kw literal_tok.
Theorem C43_any_scanner_refuted : exists sc js, api_outcome sc false false js (@Err Program UnexpectedEoF).
Proof.
  exists no_eof_scanner, (str "a").
  eapply (parse_outcome _ _ _ _ 200); [vm_compute; reflexivity|vm_compute; reflexivity].
Qed.
Print Assumptions C43_any_scanner_refuted.
