(** C40: what the parser returns is a sentence of the grammar of Grammar.v, with the tree the
    grammar gives it.  [plain_scan sc js] is the assumption on the scanner: the items it
    returns lie inside the text and no punctuator is spelled [async], [get] or [set]. *)
From Verif Require Import Grammar Derive Derived Sentence Lexer Properties1 Properties5.
Open Scope string_scope.
Open Scope nat_scope.
Open Scope list_scope.

(** ** Concrete cases *)
Definition plain_item_b (js : text) (i : item) : bool :=
  match slice js (it_start i) (it_end i) with
  | Some _ =>
      match it_tok i with
      | TPunct _ => negb (text_eqb (text_of js i) (str "async")) && negb (text_eqb (text_of js i) (str "get"))
                    && negb (text_eqb (text_of js i) (str "set"))
      | _ => true
      end
  | None => false
  end.
Lemma plain_item_dec js i : plain_item_b js i = true -> plain_item js i.
Proof.
  unfold plain_item_b, plain_item. destruct (slice js (it_start i) (it_end i)); [|discriminate]. intros H.
  split; [discriminate|]. intros p E. rewrite E in H. apply andb_prop in H as [H H3]. apply andb_prop in H as [H1 H2].
  apply negb_true_iff in H1, H2, H3.
  repeat split; intros X; rewrite X in *;
    match goal with H : text_eqb ?a ?a = false |- _ => vm_compute in H; discriminate H end.
Qed.
Lemma plain_scan_dec js : forallb (fun r => plain_item_b js (r_item r)) (lex js) = true -> plain_scan test_scanner js.
Proof. intros H r Hr. apply plain_item_dec. rewrite forallb_forall in H. apply H. exact Hr. Qed.

(** The tokens of a text, the tree its parse gives, and the grammar's derivation of it. *)
Definition sentence_of (tolerant module : bool) (js : text) (ps : list ProgramPart) : Prop :=
  exists l', program tolerant module (sc_strict_reserved test_scanner) (source_tokens test_scanner js) ps l' /\ hd_tok l' = TEoF.

Theorem C40_sentence : forall sc tolerant module js i s parts s1 n p s2,
  let g := make_cfg sc tolerant module js in
  plain_scan sc js ->
  start g (sc_scan sc js) = (Ok i, s) ->
  yields g s parts s1 ->
  parse g n s1 = (Ok p, s2) ->
  exists l', program tolerant module (sc_strict_reserved sc) (source_tokens sc js) (parts ++ parts_of p) l'
    /\ hd_tok l' = TEoF.
Proof. intros; eapply program_sentence; eauto. Qed.
Print Assumptions C40_sentence.

Theorem C40_parts : forall sc tolerant module js i s parts s1,
  let g := make_cfg sc tolerant module js in
  plain_scan sc js ->
  start g (sc_scan sc js) = (Ok i, s) ->
  yields g s parts s1 ->
  exists l', parts_read tolerant module (sc_strict_reserved sc) (source_tokens sc js) parts l'.
Proof. intros; eapply yields_sentence; eauto. Qed.
Print Assumptions C40_parts.

Theorem C40_expression : forall sc tolerant module js i s parts s1 n e s2,
  let g := make_cfg sc tolerant module js in
  plain_scan sc js ->
  start g (sc_scan sc js) = (Ok i, s) ->
  yields g s parts s1 ->
  parse_expression g n s1 = (Ok e, s2) ->
  exists l1 l', parts_read tolerant module (sc_strict_reserved sc) (source_tokens sc js) parts l1
    /\ d tolerant module (sc_strict_reserved sc) top_scope Expression l1 (VExpr e) l'.
Proof. intros; eapply expression_sentence; eauto. Qed.
Print Assumptions C40_expression.

(** A case: each text is accepted, its scan is plain, and so its tree is the grammar's. *)
Definition sentence_case (module : bool) (js : string) (parts : nat) : Prop :=
  length (parsed false module (str js)) = parts /\ 0 < parts
  /\ sentence_of false module (str js) (parsed false module (str js)).
Lemma sentence_case_dec module js parts :
  length (parsed false module (str js)) = S parts ->
  forallb (fun r => plain_item_b (str js) (r_item r)) (lex (str js)) = true ->
  sentence_case module js (S parts).
Proof.
  intros H1 H2. split; [exact H1|]. split; [apply Nat.lt_0_succ|]. apply plain_scan_dec in H2.
  unfold parsed in *.
  destruct (start (make_cfg test_scanner false module (str js)) (lex (str js))) as [[i|? | |] s] eqn:Hs; try discriminate.
  destruct (parse (make_cfg test_scanner false module (str js)) 300 s) as [[q|? | |] s2] eqn:Hp; try discriminate.
  cbn [fst] in *. apply (C40_sentence test_scanner false module (str js) i s [] s 300 q s2 H2 Hs); [apply yields_nil|exact Hp].
Qed.
Example C40_case_script :
  sentence_case false "'use strict'; var a = b ? (c, d) : e; for (let i = 0; i < 3; i++) { f(i, ...g); } (x, y) => x + y * 2" 4.
Proof. apply sentence_case_dec; vm_compute; reflexivity. Qed.
Example C40_case_module :
  sentence_case true "import a, {b as c} from 'm'; export default class A extends B { constructor() { super(); } get x() { return 1 } }" 2.
Proof. apply sentence_case_dec; vm_compute; reflexivity. Qed.
Example C40_case_expression :
  let g := make_cfg test_scanner false false (str "a + b * c") in
  plain_scan test_scanner (str "a + b * c") /\
  match start g (lex (str "a + b * c")) with
  | (Ok _, s) => fst (parse_expression g 100 s)
                 = Ok (EBinary BPlus (EIdent (str "a")) (EBinary BTimes (EIdent (str "b")) (EIdent (str "c"))))
  | _ => False
  end.
Proof. split; [apply plain_scan_dec|]; vm_compute; reflexivity. Qed.

(** The grammar does not relate every tree to every text: a name is no empty statement, while
    a semicolon is one. *)
Definition tk_x : tk := mkTk TIdent (str "x") false.
Definition tk_semi : tk := mkTk (TPunct PSemiColon) (str ";") false.
Definition tk_eof : tk := mkTk TEoF [] false.
Example C40_case_no_empty : forall S l', ~ d false false (sc_strict_reserved test_scanner) S Statement [tk_x; tk_eof] (VStmt SEmpty) l'.
Proof.
  intros S l' H. inversion H; subst;
    repeat match goal with
    | H : reads _ _ _ |- _ => destruct H as (? & ? & ? & H)
    end; try discriminate.
Qed.
Example C40_case_empty : forall S,
  d false false (sc_strict_reserved test_scanner) S Statement [tk_semi; tk_eof] (VStmt SEmpty) [tk_eof].
Proof. intros S. apply d_empty. split; [discriminate|]. do 2 eexists. reflexivity. Qed.
