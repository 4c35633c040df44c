(** C58: the errors the parser can report. *)
From Verif Require Import Lexer Spec Runs Told Properties1 Properties2 Properties3.
Open Scope string_scope.
Open Scope list_scope.

(** ** C58
    [expectations_said] is the list of what an error can say it expected; [catalogue] says which
    errors exist at all when the scanner keeps its contract. *)
Definition expectations_said : list (list string) :=
  [ []; [""]; ["`;`"; "`eof`"; "`}`"]; ["{"; "*"]; ["{"; "*"; "[ident]"; "[string]"]; ["from"]; ["as"];
    ["let"; "var"; "const"; "class"; "function"]; ["[string]"]; ["="];
    [":"; "("; "*"]; ["method identifier"]; ["[non-generator function declaration]"]; ["[constructor declaration]"];
    ["[string]"; "[number]"; "[ident]"; "[boolean]"; "null"; "[keyword]"; "["]; ["{"; "["; "("];
    ["function"; "this"; "class"; "import"];
    ["[identifier]"; "async"; "[Number]"; "[String]"; "[RegEx]"; "yield"; "let"; "function"; "this"; "class";
     "import"];
    ["not ..."]; ["binding element"]; ["object property value"]; ["object property key"];
    ["template head"; "template no sub"]; ["Template part"]; ["variable identifier"]; ["not assignment"]; [")"];
    ["identifier"]; ["not a yield expression in a function param"]; ["not eval"]; ["not arguments"];
    ["not implements"]; ["not interface"]; ["not package"]; ["not private"]; ["not protected"]; ["not public"];
    ["not static"]; ["not yield"]; ["not let"];
    ["["; "."]; ["("; "."; "["]; ["[constructor function call]"]; ["not import"];
    ["OpenBrace"]; ["CloseBrace"]; ["Comma"]; ["OpenParen"]; ["CloseParen"]; ["Colon"]; ["SemiColon"]; ["Assign"];
    ["CloseBracket"]; ["FatArrow"]; ["While"]; ["Case"]; ["Function"] ].
Definition catalogue (tolerant : bool) (e : error) : Prop :=
  match e with
  | UnexpectedToken _ (MExpected l _) =>
      In l expectations_said
  | UnexpectedToken _ (MUnexpected _ note) =>
      In note ["use strict in an invalid location"; "cannot return in the global context"] \/
      tolerant = false /\ In note ["restricted word"; "restricted ident"; "restricted ident in strict context"; "";
        "Not at assignment target"; "Cannot delete ident in strict mode"; "Cannot increment when not at assignment target"]
  | UnexpectedToken _ (MPlain _) => False
  | ParseAfterEoF | Redecl _ _ => True
  | UnableToReinterpret _ from to => from = "expression" /\ to = "pattern"
  | InvalidGetterParams _ | InvalidSetterParams _ => tolerant = false
  | NonStrictFeatureInStrictContext _ f => tolerant = false /\ In f ["with statements"; "restriced ident"]
  | UnexpectedEoF | OperationError _ _ | OtherError => False
  end.
Lemma said_exact l :
  In l expectations_written \/ (exists p, In p puncts_asked /\ l = [punct_debug p]) \/ (exists k, l = [keyword_debug k]) ->
  reportable l -> In l expectations_said.
Proof.
  intros S U.
  assert (E : existsb (strings_eqb l) unsaid || existsb (strings_eqb l) expectations_said = true).
  { destruct S as [S|[(p & S & ->)|(k & ->)]].
    - revert l S U. assert (G : forallb (fun l => existsb (strings_eqb l) unsaid || existsb (strings_eqb l) expectations_said)
        expectations_written = true) by (vm_compute; reflexivity). rewrite forallb_forall in G. auto.
    - clear U. revert p S. assert (G : forallb (fun p => existsb (strings_eqb [punct_debug p]) unsaid || existsb (strings_eqb [punct_debug p]) expectations_said)
        puncts_asked = true) by (vm_compute; reflexivity). rewrite forallb_forall in G. auto.
    - destruct k; vm_compute; reflexivity. }
  unfold reportable in U. rewrite U in E. cbn [orb] in E. apply existsb_exists in E. destruct E as (x & Hx & E).
  apply strings_eqb_eq in E. subst. exact Hx.
Qed.
Theorem C58_catalogue : forall A sc tolerant module js e, scan_contract js (sc_scan sc js) ->
  api_outcome sc tolerant module js (@Err A e) -> catalogue tolerant e.
Proof.
  intros A sc tolerant module js e C H. pose proof (api_said _ _ _ _ _ _ H) as S.
  destruct e as [p [l t|w note|m]| | | | |p m| | | |]; cbn [said] in S; cbn [catalogue]; auto.
  - destruct (api_error _ _ _ _ _ _ H) as (s & _ & U). eapply said_exact; [|exact U].
    destruct S as [S|[(q & Hq & S & _)|(k & S & _)]]; eauto.
  - cbn in *. intuition.
  - destruct (api_error _ _ _ _ _ _ H) as (s & _ & N). exact (N C).
  - eapply no_unexpected_eof; [|exact H]. apply C.
  - apply operation_errors in H. apply H, C.
  - cbn. intuition.
Qed.
Print Assumptions C58_catalogue.

(** An error that asks for one punctuator, or one keyword, was not raised by that punctuator or
    keyword. *)
Lemma debug_puncts : forall p q, punct_debug p = punct_debug q -> p = q.
Proof. intros p q. destruct p, q; cbn; intros H; try reflexivity; discriminate H. Qed.
Lemma debug_keywords : forall p q, keyword_debug p = keyword_debug q -> p = q.
Proof. intros p q. destruct p, q; cbn; intros H; try reflexivity; discriminate H. Qed.
Lemma debug_apart : forall p k, punct_debug p <> keyword_debug k.
Proof. intros p k. destruct p, k; cbn; intros H; discriminate H. Qed.
Lemma strings_out x l : existsb (strings_eqb x) l = false -> ~ In x l.
Proof.
  intros H I'. assert (R : strings_eqb x x = true) by (clear; induction x as [|y x IH]; [reflexivity|cbn; rewrite String.eqb_refl; exact IH]).
  assert (E : existsb (strings_eqb x) l = true) by (apply existsb_exists; eauto). congruence.
Qed.
Lemma said_no_punct p : ~ In [punct_debug p] expectations_written.
Proof. apply strings_out. destruct p; vm_compute; reflexivity. Qed.
Lemma said_no_keyword k : ~ In [keyword_debug k] expectations_written.
Proof. apply strings_out. destruct k; vm_compute; reflexivity. Qed.
Theorem C58_punct_missing : forall A sc tolerant module js p q found,
  api_outcome sc tolerant module js (@Err A (UnexpectedToken p (MExpected [punct_debug q] found))) -> found <> TPunct q.
Proof.
  intros A sc tolerant module js p q found H. destruct (api_said _ _ _ _ _ _ H) as [S|[(q' & _ & S & N)|(k & S & _)]].
  - destruct (said_no_punct _ S).
  - inversion S as [S']. apply debug_puncts in S'. subst. exact N.
  - inversion S as [S']. destruct (debug_apart _ _ S').
Qed.
Print Assumptions C58_punct_missing.
Theorem C58_keyword_missing : forall A sc tolerant module js p k found,
  api_outcome sc tolerant module js (@Err A (UnexpectedToken p (MExpected [keyword_debug k] found))) -> found <> TKeyword k.
Proof.
  intros A sc tolerant module js p k found H. destruct (api_said _ _ _ _ _ _ H) as [S|[(q' & _ & S & _)|(k' & S & N)]].
  - destruct (said_no_keyword _ S).
  - inversion S as [S']. symmetry in S'. destruct (debug_apart _ _ S').
  - inversion S as [S']. apply debug_keywords in S'. subst. exact N.
Qed.
Print Assumptions C58_keyword_missing.
(** The longer lists are not so honest: [x = import] is told that [import] was expected. *)
Theorem C58_longer_lists_refuted : exists p l,
  api_outcome test_scanner false false (str "x = import") (@Err Program (UnexpectedToken p (MExpected l (TKeyword KImport))))
  /\ In "import" l.
Proof.
  do 2 eexists. split; [eapply (parse_outcome _ _ _ _ 200); [vm_compute; reflexivity|vm_compute; reflexivity]|cbn; auto].
Qed.
Print Assumptions C58_longer_lists_refuted.

(** *** The catalogue is exact *)
Inductive message :=
| Expected (l : list string) | Unexpected (note : string) | AfterTheEnd | Redeclared
| Reinterpret (from to : string) | Getter | Setter | NotInStrictCode (feature : string).
Definition message_of (e : error) : option message :=
  match e with
  | UnexpectedToken _ (MExpected l _) => Some (Expected l)
  | UnexpectedToken _ (MUnexpected _ note) => Some (Unexpected note)
  | UnexpectedToken _ (MPlain _) => None
  | UnexpectedEoF => None
  | ParseAfterEoF => Some AfterTheEnd
  | UnableToReinterpret _ from to => Some (Reinterpret from to)
  | Redecl _ _ => Some Redeclared
  | OperationError _ _ => None
  | InvalidGetterParams _ => Some Getter
  | InvalidSetterParams _ => Some Setter
  | NonStrictFeatureInStrictContext _ f => Some (NotInStrictCode f)
  | OtherError => None
  end.
Definition message_eq_dec : forall a b : message, {a = b} + {a <> b}.
Proof. decide equality; auto using string_dec, list_eq_dec. Defined.
Definition messages : list message :=
  map Expected expectations_said
  ++ map Unexpected ["use strict in an invalid location"; "cannot return in the global context"; "restricted word";
       "restricted ident"; "restricted ident in strict context"; ""; "Not at assignment target";
       "Cannot delete ident in strict mode"; "Cannot increment when not at assignment target"]
  ++ [AfterTheEnd; Redeclared; Reinterpret "expression" "pattern"; Getter; Setter;
      NotInStrictCode "with statements"; NotInStrictCode "restriced ident"].

(** Scanners that keep the contract, which says nothing about how words and strings are spelled. *)
Definition changed (f : item -> item) : scanner :=
  mkScanner (fun js => map (fun r => mkRaw (f (r_item r)) (r_nl r)) (lex js)) (fun _ => false) (fun _ => false)
    strict_reserved_kw literal_tok.
Definition reserved_as_names (i : item) : item :=
  if strict_reserved_kw (it_tok i) then mkItem TIdent (it_start i) (it_end i) else i.
Definition bare_strings (i : item) : item :=
  match it_tok i with TString => mkItem TString (it_start i + 1) (it_end i - 1) | _ => i end.
Definition names_as_function (i : item) : item :=
  match it_tok i with TIdent => mkItem (TKeyword KFunction) (it_start i) (it_end i) | _ => i end.

Definition witness : Type := scanner * text * message.
Definition says (x : witness) : Prop := let '(sc, js, m) := x in
  scan_contract js (sc_scan sc js) /\
  exists e s, parse_text sc (mkBuilder false false js) (Err e) s /\ message_of e = Some m.
Definition saysb (x : witness) : bool := let '(sc, js, m) := x in
  contractb js (sc_scan sc js) &&
  let '(g, (o, s)) := build sc (mkBuilder false false js) in
  match match o with Ok _ => fst (parse g (60 * (length js + 4)) s) | Err e => Err e | Panic => Panic | NoFuel => NoFuel end with
  | Err e => match message_of e with Some m' => if message_eq_dec m m' then true else false | None => false end
  | _ => false
  end.
Lemma saysb_ok l : forallb saysb l = true -> forall x, In x l -> says x.
Proof.
  intros H x I'. rewrite forallb_forall in H. specialize (H _ I'). destruct x as [[sc js] m]. unfold saysb in H.
  apply andb_prop in H as [C R]. split; [apply contractb_ok; exact C|]. unfold parse_text in *.
  destruct (build sc (mkBuilder false false js)) as [g [[i|e| |] s]]; try discriminate.
  - destruct (parse g (60 * (length js + 4)) s) as [[p|e| |] s'] eqn:E; cbn [fst] in R; try discriminate.
    exists e, s'. split; [split; [discriminate|eauto]|]. destruct (message_of e); [|discriminate].
    destruct (message_eq_dec m m0); [subst; reflexivity|discriminate].
  - exists e, s. split; [split; reflexivity|]. destruct (message_of e); [|discriminate].
    destruct (message_eq_dec m m0); [subst; reflexivity|discriminate].
Qed.
(** Texts that get these messages. *)
Definition witnesses : list witness := [
    (test_scanner, str "{a", Expected []);
    (test_scanner, str "export {default}", Expected [""]);
    (test_scanner, str "a b", Expected ["`;`"; "`eof`"; "`}`"]);
    (test_scanner, str "import a, b from 'c'", Expected ["{"; "*"]);
    (test_scanner, str "import", Expected ["{"; "*"; "[ident]"; "[string]"]);
    (test_scanner, str "import a b", Expected ["from"]);
    (test_scanner, str "import * a", Expected ["as"]);
    (test_scanner, str "export if", Expected ["let"; "var"; "const"; "class"; "function"]);
    (test_scanner, str "import a from b", Expected ["[string]"]);
    (test_scanner, str "const a;", Expected ["="]);
    (test_scanner, str "class A { a }", Expected ["method identifier"]);
    (test_scanner, str "class A { * constructor() {} }", Expected ["[non-generator function declaration]"]);
    (test_scanner, str "class A { get constructor() {} }", Expected ["[constructor declaration]"]);
    (test_scanner, str "({ + })", Expected ["[string]"; "[number]"; "[ident]"; "[boolean]"; "null"; "[keyword]"; "["]);
    (test_scanner, str "x = ]", Expected ["{"; "["; "("]);
    (test_scanner, str "x = if", Expected ["function"; "this"; "class"; "import"]);
    (test_scanner, str "x =", Expected ["[identifier]"; "async"; "[Number]"; "[String]"; "[RegEx]"; "yield"; "let"; "function"; "this"; "class"; "import"]);
    (test_scanner, str "(1, ...a) => 1", Expected ["not ..."]);
    (test_scanner, str "(1) => 1", Expected ["binding element"]);
    (test_scanner, str "({ 1 })", Expected ["object property value"]);
    (test_scanner, str "({ * })", Expected ["object property key"]);
    (test_scanner, str "`a${b c}d`", Expected ["Template part"]);
    (test_scanner, str "var", Expected ["variable identifier"]);
    (test_scanner, str "function f(...a = b) {}", Expected ["not assignment"]);
    (test_scanner, str "function f(...a, b) {}", Expected [")"]);
    (test_scanner, str "let let", Expected ["identifier"]);
    (test_scanner, str "class A { a() { eval = 1 } }", Expected ["not eval"]);
    (test_scanner, str "class A { a() { new super } }", Expected ["["; "."]);
    (test_scanner, str "class A { a() { super } }", Expected ["("; "."; "["]);
    (test_scanner, str "new.target", Expected ["[constructor function call]"]);
    (test_scanner, str "new import", Expected ["not import"]);
    (test_scanner, str "class A", Expected ["OpenBrace"]);
    (test_scanner, str "function f() {", Expected ["CloseBrace"]);
    (test_scanner, str "[a", Expected ["Comma"]);
    (test_scanner, str "function f", Expected ["OpenParen"]);
    (test_scanner, str "(a", Expected ["CloseParen"]);
    (test_scanner, str "a ? b", Expected ["Colon"]);
    (test_scanner, str "for (a b", Expected ["SemiColon"]);
    (test_scanner, str "let {a}", Expected ["Assign"]);
    (test_scanner, str "a[b", Expected ["CloseBracket"]);
    (test_scanner, str "()", Expected ["FatArrow"]);
    (test_scanner, str "do a; b", Expected ["While"]);
    (test_scanner, str "switch (a) { b }", Expected ["Case"]);
    (test_scanner, str "return", Unexpected "cannot return in the global context");
    (test_scanner, str "class A { a() { let eval } }", Unexpected "restricted word");
    (test_scanner, str "class A { a() { ++eval } }", Unexpected "restricted ident");
    (test_scanner, str "class A { a() { (function (eval) {}) } }", Unexpected "restricted ident in strict context");
    (test_scanner, str "a: class A {}", Unexpected "");
    (test_scanner, str "a() = 1", Unexpected "Not at assignment target");
    (test_scanner, str "class A { a() { delete b } }", Unexpected "Cannot delete ident in strict mode");
    (test_scanner, str "1++", Unexpected "Cannot increment when not at assignment target");
    (test_scanner, str "({get a(b) {}})", Getter);
    (test_scanner, str "({set a() {}})", Setter);
    (test_scanner, str "class A { a() { with (b) c } }", NotInStrictCode "with statements");
    (test_scanner, str "class A { a(eval) {} }", NotInStrictCode "restriced ident");
    (test_scanner, str "(a.", AfterTheEnd);
    (test_scanner, str "a: a: b", Redeclared);
    (test_scanner, str "`a${}b`", Expected ["template head"; "template no sub"]);
    (test_scanner, str "class A { get async() {} }", Expected [":"; "("; "*"]);
    (test_scanner, str "function* f() { (a = yield b) => 1 }", Expected ["not a yield expression in a function param"]);
    (test_scanner, str "class A { a() { arguments = 1 } }", Expected ["not arguments"]);
    (test_scanner, str "async async function () {}", Reinterpret "expression" "pattern");
    (changed reserved_as_names, str "class A { a() { implements = 1 } }", Expected ["not implements"]);
    (changed reserved_as_names, str "class A { a() { interface = 1 } }", Expected ["not interface"]);
    (changed reserved_as_names, str "class A { a() { package = 1 } }", Expected ["not package"]);
    (changed reserved_as_names, str "class A { a() { private = 1 } }", Expected ["not private"]);
    (changed reserved_as_names, str "class A { a() { protected = 1 } }", Expected ["not protected"]);
    (changed reserved_as_names, str "class A { a() { public = 1 } }", Expected ["not public"]);
    (changed reserved_as_names, str "class A { a() { static = 1 } }", Expected ["not static"]);
    (changed reserved_as_names, str "class A { a() { yield = 1 } }", Expected ["not yield"]);
    (changed reserved_as_names, str "class A { a() { let = 1 } }", Expected ["not let"]);
    (changed bare_strings, str "function f(a = 1) { 'use strict' }", Unexpected "use strict in an invalid location");
    (changed names_as_function, str "async", Expected ["Function"])].
Theorem C58_reached : forall x, In x witnesses -> says x.
Proof. apply saysb_ok. vm_compute. reflexivity. Qed.
Print Assumptions C58_reached.
(** Each message of the catalogue is reported for some text, and no other. *)
Theorem C58_exact : forall m, In m messages <->
  exists sc module js e s, scan_contract js (sc_scan sc js) /\ parse_text sc (mkBuilder false module js) (Err e) s
    /\ message_of e = Some m.
Proof.
  intros m. split.
  - intros H. assert (W : existsb (fun w => if message_eq_dec (snd w) m then true else false) witnesses = true).
    { revert m H. assert (G : forallb (fun m => existsb (fun w => if message_eq_dec (snd w) m then true else false) witnesses) messages = true)
        by (vm_compute; reflexivity). rewrite forallb_forall in G. exact G. }
    apply existsb_exists in W. destruct W as ([[sc js] m'] & W & E). cbn [snd] in E.
    destruct (message_eq_dec m' m) as [->|]; [|discriminate]. apply C58_reached in W. destruct W as (C & e & s & P & M).
    exists sc, false, js, e, s. auto.
  - intros (sc & module & js & e & s & C & P & M).
    assert (K : catalogue false e).
    { unfold parse_text, build in P. cbn [b_tolerant b_module b_js] in P.
      destruct (start (make_cfg sc false module js) (sc_scan sc js)) as [[i|e0| |] s0] eqn:E0; try contradiction.
      - destruct P as (_ & n & P). apply (C58_catalogue Program sc false module js e C).
        eapply (parse_outcome _ _ _ _ n); [exact E0|rewrite P; reflexivity].
      - destruct P as [P _]. injection P as <-. apply (C58_catalogue item sc false module js e C).
        pose proof (api_new sc false module js) as N. rewrite E0 in N. exact N.
      - destruct P as [P _]. discriminate P. }
    unfold messages. rewrite !in_app_iff, !in_map_iff.
    destruct e as [p [l t|w note|x]| | |p f t| |p x| | |p f|]; cbn in M; try discriminate; injection M as <-; cbn [catalogue] in K.
    + left. eauto.
    + right. left. exists note. split; [reflexivity|]. cbn in *. tauto.
    + right. right. cbn. tauto.
    + right. right. destruct K as [-> ->]. cbn. tauto.
    + right. right. cbn. tauto.
    + right. right. cbn. tauto.
    + right. right. cbn. tauto.
    + right. right. destruct K as [_ K]. cbn in *. destruct K as [<-|[<-|[]]]; tauto.
Qed.
Print Assumptions C58_exact.
Example C58_case : exists p, scan_contract (str "f(a b)") (sc_scan test_scanner (str "f(a b)")) /\
  api_outcome test_scanner false false (str "f(a b)") (@Err Program (UnexpectedToken p (MExpected [punct_debug PComma] TIdent))).
Proof.
  eexists. split; [apply contractb_ok; vm_compute; reflexivity|]. eapply (parse_outcome _ _ _ _ 200); [vm_compute; reflexivity|vm_compute; reflexivity].
Qed.
