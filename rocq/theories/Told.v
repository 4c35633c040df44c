(** Which errors the parser can report: a catalogue of their texts, and what becomes of it in
    tolerant mode. *)
From Verif Require Export Options.
Export Parser.
Local Open Scope string_scope.

(** ** Every error of a run satisfies [ok] when every place that makes one does *)
Section Told.
  Variable g : cfg.
  Variable ok : error -> Prop.

  Definition told_op {B} (o : op B) : Prop := forall s e s', exec g o s = (Err e, s') -> ok e.
  Fixpoint told {call B} (p : prog call B) : Prop :=
    match p with
    | Ret _ | Crash | Call _ => True
    | Fail d => forall s, ok (mk_error g s d)
    | Do o => told_op o
    | Bind q k => told q /\ forall a, told (k a)
    | Loop _ b => forall x, told (b x)
    end.

  Variable call : Type -> Type.
  Variable bd : forall B, call B -> prog call B.
  Hypothesis bodies_told : forall B (c : call B), told (bd B c).

  Lemma run_in_told n (rec : forall B, call B -> state -> outcome B * state) :
    (forall B (c : call B) s e s', rec _ c s = (Err e, s') -> ok e) ->
    forall B (p : prog call B) s e s', told p -> run_in g n rec p s = (Err e, s') -> ok e.
  Proof.
    intros Hrec. induction p as [A a|A d|A|A o|A c|A B p IHp k IHk|A X x b IHb]; intros s e s' Hf H; cbn [run_in told] in *.
    - discriminate.
    - inversion H; subst. apply Hf.
    - discriminate.
    - eapply Hf; eauto.
    - eapply Hrec; eauto.
    - destruct Hf as [Hp Hk]. destruct (run_in g n rec p s) as [[a|e0| |] t] eqn:R; try discriminate.
      + eapply IHk; eauto.
      + inversion H; subst. eapply IHp; eauto.
    - revert H. revert s. generalize n at 2 as m. intros m. revert x. induction m as [|m IHm]; intros x s H; cbn [iter] in H; [discriminate|].
      destruct (run_in g n rec (b x) s) as [[[y|a]|e0| |] t] eqn:R; try discriminate.
      + eapply IHm; eauto.
      + inversion H; subst. eapply IHb; eauto.
  Qed.
  Lemma run_call_told n : forall B (c : call B) s e s', run_call bd g n c s = (Err e, s') -> ok e.
  Proof.
    induction n as [|n IH]; intros B c s e s'; cbn [run_call]; [discriminate|].
    apply run_in_told; [exact IH|apply bodies_told].
  Qed.
  Lemma run_told n B (p : prog call B) s e s' : told p -> run bd g n p s = (Err e, s') -> ok e.
  Proof. apply run_in_told. intros ? ? ? ? ?. apply run_call_told. Qed.
End Told.

Ltac told_step := cbn zeta; cbn [told]; lazymatch goal with
  | |- True => exact Logic.I
  | |- told_op _ _ _ => idtac
  | |- _ /\ _ => split
  | |- forall _, _ => intro
  | |- told _ _ (Ret _) => exact Logic.I
  | |- told _ _ Crash => exact Logic.I
  | |- told _ _ (Call _) => exact Logic.I
  | |- told _ _ (Fail _) => cbn [told]
  | |- told _ _ (Do _) => cbn [told]
  | |- told _ _ (Bind _ _) => cbn [told]
  | |- told _ _ (Loop _ _) => cbn [told]
  | |- told _ _ (match ?x with _ => _ end) => destruct x eqn:?
  | |- told _ _ ?p => let h := fn_of p in unfold h
  end.

(** ** The catalogue *)
(** What an error made somewhere in the source says it expected.  Not all of it can be reported
    ([unsaid] in Safe.v). *)
Definition expectations_written : list (list string) :=
  [ []; [""]; ["`;`"; "`eof`"; "`}`"]; ["{"; "*"]; ["{"; "*"; "[ident]"; "[string]"]; ["from"]; ["as"];
    ["let"; "var"; "const"; "class"; "function"]; ["[string]"]; ["="]; ["const"; "let"]; ["let"; "const"];
    [":"; "("; "*"]; ["method identifier"]; ["[non-generator function declaration]"]; ["[constructor declaration]"];
    ["[string]"; "[number]"; "[ident]"; "[boolean]"; "null"; "[keyword]"; "["]; ["{"; "["; "("];
    ["function"; "this"; "class"; "import"];
    ["[identifier]"; "async"; "[Number]"; "[String]"; "[RegEx]"; "yield"; "let"; "function"; "this"; "class";
     "import"];
    ["not ..."]; ["binding element"]; ["object property value"]; ["object property key"];
    ["template head"; "template no sub"]; ["Template part"]; ["variable identifier"]; ["not assignment"]; [")"];
    ["identifier"]; ["not a yield expression in a function param"]; ["not eval"]; ["not arguments"];
    ["not implements"]; ["not interface"]; ["not package"]; ["not private"]; ["not protected"]; ["not public"];
    ["not static"]; ["not yield"]; ["not let"];
    ["="; "+="; "-="; "/="; "*="; "**="; "|="; "&="; "~="; "%="; "<<="; ">>="; ">>>="]; ["++"; "--"];
    ["["; "."]; ["("; "."; "["]; ["[constructor function call]"]; ["not import"] ].
(** The punctuators asked for one at a time. *)
Definition puncts_asked : list punct :=
  [POpenBrace; PCloseBrace; PComma; PAsterisk; POpenParen; PCloseParen; PColon; PSemiColon; PAssign;
   POpenBracket; PCloseBracket; PFatArrow; PSpread; PPeriod].
Definition said (tolerant : bool) (e : error) : Prop :=
  match e with
  | UnexpectedToken _ (MExpected l found) =>
      In l expectations_written \/
      (exists p, In p puncts_asked /\ l = [punct_debug p] /\ found <> TPunct p) \/
      (exists k, l = [keyword_debug k] /\ found <> TKeyword k)
  | UnexpectedToken _ (MUnexpected _ note) =>
      note = "use strict in an invalid location" \/ note = "cannot return in the global context" \/
      (tolerant = false /\ In note forgiven_notes)
  | UnexpectedToken _ (MPlain m) => m = "malformed regex"
  | UnexpectedEoF | ParseAfterEoF => True
  | UnableToReinterpret _ from to => from = "expression" /\ to = "pattern"
  | Redecl _ w => True
  | OperationError _ _ => True
  | InvalidGetterParams _ | InvalidSetterParams _ => tolerant = false
  | NonStrictFeatureInStrictContext _ f => tolerant = false /\ (f = "with statements" \/ f = "restriced ident")
  | OtherError => False
  end.

Lemma is_punct_false p t : is_punct p t = false -> t <> TPunct p.
Proof. intros H ->. destruct p; discriminate. Qed.
Lemma is_keyword_false k t : is_keyword k t = false -> t <> TKeyword k.
Proof. intros H ->. destruct k; discriminate. Qed.

Lemma strings_eqb_eq a : forall b, strings_eqb a b = true -> a = b.
Proof.
  induction a as [|x a IH]; intros [|y b] H; cbn in H; try discriminate; [reflexivity|].
  apply andb_prop in H. destruct H as [H1 H2]. apply String.eqb_eq in H1. f_equal; auto.
Qed.
Lemma expected_said g s i l : existsb (strings_eqb l) expectations_written = true ->
  said (g_tolerant g) (mk_error g s (FExpected i l)).
Proof.
  intros H. left. apply existsb_exists in H. destruct H as (x & Hx & E). apply strings_eqb_eq in E. subst. exact Hx.
Qed.
Ltac is_said := lazymatch goal with
  | |- said _ (mk_error _ _ (FExpected _ _)) => apply expected_said; vm_compute; reflexivity
  | |- _ => cbn [said mk_error]; first [exact Logic.I | reflexivity | left; reflexivity | right; left; reflexivity | split; reflexivity
      | split; [assumption|first [left; reflexivity|right; reflexivity]]
      | right; right; split; [assumption|cbn; repeat first [left; reflexivity|right]] | assumption ]
  end.

Section Catalogue.
  Variable g : cfg.
  Notation ok := (said (g_tolerant g)).

  Lemma next_said s e s' : next_item g s = (Err e, s') -> ok e.
  Proof.
    intros H. destruct (next_item_loop_err g _ _ _ _ _ H) as [->|[->|[p ->]]]; exact Logic.I.
  Qed.
  Lemma told_plain B (o : op B) : match o with OTolerate _ | OGuardModule _ _ => False | _ => True end -> told_op g ok o.
  Proof.
    intros H s e s' E. destruct o; cbn -[next_item] in *; try contradiction; try discriminate.
    - eapply next_said; eauto.
    - destruct (next_item g s) as [[] ?]; discriminate.
    - destruct (g_tolerant g) eqn:T.
      + repeat match type of E with context [if ?x then _ else _] => destruct x end; try discriminate;
          destruct (next_item g s) as [[] ?] eqn:N; inversion E; subst; rewrite <- ?T; try (eapply next_said; eassumption).
      + destruct (next_item g s) as [[i|e0| |] t] eqn:N; try discriminate; [|inversion E; subst; rewrite <- T; eapply next_said; eassumption].
        destruct (is_punct PComma (it_tok i)) eqn:P; inversion E; subst. cbn. right. left. exists PComma.
        split; [cbn; tauto|]. split; [reflexivity|]. apply is_punct_false, P.
  Qed.
  Lemma told_tolerate d : (g_tolerant g = false -> forall s, ok (mk_error g s d)) -> told_op g ok (OTolerate d).
  Proof. intros H s e s' E. cbn in E. destruct (g_tolerant g) eqn:T; inversion E; subst. apply H; reflexivity. Qed.
  Lemma told_guard b d : (forall s, ok (mk_error g s d)) -> told_op g ok (OGuardModule b d).
  Proof. intros H s e s' E. cbn in E. destruct (g_module g); [destruct b as [[]|]|]; inversion E; subst. apply H. Qed.

  Lemma told_punct p : In p puncts_asked -> told g ok (expect_punct p : P unit).
  Proof.
    intros H. split; [apply told_plain; exact Logic.I|]. intros i. destruct (is_punct p (it_tok i)) eqn:E; [exact Logic.I|].
    intros s. cbn. right. left. exists p. auto using is_punct_false.
  Qed.
  Lemma told_keyword k : told g ok (expect_keyword k : P unit).
  Proof.
    split; [apply told_plain; exact Logic.I|]. intros i. destruct (is_keyword k (it_tok i)) eqn:E; [exact Logic.I|].
    intros s. cbn. right. right. exists k. auto using is_keyword_false.
  Qed.

  Lemma not_word_said i : is_restricted_word i || is_strict_reserved i = true ->
    existsb (strings_eqb [not_word i]) expectations_written = true.
  Proof.
    intros H. unfold is_restricted_word, is_strict_reserved in H. rewrite !orb_true_iff, !text_eqb_eq in H.
    repeat destruct H as [H|H]; subst i; vm_compute; reflexivity.
  Qed.

  Lemma bodies_said B (c : call B) : told g ok (body c).
  Proof.
    destruct c; cbn [body]; repeat
      (lazymatch goal with
       | |- told_op _ _ (OTolerate _) => apply told_tolerate; intros ? ?; is_said
       | |- told_op _ _ (OGuardModule _ _) => apply told_guard; intro; is_said
       | |- told_op _ _ _ => apply told_plain; exact Logic.I
       | |- told _ _ (expect_punct _) => apply told_punct; cbn; repeat first [left; reflexivity|right]
       | |- told _ _ (expect_keyword _) => apply told_keyword
       | H : ?b && (is_restricted_word ?i || is_strict_reserved ?i) = true |- ok (mk_error _ _ (FExpected _ [not_word ?i])) =>
           apply expected_said, not_word_said; apply andb_prop in H; apply H
       | |- ok _ => solve [is_said]
       | |- _ => told_step
       end).
  Qed.
End Catalogue.

(** ** The entry points *)
Lemma api_said A sc tolerant module js (e : error) :
  api_outcome sc tolerant module js (@Err A e) -> said tolerant e.
Proof.
  intros H. remember (Err e) as o eqn:Ho. set (g := make_cfg sc tolerant module js) in *.
  change tolerant with (g_tolerant g). destruct H as [|s n H|s n r H Hr|s n H].
  - destruct (start _ _) as [r s] eqn:E. cbn in Ho. subst. eapply next_said. exact E.
  - fold g in Ho. rewrite parse_of_run in Ho. destruct (run (@body) g n parse_parts s) as [[l|e0| |] t] eqn:E; cbn in Ho; try discriminate.
    inversion Ho; subst. revert E. apply run_told; [apply bodies_said|].
    unfold parse_parts. repeat (told_step; try (apply told_plain; exact Logic.I)).
  - fold g in Hr. unfold iter_next in Hr. destruct (is_eof _); [discriminate|].
    destruct (run_call (@body) g n CNextPart s) as [r' t] eqn:E. cbn in Hr. inversion Hr; subst.
    revert E. apply run_call_told. apply bodies_said.
  - fold g in Ho. unfold parse_expression in Ho. destruct (run_call (@body) g n CExpression s) as [r t] eqn:E. cbn in Ho. subst.
    revert E. apply run_call_told. apply bodies_said.
Qed.
