(** C31, C32: automatic semicolons and restricted productions, for every statement and
    expression of a tree handed out.  [tail_of src l] (Found.v) says that [l] is what remains of
    the tokens [src] from some place on; [semi l1 l'] (Grammar.v) is the rule: a semicolon is read, or
    nothing is and a line terminator, a closing brace or the end of file comes next. *)
From Verif Require Import Grammar Derive Derived Sentence Found Lexer Properties1 Properties5 Properties6.
Open Scope string_scope.
Open Scope nat_scope.
Open Scope list_scope.

Section Statements.
  Variables (sc : scanner) (tolerant module : bool).
  Notation D := (d tolerant module (sc_strict_reserved sc)).

  (** The statement [s] without its semicolon is the tokens from [l] up to [l1]. *)
  Definition spells (S : scope) (s : Stmt) (l l1 : list tk) : Prop :=
    match s with
    | SExpr e => D S Expression l (VExpr e) l1
    | SVar ds => exists l0, reads (TKeyword KVar) l l0 /\ D S (VarDecls false) l0 (VVarDecls ds) l1
    | SReturn None => reads (TKeyword KReturn) l l1
    | SReturn (Some e) => exists l0, reads (TKeyword KReturn) l l0 /\ D S Expression l0 (VExpr e) l1
    | SThrow e => exists l0, reads (TKeyword KThrow) l l0 /\ D S Expression l0 (VExpr e) l1
    | SBreak None => reads (TKeyword KBreak) l l1
    | SBreak (Some i) => exists l0, reads (TKeyword KBreak) l l0 /\ D S (Binding false) l0 (VName i) l1
    | SContinue None => reads (TKeyword KContinue) l l1
    | SContinue (Some i) => exists l0, reads (TKeyword KContinue) l l0 /\ D S (Binding false) l0 (VName i) l1
    | SDebugger => reads (TKeyword KDebugger) l l1
    | _ => False
    end.
  (** The same of a declaration ... *)
  Definition spells_lexical (S : scope) (k : VariableKind) (ds : list VariableDecl) (l l1 : list tk) : Prop :=
    exists l0, (k = VConst /\ reads (TKeyword KConst) l l0 \/ k = VLet /\ reads (TKeyword KLet) l l0)
      /\ D S (LexDecls k false) l0 (VVarDecls ds) l1.
  (** ... of an import ... *)
  Definition spells_import (S : scope) (i : ModImport) (l l1 : list tk) : Prop :=
    let 'mkImport xs m := i in
    exists l0 l2, reads (TKeyword KImport) l l0 /\ D S ModuleName l2 (VLiteral m) l1
      /\ (xs = [] /\ l2 = l0 \/ exists l3, D S Imports l0 (VSpecifiers xs) l3 /\ word "from" l3 l2).
  (** ... and of an export other than [export default], of a class or of a function. *)
  Definition spells_export (S : scope) (e : ModExport) (l l1 : list tk) : Prop :=
    exists l0, reads (TKeyword KExport) l l0 /\
    match e with
    | MEAll m => exists w l2 l3, reads (TPunct PAsterisk) l0 l2 /\ anything w l2 l3 /\ D S ModuleName l3 (VLiteral m) l1
    | MENamed (NESpecifier xs o) =>
        exists l2 l3 l4, reads (TPunct POpenBrace) l0 l2 /\ D S ExportList l2 (VExportNames xs) l3
          /\ reads (TPunct PCloseBrace) l3 l4
          /\ match o with
             | None => l1 = l4
             | Some m => exists l5, word "from" l4 l5 /\ D S ModuleName l5 (VLiteral m) l1
             end
    | MENamed (NEDecl (DVariable VVar ds)) =>
        exists l2, reads (TKeyword KVar) l0 l2 /\ D S (VarDecls false) l2 (VVarDecls ds) l1
    | MENamed (NEDecl (DVariable k ds)) => D S LexicalDeclaration l0 (VDecl (DVariable k ds)) l1
    | _ => False
    end.
End Statements.
Definition takes_semicolon (s : Stmt) : bool :=
  match s with
  | SVar _ | SReturn _ | SThrow _ | SBreak _ | SContinue _ | SDebugger | SExpr _ => true
  | _ => false
  end.
Definition takes_semicolon_export (e : ModExport) : bool :=
  match e with
  | MEAll _ | MENamed (NESpecifier _ _) | MENamed (NEDecl (DVariable _ _)) => true
  | _ => false
  end.

Lemma stmt_spells sc tolerant module S s l l' :
  d tolerant module (sc_strict_reserved sc) S Statement l (VStmt s) l' -> takes_semicolon s = true ->
  (exists l1, spells sc tolerant module S s l l1 /\ semi l1 l')
  \/ exists f, s = SExpr (EFunction f) /\ d tolerant module (sc_strict_reserved sc) S (FunctionDeclaration true) l (VFunction f) l'.
Proof.
  intros H T. inversion H; subst; try discriminate T;
    try match goal with H : d _ _ _ _ (ForRest _) _ _ _ |- _ => apply for_rest_stmt in H; unfold plain_stmt, takes_semicolon in *; congruence end.
  all: try (left; eexists; split; [|eassumption]; cbn [spells]; eauto; fail).
  all: right; eauto.
Qed.

(** A function declaration in statement position is stored as an expression statement, and
    a tolerant parser makes an expression statement of a labelled class body: these take no semicolon. *)
Theorem C31_statements : forall sc tolerant module js above s,
  plain_scan sc js ->
  occurs sc tolerant module js above (NStmt s) ->
  takes_semicolon s = true ->
  (tolerant = true -> forall c, s <> SExpr (EClass c)) ->
  exists S l l', tail_of (source_tokens sc js) l
    /\ ((exists l1, spells sc tolerant module S s l l1 /\ semi l1 l')
        \/ exists f, s = SExpr (EFunction f)
             /\ d tolerant module (sc_strict_reserved sc) S (FunctionDeclaration true) l (VFunction f) l').
Proof.
  intros sc tolerant module js above s P O T C. apply occurs_found in O; [|exact P].
  destruct O as [O|[(e & -> & S & n & l & l' & Tl & H)|(Ht & [->|(b & ->)])]].
  - apply plain_stmt_core in O; [|exact T]. destruct O as (S & l & l' & Tl & H). exists S, l, l'.
    split; [exact Tl|]. apply stmt_spells; auto.
  - inversion H; subst.
    + exists S, l, l'. split; [exact Tl|]. left. eexists. split; [|eassumption]. assumption.
    + exists S, l, l'. split; [exact Tl|]. apply stmt_spells; auto.
  - discriminate T.
  - destruct (C Ht _ eq_refl).
Qed.
Print Assumptions C31_statements.

Theorem C31_declarations : forall sc tolerant module js above k ds,
  plain_scan sc js ->
  occurs sc tolerant module js above (NDecl (DVariable k ds)) ->
  exists S l l1 l', tail_of (source_tokens sc js) l /\ semi l1 l'
    /\ (spells_lexical sc tolerant module S k ds l l1
        \/ spells_export sc tolerant module S (MENamed (NEDecl (DVariable k ds))) l l1).
Proof.
  intros sc tolerant module js above k ds P O. apply occurs_found in O; [|exact P].
  destruct O as [(S & n & l & l' & Tl & H)|(S & n & l & l' & Tl & H)].
  - inversion H; subst. exists S, l. do 2 eexists. split; [exact Tl|]. split; [eassumption|]. left. eexists. eauto.
  - inversion H; subst.
    + exists S, l. do 2 eexists. split; [exact Tl|]. split; [eassumption|]. right. eexists. split; [eassumption|].
      destruct k; [|assumption|assumption].
      match goal with H : d _ _ _ _ LexicalDeclaration _ _ _ |- _ => inversion H; subst end.
      match goal with H : _ \/ _ |- _ => destruct H as [[? _]|[? _]]; discriminate end.
    + exists S, l. do 2 eexists. split; [exact Tl|]. split; [eassumption|]. right. eexists. split; [eassumption|]. cbn. eauto.
Qed.
Print Assumptions C31_declarations.

Theorem C31_imports : forall sc tolerant module js above i,
  plain_scan sc js ->
  occurs sc tolerant module js above (NImport i) ->
  exists S l l1 l', tail_of (source_tokens sc js) l /\ spells_import sc tolerant module S i l l1 /\ semi l1 l'.
Proof.
  intros sc tolerant module js above i P O. apply occurs_found in O; [|exact P].
  destruct O as (S & n & l & l' & Tl & H). inversion H; subst; exists S, l; do 2 eexists; (split; [exact Tl|]);
    (split; [|eassumption]); cbn [spells_import]; eauto 10.
Qed.
Print Assumptions C31_imports.

(** Not [export default]: see [C31_default_refuted]. *)
Theorem C31_exports_partial : forall sc tolerant module js above e,
  plain_scan sc js ->
  occurs sc tolerant module js above (NExport e) ->
  takes_semicolon_export e = true ->
  exists S l l1 l', tail_of (source_tokens sc js) l /\ spells_export sc tolerant module S e l l1 /\ semi l1 l'.
Proof.
  intros sc tolerant module js above e P O T. apply occurs_found in O; [|exact P].
  destruct O as (S & n & l & l' & Tl & H). inversion H; subst; try discriminate T; exists S, l; do 2 eexists; (split; [exact Tl|]);
    (split; [|eassumption]); (eexists; split; [eassumption|]); eauto 10.
  match goal with H : d _ _ _ _ LexicalDeclaration _ _ _ |- _ => inversion H; subst; rename H into K end.
  destruct kind; [|exact K|exact K].
  match goal with H : _ \/ _ |- _ => destruct H as [[? _]|[? _]]; discriminate end.
Qed.
Print Assumptions C31_exports_partial.

(** The rule on directives. *)
Theorem C31_directives : forall sc tolerant module js above dir x,
  plain_scan sc js ->
  occurs sc tolerant module js above (NPart (PPDir dir x)) ->
  exists w l l1 l', tail_of (source_tokens sc js) l /\ x = LString w /\ reads_as TString w l l1 /\ semi l1 l'.
Proof.
  intros sc tolerant module js above dir x P O. apply occurs_found in O; [|exact P].
  destruct O as (S & n & l & l' & Tl & H). inversion H; subst. eauto 10.
Qed.
Print Assumptions C31_directives.

(** C32 in full: no line terminator lies between the operand, [yield], [break] or [continue] and what is
    attached.  Proved: the scanner reported none before the token; missing: a line
    terminator before a comment before the token, see [C32_comment_refuted]. *)
Theorem C32_postfix_partial : forall sc tolerant module js above o e,
  plain_scan sc js ->
  occurs sc tolerant module js above (NExpr (EUpdate o e false)) ->
  exists S t l l1 l', tail_of (source_tokens sc js) l
    /\ d tolerant module (sc_strict_reserved sc) S CallExpression l (VExpr e) l1
    /\ In (t, o) [(TPunct PIncrement, UIncrement); (TPunct PDecrement, UDecrement)]
    /\ reads t l1 l' /\ newline l1 = false.
Proof.
  intros sc tolerant module js above o e P O. apply occurs_found in O; [|exact P].
  destruct O as [[i O]|[O|[(S & n & l & l' & _ & O)|[(f & O & _)|[(x & es & O & _)|(b & _ & O)]]]]]; try discriminate O.
  - apply update_core in O. destruct O as (S & t & l & l1 & l' & H1 & H2 & H3 & H4 & H5). exists S, t, l, l1, l'. auto.
  - inversion O.
Qed.
Print Assumptions C32_postfix_partial.

Theorem C32_yield_partial : forall sc tolerant module js above e dg,
  plain_scan sc js ->
  occurs sc tolerant module js above (NExpr (EYield (Some e) dg)) ->
  exists S l l1 l', tail_of (source_tokens sc js) l /\ reads (TKeyword KYield) l l1 /\ newline l1 = false
    /\ (dg = false /\ d tolerant module (sc_strict_reserved sc) S Assignment l1 (VExpr e) l'
        \/ dg = true /\ exists l2, reads (TPunct PAsterisk) l1 l2
             /\ d tolerant module (sc_strict_reserved sc) S Assignment l2 (VExpr e) l').
Proof.
  intros sc tolerant module js above e dg P O. apply occurs_found in O; [|exact P].
  destruct O as [[i O]|[O|[(S & n & l & l' & _ & O)|[(f & O & _)|[(x & es & O & _)|(b & _ & O)]]]]]; try discriminate O.
  - apply yield_core in O. exact O.
  - inversion O.
Qed.
Print Assumptions C32_yield_partial.

Theorem C32_labels_partial : forall sc tolerant module js above s i,
  plain_scan sc js ->
  occurs sc tolerant module js above (NStmt s) ->
  s = SBreak (Some i) \/ s = SContinue (Some i) ->
  exists S l l1 l2, tail_of (source_tokens sc js) l
    /\ reads (TKeyword match s with SBreak _ => KBreak | _ => KContinue end) l l1
    /\ newline l1 = false /\ d tolerant module (sc_strict_reserved sc) S (Binding false) l1 (VName i) l2.
Proof.
  intros sc tolerant module js above s i P O X. apply occurs_found in O; [|exact P].
  assert (K : exists S l l', tail_of (source_tokens sc js) l /\ d tolerant module (sc_strict_reserved sc) S Statement l (VStmt s) l').
  { destruct O as [O|[(e & -> & _)|(_ & [->|(b & ->)])]]; try (destruct X; discriminate).
    apply plain_stmt_core in O; [exact O|]. destruct X; subst; reflexivity. }
  destruct K as (S & l & l' & Tl & H).
  destruct X; subst; inversion H; subst;
    try match goal with H : d _ _ _ _ (ForRest _) _ _ _ |- _ => apply for_rest_stmt in H; discriminate end; eauto 10.
Qed.
Print Assumptions C32_labels_partial.

(** The rule for every derivation, and so for every statement of the derivation that C40
    gives of a whole program. *)
Theorem C31_rule : forall sc tolerant module S s l l',
  d tolerant module (sc_strict_reserved sc) S Statement l (VStmt s) l' ->
  takes_semicolon s = true ->
  (exists l1, spells sc tolerant module S s l l1 /\ semi l1 l')
  \/ exists f, s = SExpr (EFunction f)
       /\ d tolerant module (sc_strict_reserved sc) S (FunctionDeclaration true) l (VFunction f) l'.
Proof. exact stmt_spells. Qed.
Print Assumptions C31_rule.

(** ** Cases *)
Definition plain_text (js : string) : bool :=
  forallb (fun r => plain_item_b (str js) (r_item r)) (lex (str js)).
Lemma plain_text_scan js : plain_text js = true -> plain_scan test_scanner (str js).
Proof. apply plain_scan_dec. Qed.

Definition C31_text : string := "var a
b
f: for (;;) { if (c) { break f } else if (d) { continue } debugger }
function g() { return }
throw h; x".
Example C31_case :
  plain_text C31_text = true
  /\ shows C31_text (fun _ n => match n with NStmt (SVar _) => true | _ => false end) = true
  /\ shows C31_text (fun _ n => match n with NStmt (SExpr (EIdent _)) => true | _ => false end) = true
  /\ shows C31_text (fun _ n => match n with NStmt (SBreak (Some _)) => true | _ => false end) = true
  /\ shows C31_text (fun _ n => match n with NStmt (SContinue None) => true | _ => false end) = true
  /\ shows C31_text (fun _ n => match n with NStmt SDebugger => true | _ => false end) = true
  /\ shows C31_text (fun _ n => match n with NStmt (SReturn None) => true | _ => false end) = true
  /\ shows C31_text (fun _ n => match n with NStmt (SThrow _) => true | _ => false end) = true.
Proof. vm_compute. repeat split. Qed.
Definition C31_module_text : string := "'use strict'
import a from 'm'
export * from 'n'; export { b as c }
export var d = 1
let e = 2
export const f = 3;;
".
Example C31_case_module :
  plain_text C31_module_text = true
  /\ shows_with false true C31_module_text (fun _ n => match n with NPart (PPDir _ _) => true | _ => false end) = true
  /\ shows_with false true C31_module_text (fun _ n => match n with NImport _ => true | _ => false end) = true
  /\ shows_with false true C31_module_text (fun _ n => match n with NExport (MEAll _) => true | _ => false end) = true
  /\ shows_with false true C31_module_text (fun _ n => match n with NExport (MENamed (NESpecifier _ _)) => true | _ => false end) = true
  /\ shows_with false true C31_module_text (fun _ n => match n with NExport (MENamed (NEDecl (DVariable VVar _))) => true | _ => false end) = true
  /\ shows_with false true C31_module_text (fun _ n => match n with NDecl (DVariable VLet _) => true | _ => false end) = true
  /\ shows_with false true C31_module_text (fun _ n => match n with NExport (MENamed (NEDecl (DVariable VConst _))) => true | _ => false end) = true.
Proof. vm_compute. repeat split. Qed.
(** The exceptions the theorem makes do occur. *)
Example C31_case_function :
  shows "if (a) function f() {} b" (fun _ n => match n with NStmt (SExpr (EFunction _)) => true | _ => false end) = true.
Proof. vm_compute. reflexivity. Qed.

(** [export default] takes any expression and no semicolon: [export default a b] is two parts,
    though its tokens hold no semicolon, closing brace or line terminator. *)
Theorem C31_default_refuted : exists js e above x,
  plain_scan test_scanner js
  /\ occurs test_scanner false true js above (NExport (MEDefault (DEExpr e)))
  /\ occurs test_scanner false true js [] (NPart (PPStmt (SExpr x)))
  /\ Forall (fun t => k_nl t = false /\ k_tok t <> TPunct PSemiColon /\ k_tok t <> TPunct PCloseBrace)
            (source_tokens test_scanner js).
Proof.
  exists (str "export default a b"), (EIdent (str "a")), [NPart (PPDecl (DExport (MEDefault (DEExpr (EIdent (str "a"))))));
    NDecl (DExport (MEDefault (DEExpr (EIdent (str "a")))))], (EIdent (str "b")).
  split; [apply plain_text_scan; vm_compute; reflexivity|].
  split; [apply (at_path_occurs false true "export default a b" [0; 0; 0]); vm_compute; reflexivity|].
  split; [apply (at_path_occurs false true "export default a b" [1]); vm_compute; reflexivity|].
  vm_compute. repeat constructor; discriminate.
Qed.
Print Assumptions C31_default_refuted.

Definition C32_text : string := "function* g() { l: for (;;) { a++; yield b; yield* c; break l; continue l } }".
Example C32_case :
  plain_text C32_text = true
  /\ shows C32_text (fun _ n => match n with NExpr (EUpdate _ _ false) => true | _ => false end) = true
  /\ shows C32_text (fun _ n => match n with NExpr (EYield (Some _) false) => true | _ => false end) = true
  /\ shows C32_text (fun _ n => match n with NExpr (EYield (Some _) true) => true | _ => false end) = true
  /\ shows C32_text (fun _ n => match n with NStmt (SBreak (Some _)) => true | _ => false end) = true
  /\ shows C32_text (fun _ n => match n with NStmt (SContinue (Some _)) => true | _ => false end) = true.
Proof. vm_compute. repeat split. Qed.

(** The flag the parser consults is that of the last item the scanner returned, so a comment
    hides the line terminator before it: with a scanner that reports line terminators between an item
    and the one before, [++] in [a (newline) /**/ ++] is taken as postfix. *)
Theorem C32_comment_refuted : exists js above o e,
  js = str "a" ++ [LF] ++ str "/**/++"
  /\ occurs test_scanner false false js above (NExpr (EUpdate o e false)).
Proof.
  exists (str "a
/**/++"), [NPart (PPStmt (SExpr (EUpdate UIncrement (EIdent (str "a")) false)));
    NStmt (SExpr (EUpdate UIncrement (EIdent (str "a")) false))], UIncrement, (EIdent (str "a")).
  split; [vm_compute; reflexivity|].
  apply (at_path_occurs false false "a
/**/++" [0; 0; 0]). vm_compute. reflexivity.
Qed.
Print Assumptions C32_comment_refuted.

(** ** C40, below the top: every node of a tree handed out is derived at some place of the source
    ([found], Found.v: names aside; in the list of cases, the value of a method, a declared function kept as an expression,
    and the parts of a sequence are the places where the tree is not the derivation's own value). *)
Theorem C40_everywhere : forall sc tolerant module js above n,
  plain_scan sc js -> occurs sc tolerant module js above n ->
  found tolerant module (sc_strict_reserved sc) (source_tokens sc js) n.
Proof. intros sc tolerant module js above n P O. apply occurs_found in O; assumption. Qed.
Print Assumptions C40_everywhere.
(** Without the tolerant option, in particular, every statement. *)
Theorem C40_statements : forall sc module js above s,
  plain_scan sc js -> occurs sc false module js above (NStmt s) ->
  exists S nt l l', tail_of (source_tokens sc js) l
    /\ (d false module (sc_strict_reserved sc) S nt l (VStmt s) l' \/ d false module (sc_strict_reserved sc) S nt l (VPart (PPStmt s)) l').
Proof.
  intros sc module js above s P O. apply C40_everywhere in O; [|exact P].
  destruct O as [(S & nt & l & l' & T & H)|[(e & -> & S & nt & l & l' & T & H)|[H _]]]; [| |discriminate]; exists S, nt, l, l'; auto.
Qed.
Print Assumptions C40_statements.
Example C40_case_inside : shows "if (a) { while (b) c(function() { return d }) }"
  (fun above n => match n with NStmt (SReturn (Some _)) => Nat.ltb 5 (length above) | _ => false end) = true.
Proof. vm_compute. reflexivity. Qed.
