(** Of a derived tree, the words are those of the tokens it is derived from. *)
From Verif Require Import Grammar Derive Derived Sentence Found.
From Verif Require Export Words.
Local Open Scope string_scope.
Local Open Scope nat_scope.
Local Open Scope list_scope.

Section Sides.
  Variable tolerant module : bool.
  Variable reserved : token -> bool.
  Notation D := (d tolerant module reserved).

  (** What the nonterminal says about the tree. *)
  Definition side (n : nt) (v : val) : Prop :=
    match n, v with
    | Method _, VMethod v => star v = []
    | GeneratorMethod, VMethod v => star v = [punct_text PAsterisk]
    | (NamedImports | NamedImportList), VSpecifiers xs => forallb is_normal xs = true
    | NamedImport, VSpecifier x => is_normal x = true
    | Namespace, VSpecifier x => is_normal x = false
    | Imports, VSpecifiers xs => True
    | Spans, VSpans qs es => length qs = S (length es)
    | ForRest i, VStmt s => exists t u b, s = SFor i t u b
    | _, _ => True
    end.
  Lemma der_side S n l v l' : D S n l v l' -> side n v.
  Proof.
    induction 1; cbn [side] in *; auto; eauto.
    all: try reflexivity.
    - rewrite !app_length in *. cbn [length] in *. lia.
    - rewrite forallb_app. cbn [forallb]. rewrite IHd1, IHd2. reflexivity.
  Qed.

  (** A name or a string is one token, with parentheses around it. *)
  Definition leaf (w : text) (v : val) : Prop := v = VExpr (EIdent w) \/ v = VExpr (ELiteral (LString w)).
  Lemma leaf_last w S n l v l' : D S n l v l' -> leaf w v ->
    exists u r, l = u ++ r /\ hd_text r = w /\ (tl r = l' \/ hd_tok (tl r) = TPunct PCloseParen) /\ (s_strict S = true -> hd_tok r = TIdent \/ hd_tok r = TString \/ hd_tok r = TKeyword KImport).
  Proof.
    induction 1; intros [E|E]; try discriminate E; try (apply IHd; first [left; exact E|right; exact E]).
    all: try match goal with
         | H : In (_, (_, ?mk)) bin_ops |- _ => unfold bin_ops in H; cbn [In] in H;
             repeat match goal with H : _ \/ _ |- _ => destruct H | H : (_, _) = (_, _) |- _ => inversion H; clear H; subst end; try discriminate E; contradiction
         | H : reads_as _ ?x _ _ |- _ => injection E as <-; destruct H as (_ & b & ->); exists []; eexists; split; [reflexivity|]; split; [reflexivity|]; split; [left; reflexivity|cbn [hd_tok]; auto; congruence]
         end.
    all: destruct (IHd ltac:(first [left; exact E|right; exact E])) as (u & r & -> & K1 & K2 & K3).
    all: destruct H as (_ & x & b & ->); exists (mkTk (TPunct POpenParen) x b :: u), r; split; [reflexivity|]; split; [exact K1|]; split; [|exact K3].
    all: destruct K2 as [K2|K2]; [|right; exact K2].
    all: right; rewrite K2; match goal with H : reads (TPunct PCloseParen) _ _ |- _ => destruct H as (_ & ? & ? & ->); reflexivity end.
  Qed.

  (** Without [yield], no parameter of an arrow function is changed. *)
  Definition calm (e : Expr) : Prop :=
    match e with EYield None _ => False | EAssignment _ _ (EYield None _) => False | _ => True end.
  Definition calm_arg (a : FunctionArg) : Prop :=
    match a with FAExpr e => calm e | FAPat (PAssignment _ (EYield None _)) => False | FAPat _ => True end.
  Definition quiet (v : val) : Prop :=
    match v with
    | VExpr e => calm e /\ match e with ESequence es => Forall calm es | EArrowParamPlaceHolder ps _ => Forall calm_arg ps | _ => True end
    | VExprs es => Forall calm es
    | _ => True
    end.
  Lemma calm_args es : Forall calm es -> Forall calm_arg (map FAExpr es).
  Proof. induction 1; cbn [map]; constructor; auto. Qed.
  Lemma calm_param a : calm_arg a -> arrow_param a = a.
  Proof.
    destruct a as [e|q]; cbn [calm_arg arrow_param].
    - destruct e; try reflexivity. destruct e; try reflexivity. destruct argument; [reflexivity|intros []].
    - destruct q; try reflexivity. destruct right; try reflexivity. destruct argument; [reflexivity|intros []].
  Qed.
  Lemma calm_params ps : Forall calm_arg ps -> map arrow_param ps = ps.
  Proof. induction 1; cbn [map]; [reflexivity|]. rewrite calm_param by assumption. congruence. Qed.

  Lemma der_tail S n l v l' : D S n l v l' -> tail_of l l'.
  Proof. intros H. exact (proj1 (der_found tolerant module reserved l _ _ _ _ _ H H (tail_refl l))). Qed.
  Lemma tail_trans src l l' : tail_of src l -> tail_of l l' -> tail_of src l'.
  Proof. intros [u ->] [w ->]. exists (u ++ w). apply app_assoc. Qed.

  Section Quiet.
    Variable src : list tk.
    Hypothesis silent : forall l, tail_of src l -> hd_tok l <> TKeyword KYield.
    Lemma der_quiet S n l v l' : D S n l v l' -> tail_of src l -> quiet v.
    Proof.
      induction 1; intros T; cbn [quiet calm] in *; auto.
      all: repeat match goal with
           | H : D _ _ ?a _ ?b, T : tail_of src ?a |- _ =>
               lazymatch goal with T' : tail_of src b |- _ => fail | _ => pose proof (tail_trans _ _ _ T (der_tail _ _ _ _ _ H)) end
           | H : reads _ ?a ?b, T : tail_of src ?a |- _ =>
               lazymatch goal with T' : tail_of src b |- _ => fail | _ => pose proof (tail_reads _ _ _ _ H T) end
           | H : comma ?a ?b, T : tail_of src ?a |- _ =>
               lazymatch goal with T' : tail_of src b |- _ => fail | _ => pose proof (tail_comma _ _ _ H T) end
           end.
      all: auto.
      all: repeat match goal with H : tail_of src ?a -> _, T : tail_of src ?a |- _ => specialize (H T) end.
      - constructor; [exact (proj1 IHd)|constructor].
      - apply Forall_app. split; [exact IHd1|]. constructor; [exact (proj1 IHd2)|constructor].
      - split; [|exact I]. destruct e; auto. destruct argument; auto. exact (proj1 IHd2).
      - exfalso. eapply silent; [exact T|]. destruct H as (_ & ? & ? & ->). reflexivity.
      - unfold bin_ops in H0. cbn [In] in H0.
        repeat match goal with H : _ \/ _ |- _ => destruct H | H : (_, _) = (_, _) |- _ => inversion H; clear H; subst end; try contradiction; split; exact I.
      - split; [exact I|]. apply calm_args. assumption.
      - constructor; [exact (proj1 IHd)|constructor].
      - apply Forall_app. split; [exact IHd1|]. constructor; [|constructor].
        destruct H0 as [K|[_ ->]]; [|apply IHd2; eapply tail_trans; [exact T|eapply der_tail; eauto]].
        apply IHd2. eapply tail_comma; [exact K|]. eapply tail_trans; [exact T|eapply der_tail; eauto].
      - split; [exact I|]. apply calm_args. assumption.
      - split; [exact I|]. apply calm_args. exact (proj2 IHd).
      - split; [exact I|]. repeat constructor.
      - split; [exact I|]. apply calm_args. assumption.
      - split; [exact I|]. apply Forall_app. split; [apply calm_args; assumption|repeat constructor].
    Qed.
  End Quiet.
End Sides.

Section Kept.
  Variable tolerant module : bool.
  Variable reserved : token -> bool.
  Variable kept : text -> bool.
  Variable src : list tk.
  Hypothesis forgotten : forgets kept.
  Hypothesis neat : careful tolerant kept src.
  Hypothesis spelt : Forall well_spelled src.
  Notation D := (d tolerant module reserved).

  Definition K (l : list text) : list text := filter kept l.
  Definition F (l : list tk) : list text := K (map k_text l).
  Lemma K_app a b : K (a ++ b) = K a ++ K b.
  Proof. apply filter_app. Qed.
  Lemma K_nil : K [] = [].
  Proof. reflexivity. Qed.
  Lemma F_cons x l : F (x :: l) = K [k_text x] ++ F l.
  Proof. unfold F, K. cbn [map filter]. destruct (kept (k_text x)); reflexivity. Qed.
  Lemma K_unfixed w : In w unfixed -> K [w] = [].
  Proof. intros H. unfold K. cbn [filter]. rewrite (forgotten _ H). reflexivity. Qed.

  Lemma tail_spelt l : tail_of src l -> Forall well_spelled l.
  Proof. intros [u E]. rewrite E in spelt. apply Forall_app in spelt. tauto. Qed.
  Lemma F_reads t l l' : reads t l l' -> tail_of src l ->
    F l = K [match t with TPunct p => punct_text p | TKeyword k => kw_text k | TBoolean b => bool_text b | _ => hd_text l end] ++ F l'.
  Proof.
    intros (_ & w & b & ->) T. apply tail_spelt in T. inversion T as [|? ? X _]; subst. unfold well_spelled in X. cbn [k_tok k_text hd_text] in *.
    rewrite F_cons. cbn [k_text]. destruct t; subst; reflexivity.
  Qed.
  Lemma F_reads_as t w l l' : reads_as t w l l' -> F l = K [w] ++ F l'.
  Proof. intros (_ & b & ->). apply F_cons. Qed.
  Lemma F_takes w l l' : anything w l l' -> tail_of src l -> F l = K [w] ++ F l'.
  Proof.
    intros [[(_ & x & ->)|(-> & v & b & ->)] <-] T; [apply F_cons|].
    apply tail_spelt in T. inversion T as [|? ? X _]; subst. unfold well_spelled in X. cbn [k_tok k_text hd_text] in *. subst v.
    rewrite K_unfixed; [reflexivity|]. cbn. tauto.
  Qed.
  Lemma F_semi l l' : semi l l' -> tail_of src l -> F l = F l'.
  Proof. intros [H|(-> & _)] T; [|reflexivity]. rewrite (F_reads _ _ _ H T). rewrite K_unfixed; [reflexivity|cbn; tauto]. Qed.
  Lemma F_comma l l' : comma l l' -> tail_of src l -> F l = F l'.
  Proof. intros H T. rewrite (F_reads _ _ _ H T). rewrite K_unfixed; [reflexivity|cbn; tauto]. Qed.

  (** The words of what a nonterminal derives. *)
  Definition w_val (n : nt) (v : val) : list text :=
    match v with
    | VPart x => w_part x
    | VParts l =>
        match n with
        | Block | FunctionBody => [punct_text POpenBrace] ++ flat_map w_part l ++ [punct_text PCloseBrace]
        | _ => flat_map w_part l
        end
    | VStmt s => match n, s with ForRest _, SFor _ t u b => w_opt w_expr t ++ w_opt w_expr u ++ w_stmt b | _, _ => w_stmt s end
    | VCase c => w_case c | VCases l => flat_map w_case l
    | VVarDecl x => w_var x | VVarDecls l => flat_map w_var l | VDecl x => w_decl x
    | VExpr e => w_expr e | VExprs l => flat_map w_expr l | VElements l => flat_map (w_opt w_expr) l
    | VProperty x => w_object_property x | VProperties l => flat_map w_object_property l
    | VKey x c => bracketed c (w_key x) | VMethod v => w_method v
    | VTemplate t => w_template t | VSpans qs es => weave qs (map w_expr es)
    | VQuasi q => [q_raw q]
    | VFunction f => w_function f | VParam a => w_arg a | VParams l => flat_map w_arg l
    | VClass c => w_class c | VMember x => w_property x
    | VMembers l => match n with ClassBody => [punct_text POpenBrace] ++ flat_map w_property l ++ [punct_text PCloseBrace] | _ => flat_map w_property l end
    | VPrefix _ _ => []
    | VName i => [i] | VPat x => w_pat x | VPats l => flat_map (w_opt w_array_part) l
    | VPatProperty x => w_pat_part x | VPatProperties l => flat_map w_pat_part l
    | VImport i => w_import i | VSpecifier i => w_import_spec i
    | VSpecifiers l => 
        match n with
        | Imports => w_import_specs l
        | NamedImports => [punct_text POpenBrace] ++ flat_map w_import_spec l ++ [punct_text PCloseBrace]
        | _ => flat_map w_import_spec l
        end
    | VExport e => w_export e | VDefault x => w_default x
    | VExportName e => w_export_spec e | VExportNames l => flat_map w_export_spec l
    | VLiteral l => w_literal l
    end.

  Definition after_import (l l' : list tk) : Prop :=
    hd_text l' = str "from" /\ exists x, k_tok x = TKeyword KImport /\ tail_of src (x :: l).
  Definition cond (S : scope) (n : nt) (l l' : list tk) : Prop :=
    match n with
    | Imports => after_import l l'
    | PropertyDef => tl l = l' -> hd_tok l = TIdent -> hd_tok l' <> TPunct POpenBracket
    | ClassBody | ClassElements | ClassElement | ClassPrefix => s_strict S = true \/ never_closed "static" src | _ => True end.
  Definition motive S n l v l' : Prop := tail_of src l -> tail_of src l' /\ (cond S n l l' -> F l = K (w_val n v) ++ F l').

  Lemma K_open : K [punct_text POpenParen] = []. Proof. apply K_unfixed. cbn. tauto. Qed.
  Lemma K_close : K [punct_text PCloseParen] = []. Proof. apply K_unfixed. cbn. tauto. Qed.
  Lemma K_semi : K [punct_text PSemiColon] = []. Proof. apply K_unfixed. cbn. tauto. Qed.
  Lemma K_static : K [str "static"] = []. Proof. apply K_unfixed. cbn. tauto. Qed.
  Lemma K_async : K [str "async"] = []. Proof. apply K_unfixed. cbn. tauto. Qed.
  Lemma K_comma : K [punct_text PComma] = []. Proof. apply K_unfixed. cbn. tauto. Qed.
  Lemma w_computed e : w_key (computed_key e) = w_expr e.
  Proof. destruct e; try reflexivity. destruct l; reflexivity. Qed.
  Lemma w_args es : flat_map w_arg (map FAExpr es) = flat_map w_expr es.
  Proof. induction es; cbn [map flat_map]; [reflexivity|]. rewrite IHes. reflexivity. Qed.

  Lemma weave_snoc qs es q e : length qs = S (length es) -> weave (qs ++ [q]) (es ++ [e]) = weave qs es ++ e ++ [q_raw q].
  Proof.
    revert es. induction qs as [|q0 qs IH]; intros [|e0 es] L; try discriminate L.
    - destruct qs; [|discriminate L]. cbn [app weave concat]. rewrite ?app_nil_r. reflexivity.
    - cbn [app weave]. rewrite IH by (cbn [length] in *; lia). rewrite <- !app_assoc. reflexivity.
  Qed.
  Lemma at_tail (A : Prop) l : tail_of src l -> (forall u l, src = u ++ l -> A) -> A.
  Proof. intros [u E] H. eapply H. exact E. Qed.
  Lemma in_tail l x r : tail_of src l -> l = x :: r -> In x src.
  Proof. intros [u ->] ->. apply in_or_app. right. left. reflexivity. Qed.
  Lemma for_await l l1 l2 : tail_of src l -> reads (TKeyword KFor) l l1 -> reads (TKeyword KAwait) l1 l2 -> K [kw_text KAwait] = [].
  Proof.
    intros [u E] (_ & ? & ? & ->) (_ & ? & ? & ->). unfold K. cbn [filter]. destruct (kept (kw_text KAwait)) eqn:X; [|reflexivity].
    exfalso. apply (no_for_await _ _ _ neat X _ _ E). split; reflexivity.
  Qed.
  Lemma spread_lost l l1 : tail_of src l -> reads (TPunct PSpread) l l1 -> K [punct_text PSpread] = [].
  Proof.
    intros T (_ & ? & ? & E). unfold K. cbn [filter]. destruct (kept (punct_text PSpread)) eqn:X; [|reflexivity].
    exfalso. apply (no_spread _ _ _ neat X). eexists. split; [exact (in_tail _ _ _ T E)|reflexivity].
  Qed.
  Lemma has_arrow l l1 : tail_of src l -> reads (TPunct PFatArrow) l l1 -> some src (fun x => k_tok x = TPunct PFatArrow).
  Proof. intros T (_ & ? & ? & E). eexists. split; [exact (in_tail _ _ _ T E)|reflexivity]. Qed.
  Lemma head_arrow l : tail_of src l -> hd_tok l = TPunct PFatArrow -> some src (fun x => k_tok x = TPunct PFatArrow).
  Proof. intros T H. destruct l as [|x l]; [discriminate|]. exists x. split; [exact (in_tail _ _ _ T eq_refl)|exact H]. Qed.
  Lemma async_head l : tail_of src l -> hd_text l = str "async" -> some src (fun x => k_text x = str "async").
  Proof. intros T H. destruct l as [|x l]; [discriminate|]. exists x. split; [exact (in_tail _ _ _ T eq_refl)|exact H]. Qed.
  Lemma arrow_quiet l S n v l' : some src (fun x => k_tok x = TPunct PFatArrow) -> D S n l v l' -> tail_of src l -> quiet v.
  Proof.
    intros A H T. eapply (der_quiet _ _ _ src); eauto. intros r R E. apply (no_yield_arrow _ _ _ neat A).
    destruct r as [|x r]; [discriminate|]. exists x. split; [exact (in_tail _ _ _ R eq_refl)|exact E].
  Qed.
  Lemma key_words y w : key_is y w -> w_key y = [str w].
  Proof. intros [->| ->]; reflexivity. Qed.
  Lemma not_bracketed w l S x c l' : never_closed w src -> tail_of src l -> D S PropertyName l (VKey x c) l' -> key_is x w -> c = false.
  Proof.
    intros Z T H X. inversion H; subst; try reflexivity. exfalso.
    assert (leaf (str w) (VExpr e)) as L.
    { destruct X as [X|X]; destruct e; try discriminate X; [left|left; destruct l0|right; destruct l0]; try discriminate X; cbn [computed_key] in X; congruence. }
    match goal with H : D _ _ _ (VExpr e) _ |- _ => destruct (leaf_last _ _ _ _ _ _ _ _ _ H L) as (u & r & -> & E1 & E3 & E2) end.
    match goal with H : reads _ l (u ++ r) |- _ => pose proof (tail_reads _ _ _ _ H T) as [z Q] end.
    rewrite app_assoc in Q. destruct (Z _ _ Q E1) as [N1 N2]. destruct E3 as [E3|E3]; [|auto].
    apply N1. rewrite E3. match goal with H : reads (TPunct PCloseBracket) _ _ |- _ => destruct H as (_ & ? & ? & ->) end. reflexivity.
  Qed.
  Lemma after_async l l1 y c : tail_of src l -> word "async" l l1 -> forall S l2, D S PropertyName l1 (VKey y c) l2 ->
    key_is y "get" \/ key_is y "set" -> c = false.
  Proof.
    intros T W S l2 H Y. destruct c; [|reflexivity]. pose proof (tail_word _ _ _ _ W T) as T1.
    assert (never_closed "get" src /\ never_closed "set" src) as [N1 N2].
    { inversion H; subst. destruct W as [[(_ & x & ->)|(-> & w & b & ->)] X].
      - match goal with H : reads _ l1 _ |- _ => destruct H as (_ & ? & ? & ->) end. destruct T as [u E]. apply (no_async_key _ _ _ neat _ _ E X). reflexivity.
      - match goal with H : reads _ _ _ |- _ => destruct H as (_ & ? & ? & H); discriminate H end. }
    destruct Y as [Y|Y]; [exact (not_bracketed _ _ _ _ _ _ N1 T1 H Y)|exact (not_bracketed _ _ _ _ _ _ N2 T1 H Y)].
  Qed.
  Lemma async_word l l1 : reads_as TIdent (str "async") l l1 -> word "async" l l1.
  Proof. intros (N & b & ->). split; [left; split; [exact N|eexists; reflexivity]|reflexivity]. Qed.
  Lemma prefix_async S l l1 : D S ClassPrefix l (VPrefix true false) l1 -> word "async" l l1.
  Proof. intros H. inversion H; subst. assumption. Qed.
  Lemma static_plain l S x c l' : s_strict S = true \/ never_closed "static" src -> tail_of src l -> D S PropertyName l (VKey x c) l' -> key_is x "static" -> c = false.
  Proof.
    intros [Z|Z] T H X; [|exact (not_bracketed _ _ _ _ _ _ Z T H X)]. inversion H; subst; try reflexivity. exfalso.
    assert (leaf (str "static") (VExpr e)) as L.
    { destruct X as [X|X]; destruct e; try discriminate X; [left|left; destruct l0|right; destruct l0]; try discriminate X; cbn [computed_key] in X; congruence. }
    match goal with H : D _ _ _ (VExpr e) _ |- _ => destruct (leaf_last _ _ _ _ _ _ _ _ _ H L) as (u & r & -> & E1 & _ & E2) end.
    match goal with H : reads _ l (u ++ r) |- _ => pose proof (tail_reads _ _ _ _ H T) as [z Q] end.
    assert (tail_of src r) as T1 by (exists (z ++ u); rewrite Q; apply app_assoc).
    apply tail_spelt in T1. destruct r as [|a r]; [discriminate E1|]. inversion T1 as [|? ? W _]; subst. unfold well_spelled in W.
    cbn [hd_text hd_tok] in E1, E2. destruct (E2 Z) as [K|[K|K]]; rewrite K in W; rewrite E1 in W.
    - exact (W KStatic eq_refl).
    - destruct W as (q & w & W & [-> | ->]); discriminate W.
    - discriminate W.
  Qed.
  Lemma named_empty S l l' : D S NamedImports l (VSpecifiers []) l' -> exists a b, l = a :: b :: l' /\ k_tok a = TPunct POpenBrace /\ k_tok b = TPunct PCloseBrace.
  Proof.
    intros H. inversion H; subst. match goal with H : D _ NamedImportList _ _ _ |- _ => inversion H; subst end.
    - repeat match goal with H : reads _ _ _ |- _ => destruct H as (_ & ? & ? & ->) end. eexists; eexists; split; [reflexivity|split; reflexivity].
    - match goal with H : ?a ++ [_] = [] |- _ => destruct a; discriminate H end.
  Qed.
  Lemma named_specs xs : forallb is_normal xs = true -> filter is_normal xs = xs /\ filter (fun i => negb (is_normal i)) xs = [].
  Proof.
    induction xs as [|x xs IH]; cbn [forallb filter]; [auto|]. intros H. apply andb_prop in H as [H1 H2]. rewrite H1. cbn [negb].
    destruct (IH H2) as [E1 E2]. rewrite E1, E2. auto.
  Qed.
  Ltac learn P := let T := type of P in lazymatch goal with _ : T |- _ => fail | _ => pose proof P end.
  Ltac chain :=
    repeat match goal with
    | H : D _ _ ?a _ ?b, T : tail_of src ?a |- _ => learn (tail_trans _ _ _ T (der_tail _ _ _ _ _ _ _ _ H))
    | H : reads _ ?a ?b, T : tail_of src ?a |- _ => learn (tail_reads _ _ _ _ H T)
    | H : reads_as _ _ ?a ?b, T : tail_of src ?a |- _ => learn (tail_reads_as _ _ _ _ _ H T)
    | H : comma ?a ?b, T : tail_of src ?a |- _ => learn (tail_comma _ _ _ H T)
    | H : semi ?a ?b, T : tail_of src ?a |- _ => learn (tail_semi _ _ _ H T)
    | H : word _ ?a ?b, T : tail_of src ?a |- _ => learn (tail_word _ _ _ _ H T)
    | H : anything _ ?a ?b, T : tail_of src ?a |- _ => learn (tail_anything _ _ _ _ H T)
    end.
  Ltac spell :=
    repeat match goal with
    | H : reads _ ?a ?b, T : tail_of src ?a |- _ => learn (F_reads _ _ _ H T)
    | H : reads_as _ _ ?a ?b |- _ => learn (F_reads_as _ _ _ _ H)
    | H : comma ?a ?b, T : tail_of src ?a |- _ => learn (F_comma _ _ H T)
    | H : semi ?a ?b, T : tail_of src ?a |- _ => learn (F_semi _ _ H T)
    | H : word _ ?a ?b, T : tail_of src ?a |- _ => learn (F_takes _ _ _ H T)
    | H : anything _ ?a ?b, T : tail_of src ?a |- _ => learn (F_takes _ _ _ H T)
    | H : motive _ _ ?a _ ?b, T : tail_of src ?a |- _ => let X := fresh "M" in pose proof (proj2 (H T)) as X; clear H; cbn [cond] in X
    end.
  Definition tolerated : Prop := tolerant = true.
  Ltac split_prem :=
    repeat match goal with
    | H : _ /\ _ |- _ => destruct H
    | H : exists _, _ |- _ => destruct H
    | H : _ \/ _ |- _ => destruct H
    | H : tolerant = true |- _ => change tolerated in H
    end; subst.
  Ltac tidy :=
    cbn [w_val w_expr w_left w_arrow w_literal w_template w_function w_method w_arg w_class w_property w_key w_value w_object_property
         w_pat w_array_part w_pat_part w_stmt w_case w_catch w_init w_loop_left w_var w_decl w_import w_export w_default w_named
         w_part w_opt w_name w_import_spec w_export_spec flat_map map bracketed star kind_text method] in *;
    rewrite ?flat_map_app, ?K_app, ?w_args in *; cbn [flat_map] in *;
    rewrite ?K_app, ?K_nil, ?K_open, ?K_close, ?K_semi, ?K_static, ?K_async, ?K_comma, ?app_nil_l, ?app_nil_r in *.
  Ltac finish :=
    repeat match goal with
    | E : F ?a = _ |- F ?a = _ => rewrite E; clear E
    | E : F ?a = _ |- context[F ?a] => rewrite E; clear E
    end;
    rewrite <- ?app_assoc, ?app_nil_l; try reflexivity.

  Lemma der_kept : forall S n l v l', D S n l v l' -> D S n l v l' -> motive S n l v l'.
  Proof.
    fix IH 6. intros S n l v l' H. destruct H.
    all: split_prem.
    all: repeat match goal with
         | H : D ?S0 ?n0 ?a ?w ?b |- _ =>
             lazymatch goal with M : motive S0 n0 a w b |- _ => fail | _ => pose proof (IH S0 n0 a w b H H) end
         end.
    all: clear IH.
    all: intros D0 T.
    all: split; [exact (tail_trans _ _ _ T (der_tail _ _ _ _ _ _ _ _ D0))|].
    all: cbn [cond]; intros C.
    all: repeat match goal with
         | H : D _ (ForRest _) _ (VStmt ?s) _ |- _ => is_var s; destruct (der_side _ _ _ _ _ _ _ _ H) as (? & ? & ? & ->)
         | H : In (?t, ?o) ?x |- _ => cbv [assign_ops bin_ops prefix_ops update_ops] in H; cbn [In] in H;
             repeat match goal with H : _ \/ _ |- _ => destruct H | H : False |- _ => destruct H | H : (_, _) = (_, _) |- _ => inversion H; clear H; subst end
         end.
    all: chain.
    all: repeat match goal with
         | H : reads (TKeyword KFor) ?a ?b, H' : reads (TKeyword KAwait) ?b _, T : tail_of src ?a |- _ => learn (for_await _ _ _ T H H')
         | H : D _ (Method _) _ (VMethod _) _ |- _ => learn (der_side _ _ _ _ _ _ _ _ H)
         | H : D _ GeneratorMethod _ (VMethod _) _ |- _ => learn (der_side _ _ _ _ _ _ _ _ H)
         | H : key_is ?y _ |- _ => learn (key_words _ _ H)
         | H : D _ ClassPrefix _ (VPrefix true false) _ |- _ => learn (prefix_async _ _ _ H)
         | H : reads_as TIdent (str "async") _ _ |- _ => learn (async_word _ _ H)
         end.
    all: try match goal with
         | T : tail_of src ?a, H : word "async" ?a ?b, H2 : D _ PropertyName ?b (VKey ?y ?c) _, H3 : key_is ?y _ |- _ =>
             is_var c; assert (c = false) as -> by (eapply (after_async _ _ _ _ T H _ _ H2); first [left; exact H3|right; exact H3])
         end.
    all: spell.
    all: repeat match goal with
         | M : (tl ?a = ?b -> hd_tok ?a = TIdent -> hd_tok ?b <> TPunct POpenBracket) -> _ |- _ =>
             let X := fresh "X" in
             assert (tl a = b -> hd_tok a = TIdent -> hd_tok b <> TPunct POpenBracket) as X by
               (intros X1 X2 X3; first
                 [congruence
                 |match goal with H : comma b _ |- _ => destruct H as (_ & ? & ? & ->); discriminate X3 end
                 |match goal with H : tolerated, T : tail_of src a |- _ =>
                    let u := fresh in let E := fresh in destruct T as [u E]; apply (no_tolerated _ _ _ neat H _ _ E); split; [exact X2|rewrite X1; exact X3] end]);
             specialize (M X); clear X
         end.
    all: repeat match goal with H : True -> _ |- _ => specialize (H I) | H : s_strict (with_strict true _) = true \/ _ -> _ |- _ => specialize (H (or_introl eq_refl)) | H : s_strict ?s = true \/ _ -> _, C : s_strict ?s = true \/ _ |- _ => specialize (H C) end.
    all: cbn [side] in *.
    all: tidy.
    all: repeat match goal with E : K _ = [] |- _ => rewrite E in *; clear E | E : star _ = _ |- _ => rewrite E in *; clear E | E : w_key _ = [_] |- _ => rewrite E in *; clear E end.
    all: tidy.
    all: try solve [finish].
    all: try match goal with
         | H : reads (TPunct PFatArrow) ?a _, T : tail_of src ?a |- _ => pose proof (has_arrow _ _ T H)
         | H : hd_tok ?a = TPunct PFatArrow, T : tail_of src ?a |- _ => pose proof (head_arrow _ T H)
         end.
    all: try match goal with
         | A : some src (fun x => k_tok x = TPunct PFatArrow), H : hd_text ?a = str "async", T : tail_of src ?a |- _ =>
             exfalso; exact (no_async_arrow _ _ _ neat A (async_head _ T H))
         | A : some src (fun x => k_tok x = TPunct PFatArrow), H : D _ _ ?a (VExpr (EArrowParamPlaceHolder _ _)) _, T : tail_of src ?a |- _ =>
             rewrite (calm_params _ (proj2 (arrow_quiet _ _ _ _ _ A H T))); solve [finish]
         end.
    - (* a class with a label *)
      match goal with Z : tolerated, H1 : reads (TPunct PColon) ?a _, H2 : reads (TKeyword KClass) ?b _, T1 : tail_of src ?a |- _ =>
        assert (never_closed "static" src) as N by (destruct H2 as (_ & ? & ? & ->), H1 as (_ & ? & ? & ->), T1 as [? Q]; apply (no_static_key _ _ _ neat Z _ _ Q); split; reflexivity) end.
      specialize (M (or_intror N)). finish.
    - (* regular expressions *)
      destruct H0 as (c0 & _ & -> & _). destruct H as (_ & b & ->). apply tail_spelt in T. inversion T as [|? ? X _]; subst.
      destruct X as [r X]. cbn [k_text] in X. injection X as -> _. apply F_cons.
    - exfalso. match goal with H : reads_as TIdent _ _ _ |- _ => destruct H as (_ & ? & ->) end. apply C; [reflexivity|reflexivity|assumption].
    - rewrite w_computed. finish.
    - rewrite map_app. cbn [map]. rewrite weave_snoc; [rewrite !K_app; finish|].
      rewrite map_length. exact (der_side _ _ _ _ _ _ _ _ H).
    - destruct H0 as [-> _]. finish.
    - exfalso. destruct T as [u E]. destruct H as (_ & w & nl & ->). eapply (no_nameless _ _ _ neat); [exact E|reflexivity|exact (proj2 H0)].
    - exfalso. destruct T as [u E]. destruct H as (_ & w & nl & ->). eapply (no_nameless _ _ _ neat); [exact E|reflexivity|exact (proj2 H0)].
    - (* static *)
      match goal with H : D _ PropertyName _ (VKey x c) _, H2 : key_is x "static", T1 : tail_of src l1 |- _ => pose proof (static_plain _ _ _ _ _ C T1 H H2) as -> end.
      tidy. finish.
    - rewrite (spread_lost l2 l3) in *; [|assumption|assumption]. tidy. finish.
    - (* imports *)
      assert (after_import l1 l2) as A.
      { split; [|].
        - match goal with H : word "from" _ _ |- _ => destruct H as [_ X]; exact X end.
        - match goal with H : reads (TKeyword KImport) _ _ |- _ => destruct H as (_ & ? & ? & ->) end. eexists. split; [|exact T]. reflexivity. }
      specialize (M0 A). destruct xs as [|x xs].
      + exfalso. match goal with H : D _ Imports _ _ _ |- _ => inversion H; subst end.
        match goal with H : D _ NamedImports _ _ _ |- _ => destruct (named_empty _ _ _ H) as (a & b & -> & A1 & A2) end.
        destruct A as (A & x & A3 & [u E]). apply (no_empty_import _ _ _ neat _ _ E); [left; exact A3|split; assumption|exact A].
      + rewrite !K_app. tidy. finish.
    - (* named *)
      destruct xs as [|x xs].
      + exfalso. match goal with H : D _ NamedImports _ _ _ |- _ => destruct (named_empty _ _ _ H) as (a & b & -> & A1 & A2) end.
        destruct C as (A & x & A3 & [u E]). apply (no_empty_import _ _ _ neat _ _ E); [left; exact A3|split; assumption|exact A].
      + match goal with H : D _ NamedImports _ _ _ |- _ => destruct (named_specs _ (der_side _ _ _ _ _ _ _ _ H)) as [E1 E2] end.
        unfold w_import_specs. rewrite E1, E2. tidy. finish.
    - match goal with H : D _ Namespace _ _ _ |- _ => pose proof (der_side _ _ _ _ _ _ _ _ H) as E end. cbn [side] in E.
      unfold w_import_specs. cbn [filter]. rewrite E. cbn [negb]. tidy. finish.
    - match goal with H : D _ Namespace _ _ _ |- _ => pose proof (der_side _ _ _ _ _ _ _ _ H) as E end. cbn [side] in E.
      unfold w_import_specs. cbn [filter is_normal]. rewrite E. cbn [negb]. tidy. finish.
    - destruct xs as [|x xs].
      + exfalso. match goal with H : D _ NamedImports _ _ _ |- _ => destruct (named_empty _ _ _ H) as (a & b & -> & A1 & A2) end.
        destruct C as (A & _). match goal with H : comma _ _ |- _ => destruct H as (_ & ? & ? & ->) end.
        match goal with T : tail_of src (_ :: a :: b :: _) |- _ => destruct T as [u E] end.
        apply (no_empty_import _ _ _ neat _ _ E); [right; reflexivity|split; assumption|exact A].
      + match goal with H : D _ NamedImports _ _ _ |- _ => destruct (named_specs _ (der_side _ _ _ _ _ _ _ _ H)) as [E1 E2] end.
        unfold w_import_specs. cbn [filter is_normal negb]. cbn [filter] in E1, E2. rewrite E1, E2. tidy. finish.
    - assert (w = str "from") as ->.
      { match goal with H : anything _ _ _ |- _ => destruct H as [_ <-] end.
        match goal with H : reads (TKeyword KExport) _ _, H' : reads (TPunct PAsterisk) _ _ |- _ => destruct H as (_ & ? & ? & ->); destruct H' as (_ & ? & ? & ->) end.
        destruct T as [u E]. apply (export_from _ _ _ neat _ _ E). split; reflexivity. }
      finish.
  Qed.
End Kept.
