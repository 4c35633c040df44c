(** The tokens a spelling begins with, and the tokens that end one. *)
From Verif Require Export Forward.
Local Open Scope nat_scope.

Definition update_head (t : token) : bool :=
  match t with TPunct PIncrement | TPunct PDecrement => true | _ => false end.
Definition unary_head (t : token) : bool :=
  match t with
  | TPunct PMinus | TPunct PPlus | TPunct PNot | TPunct PBitwiseNot
  | TKeyword KTypeOf | TKeyword KVoid | TKeyword KDelete | TKeyword KAwait => true
  | _ => false
  end.
Definition yield_head (t : token) : bool := match t with TKeyword KYield => true | _ => false end.
Definition super_head (t : token) : bool := match t with TKeyword KSuper | TKeyword KImport => true | _ => false end.
Definition expr_head (n : nat) (t : token) : bool :=
  primary_head t || ((n <=? 17) && super_head t) || ((n <=? 16) && update_head t) || ((n <=? 15) && unary_head t) || ((n <=? 1) && yield_head t).
Definition pat_head (t : token) : bool :=
  match t with TIdent | TPunct POpenBracket | TPunct POpenBrace => true | _ => false end.
Definition stmt_head (t : token) : bool :=
  (expr_head 0 t && negb (match t with TKeyword KFunction | TKeyword KClass => true | _ => false end))
  || match t with
     | TPunct PSemiColon | TKeyword KBreak | TKeyword KContinue | TKeyword KDebugger | TKeyword KDo | TKeyword KFor
     | TKeyword KIf | TKeyword KReturn | TKeyword KSwitch | TKeyword KThrow
     | TKeyword KTry | TKeyword KVar | TKeyword KWhile | TKeyword KWith => true
     | _ => false
     end.
Definition head_of (c : nt) (t : token) : bool :=
  let is p := is_punct p t in
  match c with
  | NX n => expr_head n t
  | NCommas | NQuasis => expr_head 0 t
  | NArg => expr_head 0 t || is PSpread
  | NArgs => expr_head 0 t || is PSpread || is PCloseParen
  | NElems => expr_head 0 t || is PSpread || is PComma || is PCloseBracket
  | NKey => qualified_prop_key t
  | NProp => qualified_prop_key t || is PSpread || is PAsterisk
  | NProps => qualified_prop_key t || is PSpread || is PAsterisk || is PCloseBrace
  | NParam => pat_head t || is PSpread
  | NParams => pat_head t || is PSpread || is PCloseParen
  | NPat | NPatDefault | NVar _ _ | NVars _ _ => pat_head t
  | NPatElems => pat_head t || is PComma || is PCloseBracket
  | NPatProp => qualified_prop_key t || is PSpread
  | NPatProps => qualified_prop_key t || is PSpread || is PCloseBrace
  | NBody | NBlock => is POpenBrace
  | NDirectives | NItems | NCases | NInit | NOpt => true
  | NItem => stmt_head t || is_keyword KLet t || is_keyword KConst t || is_keyword KFunction t || is_keyword KClass t
  | NStmt => stmt_head t
  | NCase => is_keyword KCase t || is_keyword KDefault t
  | NFunction _ _ => is_ident t || is PAsterisk || is POpenParen
  | NTarget _ => is POpenBracket || is POpenBrace
  | NTargetBase _ | NTargetElem _ => expr_head 17 t
  | NTargetElems _ => expr_head 17 t || is PSpread || is PComma || is PCloseBracket
  | NTargetProp _ => qualified_prop_key t
  | NTargetProps _ => qualified_prop_key t || is PSpread || is PCloseBrace
  | NArrowArg => pat_head t
  | NArrow | NArrowAsync => pat_head t || is PSpread || is PCloseParen
  | NArrowHead _ => is_ident t || is POpenParen
  | NLeft => is_keyword KVar t || is_keyword KLet t || is_keyword KConst t || expr_head 17 t
  | NLoop => is PCloseParen
  | NHandler => is_keyword KCatch t
  | NClass _ => is_ident t || is POpenBrace
  | NHeritage => true
  | NMember => qualified_prop_key t || is PAsterisk
  | NMembers => qualified_prop_key t || is PAsterisk || is PCloseBrace || is PSemiColon
  | NModule => true
  | NModItem => stmt_head t || is_keyword KLet t || is_keyword KConst t || is_keyword KFunction t || is_keyword KClass t
      || is_keyword KImport t || is_keyword KExport t
  | NImports => is_ident t || is POpenBrace || is PAsterisk
  | NImportNames | NExportNames _ => qualified_prop_key t || is PCloseBrace
  | NImportName | NExportName _ => qualified_prop_key t
  end.

Lemma expr_head_up n m t : m <= n -> expr_head n t = true -> expr_head m t = true.
Proof.
  unfold expr_head. intros H. destruct (primary_head t); [reflexivity|]. cbn [orb].
  destruct (n <=? 17) eqn:D, (n <=? 16) eqn:A, (n <=? 15) eqn:B, (n <=? 1) eqn:C, (m <=? 17) eqn:D', (m <=? 16) eqn:A', (m <=? 15) eqn:B', (m <=? 1) eqn:C';
    try apply Nat.leb_le in D; try apply Nat.leb_gt in D; try apply Nat.leb_le in D'; try apply Nat.leb_gt in D';
    try apply Nat.leb_le in A; try apply Nat.leb_gt in A; try apply Nat.leb_le in B; try apply Nat.leb_gt in B;
    try apply Nat.leb_le in C; try apply Nat.leb_gt in C; try apply Nat.leb_le in A'; try apply Nat.leb_gt in A';
    try apply Nat.leb_le in B'; try apply Nat.leb_gt in B'; try apply Nat.leb_le in C'; try apply Nat.leb_gt in C';
    try (exfalso; lia); cbn [andb]; destruct (super_head t), (update_head t), (unary_head t), (yield_head t); cbn; auto.
Qed.

Lemma name_qualified t : name_token t -> qualified_prop_key t = true.
Proof. intros [->|[->|[(b & ->)|(k & ->)]]]; reflexivity. Qed.

Lemma function_mark_hd l l' : function_mark true l l' -> hd_tok l = TIdent.
Proof. intros (l1 & R & _). apply (reads_as_hd _ _ _ _ R). Qed.
Ltac hd_known :=
  repeat match goal with
  | H : reads ?t ?l _ |- context [hd_tok ?l] => rewrite (reads_hd _ _ _ H)
  | H : comma ?l _ |- context [hd_tok ?l] => rewrite (reads_hd _ _ _ H)
  | H : reads_as ?t ?w ?l _ |- context [hd_tok ?l] => rewrite (proj1 (reads_as_hd _ _ _ _ H))
  | H : function_mark true ?l _ |- context [hd_tok ?l] => rewrite (function_mark_hd _ _ H)
  end.

Lemma std_head odd S c l v l' : std odd S c l v l' -> head_of c (hd_tok l) = true.
Proof.
  induction 1; cbn [head_of] in *; hd_known; try reflexivity;
    try (eapply expr_head_up; [|eassumption]; lia);
    try (apply name_qualified; assumption);
    try match goal with H : expr_head _ _ = true |- _ => eapply (expr_head_up _ 0) in H; [rewrite H|lia]; reflexivity end;
    try match goal with H : _ = true |- _ => rewrite H; cbn; rewrite ?orb_true_r; reflexivity end;
    try assumption;
    try match goal with H : is_punct POpenBracket (hd_tok ?l) || is_punct POpenBrace (hd_tok ?l) = true |- _ =>
      revert H; destruct (hd_tok l) as [| | | | | | |[]|[]|[]|]; try discriminate; reflexivity end.
  - destruct H as [E|[E|[]]]; inversion E; reflexivity.
  - cbn in H. repeat destruct H as [E|H]; [..|destruct H]; inversion E; reflexivity.
  - destruct (hd_tok l) as [| | | | | | |[]|[]|[]|]; try discriminate; reflexivity.
  - destruct (hd_tok l) as [| | | | | | |[]|[]|[]|]; try discriminate; reflexivity.
  - destruct gen; [hd_known; reflexivity|subst; hd_known; reflexivity].
  - destruct gen; [hd_known; reflexivity|subst; hd_known; reflexivity].
  - match goal with M : static_mark st _ _ |- _ => destruct st; [destruct M as (t & Hn & M); hd_known; rewrite (name_qualified t Hn); reflexivity|cbn [static_mark] in M; subst; hd_known; rewrite IHstd1; reflexivity] end.
  - match goal with M : static_mark st _ _ |- _ => destruct st; [destruct M as (t & Hn & M); hd_known; rewrite (name_qualified t Hn); reflexivity|cbn [static_mark] in M; subst; hd_known; reflexivity] end.
  - match goal with M : static_mark st _ _ |- _ => destruct st; [destruct M as (t & Hn & M); hd_known; rewrite (name_qualified t Hn); reflexivity|cbn [static_mark] in M; subst; hd_known; reflexivity] end.
  - match goal with M : static_mark st _ _ |- _ => destruct st; [destruct M as (t & Hn & M); hd_known; rewrite (name_qualified t Hn); reflexivity|cbn [static_mark] in M; subst; hd_known; reflexivity] end.
  - unfold stmt_head. rewrite IHstd. destruct (hd_tok l) as [| | | | | | |[]|[]|[]|]; try discriminate; reflexivity.
  - destruct (hd_tok l) as [| | | | | | |[]|[]|[]|]; try discriminate; reflexivity.
Qed.

(** Expressions that do not begin with the word [async]. *)
Definition calm_nt (c : nt) : bool :=
  match c with NX n => 17 <=? n | NTarget _ | NTargetBase _ | NTargetElem _ | NArrowArg | NArrowHead false => true | _ => false end.
Lemma std_calm odd S c l v l' : std odd S c l v l' -> calm_nt c = true -> calm l.
Proof.
  induction 1; cbn [calm_nt] in *; intros C; try discriminate; auto;
    try (apply Nat.leb_le in C; exfalso; lia);
    first [eapply calm_reads; [eassumption|discriminate]
          |eapply calm_reads_as; [eassumption|first [left; discriminate|right; assumption]]].
Qed.
(** Where [import] begins an expression or a statement, a parenthesis follows. *)
Definition call_import (l : list tk) : Prop := hd_tok l = TKeyword KImport -> hd_tok (tl l) = TPunct POpenParen.
Definition import_nt (c : nt) : bool :=
  match c with NX _ | NCommas | NStmt | NItem | NTarget _ | NArrowHead _ | NBlock => true | _ => false end.
Lemma std_import_start odd S c l v l' : std odd S c l v l' -> import_nt c = true -> call_import l.
Proof.
  induction 1; cbn [import_nt] in *; intros C; try discriminate; auto; intros E; try (revert E; hd_known; discriminate).
  - replace (tl l) with l1 by (match goal with R : reads_as _ _ l l1 |- _ => destruct R as (_ & ? & ->); reflexivity end). hd_known. reflexivity.
  - exfalso. revert E. hd_known. match goal with H : In _ update_ops |- _ => cbn in H; repeat destruct H as [X|H]; [..|destruct H]; inversion X; discriminate end.
  - exfalso. revert E. hd_known. match goal with H : In _ prefix_ops |- _ => cbn in H; repeat destruct H as [X|H]; [..|destruct H]; inversion X; discriminate end.
Qed.
Lemma reads_length t l l' : reads t l l' -> length l = Datatypes.S (length l').
Proof. intros (_ & w & b & ->). reflexivity. Qed.
Lemma stops_length l l' : stops l l' -> length l' <= length l.
Proof. intros [R|[-> _]]; [rewrite (reads_length _ _ _ R)|]; lia. Qed.
Definition maybe_empty (c : nt) : bool :=
  match c with NDirectives | NItems | NCases | NInit | NOpt | NHeritage | NModule => true | _ => false end.
Ltac lengths :=
  repeat match goal with
  | H : reads_as _ _ _ _ |- _ => apply reads_as_reads in H
  | H : comma _ _ |- _ => unfold comma in H
  | H : function_mark ?a _ _ |- _ =>
      unfold function_mark in H; first [destruct H as (? & ? & _ & ?)|destruct a; [destruct H as (? & ? & _ & ?)|]]
  | H : static_mark ?a _ _ |- _ => unfold static_mark in H; destruct a; [destruct H as (? & _ & ?)|subst]
  | H : (if ?b then _ else _) |- _ => destruct b; [|subst]
  | H : reads _ _ _ |- _ => apply reads_length in H
  | H : ends _ _ |- _ => destruct H as [H _]
  | H : stops _ _ |- _ => apply stops_length in H
  end.
Lemma std_length odd S c l v l' : std odd S c l v l' -> length l' <= length l /\ (maybe_empty c = false -> length l' < length l).
Proof.
  induction 1; cbn [maybe_empty] in *;
    repeat match goal with
    | H : _ /\ (false = false -> _) |- _ => destruct H as [_ H]; specialize (H eq_refl)
    | H : _ /\ (true = false -> _) |- _ => destruct H as [H _]
    end;
    lengths; try (split; [|intros _]; lia);
    try (split; [lia|discriminate]).
  match goal with H : _ \/ _ |- _ => destruct H as [H|[-> _]]; lengths end; split; lia.
Qed.

(** ** Ends *)
Lemma follow_up i n m l : n <= m -> follow i n l = true -> follow i m l = true.
Proof.
  unfold follow. intros H. destruct (goes_on i l); [|reflexivity]. intros E. apply Nat.ltb_lt in E.
  apply Nat.ltb_lt. lia.
Qed.
Lemma goes_on_in i l : goes_on i l = goes_on true l \/ goes_on i l = None.
Proof.
  unfold goes_on. destruct i; [auto|]. destruct (hd_tok l) as [| | | | | | |k|p|t|]; auto. destruct k; auto.
Qed.
Lemma follow_in i n l : follow true n l = true -> follow i n l = true.
Proof. unfold follow. destruct (goes_on_in i l) as [->| ->]; auto. Qed.
Lemma follow_high i l n : 10 <= n -> follow i n l = true -> follow true n l = true.
Proof.
  unfold follow. intros Hn. destruct i; [auto|]. unfold goes_on.
  destruct (hd_tok l) as [| | | | | | |k|p|t|]; auto. destruct k; auto. intros _. apply Nat.ltb_lt. lia.
Qed.
Lemma follow_token i n l (t : token) m : hd_tok l = t ->
  (forall l2, hd_tok l2 = t -> goes_on i l2 = m) -> match m with None => true | Some k => k <? n end = true ->
  follow i n l = true.
Proof. intros H E F. unfold follow. rewrite (E _ H). exact F. Qed.

Ltac by_follow F l :=
  revert F; unfold follow, goes_on; destruct (hd_tok l) as [| | | | | | |[]|[]|[]|];
    try destruct (newline l); try (intros; reflexivity); cbn; intros; try discriminate.
Lemma stop_17 i l : follow i 17 l = true ->
  is_punct PPeriod (hd_tok l) = false /\ is_punct POpenParen (hd_tok l) = false /\ is_punct POpenBracket (hd_tok l) = false
  /\ is_template_head (hd_tok l) = false.
Proof. intros F. by_follow F l; repeat split; reflexivity. Qed.
Lemma stop_16 i l : follow i 16 l = true -> newline l = false ->
  is_punct PIncrement (hd_tok l) = false /\ is_punct PDecrement (hd_tok l) = false.
Proof.
  unfold follow, goes_on. intros F N. rewrite N in F.
  destruct (hd_tok l) as [| | | | | | |[]|[]|[]|]; try discriminate; split; reflexivity.
Qed.
Lemma stop_14 i l : follow i 14 l = true -> is_punct PExponent (hd_tok l) = false.
Proof. intros F. by_follow F l; reflexivity. Qed.
Lemma stop_3 i l : follow i 3 l = true -> bin_precedence i (hd_tok l) = 0.
Proof. intros F. by_follow F l; try reflexivity; destruct i; try discriminate; reflexivity. Qed.
Lemma stop_2 i l : follow i 2 l = true -> is_punct PQuestionMark (hd_tok l) = false.
Proof. intros F. by_follow F l; reflexivity. Qed.
Lemma stop_1 i l : follow i 1 l = true -> is_punct PFatArrow (hd_tok l) = false /\ assign_tok (hd_tok l) = false.
Proof. intros F. by_follow F l; split; reflexivity. Qed.
Lemma stop_0 i l : follow i 0 l = true -> is_punct PComma (hd_tok l) = false.
Proof. intros F. by_follow F l; reflexivity. Qed.
