(** What the printer writes is a spelling of the tree: by induction on the depth. *)
From Verif Require Export Heads Lines.
From Verif Require Export Printer.
Local Open Scope nat_scope.
Local Open Scope list_scope.

(** ** Sources that fit *)
Definition Sp (o : printed) (l : list tk) : Prop := exists p, o = Some p /\ Forall2 fits p l.
Lemma Sp_cons a r l : Sp (cat (a :: r)) l -> exists l1 l2, l = l1 ++ l2 /\ Sp a l1 /\ Sp (cat r) l2.
Proof.
  intros (p & E & F). cbn [cat] in E. destruct a as [p1|]; [|discriminate]. destruct (cat r) as [p2|] eqn:R; [|discriminate].
  injection E as <-. apply Forall2_app_inv_l in F as (l1 & l2 & F1 & F2 & ->).
  exists l1, l2. split; [reflexivity|]. split; [exists p1; auto|exists p2; auto].
Qed.
Lemma Sp_nil l : Sp (Some []) l -> l = [].
Proof. intros (p & E & F). injection E as <-. inversion F. reflexivity. Qed.
Lemma Sp_none l : Sp None l -> False.
Proof. intros (p & E & _). discriminate. Qed.
Lemma Sp_tok t l : Sp (tok t) l -> exists w b, l = [mkTk t w b].
Proof.
  intros (p & E & F). injection E as <-. inversion F as [|? x ? ? H1 H2]; subst. inversion H2; subst. destruct x as [t0 w b], H1 as [H1 _].
  cbn in H1. subst. eauto.
Qed.
Lemma Sp_as t w l : Sp (spelled_as t w) l -> exists b, l = [mkTk t w b].
Proof.
  intros (p & E & F). injection E as <-. inversion F as [|? x ? ? H1 H2]; subst. inversion H2; subst. destruct x as [t0 w0 b], H1 as [[H1 H3] _].
  cbn in H1, H3. subst. eauto.
Qed.
Lemma Sp_named w l : Sp (named w) l -> exists t b, name_token t /\ l = [mkTk t w b].
Proof.
  intros (p & E & F). injection E as <-. inversion F as [|? x ? ? H1 H2]; subst. inversion H2; subst. destruct x as [t0 w0 b], H1 as [[H1 H3] _].
  cbn in H1, H3. subst. eauto.
Qed.
Lemma Sp_if b l : Sp (only_if b) l -> l = [] /\ b = true.
Proof. intros (p & E & F). destruct b; [|discriminate]. injection E as <-. inversion F. auto. Qed.
Lemma Sp_tight o l : Sp (tight o) l -> Sp o l /\ forall k, newline (l ++ k) = false.
Proof.
  intros (p & E & F). destruct o as [[|[x nl] r]|]; try discriminate.
  assert (X : p = mkPtk x SameLine :: r /\ nl <> NewLine) by (destruct nl; try discriminate; injection E as <-; split; congruence). clear E. destruct X as [-> N].
  inversion F as [|? y ? r' H1 H2]; subst. split.
  - exists (mkPtk x nl :: r). split; [reflexivity|]. constructor; [|exact H2]. destruct H1 as [H1 H3]. cbn in H1, H3. split; [exact H1|]. destruct nl; [exact I|exact H3|congruence].
  - intros k. apply H1.
Qed.
Lemma Sp_unless f p q l : Sp (unless f p q) l -> Sp p l /\ (forall k, f (hd_tok (l ++ k)) = false) \/ Sp q l.
Proof.
  intros (r & E & F). destruct p as [p|]; [|discriminate]. cbn in E. destruct (head_is f p) eqn:Hh; [right; exists r; auto|].
  left. injection E as <-. split; [exists p; auto|]. intros k. destruct p as [|x p]; [discriminate|]. inversion F as [|? y ? r' H1 H2]; subst.
  cbn. destruct x as [[t|t w|w] b], H1 as [H1 _]; cbn in H1, Hh; [rewrite H1|destruct H1 as [-> _]|discriminate]; exact Hh.
Qed.
Lemma Sp_unless_async p q l : Sp (unless_async p q) l -> Sp p l /\ (forall k, calm (l ++ k)) \/ Sp q l.
Proof.
  intros (r & E & F). destruct p as [[|x p]|]; cbn [unless_async] in E; [right; exists r; auto| |discriminate].
  destruct (async_shape (p_shape x)) eqn:X; [right; exists r; auto|]. left. injection E as <-. split; [eexists; eauto|].
  intros k. inversion F as [|? y ? r' H1 H2]; subst. cbn [app]. intros Y Z. cbn [hd_tok hd_text] in Y, Z.
  destruct x as [[t|t w|w] b], H1 as [H1 _]; cbn [p_shape] in *.
  - rewrite <- H1, Y in X. discriminate.
  - destruct H1 as [H1 H3]. rewrite <- H1, Y, <- H3, Z in X. discriminate.
  - destruct H1 as [H1 H3]. rewrite <- H3, Z in X. discriminate.
Qed.
Lemma Sp_apart f o l : Sp (apart (unless_first f o)) l -> Sp o l /\ (l = [] \/ forall k, newline (l ++ k) = true /\ f (hd_tok (l ++ k)) = false).
Proof.
  intros H. destruct o as [[|x r]|]; [split; [exact H|left; apply Sp_nil; exact H]| |destruct (Sp_none _ H)].
  unfold unless_first in H. assert (X : exists l1, Sp (unless f (Some (x :: r)) None) l1 /\ l1 = l /\ exists y l2, l = y :: l2 /\ k_nl y = true).
  { destruct H as (p & E & F). unfold unless in *. destruct (head_is f (x :: r)); [discriminate|]. destruct x as [x nl].
    assert (X : p = mkPtk x NewLine :: r /\ nl <> SameLine) by (destruct nl; try discriminate; injection E as <-; split; congruence). clear E. destruct X as [-> N].
    inversion F as [|? y ? r' H1 H2]; subst. exists (y :: r'). split; [|split; [reflexivity|exists y, r'; split; [reflexivity|apply H1]]].
    exists (mkPtk x nl :: r). split; [reflexivity|]. constructor; [|exact H2]. destruct H1 as [H1 H3]. cbn in H1, H3. split; [exact H1|]. destruct nl; [exact I|congruence|exact H3]. }
  destruct X as (l1 & X & -> & y & l2 & -> & Ny). apply Sp_unless in X as [[X1 X2]|X]; [|destruct (Sp_none _ X)].
  split; [exact X1|]. right. intros k. split; [exact Ny|apply X2].
Qed.

Lemma app_ne {A} (a b : list A) : b <> [] -> a ++ b <> [].
Proof. intros H E. apply app_eq_nil in E. tauto. Qed.
Lemma text_neqb a b : text_eqb a b = false -> a <> b.
Proof. intros H ->. assert (text_eqb b b = true) by (apply text_eqb_eq; reflexivity). congruence. Qed.
Lemma bindable_ok S w : bindable S w = true -> binding_name S w.
Proof.
  intros H. apply andb_prop in H as [H1 H2]. apply negb_true_iff in H1. split; [apply text_neqb; exact H1|].
  intros V. rewrite V in H2. cbn [negb orb] in H2. apply andb_prop in H2 as [H2 H3]. apply negb_true_iff in H2, H3.
  split; apply text_neqb; assumption.
Qed.
Lemma assignable_ok S e : assignable S e = true -> strict_target S e.
Proof.
  unfold assignable, strict_target. intros H V w -> X. rewrite V in H. cbn [negb orb] in H. apply negb_true_iff in H.
  assert (existsb (text_eqb w) reserved_words = true); [|congruence]. apply existsb_exists. exists w. split; [exact X|apply text_eqb_eq; reflexivity].
Qed.
Lemma target_ok S e : target S e = true -> is_target e = true /\ strict_target S e.
Proof. intros H. apply andb_prop in H as [H1 H2]. auto using assignable_ok. Qed.
Lemma key_named_only k a b : a <> b -> key_named k a = true -> key_named k b = false.
Proof.
  intros N. destruct k as [[]|[]|[]]; try discriminate; cbn [key_named]; intros H; apply text_eqb_eq in H; subst;
    (destruct (text_eqb a b) eqn:E; [apply text_eqb_eq in E; contradiction|reflexivity]).
Qed.
Lemma not_await_ok e : not_await e = true -> e <> EIdent (str "await").
Proof. intros H ->. discriminate H. Qed.
Lemma not_await_name w : not_await (EIdent w) = true -> w <> str "await".
Proof. intros H ->. discriminate H. Qed.
Lemma free_ok w : free w = true -> w <> str "async".
Proof. intros H. apply negb_true_iff in H. apply text_neqb. exact H. Qed.
Lemma key_calm odd S k c l l' : std odd S NKey l (k, c) l' -> free_key k c = true -> calm l.
Proof.
  assert (X : forall C L v L', std odd S C L v L' -> match C return ty C -> Prop with
    | NKey => fun x => free_key (fst x) (snd x) = true -> calm L | _ => fun _ => True end v).
  { intros C L v L' H. destruct H; try exact I; cbn [fst snd]; intros F.
    all: try solve [eapply calm_reads_as; [eassumption|left; discriminate]].
    all: try solve [eapply calm_reads; [eassumption|discriminate]].
    eapply calm_reads_as; [eassumption|]. right. apply free_ok. exact F. }
  intros H. exact (X _ _ _ _ H).
Qed.
Lemma function_mark_ok a l l' : Sp (mark a) l -> l' <> [] -> function_mark a (l ++ l') l'.
Proof.
  intros H Hl. destruct a; cbn [mark function_mark] in *.
  - apply Sp_cons in H as (l1 & l2 & -> & H1 & H). apply Sp_as in H1 as (b & ->). apply Sp_cons in H as (l3 & l4 & -> & H2 & H).
    apply Sp_nil in H as ->. apply Sp_tight in H2 as [H2 N]. apply Sp_tok in H2 as (w & b' & ->). rewrite app_nil_r. cbn [app].
    eexists. split; [split; [|eexists; reflexivity]; discriminate|]. split; [apply (N l')|]. split; [exact Hl|]. eauto.
  - apply Sp_tok in H as (w & b & ->). split; [exact Hl|]. cbn [app]. eauto.
Qed.
Lemma mark_ok k c l : Sp (member_mark k c) l -> exists st, member_name st c k /\ forall l', l' <> [] -> static_mark st (l ++ l') l'.
Proof.
  unfold member_mark, member_name. destruct (negb c && key_named k (str "constructor")) eqn:E; intros H.
  - apply Sp_named in H as (t & b & N & ->). apply andb_prop in E as [_ E]. exists true. split; [|intros l' Hl; exists t; split; [exact N|split; [exact Hl|exists b; reflexivity]]].
    intros _. apply (key_named_only k (str "constructor")); [discriminate|exact E].
  - apply Sp_nil in H as ->. exists false. split; [|reflexivity]. intros ->. exact E.
Qed.

Lemma marked_calm st l l0 : static_mark st l l0 -> calm l0 -> calm l.
Proof. destruct st; intros H C; [destruct H as (t & _ & R); eapply calm_reads_as; [exact R|right; discriminate]|cbn in H; subst; exact C]. Qed.

(** ** Tokens with parts *)
Lemma after_prefix_ok p : forall w e, after_prefix p w = Some e -> w = p ++ e.
Proof.
  induction p as [|a p IH]; intros w e H; cbn in H; [injection H as ->; reflexivity|].
  destruct w as [|b w]; [discriminate|]. destruct (N.eqb_spec a b); [|discriminate]. subst. cbn. f_equal. auto.
Qed.
Lemma Sp_quasi k q l : Sp (quasi k q) l -> exists w b, l = [mkTk (TTemplate k) w b] /\ quasi_of k w q.
Proof.
  unfold quasi. destruct (q_raw q) as [|c r] eqn:R; [intros H; destruct (Sp_none _ H)|].
  destruct (after_prefix (q_cooked q) r) as [e|] eqn:P; [|intros H; destruct (Sp_none _ H)].
  destruct (_ && _ && _) eqn:C; [|intros H; destruct (Sp_none _ H)]. intros H. apply Sp_as in H as (b & ->).
  apply andb_prop in C as [C C3]. apply andb_prop in C as [C1 C2]. apply Nat.eqb_eq in C1, C2. apply Bool.eqb_prop in C3.
  apply after_prefix_ok in P. exists (c :: r), b. split; [reflexivity|]. split; [auto|]. exists c, e. split; [congruence|]. split; [exact C1|].
  destruct k; auto.
Qed.
Lemma Sp_regex p f l : Sp (regex p f) l -> exists w b, l = [mkTk TRegEx w b] /\ regex_of w p f.
Proof.
  unfold regex. intros H. apply Sp_cons in H as (l1 & l2 & -> & H1 & H2). apply Sp_if in H1 as [-> N].
  apply Sp_cons in H2 as (l3 & l4 & -> & H3 & H4). apply Sp_as in H3 as (b & ->). apply Sp_nil in H4 as ->.
  eexists _, b. split; [reflexivity|]. exists 47%N. split; [reflexivity|]. split; [reflexivity|].
  intros X. apply negb_true_iff in N. assert (existsb (N.eqb 47) f = true) by (apply existsb_exists; exists 47%N; auto). congruence.
Qed.
Lemma is_quote_ok c : is_quote c = true <-> quote_char c.
Proof. unfold is_quote, quote_char. rewrite orb_true_iff, !N.eqb_eq. tauto. Qed.
Lemma strip_quotes_ok w : exists a, w = a ++ strip_quotes w /\ Forall quote_char a /\ forall c r, strip_quotes w = c :: r -> ~ quote_char c.
Proof.
  induction w as [|c w (a & E & F & H)]; [exists []; repeat split; [constructor|discriminate]|].
  assert (D : strip_quotes (c :: w) = if is_quote c then strip_quotes w else c :: w) by reflexivity. rewrite D. destruct (is_quote c) eqn:Q.
  - exists (c :: a). split; [rewrite <- app_comm_cons, <- E; reflexivity|]. split; [constructor; [apply is_quote_ok; exact Q|exact F]|exact H].
  - exists []. split; [reflexivity|]. split; [constructor|]. intros d r X. injection X as <- _. rewrite <- is_quote_ok. congruence.
Qed.
Lemma unquote_ok w : directive_of w (unquote w).
Proof.
  unfold unquote. destruct (strip_quotes_ok w) as (a & E & F & H). destruct (strip_quotes_ok (rev (strip_quotes w))) as (b & E' & F' & H').
  set (x := strip_quotes (rev (strip_quotes w))) in *. apply (f_equal (@rev N)) in E'. rewrite rev_involutive, rev_app_distr in E'.
  exists a, (rev b). split; [etransitivity; [exact E|f_equal; exact E']|]. split; [exact F|]. split; [apply Forall_rev; exact F'|]. split.
  - intros c d X. rewrite X in E'. apply (H c (d ++ rev b)). exact E'.
  - intros d c X. apply (H' c (rev d)). rewrite <- (rev_involutive x), X, rev_app_distr. reflexivity.
Qed.

(** ** Levels *)
(** No name follows on the same line, so that nothing is the argument of [async]. *)
Definition nameless (k : list tk) : Prop := newline k = true \/ hd_tok k <> TIdent /\ hd_tok k <> TKeyword KYield.
Section Levels.
  Variable odd : bool.
  Notation std := (std odd).
  Lemma lower S n m l e l' : n <= m <= 16 -> (n <= 16 -> nameless l') -> std S (NX m) l e l' -> std S (NX n) l e l'.
  Proof.
    intros [H1 H2] Ha. specialize (Ha ltac:(lia)). replace n with (m - (m - n)) by lia. assert (Hd : m - n <= m) by lia. revert Hd. generalize (m - n). clear n H1.
    induction n as [|n IH]; intros Hd H; [rewrite Nat.sub_0_r; exact H|]. specialize (IH ltac:(lia) H). replace (m - n) with (Datatypes.S (m - Datatypes.S n)) in IH by lia.
    set (j := m - Datatypes.S n) in *. assert (Hj : j <= 15) by lia. clearbody j. clear H Hd.
    destruct (Nat.eq_dec j 15) as [->|]; [apply std_unary_up; exact IH|].
    destruct (Nat.eq_dec j 14) as [->|]; [apply std_power_up; exact IH|].
    destruct (Nat.eq_dec j 2) as [->|]; [apply std_conditional_up; exact IH|].
    destruct (Nat.eq_dec j 1) as [->|]; [apply std_assignment_up; [exact IH|right; exact Ha]|].
    destruct (Nat.eq_dec j 0) as [->|]; [apply (std_expression odd S [e]); apply std_commas_one; exact IH|].
    apply std_binary_up; [lia|exact IH].
  Qed.
  Definition at_level (S : view) (n : nat) : view := if n <=? 16 then in_ true S else S.
  Lemma from17 S n l e l' : n <= 17 -> (n <= 16 -> nameless l') -> std (at_level S n) (NX 17) l e l' -> std S (NX n) l e l'.
  Proof.
    intros Hn Ha. unfold at_level. destruct (n <=? 16) eqn:E.
    - apply Nat.leb_le in E. intros H. apply (lower S n 16); [lia|exact Ha|]. apply std_update_up. exact H.
    - apply Nat.leb_gt in E. replace n with 17 by lia. auto.
  Qed.
  Lemma from19 S n l e l' : n <= 19 -> (n <= 16 -> nameless l') -> std (at_level S n) (NX 19) l e l' -> std S (NX n) l e l'.
  Proof.
    intros Hn Ha H. destruct (Nat.le_gt_cases n 17); [apply from17; [assumption|exact Ha|apply std_call_up; exact H]|].
    unfold at_level in H. destruct (n <=? 16) eqn:E; [apply Nat.leb_le in E; lia|].
    destruct (Nat.eq_dec n 18) as [->|]; [apply std_member_up; exact H|]. replace n with 19 by lia. exact H.
  Qed.
End Levels.

(** ** What may follow *)
Definition stays (n : nat) (k : list tk) : Prop := hd_tok k <> TPunct PFatArrow /\ (n <= 16 -> nameless k).
Definition after (c : nt) : ty c -> list tk -> Prop :=
  match c with
  | NX n => fun _ k => stays n k
  | NArg | NCommas | NOpt | NInit | NArrowArg | NVar _ _ | NVars _ _ | NTargetElem _ => fun _ k => stays 0 k
  | NTargetBase _ | NLeft => fun _ k => hd_tok k <> TPunct PFatArrow
  | NPatDefault => fun _ k => stays 0 k /\ hd_tok k <> TPunct PAssign
  | NParam => fun a k => hd_tok k = TPunct PCloseParen \/ hd_tok k = TPunct PComma /\ forall x, a <> FAPat (PRestElement x)
  | NProp | NPatProp | NTargetProp _ => fun _ k => hd_tok k = TPunct PComma \/ hd_tok k = TPunct PCloseBrace
  | NStmt | NLoop => fun t k => hd_tok k <> TKeyword KFinally /\ (open_if t = true -> hd_tok k <> TKeyword KElse)
  | NItem | NItems => fun _ k => hd_tok k <> TKeyword KFinally /\ hd_tok k <> TKeyword KElse
  | NCase => fun _ k => hd_tok k = TPunct PCloseBrace \/ hd_tok k = TKeyword KCase \/ hd_tok k = TKeyword KDefault
  | NCases => fun _ k => hd_tok k = TPunct PCloseBrace
  | NArrowHead _ => fun _ k => hd_tok k = TPunct PFatArrow
  | NHeritage => fun _ k => hd_tok k = TPunct POpenBrace
  | NModule => fun _ k => hd_tok k = TEoF
  | NModItem => fun p k => (hd_tok k <> TKeyword KFinally /\ hd_tok k <> TKeyword KElse) /\ (loose p = true -> fresh k /\ follow true 0 k = true)
  | NImports => fun _ k => hd_tok k = TIdent
  | NImportName | NExportName _ => fun _ k => hd_tok k = TPunct PComma \/ hd_tok k = TPunct PCloseBrace
  | _ => fun _ _ => True
  end.

Lemma stays_le n m k : stays n k -> (m <= 16 -> n <= 16) -> stays m k.
Proof. intros [H1 H2] L. split; auto. Qed.
Lemma stays_tok n t w b k : t <> TPunct PFatArrow -> t <> TIdent -> t <> TKeyword KYield -> stays n (mkTk t w b :: k).
Proof. intros H1 H2 H3. split; [exact H1|]. intros _. right. auto. Qed.
Lemma stays_call n k : 16 < n -> hd_tok k <> TPunct PFatArrow -> stays n k.
Proof. intros H1 H2. split; [exact H2|]. lia. Qed.
Lemma stays_arrow n k : stays n k -> hd_tok k <> TPunct PFatArrow.
Proof. intros H. apply H. Qed.
Ltac stay :=
  first [ assumption
        | match goal with |- stays _ (mkTk _ _ _ :: _) => apply stays_tok; first [discriminate | assumption | match goal with |- ?f ?o <> _ => destruct o; discriminate end] end
        | match goal with H : stays _ ?k |- stays _ ?k => apply (stays_le _ _ _ H); first [lia | cbn in *; lia] end
        | apply stays_call; [lia|]; first [assumption | discriminate | eapply stays_arrow; eassumption | match goal with |- ?f ?o <> _ => destruct o; discriminate end] ].

Section Printed.
  Variable odd : bool.
  Notation std := (std odd).
  Definition good (pr : view -> forall c, ty c -> printed) : Prop :=
    forall S c v l k, Sp (pr S c v) l -> k <> [] -> after c v k -> std S c (l ++ k) v k.

  Variable pr : view -> forall c, ty c -> printed.
  Hypothesis IH : good pr.

  Lemma reads_here t w b l : l <> [] -> reads t (mkTk t w b :: l) l.
  Proof. split; [assumption|]. eauto. Qed.
  Lemma reads_as_here t w b l : l <> [] -> reads_as t w (mkTk t w b :: l) l.
  Proof. split; [assumption|]. eauto. Qed.

  Ltac ne := cbn [app]; repeat apply app_ne; first [assumption | discriminate].
  Ltac sp :=
    repeat match goal with
    | H : Sp None _ |- _ => destruct (Sp_none _ H)
    | H : Sp (Some []) _ |- _ => apply Sp_nil in H; subst
    | H : Sp (cat []) _ |- _ => apply Sp_nil in H; subst
    | H : Sp (cat (_ :: _)) _ |- _ =>
        let l1 := fresh "u" in let l2 := fresh "u" in let H1 := fresh "Hs" in let H2 := fresh "Hs" in
        apply Sp_cons in H as (l1 & l2 & -> & H1 & H2)
    | H : Sp (tok _) _ |- _ => let w := fresh "w" in let b := fresh "b" in apply Sp_tok in H as (w & b & ->)
    | H : Sp (spelled_as _ _) _ |- _ => let b := fresh "b" in apply Sp_as in H as (b & ->)
    | H : Sp (named _) _ |- _ => let t := fresh "t" in let b := fresh "b" in let N := fresh "Nm" in apply Sp_named in H as (t & b & N & ->)
    | H : Sp (only_if _) _ |- _ => let E := fresh "Eb" in apply Sp_if in H as (-> & E)
    | H : Sp (quasi _ _) _ |- _ => let w := fresh "w" in let b := fresh "b" in let N := fresh "Nq" in apply Sp_quasi in H as (w & b & -> & N)
    | H : Sp (regex _ _) _ |- _ => let w := fresh "w" in let b := fresh "b" in let N := fresh "Nr" in apply Sp_regex in H as (w & b & -> & N)
    | H : Sp (tight _) _ |- _ => let N := fresh "Nt" in apply Sp_tight in H as (H & N)
    | H : _ && _ = true |- _ => apply andb_prop in H as []
    | H : negb _ = true |- _ => apply negb_true_iff in H
    | H : target _ _ = true |- _ => unfold target in H
    end.
  Ltac sp' := repeat match goal with H : Sp None _ |- _ => destruct (Sp_none _ H) end.
  Ltac cases H := repeat match type of H with Sp (match ?x with _ => _ end) _ => destruct x; try (destruct (Sp_none _ H)) end.
  Ltac flat := repeat rewrite <- app_assoc; cbn [app].
  Ltac aft := cbn [after hd_tok k_tok app]; first [stay | eapply stays_arrow; eassumption | split; [stay|discriminate] | exact I | assumption | discriminate | split; discriminate | left; reflexivity | right; reflexivity | solve [auto] | match goal with |- ?f ?o <> _ => destruct o; discriminate end | idtac].
  Ltac prem :=
    lazymatch goal with
    | |- reads _ (_ :: _) _ => apply reads_here; ne
    | |- comma (_ :: _) _ => apply reads_here; ne
    | |- reads_as _ _ (_ :: _) _ => apply reads_as_here; ne
    | |- Subset.std _ _ _ (_ ++ _) _ _ => eapply IH; [eassumption|ne|aft]
    | |- std _ _ (_ ++ _) _ _ => eapply IH; [eassumption|ne|aft]
    | |- hd_tok (_ :: _) = _ => reflexivity
    | |- hd_tok (_ :: _) <> _ => discriminate
    | |- newline _ = false => cbn in *; auto
    | |- _ <> str "async" => apply free_ok; assumption
    | |- _ <> str "await" => apply not_await_name; assumption
    | |- _ <> EIdent (str "await") => apply not_await_ok; assumption
    | |- function_mark _ (_ ++ _) _ => apply function_mark_ok; [eassumption|ne]
    | |- calm _ => eapply key_calm; [eapply IH; [eassumption|ne|exact I]|first [assumption|reflexivity]]
    | H : assignable ?S ?e = true |- strict_target ?S ?e => exact (assignable_ok S e H)
    | |- binding_name _ _ => apply bindable_ok; assumption
    | |- _ => idtac
    end.
  Ltac prems := flat; repeat prem; auto.

  Lemma parts_seq e : (match e with ESequence [_] | ESequence [] => False | _ => True end) -> sequence (parts e) = e.
  Proof. destruct e as [| | | | | | | | | | | | | | | | |[|a [|b r]]| | | | | | |]; intros H; try destruct H; reflexivity. Qed.
  Lemma paren_ok S e l k : Sp (paren pr S e) l -> k <> [] -> hd_tok k <> TPunct PFatArrow ->
    std S (NX 19) (l ++ k) e k.
  Proof.
    intros H Hk A.
    assert (X : (match e with ESequence [_] | ESequence [] => False | _ => True end) /\
      Sp (cat [tok (TPunct POpenParen); pr S NCommas (parts e); tok (TPunct PCloseParen)]) l).
    { destruct e as [| | | | | | | | | | | | | | | | |[|a [|b r]]| | | | | | |]; cbn [paren] in H; try (destruct (Sp_none _ H)); split; auto. }
    clear H. destruct X as [X H]. rewrite <- (parts_seq e X) at 1. sp. flat. eapply std_paren; prems.
  Qed.
  Lemma template_ok S t l k : Sp (template pr S t) l -> k <> [] ->
    (exists w b q, t = mkTemplate [q] [] /\ quasi_of TNoSub w q /\ l ++ k = mkTk (TTemplate TNoSub) w b :: k)
    \/ exists w b q qs es l', t = mkTemplate (q :: qs) es /\ quasi_of THead w q /\ l ++ k = mkTk (TTemplate THead) w b :: l' /\ l' <> []
         /\ std S NQuasis l' (es, qs) k.
  Proof.
    intros H Hk. destruct t as [[|q qs] es]; [destruct (Sp_none _ H)|].
    assert (C : (qs = [] /\ es = [] /\ Sp (quasi TNoSub q) l) \/ Sp (cat [quasi THead q; pr S NQuasis (es, qs)]) l).
    { cbn [template] in H. destruct qs as [|q' qs], es as [|e es]; auto. }
    destruct C as [(-> & -> & C)|C].
    - left. sp. exists w, b, q. split; [reflexivity|]. split; [assumption|reflexivity].
    - right. sp. eexists w, b, q, qs, es, _. split; [reflexivity|]. split; [assumption|]. flat. split; [reflexivity|]. split; [ne|]. prems.
  Qed.
  Lemma literal_ok S l u k : Sp (literal pr S l) u -> k <> [] -> std S (NX 19) (u ++ k) (ELiteral l) k.
  Proof.
    intros H Hk. destruct l as [|w|w|b|p f|t]; cbn [literal] in H.
    - sp.
    - sp. flat. eapply std_string; prems.
    - sp. flat. eapply std_number; prems.
    - sp. flat. eapply std_bool; prems.
    - sp. flat. eapply std_regex; prems.
    - destruct (template_ok _ _ _ _ H Hk) as [(w & b & q & -> & Q & ->)|(w & b & q & qs & es & l' & -> & Q & -> & N & D)].
      + eapply std_template; [apply reads_as_here; exact Hk|exact Q].
      + eapply std_template_parts; [apply reads_as_here; exact N|exact Q|exact D].
  Qed.
  Lemma tagged_ok S c t l u k : Sp (template pr S t) u -> k <> [] -> std S (NX 17) l c (u ++ k) ->
    std S (NX 17) l (ETaggedTemplate c t) k.
  Proof.
    intros H Hk Hc. destruct (template_ok _ _ _ _ H Hk) as [(w & b & q & -> & Q & E)|(w & b & q & qs & es & l' & -> & Q & E & N & D)]; rewrite E in Hc.
    - eapply std_tagged; [exact Hc|apply reads_as_here; exact Hk|exact Q].
    - eapply std_tagged_parts; [exact Hc|apply reads_as_here; exact N|exact Q|exact D].
  Qed.
  Lemma at_fn S n : v_fn (at_level S n) = v_fn S.
  Proof. unfold at_level. destruct (n <=? 16); reflexivity. Qed.
  Lemma binary_in o t p : binary_op o = (t, p) -> o <> BPowerOf -> In (t, (p, EBinary o)) bin_ops /\ (t = TKeyword KIn -> o = BIn) /\ p <= 11 /\ t <> TPunct PFatArrow /\ t <> TIdent /\ t <> TKeyword KYield.
  Proof. intros H N. destruct o; injection H as <- <-; try (destruct N; reflexivity); (split; [cbn; tauto|]; split; [congruence|split; [lia|repeat split; discriminate]]). Qed.
  Lemma logical_in o t p : logical_op o = (t, p) -> In (t, (p, ELogical o)) bin_ops /\ t <> TKeyword KIn /\ p <= 2 /\ t <> TPunct PFatArrow /\ t <> TIdent /\ t <> TKeyword KYield.
  Proof. intros H. destruct o; injection H as <- <-; (split; [cbn; tauto|]; split; [congruence|split; [lia|repeat split; discriminate]]). Qed.
  Lemma unary_in o : In (unary_op o, o) prefix_ops.
  Proof. destruct o; cbn; tauto. Qed.
  Lemma update_in o : In (update_op o, o) update_ops.
  Proof. destruct o; cbn; tauto. Qed.
  Lemma assign_in o : In (assign_op o, o) assign_ops.
  Proof. destruct o; cbn; tauto. Qed.
  Lemma not_brace t : opens_brace t = false -> t <> TPunct POpenBrace.
  Proof. intros H ->. discriminate. Qed.
  Lemma wrapped_ok f S n e l k : n <= 1 -> Sp (unless f (pr S (NX n) e) (paren pr (in_ true S) e)) l -> k <> [] -> stays 1 k ->
    f (TPunct POpenParen) = false -> std S (NX n) (l ++ k) e k /\ f (hd_tok (l ++ k)) = false.
  Proof.
    intros Hn H Hk A F. apply Sp_unless in H as [[H1 H2]|H].
    - split; [prems|apply H2].
    - assert (P : std (in_ true S) (NX 19) (l ++ k) e k) by (apply paren_ok; [exact H|exact Hk|apply A]).
      split; [apply from19; [lia|intros _; apply A; lia|]; unfold at_level; destruct n as [|[|n]]; [exact P|exact P|lia]|].
      assert (X : exists w b r, l = mkTk (TPunct POpenParen) w b :: r).
      { unfold paren in H. destruct e as [| | | | | | | | | | | | | | | | |[|x [|y r]]| | | | | | |]; sp; eexists _, _, _; reflexivity. }
      destruct X as (w & b & r & ->). exact F.
  Qed.

  Lemma wrapped_async_ok f S n e l k : n <= 1 ->
    Sp (unless f (unless_async (pr S (NX n) e) (paren pr (in_ true S) e)) (paren pr (in_ true S) e)) l -> k <> [] -> stays 1 k ->
    f (TPunct POpenParen) = false -> std S (NX n) (l ++ k) e k /\ f (hd_tok (l ++ k)) = false /\ calm (l ++ k).
  Proof.
    intros Hn H Hk A F.
    assert (P : Sp (paren pr (in_ true S) e) l -> std S (NX n) (l ++ k) e k /\ f (hd_tok (l ++ k)) = false /\ calm (l ++ k)).
    { clear H. intros H. assert (P : std (in_ true S) (NX 19) (l ++ k) e k) by (apply paren_ok; [exact H|exact Hk|apply A]).
      split; [apply from19; [lia|intros _; apply A; lia|]; unfold at_level; destruct n as [|[|n]]; [exact P|exact P|lia]|].
      assert (X : exists w b r, l = mkTk (TPunct POpenParen) w b :: r).
      { unfold paren in H. destruct e as [| | | | | | | | | | | | | | | | |[|x [|y r]]| | | | | | |]; sp; eexists _, _, _; reflexivity. }
      destruct X as (w & b & r & ->). split; [exact F|discriminate]. }
    apply Sp_unless in H as [[H1 H2]|H]; [|exact (P H)]. apply Sp_unless_async in H1 as [[H1 H3]|H1]; [|exact (P H1)].
    split; [prems|]. split; [apply H2|apply H3].
  Qed.

  Lemma bare_ok S n e l k : Sp (bare pr S n e) l -> n <= level e -> hidden_in S n e = false ->
    k <> [] -> stays n k -> std S (NX n) (l ++ k) e k.
  Proof.
    intros H Hn Hi Hk A.
    unfold bare in H. fold (at_level S n) in H. cbv zeta in H.
    destruct e as [es|id ps bd ex ge as_|ps as_|o lf r|a|o a b|c es|c|t a c|f|w|lt|o a b|o x cp|m p|c es|ps|es|e| |c t| |o p a|o a p|a dg]; cbn [level] in Hn; sp.
    - (* array *) apply from19; [exact Hn|exact (proj2 A)|]. eapply std_array; prems.
    - (* arrow *)
      destruct id; sp. destruct bd as [b|e], ex, ge; sp.
      + apply (lower _ _ _ 1); [lia|exact (proj2 A)|]. eapply std_arrow_body; prems.
      + apply (lower _ _ _ 1); [lia|exact (proj2 A)|]. destruct (wrapped_ok opens_brace S 1 e _ k (le_n _) ltac:(eassumption) Hk ltac:(stay) eq_refl) as [W1 W2].
        flat. eapply std_arrow; [prems..|exact W1]. apply not_brace. exact W2.
    - (* assignment *) destruct lf as [|a]; sp. apply (lower _ _ _ 1); [lia|exact (proj2 A)|]. destruct (is_pattern a) eqn:Ip; sp; flat.
      + destruct o; try discriminate. eapply std_assignment_pattern; prems.
      + eapply std_assignment; try apply assign_in; prems.
    - (* await *) apply (lower _ _ _ 15); [lia|exact (proj2 A)|]. eapply std_await; prems.
    - (* binary *)
      destruct (binary_op o) as [t p] eqn:B. assert (D : o = BPowerOf \/ o <> BPowerOf) by (destruct o; auto; right; discriminate).
      destruct D as [->|D].
      + injection B as <- <-. sp. apply (lower _ _ _ 14); [cbn in Hn; lia|exact (proj2 A)|]. eapply std_power; prems.
      + destruct (binary_in _ _ _ B D) as (B1 & B2 & B3 & B4 & B5 & B6).
        assert (H' : Sp (cat [pr S (NX (2 + p)) a; tok t; pr S (NX (3 + p)) b]) l) by (destruct o; try exact H; destruct D; reflexivity).
        clear H. sp. cbn [snd] in Hn. apply (lower _ _ _ (2 + p)); [lia|exact (proj2 A)|]. flat. eapply std_binary; [exact B1| |prems..].
        intros E. rewrite (B2 E) in Hi. unfold hidden_in in Hi. replace (n <=? 16) with true in Hi by (symmetry; apply Nat.leb_le; lia). cbn in Hi. destruct (v_in S); [reflexivity|discriminate].
    - (* call *)
      assert (C : (c = ESuper /\ Sp (cat [only_if (v_fn S); tok (TKeyword KSuper); tok (TPunct POpenParen); pr (at_level S n) NArgs es]) l)
        \/ (exists a, c = EIdent (str "import") /\ es = [a]
            /\ Sp (cat [spelled_as (TKeyword KImport) (str "import"); tok (TPunct POpenParen); pr (at_level S n) (NX 1) a; tok (TPunct PCloseParen)]) l)
        \/ Sp (cat [pr (at_level S n) (NX 17) c; tok (TPunct POpenParen); pr (at_level S n) NArgs es]) l).
      { destruct c as [| | | | | | | | | |w| | | | | | | | | | | | | |]; auto. destruct (text_eqb w (str "import")) eqn:W; [|auto]. apply text_eqb_eq in W. subst w.
        right. left. destruct es as [|a [|]]; [destruct H as (? & ? & _); discriminate|exists a; auto|destruct H as (? & ? & _); discriminate]. }
      clear H. apply from17; [exact Hn|exact (proj2 A)|]. destruct C as [(-> & C)|[(a & -> & -> & C)|C]]; sp; flat; [eapply std_super_call|eapply std_import_call|eapply std_call]; prems.
      rewrite at_fn. assumption.
    - (* class *) apply from19; [exact Hn|exact (proj2 A)|]. flat. eapply std_class_expr; prems.
    - (* conditional *) apply (lower _ _ _ 2); [lia|exact (proj2 A)|]. eapply std_conditional; prems.
    - (* function *)
      destruct f as [i ps b gen [|]]; sp.
      + apply (lower _ _ _ 16); [lia|exact (proj2 A)|]. flat. eapply std_async_function; [prem|]. replace (in_ true S) with (at_level S n); [prems|].
        unfold at_level. replace (n <=? 16) with true by (symmetry; apply Nat.leb_le; lia). reflexivity.
      + apply from19; [exact Hn|exact (proj2 A)|]. flat. eapply (std_function odd _ _ _ (u1 ++ k)); [exact (function_mark_ok false u (u1 ++ k) ltac:(assumption) ltac:(ne))|prems].
    - (* ident *) apply from19; [exact Hn|exact (proj2 A)|]. eapply std_ident; prems.
    - (* literal *) apply from19; [exact Hn|exact (proj2 A)|]. apply literal_ok; auto.
    - (* logical *)
      destruct (logical_op o) as [t p] eqn:B. sp. destruct (logical_in _ _ _ B) as (B1 & B2 & B3 & B4 & B5 & B6). cbn [snd] in Hn.
      apply (lower _ _ _ (2 + p)); [lia|exact (proj2 A)|]. flat. eapply std_binary; [exact B1|congruence|prems..].
    - (* member *)
      assert (C : (o = ESuper /\ n <= 17 /\
           ((exists w, cp = false /\ x = EIdent w /\ Sp (cat [only_if (v_fn S); tok (TKeyword KSuper); tok (TPunct PPeriod); named w]) l)
            \/ cp = true /\ Sp (cat [only_if (v_fn S); tok (TKeyword KSuper); tok (TPunct POpenBracket); pr (at_level S n) (NX 0) x; tok (TPunct PCloseBracket)]) l))
         \/ n <= 18 /\ let m := if n =? 18 then 18 else 17 in
           (exists w, cp = false /\ x = EIdent w /\ Sp (cat [pr (at_level S n) (NX m) o; tok (TPunct PPeriod); named w]) l)
            \/ cp = true /\ Sp (cat [pr (at_level S n) (NX m) o; tok (TPunct POpenBracket); pr (at_level S n) (NX 0) x; tok (TPunct PCloseBracket)]) l).
      { assert (D : o = ESuper \/ o <> ESuper) by (destruct o; auto; right; discriminate). destruct D as [->|D].
        - left. split; [reflexivity|]. split; [exact Hn|].
          destruct cp.
          + right. split; [reflexivity|]. destruct x; exact H.
          + left. destruct x; sp'. eexists. split; [reflexivity|]. split; [reflexivity|]. exact H.
        - right. split; [destruct o; try exact Hn; destruct D; reflexivity|]. cbv zeta. destruct cp.
          + right. split; [reflexivity|]. destruct o; try (destruct D; reflexivity); destruct x; exact H.
          + left. destruct x; try (exfalso; destruct o; exact (Sp_none _ H)). eexists. split; [reflexivity|]. split; [reflexivity|].
            destruct o; try exact H. destruct D. reflexivity. }
      clear H Hn. destruct C as [(-> & Hn & C)|[Hn C]].
      + apply from17; [exact Hn|exact (proj2 A)|]. destruct C as [(w & -> & -> & C)|[-> C]]; sp; flat; rewrite <- (at_fn S n) in *; [eapply std_super_member|eapply std_super_index]; prems.
      + cbv zeta in C. assert (X : forall m, m = 17 \/ m = 18 -> (if n =? 18 then 18 else 17) = m -> std (at_level S n) (NX m) (l ++ k) (EMember o x cp) k).
        { intros m Hm E. rewrite E in C. clear E. destruct C as [(w & -> & -> & C)|[-> C]]; sp; flat;
            [destruct Hm as [->| ->]; [eapply std_call_member|eapply std_member]|destruct Hm as [->| ->]; [eapply std_call_index|eapply std_index]]; prems. }
        destruct (Nat.eqb_spec n 18) as [->|N].
        * apply (X 18); auto.
        * apply from17; [lia|exact (proj2 A)|]. apply (X 17); auto.
    - (* meta *)
      match goal with H : text_eqb m _ = true |- _ => apply text_eqb_eq in H; subst m end. match goal with H : text_eqb p _ = true |- _ => apply text_eqb_eq in H; subst p end.
      apply from19; [exact Hn|exact (proj2 A)|]. flat. eapply std_new_target; prems. rewrite at_fn. assumption.
    - (* new *) apply from19; [exact Hn|exact (proj2 A)|]. eapply std_new; prems.
    - (* object *) apply from19; [exact Hn|exact (proj2 A)|]. eapply std_object; prems.
    - (* sequence *)
      destruct es as [|x [|y r]]; sp. replace n with 0 by lia. apply (std_expression odd S (x :: y :: r)). prems.
    - (* tagged *) apply from17; [exact Hn|exact (proj2 A)|]. flat. eapply tagged_ok; [eassumption|exact Hk|].
      eapply IH; [eassumption|apply app_ne; exact Hk|]. cbn [after].
      destruct (template_ok _ _ _ _ ltac:(eassumption) Hk) as [(w & b & q & _ & _ & ->)|(w & b & q & qs & es & l' & _ & _ & -> & _)]; (apply stays_tok; discriminate).
    - (* this *) apply from19; [exact Hn|exact (proj2 A)|]. eapply std_this; prems.
    - (* unary *)
      destruct p; sp. apply (lower _ _ _ 15); [lia|exact (proj2 A)|]. flat. eapply std_unary; try apply unary_in; prems. intros V ->. rewrite V in *. cbn [negb orb] in *. apply negb_true_iff. assumption.
    - (* update *)
      apply (lower _ _ _ 16); [lia|exact (proj2 A)|]. destruct p; sp.
      + flat. eapply std_prefix; try apply update_in; prems.
      + flat. eapply std_postfix; try apply update_in; prems.
    - (* yield *)
      destruct a as [e|]; sp. destruct dg; sp; (apply (lower _ _ _ 1); [lia|exact (proj2 A)|]).
      + flat. eapply std_yield_all; prems.
      + flat. assert (Nl := Nt k). destruct (wrapped_ok opens_yield S 1 e _ k (le_n _) ltac:(eassumption) Hk ltac:(stay) eq_refl) as [W1 W2].
        eapply std_yield_arg; [prems..|exact W1]; intros E; rewrite E in W2; discriminate.
  Qed.

  Lemma expr_ok S n e l k : Sp (expr pr S n e) l -> n <= 19 -> k <> [] -> stays n k ->
    std S (NX n) (l ++ k) e k.
  Proof.
    intros H Hn Hk A.
    assert (C : (e = EYield None false /\ Sp (cat [only_if (negb (v_yield S)); tok (TPunct POpenParen); tok (TKeyword KYield); tok (TPunct PCloseParen)]) l)
                \/ Sp (if (n <=? level e) && negb (hidden_in S n e) then bare pr S n e else paren pr (at_level S n) e) l).
    { unfold expr in H. fold (at_level S n) in H. cbv zeta in H.
      destruct e as [| | | | | | | | | | | | | | | | | | | | | | | |[a|] [|]]; auto. }
    clear H. destruct C as [(-> & C)|C].
    - sp. apply from19; [exact Hn|exact (proj2 A)|]. flat. change (EYield None false) with (sequence [EYield None false]).
      eapply std_paren; [prem..|]; [|apply reads_here; exact Hk|apply A]. apply std_commas_one. eapply std_yield; [|prem|cbn; tauto].
      unfold at_level. destruct (n <=? 16); assumption.
    - destruct ((n <=? level e) && negb (hidden_in S n e)) eqn:B.
      + apply andb_prop in B as [B1 B2]. apply Nat.leb_le in B1. apply negb_true_iff in B2. apply bare_ok; auto.
      + apply from19; [exact Hn|exact (proj2 A)|]. apply paren_ok; [assumption|exact Hk|apply A].
  Qed.

  Lemma prop_key_ok S key c l k : Sp (prop_key pr S key c) l -> k <> [] -> std S NKey (l ++ k) (key, c) k.
  Proof.
    intros H Hk. unfold prop_key in H. destruct c.
    - assert (C : exists e, computed_key e = key /\ Sp (cat [tok (TPunct POpenBracket); pr S (NX 1) e; tok (TPunct PCloseBracket)]) l).
      { cbv zeta in H. destruct key as [[|w|w|b|p f|t]|e|p]; sp'.
        - exists (ELiteral (LString w)). auto.
        - exists (ELiteral (LNumber w)). auto.
        - exists (ELiteral (LBoolean b)). auto.
        - destruct e as [| | | | | | | | | | |[|w|w|b|p f|t]| | | | | | | | | | | | |]; sp'; eexists; (split; [|exact H]); reflexivity. }
      destruct C as (e & <- & C). sp. flat. eapply std_key_computed; prems.
    - destruct key as [[|w|w|b|p f|t]|e|p]; sp.
      + flat. eapply std_key_string; prems. apply text_neqb. assumption.
      + flat. eapply std_key_number; prems.
      + destruct e; sp. flat. eapply std_key_name; prems.
  Qed.
  Lemma closed_stays k : hd_tok k = TPunct PComma \/ hd_tok k = TPunct PCloseBrace -> stays 0 k.
  Proof. intros [A|A]; (split; [rewrite A; discriminate|intros _; right; rewrite A; split; discriminate]). Qed.
  Lemma property_ok S p l k : Sp (property pr S p) l -> k <> [] -> after NProp p k -> std S NProp (l ++ k) p k.
  Proof.
    intros H Hk A. assert (A' : stays 0 k) by (apply closed_stays; exact A). unfold property in H.
    destruct p as [[key v kind m c sh]|e].
    - destruct kind, m, sh; sp'.
      + (* get *) cases H. sp. flat. eapply std_prop_get; prems.
      + (* set *) cases H. sp. flat. eapply std_prop_set; prems.
      + (* method *) destruct v as [[| | | | | | | | |[[i|] ps b gen [|]]| | | | | | | | | | | | | | |]| |]; sp'.
        * destruct gen; sp. flat. eapply std_prop_async; prems.
        * destruct gen; sp; flat; [eapply std_prop_generator|eapply std_prop_method]; prems.
      + (* short *) cases H. sp. flat. eapply std_prop_short; prems.
      + (* value *) cases H. sp. flat. eapply std_prop; prems.
    - cases H. sp. flat. eapply std_prop_spread; prems.
  Qed.
  Lemma class_member_ok S p l k : Sp (class_member pr S p) l -> k <> [] -> std S NMember (l ++ k) p k.
  Proof.
    intros H Hk. destruct p as [key v kind m c sh]. cbn [class_member] in H. cases H.
    - (* get *) apply Sp_cons in H as (l0 & l1 & -> & Hy & H). apply Sp_if in Hy as [-> Hy]. apply andb_prop in Hy as [Hy Hy']. apply negb_true_iff in Hy.
      apply Sp_cons in H as (l2 & l3 & -> & Hm & H). destruct (mark_ok _ _ _ Hm) as (st & M1 & M2). sp. flat. eapply std_member_get; try (apply M2; ne); prems.
    - (* set *) apply Sp_cons in H as (l0 & l1 & -> & Hy & H). apply Sp_if in Hy as [-> Hy]. apply Sp_cons in H as (l2 & l3 & -> & Hm & H). destruct (mark_ok _ _ _ Hm) as (st & M1 & M2). sp. flat. eapply std_member_set; try (apply M2; ne); prems.
    - (* generator *) apply Sp_cons in H as (l0 & l1 & -> & Hy & H). apply Sp_if in Hy as [-> Hy].
      apply Sp_cons in H as (l2 & l3 & -> & Hm & H). destruct (mark_ok _ _ _ Hm) as (st & M1 & M2). sp. flat. eapply std_member_generator; try (apply M2; ne); prems.
    - (* asynchronous method *) sp. flat. eapply std_member_async; prems. intros ->. cbn [orb] in *. apply negb_true_iff. assumption.
    - (* method *)
      apply Sp_cons in H as (l0 & l1 & -> & Hy & H). apply Sp_if in Hy as [-> Hy]. cbn [orb] in Hy.
      apply Sp_cons in H as (l2 & l3 & -> & Hm & H). destruct (mark_ok _ _ _ Hm) as (st & M1 & M2). sp. flat. eapply std_member_method; try (apply M2; ne); prems. eapply marked_calm; [apply M2; ne|]. prems.
    - (* constructor *) sp. subst c. destruct key as [|[]|]; try discriminate.
      match goal with H : text_eqb _ _ = true |- _ => apply text_eqb_eq in H; subst end. flat. eapply std_member_ctor; prems.
  Qed.
  Lemma pat_property_ok S p l k : Sp (pat_property pr S p) l -> k <> [] -> after NPatProp p k -> std S NPatProp (l ++ k) p k.
  Proof.
    intros H Hk A. assert (A' : stays 0 k) by (apply closed_stays; exact A).
    assert (A2 : hd_tok k <> TPunct PAssign) by (destruct A as [A|A]; rewrite A; discriminate). unfold pat_property in H.
    destruct p as [[key v kind m c sh]|x]; [|sp]. destruct v as [e|x|].
    - cases H; sp. flat. eapply std_pat_prop_default; prems.
    - assert (C : kind = KInit /\ m = false /\ sh = false /\
        Sp (cat [only_if (match key with PKExpr (EIdent w) => negb (text_eqb w (str "await")) | _ => true end); pr S NKey (key, c); tok (TPunct PColon); pr S NPatDefault x]) l).
      { destruct kind, m, sh; try (exfalso; cases H; fail). split; [reflexivity|]. split; [reflexivity|]. split; [reflexivity|].
        cases H; exact H. }
      clear H. destruct C as (-> & -> & -> & C). sp. flat. eapply std_pat_prop; prems.
      intros w0 ->. match goal with H : negb (text_eqb _ _) = true |- _ => apply negb_true_iff in H; apply text_neqb; exact H end.
    - cases H; sp. flat. eapply std_pat_prop_name; prems.
  Qed.
  Lemma target_property_ok S b p l k : Sp (target_property pr S b p) l -> k <> [] -> after (NTargetProp b) p k -> std S (NTargetProp b) (l ++ k) p k.
  Proof.
    intros H Hk A. assert (A' : stays 0 k) by (apply closed_stays; exact A). unfold target_property in H.
    destruct p as [[key v kind m c sh]|x]; [|sp]. destruct v as [e|x|].
    - assert (C : kind = KInit /\ m = false /\ ((exists w, key = PKExpr (EIdent w) /\ c = false /\ sh = true /\
          Sp (cat [only_if (assignable S (EIdent w) && free w); spelled_as TIdent w; tok (TPunct PAssign); pr S (NX 1) e]) l)
        \/ sh = false /\ Sp (cat [only_if (free_key key c); pr S NKey (key, c); tok (TPunct PColon); pr S (NTargetElem b) e]) l)).
      { destruct kind, m, sh; try (exfalso; cases H; fail); (split; [reflexivity|]; split; [reflexivity|]).
        - left. cases H. eauto.
        - right. split; [reflexivity|]. cases H; exact H. }
      clear H. destruct C as (-> & -> & [(w & -> & -> & -> & C)|(-> & C)]); sp; flat; [eapply std_tprop_short_default|eapply std_tprop]; prems.
    - cases H; sp.
    - cases H; sp. flat. eapply std_tprop_short; prems.
  Qed.
  Lemma item_goes S p l k : std S NItem l p k -> hd_tok l <> TKeyword KFinally /\ hd_tok l <> TKeyword KElse.
  Proof. intros H. apply std_head in H. cbn [head_of] in H. split; intros E; rewrite E in H; discriminate. Qed.
  Lemma semicolon_ends w b k : k <> [] -> ends (mkTk (TPunct PSemiColon) w b :: k) k.
  Proof. intros Hk. split; [left; apply reads_here; exact Hk|]. split; [reflexivity|discriminate]. Qed.
  Lemma semicolon_stops w b k : k <> [] -> stops (mkTk (TPunct PSemiColon) w b :: k) k.
  Proof. intros Hk. left. apply reads_here. exact Hk. Qed.
  Lemma split_ok ps : ps = fst (split_directives ps) ++ snd (split_directives ps).
  Proof. induction ps as [|[x w|d|t] ps IHp]; try reflexivity. cbn [split_directives]. destruct (split_directives ps) as [ds b]. cbn in *. congruence. Qed.

  Ltac prem' :=
    lazymatch goal with
    | |- ends (_ :: _) _ => apply semicolon_ends; ne
    | |- stops (_ :: _) _ => apply semicolon_stops; ne
    | |- _ => prem
    end.
  Ltac prems' := flat; repeat prem'; auto; try congruence.
  Lemma declares_not t : declares t = false -> t <> TKeyword KClass /\ t <> TKeyword KFunction.
  Proof. intros H. split; intros ->; discriminate. Qed.
  Lemma loop_goes S t l k n : std S NLoop l t k -> stays n l.
  Proof. intros H. apply std_head in H. cbn [head_of] in H. split; [|intros _; right; split]; intros E; rewrite E in H; discriminate. Qed.
  Lemma statement_ok S t l k : Sp (statement pr S t) l -> k <> [] -> after NStmt t k -> std S NStmt (l ++ k) t k.
  Proof.
    intros H Hk [A1 A2]. unfold statement in H.
    destruct t as [e|ps| | |e t|o|w t|o|o|e t u|e cs|e|b h f|e t|e t|i c u t|x e t|x e t aw|vs]; sp; cbn [open_if] in *.
    - (* expression *)
      destruct (wrapped_async_ok starts_badly S 0 e _ (mkTk (TPunct PSemiColon) w b :: k) ltac:(lia) ltac:(eassumption) ltac:(discriminate) ltac:(stay) eq_refl) as (W1 & W2 & W3).
      flat. eapply std_stmt_expr; [exact W1| |left; exact W3|prems']. unfold starts_badly in W2. apply orb_false_elim in W2. apply W2.
    - eapply std_stmt_block; prems'.
    - eapply std_stmt_empty; prems'.
    - eapply std_stmt_debugger; prems'.
    - eapply std_stmt_with; prems'.
    - destruct o; sp; [eapply std_stmt_return_value|eapply std_stmt_return]; prems'.
    - (* label *)
      match goal with H : Sp (unless _ _ _) _ |- _ => apply Sp_unless in H as [[H Hh]|H]; [|sp] end. destruct (declares_not _ (Hh k)) as [W1 W2].
      eapply std_stmt_label; prems'. intros X.
      assert (existsb (text_eqb (str "$" ++ w)%list) (v_labels S) = true) by (apply existsb_exists; eexists; split; [exact X|apply text_eqb_eq; reflexivity]). congruence.
    - destruct o; sp; [eapply std_stmt_break_label|eapply std_stmt_break]; prems'.
      + apply text_neqb. assumption.
      + left. discriminate.
    - destruct o; sp; [eapply std_stmt_continue_label|eapply std_stmt_continue]; prems'.
      + apply text_neqb. assumption.
      + left. discriminate.
    - destruct u as [u|]; sp; [eapply std_stmt_if_else|eapply std_stmt_if]; prems'.
      split; [discriminate|congruence].
    - (* switch *) match goal with H : (_ <=? _) = true |- _ => apply Nat.leb_le in H end. eapply std_stmt_switch; prems'.
    - eapply std_stmt_throw; prems'.
    - (* try *)
      destruct h as [h|], f as [f|]; sp; [eapply std_stmt_try_both|eapply std_stmt_try_catch|eapply std_stmt_try_finally]; prems'.
    - eapply std_stmt_while; prems'.
    - eapply std_stmt_do; prems'. left. prem.
    - eapply std_stmt_for; prems'. eapply loop_goes; prems'.
    - eapply std_stmt_for_in; prems'. eapply loop_goes; prems'.
    - destruct aw; sp; [eapply std_stmt_for_await|eapply std_stmt_for_of]; prems'; eapply loop_goes; prems'.
    - eapply std_stmt_var; prems'.
  Qed.

  (** Statements do not begin with a string, so that they do not extend the directives. *)
  Definition begins (c : nt) : bool := match c with NStmt | NItem | NItems | NBlock | NModItem | NModule => true | _ => false end.
  Definition stringless (q : view -> forall c, ty c -> printed) : Prop :=
    forall S c v l k, begins c = true -> Sp (q S c v) l -> hd_tok k <> TString -> hd_tok (l ++ k) <> TString.
  Hypothesis quietly : stringless pr.
  Lemma wrapped_head f p S e l k : Sp (unless f p (paren pr (in_ true S) e)) l -> f (TPunct POpenParen) = false -> f (hd_tok (l ++ k)) = false.
  Proof.
    intros H F. apply Sp_unless in H as [[H1 H2]|H]; [apply H2|].
    assert (X : exists w b r, l = mkTk (TPunct POpenParen) w b :: r).
    { unfold paren in H. destruct e as [| | | | | | | | | | | | | | | | |[|x [|y r]]| | | | | | |]; sp; eexists _, _, _; reflexivity. }
    destruct X as (w & b & r & ->). exact F.
  Qed.
  Lemma stringless_step : stringless (step odd pr).
  Proof.
    intros S c v l k B H K. destruct c; try discriminate B; cbn [step ty] in *; clear B.
    - (* items *) destruct v as [|p ps]; sp; [exact K|]. flat. apply (quietly S NItem p); [reflexivity|eassumption|].
      apply (quietly S NItems ps); [reflexivity|eassumption|exact K].
    - (* item *) destruct v as [x w|d|t]; sp.
      + destruct d as [[]| | | |]; sp; discriminate.
      + assert (C : Sp (pr S NStmt t) l \/ exists f, Sp (cat [mark true; pr S (NFunction true true) f]) l).
        { destruct t as [e| | | | | | | | | | | | | | | | | |]; auto. destruct e as [| | | | | | | | |f| | | | | | | | | | | | | | |]; auto.
          destruct f as [[w|] ps b [|] [|]]; eauto. }
        clear H. destruct C as [C|(f & C)]; [apply (quietly S NStmt t); [reflexivity|eassumption|exact K]|]. sp. unfold mark in *. sp. discriminate.
    - (* statement *)
      unfold statement in H.
      destruct v as [e|ps| | |e t|o|w t|o|o|e t u|e cs|e|b h f|e t|e t|i c u t|x e t|x e t aw|vs]; sp; try discriminate.
      + flat. intros E. pose proof (wrapped_head starts_badly _ S e _ (mkTk (TPunct PSemiColon) w b :: k) ltac:(eassumption) eq_refl) as X.
        rewrite E in X. discriminate.
      + apply (quietly S NBlock ps); [reflexivity|eassumption|exact K].
      + destruct o; sp; discriminate.
      + destruct o; sp; discriminate.
      + destruct o; sp; discriminate.
      + destruct u; sp; discriminate.
      + destruct h, f; sp; discriminate.
      + destruct aw; sp; discriminate.
    - (* block *) sp. discriminate.
    - (* module *)
      destruct v as [|p ps]; sp; [exact K|]. flat. apply (quietly S NModItem p); [reflexivity|eassumption|]. destruct (loose p).
      + match goal with H : Sp (apart _) _ |- _ => apply Sp_apart in H as [H _] end. apply (quietly S NModule ps); [reflexivity|eassumption|exact K].
      + apply (quietly S NModule ps); [reflexivity|eassumption|exact K].
    - (* item of a module *)
      assert (C : Sp (pr S NItem v) l \/ exists t w b r, l = mkTk (TKeyword t) w b :: r).
      { unfold module_item in H. destruct v as [x w|d|t]; [left; exact H| |left; exact H]. destruct d as [vk vs|f|c|i|e]; try (left; exact H); right.
        - destruct i as [ns src]. destruct src; sp'. destruct ns; sp; do 4 eexists; reflexivity.
        - cases H; sp; do 4 eexists; reflexivity. }
      destruct C as [C|(t & w & b & r & ->)]; [|discriminate]. apply (quietly S NItem v); [reflexivity|exact C|exact K].
  Qed.
  Lemma loose_ends k : (hd_tok k <> TKeyword KFinally /\ hd_tok k <> TKeyword KElse) -> fresh k -> follow true 0 k = true -> stays 1 k.
  Proof.
    intros _ [_ N] F. split.
    - intros E. unfold follow, goes_on in F. rewrite E in F. discriminate.
    - intros _. destruct N as [N|N]; [left; exact N|right; rewrite N; split; discriminate].
  Qed.
  Lemma module_item_ok S p l k : Sp (module_item pr S p) l -> k <> [] -> after NModItem p k -> std S NModItem (l ++ k) p k.
  Proof.
    intros H Hk [[A1 A2] A3]. unfold module_item in H. destruct p as [x w|d|t].
    1,3: eapply std_mod_item; eapply IH; [eassumption|exact Hk|split; assumption].
    destruct d as [vk vs|f|c|[ns src]|e]; try (eapply std_mod_item; eapply IH; [eassumption|exact Hk|split; assumption]).
    - destruct src; sp'. destruct ns as [|n ns]; sp; [eapply std_import_bare|eapply std_import]; prems'.
    - destruct e as [[d|e]|[d|ns [src|]]|src].
      + (* default declaration *)
        destruct d as [|[[w|] ps b gen a]|c| |]; sp'.
        * sp. eapply std_export_default_function; prems'.
        * unfold function_parts in H. destruct gen; sp; flat; (eapply std_export_default_anon; [prem|prem|prem| |first [reflexivity|cbn; prem]|prems..]).
          -- rewrite andb_true_r in *. intros ->. discriminate.
          -- reflexivity.
        * sp. eapply std_export_default_class; prems'.
      + (* default expression *)
        destruct (A3 eq_refl) as [A4 A5]. pose proof (loose_ends k (conj A1 A2) A4 A5) as A6.
        assert (C : (exists ps, e = EObject ps /\ Sp (cat [tok (TKeyword KExport); tok (TKeyword KDefault); tok (TPunct POpenBrace); pr S NProps ps]) l)
          \/ (exists es, e = EArray es /\ Sp (cat [tok (TKeyword KExport); tok (TKeyword KDefault); tok (TPunct POpenBracket); pr S NElems es]) l)
          \/ Sp (cat [tok (TKeyword KExport); tok (TKeyword KDefault); unless opens_badly (unless_async (pr S (NX 1) e) (paren pr (in_ true S) e)) (paren pr (in_ true S) e)]) l) by (destruct e; eauto).
        clear H. destruct C as [(ps & -> & C)|[(es & -> & C)|C]]; sp.
        * eapply std_export_default_object; prems'.
        * eapply std_export_default_array; prems'.
        * destruct (wrapped_async_ok opens_badly S 1 e _ k (le_n _) ltac:(eassumption) Hk A6 eq_refl) as (W1 & W2 & W4). flat.
          unfold opens_badly in W2. apply orb_false_elim in W2 as [W2 W3].
          eapply std_export_default; [prem|prem|exact W2| |left; exact W4|exact W1|exact A4|exact A5]. intros E. rewrite E in W3. discriminate.
      + (* declaration *)
        destruct d as [[]|[i9 ps9 b9 gen9 a9]|[[w|] h ms]| |]; sp; flat;
          [eapply std_export_var|destruct (A3 eq_refl); eapply std_export_let|destruct (A3 eq_refl); eapply std_export_const|eapply std_export_function|eapply std_export_class]; prems'.
      + destruct src; sp. eapply std_export_from; prems'.
      + sp. flat. eapply std_export_names; prems'. left. discriminate.
      + destruct src; sp. eapply std_export_all; prems'.
  Qed.
  Lemma imports_ok S ns l k : Sp (imports pr S ns) l -> k <> [] -> hd_tok k = TIdent -> std S NImports (l ++ k) ns k.
  Proof.
    intros H Hk A.
    assert (C : Sp (imports pr S ns) l -> (exists w, ns = [ISNamespace w]) \/ (exists v w, ns = [ISDefault v; ISNamespace w]) \/ (exists v, ns = [ISDefault v])
      \/ (exists v r, ns = ISDefault v :: r /\ Sp (cat [only_if (bindable S v); spelled_as TIdent v; tok (TPunct PComma); import_names pr S r]) l)
      \/ Sp (import_names pr S ns) l).
    { clear H. intros H. unfold imports in H. destruct ns as [|[x y|x|x] [|[x' y'|x'|x'] [|z r]]]; eauto 8. }
    specialize (C H). destruct C as [(w & ->)|[(v & w & ->)|[(v & ->)|[(v & r & -> & C)|C]]]]; cbn [imports] in H; [..|clear H|clear H]; unfold import_names in *; sp; flat.
    - eapply std_imports_all; prems.
    - eapply std_imports_both; prems.
    - eapply std_imports_default; prems.
    - eapply std_imports_default_names; prems.
    - eapply std_imports_names; prems.
  Qed.

  Lemma list_inv S c l v l' : std S c l v l' ->
    match c return ty c -> Prop with
    | NItems => fun _ => l = l' \/ exists p l1, std S NItem l p l1
    | NCases => fun _ => l = l' \/ exists p l1, std S NCase l p l1
    | NModule => fun _ => l = l' \/ exists p l1, std S NModItem l p l1
    | _ => fun _ => True
    end v.
  Proof. destruct 1; eauto. Qed.
  Lemma step_ok : good (step odd pr).
  Proof.
    intros S c v l k H Hk A. destruct c; cbn [step ty] in *; cbn [after] in A.
    - (* NX *) destruct (n <=? 19) eqn:N; sp. apply expr_ok; auto. apply Nat.leb_le. exact N.
    - (* commas *) destruct v as [|e [|e' r]]; sp; [eapply std_commas_one|eapply std_commas_more]; prems.
    - (* arg *)
      assert (C : (exists x, v = ESpread x /\ Sp (cat [tok (TPunct PSpread); pr S (NX 1) x]) l) \/ Sp (pr S (NX 1) v) l) by (destruct v; eauto).
      clear H. destruct C as [(x & -> & C)|C]; sp; [eapply std_arg_spread|eapply std_arg]; prems.
    - (* args *) destruct v as [|e [|e' r]]; sp; [eapply std_args_none|eapply std_args_last|eapply std_args_more]; prems.
    - (* elements *)
      destruct v as [|[e|] r]; sp; [eapply std_elems_none; prems| |eapply std_elems_hole; prems].
      destruct r as [|e' r]; sp; [eapply std_elems_last|eapply std_elems_more]; prems.
    - (* props *) destruct v as [|e [|e' r]]; sp; [eapply std_props_none|eapply std_props_last|eapply std_props_more]; prems.
    - apply property_ok; auto.
    - destruct v as [key c]. apply prop_key_ok; auto.
    - (* quasis *)
      destruct v as [[|e [|e' es]] [|q [|q' qs]]]; sp; [eapply std_quasis_last|eapply std_quasis_more..]; prems.
    - (* param *)
      destruct v as [e|x]; sp. assert (C : (exists y, x = PRestElement y /\ Sp (cat [tok (TPunct PSpread); pr S NPat y]) l) \/ (Sp (pr S NPatDefault x) l)).
      { destruct x; eauto. }
      clear H. destruct C as [(y & -> & C)|C]; sp.
      + eapply std_param_rest; prems. destruct A as [A|[_ A]]; [exact A|]. destruct (A y eq_refl).
      + eapply std_param. prems. cbn [after]. destruct A as [A|[A _]]; (split; [split; [|intros _; right; split]|]; rewrite A; discriminate).
    - (* params *)
      destruct v as [|a [|a' r]]; [sp; eapply std_params_none; prems| |].
      { assert (C : Sp (cat [pr S NParam a; tok (TPunct PCloseParen)]) l) by (destruct a as [|[]]; exact H). clear H. sp. eapply std_params_last; prems. }
      assert (C : (forall x, a <> FAPat (PRestElement x)) /\ Sp (cat [pr S NParam a; tok (TPunct PComma); pr S NParams (a' :: r)]) l).
      { destruct a as [e|[]]; sp'; (split; [discriminate|exact H]). }
      clear H. destruct C as [C H]. sp. eapply std_params_more; prems.
    - (* pattern *)
      destruct v; sp; [eapply std_pat_name|eapply std_pat_object|eapply std_pat_array]; prems.
    - (* pattern with default *)
      destruct A as [A1 A2]. assert (C : (exists y e, v = PAssignment y e /\ Sp (cat [pr S NPat y; tok (TPunct PAssign); pr (yield_ true S) (NX 1) e]) l) \/ Sp (pr S NPat v) l) by (destruct v; eauto 6).
      clear H. destruct C as [(y & e & -> & C)|C]; sp; [eapply std_pat_default|eapply std_pat_plain]; prems.
    - (* pattern elements *)
      destruct v as [|[[x|e]|] r]; sp; [eapply std_pat_elems_none; prems| |eapply std_pat_elems_hole; prems].
      destruct r as [|e' r]; sp; [eapply std_pat_elems_last|eapply std_pat_elems_more]; prems.
    - (* pattern properties *)
      destruct v as [|p r]; sp; [eapply std_pat_props_none; prems|].
      assert (C : (exists x, p = OPPRest (PRestElement x) /\ r = [] /\ Sp (cat [tok (TPunct PSpread); pr S NPat x; tok (TPunct PCloseBrace)]) l)
        \/ (r = [] /\ Sp (cat [pr S NPatProp p; tok (TPunct PCloseBrace)]) l)
        \/ Sp (cat [pr S NPatProp p; tok (TPunct PComma); pr S NPatProps r]) l).
      { destruct p as [p|[]], r; eauto 6. }
      clear H. destruct C as [(x & -> & -> & C)|[(-> & C)|C]]; sp; flat.
      + eapply std_pat_props_last; [eapply std_pat_prop_rest|]; prems.
      + eapply std_pat_props_last; prems.
      + eapply std_pat_props_more; prems.
    - apply pat_property_ok; auto.
    - (* body *)
      sp. rewrite (split_ok v) at 1. flat. eapply std_body; prems. apply (quietly (fn_ true (labels_ [] S)) NItems (snd (split_directives v))); [reflexivity|eassumption|discriminate].
    - (* directives *)
      destruct v as [|[x [|w|w|b|p f|t]|d|t] r]; sp; [apply std_directives_none|].
      match goal with H : text_eqb x _ = true |- _ => apply text_eqb_eq in H; subst x end.
      flat. eapply std_directives; [prem|apply text_neqb; assumption|apply unquote_ok|apply semicolon_ends; ne|prems].
    - (* items *)
      destruct v as [|p ps]; sp; [apply std_items_none|]. flat.
      assert (D : std S NItems (u1 ++ k) ps k) by prems.
      eapply std_items; [|exact D]. prems. cbn [after].
      destruct (list_inv _ _ _ _ _ D) as [->|(x & l1 & X)]; [exact A|]. eapply item_goes; exact X.
    - (* item *)
      destruct A as [A1 A2]. destruct v as [x w|d|t]; sp.
      + destruct d as [[]| | | |]; sp; flat; [eapply std_item_let|eapply std_item_const|eapply std_item_function|eapply std_item_class]; prems'.
      + assert (C : Sp (pr S NStmt t) l \/ exists w ps b, t = SExpr (EFunction (mkFunction (Some w) ps b false true))
          /\ Sp (cat [mark true; pr S (NFunction true true) (mkFunction (Some w) ps b false true)]) l).
        { destruct t as [e| | | | | | | | | | | | | | | | | |]; auto. destruct e as [| | | | | | | | |f| | | | | | | | | | | | | | |]; auto.
          destruct f as [[w|] ps b [|] [|]]; eauto 6. }
        clear H. destruct C as [C|(w & ps & b & -> & C)]; [eapply std_item_stmt; prems|]. sp. flat. eapply std_item_async; prems.
    - apply statement_ok; auto.
    - (* block *) sp. flat. eapply std_block; prems.
    - (* var *)
      destruct v as [x [e|]].
      + assert (C : Sp (cat [pr S NPat x; tok (TPunct PAssign); pr S (NX 1) e]) l) by (destruct x; exact H). clear H. sp. eapply std_var_init; prems.
      + destruct x; sp. eapply std_var; prems. destruct k0; discriminate.
    - (* vars *)
      unfold declarators in H. destruct v as [|x [|x' r]]; sp; [eapply std_vars_one|eapply std_vars_more]; prems.
    - (* case *)
      destruct v as [[e|] ps]; sp; flat; [eapply std_case|eapply std_case_default]; prems; cbn [after]; destruct A as [A|[A|A]]; rewrite A; split; discriminate.
    - (* cases *)
      destruct v as [|c cs]; sp; [apply std_cases_none|]. flat.
      assert (D : std S NCases (u1 ++ k) cs k) by prems.
      eapply std_cases; [|exact D]. prems. cbn [after].
      destruct (list_inv _ _ _ _ _ D) as [->|(x & l1 & X)]; [left; exact A|]. apply std_head in X. cbn [head_of] in X.
      destruct (hd_tok (u1 ++ k)) as [| | | | | | |[]|[]|[]|]; try discriminate; auto.
    - (* function *)
      destruct v as [i ps b gen as_]. unfold function_parts in *. destruct i as [w9|]; sp.
      + match goal with H : Bool.eqb _ _ = true |- _ => apply Bool.eqb_prop in H; subst as_ end.
        destruct gen; sp; flat; (eapply std_function_named; [intros -> ->; first [reflexivity|discriminate]|first [reflexivity|cbn; prem]|prem|intros V9; rewrite V9 in *; destruct odd; [discriminate|reflexivity]|prems..]).
      + match goal with H : Bool.eqb _ _ = true |- _ => apply Bool.eqb_prop in H; subst as_ end.
        destruct named; [discriminate|]. destruct gen; sp; flat; (eapply std_function_anon; [first [reflexivity|cbn; prem]|prems..]).
    - (* pattern assigned to *)
      destruct v; sp; flat; [eapply std_target_array|eapply std_target_object]; prems.
    - (* target *)
      destruct (is_pattern v) eqn:Ip; [eapply std_base_pattern; prems|].
      assert (C : (exists w, v = EIdent w /\ Sp (cat [only_if (assignable S (EIdent w) && free w); spelled_as TIdent w]) l)
        \/ Sp (cat [only_if (negb b && target S v); pr S (NX 17) v]) l) by (destruct v; eauto).
      clear H. destruct C as [(w & -> & C)|C]; sp; flat; [eapply std_base_name; prems|]. subst b. eapply std_base_target; prems.
    - (* target with default *)
      assert (C : (exists a d, v = EAssignment AEqual (ALExpr a) d /\ Sp (cat [pr S (NTargetBase b) a; tok (TPunct PAssign); pr S (NX 1) d]) l)
        \/ Sp (pr S (NTargetBase b) v) l) by (destruct v; try (right; exact H); cases H; first [left; eauto; fail|right; exact H]).
      clear H. destruct C as [(a & d & -> & C)|C]; sp; flat; [eapply std_elem_default|eapply std_elem]; prems.
    - (* elements *)
      destruct v as [|[e|] r]; [sp; eapply std_telems_none; prems| |sp; eapply std_telems_hole; prems].
      assert (C : (exists x, e = ESpread x /\ r = [] /\ Sp (cat [tok (TPunct PSpread); pr S (NTargetBase b) x; tok (TPunct PCloseBracket)]) l)
        \/ (r = [] /\ Sp (cat [pr S (NTargetElem b) e; tok (TPunct PCloseBracket)]) l)
        \/ Sp (cat [pr S (NTargetElem b) e; tok (TPunct PComma); pr S (NTargetElems b) r]) l).
      { destruct r; [|right; right; destruct e; exact H]. destruct e; eauto 6. }
      clear H. destruct C as [(x & -> & -> & C)|[(-> & C)|C]]; sp; flat; [eapply std_telems_rest|eapply std_telems_last|eapply std_telems_more]; prems.
    - apply target_property_ok; auto.
    - (* properties *)
      destruct v as [|p r]; [sp; eapply std_tprops_none; prems|].
      assert (C : (exists x, p = OPSpread (ESpread x) /\ r = [] /\ Sp (cat [only_if (is_target x); tok (TPunct PSpread); pr S (NTargetBase b) x; tok (TPunct PCloseBrace)]) l)
        \/ (r = [] /\ Sp (cat [pr S (NTargetProp b) p; tok (TPunct PCloseBrace)]) l)
        \/ Sp (cat [pr S (NTargetProp b) p; tok (TPunct PComma); pr S (NTargetProps b) r]) l).
      { destruct r; [|right; right; destruct p as [|[]]; exact H]. destruct p as [|[]]; eauto 6. }
      clear H. destruct C as [(x & -> & -> & C)|[(-> & C)|C]]; sp; flat; [eapply std_tprops_rest|eapply std_tprops_last|eapply std_tprops_more]; prems.
    - (* arrow argument *)
      destruct v; sp; try (solve [eapply std_arrow_arg; prems]); try (solve [eapply std_arrow_pattern; prems]). cases H; sp; flat; [eapply std_arrow_pattern_default|eapply std_arrow_default|eapply std_arrow_pattern_default]; prems.
    - (* arrow parameters *)
      destruct v as [|[e|[]] r]; sp; [eapply std_arrow_none; prems|destruct r; sp; [eapply std_arrow_last; prems|eapply std_arrow_more; prems]|..].
      all: destruct r; sp. eapply std_arrow_rest; prems.
    - (* parameters of asynchronous arrow functions *)
      assert (C : (v = [] /\ Sp (tok (TPunct PCloseParen)) l)
        \/ (exists e, v = [FAExpr (ESpread e)] /\ Sp (cat [tok (TPunct PSpread); pr S (NTargetBase true) e; tok (TPunct PCloseParen)]) l)
        \/ (exists e, v = [FAExpr e] /\ Sp (cat [only_if (not_await e); pr S NArrowArg e; tok (TPunct PCloseParen)]) l)
        \/ (exists e r, v = FAExpr e :: r /\ Sp (cat [only_if (not_await e); pr S NArrowArg e; tok (TPunct PComma); pr S NArrowAsync r]) l)).
      { destruct v as [|[e|x] [|y r]]; [left; auto|destruct e; eauto 6|right; right; right; destruct e; eauto|destruct (Sp_none _ H)..]. }
      clear H. destruct C as [[-> C]|[(e & -> & C)|[(e & -> & C)|(e & r & -> & C)]]]; sp; flat;
        [eapply std_async_none|eapply std_async_rest|eapply std_async_last|eapply std_async_more]; prems.
    - (* arrow head *) destruct async; [|sp; eapply std_arrow_parens; prems].
      assert (C : (exists w, v = [FAPat (PIdentifier w)] /\ Sp (cat [only_if (free w && not_await (EIdent w)); spelled_as TIdent (str "async"); tight (spelled_as TIdent w)]) l)
        \/ Sp (cat [spelled_as TIdent (str "async"); tight (tok (TPunct POpenParen)); pr S NArrowAsync v]) l).
      { destruct v as [|[|[]] []]; eauto. }
      clear H. destruct C as [(w & -> & C)|C]; sp; flat; [eapply std_arrow_async_name|eapply std_arrow_async_parens]; prems.
    - (* init *)
      destruct v as [[[] vs|e]|]; sp; [eapply std_init_var; prems|eapply std_init_let; prems|eapply std_init_const; prems| |apply std_init_none].
      assert (X : (match e with ESequence [_] | ESequence [] => False | _ => True end) /\ Sp (pr (in_ false S) NCommas (parts e)) l).
      { destruct e as [| | | | | | | | | | | | | | | | |[|a [|b r]]| | | | | | |]; sp; auto. }
      clear H. destruct X as [X H]. rewrite <- (parts_seq e X) at 1. eapply std_init_expr. prems.
    - (* left *)
      destruct v as [[] [x [e|]]|e]; sp; [eapply std_left_var; prems|eapply std_left_let; prems|eapply std_left_const; prems|].
      assert (C : Sp (pr S (NTarget false) e) l \/ Sp (cat [only_if (is_target e); pr S (NX 17) e]) l) by (destruct e; auto).
      clear H. destruct C as [C|C]; sp; [eapply std_left_pattern|eapply std_left_expr]; prems.
    - (* opt *) destruct v as [e|]; sp; [eapply std_opt; prems|apply std_opt_none].
    - (* loop *) sp. flat. eapply std_loop; prems.
    - (* handler *) destruct v as [[x|] h]; sp; flat; [eapply std_handler|eapply std_handler_plain]; prems.
    - (* class *)
      destruct v as [[w|] h ms]; [|destruct h]; sp; match goal with H : (_ <=? _) = true |- _ => apply Nat.leb_le in H end; flat.
      + match goal with H : text_eqb w _ = false |- _ => apply text_neqb in H end. eapply std_class_named; prems.
      + destruct named; [discriminate|]. eapply std_class_anon; prems.
    - (* heritage *) destruct v as [e|]; sp; flat; [eapply std_heritage; prems; apply stays_call; [lia|rewrite A; discriminate]|apply std_heritage_none; exact A].
    - (* members *) destruct v as [|m ms]; sp; flat; [eapply std_members_none|eapply std_members]; prems.
    - apply class_member_ok; auto.
    - (* module *)
      destruct v as [|p ps]; sp; [apply std_module_none|]. flat.
      assert (D : Sp (pr S NModule ps) u1 /\ (loose p = true -> u1 = [] \/ forall k, newline (u1 ++ k) = true /\ carries_on (hd_tok (u1 ++ k)) = false)).
      { destruct (loose p); [|split; [assumption|discriminate]]. match goal with H : Sp (apart _) _ |- _ => apply Sp_apart in H as [H1 H2] end. auto. }
      destruct D as [D1 D2]. assert (D : std S NModule (u1 ++ k) ps k) by prems.
      eapply std_module; [|exact D]. eapply IH; [eassumption|ne|]. cbn [after]. split.
      + destruct (list_inv _ _ _ _ _ D) as [->|(x & l1 & X)]; [rewrite A; split; discriminate|]. apply std_head in X. cbn [head_of] in X.
        split; intros E; rewrite E in X; discriminate.
      + intros L. destruct (D2 L) as [->|N].
        * cbn [app]. unfold fresh, follow, goes_on. rewrite A. split; [split; [discriminate|auto]|reflexivity].
        * destruct (N k) as [N1 N2]. unfold carries_on in N2. apply orb_false_elim in N2 as [N2 N3]. apply negb_false_iff in N2. unfold fresh. split.
          -- split; [|auto]. intros E. rewrite E in N3. discriminate.
          -- revert N2. unfold follow, goes_on. cbn [hd_tok k_tok newline k_nl]. rewrite N1. auto.
    - apply module_item_ok; auto.
    - apply imports_ok; auto.
    - (* names of imports *) destruct v as [|n [|n' r]]; sp; flat; [eapply std_import_names_none|eapply std_import_names_last|eapply std_import_names_more]; prems.
    - (* name *) destruct v as [w [v|]|w|w]; sp; flat; [eapply std_import_name_as|eapply std_import_name]; prems. apply text_neqb. assumption.
    - (* names of exports *) destruct v as [|n [|n' r]]; sp; flat; [eapply std_export_names_none|eapply std_export_names_last|eapply std_export_names_more]; prems.
    - (* name *)
      destruct v as [w [v|]], from; sp; flat.
      + eapply std_export_name_as with (t := t0) (u := t); prems. discriminate.
      + eapply std_export_name_as with (t := TIdent) (u := t); prems. left. reflexivity.
      + eapply std_export_name with (t := t); prems. discriminate.
      + eapply std_export_name with (t := TIdent); prems. left. reflexivity.
  Qed.
End Printed.

Lemma print_good odd n : good odd (print odd n) /\ stringless (print odd n).
Proof.
  induction n as [|n [IH C]].
  - split; [intros S c v l k H|intros S c v l k _ H]; destruct (Sp_none _ H).
  - split; [apply step_ok; assumption|apply stringless_step; assumption].
Qed.
Lemma program_spells odd module n ps p l : print_program odd module n ps = Some p -> Forall2 fits p l -> Forall quiet l -> spells odd module l ps.
Proof.
  intros E F Q. split; [exact Q|]. unfold print_program in E. destruct (print_good odd n) as [G C].
  assert (X := split_ok ps). destruct (split_directives ps) as [ds b]. cbn [fst snd] in X.
  assert (H : Sp (cat [print odd n top_view NDirectives ds; if module then print odd n top_view NModule b else print odd n top_view NItems b; tok TEoF]) l) by (exists p; auto).
  apply Sp_cons in H as (l1 & l2 & -> & H1 & H). apply Sp_cons in H as (l3 & l4 & -> & H2 & H). apply Sp_cons in H as (l5 & l6 & -> & H3 & H).
  apply Sp_nil in H as ->. apply Sp_tok in H3 as (w & nl & ->).
  exists ds, b, (l3 ++ [mkTk TEoF w nl]), [mkTk TEoF w nl]. split; [exact X|].
  split; [apply G; [exact H1|apply app_ne; discriminate|exact I]|].
  split; [destruct module; [apply (C top_view NModule b)|apply (C top_view NItems b)]; first [reflexivity|exact H2|discriminate]|].
  split; [|reflexivity]. destruct module; (apply G; [exact H2|discriminate|]); [reflexivity|split; discriminate].
Qed.
Lemma expression_spells odd n e p l : print_expression odd n e = Some p -> Forall2 fits p l -> Forall quiet l ->
  exists l', spells_expression odd l e l' /\ hd_tok l' = TEoF.
Proof.
  intros E F Q. destruct (print_good odd n) as [G C].
  assert (H : Sp (cat [print odd n start_view (NX 0) e; tok TEoF]) l) by (exists p; auto).
  apply Sp_cons in H as (l1 & l2 & -> & H1 & H). apply Sp_cons in H as (l3 & l4 & -> & H2 & H).
  apply Sp_nil in H as ->. apply Sp_tok in H2 as (w & nl & ->). exists [mkTk TEoF w nl]. split; [|reflexivity].
  split; [exact Q|]. split; [|reflexivity]. apply G; [exact H1|discriminate|]. apply stays_tok; discriminate.
Qed.
