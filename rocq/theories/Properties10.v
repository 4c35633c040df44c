(** C48: what an error says when it is written out. *)
From Verif Require Import Safe Properties2 Properties3 Lexer Display.
Open Scope string_scope.
Open Scope nat_scope.
Open Scope list_scope.

(** ** Reading numbers back *)
Definition digit (c : N) : Prop := (48 <= c <= 57)%N.
Definition value (w : text) : nat := fold_left (fun a c => 10 * a + (N.to_nat c - 48)) w 0.
(** [w] is the usual way to write [k]: digits, the first of several not zero. *)
Definition numeral (w : text) (k : nat) : Prop :=
  Forall digit w /\ value w = k /\ match w with [] => False | c :: r => r = [] \/ c <> 48%N end.

Lemma digits_spec : forall n k acc, k <= n ->
  exists d, digits n k acc = d ++ acc /\ numeral d k.
Proof.
  assert (D : forall k, digit (N.of_nat (48 + k mod 10))) by (intros k; pose proof (Nat.mod_upper_bound k 10); unfold digit; lia).
  assert (V : forall k, N.to_nat (N.of_nat (48 + k mod 10)) - 48 = k mod 10) by (intros k; rewrite Nat2N.id; lia).
  assert (Z : forall k, k < 10 -> numeral [N.of_nat (48 + k mod 10)] k).
  { intros k Hk. split; [constructor; [apply D|constructor]|]. split; [|auto]. unfold value. cbn [fold_left]. rewrite V, Nat.mod_small; lia. }
  induction n as [|n IH]; intros k acc Hk; cbn [digits].
  - eexists [_]. split; [reflexivity|]. apply Z. lia.
  - destruct (k <? 10) eqn:E.
    + eexists [_]. split; [reflexivity|]. apply Z. apply Nat.ltb_lt. exact E.
    + apply Nat.ltb_ge in E. assert (K : k / 10 <= n) by (pose proof (Nat.div_lt k 10); lia).
      destruct (IH (k / 10) (N.of_nat (48 + k mod 10) :: acc) K) as (d & -> & H1 & H2 & H3).
      exists (d ++ [N.of_nat (48 + k mod 10)]). rewrite <- app_assoc. split; [reflexivity|]. split; [|split].
      * apply Forall_app. split; [exact H1|]. constructor; [apply D|constructor].
      * unfold value in *. rewrite fold_left_app, H2. cbn [fold_left]. rewrite V. pose proof (Nat.div_mod k 10). lia.
      * destruct d as [|c r]; [destruct H3|]. right. intros ->. destruct H3 as [->|H3]; [|congruence].
        assert (K0 : 0 = k / 10) by exact H2. pose proof (Nat.div_le_lower_bound k 10 1). lia.
Qed.
Lemma decimal_numeral k : numeral (decimal k) k.
Proof. destruct (digits_spec k k [] (le_n _)) as (d & E & H). unfold decimal. rewrite E, app_nil_r. exact H. Qed.
Theorem C48_numeral : forall k, numeral (decimal k) k.
Proof. exact decimal_numeral. Qed.
Print Assumptions C48_numeral.
Example C48_numeral_case : map decimal [0; 7; 10; 1906] = map str ["0"; "7"; "10"; "1906"].
Proof. reflexivity. Qed.

(** ** No two errors are written alike, unless they agree on kind, place and text *)
Definition alike (dbg : token -> text) (e e' : error) : Prop :=
  match e, e' with
  | UnexpectedToken p m, UnexpectedToken p' m' => p = p' /\ show_message dbg m = show_message dbg m'
  | UnexpectedEoF, UnexpectedEoF => True
  | ParseAfterEoF, ParseAfterEoF => True
  | UnableToReinterpret p _ _, UnableToReinterpret p' _ _ => p = p'
  | Redecl p w, Redecl p' w' => p = p' /\ w = w'
  | OperationError p m, OperationError p' m' => p = p' /\ m = m'
  | InvalidGetterParams p, InvalidGetterParams p' => p = p'
  | InvalidSetterParams p, InvalidSetterParams p' => p = p'
  | NonStrictFeatureInStrictContext p m, NonStrictFeatureInStrictContext p' m' => p = p' /\ m = m'
  | _, _ => False
  end.

Lemma split_at (P : N -> Prop) a b x y r s : Forall P a -> Forall P b -> ~ P x -> ~ P y ->
  a ++ x :: r = b ++ y :: s -> a = b /\ x = y /\ r = s.
Proof.
  revert b. induction a as [|c a IH]; intros [|d b] Ha Hb Hx Hy E; cbn in E.
  - injection E as -> ->. auto.
  - assert (x = d) by congruence. subst. inversion Hb; contradiction.
  - assert (c = y) by congruence. subst. inversion Ha; contradiction.
  - assert (E1 : a ++ x :: r = b ++ y :: s) by congruence. assert (E2 : c = d) by congruence.
    inversion Ha; inversion Hb; subst. destruct (IH b) as (X1 & X2 & X3); subst; auto.
Qed.
Lemma split_end (P : N -> Prop) a b x y r s : Forall P a -> Forall P b -> ~ P x -> ~ P y ->
  r ++ x :: a = s ++ y :: b -> a = b /\ r = s.
Proof.
  intros Ha Hb Hx Hy E. apply (f_equal (@rev N)) in E. rewrite !rev_app_distr in E. cbn [rev] in E. rewrite <- !app_assoc in E. cbn [app] in E.
  apply (split_at P) in E; auto using Forall_rev. destruct E as (E1 & _ & E2). split; [rewrite <- (rev_involutive a), E1; apply rev_involutive|].
  rewrite <- (rev_involutive r), E2. apply rev_involutive.
Qed.
Lemma decimal_inj a b : decimal a = decimal b -> a = b.
Proof.
  intros E. destruct (decimal_numeral a) as (_ & <- & _), (decimal_numeral b) as (_ & <- & _). rewrite E. reflexivity.
Qed.
Lemma decimal_digits a : Forall digit (decimal a).
Proof. apply decimal_numeral. Qed.
Lemma colon_no : ~ digit 58%N. Proof. unfold digit. lia. Qed.
Lemma position_inj p q x y r s : ~ digit x -> ~ digit y ->
  show_position p ++ x :: r = show_position q ++ y :: s -> p = q /\ x :: r = y :: s.
Proof.
  destruct p as [a b], q as [c d]. unfold show_position. cbn [p_line p_col]. intros Hx Hy E. rewrite <- !app_assoc in E. change (str ":") with [58%N] in E. cbn [app] in E.
  apply (split_at digit) in E; auto using decimal_digits, colon_no. destruct E as (E1 & _ & E). apply decimal_inj in E1 as ->.
  apply (split_at digit) in E; auto using decimal_digits. destruct E as (E1 & -> & ->). apply decimal_inj in E1 as ->. auto.
Qed.
Definition no_space (c : N) : Prop := c <> 32%N.
Lemma position_no_space p : Forall no_space (show_position p).
Proof.
  assert (D : forall k, Forall no_space (decimal k)) by (intros k; eapply Forall_impl; [|apply decimal_digits]; unfold digit, no_space; intros c; lia).
  unfold show_position. rewrite !Forall_app. repeat split; auto. constructor; [unfold no_space; discriminate|constructor].
Qed.
Lemma position_end_inj p q r s : r ++ str " at " ++ show_position p = s ++ str " at " ++ show_position q -> p = q /\ r = s.
Proof.
  intros E. change (str " at ") with ([32; 97; 116] ++ [32])%N in E. rewrite <- !app_assoc in E. rewrite !(app_assoc r), !(app_assoc s) in E. cbn [app] in E.
  apply (split_end no_space) in E; auto using position_no_space; try (intros X; apply X; reflexivity). destruct E as [E1 E2].
  assert (E : show_position p ++ 0%N :: [] = show_position q ++ 0%N :: []) by congruence.
  assert (Z : ~ digit 0%N) by (unfold digit; lia). split; [apply (position_inj p q 0%N 0%N [] [] Z Z E)|]. apply app_inv_tail in E2. exact E2.
Qed.
Lemma str_inj a b : str a = str b -> a = b.
Proof.
  revert b. unfold str. induction a as [|c a IH]; intros [|d b] E; cbn in E; try discriminate; [reflexivity|].
  injection E as E1 E2. f_equal; [|apply IH; exact E2]. rewrite <- (ascii_N_embedding c), E1. apply ascii_N_embedding.
Qed.
Theorem C48_tells_apart : forall dbg other e e', e <> OtherError -> e' <> OtherError ->
  show_error dbg other e = show_error dbg other e' -> alike dbg e e'.
Proof.
  intros dbg other e e' He He' H.
  assert (X : forall (a : text) b b', a ++ b = a ++ b' -> b = b') by (intros a b b'; apply app_inv_head).
  destruct e as [p m| | |p f t|p w|p m|p|p|p m|]; [..|congruence]; (destruct e' as [p' m'| | |p' f' t'|p' w'|p' m'|p'|p'|p' m'|]; [..|congruence]);
    unfold show_error in H; try (exfalso; revert H; repeat match goal with |- context [show_position ?p] => generalize (show_position p); intro end; cbn; discriminate);
    cbn [alike]; auto.
  - apply X in H. change (str ": ") with [58; 32]%N in H. cbn [app] in H. apply position_inj in H; auto using colon_no. destruct H as [-> H]. injection H as H. auto.
  - rewrite !app_assoc in H. rewrite <- !(app_assoc _ (str " at ")) in H. apply position_end_inj in H. apply H.
  - apply X in H. change (str " shadows parent: ") with (32%N :: str "shadows parent: ") in H. rewrite <- !app_comm_cons in H. apply position_inj in H; try (unfold digit; lia).
    destruct H as [-> H]. split; [reflexivity|]. injection H as H. exact H.
  - apply X in H. change (str ": ") with [58; 32]%N in H. cbn [app] in H. apply position_inj in H; auto using colon_no. destruct H as [-> H]. injection H as H. apply str_inj in H. auto.
  - apply X in H. change (str ", getter methods cannot take arguments") with (44%N :: str " getter methods cannot take arguments") in H. apply position_inj in H; try (unfold digit; lia). apply H.
  - apply X in H. change (str ", setter methods must take only one argument") with (44%N :: str " setter methods must take only one argument") in H.
    apply position_inj in H; try (unfold digit; lia). apply H.
  - apply X in H. change (str " in a strict context at ") with (str " in a strict context" ++ str " at ") in H. rewrite <- !app_assoc in H. rewrite !(app_assoc (str m)), !(app_assoc (str m')) in H. apply position_end_inj in H.
    destruct H as [-> H]. apply app_inv_tail in H. apply str_inj in H. auto.
Qed.
Print Assumptions C48_tells_apart.

(** The parser returns no error of the last kind. *)
Theorem C48_own_errors : forall A sc tolerant module js, ~ api_outcome sc tolerant module js (@Err A OtherError).
Proof. intros A sc tolerant module js H. destruct (api_error _ _ _ _ _ _ H) as [s H']. exact H'. Qed.
Print Assumptions C48_own_errors.

(** ** The place of an unexpected token, as written *)
(** No token begins with a line terminator of its own. *)
Definition visible (js : text) (items : list raw) : Prop :=
  forall r before after, In r items -> js = before ++ after -> it_start (r_item r) = byte_len before -> not_crlf after.
Definition about (js : text) (i : item) (m : message) : Prop :=
  match m with
  | MExpected _ t => t = it_tok i
  | MUnexpected w _ => w = text_of js i
  | MPlain _ => False
  end.
Lemma not_only_comments items : ends_with_eof items -> ~ only_comments items.
Proof.
  induction items as [|r l IH]; [intros []|]. cbn [ends_with_eof]. intros H F. inversion F as [|? ? F1 F2]; subst.
  destruct l; [destruct (it_tok (r_item r)); discriminate|]. apply IH; [apply H|exact F2].
Qed.
Theorem C48_place : forall A dbg other sc tolerant module js p m,
  scan_contract js (sc_scan sc js) -> cr_followed js -> visible js (sc_scan sc js) ->
  api_outcome sc tolerant module js (@Err A (UnexpectedToken p m)) ->
  exists r before after line col,
    In r (sc_scan sc js) /\ js = before ++ after /\ it_start (r_item r) = byte_len before
    /\ numeral line (p_line (true_position before)) /\ numeral col (p_col (true_position before))
    /\ about js (r_item r) m
    /\ show_error dbg other (UnexpectedToken p m)
       = str "Unexpected Token at " ++ line ++ str ":" ++ col ++ str ": " ++ show_message dbg m.
Proof.
  intros A dbg other sc tolerant module js p m Hc Hcr Hv H.
  assert (K : exists i, input_item (sc_scan sc js) i /\ item_position (get_lines js) (it_start i) = Some p /\ about js i m).
  { destruct m as [l t|w note|note]; [exact (C14_expected _ _ _ _ _ _ _ _ H)|exact (C14_unexpected _ _ _ _ _ _ _ _ H)|].
    destruct (api_error _ _ _ _ _ _ H) as (s & _ & N). destruct (N Hc). }
  destruct K as (i & Hi & Hp & Ha).
  assert (R : exists r, In r (sc_scan sc js) /\ i = r_item r).
  { destruct Hi as [[_ Hi]|Hi]; [|exact Hi]. exfalso. destruct Hc as (_ & _ & Hc). exact (not_only_comments _ Hc Hi). }
  destruct R as (r & Hr & ->).
  assert (B : boundary js (it_start (r_item r))).
  { destruct Hc as (Hc & _). rewrite Forall_forall in Hc. apply (Hc r Hr). }
  destruct B as (before & after & E & L). symmetry in L.
  exists r, before, after, (decimal (p_line (true_position before))), (decimal (p_col (true_position before))).
  split; [exact Hr|]. split; [exact E|]. split; [exact L|]. split; [apply decimal_numeral|]. split; [apply decimal_numeral|]. split; [exact Ha|].
  rewrite L in Hp. subst js. rewrite C12_item_position in Hp by eauto. injection Hp as <-.
  cbn [show_error]. unfold show_position. rewrite <- !app_assoc. reflexivity.
Qed.
Print Assumptions C48_place.

(** A scanner for the cases below. *)
Definition ex_dbg (t : token) : text := match t with TPunct PCloseBracket => str "Punct(CloseBracket)" | _ => str "..." end.
Definition visibleb (js : text) (items : list raw) : bool :=
  forallb (fun r => match drop_bytes (it_start (r_item r)) js with Some (c :: _) => negb (N.eqb c CR) && negb (N.eqb c LF) | _ => true end) items.
Lemma visibleb_ok js items : visibleb js items = true -> visible js items.
Proof.
  intros H r before after Hr -> E. unfold visibleb in H. rewrite forallb_forall in H. specialize (H r Hr). rewrite E in H.
  assert (D : drop_bytes (byte_len before) (before ++ after) = Some after) by apply drop_bytes_app. rewrite D in H.
  destruct after as [|c after]; [exact I|]. apply andb_prop in H as [H1 H2]. cbn.
  split; [apply N.eqb_neq|apply N.eqb_neq]; apply negb_true_iff; assumption.
Qed.
Definition ex_source : text := [LF] ++ str "x = 1;" ++ [CR; LF] ++ str "  f(a ]".
Example C48_place_case : scan_contract ex_source (sc_scan test_scanner ex_source) /\ cr_followed ex_source
  /\ visible ex_source (sc_scan test_scanner ex_source)
  /\ exists m, api_outcome test_scanner false false ex_source (@Err Program (UnexpectedToken (mkPos 3 6) m))
     /\ show_error ex_dbg [] (UnexpectedToken (mkPos 3 6) m) = str "Unexpected Token at 3:6: Expected `Comma`; found Punct(CloseBracket)".
Proof.
  split; [apply contractb_ok; vm_compute; reflexivity|]. split; [apply cr_followed_ascii; [repeat constructor|discriminate]|].
  split; [apply visibleb_ok; vm_compute; reflexivity|]. eexists. split; [eapply (parse_outcome _ _ _ _ 200); [vm_compute; reflexivity|vm_compute; reflexivity]|].
  vm_compute. reflexivity.
Qed.
Example C48_tells_apart_case : exists note,
  api_outcome test_scanner false false (str "a() = 1") (@Err Program (UnexpectedToken (mkPos 1 4) (MUnexpected (str "=") note)))
  /\ show_error ex_dbg [] (UnexpectedToken (mkPos 1 4) (MUnexpected (str "=") note))
     = str "Unexpected Token at 1:4: Found unexpected token: =; Not at assignment target".
Proof. eexists. split; [eapply (parse_outcome _ _ _ _ 200); [vm_compute; reflexivity|vm_compute; reflexivity]|vm_compute; reflexivity]. Qed.

(** ** What was expected: in quotes, in the order given, the last of several after [or] *)
Definition quote : N := 96%N.
(** The parts of a text between quotes, and the rest of it. *)
Fixpoint quoted (inside : option text) (w : text) : list text :=
  match w, inside with
  | [], _ => []
  | c :: r, Some u => if N.eqb c quote then u :: quoted None r else quoted (Some (u ++ [c])) r
  | c :: r, None => if N.eqb c quote then quoted (Some []) r else quoted None r
  end.
Fixpoint unquoted (inside : bool) (w : text) : text :=
  match w with
  | [] => []
  | c :: r => if N.eqb c quote then unquoted (negb inside) r else if inside then unquoted true r else c :: unquoted false r
  end.
Fixpoint separators (n : nat) : text :=
  match n with
  | 0 | 1 => []
  | 2 => str ", or "
  | S n' => str ", " ++ separators n'
  end.
Definition quote_free (w : text) : Prop := ~ In quote w.

Lemma quoted_in u w r : quote_free w -> quoted (Some u) (w ++ quote :: r) = (u ++ w) :: quoted None r.
Proof.
  revert u. induction w as [|c w IH]; intros u H; cbn [app quoted].
  - rewrite N.eqb_refl, app_nil_r. reflexivity.
  - destruct (N.eqb_spec c quote) as [->|N]; [destruct H; left; reflexivity|]. rewrite IH by (intros X; apply H; right; exact X). rewrite <- app_assoc. reflexivity.
Qed.
Lemma unquoted_in w r : quote_free w -> unquoted true (w ++ quote :: r) = unquoted false r.
Proof.
  induction w as [|c w IH]; intros H; cbn [app unquoted].
  - rewrite N.eqb_refl. reflexivity.
  - destruct (N.eqb_spec c quote) as [->|N]; [destruct H; left; reflexivity|]. apply IH. intros X. apply H. right. exact X.
Qed.
Lemma quoted_one w r : quote_free w -> quoted None (str "`" ++ w ++ str "`" ++ r) = w :: quoted None r.
Proof. intros H. change (str "`") with [quote]. cbn [app quoted]. rewrite N.eqb_refl. rewrite quoted_in by exact H. reflexivity. Qed.
Lemma unquoted_one w r : quote_free w -> unquoted false (str "`" ++ w ++ str "`" ++ r) = unquoted false r.
Proof. intros H. change (str "`") with [quote]. cbn [app unquoted]. rewrite N.eqb_refl. cbn [negb]. apply unquoted_in. exact H. Qed.

Definition wrap (s : string) : text := str "`" ++ str s ++ str "`".
(** The text for the expectations from the second on. *)
Fixpoint others (l : list string) : text :=
  match l with
  | [] => []
  | [s] => str ", or " ++ wrap s
  | s :: r => str ", " ++ wrap s ++ others r
  end.
Lemma expectations_from_spec n l : forall i s, i + S (length l) = n -> 1 < n -> 0 < i ->
  str ", " ++ join (str ", ") (expectations_from i n (s :: l)) = others (s :: l).
Proof.
  induction l as [|s' l IH]; intros i s Hi Hn Hp.
  - cbn [expectations_from length] in *. replace (i =? n - 1) with true by (symmetry; apply Nat.eqb_eq; lia).
    replace (1 <? n) with true by (symmetry; apply Nat.ltb_lt; lia). reflexivity.
  - specialize (IH (S i) s' ltac:(cbn in *; lia) Hn ltac:(lia)).
    change (others (s :: s' :: l)) with (str ", " ++ wrap s ++ others (s' :: l)). rewrite <- IH. clear IH. cbn [length] in Hi.
    remember (s' :: l) as r eqn:Er. cbn [expectations_from].
    replace (i =? n - 1) with false by (symmetry; apply Nat.eqb_neq; lia). cbn [andb]. subst r.
    cbn [join expectations_from]. unfold wrap. rewrite <- !app_assoc. reflexivity.
Qed.
Lemma show_expectations_spec s l : show_expectations (s :: l) = wrap s ++ others l.
Proof.
  unfold show_expectations. destruct l as [|s' l]; [cbn [length expectations_from join]; rewrite app_nil_r; reflexivity|].
  pose proof (expectations_from_spec (length (s :: s' :: l)) l 1 s' eq_refl ltac:(cbn; lia) ltac:(lia)) as E. rewrite <- E.
  cbn [length]. remember (s' :: l) as r eqn:Er. cbn [expectations_from].
  replace (0 =? S (S (length l)) - 1) with false by (symmetry; apply Nat.eqb_neq; lia). cbn [andb]. subst r. cbn [join expectations_from].
  unfold wrap. rewrite <- !app_assoc. reflexivity.
Qed.
Lemma skip_or w : quoted None (str ", or " ++ w) = quoted None w. Proof. reflexivity. Qed.
Lemma skip_comma w : quoted None (str ", " ++ w) = quoted None w. Proof. reflexivity. Qed.
Lemma keep_or w : unquoted false (str ", or " ++ w) = str ", or " ++ unquoted false w. Proof. reflexivity. Qed.
Lemma keep_comma w : unquoted false (str ", " ++ w) = str ", " ++ unquoted false w. Proof. reflexivity. Qed.
Lemma quoted_others l : Forall (fun s => quote_free (str s)) l -> quoted None (others l) = map str l.
Proof.
  induction l as [|s l IH]; intros F; [reflexivity|]. inversion F as [|? ? F1 F2]; subst. specialize (IH F2).
  assert (W : forall r, quoted None (wrap s ++ r) = str s :: quoted None r).
  { intros r. unfold wrap. rewrite <- !app_assoc. apply quoted_one. exact F1. }
  destruct l as [|s' l].
  - change (others [s]) with (str ", or " ++ wrap s). rewrite <- (app_nil_r (wrap s)), skip_or, W. reflexivity.
  - change (others (s :: s' :: l)) with (str ", " ++ wrap s ++ others (s' :: l)). rewrite skip_comma, W, IH. reflexivity.
Qed.
Lemma unquoted_others l : Forall (fun s => quote_free (str s)) l -> unquoted false (others l) = separators (S (length l)).
Proof.
  induction l as [|s l IH]; intros F; [reflexivity|]. inversion F as [|? ? F1 F2]; subst. specialize (IH F2).
  assert (W : forall r, unquoted false (wrap s ++ r) = unquoted false r).
  { intros r. unfold wrap. rewrite <- !app_assoc. apply unquoted_one. exact F1. }
  destruct l as [|s' l].
  - change (others [s]) with (str ", or " ++ wrap s). rewrite <- (app_nil_r (wrap s)), keep_or, W. reflexivity.
  - change (others (s :: s' :: l)) with (str ", " ++ wrap s ++ others (s' :: l)). rewrite keep_comma, W, IH. reflexivity.
Qed.
Theorem C48_expectations : forall l, Forall (fun s => quote_free (str s)) l ->
  quoted None (show_expectations l) = map str l /\ unquoted false (show_expectations l) = separators (length l).
Proof.
  intros [|s l] F; [split; reflexivity|]. inversion F as [|? ? F1 F2]; subst. rewrite show_expectations_spec. unfold wrap. rewrite <- !app_assoc.
  rewrite quoted_one, unquoted_one by exact F1. rewrite quoted_others, unquoted_others by exact F2. split; reflexivity.
Qed.
Print Assumptions C48_expectations.
Example C48_expectations_case : Forall (fun s => quote_free (str s)) ["{"; "*"; "[ident]"; "[string]"]
  /\ show_expectations ["{"; "*"; "[ident]"; "[string]"] = str "`{`, `*`, `[ident]`, or `[string]`".
Proof.
  split; [|reflexivity]. repeat constructor; intros X; cbn in X; unfold quote in X; repeat (destruct X as [X|X]; [discriminate|]); destruct X.
Qed.

(** Some errors name no expectation at all. *)
Theorem C48_something_expected_refuted : exists js p,
  api_outcome test_scanner false false js (@Err Program (UnexpectedToken p (MExpected [] (TPunct PCloseBrace)))).
Proof. exists (str "switch (a) { default: default: }"), (mkPos 1 31). eapply (parse_outcome _ _ _ _ 200); [vm_compute; reflexivity|vm_compute; reflexivity]. Qed.
Print Assumptions C48_something_expected_refuted.
(** Where a semicolon is missing, the expectations come with quotes of their own. *)
Theorem C48_quotes_refuted : exists js p l t,
  api_outcome test_scanner false false js (@Err Program (UnexpectedToken p (MExpected l t)))
  /\ quoted None (show_expectations l) <> map str l.
Proof.
  exists (str "a b"), (mkPos 1 2), ["`;`"; "`eof`"; "`}`"], TIdent.
  split; [eapply (parse_outcome _ _ _ _ 200); [vm_compute; reflexivity|vm_compute; reflexivity]|vm_compute; discriminate].
Qed.
Print Assumptions C48_quotes_refuted.
