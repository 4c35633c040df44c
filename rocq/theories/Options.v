(** What the two options change: which errors tolerant mode forgives and which one module
    mode adds.  Everything else, errors and final states included, is the same. *)
From Verif Require Export Same.
Export Parser.
Local Open Scope string_scope.

(** ** Two configurations that differ in some operations only *)
Section Differ.
  Variables g1 g2 : cfg.
  Variable F : error -> Prop.
  Hypothesis errors_alike : forall s d, mk_error g1 s d = mk_error g2 s d.

  (** The first run was stopped by one of the excused errors, or by a panic. *)
  Definition excused {B} (r : outcome B * state) : Prop :=
    match fst r with Err e => F e | Panic => True | _ => False end.
  Definition alike {B} (r1 r2 : outcome B * state) : Prop := r1 = r2 \/ excused r1.

  (** Every operation of a program, on the values it can be reached with, is alike. *)
  Definition fine_op {B} (o : op B) : Prop := forall s, alike (exec g1 o s) (exec g2 o s).
  Definition reached {call A} (p : prog call A) : A -> Prop :=
    match p in prog _ A return A -> Prop with
    | Do o => fun a => exists s s', exec g1 o s = (Ok a, s')
    | _ => fun _ => True
    end.
  Fixpoint fine {call B} (p : prog call B) : Prop :=
    match p with
    | Ret _ | Fail _ | Crash | Call _ => True
    | Do o => fine_op o
    | Bind q k =>
        fine q /\
        forall a, reached q a -> fine (k a)
    | Loop _ b => forall x, fine (b x)
    end.

  Variable call : Type -> Type.
  Variable bd : forall B, call B -> prog call B.
  Hypothesis bodies_fine : forall B (c : call B), fine (bd B c).

  Lemma run_in_alike n (rec1 rec2 : forall B, call B -> state -> outcome B * state) :
    (forall B (c : call B) s, alike (rec1 _ c s) (rec2 _ c s)) ->
    forall B (p : prog call B) s, fine p -> alike (run_in g1 n rec1 p s) (run_in g2 n rec2 p s).
  Proof.
    intros Hrec. induction p as [A a|A d|A|A o|A c|A B p IHp k IHk|A X x b IHb]; intros s Hf; cbn [run_in fine] in *.
    - left; reflexivity.
    - left. rewrite errors_alike. reflexivity.
    - left; reflexivity.
    - apply Hf.
    - apply Hrec.
    - destruct Hf as [Hp Hk]. destruct (IHp s Hp) as [E|E].
      + rewrite <- E. destruct (run_in g1 n rec1 p s) as [[a|e| |] t] eqn:R; try (left; reflexivity).
        apply IHk, Hk. destruct p; try exact Logic.I. exists s, t. exact R.
      + right. unfold excused in *. destruct (run_in g1 n rec1 p s) as [[a|e| |] t]; cbn in *; tauto.
    - assert (Hgen : forall m y t, alike (iter (fun y s' => run_in g1 n rec1 (b y) s') m y t)
                                         (iter (fun y s' => run_in g2 n rec2 (b y) s') m y t)).
      { induction m as [|m IHm]; intros y t; cbn [iter]; [left; reflexivity|].
        destruct (IHb y t (Hf y)) as [E|E].
        - rewrite <- E. destruct (run_in g1 n rec1 (b y) t) as [[[y'|a]|e| |] t']; try (left; reflexivity). apply IHm.
        - right. unfold excused in *. destruct (run_in g1 n rec1 (b y) t) as [[[y'|a]|e| |] t']; cbn in *; tauto. }
      apply Hgen.
  Qed.
  Lemma run_call_alike n : forall B (c : call B) s, alike (run_call bd g1 n c s) (run_call bd g2 n c s).
  Proof.
    induction n as [|n IH]; intros B c s; cbn [run_call]; [left; reflexivity|].
    apply run_in_alike; [exact IH|apply bodies_fine].
  Qed.
  Lemma run_alike n B (p : prog call B) s : fine p -> alike (run bd g1 n p s) (run bd g2 n p s).
  Proof. apply run_in_alike. intros. apply run_call_alike. Qed.
End Differ.

Ltac fn_of p := lazymatch p with ?f _ => fn_of f | _ => p end.
Ltac fine_step := cbn zeta; cbn [fine]; lazymatch goal with
  | |- True => exact Logic.I
  | |- fine_op _ _ _ _ => idtac
  | |- _ /\ _ => split
  | |- forall _, _ => intro
  | |- fine _ _ _ (Ret _) => exact Logic.I
  | |- fine _ _ _ (Fail _) => exact Logic.I
  | |- fine _ _ _ Crash => exact Logic.I
  | |- fine _ _ _ (Call _) => exact Logic.I
  | |- fine _ _ _ (Do _) => cbn [fine]
  | |- fine _ _ _ (Bind _ _) => cbn [fine]
  | |- fine _ _ _ (Loop _ _) => cbn [fine]
  | |- fine _ _ _ (match ?x with _ => _ end) => destruct x eqn:?
  | |- fine _ _ _ ?p => let h := fn_of p in unfold h
  end.

(** ** Tolerant mode *)
Definition forgiven_notes : list string :=
  [""; "restricted word"; "restricted ident"; "restricted ident in strict context"; "Not at assignment target";
   "Cannot delete ident in strict mode"; "Cannot increment when not at assignment target"].
Definition forgivable (e : error) : Prop :=
  match e with
  | UnexpectedToken _ (MExpected l _) => l = ["Comma"] \/ l = [")"]
  | UnexpectedToken _ (MUnexpected _ note) => In note forgiven_notes
  | ParseAfterEoF => True
  | InvalidGetterParams _ | InvalidSetterParams _ => True
  | Redecl _ w => w = str "prototype can only be declared once"
  | NonStrictFeatureInStrictContext _ f => f = "with statements" \/ f = "restriced ident"
  | _ => False
  end.
(** What a scanner that breaks its contract adds. *)
Definition scanner_error (e : error) : Prop :=
  e = UnexpectedEoF \/ exists p, e = OperationError p "Unable to get string".

Section Tolerant.
  Variable g : cfg.
  Notation g1 := (set_tol false g).
  Notation g2 := (set_tol true g).
  Notation F := (fun e => forgivable e \/ scanner_error e).

  Lemma next_item_errors s e s' : next_item g1 s = (Err e, s') ->
    e = ParseAfterEoF \/ scanner_error e.
  Proof.
    intros H. unfold scanner_error. pose proof (next_item_loop_err g1 _ _ _ _ _ H) as K. tauto.
  Qed.
  Lemma fine_comma : fine_op g1 g2 F OExpectComma.
  Proof.
    intros s. cbn [exec g_tolerant set_tol].
    assert (Hn : next_item g1 s = next_item g2 s) by (apply next_item_cfg; reflexivity).
    destruct (is_punct PComma (it_tok (st_look s))) eqn:P.
    - left. rewrite <- Hn. destruct (next_item g1 s) as [[i|e| |] t] eqn:E; try reflexivity.
      pose proof (next_item_ok _ _ _ _ E) as [-> _]. rewrite P. reflexivity.
    - right. unfold excused. destruct (next_item g1 s) as [[i|e| |] t] eqn:E; cbn.
      + pose proof (next_item_ok _ _ _ _ E) as [-> _]. rewrite P. cbn. auto.
      + destruct (next_item_errors _ _ _ E) as [->|K]; cbn; auto.
      + exact Logic.I.
      + exact (next_item_not_nofuel _ _ _ E).
  Qed.
  Lemma fine_tolerate d : (forall s, forgivable (mk_error g1 s d)) -> fine_op g1 g2 F (OTolerate d).
  Proof. intros H s. right. cbn. left. apply H. Qed.
  Lemma fine_other B (o : op B) : match o with OTolerate _ | OExpectComma => False | _ => True end -> fine_op g1 g2 F o.
  Proof.
    intros H s. left. assert (Hn : next_item g1 s = next_item g2 s) by (apply next_item_cfg; reflexivity).
    destruct o; cbn -[next_item] in *; try contradiction; rewrite ?Hn; reflexivity.
  Qed.

  Lemma bodies_tolerant B (c : call B) : fine g1 g2 F (body c).
  Proof.
    destruct c; cbn [body]; repeat
      (lazymatch goal with
       | |- fine_op _ _ _ OExpectComma => apply fine_comma
       | |- fine_op _ _ _ (OTolerate _) => apply fine_tolerate; intro; cbn; solve [auto 20]
       | |- fine_op _ _ _ _ => apply fine_other; exact Logic.I
       | |- _ => fine_step
       end).
  Qed.
End Tolerant.

(** ** Module mode *)
(** [await] taken as a name: the error is that of an identifier token spelled so. *)
Definition await_error (js : text) (g : cfg) (e : error) : Prop :=
  exists i, it_tok i = TIdent /\ slice js (it_start i) (it_end i) = Some (str "await") /\
            e = UnexpectedToken (item_pos g i) (MExpected ["variable identifier"] TIdent).

Section Module.
  Variable g : cfg.
  Notation g1 := (set_mod true g).
  Notation g2 := (set_mod false g).
  Notation F := (await_error (g_stream g) g).

  Lemma fine_guard i : it_tok i = TIdent ->
    forall o, (exists s s', exec g1 (OStr i) s = (Ok o, s')) ->
    fine_op g1 g2 F (OGuardModule (option_map (fun s => text_eqb s (str "await")) o) (FExpected i ["variable identifier"])).
  Proof.
    intros Ht o (s & s' & E) t. cbn in E. inversion E as [[E1 E2]]. subst. clear E.
    cbn [exec g_module set_mod mk_error]. destruct (slice _ _ _) as [w|] eqn:W; cbn [option_map]; [|right; exact Logic.I].
    destruct (text_eqb w (str "await")) eqn:T; [|left; reflexivity]. right. apply text_eqb_eq in T. subst w.
    exists i. rewrite Ht. auto.
  Qed.
  Lemma fine_other_m B (o : op B) : match o with OGuardModule _ _ => False | _ => True end -> fine_op g1 g2 F o.
  Proof.
    intros H s. left. assert (Hn : next_item g1 s = next_item g2 s) by (apply next_item_cfg; reflexivity).
    destruct o; cbn -[next_item] in *; try contradiction; rewrite ?Hn; reflexivity.
  Qed.

  Lemma bodies_module B (c : call B) : fine g1 g2 F (body c).
  Proof.
    destruct c; cbn [body]; repeat
      (lazymatch goal with
       | |- fine_op _ _ _ (OGuardModule _ _) => apply fine_guard; assumption
       | |- fine_op _ _ _ _ => apply fine_other_m; exact Logic.I
       | |- _ => fine_step
       end).
  Qed.
End Module.

(** ** The entry points *)
Lemma parse_of_run g n s : parse g n s =
  let (o, t) := run (@body) g n parse_parts s in
  (match o with Ok l => Ok (make_program (g_module g) l) | Err e => Err e | Panic => Panic | NoFuel => NoFuel end, t).
Proof. unfold parse. destruct (run _ g n parse_parts s) as [[l|e| |] t]; reflexivity. Qed.

Definition unforgivable {A} (o : outcome A) : Prop := forall e, o = Err e -> ~ forgivable e.

Section TolerantApi.
  Variable sc : scanner.
  Variable module : bool.
  Variable js : text.
  Hypothesis contract : scan_contract js (sc_scan sc js).
  Notation g1 := (make_cfg sc false module js).
  Notation g2 := (make_cfg sc true module js).
  Notation F := (fun e => forgivable e \/ scanner_error e).

  Lemma tolerant_alike A (r1 r2 : outcome A * state) : api_outcome sc false module js (fst r1) ->
    alike F r1 r2 -> unforgivable (fst r1) -> r2 = r1.
  Proof.
    intros Ha [E|E] Hu; [symmetry; exact E|]. exfalso. unfold excused in E. destruct r1 as [[a|e| |] s]; cbn in *; try contradiction.
    - destruct E as [E|[->|(p & ->)]].
      + exact (Hu e eq_refl E).
      + destruct (api_error _ _ _ _ _ _ Ha) as [s' H']. apply H', contract.
      + destruct (api_error _ _ _ _ _ _ Ha) as [s' H']. apply H', contract.
    - exact (api_panic _ _ _ _ _ Ha contract).
  Qed.
  Lemma tolerant_call n B (c : call B) s : alike F (run_call (@body) g1 n c s) (run_call (@body) g2 n c s).
  Proof.
    apply (run_call_alike g1 g2 F (fun _ _ => eq_refl) _ (@body)). intros. apply (bodies_tolerant g1).
  Qed.
  Lemma tolerant_parse n s : alike F (parse g1 n s) (parse g2 n s).
  Proof.
    rewrite !parse_of_run.
    assert (H : alike F (run (@body) g1 n parse_parts s) (run (@body) g2 n parse_parts s)).
    { apply (run_alike g1 g2 F (fun _ _ => eq_refl) _ (@body)); [intros; apply (bodies_tolerant g1)|].
      unfold parse_parts. repeat (fine_step; try (apply (fine_other g1); exact Logic.I)). }
    destruct H as [<-|H]; [left; reflexivity|]. right. unfold excused in *.
    destruct (run _ g1 n parse_parts s) as [[l|e| |] t]; cbn in *; tauto.
  Qed.

  Lemma parse_tolerant o s' : parse_text sc (mkBuilder false module js) o s' -> unforgivable o ->
    parse_text sc (mkBuilder true module js) o s'.
  Proof.
    unfold parse_text, build. cbn [b_tolerant b_module b_js]. rewrite (start_cfg g2 g1) by reflexivity.
    destruct (start g1 _) as [[i|e| |] s] eqn:E; auto. intros [Hn [n H]] Hu. split; [exact Hn|]. exists n.
    rewrite <- H. apply tolerant_alike; [|apply tolerant_parse|rewrite H; exact Hu].
    constructor. eapply reach_new; exact E.
  Qed.
  Lemma next_tolerant s r s' : reachable g1 (sc_scan sc js) s -> next_returns g1 s r s' ->
    (forall o, r = Some o -> unforgivable o) -> next_returns g2 s r s'.
  Proof.
    intros Hs [Hn [n H]] Hu. split; [exact Hn|]. exists n. unfold iter_next in *.
    pose proof (api_next sc false module js s n) as Ha. unfold iter_next in Ha.
    destruct (is_eof _); [exact H|]. pose proof (tolerant_call n _ CNextPart s) as Hc.
    destruct (run_call (@body) g1 n CNextPart s) as [o t] eqn:E. inversion H; subst. clear H.
    rewrite (tolerant_alike _ (o, s') _ (Ha o Hs eq_refl) Hc); [reflexivity|]. exact (Hu o eq_refl).
  Qed.
  Lemma expression_tolerant s n o s' : reachable g1 (sc_scan sc js) s -> parse_expression g1 n s = (o, s') ->
    unforgivable o -> parse_expression g2 n s = (o, s').
  Proof.
    intros Hs H Hu. pose proof (api_expression sc false module js s n Hs) as Ha. rewrite <- H.
    apply tolerant_alike; [exact Ha|apply tolerant_call|rewrite H; exact Hu].
  Qed.
End TolerantApi.

Definition as_script (o : outcome Program) : outcome Program :=
  match o with Ok (PMod l) => Ok (PScript l) | _ => o end.

Section ModuleApi.
  Variable sc : scanner.
  Variable tolerant : bool.
  Variable js : text.
  Hypothesis contract : scan_contract js (sc_scan sc js).
  Notation g1 := (make_cfg sc tolerant true js).
  Notation g2 := (make_cfg sc tolerant false js).
  Notation F := (await_error js g1).

  Definition not_await {A} (o : outcome A) : Prop := forall e, o = Err e -> ~ F e.

  Lemma module_alike A (r1 r2 : outcome A * state) : api_outcome sc tolerant true js (fst r1) ->
    alike F r1 r2 -> not_await (fst r1) -> r2 = r1.
  Proof.
    intros Ha [E|E] Hu; [symmetry; exact E|]. exfalso. unfold excused in E. destruct r1 as [[a|e| |] s]; cbn in *; try contradiction.
    - exact (Hu e eq_refl E).
    - exact (api_panic _ _ _ _ _ Ha contract).
  Qed.
  Lemma module_call n B (c : call B) s : alike F (run_call (@body) g1 n c s) (run_call (@body) g2 n c s).
  Proof.
    apply (run_call_alike g1 g2 F (fun _ _ => eq_refl) _ (@body)). intros. apply (bodies_module g1).
  Qed.
  Lemma module_parts n s : alike F (run (@body) g1 n parse_parts s) (run (@body) g2 n parse_parts s).
  Proof.
    apply (run_alike g1 g2 F (fun _ _ => eq_refl) _ (@body)); [intros; apply (bodies_module g1)|].
    unfold parse_parts. repeat (fine_step; try (apply (fine_other_m g1); exact Logic.I)).
  Qed.

  Lemma parse_module o s' : parse_text sc (mkBuilder tolerant true js) o s' -> not_await o ->
    parse_text sc (mkBuilder tolerant false js) (as_script o) s'.
  Proof.
    unfold parse_text, build. cbn [b_tolerant b_module b_js]. rewrite (start_cfg g2 g1) by reflexivity.
    destruct (start g1 _) as [[i|e| |] s] eqn:E; try (intros [-> ->] _; split; reflexivity); auto.
    intros [Hn [n H]] Hu. split; [destruct o as [[]| | |]; cbn; congruence|]. exists n.
    assert (Ha : api_outcome sc tolerant true js (fst (parse g1 n s))) by (constructor; eapply reach_new; exact E).
    rewrite H in Ha. cbn in Ha. rewrite parse_of_run in H |- *.
    pose proof (module_parts n s) as Hp. destruct (run (@body) g1 n parse_parts s) as [o1 t1] eqn:E1.
    destruct Hp as [<-|Hp].
    - destruct o1; inversion H; reflexivity.
    - exfalso. unfold excused in Hp. destruct o1; cbn in Hp; try contradiction; inversion H; subst.
      + exact (Hu _ eq_refl Hp).
      + exact (api_panic _ _ _ _ _ Ha contract).
  Qed.
  Lemma next_module s r s' : reachable g1 (sc_scan sc js) s -> next_returns g1 s r s' ->
    (forall o, r = Some o -> not_await o) -> next_returns g2 s r s'.
  Proof.
    intros Hs [Hn [n H]] Hu. split; [exact Hn|]. exists n. unfold iter_next in *.
    pose proof (api_next sc tolerant true js s n) as Ha. unfold iter_next in Ha.
    destruct (is_eof _); [exact H|]. pose proof (module_call n _ CNextPart s) as Hc.
    destruct (run_call (@body) g1 n CNextPart s) as [o t] eqn:E. inversion H; subst. clear H.
    rewrite (module_alike _ (o, s') _ (Ha o Hs eq_refl) Hc); [reflexivity|]. exact (Hu o eq_refl).
  Qed.
  Lemma expression_module s n o s' : reachable g1 (sc_scan sc js) s -> parse_expression g1 n s = (o, s') ->
    not_await o -> parse_expression g2 n s = (o, s').
  Proof.
    intros Hs H Hu. pose proof (api_expression sc tolerant true js s n Hs) as Ha. rewrite <- H.
    apply module_alike; [exact Ha|apply module_call|rewrite H; exact Hu].
  Qed.

  Lemma without_await A (o : outcome A) : (forall a b, slice js a b <> Some (str "await")) -> not_await o.
  Proof. intros H e _ (i & _ & E & _). exact (H _ _ E). Qed.
End ModuleApi.

(** ** Calls of [next], whatever they return *)
Inductive calls (g : cfg) : state -> list (option (outcome ProgramPart)) -> state -> Prop :=
| calls_nil : forall s, calls g s [] s
| calls_cons : forall s r s1 l s2, next_returns g s r s1 -> calls g s1 l s2 -> calls g s (r :: l) s2.
Definition is_part (r : option (outcome ProgramPart)) : bool := match r with Some (Ok _) => true | _ => false end.

Lemma next_item_size_any g s r t : next_item g s = (r, t) -> Wp.size t <= Wp.size s.
Proof.
  intros E. destruct r as [i|e| |].
  - apply next_item_ok in E. destruct E as (_ & _ & ->). lia.
  - apply (next_item_err_size g s e t E).
  - revert E. unfold next_item. generalize (it_start (st_look s), it_end (st_look s)). intros sp.
    remember (st_rest s) as rest eqn:Hr. revert sp s Hr.
    induction rest as [|x rest IH]; intros sp s Hr H; cbn [next_item_loop] in H.
    + destruct (is_eof _); [destruct (st_found_eof s)|]; discriminate H.
    + destruct (update_positions _ _ _ _ _) as [[cur lpos]|]; [|inversion H; subst; lia].
      destruct (it_tok (r_item x)) eqn:Ht; try discriminate H. destruct (slice _ _ _); [|discriminate H].
      apply IH in H; [|reflexivity]. revert H. unfold Wp.size, view. cbn [st_found_eof st_look st_nl st_rest].
      rewrite <- Hr, !app_length. cbn [filter]. destruct (st_found_eof s), (nc x); cbn [length]; lia.
  - exfalso. exact (next_item_not_nofuel _ _ _ E).
Qed.
Lemma exec_size_any g B (o : op B) s r t : exec g o s = (r, t) -> Wp.size t <= Wp.size s.
Proof.
  pose proof (next_item_size_any g s) as Hn. intros H.
  destruct o; cbn -[next_item] in H;
    repeat match type of H with context [match ?x with _ => _ end] => destruct x eqn:? end;
    inversion H; subst; try exact (Nat.le_refl _); try (eapply Hn; reflexivity); eapply Hn; eassumption.
Qed.
Lemma iter_next_size g n s r t : iter_next g n s = (r, t) -> Wp.size t <= Wp.size s.
Proof.
  unfold iter_next. destruct (is_eof _); [intros H; inversion H; lia|].
  destruct (run_call _ g n CNextPart s) as [o u] eqn:E. intros H. inversion H; subst.
  refine (run_call_rel _ _ g (fun a b => Wp.size b <= Wp.size a) _ _ _ n _ CNextPart s o t E).
  - intros. lia.
  - intros. lia.
  - intros B op a r b. apply exec_size_any.
Qed.
Lemma calls_size g s l s' : calls g s l s' -> length (filter is_part l) + Wp.size s' <= Wp.size s.
Proof.
  induction 1 as [s|s r s1 l s2 H1 H2 IH]; cbn [filter length]; [lia|].
  assert (Hs : Wp.size s1 <= Wp.size s) by (destruct H1 as [_ [n H1]]; exact (iter_next_size _ _ _ _ _ H1)).
  destruct r as [[p|e| |]|]; cbn [is_part filter length]; try lia. pose proof (part_consumes _ _ _ _ H1). cbn [length]. lia.
Qed.
Lemma calls_bounded g items i s l s' : start g items = (Ok i, s) -> calls g s l s' ->
  length (filter is_part l) <= length (filter nc items).
Proof. intros H1 H2. apply start_size in H1. apply calls_size in H2. lia. Qed.
