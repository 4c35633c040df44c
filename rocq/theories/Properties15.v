(** C56: between parts the parser remembers nothing but two flags.

    After any number of parts, what the parser does next is what a fresh parser does on a text with
    the tokens that are left.  What it may carry over are two flags of its context that class getters
    and function expressions do not put back (C30); [settled] says that they have their first
    values.  A string at the start of a text may be a directive, so the text that is left must not
    begin with one. *)
From Verif Require Import Lexer Properties1 Properties2 Properties8 Properties11 Runs Term Suffix Flags.
Open Scope string_scope.
Open Scope nat_scope.
Open Scope list_scope.

(** [js2] is what a parser for [js1] in state [t1] has before it. *)
Definition continues (sc : scanner) (js1 js2 : text) (t1 : state) : Prop :=
  left_signs js1 t1 = signs sc js2 /\ sc_end_nl sc js1 = sc_end_nl sc js2
  /\ is_string (it_tok (st_look t1)) = false /\ async_alike js1 js2 (sc_scan sc js1) (sc_scan sc js2).

Theorem C56_iterator : forall sc tolerant module js1 js2 s1 parts t1 s2,
  let g1 := make_cfg sc tolerant module js1 in let g2 := make_cfg sc tolerant module js2 in
  scan_contract js1 (sc_scan sc js1) -> scan_contract js2 (sc_scan sc js2) ->
  fresh_parser sc tolerant module js1 s1 -> yields g1 s1 parts t1 -> settled t1 ->
  continues sc js1 js2 t1 -> fresh_parser sc tolerant module js2 s2 ->
  (forall more v1 r w1, yields g1 t1 more v1 -> next_returns g1 v1 r w1 ->
    exists v2 r2 w2, yields g2 s2 more v2 /\ next_returns g2 v2 r2 w2 /\ option_map unplaced_outcome r = option_map unplaced_outcome r2)
  /\ (forall more v2 r w2, yields g2 s2 more v2 -> next_returns g2 v2 r w2 ->
    exists v1 r1 w1, yields g1 t1 more v1 /\ next_returns g1 v1 r1 w1 /\ option_map unplaced_outcome r1 = option_map unplaced_outcome r).
Proof.
  intros sc tolerant module js1 js2 s1 parts t1 s2 g1 g2 C1 C2 (i1 & F1) Y S (H1 & H2 & H3 & H4) (i2 & F2).
  eapply (suffix_iterations sc tolerant module js1 js2); eauto.
  eapply yields_midway; [exact Y|]. eapply fresh_midway; eauto.
Qed.
Print Assumptions C56_iterator.

Lemma next_returns_det g s r1 s1 r2 s2 : next_returns g s r1 s1 -> next_returns g s r2 s2 -> r1 = r2 /\ s1 = s2.
Proof.
  intros (N1 & n & E1) (N2 & m & E2). destruct (Nat.le_ge_cases n m) as [L|L].
  - rewrite (iter_next_mono _ _ _ _ _ _ L E1 N1) in E2. injection E2 as <- <-. auto.
  - rewrite (iter_next_mono _ _ _ _ _ _ L E2 N2) in E1. injection E1 as <- <-. auto.
Qed.
Lemma yields_rest g s l1 t : yields g s l1 t -> forall l2 v, yields g s (l1 ++ l2) v -> yields g t l2 v.
Proof.
  induction 1 as [s|s part s' parts t N Y IH]; intros l2 v Z; [exact Z|]. apply IH. cbn [app] in Z.
  inversion Z as [|? ? s2 ? ? N2 Y2]; subst. destruct (next_returns_det _ _ _ _ _ _ N N2) as [_ ->]. exact Y2.
Qed.

(** A text is a program with these parts first and those then, if what is left after the first is a
    program with those; and conversely. *)
Definition program_of (module : bool) (parts : list ProgramPart) : Program := if module then PMod parts else PScript parts.
Theorem C56_parse : forall sc tolerant module js1 js2 s1 parts t1 more,
  scan_contract js1 (sc_scan sc js1) -> scan_contract js2 (sc_scan sc js2) ->
  fresh_parser sc tolerant module js1 s1 -> yields (make_cfg sc tolerant module js1) s1 parts t1 -> settled t1 ->
  continues sc js1 js2 t1 ->
  (exists u, parse_text sc (mkBuilder tolerant module js1) (Ok (program_of module (parts ++ more))) u)
  <-> (exists u, parse_text sc (mkBuilder tolerant module js2) (Ok (program_of module more)) u).
Proof.
  intros sc tolerant module js1 js2 s1 parts t1 more C1 C2 F1 Y S H.
  destruct (start_scan sc tolerant module js2 C2) as (i2 & s2 & E2 & _).
  destruct (C56_iterator sc tolerant module js1 js2 s1 parts t1 s2 C1 C2 F1 Y S H ltac:(exists i2; exact E2)) as [K1 K2].
  destruct F1 as (i1 & E1). unfold parse_text, build. cbn [b_tolerant b_module b_js]. rewrite E1, E2.
  set (g1 := make_cfg sc tolerant module js1) in *. set (g2 := make_cfg sc tolerant module js2) in *.
  split; intros (u & P); apply C03_parse_is_iteration in P; destruct P as (ps & v & r & Yv & Nv & [[-> E]|[(e & -> & E)|[-> E]]]); try discriminate.
  - assert (ps = parts ++ more) as -> by (unfold program_of in E; cbn in E; destruct module; congruence).
    destruct (K1 more v None u (yields_rest _ _ _ _ Y _ _ Yv) Nv) as (v2 & r2 & w2 & Y2 & N2 & E3).
    exists w2. apply C03_parse_is_iteration. exists more, v2, None. split; [exact Y2|].
    destruct r2; [discriminate|]. split; [exact N2|]. left. split; reflexivity.
  - assert (ps = more) as -> by (unfold program_of in E; cbn in E; destruct module; congruence).
    destruct (K2 more v None u Yv Nv) as (v1 & r1 & w1 & Y1 & N1 & E3).
    exists w1. apply C03_parse_is_iteration. exists (parts ++ more), v1, None. split; [eapply yields_app; eauto|].
    destruct r1; [discriminate|]. split; [exact N1|]. left. split; reflexivity.
Qed.
Print Assumptions C56_parse.

(** [settled] is so unless [function] or [class] has been read. *)
Lemma yields_tr g s parts t : yields g s parts t -> tr 1 2 s t.
Proof.
  induction 1 as [s|s part s' parts t N Y IH]; [eapply tr_down; [apply tr_refl|lia|lia]|].
  eapply tr_trans_same; [|exact IH]. destruct N as (_ & n & E). unfold iter_next in E.
  destruct (is_eof _); [discriminate|]. destruct (run_call _ _ _ _ _) as [r u] eqn:R. injection E as -> ->.
  apply (call_flags _ _ _ _ _ _ _ R).
Qed.
Theorem C56_settled : forall sc tolerant module js s parts t,
  scan_contract js (sc_scan sc js) -> fresh_parser sc tolerant module js s -> yields (make_cfg sc tolerant module js) s parts t ->
  (forall pre, ahead s = pre ++ ahead t -> forall i, In i pre -> it_tok i <> TKeyword KFunction /\ it_tok i <> TKeyword KClass) ->
  settled t.
Proof.
  intros sc tolerant module js s parts t C (i & F) Y N.
  destruct (fresh_before sc tolerant module js C s i F) as (_ & Ec & _).
  assert (X : forall k, k = KFunction \/ k = KClass -> ~ seen k s t).
  { intros k Hk (pre & j & E & I1 & T). destruct (N pre E j I1) as [N1 N2]. destruct Hk; subst; congruence. }
  apply yields_tr in Y. destruct Y as (_ & D & Z). unfold strict_rel, yield_rel, strict_flag, yield_flag in *. rewrite Ec in *.
  split.
  - destruct Z as [->|[_ Z]]; [reflexivity|]. destruct (X KClass (or_intror eq_refl) Z).
  - destruct D as [->|D]; [reflexivity|]. destruct (X KFunction (or_introl eq_refl) D).
Qed.
Print Assumptions C56_settled.

(** ** Cases *)
Fixpoint iterate (g : cfg) (n : nat) (k : nat) (s : state) : list ProgramPart * state :=
  match k with
  | 0 => ([], s)
  | S k => match iter_next g n s with
           | (Some (Ok p), s') => let '(ps, t) := iterate g n k s' in (p :: ps, t)
           | _ => ([], s)
           end
  end.
Lemma iterate_yields g n k : forall s, yields g s (fst (iterate g n k s)) (snd (iterate g n k s)).
Proof.
  induction k as [|k IH]; intros s; cbn [iterate]; [constructor|].
  destruct (iter_next g n s) as [[[p|?| |]|] s'] eqn:E; try constructor. specialize (IH s'). destruct (iterate g n k s') as [ps t].
  cbn [fst snd] in *. econstructor; [|exact IH]. split; [discriminate|]. exists n. exact E.
Qed.
Definition fresh_state (js : text) : state := snd (start (make_cfg test_scanner false false js) (sc_scan test_scanner js)).
Definition after (js : text) (k : nat) : list ProgramPart * state := iterate (make_cfg test_scanner false false js) 100 k (fresh_state js).

(** Three parts are read: a directive, a loop with a label, a declaration with a function; four are left. *)
Definition whole : text := str "'use x'; a: while (b) { continue a } var f = function* (g) { yield g }" ++ [LF]
  ++ str "f(`c${ d }`); class A extends B { m() { super.m() } } if (h) ; else /i/.j" ++ [LF] ++ str "a: k".
Definition tail_end : text := [LF] ++ str "f(`c${ d }`); class A extends B { m() { super.m() } } if (h) ; else /i/.j" ++ [LF] ++ str "a: k".
Example C56_case : scan_contract whole (sc_scan test_scanner whole) /\ scan_contract tail_end (sc_scan test_scanner tail_end)
  /\ fresh_parser test_scanner false false whole (fresh_state whole)
  /\ yields (make_cfg test_scanner false false whole) (fresh_state whole) (fst (after whole 3)) (snd (after whole 3))
  /\ length (fst (after whole 3)) = 3 /\ settled (snd (after whole 3)) /\ continues test_scanner whole tail_end (snd (after whole 3))
  /\ exists more u, length more = 4 /\ parse_text test_scanner (mkBuilder false false tail_end) (Ok (program_of false more)) u.
Proof.
  split; [apply contractb_ok; vm_compute; reflexivity|]. split; [apply contractb_ok; vm_compute; reflexivity|].
  split; [eexists; vm_compute; reflexivity|]. split; [apply iterate_yields|]. split; [vm_compute; reflexivity|]. split; [vm_compute; auto|].
  split; [split; [vm_compute; reflexivity|]; split; [vm_compute; reflexivity|]; split; [vm_compute; reflexivity|]; left; apply no_asyncb_ok; vm_compute; reflexivity|].
  eexists; eexists. split; [|split; [discriminate|exists 100; unfold program_of; vm_compute; reflexivity]]. reflexivity.
Qed.

(** The first two of those parts have no function and no class. *)
Example C56_settled_case : exists pre, ahead (fresh_state whole) = pre ++ ahead (snd (after whole 2)) /\ length pre = 12
  /\ length (fst (after whole 2)) = 2
  /\ forallb (fun i => negb (is_keyword KFunction (it_tok i)) && negb (is_keyword KClass (it_tok i))) pre = true.
Proof. exists (firstn 12 (ahead (fresh_state whole))). vm_compute. auto. Qed.

(** *** What cannot be dropped *)
(** A getter leaves [allow_yield] changed, and a name becomes an expression. *)
Definition leaking : text := str "class A { get x() { } } y = yield;".
Theorem C56_settled_refuted : exists js2 parts t1 more more' u u',
  scan_contract leaking (sc_scan test_scanner leaking) /\ scan_contract js2 (sc_scan test_scanner js2)
  /\ fresh_parser test_scanner false false leaking (fresh_state leaking)
  /\ yields (make_cfg test_scanner false false leaking) (fresh_state leaking) parts t1 /\ parts <> [] /\ continues test_scanner leaking js2 t1
  /\ parse_text test_scanner (mkBuilder false false leaking) (Ok (program_of false (parts ++ more))) u
  /\ parse_text test_scanner (mkBuilder false false js2) (Ok (program_of false more')) u' /\ more <> more'.
Proof.
  exists (str " y = yield;"), (fst (after leaking 1)), (snd (after leaking 1)),
    [PPStmt (SExpr (EAssignment AEqual (ALExpr (EIdent (str "y"))) (EYield None false)))],
    [PPStmt (SExpr (EAssignment AEqual (ALExpr (EIdent (str "y"))) (EIdent (str "yield"))))].
  eexists. eexists.
  split; [apply contractb_ok; vm_compute; reflexivity|]. split; [apply contractb_ok; vm_compute; reflexivity|].
  split; [eexists; vm_compute; reflexivity|]. split; [apply iterate_yields|]. split; [vm_compute; discriminate|].
  split; [split; [vm_compute; reflexivity|]; split; [vm_compute; reflexivity|]; split; [vm_compute; reflexivity|]; left; apply no_asyncb_ok; vm_compute; reflexivity|].
  split; [split; [discriminate|exists 100; vm_compute; reflexivity]|]. split; [split; [discriminate|exists 100; vm_compute; reflexivity]|discriminate].
Qed.
Print Assumptions C56_settled_refuted.
(** A string that is a statement becomes a directive. *)
Definition late_string : text := str "a; 'b';".
Theorem C56_string_refuted : exists js2 parts t1 more more' u u',
  scan_contract late_string (sc_scan test_scanner late_string) /\ scan_contract js2 (sc_scan test_scanner js2)
  /\ fresh_parser test_scanner false false late_string (fresh_state late_string)
  /\ yields (make_cfg test_scanner false false late_string) (fresh_state late_string) parts t1 /\ settled t1
  /\ left_signs late_string t1 = signs test_scanner js2
  /\ parse_text test_scanner (mkBuilder false false late_string) (Ok (program_of false (parts ++ more))) u
  /\ parse_text test_scanner (mkBuilder false false js2) (Ok (program_of false more')) u' /\ more <> more'.
Proof.
  exists (str " 'b';"), (fst (after late_string 1)), (snd (after late_string 1)),
    [PPStmt (SExpr (ELiteral (LString (str "'b'"))))], [PPDir (str "b") (LString (str "'b'"))].
  eexists. eexists.
  split; [apply contractb_ok; vm_compute; reflexivity|]. split; [apply contractb_ok; vm_compute; reflexivity|].
  split; [eexists; vm_compute; reflexivity|]. split; [apply iterate_yields|]. split; [vm_compute; auto|]. split; [vm_compute; reflexivity|].
  split; [split; [discriminate|exists 100; vm_compute; reflexivity]|]. split; [split; [discriminate|exists 100; vm_compute; reflexivity]|discriminate].
Qed.
Print Assumptions C56_string_refuted.
