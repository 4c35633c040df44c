(** C60: strict context only refuses. *)
From Verif Require Export Lexer Spec Runs Safe Laxer Properties1 Properties2 Properties3.
Local Open Scope string_scope.
Local Open Scope list_scope.

(** *** C60
    [in_strict b s] is the state [s] with nothing changed but whether the context is strict. *)
Definition in_strict (b : bool) (s : state) : state :=
  mkState (mkCtx (c_allow_in (st_ctx s)) (c_allow_strict_directive (st_ctx s)) (c_allow_yield (st_ctx s)) (c_await (st_ctx s))
      (c_first_covert (st_ctx s)) (c_assign_target (st_ctx s)) (c_binding_element (st_ctx s)) (c_in_function_body (st_ctx s))
      (c_in_iteration (st_ctx s)) (c_in_switch (st_ctx s)) (c_label_set (st_ctx s)) b (c_past_prolog (st_ctx s)))
    (st_look s) (st_found_eof s) (st_cur_pos s) (st_look_pos s) (st_rest s) (st_nl s) (st_comments s).
(** What is asked of the scanner: [function], [this], [class] and [import] are not among the words
    that it calls reserved in strict mode (they are reserved everywhere), and a token [yield] that is still to be read is so spelled. *)
Definition always_reserved (g : cfg) : Prop :=
  g_strict_reserved g (TKeyword KFunction) = false /\ g_strict_reserved g (TKeyword KThis) = false
  /\ g_strict_reserved g (TKeyword KClass) = false /\ g_strict_reserved g (TKeyword KImport) = false.
Definition yield_spelled (g : cfg) (s : state) : Prop := forall i, (i = st_look s \/ exists nl, In (mkRaw i nl) (st_rest s)) ->
  it_tok i = TKeyword KYield -> slice (g_stream g) (it_start i) (it_end i) = Some (str "yield").
(** All the functions of the parser but one: the name of a function that is not a generator
    (lib.rs:2783-2790), where [yield] must be allowed as a name, as it is for the one caller (lib.rs:2721-2779). *)
Definition callable {B} (c : call B) (s : state) : Prop :=
  match c with CFnName false => c_allow_yield (st_ctx s) = true | _ => True end.

Lemma sloppier_of g s : yield_spelled g s -> sloppier g (in_strict true s) (in_strict false s).
Proof.
  intros H. split; [reflexivity|]. split; [|reflexivity]. split; cbn.
  - intros E. apply H; auto.
  - apply Forall_forall. intros [i nl] Hi E. cbn in *. apply H; eauto.
Qed.
Lemma plain_of g : always_reserved g -> forall k, In k [KFunction; KThis; KClass; KImport] -> g_strict_reserved g (TKeyword k) = false.
Proof. intros (H1 & H2 & H3 & H4) k [<-|[<-|[<-|[<-|[]]]]]; assumption. Qed.
Lemma of_follows g A (x1 x2 : outcome A * state) a s' : follows g eq x1 x2 -> x1 = (Ok a, s') -> x2 = (Ok a, in_strict false s') /\ s' = in_strict true s'.
Proof.
  intros F ->. cbn in F. destruct F as (b & E & <- & (H1 & _ & H2)). destruct x2 as [o t]. cbn in *. subst. split; [reflexivity|].
  destruct s' as [[] ? ? ? ? ? ? ?]. cbn in *. subst. reflexivity.
Qed.

(** Whatever a function of the parser reads in strict context, it reads in sloppy context: with the
    same value, up to the same place, leaving the same context but for the flag itself. *)
Theorem C60_only_refuses : forall g n B (c : call B) s a s', always_reserved g -> yield_spelled g s -> callable c s ->
  run_call (@body) g n c (in_strict true s) = (Ok a, s') ->
  run_call (@body) g n c (in_strict false s) = (Ok a, in_strict false s') /\ s' = in_strict true s'.
Proof.
  intros g n B c s a s' Hp Hy Hc H. refine (of_follows g _ _ _ a s' _ H).
  apply call_lax; [apply plain_of; exact Hp|apply sloppier_of; exact Hy|]. destruct c; try exact I. exact Hc.
Qed.
Print Assumptions C60_only_refuses.

(** So for whole programs: what is accepted as strict code is accepted as sloppy code, to the same tree. *)
Theorem C60_parse : forall g n s p s', always_reserved g -> yield_spelled g s ->
  parse g n (in_strict true s) = (Ok p, s') -> parse g n (in_strict false s) = (Ok p, in_strict false s').
Proof.
  intros g n s p s' Hp Hy H. refine (proj1 (of_follows g _ (parse g n (in_strict true s)) _ p s' _ H)). apply parse_lax; [apply plain_of; exact Hp|apply sloppier_of; exact Hy].
Qed.
Print Assumptions C60_parse.

(** Some are refused: strict context does something (lib.rs:927, 1181, 1257, 1613, 1644, 2181, 2340-2346, 2763, 2815-2822, 3126, 3586, 3696, 3728).
    The test of lib.rs:996 has an empty branch: [var eval;] is accepted, as in [C60_case]. *)
Theorem C60_refuses : exists texts : list string, 15 <= length texts /\ forall t, In t texts ->
  exists n p s' err s'', parse (ex_cfg t) n (in_strict false (ex_start t)) = (Ok p, s')
    /\ parse (ex_cfg t) n (in_strict true (ex_start t)) = (Err err, s'').
Proof.
  exists ["with (a) b;"; "if (a) function f() { }"; "for (let in a) b;"; "for (var eval;;) a;"; "let arguments = 1;"; "yield;"; "let;"; "var if;";
     "var yield;"; "implements = 1;"; "eval = 1;"; "delete a;"; "++eval;"; "arguments--;"; "(function f(eval) { });"; "({m(eval) { }});"]. split; [cbn; repeat constructor|].
  intros t Ht. exists 60.
  assert (C : match parse (ex_cfg t) 60 (in_strict false (ex_start t)), parse (ex_cfg t) 60 (in_strict true (ex_start t)) with
              | (Ok _, _), (Err _, _) => True | _, _ => False end).
  { cbn [In] in Ht. repeat (destruct Ht as [<-|Ht]; [vm_compute; exact I|]). destruct Ht. }
  destruct (parse _ _ (in_strict false _)) as [[p|?| |] s'], (parse _ _ (in_strict true _)) as [[?|err| |] s'']; try contradiction.
  exists p, s', err, s''. split; reflexivity.
Qed.
Print Assumptions C60_refuses.

(** The exception is one: within a generator the name of a function alone may be [yield] in strict context only. *)
Theorem C60_fn_name_refuted : exists g n s a s' e s'', always_reserved g /\ yield_spelled g s
  /\ run_call (@body) g n (CFnName false) (in_strict true s) = (Ok a, s')
  /\ run_call (@body) g n (CFnName false) (in_strict false s) = (Err e, s'').
Proof.
  exists (ex_cfg "yield;"), 60, (upd_ctx (set_allow_yield false) (ex_start "yield;")). do 4 eexists.
  split; [repeat split|]. split; [|split; vm_compute; reflexivity].
  intros i [->|[nl Hi]]; [vm_compute; reflexivity|]. vm_compute in Hi. repeat (destruct Hi as [Hi|Hi]; [injection Hi; intros; subst; try discriminate|]). destruct Hi.
Qed.
Print Assumptions C60_fn_name_refuted.

(** A program that is accepted either way, with a [yield] in it. *)
Definition either : string := "var eval; class A { *m(a) { yield a; } } function f(a) { for (let x of a) { (function g() { }); } return this; } a => { b = typeof a; };".
Example C60_case : always_reserved (ex_cfg either) /\ yield_spelled (ex_cfg either) (ex_start either)
  /\ exists p s', parse (ex_cfg either) 200 (in_strict true (ex_start either)) = (Ok p, s')
    /\ parse (ex_cfg either) 200 (in_strict false (ex_start either)) = (Ok p, in_strict false s').
Proof.
  split; [repeat split|].
  assert (Y : yield_spelled (ex_cfg either) (ex_start either)).
  { assert (F : forallb (fun i => negb (is_keyword KYield (it_tok i)) || match slice (g_stream (ex_cfg either)) (it_start i) (it_end i) with
        Some w => text_eqb w (str "yield") | None => false end) (st_look (ex_start either) :: map r_item (st_rest (ex_start either))) = true)
      by (vm_compute; reflexivity).
    rewrite forallb_forall in F. intros i Hi Hk. specialize (F i). rewrite Hk in F. cbn [is_keyword negb orb] in F.
    destruct (slice _ _ _) as [w|]; [f_equal; apply text_eqb_eq|]; (apply F || (exfalso; enough (false = true) by discriminate; apply F)).
    all: destruct Hi as [->|[nl Hi]]; [left; reflexivity|right; exact (in_map r_item _ _ Hi)]. }
  split; [exact Y|].
  assert (E : match parse (ex_cfg either) 200 (in_strict true (ex_start either)) with (Ok _, _) => True | _ => False end) by (vm_compute; exact I).
  destruct (parse (ex_cfg either) 200 (in_strict true (ex_start either))) as [[p|?| |] s'] eqn:R; try contradiction. exists p, s'. split; [reflexivity|].
  apply C60_parse; [repeat split|exact Y|exact R].
Qed.
