(** Programs are sentences of the grammar: the pass of Derived.v applied to whole runs. *)
From Verif Require Export Derived Api Tree.
Export Parser.

(** The tokens of a text: what the scanner yields without the comments; an end-of-file token
    when it yields nothing. *)
Definition source_tokens (sc : scanner) (js : text) : list tk :=
  match filter nc (sc_scan sc js) with
  | [] => [mkTk TEoF [] false]
  | l => map (raw_tk js) l
  end.

(** What is asked of the scanner: items lie in the text, and no punctuator is spelled [async],
    [get] or [set]. *)
Definition plain_scan (sc : scanner) (js : text) : Prop :=
  forall r, In r (sc_scan sc js) -> plain_item js (r_item r).

Section Runs.
  Variable g : cfg.
  Notation js := (g_stream g).
  Notation D := (d (g_tolerant g) (g_module g) (g_strict_reserved g)).

  Lemma callD_sound m B (c : call B) s b s' : clean js s -> run_call (@body) g m c s = (Ok b, s') ->
    postD g B c s b s'.
  Proof.
    intros Hc E.
    pose proof (wp_sound call (@body) g false (preD g) (postD g) (fun _ _ => True) True
      ltac:(discriminate) (bodies_faithful g) m B c s Hc) as W.
    unfold wp_out in W. rewrite E in W. exact W.
  Qed.
  Lemma progD_sound m B (p : P B) Q s b s' : wp g false (preD g) (postD g) (fun _ _ => True) True m p Q s ->
    run (@body) g m p s = (Ok b, s') -> Q b s'.
  Proof.
    intros H E.
    pose proof (wp_sound_prog call (@body) g false (preD g) (postD g) (fun _ _ => True) True
      ltac:(discriminate) (bodies_faithful g) m B p Q s H) as W.
    unfold wp_out in W. rewrite E in W. exact W.
  Qed.

  Lemma dir_is S l x l' : D S Directive l (VPart x) l' -> if is_directive x then is_dir x else ~ is_dir x.
  Proof. intros H. inversion H; subst; cbn; [exists dir, w; reflexivity|]. intros (? & ? & E). discriminate. Qed.
  Lemma program_snoc l b l1 x l' : program (g_tolerant g) (g_module g) (g_strict_reserved g) l b l1 ->
    D top_scope Item l1 (VPart x) l' -> program (g_tolerant g) (g_module g) (g_strict_reserved g) l (b ++ [x]) l'.
  Proof.
    intros H X. destruct H.
    - rewrite <- app_assoc. eapply program_plain; eauto. eapply d_items; eauto.
    - rewrite <- app_assoc. cbn [app]. eapply program_string; eauto. eapply d_items; eauto.
  Qed.
  Definition progress l (acc : list ProgramPart) (s : state) : Prop := exists l1 pp, At g s l1 (top_scope, pp) /\
    (pp = false /\ D top_scope Directives l (VParts acc) l1 /\ Forall is_dir acc
     \/ pp = true /\ program (g_tolerant g) (g_module g) (g_strict_reserved g) l acc l1).
  Lemma progress_step l acc s l1 pp b s2 l2 : At g s l1 (top_scope, pp) ->
    (pp = false /\ D top_scope Directives l (VParts acc) l1 /\ Forall is_dir acc
     \/ pp = true /\ program (g_tolerant g) (g_module g) (g_strict_reserved g) l acc l1) ->
    At g s2 l2 (top_scope, leaves CNextPart pp l1 b) -> reads_call g CNextPart top_scope pp l1 b l2 ->
    progress l (acc ++ [b]) s2.
  Proof.
    intros A1 H A2 X. cbn [leaves reads_call] in A2, X.
    exists l2. destruct H as [(-> & H1 & H2)|(-> & H)]; cbn [negb andb] in A2, X.
    - destruct (is_string (hd_tok l1)) eqn:Es.
      + exists (negb (is_directive b)). split; [exact A2|]. pose proof (dir_is _ _ _ _ X) as K.
        destruct (is_directive b); [left|right]; (split; [reflexivity|]).
        * split; [eapply d_directives; eauto|]. apply Forall_app. auto.
        * eapply program_string; eauto. constructor.
      + exists true. split; [exact A2|]. right. split; [reflexivity|].
        eapply program_plain; eauto.
        * intros E0. rewrite E0 in Es. discriminate.
        * apply (d_items _ _ _ _ _ []) with (l1 := l1); [constructor|exact X].
    - exists true. split; [exact A2|]. right. split; [reflexivity|]. eapply program_snoc; eauto.
  Qed.
  Lemma progress_call l acc s n b s2 : progress l acc s -> run_call (@body) g n CNextPart s = (Ok b, s2) ->
    progress l (acc ++ [b]) s2.
  Proof.
    intros (l1 & pp & A1 & H) E. apply callD_sound in E; [|apply A1].
    destruct A1 as (A1 & A2 & A3). unfold postD in E. rewrite A1, A2 in E. destruct E as (l2 & A4 & X).
    eapply progress_step; [split; [exact A1|split; [exact A2|exact A3]]|exact H|exact A4|exact X].
  Qed.
  Lemma progress_yields l s parts s' : yields g s parts s' -> forall acc, progress l acc s -> progress l (acc ++ parts) s'.
  Proof.
    induction 1 as [|s part s1 parts s2 (_ & n & H) _ IH]; intros acc P.
    - rewrite app_nil_r. exact P.
    - change (acc ++ part :: parts) with (acc ++ [part] ++ parts). rewrite app_assoc. apply IH.
      unfold iter_next in H. destruct (is_eof _); [inversion H|].
      destruct (run_call (@body) g n CNextPart s) as [r s3] eqn:E.
      injection H as -> ->. eapply progress_call; eauto.
  Qed.
  Lemma parts_sentence m s l acc0 ps s' : progress l acc0 s -> run (@body) g m parse_parts s = (Ok ps, s') ->
    exists l', program (g_tolerant g) (g_module g) (g_strict_reserved g) l (acc0 ++ ps) l' /\ hd_tok l' = TEoF.
  Proof.
    intros A E. apply (progD_sound m _ parse_parts (fun ps s' => exists l', program (g_tolerant g) (g_module g) (g_strict_reserved g) l (acc0 ++ ps) l' /\ hd_tok l' = TEoF) s ps s'); [|exact E].
    unfold parse_parts. cbn [wp].
    exists (fun acc => progress l (acc0 ++ acc)). split; [|split; [discriminate|]].
    - rewrite app_nil_r. exact A.
    - intros acc s1 (l1 & pp & A1 & H).
      eapply wpD_look_tok; [exact A1|].
      destruct (is_eof (hd_tok l1)) eqn:Ee.
      + assert (He : hd_tok l1 = TEoF) by (destruct (hd_tok l1); try discriminate; reflexivity).
        apply wpD_ret. exists l1. split; [|exact He].
        destruct H as [(-> & H1 & H2)|(-> & H)]; [|exact H].
        rewrite <- (app_nil_r (acc0 ++ acc)). eapply program_plain; eauto; [congruence|constructor].
      + apply wpD_bind. eapply wpD_call; [exact A1|]. intros b s2 l2 A2 X.
        apply wpD_ret. split; [|discriminate]. rewrite app_assoc. exact (progress_step _ _ _ _ _ _ _ _ A1 H A2 X).
  Qed.
End Runs.

(** A fresh parser is before the tokens of its text. *)
Lemma start_at sc tolerant module js i s : plain_scan sc js ->
  start (make_cfg sc tolerant module js) (sc_scan sc js) = (Ok i, s) ->
  At (make_cfg sc tolerant module js) s (source_tokens sc js) (top_scope, false).
Proof.
  intros Hp E. set (g := make_cfg sc tolerant module js) in *.
  assert (A : At g (initial_state (sc_scan sc js)) (mkTk TEoF [] false :: map (raw_tk js) (filter nc (sc_scan sc js))) (top_scope, false)).
  { split; [|split; [reflexivity|]].
    - unfold toks. cbn [initial_state st_look st_nl st_rest]. f_equal. unfold tk_of, text_of. cbn [it_start it_end it_tok].
      change (g_stream g) with js. rewrite (slice_app [] [] js : slice js 0 0 = Some []). reflexivity.
    - split.
      + split; [|discriminate]. cbn [initial_state st_look it_start it_end]. change (g_stream g) with js. rewrite (slice_app [] [] js : slice js 0 0 = Some []). discriminate.
      + apply Forall_forall. exact Hp. }
  apply next_item_D in A. unfold start in E. rewrite E in A. destruct A as (_ & _ & l' & T & A).
  replace (source_tokens sc js) with l'; [exact A|]. unfold source_tokens.
  destruct T as [(N & x & T)|(-> & w & b & T)]; inversion T as [[T1 T2]].
  - rewrite <- T2 in *. destruct (filter nc (sc_scan sc js)); [destruct (N eq_refl)|reflexivity].
  - destruct (filter nc (sc_scan sc js)); [reflexivity|discriminate].
Qed.

Lemma start_progress sc tolerant module js i s : plain_scan sc js ->
  start (make_cfg sc tolerant module js) (sc_scan sc js) = (Ok i, s) ->
  progress (make_cfg sc tolerant module js) (source_tokens sc js) [] s.
Proof.
  intros Hp E. exists (source_tokens sc js), false. split; [eapply start_at; eauto|].
  left. split; [reflexivity|]. split; constructor.
Qed.

Section Outcomes.
  Variables (sc : scanner) (tolerant module : bool) (js : text).
  Notation g := (make_cfg sc tolerant module js).
  Hypothesis plain : plain_scan sc js.
  Variables (i : item) (s : state).
  Hypothesis started : start g (sc_scan sc js) = (Ok i, s).

  Lemma yields_sentence parts s1 : yields g s parts s1 ->
    exists l', parts_read tolerant module (sc_strict_reserved sc) (source_tokens sc js) parts l'.
  Proof.
    intros H. eapply progress_yields in H; [|eapply start_progress; eauto].
    destruct H as (l1 & pp & _ & [(_ & H)|(_ & H)]); exists l1; [right|left]; exact H.
  Qed.
  Lemma program_sentence parts s1 n p s2 : yields g s parts s1 -> parse g n s1 = (Ok p, s2) ->
    exists l', program tolerant module (sc_strict_reserved sc) (source_tokens sc js) (parts ++ parts_of p) l' /\ hd_tok l' = TEoF.
  Proof.
    intros H E. eapply progress_yields in H; [|eapply start_progress; eauto].
    unfold parse in E. destruct (run (@body) g n parse_parts s1) as [[ps| | |] s3] eqn:E1; inversion E; subst.
    apply (parts_sentence g _ _ _ _ _ _ H) in E1. unfold make_program, parts_of. cbn [g_module] in *. destruct module; exact E1.
  Qed.
  Lemma expression_sentence parts s1 n e s2 : yields g s parts s1 -> parse_expression g n s1 = (Ok e, s2) ->
    exists l1 l', parts_read tolerant module (sc_strict_reserved sc) (source_tokens sc js) parts l1
      /\ d tolerant module (sc_strict_reserved sc) top_scope Expression l1 (VExpr e) l'.
  Proof.
    intros H E. eapply progress_yields in H; [|eapply start_progress; eauto].
    destruct H as (l1 & pp & A & H). unfold parse_expression in E. apply callD_sound in E; [|apply A].
    destruct A as (A1 & A2 & A3). unfold postD in E. rewrite A1, A2 in E. destruct E as (l2 & _ & X).
    exists l1, l2. split; [|exact X]. destruct H as [(_ & H)|(_ & H)]; [right|left]; exact H.
  Qed.
End Outcomes.
