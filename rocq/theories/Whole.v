(** Texts that spell a program are parsed to it: the induction of Complete.v applied to whole
    runs. *)
From Verif Require Import Sentence.
From Verif Require Export Complete.
Local Open Scope nat_scope.
Local Open Scope list_scope.

Lemma quiet_plain sc js : scan_contract js (sc_scan sc js) -> Forall quiet (source_tokens sc js) -> plain_scan sc js.
Proof.
  intros (Hw & _) Hq r Hr. rewrite Forall_forall in Hw, Hq. destruct (well_formed_slice _ _ (Hw r Hr)) as (w & E & _).
  split; [rewrite E; discriminate|]. intros p Ep.
  assert (Hn : nc r = true) by (unfold nc; rewrite Ep; reflexivity).
  assert (Hf : In r (filter nc (sc_scan sc js))) by (apply filter_In; auto).
  assert (Hin : In (raw_tk js r) (source_tokens sc js)).
  { unfold source_tokens. destruct (filter nc (sc_scan sc js)) as [|a q]; [destruct Hf|]. apply in_map. exact Hf. }
  destruct (Hq _ Hin) as [H2 _]. cbn [k_text k_tok raw_tk tk_of] in H2. destruct H2 as [H2|H2]; [congruence|].
  repeat split; intros C; apply H2; rewrite C; cbn; tauto.
Qed.
(** What is asked of the scanner's queries about tokens. *)
Definition keywords_plain (sc : scanner) : Prop :=
  (sc_strict_reserved sc (TKeyword KThis) = false /\ sc_strict_reserved sc (TKeyword KFunction) = false /\ sc_strict_reserved sc (TKeyword KClass) = false)
  /\ (forall p, sc_literal sc (TPunct p) = false) /\ sc_literal sc TString = true /\ sc_literal sc TNumeric = true
  /\ sc_literal sc TNull = true /\ forall b, sc_literal sc (TBoolean b) = true.
Lemma starts_at sc tolerant module js : scan_contract js (sc_scan sc js) -> async_ok js (sc_scan sc js) -> Forall quiet (source_tokens sc js) ->
  exists i s, start (make_cfg sc tolerant module js) (sc_scan sc js) = (Ok i, s) /\ At (make_cfg sc tolerant module js) s (source_tokens sc js) default_ctx.
Proof.
  intros Hc Ha Hq. set (g := make_cfg sc tolerant module js). destruct (start_scan sc tolerant module js Hc) as (i & s & E & Hk & _). fold g in E.
  exists i, s. split; [exact E|].
  pose proof (start_at sc tolerant module js i s (quiet_plain sc js Hc Hq) E) as (At1 & _ & _). fold g in At1. cbn [g_stream] in At1.
  assert (Ec : st_ctx s = default_ctx).
  { unfold start, next_item in E. apply next_item_loop_ok in E; [|reflexivity]. destruct E as (_ & E & _). rewrite E. reflexivity. }
  split; [exact At1|]. split; [exact Ec|]. split; [exact Hk|]. split; [exact Hq|].
  split; [reflexivity|]. exists (sc_scan sc js). split; [exact Ha|]. eapply start_placed; [exact Hc|exact E].
Qed.
Lemma expression_trip sc tolerant module js e l' : scan_contract js (sc_scan sc js) -> keywords_plain sc ->
  async_ok js (sc_scan sc js) -> spells_expression (sc_restricted sc TIdent || sc_strict_reserved sc TIdent) (source_tokens sc js) e l' ->
  exists i s, start (make_cfg sc tolerant module js) (sc_scan sc js) = (Ok i, s) /\
    exists n s', parse_expression (make_cfg sc tolerant module js) n s = (Ok e, s') /\ it_tok (st_look s') = hd_tok l'.
Proof.
  intros Hc Hr Ha (Hq & Hd & Hf). destruct (starts_at sc tolerant module js Hc Ha Hq) as (i & s & E & A). exists i, s. split; [exact E|].
  apply (std_good (make_cfg sc tolerant module js) (proj1 Hr) (proj2 Hr)) in Hd. specialize (Hd false (fun _ => eq_refl)). cbn [sem lift] in Hd.
  destruct (Hd s default_ctx A eq_refl Hf) as (n & a & s' & R & -> & k' & A' & _).
  exists n, s'. split; [exact R|]. destruct (at_look _ _ _ _ A') as [-> _]. reflexivity.
Qed.
Lemma round_trip sc tolerant module js ps : scan_contract js (sc_scan sc js) -> keywords_plain sc ->
  async_ok js (sc_scan sc js) -> spells (sc_restricted sc TIdent || sc_strict_reserved sc TIdent) module (source_tokens sc js) ps ->
  exists i s, start (make_cfg sc tolerant module js) (sc_scan sc js) = (Ok i, s) /\
    exists n s', parse (make_cfg sc tolerant module js) n s = (Ok (make_program module ps), s') /\ it_tok (st_look s') = TEoF.
Proof.
  intros Hc Hr Ha Hs. destruct (starts_at sc tolerant module js Hc Ha (proj1 Hs)) as (i & s & E & A).
  exists i, s. split; [exact E|]. set (g := make_cfg sc tolerant module js) in *.
  destruct (spells_parts g (proj1 Hr) (proj2 Hr) module s _ _ ps Hs A eq_refl) as (l' & El & n & a & s' & R & -> & k' & A' & _).
  exists n, s'. split; [unfold parse; rewrite R; reflexivity|]. destruct (at_look _ _ _ _ A') as [-> _]. exact El.
Qed.
