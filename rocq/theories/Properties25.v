(** C66: an accepted text in parentheses or in braces. *)
From Verif Require Import Scan Async Same.
From Verif Require Import Enclosed Properties8 Properties11.
From Verif Require Export Properties24.
Local Open Scope string_scope.
Local Open Scope list_scope.

(** *** C66
    The tokens of the second text are those of the first between two more.  The marks for line terminators are the
    same; only where there is no [yield] those before the end of the first text and before the closing token of
    the second may differ. *)
Definition between (sc : scanner) (op : token) (wo : text) (cl : token) (wc : text) (js1 js2 : text) : Prop :=
  exists m b b0 b1 w2 b2, signs sc js1 = m ++ [(TEoF, Some [], b)]
    /\ signs sc js2 = (op, Some wo, b0) :: m ++ [(cl, Some wc, b1); (TEoF, w2, b2)]
    /\ (b = b1 /\ sc_end_nl sc js1 = sc_end_nl sc js2 \/ forall w x, ~ In (TKeyword KYield, w, x) m).
(** The word [async] needs more, because the parser looks at lines there (C50): it does not occur, or the texts are
    on one line and its occurrences are as C50 asks. *)
Definition one_line (sc : scanner) (js : text) : Prop :=
  ~ In LF js /\ async_ok js (sc_scan sc js) /\ functions_spelled js (sc_scan sc js) /\ end_plain js (sc_scan sc js).
Definition async_plain (sc : scanner) (js1 js2 : text) : Prop :=
  no_async js1 (sc_scan sc js1) \/ one_line sc js1 /\ one_line sc js2.

Lemma cut_in items fab t x : cut_items items fab t -> In x fab -> In x items \/ x = end_for t.
Proof.
  intros (pre & more & -> & ->) H. apply in_app_or in H as [H|[<-|[]]]; [left; apply in_or_app; auto|right; reflexivity].
Qed.
Lemma two_ends (A : Type) (l m pre : list A) r f rest fin : l ++ r :: m ++ f :: rest = pre ++ [fin] ->
  (exists rest', pre = l ++ r :: m ++ f :: rest') \/ rest = [] /\ f = fin /\ pre = l ++ r :: m.
Proof.
  intros E. destruct (List.exists_last (l := f :: rest) ltac:(discriminate)) as (q & z & Eq).
  assert (E' : (l ++ r :: m ++ q) ++ [z] = pre ++ [fin]) by (rewrite <- E, Eq, <- !app_assoc; cbn [app]; rewrite <- app_assoc; reflexivity).
  apply app_inj_tail in E' as [E1 <-]. destruct q as [|y q]; cbn [app] in Eq; injection Eq as -> ->.
  - right. rewrite <- E1, app_nil_r. auto.
  - left. exists q. symmetry. exact E1.
Qed.
Lemma cut_async js items fab t : cut_items items fab t -> boundary js (it_start (r_item t)) -> is_comment (it_tok (r_item t)) = false ->
  async_ok js items /\ functions_spelled js items /\ end_plain js items -> async_ok js fab /\ functions_spelled js fab /\ end_plain js fab.
Proof.
  intros K B Nt (A1 & A2 & A3). split; [|split].
  - destruct K as (pre & more & -> & ->). intros l r m f rest E Ha. symmetry in E. destruct (two_ends _ _ _ _ _ _ _ _ E) as [(rest' & Ep)|(-> & -> & Ep)].
    + apply (A1 l r m f (rest' ++ t :: more)); [rewrite Ep, <- !app_assoc; cbn [app]; rewrite <- app_assoc; reflexivity|exact Ha].
    + destruct (A1 l r m t more) as (H1 & H2 & H3); [rewrite Ep, <- !app_assoc; reflexivity|exact Ha|]. split; [exact H1|]. split; [exact H2|].
      intros Hm _ Hn. destruct (H3 Hm Nt Hn) as [H4 _]. split; [exact H4|discriminate].
  - intros x Hx Tx. destruct (cut_in _ _ _ _ K Hx) as [Hi| ->]; [exact (A2 x Hi Tx)|discriminate Tx].
  - intros x Hx Tx. destruct (cut_in _ _ _ _ K Hx) as [Hi| ->]; [exact (A3 x Hi Tx)|].
    unfold text_of. cbn [end_for r_item it_start it_end]. rewrite (slice_nil _ _ B). discriminate.
Qed.
Lemma plain_alike sc js1 js2 fab t : async_plain sc js1 js2 -> cut_items (sc_scan sc js2) fab t -> boundary js2 (it_start (r_item t)) -> is_comment (it_tok (r_item t)) = false ->
  async_alike js1 js2 (sc_scan sc js1) fab.
Proof.
  intros [H|[(N1 & A1 & A2 & A3) (N2 & B1 & B2 & B3)]] K B Nt; [left; exact H|]. right.
  destruct (cut_async js2 _ fab t K B Nt (conj B1 (conj B2 B3))) as (B1' & B2' & B3'). repeat (split; [assumption|]). apply same_lines_one_line; assumption.
Qed.

Section Two.
  Variables (sc : scanner) (module : bool) (js1 js2 : text) (op cl : punct) (wo wc : text).
  Notation g1 := (make_cfg sc false module js1).
  Notation g2 := (make_cfg sc false module js2).
  Hypothesis C1 : scan_contract js1 (sc_scan sc js1).
  Hypothesis C2 : scan_contract js2 (sc_scan sc js2).
  Hypothesis Bw : between sc (TPunct op) wo (TPunct cl) wc js1 js2.
  Hypothesis As : async_plain sc js1 js2.
  Hypothesis Lc : List.length wc <= 1.
  (** The parser of the second text after the opening token, [t1], and the parser [u] that has the end in the place of the
      closing token, which runs as that of the first text. *)
  Lemma enclosed_parsers s : fresh_parser sc false module js1 s ->
    exists t0 t1 u t more lax fab, fresh_parser sc false module js2 t0 /\ has_text g2 (st_look t0) /\ passes g2 (TPunct op) t0 t1
      /\ st_ctx t0 = default_ctx /\ st_ctx t1 = default_ctx /\ placed js2 (sc_scan sc js2) t1
      /\ instead (end_for t) t more u t1 /\ in_the_place g2 (end_for t) t /\ it_tok (r_item t) = TPunct cl
      /\ (lax = true \/ g_end_nl g1 = g_end_nl g2) /\ async_alike js1 js2 (sc_scan sc js1) fab /\ Rs g1 g2 (sc_scan sc js1) fab lax s u
      /\ forall v, scan_ok js2 v -> st_look v = r_item t -> st_rest v = more -> exists v', passes g2 (TPunct cl) v v' /\ it_tok (st_look v') = TEoF.
  Proof.
    intros (i1 & E1). destruct Bw as (m & b & b0 & b1 & w2 & b2 & S1 & S2 & Y).
    destruct (start_scan sc false module js2 C2) as (i2 & t0 & E2 & Sk & _).
    assert (L : exists lax, (lax = true \/ g_end_nl g1 = g_end_nl g2) /\ (lax = false -> b = b1) /\ (lax = true -> forall w x, ~ In (TKeyword KYield, w, x) m)).
    { destruct Y as [[Yb Ye]|Y]; [exists false|exists true]; repeat split; auto; discriminate. }
    destruct L as (lax & La & Lb & Ly).
    destruct (enclosed_related sc module js1 js2 (TPunct op) (TPunct cl) m b b0 b1 b2 (Some wo) (Some wc) w2 C1 C2 S1 S2 eq_refl eq_refl lax Lb Ly i1 s i2 t0 E1 E2)
      as (t1 & u & t & more & fab & T0 & W0 & Nx & P & X0 & X1 & In & Tc & Wc & Wf & Em & K & R).
    exists t0, t1, u, t, more, lax, fab. split; [exists i2; exact E2|]. split; [exists wo; exact W0|].
    split; [split; [exact T0|exists (st_look t0); exact Nx]|]. split; [exact X0|]. split; [exact X1|]. split; [exact P|]. split; [exact In|].
    assert (B : boundary js2 (it_start (r_item t))) by apply Wf.
    split. { split; [reflexivity|]. split; [reflexivity|]. split; [reflexivity|]. split; [|split].
      - intros w H. cbn in H. rewrite (slice_nil _ _ B) in H. injection H as <-. apply Nat.le_0_l.
      - intros w H. change (g_stream g2) with js2 in H. rewrite Wc in H. injection H as <-. exact Lc.
      - exists wc. exact Wc. }
    split; [exact Tc|]. split; [exact La|]. split; [eapply plain_alike; eauto; rewrite Tc; reflexivity|]. split; [exact R|].
    intros v Sv Lv Rv. destruct (Same.next_before lax g2 v Sv) as (v' & N' & B' & _ & _); [rewrite Lv, Tc; reflexivity|].
    exists v'. split; [split; [rewrite Lv; exact Tc|exists (st_look v); exact N']|].
    unfold Same.before, sign in B'. cbn [tl] in B'. rewrite Rv in B'. change (g_stream g2) with js2 in B'. rewrite Em in B'. injection B' as -> _ _ _. reflexivity.
  Qed.
End Two.

(** What is an expression up to the end of the text is, in parentheses, the program of that expression. *)
Theorem C66_parentheses : forall sc module js1 js2 s e s', scan_contract js1 (sc_scan sc js1) -> scan_contract js2 (sc_scan sc js2) ->
  between sc (TPunct POpenParen) (str "(") (TPunct PCloseParen) (str ")") js1 js2 -> async_plain sc js1 js2 ->
  fresh_parser sc false module js1 s -> returns (fun n => parse_expression (make_cfg sc false module js1) n s) (Ok e) s' -> got_to_the_end s' ->
  exists t', parse_text sc (mkBuilder false module js2) (Ok (if module then PMod [PPStmt (SExpr e)] else PScript [PPStmt (SExpr e)])) t'.
Proof.
  intros sc module js1 js2 s e s' C1 C2 Bw As Fr [_ [n R]] [G1 G2].
  destruct (enclosed_parsers sc module js1 js2 POpenParen PCloseParen (str "(") (str ")") C1 C2 Bw As (Nat.le_refl 1) s Fr)
    as (t0 & t1 & u & t & more & lax & fab & (i2 & E2) & W0 & P1 & X0 & X1 & Sk & In & Pl & Tc & La & Al & Rl & Nx).
  set (g2 := make_cfg sc false module js2) in *. set (g1 := make_cfg sc false module js1) in *.
  pose proof (run_call_same g1 g2 _ _ lax eq_refl eq_refl eq_refl eq_refl eq_refl La eq_refl eq_refl Al n (Same.size s) _ CExpression s u Rl (Nat.le_refl _)) as A.
  change (run_call (@body) g1 n CExpression s) with (parse_expression g1 n s) in A. rewrite R in A.
  destruct (run_call (@body) g2 n CExpression u) as [o u'] eqn:Eu. destruct o as [e'|?| |]; cbn [agrees] in A; try contradiction. destruct A as (<- & Rl' & _).
  assert (Gu : got_to_the_end u').
  { pose proof (Rs_look _ _ _ _ _ _ _ Rl') as [L _]. destruct Rl' as (_ & F & _). split; congruence. }
  destruct (C65_expression g2 (end_for t) t more u t1 e u' eq_refl Pl) as (t2 & R2 & L2 & I2);
    [rewrite Tc; left; reflexivity|exact In|split; [discriminate|exists n; exact Eu]|exact Gu|].
  destruct R2 as (N2 & k & R2). pose proof (run_placed g2 (sc_scan sc js2) k _ (Call CExpression) t1 (Ok e) t2 R2 Sk) as [Sk2 _].
  destruct (Nx t2 Sk2 L2) as (t3 & P3 & E3); [rewrite (instead_end _ _ _ _ _ I2 (proj1 Gu)); reflexivity|].
  destruct (C63_text sc false module js2 t0 t1 e t2 t3) as (t' & Rt); [rewrite X0; reflexivity|exact W0|exact P1| |exact P3|exact E3|].
  { apply wrapped_not. split; [discriminate|exists k; exact R2]. }
  exists t'. unfold parse_text, build. cbn [b_tolerant b_module b_js]. fold g2. rewrite E2. exact Rt.
Qed.
Print Assumptions C66_parentheses.

(** What is a program up to the end of the text is, in braces, the program of the block of its parts, if it has no
    string in front. *)
Definition in_a_block (p : Program) : Program :=
  match p with PMod l => PMod [PPStmt (SBlock l)] | PScript l => PScript [PPStmt (SBlock l)] end.
Theorem C66_block : forall sc module js1 js2 p s', scan_contract js1 (sc_scan sc js1) -> scan_contract js2 (sc_scan sc js2) ->
  between sc (TPunct POpenBrace) (str "{") (TPunct PCloseBrace) (str "}") js1 js2 -> async_plain sc js1 js2 ->
  (forall t w b l, signs sc js1 = (t, w, b) :: l -> is_string t = false) ->
  parse_text sc (mkBuilder false module js1) (Ok p) s' -> st_found_eof s' = false ->
  exists t', parse_text sc (mkBuilder false module js2) (Ok (in_a_block p)) t'.
Proof.
  intros sc module js1 js2 p s' C1 C2 Bw As Ns Pt Fe.
  unfold parse_text, build in Pt. cbn [b_tolerant b_module b_js] in Pt.
  destruct (start_scan sc false module js1 C1) as (i1 & s & E1 & _). rewrite E1 in Pt.
  destruct (enclosed_parsers sc module js1 js2 POpenBrace PCloseBrace (str "{") (str "}") C1 C2 Bw As (Nat.le_refl 1) s (ex_intro _ i1 E1))
    as (t0 & t1 & u & t & more & lax & fab & (i2 & E2) & W0 & P1 & X0 & X1 & Sk & In & Pl & Tc & La & Al & Rl & Nx).
  destruct (fresh_before sc false module js1 false i1 s C1 E1) as (B1 & _).
  assert (Us : is_string (it_tok (st_look s)) = false).
  { destruct (signs sc js1) as [|[[tx wx] bx] l] eqn:Es; [discriminate B1|]. unfold Same.before, sign in B1. cbn [marks map] in B1. injection B1 as -> _ _ _. eapply Ns; reflexivity. }
  set (g2 := make_cfg sc false module js2) in *. set (g1 := make_cfg sc false module js1) in *.
  apply C03_parse_is_iteration in Pt as (l & v & r & Y & N & [[-> Ep]|[(? & _ & Ep)|[_ Ep]]]); try discriminate Ep. injection Ep as ->.
  assert (Ev : is_eof (it_tok (st_look v)) = true /\ s' = v).
  { destruct N as (_ & n & N). unfold iter_next in N. destruct (is_eof _); [inversion N; auto|]. destruct (run_call _ _ _ _ _); discriminate N. }
  destruct Ev as [Ev ->].
  assert (Yu : exists u', yields g2 u l u' /\ Rs g1 g2 (sc_scan sc js1) fab lax v u').
  { clear - Y Rl La Al. revert u Rl. induction Y as [s|s part s1 parts s2 (N1 & n & E) Y IH]; intros u Rl; [exists u; split; [constructor|exact Rl]|].
    destruct (iter_next_same g1 g2 _ _ lax eq_refl eq_refl eq_refl eq_refl eq_refl La eq_refl eq_refl Al n s u Rl) as [A1 A2].
    rewrite E in A1, A2. cbn [fst snd] in A1, A2. destruct (iter_next g2 n u) as [r2 u2] eqn:Eu. cbn [fst snd] in A1, A2.
    destruct r2 as [[a|?| |]|]; cbn in A1; try congruence. injection A1 as <-. specialize (A2 ltac:(discriminate) ltac:(discriminate)).
    destruct (IH u2 A2) as (u' & Yu & R'). exists u'. split; [|exact R']. econstructor; [|exact Yu]. split; [discriminate|]. exists n. exact Eu. }
  destruct Yu as (u' & Yu & Rl').
  assert (Tv : it_tok (st_look v) = TEoF) by (destruct (it_tok (st_look v)); discriminate Ev || reflexivity).
  assert (Gu : got_to_the_end u').
  { pose proof (Rs_look _ _ _ _ _ _ _ Rl') as [L _]. destruct Rl' as (_ & F & _). split; congruence. }
  assert (D : ~ may_be_directive t1).
  { intros [_ D]. destruct (Rs_look _ _ _ _ _ _ _ Rl) as [L _]. destruct In; cbn [st_look] in *; [congruence|rewrite Tc in D; discriminate D]. }
  destruct (C65_parts g2 (end_for t) t more u t1 l u' eq_refl Pl Tc In Yu Gu) as (t2 & Y2 & L2 & I2).
  assert (Sk2 : placed js2 (sc_scan sc js2) t2).
  { clear - Y2 Sk. induction Y2 as [t|t part t' parts t'' (_ & n & E) _ IH]; [exact Sk|]. apply IH. unfold iter_next in E.
    destruct (is_eof _); [discriminate E|]. destruct (run_call (@body) g2 n CNextPart t) as [o w] eqn:X. inversion E; subst.
    exact (run_placed g2 (sc_scan sc js2) n _ (Call CNextPart) t _ t' X Sk). }
  destruct (Nx t2 (proj1 Sk2) L2) as (t3 & P3 & E3); [rewrite (instead_end _ _ _ _ _ I2 (proj1 Gu)); reflexivity|].
  destruct (C64_block g2 t0 t1 l t2 t3 P1 D Y2 P3) as (t4 & R4 & Q4). apply same_but_6_look in Q4.
  exists t4. unfold parse_text, build. cbn [b_tolerant b_module b_js]. fold g2. rewrite E2. apply C03_parse_is_iteration.
  exists [PPStmt (SBlock l)], t4, None. split; [econstructor; [exact R4|constructor]|].
  split; [split; [discriminate|exists 0; unfold iter_next; rewrite Q4, E3; reflexivity]|]. left. split; [reflexivity|]. destruct module; reflexivity.
Qed.
Print Assumptions C66_block.

(** Concrete cases: an expression with a comment before it in the one text and after it in the other, ... *)
Definition plain_text : text := str "/* 1 */ a = b ? c : d, /x/.y".
Definition paren_text : text := str "( a = b ? c : d , /x/ . y /* 2 */ )".
Example C66_case : exists e s s', scan_contract plain_text (sc_scan test_scanner plain_text) /\ scan_contract paren_text (sc_scan test_scanner paren_text)
  /\ between test_scanner (TPunct POpenParen) (str "(") (TPunct PCloseParen) (str ")") plain_text paren_text /\ async_plain test_scanner plain_text paren_text
  /\ fresh_parser test_scanner false false plain_text s /\ returns (fun n => parse_expression (make_cfg test_scanner false false plain_text) n s) (Ok e) s' /\ got_to_the_end s'
  /\ match e with ESequence [EAssignment _ _ (EConditional _ _ _); EMember _ _ _] => True | _ => False end.
Proof.
  eexists. exists (ex_start "/* 1 */ a = b ? c : d, /x/.y"). eexists.
  split; [apply contractb_ok; vm_compute; reflexivity|]. split; [apply contractb_ok; vm_compute; reflexivity|].
  split. { exists (removelast (signs test_scanner plain_text)). do 5 eexists. split; [vm_compute; reflexivity|]. split; [vm_compute; reflexivity|].
    right. intros w x X. vm_compute in X. repeat (destruct X as [X|X]; [discriminate X|]). destruct X. }
  split; [left; apply no_asyncb_ok; vm_compute; reflexivity|]. split; [eexists; vm_compute; reflexivity|].
  split; [split; [discriminate|exists 100; vm_compute; reflexivity]|]. split; [split; reflexivity|]. exact I.
Qed.
(** ... and a program with [async] and [yield]. *)
Definition plain_program : text := str "let a = async b => b; function* f() { yield a } f()".
Definition block_program : text := str "{ let a = async b => b ; function * f ( ) { yield a } f() }".
Example C66_block_case : exists p s', scan_contract plain_program (sc_scan test_scanner plain_program) /\ scan_contract block_program (sc_scan test_scanner block_program)
  /\ between test_scanner (TPunct POpenBrace) (str "{") (TPunct PCloseBrace) (str "}") plain_program block_program
  /\ async_plain test_scanner plain_program block_program
  /\ (forall t w b l, signs test_scanner plain_program = (t, w, b) :: l -> is_string t = false)
  /\ parse_text test_scanner (mkBuilder false false plain_program) (Ok p) s' /\ st_found_eof s' = false
  /\ match p with PScript [_; _; _] => True | _ => False end.
Proof.
  do 2 eexists.
  split; [apply contractb_ok; vm_compute; reflexivity|]. split; [apply contractb_ok; vm_compute; reflexivity|].
  split. { exists (removelast (signs test_scanner plain_program)). do 5 eexists. split; [vm_compute; reflexivity|]. split; [vm_compute; reflexivity|].
    left. split; vm_compute; reflexivity. }
  split.
  { right. split; (split; [apply no_lf; vm_compute; reflexivity|]).
    - split; [apply async_okb_ok; vm_compute; reflexivity|]. split; [apply functions_spelledb_ok|apply end_plainb_ok]; vm_compute; reflexivity.
    - split; [apply async_okb_ok; vm_compute; reflexivity|]. split; [apply functions_spelledb_ok|apply end_plainb_ok]; vm_compute; reflexivity. }
  split; [intros t w b l X; vm_compute in X; injection X as <- _ _ _; reflexivity|].
  split; [split; [discriminate|exists 200; vm_compute; reflexivity]|]. split; [reflexivity|exact I].
Qed.
(** A string in front is a directive in the one text and an expression in the other. *)
Theorem C66_string_needed : exists w l,
  fst (parse (ex_cfg "'a'") 100 (ex_start "'a'")) = Ok (PScript [PPDir w l])
  /\ fst (parse (ex_cfg "{'a'}") 100 (ex_start "{'a'}")) = Ok (PScript [PPStmt (SBlock [PPStmt (SExpr (ELiteral l))])]).
Proof. do 2 eexists. split; vm_compute; reflexivity. Qed.
Print Assumptions C66_string_needed.
