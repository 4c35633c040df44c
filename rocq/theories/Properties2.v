(** Lines and positions. *)
From Verif Require Import Positions Lexer.
Open Scope string_scope.
Open Scope nat_scope.
Open Scope list_scope.

(** ** C11 *)
Theorem C11_line_table : forall t, cr_followed t -> get_lines t = true_lines t.
Proof. exact get_lines_true. Qed.
Print Assumptions C11_line_table.

Lemma cr_followed_ascii t : Forall (fun c => (c <? 128)%N = true) t -> last_opt t <> Some CR -> cr_followed t.
Proof.
  intros Ha Hl pre suf ->. destruct suf as [|d suf].
  - exfalso. apply Hl. clear. induction pre as [|c pre IH]; [reflexivity|].
    cbn [app]. rewrite last_opt_cons, IH. reflexivity.
  - exists d, suf. split; auto. rewrite Forall_app in Ha. destruct Ha as [_ Ha].
    inversion Ha as [|? ? _ Ha']; subst. inversion Ha' as [|? ? Hd _]; subst.
    unfold len_utf8. rewrite Hd. reflexivity.
Qed.

Definition ex_text : text := str "a" ++ [LF] ++ str "bc" ++ [CR; LF] ++ str "d" ++ [CR] ++ str "e".
Example C11_case : cr_followed ex_text /\
  true_lines ex_text = [mkLine 0 1; mkLine 2 5; mkLine 6 7; mkLine 8 8].
Proof. split; [apply cr_followed_ascii; [repeat constructor|discriminate]|reflexivity]. Qed.
Example C11_case_wide : true_lines [97; LS; 233; PS; 98]%N = [mkLine 0 3; mkLine 4 8; mkLine 9 9].
Proof. reflexivity. Qed.

(** A carriage return at the very end, or before a character of several bytes, is missed. *)
Theorem C11_all_texts_refuted : exists t, get_lines t <> true_lines t.
Proof. exists [97; CR; 233; 98]%N. vm_compute. discriminate. Qed.
Print Assumptions C11_all_texts_refuted.
Theorem C11_final_cr_refuted : exists t, Forall (fun c => (c < 128)%N) t /\ get_lines t <> true_lines t.
Proof. exists [97; CR]%N. split; [repeat constructor|vm_compute; discriminate]. Qed.
Print Assumptions C11_final_cr_refuted.

(** ** C12 *)
Theorem C12_item_position : forall before after,
  cr_followed (before ++ after) -> not_crlf after ->
  item_position (get_lines (before ++ after)) (byte_len before) = Some (true_position before).
Proof. exact item_position_true. Qed.
Print Assumptions C12_item_position.

(** The position in the errors of the parser. *)
Lemma item_pos_true sc tolerant module before after i :
  cr_followed (before ++ after) -> not_crlf after -> it_start i = byte_len before ->
  item_pos (make_cfg sc tolerant module (before ++ after)) i = true_position before.
Proof.
  intros H1 H2 H3. unfold item_pos, make_cfg. cbn [g_lines]. rewrite H3.
  rewrite item_position_true by assumption. reflexivity.
Qed.
Theorem C12_error_position : forall sc tolerant module before after i,
  cr_followed (before ++ after) -> not_crlf after -> it_start i = byte_len before ->
  item_pos (make_cfg sc tolerant module (before ++ after)) i = true_position before.
Proof. exact item_pos_true. Qed.
Print Assumptions C12_error_position.

Example C12_case : let before := str "a" ++ [CR; LF; LF] ++ str "bc" in
  cr_followed (before ++ str "d;") /\ not_crlf (str "d;") /\ true_position before = mkPos 3 2.
Proof. split; [apply cr_followed_ascii; [repeat constructor|discriminate]|split; [split; discriminate|reflexivity]]. Qed.

Theorem C12_all_texts_refuted : exists before after, not_crlf after /\
  item_position (get_lines (before ++ after)) (byte_len before) <> Some (true_position before).
Proof. exists [97; CR; 233]%N, [98]%N. split; [split; discriminate|vm_compute; discriminate]. Qed.
Print Assumptions C12_all_texts_refuted.
(** The offset of a line feed itself is attributed to the next line. *)
Theorem C12_at_line_feed_refuted : exists before after, cr_followed (before ++ after) /\
  item_position (get_lines (before ++ after)) (byte_len before) <> Some (true_position before).
Proof.
  exists [97]%N, [LF; 98]%N. split; [apply cr_followed_ascii; [repeat constructor|discriminate]|].
  vm_compute. discriminate.
Qed.
Print Assumptions C12_at_line_feed_refuted.

(** ** C13 *)
Theorem C13_position_total : forall t o, exists p, item_position (get_lines t) o = Some p.
Proof. exact item_position_some. Qed.
Print Assumptions C13_position_total.
Example C13_case : item_position (get_lines []) 12 = Some (mkPos 1 12).
Proof. reflexivity. Qed.

(** ** C42 *)
Theorem C42_running_positions : forall sc tolerant module js s,
  let g := make_cfg sc tolerant module js in
  lf_only js -> scan_contract js (sc_scan sc js) -> reachable g (sc_scan sc js) s ->
  exists l r, sc_scan sc js = l ++ r :: st_rest s /\ st_look s = r_item r
    /\ at_offset js (it_start (r_item r)) (st_look_pos s)
    /\ at_offset js (last_offset l) (st_cur_pos s).
Proof. exact (fun sc tolerant module js s H1 H2 H3 => proj2 (reachable_positions sc tolerant module js s H1 H2 H3)). Qed.
Print Assumptions C42_running_positions.

(** A decision procedure for the contract, to exhibit texts that meet it. *)
Definition boundaryb (js : text) (o : nat) : bool :=
  match drop_bytes o js with Some _ => true | None => false end.
Lemma boundaryb_ok js o : boundaryb js o = true -> boundary js o.
Proof.
  unfold boundaryb. destruct (drop_bytes o js) eqn:E; [|discriminate]. intros _.
  apply drop_bytes_inv in E. destruct E as (pre & -> & <-). exists pre, t. auto.
Qed.
Definition closedb (a : N) (z w : text) : bool :=
  match w with c :: r => N.eqb c a && text_eqb (skipn (length r - length z) r) z | [] => false end.
Definition delimitedb (t : token) (w : text) : bool :=
  match t with
  | TRegEx => match w with c :: r => N.eqb c 47 && existsb (N.eqb 47) r | [] => false end
  | TTemplate THead => closedb 96 [36%N; 123%N] w
  | TTemplate TBody => closedb 125 [36%N; 123%N] w
  | TTemplate TTail => closedb 125 [96%N] w
  | TTemplate TNoSub => closedb 96 [96%N] w
  | _ => true
  end.
Lemma closedb_ok a z w : closedb a z w = true -> exists b, w = [a] ++ b ++ z.
Proof.
  destruct w as [|c r]; [discriminate|]. cbn [closedb]. rewrite andb_true_iff, N.eqb_eq, text_eqb_eq. intros [-> H].
  exists (firstn (length r - length z) r). cbn [app]. f_equal. rewrite <- H at 2. symmetry. apply firstn_skipn.
Qed.
Lemma delimitedb_ok t w : delimitedb t w = true -> delimited t w.
Proof.
  destruct t as [| | | | | | | | |[]|]; cbn [delimited delimitedb]; try exact (fun _ => I); try apply closedb_ok.
  destruct w as [|c r]; [discriminate|]. rewrite andb_true_iff, N.eqb_eq, existsb_exists. intros [-> (x & Hx & E)].
  apply N.eqb_eq in E. subst. apply in_split in Hx as (b & f & ->). exists b, f. reflexivity.
Qed.
Definition item_okb (js : text) (i : item) : bool :=
  boundaryb js (it_start i) && boundaryb js (it_end i) && (it_start i <=? it_end i)
  && match slice js (it_start i) (it_end i) with Some w => delimitedb (it_tok i) w | None => true end.
Lemma item_okb_ok js i : item_okb js i = true -> well_formed js i.
Proof.
  unfold item_okb. rewrite !andb_true_iff, Nat.leb_le. intros [[[H1 H2] H3] H4].
  repeat split; auto using boundaryb_ok. intros w E. rewrite E in H4. apply delimitedb_ok. exact H4.
Qed.
Fixpoint in_orderb (e : nat) (l : list raw) : bool :=
  match l with [] => true | r :: l' => (e <=? it_start (r_item r)) && in_orderb (it_end (r_item r)) l' end.
Lemma in_orderb_ok l : forall e, in_orderb e l = true -> in_order e l.
Proof. induction l; cbn; auto. intros e. rewrite andb_true_iff, Nat.leb_le. intros [? ?]; auto. Qed.
Fixpoint ends_with_eofb (l : list raw) : bool :=
  match l with
  | [] => false
  | [r] => is_eof (it_tok (r_item r))
  | r :: l' => negb (is_eof (it_tok (r_item r))) && ends_with_eofb l'
  end.
Lemma ends_with_eofb_ok l : ends_with_eofb l = true -> ends_with_eof l.
Proof.
  induction l as [|r [|r' l] IH]; [discriminate|auto|]. intros H.
  change (negb (is_eof (it_tok (r_item r))) && ends_with_eofb (r' :: l) = true) in H.
  rewrite andb_true_iff, negb_true_iff in H. destruct H as [H1 H2]. split; auto.
Qed.
Definition contractb (js : text) (l : list raw) : bool :=
  forallb (fun r => item_okb js (r_item r)) l && in_orderb 0 l && ends_with_eofb l.
Lemma contractb_ok js l : contractb js l = true -> scan_contract js l.
Proof.
  unfold contractb. rewrite !andb_true_iff. intros [[H1 H2] H3].
  split; [|split; auto using in_orderb_ok, ends_with_eofb_ok].
  rewrite Forall_forall. rewrite forallb_forall in H1. intros r Hr. apply item_okb_ok. auto.
Qed.

Definition ex_lf : text := str "a;" ++ [LF] ++ str "/* x" ++ [LF] ++ str " */ b(1" ++ [LF] ++ str ");".
Example C42_case : lf_only ex_lf /\ scan_contract ex_lf (lex ex_lf) /\
  exists s, reachable (make_cfg test_scanner false false ex_lf) (lex ex_lf) s /\ st_look_pos s = mkPos 3 4.
Proof.
  split; [unfold ex_lf; repeat (constructor; [repeat split; discriminate|]); constructor|].
  split; [apply contractb_ok; vm_compute; reflexivity|].
  eexists. split.
  - eapply reach_next; [eapply reach_new; vm_compute; reflexivity|].
    instantiate (3 := 40). vm_compute. reflexivity.
  - reflexivity.
Qed.

(** With CRLF the running positions are wrong: the CRLF pairs inside a token or comment count
    twice. *)
Definition ex_crlf : text := str "/*" ++ [CR; LF] ++ str "*/ b".
Theorem C42_crlf_refuted : exists sc js s, scan_contract js (sc_scan sc js) /\
  reachable (make_cfg sc false false js) (sc_scan sc js) s /\
  ~ at_offset js (it_start (st_look s)) (st_look_pos s).
Proof.
  exists test_scanner, ex_crlf. eexists. split; [apply contractb_ok; vm_compute; reflexivity|].
  split; [eapply reach_new; vm_compute; reflexivity|].
  intros (pre & suf & E & L & P). cbn [st_look it_start st_look_pos] in L, P.
  assert (pre = str "/*" ++ [CR; LF] ++ str "*/ ") as ->.
  { destruct (prefix_split pre suf (str "/*" ++ [CR; LF] ++ str "*/ ") (str "b")) as [x Hx];
      [rewrite <- E; reflexivity|rewrite L; vm_compute; repeat constructor|].
    assert (B : byte_len (str "/*" ++ [CR; LF] ++ str "*/ ") = byte_len pre + byte_len x)
      by (rewrite Hx, byte_len_app; reflexivity).
    rewrite L in B. destruct x as [|c x]; [rewrite app_nil_r in Hx; auto|].
    change (byte_len (str "/*" ++ [CR; LF] ++ str "*/ ")) with 7 in B.
    cbn [byte_len] in B. pose proof (len_utf8_pos c). lia. }
  vm_compute in P. discriminate P.
Qed.
Print Assumptions C42_crlf_refuted.
