(** The line table and the positions computed from it. *)
From Verif Require Export Text.

(** ** Specification *)

(** Line and column (in bytes) reached by reading [t] from line [line], column [col]; the line
    terminators are LF, CR, CRLF (one terminator), U+2028 and U+2029. *)
Fixpoint pos_from (line col : nat) (t : text) : position :=
  match t with
  | [] => mkPos line col
  | c :: t' =>
      if is_nl c then
        match t' with
        | d :: t'' => if N.eqb c CR && N.eqb d LF then pos_from (line + 1) 0 t''
                      else pos_from (line + 1) 0 t'
        | [] => pos_from (line + 1) 0 t'
        end
      else pos_from line (col + len_utf8 c) t'
  end.

(** The position just after [before]. *)
Definition true_position (before : text) : position := pos_from 1 0 before.

(** The lines of a text: each from the byte after the previous terminator to the last byte of its
    own; the last line ends with the text.  [ls]: start of the current line, [bp]: current offset. *)
Fixpoint true_lines_from (ls bp : nat) (t : text) : list Line :=
  match t with
  | [] => [mkLine ls (bp - 1)]
  | c :: t' =>
      if is_nl c then
        match t' with
        | d :: t'' =>
            if N.eqb c CR && N.eqb d LF
            then mkLine ls (bp + 1) :: true_lines_from (bp + 2) (bp + 2) t''
            else mkLine ls (bp + len_utf8 c - 1)
                   :: true_lines_from (bp + len_utf8 c) (bp + len_utf8 c) t'
        | [] => mkLine ls (bp + len_utf8 c - 1)
                  :: true_lines_from (bp + len_utf8 c) (bp + len_utf8 c) t'
        end
      else true_lines_from ls (bp + len_utf8 c) t'
  end.
Definition true_lines (t : text) : list Line := true_lines_from 0 0 t.

(** Each carriage return is followed by a line feed or another one-byte character. *)
Definition cr_followed (t : text) : Prop :=
  forall pre suf, t = pre ++ CR :: suf -> exists d suf', suf = d :: suf' /\ len_utf8 d = 1.

(** ** Bytes and boundaries *)
Lemma len_utf8_pos c : 1 <= len_utf8 c.
Proof. unfold len_utf8. repeat destruct (_ <? _)%N; lia. Qed.

Lemma byte_len_app a b : byte_len (a ++ b) = byte_len a + byte_len b.
Proof. induction a; cbn; auto. rewrite IHa. lia. Qed.

Lemma drop_bytes_app a b : drop_bytes (byte_len a) (a ++ b) = Some b.
Proof.
  induction a as [|c a IH]; [destruct b; reflexivity|]. cbn [byte_len app].
  pose proof (len_utf8_pos c). destruct (len_utf8 c + byte_len a) eqn:E; [lia|]. rewrite <- E.
  cbn [drop_bytes]. rewrite E. rewrite <- E.
  replace (len_utf8 c <=? len_utf8 c + byte_len a) with true by (symmetry; apply Nat.leb_le; lia).
  replace (len_utf8 c + byte_len a - len_utf8 c) with (byte_len a) by lia. exact IH.
Qed.

Lemma take_bytes_app a b : take_bytes (byte_len a) (a ++ b) = Some a.
Proof.
  induction a as [|c a IH]; [destruct b; reflexivity|]. cbn [byte_len app].
  pose proof (len_utf8_pos c). destruct (len_utf8 c + byte_len a) eqn:E; [lia|]. rewrite <- E.
  cbn [take_bytes]. rewrite E. rewrite <- E.
  replace (len_utf8 c <=? len_utf8 c + byte_len a) with true by (symmetry; apply Nat.leb_le; lia).
  replace (len_utf8 c + byte_len a - len_utf8 c) with (byte_len a) by lia. rewrite IH. reflexivity.
Qed.

Lemma slice_app a b c : slice (a ++ b ++ c) (byte_len a) (byte_len a + byte_len b) = Some b.
Proof.
  unfold slice. replace (byte_len a + byte_len b <? byte_len a) with false by (symmetry; apply Nat.ltb_ge; lia).
  rewrite drop_bytes_app. replace (byte_len a + byte_len b - byte_len a) with (byte_len b) by lia.
  apply take_bytes_app.
Qed.

Lemma drop_bytes_inv n : forall t t', drop_bytes n t = Some t' ->
  exists pre, t = pre ++ t' /\ byte_len pre = n.
Proof.
  intros t. revert n. induction t as [|c t IH]; intros n t' H.
  - destruct n; cbn in H; inversion H; subst. exists []. auto.
  - destruct n as [|n]; [cbn in H; inversion H; subst; exists []; auto|].
    cbn [drop_bytes] in H. destruct (len_utf8 c <=? S n) eqn:E; [|discriminate].
    apply Nat.leb_le in E. apply IH in H. destruct H as (pre & -> & Hp).
    exists (c :: pre). cbn. split; auto. lia.
Qed.

Lemma take_bytes_inv n : forall t t', take_bytes n t = Some t' ->
  exists suf, t = t' ++ suf /\ byte_len t' = n.
Proof.
  intros t. revert n. induction t as [|c t IH]; intros n t' H.
  - destruct n; cbn in H; inversion H; subst. exists []. auto.
  - destruct n as [|n]; [cbn in H; inversion H; subst; exists (c :: t); auto|].
    cbn [take_bytes] in H. destruct (len_utf8 c <=? S n) eqn:E; [|discriminate].
    apply Nat.leb_le in E. destruct (take_bytes _ t) as [u|] eqn:T; [|discriminate].
    cbn in H. inversion H; subst. apply IH in T. destruct T as (suf & -> & Hp).
    exists suf. cbn. split; auto. lia.
Qed.

Lemma slice_inv t a b u : slice t a b = Some u ->
  exists pre suf, t = pre ++ u ++ suf /\ byte_len pre = a /\ byte_len pre + byte_len u = b.
Proof.
  unfold slice. destruct (b <? a) eqn:E; [discriminate|]. apply Nat.ltb_ge in E.
  destruct (drop_bytes a t) as [t'|] eqn:D; [|discriminate]. intros T.
  apply drop_bytes_inv in D. apply take_bytes_inv in T.
  destruct D as (pre & -> & <-). destruct T as (suf & -> & H).
  exists pre, suf. repeat split; auto. lia.
Qed.

(** ** The table *)
Lemma cr_len : len_utf8 CR = 1. Proof. reflexivity. Qed.
Lemma nl_len c : is_nl c = true -> len_utf8 c = if N.eqb c CR || N.eqb c LF then 1 else 3.
Proof.
  unfold is_nl. rewrite !orb_true_iff, !N.eqb_eq. intros [[[->| ->]| ->]| ->]; reflexivity.
Qed.

Lemma slice_two full pre c t : full = pre ++ c :: t -> len_utf8 c = 1 ->
  slice full (byte_len pre) (byte_len pre + 2) =
  match t with
  | d :: _ => if len_utf8 d =? 1 then Some [c; d] else None
  | [] => None
  end.
Proof.
  intros -> Hc. unfold slice.
  replace (byte_len pre + 2 <? byte_len pre) with false by (symmetry; apply Nat.ltb_ge; lia).
  rewrite drop_bytes_app. replace (byte_len pre + 2 - byte_len pre) with 2 by lia.
  cbn [take_bytes]. rewrite Hc. cbn [Nat.leb Nat.sub]. destruct t as [|d t]; [reflexivity|].
  cbn [take_bytes]. pose proof (len_utf8_pos d).
  destruct (len_utf8 d) as [|[|n]]; [lia| |reflexivity]. destruct t; reflexivity.
Qed.

Lemma cr_followed_tail c t : cr_followed (c :: t) -> cr_followed t.
Proof. intros H pre suf E. apply (H (c :: pre) suf). rewrite E. reflexivity. Qed.

Lemma text_eqb_eq a b : text_eqb a b = true <-> a = b.
Proof.
  revert b. induction a as [|x a IH]; intros [|y b]; cbn; split; try congruence.
  - rewrite andb_true_iff, N.eqb_eq, IH. intros [-> ->]. reflexivity.
  - intros H. inversion H; subst. rewrite N.eqb_refl. apply IH. reflexivity.
Qed.

Lemma get_lines_aux_true full : forall rest pre ls,
  full = pre ++ rest -> cr_followed rest ->
  get_lines_aux full rest ls (byte_len pre) = true_lines_from ls (byte_len pre) rest.
Proof.
  intros rest. remember (length rest) as n eqn:Hn. revert rest Hn.
  induction n as [n IH] using lt_wf_ind. intros rest Hn pre ls Hf Hcr.
  destruct rest as [|c rest]; cbn [get_lines_aux true_lines_from].
  - rewrite Hf, app_nil_r. reflexivity.
  - assert (Hf1 : full = (pre ++ [c]) ++ rest) by (rewrite <- app_assoc; exact Hf).
    assert (Hb1 : byte_len pre + len_utf8 c = byte_len (pre ++ [c])) by (rewrite byte_len_app; cbn; lia).
    assert (IH1 : forall ls', get_lines_aux full rest ls' (byte_len pre + len_utf8 c)
                              = true_lines_from ls' (byte_len pre + len_utf8 c) rest).
    { intros ls'. rewrite Hb1. apply (IH (length rest)); auto; [subst; cbn; lia|].
      eapply cr_followed_tail; eauto. }
    destruct (N.eqb c CR) eqn:Ec.
    + apply N.eqb_eq in Ec. subst c. change (is_nl CR) with true. cbn [andb].
      rewrite (slice_two full pre CR rest Hf cr_len).
      destruct (Hcr [] rest eq_refl) as (d & rest' & -> & Hd). rewrite Hd. cbn [Nat.eqb text_eqb N.eqb].
      change (N.eqb CR CR) with true. cbn [andb]. rewrite andb_true_r. destruct (N.eqb d LF) eqn:Ed.
      * apply N.eqb_eq in Ed. subst d. cbn [get_lines_aux]. change (N.eqb LF CR) with false.
        change (N.eqb LF LF) with true. cbn iota.
        change (len_utf8 CR) with 1. change (len_utf8 LF) with 1.
        f_equal. replace (byte_len pre + 1 + 1) with (byte_len (pre ++ [CR; LF])) by (rewrite byte_len_app; cbn; lia).
        replace (byte_len pre + 2) with (byte_len (pre ++ [CR; LF])) by (rewrite byte_len_app; cbn; lia).
        apply (IH (length rest')).
        -- subst; cbn; lia.
        -- reflexivity.
        -- rewrite <- app_assoc. exact Hf.
        -- do 2 eapply cr_followed_tail. exact Hcr.
      * change (len_utf8 CR) with 1 in *. rewrite IH1. f_equal. f_equal. lia.
    + destruct (N.eqb c LF) eqn:El.
      * apply N.eqb_eq in El. subst c. change (is_nl LF) with true. rewrite IH1. cbn [andb].
        change (len_utf8 LF) with 1.
        replace (byte_len pre + 1 - 1) with (byte_len pre) by lia. destruct rest; reflexivity.
      * destruct (N.eqb c LS || N.eqb c PS) eqn:Es.
        -- assert (Hnl : is_nl c = true) by (unfold is_nl; rewrite El, Ec; cbn; exact Es).
           rewrite Hnl. rewrite IH1. cbn [andb].
           assert (Hl : len_utf8 c = 3) by (rewrite nl_len, Ec, El; auto). rewrite Hl.
           replace (byte_len pre + 3 - 1) with (byte_len pre + 2) by lia. destruct rest; reflexivity.
        -- assert (Hnl : is_nl c = false) by (unfold is_nl; rewrite El, Ec; cbn; exact Es).
           rewrite Hnl. apply IH1.
Qed.

Lemma get_lines_true t : cr_followed t -> get_lines t = true_lines t.
Proof. intros H. exact (get_lines_aux_true t t [] 0 eq_refl H). Qed.

(** ** The search *)
Lemma search_some : forall f lines o i, 1 <= length lines <= f ->
  exists j l, search f lines o i = Some (j, l).
Proof.
  induction f as [|f IH]; intros lines o i H; [lia|]. cbn [search].
  destruct (length lines =? 1) eqn:E.
  - apply Nat.eqb_eq in E. destruct lines; [discriminate E|]. cbn. eauto.
  - apply Nat.eqb_neq in E.
    assert (Hh : 1 <= Nat.div2 (length lines) < length lines).
    { split; [destruct (length lines) as [|[|n]]; cbn; lia|]. apply Nat.lt_div2. lia. }
    destruct (Nat.div2 (length lines)) as [|h] eqn:Eh; [lia|].
    destruct (nth_error lines h) as [l|] eqn:En.
    + destruct (o <? l_end l); apply IH; [rewrite firstn_length|rewrite skipn_length]; lia.
    + apply nth_error_None in En. lia.
Qed.

(** Linear search in a table sorted by line ends. *)
Fixpoint linear (lines : list Line) (o i : nat) : option (nat * Line) :=
  match lines with
  | [] => None
  | [l] => Some (i, l)
  | l :: r => if o <? l_end l then Some (i, l) else linear r o (i + 1)
  end.

Fixpoint sorted (lines : list Line) : Prop :=
  match lines with
  | [] => True
  | l :: r => (forall m, In m r -> l_end l <= l_end m) /\ sorted r
  end.

Lemma linear_cons l r o i : r <> [] -> linear (l :: r) o i = if o <? l_end l then Some (i, l) else linear r o (i + 1).
Proof. destruct r; [congruence|reflexivity]. Qed.

Lemma linear_left a : forall l b o i, o < l_end l -> linear (a ++ l :: b) o i = linear (a ++ [l]) o i.
Proof.
  induction a as [|x a IH]; intros l b o i H; cbn [app].
  - destruct b; [reflexivity|]. apply Nat.ltb_lt in H. rewrite linear_cons, H by discriminate. reflexivity.
  - rewrite !linear_cons by (destruct a; discriminate). rewrite IH by exact H. reflexivity.
Qed.

Lemma linear_right a : forall b o i, b <> [] -> (forall l, In l a -> l_end l <= o) ->
  linear (a ++ b) o i = linear b o (i + length a).
Proof.
  induction a as [|x a IH]; intros b o i Hb H; cbn [app length].
  - rewrite Nat.add_0_r. reflexivity.
  - rewrite linear_cons by (destruct a; [exact Hb|discriminate]).
    assert (l_end x <= o) by (apply H; left; auto).
    replace (o <? l_end x) with false by (symmetry; apply Nat.ltb_ge; lia).
    rewrite IH; auto; [f_equal; lia|]. intros l Hl. apply H. right. auto.
Qed.

Lemma sorted_app a b : sorted (a ++ b) -> sorted a /\ sorted b.
Proof.
  induction a as [|x a IH]; cbn; [tauto|]. intros [H1 H2]. apply IH in H2. destruct H2.
  repeat split; auto. intros m Hm. apply H1. apply in_or_app. auto.
Qed.

Lemma sorted_last a l b : sorted (a ++ l :: b) -> forall m, In m a -> l_end m <= l_end l.
Proof.
  induction a as [|x a IH]; cbn; [tauto|]. intros [H1 H2] m [->|Hm]; auto.
  apply H1. apply in_or_app. right. left. auto.
Qed.

Lemma search_linear : forall f lines o i, sorted lines -> 1 <= length lines <= f ->
  search f lines o i = linear lines o i.
Proof.
  induction f as [|f IH]; intros lines o i Hs H; [lia|]. cbn [search].
  destruct (length lines =? 1) eqn:E.
  - apply Nat.eqb_eq in E. destruct lines as [|l [|]]; try discriminate E. reflexivity.
  - apply Nat.eqb_neq in E.
    assert (Hh : 1 <= Nat.div2 (length lines) < length lines).
    { split; [destruct (length lines) as [|[|n]]; cbn; lia|]. apply Nat.lt_div2. lia. }
    destruct (Nat.div2 (length lines)) as [|h] eqn:Eh; [lia|].
    destruct (nth_error lines h) as [l|] eqn:En; [|apply nth_error_None in En; lia].
    destruct (nth_error_split lines h En) as (a & b & -> & Ha).
    assert (Ef : firstn (S h) (a ++ l :: b) = a ++ [l]).
    { rewrite firstn_app, firstn_all2 by lia. replace (S h - length a) with 1 by lia. reflexivity. }
    assert (Es : skipn (S h) (a ++ l :: b) = b).
    { rewrite skipn_app, skipn_all2 by lia. replace (S h - length a) with 1 by lia. reflexivity. }
    rewrite Ef, Es. rewrite app_length in Hh, H. cbn [length] in Hh, H.
    assert (Hs' : sorted ((a ++ [l]) ++ b)) by (rewrite <- app_assoc; exact Hs).
    destruct (sorted_app _ _ Hs') as [S1 S2].
    destruct (o <? l_end l) eqn:Eo.
    + apply Nat.ltb_lt in Eo. rewrite linear_left by exact Eo. apply IH; auto.
      rewrite app_length. cbn. lia.
    + apply Nat.ltb_ge in Eo. rewrite IH; auto; [|lia].
      change (l :: b) with ([l] ++ b). rewrite app_assoc. rewrite linear_right.
      * rewrite app_length. cbn. f_equal. lia.
      * destruct b; [cbn in *; lia|discriminate].
      * intros m Hm. apply in_app_or in Hm. destruct Hm as [Hm|[->|[]]]; auto.
        pose proof (sorted_last a l b Hs m Hm). lia.
Qed.

Lemma true_lines_from_nonempty t : forall ls bp, true_lines_from ls bp t <> [].
Proof.
  induction t as [|c t IH]; intros; cbn; [discriminate|].
  destruct (is_nl c); auto. destruct t as [|d t]; [discriminate|]. destruct (_ && _); discriminate.
Qed.

Lemma true_lines_from_ends t : forall ls bp l, In l (true_lines_from ls bp t) -> bp - 1 <= l_end l.
Proof.
  remember (length t) as n eqn:Hn. revert t Hn. induction n as [n IH] using lt_wf_ind.
  intros [|c t] Hn ls bp l; cbn [true_lines_from].
  - intros [<-|[]]. cbn. lia.
  - pose proof (len_utf8_pos c). assert (IH1 := fun ls bp => IH (length t) ltac:(subst; cbn; lia) t eq_refl ls bp l).
    destruct (is_nl c).
    + destruct t as [|d t].
      * intros [<-|Hi]; cbn [l_end]; [lia|]. apply IH1 in Hi. lia.
      * destruct (_ && _); (intros [<-|Hi]; cbn [l_end]; [lia|]).
        -- apply (IH (length t)) in Hi; auto; [lia|subst; cbn; lia].
        -- apply IH1 in Hi. lia.
    + intros Hi. apply IH1 in Hi. lia.
Qed.

Lemma true_lines_from_sorted t : forall ls bp, sorted (true_lines_from ls bp t).
Proof.
  remember (length t) as n eqn:Hn. revert t Hn. induction n as [n IH] using lt_wf_ind.
  intros [|c t] Hn ls bp; cbn [true_lines_from].
  - cbn. tauto.
  - pose proof (len_utf8_pos c). assert (IH1 := fun ls bp => IH (length t) ltac:(subst; cbn; lia) t eq_refl ls bp).
    destruct (is_nl c); auto.
    destruct t as [|d t].
    + cbn [sorted]. split; auto. intros m Hm. apply true_lines_from_ends in Hm. cbn. lia.
    + destruct (_ && _).
      * cbn [sorted]. split; [|apply (IH (length t)); auto; subst; cbn; lia].
        intros m Hm. apply true_lines_from_ends in Hm. cbn [l_end]. lia.
      * cbn [sorted]. split; auto. intros m Hm. apply true_lines_from_ends in Hm. cbn [l_end]. lia.
Qed.

(** The offset does not point at a CR or LF. *)
Definition not_crlf (after : text) : Prop :=
  match after with c :: _ => c <> CR /\ c <> LF | [] => True end.

Lemma linear_here : forall after ls bp i, not_crlf after ->
  exists e, linear (true_lines_from ls bp after) bp i = Some (i, mkLine ls e).
Proof.
  intros after ls bp i H.
  assert (Hg : exists e r, true_lines_from ls bp after = mkLine ls e :: r /\ (r = [] \/ bp < e)).
  { destruct after as [|c t]; [exists (bp - 1), []; auto|]. destruct H as [H1 H2].
    apply N.eqb_neq in H1, H2. cbn [true_lines_from].
    pose proof (len_utf8_pos c).
    destruct (is_nl c) eqn:En.
    - rewrite H1. cbn [andb]. apply nl_len in En. rewrite H1, H2 in En. cbn in En.
      destruct t; eexists _, _; (split; [reflexivity|right; lia]).
    - clear -H. assert (Hb : bp < bp + len_utf8 c) by lia. revert Hb. generalize (bp + len_utf8 c) as b.
      induction t as [|d t IH]; intros b Hb; cbn [true_lines_from]; [eauto|].
      pose proof (len_utf8_pos d).
      destruct (is_nl d); [|apply IH; lia].
      destruct t as [|d' t]; [eexists _, _; split; [reflexivity|right; lia]|].
      destruct (_ && _); eexists _, _; (split; [reflexivity|right; lia]). }
  destruct Hg as (e & r & -> & Hr). exists e. destruct r as [|l r]; [reflexivity|].
  destruct Hr as [|Hr]; [discriminate|]. rewrite linear_cons by discriminate. cbn [l_end].
  apply Nat.ltb_lt in Hr. rewrite Hr. reflexivity.
Qed.

Lemma linear_position : forall before after ls bp i, not_crlf after -> ls <= bp ->
  option_map (fun '(idx, l) => mkPos (idx + 1) (bp + byte_len before - l_start l))
    (linear (true_lines_from ls bp (before ++ after)) (bp + byte_len before) i)
  = Some (pos_from (i + 1) (bp - ls) before).
Proof.
  intros before. remember (length before) as n eqn:Hn. revert before Hn.
  induction n as [n IH] using lt_wf_ind. intros [|c t] Hn after ls bp i Ha Hle.
  - cbn [app byte_len pos_from]. rewrite Nat.add_0_r.
    destruct (linear_here after ls bp i Ha) as [e ->]. reflexivity.
  - cbn [app byte_len pos_from true_lines_from]. pose proof (len_utf8_pos c).
    assert (IH1 := fun ls bp i => IH (length t) ltac:(subst; cbn; lia) t eq_refl after ls bp i Ha).
    replace (bp + (len_utf8 c + byte_len t)) with (bp + len_utf8 c + byte_len t) by lia.
    destruct (is_nl c) eqn:En.
    + assert (Hplain : forall r, r <> [] -> forall p, option_map (fun '(idx, l) => mkPos (idx + 1) (bp + len_utf8 c + byte_len t - l_start l))
         (linear r (bp + len_utf8 c + byte_len t) (i + 1)) = p ->
         option_map (fun '(idx, l) => mkPos (idx + 1) (bp + len_utf8 c + byte_len t - l_start l))
           (linear (mkLine ls (bp + len_utf8 c - 1) :: r) (bp + len_utf8 c + byte_len t) i) = p).
      { intros r Hr p Hp. rewrite linear_cons by exact Hr. cbn [l_end].
        replace (_ <? _) with false by (symmetry; apply Nat.ltb_ge; lia). exact Hp. }
      destruct t as [|d t].
      * cbn [app pos_from].
        assert (Hgoal : option_map (fun '(idx, l) => mkPos (idx + 1) (bp + len_utf8 c + byte_len [] - l_start l))
          (linear (mkLine ls (bp + len_utf8 c - 1) :: true_lines_from (bp + len_utf8 c) (bp + len_utf8 c) after)
             (bp + len_utf8 c + byte_len []) i) = Some (mkPos (i + 1 + 1) 0)).
        { apply Hplain; [apply true_lines_from_nonempty|].
          specialize (IH1 (bp + len_utf8 c) (bp + len_utf8 c) (i + 1) ltac:(lia)). cbn [app] in IH1.
          rewrite IH1. cbn. do 2 f_equal. lia. }
        destruct after as [|a after]; [exact Hgoal|]. destruct Ha as [Ha1 Ha2].
        apply N.eqb_neq in Ha2. rewrite Ha2, andb_false_r. exact Hgoal.
      * cbn [app]. destruct (N.eqb c CR && N.eqb d LF) eqn:Ecr.
        -- apply andb_true_iff in Ecr. destruct Ecr as [E1 E2]. apply N.eqb_eq in E1, E2. subst c d.
           change (len_utf8 CR) with 1. cbn [byte_len]. change (len_utf8 LF) with 1.
           rewrite linear_cons by apply true_lines_from_nonempty. cbn [l_end].
           replace (_ <? _) with false by (symmetry; apply Nat.ltb_ge; lia).
           replace (bp + 1 + (1 + byte_len t)) with (bp + 2 + byte_len t) by lia.
           rewrite (IH (length t)); auto; [do 2 f_equal; lia|subst; cbn; lia].
        -- apply Hplain; [apply true_lines_from_nonempty|].
           specialize (IH1 (bp + len_utf8 c) (bp + len_utf8 c) (i + 1) ltac:(lia)).
           cbn [app] in IH1. rewrite IH1. do 2 f_equal. lia.
    + rewrite IH1 by lia. do 2 f_equal. lia.
Qed.

Lemma item_position_true before after :
  cr_followed (before ++ after) -> not_crlf after ->
  item_position (get_lines (before ++ after)) (byte_len before) = Some (true_position before).
Proof.
  intros Hcr Ha. rewrite get_lines_true by exact Hcr. unfold item_position.
  rewrite search_linear.
  - apply (linear_position before after 0 0 0 Ha). lia.
  - apply true_lines_from_sorted.
  - pose proof (true_lines_from_nonempty (before ++ after) 0 0). unfold true_lines.
    destruct (true_lines_from _ _ _); cbn in *; [congruence|lia].
Qed.

Lemma get_lines_nonempty t : get_lines t <> [].
Proof.
  enough (H : forall full rest ls bp, get_lines_aux full rest ls bp <> []) by apply H. clear t.
  intros full. induction rest as [|c t IH]; intros ls bp; cbn [get_lines_aux]; [discriminate|].
  destruct (N.eqb c CR).
  - destruct (slice _ _ _); auto. destruct (text_eqb _ _); [auto|discriminate].
  - destruct (N.eqb c LF); [discriminate|]. destruct (_ || _); [discriminate|auto].
Qed.

Lemma item_position_some t o : exists p, item_position (get_lines t) o = Some p.
Proof.
  unfold item_position. pose proof (get_lines_nonempty t).
  destruct (search_some (length (get_lines t)) (get_lines t) o 0) as (j & l & ->).
  - destruct (get_lines t); cbn in *; [congruence|lia].
  - cbn. eauto.
Qed.
