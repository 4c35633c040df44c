(** Property keys, binding patterns, parameters and the parameters of arrow functions. *)
From Verif Require Export Primary.
Local Open Scope nat_scope.
Local Open Scope list_scope.

Section Pats.
  Variable g : cfg.
  Notation evs := (evs g).
  Notation At := (At g).
  Notation leaves := (leaves g).
  Notation T := (fun _ : ctx => True).
  Notation X19 := (@X19 g None).
  Notation X1 := (@X1 g None).

  (** ** Keys *)
  Definition Xkey (S : view) l (kc : PropertyKey * bool) l' : Prop :=
    (forall s k, At s l k -> view_of k = S -> evs (Call CObjectPropertyKey) s (leaves k l' (fun k' => c_assign_target k' = c_assign_target k /\ c_binding_element k' = c_binding_element k) (fst kc)))
    /\ snd kc = is_punct POpenBracket (hd_tok l)
    /\ (hd_tok l = TIdent -> reads_as TIdent (hd_text l) l l' /\ fst kc = PKExpr (EIdent (hd_text l)))
    /\ (snd kc = false -> is_proto_ (fst kc) = false)
    /\ qualified_prop_key (hd_tok l) = true.
  Lemma key_string S w l l' : reads_as TString w l l' -> w <> str "_proto_" -> Xkey S l (PKLiteral (LString w), false) l'.
  Proof.
    intros R Hw. pose proof (reads_as_hd _ _ _ _ R) as [E1 E2]. split; [|split; [|split; [|split]]].
    - intros s k A V. apply evs_call. cbn [body]. unfold object_property_key. ev. rewrite E2. eapply leave; [eassumption|reflexivity|split; reflexivity].
    - rewrite E1. reflexivity.
    - rewrite E1. discriminate.
    - intros _. cbn. apply not_true_iff_false. rewrite text_eqb_eq. exact Hw.
    - rewrite E1. reflexivity.
  Qed.
  Lemma key_number S w l l' : reads_as TNumeric w l l' -> Xkey S l (PKLiteral (LNumber w), false) l'.
  Proof.
    intros R. pose proof (reads_as_hd _ _ _ _ R) as [E1 E2]. split; [|split; [|split; [|split]]].
    - intros s k A V. apply evs_call. cbn [body]. unfold object_property_key. ev. rewrite E2. eapply leave; [eassumption|reflexivity|split; reflexivity].
    - rewrite E1. reflexivity.
    - rewrite E1. discriminate.
    - reflexivity.
    - rewrite E1. reflexivity.
  Qed.
  Lemma key_name S t w l l' : name_token t -> reads_as t w l l' -> Xkey S l (PKExpr (EIdent w), false) l'.
  Proof.
    intros Ht R. pose proof (reads_as_hd _ _ _ _ R) as [E1 E2]. split; [|split; [|split; [|split]]].
    - intros s k A V. apply evs_call. cbn [body]. unfold object_property_key. ev.
      destruct Ht as [->|[->|[(b & ->)|(x & ->)]]]; ev; rewrite E2; (eapply leave; [eassumption|reflexivity|split; reflexivity]).
    - rewrite E1. destruct Ht as [->|[->|[(b & ->)|(x & ->)]]]; reflexivity.
    - rewrite E1, E2. intros ->. auto.
    - reflexivity.
    - rewrite E1. apply name_qualified. exact Ht.
  Qed.
  Lemma key_computed S e l l1 l2 l' : reads (TPunct POpenBracket) l l1 -> X1 S l1 e l2 -> reads (TPunct PCloseBracket) l2 l' ->
    Xkey S l (computed_key e, true) l'.
  Proof.
    intros R H R2. pose proof (reads_hd _ _ _ R) as E1. split; [|split; [|split; [|split]]].
    - intros s k A V. apply evs_call. cbn [body]. unfold object_property_key. ev.
      eapply evs_then; [eapply evs_iso; [eassumption|]; intros s9 A9; apply H; [exact A9|exact V|eapply follow_bracket; eassumption|reflexivity]|].
      cbn beta. intros s9 k9 A9 V9 F9. ev. eapply leave; [eassumption|exact V9|exact F9].
    - rewrite E1. reflexivity.
    - rewrite E1. discriminate.
    - discriminate.
    - rewrite E1. reflexivity.
  Qed.

  (** ** Patterns *)
  Definition Xpat (S : view) l x l' : Prop := exists r : bool, (v_strict S = true -> r = false) /\
    forall kind s k, At s l k -> view_of k = S -> evs (Call (CPattern kind)) s (leaves k l' T (r, x)).
  Definition Xpatd (S : view) l x l' : Prop := exists r : bool, (v_strict S = true -> r = false) /\
    forall s k, At s l k -> view_of k = S -> follow (v_in S) 1 l' = true -> evs (Call CPatternWithDefault) s (leaves k l' T (r, x)).
  Lemma var_ident_ok v S w l l' s k : reads_as TIdent w l l' -> w <> str "await" -> At s l k -> view_of k = S ->
    evs (Call (CVarIdent v)) s (leaves k l' T w).
  Proof.
    intros R Hw A V. pose proof (reads_as_hd _ _ _ _ R) as [E1 E2].
    assert (Ew : text_eqb w (str "await") = false) by (apply not_true_iff_false; rewrite text_eqb_eq; exact Hw).
    apply evs_call. cbn [body]. unfold var_ident. ev. rewrite E2 in Wi. destruct (c_await k).
    - ev. rewrite Ew. ev. eapply leave; [eassumption|reflexivity|exact I].
    - ev. eapply evs_str; [exact Wi|]. cbn [option_map]. rewrite Ew. apply evs_guard. ev. eapply leave; [eassumption|reflexivity|exact I].
  Qed.
  Lemma pat_name S w l l' : reads_as TIdent w l l' -> binding_name S w -> Xpat S l (PIdentifier w) l'.
  Proof.
    intros R [Hw Hs]. exists (is_restricted_word w). split.
    - intros E. destruct (Hs E) as [H1 H2]. unfold is_restricted_word. apply not_true_iff_false. rewrite orb_true_iff, !text_eqb_eq. tauto.
    - intros kind s k A V. apply evs_call. cbn [body]. unfold pattern. ev.
      destruct kind as [[]|]; ev; (eapply evs_then; [eapply var_ident_ok; eauto|]); cbn beta; intros s1 k1 A1 V1 _; ev;
        (eapply leave; [eassumption|exact V1|exact I]).
  Qed.
  Lemma pat_plain S x l l' : Xpat S l x l' -> hd_tok l' <> TPunct PAssign -> Xpatd S l x l'.
  Proof.
    intros (r & Hr & H) Hn. exists r. split; [exact Hr|]. intros s k A V _. apply evs_call. cbn [body]. unfold pattern_with_default. ev.
    eapply evs_then; [apply H; eauto|]. cbn beta iota. intros s1 k1 A1 V1 _. ev.
    replace (is_punct PAssign (hd_tok l')) with false by (symmetry; apply not_true_iff_false; intros C; apply is_punct_tok in C; contradiction).
    ev. eapply leave; [eassumption|exact V1|exact I].
  Qed.
  Lemma pat_default S x e l l1 l2 l' : Xpat S l x l1 -> reads (TPunct PAssign) l1 l2 -> X1 (yield_ true S) l2 e l' -> Xpatd S l (PAssignment x e) l'.
  Proof.
    intros (r & Hr & H) R He. exists r. split; [exact Hr|]. intros s k A V Hf. apply evs_call. cbn [body]. unfold pattern_with_default. ev.
    eapply evs_then; [apply H; eauto|]. cbn beta iota. intros s1 k1 A1 V1 _. ev.
    eapply evs_then; [eapply evs_iso; [eassumption|]; intros s9 A9; apply He; [exact A9|subst S; vws|exact Hf|reflexivity]|].
    cbn beta. intros s9 k9 A9 V9 _. ev. eapply leave; [eassumption|subst S; vws|exact I].
  Qed.
  Inductive PatElems (S : view) : list tk -> list (option ArrayPatPart) -> list tk -> Prop :=
  | pe_none l l' : reads (TPunct PCloseBracket) l l' -> PatElems S l [] l'
  | pe_hole es l l1 l' : comma l l1 -> PatElems S l1 es l' -> PatElems S l (None :: es) l'
  | pe_last x l l1 l' : pat_head (hd_tok l) = true -> Xpatd S l x l1 -> reads (TPunct PCloseBracket) l1 l' -> PatElems S l [Some (APPat x)] l'
  | pe_more x es l l1 l2 l' : pat_head (hd_tok l) = true -> Xpatd S l x l1 -> comma l1 l2 -> PatElems S l2 es l' ->
      PatElems S l (Some (APPat x) :: es) l'.
  Definition arr_loop : list (option ArrayPatPart) -> P (list (option ArrayPatPart) + list (option ArrayPatPart)) := fun elements =>
    ifM at_punct PCloseBracket then Ret (inr elements)
    else ifM at_punct PComma then next ;; Ret (inl (elements ++ [None]))
    else ifM at_punct PSpread then
      '(_, el) <- Call CBindingRestEl ;;
      Ret (inr (elements ++ [Some (APPat el)]))
    else
      '(_, el) <- Call CPatternWithDefault ;;
      ifM at_punct PCloseBracket then Ret (inl (elements ++ [Some (APPat el)]))
      else expect_punct PComma ;; Ret (inl (elements ++ [Some (APPat el)])).
  Lemma pat_no_punct p l : pat_head (hd_tok l) = true -> pat_head (TPunct p) = false -> is_punct p (hd_tok l) = false.
  Proof. intros H N. apply not_true_iff_false. intros C. apply is_punct_tok in C. rewrite C in H. congruence. Qed.
  Lemma pat_elems_loop S l es l' : PatElems S l es l' -> exists l9, reads (TPunct PCloseBracket) l9 l' /\
    forall s k acc, At s l k -> view_of k = S -> evs (Loop acc arr_loop) s (leaves k l9 T (acc ++ es)).
  Proof.
    induction 1 as [l l' R|es l l1 l' R Hs (l9 & R9 & IH)|x l l1 l' Hh (r & _ & He) R|x es l l1 l2 l' Hh (r & _ & He) R Hs (l9 & R9 & IH)].
    - exists l. split; [exact R|]. intros s k acc A V. apply evs_loop. unfold arr_loop at 1. ev. rewrite app_nil_r.
      eapply leave; [eassumption|reflexivity|exact I].
    - exists l9. split; [exact R9|]. intros s k acc A V. apply evs_loop. unfold arr_loop at 1. ev.
      eapply evs_mono; [|eapply IH; [eassumption|exact V]].
      intros x s4 (-> & k4 & A4 & V4 & _). rewrite <- app_assoc. eapply leave; [eassumption|congruence|exact I].
    - exists l1. split; [exact R|]. intros s k acc A V. apply evs_loop. unfold arr_loop at 1. ev.
      rewrite (pat_no_punct PCloseBracket) by (assumption || reflexivity). ev.
      rewrite (pat_no_punct PComma) by (assumption || reflexivity). ev.
      rewrite (pat_no_punct PSpread) by (assumption || reflexivity). ev.
      eapply evs_then; [apply He; [exact A|exact V|eapply follow_bracket; eassumption]|]. cbn beta iota. intros s1 k1 A1 V1 _. ek.
      apply evs_loop. unfold arr_loop at 1. ev. eapply leave; [eassumption|congruence|exact I].
    - exists l9. split; [exact R9|]. intros s k acc A V. apply evs_loop. unfold arr_loop at 1. ev.
      rewrite (pat_no_punct PCloseBracket) by (assumption || reflexivity). ev.
      rewrite (pat_no_punct PComma) by (assumption || reflexivity). ev.
      rewrite (pat_no_punct PSpread) by (assumption || reflexivity). ev.
      eapply evs_then; [apply He; [exact A|exact V|eapply follow_comma; eassumption]|]. cbn beta iota. intros s1 k1 A1 V1 _. ek.
      eapply evs_mono; [|eapply IH; [eassumption|congruence]].
      intros y s4 (-> & k4 & A4 & V4 & _). rewrite <- app_assoc. eapply leave; [eassumption|congruence|exact I].
  Qed.
  Lemma pat_array S es l l1 l' : reads (TPunct POpenBracket) l l1 -> PatElems S l1 es l' -> Xpat S l (PArray es) l'.
  Proof.
    intros R H. destruct (pat_elems_loop _ _ _ _ H) as (l9 & R9 & IH). exists false. split; [reflexivity|].
    intros kind s k A V. apply evs_call. cbn [body]. unfold pattern. ev. apply evs_call. cbn [body]. unfold array_pattern. ev.
    eapply evs_then; [eapply (IH _ _ []); [eassumption|exact V]|]. cbn beta. intros s4 k4 A4 V4 _. ev.
    eapply leave; [eassumption|exact V4|exact I].
  Qed.

  Definition prop_end (t : token) : Prop := t = TPunct PComma \/ t = TPunct PCloseBrace.
  Lemma prop_end_follow i l : prop_end (hd_tok l) -> follow i 1 l = true.
  Proof. intros [E|E]; unfold follow, goes_on; rewrite E; reflexivity. Qed.
  Definition pat_prop_prog : P ObjectPatPart := ifM at_punct PSpread then Call CRestProp else Call CPropertyPattern.
  Definition Xpatprop (S : view) l p l' : Prop := forall s k, At s l k -> view_of k = S -> prop_end (hd_tok l') ->
    evs pat_prop_prog s (leaves k l' T p).
  Lemma pp_name S w l l' : reads_as TIdent w l l' -> binding_name S w ->
    Xpatprop S l (OPPAssignment (mkProperty (PKExpr (EIdent w)) PVNone KInit false false true)) l'.
  Proof.
    intros R [Hw _] s k A V He. unfold pat_prop_prog. ev. apply evs_call. cbn [body]. unfold property_pattern. ev.
    eapply evs_then; [eapply var_ident_ok; eauto|]. cbn beta zeta. intros s1 k1 A1 V1 _.
    destruct He as [E|E]; ek; (eapply leave; [eassumption|exact V1|exact I]).
  Qed.
  Lemma pp_default S w e l l1 l2 l' : reads_as TIdent w l l1 -> binding_name S w -> reads (TPunct PAssign) l1 l2 -> X1 S l2 e l' -> assigns e = false ->
    Xpatprop S l (OPPAssignment (mkProperty (PKExpr (EIdent w)) (PVExpr e) KInit false false true)) l'.
  Proof.
    intros R [Hw _] R2 H Ha s k A V He. unfold pat_prop_prog. ev. apply evs_call. cbn [body]. unfold property_pattern. ev.
    eapply evs_then; [eapply var_ident_ok; eauto|]. cbn beta zeta. intros s1 k1 A1 V1 _. ev.
    eapply evs_then; [apply H; [eassumption|congruence|apply prop_end_follow; exact He|congruence]|]. cbn beta. intros s3 k3 A3 V3 _. ev.
    eapply leave; [eassumption|congruence|exact I].
  Qed.
  Lemma pp_key S k c x l l1 l2 l' : Xkey S l (k, c) l1 -> (forall w, k = PKExpr (EIdent w) -> w <> str "await") ->
    reads (TPunct PColon) l1 l2 -> Xpatd S l2 x l' -> Xpatprop S l (OPPAssignment (mkProperty k (PVPat x) KInit false c false)) l'.
  Proof.
    intros (K1 & K2 & K3 & _ & K5) Hw R (r & _ & H) s k0 A V He. cbn [fst snd] in *.
    unfold pat_prop_prog. ev.
    replace (is_punct PSpread (hd_tok l)) with false by (destruct (hd_tok l) as [| | | | | | |[]|[]|[]|]; try discriminate; reflexivity).
    apply evs_call. cbn [body]. unfold property_pattern. ev.
    destruct (is_ident (hd_tok l)) eqn:E.
    - assert (Et : hd_tok l = TIdent) by (destruct (hd_tok l); try discriminate; reflexivity).
      destruct (K3 Et) as [R0 ->]. ev. eapply evs_then; [eapply var_ident_ok; eauto|]. cbn beta zeta. intros s1 k1 A1 V1 _. ek.
      eapply evs_then; [apply H; [eassumption|congruence|apply prop_end_follow; exact He]|]. cbn beta iota. intros s3 k3 A3 V3 _. ev.
      rewrite K2, Et. eapply leave; [eassumption|congruence|exact I].
    - ev. eapply evs_then; [eapply K1; eauto|]. cbn beta. intros s1 k1 A1 V1 _. ev.
      eapply evs_then; [apply H; [eassumption|congruence|apply prop_end_follow; exact He]|]. cbn beta iota. intros s3 k3 A3 V3 _. ev.
      rewrite K2. eapply leave; [eassumption|congruence|exact I].
  Qed.
  Lemma pp_rest S x l l1 l' : reads (TPunct PSpread) l l1 -> Xpat S l1 x l' -> Xpatprop S l (OPPRest (PRestElement x)) l'.
  Proof.
    intros R (r & _ & H) s k A V He. unfold pat_prop_prog. ev. apply evs_call. cbn [body]. unfold rest_prop. ev.
    eapply evs_then; [apply H; eauto|]. cbn beta iota. intros s3 k3 A3 V3 _. ev. eapply leave; [eassumption|congruence|exact I].
  Qed.
  Inductive PatProps (S : view) : list tk -> list ObjectPatPart -> list tk -> Prop :=
  | pp_none l l' : reads (TPunct PCloseBrace) l l' -> PatProps S l [] l'
  | pp_last p l l1 l' : is_punct PCloseBrace (hd_tok l) = false -> Xpatprop S l p l1 -> reads (TPunct PCloseBrace) l1 l' -> PatProps S l [p] l'
  | pp_more p ps l l1 l2 l' : is_punct PCloseBrace (hd_tok l) = false -> Xpatprop S l p l1 -> comma l1 l2 -> PatProps S l2 ps l' -> PatProps S l (p :: ps) l'.
  Definition obj_pat_loop : list ObjectPatPart -> P (list ObjectPatPart + list ObjectPatPart) := fun parts =>
    ifM at_punct PCloseBrace then Ret (inr parts)
    else
      el <- pat_prop_prog ;;
      ifM at_punct PCloseBrace then Ret (inl (parts ++ [el]))
      else expect_punct PComma ;; Ret (inl (parts ++ [el])).
  Lemma pat_props_loop S l es l' : PatProps S l es l' -> exists l9, reads (TPunct PCloseBrace) l9 l' /\
    forall s k acc, At s l k -> view_of k = S -> evs (Loop acc obj_pat_loop) s (leaves k l9 T (acc ++ es)).
  Proof.
    induction 1 as [l l' R|p l l1 l' Hh He R|p ps l l1 l2 l' Hh He R Hs (l9 & R9 & IH)].
    - exists l. split; [exact R|]. intros s k acc A V. apply evs_loop. unfold obj_pat_loop at 1. ev. rewrite app_nil_r.
      eapply leave; [eassumption|reflexivity|exact I].
    - exists l1. split; [exact R|]. intros s k acc A V. apply evs_loop. unfold obj_pat_loop at 1. ev. rewrite Hh. apply evs_bind.
      eapply evs_then; [apply He; [exact A|exact V|right; eapply reads_hd; eassumption]|]. cbn beta iota. intros s1 k1 A1 V1 _. ek.
      apply evs_loop. unfold obj_pat_loop at 1. ev. eapply leave; [eassumption|congruence|exact I].
    - exists l9. split; [exact R9|]. intros s k acc A V. apply evs_loop. unfold obj_pat_loop at 1. ev. rewrite Hh. apply evs_bind.
      eapply evs_then; [apply He; [exact A|exact V|left; eapply reads_hd; eassumption]|]. cbn beta iota. intros s1 k1 A1 V1 _. ek.
      eapply evs_mono; [|eapply IH; [eassumption|congruence]].
      intros y s4 (-> & k4 & A4 & V4 & _). rewrite <- app_assoc. eapply leave; [eassumption|congruence|exact I].
  Qed.
  Lemma pat_object S es l l1 l' : reads (TPunct POpenBrace) l l1 -> PatProps S l1 es l' -> Xpat S l (PObject es) l'.
  Proof.
    intros R H. destruct (pat_props_loop _ _ _ _ H) as (l9 & R9 & IH). exists false. split; [reflexivity|].
    intros kind s k A V. apply evs_call. cbn [body]. unfold pattern. ev. apply evs_call. cbn [body]. unfold object_pattern. ev.
    eapply evs_then; [eapply (IH _ _ []); [eassumption|exact V]|]. cbn beta. intros s4 k4 A4 V4 _. ev.
    eapply leave; [eassumption|exact V4|exact I].
  Qed.

  (** ** Parameters *)
  Definition param_end (t : token) : Prop := t = TPunct PComma \/ t = TPunct PCloseParen.
  Lemma param_end_follow i l : param_end (hd_tok l) -> follow i 1 l = true.
  Proof. intros [E|E]; unfold follow, goes_on; rewrite E; reflexivity. Qed.
  Definition Xparam (S : view) l a l' : Prop := exists r : bool, (v_strict S = true -> r = false) /\
    forall simple s k, At s l k -> view_of k = S -> param_end (hd_tok l') ->
      evs (Call (CFormalParam simple)) s (leaves k l' T (simple && is_simple a, r, a)).
  Lemma param S x l l' : pat_head (hd_tok l) = true -> Xpatd S l x l' -> Xparam S l (FAPat x) l'.
  Proof.
    intros Hh (r & Hr & H). exists r. split; [exact Hr|]. intros simple s k A V He. apply evs_call. cbn [body]. unfold formal_param. ev.
    rewrite (pat_no_punct PSpread) by (assumption || reflexivity).
    eapply evs_then; [apply H; [eassumption|congruence|apply param_end_follow; exact He]|]. cbn beta iota. intros s3 k3 A3 V3 _. ev.
    eapply leave; [eassumption|congruence|exact I].
  Qed.
  Lemma rest_ok S x l l1 l' s k : reads (TPunct PSpread) l l1 -> Xpat S l1 x l' -> hd_tok l' = TPunct PCloseParen -> At s l k -> view_of k = S ->
    exists r : bool, (v_strict S = true -> r = false) /\ evs (Call CRestElement) s (leaves k l' T (r, PRestElement x)).
  Proof.
    intros R (r & Hr & H) E A V. exists r. split; [exact Hr|]. apply evs_call. cbn [body]. unfold rest_element. ev.
    eapply evs_then; [apply H; eauto|]. cbn beta iota. intros s3 k3 A3 V3 _. ek. eapply leave; [eassumption|congruence|exact I].
  Qed.
  Lemma rest_fixed S x l l1 l' : reads (TPunct PSpread) l l1 -> Xpat S l1 x l' -> hd_tok l' = TPunct PCloseParen ->
    exists r : bool, (v_strict S = true -> r = false) /\ forall s k, At s l k -> view_of k = S ->
      evs (Call CRestElement) s (leaves k l' T (r, PRestElement x)).
  Proof.
    intros R (r & Hr & H) E. exists r. split; [exact Hr|]. intros s k A V. apply evs_call. cbn [body]. unfold rest_element. ev.
    eapply evs_then; [apply H; eauto|]. cbn beta iota. intros s3 k3 A3 V3 _. ek. eapply leave; [eassumption|congruence|exact I].
  Qed.
  Lemma param_rest S x l l1 l' : reads (TPunct PSpread) l l1 -> Xpat S l1 x l' -> hd_tok l' = TPunct PCloseParen ->
    Xparam S l (FAPat (PRestElement x)) l'.
  Proof.
    intros R H E. destruct (rest_fixed _ _ _ _ _ R H E) as (r & Hr & H1). exists r. split; [exact Hr|].
    intros simple s k A V _. apply evs_call. cbn [body]. unfold formal_param. ev.
    eapply evs_then; [apply H1; eauto|]. cbn beta iota. intros s3 k3 A3 V3 _. ev. eapply leave; [eassumption|congruence|exact I].
  Qed.
  Inductive Params (S : view) : list tk -> list FunctionArg -> list tk -> Prop :=
  | params_none l l' : reads (TPunct PCloseParen) l l' -> Params S l [] l'
  | params_last a l l1 l' : is_punct PCloseParen (hd_tok l) = false -> is_eof (hd_tok l) = false -> Xparam S l a l1 ->
      reads (TPunct PCloseParen) l1 l' -> Params S l [a] l'
  | params_more a ps l l1 l2 l' : is_punct PCloseParen (hd_tok l) = false -> is_eof (hd_tok l) = false -> Xparam S l a l1 -> comma l1 l2 ->
      Params S l2 ps l' -> Params S l (a :: ps) l'.
  Definition params_loop : bool * bool * list FunctionArg -> P ((bool * bool * list FunctionArg) + (bool * bool * list FunctionArg)) :=
       (fun '(simple, found_restricted, args) =>
         t <- look_tok ;;
         if is_eof t then Ret (inr (simple, found_restricted, args))
         else
           '(s, r, arg) <- Call (CFormalParam simple) ;;
           let acc := (simple && s, found_restricted || r, args ++ [arg]) in
           ifM at_punct PCloseParen then Ret (inr acc)
           else
             expect_punct PComma ;;
             ifM at_punct PCloseParen then Ret (inr acc) else Ret (inl acc)).
  Definition Xparams (S : view) l ps l' : Prop := exists simple b, (v_strict S = true -> b = false) /\
    forall s k l0, At s l0 k -> view_of k = S -> reads (TPunct POpenParen) l0 l ->
      evs (Call CFormalParams) s (leaves k l' T (mkFP simple ps false b)).
  Lemma twice a b : a && (a && b) = a && b.
  Proof. destruct a; reflexivity. Qed.
  Lemma params_loop_ok S l ps l' : Params S l ps l' -> ps <> [] -> exists l9 sm b, reads (TPunct PCloseParen) l9 l' /\
    (v_strict S = true -> b = false) /\
    forall simple found acc s k, At s l k -> view_of k = S ->
      evs (Loop (simple, found, acc) params_loop) s (leaves k l9 T (simple && sm, found || b, acc ++ ps)).
  Proof.
    induction 1 as [l l' R|a l l1 l' N1 N2 (r & Hr & H) R|a ps l l1 l2 l' N1 N2 (r & Hr & H) R Hs IH]; intros Hn; [contradiction| |].
    - exists l1, (is_simple a), r. split; [exact R|]. split; [exact Hr|]. intros simple found acc s k A V.
      apply evs_loop. unfold params_loop at 1. ev. rewrite N2. ev.
      eapply evs_then; [apply H; [exact A|exact V|right; eapply reads_hd; eassumption]|]. cbn beta iota. intros s1 k1 A1 V1 _. ek.
      rewrite twice. eapply leave; [eassumption|congruence|exact I].
    - destruct ps as [|a2 ps].
      + inversion Hs; subst. exists l2, (is_simple a), r. split; [assumption|]. split; [exact Hr|]. intros simple found acc s k A V.
        apply evs_loop. unfold params_loop at 1. ev. rewrite N2. ev.
        eapply evs_then; [apply H; [exact A|exact V|left; eapply reads_hd; eassumption]|]. cbn beta iota. intros s1 k1 A1 V1 _. ek.
        rewrite twice. eapply leave; [eassumption|congruence|exact I].
      + destruct IH as (l9 & sm & b & R9 & Hb & IH); [discriminate|].
        exists l9, (is_simple a && sm), (r || b). split; [exact R9|].
        split; [intros E; rewrite (Hr E), (Hb E); reflexivity|]. intros simple found acc s k A V.
        apply evs_loop. unfold params_loop at 1. ev. rewrite N2. ev.
        eapply evs_then; [apply H; [exact A|exact V|left; eapply reads_hd; eassumption]|]. cbn beta iota. intros s1 k1 A1 V1 _. ek.
        assert (N : is_punct PCloseParen (hd_tok l2) = false) by (inversion Hs; assumption).
        rewrite N. ev. eapply evs_mono; [|eapply IH; [eassumption|congruence]].
        intros y s4 (-> & k4 & A4 & V4 & _). rewrite <- app_assoc.
        rewrite twice, orb_assoc, andb_assoc. eapply leave; [eassumption|congruence|exact I].
  Qed.
  Lemma params_ok S l ps l' : Params S l ps l' -> Xparams S l ps l'.
  Proof.
    intros H. destruct ps as [|a ps].
    - inversion H; subst. exists true, false. split; [reflexivity|]. intros s k l0 A V R. apply evs_call. cbn [body].
      unfold formal_params. ev. eapply leave; [eassumption|congruence|exact I].
    - destruct (params_loop_ok _ _ _ _ H ltac:(discriminate)) as (l9 & sm & b & R9 & Hb & IH). exists sm, b. split; [exact Hb|].
      intros s k l0 A V R. apply evs_call. cbn [body]. unfold formal_params. ev.
      replace (is_punct PCloseParen (hd_tok l)) with false by (inversion H; subst; congruence).
      eapply evs_then; [eapply (IH true false []); [eassumption|congruence]|]. cbn beta. intros s4 k4 A4 V4 _. cbn iota. ev.
      eapply leave; [eassumption|congruence|exact I].
  Qed.

  (** ** Parameters of arrow functions *)
  Definition Xarrowarg (S : view) l e l' : Prop := primary_head (hd_tok l) = true /\ Xkeep g true S l e l' /\ clean false (FAExpr e) /\ (forall es, e <> ESequence es).
  Lemma base_ident b S w l l' : reads_as TIdent w l l' -> w <> str "async" -> strict_target S (EIdent w) -> Xbase g b S l (EIdent w) l'.
  Proof.
    intros R Hw Hs. pose proof (reads_as_hd _ _ _ _ R) as [E _]. split; [split; [rewrite E; reflexivity|calm1]|]. split; [|auto].
    apply up_17; [rewrite E; reflexivity|]. intros s k A V.
    eapply evs_mono; [|eapply p_ident; [exact R|exact Hw|exact A|exact V]]. intros x s1 (-> & k1 & A1 & V1 & F1 & F2).
    eapply leave; [exact A1|exact V1|]. split; [exact F1|exact F2].
  Qed.
  Lemma ident_1 S w l l' : v_in S = true -> reads_as TIdent w l l' -> w <> str "async" -> X1 S l (EIdent w) l'.
  Proof.
    intros Hi R Hw. pose proof (reads_as_hd _ _ _ _ R) as [E E'].
    apply up_1; [|rewrite E; reflexivity|reflexivity|rewrite (reads_length _ _ _ (reads_as_reads _ _ _ _ R)); lia|left; calm1].
    intros s9 k9 A9 V9 Hf9. apply (up_cond g _ S l); [|split; [rewrite E; reflexivity|calm1]|exact A9|exact V9|].
    - apply up_17; [rewrite E; reflexivity|]. apply p_ident; [exact R|exact Hw].
    - eapply follow_up; [|exact Hf9]. lia.
  Qed.
  Lemma arrow_arg S w l l' : v_in S = true -> reads_as TIdent w l l' -> w <> str "async" -> Xarrowarg S l (EIdent w) l'.
  Proof.
    intros Hi R Hw. pose proof (reads_as_hd _ _ _ _ R) as [E _]. split; [rewrite E; reflexivity|]. split; [|split; [split; reflexivity|discriminate]].
    split; [rewrite E; reflexivity|]. intros s k A V Hf Hk.
    pose proof (ident_1 S w l l' Hi R Hw) as H.
    eapply evs_mono; [|apply (H s k A V Hf); discriminate]. intros x s1 (-> & k1 & A1 & V1 & F1 & F2).
    eapply leave; [exact A1|exact V1|]. destruct Hk as [K1 K2]. split; [apply F1; auto|]. intros _. apply F2; auto.
  Qed.
  Lemma arrow_pattern S a l l' : v_in S = true -> primary_head (hd_tok l) = true -> Xbase g true S l a l' -> Xarrowarg S l a l'.
  Proof.
    intros Hi Hh H. split; [exact Hh|]. split; [apply base_keeps; exact H|]. destruct H as (_ & _ & Ht & _).
    destruct a; try discriminate; (split; [split; reflexivity|discriminate]).
  Qed.
  Lemma arrow_default S a e l l1 l2 l' : v_in S = true -> primary_head (hd_tok l) = true -> Xbase g true S l a l1 -> reads (TPunct PAssign) l1 l2 ->
    X1 S l2 e l' -> is_yield e = false -> Xarrowarg S l (EAssignment AEqual (ALExpr a) e) l'.
  Proof.
    intros Hi Hh H R2 He Hy. split; [exact Hh|]. split; [eapply default_keeps; eauto|].
    split; [|discriminate]. split; [|reflexivity]. destruct e; try reflexivity. discriminate.
  Qed.
  Inductive Arrows (S : view) : list tk -> list FunctionArg -> list tk -> Prop :=
  | arrows_none l l' : reads (TPunct PCloseParen) l l' -> Arrows S l [] l'
  | arrows_rest x l l1 l2 l' : reads (TPunct PSpread) l l1 -> Xpat S l1 x l2 -> reads (TPunct PCloseParen) l2 l' ->
      Arrows S l [FAPat (PRestElement x)] l'
  | arrows_last e l l1 l' : Xarrowarg S l e l1 -> reads (TPunct PCloseParen) l1 l' -> Arrows S l [FAExpr e] l'
  | arrows_more e ps l l1 l2 l' : Xarrowarg S l e l1 -> comma l1 l2 -> Arrows S l2 ps l' -> Arrows S l (FAExpr e :: ps) l'.
  Lemma arrows_clean S l ps l' : Arrows S l ps l' -> Forall (clean false) ps.
  Proof.
    induction 1 as [| |e l l1 l' (_ & _ & H & _) _|e ps l l1 l2 l' (_ & _ & H & _) _ _ IH]; repeat constructor; try apply H; assumption.
  Qed.
  (** Inside the parentheses, after a comma. *)
  Definition group_end : Expr + Expr -> P Expr := fun r =>
    match r with
    | inl early => Ret early
    | inr ex =>
        expect_punct PCloseParen ;;
        ifM at_punct PFatArrow then
          match ex with
          | EIdent _ =>
              upd (set_binding_element false) ;;
              Ret (EArrowParamPlaceHolder [FAExpr ex] false)
          | _ =>
              b <- get c_binding_element ;;
              if negb b then fail_look ["binding element"%string]
              else
                match ex with
                | ESequence seq => Ret (EArrowParamPlaceHolder (map FAExpr seq) false)
                | _ => Ret (EArrowParamPlaceHolder [FAExpr ex] false)
                end
          end
        else Ret ex
    end.
  Lemma arrow_runs l' e s k (Q : Expr -> state -> Prop) S l : Xkeep g true S l e l' -> At s l k -> view_of k = S -> follow (v_in S) 1 l' = true ->
    c_binding_element k = true ->
    (forall s' k', At s' l' k' -> view_of k' = S -> c_binding_element k' = true -> Q e s') -> evs (inheriting (Call CAssignmentExpr)) s Q.
  Proof.
    intros [_ H] A V Hf K HQ. eapply evs_inheriting; [exact A|]. intros s1 A1.
    eapply evs_mono; [|apply (H s1 _ A1 V Hf (kept_opened true k))].
    intros a s2 (-> & k2 & A2 & V2 & F1 & F2). exists l', k2. split; [exact A2|]. intros s3 A3.
    apply (HQ s3 (inherited_of k k2)); [exact A3|transitivity (view_of k2); [reflexivity|rewrite V2; exact V]|].
    cbn. rewrite (F2 eq_refl), K. reflexivity.
  Qed.
  Ltac start_arg Hh := pose proof (call_expr 0 _ ltac:(lia) (call_primary _ Hh)) as He0;
    rewrite ?(no_punct PCloseParen) by (assumption || reflexivity); ev; rewrite ?(no_punct PSpread) by (assumption || reflexivity); ev.
  Lemma arrows_loop S l ps l' : Arrows S l ps l' -> hd_tok l' = TPunct PFatArrow -> forall s k acc l0, At s l0 k -> view_of k = S ->
    comma l0 l -> c_binding_element k = true -> length acc > 0 ->
    evs (Bind (Loop acc group_loop) group_end) s (leaves k l' T (EArrowParamPlaceHolder (map FAExpr acc ++ ps) false)).
  Proof.
    induction 1 as [l l' R|x l l1 l2 l' R H R2|e l l1 l' (Hh & H & _) R|e ps l l1 l2 l' (Hh & H & _) R Hs IH];
      intros Hfat s k acc l0 A V Rc Hk Hacc; apply evs_bind; apply evs_loop; unfold group_loop at 1; ev.
    - unfold group_end. ev. rewrite app_nil_r. eapply leave; [eassumption|reflexivity|exact I].
    - rewrite Hk. cbn [negb]. cbn iota. apply evs_bind.
      destruct (rest_fixed S x _ _ _ R H (reads_hd _ _ _ R2)) as (r & _ & H1).
      eapply evs_then; [apply H1; [eassumption|exact V]|]. cbn beta iota. intros s3 k3 A3 V3 _. ev. unfold group_end. ev.
      eapply leave; [eassumption|exact V3|exact I].
    - start_arg Hh. eapply arrow_runs; [exact H|eassumption|exact V|eapply follow_close; eassumption|exact Hk|].
      cbn beta. intros s3 k3 A3 V3 B3. ev. apply evs_loop. unfold group_loop at 1. ev. unfold group_end. ek.
      rewrite B3. cbn [negb]. ev. rewrite map_app. eapply leave; [eassumption|congruence|exact I].
    - start_arg Hh. eapply arrow_runs; [exact H|eassumption|exact V|eapply follow_comma; eassumption|exact Hk|].
      cbn beta. intros s3 k3 A3 V3 B3. ev. apply evs_bind_inv.
      eapply evs_mono; [|eapply (IH Hfat); [eassumption|exact V3|eassumption|exact B3|rewrite app_length; cbn; lia]].
      intros y s4 (-> & k4 & A4 & V4 & _). rewrite map_app, <- app_assoc. eapply leave; [eassumption|congruence|exact I].
  Qed.
  Lemma arrow_parens S ps l l1 l' : v_in S = true -> reads (TPunct POpenParen) l l1 -> Arrows S l1 ps l' -> hd_tok l' = TPunct PFatArrow ->
    Xhead g S l ps l'.
  Proof.
    intros Hi R H Hfat. exists (EArrowParamPlaceHolder ps false). split; [|split; [eapply arrows_clean; eauto|right; reflexivity]].
    intros s k A V. eapply group_enter; eauto. intros s1 A1. apply evs_call. cbn [body]. unfold group_expr. ev.
    assert (F : forall k', flags None (EArrowParamPlaceHolder ps false) (opened k) k') by (intros; apply flags_none; reflexivity).
    destruct H as [l1 l' R2|x l1 l2 l3 l' R2 H R3|e l1 l2 l' (Hh & H & _ & Hq) R2|e ps l1 l2 l3 l' (Hh & H & _) R2 Hs]; ek.
    - eapply leave; [eassumption|reflexivity|apply F].
    - destruct (rest_fixed S x _ _ _ R2 H (reads_hd _ _ _ R3)) as (r & _ & H1).
      eapply evs_then; [apply H1; [eassumption|exact V]|]. cbn beta iota. intros s3 k3 A3 V3 _. ev.
      eapply leave; [eassumption|exact V3|apply F].
    - start_arg Hh. eapply arrow_runs; [exact H|eassumption|exact V|eapply follow_close; eassumption|reflexivity|].
      cbn beta. intros s3 k3 A3 V3 B3. ek. destruct e; try (destruct (Hq _ eq_refl)); ev.
      all: try (rewrite B3; cbn [negb]; ev; eapply leave; [eassumption|rewrite V3; symmetry; exact V|apply F]).
      eapply leave; [eassumption|transitivity (view_of k3); [reflexivity|rewrite V3; symmetry; exact V]|apply F].
    - start_arg Hh. eapply arrow_runs; [exact H|eassumption|exact V|eapply follow_comma; eassumption|reflexivity|].
      cbn beta. intros s3 k3 A3 V3 B3. ek. apply evs_bind_inv.
      eapply evs_mono; [|eapply (arrows_loop S _ _ _ Hs Hfat _ _ [e]); [eassumption|exact V3|eassumption|exact B3|cbn; lia]].
      intros y s4 (-> & k4 & A4 & V4 & _). eapply leave; [eassumption|rewrite V4, V3; symmetry; exact V|apply F].
  Qed.

  (** ** Parameters of asynchronous arrow functions, read as arguments *)
  Definition Xasyncarg (S : view) l e l' : Prop := (Xarrowarg S l e l' /\ e <> EIdent (str "await"))
    \/ (exists l1 e1, e = ESpread e1 /\ reads (TPunct PSpread) l l1 /\ Xkeep g true S l1 e1 l').
  Lemma asyncarg_runs S l e l' s k (Q : Expr -> state -> Prop) : Xasyncarg S l e l' -> At s l k -> view_of k = S -> follow (v_in S) 1 l' = true ->
    (forall s' k', At s' l' k' -> view_of k' = S -> Q e s') ->
    evs (ifM at_punct PSpread then Call CSpreadElement else isolated (Call CAsyncArg)) s Q.
  Proof.
    intros [[(Hh & [_ H] & _) _]|(l1 & e1 & -> & R & [_ H])] A V Hf HQ; ev.
    - pose proof (call_expr 0 _ ltac:(lia) (call_primary _ Hh)) as He0. rewrite (no_punct PSpread) by (assumption || reflexivity).
      eapply evs_then; [eapply (evs_iso _ _ _ _ _ _ _ T); [eassumption|]; intros s9 A9; apply evs_call; cbn [body]; unfold async_arg; apply evs_bind;
        (eapply evs_then; [apply H; [exact A9|exact V|exact Hf|apply kept_opened]|]); cbn beta; intros s8 k8 A8 V8 _; ev;
        eapply leave; [eassumption|exact V8|exact I]|].
      cbn beta. intros s9 k9 A9 V9 _. eapply HQ; [eassumption|congruence].
    - apply evs_call. cbn [body]. unfold spread_element. ev. eapply evs_then; [eapply evs_inh; [eassumption|]; intros s9 A9; apply H; [exact A9|exact V|exact Hf|apply kept_opened]|].
      cbn beta. intros s9 k9 A9 V9 _. ev. eapply HQ; [eassumption|congruence].
  Qed.
  Inductive AsyncArgs (S : view) : list tk -> list Expr -> list tk -> Prop :=
  | asyncargs_none l l' : reads (TPunct PCloseParen) l l' -> AsyncArgs S l [] l'
  | asyncargs_last e l l1 l' : Xasyncarg S l e l1 -> reads (TPunct PCloseParen) l1 l' -> AsyncArgs S l [e] l'
  | asyncargs_more e es l l1 l2 l' : Xasyncarg S l e l1 -> comma l1 l2 -> AsyncArgs S l2 es l' -> AsyncArgs S l (e :: es) l'.
  Lemma asyncargs_clean S l es l' : AsyncArgs S l es l' -> Forall (clean true) (map FAExpr es).
  Proof.
    assert (C : forall l e l1, Xasyncarg S l e l1 -> clean true (FAExpr e)).
    { intros l0 e l1 [[(_ & _ & H & _) Hn]|(l2 & e1 & -> & _ & _)]; [|split; reflexivity]. destruct H as [H1 H2]. split; [|exact H2].
      destruct e; try exact H1. cbn. f_equal. apply not_true_iff_false. intros C. apply text_eqb_eq in C. apply Hn. f_equal. exact C. }
    induction 1; cbn [map]; repeat constructor; eauto.
    all: match goal with H : Xasyncarg _ _ _ _ |- _ => apply C in H; apply H end.
  Qed.
  Definition asyncargs_loop : list Expr -> P (list Expr + list Expr) := fun args =>
       e <- (ifM at_punct PSpread then Call CSpreadElement else isolated (Call CAsyncArg)) ;;
       ifM at_punct PCloseParen then Ret (inr (args ++ [e]))
       else
         Do OExpectComma ;;
         ifM at_punct PCloseParen then Ret (inr (args ++ [e]))
         else Ret (inl (args ++ [e])).
  Lemma async_not_close S l e l' : Xasyncarg S l e l' -> is_punct PCloseParen (hd_tok l) = false.
  Proof.
    intros [[(Hh & _) _]|(l1 & e1 & _ & R & _)]; [|rewrite (reads_hd _ _ _ R); reflexivity].
    apply no_punct; [|reflexivity]. apply call_expr; [lia|]. apply call_primary. exact Hh.
  Qed.
  Lemma asyncargs_loop_ok S l es l' : AsyncArgs S l es l' -> es <> [] -> exists l9, reads (TPunct PCloseParen) l9 l' /\
    forall s k acc, At s l k -> view_of k = S -> evs (Loop acc asyncargs_loop) s (leaves k l9 T (acc ++ es)).
  Proof.
    induction 1 as [l l' R|e l l1 l' He R|e es l l1 l2 l' He R Hs IH]; intros Hn; [contradiction| |].
    - exists l1. split; [exact R|]. intros s k acc A V. apply evs_loop. unfold asyncargs_loop at 1. apply evs_bind.
      apply (asyncarg_runs _ _ _ _ _ _ _ He A V). { eapply follow_close; eauto. } cbn beta. intros s1 k1 A1 V1. ev.
      eapply leave; [eassumption|congruence|exact I].
    - destruct es as [|e1 es].
      + inversion Hs; subst. exists l2. split; [assumption|]. intros s k acc A V. apply evs_loop. unfold asyncargs_loop at 1. apply evs_bind.
        apply (asyncarg_runs _ _ _ _ _ _ _ He A V). { eapply follow_comma; eauto. } cbn beta. intros s1 k1 A1 V1. ev.
        eapply leave; [eassumption|congruence|exact I].
      + destruct IH as (l9 & R9 & IH); [discriminate|]. exists l9. split; [exact R9|].
        intros s k acc A V. apply evs_loop. unfold asyncargs_loop at 1. apply evs_bind.
        apply (asyncarg_runs _ _ _ _ _ _ _ He A V). { eapply follow_comma; eauto. } cbn beta. intros s1 k1 A1 V1. ev.
        replace (is_punct PCloseParen (hd_tok l2)) with false by (symmetry; inversion Hs; subst; eapply async_not_close; eassumption).
        ev. eapply evs_mono; [|eapply IH; [eassumption|congruence]].
        intros x s4 (-> & k4 & A4 & V4 & _). rewrite <- app_assoc. eapply leave; [eassumption|congruence|exact I].
  Qed.
  Lemma asyncargs_ok S l es l' : AsyncArgs S l es l' -> Xasync g S l (map FAExpr es) l'.
  Proof.
    intros H s k l0 A V R. apply evs_call. cbn [body]. unfold async_args, arg_list. ev.
    destruct es as [|e es].
    - inversion H; subst. ek. eexists. split; [reflexivity|]. split; [eassumption|congruence].
    - replace (is_punct PCloseParen (hd_tok l)) with false
        by (symmetry; inversion H; subst; eapply async_not_close; eassumption).
      destruct (asyncargs_loop_ok _ _ _ _ H ltac:(discriminate)) as (l9 & R9 & IH).
      eapply evs_then; [eapply (IH _ _ []); [eassumption|congruence]|]. cbn beta. intros s4 k4 A4 V4 _. ev.
      eexists. split; [reflexivity|]. split; [eassumption|congruence].
  Qed.
  (** The same for the list of the parameters. *)
  Definition Xasyncs (S : view) l ps l' : Prop := exists es, ps = map FAExpr es /\ AsyncArgs S l es l'.
  Lemma asyncs_none S l l' : reads (TPunct PCloseParen) l l' -> Xasyncs S l [] l'.
  Proof. intros R. exists []. split; [reflexivity|]. constructor. exact R. Qed.
  Lemma asyncs_rest S e l l1 l2 l' : reads (TPunct PSpread) l l1 -> Xbase g true S l1 e l2 -> reads (TPunct PCloseParen) l2 l' ->
    Xasyncs S l [FAExpr (ESpread e)] l'.
  Proof.
    intros R H R2. exists [ESpread e]. split; [reflexivity|]. eapply asyncargs_last; [|exact R2]. right. exists l1, e. split; [reflexivity|].
    split; [exact R|apply base_keeps; exact H].
  Qed.
  Lemma asyncs_last S e l l1 l' : Xarrowarg S l e l1 -> e <> EIdent (str "await") -> reads (TPunct PCloseParen) l1 l' -> Xasyncs S l [FAExpr e] l'.
  Proof. intros H Hn R. exists [e]. split; [reflexivity|]. eapply asyncargs_last; [left; split; eassumption|exact R]. Qed.
  Lemma asyncs_more S e ps l l1 l2 l' : Xarrowarg S l e l1 -> e <> EIdent (str "await") -> comma l1 l2 -> Xasyncs S l2 ps l' -> Xasyncs S l (FAExpr e :: ps) l'.
  Proof. intros H Hn R (es & -> & Hs). exists (e :: es). split; [reflexivity|]. eapply asyncargs_more; [left; split; eassumption|exact R|exact Hs]. Qed.
  Lemma asyncs_start S ps l l1 l2 l' : reads_as TIdent (str "async") l l1 -> newline l1 = false -> reads (TPunct POpenParen) l1 l2 ->
    Xasyncs S l2 ps l' -> hd_tok l' = TPunct PFatArrow -> Xstart g true S l ps l'.
  Proof.
    intros R Hn R1 (es & -> & H) Hf. eapply async_parens_start; eauto; [apply asyncargs_ok; exact H|eapply asyncargs_clean; exact H].
  Qed.
End Pats.
