(** Imports and exports. *)
From Verif Require Export Loops.
Local Open Scope nat_scope.
Local Open Scope list_scope.

Section Modules.
  Variable g : cfg.
  Notation evs := (evs g).
  Notation At := (At g).
  Notation leaves := (leaves g).
  Notation T := (fun _ : ctx => True).
  Notation Xrun := (Xrun g).
  Notation Xitem := (Xrun (Call CStatementListItem)).

  Lemma says t w l l' : reads_as t (str w) l l' -> text_eqb (hd_text l) (str w) = true.
  Proof. intros R. apply text_eqb_eq. apply (reads_as_hd _ _ _ _ R). Qed.
  Lemma not_word s l k w : At s l k -> hd_tok l = TPunct PComma \/ hd_tok l = TPunct PCloseBrace -> In (str w) quiet_words ->
    text_eqb (hd_text l) (str w) = false.
  Proof. intros A H Hw. eapply at_word; [exact A| |exact Hw]. destruct H as [-> | ->]; discriminate. Qed.
  Lemma ident_name_ok S t w l l' : reads_as t w l l' -> Xrun (Call CIdentName) S l w l'.
  Proof.
    intros R s k A V. apply evs_call. cbn [body]. unfold ident_name. ev.
    rewrite (proj2 (reads_as_hd _ _ _ _ R)). eapply leave; [eassumption|reflexivity|exact I].
  Qed.
  Lemma specifier_ok S w l l' : reads_as TString w l l' -> Xrun (Call CModuleSpecifier) S l (LString w) l'.
  Proof.
    intros R s k A V. apply evs_call. cbn [body]. unfold module_specifier. ev.
    rewrite (proj2 (reads_as_hd _ _ _ _ R)). eapply leave; [eassumption|reflexivity|exact I].
  Qed.

  (** ** Names of imports *)
  Definition Ximport := Xrun (Call CImportSpecifier).
  Lemma import_name S w l l' : reads_as TIdent w l l' -> w <> str "await" -> hd_tok l' = TPunct PComma \/ hd_tok l' = TPunct PCloseBrace ->
    Ximport S l (ISNormal w None) l'.
  Proof.
    intros R Hw He s k A V. apply evs_call. cbn [body]. unfold import_specifier. ev.
    eapply evs_then; [eapply at_name; [exact R|exact Hw|exact A]|]. cbn beta. intros s21 k21 A21 V21 _. ev.
    rewrite (not_word _ _ _ "as" A21 He) by (cbn; tauto). ev. eapply leave; [eassumption|exact V21|exact I].
  Qed.
  Lemma import_name_as S t w v l l1 l2 l' : name_token t -> reads_as t w l l1 -> w <> str "await" -> reads_as TIdent (str "as") l1 l2 ->
    reads_as TIdent v l2 l' -> v <> str "await" -> Ximport S l (ISNormal w (Some v)) l'.
  Proof.
    intros Hn R Hw Ra Rv Hv s k A V. apply evs_call. cbn [body]. unfold import_specifier. ev.
    assert (C : t = TIdent \/ is_ident t = false) by (destruct Hn as [->|[->|[(b & ->)|(x & ->)]]]; auto).
    destruct C as [->|C].
    - ek. eapply evs_then; [eapply at_name; [exact R|exact Hw|exact A]|]. cbn beta. intros s21 k21 A21 V21 _. ev.
      rewrite (says _ _ _ _ Ra). ev. eapply evs_next_ignored; [exact A21|exact (reads_as_reads _ _ _ _ Ra)|]. intros s22 A22. ev.
      eapply evs_then; [eapply at_name; [exact Rv|exact Hv|exact A22]|]. cbn beta. intros s23 k23 A23 V23 _. ev.
      eapply leave; [eassumption|congruence|exact I].
    - rewrite C. ev. eapply evs_then; [eapply (ident_name_ok S); [exact R|exact A|exact V]|]. cbn beta. intros s21 k21 A21 V21 _. ev.
      rewrite (says _ _ _ _ Ra). ev.
      eapply evs_then; [eapply at_name; [exact Rv|exact Hv|eassumption]|]. cbn beta. intros s23 k23 A23 V23 _. ev.
      eapply leave; [eassumption|congruence|exact I].
  Qed.
  Inductive ImportNames (S : view) : list tk -> list ImportSpecifier -> list tk -> Prop :=
  | in_none l l' : reads (TPunct PCloseBrace) l l' -> ImportNames S l [] l'
  | in_last n l l1 l' : is_punct PCloseBrace (hd_tok l) = false -> Ximport S l n l1 -> reads (TPunct PCloseBrace) l1 l' -> ImportNames S l [n] l'
  | in_more n ns l l1 l2 l' : is_punct PCloseBrace (hd_tok l) = false -> Ximport S l n l1 -> comma l1 l2 -> ImportNames S l2 ns l' ->
      ImportNames S l (n :: ns) l'.
  Definition import_loop (ret : list ImportSpecifier) : P (list ImportSpecifier + list ImportSpecifier) :=
    ifM at_punct PCloseBrace then Ret (inr ret)
    else
      s <- Call CImportSpecifier ;;
      ifM at_punct PCloseBrace then Ret (inl (ret ++ [s]))
      else expect_punct PComma ;; Ret (inl (ret ++ [s])).
  Lemma import_names_loop S l ns l' : ImportNames S l ns l' -> exists l9, reads (TPunct PCloseBrace) l9 l' /\
    forall s k acc, At s l k -> view_of k = S -> evs (Loop acc import_loop) s (leaves k l9 T (acc ++ ns)).
  Proof.
    induction 1 as [l l' R|p l l1 l' Hh He R|p ps l l1 l2 l' Hh He R Hs (l9 & R9 & IH)].
    - exists l. split; [exact R|]. intros s k acc A V. apply evs_loop. unfold import_loop at 1. ev. rewrite app_nil_r.
      eapply leave; [eassumption|reflexivity|exact I].
    - exists l1. split; [exact R|]. intros s k acc A V. apply evs_loop. unfold import_loop at 1. ev. rewrite Hh. apply evs_bind.
      eapply evs_then; [apply He; [exact A|exact V]|]. cbn beta iota. intros s21 k21 A21 V21 _. ev.
      apply evs_loop. unfold import_loop at 1. ev. eapply leave; [eassumption|congruence|exact I].
    - exists l9. split; [exact R9|]. intros s k acc A V. apply evs_loop. unfold import_loop at 1. ev. rewrite Hh. apply evs_bind.
      eapply evs_then; [apply He; [exact A|exact V]|]. cbn beta iota. intros s21 k21 A21 V21 _. ev.
      eapply evs_mono; [|eapply IH; [eassumption|congruence]].
      intros y s24 (-> & k24 & A24 & V24 & _). rewrite <- app_assoc. eapply leave; [eassumption|congruence|exact I].
  Qed.
  Lemma named_imports_ok S ns l l1 l' : reads (TPunct POpenBrace) l l1 -> ImportNames S l1 ns l' -> Xrun (Call CNamedImports) S l ns l'.
  Proof.
    intros R H s k A V. destruct (import_names_loop _ _ _ _ H) as (l9 & R9 & IH). apply evs_call. cbn [body]. unfold named_imports. ev.
    eapply evs_then; [eapply (IH _ _ []); [eassumption|exact V]|]. cbn beta. intros s24 k24 A24 V24 _. ev.
    eapply leave; [eassumption|exact V24|exact I].
  Qed.
  Lemma namespace_ok S w l l1 l2 l' : reads (TPunct PAsterisk) l l1 -> reads_as TIdent (str "as") l1 l2 -> reads_as TIdent w l2 l' ->
    Xrun (Call CImportNamespaceSpecifier) S l (ISNamespace w) l'.
  Proof.
    intros R Ra Rw s k A V. apply evs_call. cbn [body]. unfold import_namespace_specifier. ev. rewrite (says _ _ _ _ Ra). ev.
    eapply evs_then; [eapply (ident_name_ok S); [exact Rw|eassumption|exact V]|]. cbn beta. intros s21 k21 A21 V21 _. ev.
    eapply leave; [eassumption|exact V21|exact I].
  Qed.
  Lemma default_ok S w l l' : reads_as TIdent w l l' -> Xrun (Call CImportDefaultSpecifier) S l (ISDefault w) l'.
  Proof.
    intros R s k A V. apply evs_call. cbn [body]. unfold import_default_specifier.
    eapply evs_bind. eapply evs_then; [eapply (ident_name_ok S); [exact R|exact A|exact V]|]. cbn beta. intros s21 k21 A21 V21 _. ev.
    eapply leave; [eassumption|exact V21|exact I].
  Qed.

  (** What stands between [import] and [from]. *)
  Definition specifiers (t : token) : P (list ImportSpecifier) :=
    if is_punct POpenBrace t then Call CNamedImports
    else if is_punct PAsterisk t then s <- Call CImportNamespaceSpecifier ;; Ret [s]
    else if possible_ident t && negb (is_keyword KDefault t) then
      d <- Call CImportDefaultSpecifier ;;
      ifM at_punct PComma then
        next ;;
        ifM at_punct PAsterisk then s <- Call CImportNamespaceSpecifier ;; Ret [d; s]
        else ifM at_punct POpenBrace then l <- Call CNamedImports ;; Ret (d :: l)
        else fail_look ["{"; "*"]%string
      else Ret [d]
    else fail_look ["{"; "*"; "[ident]"; "[string]"]%string.
  Definition Ximports (S : view) l ns l' : Prop :=
    (is_ident (hd_tok l) || is_punct POpenBrace (hd_tok l) || is_punct PAsterisk (hd_tok l) = true) /\ Xrun (specifiers (hd_tok l)) S l ns l'.
  Lemma imports_names S ns l l1 l' : reads (TPunct POpenBrace) l l1 -> ImportNames S l1 ns l' -> Ximports S l ns l'.
  Proof.
    intros R H. split; [rewrite (reads_hd _ _ _ R); reflexivity|]. intros s k A V. unfold specifiers. rewrite (reads_hd _ _ _ R). ek.
    eapply (named_imports_ok S); eauto.
  Qed.
  Lemma imports_all S w l l1 l2 l' : reads (TPunct PAsterisk) l l1 -> reads_as TIdent (str "as") l1 l2 -> reads_as TIdent w l2 l' -> Ximports S l [ISNamespace w] l'.
  Proof.
    intros R Ra Rw. split; [rewrite (reads_hd _ _ _ R); reflexivity|]. intros s k A V. unfold specifiers. rewrite (reads_hd _ _ _ R). ek.
    eapply evs_then; [eapply (namespace_ok S); eauto|]. cbn beta. intros s21 k21 A21 V21 _. ev. eapply leave; [eassumption|exact V21|exact I].
  Qed.
  Lemma imports_default S w l l' : reads_as TIdent w l l' -> hd_tok l' = TIdent -> Ximports S l [ISDefault w] l'.
  Proof.
    intros R E. split; [rewrite (proj1 (reads_as_hd _ _ _ _ R)); reflexivity|]. intros s k A V. unfold specifiers.
    rewrite (proj1 (reads_as_hd _ _ _ _ R)). change (possible_ident TIdent) with true. cbn [andb]. ek.
    eapply evs_then; [eapply (default_ok S); [exact R|exact A|exact V]|]. cbn beta. intros s21 k21 A21 V21 _. ev. eapply leave; [eassumption|exact V21|exact I].
  Qed.
  Lemma imports_both S v w l l1 l2 l3 l4 l' : reads_as TIdent v l l1 -> comma l1 l2 -> reads (TPunct PAsterisk) l2 l3 ->
    reads_as TIdent (str "as") l3 l4 -> reads_as TIdent w l4 l' -> Ximports S l [ISDefault v; ISNamespace w] l'.
  Proof.
    intros R Rc Rs Ra Rw. split; [rewrite (proj1 (reads_as_hd _ _ _ _ R)); reflexivity|]. intros s k A V. unfold specifiers.
    rewrite (proj1 (reads_as_hd _ _ _ _ R)). change (possible_ident TIdent) with true. cbn [andb]. ek.
    eapply evs_then; [eapply (default_ok S); [exact R|exact A|exact V]|]. cbn beta. intros s21 k21 A21 V21 _. ev.
    eapply evs_then; [eapply (namespace_ok S); [exact Rs|exact Ra|exact Rw|eassumption|congruence]|]. cbn beta. intros s22 k22 A22 V22 _. ev.
    eapply leave; [eassumption|congruence|exact I].
  Qed.
  Lemma imports_default_names S v ns l l1 l2 l3 l' : reads_as TIdent v l l1 -> comma l1 l2 -> reads (TPunct POpenBrace) l2 l3 ->
    ImportNames S l3 ns l' -> Ximports S l (ISDefault v :: ns) l'.
  Proof.
    intros R Rc Rs H. split; [rewrite (proj1 (reads_as_hd _ _ _ _ R)); reflexivity|]. intros s k A V. unfold specifiers.
    rewrite (proj1 (reads_as_hd _ _ _ _ R)). change (possible_ident TIdent) with true. cbn [andb]. ek.
    eapply evs_then; [eapply (default_ok S); [exact R|exact A|exact V]|]. cbn beta. intros s21 k21 A21 V21 _. ev.
    eapply evs_then; [eapply (named_imports_ok S); [exact Rs|exact H|eassumption|congruence]|]. cbn beta. intros s22 k22 A22 V22 _. ev.
    eapply leave; [eassumption|congruence|exact I].
  Qed.

  (** ** Imports *)
  Ltac same := first [congruence|match goal with V : view_of _ = ?S |- _ => subst S; vws end].
  Lemma not_call s l l1 k (Q : bool -> state -> Prop) : At s l k -> reads (TKeyword KImport) l l1 -> hd_tok l1 <> TPunct POpenParen -> Q false s ->
    evs at_import_call s Q.
  Proof.
    intros A R N H. unfold at_import_call. ev. eapply evs_peekskip; [exact A|]. intros o Ho.
    assert (E : tl l = l1) by (destruct R as (_ & w & b & ->); reflexivity). rewrite E in Ho. ev.
    destruct o as [i|]; [|exact H]. rewrite Ho, no_punct_is by exact N. exact H.
  Qed.
  Lemma item_import S ns w l l1 l2 l3 l4 l' : reads (TKeyword KImport) l l1 -> Ximports S l1 ns l2 -> reads_as TIdent (str "from") l2 l3 ->
    reads_as TString w l3 l4 -> stops l4 l' -> Xitem S l (PPDecl (DImport (mkImport ns (LString w)))) l'.
  Proof.
    intros R (Hh & H) Rf Rw He s k A V. apply evs_call. cbn [body]. unfold statement_list_item. ev.
    assert (N : hd_tok l1 <> TPunct POpenParen) by (intros E; rewrite E in Hh; discriminate).
    assert (N2 : is_string (hd_tok l1) = false) by (destruct (hd_tok l1); try reflexivity; discriminate).
    eapply not_call; [eassumption|exact R|exact N|]. ev. apply evs_call. cbn [body]. unfold import_decl. ev. rewrite N2.
    apply evs_bind. eapply evs_then; [eapply H; [eassumption|exact V]|]. cbn beta. intros s21 k21 A21 V21 _. ev. rewrite (says _ _ _ _ Rf). ev.
    eapply evs_then; [eapply (specifier_ok S); [exact Rw|eassumption|same]|]. cbn beta. intros s22 k22 A22 V22 _. ev.
    eapply evs_then; [eapply (stop_ok _ S); [exact He|eassumption|same]|]. cbn beta. intros s23 k23 A23 V23 _. ev.
    eapply leave; [eassumption|same|exact I].
  Qed.
  Lemma item_import_bare S w l l1 l2 l' : reads (TKeyword KImport) l l1 -> reads_as TString w l1 l2 -> stops l2 l' ->
    Xitem S l (PPDecl (DImport (mkImport [] (LString w)))) l'.
  Proof.
    intros R Rw He s k A V. apply evs_call. cbn [body]. unfold statement_list_item. ev.
    eapply not_call; [eassumption|exact R|rewrite (proj1 (reads_as_hd _ _ _ _ Rw)); discriminate|]. ev. apply evs_call. cbn [body]. unfold import_decl. ev.
    eapply evs_then; [eapply (specifier_ok S); [exact Rw|eassumption|exact V]|]. cbn beta. intros s22 k22 A22 V22 _. ev.
    eapply evs_then; [eapply (stop_ok _ S); [exact He|eassumption|same]|]. cbn beta. intros s23 k23 A23 V23 _. ev.
    eapply leave; [eassumption|same|exact I].
  Qed.

  (** ** Names of exports *)
  Definition Xexport (f : bool) (S : view) l n l' : Prop := (f = false -> is_keyword KDefault (hd_tok l) = false) /\ Xrun (Call CExportSpecifier) S l n l'.
  Lemma export_name S (f : bool) t w l l' : (f = false -> t = TIdent) -> reads_as t w l l' ->
    hd_tok l' = TPunct PComma \/ hd_tok l' = TPunct PCloseBrace -> Xexport f S l (mkExportSpec w None) l'.
  Proof.
    intros Hf R He. split; [intros E; rewrite (proj1 (reads_as_hd _ _ _ _ R)), (Hf E); reflexivity|].
    intros s k A V. apply evs_call. cbn [body]. unfold export_specifier. apply evs_bind.
    eapply evs_then; [eapply (ident_name_ok S); [exact R|exact A|exact V]|]. cbn beta. intros s21 k21 A21 V21 _. ev.
    rewrite (not_word _ _ _ "as" A21 He) by (cbn; tauto). ev. eapply leave; [eassumption|exact V21|exact I].
  Qed.
  Lemma export_name_as S (f : bool) t w u v l l1 l2 l' : (f = false -> t = TIdent) -> reads_as t w l l1 ->
    reads_as TIdent (str "as") l1 l2 -> reads_as u v l2 l' -> Xexport f S l (mkExportSpec w (Some v)) l'.
  Proof.
    intros Hf R Ra Rv. split; [intros E; rewrite (proj1 (reads_as_hd _ _ _ _ R)), (Hf E); reflexivity|].
    intros s k A V. apply evs_call. cbn [body]. unfold export_specifier. apply evs_bind.
    eapply evs_then; [eapply (ident_name_ok S); [exact R|exact A|exact V]|]. cbn beta. intros s21 k21 A21 V21 _. ev. rewrite (says _ _ _ _ Ra). ev.
    eapply evs_then; [eapply (ident_name_ok S); [exact Rv|eassumption|same]|]. cbn beta. intros s22 k22 A22 V22 _. ev.
    eapply leave; [eassumption|same|exact I].
  Qed.
  Inductive ExportNames (f : bool) (S : view) : list tk -> list ExportSpecifier -> list tk -> Prop :=
  | en_none l l' : reads (TPunct PCloseBrace) l l' -> ExportNames f S l [] l'
  | en_last n l l1 l' : is_punct PCloseBrace (hd_tok l) = false -> Xexport f S l n l1 -> reads (TPunct PCloseBrace) l1 l' -> ExportNames f S l [n] l'
  | en_more n ns l l1 l2 l' : is_punct PCloseBrace (hd_tok l) = false -> Xexport f S l n l1 -> comma l1 l2 -> ExportNames f S l2 ns l' ->
      ExportNames f S l (n :: ns) l'.
  Definition export_loop : list ExportSpecifier * bool -> P (list ExportSpecifier * bool + list ExportSpecifier * bool) :=
    fun '(specifiers, found_default) =>
        ifM at_punct PCloseBrace then Ret (inr (specifiers, found_default))
        else
          d <- at_keyword KDefault ;;
          s <- Call CExportSpecifier ;;
          ifM at_punct PCloseBrace then Ret (inl (specifiers ++ [s], found_default || d))
          else expect_punct PComma ;; Ret (inl (specifiers ++ [s], found_default || d)).
  Lemma export_names_loop f S l ns l' : ExportNames f S l ns l' -> exists l9 d, reads (TPunct PCloseBrace) l9 l' /\ (f = false -> d = false) /\
    forall s k acc fd, At s l k -> view_of k = S -> evs (Loop (acc, fd) export_loop) s (leaves k l9 T (acc ++ ns, fd || d)).
  Proof.
    induction 1 as [l l' R|p l l1 l' Hh (Hd & He) R|p ps l l1 l2 l' Hh (Hd & He) R Hs (l9 & d & R9 & Hf & IH)].
    - exists l, false. split; [exact R|]. split; [auto|]. intros s k acc fd A V. apply evs_loop. unfold export_loop at 1. ev. rewrite app_nil_r, orb_false_r.
      eapply leave; [eassumption|reflexivity|exact I].
    - exists l1, (is_keyword KDefault (hd_tok l)). split; [exact R|]. split; [exact Hd|]. intros s k acc fd A V. apply evs_loop. unfold export_loop at 1. ev. rewrite Hh.
      ev. eapply evs_then; [apply He; [exact A|exact V]|]. cbn beta iota. intros s21 k21 A21 V21 _. ev.
      apply evs_loop. unfold export_loop at 1. ev. eapply leave; [eassumption|same|exact I].
    - exists l9, (is_keyword KDefault (hd_tok l) || d). split; [exact R9|]. split; [intros E; rewrite (Hd E), (Hf E); reflexivity|].
      intros s k acc fd A V. apply evs_loop. unfold export_loop at 1. ev. rewrite Hh. ev.
      eapply evs_then; [apply He; [exact A|exact V]|]. cbn beta iota. intros s21 k21 A21 V21 _. ev.
      eapply evs_mono; [|eapply IH; [eassumption|same]].
      intros y s24 (-> & k24 & A24 & V24 & _). rewrite <- app_assoc, orb_assoc. eapply leave; [eassumption|same|exact I].
  Qed.

  (** ** Exports *)
  Ltac item := apply evs_call; cbn [body]; unfold statement_list_item; ev; apply evs_call; cbn [body]; unfold export_decl; ev.
  Ltac finish V := ev; eapply leave; [eassumption|first [exact V|same]|exact I].
  Ltac marked a R := pose proof R as Rmark; destruct a; cbn [function_mark] in Rmark;
    [let l9 := fresh "l" in let R9 := fresh "R" in let E9 := fresh "E" in let E9' := fresh "E" in
     destruct Rmark as (l9 & R9 & _); pose proof (reads_as_hd _ _ _ _ R9) as [E9 E9']; ek; rewrite E9'; change (text_eqb (str "async") (str "async")) with true;
     ev_bool; cbn iota; ev1; eapply evs_async_function; [eassumption|exact R|]
    |]; ek.
  Lemma item_export_default S e l l1 l2 l' : v_in S = true -> reads (TKeyword KExport) l l1 -> reads (TKeyword KDefault) l1 l2 ->
    not_statement (hd_tok l2) = false -> hd_tok l2 <> TPunct POpenBracket -> plain_start l2 -> @X1 g None S l2 e l' -> follow true 0 l' = true ->
    Xitem S l (PPDecl (DExport (MEDefault (DEExpr e)))) l'.
  Proof.
    intros Hi R R1 N1 N2 Hps H Hf s k A V. item.
    replace (is_keyword KFunction (hd_tok l2)) with false by (destruct (hd_tok l2) as [| | | | | | |[]|[]|[]|]; try discriminate; reflexivity).
    replace (is_keyword KClass (hd_tok l2)) with false by (destruct (hd_tok l2) as [| | | | | | |[]|[]|[]|]; try discriminate; reflexivity).
    ev. destruct (text_eqb (hd_text l2) (str "async")).
    { ev. eapply evs_then; [eapply H; [eassumption|exact V|rewrite Hi; eapply follow_up; [|exact Hf]; lia|reflexivity]|]. cbn beta. intros s21 k21 A21 V21 _. finish V21. }
    ev.
    replace (is_punct POpenBrace (hd_tok l2)) with false by (destruct (hd_tok l2) as [| | | | | | |[]|[]|[]|]; try discriminate; reflexivity).
    rewrite (no_punct_is _ _ N2). ev.
    eapply evs_then; [eapply H; [eassumption|exact V|rewrite Hi; eapply follow_up; [|exact Hf]; lia|reflexivity]|]. cbn beta. intros s21 k21 A21 V21 _. finish V21.
  Qed.
  Lemma item_export_object S ps l l1 l2 l3 l' : reads (TKeyword KExport) l l1 -> reads (TKeyword KDefault) l1 l2 -> reads (TPunct POpenBrace) l2 l3 ->
    Props g S l3 ps l' -> Xitem S l (PPDecl (DExport (MEDefault (DEExpr (EObject ps))))) l'.
  Proof.
    intros R R1 R2 H s k A V. item. erewrite at_calm by (first [eassumption|calm1]). ev.
    eapply evs_then; [eapply (object_ok _ S); eauto|]. cbn beta. intros s21 k21 A21 V21 _. finish V21.
  Qed.
  Lemma item_export_array S es l l1 l2 l3 l' : v_in S = true -> reads (TKeyword KExport) l l1 -> reads (TKeyword KDefault) l1 l2 -> reads (TPunct POpenBracket) l2 l3 ->
    Elems g S l3 es l' -> Xitem S l (PPDecl (DExport (MEDefault (DEExpr (EArray es))))) l'.
  Proof.
    intros Hi R R1 R2 H s k A V. item. erewrite at_calm by (first [eassumption|calm1]). ev.
    eapply evs_then; [eapply (array_ok _ S); eauto|]. cbn beta. intros s21 k21 A21 V21 _. finish V21.
  Qed.
  Lemma item_export_default_function S (a : bool) f l l1 l2 l3 l' : reads (TKeyword KExport) l l1 -> reads (TKeyword KDefault) l1 l2 -> function_mark a l2 l3 ->
    Xdecl g a S l3 f l' -> Xitem S l (PPDecl (DExport (MEDefault (DEDecl (DFunction f))))) l'.
  Proof.
    intros R R1 R2 H s k A V. item. marked a R2.
    all: eapply evs_then; [eapply H; [eassumption|exact V|eassumption]|]; cbn beta; intros s21 k21 A21 V21 _; finish V21.
  Qed.
  Lemma item_export_anon S (gen a : bool) ps b l l1 l2 l3 l4 l5 l6 l' : reads (TKeyword KExport) l l1 -> reads (TKeyword KDefault) l1 l2 -> function_mark a l2 l3 ->
    (a = true -> gen = false) -> (if gen then reads (TPunct PAsterisk) l3 l4 else l4 = l3) -> reads (TPunct POpenParen) l4 l5 ->
    Xparams g (inner gen a S) l5 ps l6 -> Xbody g (inner gen a S) l6 b l' ->
    Xitem S l (PPDecl (DExport (MEDefault (DEDecl (DFunction (mkFunction None ps b gen a)))))) l'.
  Proof.
    intros R R1 R2 Hga Rg R3 Hp Hb s k A V. item. marked a R2.
    all: eapply evs_then; [eapply (decl_anon g S); [exact Hga|exact Rg|exact R3|exact Hp|exact Hb|eassumption|exact V|eassumption]|];
      cbn beta; intros s21 k21 A21 V21 _; finish V21.
  Qed.
  Lemma item_export_default_class S c l l1 l2 l3 l' : reads (TKeyword KExport) l l1 -> reads (TKeyword KDefault) l1 l2 -> reads (TKeyword KClass) l2 l3 ->
    Xclass g true (strict_ true S) l3 c l' -> Xitem S l (PPDecl (DExport (MEDefault (DEDecl (DClass c))))) l'.
  Proof.
    intros R R1 R2 H s k A V. item. eapply evs_then; [eapply H; [eassumption|subst S; reflexivity|eassumption]|]. cbn beta. intros s21 k21 A21 V21 _. finish V21.
  Qed.
  Lemma item_export_all S w l l1 l2 l3 l4 l' : reads (TKeyword KExport) l l1 -> reads (TPunct PAsterisk) l1 l2 -> reads_as TIdent (str "from") l2 l3 ->
    reads_as TString w l3 l4 -> stops l4 l' -> Xitem S l (PPDecl (DExport (MEAll (LString w)))) l'.
  Proof.
    intros R R1 R2 R3 He s k A V. item.
    eapply evs_then; [eapply (specifier_ok S); [exact R3|eassumption|exact V]|]. cbn beta. intros s22 k22 A22 V22 _. ev.
    eapply evs_then; [eapply (stop_ok _ S); [exact He|eassumption|same]|]. cbn beta. intros s23 k23 A23 V23 _. ev.
    eapply leave; [eassumption|same|exact I].
  Qed.
  Lemma fresh_stops l : fresh l -> stops l l.
  Proof. intros [N H]. right. split; [reflexivity|]. split; [exact N|]. destruct H; auto. Qed.
  Lemma item_export_lexical S kw kind vs l l1 l2 l3 l' : kw = KLet /\ kind = VLet \/ kw = KConst /\ kind = VConst -> v_in S = true ->
    reads (TKeyword KExport) l l1 -> reads (TKeyword kw) l1 l2 -> Vars g kind false S l2 vs l3 -> ends l3 l' -> fresh l' ->
    Xitem S l (PPDecl (DExport (MENamed (NEDecl (DVariable kind vs))))) l'.
  Proof.
    intros Hk Hi R R1 H He Hf s k A V. item. destruct Hk as [[-> ->]|[-> ->]]; ek;
      (eapply evs_then; [eapply (lexical _ S); [|exact R1|exact H|exact He|exact Hi|eassumption|exact V]; auto|]); cbn beta; intros s21 k21 A21 V21 _; ev;
      (eapply evs_then; [eapply (stop_ok _ S); [apply fresh_stops; exact Hf|eassumption|same]|]); cbn beta; intros s23 k23 A23 V23 _; ev;
      (eapply leave; [eassumption|same|exact I]).
  Qed.
  Lemma item_export_var S vs l l1 l2 l3 l' : v_in S = true -> reads (TKeyword KExport) l l1 -> reads (TKeyword KVar) l1 l2 -> Vars g VVar false S l2 vs l3 -> ends l3 l' ->
    Xitem S l (PPDecl (DExport (MENamed (NEDecl (DVariable VVar vs))))) l'.
  Proof.
    intros Hi R R1 H (He & Hf & _) s k A V. item.
    eapply evs_then; [eapply (var_list _ S); [exact H|rewrite Hi; exact Hf|eassumption|exact V]|]. cbn beta. intros s21 k21 A21 V21 _. ev.
    eapply evs_then; [eapply (stop_ok _ S); [exact He|eassumption|same]|]. cbn beta. intros s23 k23 A23 V23 _. ev.
    eapply leave; [eassumption|same|exact I].
  Qed.
  Lemma item_export_function S (a : bool) f l l1 l2 l' : reads (TKeyword KExport) l l1 -> function_mark a l1 l2 -> Xdecl g a S l2 f l' ->
    Xitem S l (PPDecl (DExport (MENamed (NEDecl (DFunction f))))) l'.
  Proof.
    intros R R1 H s k A V. item. destruct a.
    - pose proof R1 as (l9 & R9 & _). pose proof (reads_as_hd _ _ _ _ R9) as [E _]. ek. eapply evs_async_function; [eassumption|exact R1|]. ev.
      eapply evs_then; [eapply H; [eassumption|exact V|eassumption]|]. cbn beta. intros s21 k21 A21 V21 _. finish V21.
    - pose proof R1 as R1'. cbn [function_mark] in R1'. ek.
      eapply evs_then; [eapply H; [eassumption|exact V|eassumption]|]. cbn beta. intros s21 k21 A21 V21 _. finish V21.
  Qed.
  Lemma item_export_class S c l l1 l2 l' : reads (TKeyword KExport) l l1 -> reads (TKeyword KClass) l1 l2 -> Xclass g true (strict_ true S) l2 c l' ->
    Xitem S l (PPDecl (DExport (MENamed (NEDecl (DClass c))))) l'.
  Proof.
    intros R R1 H s k A V. item. eapply evs_then; [eapply H; [eassumption|subst S; reflexivity|eassumption]|]. cbn beta. intros s21 k21 A21 V21 _. finish V21.
  Qed.
  Lemma item_export_names S ns l l1 l2 l3 l' : reads (TKeyword KExport) l l1 -> reads (TPunct POpenBrace) l1 l2 -> ExportNames false S l2 ns l3 ->
    hd_tok l3 <> TIdent \/ hd_text l3 <> str "from" -> stops l3 l' -> Xitem S l (PPDecl (DExport (MENamed (NESpecifier ns None)))) l'.
  Proof.
    intros R R1 H Hn He s k A V. destruct (export_names_loop _ _ _ _ _ H) as (l9 & d & R9 & Hd & IH). item.
    eapply evs_then; [eapply (IH _ _ [] false); [eassumption|exact V]|]. cbn beta iota. rewrite (Hd eq_refl). cbn [orb]. intros s21 k21 A21 V21 _. ev.
    replace (text_eqb (hd_text l3) (str "from")) with false.
    2:{ symmetry. destruct Hn as [Hn|Hn]; [eapply at_word; [eassumption|exact Hn|cbn; tauto]|]. apply not_true_iff_false. rewrite text_eqb_eq. exact Hn. }
    ev. eapply evs_then; [eapply (stop_ok _ S); [exact He|eassumption|same]|]. cbn beta. intros s23 k23 A23 V23 _. ev.
    eapply leave; [eassumption|same|exact I].
  Qed.
  Lemma item_export_from S ns w l l1 l2 l3 l4 l5 l' : reads (TKeyword KExport) l l1 -> reads (TPunct POpenBrace) l1 l2 -> ExportNames true S l2 ns l3 ->
    reads_as TIdent (str "from") l3 l4 -> reads_as TString w l4 l5 -> stops l5 l' ->
    Xitem S l (PPDecl (DExport (MENamed (NESpecifier ns (Some (LString w)))))) l'.
  Proof.
    intros R R1 H Rf Rw He s k A V. destruct (export_names_loop _ _ _ _ _ H) as (l9 & d & R9 & Hd & IH). item.
    eapply evs_then; [eapply (IH _ _ [] false); [eassumption|exact V]|]. cbn beta iota. cbn [orb]. intros s21 k21 A21 V21 _. ev.
    rewrite (says _ _ _ _ Rf). ev.
    eapply evs_then; [eapply (specifier_ok S); [exact Rw|eassumption|same]|]. cbn beta. intros s22 k22 A22 V22 _. ev.
    eapply evs_then; [eapply (stop_ok _ S); [exact He|eassumption|same]|]. cbn beta. intros s23 k23 A23 V23 _. ev.
    eapply leave; [eassumption|same|exact I].
  Qed.
End Modules.
