(** Functions, methods and object literals. *)
From Verif Require Export Pats.
Local Open Scope nat_scope.
Local Open Scope list_scope.

Lemma if_both (a b : bool) A (x y : A) : (a = true -> b = false) -> (if a && b then x else y) = y.
Proof. destruct a; [|reflexivity]. intros H. rewrite H; reflexivity. Qed.

Section Funcs.
  Variable g : cfg.
  Hypothesis Hres : g_strict_reserved g (TKeyword KThis) = false /\ g_strict_reserved g (TKeyword KFunction) = false
    /\ g_strict_reserved g (TKeyword KClass) = false.
  Notation evs := (evs g).
  Notation At := (At g).
  Notation leaves := (leaves g).
  Notation T := (fun _ : ctx => True).
  Notation X19 := (@X19 g None).
  Notation X1 := (@X1 g None).
  Notation Xbody := (Xbody g).
  Notation Xparams := (Xparams g).
  Notation Xkey := (Xkey g).
  Let odd := g_restricted g TIdent || g_strict_reserved g TIdent.

  (** ** Functions *)
  Definition Xfunc (a : bool) (S : view) l f l' : Prop := forall s k l0, At s l0 k -> view_of k = S -> function_mark a l0 l ->
    evs (Call CFunctionExpr) s (leaves k l' T (EFunction f)).
  Definition Xdecl (a : bool) (S : view) l f l' : Prop := forall o s k l0, At s l0 k -> view_of k = S -> function_mark a l0 l ->
    evs (Call (CFunctionDecl o)) s (leaves k l' T f).
  Definition inner (gen a : bool) (S : view) : view := yield_ (negb gen) (await_ a S).
  Ltac marked a R0 A :=
    destruct a; [let l9 := fresh "l" in let R9 := fresh "R" in
      destruct R0 as (l9 & R9 & _ & R0); ev; rewrite (proj2 (reads_as_hd _ _ _ _ R9)); change (text_eqb (str "async") (str "async")) with true; ev
    |cbn [function_mark] in R0; ev; not_async A; ev].
  Lemma func_anon S (gen a : bool) ps b l l1 l2 l3 l' : (if gen then reads (TPunct PAsterisk) l l1 else l1 = l) -> reads (TPunct POpenParen) l1 l2 ->
    Xparams (inner gen a S) l2 ps l3 -> Xbody (inner gen a S) l3 b l' -> Xfunc a S l (mkFunction None ps b gen a) l'.
  Proof.
    intros Rg R (sm & f & Hf & Hp) Hb s k l0 A V R0. apply evs_call. cbn [body]. unfold function_expr.
    marked a R0 A; (destruct gen; [|subst l1]; ek).
    all: eapply evs_then; [eapply Hp; [eassumption|subst S; reflexivity|eassumption]|]; cbn beta iota zeta; intros s9 k9 A9 V9 _; ev;
      (eapply evs_then; [eapply Hb; [eassumption|subst S; exact V9]|]); cbn beta; intros s10 k10 A10 V10 _; ev;
      cbn [fp_found_restricted fp_simple fp_params]; (rewrite if_both; [ev; eapply leave; [eassumption|subst S; vws|exact I]|]);
      intros E; apply Hf; subst S; vws.
  Qed.
  Lemma at_name v w l l' s k : reads_as TIdent w l l' -> w <> str "await" -> At s l k ->
    evs (Call (CVarIdent v)) s (leaves k l' T w).
  Proof. intros R H A. eapply var_ident_ok; eauto. Qed.
  Lemma func_named S (gen a : bool) w ps b l l1 l2 l3 l4 l' : (if gen then reads (TPunct PAsterisk) l l1 else l1 = l) ->
    binding_name S w -> (v_strict S = true -> odd = false) -> reads_as TIdent w l1 l2 -> reads (TPunct POpenParen) l2 l3 ->
    Xparams (inner gen a S) l3 ps l4 -> Xbody (inner gen a S) l4 b l' -> Xfunc a S l (mkFunction (Some w) ps b gen a) l'.
  Proof.
    intros Rg Hw Ho Rw R (sm & f & Hf & Hp) Hb s k l0 A V R0. apply evs_call. cbn [body]. unfold function_expr.
    marked a R0 A; subst odd;
    (destruct gen; [|subst l1]); ek; apply evs_call; cbn [body]; unfold fn_name; ev; rewrite ?andb_false_r; cbn iota.
    all: eapply evs_then; [eapply at_name; [exact Rw|apply Hw|eassumption]|]; cbn beta iota; intros s9 k9 A9 V9 _; ev;
      (rewrite (andb_comm (g_restricted g TIdent)), if_both;
       [|intros E; assert (Es : v_strict S = true) by (subst S; vws); apply Ho in Es; apply orb_false_iff in Es; apply Es]); ev;
      (eapply evs_then; [eapply Hp; [eassumption|subst S; exact V9|eassumption]|]); cbn beta iota zeta; intros s10 k10 A10 V10 _; ev;
      (eapply evs_then; [eapply Hb; [eassumption|subst S; rewrite V10; exact V9]|]); cbn beta; intros s11 k11 A11 V11 _; ev;
      cbn [fp_found_restricted fp_simple fp_params]; (rewrite if_both; [ev; eapply leave; [eassumption|subst S; vws|exact I]|intros E]);
      (assert (Es : v_strict S = true) by (subst S; vws)); pose proof (Ho Es) as E1; apply orb_false_iff in E1; destruct E1 as [E1 E2];
      rewrite E1, E2; apply Hf; exact Es.
  Qed.
  Lemma decl_named S (gen a : bool) w ps b l l1 l2 l3 l4 l' : (a = true -> gen = false) -> (if gen then reads (TPunct PAsterisk) l l1 else l1 = l) ->
    binding_name S w -> (v_strict S = true -> odd = false) -> reads_as TIdent w l1 l2 -> reads (TPunct POpenParen) l2 l3 ->
    Xparams (inner gen a S) l3 ps l4 -> Xbody (inner gen a S) l4 b l' -> Xdecl a S l (mkFunction (Some w) ps b gen a) l'.
  Proof.
    unfold inner. intros Hga Rg Hw Ho Rw R (sm & f & Hf & Hp) Hb o s k l0 A V R0. apply evs_call. cbn [body]. unfold function_decl.
    marked a R0 A; subst odd; (destruct gen; [try (discriminate (Hga eq_refl))|subst l1]); ek; rewrite ?orb_true_r; ev.
    all: eapply evs_then; [eapply at_name; [exact Rw|apply Hw|eassumption]|]; cbn beta iota; intros s9 k9 A9 V9 _; ev;
      (assert (Hst : c_strict k9 = v_strict S) by (subst S; exact (f_equal v_strict V9)));
      (match goal with |- evs ?p _ _ => assert (exists o, evs p s9 (leaves k9 l2 (fun k' => k' = k9) (Some w, o)) /\ (v_strict S = true -> o = None)) as (fr & E0 & Hfr) end;
       [destruct (c_strict k9) eqn:E;
        [assert (Es : v_strict S = true) by congruence; pose proof (Ho Es) as E1; apply orb_false_iff in E1; destruct E1 as [E1 E2];
         exists None; rewrite E1; split; [ev; eapply leave; eauto|reflexivity]
        |destruct (_ || _); eexists; (split; [ev; eapply leave; eauto|]); congruence]|]);
      (eapply evs_then; [exact E0|]); cbn beta iota; intros s10 k10 A10 V10 ->; clear V10; ev;
      (eapply evs_then; [eapply Hp; [eassumption|subst S; vws|eassumption]|]); cbn beta iota zeta; intros s11 k11 A11 V11 _; ev;
      (eapply evs_then; [eapply Hb; [eassumption|subst S; vws]|]); cbn beta; intros s12 k12 A12 V12 _; ev;
      (assert (Es : c_strict k12 = v_strict S) by (subst S; vws));
      (replace (match fr with Some i => if c_strict k12 then Fail (FExpected i []) else Ret tt | None => Ret tt end) with (Ret tt : P unit)
        by (destruct fr; [|reflexivity]; destruct (c_strict k12); [discriminate Hfr; congruence|reflexivity])); ev;
      cbn [fp_strict]; rewrite ?andb_false_r; ev; (eapply leave; [eassumption|subst S; vws|exact I]).
  Qed.
  (** After [export default] a declaration needs no name. *)
  Lemma decl_anon S (gen a : bool) ps b l l1 l2 l3 l' : (a = true -> gen = false) -> (if gen then reads (TPunct PAsterisk) l l1 else l1 = l) -> reads (TPunct POpenParen) l1 l2 ->
    Xparams (inner gen a S) l2 ps l3 -> Xbody (inner gen a S) l3 b l' -> forall s k l0, At s l0 k -> view_of k = S -> function_mark a l0 l ->
    evs (Call (CFunctionDecl true)) s (leaves k l' T (mkFunction None ps b gen a)).
  Proof.
    unfold inner. intros Hga Rg R (sm & f & Hf & Hp) Hb s k l0 A V R0. apply evs_call. cbn [body]. unfold function_decl.
    marked a R0 A; (destruct gen; [try (discriminate (Hga eq_refl))|subst l1]); ek.
    all: eapply evs_then; [eapply Hp; [eassumption|subst S; vws|eassumption]|]; cbn beta iota zeta; intros s11 k11 A11 V11 _; ev;
      (eapply evs_then; [eapply Hb; [eassumption|subst S; vws]|]); cbn beta; intros s12 k12 A12 V12 _; ev;
      cbn [fp_strict]; rewrite ?andb_false_r; ev; (eapply leave; [eassumption|subst S; vws|exact I]).
  Qed.
  Lemma p_function S f l l1 l' : reads (TKeyword KFunction) l l1 -> Xfunc false S l1 f l' -> X19 S l (EFunction f) l'.
  Proof.
    intros R H s k A V. destruct Hres as (_ & H1 & _). unfold prim. ev. apply evs_call. cbn [body]. unfold primary_expression. ev.
    rewrite H1, !andb_false_r. ev.
    eapply evs_then; [eapply H; [eassumption|exact V|eassumption]|]. cbn beta. intros s9 k9 A9 V9 _.
    eapply leave; [eassumption|exact V9|apply flags_none; reflexivity].
  Qed.
  Lemma async_function S f l l1 l' : function_mark true l l1 -> Xfunc true (in_ true S) l1 f l' -> @Xup g None CUpdateExpr 16 S l (EFunction f) l'.
  Proof. intros M H. eapply async_16; [exact M|]. intros s k A V. eapply H; eauto. Qed.

  (** ** Methods *)
  Definition Xmethod (c : call PropertyValue) (S : view) l v l' : Prop := forall s k, At s l k -> view_of k = S -> evs (Call c) s (leaves k l' T v).
  Lemma body_method S sm f l b l' : (v_strict S = true -> f = false) -> Xbody S l b l' -> forall s k, At s l k -> view_of k = S ->
    evs (Call (CMethodBody sm f)) s (leaves k l' T b).
  Proof.
    intros Hf H s k A V. apply evs_call. cbn [body]. unfold method_body. ev.
    eapply evs_then; [eapply evs_iso; [eassumption|]; intros s9 A9; apply H; [exact A9|exact V]|]. cbn beta. intros s9 k9 A9 V9 _. ev.
    rewrite if_both by (intros E; apply Hf; subst S; vws).
    ev. eapply leave; [eassumption|subst S; vws|exact I].
  Qed.
  Lemma body_property S sm f l b l' : (v_strict S = true -> f = false) -> Xbody S l b l' -> forall s k, At s l k -> view_of k = S ->
    evs (Call (CPropertyMethodBody sm f)) s (leaves k l' T b).
  Proof.
    intros Hf H s k A V. apply evs_call. cbn [body]. unfold property_method_body. ev.
    eapply evs_then; [eapply evs_inh; [eassumption|]; intros s9 A9; apply H; [exact A9|exact V]|]. cbn beta. intros s9 k9 A9 V9 _. ev.
    rewrite if_both by (intros E; apply Hf; subst S; vws).
    ev. eapply leave; [eassumption|subst S; vws|exact I].
  Qed.
  Lemma m_plain S ps b l l1 l2 l' : reads (TPunct POpenParen) l l1 -> Xparams (yield_ false S) l1 ps l2 -> Xbody (yield_ false S) l2 b l' ->
    Xmethod CPropertyMethod S l (method ps b false false) l'.
  Proof.
    intros R (sm & f & Hf & Hp) Hb s k A V. apply evs_call. cbn [body]. unfold property_method. ev.
    eapply evs_then; [eapply Hp; [eassumption|subst S; reflexivity|eassumption]|]. cbn beta iota zeta. intros s9 k9 A9 V9 _. ev.
    eapply evs_then; [eapply body_property; [|exact Hb|eassumption|subst S; exact V9]; exact Hf|]. cbn beta. intros s10 k10 A10 V10 _. ev.
    eapply leave; [eassumption|subst S; vws|exact I].
  Qed.
  Lemma m_async S ps b l l1 l2 l' : reads (TPunct POpenParen) l l1 -> Xparams (await_ true (yield_ false S)) l1 ps l2 -> Xbody (await_ true (yield_ false S)) l2 b l' ->
    Xmethod CAsyncPropertyMethod S l (method ps b false true) l'.
  Proof.
    intros R (sm & f & Hf & Hp) Hb s k A V. apply evs_call. cbn [body]. unfold async_property_method. ev.
    eapply evs_then; [eapply Hp; [eassumption|subst S; reflexivity|eassumption]|]. cbn beta iota zeta. intros s9 k9 A9 V9 _. ev.
    eapply evs_then; [eapply body_property; [|exact Hb|eassumption|subst S; exact V9]; exact Hf|]. cbn beta. intros s10 k10 A10 V10 _. ev.
    eapply leave; [eassumption|subst S; vws|exact I].
  Qed.
  Lemma m_generator S ps b l l1 l2 l' : reads (TPunct POpenParen) l l1 -> Xparams (yield_ true S) l1 ps l2 -> Xbody (yield_ false S) l2 b l' ->
    Xmethod CGeneratorMethod S l (method ps b true false) l'.
  Proof.
    intros R (sm & f & Hf & Hp) Hb s k A V. apply evs_call. cbn [body]. unfold generator_method. ev.
    eapply evs_then; [eapply Hp; [eassumption|subst S; reflexivity|eassumption]|]. cbn beta iota zeta. intros s9 k9 A9 V9 _. ev.
    eapply evs_then; [eapply body_method; [|exact Hb|eassumption|subst S; vws]; exact Hf|]. cbn beta. intros s10 k10 A10 V10 _. ev.
    eapply leave; [eassumption|subst S; vws|exact I].
  Qed.
  Lemma m_get S b l l1 l2 l' : reads (TPunct POpenParen) l l1 -> reads (TPunct PCloseParen) l1 l2 -> Xbody S l2 b l' ->
    Xmethod CGetterMethod S l (method [] b false false) l'.
  Proof.
    intros R R2 Hb s k A V. apply evs_call. cbn [body]. unfold getter_method. ev.
    destruct (params_ok g S l1 [] l2 (params_none _ _ _ _ R2)) as (sm & f & Hf & Hp).
    eapply evs_then; [eapply Hp; [eassumption|subst S; reflexivity|eassumption]|]. cbn beta iota zeta. intros s9 k9 A9 V9 _. cbn [fp_params length Nat.ltb Nat.leb]. ev.
    eapply evs_then; [eapply body_method; [|exact Hb|eassumption|subst S; vws]; exact Hf|]. cbn beta. intros s10 k10 A10 V10 _. ev.
    eapply leave; [eassumption|subst S; vws|exact I].
  Qed.
  Lemma m_set S x b l l1 l2 l3 l' : reads (TPunct POpenParen) l l1 -> pat_head (hd_tok l1) = true -> Xpatd g (yield_ true S) l1 x l2 -> reads (TPunct PCloseParen) l2 l3 ->
    is_rest (FAPat x) = false -> Xbody S l3 b l' -> Xmethod CSetterMethod S l (method [FAPat x] b false false) l'.
  Proof.
    intros R Hh Hx R2 Hr Hb s k A V. apply evs_call. cbn [body]. unfold setter_method. ev.
    assert (Hp : Xparams (yield_ true S) l1 [FAPat x] l3).
    { apply params_ok. eapply params_last; [apply pat_no_punct; [exact Hh|reflexivity]| |apply param; [exact Hh|exact Hx]|exact R2].
      destruct (hd_tok l1); try discriminate; reflexivity. }
    destruct Hp as (sm & f & Hf & Hp).
    eapply evs_then; [eapply Hp; [eassumption|subst S; reflexivity|eassumption]|]. cbn beta iota zeta. intros s9 k9 A9 V9 _. cbn [fp_params]. ev. rewrite Hr. ev.
    eapply evs_then; [eapply body_property; [|exact Hb|eassumption|subst S; vws]; exact Hf|]. cbn beta. intros s10 k10 A10 V10 _. ev.
    eapply leave; [eassumption|subst S; vws|exact I].
  Qed.

  (** ** Properties *)
  Definition prop_prog (hp : bool) : P (bool * ObjectProperty) :=
    ifM at_punct PSpread then
      s <- Call CSpreadElement ;; Ret (hp, OPSpread s)
    else
      '(found_proto, prop) <- Call (CObjProp hp) ;;
      Ret (hp || found_proto, prop).
  Definition Xprop (S : view) l p l' : Prop := forall s k hp, At s l k -> view_of k = S -> prop_end (hd_tok l') ->
    evs (prop_prog hp) s (leaves k l' T (hp, p)).
  Lemma prop_spread S e l l1 l' : reads (TPunct PSpread) l l1 -> X1 S l1 e l' -> Xprop S l (OPSpread (ESpread e)) l'.
  Proof.
    intros R H s k hp A V He. unfold prop_prog. ev.
    eapply evs_then; [eapply (spread g S); [exact R|exact H|exact A|exact V|apply prop_end_follow; exact He]|]. cbn beta.
    intros s9 k9 A9 V9 _. ev. eapply leave; [eassumption|exact V9|exact I].
  Qed.
  (** What a key leads to when the next token is a colon or a parenthesis. *)
  Lemma prop_key S k c l l1 s k0 hp v l' F : calm l -> Xkey S l (k, c) l1 -> At s l k0 -> view_of k0 = S ->
    hd_tok l1 = TPunct PColon \/ hd_tok l1 = TPunct POpenParen ->
    (forall st sp s1 k1, At s1 l1 k1 -> view_of k1 = S -> c_assign_target k1 = c_assign_target k0 /\ c_binding_element k1 = c_binding_element k0 ->
      evs (obj_prop_plain st sp hp k false c) s1 (leaves k0 l' F (hp, v))) ->
    evs (prop_prog hp) s (leaves k0 l' F (hp, v)).
  Proof.
    intros Hc (K1 & K2 & K3 & K4 & K5) A V He H. cbn [fst snd] in *. unfold prop_prog. ev.
    replace (is_punct PSpread (hd_tok l)) with false by (destruct (hd_tok l) as [| | | | | | |[]|[]|[]|]; try discriminate; reflexivity).
    apply evs_bind. eapply (evs_then g _ _ _ k0 l' F (hp, v)).
    2:{ intros s9 k9 A9 V9 F9. cbn beta iota. ev. rewrite orb_diag. eapply leave; [eassumption|exact V9|exact F9]. }
    apply evs_call. cbn [body]. unfold obj_prop. ev. unfold obj_prop_head.
    assert (Q : forall w (b : bool), is_punct PAsterisk (hd_tok l) = false /\ (text_eqb w (str "get") && qualified_prop_key (hd_tok l1) && b = false)
      /\ (text_eqb w (str "set") && qualified_prop_key (hd_tok l1) && b = false)).
    { intros w b. split; [destruct (hd_tok l) as [| | | | | | |[]|[]|[]|]; try discriminate; reflexivity|].
      destruct He as [-> | ->]; cbn; rewrite !andb_false_r; auto. }
    assert (D : hd_tok l = TIdent \/ is_ident (hd_tok l) = false) by (destruct (hd_tok l); auto).
    destruct D as [E|E].
    - destruct (K3 E) as [R0 E0]. ek. not_async A. rewrite K2 in *. rewrite E in *.
      destruct He as [He|He]; ek; rewrite !andb_false_r; cbn [andb]; rewrite <- E0; (eapply H; [eassumption|exact V|split; reflexivity]).
    - destruct (Q (hd_text l) true) as (Q1 & Q2 & Q3).
      eapply (evs_then g _ _ _ k0 l1 (fun k' => c_assign_target k' = c_assign_target k0 /\ c_binding_element k' = c_binding_element k0) (Some k, false, c)).
      2:{ intros s9 k9 A9 V9 F9. cbn beta iota. ev. rewrite Q2, Q3, Q1. cbn [andb]. eapply H; [eassumption|congruence|exact F9]. }
      rewrite Ei. destruct (hd_tok l) eqn:E1; try discriminate; ek;
        try (rewrite Q1; ek); (eapply evs_then; [eapply K1; [exact A|exact V]|]); cbn beta; intros s9 k9 A9 V9 F9; ev; rewrite K2;
        (eapply leave; [eassumption|exact V9|exact F9]).
  Qed.
  Lemma prop_value S k c e l l1 l2 l' : calm l -> Xkey S l (k, c) l1 -> reads (TPunct PColon) l1 l2 -> X1 S l2 e l' -> assigns e = false ->
    Xprop S l (OPProperty (mkProperty k (PVExpr e) KInit false c false)) l'.
  Proof.
    intros Hc K R H Ha s k0 hp A V He. eapply prop_key; [exact Hc|exact K|exact A|exact V|left; eapply reads_hd; exact R|].
    intros st sp s1 k1 A1 V1 _. destruct K as (_ & _ & _ & K4 & _). cbn [fst snd] in K4. unfold obj_prop_plain. ev.
    replace (negb c && is_proto_ k) with false by (destruct c; [reflexivity|rewrite K4; reflexivity]).
    ev. eapply evs_then; [eapply H; [eassumption|exact V1|apply prop_end_follow; exact He|congruence]|]. cbn beta. intros s9 k9 A9 V9 _. ev.
    eapply leave; [eassumption|subst S; vws|exact I].
  Qed.
  Lemma prop_method S k c v l l1 l' : calm l -> Xkey S l (k, c) l1 -> hd_tok l1 = TPunct POpenParen -> Xmethod CPropertyMethod S l1 v l' ->
    Xprop S l (OPProperty (mkProperty k v KInit true c false)) l'.
  Proof.
    intros Hc K R H s k0 hp A V He. eapply prop_key; [exact Hc|exact K|exact A|exact V|right; exact R|].
    intros st sp s1 k1 A1 V1 _. unfold obj_prop_plain. ev.
    eapply evs_then; [eapply H; [eassumption|exact V1]|]. cbn beta. intros s9 k9 A9 V9 _. ev.
    eapply leave; [eassumption|subst S; vws|exact I].
  Qed.
  Lemma prop_short S w l l' : reads_as TIdent w l l' -> w <> str "async" -> prop_end (hd_tok l') ->
    Xprop S l (OPProperty (mkProperty (PKExpr (EIdent w)) PVNone KInit false false true)) l'.
  Proof.
    intros R Hw E s k0 hp A V _. pose proof (reads_as_hd _ _ _ _ R) as [E1 E2]. unfold prop_prog. ev.
    apply evs_call. cbn [body]. unfold obj_prop. ev. unfold obj_prop_head. ek. not_async A.
    destruct E as [E|E]; ek; rewrite !andb_false_r; cbn [andb]; unfold obj_prop_plain; ev; rewrite orb_diag, E2; (eapply leave; [eassumption|reflexivity|exact I]).
  Qed.
  Lemma prop_async S k c v l l1 l2 l' : reads_as TIdent (str "async") l l1 -> Xkey S l1 (k, c) l2 -> hd_tok l2 = TPunct POpenParen ->
    Xmethod CAsyncPropertyMethod S l2 v l' -> Xprop S l (OPProperty (mkProperty k v KInit true c false)) l'.
  Proof.
    intros R (K1 & K2 & K3 & K4 & K5) Ho H s k0 hp A V _. cbn [fst snd] in *. pose proof (reads_as_hd _ _ _ _ R) as [E1 E2]. unfold prop_prog. ev.
    apply evs_call. cbn [body]. unfold obj_prop. ev. unfold obj_prop_head. ek. rewrite E2 in *.
    change (text_eqb (str "async") (str "async")) with true. ek.
    eapply evs_then; [eapply K1; [eassumption|exact V]|]. cbn beta. intros s9 k9 A9 V9 _. ev.
    change (text_eqb (str "async") (str "get")) with false. change (text_eqb (str "async") (str "set")) with false. cbn [andb]. cbn iota.
    unfold obj_prop_plain. ev.
    eapply evs_then; [eapply H; [eassumption|congruence]|]. cbn beta. intros s10 k10 A10 V10 _. ev. rewrite orb_diag, K2.
    eapply leave; [eassumption|congruence|exact I].
  Qed.
  Lemma prop_generator S k c v l l1 l2 l' : reads (TPunct PAsterisk) l l1 -> Xkey S l1 (k, c) l2 -> Xmethod CGeneratorMethod S l2 v l' ->
    Xprop S l (OPProperty (mkProperty k v KInit true c false)) l'.
  Proof.
    intros R (K1 & K2 & K3 & K4 & K5) H s k0 hp A V _. cbn [fst snd] in *. unfold prop_prog. ev.
    apply evs_call. cbn [body]. unfold obj_prop. ev. unfold obj_prop_head. ek. rewrite K5.
    rewrite (at_word _ _ _ _ "get" A), (at_word _ _ _ _ "set" A) by (rewrite ?(reads_hd _ _ _ R); first [discriminate|cbn; tauto]). cbn [andb]. ev.
    eapply evs_then; [eapply K1; [eassumption|exact V]|]. cbn beta. intros s9 k9 A9 V9 _. ev.
    eapply evs_then; [eapply H; [eassumption|congruence]|]. cbn beta. intros s10 k10 A10 V10 _. ev. rewrite orb_diag, K2.
    eapply leave; [eassumption|congruence|exact I].
  Qed.
  Lemma prop_get S k c v l l1 l2 l' : reads_as TIdent (str "get") l l1 -> Xkey S l1 (k, c) l2 -> Xmethod CGetterMethod S l2 v l' ->
    Xprop S l (OPProperty (mkProperty k v KGet false c false)) l'.
  Proof.
    intros R (K1 & K2 & K3 & K4 & K5) H s k0 hp A V _. cbn [fst snd] in *. pose proof (reads_as_hd _ _ _ _ R) as [E1 E2].
    unfold prop_prog. ev. apply evs_call. cbn [body]. unfold obj_prop. ev. unfold obj_prop_head. ek.
    not_async A. ev. rewrite K5, E2. change (text_eqb (str "get") (str "get")) with true. cbn [andb negb]. ev.
    eapply evs_then; [eapply K1; [eassumption|exact V]|]. cbn beta. intros s9 k9 A9 V9 _. ev.
    eapply evs_then; [eapply H; [eassumption|congruence]|]. cbn beta. intros s10 k10 A10 V10 _. ev. rewrite orb_diag, K2.
    eapply leave; [eassumption|congruence|exact I].
  Qed.
  Lemma prop_set S k c v l l1 l2 l' : reads_as TIdent (str "set") l l1 -> Xkey S l1 (k, c) l2 -> Xmethod CSetterMethod S l2 v l' ->
    Xprop S l (OPProperty (mkProperty k v KSet false c false)) l'.
  Proof.
    intros R (K1 & K2 & K3 & K4 & K5) H s k0 hp A V _. cbn [fst snd] in *. pose proof (reads_as_hd _ _ _ _ R) as [E1 E2].
    unfold prop_prog. ev. apply evs_call. cbn [body]. unfold obj_prop. ev. unfold obj_prop_head. ek.
    not_async A. ev. rewrite K5, E2. change (text_eqb (str "set") (str "get")) with false.
    change (text_eqb (str "set") (str "set")) with true. cbn [andb negb]. ev.
    eapply evs_then; [eapply K1; [eassumption|exact V]|]. cbn beta. intros s9 k9 A9 V9 _. ev.
    eapply evs_then; [eapply H; [eassumption|congruence]|]. cbn beta. intros s10 k10 A10 V10 _. ev. rewrite orb_diag, K2.
    eapply leave; [eassumption|congruence|exact I].
  Qed.
  Inductive Props (S : view) : list tk -> list ObjectProperty -> list tk -> Prop :=
  | props_none l l' : reads (TPunct PCloseBrace) l l' -> Props S l [] l'
  | props_last p l l1 l' : is_punct PCloseBrace (hd_tok l) = false -> Xprop S l p l1 -> reads (TPunct PCloseBrace) l1 l' -> Props S l [p] l'
  | props_more p ps l l1 l2 l' : is_punct PCloseBrace (hd_tok l) = false -> Xprop S l p l1 -> comma l1 l2 -> Props S l2 ps l' -> Props S l (p :: ps) l'.
  Definition obj_loop : bool * list ObjectProperty -> P ((bool * list ObjectProperty) + list ObjectProperty) := fun '(has_proto, props) =>
    ifM at_punct PCloseBrace then Ret (inr props)
    else
      '(has_proto', prop) <- prop_prog has_proto ;;
      ifM at_punct PCloseBrace then Ret (inl (has_proto', props ++ [prop]))
      else Do OExpectComma ;; Ret (inl (has_proto', props ++ [prop])).
  Lemma props_loop S l es l' : Props S l es l' -> exists l9, reads (TPunct PCloseBrace) l9 l' /\
    forall s k hp acc, At s l k -> view_of k = S -> evs (Loop (hp, acc) obj_loop) s (leaves k l9 T (acc ++ es)).
  Proof.
    induction 1 as [l l' R|p l l1 l' Hh He R|p ps l l1 l2 l' Hh He R Hs (l9 & R9 & IH)].
    - exists l. split; [exact R|]. intros s k hp acc A V. apply evs_loop. unfold obj_loop at 1. ev. rewrite app_nil_r.
      eapply leave; [eassumption|reflexivity|exact I].
    - exists l1. split; [exact R|]. intros s k hp acc A V. apply evs_loop. unfold obj_loop at 1. ev. rewrite Hh. apply evs_bind.
      eapply evs_then; [apply He; [exact A|exact V|right; eapply reads_hd; eassumption]|]. cbn beta iota. intros s1 k1 A1 V1 _. ek.
      apply evs_loop. unfold obj_loop at 1. ev. eapply leave; [eassumption|congruence|exact I].
    - exists l9. split; [exact R9|]. intros s k hp acc A V. apply evs_loop. unfold obj_loop at 1. ev. rewrite Hh. apply evs_bind.
      eapply evs_then; [apply He; [exact A|exact V|left; eapply reads_hd; eassumption]|]. cbn beta iota. intros s1 k1 A1 V1 _. ek.
      eapply evs_mono; [|eapply IH; [eassumption|congruence]].
      intros y s4 (-> & k4 & A4 & V4 & _). rewrite <- app_assoc. eapply leave; [eassumption|congruence|exact I].
  Qed.
  Lemma object_ok S ps l l1 l' : reads (TPunct POpenBrace) l l1 -> Props S l1 ps l' -> forall s k, At s l k -> view_of k = S ->
    evs (Call CObjInit) s (leaves k l' T (EObject ps)).
  Proof.
    intros R H s k A V. destruct (props_loop _ _ _ _ H) as (l9 & R9 & IH).
    apply evs_call. cbn [body]. unfold obj_init. ev.
    eapply evs_then; [eapply (IH _ _ false []); [eassumption|exact V]|]. cbn beta. intros s4 k4 A4 V4 _. ev.
    eapply (leave _ _ _ _ _ _ T); [eassumption|exact V4|exact I].
  Qed.
  Lemma p_object S ps l l1 l' : reads (TPunct POpenBrace) l l1 -> Props S l1 ps l' -> X19 S l (EObject ps) l'.
  Proof.
    intros R H s k A V. unfold prim. ev.
    apply evs_call. cbn [body]. unfold primary_expression. ev.
    eapply evs_mono; [|eapply (evs_inh _ _ _ _ _ _ _ T (EObject ps)); [exact A|]; intros s1 A1].
    { intros a s2 (-> & k2 & A2 & V2 & _). eapply leave; [eassumption|exact V2|apply flags_none; reflexivity]. }
    eapply (object_ok S); eauto.
  Qed.

  (** ** Object patterns, read as literals *)
  Notation kept := (@kept).
  Definition Xkprop (b : bool) (S : view) l p l' : Prop := is_punct PCloseBrace (hd_tok l) = false /\
    forall s k hp, At s l k -> view_of k = S -> prop_end (hd_tok l') -> kept b k -> evs (prop_prog hp) s (leaves k l' (kept b) (hp, p)).
  Lemma kprop_rest b S e l l1 l' : reads (TPunct PSpread) l l1 -> Xkeep g b S l1 e l' -> Xkprop b S l (OPSpread (ESpread e)) l'.
  Proof.
    intros R H. split; [rewrite (reads_hd _ _ _ R); reflexivity|]. intros s k hp A V He K. unfold prop_prog. ev.
    eapply evs_then; [eapply (keep_spread g b S); [exact R|exact H|exact A|exact V|apply prop_end_follow; exact He|exact K]|]. cbn beta.
    intros s9 k9 A9 V9 F9. ev. eapply leave; [eassumption|exact V9|exact F9].
  Qed.
  Lemma kprop_short b S w l l' : reads_as TIdent w l l' -> w <> str "async" ->
    Xkprop b S l (OPProperty (mkProperty (PKExpr (EIdent w)) PVNone KInit false false true)) l'.
  Proof.
    intros R Hw. pose proof (reads_as_hd _ _ _ _ R) as [E1 E2]. split; [rewrite E1; reflexivity|]. intros s k0 hp A V E K. unfold prop_prog. ev.
    apply evs_call. cbn [body]. unfold obj_prop. ev. unfold obj_prop_head. ek. not_async A.
    destruct E as [E|E]; ek; rewrite !andb_false_r; cbn [andb]; unfold obj_prop_plain; ev; rewrite orb_diag, E2; (eapply leave; [eassumption|reflexivity|exact K]).
  Qed.
  Lemma kprop_short_default b S w e l l1 l2 l' : reads_as TIdent w l l1 -> w <> str "async" -> reads (TPunct PAssign) l1 l2 -> X1 S l2 e l' ->
    Xkprop b S l (OPProperty (mkProperty (PKExpr (EIdent w)) (PVExpr e) KInit false false true)) l'.
  Proof.
    intros R Hw R2 H. pose proof (reads_as_hd _ _ _ _ R) as [E1 E2]. split; [rewrite E1; reflexivity|]. intros s k0 hp A V E K. unfold prop_prog. ev.
    apply evs_call. cbn [body]. unfold obj_prop. ev. unfold obj_prop_head. ek. not_async A.
    ek. rewrite !andb_false_r. cbn [andb]. unfold obj_prop_plain. ek.
    unfold inherit_cover. eapply evs_isolate; [eassumption|]. intros s9 A9. ev.
    eapply evs_then; [apply H; [exact A9|exact V|apply prop_end_follow; exact E|reflexivity]|]. cbn beta. intros s10 k10 A10 V10 _.
    unfold set_isolate_cover. ev. rewrite orb_diag, E2. eapply leave; [eassumption|subst S; vws|].
    destruct K as [K1 K2]. split; [exact K1|exact K2].
  Qed.
  Lemma kprop_value b S k c e l l1 l2 l' : calm l -> Xkey S l (k, c) l1 -> reads (TPunct PColon) l1 l2 -> Xkeep g b S l2 e l' ->
    Xkprop b S l (OPProperty (mkProperty k (PVExpr e) KInit false c false)) l'.
  Proof.
    intros Hc K R [_ H]. split.
    { destruct K as (_ & _ & _ & _ & K5). destruct (hd_tok l) as [| | | | | | |[]|[]|[]|]; try discriminate; reflexivity. }
    intros s k0 hp A V He Hk. eapply prop_key; [exact Hc|exact K|exact A|exact V|left; eapply reads_hd; exact R|].
    intros st sp s1 k1 A1 V1 [C1 C2]. destruct K as (_ & _ & _ & K4 & _). cbn [fst snd] in K4. unfold obj_prop_plain. ev.
    replace (negb c && is_proto_ k) with false by (destruct c; [reflexivity|rewrite K4; reflexivity]).
    assert (K1 : kept b k1) by (destruct Hk as [Ka Kb]; split; [rewrite C1; exact Ka|intros Eb; rewrite C2; auto]).
    ev. eapply evs_then; [eapply H; [eassumption|exact V1|apply prop_end_follow; exact He|exact K1]|]. cbn beta. intros s9 k9 A9 V9 [F1 F2].
    unfold set_inherit_cover. ev.
    eapply leave; [eassumption|subst S; vws|]. destruct K1 as [Ka Kb]. split; cbn.
    - rewrite F1, Ka. reflexivity.
    - intros Eb. rewrite (F2 Eb), (Kb Eb). reflexivity.
  Qed.
  Inductive Tprops (b : bool) (S : view) : list tk -> list ObjectProperty -> list tk -> Prop :=
  | tprops_none l l' : reads (TPunct PCloseBrace) l l' -> Tprops b S l [] l'
  | tprops_last p l l1 l' : Xkprop b S l p l1 -> reads (TPunct PCloseBrace) l1 l' -> Tprops b S l [p] l'
  | tprops_more p ps l l1 l2 l' : Xkprop b S l p l1 -> comma l1 l2 -> Tprops b S l2 ps l' -> Tprops b S l (p :: ps) l'.
  Lemma tprops_loop b S l es l' : Tprops b S l es l' -> exists l9, reads (TPunct PCloseBrace) l9 l' /\
    forall s k hp acc, At s l k -> view_of k = S -> kept b k -> evs (Loop (hp, acc) obj_loop) s (leaves k l9 (kept b) (acc ++ es)).
  Proof.
    induction 1 as [l l' R|p l l1 l' [Hh He] R|p ps l l1 l2 l' [Hh He] R Hs (l9 & R9 & IH)].
    - exists l. split; [exact R|]. intros s k hp acc A V K. apply evs_loop. unfold obj_loop at 1. ev. rewrite app_nil_r.
      eapply leave; [eassumption|reflexivity|exact K].
    - exists l1. split; [exact R|]. intros s k hp acc A V K. apply evs_loop. unfold obj_loop at 1. ev. rewrite Hh. apply evs_bind.
      eapply evs_then; [apply He; [exact A|exact V|right; eapply reads_hd; eassumption|exact K]|]. cbn beta iota. intros s1 k1 A1 V1 F1. ek.
      apply evs_loop. unfold obj_loop at 1. ev. eapply leave; [eassumption|congruence|exact F1].
    - exists l9. split; [exact R9|]. intros s k hp acc A V K. apply evs_loop. unfold obj_loop at 1. ev. rewrite Hh. apply evs_bind.
      eapply evs_then; [apply He; [exact A|exact V|left; eapply reads_hd; eassumption|exact K]|]. cbn beta iota. intros s1 k1 A1 V1 F1. ek.
      eapply evs_mono; [|eapply IH; [eassumption|congruence|exact F1]].
      intros y s4 (-> & k4 & A4 & V4 & F4). rewrite <- app_assoc. eapply leave; [eassumption|congruence|exact F4].
  Qed.
  Lemma target_object b S ps l l1 l' : reads (TPunct POpenBrace) l l1 -> Tprops b S l1 ps l' -> @Ladder.X19 g (Some b) S l (EObject ps) l'.
  Proof.
    intros R H s k A V. destruct (tprops_loop _ _ _ _ _ H) as (l9 & R9 & IH). unfold prim. ev.
    apply evs_call. cbn [body]. unfold primary_expression. ev.
    eapply evs_inh_e; [exact A|]. intros s1 A1. apply evs_call. cbn [body]. unfold obj_init. ev.
    eapply evs_then; [eapply (IH _ _ false []); [eassumption|exact V|apply kept_opened]|]. cbn beta. intros s4 k4 A4 V4 [F1 F2]. ev.
    eapply leave; [eassumption|exact V4|]. split; cbn; auto.
  Qed.
End Funcs.
