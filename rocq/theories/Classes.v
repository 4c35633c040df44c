(** Classes. *)
From Verif Require Export Funcs.
Local Open Scope nat_scope.
Local Open Scope list_scope.

Lemma key_is k w : key_named k (str w) = is_key k w.
Proof. destruct k as [[]|[]|[]]; reflexivity. Qed.

Section Classes.
  Variable g : cfg.
  Hypothesis Hres : g_strict_reserved g (TKeyword KThis) = false /\ g_strict_reserved g (TKeyword KFunction) = false
    /\ g_strict_reserved g (TKeyword KClass) = false.
  (** Which tokens the scanner calls literals. *)
  Hypothesis Hlit : (forall p, g_literal g (TPunct p) = false) /\ g_literal g TString = true /\ g_literal g TNumeric = true
    /\ g_literal g TNull = true /\ forall b, g_literal g (TBoolean b) = true.
  Notation evs := (evs g).
  Notation At := (At g).
  Notation leaves := (leaves g).
  Notation T := (fun _ : ctx => True).
  Notation X19 := (@X19 g None).
  Notation Xkey := (Xkey g).
  Notation Xmethod := (Xmethod g).

  Lemma evs_qualified t s (Q : bool -> state -> Prop) : qualified_prop_key t = true \/ (exists p, t = TPunct p) ->
    Q (qualified_prop_key t) s -> evs (qualified_prop_name t) s Q.
  Proof.
    destruct Hlit as (L1 & L2 & L3 & L4 & L5). intros Ht H. unfold qualified_prop_name. ev.
    destruct t as [| | | | | | |x|p|x|]; try (destruct Ht as [Ht|(? & Ht)]; discriminate); cbn in *; rewrite ?L1, ?L2, ?L3, ?L4, ?L5; cbn; try exact H.
  Qed.

  (** ** What precedes the parameters *)
  Lemma key_not_star l : qualified_prop_key (hd_tok l) = true -> is_punct PAsterisk (hd_tok l) = false.
  Proof. destruct (hd_tok l) as [| | | | | | |[]|[]|[]|]; try discriminate; reflexivity. Qed.
  Lemma no_async s l k B (p q : P B) Q : At s l k -> calm l -> evs q s Q -> evs (ifM at_contextual "async" then p else q) s Q.
  Proof. intros A C H. apply evs_bind. eapply evs_at_contextual; [exact A|]. not_async A. exact H. Qed.
  Lemma static_calm st l l0 : static_mark st l l0 -> calm l0 -> calm l.
  Proof. destruct st; intros H C; [destruct H as (t & _ & R); calm1|cbn in H; subst; exact C]. Qed.
  Lemma head_end s l k h (Q : el_head -> state -> Prop) : At s l k -> calm l -> Q h s ->
    evs (nl <- Do ONewLine ;;
      (if is_ident (eh_tok h) && negb nl then
       ifM at_contextual "async" then
         t2 <- look_tok ;;
         if negb (is_punct PColon t2) && negb (is_punct POpenParen t2) && negb (is_punct PAsterisk t2)
         then fail_look [":"; "("; "*"]%string else Ret tt
       else Ret tt
     else Ret tt) ;;
    Ret h) s Q.
  Proof.
    intros A C H. apply evs_bind. eapply evs_newline; [exact A|]. intros b _. apply evs_bind.
    destruct (is_ident (eh_tok h) && negb b); [eapply no_async; [exact A|exact C|]|]; apply evs_ret; apply evs_ret; exact H.
  Qed.
  Lemma head_key S st k c l l0 l1 : calm l -> calm l1 -> static_mark st l l0 -> Xkey S l0 (k, c) l1 ->
    (st = false -> is_key k "static" = true -> hd_tok l1 = TPunct POpenParen) ->
    forall s k0, At s l k0 -> view_of k0 = S -> evs class_el_head s (leaves k0 l1 T (mkHead (hd_tok l0) (Some k) c st false)).
  Proof.
    intros C C1 Hs (K1 & K2 & K3 & K4 & K5) Hk s k0 A V. cbn [fst snd] in *. unfold class_el_head. apply evs_bind. eapply evs_look_tok; [exact A|].
    apply evs_bind. eapply no_async; [exact A|exact C|]. apply evs_ret. apply evs_bind. eapply evs_at_punct; [exact A|].
    destruct st.
    - destruct Hs as (t & Hn & R). pose proof (reads_as_hd _ _ _ _ R) as [E1 E2]. 
      rewrite key_not_star by (rewrite E1; apply name_qualified; exact Hn). ev.
      eapply evs_then; [eapply (key_name g S t (str "static") l l0 Hn R); [eassumption|exact V]|]. cbn beta. intros s9 k9 A9 V9 _. cbn [fst]. ev.
      apply evs_qualified; [left; exact K5|]. rewrite K5. change (is_key (PKExpr (EIdent (str "static"))) "static") with true. cbn [andb orb]. cbn iota.
      rewrite (key_not_star _ K5). ev. eapply evs_then; [eapply K1; [eassumption|congruence]|]. cbn beta. intros s10 k10 A10 V10 _. ev.
      apply evs_bind_inv; eapply head_end; [exact A10|exact C1|]. rewrite K2. eapply leave; [eassumption|congruence|exact I].
    - cbn in Hs. subst l0. rewrite (key_not_star _ K5). ev.
      eapply evs_then; [eapply K1; [eassumption|exact V]|]. cbn beta. intros s9 k9 A9 V9 _. ev.
      unfold qualified_prop_name. ev.
      replace (is_key k "static" && (is_ident (hd_tok l1) || is_any_keyword (hd_tok l1) || g_literal g (hd_tok l1) || is_punct POpenBracket (hd_tok l1) || is_punct PAsterisk (hd_tok l1)))
        with false.
      2:{ destruct (is_key k "static") eqn:E; [|reflexivity]. rewrite (Hk eq_refl eq_refl). cbn. rewrite (proj1 Hlit). reflexivity. }
      ev. apply evs_bind_inv; eapply head_end; [exact A9|exact C1|]. rewrite K2. eapply leave; [eassumption|congruence|exact I].
  Qed.
  Lemma head_star S st l l0 l1 : static_mark st l l0 -> reads (TPunct PAsterisk) l0 l1 ->
    forall s k0, At s l k0 -> view_of k0 = S -> evs class_el_head s (leaves k0 l1 T (mkHead (TPunct PAsterisk) None false st false)).
  Proof.
    intros Hs R0 s k0 A V. assert (C : calm l) by (eapply static_calm; [exact Hs|calm1]). unfold class_el_head. apply evs_bind. eapply evs_look_tok; [exact A|].
    apply evs_bind. eapply no_async; [exact A|exact C|]. apply evs_ret. apply evs_bind. eapply evs_at_punct; [exact A|].
    destruct st.
    - destruct Hs as (t & Hn & R). pose proof (reads_as_hd _ _ _ _ R) as [E1 E2]. 
      rewrite key_not_star by (rewrite E1; apply name_qualified; exact Hn). ev.
      eapply evs_then; [eapply (key_name g S t (str "static") l l0 Hn R); [eassumption|exact V]|]. cbn beta. intros s9 k9 A9 V9 _. cbn [fst]. ev.
      apply evs_qualified; [right; eexists; reflexivity|]. change (is_key (PKExpr (EIdent (str "static"))) "static") with true. rewrite orb_true_r; cbn [andb]. cbn iota.
      ev. eapply evs_newline; [eassumption|]. intros nl _. ev. eapply leave; [eassumption|congruence|exact I].
    - cbn in Hs. subst l0. ek. eapply leave; [eassumption|reflexivity|exact I].
  Qed.

  (** ** Members *)
  Definition Xmember (S : view) l p l' : Prop := forall s k hc, At s l k -> view_of k = S -> (is_ctor p = true -> hc = false) ->
    evs (Call (CClassEl hc)) s (leaves k l' T (hc || is_ctor p, p)).
  (** The last checks. *)
  Definition el_end (has_ctor st : bool) (m : el_mid) : P (bool * Property) :=
    match em_kind m with
    | None => fail_look ["method identifier"]%string
    | Some kind0 =>
      let kind := match kind0 with KInit => KMethod | k => k end in
      match em_key m with
      | None => fail_look []
      | Some key =>
          '(has_ctor', kind') <-
            (if em_computed m then Ret (has_ctor, kind)
             else if st && is_key key "prototype" then fail_look []
             else if negb st && is_key key "constructor" then
               match kind, em_method m with
               | KMethod, true =>
                   if match em_value m with Some v => is_generator v | None => false end
                   then fail_look ["[non-generator function declaration]"]%string
                   else if has_ctor then fail_look []
                   else Ret (true, KCtor)
               | _, _ => fail_look ["[constructor declaration]"]%string
               end
             else Ret (has_ctor, kind)) ;;
          match em_value m with
          | None => fail_look []
          | Some v => Ret (has_ctor', mkProperty key v kind' (em_method m) (em_computed m) false)
          end
      end
    end.
  Lemma member_split S h m p l l1 l' st : eh_static h = st ->
    (forall s k0, At s l k0 -> view_of k0 = S -> evs class_el_head s (leaves k0 l1 T h)) ->
    (forall s k0, At s l1 k0 -> view_of k0 = S -> evs (class_el_mid h) s (leaves k0 l' T m)) ->
    (forall hc s (Q : bool * Property -> state -> Prop), (is_ctor p = true -> hc = false) -> Q (hc || is_ctor p, p) s -> evs (el_end hc st m) s Q) ->
    Xmember S l p l'.
  Proof.
    intros <- H1 H2 H3 s k hc A V Hc. apply evs_call. cbn [body]. unfold class_el. apply evs_bind.
    eapply evs_then; [eapply H1; [exact A|exact V]|]. cbn beta. intros s1 k1 A1 V1 _. apply evs_bind.
    eapply evs_then; [eapply H2; [exact A1|congruence]|]. cbn beta. intros s2 k2 A2 V2 _.
    apply H3; [exact Hc|]. eapply leave; [exact A2|congruence|exact I].
  Qed.
  Lemma end_ok st k c v kind (me : bool) hc s (Q : bool * Property -> state -> Prop) : member_name st c k -> kind <> KCtor ->
    Q (hc, mkProperty k v (match kind with KInit => KMethod | x => x end) me c false) s ->
    evs (el_end hc st (mkMid (Some kind) (Some k) (Some v) me c)) s Q.
  Proof.
    intros Hm Hk H. unfold el_end. cbn [em_kind em_key em_value em_method em_computed]. cbn zeta. apply evs_bind.
    destruct c; [apply evs_ret; cbn beta iota; apply evs_ret; exact H|]. specialize (Hm eq_refl).
    destruct st; rewrite key_is in Hm; rewrite Hm; cbn [negb andb]; cbn iota; apply evs_ret; cbn beta iota; apply evs_ret; exact H.
  Qed.

  Lemma mid_method S h k c v l l' : eh_key h = Some k -> eh_computed h = c -> eh_async h = false -> is_punct PAsterisk (eh_tok h) = false ->
    hd_tok l = TPunct POpenParen -> Xmethod CPropertyMethod S l v l' ->
    forall s k0, At s l k0 -> view_of k0 = S -> evs (class_el_mid h) s (leaves k0 l' T (mkMid (Some KInit) (Some k) (Some v) true c)).
  Proof.
    intros E1 <- E2 E3 E4 H s k0 A V. unfold class_el_mid. ev. apply evs_qualified; [right; eexists; reflexivity|].
    rewrite E1. cbn [qualified_prop_key punct_eqb]. cbn zeta. rewrite !andb_false_r. cbn iota. rewrite E2, ?E3; cbn [andb].
    replace (if is_ident (eh_tok h) then Ret (mkMid None (Some k) None false (eh_computed h)) else Ret (mkMid None (Some k) None false (eh_computed h)))
      with (Ret (mkMid None (Some k) None false (eh_computed h)) : P el_mid) by (destruct (is_ident (eh_tok h)); reflexivity).
    ev. cbn [em_kind em_key]. ev. eapply evs_then; [eapply H; [eassumption|exact V]|]. cbn beta. intros s9 k9 A9 V9 _. ev.
    eapply leave; [eassumption|exact V9|exact I].
  Qed.
  (** An asynchronous method. *)
  Lemma head_async S k c l l0 l1 : reads_as TIdent (str "async") l l0 -> Xkey S l0 (k, c) l1 -> hd_tok l1 = TPunct POpenParen ->
    forall s k0, At s l k0 -> view_of k0 = S -> evs class_el_head s (leaves k0 l1 T (mkHead TIdent (Some k) c false true)).
  Proof.
    intros R (K1 & K2 & K3 & K4 & K5) E s k0 A V. cbn [fst snd] in *. pose proof (reads_as_hd _ _ _ _ R) as [E1 E2]. unfold class_el_head. ev.
    rewrite E2. change (text_eqb (str "async") (str "async")) with true. ek. rewrite (key_not_star _ K5). ev.
    eapply evs_then; [eapply K1; [eassumption|exact V]|]. cbn beta. intros s9 k9 A9 V9 _. ev.
    apply evs_qualified; [right; eexists; reflexivity|]. cbn [qualified_prop_key punct_eqb orb]. rewrite !andb_false_r. ek.
    rewrite K2. eapply evs_newline; [exact A9|]. intros b _. destruct b; cbn [negb]; ek; [|not_async A9; ek].
    all: eapply leave; [eassumption|congruence|exact I].
  Qed.
  Lemma mid_async S h k c v l l' : eh_key h = Some k -> eh_computed h = c -> eh_async h = true -> eh_tok h = TIdent ->
    hd_tok l = TPunct POpenParen -> Xmethod CAsyncPropertyMethod S l v l' ->
    forall s k0, At s l k0 -> view_of k0 = S -> evs (class_el_mid h) s (leaves k0 l' T (mkMid (Some KInit) (Some k) (Some v) true c)).
  Proof.
    intros E1 <- E2 E3 E4 H s k0 A V. unfold class_el_mid. ev. apply evs_qualified; [right; eexists; reflexivity|].
    rewrite E1, E2, E3. cbn [qualified_prop_key punct_eqb]. cbn zeta. rewrite !andb_false_r. ek.
    cbn [em_kind em_key]. ek. eapply evs_then; [eapply H; [eassumption|exact V]|]. cbn beta. intros s9 k9 A9 V9 _. ev.
    eapply leave; [eassumption|exact V9|exact I].
  Qed.
  Lemma member_async S k c ps b l l1 l2 l' : reads_as TIdent (str "async") l l1 -> Xkey S l1 (k, c) l2 -> member_name false c k -> hd_tok l2 = TPunct POpenParen ->
    Xmethod CAsyncPropertyMethod S l2 (method ps b false true) l' -> Xmember S l (mkProperty k (method ps b false true) KMethod true c false) l'.
  Proof.
    intros R K Hm E H. eapply (member_split S); [reflexivity|eapply head_async; [exact R|exact K|exact E]| |].
    - eapply mid_async; [reflexivity|reflexivity|reflexivity|reflexivity|exact E|exact H].
    - intros hc s Q _ HQ. apply end_ok; [exact Hm|discriminate|]. cbn in HQ. rewrite orb_false_r in HQ. exact HQ.
  Qed.
  Lemma mid_get S h k c v l l1 l' : v_yield S = false -> eh_key h = Some (PKExpr (EIdent (str "get"))) -> eh_tok h = TIdent ->
    Xkey S l (k, c) l1 -> Xmethod CGetterMethod S l1 v l' ->
    forall s k0, At s l k0 -> view_of k0 = S -> evs (class_el_mid h) s (leaves k0 l' T (mkMid (Some KGet) (Some k) (Some v) false c)).
  Proof.
    intros Hy E1 E2 (K1 & K2 & K3 & K4 & K5) H s k0 A V. cbn [fst snd] in *. unfold class_el_mid. ev. apply evs_qualified; [left; exact K5|].
    rewrite E1, E2, K5. cbn zeta. change (is_key (PKExpr (EIdent (str "get"))) "get") with true. cbn [andb]. ev_bool. cbn iota. ev.
    assert (Vy : view_of (set_allow_yield false k0) = S).
    { subst S. unfold view_of. cbn. rewrite <- Hy. reflexivity. }
    eapply evs_then; [eapply K1; [eassumption|exact Vy]|]. cbn beta. intros s9 k9 A9 V9 _. ev.
    eapply evs_then; [eapply H; [eassumption|congruence]|]. cbn beta. intros s10 k10 A10 V10 _. ev. cbn [em_kind em_key]. ev.
    rewrite K2. eapply leave; [eassumption|congruence|exact I].
  Qed.
  Lemma mid_set S h k c v l l1 l' : eh_key h = Some (PKExpr (EIdent (str "set"))) -> eh_tok h = TIdent ->
    Xkey S l (k, c) l1 -> Xmethod CSetterMethod S l1 v l' ->
    forall s k0, At s l k0 -> view_of k0 = S -> evs (class_el_mid h) s (leaves k0 l' T (mkMid (Some KSet) (Some k) (Some v) false c)).
  Proof.
    intros E1 E2 (K1 & K2 & K3 & K4 & K5) H s k0 A V. cbn [fst snd] in *. unfold class_el_mid. ev. apply evs_qualified; [left; exact K5|].
    rewrite E1, E2, K5. cbn zeta. change (is_key (PKExpr (EIdent (str "set"))) "get") with false.
    change (is_key (PKExpr (EIdent (str "set"))) "set") with true. cbn [andb]. ev_bool. cbn iota. ev.
    eapply evs_then; [eapply K1; [eassumption|exact V]|]. cbn beta. intros s9 k9 A9 V9 _. ev.
    eapply evs_then; [eapply H; [eassumption|congruence]|]. cbn beta. intros s10 k10 A10 V10 _. ev. cbn [em_kind em_key]. ev.
    rewrite K2. eapply leave; [eassumption|congruence|exact I].
  Qed.
  Lemma mid_generator S h k c v l l1 l' : eh_tok h = TPunct PAsterisk ->
    Xkey S l (k, c) l1 -> Xmethod CGeneratorMethod S l1 v l' ->
    forall s k0, At s l k0 -> view_of k0 = S -> evs (class_el_mid h) s (leaves k0 l' T (mkMid (Some KInit) (Some k) (Some v) true c)).
  Proof.
    intros E2 (K1 & K2 & K3 & K4 & K5) H s k0 A V. cbn [fst snd] in *. unfold class_el_mid. ev. apply evs_qualified; [left; exact K5|].
    rewrite E2, K5. cbn zeta. ev_bool. cbn iota. ev.
    eapply evs_then; [eapply K1; [eassumption|exact V]|]. cbn beta. intros s9 k9 A9 V9 _. ev.
    eapply evs_then; [eapply H; [eassumption|congruence]|]. cbn beta. intros s10 k10 A10 V10 _. ev. cbn [em_kind em_key]. ev.
    rewrite K2. eapply leave; [eassumption|congruence|exact I].
  Qed.

  Lemma member_method S st k c ps b l l0 l1 l' : calm l -> static_mark st l l0 -> Xkey S l0 (k, c) l1 -> member_name st c k -> hd_tok l1 = TPunct POpenParen ->
    Xmethod CPropertyMethod S l1 (method ps b false false) l' -> Xmember S l (mkProperty k (method ps b false false) KMethod true c false) l'.
  Proof.
    intros C Hs K Hm E H. assert (C1 : calm l1) by calm1. eapply (member_split S); [reflexivity|eapply head_key; [exact C|exact C1|exact Hs|exact K|intros _ _; exact E]| |].
    - eapply mid_method; [reflexivity|reflexivity|reflexivity|cbn; apply key_not_star; apply K|exact E|exact H].
    - intros hc s Q _ HQ. apply end_ok; [exact Hm|discriminate|]. cbn in HQ. rewrite orb_false_r in HQ. exact HQ.
  Qed.
  Lemma member_ctor S ps b l l1 l' : calm l -> Xkey S l (PKExpr (EIdent (str "constructor")), false) l1 -> hd_tok l1 = TPunct POpenParen ->
    Xmethod CPropertyMethod S l1 (method ps b false false) l' ->
    Xmember S l (mkProperty (PKExpr (EIdent (str "constructor"))) (method ps b false false) KCtor true false false) l'.
  Proof.
    intros C K E H. assert (C1 : calm l1) by calm1. eapply (member_split S); [reflexivity|eapply (head_key S false); [exact C|exact C1|reflexivity|exact K|intros _ _; exact E]| |].
    - eapply mid_method; [reflexivity|reflexivity|reflexivity|cbn; apply key_not_star; apply K|exact E|exact H].
    - intros hc s Q Hc HQ. rewrite (Hc eq_refl) in *. unfold el_end. cbn [em_kind em_key em_value em_method em_computed eh_static eh_computed]. cbn zeta.
      change (is_key (PKExpr (EIdent (str "constructor"))) "constructor") with true. cbn [negb andb is_generator method]. cbn iota.
      ev. exact HQ.
  Qed.
  Lemma member_generator S st k c ps b l l0 l1 l2 l' : static_mark st l l0 -> reads (TPunct PAsterisk) l0 l1 -> Xkey S l1 (k, c) l2 -> member_name st c k ->
    Xmethod CGeneratorMethod S l2 (method ps b true false) l' -> Xmember S l (mkProperty k (method ps b true false) KMethod true c false) l'.
  Proof.
    intros Hs R K Hm H. eapply (member_split S); [reflexivity|eapply head_star; [exact Hs|exact R]| |].
    - eapply mid_generator; [reflexivity|exact K|exact H].
    - intros hc s Q _ HQ. apply end_ok; [exact Hm|discriminate|]. cbn in HQ. rewrite orb_false_r in HQ. exact HQ.
  Qed.
  Lemma member_get S st k c b l l0 l1 l2 l' : v_yield S = false -> static_mark st l l0 -> reads_as TIdent (str "get") l0 l1 -> calm l1 -> Xkey S l1 (k, c) l2 -> member_name st c k ->
    Xmethod CGetterMethod S l2 (method [] b false false) l' -> Xmember S l (mkProperty k (method [] b false false) KGet false c false) l'.
  Proof.
    intros Hy Hs R C K Hm H. pose proof (reads_as_hd _ _ _ _ R) as [E1 _].
    eapply (member_split S); [reflexivity|eapply head_key; [eapply static_calm; [exact Hs|calm1]|exact C|exact Hs|eapply (key_name g S TIdent); [left; reflexivity|exact R]|intros _; discriminate]| |].
    - eapply mid_get; [exact Hy|reflexivity|exact E1|exact K|exact H].
    - intros hc s Q _ HQ. apply end_ok; [exact Hm|discriminate|]. cbn in HQ. rewrite orb_false_r in HQ. exact HQ.
  Qed.
  Lemma member_set S st k c x b l l0 l1 l2 l' : static_mark st l l0 -> reads_as TIdent (str "set") l0 l1 -> calm l1 -> Xkey S l1 (k, c) l2 -> member_name st c k ->
    Xmethod CSetterMethod S l2 (method [FAPat x] b false false) l' -> Xmember S l (mkProperty k (method [FAPat x] b false false) KSet false c false) l'.
  Proof.
    intros Hs R C K Hm H. pose proof (reads_as_hd _ _ _ _ R) as [E1 _].
    eapply (member_split S); [reflexivity|eapply head_key; [eapply static_calm; [exact Hs|calm1]|exact C|exact Hs|eapply (key_name g S TIdent); [left; reflexivity|exact R]|intros _; discriminate]| |].
    - eapply mid_set; [reflexivity|exact E1|exact K|exact H].
    - intros hc s Q _ HQ. apply end_ok; [exact Hm|discriminate|]. cbn in HQ. rewrite orb_false_r in HQ. exact HQ.
  Qed.

  (** ** Bodies *)
  Inductive Members (S : view) : list tk -> list Property -> list tk -> Prop :=
  | members_none l l' : reads (TPunct PCloseBrace) l l' -> Members S l [] l'
  | members_semicolon ms l l1 l' : reads (TPunct PSemiColon) l l1 -> Members S l1 ms l' -> Members S l ms l'
  | members_more p ps l l1 l' : qualified_prop_key (hd_tok l) || is_punct PAsterisk (hd_tok l) = true -> Xmember S l p l1 -> Members S l1 ps l' ->
      Members S l (p :: ps) l'.
  Definition class_loop : bool * list Property -> P ((bool * list Property) + list Property) := fun '(has_ctor, ret) =>
    ifM at_punct PCloseBrace then Ret (inr ret)
    else ifM at_punct PSemiColon then next ;; Ret (inl (has_ctor, ret))
    else
      '(ctor, el) <- Call (CClassEl has_ctor) ;;
      Ret (inl (ctor, ret ++ [el])).
  Lemma members_loop S l ms l' : Members S l ms l' -> exists l9, reads (TPunct PCloseBrace) l9 l' /\
    forall s k (hc : bool) acc, At s l k -> view_of k = S -> (if hc then 1 else 0) + length (filter is_ctor ms) <= 1 ->
      evs (Loop (hc, acc) class_loop) s (leaves k l9 T (acc ++ ms)).
  Proof.
    induction 1 as [l l' R|ms l l1 l' R H (l9 & R9 & IH)|p ps l l1 l' Hh Hp H (l9 & R9 & IH)].
    - exists l. split; [exact R|]. intros s k hc acc A V _. apply evs_loop. unfold class_loop at 1. ev. rewrite app_nil_r.
      eapply leave; [eassumption|reflexivity|exact I].
    - exists l9. split; [exact R9|]. intros s k hc acc A V Hc. apply evs_loop. unfold class_loop at 1. ev.
      eapply IH; [eassumption|exact V|exact Hc].
    - exists l9. split; [exact R9|]. intros s k hc acc A V Hc. apply evs_loop. unfold class_loop at 1. ev.
      replace (is_punct PCloseBrace (hd_tok l)) with false by (destruct (hd_tok l) as [| | | | | | |[]|[]|[]|]; try discriminate Hh; reflexivity). ev.
      replace (is_punct PSemiColon (hd_tok l)) with false by (destruct (hd_tok l) as [| | | | | | |[]|[]|[]|]; try discriminate Hh; reflexivity). ev.
      eapply evs_then; [apply Hp; [exact A|exact V|]|].
      { intros E. cbn [filter] in Hc. rewrite E in Hc. destruct hc; [cbn in Hc; lia|reflexivity]. }
      cbn beta iota. intros s1 k1 A1 V1 _. ev. eapply evs_mono; [|eapply IH; [eassumption|congruence|]].
      + intros y s4 (-> & k4 & A4 & V4 & _). rewrite <- app_assoc. eapply leave; [eassumption|congruence|exact I].
      + cbn [filter] in Hc. destruct (is_ctor p), hc; cbn in *; lia.
  Qed.
  Lemma body_class S ms l l1 l' : reads (TPunct POpenBrace) l l1 -> Members S l1 ms l' -> length (filter is_ctor ms) <= 1 ->
    forall s k, At s l k -> view_of k = S -> evs (Call CClassBody) s (leaves k l' T ms).
  Proof.
    intros R H Hc s k A V. destruct (members_loop _ _ _ _ H) as (l9 & R9 & IH). apply evs_call. cbn [body]. unfold class_body. ev.
    eapply evs_then; [eapply (IH _ _ false []); [eassumption|exact V|exact Hc]|]. cbn beta. intros s4 k4 A4 V4 _. ev.
    eapply leave; [eassumption|exact V4|exact I].
  Qed.

  (** ** Whole classes, in a strict scope *)
  Definition Xclass (opt : bool) (S : view) l c l' : Prop := forall s k l0, At s l0 k -> strict_ true (view_of k) = S -> reads (TKeyword KClass) l0 l ->
    evs (Call (CClassDecl opt)) s (leaves k l' T c).
  Lemma class_anon S ms l l1 l' : reads (TPunct POpenBrace) l l1 -> Members S l1 ms l' -> length (filter is_ctor ms) <= 1 ->
    Xclass true S l (mkClass None None ms) l'.
  Proof.
    intros R H Hc s k l0 A V R0. apply evs_call. cbn [body]. unfold class_decl. ev.
    rewrite (at_extends _ _ _ _ _ ltac:(eassumption) (reads_hd _ _ _ R)). ev.
    rewrite (at_extends _ _ _ _ _ ltac:(eassumption) (reads_hd _ _ _ R)). ev.
    eapply evs_then; [eapply (body_class S); [exact R|exact H|exact Hc|eassumption|exact V]|]. cbn beta. intros s4 k4 A4 V4 _. ev.
    eapply leave; [eassumption|subst S; vws|exact I].
  Qed.
  Definition Xheritage (S : view) l (h : option Expr) l' : Prop :=
    h = None /\ l' = l /\ hd_tok l = TPunct POpenBrace
    \/ exists t e l1, h = Some e /\ reads_as t (str "extends") l l1 /\ primary_head (hd_tok l1) = true /\ X18 g S l1 e l' /\ hd_tok l' = TPunct POpenBrace.
  Lemma class_named opt S w h ms l l1 l2 l3 l' : reads_as TIdent w l l1 -> w <> str "await" -> w <> str "extends" -> Xheritage S l1 h l2 ->
    reads (TPunct POpenBrace) l2 l3 -> Members S l3 ms l' -> length (filter is_ctor ms) <= 1 -> Xclass opt S l (mkClass (Some w) h ms) l'.
  Proof.
    intros R Hw Hx Hh R2 H Hc s k l0 A V R0. pose proof (reads_as_hd _ _ _ _ R) as [E1 E2]. apply evs_call. cbn [body]. unfold class_decl. ev.
    replace (text_eqb (hd_text l) (str "extends")) with false by (symmetry; apply not_true_iff_false; rewrite text_eqb_eq, E2; exact Hx). ev.
    rewrite andb_false_r. ev. eapply evs_then; [eapply at_name; [exact R|exact Hw|eassumption]|]. cbn beta. intros s9 k9 A9 V9 _. ev.
    eapply (evs_then g _ _ _ k9 l2 T h).
    - destruct Hh as [(-> & -> & E)|(t & e & l4 & -> & R4 & Hp & He & E)].
      + rewrite (at_extends _ _ _ _ _ A9 E). ev. eapply leave; [eassumption|reflexivity|exact I].
      + pose proof (reads_as_hd _ _ _ _ R4) as [E3 E4]. rewrite E4, (proj2 (text_eqb_eq _ _) eq_refl). ev.
        eapply evs_then; [eapply (evs_iso _ _ _ _ _ _ l2 T e); [eassumption|]; intros s10 A10|].
        * apply evs_call. cbn [body]. unfold left_hand_side_expr. ev.
          rewrite (not_super _ Hp). cbn [andb]. cbn iota. apply evs_bind_inv. eapply He; [exact A10|subst S; vws|]. intros s11 k11 A11 V11.
          apply evs_loop. unfold chain18. ev. eapply leave; [eassumption|rewrite V11; subst S; symmetry; vws|exact I].
        * cbn beta. intros s11 k11 A11 V11 _. ev. eapply leave; [eassumption|exact V11|exact I].
    - cbn beta. intros s10 k10 A10 V10 _. ev.
      eapply evs_then; [eapply (body_class S); [exact R2|exact H|exact Hc|eassumption|subst S; vws]|]. cbn beta. intros s11 k11 A11 V11 _. ev.
      eapply leave; [eassumption|subst S; vws|exact I].
  Qed.
  Lemma p_class S c l l1 l' : reads (TKeyword KClass) l l1 -> Xclass true (strict_ true S) l1 c l' -> X19 S l (EClass c) l'.
  Proof.
    intros R H s k A V. destruct Hres as (_ & _ & H1). unfold prim. ev. apply evs_call. cbn [body]. unfold primary_expression. ev.
    rewrite H1, !andb_false_r. ev.
    eapply evs_then; [eapply H; [eassumption|subst S; reflexivity|eassumption]|]. cbn beta. intros s9 k9 A9 V9 _. ev.
    eapply leave; [eassumption|exact V9|apply flags_none; reflexivity].
  Qed.
End Classes.
