(** C57: nothing of the source is lost, nothing is added, nothing changes its place.

    [words_program p] (Words.v) are the words of a tree from left to right: names, literals,
    operators, keywords, braces and brackets.  [kept] says which words are compared.  It must leave out
    what the tree has no trace of: parentheses, commas, semicolons, and the words [static] and [async].
    [careful tolerant kept src] excludes the places where the parser drops more than that (C47). *)
From Verif Require Import Grammar Derive Derived Sentence Lexer Properties1 Properties2 Properties6 Properties8 Properties9 Properties11 Operators Words Kept Found.
Open Scope string_scope.
Open Scope nat_scope.
Open Scope list_scope.

(** The words of a text. *)
Definition source_words (sc : scanner) (js : text) : list text := map k_text (source_tokens sc js).
(** The scanner gives every token its usual spelling. *)
Definition usual (sc : scanner) (js : text) : Prop :=
  scan_contract js (sc_scan sc js) /\ Forall well_spelled (source_tokens sc js).

(** ** From the source to the tokens *)
Lemma in_source sc js r : In r (sc_scan sc js) -> nc r = true -> In (raw_tk js r) (source_tokens sc js).
Proof.
  intros H N. unfold source_tokens. assert (In r (filter nc (sc_scan sc js))) as I' by (apply filter_In; auto).
  destruct (filter nc (sc_scan sc js)) as [|x l]; [destruct I'|]. change (raw_tk js x :: map (raw_tk js) l) with (map (raw_tk js) (x :: l)).
  apply in_map. exact I'.
Qed.
Lemma usual_plain sc js : usual sc js -> plain_scan sc js.
Proof.
  intros [(W & _ & _) U] r H. rewrite Forall_forall in W. specialize (W _ H). destruct W as (B1 & B2 & B3 & _). split.
  - destruct (boundary_slice js _ _ B1 B2 B3) as (? & w & ? & _ & _ & _ & ->). discriminate.
  - intros p E. assert (nc r = true) as N by (unfold nc; rewrite E; reflexivity).
    rewrite Forall_forall in U. specialize (U _ (in_source _ _ _ H N)). unfold well_spelled, raw_tk, tk_of in U. cbn [k_tok k_text] in U.
    rewrite E in U. rewrite U. destruct p; vm_compute; auto using Bool.diff_true_false; repeat split; discriminate.
Qed.
Lemma eof_ends : forall l u, ends_with_eof l -> forall js x r, map (raw_tk js) (filter nc l) = u ++ x :: r -> k_tok x = TEoF -> r = [].
Proof.
  induction l as [|a l IH]; intros u H js x r E X; [destruct H|].
  destruct l as [|b l].
  - cbn [filter] in E. destruct (nc a); [|destruct u; discriminate]. cbn [map] in E. destruct u as [|y u]; [injection E as _ <-; reflexivity|].
    injection E as _ E. destruct u; discriminate.
  - destruct H as [H1 H2]. cbn [filter] in E. fold (filter nc (b :: l)) in E. change (if nc b then b :: filter nc l else filter nc l) with (filter nc (b :: l)) in E. destruct (nc a).
    + cbn [map] in E. destruct u as [|y u].
      * injection E as E _. subst x. unfold raw_tk, tk_of in X. cbn [k_tok] in X. rewrite X in H1. discriminate.
      * injection E as _ E. eapply IH; eauto.
    + eapply IH; eauto.
Qed.
Lemma nothing_left sc js kept l : usual sc js -> forgets kept -> tail_of (source_tokens sc js) l -> hd_tok l = TEoF -> filter kept (map k_text l) = [].
Proof.
  intros [(_ & _ & C) U] G [u T] H. destruct l as [|x r]; [reflexivity|]. cbn [hd_tok] in H.
  assert (r = []) as ->.
  { unfold source_tokens in T. destruct (filter nc (sc_scan sc js)) as [|y l] eqn:E.
    - destruct u as [|? [|]]; try discriminate. injection T as _ <-. reflexivity.
    - rewrite <- E in T. eapply eof_ends; eauto. }
  rewrite T in U. apply Forall_app in U as [_ U]. inversion U as [|? ? U1 _]; subst. unfold well_spelled in U1. rewrite H in U1.
  cbn [map filter]. rewrite U1. rewrite (G []); [reflexivity|]. cbn. tauto.
Qed.

Section Read.
  Variables (tolerant module : bool) (reserved : token -> bool) (kept : text -> bool) (src : list tk).
  Hypothesis forgotten : forgets kept.
  Hypothesis neat : careful tolerant kept src.
  Hypothesis spelt : Forall well_spelled src.
  Lemma derived_words S n l v l' : d tolerant module reserved S n l v l' -> tail_of src l -> (match n with Imports | PropertyDef | ClassBody | ClassElements | ClassElement | ClassPrefix => false | _ => true end) = true ->
    tail_of src l' /\ filter kept (map k_text l) = filter kept (w_val n v) ++ filter kept (map k_text l').
  Proof.
    intros H T N. destruct (der_kept tolerant module reserved kept src forgotten neat spelt _ _ _ _ _ H H T) as [A B].
    split; [exact A|]. apply B. destruct n; try exact I; discriminate N.
  Qed.
  Lemma read_words l ps l' : parts_read tolerant module reserved l ps l' -> tail_of src l ->
    tail_of src l' /\ filter kept (map k_text l) = filter kept (words_parts ps) ++ filter kept (map k_text l').
  Proof.
    intros [H|[H _]] T.
    - inversion H as [ds l1 b l2 D1 _ _ D2|ds l1 x l2 b l3 D1 _ D2 _ D3]; subst.
      + destruct (derived_words _ _ _ _ _ D1 T eq_refl) as [T1 E1]. destruct (derived_words _ _ _ _ _ D2 T1 eq_refl) as [T2 E2].
        split; [exact T2|]. unfold words_parts. rewrite flat_map_app, filter_app, E1, E2. apply app_assoc.
      + destruct (derived_words _ _ _ _ _ D1 T eq_refl) as [T1 E1]. destruct (derived_words _ _ _ _ _ D2 T1 eq_refl) as [T2 E2].
        destruct (derived_words _ _ _ _ _ D3 T2 eq_refl) as [T3 E3].
        split; [exact T3|]. unfold words_parts. rewrite flat_map_app. cbn [flat_map]. rewrite !filter_app, E1, E2, E3. rewrite <- !app_assoc. reflexivity.
    - destruct (derived_words _ _ _ _ _ H T eq_refl) as [T1 E1]. auto.
  Qed.
End Read.
Lemma tail_refl src : tail_of src src.
Proof. exists []. reflexivity. Qed.
Lemma words_parts_of p : words_program p = words_parts (parts_of p).
Proof. destruct p; reflexivity. Qed.

(** ** The theorems *)
Theorem C57_all_words : forall sc tolerant module js kept p s,
  usual sc js -> forgets kept -> careful tolerant kept (source_tokens sc js) ->
  parse_text sc (mkBuilder tolerant module js) (Ok p) s ->
  filter kept (source_words sc js) = filter kept (words_program p).
Proof.
  intros sc tolerant module js kept p s U G C H. pose proof (usual_plain _ _ U) as P. unfold parse_text, build in H. cbn [b_tolerant b_module b_js] in H.
  destruct (start (make_cfg sc tolerant module js) (sc_scan sc js)) as [[i|e| |] s0] eqn:E; try (destruct H; discriminate).
  destruct H as (_ & n & H). destruct (C40_sentence sc tolerant module js i s0 [] s0 n p s P E (yields_nil _ _) H) as (l' & R & X).
  destruct (read_words tolerant module (sc_strict_reserved sc) kept (source_tokens sc js) G C (proj2 U) _ _ _ (or_introl R) (tail_refl _)) as [T W].
  rewrite (nothing_left _ _ _ _ U G T X), app_nil_r in W. rewrite words_parts_of. exact W.
Qed.
Print Assumptions C57_all_words.

(** The iterator: the words of the parts are the words of the source up to the token reached. *)
Theorem C57_iterator : forall sc tolerant module js kept s0 parts s1,
  usual sc js -> forgets kept -> careful tolerant kept (source_tokens sc js) ->
  fresh_parser sc tolerant module js s0 -> yields (make_cfg sc tolerant module js) s0 parts s1 ->
  exists taken left, source_tokens sc js = taken ++ left
    /\ filter kept (map k_text taken) = filter kept (words_parts parts).
Proof.
  intros sc tolerant module js kept s0 parts s1 U G C (i & E) Y.
  destruct (C40_parts sc tolerant module js i s0 parts s1 (usual_plain _ _ U) E Y) as (l' & R).
  destruct (read_words tolerant module (sc_strict_reserved sc) kept (source_tokens sc js) G C (proj2 U) _ _ _ R (tail_refl _)) as [[u T] W].
  exists u, l'. split; [exact T|]. rewrite T in W at 1. rewrite map_app, filter_app in W. exact (app_inv_tail _ _ _ W).
Qed.
Print Assumptions C57_iterator.

(** A single expression, after any parts. *)
Theorem C57_expression : forall sc tolerant module js kept s0 parts s1 n e s2,
  usual sc js -> forgets kept -> careful tolerant kept (source_tokens sc js) ->
  fresh_parser sc tolerant module js s0 -> yields (make_cfg sc tolerant module js) s0 parts s1 ->
  parse_expression (make_cfg sc tolerant module js) n s1 = (Ok e, s2) ->
  exists before taken left, source_tokens sc js = before ++ taken ++ left
    /\ filter kept (map k_text before) = filter kept (words_parts parts)
    /\ filter kept (map k_text taken) = filter kept (w_expr e).
Proof.
  intros sc tolerant module js kept s0 parts s1 n e s2 U G C (i & E) Y H.
  destruct (C40_expression sc tolerant module js i s0 parts s1 n e s2 (usual_plain _ _ U) E Y H) as (l1 & l' & R & X).
  destruct (read_words tolerant module (sc_strict_reserved sc) kept (source_tokens sc js) G C (proj2 U) _ _ _ R (tail_refl _)) as [T1 W].
  destruct (derived_words tolerant module (sc_strict_reserved sc) kept (source_tokens sc js) G C (proj2 U) _ _ _ _ _ X T1 eq_refl) as [_ V].
  destruct T1 as [u T]. destruct (der_tail _ _ _ _ _ _ _ _ X) as [w Z]. subst l1. exists u, w, l'. split; [exact T|]. split.
  - rewrite T in W at 1. rewrite map_app, filter_app in W. exact (app_inv_tail _ _ _ W).
  - rewrite map_app, filter_app in V. exact (app_inv_tail _ _ _ V).
Qed.
Print Assumptions C57_expression.

(** Texts with the same tree have the same words. *)
Theorem C57_same_tree : forall sc t1 m1 js1 t2 m2 js2 kept p s1 s2,
  usual sc js1 -> usual sc js2 -> forgets kept -> careful t1 kept (source_tokens sc js1) -> careful t2 kept (source_tokens sc js2) ->
  parse_text sc (mkBuilder t1 m1 js1) (Ok p) s1 -> parse_text sc (mkBuilder t2 m2 js2) (Ok p) s2 ->
  filter kept (source_words sc js1) = filter kept (source_words sc js2).
Proof. intros. erewrite C57_all_words by eauto. symmetry. eapply C57_all_words; eauto. Qed.
Print Assumptions C57_same_tree.

(** Every name and every literal of the tree stands in the source, as often, and the other way round. *)
Theorem C57_counts : forall sc tolerant module js p s w,
  usual sc js -> forgets (text_eqb w) -> careful tolerant (text_eqb w) (source_tokens sc js) ->
  parse_text sc (mkBuilder tolerant module js) (Ok p) s ->
  length (filter (text_eqb w) (source_words sc js)) = length (filter (text_eqb w) (words_program p)).
Proof. intros. erewrite C57_all_words by eauto. reflexivity. Qed.
Print Assumptions C57_counts.

(** ** Cases *)
(** A check for [careful]. *)
Fixpoint every_tail (f : list tk -> bool) (l : list tk) : bool := f l && match l with [] => true | _ :: r => every_tail f r end.
Lemma every_tail_ok f l : every_tail f l = true -> forall u r, l = u ++ r -> f r = true.
Proof.
  intros H u. revert l H. induction u as [|x u IH]; intros l H r ->.
  - destruct r; cbn [app every_tail] in H; apply andb_prop in H as [H _]; exact H.
  - cbn [app every_tail] in H. apply andb_prop in H as [_ H]. exact (IH _ H r eq_refl).
Qed.
Definition someb (src : list tk) (f : tk -> bool) : bool := existsb f src.
Definition tail_careful (tolerant : bool) (kept : text -> bool) (l : list tk) : bool :=
  let a := hd_tok l in let b := hd_tok (tl l) in let c := hd_tok (tl (tl l)) in
  negb (kept (kw_text KAwait) && is_keyword KFor a && is_keyword KAwait b)
  && negb (is_keyword KClass a && text_eqb (hd_text (tl l)) (str "extends"))
  && negb (tolerant && is_ident a && is_punct POpenBracket b)
  && (negb (is_keyword KExport a && is_punct PAsterisk b) || text_eqb (hd_text (tl (tl l))) (str "from"))
  && negb ((is_keyword KImport a || is_punct PComma a) && is_punct POpenBrace b && is_punct PCloseBrace c && text_eqb (hd_text (tl (tl (tl l)))) (str "from")).
Definition never_closedb (w : string) (src : list tk) : bool :=
  every_tail (fun l => negb (text_eqb (hd_text l) (str w) && (is_punct PCloseBracket (hd_tok (tl l)) || is_punct PCloseParen (hd_tok (tl l))))) src.
Definition carefulb (tolerant : bool) (kept : text -> bool) (src : list tk) : bool :=
  negb (kept (punct_text PSpread) && someb src (fun x => is_punct PSpread (k_tok x)))
  && negb (someb src (fun x => is_punct PFatArrow (k_tok x))
           && (someb src (fun x => text_eqb (k_text x) (str "async")) || someb src (fun x => is_keyword KYield (k_tok x))))
  && every_tail (tail_careful tolerant kept) src
  && (negb tolerant || every_tail (fun l => negb (is_punct PColon (hd_tok l) && is_keyword KClass (hd_tok (tl l)))) src || never_closedb "static" src)
  && (every_tail (fun l => negb (text_eqb (hd_text l) (str "async") && is_punct POpenBracket (hd_tok (tl l)))) src
      || never_closedb "get" src && never_closedb "set" src).
Lemma some_b src (f : tk -> Prop) (g : tk -> bool) : (forall x, f x -> g x = true) -> some src f -> someb src g = true.
Proof. intros H (x & I' & X). apply existsb_exists. eauto. Qed.
Lemma is_punct_refl p t : t = TPunct p -> is_punct p t = true.
Proof. intros ->. destruct p; reflexivity. Qed.
Lemma is_keyword_refl k t : t = TKeyword k -> is_keyword k t = true.
Proof. intros ->. destruct k; reflexivity. Qed.
Lemma text_eqb_refl' a b : a = b -> text_eqb a b = true.
Proof. intros ->. apply text_eqb_eq. reflexivity. Qed.
Lemma never_closedb_ok w src : never_closedb w src = true -> never_closed w src.
Proof.
  intros H u l E A. pose proof (every_tail_ok _ _ H _ _ E) as Q. cbn beta in Q. apply negb_true_iff in Q. rewrite (text_eqb_refl' _ _ A) in Q.
  cbn [andb] in Q. apply orb_false_iff in Q as [Q1 Q2].
  split; intros B; [rewrite (is_punct_refl _ _ B) in Q1|rewrite (is_punct_refl _ _ B) in Q2]; discriminate.
Qed.
Lemma carefulb_ok tolerant kept src : carefulb tolerant kept src = true -> careful tolerant kept src.
Proof.
  unfold carefulb. intros H. apply andb_prop in H as [H K2]. apply andb_prop in H as [H K1].
  apply andb_prop in H as [H H3]. apply andb_prop in H as [H1 H2]. apply negb_true_iff in H1, H2.
  assert (S1 : forall p, some src (fun x => k_tok x = TPunct p) -> someb src (fun x => is_punct p (k_tok x)) = true)
    by (intros p; apply some_b; intros x; apply is_punct_refl).
  assert (V : forall u l, src = u ++ l -> tail_careful tolerant kept l = true) by (apply every_tail_ok; exact H3).
  unfold tail_careful in V. cbv zeta in V.
  Ltac refute V E := pose proof (V _ _ E) as Q; repeat (apply andb_prop in Q as [Q ?]).
  constructor.
  - intros K S. rewrite K, (S1 _ S) in H1. discriminate.
  - intros K u l E [A B]. refute V E. apply negb_true_iff in Q. rewrite K, (is_keyword_refl _ _ A), (is_keyword_refl _ _ B) in Q. discriminate.
  - intros u l E A B. refute V E. apply negb_true_iff in H5. rewrite (is_keyword_refl _ _ A), (text_eqb_refl' _ _ B) in H5. discriminate.
  - intros A B. rewrite (S1 _ A) in H2. rewrite (some_b _ _ (fun x => text_eqb (k_text x) (str "async")) ltac:(intros x; apply text_eqb_refl') B) in H2. discriminate.
  - intros A B. rewrite (S1 _ A) in H2. rewrite (some_b _ _ (fun x => is_keyword KYield (k_tok x)) ltac:(intros x; apply is_keyword_refl) B), orb_true_r in H2. discriminate.
  - intros u l E [A B]. refute V E. rewrite (is_keyword_refl _ _ A), (is_punct_refl _ _ B) in H0. apply text_eqb_eq. exact H0.
  - intros u l E A [B C] D. refute V E. apply negb_true_iff in H. rewrite (is_punct_refl _ _ B), (is_punct_refl _ _ C), (text_eqb_refl' _ _ D) in H.
    destruct A as [A|A]; [rewrite (is_keyword_refl _ _ A) in H|rewrite (is_punct_refl _ _ A), orb_true_r in H]; discriminate.
  - intros K u l E [A B]. rewrite K in K1. cbn [negb orb] in K1. apply orb_prop in K1 as [K1|K1]; [|apply never_closedb_ok; exact K1]. exfalso.
    pose proof (every_tail_ok _ _ K1 _ _ E) as Q. cbn beta in Q. rewrite (is_punct_refl _ _ A), (is_keyword_refl _ _ B) in Q. discriminate.
  - intros K u l E [A B]. refute V E. apply negb_true_iff in H4. rewrite K, A, (is_punct_refl _ _ B) in H4. discriminate.
  - intros u l E A B. apply orb_prop in K2 as [K2|K2]; [|apply andb_prop in K2 as [? ?]; split; apply never_closedb_ok; assumption]. exfalso.
    pose proof (every_tail_ok _ _ K2 _ _ E) as Q. cbn beta in Q. rewrite (text_eqb_refl' _ _ A), (is_punct_refl _ _ B) in Q. discriminate.
Qed.
Definition all_keywords : list keyword :=
  [KAwait; KBreak; KCase; KCatch; KClass; KConst; KContinue; KDebugger; KDefault; KImport; KDelete; KDo; KElse; KEnum; KExport; KExtends; KFinally; KFor;
   KFunction; KIf; KIn; KImplements; KInstanceOf; KInterface; KLet; KNew; KPackage; KPrivate; KProtected; KPublic; KStatic; KReturn; KSuper; KSwitch;
   KThis; KThrow; KTry; KTypeOf; KVar; KVoid; KWhile; KWith; KYield].
Lemma in_keywords k : In k all_keywords.
Proof. destruct k; cbn; tauto. Qed.
Definition well_spelledb (x : tk) : bool :=
  match k_tok x with
  | TPunct p => text_eqb (k_text x) (punct_text p)
  | TKeyword k => text_eqb (k_text x) (kw_text k)
  | TBoolean b => text_eqb (k_text x) (bool_text b)
  | TIdent => forallb (fun k => negb (text_eqb (k_text x) (kw_text k))) all_keywords
  | TString => match k_text x with c :: _ => N.eqb c 34 || N.eqb c 39 | [] => false end
  | TRegEx => match k_text x with c :: _ => N.eqb c 47 | [] => false end
  | TEoF => text_eqb (k_text x) []
  | _ => true
  end.
Lemma well_spelledb_ok l : forallb well_spelledb l = true -> Forall well_spelled l.
Proof.
  intros H. apply Forall_forall. intros x I'. rewrite forallb_forall in H. specialize (H _ I'). unfold well_spelledb, well_spelled in *.
  destruct (k_tok x); try exact I; try (apply text_eqb_eq; exact H).
  - intros k E. rewrite forallb_forall in H. specialize (H _ (in_keywords k)). apply negb_true_iff in H. rewrite (text_eqb_refl' _ _ E) in H. discriminate.
  - destruct (k_text x) as [|c r]; [discriminate|]. exists r. apply N.eqb_eq in H. subst c. reflexivity.
  - destruct (k_text x) as [|c r]; [discriminate|]. exists c, r. split; [reflexivity|]. apply orb_prop in H as [H|H]; apply N.eqb_eq in H; auto.
Qed.
Definition usualb (js : text) : bool := contractb js (lex js) && forallb well_spelledb (source_tokens test_scanner js).
Lemma usualb_ok js : usualb js = true -> usual test_scanner js.
Proof. unfold usualb. intros H. apply andb_prop in H as [A B]. split; [apply contractb_ok; exact A|apply well_spelledb_ok; exact B]. Qed.

(** Everything that can be compared. *)
Definition everything (w : text) : bool := negb (existsb (text_eqb w) unfixed).
Lemma everything_forgets : forgets everything.
Proof.
  intros w H. unfold everything. apply negb_false_iff. apply existsb_exists. exists w. split; [exact H|]. apply text_eqb_eq. reflexivity.
Qed.
(** The words compared, put side by side. *)
Definition side_by_side (l : list text) : text := flat_map (fun w => w ++ str " ") l.

Definition long : text := str "'use x'; var a = b ? (c, d) : e; for (let i = 0; i < 3; i++) { f(i, [, {j: k, l() {}}]); } (x, y) => x + y * 2; "
  ++ str "class A extends B { static get x() { return /r/g } 'm'() { super.m(`t${ u }v`) } } o: do { if (p) continue o; else break } while (!q)".
Example C57_case : usual test_scanner long /\ forgets everything /\ careful false everything (source_tokens test_scanner long)
  /\ exists p s, parse_text test_scanner (mkBuilder false false long) (Ok p) s
     /\ side_by_side (filter everything (words_program p))
        = str "'use x' var a = b ? c d : e for let i = 0 i < 3 i ++ { f i [ { j : k l { } } ] } x y => x + y * 2 "
          ++ str "class A extends B { get x { return /r/g } 'm' { super . m `t${ u }v` } } o : do { if p continue o else break } while ! q ".
Proof.
  split; [apply usualb_ok; vm_compute; reflexivity|]. split; [apply everything_forgets|]. split; [apply carefulb_ok; vm_compute; reflexivity|].
  eexists. eexists. split; [split; [discriminate|exists 200; vm_compute; reflexivity]|]. vm_compute. reflexivity.
Qed.
Definition long_module : text := str "import a, {b as c, d} from 'e'; import * as f from 'g'; import 'h'; export * from 'i'; export {j, k as l} from 'm'; "
  ++ str "export default function* (n, {o = p}) { yield* n; try { throw o } catch (q) {} finally { delete r[s] } } export let t = new U.v(w), z;;".
Example C57_case_module : usual test_scanner long_module /\ careful false everything (source_tokens test_scanner long_module)
  /\ exists p s, parse_text test_scanner (mkBuilder false true long_module) (Ok p) s
     /\ side_by_side (filter everything (words_program p))
        = str "import a { b as c d } from 'e' import * as f from 'g' import 'h' export * from 'i' export { j k as l } from 'm' "
          ++ str "export default function * n { o = p } { yield * n try { throw o } catch q { } finally { delete r [ s ] } } export let t = new U . v w z ".
Proof.
  split; [apply usualb_ok; vm_compute; reflexivity|]. split; [apply carefulb_ok; vm_compute; reflexivity|].
  eexists. eexists. split; [split; [discriminate|exists 200; vm_compute; reflexivity]|]. vm_compute. reflexivity.
Qed.

(** *** What is lost *)
(** Each line of [careful] is needed: these texts are accepted, and their trees have other words. *)
Definition loses (tolerant module : bool) (js : text) : Prop := usual test_scanner js
  /\ exists p s, parse_text test_scanner (mkBuilder tolerant module js) (Ok p) s
     /\ filter everything (source_words test_scanner js) <> filter everything (words_program p).
Definition losesb (tolerant module : bool) (js : text) : bool :=
  usualb js && match run_text tolerant module js with
               | Ok p => negb (if list_eq_dec (list_eq_dec N.eq_dec) (filter everything (source_words test_scanner js)) (filter everything (words_program p)) then true else false)
               | _ => false
               end.
Lemma losesb_ok tolerant module l : forallb (losesb tolerant module) l = true -> forall js, In js l -> loses tolerant module js.
Proof.
  intros H js I'. rewrite forallb_forall in H. specialize (H _ I'). unfold losesb in H. apply andb_prop in H as [U R].
  split; [apply usualb_ok; exact U|]. unfold run_text, parse_text in *. destruct (build test_scanner (mkBuilder tolerant module js)) as [g [[i|e| |] s]]; try discriminate.
  destruct (parse g (60 * (length js + 4)) s) as [[p|e| |] s'] eqn:E; cbn [fst] in R; try discriminate.
  exists p, s'. split; [split; [discriminate|eauto]|]. destruct (list_eq_dec _ _ _) as [X|X]; [discriminate|exact X].
Qed.
Theorem C57_careful_refuted : forall js, In js [
    str "var [...a] = b;";
    str "for await (a in b) ;";
    str "(class extends B {});";
    str "async.foo x => 1;";
    str "function* f() { (x = yield) => 1 }";
    str "class A { async [get] x() {} }";
    str "class A { async [(set)] x(y) {} }"] -> loses false false js.
Proof. apply losesb_ok. vm_compute. reflexivity. Qed.
Print Assumptions C57_careful_refuted.
Theorem C57_careful_module_refuted : forall js, In js [
    str "export * whatever 'm';";
    str "import {} from 'm';";
    str "import a, {} from 'm';"] -> loses false true js.
Proof. apply losesb_ok. vm_compute. reflexivity. Qed.
Print Assumptions C57_careful_module_refuted.
Theorem C57_careful_tolerant_refuted : forall js, In js [
    str "({a [b]() {}});";
    str "a: class { [static] x() {} }"] -> loses true false js.
Proof. apply losesb_ok. vm_compute. reflexivity. Qed.
Print Assumptions C57_careful_tolerant_refuted.
