(** C41: printing a tree and parsing the result gives back the tree.

    Subset.v says which tokens spell which tree (productions of ECMAScript, no mention of the
    parser); Printer.v writes one spelling of a tree.  [source_tokens sc js] are the tokens of
    the text [js]: comments and white space are gone, except for the line terminators that
    [k_nl] records.  The scanner has to keep its contract (C34), must not call [this],
    [function] and [class] reserved in strict mode only, and must tell literals from
    punctuators. *)
From Verif Require Import Lexer Properties1 Properties2 Properties5 Sentence Runs Whole Printed.
Open Scope string_scope.
Open Scope nat_scope.
Open Scope list_scope.

(** [parse] on the text gives [p], and with enough fuel nothing else. *)
Definition parses_to (sc : scanner) (tolerant module : bool) (js : text) (p : Program) : Prop :=
  let g := make_cfg sc tolerant module js in
  exists i s, start g (sc_scan sc js) = (Ok i, s)
    /\ (exists n s', parse g n s = (Ok p, s'))
    /\ forall n o s', parse g n s = (o, s') -> o = NoFuel \/ o = Ok p.
(** What the scanner says of identifiers in strict mode. *)
Definition ident_reserved (sc : scanner) : bool := sc_restricted sc TIdent || sc_strict_reserved sc TIdent.

Theorem C41_every_spelling : forall sc tolerant module js ps,
  scan_contract js (sc_scan sc js) -> keywords_plain sc -> async_ok js (sc_scan sc js) ->
  spells (ident_reserved sc) module (source_tokens sc js) ps ->
  parses_to sc tolerant module js (make_program module ps).
Proof.
  intros sc tolerant module js ps Hc Hk Ha Hs. destruct (round_trip sc tolerant module js ps Hc Hk Ha Hs) as (i & s & E & n & s' & R & _).
  exists i, s. split; [exact E|]. split; [exists n, s'; exact R|]. intros m o s1 Rm.
  destruct (Nat.le_ge_cases n m) as [L|L].
  - rewrite (parse_mono _ _ _ _ _ _ L R) in Rm by discriminate. injection Rm as <- _. auto.
  - destruct o as [q|e| |]; [right|right|right|left; reflexivity];
      rewrite (parse_mono _ _ _ _ _ _ L Rm) in R by discriminate; injection R as -> _; reflexivity.
Qed.
Print Assumptions C41_every_spelling.

Theorem C41_round_trip : forall sc tolerant module js ps n p,
  scan_contract js (sc_scan sc js) -> keywords_plain sc -> async_ok js (sc_scan sc js) ->
  print_program (ident_reserved sc) module n ps = Some p -> Forall2 fits p (source_tokens sc js) -> Forall quiet (source_tokens sc js) ->
  parses_to sc tolerant module js (make_program module ps).
Proof. intros. apply C41_every_spelling; auto. eapply program_spells; eauto. Qed.
Print Assumptions C41_round_trip.

(** The iterator gives the parts one by one, and then nothing. *)
Theorem C41_iterator : forall sc tolerant module js ps,
  scan_contract js (sc_scan sc js) -> keywords_plain sc -> async_ok js (sc_scan sc js) ->
  spells (ident_reserved sc) module (source_tokens sc js) ps ->
  let g := make_cfg sc tolerant module js in
  exists i s s1 s2, start g (sc_scan sc js) = (Ok i, s) /\ yields g s ps s1 /\ next_returns g s1 None s2.
Proof.
  intros sc tolerant module js ps Hc Hk Ha Hs g. destruct (round_trip sc tolerant module js ps Hc Hk Ha Hs) as (i & s & E & n & s' & R & _).
  assert (X : returns (fun n => parse g n s) (Ok (make_program module ps)) s') by (split; [discriminate|eauto]).
  apply parse_is_iteration in X. destruct X as (parts & s1 & r & Hy & Hn & [[-> Ep]|[(e & _ & Ep)|[_ Ep]]]); try discriminate.
  exists i, s, s1, s'. split; [exact E|]. replace ps with parts; [split; assumption|]. cbn [g_module g make_cfg] in Ep. destruct module; injection Ep as ->; reflexivity.
Qed.
Print Assumptions C41_iterator.

(** [parse_expression] on a text that begins with an expression gives it, and stops after it. *)
Theorem C41_expression : forall sc tolerant module js e l',
  scan_contract js (sc_scan sc js) -> keywords_plain sc -> async_ok js (sc_scan sc js) ->
  spells_expression (ident_reserved sc) (source_tokens sc js) e l' ->
  let g := make_cfg sc tolerant module js in
  exists i s, start g (sc_scan sc js) = (Ok i, s)
    /\ (exists n s', parse_expression g n s = (Ok e, s') /\ it_tok (st_look s') = hd_tok l')
    /\ forall n o s', parse_expression g n s = (o, s') -> o = NoFuel \/ o = Ok e.
Proof.
  intros sc tolerant module js e l' Hc Hk Ha Hs g. destruct (expression_trip sc tolerant module js e l' Hc Hk Ha Hs) as (i & s & E & n & s' & R & L).
  exists i, s. split; [exact E|]. split; [eauto|]. intros m o s1 Rm. fold g in R.
  destruct (Nat.le_ge_cases n m) as [Le|Le].
  - rewrite (proj1 (proj2 (stack_does_not_matter g s)) _ _ _ _ Le R) in Rm by discriminate. injection Rm as <- _. auto.
  - destruct o as [q|x| |]; [right|right|right|left; reflexivity];
      rewrite (proj1 (proj2 (stack_does_not_matter g s)) _ _ _ _ Le Rm) in R by discriminate; injection R as -> _; reflexivity.
Qed.
Print Assumptions C41_expression.
Theorem C41_expression_round_trip : forall sc tolerant module js e n p,
  scan_contract js (sc_scan sc js) -> keywords_plain sc -> async_ok js (sc_scan sc js) ->
  print_expression (ident_reserved sc) n e = Some p -> Forall2 fits p (source_tokens sc js) -> Forall quiet (source_tokens sc js) ->
  let g := make_cfg sc tolerant module js in
  exists i s n s', start g (sc_scan sc js) = (Ok i, s) /\ parse_expression g n s = (Ok e, s') /\ it_tok (st_look s') = TEoF.
Proof.
  intros sc tolerant module js e n p Hc Hk Ha Hp F Q g. destruct (expression_spells _ _ _ _ _ Hp F Q) as (l' & Hs & El).
  destruct (C41_expression sc tolerant module js e l' Hc Hk Ha Hs) as (i & s & E & (m & s' & R & L) & _). exists i, s, m, s'. rewrite <- El. auto.
Qed.
Print Assumptions C41_expression_round_trip.

(** So no text spells two trees. *)
Theorem C41_unambiguous : forall sc module js ps ps',
  scan_contract js (sc_scan sc js) -> keywords_plain sc -> async_ok js (sc_scan sc js) ->
  spells (ident_reserved sc) module (source_tokens sc js) ps ->
  spells (ident_reserved sc) module (source_tokens sc js) ps' -> ps = ps'.
Proof.
  intros sc module js ps ps' Hc Hk Ha H H'.
  destruct (C41_every_spelling sc false module js ps Hc Hk Ha H) as (i & s & E & (n & s1 & R) & U).
  destruct (C41_every_spelling sc false module js ps' Hc Hk Ha H') as (i' & s' & E' & (n' & s1' & R') & U').
  rewrite E in E'. injection E' as <- <-. destruct (U' _ _ _ R) as [X|X]; [discriminate|].
  destruct module; injection X as X; exact X.
Qed.
Print Assumptions C41_unambiguous.

(** ** Concrete cases: the premises hold of texts of every kind. *)
Definition token_eq (a b : token) : {a = b} + {a <> b}.
Proof. repeat decide equality. Defined.
Definition same_token (a b : token) : bool := if token_eq a b then true else false.
Definition fitsb (p : ptk) (t : tk) : bool :=
  match p_shape p with
  | Just x => same_token (k_tok t) x
  | Word x w => same_token (k_tok t) x && text_eqb (k_text t) w
  | Name w => match k_tok t with TIdent | TNull | TBoolean _ | TKeyword _ => text_eqb (k_text t) w | _ => false end
  end && match p_line p with AnyLine => true | SameLine => negb (k_nl t) | NewLine => k_nl t end.
Fixpoint all_fit (p : list ptk) (l : list tk) : bool :=
  match p, l with
  | [], [] => true
  | x :: p', t :: l' => fitsb x t && all_fit p' l'
  | _, _ => false
  end.
Lemma fitsb_ok p t : fitsb p t = true -> fits p t.
Proof.
  unfold fitsb, fits, same_token. intros H. apply andb_prop in H as [H1 H2]. split.
  - destruct (p_shape p) as [x|x w|w].
    + destruct (token_eq (k_tok t) x); [assumption|discriminate].
    + apply andb_prop in H1 as [H1 H3]. apply text_eqb_eq in H3. destruct (token_eq (k_tok t) x); [auto|discriminate].
    + unfold name_token. destruct (k_tok t); try discriminate; apply text_eqb_eq in H1; split; eauto.
  - destruct (p_line p), (k_nl t); first [discriminate|reflexivity|exact I].
Qed.
Lemma all_fit_ok p : forall l, all_fit p l = true -> Forall2 fits p l.
Proof.
  induction p as [|x p IH]; intros [|t l] H; try discriminate; constructor; cbn in H; apply andb_prop in H as [H1 H2]; auto using fitsb_ok.
Qed.
Definition quietb (t : tk) : bool :=
  (is_ident (k_tok t) || negb (existsb (text_eqb (k_text t)) quiet_words))
  && match k_tok t with TPunct _ => negb (text_eqb (k_text t) (str "extends")) | _ => true end.
Lemma quietb_ok t : quietb t = true -> quiet t.
Proof.
  unfold quietb, quiet. intros H. apply andb_prop in H as [H2 H3].
  split; [|intros p E; rewrite E in H3; apply negb_true_iff in H3; apply text_neqb; exact H3].
  apply orb_prop in H2 as [H2|H2]; [left; destruct (k_tok t); try discriminate; reflexivity|right].
  apply negb_true_iff in H2. intros X. assert (existsb (text_eqb (k_text t)) quiet_words = true); [|congruence].
  apply existsb_exists. exists (k_text t). split; [exact X|apply text_eqb_eq; reflexivity].
Qed.

Definition lf_betweenb (js : text) (r f : raw) : bool :=
  match slice js (it_start (r_item r)) (it_start (r_item f)) with Some t => existsb (N.eqb LF) t | None => false end.
Fixpoint next_okb (js : text) (r : raw) (clean : bool) (rest : list raw) : bool :=
  match rest with
  | [] => true
  | f :: q =>
      if is_comment (it_tok (r_item f)) then next_okb js r false q
      else r_nl f || negb (lf_betweenb js r f)
                     && (negb (is_keyword KFunction (it_tok (r_item f))) || clean && text_eqb (text_of js (r_item f)) (str "function"))
  end.
Fixpoint async_okb (js : text) (items : list raw) : bool :=
  match items with
  | [] => true
  | r :: rest =>
      (negb (text_eqb (text_of js (r_item r)) (str "async"))
       || forallb (fun c => negb (N.eqb c CR || N.eqb c LS || N.eqb c PS)) js
          && forallb (fun f => negb (r_nl f) || lf_betweenb js r f) rest && next_okb js r true rest)
      && async_okb js rest
  end.
Lemma lf_betweenb_ok js r f : lf_betweenb js r f = true <-> line_feed_between js r f.
Proof.
  unfold lf_betweenb, line_feed_between. destruct (slice _ _ _) as [t|].
  - rewrite existsb_exists. split.
    + intros (x & X & E). apply N.eqb_eq in E. subst x. eauto.
    + intros (u & E & X). injection E as <-. exists LF. split; [exact X|reflexivity].
  - split; [discriminate|]. intros (u & E & _). discriminate.
Qed.
Lemma next_okb_ok js r : forall m clean f rest, next_okb js r clean (m ++ f :: rest) = true ->
  only_comments m -> is_comment (it_tok (r_item f)) = false -> r_nl f = false ->
  ~ line_feed_between js r f /\ (it_tok (r_item f) = TKeyword KFunction -> m = [] /\ clean = true /\ text_of js (r_item f) = str "function").
Proof.
  induction m as [|x m IH]; intros clean f rest H Hm Hc Hn; cbn [app next_okb] in H.
  - rewrite Hc, Hn in H. cbn [orb] in H. apply andb_prop in H as [H1 H2]. apply negb_true_iff in H1. split.
    + rewrite <- lf_betweenb_ok. congruence.
    + intros E. rewrite E in H2. cbn in H2. apply andb_prop in H2 as [H2 H3]. apply text_eqb_eq in H3. auto.
  - inversion Hm as [|? ? Hx Hm']; subst. rewrite Hx in H. destruct (IH _ _ _ H Hm' Hc Hn) as [H1 H2]. split; [exact H1|].
    intros E. destruct (H2 E) as (_ & H3 & _). discriminate.
Qed.
Lemma async_okb_ok js items : async_okb js items = true -> async_ok js items.
Proof.
  intros H l. revert items H. induction l as [|x l IH]; intros items H r m f rest -> E; cbn [app async_okb] in H; apply andb_prop in H as [H1 H2].
  - apply orb_prop in H1 as [H1|H1]; [apply negb_true_iff in H1; apply text_neqb in H1; contradiction|].
    apply andb_prop in H1 as [H1 H4]. apply andb_prop in H1 as [H1 H3]. rewrite forallb_forall in H1, H3. split; [|split].
    + apply Forall_forall. intros c Hc. apply H1 in Hc. apply negb_true_iff in Hc. apply orb_false_elim in Hc as [Hc C3]. apply orb_false_elim in Hc as [C1 C2].
      apply N.eqb_neq in C1, C2, C3. auto.
    + intros N. specialize (H3 f ltac:(apply in_or_app; right; left; reflexivity)). rewrite N in H3. apply lf_betweenb_ok. exact H3.
    + intros Hm Hc Hn. destruct (next_okb_ok _ _ _ _ _ _ H4 Hm Hc Hn) as [X Y]. split; [exact X|]. intros K. destruct (Y K) as (Y1 & _ & Y2). auto.
  - exact (IH _ H2 r m f rest eq_refl E).
Qed.

(** The text fits what is printed for the [parts] parts of its own parse: so it parses to that,
    whatever the scanner in [parsed] would say of other texts. *)
Definition case_b (module : bool) (parts : nat) (js : string) : bool :=
  let ps := parsed false module (str js) in
  contractb (str js) (lex (str js)) && (length ps =? parts)
  && match print_program (ident_reserved test_scanner) module 60 ps with Some p => all_fit p (source_tokens test_scanner (str js)) | None => false end
  && forallb quietb (source_tokens test_scanner (str js)) && async_okb (str js) (lex (str js)).
Definition printed_case (module : bool) (parts : nat) (js : string) : Prop :=
  scan_contract (str js) (sc_scan test_scanner (str js)) /\ keywords_plain test_scanner /\ async_ok (str js) (sc_scan test_scanner (str js))
  /\ exists ps n p, length ps = parts /\ print_program (ident_reserved test_scanner) module n ps = Some p
       /\ Forall2 fits p (source_tokens test_scanner (str js)) /\ Forall quiet (source_tokens test_scanner (str js)).
Lemma case_b_ok module parts js : case_b module parts js = true -> printed_case module parts js.
Proof.
  unfold case_b. cbv zeta. intros H. apply andb_prop in H as [H H5]. apply andb_prop in H as [H H4]. apply andb_prop in H as [H H3]. apply andb_prop in H as [H1 H2].
  split; [apply contractb_ok; exact H1|]. split; [repeat split|]. split; [apply async_okb_ok; exact H5|].
  destruct (print_program (ident_reserved test_scanner) module 60 (parsed false module (str js))) as [p|] eqn:P; [|discriminate].
  exists (parsed false module (str js)), 60, p. apply Nat.eqb_eq in H2. split; [exact H2|]. split; [exact P|].
  split; [apply all_fit_ok; exact H3|]. apply Forall_forall. rewrite forallb_forall in H4. auto using quietb_ok.
Qed.

Example C41_case_1 : printed_case false 6 "x = a + b * c; y = (a + b) * c; z = a - b - c; w = a - (b - c); v = a ** b ** c; u = (-a) ** b;".
Proof. apply case_b_ok. vm_compute. reflexivity. Qed.
Example C41_case_2 : printed_case false 7 "a ? b : c ? d : e; (a, b).c; a = b = c; f(a, ...b)[c].d(new E(1), new (f())(2)); new a.b.c(); delete a.b, typeof -a; a++ - --b;".
Proof. apply case_b_ok. vm_compute. reflexivity. Qed.
Example C41_case_3 : printed_case false 3 "({}.a); (function(){}); ({a: 1, 'b': 2, 3: c, [d]: e, f, ...g, h(x) { return x; }, get i() { return 1; }, set i(v) {}, *j() { yield* a; (yield); yield b; }}.k);".
Proof. apply case_b_ok. vm_compute. reflexivity. Qed.
Example C41_case_4 : printed_case false 9 "f = (a, b = 1, ...c) => a; g = () => ({}); h = () => { return; }; [a, , ...b]; /x[/]y/g.test(`p${q}r${s}t`); tag`u`; `v`; true; this;".
Proof. apply case_b_ok. vm_compute. reflexivity. Qed.
Example C41_case_5 : printed_case false 6 "if (a) if (b) c; else d; if (a) { if (b) c; } else d; while (a) { b; continue; } do a; while (b); x: for (;;) { break x; } with (a) b;".
Proof. apply case_b_ok. vm_compute. reflexivity. Qed.
Example C41_case_6 : printed_case false 5 "for (var a = (b in c), d; e; f) ; for (let a of b) c; for (a.b in c, d) e; for (const [a, {b, c: d = 1, ...e}] of f) ; for ((a in b) ? c : d; ; ) ;".
Proof. apply case_b_ok. vm_compute. reflexivity. Qed.
Example C41_case_7 : printed_case false 8 "switch (a) { case b: c; case d: default: e; } try { a; } catch (b) {} try {} finally {} try {} catch ({c}) { } finally { d; } throw a; debugger; ; {}".
Proof. apply case_b_ok. vm_compute. reflexivity. Qed.
Example C41_case_8 : printed_case false 5 "'a'; function f(a, [b, , c] = d, {e, f = 1}, ...g) { 'h'; let i = 1, j; const k = i; var l; return new.target; } function* g() {} ('b'); let m = function n() {};".
Proof. apply case_b_ok. vm_compute. reflexivity. Qed.
Example C41_case_9 : printed_case false 3 "class A extends b.C { constructor(a) { super(a); this.x = super.y; } m(eval_) { return super[a](b); } static constructor() {} *g() { yield a; } set p(v) {} 'q'(x) {} [r]() {} static() {} 3() {} } x = class { get(a) {} set() {} }; f = class N extends class {} { if() {} };".
Proof. apply case_b_ok. vm_compute. reflexivity. Qed.
Example C41_case_10 : printed_case false 3 "try { a; } catch { b; } try {} catch {} finally {} function* g() { class A { get p() { return new.target; } static get constructor() {} } }".
Proof. apply case_b_ok. vm_compute. reflexivity. Qed.
Example C41_case_11 : printed_case true 8 "import 'a'; import b from 'c'; import * as d from 'e'; import {g, h as i, if as j} from 'k'; import l, * as m from 'n'; import o, {p} from 'q'; export * from 'r'; var s;".
Proof. apply case_b_ok. vm_compute. reflexivity. Qed.
Example C41_case_12 : printed_case true 10 "export {a, b as c, d as default}; export {if, f as g, null as h} from 'i'; export {}; export var j = 1, k; export function l() {} export class m extends n {} export default function o() {} export default function* () {} export default class {} export default ({}.p)".
Proof. apply case_b_ok. vm_compute. reflexivity. Qed.
Example C41_case_13 : printed_case true 6 "export let a = 1, [b] = c;
  export const {d} = e;
  export default {f, g() {}}
  export default [h, ...i]
  export default function p() {} export default j ? k : l = m
".
Proof. apply case_b_ok. vm_compute. reflexivity. Qed.

Example C41_case_14 : printed_case false 9 "[a, , b.c = 1, [d], ...e[f]] = g; ({h, i = j, k: l.m, n: {o} = p, 'q': [r], [s]: t = u, ...v} = w); [x] = [y] = z; [...[a, {b}]] = c; for ([a, b] of c) ; for ({a, b: c.d} in e) ; for ([a] = b, {c} = d; ; ) ; f = ([a, b = 1, ...c], {d, e = f, g: [h] = i, ...j}, [k] = l, {} = {}, ...m) => 1; g = (a, [b]) => { [c] = b; };".
Proof. apply case_b_ok. vm_compute. reflexivity. Qed.

Example C41_case_15 : printed_case false 6 "async function f(a, b = await c) { await a; for await (let b of c) d; return await await e + -await (g + h); } x = async function() {}; (async function(){})(); y = async function* h() { yield a; await b; yield (await c); }; (async function*i() {}); if (j) { async function k() { l(async function() {}, await m); } }".
Proof. apply case_b_ok. vm_compute. reflexivity. Qed.
Example C41_case_16 : printed_case false 2 "({async a() { await b; }, async [c](d = await e) {}, async async() {}, async 1() {}, get async() { }, *async() { }, async get() {}}); class A { async m(x) { return await x; } async 'n'() {} *async() {} async static() {} }".
Proof. apply case_b_ok. vm_compute. reflexivity. Qed.
Example C41_case_17 : printed_case true 6 "export async function f() {} export default async function g(a) { await a; } export default async function() {} export default (async function() {} ? b : c)
  import async, {d as async} from 'e'; export {async, of as async};
".
Proof. apply case_b_ok. vm_compute. reflexivity. Qed.
Example C41_case_18 : printed_case false 6 "f = async x => x + 1; g(async () => {}, async (a, b = 1, [c], {d, e: f} = g, ...[h, i]) => { return a; }, async (...j) => k); l = async (m, n) => async o => p; (async q => r)(s); t ? async u => v : async (w) => ({}); function* x() { y = async z => yield a; }".
Proof. apply case_b_ok. vm_compute. reflexivity. Qed.
Example C41_case_19 : printed_case true 9 "import(a); import('b').then((c) => import(c.d)).e[f](g); h = new (import(i)).j(), import(k)(l)`m`; delete import(n).o; p ? import(q = r) : import(async s => t); import(u).v = w; for (import(x).y of import(z)) import('a'); export default import(b)
  import c from 'd';
".
Proof. apply case_b_ok. vm_compute. reflexivity. Qed.

(** Texts of one expression. *)
Definition expression_case (js : string) : Prop :=
  scan_contract (str js) (sc_scan test_scanner (str js)) /\ keywords_plain test_scanner /\ async_ok (str js) (sc_scan test_scanner (str js))
  /\ exists e n p, print_expression (ident_reserved test_scanner) n e = Some p
       /\ Forall2 fits p (source_tokens test_scanner (str js)) /\ Forall quiet (source_tokens test_scanner (str js)).
Definition expression_b (js : string) : bool :=
  contractb (str js) (lex (str js))
  && match fst (parse_expression (ex_cfg js) 400 (ex_start js)) with
     | Ok e => match print_expression (ident_reserved test_scanner) 60 e with Some p => all_fit p (source_tokens test_scanner (str js)) | None => false end
     | _ => false
     end
  && forallb quietb (source_tokens test_scanner (str js)) && async_okb (str js) (lex (str js)).
Lemma expression_b_ok js : expression_b js = true -> expression_case js.
Proof.
  unfold expression_b. intros H. apply andb_prop in H as [H H5]. apply andb_prop in H as [H H4]. apply andb_prop in H as [H1 H3].
  split; [apply contractb_ok; exact H1|]. split; [repeat split|]. split; [apply async_okb_ok; exact H5|].
  destruct (fst _) as [e| | |]; try discriminate. destruct (print_expression _ 60 e) as [p|] eqn:P; [|discriminate].
  exists e, 60, p. split; [exact P|]. split; [apply all_fit_ok; exact H3|].
  apply Forall_forall. intros t Ht. apply quietb_ok. rewrite forallb_forall in H4. apply H4. exact Ht.
Qed.
Example C41_case_expression : expression_case "a = b ? c(d)[e].f : {g: [h, ...i]}, function(j) { return j * (k + 1) ** 2; }, async l => class { m() { } }".
Proof. apply expression_b_ok. vm_compute. reflexivity. Qed.

(** Two texts with the tokens of one tree: the second has comments, and line terminators where
    they do not matter. *)
Definition plain_text : text := str "if (a) { f(b, c); } return_ = x + 1;".
Definition spread_text : text :=
  [LF] ++ str "if/* 1 */(a)" ++ [LF] ++ str "{ f // 2" ++ [LF] ++ str "(b, c)" ++ [LF] ++ str ";}" ++ [LF; LF]
  ++ str "return_ =/**/x" ++ [LF] ++ str "+ 1" ++ [LF] ++ str "/* end */;".
Example C41_case_spacing : exists ps p, length ps = 2 /\ print_program (ident_reserved test_scanner) false 20 ps = Some p
  /\ Forall2 fits p (source_tokens test_scanner plain_text) /\ Forall2 fits p (source_tokens test_scanner spread_text)
  /\ parses_to test_scanner false false plain_text (PScript ps) /\ parses_to test_scanner false false spread_text (PScript ps).
Proof.
  set (ps := parsed false false plain_text).
  assert (F : match print_program (ident_reserved test_scanner) false 20 ps with
              | Some p => all_fit p (source_tokens test_scanner plain_text) && all_fit p (source_tokens test_scanner spread_text)
              | None => false end = true) by (vm_compute; reflexivity).
  destruct (print_program (ident_reserved test_scanner) false 20 ps) as [p|] eqn:P; [|discriminate]. apply andb_prop in F as [F1 F2]. apply all_fit_ok in F1, F2.
  exists ps, p. split; [vm_compute; reflexivity|]. split; [exact P|]. split; [exact F1|]. split; [exact F2|].
  assert (Q : forall js, forallb quietb (source_tokens test_scanner js) = true -> Forall quiet (source_tokens test_scanner js)).
  { intros js Q. apply Forall_forall. rewrite forallb_forall in Q. auto using quietb_ok. }
  split; (apply (C41_round_trip test_scanner false false _ ps 20 p); [apply contractb_ok; vm_compute; reflexivity|repeat split|apply async_okb_ok; vm_compute; reflexivity|exact P|assumption|];
    apply Q; vm_compute; reflexivity).
Qed.

(** A spelling the printer does not choose: no semicolons, and parentheses around a name. *)
Definition loose_text : text := str "a = (b)" ++ [LF] ++ str "c".
Example C41_case_loose : exists ps, length ps = 2
  /\ spells (ident_reserved test_scanner) false (source_tokens test_scanner loose_text) ps
  /\ parses_to test_scanner false false loose_text (PScript ps).
Proof.
  assert (H : spells (ident_reserved test_scanner) false (source_tokens test_scanner loose_text)
    [PPStmt (SExpr (EAssignment AEqual (ALExpr (EIdent (str "a"))) (EIdent (str "b")))); PPStmt (SExpr (EIdent (str "c")))]).
  { split.
    - apply Forall_forall. intros x Hx. apply quietb_ok. assert (Q : forallb quietb (source_tokens test_scanner loose_text) = true) by (vm_compute; reflexivity).
      rewrite forallb_forall in Q. auto.
    - set (t := source_tokens test_scanner loose_text). vm_compute in t. subst t. exists []. eexists. eexists. eexists.
      assert (R : forall t w b l, l <> [] -> reads t (mkTk t w b :: l) l) by (intros; split; eauto).
      assert (V : forall S w b l, w <> str "async" -> l <> [] -> std (ident_reserved test_scanner) S (NX 19) (mkTk TIdent w b :: l) (EIdent w) l)
        by (intros; eapply std_ident; [split; eauto|assumption]).
      split; [reflexivity|]. split; [apply std_directives_none|]. split; [discriminate|]. split.
      + eapply std_items; [|eapply std_items; [|apply std_items_none]]; apply std_item_stmt; eapply std_stmt_expr.
        * apply (lower _ _ 0 1 _ _ [mkTk TIdent (str "c") true; mkTk TEoF [] false]); [repeat constructor|intros _; left; reflexivity|].
          eapply std_assignment; [apply std_call_up; apply V; discriminate|reflexivity|discriminate|left; reflexivity|apply R; discriminate|].
          apply from19; [repeat constructor|intros _; left; reflexivity|]. apply (std_paren _ _ [EIdent (str "b")]) with (l1 := [mkTk TIdent (str "b") false; mkTk (TPunct PCloseParen) (str ")") false; mkTk TIdent (str "c") true; mkTk TEoF [] false])
            (l2 := [mkTk (TPunct PCloseParen) (str ")") false; mkTk TIdent (str "c") true; mkTk TEoF [] false]);
            [apply R; discriminate| |apply R; discriminate|discriminate].
          apply std_commas_one. apply from19; [repeat constructor|intros _; right; split; discriminate|]. apply V; discriminate.
        * reflexivity.
        * left. discriminate.
        * split; [right; split; [reflexivity|]; split; [discriminate|left; reflexivity]|split; [reflexivity|discriminate]].
        * apply (from19 _ _ _ _ _ [mkTk TEoF [] false]); [repeat constructor|intros _; right; split; discriminate|]. apply V; discriminate.
        * reflexivity.
        * left. discriminate.
        * split; [right; split; [reflexivity|]; split; [discriminate|right; left; reflexivity]|split; [reflexivity|discriminate]].
      + reflexivity. }
  eexists. split; [|split; [exact H|]]; [reflexivity|].
  apply (C41_every_spelling test_scanner false false loose_text _); [apply contractb_ok; vm_compute; reflexivity|repeat split|apply async_okb_ok; vm_compute; reflexivity|exact H].
Qed.

(** Others: [new] without arguments, a template after its callee, and [yield] before a line terminator. *)
Definition terse_text : text := str "function*() { yield" ++ [LF] ++ str "new a`b`" ++ [LF] ++ str "}".
Definition terse_tree : Expr := EFunction (mkFunction None []
  [PPStmt (SExpr (EYield None false));
   PPStmt (SExpr (ENew (ETaggedTemplate (EIdent (str "a")) (mkTemplate [mkQuasi (str "`b`") (str "b") true] [])) []))] true false).
Example C41_case_terse : exists l', spells_expression (ident_reserved test_scanner) (source_tokens test_scanner terse_text) terse_tree l'
  /\ hd_tok l' = TEoF.
Proof.
  set (t := source_tokens test_scanner terse_text). vm_compute in t. subst t. exists [mkTk TEoF [] false]. split; [split|].
  - apply Forall_forall. intros x Hx. apply quietb_ok. revert x Hx. apply forallb_forall. vm_compute. reflexivity.
  - split; [|reflexivity].
    assert (R : forall t w b l, l <> [] -> reads t (mkTk t w b :: l) l) by (intros; split; eauto).
    assert (RA : forall t w b l, l <> [] -> reads_as t w (mkTk t w b :: l) l) by (intros; split; eauto).
    apply from19; [repeat constructor|intros _; right; split; discriminate|]. unfold terse_tree.
    eapply std_function; [apply R; discriminate|]. eapply std_function_anon; [apply R; discriminate|apply R; discriminate|eapply std_params_none; apply R; discriminate|].
    eapply (std_body _ _ []); [apply R; discriminate|apply std_directives_none|discriminate| |apply R; discriminate].
    eapply std_items; [|eapply std_items; [|apply std_items_none]]; apply std_item_stmt; eapply std_stmt_expr.
    + eapply (lower _ _ 0 1); [lia| |eapply std_yield_line; [reflexivity|apply R; discriminate|reflexivity|discriminate]]. intros _; left; reflexivity.
    + reflexivity.
    + left. discriminate.
    + split; [right; split; [reflexivity|]; split; [discriminate|left; reflexivity]|split; [reflexivity|discriminate]].
    + eapply (from19 _ _ 0); [lia| |eapply std_new_bare; [apply R; discriminate| | | |]].
      2: { eapply std_member_tagged; [apply std_member_up; eapply std_ident; [apply RA; discriminate|discriminate]|apply RA; discriminate|].
           split; [reflexivity|exists 96%N, [96%N]; repeat split]. }
      1: { intros _; left; reflexivity. }
      * reflexivity.
      * discriminate.
      * discriminate.
    + reflexivity.
    + left. discriminate.
    + split; [right; split; [reflexivity|]; split; [discriminate|left; reflexivity]|split; [reflexivity|discriminate]].
  - reflexivity.
Qed.
