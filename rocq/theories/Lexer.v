(** A small scanner used only to run the parser model on concrete JavaScript text in
    examples and counterexamples.  It is NOT a model of the crate [ress] (whose source is
    not in /repo); no theorem depends on it, every general theorem quantifies over the
    scanner's output. *)
From Verif Require Export Api.
Open Scope N_scope.

Definition between (a b c : N) : bool := (a <=? c) && (c <=? b).
Definition is_digit (c : N) : bool := between 48 57 c.
Definition is_id_start (c : N) : bool :=
  between 65 90 c || between 97 122 c || (c =? 36) || (c =? 95) || (128 <=? c) && negb (is_nl c).
Definition is_id_part (c : N) : bool := is_id_start c || is_digit c.
Definition is_space (c : N) : bool := (c =? 32) || (c =? 9) || is_nl c.

Fixpoint span_while (p : N -> bool) (t : text) : text * text :=
  match t with
  | c :: t' => if p c then let (a, b) := span_while p t' in (c :: a, b) else ([], t)
  | [] => ([], [])
  end.

Fixpoint starts_with (p t : text) : bool :=
  match p, t with
  | [], _ => true
  | x :: p', y :: t' => (x =? y) && starts_with p' t'
  | _, _ => false
  end.

Definition keywords : list keyword :=
  [KAwait; KBreak; KCase; KCatch; KClass; KConst; KContinue; KDebugger; KDefault; KImport;
   KDelete; KDo; KElse; KEnum; KExport; KExtends; KFinally; KFor; KFunction; KIf; KIn;
   KImplements; KInstanceOf; KInterface; KLet; KNew; KPackage; KPrivate; KProtected; KPublic;
   KStatic; KReturn; KSuper; KSwitch; KThis; KThrow; KTry; KTypeOf; KVar; KVoid; KWhile;
   KWith; KYield].

Definition puncts : list (string * punct) :=
  [(">>>=", PUnsignedRightShiftAssign); ("===", PStrictEquals); ("!==", PStrictNotEquals);
   (">>>", PUnsignedRightShift); ("<<=", PLeftShiftAssign); (">>=", PRightShiftAssign);
   ("**=", PExponentAssign); ("...", PSpread); ("=>", PFatArrow); ("&&", PLogicalAnd);
   ("||", PLogicalOr); ("==", PEqual); ("!=", PNotEqual); ("+=", PAddAssign);
   ("-=", PSubtractAssign); ("*=", PMultiplyAssign); ("/=", PDivideAssign);
   ("&=", PBitwiseAndAssign); ("|=", PBitwiseOrAssign); ("^=", PBitwiseXOrAssign);
   ("++", PIncrement); ("--", PDecrement); ("<<", PLeftShift); (">>", PRightShift);
   (">=", PGreaterThanEqual); ("<=", PLessThanEqual); ("%=", PModuloAssign); ("**", PExponent);
   ("&", PAnd); ("=", PAssign); ("*", PAsterisk); ("~", PBitwiseNot); ("^", PCaret);
   ("}", PCloseBrace); ("]", PCloseBracket); (")", PCloseParen); (":", PColon); (",", PComma);
   ("/", PForwardSlash); (">", PGreaterThan); ("<", PLessThan); ("-", PMinus); ("%", PModulo);
   ("!", PNot); ("{", POpenBrace); ("[", POpenBracket); ("(", POpenParen); (".", PPeriod);
   ("|", PPipe); ("+", PPlus); ("?", PQuestionMark); (";", PSemiColon)]%string.

Definition ident_token (w : text) : token :=
  if text_eqb w (str "true") then TBoolean true
  else if text_eqb w (str "false") then TBoolean false
  else if text_eqb w (str "null") then TNull
  else match find (fun k => text_eqb w (kw_text k)) keywords with
       | Some k => TKeyword k
       | None => TIdent
       end.

(** A string body up to the closing quote [q], escapes skipped. *)
Fixpoint scan_string (q : N) (esc : bool) (t : text) : text * text :=
  match t with
  | [] => ([], [])
  | c :: t' =>
      if esc then let (a, b) := scan_string q false t' in (c :: a, b)
      else if c =? q then ([c], t')
      else let (a, b) := scan_string q (c =? 92) t' in (c :: a, b)
  end.

Fixpoint scan_multi (t : text) : text * text :=
  match t with
  | 42 :: 47 :: t' => ([42; 47], t')
  | c :: t' => let (a, b) := scan_multi t' in (c :: a, b)
  | [] => ([], [])
  end.

(** A template chunk: up to a backquote ([true]) or an opening of a substitution ([false]). *)
Fixpoint scan_template (t : text) : text * text * bool :=
  match t with
  | 96 :: t' => ([96], t', true)
  | 36 :: 123 :: t' => ([36; 123], t', false)
  | 92 :: c :: t' => let '(a, b, e) := scan_template t' in (92 :: c :: a, b, e)
  | c :: t' => let '(a, b, e) := scan_template t' in (c :: a, b, e)
  | [] => ([], [], true)
  end.

Fixpoint scan_regex (in_class esc : bool) (t : text) : text * text :=
  match t with
  | [] => ([], [])
  | c :: t' =>
      if esc then let (a, b) := scan_regex in_class false t' in (c :: a, b)
      else if c =? 92 then let (a, b) := scan_regex in_class true t' in (c :: a, b)
      else if (c =? 47) && negb in_class then
        let (a, b) := span_while is_id_part t' in (c :: a, b)
      else
        let ic := if c =? 91 then true else if c =? 93 then false else in_class in
        let (a, b) := scan_regex ic false t' in (c :: a, b)
  end.

(** May a regular expression follow the previous token? *)
Definition regex_ok (prev : option token) : bool :=
  match prev with
  | None => true
  | Some (TPunct PCloseParen) | Some (TPunct PCloseBracket) | Some (TPunct PCloseBrace)
  | Some (TPunct PIncrement) | Some (TPunct PDecrement) => false
  | Some (TPunct _) => true
  | Some (TKeyword KThis) | Some (TKeyword KSuper) => false
  | Some (TKeyword _) => true
  | _ => false
  end.

(** One token of a non-empty text: kind, its text, the rest, and the new template stack
    (brace depths of the open substitutions). *)
Definition scan_token (prev : option token) (stack : list nat) (t : text)
  : token * text * text * list nat :=
  match t with
  | [] => (TEoF, [], [], stack)
  | c :: t' =>
      if is_id_start c then
        let (w, r) := span_while is_id_part t in (ident_token w, w, r, stack)
      else if is_digit c || (c =? 46) && match t' with d :: _ => is_digit d | [] => false end then
        let (w, r) := span_while (fun d => is_id_part d || (d =? 46)) t in (TNumeric, w, r, stack)
      else if (c =? 39) || (c =? 34) then
        let (w, r) := scan_string c false t' in (TString, c :: w, r, stack)
      else if c =? 96 then
        let '(w, r, e) := scan_template t' in
        if e : bool then (TTemplate TNoSub, c :: w, r, stack)
        else (TTemplate THead, c :: w, r, O :: stack)
      else if starts_with [47; 47] t then
        let (w, r) := span_while (fun d => negb (is_nl d)) t in (TComment CSingle, w, r, stack)
      else if starts_with [60; 33; 45; 45] t then
        let (w, r) := span_while (fun d => negb (is_nl d)) t in (TComment CHtml, w, r, stack)
      else if starts_with [47; 42] t then
        let (w, r) := scan_multi (tl t') in (TComment CMulti, [47; 42] ++ w, r, stack)%list
      else if (c =? 47) && regex_ok prev then
        let (w, r) := scan_regex false false t' in (TRegEx, c :: w, r, stack)
      else if (c =? 125) && match stack with O :: _ => true | _ => false end then
        let '(w, r, e) := scan_template t' in
        if e : bool then (TTemplate TTail, c :: w, r, tl stack)
        else (TTemplate TBody, c :: w, r, stack)
      else
        match find (fun '(w, _) => starts_with (str w) t) puncts with
        | Some (w, p) =>
            let stack' := match p, stack with
                          | POpenBrace, n :: s => S n :: s
                          | PCloseBrace, S n :: s => n :: s
                          | _, s => s
                          end in
            (TPunct p, str w, skipn (length (str w)) t, stack')
        | None => (TIdent, [c], t', stack)
        end
  end.

Fixpoint lex_loop (fuel : nat) (prev : option token) (stack : list nat) (pos : nat) (t : text)
  : list raw :=
  match fuel with
  | O => []
  | S f =>
      let (ws, r) := span_while is_space t in
      let nl := existsb is_nl ws in
      let p := (pos + byte_len ws)%nat in
      match r with
      | [] => [mkRaw (mkItem TEoF p p) nl]
      | _ =>
          let '(k, w, r', stack') := scan_token prev stack r in
          let e := (p + byte_len w)%nat in
          mkRaw (mkItem k p e) nl
            :: lex_loop f (if is_comment k then prev else Some k) stack' e r'
      end
  end.

Definition lex (t : text) : list raw := lex_loop (S (length t)) None [] 0 t.

(** The token predicates of [ress], by name. *)
Definition strict_reserved_kw (t : token) : bool :=
  match t with
  | TKeyword k =>
      match k with
      | KImplements | KInterface | KPackage | KPrivate | KProtected | KPublic | KStatic | KYield
      | KLet => true
      | _ => false
      end
  | _ => false
  end.
Definition literal_tok (t : token) : bool :=
  match t with
  | TNumeric | TString | TRegEx | TBoolean _ | TNull | TTemplate _ => true
  | _ => false
  end.

Definition test_scanner : scanner :=
  mkScanner lex (fun _ => false) (fun _ => false) strict_reserved_kw literal_tok.

(** Build and parse a text; the result of [Builder::..build()?.parse()]. *)
Definition run_text (tolerant module : bool) (js : text) : outcome Program :=
  let '(g, (o, s)) := build test_scanner (mkBuilder tolerant module js) in
  match o with
  | Ok _ => fst (parse g (60 * (length js + 4)) s)
  | Err e => Err e
  | Panic => Panic
  | NoFuel => NoFuel
  end.
Definition run_js (js : string) : outcome Program := run_text false false (str js).
