(** Parser state, primitive operations, and the small imperative language in
    which the functions of /repo/src/lib.rs are transcribed (Parser.v).

    A Rust method [fn parse_x(&mut self, args) -> Res<T>] becomes a constructor
    of [call T] (Parser.v) plus a body of type [prog T].  [run] is the
    evaluator: it threads the state, propagates [Err] like the [?] operator and
    keeps the state reached at the error (the Rust iterator can be resumed
    after an error).  Its [nat] argument is the Rust call depth still allowed;
    exhausting it gives the distinguished outcome [NoFuel]. *)
From Verif Require Export Token Ast.

(** ** Errors: /repo/src/error.rs:8-31 *)
Inductive message :=
| MExpected (expectations : list string) (found : token)   (* lib.rs:4482-4497 *)
| MUnexpected (found : text) (note : string)                (* lib.rs:4508-4511 *)
| MPlain (m : string).                                      (* lib.rs:2330 *)

Inductive error :=
| UnexpectedToken (p : position) (m : message)
| UnexpectedEoF
| ParseAfterEoF
| UnableToReinterpret (p : position) (from to : string)
| Redecl (p : position) (ident : text)
| OperationError (p : position) (m : string)
| InvalidGetterParams (p : position)
| InvalidSetterParams (p : position)
| NonStrictFeatureInStrictContext (p : position) (feature : string)
| OtherError.

(** ** Context: /repo/src/lib.rs:88-157
    Three of the fifteen fields live elsewhere: [is_module] is never
    written after construction and is in [cfg]; [has_line_term] is written
    only by [next_item] and is [st_nl]; the rest are here. *)
Record ctx := mkCtx {
  c_allow_in : bool;
  c_allow_strict_directive : bool;
  c_allow_yield : bool;
  c_await : bool;
  c_first_covert : option item;
  c_assign_target : bool;
  c_binding_element : bool;
  c_in_function_body : bool;
  c_in_iteration : bool;
  c_in_switch : bool;
  c_label_set : list text;        (* HashSet<String> *)
  c_strict : bool;
  c_past_prolog : bool
}.

(** lib.rs:136-157 [Context::default]. *)
Definition default_ctx : ctx :=
  mkCtx true true true false None false false false false false [] false false.

Definition set_allow_in v c := mkCtx v (c_allow_strict_directive c) (c_allow_yield c) (c_await c) (c_first_covert c) (c_assign_target c) (c_binding_element c) (c_in_function_body c) (c_in_iteration c) (c_in_switch c) (c_label_set c) (c_strict c) (c_past_prolog c).
Definition set_allow_strict_directive v c := mkCtx (c_allow_in c) v (c_allow_yield c) (c_await c) (c_first_covert c) (c_assign_target c) (c_binding_element c) (c_in_function_body c) (c_in_iteration c) (c_in_switch c) (c_label_set c) (c_strict c) (c_past_prolog c).
Definition set_allow_yield v c := mkCtx (c_allow_in c) (c_allow_strict_directive c) v (c_await c) (c_first_covert c) (c_assign_target c) (c_binding_element c) (c_in_function_body c) (c_in_iteration c) (c_in_switch c) (c_label_set c) (c_strict c) (c_past_prolog c).
Definition set_await v c := mkCtx (c_allow_in c) (c_allow_strict_directive c) (c_allow_yield c) v (c_first_covert c) (c_assign_target c) (c_binding_element c) (c_in_function_body c) (c_in_iteration c) (c_in_switch c) (c_label_set c) (c_strict c) (c_past_prolog c).
Definition set_first_covert v c := mkCtx (c_allow_in c) (c_allow_strict_directive c) (c_allow_yield c) (c_await c) v (c_assign_target c) (c_binding_element c) (c_in_function_body c) (c_in_iteration c) (c_in_switch c) (c_label_set c) (c_strict c) (c_past_prolog c).
Definition set_assign_target v c := mkCtx (c_allow_in c) (c_allow_strict_directive c) (c_allow_yield c) (c_await c) (c_first_covert c) v (c_binding_element c) (c_in_function_body c) (c_in_iteration c) (c_in_switch c) (c_label_set c) (c_strict c) (c_past_prolog c).
Definition set_binding_element v c := mkCtx (c_allow_in c) (c_allow_strict_directive c) (c_allow_yield c) (c_await c) (c_first_covert c) (c_assign_target c) v (c_in_function_body c) (c_in_iteration c) (c_in_switch c) (c_label_set c) (c_strict c) (c_past_prolog c).
Definition set_in_function_body v c := mkCtx (c_allow_in c) (c_allow_strict_directive c) (c_allow_yield c) (c_await c) (c_first_covert c) (c_assign_target c) (c_binding_element c) v (c_in_iteration c) (c_in_switch c) (c_label_set c) (c_strict c) (c_past_prolog c).
Definition set_in_iteration v c := mkCtx (c_allow_in c) (c_allow_strict_directive c) (c_allow_yield c) (c_await c) (c_first_covert c) (c_assign_target c) (c_binding_element c) (c_in_function_body c) v (c_in_switch c) (c_label_set c) (c_strict c) (c_past_prolog c).
Definition set_in_switch v c := mkCtx (c_allow_in c) (c_allow_strict_directive c) (c_allow_yield c) (c_await c) (c_first_covert c) (c_assign_target c) (c_binding_element c) (c_in_function_body c) (c_in_iteration c) v (c_label_set c) (c_strict c) (c_past_prolog c).
Definition set_label_set v c := mkCtx (c_allow_in c) (c_allow_strict_directive c) (c_allow_yield c) (c_await c) (c_first_covert c) (c_assign_target c) (c_binding_element c) (c_in_function_body c) (c_in_iteration c) (c_in_switch c) v (c_strict c) (c_past_prolog c).
Definition set_strict v c := mkCtx (c_allow_in c) (c_allow_strict_directive c) (c_allow_yield c) (c_await c) (c_first_covert c) (c_assign_target c) (c_binding_element c) (c_in_function_body c) (c_in_iteration c) (c_in_switch c) (c_label_set c) v (c_past_prolog c).
Definition set_past_prolog v c := mkCtx (c_allow_in c) (c_allow_strict_directive c) (c_allow_yield c) (c_await c) (c_first_covert c) (c_assign_target c) (c_binding_element c) (c_in_function_body c) (c_in_iteration c) (c_in_switch c) (c_label_set c) (c_strict c) v.

(** ** What does not change during a parse
    [tolerant] (Config, lib.rs:78-81), [is_module] (lib.rs:91), the text, the
    line table (lib.rs:300), and the predicates of [ress] whose definition is
    not in /repo: [RefToken::is_restricted] (lib.rs:1675, 4398),
    [RefToken::is_strict_reserved] (lib.rs:4402) and
    [RefToken::is_literal] (lib.rs:2192).  Every theorem quantifies over them. *)
Record cfg := mkCfg {
  g_tolerant : bool;
  g_module : bool;
  g_stream : text;
  g_lines : list Line;
  g_restricted : token -> bool;
  g_strict_reserved : token -> bool;
  g_literal : token -> bool;
  g_end_nl : bool    (* scanner.pending_new_line once the scanner is exhausted *)
}.

(** What the scanner will still yield: each item with the value of
    [scanner.pending_new_line] read just before the [next()] call that yields it. *)
Record raw := mkRaw { r_item : item; r_nl : bool }.

Record comment := mkComment { cm_kind : comment_kind; cm_text : text; cm_start : nat; cm_end : nat }.

(** ** Parser state: /repo/src/lib.rs:288-322 (fields that change) *)
Record state := mkState {
  st_ctx : ctx;
  st_look : item;          (* look_ahead *)
  st_found_eof : bool;     (* found_eof *)
  st_cur_pos : position;   (* current_position *)
  st_look_pos : position;  (* look_ahead_position *)
  st_rest : list raw;      (* scanner *)
  st_nl : bool;            (* context.has_line_term *)
  st_comments : list comment  (* what the comment handler was given so far *)
}.

Definition upd_ctx (f : ctx -> ctx) (s : state) : state :=
  mkState (f (st_ctx s)) (st_look s) (st_found_eof s) (st_cur_pos s) (st_look_pos s)
          (st_rest s) (st_nl s) (st_comments s).

Inductive outcome (A : Type) :=
| Ok (a : A) | Err (e : error) | Panic | NoFuel.
Arguments Ok {A}. Arguments Err {A}. Arguments Panic {A}. Arguments NoFuel {A}.

(** ** [next_item]: /repo/src/lib.rs:4160-4204
    The loop runs over the scanner's remaining items; [sp] is the local
    [look_ahead_span].  [handle_comment] is the append to [st_comments]. *)
Fixpoint next_item_loop (g : cfg) (rest : list raw) (sp : nat * nat) (s : state)
  : outcome item * state :=
  match rest with
  | [] =>
      let s1 := mkState (st_ctx s) (st_look s) (st_found_eof s) (st_cur_pos s)
                        (st_look_pos s) [] (g_end_nl g) (st_comments s) in
      if is_eof (it_tok (st_look s)) then
        if st_found_eof s then (Err ParseAfterEoF, s1)
        else (Ok (st_look s),
              mkState (st_ctx s) (st_look s) true (st_cur_pos s)
                      (st_look_pos s) [] (g_end_nl g) (st_comments s))
      else (Err UnexpectedEoF, s1)
  | r :: rest' =>
      let la := r_item r in
      match update_positions (g_stream g) (fst sp) (snd sp) (it_start la) (st_look_pos s) with
      | None => (Panic, s)
      | Some (cur, lpos) =>
          match it_tok la with
          | TComment k =>
              match slice (g_stream g) (it_start la) (it_end la) with
              | None =>
                  (Err (OperationError cur "Unable to get string"),
                   mkState (st_ctx s) (st_look s) (st_found_eof s) cur lpos rest' (r_nl r)
                           (st_comments s))
              | Some t =>
                  next_item_loop g rest' (it_start la, it_end la)
                    (mkState (st_ctx s) (st_look s) (st_found_eof s) cur lpos rest' (r_nl r)
                             (st_comments s ++ [mkComment k t (it_start la) (it_end la)]))
              end
          | _ =>
              (Ok (st_look s),
               mkState (st_ctx s) la (st_found_eof s) cur lpos rest' (r_nl r) (st_comments s))
          end
      end
  end.

Definition next_item (g : cfg) (s : state) : outcome item * state :=
  next_item_loop g (st_rest s) (it_start (st_look s), it_end (st_look s)) s.

(** [scanner.look_ahead()] (lib.rs:4360): the next scanner item, comments included. *)
Definition peek_raw (s : state) : option item :=
  match st_rest s with [] => None | r :: _ => Some (r_item r) end.

(** [skip_comments] then [next] on the scanner, state restored afterwards
    (lib.rs:4271-4277, 4305-4311). *)
Fixpoint first_non_comment (l : list raw) : option item :=
  match l with
  | [] => None
  | r :: l' => if is_comment (it_tok (r_item r)) then first_non_comment l' else Some (r_item r)
  end.

(** ** Error construction
    [item_pos] is [get_item_position] (lib.rs:4455-4480); a panic there cannot happen for
    the tables [get_lines] builds (proved), so the default is never used. *)
Definition item_pos (g : cfg) (i : item) : position :=
  match item_position (g_lines g) (it_start i) with Some p => p | None => mkPos 0 0 end.

Inductive fail_desc :=
| FExpected (i : item) (expectations : list string)  (* expected_token_error,   lib.rs:4482-4497 *)
| FUnexpected (i : item) (note : string)             (* unexpected_token_error, lib.rs:4501-4513 *)
| FRedecl (ident : text)                             (* redecl_error,    lib.rs:4522-4524 *)
| FOperation (msg : string)                          (* op_error,        lib.rs:4526-4528 *)
| FReinterpret (from to : string)                    (* reinterpret_error, lib.rs:4530-4532 *)
| FError (e : error).                                (* errors built in place *)

Definition mk_error (g : cfg) (s : state) (d : fail_desc) : error :=
  match d with
  | FExpected i exps => UnexpectedToken (item_pos g i) (MExpected exps (it_tok i))
  | FUnexpected i note =>
      UnexpectedToken (item_pos g i)
        (MUnexpected (match slice (g_stream g) (it_start i) (it_end i) with
                      | Some t => t | None => [] end) note)
  | FRedecl id => Redecl (st_cur_pos s) id
  | FOperation m => OperationError (st_cur_pos s) m
  | FReinterpret from to => UnableToReinterpret (st_cur_pos s) from to
  | FError e => e
  end.

(** Queries answered by [ress] predicates not in /repo. *)
Inductive query := QRestricted (t : token) | QStrictReserved (t : token) | QLiteral (t : token).

(** ** Primitive operations *)
Inductive op : Type -> Type :=
| ONext : op item                       (* self.next_item()? *)
| ONextIgnored : op unit                (* let _ = self.next_item();   lib.rs:699 *)
| OLook : op item                       (* self.look_ahead *)
| ONewLine : op bool                    (* self.context.has_line_term *)
| OCtx : op ctx                         (* read self.context *)
| OUpd (f : ctx -> ctx) : op unit       (* write self.context *)
| OLookPos : op position                (* self.look_ahead_position *)
| OCurPos : op position                 (* self.current_position *)
| OStr (i : item) : op (option text)    (* scanner.string_for(span) / stream[span] *)
| OPeek : op (option item)              (* self.scanner.look_ahead() *)
| OPeekSkip : op (option item)          (* skip_comments + next, then set_state *)
| OItemPos (i : item) : op position     (* self.get_item_position(i) *)
| OTolerate (d : fail_desc) : op unit   (* if !self.config.tolerant { return Err(d) } *)
| OExpectComma : op unit                (* expect_comma_sep, lib.rs:3964-3980 *)
| OGuardModule (b : option bool) (d : fail_desc) : op unit
    (* if is_module && b { return Err(d) }; [b = None] when evaluating [b] would panic *)
| OQuery (q : query) : op bool.

Definition exec (g : cfg) {B} (o : op B) (s : state) : outcome B * state :=
  match o in op B return outcome B * state with
  | ONext => next_item g s
  | ONextIgnored =>
      match next_item g s with
      | (Panic, s') => (Panic, s')
      | (_, s') => (Ok tt, s')
      end
  | OLook => (Ok (st_look s), s)
  | ONewLine => (Ok (st_nl s), s)
  | OCtx => (Ok (st_ctx s), s)
  | OUpd f => (Ok tt, upd_ctx f s)
  | OLookPos => (Ok (st_look_pos s), s)
  | OCurPos => (Ok (st_cur_pos s), s)
  | OStr i => (Ok (slice (g_stream g) (it_start i) (it_end i)), s)
  | OPeek => (Ok (peek_raw s), s)
  | OPeekSkip => (Ok (first_non_comment (st_rest s)), s)
  | OItemPos i => (Ok (item_pos g i), s)
  | OTolerate d => if g_tolerant g then (Ok tt, s) else (Err (mk_error g s d), s)
  | OExpectComma =>
      if g_tolerant g then
        if is_punct PComma (it_tok (st_look s)) then
          match next_item g s with
          | (Ok _, s') => (Ok tt, s')
          | (Err e, s') => (Err e, s')
          | (Panic, s') => (Panic, s')
          | (NoFuel, s') => (NoFuel, s')
          end
        else (Ok tt, s)
      else
        match next_item g s with
        | (Ok i, s') =>
            if is_punct PComma (it_tok i) then (Ok tt, s')
            else (Err (mk_error g s' (FExpected i ["Comma"%string])), s')
        | (Err e, s') => (Err e, s')
        | (Panic, s') => (Panic, s')
        | (NoFuel, s') => (NoFuel, s')
        end
  | OGuardModule b d =>
      if g_module g then
        match b with
        | None => (Panic, s)
        | Some true => (Err (mk_error g s d), s)
        | Some false => (Ok tt, s)
        end
      else (Ok tt, s)
  | OQuery q =>
      (Ok (match q with
           | QRestricted t => g_restricted g t
           | QStrictReserved t => g_strict_reserved g t
           | QLiteral t => g_literal g t
           end), s)
  end.

(** ** Programs
    [call B] is a parameter: the type of (function, arguments) pairs returning
    [Res<B>]; Parser.v instantiates it with the functions of lib.rs. *)
Section Programs.
  Variable call : Type -> Type.

  Inductive prog : Type -> Type :=
  | Ret {A} (a : A) : prog A
  | Fail {A} (d : fail_desc) : prog A                  (* return Err(..) *)
  | Crash {A} : prog A                                  (* panic!, unreachable!, bad slice index *)
  | Do {A} (o : op A) : prog A
  | Call {A} (c : call A) : prog A
  | Bind {A B} (p : prog A) (k : A -> prog B) : prog B
  | Loop {A S} (x : S) (body : S -> prog (S + A)) : prog A. (* inl: continue, inr: break *)

  Variable body : forall B, call B -> prog B.

  (** Iterating a loop body at most [n] times. *)
  Section Iter.
    Context {A S : Type} (step : S -> state -> outcome (S + A) * state).
    Fixpoint iter (n : nat) (x : S) (s : state) : outcome A * state :=
      match n with
      | 0 => (NoFuel, s)
      | Datatypes.S n' =>
          match step x s with
          | (Ok (inl x'), s') => iter n' x' s'
          | (Ok (inr a), s') => (Ok a, s')
          | (Err e, s') => (Err e, s')
          | (Panic, s') => (Panic, s')
          | (NoFuel, s') => (NoFuel, s')
          end
      end.
  End Iter.

  (** [run_in rec p s]: evaluate [p], using [rec] for calls and [n] as the bound on loop
      iterations. *)
  Section RunIn.
    Variable g : cfg.
    Variable n : nat.
    Variable rec : forall B, call B -> state -> outcome B * state.
    Fixpoint run_in {B} (p : prog B) (s : state) {struct p} : outcome B * state :=
      match p in prog B return outcome B * state with
      | Ret a => (Ok a, s)
      | Fail d => (Err (mk_error g s d), s)
      | Crash => (Panic, s)
      | Do o => exec g o s
      | Call c => rec _ c s
      | Bind q k =>
          match run_in q s with
          | (Ok a, s') => run_in (k a) s'
          | (Err e, s') => (Err e, s')
          | (Panic, s') => (Panic, s')
          | (NoFuel, s') => (NoFuel, s')
          end
      | Loop x bd => iter (fun y s' => run_in (bd y) s') n x s
      end.
  End RunIn.

  (** [run_call g n c s]: call [c] with call depth at most [n]; [run g n p s]: evaluate [p]. *)
  Fixpoint run_call (g : cfg) (n : nat) {B} (c : call B) (s : state) {struct n}
    : outcome B * state :=
    match n with
    | 0 => (NoFuel, s)
    | S m => run_in g m (@run_call g m) (body _ c) s
    end.

  Definition run (g : cfg) (n : nat) {B} (p : prog B) (s : state) : outcome B * state :=
    run_in g n (@run_call g n) p s.
End Programs.

Arguments Ret {call A}. Arguments Fail {call A}. Arguments Crash {call A}.
Arguments Do {call A}. Arguments Call {call A}. Arguments Bind {call A B}.
Arguments Loop {call A S}.
Arguments run_in {call} g n rec {B}.
Arguments run_call {call} body g n {B}.
Arguments run {call} body g n {B}.
