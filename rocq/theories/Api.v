(** The public surface: /repo/src/lib.rs:208-276 (Builder), 398-510 (Parser
    construction and [parse]), 4552-4564 (Iterator). *)
From Verif Require Export Parser.

(** ** Builder: lib.rs:208-258 *)
Record builder := mkBuilder { b_tolerant : bool; b_module : bool; b_js : text }.
(** lib.rs:215-221 [Builder::new]. *)
Definition builder_new : builder := mkBuilder false false [].
(** lib.rs:224-233 [set_tolerant]/[tolerant]. *)
Definition b_set_tolerant (v : bool) (b : builder) := mkBuilder v (b_module b) (b_js b).
(** lib.rs:235-245 [set_module]/[module]. *)
Definition b_set_module (v : bool) (b : builder) := mkBuilder (b_tolerant b) v (b_js b).
(** lib.rs:247-256 [set_js]/[js]. *)
Definition b_set_js (t : text) (b : builder) := mkBuilder (b_tolerant b) (b_module b) t.

(** What lib.rs takes from crates outside /repo: the scanner of [ress], as the sequence
    of items it yields for a text, the value of [pending_new_line] once it is exhausted,
    and three token predicates. *)
Record scanner := mkScanner {
  sc_scan : text -> list raw;
  sc_end_nl : text -> bool;
  sc_restricted : token -> bool;
  sc_strict_reserved : token -> bool;
  sc_literal : token -> bool }.

(** The read-only part of the parser built from a text and the two options:
    lib.rs:418-436 [Parser::build], with the line table of lib.rs:264, 272 and 407. *)
Definition make_cfg (sc : scanner) (tolerant module : bool) (js : text) : cfg :=
  mkCfg tolerant module js (get_lines js)
        (sc_restricted sc) (sc_strict_reserved sc) (sc_literal sc) (sc_end_nl sc js).

(** The state before the first [next_item]: lib.rs:446-467. *)
Definition initial_state (rest : list raw) : state :=
  mkState default_ctx (mkItem TEoF 0 0) false (mkPos 1 0) (mkPos 1 0) rest false [].

(** lib.rs:439-471 [Parser::_new]. *)
Definition start (g : cfg) (rest : list raw) : outcome item * state :=
  next_item g (initial_state rest).

(** lib.rs:260-266 [Builder::build] and 269-276 [with_comment_handler]: the parser they
    return, as its configuration and the result of its construction. *)
Definition build (sc : scanner) (b : builder) : cfg * (outcome item * state) :=
  let g := make_cfg sc (b_tolerant b) (b_module b) (b_js b) in
  (g, start g (sc_scan sc (b_js b))).

(** lib.rs:406-412 [Parser::new]. *)
Definition parser_new (sc : scanner) (js : text) : cfg * (outcome item * state) :=
  let g := make_cfg sc false false js in
  (g, start g (sc_scan sc js)).

(** lib.rs:4552-4564 [Iterator::next].  [None] is the end of the iteration. *)
Definition iter_next (g : cfg) (n : nat) (s : state) : option (outcome ProgramPart) * state :=
  if is_eof (it_tok (st_look s)) then (None, s)
  else let (r, s') := run_call (@body) g n CNextPart s in (Some r, s').

(** lib.rs:496-510 [Parser::parse]: the loop, then the choice of [Program]. *)
Definition parse_parts : P (list ProgramPart) :=
  Loop [] (fun acc =>
    t <- look_tok ;;
    if is_eof t then Ret (inr acc)
    else p <- Call CNextPart ;; Ret (inl (acc ++ [p]))).

Definition make_program (module : bool) (l : list ProgramPart) : Program :=
  if module then PMod l else PScript l.

Definition parse (g : cfg) (n : nat) (s : state) : outcome Program * state :=
  match run (@body) g n parse_parts s with
  | (Ok l, s') => (Ok (make_program (g_module g) l), s')
  | (Err e, s') => (Err e, s')
  | (Panic, s') => (Panic, s')
  | (NoFuel, s') => (NoFuel, s')
  end.

(** lib.rs:1531-1551 [Parser::parse_expression] is public: a single expression. *)
Definition parse_expression (g : cfg) (n : nat) (s : state) : outcome Expr * state :=
  run_call (@body) g n CExpression s.
