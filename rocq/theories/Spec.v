(** Small specifications used by the theorem statements of the Properties files: what it
    means for an API call to return, the iteration of parts, what the comment handler
    should have received. *)
From Verif Require Export Api.

(** [f n] is an API call run with stack for [n] nested calls.  It returns [o], leaving the
    parser in state [s'], if some amount of stack suffices. *)
Definition returns {A} (f : nat -> outcome A * state) (o : outcome A) (s' : state) : Prop :=
  o <> NoFuel /\ exists n, f n = (o, s').

(** [Builder::..build()?.parse()] (or [Parser::new(js)?.parse()]). *)
Definition parse_text (sc : scanner) (b : builder) (o : outcome Program) (s' : state) : Prop :=
  match build sc b with
  | (g, (Ok _, s)) => returns (fun n => parse g n s) o s'
  | (_, (Err e, s)) => o = Err e /\ s' = s
  | (_, (Panic, s)) => o = Panic /\ s' = s
  | (_, (NoFuel, _)) => False
  end.

(** One call of [Iterator::next]: [None], or [Some] of a result. *)
Definition next_returns (g : cfg) (s : state) (r : option (outcome ProgramPart)) (s' : state) : Prop :=
  r <> Some NoFuel /\ exists n, iter_next g n s = (r, s').

(** Repeated [Some(Ok(part))]s. *)
Inductive yields (g : cfg) : state -> list ProgramPart -> state -> Prop :=
| yields_nil : forall s, yields g s [] s
| yields_cons : forall s part s1 parts s2,
    next_returns g s (Some (Ok part)) s1 -> yields g s1 parts s2 -> yields g s (part :: parts) s2.

(** A parser reachable from the scanner output [items]: constructed, then any number of calls
    of [next], successful or not. *)
Inductive reachable (g : cfg) (items : list raw) : state -> Prop :=
| reach_new : forall i s, start g items = (Ok i, s) -> reachable g items s
| reach_next : forall s n r s', reachable g items s -> iter_next g n s = (r, s') -> reachable g items s'.

(** What the handler must have received once the scanner items [l] were taken: the comments
    among them, in order, with their source text. *)
Definition comment_of (js : text) (r : raw) : option comment :=
  match it_tok (r_item r) with
  | TComment k =>
      option_map (fun t => mkComment k t (it_start (r_item r)) (it_end (r_item r)))
                 (slice js (it_start (r_item r)) (it_end (r_item r)))
  | _ => None
  end.
Fixpoint delivered (js : text) (l : list raw) : list comment :=
  match l with
  | [] => []
  | r :: l' => match comment_of js r with Some c => c :: delivered js l' | None => delivered js l' end
  end.

(** The end-of-file token is only ever last. *)
Definition eof_only_last (items : list raw) : Prop :=
  forall l r l', items = l ++ r :: l' -> is_eof (it_tok (r_item r)) = true -> l' = [].

(** The same parser having received different comments. *)
Definition with_comments (c : list comment) (s : state) : state :=
  mkState (st_ctx s) (st_look s) (st_found_eof s) (st_cur_pos s) (st_look_pos s) (st_rest s) (st_nl s) c.

(** Builder setters, as data, and the last value set. *)
Inductive setter := SetTolerant (v : bool) | SetModule (v : bool) | SetJs (t : text).
Definition apply_setter (b : builder) (x : setter) : builder :=
  match x with
  | SetTolerant v => b_set_tolerant v b
  | SetModule v => b_set_module v b
  | SetJs t => b_set_js t b
  end.
Fixpoint last_such {A B} (f : A -> option B) (d : B) (l : list A) : B :=
  match l with
  | [] => d
  | x :: l' => last_such f (match f x with Some v => v | None => d end) l'
  end.
Definition tolerant_set (x : setter) := match x with SetTolerant v => Some v | _ => None end.
Definition module_set (x : setter) := match x with SetModule v => Some v | _ => None end.
Definition js_set (x : setter) := match x with SetJs t => Some t | _ => None end.

(** The source text of an item, as error messages quote it. *)
Definition text_of (js : text) (i : item) : text :=
  match slice js (it_start i) (it_end i) with Some t => t | None => [] end.

(** The items a parser of [items] can hold: what the scanner yields or, if that is nothing but
    comments, the look-ahead the parser starts with (lib.rs:446-449). *)
Definition only_comments (items : list raw) : Prop := Forall (fun r => is_comment (it_tok (r_item r)) = true) items.
Definition input_item (items : list raw) (i : item) : Prop :=
  (i = mkItem TEoF 0 0 /\ only_comments items) \/ exists r, In r items /\ i = r_item r.

(** Any sequence of primitive operations of the parser. *)
Inductive moves (g : cfg) : state -> state -> Prop :=
| moves_refl : forall s, moves g s s
| moves_step : forall B (o : op B) s r s1 s2, exec g o s = (r, s1) -> moves g s1 s2 -> moves g s s2.

(** [o] is what some API call on this text comes back with: the construction of the parser,
    [parse], [parse_expression] or [next], the last three after any number of calls of [next]
    (successful or not). *)
Inductive api_outcome (sc : scanner) (tolerant module : bool) (js : text) : forall A, outcome A -> Prop :=
| api_new :
    api_outcome sc tolerant module js item (fst (start (make_cfg sc tolerant module js) (sc_scan sc js)))
| api_parse : forall s n,
    reachable (make_cfg sc tolerant module js) (sc_scan sc js) s ->
    api_outcome sc tolerant module js _ (fst (parse (make_cfg sc tolerant module js) n s))
| api_next : forall s n r,
    reachable (make_cfg sc tolerant module js) (sc_scan sc js) s ->
    fst (iter_next (make_cfg sc tolerant module js) n s) = Some r -> api_outcome sc tolerant module js _ r
| api_expression : forall s n,
    reachable (make_cfg sc tolerant module js) (sc_scan sc js) s ->
    api_outcome sc tolerant module js _ (fst (parse_expression (make_cfg sc tolerant module js) n s)).
Arguments api_outcome sc tolerant module js {A}.
