(** Source text, byte spans, the line table and positions.
    Models /repo/src/lib.rs:64-68, 323-396, 4206-4236, 4455-4480.

    A Rust [String]/[&str] is modelled as the list of its Unicode scalar
    values ([char]s); byte offsets are [nat] and a [char] occupies
    [len_utf8] bytes, so every byte offset of the code is a byte offset here. *)
From Coq Require Export String Ascii.
From Coq Require Export List Arith NArith Bool Lia.
Export ListNotations.
Open Scope list_scope.

(** A Rust string: list of code points. *)
Definition text := list N.

Definition str (s : string) : text := map N_of_ascii (list_ascii_of_string s).

Fixpoint text_eqb (a b : text) : bool :=
  match a, b with
  | [], [] => true
  | x :: a', y :: b' => N.eqb x y && text_eqb a' b'
  | _, _ => false
  end.

(** Rust's [char::len_utf8] (used at lib.rs:385; also the unit of every
    [str] index in lib.rs). *)
Definition len_utf8 (c : N) : nat :=
  if (c <? 128)%N then 1
  else if (c <? 2048)%N then 2
  else if (c <? 65536)%N then 3 else 4.

(** [str::len] in bytes. *)
Fixpoint byte_len (t : text) : nat :=
  match t with [] => 0 | c :: t' => len_utf8 c + byte_len t' end.

(** Split off the first [n] bytes; [None] when [n] is past the end or not a
    [char] boundary. *)
Fixpoint drop_bytes (n : nat) (t : text) : option text :=
  match n with
  | 0 => Some t
  | _ => match t with
         | [] => None
         | c :: t' => if len_utf8 c <=? n then drop_bytes (n - len_utf8 c) t' else None
         end
  end.

Fixpoint take_bytes (n : nat) (t : text) : option text :=
  match n with
  | 0 => Some []
  | _ => match t with
         | [] => None
         | c :: t' => if len_utf8 c <=? n
                      then option_map (cons c) (take_bytes (n - len_utf8 c) t')
                      else None
         end
  end.

(** Rust's [str::get(a..b)]: [None] exactly where the indexing form
    [&s[a..b]] panics.  Used for [RefScanner::string_for] and for every
    [&self.scanner.stream[a..b]] of lib.rs. *)
Definition slice (t : text) (a b : nat) : option text :=
  if b <? a then None
  else match drop_bytes a t with
       | None => None
       | Some t' => take_bytes (b - a) t'
       end.

Definition LF : N := 10.
Definition CR : N := 13.
Definition LS : N := 8232.   (* U+2028 *)
Definition PS : N := 8233.   (* U+2029 *)

(** The predicate of the closures at lib.rs:4212 and 4221. *)
Definition is_nl (c : N) : bool :=
  (N.eqb c LF || N.eqb c CR || N.eqb c LS || N.eqb c PS).

(** lib.rs:323-328 [struct Line]. *)
Record Line := mkLine { l_start : nat; l_end : nat }.

(** lib.rs:332-396 [get_lines]: one step per char of the closure passed to
    [filter_map]; [full] is [text], [ls] is [line_start], [bp] is
    [byte_position].  The pushed last line is the base case. *)
Fixpoint get_lines_aux (full rest : text) (ls bp : nat) : list Line :=
  match rest with
  | [] => [mkLine ls (byte_len full - 1)]
  | c :: rest' =>
      let bp' := bp + len_utf8 c in
      if N.eqb c CR then
        match slice full bp (bp + 2) with
        | Some next =>
            if text_eqb next [CR; LF] then get_lines_aux full rest' ls bp'
            else mkLine ls bp :: get_lines_aux full rest' (bp + 1) bp'
        | None => get_lines_aux full rest' ls bp'
        end
      else if N.eqb c LF then
        mkLine ls bp :: get_lines_aux full rest' (bp + 1) bp'
      else if N.eqb c LS || N.eqb c PS then
        mkLine ls (bp + 2) :: get_lines_aux full rest' (bp + 3) bp'
      else get_lines_aux full rest' ls bp'
  end.

Definition get_lines (t : text) : list Line := get_lines_aux t t 0 0.

(** lib.rs:64-68 [struct Position]. *)
Record position := mkPos { p_line : nat; p_col : nat }.

(** lib.rs:4461-4473 [search], the binary search inside [get_item_position].
    [fuel] bounds the recursion depth; [None] stands for a Rust panic
    (index out of range on an empty table) or exhausted fuel. *)
Fixpoint search (fuel : nat) (lines : list Line) (start index : nat) : option (nat * Line) :=
  match fuel with
  | 0 => None
  | S f =>
      let current_len := length lines in
      if current_len =? 1 then option_map (fun l => (index, l)) (nth_error lines 0)
      else
        let half := Nat.div2 current_len in
        match half with
        | 0 => None
        | S h =>
            match nth_error lines h with
            | None => None
            | Some l => if start <? l_end l
                        then search f (firstn half lines) start index
                        else search f (skipn half lines) start (index + half)
            end
        end
  end.

(** lib.rs:4455-4480 [get_item_position], as a function of the start offset of the item;
    [saturating_sub] is [nat] subtraction. *)
Definition item_position (lines : list Line) (start : nat) : option position :=
  option_map (fun '(idx, l) => mkPos (idx + 1) (start - l_start l))
             (search (length lines) lines start 0).

(** Rust's [str::lines] (std): split at LF, drop a CR right before the LF, no
    final empty line. [cur] is the current line, reversed. *)
Definition strip_cr (rev_line : text) : text :=
  match rev_line with c :: r => if N.eqb c CR then rev r else rev rev_line | [] => [] end.

Fixpoint str_lines_aux (cur t : text) : list text :=
  match t with
  | [] => match cur with [] => [] | _ => [rev cur] end
  | c :: t' => if N.eqb c LF then strip_cr cur :: str_lines_aux [] t'
               else str_lines_aux (c :: cur) t'
  end.

Definition str_lines (t : text) : list text := str_lines_aux [] t.

Definition last_opt {A} (l : list A) : option A :=
  match l with [] => None | x :: r => Some (last r x) end.

(** [matches("\r\n").count()] (lib.rs:4212). *)
Fixpoint count_crlf (t : text) : nat :=
  match t with
  | c :: ((d :: _) as t') =>
      (if N.eqb c CR && N.eqb d LF then 1 else 0) + count_crlf t'
  | _ => 0
  end.

Definition count_nl (t : text) : nat := length (filter is_nl t).

(** lib.rs:4206-4236 [update_positions]: returns the new
    ([current_position], [look_ahead_position]); [None] is a Rust panic (bad
    slice, or the [usize] subtraction of lib.rs:4212 going below zero). *)
Definition update_positions (stream : text) (la_start la_end next_start : nat)
    (look_pos : position) : option (position * position) :=
  match slice stream la_start next_start, slice stream la_end next_start with
  | Some prev_text, Some whitespace =>
      if count_nl prev_text <? count_crlf whitespace then None
      else
        let line_counts := count_nl prev_text - count_crlf whitespace in
        if line_counts =? 0 then
          Some (look_pos, mkPos (p_line look_pos) (p_col look_pos + byte_len prev_text))
        else
          let last_line_len :=
            match last_opt (str_lines prev_text) with
            | Some last_line =>
                match last_opt prev_text with
                | Some c => if is_nl c then 0 else byte_len last_line
                | None => 0
                end
            | None => 0
            end in
          Some (look_pos, mkPos (p_line look_pos + line_counts) last_line_len)
  | _, _ => None
  end.
