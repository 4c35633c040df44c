(** How errors are written out.
    Models /repo/src/error.rs:17-32 ([Display for Error]), /repo/src/lib.rs:70-74 ([Display for
    Position]) and the messages of lib.rs:4485-4500 ([expected_token_error]) and 4508-4511
    ([unexpected_token_error]).  [dbg] is the derived [Debug] of [ress::Token], not in /repo. *)
From Verif Require Export Api.
Open Scope string_scope.
Open Scope nat_scope.
Open Scope list_scope.

(** [Display for usize]: decimal, no leading zeros.  [n] bounds the number of digits. *)
Fixpoint digits (n k : nat) (acc : text) : text :=
  let acc' := N.of_nat (48 + k mod 10) :: acc in
  match n with
  | 0 => acc'
  | S n' => if k <? 10 then acc' else digits n' (k / 10) acc'
  end.
Definition decimal (k : nat) : text := digits k k [].

(** lib.rs:70-74 *)
Definition show_position (p : position) : text := decimal (p_line p) ++ str ":" ++ decimal (p_col p).

(** [slice::join] *)
Fixpoint join (sep : text) (l : list text) : text :=
  match l with
  | [] => []
  | [w] => w
  | w :: r => w ++ sep ++ join sep r
  end.

(** lib.rs:4486-4497: [i] is the index of the closure, [n] the number of expectations. *)
Fixpoint expectations_from (i n : nat) (l : list string) : list text :=
  match l with
  | [] => []
  | s :: r => (if (i =? n - 1) && (1 <? n) then str "or `" ++ str s ++ str "`" else str "`" ++ str s ++ str "`")
              :: expectations_from (S i) n r
  end.
Definition show_expectations (l : list string) : text := join (str ", ") (expectations_from 0 (length l) l).

Section Show.
  Variable dbg : token -> text.

  Definition show_message (m : message) : text :=
    match m with
    | MExpected l t => str "Expected " ++ show_expectations l ++ str "; found " ++ dbg t    (* lib.rs:4500 *)
    | MUnexpected w m => str "Found unexpected token: " ++ w ++ str "; " ++ str m             (* lib.rs:4511 *)
    | MPlain m => str m                                                                       (* lib.rs:2330 *)
    end.

  (** error.rs:17-32.  [OtherError] wraps an error of [std::io], whose text [other] is not known. *)
  Definition show_error (other : text) (e : error) : text :=
    match e with
    | UnexpectedToken p m => str "Unexpected Token at " ++ show_position p ++ str ": " ++ show_message m
    | UnexpectedEoF => str "Unexpectedly found the end of the file"
    | ParseAfterEoF => str "Parser attempted to get the next token after finding the end of the file"
    | UnableToReinterpret p from to =>
        str "Unable to re-interpret from " ++ str from ++ str " to " ++ str to ++ str " at " ++ show_position p
    | Redecl p w => str "Nested label at " ++ show_position p ++ str " shadows parent: " ++ w
    | OperationError p m => str "Invalid operation, " ++ show_position p ++ str ": " ++ str m
    | InvalidGetterParams p =>
        str "Found a getter method that takes arguments at " ++ show_position p ++ str ", getter methods cannot take arguments"
    | InvalidSetterParams p =>
        str "Found a setter method that takes more or less than 1 argument at " ++ show_position p
        ++ str ", setter methods must take only one argument"
    | NonStrictFeatureInStrictContext p name =>
        str "Attempting to use non-strict feature " ++ str name ++ str " in a strict context at " ++ show_position p
    | OtherError => other
    end.
End Show.
