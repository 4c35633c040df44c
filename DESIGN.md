# Formal model of RESSA: design

## What is modelled

The parser of `/repo/src/lib.rs`, all of it, function by function, in Coq 8.16.1:

| file | models |
|---|---|
| `rocq/theories/Text.v` | strings, byte spans, `get_lines` (332-396), `get_item_position` (4455-4480), `update_positions` (4206-4236) |
| `rocq/theories/Token.v` | the token type of the scanner crate `ress`, as used by lib.rs |
| `rocq/theories/Ast.v` | the syntax tree of the crate `resast`, as built by lib.rs |
| `rocq/theories/Prog.v` | parser state, `Context`, `next_item`, error construction, and the small imperative language `prog` with its evaluator `run` |
| `rocq/theories/Parser.v` | the ~100 `parse_*` functions and helpers of lib.rs, one definition each, tied by `body` |
| `rocq/theories/Api.v` | `Builder`, `Parser::new`, `parse`, `Iterator::next`, `parse_expression` |
| `rocq/theories/Display.v` | how errors are written out: `error.rs`, `Display for Position`, the messages of lib.rs |
| `rocq/theories/Lexer.v` | a test-only scanner, used in examples and counterexamples only |

and the development:

| file | contents |
|---|---|
| `Wp.v` | weakest preconditions for `prog`, soundness |
| `Meta.v` | meta-theorems about all programs: fuel monotonicity, simulation, first/last-state relations, framing of the unread input |
| `Spec.v` | the vocabulary of the theorem statements (what it means to return, reachable states, ...) |
| `Runs.v` | consequences for the public interface |
| `Term.v` | termination pass (every function body) |
| `Lines.v`, `Scan.v`, `Positions.v` | line table, scanner contract, running positions |
| `Safe.v` | errors-and-panics pass (every function body) |
| `Tree.v` | syntax trees as nodes and children; `occurs`: where a node lies in the trees handed out |
| `Discipline.v` | the discipline trees obey, a local condition at each node |
| `Trees.v`, `Bodies.v`, `Handed.v` | tree-and-context pass (every function body), and its consequences for trees handed out |
| `Flags.v` | pass for the two flags that are not always restored (C30, C56) |
| `Operators.v` | precedence and associativity of operators |
| `Grammar.v` | the grammar implemented, as productions over tokens; refers to no parser definition; productions outside ECMAScript are marked (!) |
| `Derive.v`, `Derived.v`, `Sentence.v` | grammar pass (every function body recognises its nonterminal), and its consequences for whole runs |
| `Found.v` | every node of a tree handed out is derived from a place in the source |
| `Same.v` | the runs of the parser on two texts with the same tokens |
| `Options.v` | what `tolerant` and `module` change, and sequences of calls of `next` |
| `Rename.v` | replacing the texts of tokens in trees and errors; the words the parser knows |
| `Renamed.v` | the runs of the parser on a text and on the text with tokens replaced |
| `Suffix.v` | the state of the parser between two parts; a parser midway and a fresh one on what is left |
| `Words.v` | the words of a tree, what is compared, the places where the parser drops words |
| `Kept.v` | the words of a derived tree are those of the tokens it is derived from |
| `Told.v` | every error a program can end in, read off the program |
| `Inert.v` | the flags of the context that nothing depends on |
| `Laxer.v` | a run in strict context against one in sloppy context |
| `Where.v` | which tokens an error can name: those read since the call began |
| `Alone.v` | an expression read by itself and as a statement |
| `Parens.v` | an expression in parentheses |
| `Blocks.v` | the loops over the parts of blocks, bodies and clauses |
| `Ended.v` | the end of the text replaced by a closing token: two runs compared, before the end and at it |
| `Enclosed.v` | a text and the text of the same tokens between two more |
| `Lists.v` | sequences, array literals and arguments, element by element |
| `Chains.v` | members, indexing, calls and tagged templates, link by link |
| `Cost.v` | the evaluator with a count of steps, and a bound for every function body |
| `Async.v` | the scanner contract about the word `async`, and what the computed positions say about it |
| `Subset.v` | a part of ECMAScript as productions from token lists to trees, with every disambiguation; refers to no parser definition |
| `Printer.v` | a printer for the trees of that part; refers to no parser definition |
| `Forward.v` | symbolic evaluation: what a run does when the tokens ahead are known |
| `Heads.v`, `Ladder.v`, `Upper.v`, `Primary.v`, `Pats.v`, `Funcs.v`, `Classes.v`, `Stmts.v`, `Loops.v`, `Modules.v` | completeness, function by function: the parser reads each production back |
| `Complete.v`, `Whole.v` | the induction over the productions, and whole texts |
| `Printed.v` | what the printer writes is a spelling of the tree |
| `Utf8.v` | the UTF-8 encoding, and what byte offsets mean in it |
| `RepoTests.v` | the tests of /repo (`tests/all/snippets.rs`, unit tests of lib.rs) run on the model |
| `Properties*.v` | the theorems of `properties.jsonl`, their assumptions, examples, refutations |

Every Rust method `fn parse_x(&mut self, args) -> Res<T>` is a constructor of `call T`
and a body of type `prog T`. The evaluator threads the state, propagates `Err` as `?` does,
keeps the state reached at an error, and has a distinguished outcome for panics
(`Panic`) and for an exhausted recursion budget (`NoFuel`). The budget is shown not to matter
(C01, C36).

## What is not modelled

* The scanner crate `ress` and the tree crate `resast`: their sources are not in /repo. The
  scanner is an arbitrary list of items with spans and newline flags: theorems hold for
  every such list, or state the contract they need (C34, C40-C43). Three token predicates of `ress`
  (`is_restricted`, `is_strict_reserved`, `is_literal`) are arbitrary functions.
* Logging, backtraces, the `Debug` form of a token (of `ress`; a parameter of `Display.v`), `examples/`, `benches/`.
* `usize` overflow (needs a source longer than the address space), allocation failure, and the
  machine stack limit (C01 bounds the depth instead).
* Dead code of lib.rs: the `await` test at 2266, empty `if` blocks holding only a comment, the
  `params` vectors that are pushed to and never read. Named where they occur in `Parser.v`.

## Trusted base

Coq's kernel; the transcription of lib.rs into `Parser.v`/`Prog.v`/`Text.v`/`Api.v` (by hand, cited
line by line); the reading of `ress`/`resast` types off their uses. No axioms: every theorem of the
`Properties*.v` files is followed by `Print Assumptions`, which must answer "Closed under the global
context". (`coqchk` also lists seven constants of the standard library's `Coq.ssr.ssrunder`, which a
module type there seals; they come with the libraries loaded, and no theorem depends on them.)

The transcription is checked against the tests of the repository: `RepoTests.v` holds all 51 tests of
`tests/all/snippets.rs` and the unit tests of lib.rs:4580-4650, with the trees the Rust tests compare
against, evaluated on the model (with the scanner of `Lexer.v`). All pass.

## How the properties are proved

* **Text level** (C11-C13, C42): induction on the text / on the table.
* **Meta-theorems over all programs of the language `prog`** (C03, C05-C10, C36, C37, C49): induction on
  the fuel, then on the program; they hold for every parser written in `prog` without looking at
  function bodies, or need a simple condition on each body.
* **Weakest preconditions** (`Wp.v`): a predicate transformer for `prog` with a specification
  (pre/postcondition) for each of the ~100 functions; a soundness theorem says that if every body meets
  its specification assuming those of its callees, then every run does. Used for
  - termination (C01, C02, C04): weight `K * tokens left + rank of the function`;
  - absence of panics and internal errors (C34, C35, C43), error positions (C14);
  - tree disciplines (C17-C33, C38, C39): the trees are given a generic notion of node and child;
    a *discipline* is an inherited attribute plus a local check; the specifications say that every tree
    built satisfies the discipline under the attribute given by the parser's context, and
    that the context is restored (C30).
* **Operator precedence** (C15): the operator-stack loop refines a declarative
  specification (in-order yield and precedence order on trees).
* **Grammar** (C40): productions as an inductive relation from token lists to trees; the
  specifications say that each function recognises its nonterminal.
* **Round trip** (C41): a second grammar (`Subset.v`), restricted to what is read in exactly one
  way; by induction on derivations, every function of the parser, run on tokens derived from its
  nonterminal, returns the tree of the derivation and stops where it ends. The printer writes
  derivable tokens, by induction on the depth of the tree. Outside the subset: names spelled `async`
  at the start of an operand, an argument of `yield` that begins with `import`, `null` (which the parser rejects as an expression), `new a` and `yield` just
  before the end of a template hole (C46), a getter in a class
  outside of a generator or method (the parser then reads on as in a generator, C21),
  and an exported expression, `let` or `const` not followed by a line terminator (C46).

* **Same tokens, same outcome** (C50): a relation between the runs on two texts, preserved by every
  function; positions flow into errors only, except after `async`.
* **Opaque names** (C55): the same with the texts of tokens replaced, and the values of one run the
  renamed values of the other; texts are only compared with the words listed in `Rename.v`, and with
  one another in the label set.
* **Words** (C57): `Words.v` writes the words of a tree from left to right, without regard to what the
  parser does. An induction on the derivations of C40 compares them with the tokens.
* **Parts are independent** (C56): an invariant of the state between parts (all of the context but two
  flags is as at the start), after which the relation of C50 holds between a parser midway and a
  fresh one.

Every theorem of a `Properties` file is accompanied by an example meeting its hypotheses. Claims that
turn out false of the code are kept as `..._refuted` theorems with a concrete
source text, next to the strongest true version.

## Per property

See the table at the end, kept in step with `MANIFEST.json`.
| id | title | method |
|---|---|---|
| C01 | Parsing always terminates, with stack depth linear in the number of tokens | wp, weight on tokens left and call rank |
| C02 | Every part the iterator yields consumes input | wp, weight on tokens left and call rank |
| C03 | parse() is the iterator, collected | direct, from the definitions of the API, induction on the number of parts |
| C04 | A successful parse has read the whole input | wp, weight on tokens left and call rank |
| C05 | The iterator is fused and ends exactly at end of file | direct, from the definitions of the API, induction on the number of parts |
| C06 | Tolerant mode accepts everything strict mode accepts, with the same tree | simulation between the two configurations, induction on program |
| C07 | Module mode only rejects more | simulation between the two configurations, induction on program |
| C08 | Builder settings are independent and Parser::new is the default builder | direct, from the definitions of the API, induction on the number of parts |
| C09 | Comments reach the handler exactly once, in source order, verbatim | invariant of `next_item`, lifted to programs |
| C10 | The comment handler cannot influence the result | invariant of `next_item`, lifted to programs |
| C11 | The line table is the table of line terminators | induction on text, binary-search invariant |
| C12 | Error positions are the true line and column of the offending token | induction on text, binary-search invariant |
| C13 | Computing an error position never panics | induction on text, binary-search invariant |
| C14 | Unexpected-token errors point at a token of the input | wp with an error postcondition |
| C15 | Binary operators associate by precedence, left to right | refinement of the operator-stack loop |
| C16 | Exponentiation, assignment and conditional associate to the right | inversion of runs, induction on the fuel |
| C17 | Names and literals in the tree are verbatim source text | wp with tree disciplines and context restoration |
| C18 | return appears only inside function bodies | wp with tree disciplines and context restoration |
| C19 | super and new.target appear only inside function bodies | wp with tree disciplines and context restoration |
| C20 | await appears only inside async functions | wp with tree disciplines and context restoration |
| C21 | yield expressions appear only inside generators, methods and accessors | wp with tree disciplines and context restoration |
| C22 | No label is redeclared inside its own statement | wp with tree disciplines and context restoration |
| C23 | A switch has at most one default case | wp with tree disciplines and context restoration |
| C24 | A class has at most one constructor and it is a plain method | wp with tree disciplines and context restoration |
| C25 | Getters take no parameter, setters exactly one | wp with tree disciplines and context restoration |
| C26 | Template literals alternate chunks and expressions | wp with tree disciplines and context restoration |
| C27 | A rest parameter is last | wp with tree disciplines and context restoration |
| C28 | Assignments and updates have assignable operands | wp with tree disciplines and context restoration |
| C29 | const and destructuring declarations have initializers | wp with tree disciplines and context restoration |
| C30 | The parser leaves its syntactic context as it found it | wp with tree disciplines and context restoration |
| C31 | Automatic semicolon insertion | wp / grammar productions |
| C32 | Restricted productions respect line terminators | wp / grammar productions |
| C33 | Class bodies are strict | wp with tree disciplines |
| C34 | The parser never panics on what a well-behaved scanner yields | wp with panics and errors as obligations |
| C35 | Internal operator errors cannot happen | wp with panics and errors as obligations |
| C36 | Results do not depend on the available stack | monotonicity in the fuel |
| C37 | Parsing is incremental | non-interference of the unread tail, induction on program |
| C38 | Import declarations have the three standard shapes | wp with tree disciplines |
| C39 | Directives are leading string statements | wp with tree disciplines |
| C40 | The parser accepts only sentences of its grammar, with the tree the grammar assigns | wp with the grammar relation as postcondition |
| C41 | Printing then parsing gives back the tree | induction on derivations of `Subset.v`; printer correct by induction on depth |
| C42 | Running positions count lines correctly for LF text | invariant of `next_item` |
| C43 | End of input is reported once and never as an internal error | wp with panics and errors as obligations |
| C44 | Spans are UTF-8 byte ranges | induction on the text |
| C45 | What is accepted is ECMAScript | evaluation on counterexamples |
| C46 | Every ECMAScript program is accepted | evaluation on counterexamples |
| C47 | Programs that differ get different trees | evaluation on counterexamples |
| C48 | An error says where and what | reading the printed numbers and quotes back; C12 and C14 for the place |
| C49 | A rejected beginning has no accepted completion | as C37, for every outcome; independence of the fuel for all depths |
| C50 | Texts with the same tokens are parsed alike | relational proof: both runs at once, with the tokens equal and the places related (`Same.v`) |
| C51 | The work done is linear in the number of tokens | counting evaluator; amortised weakest preconditions, each unread token worth 500 steps (`Cost.v`) |
| C52 | Tolerant mode forgives only the listed errors | runs of two configurations compared operation by operation (`Options.v`) |
| C53 | Module mode adds one error, the name await | as C52 |
| C54 | Iterating past errors ends (refuted; a bound on the parts handed out) | unread tokens never grow (`Options.v`) |
| C55 | Names, strings and numbers are opaque | relational proof: both runs at once, values related by renaming (`Renamed.v`) |
| C56 | Between parts the parser starts afresh | invariant of the state between parts, then the relational proof of C50 (`Suffix.v`) |
| C57 | Nothing of the source is lost | induction on the derivations of C40 (`Kept.v`) |
| C58 | The errors are those of a fixed catalogue | every place of the parser that makes an error, by structural recursion on the programs (`Told.v`); what callers have looked at makes some of them unreachable (`Safe.v`); a text for each of the others |
| C59 | What the parser remembers without using it | two runs related up to the flags (`Inert.v`) |
| C60 | Strict code only refuses | one-sided relation of two runs, induction on the fuel (`Laxer.v`) |
| C61 | Errors are found on the way | weakest preconditions with the tokens read so far as invariant (`Where.v`) |
| C62 | An expression alone and as a statement | relation of two runs for all functions but the one that reads a part, then the path from a part to its expression unfolded (`Alone.v`) |
| C63 | Parentheses only group | the loop of a group related to that of an expression, then the ladder of operators run around it (`Parens.v`) |
| C64 | Blocks, function bodies and clauses are read as programs are | the loops related to the iterator, part by part; no part starts with a closing brace (`Blocks.v`) |
| C65 | What can end a text can end a group | simulation by the depth of the recursion: a run at the end of the text fails, takes the end for a token, or is one of the two calls that may do nothing (`Ended.v`) |
| C66 | An accepted text stays accepted in parentheses or in braces | C50's relation between two texts, C65 and C63 or C64 (`Enclosed.v`) |
| C67 | Lists are their elements | each loop against the inductive list, forwards and backwards, states compared up to the flags C62 leaves out (`Lists.v`) |
| C68 | Chains are their links | the loop against the list of links, forwards and backwards, states compared up to the flags C62 leaves out (`Chains.v`) |
| C69 | Templates and object literals are their parts | as C67, with the states themselves; the value of a property by running its member up to the colon |
| C70 | Declarations, patterns, imports and class bodies are lists of their parts | two shapes of loop treated once for all, array patterns and class bodies by themselves; states are the same, nothing is left out |
| C71 | An accepted expression in brackets is the array of its elements | C65 and C66 for the two texts, C67 for the elements; which of two lists a sequence gives is not said, and cannot be from the tree |
| C72 | Parameter lists and switch statements are lists of their parts | the loops as in C70; states are the same, nothing is left out |
| C73 | Compound statements are their parts, and else belongs to the nearest if | each form by itself; what ends a statement by induction on the tree, for loops and labels without their parts |
| C74 | For statements, jumps and semicolons are read as their forms say | as C73; the three beginnings of a for statement are not given one by one |
