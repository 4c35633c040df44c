{"id": "C01", "title": "Parsing always terminates, with stack depth linear in the number of tokens", "statement": "For every source text, both options and whatever tokens the scanner yields for it, calling parse() (or draining the iterator up to the first error, or calling parse_expression()) comes back: no loop of the parser runs forever and the recursion depth is at most a fixed multiple of the number of tokens.", "quantifier": "every token sequence (including malformed ones), both options, every starting state", "why_tests_cant": "non-termination shows only on some input; no finite set of inputs shows there is none", "anchors": ["src/lib.rs:Parser::parse", "src/lib.rs:Parser::next", "src/lib.rs:Parser::parse_expression"]}
{"id": "C02", "title": "Every part the iterator yields consumes input", "statement": "Each Some(Ok(part)) of the iterator has consumed at least one token, so a program with n tokens yields at most n parts.", "quantifier": "every token sequence, every reachable parser state", "why_tests_cant": "quantifies over all inputs and all iteration histories", "anchors": ["src/lib.rs:Parser::next", "src/lib.rs:Parser::next_part"]}
{"id": "C03", "title": "parse() is the iterator, collected", "statement": "parse() returns Ok exactly when iterating to the end meets no error, with exactly the iterated parts in order, and otherwise the first error; the result is Program::Mod iff the module option is on.", "quantifier": "every text, both options", "why_tests_cant": "an equality of two code paths over all inputs", "anchors": ["src/lib.rs:Parser::parse", "src/lib.rs:Iterator::next"]}
{"id": "C04", "title": "A successful parse has read the whole input", "statement": "If parse() returns Ok, the scanner is exhausted and nothing but the end-of-file token is unread: no suffix of the source is silently ignored.", "quantifier": "every text for which parse() is Ok", "why_tests_cant": "a silently dropped suffix shows only on particular inputs", "anchors": ["src/lib.rs:Parser::parse", "src/lib.rs:Parser::next_item"]}
{"id": "C05", "title": "The iterator is fused and ends exactly at end of file", "statement": "next() returns None iff the next token is end of file, and after a None every further call returns None and changes nothing.", "quantifier": "every parser state, any number of further calls", "why_tests_cant": "quantifies over call histories", "anchors": ["src/lib.rs:Iterator::next"]}
{"id": "C06", "title": "Tolerant mode accepts everything strict mode accepts, with the same tree", "statement": "If a text parses without the tolerant option then it parses with it, to the same Program (same parts, same comments delivered).", "quantifier": "every text and both settings of module", "why_tests_cant": "relates two runs on every input", "anchors": ["src/lib.rs:Builder::tolerant", "src/lib.rs:Parser::expect_comma_sep"]}
{"id": "C07", "title": "Module mode only rejects more", "statement": "If a text parses with the module option on, then with it off it parses to the same list of parts.", "quantifier": "every text and both settings of tolerant", "why_tests_cant": "relates two runs on every input", "anchors": ["src/lib.rs:Builder::module", "src/lib.rs:Parser::parse_var_ident"]}
{"id": "C08", "title": "Builder settings are independent and Parser::new is the default builder", "statement": "The parser built depends only on the last value set for each of the three options, in whatever order they were set; Builder::new().js(text).build() and Parser::new(text) give the same parser.", "quantifier": "every sequence of setter calls, every text", "why_tests_cant": "all sequences of setter calls", "anchors": ["src/lib.rs:Builder", "src/lib.rs:Parser::new"]}
{"id": "C09", "title": "Comments reach the handler exactly once, in source order, verbatim", "statement": "At any point of a parse, including after an error, the handler has received exactly the comment tokens scanned so far, in order, each once, with the exact source text and span; after a successful parse, all comments of the source.", "quantifier": "every text, every stopping point", "why_tests_cant": "duplicates or losses depend on look-ahead at each comment position", "anchors": ["src/lib.rs:Parser::next_item", "src/lib.rs:CommentHandler::handle_comment"]}
{"id": "C10", "title": "The comment handler cannot influence the result", "statement": "What has been delivered to the comment handler never affects tokens, tree, positions or errors.", "quantifier": "every two handler histories, every text", "why_tests_cant": "quantifies over all handlers", "anchors": ["src/lib.rs:Builder::with_comment_handler", "src/lib.rs:Parser::next_item"]}
{"id": "C11", "title": "The line table is the table of line terminators", "statement": "For every text in which each carriage return is followed by a line feed or by a one-byte character, the lines computed for error positions are exactly those delimited by the line terminators LF, CR, CRLF, U+2028, U+2029.", "quantifier": "every text meeting the side condition", "why_tests_cant": "multi-byte characters and terminator combinations are unbounded", "anchors": ["src/lib.rs:get_lines"]}
{"id": "C12", "title": "Error positions are the true line and column of the offending token", "statement": "For such a text, the position reported for a token is 1 + the number of line terminators before its first byte, and the number of bytes since the last of them.", "quantifier": "every text and every token start offset that is not itself a terminator", "why_tests_cant": "the binary search and the table must agree on every table size", "anchors": ["src/lib.rs:Parser::get_item_position"]}
{"id": "C13", "title": "Computing an error position never panics", "statement": "For every text and every offset, the position lookup returns.", "quantifier": "every text, every offset", "why_tests_cant": "slice bounds in a recursive binary search over tables of every size", "anchors": ["src/lib.rs:Parser::get_item_position", "src/lib.rs:get_lines"]}
{"id": "C14", "title": "Unexpected-token errors point at a token of the input", "statement": "Every UnexpectedToken error built for a token carries the position of a token the scanner yielded for this input (or of the initial empty look-ahead), and the found kind it names is that token's kind.", "quantifier": "every text, every error", "why_tests_cant": "all error paths on all inputs", "anchors": ["src/lib.rs:Parser::expected_token_error", "src/lib.rs:Parser::unexpected_token_error"]}
{"id": "C15", "title": "Binary operators associate by precedence, left to right", "statement": "The tree for e0 op1 e1 ... opn en (any n, any mix of binary and logical operators) is the one in which no operator of lower precedence is a direct operand of a higher one, operators of equal precedence associate to the left, and reading the tree in order gives back e0 op1 e1 ... opn en.", "quantifier": "every sequence of operators and operands of any length", "why_tests_cant": "the operator stack can be arbitrarily deep", "anchors": ["src/lib.rs:Parser::parse_binary_expression", "src/lib.rs:Parser::determine_precedence"]}
{"id": "C16", "title": "Exponentiation, assignment and conditional associate to the right", "statement": "a ** b ** c, a = b = c and a ? b : c ? d : e parse as a ** (b ** c), a = (b = c) and a ? b : (c ? d : e), for chains of any length.", "quantifier": "chains of any length", "why_tests_cant": "unbounded chain length", "anchors": ["src/lib.rs:Parser::parse_exponentiation_expression", "src/lib.rs:Parser::parse_assignment_expr", "src/lib.rs:Parser::parse_conditional_expr"]}
{"id": "C17", "title": "Names and literals in the tree are verbatim source text", "statement": "Every identifier, string, number and raw template chunk in the tree returned is the exact source text of a token of the input (or the text of the keyword used as a name), and regular expressions are split at their last slash.", "quantifier": "every text, every node of the tree", "why_tests_cant": "all node kinds at all positions", "anchors": ["src/lib.rs:Parser::get_string", "src/lib.rs:Parser::parse_primary_expression", "src/lib.rs:Parser::parse_template_element"]}
{"id": "C18", "title": "return appears only inside function bodies", "statement": "In every tree returned, each Return statement lies within the body of a function, method, accessor or arrow function.", "quantifier": "every text, both options", "why_tests_cant": "nesting depth is unbounded and the flag must be restored on every path", "anchors": ["src/lib.rs:Parser::parse_return_stmt", "src/lib.rs:Parser::parse_function_source_el"]}
{"id": "C19", "title": "super and new.target appear only inside function bodies", "statement": "In every tree returned, each Super and each MetaProperty lies within the body of a function, method, accessor or arrow function.", "quantifier": "every text, both options", "why_tests_cant": "unbounded nesting", "anchors": ["src/lib.rs:Parser::parse_left_hand_side_expr", "src/lib.rs:Parser::parse_new_expr"]}
{"id": "C20", "title": "await appears only inside async functions", "statement": "In every tree returned, each Await expression lies within a function marked async.", "quantifier": "every text, both options", "why_tests_cant": "unbounded nesting", "anchors": ["src/lib.rs:Parser::parse_unary_expression", "src/lib.rs:Parser::parse_await_expr"]}
{"id": "C21", "title": "yield expressions appear only inside generators, methods and accessors", "statement": "In every tree returned, each Yield expression lies inside some generator function, method or accessor function.", "quantifier": "every text, both options", "why_tests_cant": "unbounded nesting", "anchors": ["src/lib.rs:Parser::parse_yield_expr", "src/lib.rs:Parser::parse_assignment_expr"]}
{"id": "C22", "title": "No label is redeclared inside its own statement", "statement": "In every tree returned, no Labeled statement contains, without an intervening function body, another Labeled statement with the same label.", "quantifier": "every text, both options", "why_tests_cant": "unbounded nesting of labels and functions", "anchors": ["src/lib.rs:Parser::parse_labelled_statement"]}
{"id": "C23", "title": "A switch has at most one default case", "statement": "In every tree returned, each Switch has at most one case without a test.", "quantifier": "every text, both options", "why_tests_cant": "any number of cases", "anchors": ["src/lib.rs:Parser::parse_switch_stmt"]}
{"id": "C24", "title": "A class has at most one constructor and it is a plain method", "statement": "In every tree returned, each class body has at most one element of kind Ctor; it is named constructor, not computed, and not a generator.", "quantifier": "every text, both options", "why_tests_cant": "any number of class elements", "anchors": ["src/lib.rs:Parser::parse_class_body", "src/lib.rs:Parser::parse_class_el"]}
{"id": "C25", "title": "Getters take no parameter, setters exactly one", "statement": "Without the tolerant option, in every tree returned each property of kind Get is a function with no parameters and each of kind Set a function with exactly one, which is not a rest element.", "quantifier": "every text, tolerant off", "why_tests_cant": "all accessor positions", "anchors": ["src/lib.rs:Parser::parse_getter_method", "src/lib.rs:Parser::parse_setter_method"]}
{"id": "C26", "title": "Template literals alternate chunks and expressions", "statement": "In every tree returned each template literal has exactly one more chunk than expressions, and the last chunk, and only it, is marked as tail.", "quantifier": "every text, both options", "why_tests_cant": "any number of substitutions", "anchors": ["src/lib.rs:Parser::parse_template_literal"]}
{"id": "C27", "title": "A rest parameter is last", "statement": "In the parameter list of every function declaration, function expression, method and accessor returned, only the last parameter can be a rest element.", "quantifier": "every text, both options", "why_tests_cant": "any number of parameters", "anchors": ["src/lib.rs:Parser::parse_formal_params", "src/lib.rs:Parser::parse_rest_element"]}
{"id": "C28", "title": "Assignments and updates have assignable operands", "statement": "Without the tolerant option, the left side of every assignment and the operand of every ++/-- in a tree returned is not a number, string, boolean or regular-expression literal, function, class, call, new, update, unary, binary, logical or conditional expression.", "quantifier": "every text, tolerant off", "why_tests_cant": "the flag tracking assignability is saved and restored along every path", "anchors": ["src/lib.rs:Parser::parse_assignment_expr", "src/lib.rs:Parser::parse_update_expr"]}
{"id": "C29", "title": "const and destructuring declarations have initializers", "statement": "In every tree returned, each declarator of a const or let or var statement that binds a pattern other than a plain identifier, and each const declarator, has an initializer, except where the declaration is followed by of or in.", "quantifier": "every text, both options", "why_tests_cant": "any declaration list", "anchors": ["src/lib.rs:Parser::parse_lexical_binding", "src/lib.rs:Parser::parse_variable_decl"]}
{"id": "C30", "title": "The parser leaves its syntactic context as it found it", "statement": "Whenever any construct is parsed successfully, the contextual state it was parsed in (inside function, loop, switch, async; strictness; allowed in; label set) is afterwards what it was before.", "quantifier": "every construct, every state", "why_tests_cant": "every exit path of every construct", "anchors": ["src/lib.rs:Context"]}
{"id": "C31", "title": "Automatic semicolon insertion", "statement": "A successfully parsed expression, var, let, const, return, throw, break, continue, debugger, import or export statement is followed by a semicolon (consumed), or by a line terminator, a closing brace or end of file (not consumed).", "quantifier": "every text, every such statement", "why_tests_cant": "every token that may follow every statement", "anchors": ["src/lib.rs:Parser::consume_semicolon"]}
{"id": "C32", "title": "Restricted productions respect line terminators", "statement": "A postfix ++/-- node, a break/continue label and a yield argument are only attached when no line terminator precedes them.", "quantifier": "every text", "why_tests_cant": "all layouts", "anchors": ["src/lib.rs:Parser::parse_update_expr", "src/lib.rs:Parser::parse_optionally_labeled_statement", "src/lib.rs:Parser::parse_yield_expr"]}
{"id": "C33", "title": "Class bodies are strict", "statement": "Without the tolerant option, no tree returned has, inside a class, a with statement or a delete of a bare identifier.", "quantifier": "every text, tolerant off", "why_tests_cant": "unbounded nesting; strictness must survive every nested construct", "anchors": ["src/lib.rs:Parser::parse_class_decl", "src/lib.rs:Parser::parse_with_stmt", "src/lib.rs:Parser::parse_unary_expression"]}
{"id": "C34", "title": "The parser never panics on what a well-behaved scanner yields", "statement": "If the scanner's tokens are in order, within the text and on character boundaries, and its template and regex tokens have their delimiters, then no call to the parser panics.", "quantifier": "every such token sequence, both options", "why_tests_cant": "absence of panics over all inputs", "anchors": ["src/lib.rs:Parser"]}
{"id": "C35", "title": "Internal operator errors cannot happen", "statement": "No parse returns the errors 'Unable to convert ... operator' or 'invalid binary operation, too few expressions'.", "quantifier": "every text", "why_tests_cant": "unreachability over all inputs", "anchors": ["src/lib.rs:Parser::parse_binary_expression", "src/lib.rs:Parser::parse_unary_expression"]}
{"id": "C36", "title": "Results do not depend on the available stack", "statement": "Given enough stack, the result of a parse (tree or error, state, comments) is the same for every amount.", "quantifier": "every text, every two sufficient stack bounds", "why_tests_cant": "all bounds", "anchors": ["src/lib.rs:Parser::parse"]}
{"id": "C37", "title": "Parsing is incremental", "statement": "The part yielded by a call to next() is determined by the tokens it consumes and the two tokens after them: changing the input beyond does not change that part.", "quantifier": "every input and every change of its tail", "why_tests_cant": "all continuations", "anchors": ["src/lib.rs:Iterator::next"]}
{"id": "C38", "title": "Import declarations have the three standard shapes", "statement": "In every tree returned each import has: no specifier; or one default specifier optionally followed by one namespace or any number of named specifiers; or one namespace; or only named specifiers. Its source is a string literal.", "quantifier": "every text", "why_tests_cant": "any specifier list", "anchors": ["src/lib.rs:Parser::parse_import_decl"]}
{"id": "C39", "title": "Directives are leading string statements", "statement": "In every tree returned, directives form a prefix of the program, no directive appears in blocks or cases, and the directive text is the literal without its quotes.", "quantifier": "every text", "why_tests_cant": "all positions", "anchors": ["src/lib.rs:Parser::next_part", "src/lib.rs:Parser::parse_directive"]}
{"id": "C40", "title": "The parser accepts only sentences of its grammar, with the tree the grammar assigns", "statement": "If parse() returns Ok(program), the token sequence is derivable in the ECMAScript grammar implemented (given as a separate set of productions) and the program is the tree of a derivation.", "quantifier": "every text, both options", "why_tests_cant": "all sentences", "anchors": ["src/lib.rs:Parser"]}
{"id": "C41", "title": "Printing then parsing gives back the tree", "statement": "For every tree of the supported subset of expressions and statements, of any size and nesting, the token sequence that spells it parses to exactly that tree, whatever the whitespace and comments between tokens (up to the line-terminator rules).", "quantifier": "every tree of the subset", "why_tests_cant": "unbounded trees", "anchors": ["src/lib.rs:Parser"]}
{"id": "C42", "title": "Running positions count lines correctly for LF text", "statement": "While parsing a text whose only line terminator is LF, the current position and look-ahead position are the true line and column of the corresponding tokens.", "quantifier": "every LF-only text and every prefix of its tokens", "why_tests_cant": "accumulates over unboundedly many tokens", "anchors": ["src/lib.rs:Parser::update_positions"]}
{"id": "C43", "title": "End of input is reported once and never as an internal error", "statement": "With a scanner whose last token is end of file, UnexpectedEoF is never returned, and the end-of-file token is consumed at most once.", "quantifier": "every text", "why_tests_cant": "all error paths", "anchors": ["src/lib.rs:Parser::next_item"]}
{"id": "C44", "title": "Spans are UTF-8 byte ranges", "statement": "The source text of a token is exactly the bytes of the UTF-8 encoding between the offsets of its span; slicing succeeds exactly when both offsets are character boundaries in order, and the length used in offsets is the number of bytes.", "quantifier": "every text, with characters of every width, and every pair of offsets", "why_tests_cant": "all widths in all combinations; off-by-some-bytes errors only show on non-ASCII text", "anchors": ["src/lib.rs:Parser::get_string", "src/lib.rs:get_lines"]}
{"id": "C45", "title": "What is accepted is ECMAScript", "statement": "Every text accepted is a program of ECMAScript 2019 (syntactic grammar and early errors). Expected to fail where the source leaves a check empty (comments //error in lib.rs); each failure is to be exhibited.", "quantifier": "every text", "why_tests_cant": "tests accept valid programs; they do not enumerate invalid ones", "anchors": ["src/lib.rs:Parser"]}
{"id": "C46", "title": "Every ECMAScript program is accepted", "statement": "Every program of ECMAScript 2019 is accepted. Expected to fail outside the subset of C41; each failure is to be exhibited.", "quantifier": "every program", "why_tests_cant": "unbounded set of programs", "anchors": ["src/lib.rs:Parser"]}
{"id": "C47", "title": "Programs that differ get different trees", "statement": "Two programs that ECMAScript gives different meanings are given different trees. Expected to fail where the tree drops tokens; each failure is to be exhibited.", "quantifier": "every pair of programs", "why_tests_cant": "needs a comparison of two inputs", "anchors": ["src/lib.rs:Parser::parse_array_pattern", "src/lib.rs:Parser::parse_class_decl", "src/lib.rs:Parser::parse_class_el", "src/lib.rs:Parser::parse_assignment_expr"]}
{"id": "C48", "title": "An error says where and what", "statement": "Written out, an error determines its kind, its place (line and column as decimal numbers) and its message; for an unexpected token the place is that of a token of the source and the message names that token; expectations are listed in quotes, in order, the last of several after 'or'. The parser returns no error of the kind reserved for foreign errors.", "quantifier": "every error, every text", "why_tests_cant": "unbounded set of errors and positions", "anchors": ["src/error.rs:Display for Error", "src/lib.rs:Display for Position", "src/lib.rs:Parser::expected_token_error", "src/lib.rs:Parser::unexpected_token_error"]}
{"id": "C49", "title": "A rejected beginning has no accepted completion", "statement": "When parsing fails, the error is determined by the tokens consumed and the two after them: replacing the rest of the input by any other tokens gives the same error, so no completion of the beginning is accepted.", "quantifier": "every input that fails and every other tail", "why_tests_cant": "all completions of a beginning", "anchors": ["src/lib.rs:Parser::parse", "src/lib.rs:Iterator::next", "src/lib.rs:Parser::parse_expression"]}
{"id": "C50", "title": "Texts with the same tokens are parsed alike", "statement": "If two texts have the same tokens, spelled the same and with line terminators before the same tokens, then parsing them (as a whole, part by part, or as a single expression) has the same outcome: the same tree, or the same error up to the place it reports. Spacing, comments and the places of tokens do not matter, nor do line terminators after the last token if there is no yield.", "quantifier": "every pair of texts, every scanner meeting the contract", "why_tests_cant": "pairs of unbounded texts", "anchors": ["src/lib.rs:Parser::parse", "src/lib.rs:Iterator::next", "src/lib.rs:Parser::parse_expression", "src/lib.rs:Parser::next_item", "src/lib.rs:Parser::at_async_function"]}
{"id": "C51", "title": "The work done is linear in the number of tokens", "statement": "Parsing a text takes a number of steps (operations on the parser's state, function calls, loop iterations) of at most a constant times the number of its tokens, whatever the outcome; so does each part of the iteration and each single expression, in terms of the tokens it consumes. There is no backtracking.", "quantifier": "every text, every scanner, every state of the parser", "why_tests_cant": "a bound on the work for all inputs; running time on samples says nothing about the worst case", "anchors": ["src/lib.rs:Parser::parse", "src/lib.rs:Iterator::next", "src/lib.rs:Parser::parse_expression"]}
{"id": "C52", "title": "Tolerant mode forgives only the listed errors", "statement": "If the default mode ends in anything but one of the listed errors (a missing comma between arguments or properties, a missing closing parenthesis, a misplaced assignment or update, a restricted name, wrong accessor parameters, a feature forbidden in strict code, or the end of the text where a comma was due), tolerant mode ends in exactly the same way: same tree or same error, same final state. In particular every other error is still reported.", "quantifier": "every text, every scanner meeting the contract, every reachable state of the iterator, both module settings", "why_tests_cant": "all texts; tests of tolerant mode show a few that are forgiven, not that nothing else is", "anchors": ["src/lib.rs:Config", "src/lib.rs:Parser::parse_assignment_expr", "src/lib.rs:Parser::expect_comma_sep"]}
{"id": "C53", "title": "Module mode adds one error, the name await", "statement": "If a text parsed as a module does not end in the error that an identifier token spelled await was found where a name was expected, it ends as it does when parsed as a script: same parts or same error, same final state. So a text in which the letters await do not occur is parsed alike by the two modes.", "quantifier": "every text, every scanner meeting the contract, every reachable state of the iterator, both tolerance settings", "why_tests_cant": "all texts", "anchors": ["src/lib.rs:Parser::parse_var_ident", "src/lib.rs:Builder::module"]}
{"id": "C54", "title": "Iterating past errors ends", "statement": "A caller that keeps calling next, skipping errors, is handed finitely many items and then None.", "quantifier": "every text, every sequence of calls of next", "why_tests_cant": "non-termination and unbounded sequences of calls", "anchors": ["src/lib.rs:Iterator::next", "src/lib.rs:Parser::next_part"]}
{"id": "C55", "title": "Names, strings and numbers are opaque", "statement": "Replace the text of tokens one to one, leaving alone templates, regular expressions, keywords and a fixed list of some 25 words the parser compares with or writes itself: the text so obtained ends as the original does, with the same tree or error in which the same replacement is done. In particular the directive 'use strict' may be replaced by any other string: it has no effect.", "quantifier": "every two texts related by the replacement, every one-to-one replacement of that kind, every scanner meeting the contract, all options; for parse, next and parse_expression", "why_tests_cant": "all texts and all replacements; a dependence on one particular spelling shows only when that spelling is tried", "anchors": ["src/lib.rs:Parser::parse", "src/lib.rs:Parser::parse_directive", "src/lib.rs:Parser::is_restricted", "src/lib.rs:Parser::at_contextual_keyword"]}
{"id": "C56", "title": "Between parts the parser starts afresh", "statement": "After any number of parts of a program, what the parser does next is what a new parser does on a text with the tokens that are left: the same parts, then the same end or error. Nothing seen earlier (labels, names, an open loop or function, strictness) has an effect, but for two flags of the context which must have their first values, and strings at the start of a text, which are directives.", "quantifier": "every two texts such that one has the tokens left over in the other, every number of parts read, every scanner meeting the contract, all options; for next and parse", "why_tests_cant": "all texts and all places to split them; a flag leaked by one construct is seen only with another one after it", "anchors": ["src/lib.rs:Iterator::next", "src/lib.rs:Parser::next_part", "src/lib.rs:Parser::parse", "src/lib.rs:Context"]}
{"id": "C57", "title": "Nothing of the source is lost", "statement": "The words of the tree from left to right (names, literals, operators, keywords, braces, brackets) are the words of the source from left to right: none is lost, added, repeated or moved. Left out of the comparison are parentheses, commas, semicolons and the words static and async, of which the tree has no trace, and the places where the parser drops more (each listed and shown to be needed).", "quantifier": "every accepted text outside the listed places, every scanner meeting the contract and spelling tokens as usual, every choice of words to compare, all options; for parse, next and parse_expression", "why_tests_cant": "all programs; a dropped or repeated subtree in one rare production is seen only by a test that has it and compares it", "anchors": ["src/lib.rs:Parser::parse", "src/lib.rs:Iterator::next", "src/lib.rs:Parser::parse_class_el", "src/lib.rs:Parser::parse_obj_prop", "src/lib.rs:Parser::parse_import_decl", "src/lib.rs:Parser::parse_export_decl"]}
{"id": "C58", "title": "The errors are those of a fixed catalogue", "statement": "Every error has one of the listed kinds and texts, and each of these is reported for some text. An error that asks for one punctuator or keyword was not raised by that very token. In tolerant mode the kinds of error that mode forgives are not reported at all.", "quantifier": "every text, every scanner meeting the contract, all options, every call of the public interface in every reachable state", "why_tests_cant": "all texts; that an error is never reported is not something a test can show, and an error built with the wrong token is seen only on the path that builds it", "anchors": ["src/lib.rs:Parser::expect_punct", "src/lib.rs:Parser::expect_keyword", "src/lib.rs:Parser::expected_token_error", "src/lib.rs:Parser::unexpected_token_error", "src/lib.rs:Parser::expect_comma_sep", "src/error.rs:Error"]}
{"id": "C59", "title": "What the parser remembers without using it", "statement": "Of the thirteen flags of the parser's context, three (the first initialised shorthand property, the flag for loops, the flag for switches) influence nothing: no function of the parser returns anything else when they are changed. Two more (assignment target, binding element) carry nothing from one call of the interface to the next. Each of the other eight changes the outcome of some text.", "quantifier": "every function of the parser, every state, every value of the flags", "why_tests_cant": "independence of a flag speaks of all states and all inputs; the flags are written, saved and restored in some fifty places", "anchors": ["src/lib.rs:Context", "src/lib.rs:Parser::parse_optionally_labeled_statement", "src/lib.rs:Parser::set_inherit_cover_grammar_state", "src/lib.rs:Parser::parse_obj_prop"]}
{"id": "C60", "title": "Strict code only refuses", "statement": "Whatever the parser reads in strict context it reads in sloppy context too, to the same value, up to the same token and with the same flags left behind: strictness is only ever a reason to refuse. Consequently a program accepted as strict code is accepted as sloppy code with the same tree.", "quantifier": "every function of the parser, every state, every depth of the stack; every scanner that does not call function, this, class or import reserved in strict mode alone", "why_tests_cant": "two runs of the parser compared on every text; the flag is consulted in some twenty places, three of which take another path rather than fail", "anchors": ["src/lib.rs:Parser::parse_for_stmt", "src/lib.rs:Parser::parse_primary_expression", "src/lib.rs:Parser::parse_fn_name", "src/lib.rs:Parser::parse_function_decl", "src/lib.rs:Parser::parse_class_decl", "src/lib.rs:Parser::parse_var_ident"]}
{"id": "C61", "title": "Errors are found on the way", "statement": "An error about a token names one that the call reporting it has read: the token looked at when the call began, or one taken from the scanner since, the last being the one looked at when the call returns. The position is that of this token and the token or word reported is its own. So the error of a part never points into an earlier part, nor at anything not yet scanned.", "quantifier": "every scanner, every text, every state, every depth of the stack; each part, each whole parse, each single expression", "why_tests_cant": "errors are built in some seventy places from saved tokens, saved positions and the token looked at; a stale or peeked token would show only in the text that reaches that place", "anchors": ["src/lib.rs:Parser::expected_token_error", "src/lib.rs:Parser::unexpected_token_error", "src/lib.rs:Parser::next_item", "src/lib.rs:Parser::next_part"]}
{"id": "C62", "title": "An expression alone and as a statement", "statement": "Where the token looked at can start no statement but an expression, the next part of the program is exactly what parse_expression reads there, followed by the end of a statement: the same tree, the same error, the same tokens taken. So a text that is an expression to its end is a program of that one expression, and a text refused as an expression is refused as a program, with the same error. A string literal alone at the start is a directive; a name before a colon is a label.", "quantifier": "every scanner, every text, both options, every state whose next token is one of those named, every expression", "why_tests_cant": "two entry points compared on every text from every state; between them lie four functions and five flags of the context, any of which could make the same expression read differently", "anchors": ["src/lib.rs:Parser::parse_expression", "src/lib.rs:Parser::next_part", "src/lib.rs:Parser::parse_statement_list_item", "src/lib.rs:Parser::parse_statement", "src/lib.rs:Parser::parse_labelled_statement", "src/lib.rs:Parser::parse_expression_statement", "src/lib.rs:Parser::parse_directive", "src/lib.rs:Parser::consume_semicolon"]}
{"id": "C63", "title": "Parentheses only group", "statement": "If between an opening and a closing parenthesis there is exactly what parse_expression reads as e, and the token after them cannot continue an expression, then parse_expression reads e from the opening parenthesis on, and stops at that token; likewise with any number of pairs of parentheses, as an element of a list with a comma after it, and as a whole program.", "quantifier": "every parser configuration, every state, every expression, any number of pairs", "why_tests_cant": "a group is read by code of its own, shared with the parameters of arrow functions, under different flags of the cover grammar, below nine levels of operators; every expression would have to be tried in it", "anchors": ["src/lib.rs:Parser::parse_group_expr", "src/lib.rs:Parser::parse_primary_expression", "src/lib.rs:Parser::parse_left_hand_side_expr_allow_call", "src/lib.rs:Parser::parse_assignment_expr", "src/lib.rs:Parser::parse_expression"]}
{"id": "C64", "title": "Blocks, function bodies and clauses are read as programs are", "statement": "Between the braces of a block the parser reads what the iterator yields when it is set after the opening brace: the same parts if it gets to the closing brace, the same error if it reports one, and conversely; the body of a function is its directives and then what the iterator yields with return allowed and no labels in scope; a clause of a switch statement is what the iterator yields up to a closing brace, case or default.", "quantifier": "every parser configuration, every state, every list of parts, every error", "why_tests_cant": "four loops over the parts of a program with four ways to stop and different flags around them; every part would have to be tried in each", "anchors": ["src/lib.rs:Parser::parse_block", "src/lib.rs:Parser::parse_function_source_el", "src/lib.rs:Parser::parse_directive_prologues", "src/lib.rs:Parser::parse_switch_case", "src/lib.rs:Parser::next_part", "src/lib.rs:Parser::parse_statement_list_item"]}
{"id": "C65", "title": "What can end a text can end a group", "statement": "With the tolerant flag off, an expression that is read up to the end of the text, the end not being taken for a token, is read the same if a closing parenthesis, bracket or brace stands where the end was, whatever follows it, and the parser is then at that token and otherwise in the same state; the same holds for what the iterator yields, with a closing brace. So an expression in parentheses is read as the expression alone, and a program in braces as the block of its parts.", "quantifier": "every parser configuration with the tolerant flag off, every state, every expression, every list of parts, every continuation", "why_tests_cant": "the end of the text and the closing tokens are told apart in dozens of places, in conditions of loops, in look-aheads and in the rules for missing semicolons; every construct would have to be tried at the very end", "anchors": ["src/lib.rs:Parser::next_item", "src/lib.rs:Parser::parse_expression", "src/lib.rs:Parser::next_part", "src/lib.rs:Parser::consume_semicolon", "src/lib.rs:Parser::parse_ident_name", "src/lib.rs:Parser::parse_group_expr", "src/lib.rs:Parser::parse_block"]}
{"id": "C66", "title": "An accepted text stays accepted in parentheses or in braces", "statement": "If a text is an expression, the text of the same tokens between parentheses is the program of that expression; if a text is a program with no string in front, the text of the same tokens between braces is the program of the block of its parts. The two texts may differ in white space and comments.", "quantifier": "every scanner, every two texts that meet the scanner contract, script or module, every expression, every program", "why_tests_cant": "it speaks of all pairs of texts; only single pairs can be tried", "anchors": ["src/lib.rs:Parser::parse", "src/lib.rs:Parser::parse_expression", "src/lib.rs:Parser::parse_group_expr", "src/lib.rs:Parser::parse_block"]}
{"id": "C67", "title": "Lists are their elements", "statement": "A whole expression is one assignment expression or several with commas between them, each read as if it stood alone; an array literal is a bracket, elements each followed by a comma except that the last need not be, and a bracket, where a comma with no element before it is a hole; the arguments of a call are the same without holes. Each way round: whatever is made up so is read so, and whatever is read is made up so. An array literal so made up, and a parenthesised expression, is again an element, and at the end of an expression an expression.", "quantifier": "every parser configuration (for the arguments with the tolerant flag off), every state, every list of elements", "why_tests_cant": "lists have any length and any nesting, and an element is read under flags the elements before it have set; no set of samples covers the states in which an element is met", "anchors": ["src/lib.rs:Parser::parse_expression", "src/lib.rs:Parser::parse_array_init", "src/lib.rs:Parser::parse_args", "src/lib.rs:Parser::parse_spread_element", "src/lib.rs:Parser::isolate_cover_grammar", "src/lib.rs:Parser::inherit_cover_grammar"]}
{"id": "C68", "title": "Chains are their links", "statement": "A left-hand side is a primary expression, or new and what belongs to it, followed by links: a period and a token taken as a name whatever it is, an expression in brackets, arguments in parentheses, a template. The tree is what it begins with, each link in turn applied to what is before it, and reading stops at the first token that begins no link. Each way round: whatever is made up so is read so, and whatever is read is made up so; in is the operator inside, whatever it is outside, and the setting is put back. Such a chain, with no operator before it and nothing that continues an expression after it, is an element of a list, an expression, and a program.", "quantifier": "every parser configuration with the tolerant flag off, every state whose token is neither super nor spelled async, every number and kind of links", "why_tests_cant": "chains have any length, the four kinds of link come in any order with any expressions in them, and each is read under flags that the links before it have set", "anchors": ["src/lib.rs:Parser::parse_left_hand_side_expr_allow_call", "src/lib.rs:Parser::parse_args", "src/lib.rs:Parser::parse_template_literal", "src/lib.rs:Parser::parse_ident_name", "src/lib.rs:Parser::parse_expression"]}
{"id": "C69", "title": "Templates and object literals are their parts", "statement": "A template literal is a piece of text and, unless that ends it, expressions and pieces in turn, ending with the first piece that ends it; the pieces are the tokens without their delimiters. An object literal is a brace, members with commas between them and perhaps one at the end, and a brace. Each way round and with the same state after it. A member with a name and a value is the name, a colon and an assignment expression, which is read as it would be alone if the members before have left the flags of the cover grammar set. (That it is always read so, as the elements of an array literal are, is false: ({a: 1, b: c = 2}) is refused.)", "quantifier": "every parser configuration (for object literals with the tolerant flag off), every state, every number of parts", "why_tests_cant": "templates nest in their own holes and objects in their own values to any depth, and a value is read under flags that any of the members before it may have cleared", "anchors": ["src/lib.rs:Parser::parse_template_literal", "src/lib.rs:Parser::parse_template_element", "src/lib.rs:Parser::parse_obj_init", "src/lib.rs:Parser::parse_obj_prop", "src/lib.rs:Parser::set_inherit_cover_grammar_state"]}
{"id": "C70", "title": "Declarations, patterns, imports and class bodies are lists of their parts", "statement": "The declarations after var, let and const are one or more with commas between them, up to the first that no comma follows. The names of an import, and the parts of an object pattern, are any number in braces with commas between them and perhaps one at the end; a rest part may stand anywhere in an object pattern. An array pattern is elements and holes in brackets, in which a rest element is the last and has no comma after it. A class body is elements in braces, in which semicolons count for nothing and each element is told by the one before whether there has been a constructor. Each way round, and with the same state after it.", "quantifier": "every parser configuration, every state, every number of parts", "why_tests_cant": "the lists have any length and hold each other: patterns hold patterns, and initialisers and class elements hold whole programs", "anchors": ["src/lib.rs:Parser::parse_var_decl_list", "src/lib.rs:Parser::parse_variable_decl_list", "src/lib.rs:Parser::parse_binding_list", "src/lib.rs:Parser::parse_named_imports", "src/lib.rs:Parser::parse_object_pattern", "src/lib.rs:Parser::parse_array_pattern", "src/lib.rs:Parser::parse_class_body"]}
{"id": "C71", "title": "An accepted expression in brackets is the array of its elements", "statement": "If a text is an expression up to its end, then the text of the same tokens between [ and ] is accepted, and its program is the one statement of the array literal of the elements of that expression: one element if the expression is no sequence, and otherwise either the parts of the sequence or the sequence as one element. Both occur, and the tree of the expression does not tell which.", "quantifier": "every scanner that keeps its contract, every pair of texts whose tokens are so related, scripts and modules, every expression", "why_tests_cant": "the expressions are of any size and hold whole programs in function bodies; the claim compares the readings of two texts", "anchors": ["src/lib.rs:Parser::parse_array_init", "src/lib.rs:Parser::parse_expression", "src/lib.rs:Parser::parse"]}
{"id": "C72", "title": "Parameter lists and switch statements are lists of their parts", "statement": "The parameters of a function are nothing, or one or more with commas between them and perhaps one at the end, in parentheses; a rest parameter is followed by the closing parenthesis. The list is called simple just if every parameter is a plain name, and restricted just if the name of one is. A switch statement is an expression in parentheses and any number of clauses in braces, read with the flag for switch statements set, of which at most one has no test; the flag is put back after the closing brace. Each way round, and with the same state after it.", "quantifier": "every parser configuration, every state, every number of parameters and clauses", "why_tests_cant": "the lists have any length, and defaults and clauses hold whole programs", "anchors": ["src/lib.rs:Parser::parse_formal_params", "src/lib.rs:Parser::parse_formal_param", "src/lib.rs:Parser::parse_rest_element", "src/lib.rs:Parser::parse_switch_stmt"]}
{"id": "C73", "title": "Compound statements are their parts, and else belongs to the nearest if", "statement": "The statements if, while, do, with and try are their words, their expressions in parentheses and their statements or blocks, one after the other, each way round and with the same state after it; the flag for loops is put back, with is read only outside strict code, and a branch of if is no function in strict code. A statement that ends in an if without an else, be it through loops, labels, with or else branches, is never followed by else; so the first branch of an if with an else does not end in an if without one.", "quantifier": "every parser configuration with the tolerant flag off, every state, every statement however deep", "why_tests_cant": "the statements are nested to any depth through nine kinds of statement, and the claim about else is about what may follow each of them", "anchors": ["src/lib.rs:Parser::parse_statement", "src/lib.rs:Parser::parse_if_stmt", "src/lib.rs:Parser::parse_if_clause", "src/lib.rs:Parser::parse_while_stmt", "src/lib.rs:Parser::parse_do_while_stmt", "src/lib.rs:Parser::parse_with_stmt", "src/lib.rs:Parser::parse_try_stmt", "src/lib.rs:Parser::parse_for_stmt", "src/lib.rs:Parser::parse_labelled_statement"]}
{"id": "C74", "title": "For statements, jumps and semicolons are read as their forms say", "statement": "After what it begins with, a for statement is two semicolons, each part between them there or not, and a body; the body of a loop is a statement read as being in a loop, and the flags for loops and for the cover grammar are put back after it. A semicolon may be missing just at the end of the text, before a closing brace and where a line terminator has been passed, whatever follows. break and continue take a name for a label just if it is on the same line; throw is followed by an expression and such a semicolon, and on another line too. Each way round, and with the same state after it.", "quantifier": "every parser configuration, every state, every expression and statement", "why_tests_cant": "the parts are expressions and statements of any size, in any state of the parser", "anchors": ["src/lib.rs:Parser::parse_for_loop_cont", "src/lib.rs:Parser::parse_loop_body", "src/lib.rs:Parser::consume_semicolon", "src/lib.rs:Parser::parse_throw_stmt", "src/lib.rs:Parser::parse_optionally_labeled_statement"]}
