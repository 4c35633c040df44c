(** The repository's own tests, run on the model: /repo/tests/all/snippets.rs (every test that carries
    its text) and the unit tests at the end of /repo/src/lib.rs.  Where the Rust test compares with a tree,
    a table or comments, the expected value is transcribed and compared here; where it only calls
    [unwrap], acceptance is checked.  The scanner is the one of Lexer.v, so these are checks of the model,
    not properties; no theorem depends on them. *)
From Verif Require Import Lexer.
Open Scope string_scope.
Open Scope nat_scope.
Open Scope list_scope.

Definition id (x : string) : Expr := EIdent (str x).
Definition string_ (x : string) : Expr := ELiteral (LString (str x)).
Definition number (x : string) : Expr := ELiteral (LNumber (str x)).
Definition dir (x y : string) : ProgramPart := PPDir (str x) (LString (str y)).
Definition var_ (x : string) (e : option Expr) : VariableDecl := mkVarDecl (PIdentifier (str x)) e.
Definition arg (x : string) : FunctionArg := FAPat (PIdentifier (str x)).
Definition short (x : string) : ObjectPatPart := OPPAssignment (mkProperty (PKExpr (id x)) PVNone KInit false false true).
Definition num_prop (x n : string) : ObjectProperty :=
  OPProperty (mkProperty (PKExpr (id x)) (PVExpr (number n)) KInit false false false).
Definition hello : ProgramPart :=
  PPDecl (DFunction (mkFunction (Some (str "helloWorld")) []
    [PPStmt (SExpr (ECall (id "alert") [string_ "'Hello world'"]))] false false)).

Definition script (js : string) (ps : list ProgramPart) : Prop := run_text false false (str js) = Ok (PScript ps).
Definition accepted (module : bool) (js : string) : Prop :=
  match run_text false module (str js) with Ok _ => True | _ => False end.

(** ** lib.rs:4589-4617 [split_lines] *)
Example split_lines_lf : get_lines (str "lf:0" ++ [LF] ++ str "0;") = [mkLine 0 4; mkLine 5 6].
Proof. reflexivity. Qed.
Example split_lines_cr : get_lines (str "cr:0" ++ [CR] ++ str "0;") = [mkLine 0 4; mkLine 5 6].
Proof. reflexivity. Qed.
Example split_lines_crlf : get_lines (str "crlf:0" ++ [CR; LF] ++ str "0;") = [mkLine 0 7; mkLine 8 9].
Proof. reflexivity. Qed.
Example split_lines_ls : get_lines (str "ls:0" ++ [LS] ++ str "0;") = [mkLine 0 6; mkLine 7 8].
Proof. reflexivity. Qed.
Example split_lines_ps : get_lines (str "ps:0" ++ [PS] ++ str "0;") = [mkLine 0 6; mkLine 7 8].
Proof. reflexivity. Qed.

(** ** lib.rs:4619-4650 [position_for_item] *)
Definition thing : text := str "function thing() {" ++ [LF] ++ str "    return 'stuff';" ++ [LF] ++ str "}".
Example position_for_item : map (item_position (get_lines thing)) [9; 30; 39] =
  [Some (mkPos 1 9); Some (mkPos 2 11); Some (mkPos 3 0)].
Proof. reflexivity. Qed.

(** ** tests/all/snippets.rs *)
(** line 8 *)
Example parse_directive_prologues : script "'use strict'"
  [dir "use strict" "'use strict'"].
Proof. vm_compute. reflexivity. Qed.
(** line 8 *)
Example parse_directive_prologues_2 : script """use strict"";"
  [dir "use strict" """use strict"""].
Proof. vm_compute. reflexivity. Qed.
(** line 8 *)
Example parse_directive_prologues_3 : script "'use strict';
'use strict';"
  [dir "use strict" "'use strict'"; dir "use strict" "'use strict'"].
Proof. vm_compute. reflexivity. Qed.
(** line 24 *)
Example parse_with_stmt : script "with (Math) {
        floor(PI * random())
        }"
  [PPStmt (SWith (id "Math") (SBlock [PPStmt (SExpr (ECall (id "floor") [EBinary BTimes (id "PI") (ECall (id "random") [])]))]))].
Proof. vm_compute. reflexivity. Qed.
(** line 41 *)
Example parse_while_stmt : script "while (true) {
        console.log('false');
        break;
    }"
  [PPStmt (SWhile (ELiteral (LBoolean true)) (SBlock [PPStmt (SExpr (ECall (EMember (id "console") (id "log") false) [string_ "'false'"])); PPStmt (SBreak None)]))].
Proof. vm_compute. reflexivity. Qed.
(** line 62 *)
Example parse_while_stmt_2 : script "
    while (Math.random() > 0.1) {
        console.log('loop');
    }"
  [PPStmt (SWhile (EBinary BGreaterThan (ECall (EMember (id "Math") (id "random") false) []) (number "0.1")) (SBlock [PPStmt (SExpr (ECall (EMember (id "console") (id "log") false) [string_ "'loop'"]))]))].
Proof. vm_compute. reflexivity. Qed.
(** line 88 *)
Example parse_var_stmt : script "var i;"
  [PPStmt (SVar [var_ "i" None])].
Proof. vm_compute. reflexivity. Qed.
(** line 98 *)
Example parse_var_stmt_2 : script "var i = 0;"
  [PPStmt (SVar [var_ "i" (Some (number "0"))])].
Proof. vm_compute. reflexivity. Qed.
(** line 108 *)
Example parse_var_stmt_3 : script "var a, b, c, d = 22"
  [PPStmt (SVar [var_ "a" None; var_ "b" None; var_ "c" None; var_ "d" (Some (number "22"))])].
Proof. vm_compute. reflexivity. Qed.
(** line 122 *)
Example parse_var_stmt_fn : script "var fn = function (one, two) {
        return one + two;
        }"
  [PPStmt (SVar [var_ "fn" (Some (EFunction (mkFunction None [arg "one"; arg "two"] [PPStmt (SReturn (Some (EBinary BPlus (id "one") (id "two"))))] false false)))])].
Proof. vm_compute. reflexivity. Qed.
(** line 142 *)
Example parse_var_stmt_fn_2 : script "var fn = function* x() {
        yield 'one';
        yield 'two';
    }"
  [PPStmt (SVar [var_ "fn" (Some (EFunction (mkFunction (Some (str "x")) [] [PPStmt (SExpr (EYield (Some (string_ "'one'")) false)); PPStmt (SExpr (EYield (Some (string_ "'two'")) false))] true false)))])].
Proof. vm_compute. reflexivity. Qed.
(** line 162 *)
Example parse_var_stmt_destructure : script "var {a, b, c} = {a: 0, b: 1, c: 2}"
  [PPStmt (SVar [mkVarDecl (PObject [short "a"; short "b"; short "c"]) (Some (EObject [num_prop "a" "0"; num_prop "b" "1"; num_prop "c" "2"]))])].
Proof. vm_compute. reflexivity. Qed.
(** line 176 *)
Example parse_var_stmt_destructure_rest : script "var {a, b, c, ...arg} = {a: 0, b: 1, c: 2, d: 3, e: 4}"
  [PPStmt (SVar [mkVarDecl (PObject [short "a"; short "b"; short "c"; OPPRest (PRestElement (PIdentifier (str "arg")))]) (Some (EObject [num_prop "a" "0"; num_prop "b" "1"; num_prop "c" "2"; num_prop "d" "3"; num_prop "e" "4"]))])].
Proof. vm_compute. reflexivity. Qed.
(** line 192 *)
Example parse_try_stmt : accepted false "try {
            console.log('trying');
        } finally {
            console.log('done trying');
        }".
Proof. vm_compute. exact Logic.I. Qed.
(** line 203 *)
Example parse_try_stmt_2 : accepted false "try {
        console.log('trying');
    } catch (e) {
        console.log('caught', e);
    }".
Proof. vm_compute. exact Logic.I. Qed.
(** line 212 *)
Example parse_labeled_stmt_lf : script "linefeed:0
0;"
  [PPStmt (SLabeled (str "linefeed") (SExpr (number "0"))); PPStmt (SExpr (number "0"))].
Proof. vm_compute. reflexivity. Qed.
(** line 229 *)
Example parse_var_ident_fn : accepted false "({var(a, b = 0, [c,, d = 0, ...e], {f, g: h, i = 0, i: j = 0}, ...k){}})".
Proof. vm_compute. exact Logic.I. Qed.
(** line 236 *)
Example parse_arg_ident_assign : accepted false "({
        var({i = 0, i: j = 0}) {

        }
    })".
Proof. vm_compute. exact Logic.I. Qed.
(** line 247 *)
Example parse_nested_delegated_yield : accepted false "function*g(a, b = 0, [c,, d = 0, ...e], {f, g: h, i = 0, i: j = 0}, ...k){
  return a = yield* b = yield c = yield yield;
}".
Proof. vm_compute. exact Logic.I. Qed.
(** line 255 *)
Example parse_obj_pattern_fn_fat_arrow : accepted false "({i = 0, i: j = 0}) => {;};".
Proof. vm_compute. exact Logic.I. Qed.
(** line 261 *)
Example parse_obj_pat_fn_fat_arrow2 : accepted false "({x}) => ({x});".
Proof. vm_compute. exact Logic.I. Qed.
(** line 269 *)
Example parse_super_call : accepted false "class A extends B {
        constructor() {
            super(new.target);
        }
    }".
Proof. vm_compute. exact Logic.I. Qed.
(** line 280 *)
Example parse_delete_comma_op : accepted false "remove: function(a){
        if(l<Number.MAX_VALUE){
            var b=m[a];
            if(!b)return;
            b==n && (n=b.p);
            b==p && (p=b.n);
            f(b.n,b.p);
            delete m[a]
        }
        a in k&&(delete k[a],g--)
    }".
Proof. vm_compute. exact Logic.I. Qed.
(** line 297 *)
Example doc_snippet : script "function helloWorld() { alert('Hello world'); }"
  [hello].
Proof. vm_compute. reflexivity. Qed.
(** line 316 *)
Example builder_doc_snippet : script "for (var i = 0; i < 100; i++) {
        console.log('loop', i);
        }"
  [PPStmt (SFor (Some (LIVariable VVar [var_ "i" (Some (number "0"))])) (Some (EBinary BLessThan (id "i") (number "100"))) (Some (EUpdate UIncrement (id "i") false)) (SBlock [PPStmt (SExpr (ECall (EMember (id "console") (id "log") false) [string_ "'loop'"; id "i"]))]))].
Proof. vm_compute. reflexivity. Qed.
(** line 360 *)
Example parse_doc_example : script "function helloWorld() { alert('Hello world'); }"
  [hello].
Proof. vm_compute. reflexivity. Qed.
(** line 381 *)
Example readme_example : script "
function Thing() {
    return 'stuff';
}
"
  [PPDecl (DFunction (mkFunction (Some (str "Thing")) [] [PPStmt (SReturn (Some (string_ "'stuff'")))] false false))].
Proof. vm_compute. reflexivity. Qed.
(** line 429 *)
Example first_blog_post : script "function print(message) {
    console.log(message)
}"
  [PPDecl (DFunction (mkFunction (Some (str "print")) [arg "message"] [PPStmt (SExpr (ECall (EMember (id "console") (id "log") false) [id "message"]))] false false))].
Proof. vm_compute. reflexivity. Qed.
(** line 451 *)
Example obj_pat : accepted false "console.log({a: 'thing', b() {console.log('b')}});".
Proof. vm_compute. exact Logic.I. Qed.
(** line 458 *)
Example loop_decl_error : accepted true "function dependArray (value) {
  for (let e, i = 0, l = value.length; i < l; i++) {
    e = value[i];
    e && e.__ob__ && e.__ob__.dep.depend();
    if (Array.isArray(e)) {
      dependArray(e);
    }
  }
}".
Proof. vm_compute. exact Logic.I. Qed.
(** line 473 *)
Example template_tail_error : accepted true "function getRawDirName (dir) {
  return dir.rawName || `${dir.name}.${Object.keys(dir.modifiers || {}).join('.')}`
}".
Proof. vm_compute. exact Logic.I. Qed.
(** line 483 *)
Example ref_template : accepted true "`\0\n\x0A\u000A\u{A}`".
Proof. vm_compute. exact Logic.I. Qed.
(** line 493 *)
Example comment_handler_test : let '(g, (o, s)) := build test_scanner (b_set_js (str "//things
    /* things */
    <!-- things -->") builder_new) in
  let '(r, s') := parse g 300 s in
  (match r with Ok _ => true | _ => false end, map (fun c => (cm_kind c, cm_text c)) (st_comments s')) =
  (true, [(CSingle, str "//things"); (CMulti, str "/* things */"); (CHtml, str "<!-- things -->")]).
Proof. vm_compute. reflexivity. Qed.
(** line 517 *)
Example class_expr : accepted false "for(let {a = new class extends Array { constructor(b = (a = eval(""()=>super()""))){} }} of [[]]);".
Proof. vm_compute. exact Logic.I. Qed.
(** line 524 *)
Example class_expr_pat : accepted false "for ([class get {} ().iterator] of []);".
Proof. vm_compute. exact Logic.I. Qed.
(** line 531 *)
Example expr_to_pat : accepted false "let x = { [Symbol.species]: function(length) { return; } }".
Proof. vm_compute. exact Logic.I. Qed.
(** line 538 *)
Example non_strict_mode_keywords : accepted false "var f = package => 0;".
Proof. vm_compute. exact Logic.I. Qed.
(** line 545 *)
Example obj_literal_in_binary_op : accepted false """"" + {toString: Date.prototype.toJSON};".
Proof. vm_compute. exact Logic.I. Qed.
(** line 552 *)
Example template_middle : accepted false "let bitval = `(${prefix}.const ${format(val, i)})`".
Proof. vm_compute. exact Logic.I. Qed.
(** line 559 *)
Example loop_left_expr : accepted false "for (t[t++] in object);".
Proof. vm_compute. exact Logic.I. Qed.
(** line 565 *)
Example for_loop_nonsense : accepted false "for (var i = 1000; i-- > 0; ) {
    expr = `(f32.neg ${expr})`;
}".
Proof. vm_compute. exact Logic.I. Qed.
(** line 574 *)
Example function_param_pat : accepted false "function f(x, await = () => Array.isArray(revocable.proxy), ...get) {
    dbg.getNewestFrame().older.eval(""print(a)"");
}".
Proof. vm_compute. exact Logic.I. Qed.
(** line 583 *)
Example more_for_loop_nonsense : accepted false "for (f().x of [])
    s += '.';".
Proof. vm_compute. exact Logic.I. Qed.
(** line 591 *)
Example deeply_nested_template : accepted false "`
 (func ${name} (param $barrierValue i32) (result i32)
   (local $n i32)
   (local $tmp ${prefix})
   (set_local $n (i32.const ${ITERATIONS}))
   (loop $outer
    (if (get_local $n)
        (block
         ${isMaster ? `;; Init
(${prefix}.atomic.store${tag} ${loc} (${prefix}.const ${distribute(initial)}))` : ``}
         ${barrier}

${(() => {
    let s = `;; Do\n`;
    for (let i=0; i < NUMVALS; i++) {
        let bitval = `(${prefix}.const ${format(val, i)})`
        // The load must be atomic though it would be better if it were relaxed,
        // we would avoid fences in that case.
        if (op.match(/cmpxchg/)) {
            s += `(loop $doit
                   (set_local $tmp (${prefix}.atomic.load${tag} ${loc}))
                   (br_if $doit (i32.eqz
                                 (${prefix}.eq
                                  (get_local $tmp)
                                  (${op} ${loc} (get_local $tmp) (${prefix}.or (get_local $tmp) ${bitval}))))))
            `;
        } else {
            s += `(drop (${op} ${loc} ${bitval}))
            `;
       }
     }
    return s
})()}
         (loop $wait_done
          (br_if $wait_done (${prefix}.ne (${prefix}.atomic.load${tag} ${loc}) (${prefix}.const ${distribute(expected)}))))
         ${barrier}
         (set_local $n (i32.sub (get_local $n) (i32.const 1)))
         (br $outer))))
  (get_local $barrierValue))`".
Proof. vm_compute. exact Logic.I. Qed.
(** line 635 *)
Example ghost_semi_colon : accepted false "function() {
    'string' + 0;
}".
Proof. vm_compute. exact Logic.I. Qed.
(** line 644 *)
Example spread_param_in_complicated_params : accepted false "(...k) => {;};".
Proof. vm_compute. exact Logic.I. Qed.
(** line 651 *)
Example assignment_in_complicated_params : accepted false "({f, g: h, i = 0, i: j = 0}) => {;}".
Proof. vm_compute. exact Logic.I. Qed.
(** line 658 *)
Example less_than : accepted false "0>>0; 0>>>0;

0<0;".
Proof. vm_compute. exact Logic.I. Qed.
(** line 666 *)
Example ref_regex : accepted false "var
	r20 = /%20/g,
	rhash = /#.*$/,
	rantiCache = /([?&])_=[^&]*/,
	rheaders = /^(.*?):[ \t]*([^\r\n]*)$/mg,

	// #7653, #8125, #8152: local protocol detection
	rlocalProtocol = /^(?:about|app|app-storage|.+-extension|file|res|widget):$/,
	rnoContent = /^(?:GET|HEAD)$/,
	rprotocol = /^\/\//,

	/* Prefilters
	 * 1) They are useful to introduce custom dataTypes (see ajax/jsonp.js for an example)
	 * 2) These are called:
	 *    - BEFORE asking for a transport
	 *    - AFTER param serialization (s.data is a string if s.processData is true)
	 * 3) key is the dataType
	 * 4) the catchall symbol ""*"" can be used
	 * 5) execution will start with transport dataType and THEN continue down to ""*"" if needed
	 */
	prefilters = {},

	/* Transports bindings
	 * 1) key is the dataType
	 * 2) the catchall symbol ""*"" can be used
	 * 3) selection will start with transport dataType and THEN go to ""*"" if needed
	 */
	transports = {},

	// Avoid comment-prolog char sequence (#10098); must appease lint and evade compression
	allTypes = ""*/"".concat( ""*"" ),

	// Anchor tag for parsing the document origin
	originAnchor = document.createElement( ""a"" );
	originAnchor.href = location.href;".
Proof. vm_compute. exact Logic.I. Qed.
(** line 706 *)
Example job_queue : accepted false "var log = '';
async function f(label, k) {
  log += label + '1';
  await 1;
  log += label + '2';
  await 1;
  log += label + '3';

  return k();
}".
Proof. vm_compute. exact Logic.I. Qed.
(** line 723 *)
Example another_async_fn_failure : accepted false "// Test uncatchable error when a stream's queuing strategy's size() method is called.

// Make `debugger;` raise an uncatchable exception.
let g = newGlobal({newCompartment: true});
g.parent = this;
g.hit = false;
g.eval(`
    var dbg = new Debugger(parent);
    dbg.onDebuggerStatement = (_frame, exc) => (hit = true, null);
`);

let fnFinished = false;
async function fn() {
    // Await once to postpone the uncatchable error until we're running inside
    // a reaction job. We don't want the rest of the test to be terminated.
    // (`drainJobQueue` catches uncatchable errors!)
    await 1; 

    try {
        // Create a stream with a strategy whose .size() method raises an
        // uncatchable exception, and have it call that method.
        new ReadableStream({
            start(controller) {
                controller.enqueue(""FIRST POST"");  // this calls .size()
            }
        }, {
            size() {
                debugger;
            }
        });
    } finally {
        fnFinished = true;
    }
}

fn();
drainJobQueue();
assertEq(g.hit, true);
assertEq(fnFinished, false);
".
Proof. vm_compute. exact Logic.I. Qed.
(** line 771 *)
Example async_method_failure : accepted false "class X {
    async [""foo""]() {
        return eval();
    }
}".
Proof. vm_compute. exact Logic.I. Qed.
(** line 783 *)
Example new_member_expr_failure : accepted false "function isElement(node) {
  return !!(node &&
    (node.nodeName  // We are a direct element.
    || (node.prop && node.attr && node.find)));  // We have an on and find method part of jQuery API.
}".
Proof. vm_compute. exact Logic.I. Qed.
