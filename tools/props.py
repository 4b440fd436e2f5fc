#!/usr/bin/env python3
# Source of /verif/properties.jsonl (run: python3 tools/props.py > properties.jsonl)
import json
P=[]
def p(id,title,statement,quantifier,why,anchors):
    P.append(dict(id=id,title=title,statement=statement,quantifier=quantifier,why_tests_cant=why,anchors=anchors))

p("C01","Bytecode runner agrees with the tree-walking runner",
 "Running a program with the bytecode runner (compile to bytecode, link, execute) gives the same result as running it with the tree-walking runner: if the tree-walker yields values, the bytecode run terminates and yields the same printable values for every requested expression.",
 "every core program with scoped, globally unique names, every list of requested expressions, every execution length",
 "The agreement must hold for unboundedly many programs (nesting of closures, captures, recursion, matches); ticc-tests only compares a fixed set of samples.",
 ["ticc-eval/src/compile.rs: compile, compile_expr, compile_function, free_variables","ticc-eval/src/bytecode.rs: run, link","ticc-eval/src/treewalk.rs: eval_impl"])
p("C02","Self tail calls run in constant stack",
 "A call of a recursive function to itself in tail position does not grow the bytecode runner's value stack: every iteration re-enters the function body with the same stack height.",
 "every recursive function, every number of iterations, every tail position nested under if, match and let",
 "A test can only run finitely many iterations of particular loops.",
 ["ticc-eval/src/compile.rs: compile_expr (Call case), compile_function","ticc-eval/src/bytecode.rs: run (Set, PopN, Jump)"])
p("C03","Closure-compiling (lambda) runner agrees with the tree-walking runner",
 "The lambda runner, which resolves names to stack slots and captures by value before running, gives the same result as the tree-walking runner.",
 "every core program, every nesting of scopes and captures",
 "Slot resolution must be right for every shape of nesting; samples cover few.",
 ["ticc-eval/src/lambda.rs: compile_expr, EnvResolver, free_names, eval"])
p("C04","Garbage collection preserves all live data",
 "After a collection every root denotes the same (unfolded) value as before it: reachable objects keep tag, size, contents and sharing, and integers are never altered.",
 "every well-formed heap, every list of roots, every requested free size",
 "Object graphs are unbounded; a unit test checks a handful of graphs.",
 ["ticc-eval/src/heap.rs: collect, collect_and_grow, collect_inner"])
p("C05","Heap objects never overlap and are read back as written",
 "A fresh allocation never overlaps an existing object and leaves all existing objects unchanged; fields, bytes and tags read back from an object are those it was allocated with.",
 "every sequence of allocations and collections",
 "Histories of allocate/collect are unbounded.",
 ["ticc-eval/src/heap.rs: raw_alloc, alloc_bytes, alloc_object, Object"])
p("C06","The bytecode runner does not run out of heap while live data is small",
 "A program whose live data stays small never aborts with an out-of-memory panic: the heap grows as needed.",
 "every allocation history",
 "Depends on the relation of allocation size to the remaining space at every point of every history.",
 ["ticc-eval/src/heap.rs: raw_alloc","ticc-eval/src/bytecode.rs: run (maybe_gc)"])
p("C07","Integer arithmetic is total 64-bit unsigned arithmetic",
 "On the tree-walking, lambda and bytecode runners + - * wrap modulo 2^64, x / 0 = 0, x % 0 = x, comparisons are unsigned, and every result is again in [0, 2^64).",
 "every pair of 64-bit operands and every operator, on each runner",
 "2^128 operand pairs per operator.",
 ["ticc-eval/src/treewalk.rs: eval_impl (Op)","ticc-eval/src/bytecode.rs: run","ticc-eval/src/lambda.rs: compile_expr (Op)"])
p("C08","String intrinsics are total and obey the string laws",
 "len, concat, charAt, substring and fromChar are defined on all arguments: charAt out of range is 0, substring is the clamped slice, len(concat a b) = len a + len b, fromInt renders the decimal numeral and distinct integers have distinct numerals.",
 "every byte string and every 64-bit index or length",
 "Unbounded strings and 2^64 indices including wrap-around ones.",
 ["ticc-eval/src/treewalk.rs: eval_impl (Intrinsic)","ticc-eval/src/bytecode.rs: run (string ops)"])
p("C09","Optimizer pass: applying a literal function (reduce_apply) preserves results",
 "Rewriting (\\x -> b) a to let x = a; b never changes the result of a program that evaluates successfully.",
 "every core program with unique names","Infinitely many programs and contexts.",
 ["ticc/src/codegen/opt/reduce_apply.rs"])
p("C10","Optimizer pass: type application reduction (reduce_pi) preserves results",
 "Reducing a type application of a type abstraction changes only types: all runners, which erase types, give the same result.",
 "every core program","Infinitely many programs.",
 ["ticc/src/codegen/opt/reduce_pi.rs"])
p("C11","Optimizer pass: dead code elimination keeps exports and results",
 "Removing unused definitions and unused lets keeps every exported definition, and any program that evaluates successfully still evaluates to the same values.",
 "every core program with unique names","Infinitely many programs and reachability graphs.",
 ["ticc/src/codegen/opt/dce.rs"])
p("C12","Optimizer pass: inlining single-use lets (inline_simple) preserves results",
 "Substituting a let-bound value for its only use never changes the result of a program that evaluates successfully.",
 "every core program with unique names","Infinitely many programs; capture bugs need particular nestings.",
 ["ticc/src/codegen/opt/inline_simple.rs"])
p("C13","Optimizer pass: hoisting lets of recursive functions (move_match) preserves results",
 "Moving a simple let of a curried recursive function under the inner lambda never changes results.",
 "every core program","Infinitely many programs.",
 ["ticc/src/codegen/opt/move_match.rs"])
p("C14","Optimizer pass: match-of-match (merge_match) preserves results",
 "Fusing a match whose scrutinee is a match on constructors never changes results.",
 "every core program","Infinitely many programs and branch orders.",
 ["ticc/src/codegen/opt/merge_match.rs"])
p("C15","Optimizer pass: uncurrying (saturate) preserves results",
 "Collapsing a curried definition into a multi-argument one with all uses rewritten never changes results.",
 "every core program","Infinitely many programs.",
 ["ticc/src/codegen/opt/saturate.rs"])
p("C16","Optimizer pass: inlining definitions (inline) preserves results",
 "Replacing a name by a renamed copy of its (small or simple) definition never changes results.",
 "every core program","Infinitely many programs; renaming must avoid every capture.",
 ["ticc/src/codegen/opt/inline.rs"])
p("C17","The optimizer terminates and preserves results as a whole",
 "optimize() performs at most ten rounds, and a program that evaluates successfully to first-order values before optimization evaluates to the same values after it.",
 "every core program","Composition of passes over all programs.",
 ["ticc/src/codegen/opt.rs: optimize"])
p("C18","A trap is never lost by optimization",
 "Optimizing a program must not change whether it reports a trap (hole): if the unoptimized program stops with a trap so does the optimized one.",
 "every core program","Universal over programs; a single counterexample refutes it.",
 ["ticc/src/codegen/opt/dce.rs","ticc/src/codegen/opt/inline_simple.rs"])
p("C19","Accepted core programs have no unbound or duplicate names",
 "If the core verifier accepts a program then every used name is in scope, no binder is introduced twice, and no runner or the bytecode compiler can fail on a name lookup.",
 "every core program","All programs; verifier's scoping bookkeeping is stateful.",
 ["ticc-core/src/verify.rs: assert_valid_with_values, Names","ticc-eval/src/treewalk.rs: Env lookup","ticc-eval/src/compile.rs: pick_var"])
p("C20","The core verifier only accepts well-typed programs",
 "If the verifier accepts a program, evaluating it never applies a non-function, branches on a non-boolean or otherwise meets a value of the wrong kind; its type comparison accepts exactly alpha-equivalent types.",
 "every core program and pair of types","Binder bookkeeping in the comparison is wrong only for particular shapes.",
 ["ticc-core/src/verify.rs: check_expr, assert_fits"])
p("C21","Type unification is sound",
 "If unifying two types succeeds then afterwards both resolve to the same type, and everything previously unified stays unified.",
 "every unifier state reachable by any sequence of operations, every pair of types","Unbounded histories of unifications.",
 ["ticc/src/compiler/typeck.rs: Unifier"])
p("C22","Failed unification leaves no trace",
 "If unification fails, the unifier state is exactly what it was before the attempt, so later type errors are not influenced by the partial attempt.",
 "every state and pair of types","The failure can occur at any depth after any number of partial bindings.",
 ["ticc/src/compiler/typeck.rs: Unifier::unify, commit, rollback"])
p("C23","Unification never builds an infinite type",
 "In every reachable unifier state types are finite (acyclic), hence resolving or printing a type terminates.",
 "every sequence of unifier operations","Histories are unbounded.",
 ["ticc/src/compiler/typeck.rs: Unifier::occurs, unify_var"])
p("C24","Tokens tile the source",
 "Lexing never fails, every token is non-empty and the concatenation of the token texts is the source; keywords are recognised exactly when the whole maximal word is a keyword.",
 "every source text","All strings.",
 ["ticc/src/compiler/lexer.rs"])
p("C25","The syntax tree is lossless",
 "For every source, the concatenation of all token and trivia texts of the parsed items in order is the source, and spans are contiguous, also when parsing item by item.",
 "every source text, valid or not","All strings, all error-recovery paths.",
 ["ticc/src/compiler/parser.rs: events_to_node, parse_one_item","ticc/src/lib.rs: compile_up_to","ticc-syntax/src/lib.rs: SyntaxBuilder"])
p("C26","Parsing terminates on every input",
 "Parsing any source finishes, each item consumes at least one token.",
 "every source text","All strings; error recovery loops.",
 ["ticc/src/compiler/parser.rs","ticc/src/compiler/parser/expr.rs"])
p("C27","Operator precedence and associativity",
 "A chain of binary operators is grouped by precedence (*,/,% over +,- over comparisons over |>), left-associatively within a level, and the grouping keeps the operands and operators in source order.",
 "every chain of operands and operators of any length","Chains are unbounded.",
 ["ticc/src/compiler/parser/expr.rs: op_expr, binding_power"])
p("C28","Editor positions round-trip",
 "Converting any source offset on a character boundary to an editor position (line, UTF-16 column) and back gives the same offset.",
 "every text, every character offset","All texts incl. multi-byte and surrogate pairs.",
 ["ticc-lsp/src/utils.rs: LocationTranslator"])
p("C29","Out-of-range editor positions are clamped, independent of history",
 "The offset computed for an editor position depends only on text and position; a column past the end of a line never designates text on another line.",
 "every text, position and sequence of earlier queries","History of queries is unbounded.",
 ["ticc-lsp/src/utils.rs: LocationTranslator::to_ticc"])
p("C30","Semantic tokens decode to the highlighted ranges",
 "Decoding the relative encoding sent to the editor recovers exactly the positions of the tokens, in order.",
 "every sorted list of tokens","Unbounded lists.",
 ["ticc-lsp/src/semantic_tokens.rs"])
p("C31","The formatter keeps the tokens and never crashes on its internal assertion",
 "Formatter output contains exactly the given tokens in order, separated only by spaces and newlines, never ends a line with a space, and its internal consistency assertion never fires.",
 "every sequence of builder calls","Unbounded sequences.",
 ["formatter/src/lib.rs"])
p("C32","Exhaustive matches never fall through",
 "A match accepted by the match checker has exactly one branch for every constructor, so at run time some branch applies; otherwise the missing/duplicate constructors are reported.",
 "every type definition and every list of branches","Arbitrary constructor sets and orders.",
 ["ticc/src/compiler/matchck.rs"])
p("C33","Integer literals are accepted iff they denote a 64-bit number",
 "A numeric literal is accepted exactly if it is a decimal numeral below 2^64 and then denotes that number.",
 "every literal text","All digit strings.",
 ["ticc/src/compiler/numck.rs","ticc/src/codegen/gen_core.rs: Number"])
p("C34","Printed results identify the value",
 "Two different first-order result values of the same type are printed differently.",
 "every pair of values","All strings and nested values.",
 ["ticc/src/interpreter.rs: write_value","ticc-core/src/ir.rs: ByteString Debug"])
p("C35","The program entry point is the last visible exported main",
 "Running a program runs the `main` that importers would see (the latest export), and rejects programs whose main has the wrong type or is missing.",
 "every list of definitions","All orders of duplicate definitions.",
 ["ticc/src/interpreter.rs: do_eval_main","ticc/src/lib.rs: find_export"])
p("C36","Import cycles are reported, not looped",
 "Resolving modules always terminates; an import chain that returns to a module being compiled is reported as an import cycle and nothing else is.",
 "every file graph and import path spelling","File graphs are unbounded.",
 ["ticc/src/main.rs: ChildResolver","ticc-lsp/src/main.rs: CompilationModuleResolver"])
p("C37","Language server answers from the latest text",
 "After any sequence of open/change/close notifications, what is shown for each open file is what a server started afresh on the newest texts would show: the last text the client sent of that file and of every file it sent, and for other files what was on the disk.",
 "every sequence of notifications","Unbounded histories.",
 ["ticc-lsp/src/main.rs: FileSet, Compilation","ticc-lsp/src/handlers.rs: on_open, on_change, on_close, on_file_update"])
p("C38","Emitted IR text determines the program",
 "emit-ir prints different core programs differently (operators are never confused).",
 "every pair of core expressions","All expressions.",
 ["ticc-core/src/pretty.rs"])
p("C39","iterate applies its function exactly n times, in constant stack",
 "`iterate n f x` ends exactly as n successive applications of f to x do (with the last result, or the first trap; it runs on iff they do), and the number of nested calls it needs does not depend on n.",
 "every n, every function and start value, any number of iterations","Unbounded iteration counts and every function.",
 ["ticc/src/codegen/gen_core.rs: iterate_intrinsic"])
p("C40","Standard library integer functions meet their specification",
 "In every program that imports std/int: iterate applies a function n times, toString writes the decimal numeral without leading zeros, parse inverts it and rejects everything that is not a numeral, min, max, gcd, lcm and the bit operations compute what their names say on 64-bit numbers.",
 "every program that imports the library, all 64-bit integers, all strings, all functions passed in","2^128 inputs.",
 ["ticc/src/std/int.tic","ticc/src/builtin.rs"])
p("C41","A fold visits every recursive position exactly once",
 "A `fold` match over a value of a recursive type computes the structural catamorphism: every recursive field is replaced by the fold's result on it.",
 "every recursive type, every value of any depth","Values of unbounded depth.",
 ["ticc/src/codegen/gen_core.rs: fold lambda"])
p("C42","Unused-definition warnings are exactly the unreferenced names",
 "A definition, parameter or import is reported unused iff no reference to it exists and it is not exported and does not start with an underscore.",
 "every resolved program","All sets of definitions and references.",
 ["ticc/src/lint/unused.rs"])
p("C43","Generated core is well scoped with distinct names",
 "The core program generated from a resolved program (modules imported any number of times) binds every name once, uses names only in scope, gives intrinsics all their arguments, and its recursive definitions are functions that call themselves in tail position with all arguments.",
 "every resolved program and import graph","All programs and all import graphs.",
 ["ticc/src/codegen/gen_core.rs: generate_core, emit_module, gen_type_item, gen_value_item, gen_expr"])
p("C44","Compiled programs mean what the source says",
 "Running the program generated from a source program ends exactly as the source does under the language's own rules (values, trap message, divergence), every exported name carrying the value the source gives it, through optimisation down to the bytecode machine.",
 "every resolved program and import graph, both evaluation orders, every bound on nested calls","All programs and all values, including functions applied later.",
 ["ticc/src/codegen/gen_core.rs: generate_core, gen_expr, gen_value_item","ticc/src/codegen.rs: emit_core"])
p("C45","Standard library lists, options and results meet their specification",
 "In every program that imports std/list, std/option, std/result: map, filter, reverse, take, skip, concat, folds, range, zip, sortBy (a sorted permutation), join, maxBy and the rest compute the mathematical list functions, for lists of any length and any function passed in; the option and result functions are their usual ones.",
 "every program that imports the library, lists of every length, every function value","Lists of unbounded length and arbitrary functions.",
 ["ticc/src/std/list.tic","ticc/src/std/option.tic","ticc/src/std/result.tic"])
p("C46","Standard library strings meet their specification",
 "In every program that imports std/string: split gives the parts between separators, lines the lines without their ends, equal decides equality, startsWith decides prefixes, trim removes exactly the outer spaces, foldChars folds over all bytes in order.",
 "every program that imports the library, all strings shorter than 2^64 bytes","Strings of unbounded length.",
 ["ticc/src/std/string.tic"])
p("C47","Standard library arrays behave as lists with random access",
 "In every program that imports std/array: an array made by new or fromList has the given elements, get reads the element at an index or None outside, set and mapIdx change exactly that element, length, toList and truncate agree with the list of elements, for every size up to 2^64.",
 "every program that imports the library, every size below 2^64, every history of operations","Histories of operations and sizes beyond memory.",
 ["ticc/src/std/array.tic"])
p("C48","What the type checker accepts is well typed",
 "If no diagnostic is reported for any item of a program with annotated definitions, every definition has its declared type by the language's typing rules: inferred types of parameters and locals, instances of polymorphic names, match patterns with all constructors covered, folds; and every type is used with the number of arguments it is declared with.",
 "every program whose names are resolved, any size and nesting","All programs and all sequences of unification steps.",
 ["ticc/src/compiler/typeck.rs: type_check, check_expr, Unifier","ticc/src/compiler/kindck.rs","ticc/src/compiler/matchck.rs"])
p("C49","Well-typed programs do not go wrong",
 "A program typed by the rules never applies a non-function, adds non-numbers, branches on a non-boolean or matches a value that has no case, in either evaluation order and however long it runs; each definition ends with a value of the shape of its declared type.",
 "every typed program, both evaluation orders, any number of steps","Unbounded runs and higher-order values.",
 ["ticc/src/codegen/gen_core.rs: gen_expr (the meaning of source expressions)","ticc/src/compiler/ir.rs"])
p("C50","Accepted programs do not go wrong",
 "A program accepted without diagnostics runs without panicking (only traps and holes stop it), as source and as generated core, and its exported values have the shape of their declared types.",
 "every accepted program, both evaluation orders, any number of steps","All programs and unbounded runs.",
 ["ticc/src/compiler/typeck.rs: type_check","ticc/src/codegen/gen_core.rs: generate_core"])
p("C51","What is reported does not depend on what was asked before",
 "Compiling a unit in pieces, up to the positions of any sequence of hover, completion, navigation or diagnostics requests, ends with the same typed items and the same errors as compiling it at once; a definition without annotation has an unknown type for everything after it whatever was asked.",
 "every program and every sequence of queries","All programs and all histories of queries.",
 ["ticc/src/lib.rs: compile_up_to","ticc/src/compiler/typeck.rs: type_check"])
p("C52","Names mean the nearest definition around them",
 "If the resolver reports no error, every name in a program stands for the nearest enclosing definition of that name: locals before items, later items before earlier ones, values, types and constructors apart, a definition not visible in its own body, type variables the lower case names of an annotation that are not types. An error is reported only if some name has no definition in scope or a type has two constructors of one name. For every program, with errors or without, each definition gets a symbol of its own and every name refers to something in scope, which is what the type checker relies on; so a program without resolver and type errors does not go wrong.",
 "every program (syntax tree), every way of numbering symbols","All programs with all nestings of shadowing definitions.",
 ["ticc/src/compiler/resolve.rs: resolve, resolve_expr, resolve_type, resolve_type_with_vars, resolve_match_case","ticc/src/compiler.rs: Scope"])
p("C53","Go to definition and find references",
 "On a name that is used, go to definition gives the nearest enclosing definition of that name in the unit, on a definition the definition itself, elsewhere nothing; find references on either gives exactly the names in the whole unit that refer to that definition. Both whatever part of the unit was compiled before.",
 "every unit without imports, every position, every history of queries","All programs, all positions and all histories of partial compilation.",
 ["ticc/src/api/navigation.rs: find_definition, find_references","ticc/src/api.rs: find_ref_at, find_def_at, find_def","ticc/src/lib.rs: compile_up_to","ticc/src/compiler/resolve.rs"])
p("C54","Completion offers exactly what would resolve",
 "At a position inside an item where a name could be used, completion offers exactly those names that, written there, would refer to a definition in scope at that place (values, types or constructors as the place demands), in alphabetical order and each once; at other places it offers nothing. The answer does not depend on what was asked before.",
 "every unit without imports, every position inside an item, every history of queries","All programs, all positions, all shadowing and nesting.",
 ["ticc/src/api/completion.rs: completions_at, Resolver","ticc/src/compiler/resolve.rs: on_name","ticc/src/compiler.rs: Scope"])
p("C55","A file is accepted exactly if it is in the grammar, and then its tree is the grammar's",
 "Compiling a whole file reports no syntax diagnostic exactly if its words (its tokens without spaces, newlines and comments) are those of items of the language's grammar, one after another; each item then gets the tree the grammar gives it. The grammar is unambiguous, and what stands between the words has no influence on the trees.",
 "every source text","All texts, all nestings of expressions and types, all operator sequences.",
 ["ticc/src/compiler/parser.rs: Parser, parse_one_item","ticc/src/compiler/parser/expr.rs: expr, op_expr, apply_expr, atom_expr, match_case, binding_power","ticc/src/compiler/parser/type_.rs: type_, non_fn_type, atom_type","ticc/src/compiler/parser/item.rs: item, value_item, type_item, type_case, exposed_list","ticc/src/lib.rs: compile_up_to"])
p("C56","Highlighting shows every name as what it stands for",
 "The tokens reported for highlighting are the words and comments of the file, each once, in the order of the text and at its place. Keywords, operators, punctuation, numbers, strings and comments are shown as such; a name is shown as the kind of definition (type, type variable, constructor, value) it makes or stands for, and as a value if it stands for nothing.",
 "every source text and every program, whatever was asked about it before","All texts, all nestings of scopes, all query histories.",
 ["ticc/src/api/tokens.rs: tokens, convert_token","ticc-syntax/src/cursor.rs: descendant_elements","ticc/src/compiler/resolve.rs: resolve_item, resolve_expr, resolve_type_with_vars"])
p("C57","Hovering over a name shows the type of its definition",
 "On a name that is used or defined, the information is the name of its definition and its type. For types it is the kind with one star per parameter and one for the result, for constructors the function type from the fields to the type, for annotated values the annotation as written, with parentheses only where needed; for other values the type that was inferred. On no name there is none from the names. Two types with the same text are the same type, but for types of the same name. The answer does not depend on what was asked before.",
 "every unit without imports, every position, every history of queries, all types","All programs, all positions, all nestings of types.",
 ["ticc/src/api/info.rs: info_at, def_info","ticc/src/api.rs: TypePrinter, find_def_or_ref_at, find_def","ticc/src/compiler/resolve.rs: resolve_type, resolve_type_with_vars, resolve_type_case","ticc/src/compiler/typeck.rs: type_check"])
p("C58","Types have no effect on a run",
 "Two core programs that differ only in the types written in them, and in what they abstract over or apply to types, end with the same results, the same trap or the same crash, or run on, with the same depth of calls; the bytecode runner gives for one the results of the other.",
 "every pair of core programs and expressions with the same code, every call depth","All programs, all placements of types in them, unbounded runs.",
 ["ticc-eval/src/treewalk.rs: eval_expr, make_rec_fn","ticc-core/src/ir.rs: ExprKind","ticc/src/codegen/opt/reduce_pi.rs"])
for x in P: print(json.dumps(x,ensure_ascii=False))
