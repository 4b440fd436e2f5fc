# Formal model of jDomantas/tic in Rocq (Coq 8.16.1)

Kept current with the proofs. `properties.jsonl` lists the properties in English, `MANIFEST.json` maps each
to its theorems, `seeded/LOG.jsonl` records the wrong programs tried against the theorems.

## Trusted base

* Coq 8.16.1's kernel (with `vm_compute`, which is part of it and is used only in examples and for
  closed counterexamples).
* Axioms: none. Under every property theorem, `Print Assumptions` says *Closed under the global context*. The
  `ssrunder` names a scan of the loaded libraries finds (`Coq.ssr.ssrunder.Under_rel.*`) are module
  parameters of the standard library that come with loading `Lia`/`ssreflect` support; no theorem depends on them.
* No axioms, functors, module types, plugins, or disabled checks in `rocq/theories`. `Section` variables are
  used for parameters and are generalised when the section closes.
* The reading of `/repo`: each definition of the model carries a comment with the file and lines it models and says
  where it simplifies. Nothing of `/repo` is executed; that reading is the tie between theorems and code.
* Rust semantics assumed: `HashMap`/`HashSet` are finite maps/sets (where an iteration order matters it is an
  arbitrary function, e.g. `ord` in `Lambda.v`), `Vec` is a list, sharing through `Rc` is unobservable, a panic is
  an explicit result (`Panic`, `None` or a crash flag as each file says), native stack exhaustion and running out
  of memory are not modelled unless stated (the collected heap's own limits are).
* Crates outside the repository: `logos` is assumed to implement longest match with its documented priorities
  (with an arbitrary number of skipped characters on an error); `lsp-types` only as data.

## What is modelled (function by function)

| area | repo files | model | specification | proofs | theorems |
|---|---|---|---|---|---|
| core IR | ticc-core/src/ir.rs | `Ir` | `Wf` | | |
| tree-walking runner | ticc-eval/src/treewalk.rs, tagged.rs | `Eval` | | `EvalFacts`, `Orders` | `PropsArith`, `PropsRunner` |
| bytecode compiler, linker, VM | ticc-eval/src/compile.rs, bytecode.rs | `Compile`, `Vm` | `Wf` | `CompileStatic`, `CompileTotal`, `CompileCorrect`, `RunnerCorrect`, `RunnerFacts`, `ArithProofs` | `PropsRunner` |
| heap and collector | ticc-eval/src/heap.rs | `Heap` | `HeapSpec` | `HeapProofs`, `HeapFacts`, `HeapRun` | `PropsHeap` |
| lambda runner | ticc-eval/src/lambda.rs | `Lambda` | | `LambdaProofs` | `PropsLambda` |
| core verifier | ticc-core/src/verify.rs | `Verify` | `Wf`, `TypeSpec`, `AlphaSpec` | `VerifyState`, `VerifyNames`, `VerifyLimit`, `VerifyRuns`, `TypeTr`, `TypeSafe`, `TypeSafeProg`, `AlphaProofs` | `PropsVerify` |
| optimiser: walks | ticc/src/codegen/opt.rs 63-214 | `OptWalk` | | `OptGood`, `OptProg` | |
| optimiser: reduce_apply, reduce_pi, dce, inline_simple, move_match, merge_match | ticc/src/codegen/opt/*.rs | `OptPasses` | | `OptEv`, `OptRel`, `OptLaws`, `OptSmall`, `OptMove`, `OptDce`, `OptMerge` | `PropsOpt` |
| optimiser: inline | opt/inline.rs | `OptInline` | | `OptCopy`, `OptRelD`, `OptInlineOk`, `OptInlineTotal` | `PropsInline` |
| optimiser: saturate | opt/saturate.rs | `OptSaturate` | | `OptSatRel`, `OptSatOk`, `OptSatProg`, `OptSatDefs`, `OptSatTotal` | `PropsSaturate` |
| optimiser: the loop | opt.rs 14-61 | `OptAll` | | `OptAllOk` | `PropsOptAll` |
| unifier | ticc/src/compiler/typeck.rs 90-350 | `Unify` | `UnifySpec` | `UnifyProofs`, `UnifyFacts` | `PropsUnify` |
| lexer | ticc/src/compiler/lexer.rs | `Lexer` | `LexerSpec` | `LexerProofs` | `PropsLexer` |
| parser, tree builder, item loop | ticc/src/compiler/parser.rs, parser/*.rs, ticc-syntax/src/lib.rs 233-328 | `Parser` | `ParserSpec` | `ParserProofs`, `ParserRun`, `ParserFns`, `ParserTree`, `ParserItem`, `ParserFile` | `PropsParser` |
| LSP positions and semantic tokens | ticc-lsp/src/utils.rs, semantic_tokens.rs | `Lsp` | `LspSpec` | `LspProofs` | `PropsLsp` |
| formatter | formatter/src/lib.rs | `Formatter` | `FormatterSpec` | `FormatterProofs` | `PropsFormatter` |
| numck, matchck, unused, result printing, entry point | ticc/src/compiler/{numck,matchck}.rs, lint/unused.rs, interpreter.rs | `Checks` | in `PropsChecks` | `ChecksProofs`, `PrintProofs`, `PrintDecode` | `PropsChecks` |
| core printer | ticc-core/src/pretty.rs | `Pretty` | `part` in `PrettyVerified`, rest in `PropsPretty` | `PrettyLex`, `PrettyTok`, `PrettyRead`, `PrettyVerified` | `PropsPretty` |
| stack height of the bytecode VM | ticc-eval/src/compile.rs, bytecode.rs | `Compile`, `Vm` | `StackSpec` | `StackBound`, `StackProg`, `StackLoops` | `PropsStack` |
| code generator | ticc/src/codegen/gen_core.rs | `GenCore` | `GenSpec`, `FoldSpec` | `GenFacts`, `GenNames`, `GenItems`, `IterateOk`, `FoldOk`, `TypeTable` | `PropsGen` |
| source meaning | compiler/ir.rs, the language; gen_core.rs | `SrcSem` (source evaluator) | `SrcSpec` | `SrcRel`, `SrcSim`, `SrcApply`, `SrcFlat`, `SrcItems`, `SrcTables`, `SrcRun`, `SrcEnd` | `PropsSource` |
| standard library | ticc/src/std/*.tic, builtin.rs | `StdLib` (made by `tools/std2coq.py`), run by `SrcSem` | `StdSpec` | `SrcBig`, `StdTac`, `StdList`, `StdOpt`, `StdString`, `StdInt`, `StdArray`, `StdAll` | `PropsStd` |
| C36 | Imports.v, LspFiles.v | PropsImports.v: C36_driver_*; PropsLspFiles.v: C36_lsp_* |
| C37 | LspFiles.v | PropsLspFiles.v: C37_* |
| C48 | Typeck.v (typeck.rs, kindck.rs, matchck.rs per item), SrcTyping.v (typing rules), TypeckSpec.v | soundness of unification-based checking: every state of the checker only refines types (TypeckTypes.v, TypeckSound.v), final types satisfy the rules (TypeckShape.v, TypeckAll.v); numbers of type arguments in PropsKinds.v |
| C49 | SrcTyping.v, SrcSem.v | logical relation, induction on fuel and types |
| C50 | C48 and C49 together, with C44 for the generated code | composition |
| C51 | Units.v, UnitsProofs.v, PropsUnits.v | lib.rs:99-137 |
| C52 | Resolve.v, ResolveFacts.v, ResolveProofs.v, ResolveSpec.v, ResolveLex.v, ResolveComplete.v, PropsResolve.v | compiler/resolve.rs:177-745, compiler.rs:14-101, lib.rs:113-131 |
| C53 | Nav.v, NavSpec.v, NavProofs.v, NavUnits.v, PropsNav.v | api.rs:11-53, api/navigation.rs, lib.rs:99-137, resolve.rs |
| C54 | Compl.v, ComplSpec.v, ComplProofs.v, PropsCompl.v | api/completion.rs:12-76, resolve.rs calls of on_name, compiler.rs:14-101 |
| C55 | GrammarSpec.v, GrammarParse.v, GrammarItems.v, GrammarBack.v, GrammarFile.v, PropsGrammar.v (over Parser.v, Lexer.v) | compiler/parser.rs, parser/expr.rs, parser/type_.rs, parser/item.rs, lib.rs:103-137 |
| C56, C42 | TokenSpec.v, Tokens.v, TokenProofs.v, PropsTokens.v, PropsUnused.v | api/tokens.rs; lint/unused.rs on resolved items |
| C57 | HoverSpec.v, Hover.v, HoverProofs.v, HoverText.v, PropsHover.v, PropsHoverSame.v | api/info.rs def_info, api.rs TypePrinter |
| C53 (hypotheses) | PropsLaid.v | lexer.rs, over TokenSpec.v |
| C58 | Erase.v, PropsErase.v | treewalk.rs, opt/reduce_pi.rs |

<!-- ROWS -->

Not modelled: the JIT (jit.rs, only built for one platform), name resolution and type inference around the unifier,
the LSP's message loop, the command line.

## How each property is stated and proved

* C01, C03: functional models of the compilers and machines. Forward simulation by induction on the number of nested
  calls and the expression, with an inductive relation between values; the converse by determinism and a bound on steps.
  Results are compared as `obs` (whole values, functions opaque). Traps and divergence are `_partial` (the bytecode
  runner evaluates the callee after the arguments, so the trap message can differ: `_refuted`).
* C04-C06: the heap as a word-addressed memory; `hist` generates every heap reachable by any sequence of client
  operations; a pointer denotes a finite tree; collection keeps the denotation of every root. C06 is `_partial`
  with a `_refuted` witness.
* C07, C08: against arithmetic on integers modulo 2^64 and plain lists of bytes.
* C09-C17: `OptEv` gives a big-step presentation of successful runs; `OptRel` a step-indexed logical relation on
  it; each pass is the Rust function on the syntax and is shown to map every expression to a related one, to keep
  names distinct and scoped, and (inline, saturate) to end, by a weight argument. `OptAllOk` composes them.
  `same_results` is: every successful run before is a successful run with the same observed values after.
* C18: `_refuted` (dce drops a `let` of a hole; inlining moves one, move_match delays one). PropsTraps.v: no trap is added by the optimizer (from
  C17 and the monotonicity of the fuel), none is lost by reduce_apply and reduce_pi (both directions of C09, C10). Erase.v: the runner does not look at types, so
  reduce_pi keeps every outcome at every call depth.
* C19, C20: acceptance by the model of the verifier gives scoping, distinctness and the conditions of C01/C03;
  type safety by translating checker types to closed types of values, for the plain fragment (`_partial`); three
  `_refuted` witnesses outside of it.
* C21-C23: slots as a list; invariants over every reachable state of the unifier; soundness, most general
  answers, finiteness and termination with a measure.
* C24-C27: longest match over the written-out patterns; the parser as an event machine with fuel that is proved
  sufficient; trees tile the source; grouping of operators against a declarative grammar.
* C28-C31: positions against an independent definition over the text; formatter builder invariants.
* C32-C35, C42: decision procedures against declarative specifications; `_refuted` for ambiguous printing and for
  the choice of `main`.
* C38: the printed text is split into tokens independently of the layout (over `laid` of C31) and a reader of the tokens recovers
  the definitions; `_refuted` for the remainder operator, backslashes, and operator heads.
* C02: an evaluator that also counts nested activations (`StackSpec`), shown to have the evaluator's outcome; the simulation of C01 is
  redone with a bound on the height of every machine state it passes through.
* C39, C41, C43: the generator as a state monad over the annotated tree (symbols, instances and types recorded by earlier stages are
  part of the input). C43 by an invariant on fresh names over items and imported modules; C39 and C41 by induction on
  evaluation derivations of the generated templates against inductive specifications.
* C44: an evaluator for the source language written from the language rules; a logical relation between source values and core
  values indexed by the state of the generator where the code of a closure was generated; simulation by induction on fuel and
  expressions, then over the flattened list of items; composition with the optimiser and runner theorems.
* C40, C45, C46, C47: the library's source text is turned into the syntax of `SrcSem` by `tools/std2coq.py` (trusted: parsing and name resolution of these
  seven files; types on names are filled in as the checker infers them). A big-step relation over the source evaluator with one rule per construct;
  every function is run symbolically, loops by induction on the number of iterations, folds by induction on the list, Euclid's algorithm with Lame's bound,
  arrays with a representation relation for four-way trees of any depth (sizes of branches wrap at 2^64). `StdAll` runs all modules in order from the
  empty environment, so that no assumption about an environment is left.
- **C36**: model PathBuf components, `ChildResolver::lookup` with its chain, cache and first error, over an arbitrary set of files and texts known only by their import names; specification: an import graph on places in a directory tree (ImportsSpec.v). Termination: the paths reachable without dot-dot are the root's directory followed by names, so at most two per file; soundness by an invariant on the cache and on the chain; acceptance gives a finite tree of units, hence a well-founded import relation. For the server's resolver: termination by counting files not yet in the dependency map. Not modelled: symbolic links, case-insensitive file systems, path length limits, trailing slashes.
- **C37**: model `FileSet` with versions, `Compilation::refresh`, the resolver and the four handlers; specification read off the event history (LspFilesSpec.v). Proof: compiling depends only on the file itself and on the keys in its dependency map (frame lemma), each of which carries the version it was read at, so an unchanged version means an unchanged result; every set bumps a version. Simplification: units are compiled in the handler that replaced them (which sending diagnostics does), and the order of the open files is that of a list.
* C48-C50: syntax after resolution (symbols distinct, names in scope) to annotated items. Not modelled: error recovery, spans and messages. Proof: invariants of the unifier state along check_expr; then a semantic (logical relation) safety proof of the rules.
* C51: model compile_up_to over a history of positions; items compiled by an earlier query come back with the types found for them, those of the same run with the types written. Show that both are the same: for an unannotated definition the type checker never touches the slot of its type, so its found type is unknown; then any split of the loop gives the same result.
* C52: model the resolver as a state monad over symbol counter, recorded definitions, references and error flag, returning the tree with symbols in place of names; scopes are association lists with the newest entry first. One invariant per function (step: new symbols from the counter interval, definitions recorded are those of the tree, references are in scope). ResolveSpec states lexical scoping on its own; without an error every function meets it. Completeness (C52_complete): only the set of names in scope decides whether an error is reported, and any tree that agrees with the program shows that every name is in it; a new type variable is met first where it has no arguments.
* C53: model the queries over the compiled prefix (compile_up_to over a history of offsets). NavSpec gives uses and binders by walking the syntax with the names around. A simulation relates scopes with symbols to lists of names; the resolver then records exactly the uses and binders. Symbols are distinct and references to local definitions stay in the item, so the search by symbol, and the shortcut for local definitions, find exactly the users.
* C54: model the calls of on_name the resolver makes, with the names in scope there (symbols do not matter), and the sorting; prove, by induction on the syntax, that a text is among the names in scope at the place of a name exactly if the item with that text there has a use of it that refers to a definition (names before the place are the same in both items, those after it do not matter).
* C55: write the grammar as inductive predicates on trees; forwards, by induction on the step bound: a function started on the words of a tree of its class, followed by a word that cannot continue it, uses exactly these words, builds that tree and no error; backwards: if what a function built holds no error, it is a tree of its class (the operator loop with the invariant that the tree so far may stand left of the next operator); then the loop over items. Unambiguity follows because the parser is a function.
* C56: what each definition of a program is (TokenSpec.definitions) by recursion on the syntax; the resolver records these (induction as in C53); the tokens come from the tiling of the source (C25). The same specification gives C42 from the names of the program instead of from the resolver's lists.
* C57: model def_info and the type printer over the resolved items of Nav.v. A specification gives, from the syntax tree, the list of definitions with the text of their declared types; the resolver is followed by induction to show that printing what it records gives that list (names by the simulation of C53). Reading back: induction on the type with three kinds of following text.
* C58: an erasure of expressions, environments and values; evaluation commutes with it for every fuel. The specification is an inductive relation 'same code', independent of the erasure.
<!-- PLAN -->

## Findings: claims that are false of the code

Each is a `_refuted` theorem with a concrete witness.

* C01: trap messages of the bytecode runner differ when callee and argument both trap.
* C04: objects with more than 65535 words, and growth by an unaligned amount. C06: a large string panics although
  a collection would make room.
* C13: move_match panics on a polymorphic recursive definition. C14: duplicate branches change the result and a
  missing branch panics in merge_match. C18: traps are lost (dce), moved (inline_simple) or delayed (move_match).
* C19: a recursive definition that is not a function passes the verifier and crashes both runners. C20: missing
  cases, capture in type application, `assert_fits` relating types that are not equal up to renaming.
* C29: clamping a position depends on what was asked before. C34: escapes print ambiguously. C35: the newest `main` is
  not the one that runs.
* C38: `a % b` is printed as `a * b`; a byte and the text of its escape print alike.
17. `\fold x -> (\fold y -> e) x` (a fold over the folded value) passes the type checker (typeck.rs:572-591) but is generated as a match of folded
    constructors against the regular ones: the core verifier rejects it, and without verification every runner panics
    (`C44_fold_of_folded_value_refuted`).
18. `ints.gcd` stops after 65 steps of Euclid's algorithm; consecutive Fibonacci numbers need more: gcd 72723460248141 44945570212853 is 2 instead of 1
    (`C40_gcd_refuted`; right for every second argument below 44945570212853).
19. `ints.parse` accepts numerals that do not fit: 18446744073709551616 parses as 0 (`C40_parse_refuted`).
20. `list.range 1 0` is not empty: it has 2^64 - 1 elements, so the program does not come back (`C45_range_refuted`).
21. A file importing itself through dot-dot (a/x.tic importing ../a/x.tic) is not recognised by the driver: it is loaded again under a longer and longer path, until the operating system's path limit or the stack stops it (`C36_driver_dotdot_refuted`).
22. The language server never reports an import cycle: the message appears only at an import of an unreadable module that was asked for before, where it is wrong (`C36_lsp_cycle_message_refuted`, `C36_lsp_self_import_refuted`, `C36_lsp_missing_twice_refuted`).
23. Closing a file with unsaved changes leaves those changes in effect for the files importing it; a file read from the disk once is never read again, not even if it did not exist then; and of several changes in one notification the first is taken instead of the last (`C37_closed_file_refuted`).
24. A definition without annotation is seen by other items at an unknown type each time, whatever its own type: `let f = "x"; let g : int = f + 1` is accepted and panics when run (`C50_missing_annotation_refuted`; typeck.rs:17-43).
25. The type variable of an annotated local definition can escape into the types of enclosing parameters, where it is one fixed type although the definition is used at several: `let main : int = let h = \\k -> let f : a -> a = \\z -> k z; f 1 + (if f true then 1 else 2); h (\\w -> if h (\\v -> w) == 0 then w else w)` is accepted, fails the core verifier and panics when run (`C50_escaping_type_variable_refuted`).
26. (confirms 24) The type recorded for a top level definition without annotation is always unknown: typeck.rs checks the body against a fresh instantiation of it and nothing unifies the definition itself (C51_unannotated_stays_unknown), so hover, importers and later items all see an unknown type. This is also why the difference between items added to the definition set before and after checking (lib.rs:108-111, 124) cannot be observed (C51_queries_do_not_matter).
27. In a type, after the name of a module and a dot, completion offers the exported values of the module instead of its types: resolve.rs:324 and 414 call on_name with NameUsage::Value (349 and 439 for a module that is not found). Outside the model (no namespaces), from reading.
* 28. (C57) The text of a type does not tell types of the same name apart: a shadowed type and the one shadowing it print alike, and every type of another file is shown as `???` (the TODO at api.rs:118). A type may also be called `_`, which is the text of an unknown type.
<!-- FINDINGS -->

## State of the proofs

See `MANIFEST.json`; the properties of `properties.jsonl` that are not in it are not done.
