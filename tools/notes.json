{
 "C01": {
  "status": "proved",
  "note": "Agreement on values in both directions; trap messages and divergence agree when callees are names/lambdas; the stronger reading (same trap message for all programs) is refuted: argument and callee are evaluated in different orders."
 },
 "C07": {
  "status": "proved",
  "note": "Tree-walking and bytecode runners; the lambda runner's arithmetic is the same Rust code."
 },
 "C08": {
  "status": "proved",
  "note": "All string intrinsics on both runners, incl. numeral rendering and its injectivity."
 },
 "C28": {
  "status": "proved",
  "note": "Round trip for every character boundary of every text, with the memoising translator in any reachable cache state."
 },
 "C29": {
  "status": "partial",
  "note": "Total and in range; clamped to the line when the line has been scanned already. Missing: independence of history, which is false and refuted with a witness."
 },
 "C30": {
  "status": "proved",
  "note": "Decoding the delta encoding recovers the token positions."
 },
 "C31": {
  "status": "proved",
  "note": "For every sequence of formatter calls the builder accepts."
 },
 "C32": {
  "status": "proved",
  "note": "Exact set of diagnostics, exhaustiveness of accepted matches, and the selected branch runs. Linking of case syntax to core branches (gen_core) is by construction of the model's branch list."
 },
 "C33": {
  "status": "proved",
  "note": ""
 },
 "C34": {
  "status": "partial",
  "note": "Injective for strings without quote/backslash; the unrestricted property is refuted with two witnesses (escape and quote ambiguity)."
 },
 "C35": {
  "status": "partial",
  "note": "Exact characterisation of the entry point; 'latest export' is refuted: the first exported main is run while importers see the last."
 },
 "C42": {
  "status": "proved",
  "note": "With the refinement that a type counts as used when one of its constructors is. C42_unused_iff is over the definitions and references of the items, C42_from_the_names over the program (units without imports, laid_out as in C53)."
 },
 "C04": {
  "status": "proved",
  "note": "All heaps reachable by any sequence of allocations (<=64 fields) and collections, any roots. Refuted for objects with more than 64 fields (64-bit pointer bitmap) and, at the heap API level only, for collections that ask for a byte count not divisible by 8 (relocation table one entry short)."
 },
 "C05": {
  "status": "proved",
  "note": "Disjointness, read-back and frame for all reachable heaps."
 },
 "C06": {
  "status": "partial",
  "note": "The claim as stated is false of the code (C06_large_string_refuted): growth happens only in a collection after an allocation. Proved: requests of at most 16 words / half the capacity always succeed after maybe_gc."
 },
 "C24": {
  "status": "proved",
  "note": "lexer.rs modelled as a longest-match scanner; the logos-generated automaton itself is trusted to implement its declared patterns; the length of an error token is an arbitrary parameter."
 },
 "C25": {
  "status": "proved",
  "note": "All of ticc-syntax's parser (events, forward parents, tree builder) and the parsing part of compile_up_to; every source, every history of requests."
 },
 "C26": {
  "status": "proved",
  "note": "Recursion and loop bounds of the model are shown never to be reached; no assert or index panics."
 },
 "C27": {
  "status": "proved",
  "note": "Grouping holds for every tree; after a missing operand (which is reported) the incomplete expression may stand left of a tighter operator, as the definition of grouped says."
 },
 "C03": {
  "status": "proved",
  "note": "Whole-outcome equality (values with opaque functions, trap message, fuel) for every HashSet iteration order; hypothesis that the tree-walker does not panic (no run-time type error), as in C01."
 },
 "C19": {
  "status": "proved",
  "note": "Proved for the verifier of ticc-core/src/verify.rs: acceptance implies every name is in scope and all binders distinct (no other hypothesis); bytecode compilation and linking then resolve every name, given that letrec definitions are functions (the verifier does not check this, witness C19_letrec_not_function_refuted)."
 },
 "C20": {
  "status": "partial",
  "note": "Soundness proved for all accepted programs in the fragment plain_program (prenex quantifiers, monomorphic type arguments in scope, exhaustive matches, letrec functions, at most nine fields). Outside of it the claim is false of the code (C20_missing_case_refuted, C20_capture_refuted). Type comparison: complete for alpha-equivalence, sound when binders are distinct, otherwise refuted (C20_fits_not_alpha_refuted)."
 },
 "C09": {
  "status": "proved",
  "note": "Both directions, for every well-formed program. The pass panics only on a call of a function literal with the wrong number of arguments."
 },
 "C10": {
  "status": "proved",
  "note": "Both directions, and the pass never panics."
 },
 "C11": {
  "status": "proved",
  "note": "Exports kept, always terminates, results of expressions over exported definitions kept. Traps of removed bindings are lost: see C18."
 },
 "C12": {
  "status": "proved",
  "note": "Results kept and no panic."
 },
 "C13": {
  "status": "partial",
  "note": "Results kept for every well-formed program; no panic when recursive definitions are functions directly (as the code generator makes them). C13_move_match_panics_refuted: the pass panics on a recursive definition under a type abstraction, which verifier and runners accept."
 },
 "C14": {
  "status": "partial",
  "note": "Results kept for well-formed programs whose matches have no two branches for one constructor (the type checker rejects such sources). Without that condition the claim is false (C14_duplicate_branches_refuted), and a non-exhaustive match makes the pass panic."
 },
 "C18": {
  "status": "partial",
  "note": "The property is false of the code: C18_trap_lost_refuted (dce removes an unused trapping binding), C18_trap_moved_refuted (inline_simple moves a trap behind a condition), C18_trap_delayed_refuted (move_match moves the trap of a partial application into the returned function). Proved: the optimizer adds no trap or crash to a program that gives results, and applying literal functions and type abstractions never turns a trapping program into one that gives results (C18_no_trap_is_added_partial, C18_reductions_lose_no_trap_partial). Reducing type applications keeps every outcome, traps included, call depth for call depth (C18_type_reduction_keeps_traps_partial). Missing: for literal functions that the trap itself is kept (they might run on), and merge_match, saturate and inline; for dce, inline_simple and move_match it is refuted."
 },
 "C16": {
  "status": "proved",
  "note": "The whole pass is modelled: copying with fresh names, what may be inlined, the walk that re-visits inlined copies. Results kept for every program with correct names; termination proved with a weight argument (fuel exists, and the result does not depend on it). One-directional, as for the other passes that may drop divergence or traps."
 },
 "C15": {
  "status": "proved",
  "note": "saturate.rs in full. Results of a name of the program, or of any expression over definitions that are not curried, are kept; the pass ends; names stay distinct, scoped and fresh; types change only to the uncurried form."
 },
 "C17": {
  "status": "proved",
  "note": "opt.rs:14-61 over the models of all passes, for every check and every hash function. Results over exported definitions kept (same exclusion of outside calls to curried definitions as C15); 1 to 10 rounds; ends; exports kept up to uncurrying. C17_verified_pipeline: verifier on, tree-walk of the generated program = bytecode and lambda runs of the optimised one. A panic of a pass or of the verifier between passes is a possible outcome (see C13, C14), not excluded."
 },
 "C38": {
  "status": "partial",
  "note": "Holds for verified programs without the remainder operator and without quotes or backslashes in strings (C38_text_determines_definitions_partial, down to the characters of the output); false otherwise: Modulo is printed as *, ByteString's Debug does not escape backslashes. Type definitions are not printed. Rust's str Debug is modelled for printable ASCII only."
 },
 "C02": {
  "status": "proved",
  "note": "The value stack never exceeds a constant of the program text times the number of nested activations, where self tail calls (under if, match, let) are not new activations; hence loops stay below one bound for every number of steps. Self calls through a type application are not recognised as self calls by the compiler nor by the specification (gen_core never makes them)."
 },
 "C39": {
  "status": "proved",
  "note": "For the expression gen_core.rs generates for iterate, in any environment: outcome equivalence with n applications (both evaluation orders), and a bound on nested activations independent of n."
 },
 "C41": {
  "status": "proved",
  "note": "Results of a generated fold are exactly those of the inductive structural recursion over the declared constructors; the second theorem ties the constructor table to the type declaration."
 },
 "C43": {
  "status": "proved",
  "note": "wf_program (the hypothesis of C01/C03/C09-C17) holds of everything generate_core returns on a resolved program."
 },
 "C44": {
  "status": "proved",
  "note": "The whole pipeline from annotated source: an independent evaluator for source programs (SrcSem.v), a relation of values that is exact on data and closed under application, lockstep agreement of outcomes for both orders and every call-depth bound, exports both ways; composed with C17 down to the bytecode machine and the lambda runner. Hypotheses typed/resolved are what name resolution and type checking provide; folds over already folded values are excluded, and C44_fold_of_folded_value_refuted shows that they are miscompiled."
 },
 "C40": {
  "status": "partial",
  "note": "Proved for every program that imports the library (StdLib.v is made from std/*.tic by tools/std2coq.py; semantics SrcSem.v, which C44 ties to the compiled code): iterate, toString, parse, min, max and the bit operations; parse inverts toString. gcd and lcm are right when the second argument is below fib(67), and that bound is tight: C40_gcd_refuted (65 steps of Euclid are not always enough). C40_parse_refuted: numerals of 2^64 and more are not rejected."
 },
 "C45": {
  "status": "proved",
  "note": "Every exported function of std/list, std/option, std/result. C45_range_refuted is a separate finding: range with its stop before its start goes around 2^64. Lengths are taken mod 2^64 where the library counts."
 },
 "C46": {
  "status": "proved",
  "note": "Every exported function of std/string, for strings shorter than 2^64 bytes (longer ones do not exist)."
 },
 "C47": {
  "status": "proved",
  "note": "Every exported function of std/array, for all sizes below 2^64, through an abstract relation between arrays and lists that all operations keep."
 },
 "C36": {
  "status": "partial",
  "note": "The command line driver is proved right for import names without dot-dot segments: it terminates, compiles exactly the programs whose imports all exist and are free of cycles, and reports cycles only where there are some; accepting a cycle is excluded for all names. With dot-dot it need not terminate (refuted), and the language server, which does terminate, never reports a real cycle (refuted)."
 },
 "C37": {
  "status": "proved",
  "note": "For every history of notifications carrying one change each, with the disk changing at any time. That the editor's own rules for the current text are not followed (closed files, changed disk, several changes in one notification) is C37_closed_file_refuted."
 },
 "C48": {
  "status": "proved",
  "note": "For accepted programs with annotated definitions: every value has its declared type (C48_accepted_values_typed); if the type variables of local definitions also stay inside them the program is typed in the sense of C49. C48_kinds: every type named in an annotation or field of an accepted program has as many arguments as its declaration has parameters."
 },
 "C49": {
  "status": "proved",
  "note": "Semantic type soundness: interpretation of types as sets of values, polymorphism by quantifying over sets (TypeckSafe.v), then all items in order (TypeckProg.v)."
 },
 "C50": {
  "status": "partial",
  "note": "Proved for accepted programs with annotated definitions, constructors of at most nine fields and local type variables that do not escape (item_keeps, decidable from the types the checker prints); without the first or last condition it is false of the code: C50_missing_annotation_refuted, C50_escaping_type_variable_refuted. Missing: nothing else; the conditions are exactly those the code fails to check."
 },
 "C51": {
  "status": "proved",
  "note": "Resolution is taken as given (it does not look at types); an item sees the definitions of the items before it, as the code does."
 },
 "C52": {
  "status": "proved",
  "note": "Single units without imports and without namespaced names; complete syntax. C52_lexical is against ResolveSpec.program_as, which knows only texts and the nearest entry; C52_resolved discharges the hypotheses of C48-C51; C52_no_errors_no_panics goes from the syntax to running (annotated definitions, local definitions without annotation). C52_complete: no error is reported if and only if some tree agrees with the program, so errors are neither missed nor invented."
 },
 "C53": {
  "status": "proved",
  "note": "Units without imports and namespaced names, complete syntax, with or without resolver errors. laid_out says names lie in their items and do not touch, which the lexer and parser give. The specification (NavSpec.uses) knows texts and positions only, no symbols, item spans or visibilities. C53_sources_are_laid_out: the hypothesis laid_out follows for names that are tokens of a source, one use or definition each, inside their items (names of a source never touch: longest match)."
 },
 "C54": {
  "status": "proved",
  "note": "Units without imports and namespaced names. The item with the identifier put at the position is given as parsed (parser is C24-C27). The specification of what a name refers to is NavSpec (C53), applied to the item with another text in that place. Position 0 of a unit is not covered: there the answer depends on whether something was compiled before (api/completion.rs:14, compile_up_to(0) compiles nothing)."
 },
 "C55": {
  "status": "proved",
  "note": "The grammar is GrammarSpec.v (trees; nothing in it refers to the parser), levels of operators are ParserSpec.level. Model of the lexer and parser as in C23-C27; the texts of the messages are not modelled, only that something is reported and where."
 },
 "C56": {
  "status": "proved",
  "note": "Units without imports and namespaced names, complete syntax (laid_out as in C53). The trees come from the parser model on the source; that the resolved program is the one in the source is not part of the model (the accessors of the syntax nodes are not modelled)."
 },
 "C57": {
  "status": "proved",
  "note": "C57_hover: on uses and definitions the name's span, the definition's name and its declared text (HoverSpec.v, from the source alone) or the printed inferred type; C57_all_declared: every definition has exactly one entry there; C57_text_shows_the_type: printing is injective up to symbols of the same name. The inferred types are a parameter (C11 and C51 are about them); expr_info (hover on expressions) and modules are not modelled. C57_same_answer: the answer is the same after any two histories, if the types found mention only types compiled so far (they are found from the definitions in scope)."
 },
 "C58": {
  "status": "proved",
  "note": "Erasure: the tree-walking runner commutes with taking the types away (Erase.v), traps, crashes and call depth included; the bytecode runner through C01 (for well-scoped programs and successful runs), the lambda runner through C03. Recursive definitions are functions under type abstractions on both sides."
 }
}