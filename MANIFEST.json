{
 "claims": [
  {
   "property": "C01",
   "status": "proved",
   "theorems": [
    "C01_bytecode_agrees",
    "C01_bytecode_sound",
    "C01_traps_agree_partial",
    "C01_divergence_agrees_partial",
    "C01_trap_message_refuted",
    "C01_verified_programs_agree"
   ],
   "note": "Agreement on values in both directions; trap messages and divergence agree when callees are names/lambdas; the stronger reading (same trap message for all programs) is refuted: argument and callee are evaluated in different orders."
  },
  {
   "property": "C02",
   "status": "proved",
   "theorems": [
    "C02_stack_bounded_by_nesting",
    "C02_nesting_of_the_same_run",
    "C02_verified_stack_bounded",
    "C02_loops_run_in_constant_stack"
   ],
   "note": "The value stack never exceeds a constant of the program text times the number of nested activations, where self tail calls (under if, match, let) are not new activations; hence loops stay below one bound for every number of steps. Self calls through a type application are not recognised as self calls by the compiler nor by the specification (gen_core never makes them)."
  },
  {
   "property": "C03",
   "status": "proved",
   "theorems": [
    "C03_lambda_agrees",
    "C03_lambda_compiles",
    "C03_verified_programs_agree"
   ],
   "note": "Whole-outcome equality (values with opaque functions, trap message, fuel) for every HashSet iteration order; hypothesis that the tree-walker does not panic (no run-time type error), as in C01."
  },
  {
   "property": "C04",
   "status": "proved",
   "theorems": [
    "C04_collection_preserves_live_data",
    "C04_objects_denote",
    "C04_wide_objects_refuted",
    "C04_unaligned_growth_refuted"
   ],
   "note": "All heaps reachable by any sequence of allocations (<=64 fields) and collections, any roots. Refuted for objects with more than 64 fields (64-bit pointer bitmap) and, at the heap API level only, for collections that ask for a byte count not divisible by 8 (relocation table one entry short)."
  },
  {
   "property": "C05",
   "status": "proved",
   "theorems": [
    "C05_objects_disjoint",
    "C05_object_read_back",
    "C05_string_read_back"
   ],
   "note": "Disjointness, read-back and frame for all reachable heaps."
  },
  {
   "property": "C06",
   "status": "partial",
   "theorems": [
    "C06_small_requests_succeed_partial",
    "C06_large_string_refuted"
   ],
   "note": "The claim as stated is false of the code (C06_large_string_refuted): growth happens only in a collection after an allocation. Proved: requests of at most 16 words / half the capacity always succeed after maybe_gc."
  },
  {
   "property": "C07",
   "status": "proved",
   "theorems": [
    "C07_treewalk_arith",
    "C07_treewalk_compare",
    "C07_bytecode_arith",
    "C07_bytecode_compare"
   ],
   "note": "Tree-walking and bytecode runners; the lambda runner's arithmetic is the same Rust code."
  },
  {
   "property": "C08",
   "status": "proved",
   "theorems": [
    "C08_char_at",
    "C08_substring",
    "C08_concat",
    "C08_substring_concat",
    "C08_from_char",
    "C08_int_to_string",
    "C08_int_to_string_injective",
    "C08_bytecode_strings"
   ],
   "note": "All string intrinsics on both runners, incl. numeral rendering and its injectivity."
  },
  {
   "property": "C09",
   "status": "proved",
   "theorems": [
    "C09_reduce_apply"
   ],
   "note": "Both directions, for every well-formed program. The pass panics only on a call of a function literal with the wrong number of arguments."
  },
  {
   "property": "C10",
   "status": "proved",
   "theorems": [
    "C10_reduce_pi",
    "C10_reduce_pi_total"
   ],
   "note": "Both directions, and the pass never panics."
  },
  {
   "property": "C11",
   "status": "proved",
   "theorems": [
    "C11_dce_results",
    "C11_dce_exports"
   ],
   "note": "Exports kept, always terminates, results of expressions over exported definitions kept. Traps of removed bindings are lost: see C18."
  },
  {
   "property": "C12",
   "status": "proved",
   "theorems": [
    "C12_inline_simple",
    "C12_inline_simple_total"
   ],
   "note": "Results kept and no panic."
  },
  {
   "property": "C13",
   "status": "partial",
   "theorems": [
    "C13_move_match",
    "C13_move_match_total",
    "C13_move_match_panics_refuted"
   ],
   "note": "Results kept for every well-formed program; no panic when recursive definitions are functions directly (as the code generator makes them). C13_move_match_panics_refuted: the pass panics on a recursive definition under a type abstraction, which verifier and runners accept."
  },
  {
   "property": "C14",
   "status": "partial",
   "theorems": [
    "C14_merge_match",
    "C14_duplicate_branches_refuted",
    "C14_missing_branch_panics_refuted"
   ],
   "note": "Results kept for well-formed programs whose matches have no two branches for one constructor (the type checker rejects such sources). Without that condition the claim is false (C14_duplicate_branches_refuted), and a non-exhaustive match makes the pass panic."
  },
  {
   "property": "C15",
   "status": "proved",
   "theorems": [
    "C15_saturate",
    "C15_saturate_terminates",
    "C15_saturate_names"
   ],
   "note": "saturate.rs in full. Results of a name of the program, or of any expression over definitions that are not curried, are kept; the pass ends; names stay distinct, scoped and fresh; types change only to the uncurried form."
  },
  {
   "property": "C16",
   "status": "proved",
   "theorems": [
    "C16_inline",
    "C16_inline_terminates",
    "C16_inline_names"
   ],
   "note": "The whole pass is modelled: copying with fresh names, what may be inlined, the walk that re-visits inlined copies. Results kept for every program with correct names; termination proved with a weight argument (fuel exists, and the result does not depend on it). One-directional, as for the other passes that may drop divergence or traps."
  },
  {
   "property": "C17",
   "status": "proved",
   "theorems": [
    "C17_optimize_results",
    "C17_optimize_terminates",
    "C17_optimize_rounds",
    "C17_optimize_exports",
    "C17_verified_pipeline"
   ],
   "note": "opt.rs:14-61 over the models of all passes, for every check and every hash function. Results over exported definitions kept (same exclusion of outside calls to curried definitions as C15); 1 to 10 rounds; ends; exports kept up to uncurrying. C17_verified_pipeline: verifier on, tree-walk of the generated program = bytecode and lambda runs of the optimised one. A panic of a pass or of the verifier between passes is a possible outcome (see C13, C14), not excluded."
  },
  {
   "property": "C18",
   "status": "partial",
   "theorems": [
    "C18_trap_lost_refuted",
    "C18_trap_moved_refuted",
    "C18_no_trap_is_added_partial",
    "C18_reductions_lose_no_trap_partial",
    "C18_type_reduction_keeps_traps_partial",
    "C18_trap_delayed_refuted"
   ],
   "note": "The property is false of the code: C18_trap_lost_refuted (dce removes an unused trapping binding), C18_trap_moved_refuted (inline_simple moves a trap behind a condition), C18_trap_delayed_refuted (move_match moves the trap of a partial application into the returned function). Proved: the optimizer adds no trap or crash to a program that gives results, and applying literal functions and type abstractions never turns a trapping program into one that gives results (C18_no_trap_is_added_partial, C18_reductions_lose_no_trap_partial). Reducing type applications keeps every outcome, traps included, call depth for call depth (C18_type_reduction_keeps_traps_partial). Missing: for literal functions that the trap itself is kept (they might run on), and merge_match, saturate and inline; for dce, inline_simple and move_match it is refuted."
  },
  {
   "property": "C19",
   "status": "proved",
   "theorems": [
    "C19_names_in_scope_and_distinct",
    "C19_bytecode_names_resolve",
    "C19_well_formed",
    "C19_letrec_not_function_refuted"
   ],
   "note": "Proved for the verifier of ticc-core/src/verify.rs: acceptance implies every name is in scope and all binders distinct (no other hypothesis); bytecode compilation and linking then resolve every name, given that letrec definitions are functions (the verifier does not check this, witness C19_letrec_not_function_refuted)."
  },
  {
   "property": "C20",
   "status": "partial",
   "theorems": [
    "C20_no_wrong_kind_partial",
    "C20_bytecode_no_wrong_kind_partial",
    "C20_missing_case_refuted",
    "C20_capture_refuted",
    "C20_fits_accepts_alpha_equivalent",
    "C20_fits_only_alpha_equivalent_partial",
    "C20_fits_not_alpha_refuted"
   ],
   "note": "Soundness proved for all accepted programs in the fragment plain_program (prenex quantifiers, monomorphic type arguments in scope, exhaustive matches, letrec functions, at most nine fields). Outside of it the claim is false of the code (C20_missing_case_refuted, C20_capture_refuted). Type comparison: complete for alpha-equivalence, sound when binders are distinct, otherwise refuted (C20_fits_not_alpha_refuted)."
  },
  {
   "property": "C21",
   "status": "proved",
   "theorems": [
    "C21_unify_sound",
    "C21_earlier_equations_stay",
    "C21_unify_complete",
    "C21_agreeing_types_unify",
    "C21_instantiate_correct",
    "C21_unified_types_print_alike"
   ],
   "note": ""
  },
  {
   "property": "C22",
   "status": "proved",
   "theorems": [
    "C22_failure_leaves_no_trace",
    "C22_commit_order_irrelevant"
   ],
   "note": ""
  },
  {
   "property": "C23",
   "status": "proved",
   "theorems": [
    "C23_types_finite",
    "C23_operations_terminate"
   ],
   "note": ""
  },
  {
   "property": "C24",
   "status": "proved",
   "theorems": [
    "C24_lexing_is_longest_match",
    "C24_tokens_tile_the_source",
    "C24_keywords_are_whole_words",
    "C24_tokenisation_is_unique"
   ],
   "note": "lexer.rs modelled as a longest-match scanner; the logos-generated automaton itself is trusted to implement its declared patterns; the length of an error token is an arbitrary parameter."
  },
  {
   "property": "C25",
   "status": "proved",
   "theorems": [
    "C25_trees_tile_the_source",
    "C25_whole_file_is_covered",
    "C25_lazy_parsing_agrees",
    "C25_ids_and_diagnostics"
   ],
   "note": "All of ticc-syntax's parser (events, forward parents, tree builder) and the parsing part of compile_up_to; every source, every history of requests."
  },
  {
   "property": "C26",
   "status": "proved",
   "theorems": [
    "C26_requests_end",
    "C26_items_make_progress"
   ],
   "note": "Recursion and loop bounds of the model are shown never to be reached; no assert or index panics."
  },
  {
   "property": "C27",
   "status": "proved",
   "theorems": [
    "C27_operators_are_grouped",
    "C27_grouping_is_unique"
   ],
   "note": "Grouping holds for every tree; after a missing operand (which is reported) the incomplete expression may stand left of a tighter operator, as the definition of grouped says."
  },
  {
   "property": "C28",
   "status": "proved",
   "theorems": [
    "C28_to_lsp_correct",
    "C28_round_trip",
    "C28_positions_injective"
   ],
   "note": "Round trip for every character boundary of every text, with the memoising translator in any reachable cache state."
  },
  {
   "property": "C29",
   "status": "partial",
   "theorems": [
    "C29_total_partial",
    "C29_in_range_partial",
    "C29_clamped_when_scanned_partial",
    "C29_clamping_depends_on_history_refuted"
   ],
   "note": "Total and in range; clamped to the line when the line has been scanned already. Missing: independence of history, which is false and refuted with a witness."
  },
  {
   "property": "C30",
   "status": "proved",
   "theorems": [
    "C30_semantic_tokens_decode"
   ],
   "note": "Decoding the delta encoding recovers the token positions."
  },
  {
   "property": "C31",
   "status": "proved",
   "theorems": [
    "C31_format_total_and_laid_out",
    "C31_tokens_kept_in_order",
    "C31_no_trailing_spaces"
   ],
   "note": "For every sequence of formatter calls the builder accepts."
  },
  {
   "property": "C32",
   "status": "proved",
   "theorems": [
    "C32_accepted_is_exhaustive",
    "C32_runs_the_branch",
    "C32_diagnostics"
   ],
   "note": "Exact set of diagnostics, exhaustiveness of accepted matches, and the selected branch runs. Linking of case syntax to core branches (gen_core) is by construction of the model's branch list."
  },
  {
   "property": "C33",
   "status": "proved",
   "theorems": [
    "C33_accepted_iff",
    "C33_denotes",
    "C33_errors"
   ],
   "note": ""
  },
  {
   "property": "C34",
   "status": "partial",
   "theorems": [
    "C34_printing_injective_partial",
    "C34_strings_decode_partial",
    "C34_escape_ambiguous_refuted",
    "C34_quote_ambiguous_refuted"
   ],
   "note": "Injective for strings without quote/backslash; the unrestricted property is refuted with two witnesses (escape and quote ambiguity)."
  },
  {
   "property": "C35",
   "status": "partial",
   "theorems": [
    "C35_entry_point_partial",
    "C35_single_main_visible",
    "C35_latest_main_refuted"
   ],
   "note": "Exact characterisation of the entry point; 'latest export' is refuted: the first exported main is run while importers see the last."
  },
  {
   "property": "C36",
   "status": "partial",
   "theorems": [
    "C36_driver_terminates",
    "C36_driver_accepts_no_cycle",
    "C36_driver_rejects_for_a_reason",
    "C36_driver_exact",
    "C36_driver_dotdot_refuted",
    "C36_lsp_terminates",
    "C36_lsp_cycle_message_refuted",
    "C36_lsp_self_import_refuted",
    "C36_lsp_missing_twice_refuted"
   ],
   "note": "The command line driver is proved right for import names without dot-dot segments: it terminates, compiles exactly the programs whose imports all exist and are free of cycles, and reports cycles only where there are some; accepting a cycle is excluded for all names. With dot-dot it need not terminate (refuted), and the language server, which does terminate, never reports a real cycle (refuted)."
  },
  {
   "property": "C37",
   "status": "proved",
   "theorems": [
    "C37_latest",
    "C37_meaning",
    "C37_closed_file_refuted"
   ],
   "note": "For every history of notifications carrying one change each, with the disk changing at any time. That the editor's own rules for the current text are not followed (closed files, changed disk, several changes in one notification) is C37_closed_file_refuted."
  },
  {
   "property": "C38",
   "status": "partial",
   "theorems": [
    "C38_printing_total",
    "C38_text_determines_definitions_partial",
    "C38_modulo_is_printed_as_product_refuted",
    "C38_same_text_different_results_refuted",
    "C38_backslash_is_not_escaped_refuted",
    "C38_operator_heads_are_not_parenthesised_refuted"
   ],
   "note": "Holds for verified programs without the remainder operator and without quotes or backslashes in strings (C38_text_determines_definitions_partial, down to the characters of the output); false otherwise: Modulo is printed as *, ByteString's Debug does not escape backslashes. Type definitions are not printed. Rust's str Debug is modelled for printable ASCII only."
  },
  {
   "property": "C39",
   "status": "proved",
   "theorems": [
    "C39_iterate_applies_n_times",
    "C39_iterate_constant_nesting"
   ],
   "note": "For the expression gen_core.rs generates for iterate, in any environment: outcome equivalence with n applications (both evaluation orders), and a bound on nested activations independent of n."
  },
  {
   "property": "C40",
   "status": "partial",
   "theorems": [
    "C40_int_library_partial",
    "C40_parse_inverts_toString",
    "C40_gcd_refuted",
    "C40_parse_refuted"
   ],
   "note": "Proved for every program that imports the library (StdLib.v is made from std/*.tic by tools/std2coq.py; semantics SrcSem.v, which C44 ties to the compiled code): iterate, toString, parse, min, max and the bit operations; parse inverts toString. gcd and lcm are right when the second argument is below fib(67), and that bound is tight: C40_gcd_refuted (65 steps of Euclid are not always enough). C40_parse_refuted: numerals of 2^64 and more are not rejected."
  },
  {
   "property": "C41",
   "status": "proved",
   "theorems": [
    "C41_fold_is_structural_recursion",
    "C41_table_is_the_declaration"
   ],
   "note": "Results of a generated fold are exactly those of the inductive structural recursion over the declared constructors; the second theorem ties the constructor table to the type declaration."
  },
  {
   "property": "C42",
   "status": "proved",
   "theorems": [
    "C42_unused_iff",
    "C42_from_the_names"
   ],
   "note": "With the refinement that a type counts as used when one of its constructors is. C42_unused_iff is over the definitions and references of the items, C42_from_the_names over the program (units without imports, laid_out as in C53)."
  },
  {
   "property": "C43",
   "status": "proved",
   "theorems": [
    "C43_generated_program_well_formed"
   ],
   "note": "wf_program (the hypothesis of C01/C03/C09-C17) holds of everything generate_core returns on a resolved program."
  },
  {
   "property": "C44",
   "status": "proved",
   "theorems": [
    "C44_generated_code_means_source",
    "C44_source_to_bytecode",
    "C44_fold_of_folded_value_refuted"
   ],
   "note": "The whole pipeline from annotated source: an independent evaluator for source programs (SrcSem.v), a relation of values that is exact on data and closed under application, lockstep agreement of outcomes for both orders and every call-depth bound, exports both ways; composed with C17 down to the bytecode machine and the lambda runner. Hypotheses typed/resolved are what name resolution and type checking provide; folds over already folded values are excluded, and C44_fold_of_folded_value_refuted shows that they are miscompiled."
  },
  {
   "property": "C45",
   "status": "proved",
   "theorems": [
    "C45_list_library",
    "C45_option_result_library",
    "C45_range_refuted"
   ],
   "note": "Every exported function of std/list, std/option, std/result. C45_range_refuted is a separate finding: range with its stop before its start goes around 2^64. Lengths are taken mod 2^64 where the library counts."
  },
  {
   "property": "C46",
   "status": "proved",
   "theorems": [
    "C46_string_library"
   ],
   "note": "Every exported function of std/string, for strings shorter than 2^64 bytes (longer ones do not exist)."
  },
  {
   "property": "C47",
   "status": "proved",
   "theorems": [
    "C47_array_library"
   ],
   "note": "Every exported function of std/array, for all sizes below 2^64, through an abstract relation between arrays and lists that all operations keep."
  },
  {
   "property": "C48",
   "status": "proved",
   "theorems": [
    "C48_kinds",
    "C48_accepted_values_typed",
    "C48_accepted_program_typed"
   ],
   "note": "For accepted programs with annotated definitions: every value has its declared type (C48_accepted_values_typed); if the type variables of local definitions also stay inside them the program is typed in the sense of C49. C48_kinds: every type named in an annotation or field of an accepted program has as many arguments as its declaration has parameters."
  },
  {
   "property": "C49",
   "status": "proved",
   "theorems": [
    "C49_typed_programs_safe"
   ],
   "note": "Semantic type soundness: interpretation of types as sets of values, polymorphism by quantifying over sets (TypeckSafe.v), then all items in order (TypeckProg.v)."
  },
  {
   "property": "C50",
   "status": "partial",
   "theorems": [
    "C50_accepted_programs_safe",
    "C50_generated_code_safe",
    "C50_missing_annotation_refuted",
    "C50_escaping_type_variable_refuted"
   ],
   "note": "Proved for accepted programs with annotated definitions, constructors of at most nine fields and local type variables that do not escape (item_keeps, decidable from the types the checker prints); without the first or last condition it is false of the code: C50_missing_annotation_refuted, C50_escaping_type_variable_refuted. Missing: nothing else; the conditions are exactly those the code fails to check."
  },
  {
   "property": "C51",
   "status": "proved",
   "theorems": [
    "C51_queries_do_not_matter",
    "C51_unannotated_stays_unknown",
    "C51_no_errors_no_panics"
   ],
   "note": "Resolution is taken as given (it does not look at types); an item sees the definitions of the items before it, as the code does."
  },
  {
   "property": "C52",
   "status": "proved",
   "theorems": [
    "C52_lexical",
    "C52_complete",
    "C52_resolved",
    "C52_recorded",
    "C52_no_errors_no_panics"
   ],
   "note": "Single units without imports and without namespaced names; complete syntax. C52_lexical is against ResolveSpec.program_as, which knows only texts and the nearest entry; C52_resolved discharges the hypotheses of C48-C51; C52_no_errors_no_panics goes from the syntax to running (annotated definitions, local definitions without annotation). C52_complete: no error is reported if and only if some tree agrees with the program, so errors are neither missed nor invented."
  },
  {
   "property": "C53",
   "status": "proved",
   "theorems": [
    "C53_names_of_a_source_are_apart",
    "C53_sources_are_laid_out",
    "C53_go_to_definition",
    "C53_find_references",
    "C53_uses_are_of_the_unit"
   ],
   "note": "Units without imports and namespaced names, complete syntax, with or without resolver errors. laid_out says names lie in their items and do not touch, which the lexer and parser give. The specification (NavSpec.uses) knows texts and positions only, no symbols, item spans or visibilities. C53_sources_are_laid_out: the hypothesis laid_out follows for names that are tokens of a source, one use or definition each, inside their items (names of a source never touch: longest match)."
  },
  {
   "property": "C54",
   "status": "proved",
   "theorems": [
    "C54_completions",
    "C54_outside"
   ],
   "note": "Units without imports and namespaced names. The item with the identifier put at the position is given as parsed (parser is C24-C27). The specification of what a name refers to is NavSpec (C53), applied to the item with another text in that place. Position 0 of a unit is not covered: there the answer depends on whether something was compiled before (api/completion.rs:14, compile_up_to(0) compiles nothing)."
  },
  {
   "property": "C55",
   "status": "proved",
   "theorems": [
    "C55_grammar_is_accepted",
    "C55_accepted_iff_grammar",
    "C55_trivia_is_irrelevant",
    "C55_grammar_is_unambiguous"
   ],
   "note": "The grammar is GrammarSpec.v (trees; nothing in it refers to the parser), levels of operators are ParserSpec.level. Model of the lexer and parser as in C23-C27; the texts of the messages are not modelled, only that something is reported and where."
  },
  {
   "property": "C56",
   "status": "proved",
   "theorems": [
    "C56_definitions_are_binders",
    "C56_highlighting"
   ],
   "note": "Units without imports and namespaced names, complete syntax (laid_out as in C53). The trees come from the parser model on the source; that the resolved program is the one in the source is not part of the model (the accessors of the syntax nodes are not modelled)."
  },
  {
   "property": "C57",
   "status": "proved",
   "theorems": [
    "C57_all_declared",
    "C57_hover",
    "C57_text_shows_the_type",
    "C57_same_answer"
   ],
   "note": "C57_hover: on uses and definitions the name's span, the definition's name and its declared text (HoverSpec.v, from the source alone) or the printed inferred type; C57_all_declared: every definition has exactly one entry there; C57_text_shows_the_type: printing is injective up to symbols of the same name. The inferred types are a parameter (C11 and C51 are about them); expr_info (hover on expressions) and modules are not modelled. C57_same_answer: the answer is the same after any two histories, if the types found mention only types compiled so far (they are found from the definitions in scope)."
  },
  {
   "property": "C58",
   "status": "proved",
   "theorems": [
    "C58_types_do_not_matter",
    "C58_bytecode",
    "C58_lambda"
   ],
   "note": "Erasure: the tree-walking runner commutes with taking the types away (Erase.v), traps, crashes and call depth included; the bytecode runner through C01 (for well-scoped programs and successful runs), the lambda runner through C03. Recursive definitions are functions under type abstractions on both sides."
  }
 ]
}