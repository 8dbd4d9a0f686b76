c("C01", "proved", "C01_unifier_unifies C01_no_undefined_behaviour")
c("C02", "proved", "C02_unification_terminates C02_most_general_unifier C02_failure_means_no_unifier")
c("C03", "proved", "C03_failed_unification_restores C03_successful_unification_can_be_undone C03_failed_match_restores C03_successful_match_can_be_undone C03_reachable_states_consistent")
c("C04", "proved", "C04_match_sound C04_match_complete")
c("C05", "proved", "C05_kbo_comparison_is_knuth_bendix C05_kbo_greater_decides C05_kbo_comparison_in_bounds")
c("C06", "proved", "C06_irreflexive C06_transitive C06_subterm C06_monotone C06_stable_under_substitution C06_no_infinite_descent C06_total_on_ground_terms")
c("C07", "proved", "C07_lpo4_returns_and_restores_counter C07_lpo4_greater_sound C07_lpo4_exact_within_limit C07_lpo4_compare C07_lpo4_compare_returns C07_lpo4_complete_beyond_limit_refuted", "C07_lpo4_complete_beyond_limit_refuted shows why exactness needs the limit to cover the term sizes")
c("C08", "proved", "C08_irreflexive C08_transitive C08_subterm C08_monotone C08_stable_under_substitution C08_no_infinite_descent C08_total_on_ground_terms")
c("C09", "proved", "C09_answers_consistent C09_cache_never_lies C09_cache_remembers C09_kbo_equal_only_for_identical_terms_refuted", "for KBO6, LPO4 and the empty ordering; the refuted theorem shows that a partial precedence makes KBO6 answer Equal for different terms")
c("C10", "proved", "C10_precedence_is_always_an_ordering C10_add_tuple C10_refused_only_if_contradictory C10_backtrack_restores C10_reachable_precedence_serves_lpo C10_weighted_precedence_is_total C10_redundant_tuple_reports_failure_refuted C10_add_returns_new_state_pointer_refuted", "the refuted theorems record where the return value does not say what its comment promises")
c("C26", "proved", "C26_every_history_answers_like_a_finite_map C26_traversal_is_the_sorted_content C26_limited_traversal_and_maximum C26_pointer_keys C26_numeric_keys C26_quadruple_keys C26_term_cell_keys C26_numeric_trees_far_keys_refuted C26_set_copy_and_union C26_set_intersection C26_set_comparisons", "numeric keys below 2^62 in absolute value; C26_numeric_trees_far_keys_refuted shows keys 2^63 apart are not supported")
c("C11", "proved", "C11_equality_resolution_sound C11_equality_resolution_returns C11_equality_resolution_complete C11_equality_resolution_most_general")
c("C12", "proved", "C12_ordered_factor_sound C12_equality_factor_sound C12_factoring_returns C12_ordered_factor_most_general C12_equality_factor_may_merge_variables_refuted", "soundness as claimed; the refuted theorem shows that the equality factor is not always the most general one")
c("C13", "proved", "C13_paramodulation_sound C13_ordered_paramod_sound C13_paramodulation_returns C13_plain_paramodulation_most_general")
c("C37", "proved", "C37_literal_comparison_is_multiset_extension C37_literal_order_is_strict C37_orientation C37_literal_comparison_with_kbo", "literal comparison mode Normal (the default), no literal selected")
c("C38", "proved", "C38_maximal_literal_flags C38_some_literal_is_maximal C38_maximality_tests_after_unification C38_maximality_tests_with_kbo", "literal comparison mode Normal (the default), no literal selected")
c("C15", "proved", "C15_subsumed_clause_follows C15_subsumed_clause_contains_instance C15_test_answers C15_forward_subsumption C15_backward_subsumption C15_unit_subsumption C15_strong_unit_subsumption C15_strong_reported_unit_insufficient_refuted", "search by linear scan (the indexed versions are C23); the refuted theorem shows that strong unit subsumption may report a unit that does not subsume the clause on its own")
c("C16", "proved", "C16_sorting C16_finds_every_subsumption C16_unoriented_unit_refuted", "no variable of the truth-value sort, literals oriented by an ordering stable under substitution; C16_unoriented_unit_refuted shows that for a single unorientable equation the search is incomplete")
c("C18", "proved", "C18_condensation_equivalent C18_step_shortens C18_condensation_returns C18_result_is_condensed")
c("C19", "proved", "C19_positive_simplify_reflect C19_positive_simplify_reflect_strong C19_negative_simplify_reflect C19_simplify_with_unit_set C19_contextual_simplify_reflect", "search by linear scan instead of the index")
c("C17", "proved", "C17_tautology_test_sound C17_trivial_test_sound C17_trivial_test_exact_for_short_clauses C17_trivial_test_incomplete_for_long_clauses_refuted C17_no_crash C17_finds_complementary_pair C17_misses_complementary_pair_refuted", "soundness as claimed; the refuted theorems show tautologies with an atom of both signs that the tests miss; termination of the completion loop with two or more negative literals is not claimed")
c("C14", "proved", "C14_normal_form C14_answer_unique C14_clause_normal_form C14_kbo_admitted C14_lpo_admitted", "for every reachable state of the rewrite links and normal form dates; the demodulators are delivered by an arbitrary enumeration of the index that is complete for younger demodulators (C21 is the index); additionally the result is in normal form for all current demodulators")
c("C21", "proved", "C21_traversal_is_preorder C21_retrieval C21_returned_entries C21_serves_rewriting C21_each_entry_once_refuted C21_delete_unknown_term_loses_entries_refuted C21_prefer_general_returns_special_first_refuted", "for a caller that does not change the bindings between two answers; deletions name indexed terms; the refuted theorems show that entries can be returned twice, what deleting an unknown term does, and that the preference flag has the opposite effect")
c("C27", "proved", "C27_queue_is_a_double_ended_queue C27_queue_iteration C27_stack_is_a_stack C27_merge C27_stack_of_size_zero_refuted C27_binary_search_refuted", "qsort (PStackSort) is the C library; the refuted theorems record a stack allocated with size 0 and the wrong answers of the binary search")
c("C28", "proved", "C28_heap_with_index C28_plain_heap C28_pops_in_order C28_decr_key_refuted C28_incr_key_refuted", "key changes of one element at a time, reported with MinHeapUpdateElement; the refuted theorems record that MinHeapDecrKey and MinHeapIncrKey move the element in the wrong direction (they have no caller in the prover)")
c("C29", "proved", "C29_intmap_history C29_assign_then_get", "keys in -2^62 .. 2^62-1, so that the key comparison of numeric trees (a subtraction) does not overflow; an iteration is run to its end before the next operation")
c("C31", "proved", "C31_string_history C31_always_allowed C31_read_line C31_read_line_nul_refuted", "appending a string to itself (aliasing), DStrAppendInt and the reference counts are not modelled; the refuted theorem records that text after a NUL character in a line read from a file is lost")
c("C32", "partial", "C32_reproducible_partial C32_range C32_same_seed_different_refuted C32_seed_ignored C32_generators_shared_refuted", "the property fails for the code: JKISSRandSeed stores the seed in a cell that JKISSRand never reads, so that the sequence depends on everything drawn before in the process; proved: the whole process is reproducible and values lie in the stated range")
c("C36", "partial", "C36_literal_props_independent_partial C36_clause_props_independent C36_term_props_independent C36_symbol_props_independent C36_clause_type C36_split_lit_sets_others_refuted C36_split_lit_lost_refuted C36_split_lit_overlap", "the property fails for one literal flag: EPIsSplitLit is the decimal number 65636 and overlaps three other flags; proved for all other flags and for clauses, terms and symbols")
c("C30", "partial", "C30_send C30_receive_partial C30_end_to_end_partial C30_no_overflow_partial C30_short_read_corrupts_refuted C30_empty_message_refuted C30_bad_length_overflow_refuted", "sending is proved for every schedule; receiving is proved when each payload read fills the request or is followed by a NUL already on the stack, for non-empty strings and length fields in 4 .. 2^31-1; outside of this the code violates the property, as the three refuted theorems show; the sockets are the operating system's")
c("C22", "proved", "C22_unifiable C22_matchable C22_fpfp", "for terms in which every symbol has its arity and that contain no higher-order codes (first-order build); the alternatives of a node are an association list (IntMap is C29) and occurrence sets are lists (splay trees are C26)")
c("C39", "partial", "C39_candidates_partial C39_deep_subterm_missed_refuted", "the property fails for the code: term_collect_idx_subterms recurses with lambda_demod = true, so that the index holds the sides of literals and their arguments only; proved: the search is sound and finds all occurrences of these two kinds; the refuted theorem has a clause with a deeper instance that no fingerprint function finds; matching and ordering checks of the candidates are not part of this claim (C02, C14)")
c("C40", "proved", "C40_unpack_pack C40_injective C40_literals", "")
c("C41", "proved", "C41_into C41_negp C41_from", "the index of the extensionality rules (higher-order) is not modelled; the tests made on the candidates afterwards belong to C11")
c("C23", "proved", "C23_setup C23_subsuming C23_subsumed C23_first_subsumed C23_variant C23_trivial_literal_refuted C23_deleting_absent_clause_refuted", "for every feature type a user can select; the subsumption test is that of C15/C16; subsumed clauses contain no literal s=s and only present clauses are deleted, and the two refuted theorems show that both conditions are needed; IntMap and PTree are C29 and C26")
c("C42", "partial", "C42_definition_store_partial C42_out_of_bounds_refuted", "the property fails for the code: the index uses the permutation vector of other features; proved for the features SS, Bill, ACFold, ACStagger and none; refuted (read out of bounds) for AC and All; BillPlus is not covered")
c("C24", "proved", "C24_insert C24_canonical C24_unique C24_cached C24_find C24_entries", "for every allocator that hands out free memory and every history of insertions, instantiations, replacements, copies, lookups, rewrite links and garbage collections; counts are those of the term modulo 2^32 (the C type is unsigned int); argument sharing of the C build without higher-order terms; types of terms and parsing are not modelled")
c("C25", "proved", "C25_collect C25_defined", "the roots are the list of term cells of the registered clause and formula sets; the loops over these sets and the counter arg_count are not modelled")
c("C43", "partial", "C43_instance_partial C43_replace C43_disjoint_partial C43_instance_refuted", "the property fails for terms with 2^32 variable occurrences: the 32-bit counter wraps to 0 and the cell is flagged as ground; proved below this bound")
c("C20","proved","C20_terminates C20_partition C20_history C20_conservative C20_split_unsat C20_kept_definition C20_history_split_variables C20_split C20_ground_one_refuted",
  "clause_split_general with its partition loop, GetDefinitions and definition reuse. C20_split: sat iff sat for one split in any context (classical axioms of Coq.Logic.ClassicalDescription); C20_split_unsat/C20_history: unsat iff unsat without axioms, over histories that mix splits (with definition reuse), derived and redundant clauses. Reused definitions must still follow from the other clauses (side condition of the move). Finding: SplitGroundOne does not split off the ground subclause when the first literal is not ground (C20_ground_one_refuted). Not modelled: the enumeration of variable subsets in ClauseSplitGeneral, and the definition store index is a parameter satisfying lookup_ok (see C42).")
c("C34", "proved", "C34_simplify C34_negation_normal_form C34_miniscope C34_rename C34_steps_terminate C34_terminates C34_well_formed C34_models_of_clauses C34_models_extend C34_satisfiable C34_miniscope_limit_refuted",
  "first-order formulas, all connectives and quantifiers; from the formula terms to the list of clauses, for one formula and for lists of formulas processed one after the other (the signature and the variable bank grow). Uses classical logic and epsilon of Coq.Logic.ClassicalEpsilon for the choice of Skolem functions. Not modelled: introduction of definitions for subformulas, lambda lifting and the other higher-order steps, $ite/$let, docuwriting. The refuted theorem records that the size limit of miniscoping is not kept (signed overflow).")
c("C33", "proved", "C33_terminates C33_fair C33_best C33_shares C33_contents C33_priority_refuted",
  "for every heuristic (list of weight functions with positive shares), every history of insertions, initial clauses, deletions, re-evaluations, orphan removals and selections; explicit bound. Evaluation trees are the splay trees of C26 with EvalCompare. Integer machine types unbounded except the FIFO counter, which is a double stored as a float: rounding is modelled. NaN heuristic values are not modelled. Refuted: with a non-constant priority function (e.g. PreferGoals) a FIFO queue can starve a clause.")
c("C35", "proved", "C35_sound C35_sound_without_splitting C35_state_unsat C35_well_formed C35_refutation C35_unsatisfiable C35_saturate",
  "Model of ProcessClause, Saturate, cleanup_unprocessed_clauses, ForwardContractClause, ForwardContractSet and ProofStateFilterUnprocessed composed from the models of the single inferences (C04-C20), with every heuristic decision and every index answer an arbitrary function of the state. With splitting, clauses that contain introduced predicates follow from a set obtained from the input by splitting (C35_state_unsat, C20_conservative). AC handling is included (C58). Higher-order inferences, the watchlist, SATCheck and answer literals are not part of it (see C47, C57). C35_unsatisfiable uses constructive_indefinite_description, the others no axioms.")
c("C44", "partial", "C44_symbols_partial C44_array C44_fresh C44_backtrack_partial C44_let_scope_partial C44_quoted_arity_refuted C44_arityfix_refuted C44_quoted_number_refuted C44_let_quoted_refuted",
  "the property fails for the code: a quoted name with a second arity gets a new symbol at every occurrence, the internal name of a second arity can be written in the input, '1' and 1 are the same symbol, and a quoted known name declared by $let dereferences NULL. Proved for plain names (no quote or blank at the ends of the name) when quoted names have one arity only; freshness of invented symbols and the array bound hold for all names. Types are not modelled.")
c("C45", "partial", "C45_integers C45_rationals_partial C45_gcd C45_rationals_refuted C45_rationals_overflow_refuted C45_reals_refuted",
  "proved for integers, and for rationals with parts in the range of long; the property fails for larger rationals (cut off by strtoll, signed overflow) and for reals (six digits; -0.0). Reading the numeral token by token (ParseNumString) is not modelled.")
c("C46", "partial", "C46_tokens C46_distinct_partial C46_escape_refuted",
  "the end of the string is found for all strings; the token is the text if there are no escapes; with escapes the character after a backslash is replaced by a backslash, so 'a\\'b' and 'a\\\\b' are the same token")
c("C47", "proved", "C47_exact C47_pure C47_sound C47_unsatisfiable C47_run C47_grounding",
  "PicoSAT is an arbitrary function that answers truthfully (solver_ok). Hypotheses: the internal symbol $eq is not used as a predicate of clauses, no variables of the sort of truth values, addresses linearly ordered. The normalization before the check is the contraction of C35. Two theorems use constructive_indefinite_description.")
c("C48", "partial", "C48_global_partial C48_found C48_conjecture_refuted C48_no_conjecture_refuted",
  "holds for the two strategies by overall count; fails for the four conjecture-based ones, which assign instead of comparing")
c("C49", "proved", "C49_follows C49_models C49_sat C49_terminates C49_limits",
  "First-order problems. ClauseSetCanonize (a permutation of literals and clauses), derivations and TPTP types are not modelled. Entry numbers of terms are assumed injective (term sharing). unfold_normalize returns None if the completion inside the tautology test does not end within the fuel; the theorems speak about the runs that return.")
c("C50", "proved", "C50_follows C50_models C50_sat",
  "First-order problems. ClauseSetInjectivityIsDefined is an arbitrary test. The signature at the end contains the new symbols with the declared types. Uses classic and constructive_indefinite_description (the inverse is a choice function).")
c("C51", "proved", "C51_sat C51_partition C51_exhaustive C51_terminates C51_checks C51_ends C51_false_literal_refuted C51_answer_refuted",
  "First-order problems. The queue may be served in any order (the code takes a task with fewest open candidates). C51_exhaustive is relative to the check of the code. With equations the end is relative to the tautology test. Two refuted variants: without the other preprocessing a literal ~$true counts as an unmatched atom, so a false clause is removed; answer literals count as atoms although the prover disregards them, so a conjecture with an answer literal can be removed and the proof is lost.")
c("C52", "proved", "C52_sat C52_follows C52_partition C52_removed C52_no_new_predicate C52_ends C52_test_ends C52_gates_refuted C52_answer_refuted",
  "First-order problems, gate recognition off. Limits, tolerances, the measure of a task and the order of the heap are replaced by arbitrary decisions. The end is relative to the tautology test, which always ends with a limit of one negative literal (C52_test_ends). Two refuted variants: with gates, check_tautologies tests only one pair of clauses (the inner loop counts the wrong variable), so that clauses that are no definition are removed and an unsatisfiable set becomes satisfiable; answer literals count as atoms although the prover disregards them.")
c("C53", "proved", "C53_simplified C53_definitions_sound C53_definitions_extend C53_definitions_well_formed C53_no_definitions C53_terminates C53_well_formed C53_models_extend C53_satisfiable",
  "First-order formulas that are not flagged as clauses (for the introduction of definitions alone: any). The estimate of the number of clauses is an arbitrary function. Formulas inside terms are not modelled. Uses classic and constructive_indefinite_description.")
c("C54", "proved", "C54_filed C54_filed_least C54_selection_ends C54_selection_sound C54_selection_exact C54_seeds_selected C54_seed_lost_refuted C54_boundary_refuted C54_sine_count C54_sine_ends C54_relevancy C54_relevancy_count C54_relevancy_ends C54_negative_level_refuted C54_verdict",
  "Symbol occurrences and generalities are arbitrary functions. The verdict covers the end of main in eprover.c without the satisfiability check by an external solver. Refuted variants: with more seed clauses than the size limit the conjecture itself is not selected; an axiom filed under the last internal symbol is never found (>= in one place, > in the other); a negative relevance level removes everything.")
c("C55", "proved", "C55_shape C55_models C55_sat C55_named C55_collects_subterms C55_collects_maximal C55_once_refuted C55_ground_atom_refuted",
  "The signature given to the theorems contains the new constants as the code declares them. Refuted variants (comments in the code): a definition is added although the term is already defined, because definitions are stored under the normal form and looked up under the term; terms in a ground atom are not collected without subterms.")
c("C56", "proved", "C56_preprocessing C56_models_of_clauses C56_models_extend C56_exact C56_theorem C56_derived C56_canonize_order_refuted",
  "Composes C34, C35, C49 to C53 and C55. For problems without questions or with answer literals switched off. With blocked clause elimination or predicate elimination the clauses have to be first-order and their variables separable from the renamed ones, as in C51 and C52; gate recognition is off. Equational definitions are unfolded with an empty watchlist.")
c("C57", "proved", "C57_given C57_answers C57_old_symbols C57_run C57_theorem C57_limit",
  "Builds on C56 for the way to the clauses and on C35 for the saturation. The printed clause has to consist of proper answers, answer(sk(t1..tn)) with the symbol sk of a question, positive; the code prints other literals as they are and does not look at the sign. $answer does not occur in the problem. Completeness of answers is not claimed; blocked clause elimination and predicate elimination lose answers (C51_answer_refuted, C52_answer_refuted).")
c("C58", "proved", "C58_scan C58_check C58_axioms_mean C58_equal_sound C58_equal_complete C58_resolved C58_discarded C58_axioms_kept C58_negative_kept C58_run C58_run_sound",
  "AC handling is part of the model of the saturation (C35), with all four modes. Completeness of the equality test is for terms without truth-valued subterms. The model of associative-only symbols is the code's: they are not used (C58_associative_only_refuted shows such a pair of terms). CPNoGeneration is not modelled as a flag: the overlaps tried are arbitrary.")
c("C59", "proved", "C59_history C59_recorded C59_total C59_steps C59_refs C59_order C59_axioms_first C59_numbers C59_names C59_conjecture C59_proof",
  "The final clauses are given once each (after following quotations; otherwise C59_duplicate_roots_refuted). A history records an inference with premises only for a clause that is not used as a premise itself, as the code archives such clauses first. C59_conjecture assumes that no empty clause other than the final ones is needed, and a final clause that is itself a conjecture does not count (C59_root_conjecture_refuted). What is recorded after the introduction of a definition is misread (C59_introdef_refuted); the first-order code records nothing there. The text of the steps is not modelled, only their names and the names they refer to.")
c("C60", "partial", "C60_precedence_total C60_precedence_as_documented_partial C60_weights_admissible_partial C60_generated_ordering_partial C60_generated_ordering_const_weight C60_min_constant_matrix",
  "Unconditional if constants are given a positive weight and the method is neither a modarity nor an occurrence-rank method, as in most strategies shipped (C60_generated_ordering_const_weight). Otherwise the conditions of the record suited are needed, and C60_maximal_constant_refuted (the default weights), C60_modarity_new_constant_refuted, C60_unused_symbol_refuted and C60_user_precedence_refuted show that the generated ordering is not a reduction ordering without them. Two of the documented criteria are not what the code does (C60_unary_first_freq_refuted, C60_invfreq_constmin_refuted). Weights given by the user and the higher-order methods are not modelled.")
c("C61", "partial", "C61_nothing_lost C61_facts C61_equisatisfiable C61_equivalent C61_saturate",
  "Proved for the clauses together with the facts (processed units, AC axioms, definitions) that were available after each step of the run. For the clauses alone it is false of the code (C61_clauses_alone_refuted): a rewrite link can outlive its demodulator, and a run on an unsatisfiable input ends without the empty clause. Assumed: distinct terms have distinct entry numbers, no clause is dropped for lack of memory, and clauses dropped as orphans follow from what stays.")
c("C62", "proved", "C62_read_back C62_same_meaning C62_stable C62_typed C62_reading_ends",
  "For the first-order part of the syntax, with simple sorts on variables; integers are the only numbers. The checks of the sorts of terms are left out: what is read here without an error may be a type error there. Constants that look like variables are not read back (C62_capital_constant_refuted); quotes and scopes are lost in reading already (C62_quotes_refuted, C62_scope_refuted).")
c("C63", "proved", "C63_cores C63_order C63_answer C63_no_answer C63_nothing_left C63_progress C63_preproc C63_serial C63_search C63_placeholder C63_default C63_class",
  "For the parent process; fractions and times are exact rationals. Children are assumed to end when they are killed. What does not hold: equal shares of the default schedule (C63_equal_share_refuted), the time for it (C63_default_time_refuted), a limit for strategies without time (C63_no_time_no_limit_refuted), progress with strategies that need too many cores (C63_too_wide_refuted), a placeholder at the beginning of a schedule (C63_placeholder_first_refuted).")
c("C64", "proved", "C64_names C64_shape C64_with_positive C64_all_negative C64_do_selection C64_inherited C64_bounds C64_largest C64_smallest C64_diff C64_optimal C64_min_optimal C64_complex C64_complex_g C64_lcomplex C64_min_infpos C64_largest_orientable C64_smallest_orientable C64_no_type C64_max_lcomplex C64_generic C64_diversify C64_conditional C64_cq",
  "A literal is what the strategies measure of it. Exceptions, with counterexamples: PSelectPureVarNegLiterals selects positive literals only (C64_pure_var_refuted), SelectVGNonCR leaves the maximality marks (C64_stale_marks_refuted), SelectComplexPreferNEQ and its relatives stop their search too early (C64_prefer_refuted).")
c("C65", "proved", "C65_reads C65_refuses C65_defined C65_unambiguous C65_insert C65_int C65_int_refuses C65_range C65_bool C65_layout",
  "The exceptions have counterexamples: an empty argument passes for the number 0 (C65_empty_number_refuted), and a program started with an empty argument vector does not read standard input (C65_no_name_refuted). Floating point arguments are not modelled.")
c("C66", "proved", "C66_extract C66_closed C66_duplicate C66_fast C66_same C66_fast_duplicate C66_fast_dangling C66_dangling_crashes",
  "Proved for protocols whose references lead to steps and, in the normal version, whose identifiers are below 2^31 - 1. The rest has counterexamples: a reference that leads nowhere is dereferenced as NULL (C66_dangling_crashes for all such protocols, C66_dangling_refuted), identifiers 2^32 apart are taken for the same (C66_big_id_refuted), and the normal version calls its output a refutation because of an empty clause that is not part of it (C66_status_refuted). The fast version loses marked steps before an unmarked one (C66_fast_loses_refuted), as its documentation says.")
c("C67", "proved", "C67_models C67_grounding C67_constraints C67_incomplete C67_constraints_incomplete C67_finishes C67_header",
  "Proved for output to stdout. With the option -o the literals of clauses that are no units go to stdout, and the file contains empty clauses instead (C67_file_refuted). Clausification (C34), splitting (C20), the option --give-up and the order of the clauses are not part of the model; equations are literals like others, as the program warns.")
c("C68", "proved", "C68_blocks C68_defined C68_contents_malloc C68_contents_free C68_realloc C68_flush C68_out_of_memory C68_reuse",
  "Proved for the manager of the default configuration, compiled without assertions, and sizes other than 0. The program is assumed to give back only what it has got, with the same size, and to write only to its blocks. For the alternative manager (USE_NEWMEM) see C69.")
c("C69", "proved", "C69_blocks C69_contents C69_reuse",
  "Proved for programs that use only one of the sizes over 256 that share a list. Otherwise a block of 264 bytes is handed out for 272 (C69_too_small_refuted). This manager is not part of the default configuration. SecureRealloc() and sizes near the greatest int are not modelled.")
