{"id": "C01", "title": "A successful unification unifies", "statement": "When SubstMguComplete/SubstComputeMgu reports success, instantiating both argument terms with the variable bindings that are now in force yields the same term.", "quantifier": "all pairs of well-sorted first-order terms, all prior consistent binding states, all sorts of variables", "why_tests_cant": "Terms are unboundedly large and deep, share variables, and the work list order depends on the shape of both terms and on bindings made on the way; the occurs check interacts with bindings made earlier.", "anchors": ["TERMS/cte_match_mgu_1-1.c:SubstComputeMgu", "TERMS/cte_match_mgu_1-1.c:OccurCheck", "TERMS/cte_subst.c:SubstAddBinding", "TERMS/cte_termtypes.h:TermDerefAlways"]}
{"id": "C02", "title": "Unification is complete and most general", "statement": "If two terms have a common instance compatible with the bindings already in force then unification terminates with success, and every unifier is an instance of the computed one; it reports failure only when no unifier exists.", "quantifier": "all pairs of terms, all prior consistent binding states, all candidate unifiers", "why_tests_cant": "Completeness is a statement about every possible unifier, an infinite set, for every input pair.", "anchors": ["TERMS/cte_match_mgu_1-1.c:SubstComputeMgu", "TERMS/cte_match_mgu_1-1.c:OccurCheck"]}
{"id": "C03", "title": "Failed unification or matching leaves no trace; success can be undone", "statement": "After a failed unification or matching call, the binding of every variable and the backtrack stack are exactly as before the call; after a successful one, backtracking to the stack position noted before the call restores the earlier bindings.", "quantifier": "all terms, all prior binding states, all points at which the search can fail", "why_tests_cant": "The failure may be discovered at any depth after arbitrarily many bindings; a residual binding silently corrupts an unrelated later inference.", "anchors": ["TERMS/cte_match_mgu_1-1.c:SubstComputeMgu", "TERMS/cte_match_mgu_1-1.c:SubstComputeMatch", "TERMS/cte_subst.c:SubstBacktrackToPos", "TERMS/cte_subst.c:SubstBacktrackSingle"]}
{"id": "C04", "title": "Matching is sound and complete", "statement": "SubstComputeMatch succeeds exactly when there is a substitution that extends the bindings already in force and maps the pattern to the target, and the bindings it leaves do that; the early weight comparison never rejects a target that is an instance.", "quantifier": "all pattern/target pairs with shared-term weights, all prior binding states of the pattern variables", "why_tests_cant": "The early exit uses incremental weight bookkeeping whose correctness depends on every partial state of the traversal.", "anchors": ["TERMS/cte_match_mgu_1-1.c:SubstComputeMatch"]}
{"id": "C05", "title": "The linear KBO comparison computes the Knuth-Bendix ordering", "statement": "For admissible weights and a total precedence, KBO6Compare answers greater, lesser, equal or uncomparable exactly as the mathematical Knuth-Bendix ordering does, although it computes weights and variable balances incrementally in one traversal.", "quantifier": "all pairs of terms, all weight functions and total precedences", "why_tests_cant": "The single-pass algorithm keeps counters across recursive calls; errors show only for particular argument shapes and early-exit paths.", "anchors": ["ORDERINGS/cto_kbolin.c:kbolincmp", "ORDERINGS/cto_kbolin.c:KBO6Compare", "ORDERINGS/cto_kbolin.c:KBO6Greater", "ORDERINGS/cto_kbolin.c:mfyvwblhs", "ORDERINGS/cto_kbolin.c:mfyvwbrhs"]}
{"id": "C06", "title": "KBO comparison is a simplification ordering", "statement": "The relation 'KBO6Compare answers greater' is irreflexive, transitive, stable under substitution, compatible with contexts, contains the subterm relation, and admits no infinite descending chain.", "quantifier": "all terms, substitutions, contexts and infinite sequences of terms", "why_tests_cant": "Each clause is universally quantified over infinitely many terms; termination of rewriting depends on all of them.", "anchors": ["ORDERINGS/cto_kbolin.c:KBO6Compare", "ORDERINGS/cto_ocb.h:OCBFunWeight", "ORDERINGS/cto_ocb.h:OCBFunCompare"]}
{"id": "C07", "title": "LPO4 never claims an order that does not hold, and finds it when depth allows", "statement": "LPO4Greater(s,t)=true implies s is greater than t in the mathematical lexicographic path ordering, for every recursion-depth limit; and whenever the recursion limit is not hit the answer coincides with the ordering.", "quantifier": "all pairs of terms, all precedences, all recursion limits", "why_tests_cant": "The recursion limit is a global that changes answers on deep terms only; the algorithm is mutually recursive over unbounded terms.", "anchors": ["ORDERINGS/cto_lpo.c:lpo4_greater", "ORDERINGS/cto_lpo.c:lpo4_alpha", "ORDERINGS/cto_lpo.c:lpo4_majo", "ORDERINGS/cto_lpo.c:lpo4_lex_ma", "ORDERINGS/cto_lpo.c:LPO4Compare"]}
{"id": "C08", "title": "LPO is a simplification ordering", "statement": "The lexicographic path ordering decided by LPO4 is irreflexive, transitive, stable under substitutions, compatible with contexts and contains the subterm relation.", "quantifier": "all terms, substitutions and contexts, all precedences", "why_tests_cant": "Universally quantified over infinitely many terms.", "anchors": ["ORDERINGS/cto_lpo.c:lpo4_greater"]}
{"id": "C09", "title": "Term comparison answers are mutually consistent", "statement": "TOCompare(s,t)=greater iff TOCompare(t,s)=lesser, TOGreater agrees with TOCompare, equal is answered only for identical terms (for a total precedence), and answering through the comparison cache gives the same result as computing afresh in every cache history.", "quantifier": "all terms, both orderings, all sequences of cached queries", "why_tests_cant": "The cache turns the answer into a function of the query history; symmetric keys are stored in address order.", "anchors": ["ORDERINGS/cto_orderings.c:TOCompare", "ORDERINGS/cto_orderings.c:TOGreater", "ORDERINGS/cto_cmpcache.c:CmpCacheFind", "ORDERINGS/cto_cmpcache.c:CmpCacheInsert", "BASICS/clb_partial_orderings.h:POInverseRelation"]}
{"id": "C10", "title": "Precedence extension keeps a strict partial order and can be undone", "statement": "Adding a precedence tuple either records the relation together with all its transitive consequences, keeping the precedence a strict partial order, or refuses it; backtracking to a saved state restores the precedence; a refused addition leaves the precedence unchanged.", "quantifier": "all signatures, all sequences of additions and backtracks", "why_tests_cant": "The transitive update touches many matrix cells and its undo relies on the history recorded on a stack.", "anchors": ["ORDERINGS/cto_ocb.c:OCBPrecedenceAddTuple", "ORDERINGS/cto_ocb.c:ocb_trans_compute", "ORDERINGS/cto_ocb.c:OCBPrecedenceBacktrack"]}
{"id": "C11", "title": "Equality resolution is sound", "statement": "The clause returned by ComputeEqRes is true in every model (with equality) of the parent clause.", "quantifier": "all clauses, all selected negative literals, all models and valuations", "why_tests_cant": "Soundness quantifies over all models.", "anchors": ["CLAUSES/ccl_eqnresolution.c:ComputeEqRes", "CLAUSES/ccl_eqnlist.c:EqnListRemoveResolved", "CLAUSES/ccl_eqnlist.c:EqnListRemoveDuplicates"]}
{"id": "C12", "title": "Ordered factoring and equality factoring are sound", "statement": "Every clause produced by ComputeOrderedFactor and ComputeEqualityFactor is true in every model of the parent clause.", "quantifier": "all clauses, literal pairs, sides, and models", "why_tests_cant": "Soundness quantifies over all models; two sides and two literal orientations have to be combined correctly.", "anchors": ["CLAUSES/ccl_factor.c:ComputeOrderedFactor", "CLAUSES/ccl_factor.c:ComputeEqualityFactor"]}
{"id": "C13", "title": "Paramodulation is sound", "statement": "Every clause produced by (plain and simultaneous) paramodulation of one clause into another is true in every model of both parents.", "quantifier": "all pairs of clauses, positions and models", "why_tests_cant": "Soundness quantifies over all models; the replaced position, the unifier and the renaming all have to fit together.", "anchors": ["CLAUSES/ccl_paramod.c:ClauseOrderedParamod", "CLAUSES/ccl_paramod.c:ClauseOrderedSimParamod", "CLAUSES/ccl_paramod.c:ComputeOverlap"]}
{"id": "C14", "title": "Rewriting is sound, only makes terms smaller, and terminates", "statement": "The normal form computed for a term with a set of unit equations is equal to the original in every model of the equations, is not larger in the term ordering, and the computation ends.", "quantifier": "all terms, all finite sets of oriented or orientable unit equations, all models", "why_tests_cant": "Chains of rewrite steps are unbounded and the rule choice depends on the index traversal.", "anchors": ["CLAUSES/ccl_rewrite.c:term_li_normalform", "CLAUSES/ccl_rewrite.c:indexed_find_demodulator", "CLAUSES/ccl_rewrite.c:instance_is_rule"]}
{"id": "C15", "title": "A subsumed clause is a consequence of its subsumer", "statement": "When ClauseSubsumesClause(C,D) (or the unit version) answers true, D is true in every model of C, so deleting D loses nothing.", "quantifier": "all clause pairs, all models", "why_tests_cant": "Quantifies over all models; the backtracking search goes through all literal permutations and orientations.", "anchors": ["CLAUSES/ccl_subsumption.c:ClauseSubsumesClause", "CLAUSES/ccl_subsumption.c:eqn_list_rec_subsume", "CLAUSES/ccl_subsumption.c:LiteralSubsumesClause", "CLAUSES/ccl_subsumption.c:eqn_subsumes_termpair"]}
{"id": "C16", "title": "Subsumption search finds every multiset subsumption", "statement": "For two sorted clauses with oriented literals, if some substitution maps the literals of C injectively to literals of D (up to symmetry of equations) then the subsumption test answers true: the sorting, weight and look-ahead prefilters never cut off a solution. (If C is a single equation that the ordering cannot orient, the code does not promise this, and the model shows a subsumption it misses.)", "quantifier": "all pairs of sorted clauses and all substitutions", "why_tests_cant": "Completeness of a pruned backtracking search.", "anchors": ["CLAUSES/ccl_subsumption.c:eqn_list_rec_subsume", "CLAUSES/ccl_subsumption.c:check_subsumption_possibility", "CLAUSES/ccl_subsumption.c:eqn_topsubsumes_termpair", "CLAUSES/ccl_eqn.c:EqnSubsumeQOrderCompare"]}
{"id": "C17", "title": "Tautology deletion only removes valid clauses", "statement": "When ClauseIsTautology/ClauseIsTautologyReal answers true the clause is true in every model with equality.", "quantifier": "all clauses, all models", "why_tests_cant": "The test performs a ground completion on the negative literals; soundness quantifies over all models.", "anchors": ["CLAUSES/ccl_tautologies.c:ClauseIsTautologyReal", "CLAUSES/ccl_tautologies.c:ground_complete_neg_eqns", "CLAUSES/ccl_tautologies.c:ground_normalize_eqn"]}
{"id": "C18", "title": "Condensation preserves logical equivalence", "statement": "Condense replaces a clause by one that is true in exactly the same models.", "quantifier": "all clauses, all models", "why_tests_cant": "Quantifies over all models.", "anchors": ["CLAUSES/ccl_condensation.c:try_condensation", "CLAUSES/ccl_condensation.c:CondenseOnce", "CLAUSES/ccl_condensation.c:Condense"]}
{"id": "C19", "title": "Literal cutting is sound", "statement": "Removing a literal by unit simplify-reflect or by contextual simplify-reflect yields a clause that follows from the original clause and the clauses used, and that implies the original.", "quantifier": "all clauses, all sets of side clauses, all models", "why_tests_cant": "Quantifies over all models and all sets of premises.", "anchors": ["CLAUSES/ccl_subsumption.c:ClausePositiveSimplifyReflect", "CLAUSES/ccl_subsumption.c:ClauseNegativeSimplifyReflect", "CLAUSES/ccl_context_sr.c:ClauseContextualSimplifyReflect", "CLAUSES/ccl_unit_simplify.c:FindSimplifyingUnit"]}
{"id": "C20", "title": "Clause splitting preserves satisfiability", "statement": "ClauseSplit partitions the literals into variable-disjoint blocks, every literal into exactly one block, and the clauses it produces (definitional clauses plus the clause over fresh predicates) are satisfiable together with any clause set not mentioning the fresh predicates iff the original clause is.", "quantifier": "all clauses, all splitting modes, all clause contexts, all models", "why_tests_cant": "The partition is computed by a fixpoint over variable sets; equisatisfiability quantifies over all models.", "anchors": ["CLAUSES/ccl_splitting.c:clause_split_general", "CLAUSES/ccl_splitting.c:build_part", "CLAUSES/ccl_splitting.c:ClauseSplit"]}
{"id": "C21", "title": "Perfect discrimination tree retrieval returns exactly the generalisations", "statement": "After any sequence of insertions, enumerating a perfect discrimination tree with a query term returns every stored entry whose term matches the query (and that the age and size constraints do not rightly exclude), each with the bindings of that match, and nothing else.", "quantifier": "all insertion/deletion histories, all query terms", "why_tests_cant": "The traversal is a non-recursive backtracking search with in-place state in every node and cached constraints.", "anchors": ["CLAUSES/ccl_pdtrees.c:PDTreeInsertTerm", "CLAUSES/ccl_pdtrees.c:PDTreeDelete", "CLAUSES/ccl_pdtrees.c:PDTreeFindNextDemodulator", "CLAUSES/ccl_pdtrees.c:pdtree_forward", "CLAUSES/ccl_pdtrees.c:pdtree_backtrack"]}
{"id": "C22", "title": "Fingerprint indexing never loses a unifiable or matching term", "statement": "For every fingerprint function, every indexed term that unifies with (is an instance of) the query is among the candidates returned by FPIndexFindUnifiable (FPIndexFindMatchable), after any history of insertions and deletions.", "quantifier": "all indexed term sets, all query terms, all fingerprint position lists", "why_tests_cant": "Completeness of a lossy filter over all terms.", "anchors": ["TERMS/cte_idx_fp.c:TermFPSampleFO", "TERMS/cte_fp_index.c:fp_index_rek_find_unif", "TERMS/cte_fp_index.c:fp_index_rek_find_matchable", "TERMS/cte_fp_index.c:FPTreeInsert", "TERMS/cte_fp_index.c:FPTreeDelete"]}
{"id": "C23", "title": "Feature-vector indexing never loses a subsumption partner", "statement": "For every choice of features, every signature and every set of axioms, after any history of inserting clauses into and deleting present clauses from the index of processed clauses or watchlist: if an indexed clause passes the subsumption test against the query then searching the feature-vector index finds such a clause, the search for subsumed clauses returns all of them exactly once, and the search for variants finds one if there is one; results never differ from a linear scan. Subsumed clauses are assumed not to contain a trivial literal s=s.", "quantifier": "all histories of insertions and deletions, clause sets, queries, feature types, signatures and axioms", "why_tests_cant": "Completeness of a lossy filter over all clauses; requires every feature to be monotone under subsumption.", "anchors": ["CLAUSES/ccl_freqvectors.c:VarFreqVectorAddVals", "CLAUSES/ccl_fcvindexing.c:FVIndexInsert", "CLAUSES/ccl_fcvindexing.c:FVIndexDelete", "CLAUSES/ccl_subsumption.c:clause_set_subsumes_clause_indexed", "CLAUSES/ccl_subsumption.c:clauseset_find_subsumed_clauses_indexed"]}
{"id": "C24", "title": "Shared term representation is canonical", "statement": "Inserting terms into a term bank returns the same cell for two insertions iff the terms are syntactically equal, whatever was inserted in between, and the cached weight and counts of the cell are those of the term.", "quantifier": "all sequences of insertions of all terms", "why_tests_cant": "The invariant concerns the history of a hash table of self-adjusting trees.", "anchors": ["TERMS/cte_termbanks.c:TBInsert", "TERMS/cte_termbanks.c:tb_termtop_insert", "TERMS/cte_termcellstore.c:TermCellStoreInsert", "TERMS/cte_termtrees.c:TermTreeInsert", "TERMS/cte_termtrees.c:TermTopCompare"]}
{"id": "C25", "title": "Garbage collection never frees a reachable term and frees all others", "statement": "After marking from the registered roots and sweeping, every term reachable from a root is still stored and unchanged, and every stored term not reachable has been removed.", "quantifier": "all heaps of shared terms, all root sets, any number of collections in sequence", "why_tests_cant": "The mark bit flips meaning at each collection, so correctness depends on the collection history.", "anchors": ["TERMS/cte_termbanks.c:TBGCMarkTerm", "TERMS/cte_termbanks.c:TBGCSweep", "TERMS/cte_termcellstore.c:TermCellStoreGCSweep"]}
{"id": "C26", "title": "Splay trees behave as finite sets and maps", "statement": "For every sequence of store, find, extract and delete operations a splay tree returns the results a mathematical finite map would, and traversal yields the keys in order, each once.", "quantifier": "all operation sequences, all key orders", "why_tests_cant": "Every lookup restructures the tree; invariants range over all histories.", "anchors": ["BASICS/clb_ptrees.c:splay_ptree", "BASICS/clb_ptrees.c:PTreeInsert", "BASICS/clb_ptrees.c:PTreeExtractEntry", "BASICS/clb_numtrees.c:NumTreeInsert", "BASICS/clb_quadtrees.c:QuadTreeInsert", "TERMS/cte_termtrees.c:TermTreeExtract"]}
{"id": "C27", "title": "Queues and stacks keep all elements in order across growth", "statement": "A PQueue behaves as a double-ended queue and a PStack as a stack for every sequence of operations, including when the ring buffer or array has to grow while wrapped around; no operation reads or writes outside the allocated memory.", "quantifier": "all operation sequences and buffer wrap positions", "why_tests_cant": "Growth happens at arbitrary head/tail offsets.", "anchors": ["BASICS/clb_pqueue.h:PQueueStoreP", "BASICS/clb_pqueue.h:PQueueBuryP", "BASICS/clb_pqueue.h:PQueueGetNextP", "BASICS/clb_pqueue.h:PQueueGetLastP", "BASICS/clb_pqueue.c:PQueueGrow", "BASICS/clb_pstacks.h:PStackPushP"]}
{"id": "C28", "title": "The priority heap always yields a minimum and loses nothing", "statement": "MinHeap returns its elements in an order that is minimal at each pop, for every interleaving of insertions, removals and key changes, and the multiset of its elements is what was inserted minus what was removed.", "quantifier": "all operation sequences", "why_tests_cant": "Heap shape depends on the history.", "anchors": ["BASICS/clb_min_heap.c:MinHeapAddP", "BASICS/clb_min_heap.c:MinHeapPopMaxP", "BASICS/clb_min_heap.c:bubble_up", "BASICS/clb_min_heap.c:drop_down"]}
{"id": "C29", "title": "Integer maps behave as finite maps in every representation", "statement": "IntMap assignments, lookups, deletions and range iteration give the results of a mathematical finite map, across all switches between its empty, single, array and tree representations.", "quantifier": "all operation sequences and key distributions", "why_tests_cant": "Representation switches depend on the density of the keys inserted so far.", "anchors": ["BASICS/clb_intmap.c:IntMapGetVal", "BASICS/clb_intmap.c:IntMapGetRef", "BASICS/clb_intmap.c:IntMapDelKey", "BASICS/clb_intmap.h:IntMapIterNext", "BASICS/clb_pdrangearrays.c:PDRangeArrEnlarge"]}
{"id": "C30", "title": "Messages sent over a connection arrive unchanged whatever the packetisation", "statement": "For every string and every way the operating system splits the byte stream into reads and writes, the receiver obtains exactly the string the sender sent, and reading a message never writes outside its buffer.", "quantifier": "all strings, all schedules of partial reads and writes, all peers", "why_tests_cant": "Short reads depend on the network schedule.", "anchors": ["INOUT/cio_network.c:TCPMsgPack", "INOUT/cio_network.c:TCPMsgWrite", "INOUT/cio_network.c:TCPMsgRead", "INOUT/cio_network.c:TCPMsgUnpack"]}
{"id": "C31", "title": "Dynamic strings hold what was appended and stay inside their memory", "statement": "For every sequence of appends, deletions and resets the string is the concatenation of what was appended, it is NUL-terminated inside the allocated block, and no write goes beyond the block.", "quantifier": "all operation sequences", "why_tests_cant": "Memory safety at every growth boundary.", "anchors": ["BASICS/clb_dstrings.c:DStrAppendStr", "BASICS/clb_dstrings.c:DStrAppendChar", "BASICS/clb_dstrings.c:DStrMinimize", "BASICS/clb_dstrings.c:DStrDeleteLastChar"]}
{"id": "C32", "title": "Seeding the random number generator determines the sequence", "statement": "After JKISSSeed with the same seeds, JKISSRand produces the same sequence, and the sequence is determined by the seeds, so that randomised heuristics are reproducible.", "quantifier": "all seeds, all prior generator histories", "why_tests_cant": "Depends on the state left by all earlier calls.", "anchors": ["BASICS/clb_simple_stuff.c:JKISSSeed", "BASICS/clb_simple_stuff.c:JKISSRand"]}
{"id": "C33", "title": "Clause selection is fair", "statement": "With a heuristic that contains a first-in-first-out queue with constant priority and a positive share, every clause that is in the set of unprocessed clauses is selected after finitely many selections, or has been removed before; each queue is used as often as its share says, and takes its best clause. (With a priority function that prefers some clauses this fails: see the refuted theorem.)", "quantifier": "all heuristics with a FIFO component, all infinite runs of the selection loop", "why_tests_cant": "A liveness property over infinite executions.", "anchors": ["HEURISTICS/che_hcb.c:HCBStandardClauseSelect", "HEURISTICS/che_hcb.c:HCBSingleWeightClauseSelect", "CLAUSES/ccl_clausesets.c:ClauseSetFindBest", "HEURISTICS/che_fifo.c:FIFOWeightCompute"]}
{"id": "C34", "title": "Clausification preserves satisfiability", "statement": "The clause set obtained from a formula by simplification, negation normal form, miniscoping, variable renaming, Skolemisation and distribution is satisfiable iff the formula is; the steps before Skolemisation preserve equivalence.", "quantifier": "all first-order formulas, all models", "why_tests_cant": "Quantifies over all models; variable capture depends on the whole formula.", "anchors": ["CLAUSES/ccl_tcnf.c:TFormulaSimplify", "CLAUSES/ccl_tcnf.c:TFormulaNNF", "CLAUSES/ccl_tcnf.c:TFormulaMiniScope", "CLAUSES/ccl_tcnf.c:TFormulaVarRename", "CLAUSES/ccl_tcnf.c:TFormulaSkolemizeOutermost", "CLAUSES/ccl_tcnf.c:TFormulaDistributeDisjunctions"]}
{"id": "C35", "title": "A derivation of the empty clause proves unsatisfiability", "statement": "In any run of the saturation loop that combines the generating and simplifying inferences, the processed and unprocessed clauses always follow from the input, so if the empty clause is found the input has no model.", "quantifier": "all inputs, all inference schedules of any length", "why_tests_cant": "A safety property over all executions.", "anchors": ["CONTROL/cco_proofproc.c:ProcessClause", "CONTROL/cco_proofproc.c:Saturate", "CONTROL/cco_forward_contraction.c:ForwardContractClause"]}
{"id": "C36", "title": "Literal properties are independent", "statement": "Setting, clearing or querying one property of a literal (positive, maximal, oriented, selected, split literal, ...) never changes or depends on another property.", "quantifier": "all property words and all pairs of distinct properties", "why_tests_cant": "Flags are plain integers; overlap shows only for particular combinations.", "anchors": ["CLAUSES/ccl_eqn.h:EqnProperties", "BASICS/clb_properties.h:SetProp", "BASICS/clb_properties.h:QueryProp"]}
{"id": "C37", "title": "Literal comparison is the multiset extension of the term ordering", "statement": "Without literal selection, comparing two literals answers greater, lesser or equal exactly when one is above, below or the same as the other in the twofold multiset extension of the term ordering, where s=t is {{s},{t}} and s!=t is {{s,t}}; orienting a literal keeps its meaning, marks it oriented iff its sides are comparable and then has the larger side on the left.", "quantifier": "all pairs of literals, all term orderings and bindings", "why_tests_cant": "The comparison is a decision tree over four term comparisons and two signs; each shortcut must be right for every strict partial order.", "anchors": ["CLAUSES/ccl_eqn.c:LiteralCompare", "CLAUSES/ccl_eqn.c:EqnOrient"]}
{"id": "C38", "title": "Maximal literals are found", "statement": "The maximality flags set on a clause are exactly (strict) maximality in the literal ordering, some literal of each non-empty clause is maximal, and the maximality tests made after a unifier has been applied decide maximality in the instance although they look only at the literals that were maximal before.", "quantifier": "all clauses of any length, all term orderings stable under substitution, all later bindings", "why_tests_cant": "The elimination loop skips most comparisons; correctness needs transitivity over arbitrary lists.", "anchors": ["CLAUSES/ccl_eqnlist.c:EqnListMaximalLiterals", "CLAUSES/ccl_eqnlist.c:EqnListEqnIsMaximal", "CLAUSES/ccl_eqnlist.c:EqnListEqnIsStrictlyMaximal"]}
{"id": "C39", "title": "Backward rewriting looks at every subterm of the processed clauses", "statement": "When a new rewrite rule is found, the search for processed clauses to rewrite returns every clause in the index that contains a non-variable instance of the rule's left hand side, at any depth, with the right information on whether rewriting is restricted; and only clauses that are in the index.", "quantifier": "all histories of clause insertions and deletions, all clauses, all left hand sides, all fingerprint functions", "why_tests_cant": "Quantifies over all clauses, depths and histories; a missed clause only makes the search weaker and shows in no result.", "anchors": ["CLAUSES/ccl_subterm_index.c:ClauseCollectIdxSubterms", "CLAUSES/ccl_subterm_index.c:SubtermIndexInsertClause", "CLAUSES/ccl_rewrite.c:find_rewritable_clauses_indexed", "CLAUSES/ccl_global_indices.c:GlobalIndicesInsertClause"]}
{"id": "C40", "title": "Compact positions identify subterm occurrences", "statement": "Packing a position of a clause (literal, side, path) into a number and unpacking the number gives the same position; different positions have different numbers; the subterm obtained from the number is the one at the position; iterating over literals yields the numbers of the literals.", "quantifier": "all clauses and all positions in them", "why_tests_cant": "Round trip over all clauses and positions.", "anchors": ["CLAUSES/ccl_clausecpos.c:PackClausePos", "CLAUSES/ccl_clausecpos.c:UnpackClausePosInto", "CLAUSES/ccl_clausecpos.c:ClauseCPosGetSubterm", "CLAUSES/ccl_clausecpos.c:ClauseCPosSplit", "CLAUSES/ccl_clausecpos.c:ClauseCPosNextLit"]}
{"id": "C41", "title": "Indexed paramodulation sees exactly the allowed partners", "statement": "After any history of inserting clauses into and deleting them from the global indices, a search with a term returns every position of a present clause that is allowed for paramodulation into (non-variable subterm of a maximal literal, of its bigger side only if oriented) or from (side of a maximal, positive, unselected literal) and that unifies with it, with the number of that position; and returns only such positions, none of deleted clauses.", "quantifier": "all histories of insertions and deletions, all clauses, all query terms, all fingerprint functions", "why_tests_cant": "Completeness of the calculus depends on it for all clause sets and histories.", "anchors": ["CLAUSES/ccl_overlap_index.c:ClauseCollectIntoTermsPos2", "CLAUSES/ccl_overlap_index.c:ClauseCollectFromTermsPos", "CLAUSES/ccl_overlap_index.c:OverlapIndexInsertIntoClause2", "CLAUSES/ccl_overlap_index.c:OverlapIndexDeleteIntoClause2", "CLAUSES/ccl_global_indices.c:GlobalIndicesDeleteClause"]}
{"id": "C42", "title": "The definition store recognises known definitions", "statement": "For every choice of features, the index over the definitions made by splitting works within its memory and finds a variant of a clause iff the definition store has one.", "quantifier": "all feature types, signatures, axioms, histories and queries", "why_tests_cant": "A wrong size shows only for particular statistics of the symbols in the axioms.", "anchors": ["CONTROL/cco_proofproc.c:fvi_param_init", "CLAUSES/ccl_freqvectors.c:OptimizedVarFreqVectorCompute", "CLAUSES/ccl_subsumption.c:ClauseSetFindVariantClause", "CLAUSES/ccl_def_handling.c:GetClauseDefinition"]}
{"id": "C43", "title": "Terms built through the bank are the right terms", "statement": "Instantiating a shared term under variable bindings, replacing a subterm in it, and making its variable-disjoint copy return the shared cell of exactly the instance, the replaced term and the renamed term.", "quantifier": "all bank histories, terms, bindings and allocator behaviours", "why_tests_cant": "Shortcuts by cached flags (ground, rewritten) are right only if every history keeps the caches right.", "anchors": ["TERMS/cte_termbanks.c:TBInsertInstantiatedFO", "TERMS/cte_termbanks.c:TBInsertReplPlain", "TERMS/cte_termbanks.c:TBInsertDisjoint", "TERMS/cte_termbanks.c:tb_termtop_insert"]}
{"id": "C44", "title": "Symbols stay apart", "statement": "Two occurrences of function or predicate symbols are treated as the same symbol exactly if they have the same name (quotes do not matter) and the same number of arguments; symbols invented by the prover (Skolem functions, definitions, splitting) are different from all symbols known so far and have the arity asked for; removing the symbols of a finished job restores the table; a $let changes the meaning of the declared names inside its body only.", "quantifier": "all histories of symbol occurrences, names and arities, all counters", "why_tests_cant": "Confusing two symbols, or splitting one, makes the prover unsound or incomplete, and shows only for particular names or orders of occurrence.", "anchors": ["TERMS/cte_signature.c:SigInsertId", "TERMS/cte_signature.c:SigFindFCode", "TERMS/cte_signature.c:SigGetNewFCode", "TERMS/cte_signature.c:SigBacktrack", "TERMS/cte_signature.c:SigEnterLetScope", "TERMS/cte_signature.c:SigExitLetScope"]}
{"id": "C45", "title": "Numerals denote their numbers", "statement": "Two integer, rational or real numerals of the input are the same constant exactly if they denote the same number.", "quantifier": "all numerals", "why_tests_cant": "Numerals are distinct objects, so both directions decide about provability, and the set of numerals is infinite.", "anchors": ["TERMS/cte_functypes.c:normalize_int_rep", "TERMS/cte_functypes.c:normalize_rational_rep", "TERMS/cte_functypes.c:normalize_float_rep", "BASICS/clb_simple_stuff.c:ComputeGCD"]}
{"id": "C46", "title": "Quoted strings are read as written", "statement": "A quoted atom or distinct object ends at its first delimiter that is not escaped, and two quoted strings give the same token only if they are the same string.", "quantifier": "all strings and continuations of the input", "why_tests_cant": "The loop has to be right for every combination of escapes.", "anchors": ["INOUT/cio_scanner.c:scan_string"]}
{"id": "C47", "title": "The propositional check reports only real refutations", "statement": "When the periodic propositional check of the proof state reports a refutation, the clauses it gives as parents are clauses of the state, their encoded instances have no satisfying truth assignment, the parents have no model (with equality) and so the input is unsatisfiable; when it reports satisfiability, the encoded instances of all clauses have a satisfying assignment. Leaving out clauses with pure literals makes no difference. All variables of a sort are replaced by one term of that sort.", "quantifier": "all proof states and runs, all grounding strategies, all address orders, all solvers that do not lie", "why_tests_cant": "A wrong atom number, sign or core index would make the prover announce a proof that is none, for particular states only.", "anchors": ["CONTROL/cco_proofproc.c:SATCheck", "CLAUSES/ccl_satinterface.c:sat_translate_literal", "CLAUSES/ccl_satinterface.c:SatClauseSetMarkPure", "CLAUSES/ccl_satinterface.c:SatClauseSetImportProofState", "CLAUSES/ccl_satinterface.c:SatClauseSetCheckUnsat", "CLAUSES/ccl_satinterface.c:SubstGroundFreqBased"]}
{"id": "C48", "title": "Grounding constants are chosen by the documented preference", "statement": "The constant that replaces the variables of a sort in the propositional check exists iff the sort has a constant, and no other constant of the sort is strictly better in the lexicographic order the chosen strategy is documented to use.", "quantifier": "all signatures, occurrence counts and strategies", "why_tests_cant": "Optimality among all constants for all counts.", "anchors": ["CLAUSES/ccl_satinterface.c:prefer_conj_min_max_freq", "CLAUSES/ccl_satinterface.c:prefer_global_max_freq", "TERMS/cte_termbanks.c:TBGetFreqConstTerm", "TERMS/cte_signature.c:SigCollectSortConsts"]}
{"id": "C49", "title": "Unfolding definitions preserves satisfiability", "statement": "When equational definitions f(x1,...,xn) = t are unfolded during preprocessing, the remaining clauses follow from the original ones; every model of the remaining clauses becomes a model of all original clauses by reinterpreting only the eliminated symbols; the eliminated symbols occur nowhere any more, each has a definition among the removed clauses; clauses of the passive set (watchlist) are replaced by equivalent ones; the search ends, and the limits for growth and number of clauses are respected.", "quantifier": "all clause sets, passive sets, limits and answers of the tautology test", "why_tests_cant": "Unfolding is applied to whole clause sets with chains of definitions; a wrong instance or a missed occurrence changes provability only for particular sets.", "anchors": ["CLAUSES/ccl_unfold_defs.c:ClauseSetUnfoldEqDefNormalize", "CLAUSES/ccl_unfold_defs.c:ClauseSetUnfoldAllEqDefs", "CLAUSES/ccl_unfold_defs.c:term_unfold_def", "CLAUSES/ccl_eqn.c:EqnIsDefinition", "TERMS/cte_termfunc.c:TermIsDefTerm", "CLAUSES/ccl_clausesets.c:ClauseSetFilterTautologies"]}
{"id": "C50", "title": "Replacing injectivity axioms preserves satisfiability", "statement": "When --replace-inj-defs is in force, a clause f(..X..) != f(..Y..) | X = Y is replaced by the equation inv(..,f(..X..)) = X for a new symbol inv. The result implies all original clauses, and every model of the original clauses becomes a model of the result by interpreting only the new symbols.", "quantifier": "all clause sets, all answers of the search for an earlier definition", "why_tests_cant": "The recognition must get all coincidences of variables right; a wrong one makes the prover unsound.", "anchors": ["CLAUSES/ccl_clausefunc.c:ClauseSetReplaceInjectivityDefs", "CLAUSES/ccl_clausefunc.c:ClauseRecognizeInjectivity"]}
{"id": "C51", "title": "Blocked clause elimination preserves satisfiability", "statement": "With --bce, clauses are moved to the archive when all resolvents on one of their literals are tautologies (modulo equality if the problem has equations). The clauses that stay are satisfiable exactly if all the clauses were; every clause is either kept or archived, exactly once; without an occurrence limit no kept clause has a literal on which it could still be removed; the elimination ends. Clauses consist of equations between individuals and of atoms other than $true and $false, and answer literals count as atoms.", "quantifier": "all first-order clause sets, all occurrence limits, all orders in which the queue is served", "why_tests_cant": "The order of eliminations, postponed checks and renewed tasks interact; a clause removed too early loses a proof for some problem only.", "anchors": ["CLAUSES/ccl_bce.c:EliminateBlockedClauses", "CLAUSES/ccl_bce.c:check_blockedness_neq", "CLAUSES/ccl_bce.c:check_blockedness_eq", "CLAUSES/ccl_bce.c:make_sym_map"]}
{"id": "C52", "title": "Predicate elimination preserves satisfiability", "statement": "With --pred-elim, predicates that occur at most once per clause are resolved away. Without gate recognition (the default) the clauses that are left are satisfiable exactly if the given ones were, and follow from them; every given or new clause is either kept or archived, exactly once; a clause is archived only because of a predicate that occurs in no clause left; no predicate is introduced; the elimination ends and follows no null pointer, whatever limits and tolerances are set. Answer literals count as atoms. With --pred-elim-gates satisfiability is not preserved.", "quantifier": "all first-order clause sets, all occurrence limits, tolerances and orders of the queue", "why_tests_cant": "The occurrence sets of all predicates are updated while clauses are removed and added; one missed update loses a resolvent and thereby a proof for some problem only.", "anchors": ["CLAUSES/ccl_pred_elim.c:PredicateElimination", "CLAUSES/ccl_pred_elim.c:eliminate_predicates", "CLAUSES/ccl_pred_elim.c:build_neq_resolvent", "CLAUSES/ccl_pred_elim.c:build_eq_resolvent", "CLAUSES/ccl_pred_elim.c:react_clause_removed", "CLAUSES/ccl_pred_elim.c:check_tautologies"]}
{"id": "C53", "title": "Definitions for subformulas preserve the problem", "statement": "When a set of formulas is converted to clauses, large subformulas may be replaced by new predicates that are defined by an implication or an equivalence according to the polarities of the subformula. Every model of the formulas becomes a model of the new formulas by interpreting the new predicates only, and every structure in which the new formulas are true makes the given ones true. So the complete conversion (simplification, definitions, clausification) ends, yields well-formed clauses, and these are satisfiable exactly if the formulas are. With the limit 0 no definition is made.", "quantifier": "all finite sets of well-sorted first-order formulas, all limits, all estimates of the numbers of clauses, all orders of the free variables", "why_tests_cant": "A definition by an implication is only right if the subformula, shared between all formulas, occurs with one polarity everywhere, also inside other definitions; a wrong mark shows up in a lost or wrong proof for some problems only.", "anchors": ["CLAUSES/ccl_formulafunc.c:TFormulaSetIntroduceDefs", "CLAUSES/ccl_formulafunc.c:FormulaSetCNF2", "CLAUSES/ccl_tcnf.c:TFormulaFindDefs", "CLAUSES/ccl_tcnf.c:TFormulaDefRename", "CLAUSES/ccl_tcnf.c:TFormulaCopyDef", "CLAUSES/ccl_tformulae.c:TFormulaMarkPolarity", "CLAUSES/ccl_tformulae.c:TFormulaCreateDef"]}
{"id": "C54", "title": "Axiom selection keeps what it promises and never causes a wrong verdict", "statement": "With SInE, the selected axioms are exactly those that are reached from the seeds (conjectures and hypotheses) in at most the given number of steps, where a step goes from an axiom to one that is filed under one of its symbols; an axiom is filed under its least general symbols as given by benevolence and generosity. If the size limit is exceeded, only such axioms are selected, at most one more than the limit; the seeds are selected if there are not more than the limit plus one. With relevancy pruning, every axiom that shares symbols with a goal in fewer steps than the level is kept, and if any axiom is lost, only such axioms are kept. The selections end, and the reported number of lost axioms is 0 exactly if none is lost. If the search is right about the axioms it gets, the status printed at the end is right about the given problem: Satisfiable and CounterSatisfiable are never printed after an axiom was lost.", "quantifier": "all sets of axioms, symbol occurrences, generalities, parameters of the filters, relevance levels, options, and all results of the search", "why_tests_cant": "The selection depends on the whole problem and on the interplay of several limits; a lost axiom only shows as a missing proof, and a lost incompleteness flag as a wrong claim of satisfiability for some problems.", "anchors": ["CLAUSES/ccl_sine.c:SelectDefiningAxioms", "CLAUSES/ccl_sine.c:SelectAxioms", "CLAUSES/ccl_sine.c:SelectThreshold", "CLAUSES/ccl_sine.c:SelectDefinitions", "CLAUSES/ccl_f_generality.c:compute_d_rel", "CONTROL/cco_batch_spec.c:StructFOFSpecGetProblem", "CONTROL/cco_sine.c:ProofStateSinE", "CLAUSES/ccl_relevance.c:RelevanceDataCompute", "CLAUSES/ccl_relevance.c:ProofStateRelevancyProcess", "PROVER/eprover.c:main"]}
{"id": "C55", "title": "The goal-directed transformation only adds names for ground terms of the goals", "statement": "Adding goal definitions leaves every clause as it is and appends unit equations t = c between a ground term and a constant; the constants are new and each is defined once. Every model of the clauses becomes a model of the result by interpreting the new constants only, so the set is satisfiable before iff it is afterwards. Every term collected equals a new constant in all models of the result. With subterms, the terms collected are exactly the non-constant ground terms other than atoms in the chosen literals of conjecture clauses; without, every such term is inside a collected term or inside a ground atom.", "quantifier": "all clause sets, all choices of signs and subterms, all markings of clauses as conjectures, all orders in which the terms are visited", "why_tests_cant": "The definitions interact: a term is normalised with the definitions made before, in an order that depends on memory addresses. Tests see a few terms in one order.", "anchors": ["CLAUSES/ccl_gd_transformation.c:ClauseSetGDTransform", "CLAUSES/ccl_gd_transformation.c:gd_term_define", "CLAUSES/ccl_gd_transformation.c:gd_term_rek_define", "CLAUSES/ccl_gd_transformation.c:gd_def_nf", "TERMS/cte_termfunc.c:TermCollectGroundTerms", "CLAUSES/ccl_eqnlist.c:EqnListCollectGroundTerms"]}
{"id": "C56", "title": "A proof of the clauses is a proof of the conjecture, a model of them is a counterexample", "statement": "Negating the conjectures, converting to clauses and preprocessing the clauses (removal of tautologies and superfluous literals, injectivity axioms, unfolding of definitions, elimination of blocked clauses and of predicates, goal definitions) together give clauses that are unsatisfiable exactly if in every model of the axioms, hypotheses, lemmas and input clauses some conjecture is true; they are satisfiable exactly if there is a model in which all conjectures are false. So when the saturation finds the empty clause, some conjecture is true in every model of what is assumed, also if the axioms were selected from a larger problem, and if there is no conjecture the input has no model. Every derived clause over the symbols of the problem is true in every model of what is assumed in which no conjecture is true.", "quantifier": "all lists of formulas with roles and of input clauses, all option settings of the preprocessing steps, all orders in which sets are visited or sorted, all runs of the saturation", "why_tests_cant": "The verdict depends on the composition of all steps, each of which only preserves satisfiability over a changing signature. Tests can compare verdicts on problems whose status is known, not show that no combination of options loses the meaning.", "anchors": ["PROVER/eprover.c:main", "CLAUSES/ccl_formulafunc.c:FormulaSetPreprocConjectures", "CLAUSES/ccl_formulafunc.c:WFormulaConjectureNegate", "CLAUSES/ccl_formulafunc.c:FormulaSetCNF2", "CONTROL/cco_preprocessing.c:ProofStateClausalPreproc", "CLAUSES/ccl_unfold_defs.c:ClauseSetPreprocess", "CLAUSES/ccl_unfold_defs.c:ClauseSetUnfoldEqDefNormalize", "CLAUSES/ccl_clausefunc.c:ClauseSetCanonize", "CLAUSES/ccl_eqn.c:EqnCanonize"]}
{"id": "C57", "title": "Answers are right", "statement": "If the prover prints answers to a question \"for which x1..xn does b hold?\", then in every model of what is assumed in which no other conjecture is true one of the printed tuples is a solution: for all values of the variables in the answer, b is true with x1..xn set to the values of the terms of that tuple. (If new function symbols occur in the answer, they can be interpreted such that this holds. The model has at least two individuals, or there is just one question and it asks for individuals.) The status Theorem that is printed with the first answer is right: in every model of what is assumed a conjecture or question is true. At most as many answers are printed as were asked for, and a run that ends with a result before that has found the empty clause.", "quantifier": "all lists of formulas with roles, questions included, all input clauses, all option settings, all runs of the saturation, all models", "why_tests_cant": "That an answer is correct is a statement about all models of the axioms. Tests can compare answers on problems with known solutions.", "anchors": ["CLAUSES/ccl_formulafunc.c:TFormulaAnnotateQuestion", "CLAUSES/ccl_formulafunc.c:answer_lit_alloc", "CONTROL/cco_interpreted.c:ClausePrintAnswer", "CONTROL/cco_interpreted.c:answer_lit_print", "CONTROL/cco_interpreted.c:ClauseEvaluateAnswerLits", "CONTROL/cco_proofproc.c:ProcessClause", "CONTROL/cco_proofproc.c:Saturate", "CLAUSES/ccl_clauses.c:ClauseIsSemFalse", "CLAUSES/ccl_eqnlist.c:EqnListRemoveSimpleAnswers"]}
{"id": "C58", "title": "AC handling only uses laws that hold", "statement": "A function symbol is treated as commutative exactly if one of the scanned clauses is f(X,Y)=f(Y,X), as associative exactly if one is f(f(X,Y),Z)=f(X,f(Y,Z)) (in either direction); in every state of a run the symbols so treated have the property in every model of the input. Two terms are considered equal modulo AC exactly if they are equal in all structures with these properties (associativity being used only for symbols that are also commutative). A clause dropped as AC redundant follows from the input, a clause from which AC-trivial literals have been removed says the same as before, and the axioms themselves, the extended law f(X,f(Y,Z))=f(Y,f(X,Z)) and clauses without positive literals are never dropped.", "quantifier": "all signatures, terms, clauses and clause sets, all configurations and runs of the saturation, all models", "why_tests_cant": "Equality modulo AC relates terms of any size in all permutations and nestings; that the terms identified are exactly those equal in all models is a soundness and completeness statement.", "anchors": ["TERMS/cte_acterms.c:ACTermNormalize", "TERMS/cte_acterms.c:ACTermCompare", "TERMS/cte_acterms.c:TermACEqual", "HEURISTICS/che_axiomscan.c:DetectCommutativity", "HEURISTICS/che_axiomscan.c:DetectAssociativity", "HEURISTICS/che_axiomscan.c:ClauseSetScanAC", "CLAUSES/ccl_clauses.c:ClauseIsACRedundant", "CLAUSES/ccl_clausefunc.c:ClauseRemoveACResolved", "CONTROL/cco_forward_contraction.c:ForwardModifyClause", "CONTROL/cco_proofproc.c:check_ac_status"]}
{"id": "C59", "title": "Proof objects are complete, ordered and refer only to earlier steps", "statement": "Whatever inferences, quotations and archivings are recorded during a run, the derivations can be read back and no step rests on itself. The proof printed for the final clauses lists exactly the steps they depend on, each once; the premises printed with a step are those recorded for it (steps that only quote another being replaced by it) and are all printed before it, so that checking the steps one by one checks the proof; steps without a derivation come first; numbers increase and names are unique, also against names kept from the input; a conjecture is reported as used exactly if the refutation depends on one.", "quantifier": "all histories of recorded inferences, quotations and archivings, all sets of final clauses, all input names", "why_tests_cant": "Derivations are graphs of any size and depth with sharing; an ordering or counting error shows only for particular shapes of the graph.", "anchors": ["CLAUSES/ccl_derivation.c:ClausePushDerivation", "CLAUSES/ccl_derivation.c:WFormulaPushDerivation", "CLAUSES/ccl_derivation.c:ClausePushACResDerivation", "CLAUSES/ccl_derivation.c:DerivStackExtractParents", "CLAUSES/ccl_derivation.c:DerivStackExtractOptParents", "CLAUSES/ccl_derivation.c:DerivationExtract", "CLAUSES/ccl_derivation.c:DerivationMarkProofSteps", "CLAUSES/ccl_derivation.c:DerivationTopoSort", "CLAUSES/ccl_derivation.c:DerivationRenumber", "CLAUSES/ccl_derivation.c:DerivationCompute", "CLAUSES/ccl_derivation.c:DerivationStackTSTPPrint", "CLAUSES/ccl_clausefunc.c:ClauseArchive", "CLAUSES/ccl_clausefunc.c:ClauseArchiveCopy", "CLAUSES/ccl_clauseinfo.c:ClauseInfoGetIdCounter"]}
{"id": "C60", "title": "The term ordering generated for a problem is a reduction ordering", "statement": "Whatever the problem and whatever methods are chosen for the precedence (-G) and the symbol weights (-w), and however ties are sorted: the precedence is total with $true at the bottom and places symbols by the criteria documented for the method. With KBO, the generated weights and precedence together are admissible, so that comparing terms with the generated ordering is comparing in a well-founded, stable, monotone ordering that contains the subterm relation and is total on ground terms; this includes symbols introduced after the ordering was generated.", "quantifier": "all signatures, arities, occurrence counts and modifiers, all precedence and weight generation methods of first-order builds, all results qsort may give, all terms and sequences of comparisons", "why_tests_cant": "The methods are combined freely; whether the weights fit the precedence depends on the arities and counts of all symbols of the problem, and a violation shows only as a rewrite loop or a missing inference.", "anchors": ["HEURISTICS/che_to_precgen.c:TOGeneratePrecedence", "HEURISTICS/che_to_precgen.c:compute_precedence_from_array", "HEURISTICS/che_fcode_featurearrays.c:FCodeFeatureArraySort", "HEURISTICS/che_to_weightgen.c:TOGenerateWeights", "HEURISTICS/che_to_weightgen.c:find_max_symbols", "HEURISTICS/che_to_autoselect.c:TOSelectOrdering", "HEURISTICS/che_to_autoselect.c:TOCreateOrdering", "ORDERINGS/cto_ocb.c:OCBFindMinConst"]}
{"id": "C61", "title": "Contraction loses nothing of the input", "statement": "However clauses are rewritten, simplified, split, subsumed, moved and deleted, nothing of the input is lost: at every point of every run the clauses that are kept, together with the unit clauses, AC axioms and definitions that simplification has used up to then, have no model that is not a model of the input; without splitting they have exactly the models of the input, and in any case they are unsatisfiable exactly when the input is. In particular an answer 'satisfiable' needs a saturated set that carries all of the input.", "quantifier": "all inputs, all configurations of the loop, all orders of selection, retrieval and processing, all numbers of steps, all models", "why_tests_cant": "A clause that is dropped wrongly shows up only as a missing proof or a wrong 'satisfiable', long after the step at fault; which clause replaced which depends on the whole history of the run.", "anchors": ["CONTROL/cco_proofproc.c:ProcessClause", "CONTROL/cco_proofproc.c:cleanup_unprocessed_clauses", "CONTROL/cco_proofproc.c:insert_new_clauses", "CONTROL/cco_forward_contraction.c:ForwardContractClause", "CONTROL/cco_simplification.c:ClauseMoveSimplified", "CLAUSES/ccl_rewrite.c:term_li_normalform", "CLAUSES/ccl_rewrite.c:rewrite_with_clause_set", "CLAUSES/ccl_clausefunc.c:ClauseRemoveACResolved"]}
{"id": "C62", "title": "A printed formula is read back as the same formula", "statement": "A first-order formula that is printed in TPTP syntax is read back completely, and as the same formula: with the same symbols, connectives, quantifiers and grouping, with variables renamed one to one and of the same sorts, and with the same meaning in every structure. This holds for all formulas whose names can be written, and so for all formulas that have been read themselves, except those with constants that look like variables. Reading comes to an end on every text.", "quantifier": "all texts, all formulas over printable names, all signatures and variable banks reached by reading, all texts that follow the formula, all structures and assignments", "why_tests_cant": "Output of one run is input of the next tool. Whether a text has a second reading depends on the neighbours of each token, on the bracketing of each combination of connectives, and on names and variables seen before; tests cover a few combinations.", "anchors": ["CLAUSES/ccl_tformulae.c:TFormulaTPTPPrint", "CLAUSES/ccl_tformulae.c:tformula_print_or_chain", "CLAUSES/ccl_tformulae.c:TFormulaTSTPParse", "CLAUSES/ccl_tformulae.c:literal_tform_tstp_parse", "CLAUSES/ccl_tformulae.c:quantified_tform_tstp_parse", "CLAUSES/ccl_eqn.c:EqnFOFPrint", "CLAUSES/ccl_eqn.c:EqnParseInfix", "TERMS/cte_termbanks.c:TBTermParseReal", "TERMS/cte_termfunc.c:TermPrintFO", "TERMS/cte_functypes.c:FuncSymbParse", "TERMS/cte_signature.c:SigInsertId", "TERMS/cte_termvars.c:VarBankExtNameAssertAllocSort", "INOUT/cio_scanner.c:scan_token"]}
{"id": "C63", "title": "Strategies share time and cores as planned, and an answer is that of a finished strategy", "statement": "When strategies are scheduled, they are started in the order of the schedule, each once, and never use more cores together than allowed. The answer that is reported is the complete output of a strategy that has ended with an answer, with its exit status, and the first such; failure is reported only when every strategy has ended without one. When the program ends, no strategy is left running; it never waits with nothing running, and ends when all strategies have ended. The times of a search schedule add up to at most the time left, and strategies are dropped only when it is used up; the cores of a preprocessing schedule add up to those available, with at least one for each strategy. The schedule used is that of the problem's class or else of a nearest one, and the strategies tried after it are those of the default schedule not tried yet.", "quantifier": "all schedules, all numbers of cores, all time limits, all orders in which children write, end, are killed or signals arrive, all splits of their output into chunks, all tables of classes", "why_tests_cant": "The order in which children write and end is the operating system's choice; tests see a few interleavings.", "anchors": ["CONTROL/cco_scheduling.c:ScheduleTimesInitMultiCore", "CONTROL/cco_scheduling.c:ExecuteScheduleMultiCore", "CONTROL/cco_scheduling.c:InitializePlaceholderSearchSchedule", "CONTROL/cco_scheduling.c:GetFilteredDefaultSchedule", "CONTROL/cco_gproc_ctrl.c:EGPCtrlCreate", "CONTROL/cco_gproc_ctrl.c:EGPCtrlGetResult", "CONTROL/cco_gproc_ctrl.c:EGPCtrlSetGetResult", "CONTROL/cco_gproc_ctrl.c:EGPCtrlSetFree", "HEURISTICS/che_new_autoschedule.c:class_to_schedule", "BASICS/clb_simple_stuff.c:StrDistance"]}
{"id": "C64", "title": "Literal selection selects a negative literal, the one its strategy describes", "statement": "Whatever literal selection strategy, bounds and inheritance options are given, literal selection ends without touching anything but the selection flags of the clause; a clause without negative literals gets no selected literal, and a clause with a selected literal has a selected negative one, as completeness requires, and has its maximality marks reset. Every strategy but those that select all negative literals selects nothing, exactly one negative literal, or, if its name says so, exactly one negative literal with all positive ones. The strategies named after a measure select the first literal that is best in it (largest, smallest, ground before others, inequations of variables before those, oriented before others), the strategies that exclude type predicates never select one, and SelectDivLits reaches every negative literal. A strategy with a condition (unless the maximal literal is unique and positive, except for Horn clauses and so on) selects like the strategy it is named after if the condition holds, and nothing otherwise.", "quantifier": "all clauses, all 144 strategies of the table, all bounds and inheritance options, all values of the weight counter", "why_tests_cant": "There are 144 strategies and the choice depends on the weights, orientation and order of all literals; tests run few of them on few clauses.", "anchors": ["HEURISTICS/che_litselection.c:GetLitSelFun", "HEURISTICS/che_litselection.c:generic_uniq_selection", "HEURISTICS/che_litselection.c:lit_eval_compare", "HEURISTICS/che_litselection.c:SelectComplex", "HEURISTICS/che_litselection.c:SelectMaxLComplex", "HEURISTICS/che_litselection.c:SelectLargestOrientableLiteral", "HEURISTICS/che_litselection.c:SelectVGNonCR", "HEURISTICS/che_proofcontrol.c:DoLiteralSelection", "HEURISTICS/che_proofcontrol.c:select_inherited_literal"]}
{"id": "C65", "title": "The command line is read as GNU conventions say, and no other way", "statement": "Every command line either reads in exactly one way, and then the program gets exactly the options it gives, in order and with their arguments (the default of an optional argument that is not there), and the remaining arguments in order as input files, standard input if there are none; or it is refused with a usage error. Long options take their argument after an equals sign and are recognised by their full name, letters without arguments can be put together, a letter with an argument stands alone and takes the rest of the word or the next word, and what follows -- is no option. Numbers are read as numbers within the range of a long, or refused; the help prints the whole of each description, broken at blanks.", "quantifier": "all command lines, all option tables of the form the programs have, all argument strings and descriptions", "why_tests_cant": "The argument vector is changed in place while letters of a word are still being read; the errors are in combinations of clusters, missing arguments and --, of which tests have a few.", "anchors": ["INOUT/cio_commandline.c:CLStateAlloc", "INOUT/cio_commandline.c:CLStateGetOpt", "INOUT/cio_commandline.c:CLStateInsertArg", "INOUT/cio_commandline.c:CLStateGetIntArg", "INOUT/cio_commandline.c:CLStateGetIntArgCheckRange", "INOUT/cio_commandline.c:CLStateGetBoolArg", "INOUT/cio_commandline.c:PrintOption"]}
{"id": "C66", "title": "An extracted proof is complete, minimal and in order", "statement": "What epclextract prints of a PCL protocol is exactly the steps marked as proof, final or extract and the steps these depend on through any number of references, each once, in the order of their identifiers, whatever the order of the steps in the file and in memory. So every reference of an extracted proof leads to a step of it, and extracting from it again changes nothing. A protocol that uses an identifier twice is refused. The fast version does the same for the marked steps at the end of the protocol; it prints the same as the normal one if there are no others, calls its output a refutation if and only if it contains the end of one, and refuses proofs with references that lead nowhere.", "quantifier": "all protocols (steps with any identifiers, justifications of any depth and extra strings), all orders in which the steps referred to are visited", "why_tests_cant": "The steps are visited in the order of their addresses; protocols have millions of steps, and a step that is missing or superfluous shows only when the proof is checked.", "anchors": ["PCL2/pcl_protocol.c:PCLProtMarkProofClauses", "PCL2/pcl_protocol.c:PCLExprCollectPreconds", "PCL2/pcl_protocol.c:PCLProtParse", "PCL2/pcl_miniprotocol.c:PCLMiniProtMarkProofClauses", "PCL2/pcl_miniprotocol.c:PCLMiniProtParse", "PCL2/pcl_idents.c:PCLIdCompare", "PCL2/pcl_expressions.c:PCLStepExtract", "PROVER/epclextract.c:main"]}
{"id": "C67", "title": "Grounding preserves satisfiability", "statement": "The DIMACS file that eground writes for near-propositional clauses is satisfiable if and only if the clauses are, whatever combination of tautology deletion, unit subsumption, unit resolution and purity constraints is used. Without constraints its models are exactly the valuations that make all instances of the clauses over the constants true. If time or memory runs out, an unsatisfiable file still means that the clauses are unsatisfiable, and given enough time the set is complete. The header has the right number of clauses, a bound of all variables, and no clause is empty.", "quantifier": "all sets of clauses over constants and variables, all options, all points at which time or memory can run out, all numberings of the atoms and orders of the variables and terms in memory", "why_tests_cant": "The number of instances is exponential, and each simplification depends on the units found before; an instance that is lost shows as a wrong verdict of another program.", "anchors": ["CLAUSES/ccl_grounding.c:ClauseSetCreateGroundInstances", "CLAUSES/ccl_grounding.c:ClauseSetCreateConstrGroundInstances", "CLAUSES/ccl_grounding.c:ClauseCreateGroundInstances", "CLAUSES/ccl_grounding.c:GroundSetUnitSimplifyClause", "CLAUSES/ccl_grounding.c:GroundSetInsert", "CLAUSES/ccl_grounding.c:GroundSetPrintDimacs", "CLAUSES/ccl_groundconstr.c:ClauseCollectVarConstr", "CLAUSES/ccl_groundconstr.c:LitOccAddClauseSetAlt", "PROVER/eground.c:main"]}
{"id": "C68", "title": "Memory blocks are distinct, keep their contents and are used again", "statement": "Whatever a program allocates, frees and writes to its own blocks, its blocks never overlap, each is memory obtained from the C library with the size asked for, and no operation of the memory manager changes what they hold; changing the size of a block keeps what fits. Memory goes back to the C library at most once. A freed block of a common size is the next one handed out. The program gives up for lack of memory only if the C library refuses although nothing but the program's own blocks is in use.", "quantifier": "all histories of allocations, releases, changes of size, flushes and writes, with all sizes, all addresses and failures of malloc(), and all values that free() leaves behind", "why_tests_cant": "An error needs a history in which a block is reused at the wrong moment, and shows as corrupted data elsewhere; failures of malloc() hardly happen in tests.", "anchors": ["BASICS/clb_memory.h:SizeMallocReal", "BASICS/clb_memory.h:SizeFreeReal", "BASICS/clb_memory.c:SecureMalloc", "BASICS/clb_memory.c:SecureRealloc", "BASICS/clb_memory.c:MemFlushFreeList"]}
{"id": "C69", "title": "The alternative memory manager keeps blocks apart", "statement": "With the alternative memory manager, too, the blocks of a program never overlap, lie in memory obtained from the C library, and keep their contents, and freed blocks are used again. This holds if of the sizes over 256 bytes that share a list only one is used; otherwise a block can be smaller than was asked for.", "quantifier": "all histories of allocations, releases and writes to own blocks, all sizes, all addresses and failures of malloc()", "why_tests_cant": "Blocks are cut from chunks and linked through their own memory; an error shows only in histories that reuse a block, as corrupted data elsewhere.", "anchors": ["BASICS/clb_newmem.c:SizeMallocReal", "BASICS/clb_newmem.c:SizeFreeReal", "BASICS/clb_newmem.c:MemAddNewChunk", "BASICS/clb_newmem.h:MEM_CHUNKLIMIT"]}
