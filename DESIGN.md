# Formal model of E (eprover) in Rocq

The properties are in properties.jsonl, their status and theorem names in MANIFEST.json.  This file says what is trusted, what is
modelled and how each property is proved, and lists the defects that reading and proving turned up.

## Trusted base

* Coq 8.16.1's kernel (and `coqchk`, which checks the compiled files again).
* The Coq standard library; no other library is imported.
* What `Print Assumptions` lists.  Every `*Props.v` file ends with `Print Assumptions` for each of its theorems.  All are
  `Closed under the global context` except

  | Theorems | Axioms (all from the standard library) |
  |---|---|
  | C20_split, C20_history_split_variables | `Classical_Prop.classic`, `Description.constructive_definite_description` (via Coq.Logic.ClassicalDescription) |
  | C34_simplify, C34_negation_normal_form, C34_miniscope | `Classical_Prop.classic` |
  | C34_terminates, C34_well_formed, C34_models_of_clauses, C34_models_extend, C34_satisfiable | `Classical_Prop.classic`, `ClassicalEpsilon.constructive_indefinite_description` (choice of Skolem functions) |
  | C50_follows, C50_models, C50_sat | `classic`, `ClassicalEpsilon.constructive_indefinite_description` (the inverse function) |
  | C51_sat | `classic`, `ClassicalEpsilon.constructive_indefinite_description` (term models, choice of a valuation) |
  | C52_sat, C52_follows, C52_partition, C52_removed, C52_no_new_predicate, C52_ends | `classic`, `ClassicalEpsilon.constructive_indefinite_description` (the predicate is redefined in a model) |
  | C53_definitions_sound, C53_definitions_extend, C53_definitions_well_formed, C53_terminates, C53_well_formed, C53_models_extend, C53_satisfiable | `classic`, `ClassicalEpsilon.constructive_indefinite_description` (the new predicates are interpreted by the truth of their formulas) |
  | C56_preprocessing, C56_models_of_clauses, C56_models_extend, C56_exact, C56_theorem, C56_derived | `classic`, `ClassicalEpsilon.constructive_indefinite_description` (from the steps) |
  | C57_answers, C57_old_symbols, C57_run, C57_theorem | `classic`, `ClassicalEpsilon.constructive_indefinite_description` (the interpretation of the answer symbols) |
  | C51_false_literal_refuted, C51_answer_refuted, C52_gates_refuted, C52_answer_refuted | `ClassicalEpsilon.constructive_indefinite_description` (choice of a valuation) |
  | C35_unsatisfiable, C47_unsatisfiable, C47_run | `ClassicalEpsilon.constructive_indefinite_description` (a value for the variables of every sort) |

  `coqchk` also reports axioms that come with library files that are merely loaded (`Coq.ssr.ssrunder.Under_rel.*` via
  `Coq.ssr`); no theorem depends on them.
* The fidelity of the Gallina model to the C code.  Every definition cites the file and lines it models; simplifications are stated
  in the comment of the definition.

## General modelling decisions

* The default build is modelled: `ENABLE_LFHO` off (first-order terms, no applied variables, no lambda), `NDEBUG` on (assertions are
  not executed; where an assertion could fail this is a finding, not an assumption).
* `term := Var x | Fun f args`.  A variable in E is identified by (f_code, type); sorts are given by a `sorting`, so "same
  variable" is equality of `var`.  Each variable cell `x` has a shadow cell for fresh variables (odd numbers).
* Pointer equality on shared terms is structural equality (justified by C24).
* `var->binding` is a function `var -> option term`, the `Subst` stack a list of variables.
* C loops that are not structurally recursive become fuelled functions whose result type has an explicit "out of fuel" value;
  theorems say (1) every other result is right and (2) some fuel suffices for every input (exceptions are named in MANIFEST.json).
* Undefined behaviour (out-of-bounds access, NULL dereference, use after free) is a distinct outcome where memory matters
  (queues, stacks, strings, network buffers, range arrays, heap, feature vectors, term cells).
* Machine integers are `Z`/`nat`; widths appear where they matter (random numbers, property words, message lengths, tree keys,
  32-bit counters of term cells, rounding of FIFO counters to doubles).
* Models with equality: non-empty sorts, function symbols interpreted as functions on sorts, predicates encoded as E does it: the atom
  `p(t)` is the equation `p(t) = $true`; `$true` and `$false` are different and the only truth values; "distinct objects" are different.
* Each topic has up to three kinds of files: `X.v` (model and the vocabulary of the specification), `XProofs.v` (lemmas) and
  `XProps.v` (theorems named after the property, non-vacuity examples, `Print Assumptions`).

## Plan per property

| Property | Modelled code | Files | Method |
|---|---|---|---|
| C01-C03 | SubstComputeMgu, OccurCheck, Subst stack (cte_match_mgu_1-1.c, cte_subst.c) | Unify, UnifyProofs, MatchProofs, UnifyProps | loop invariant: set of unifiers of (bindings + jobs) is constant; triangular form gives resolution; well-founded measure gives termination |
| C04 | SubstComputeMatch with weight early exit | same | loop invariant; weight monotonicity under instantiation |
| C05, C06 | kbolincmp, mfyvwblhs/rhs, inc/dec_vb (cto_kbolin.c) | KBO* | state (wb, pos_bal, neg_bal, vb) refines weight and variable-count differences; textbook KBO; well-foundedness directly |
| C07, C08 | lpo4_* with depth limit (cto_lpo.c) | LPO* | refinement to the textbook LPO, then classical properties |
| C09 | TOCompare, TOGreater, comparison cache (cto_orderings.c) | TOCompare* | cache invariant over histories |
| C10 | precedence matrix of the ordering control block (cto_ocb.c) | OCB* | invariant over operation sequences |
| C11-C13 | equality resolution, (equality) factoring, (simultaneous) paramodulation (ccl_eqnresolution.c, ccl_factor.c, ccl_paramod.c) | Clauses*, Infer* | semantic soundness from C01, termination, most general conclusions |
| C14 | forward rewriting with links and dates, backward links (ccl_rewrite.c) | Rewrite* | invariant over histories of links and dates; ordering decrease |
| C15, C16, C18, C19 | subsumption of units and clauses, simplify-reflect, contextual simplify-reflect, condensation (ccl_subsumption.c, ccl_unit_simplify.c, ccl_context_sr.c, ccl_condensation.c) | Subsume* | soundness: semantic; completeness: pruned backtracking vs. an existential specification |
| C17 | ClauseIsTrivial, ClauseIsTautology, ground completion (ccl_tautologies.c, ccl_groundconstr) | Taut* | every equation of the system follows from the negative literals |
| C20 | ClauseSplit, partition, GetDefinitions (ccl_splitting.c, ccl_def_handling.c) | Split* | connected components; model extension over histories; conservativity |
| C21 | perfect discrimination trees (ccl_pdtrees.c) | PDTree* | trie as map from traversal words; search refines matching |
| C22 | fingerprints and fingerprint index (cte_idx_fp.c, cte_fp_index.c) | FPIndex* | abstraction lemma per position, then tree induction |
| C23, C42 | feature vectors, FV index, permutation vectors (ccl_freqvectors.c, ccl_fcvindexing.c) | FVIndex*, FVTreeProofs | monotone features, tree induction |
| C24, C25, C43 | term cells, term cell store, insertion, instantiation, mark and sweep (cte_termbanks.c, cte_termcellstore.c, cte_garbage_coll.c) | TermBank* | memory of cells with an arbitrary allocator; history invariant; reachability closure |
| C26 | splay trees (clb_ptrees.c, clb_numtrees.c, clb_stringtrees and all instances of the same code) | Splay* | search tree invariant + in-order list refinement |
| C27 | PQueue, PStack with explicit arrays | Mem, Queue* | refinement to lists |
| C28 | MinHeap | Heap* | heap invariant on arrays with back indices |
| C29 | IntMap, PDRangeArr | IntMap* | refinement to a partial function |
| C30 | TCP messages (cio_network.c) | Net* | byte streams with arbitrary chunking |
| C31 | DStr | DStr* | refinement to lists with capacity |
| C32 | JKISS random numbers | Rand* | refutation + what does hold |
| C33 | evaluations, evaluation trees, HCB selection (che_hcb.c, ccl_eval.c, ccl_clausesets.c) | Select* | ranking with explicit bound, over histories |
| C34 | formula simplification, negation normal form, miniscoping, variable renaming, Skolemisation, quantifier shifting, distribution, clause collection (ccl_tcnf.c, ccl_tformulae.c) | CNF* | equivalence per step, model expansion for Skolem functions |
| C35 | ProcessClause, Saturate, forward and backward contraction, generation (cco_proofproc.c, cco_forward_contraction.c, ...) | Saturate* | invariant over all runs and policies: well-formed, declared symbols, follows from the input up to splitting |
| C36 | property words | Flags* | bit-level; refutation for EPIsSplitLit |
| C37, C38 | literal comparison, maximal literals (ccl_eqn.c, ccl_eqnlist.c) | LitOrder* | multiset extension by case analysis |
| C39-C41 | clause positions, global indices (ccl_clausecpos.c, ccl_global_indices.c, cte_idx) | ClauseIdx* | refinement of collected sets |
| C44 | symbol table: insertion, lookup, fresh codes, backtracking, $let scopes (cte_signature.c) | Sig* | invariant over histories; refutations for quoted names |
| C45 | numeral normalisation (cte_functypes.c), ComputeGCD | Num* | normal forms equal iff denotations equal; refutations |
| C46 | scan_string (cio_scanner.c) | Num* | induction on the input; refutation for escapes |
| C47 | SATCheck: grounding substitutions, encoding of literals, pure literals, export, core (ccl_satinterface.c); PicoSAT is an arbitrary function that does not lie | SatCheck* | index invariant, purity lemma, truth values of finitely many atoms from a first-order model, C35 for the run |
| C48 | preference functions for grounding constants, TBGetFreqConstTerm | SatCheck* | fold with a weak order; refutation for the four conjecture-based functions |
| C49 | ClauseSetUnfoldEqDefNormalize: recognition, unfolding, the loop over the set, tautology filter | Unfold* | induction on terms; reinterpretation of the defined symbol; induction on the sequence of definitions |
| C50 | ClauseRecognizeInjectivity, ClauseSetReplaceInjectivityDefs | Inj* | valuations permuted along the argument pairs; the inverse chosen by description |
| C51 | EliminateBlockedClauses with make_sym_map, make_bce_queue, check_blockedness_neq, check_blockedness_eq, do_eliminate_clauses | Bce* | the archive read backwards: each archived clause is satisfied by flipping a predicate at the instances where it fails, in a fair order (BceFlip); with equality in any model, without in a term model |
| C52 | PredicateElimination with scan_clause_for_predicates, build_task_queue, check_unsat_and_tauto, check_tautologies, build_neq_resolvent, build_eq_resolvent, do_singular_elimination, do_gates_against_offending, react_clause_removed, react_clause_added, eliminate_predicates, ClauseNormalizeVars | PredElim, PredRes, PredInv, PredElimProofs, PredElimProps | invariant: the sets of every unblocked task are exactly the clauses with one positive, one negative, several occurrences; one elimination is a Davis-Putnam step in any model with equality; measure for the end; a witness against gate recognition |
| C53 | FormulaSetCNF2 with FormulaSetSimplify, TFormulaSetIntroduceDefs, TFormulaSetFindDefs, TFormulaFindDefs, tformula_rename_test, TFormulaDefRename, TFormulaMarkPolarity, TFormulaDecodePolarity, TFormulaCreateDef, TFormulaAddQuantors, TFormulaApplyDefs, TFormulaCopyDef | CNFDefs, CNFDefsProofs, CNFDefsProps | the marks are closed under subformulas; a copy implies a formula that occurs positively and is implied by one that occurs negatively (induction over formulas, the definition of a subformula is a smaller case); new atoms are interpreted one by one by the truth of their formula; composed with C34 |
| C54 | compute_d_rel, DRelationAddClause/Formula, SelectDefiningAxioms, SelectAxioms, SelectThreshold, SelectDefinitions, StructFOFSpecGetProblem, PStackClausesMove, ProofStateSinE, find_level_fcodes, extract_new_core, RelevanceDataCompute, proofstate_rel_prune, the verdict in main of eprover.c | Sine, SineProofs, SineProps | breadth-first invariant: the queue holds one level before and one behind the marker, everything nearer is selected, the axioms of activated symbols are selected or queued; termination by the queue plus the axioms of symbols not yet activated; levels by induction; the verdict by cases, with the counts of lost axioms |
| C55 | TermCollectGroundTerms, EqnListCollectGroundTerms, gd_def_nf, gd_term_define, gd_term_rek_define, ClauseSetGDTransform | GoalDefs, GoalDefsProofs, GoalDefsProps | invariant of the definitions (ground, sorted, named by a new constant, clause present); the value of the left-hand side interprets the new constant |
| C56 | FormulaSetPreprocConjectures, FormulaSetCNF2, ClauseSetPreprocess, ClauseSetUnfoldEqDefNormalize, ClauseSetCanonize, EqnCanonize, TermStructWeightCompare, TermLexCompare, ProofStateClausalPreproc, their order in main | Pipeline, PipeSyms, PipeProofs, PipeSteps, PipeEnd, PipelineProps | composition: every step keeps well-formedness, the bound on symbols and (if needed) the first-order form; models are extended to and restricted from the growing signature |
| C57 | TFormulaAnnotateQuestion, answer_lit_alloc, ClauseIsSemFalse, ClausePrintAnswer, answer_lit_print, ClauseEvaluateAnswerLits, EqnListRemoveSimpleAnswers, ProcessClause and Saturate with the answer limit | Answers, AnswersProofs, AnswersProps | a model of the problem is extended to the answer symbols: the symbol of a question tells solutions from other tuples, $answer is true of the values of solutions; all clauses stay true, so a derived clause of answers shows a solution |
| C58 | ACTermCompare, ACTermNormalize, ac_collect_args, TermACEqual, DetectCommutativity, DetectAssociativity, ClauseScanAC, ClauseSetScanAC, EqnIsACTrivial, EqnListIsACTrivial, EqnListRemoveACResolved, ClauseIsACRedundant, check_ac_status, the use in ForwardModifyClause, forward_contract_keep and ProofStateInit | AC, ACProofs, ACModel, ACScan, Saturate, ACProps | sound: a flattened, sorted normal form has the value of the term wherever the laws hold; complete: the normal forms are a structure in which the laws hold and a term denotes its normal form; the laws marked are read off clauses that are part of the invariant of C35 |
| C59 | ClausePushDerivation, WFormulaPushDerivation, ClausePushACResDerivation, ClauseArchive, ClauseArchiveCopy, ClauseIsDummyQuote, ClauseDerivFindFirst, WFormulaDerivFindFirst, DerivStackExtractParents, DerivStackExtractOptParents, DerivedInProof, DerivationExtract, DerivationMarkProofSteps, DerivationTopoSort, DerivationRenumber, derivation_find_max_id, DerivationCompute, ClauseInfoGetIdCounter, the references printed by DerivationStackPCLPrint and DerivationStackTSTPPrint | Derivation, DerivationProofs, DerivLoops, DerivMain, DerivHist, DerivationProps | histories: a rank of steps is maintained event by event; each loop has an invariant that relates counts, queue and output to the graph of shown premises; the heap changes during the loops only by replacing quoted premises |
| C60 | TOGeneratePrecedence with all generate_..._precedence functions, FCodeFeatureArraySort, feature_compare_function, FCodeFeatureArrayUpdateOccKey, FCodeFeatureArrayUpdateSymbKey, compute_precedence_from_array, TOGenerateWeights with all generate_..._weights functions, find_max_symbols, set_maximal_0, set_maximal_unary_0, SigFindMaxUsedArity, TOSelectOrdering (constant weight), TOCreateOrdering, OCBMinConst, OCBFindMinConst | OrdGen, OrdGenProofs, OrdGenProps | the sorted array gives an injective rank, hence a total precedence; each weight method is bounded from below per symbol; the weights of unused symbols are replaced to obtain an admissible ordering in the sense of C05/C06, which decides the same comparisons on the terms in use |
| C61 | the steps of C35 (process_clause, cleanup, insert_new, forward_contract, backward contraction), together with the facts each of them can use | Lossless, LosslessStep, LosslessProofs, LosslessEx, LosslessProps | for every step, backwards: a model of the clauses after it and of the facts is a model of the clauses before it; rewrite links are kept valid in every model of the facts that were ever available |
| C62 | the scanner on TPTP text, the printer and the parser of first-order formulas (terms, literals, connectives, quantifiers, sorts of variables), the names in the signature and in the variable bank | Tptp, TptpSpec, TptpLex, TptpFuel, TptpProofs, TptpMain, TptpStable, TptpMean, TptpProps | token by token: what is printed is scanned into the tokens the parser expects, whatever follows; induction over formulas with one statement for each of the printer's three positions (whole, in a chain of disjunctions, behind a quantifier); an invariant of the signature and the variable bank links names to variables; conversely, an invariant of all parsing functions shows that their results can be printed |
| C63 | the division of time and cores, starting, reading from and killing the children, the five answers looked for, the placeholder, the rest of the default schedule, the choice of the class | Sched, SchedSpec, SchedProofs, SchedRun, SchedTimes, SchedProps | the operating system is a list of rounds with arbitrary readings; the claims are about the history of events; an invariant links the set of children to the history (its running children, in order, what they have written, the cores in use); loop invariants for the times, for taking cores back and for the partition by swaps |
| C64 | all literal selection strategies of the table with their searches and weight functions, generic_uniq_selection, DoLiteralSelection, select_inherited_literal | LitSel, LitSelSpec, LitSelProofs, LitSelGood, LitSelBest, LitSelRest, LitSelCondSpec, LitSelCond, LitSelProps | the strategies are written with a few combinators (search and select, condition, marking); a lemma per combinator and per search, and the claim for each entry of the table; the loops give the first best literal by induction; a literal is given by its measures, not by its terms |
| C65 | all of INOUT/cio_commandline.c but CLStateGetFloatArg, with the options loop and the default input file of PROVER/eprover.c | CmdLine, CmdLineSpec, CmdLineProofs, CmdLineRun, CmdLineMain, CmdLineText, CmdLineProps | the argument vector is an array of cells, some uninitialised, and reading outside is undefined behaviour; an invariant ties it to the arguments passed over and those to come; the loop is compared with an inductive grammar in both directions; strtol() is that of the C standard with 64 bit long |
| C66 | PCL2/pcl_protocol.c and pcl_miniprotocol.c as far as epclextract uses them: inserting and finding steps, collecting references, marking, printing the marked steps; PCLIdCompare, PCLStepExtract; not the scanner and the printing of a step | Pcl, PclSpec, PclProofs, PclMain, PclFast, PclBad, PclProps | the splay tree is a list kept in order with the program's comparison, including the conversion to int; the order in which the tree of addresses gives back its elements is any function that lists the same elements; the output is compared with the inductively defined set of needed steps; the number of references of unmarked steps bounds the loop |
| C67 | CLAUSES/ccl_grounding.c, CLAUSES/ccl_groundconstr.c and CLAUSES/ccl_propclauses.c but --give-up, --add-one-instance and --fix-minisat | Ground, GroundSpec, GroundProofs, GroundHerbrand, GroundConstr, GroundOut, GroundProps | the ground set and the set of instances seen so far have the same models (invariant over the loops, whose end by lack of time is a parameter); the positions of the substitution are digits of a number that goes down by one; Herbrand's theorem for constants and the deletion of pure literals are proved over all domains; the file is read back number by number |
| C68 | BASICS/clb_memory.c and clb_memory.h but statistics and strings; malloc(), realloc() and free() as the C standard has them | Memory, MemorySpec, MemoryProofs, MemoryProps | memory is a function from addresses to the pointers stored there; the free lists are in that memory, and storing a pointer destroys what it overlaps; the C library is the list of blocks it has given out and an arbitrary malloc() at each call; the invariant is that this list is the blocks of the program and those of the lists, pairwise disjoint |
| C69 | SizeMallocReal, SizeFreeReal, MemAddNewChunk and SecureMalloc of BASICS/clb_newmem.c | NewMem, NewMemSpec, NewMemProofs, NewMemProps | memory as for C68; the invariant gives each block the room of its list, and says that all blocks are disjoint and inside of what malloc() has given out; the loop over a chunk by induction |

No property is declared inexpressible.

## What is not modelled

Higher-order terms and inferences, the watchlist, PicoSAT itself,
the text of printed proofs (references and names are), parsers and scanner (except quoted strings and numerals), option handling, automatic mode and scheduling,
the concrete weight
and priority functions of clause evaluation (arbitrary functions), literal selection strategies (arbitrary functions), user-given symbol
weights.  Resource limits end a run early and are represented by an arbitrary number of rounds.

## Defects and surprises found

With a theorem (`*_refuted`):

* `kbolincmp` (cto_kbolin.c:854-865) has no case for uncomparable heads of equal weight: the answer is "equal" for distinct terms (C09).
* The LPO depth limit makes comparable deep terms uncomparable (C07).
* `OCBPrecedenceAddTuple` returns 1, not the new stack pointer, and 0 when the relation already holds on an empty stack; undoes only part of a refused addition (C10).
* NumTree keys 2^63 apart are compared the wrong way round (C26).
* The equality factor is not always most general: fresh variables of the copy may be merged (C12).
* `eqn_topsubsumes_termpair` (ccl_subsumption.c:169-195) tries the swapped orientation only when the left side does not match (C16).
* StrongUnitForwardSubsumption uses several units but reports only the last (C15).
* Tautology tests: PStackBinSearch's wrong answers make EqnLongListIsTrivial miss complementary literals; stale orientation in ground_normalize_eqn makes ClauseIsTautology miss tautologies (C17).
* PDTree: a leaf can be returned twice, deletion of an unknown term damages keys, prefer_general has the opposite effect (C21).
* PStackVarAlloc(0) cannot grow; PStackBinSearch (C27).  MinHeapDecrKey/IncrKey move in the wrong direction, no callers (C28).
* DStrFGetS loses text after NUL (C31).  JKISSRandSeed seeds a cell that is never read (C32).
* `TCPMsgRead` terminates the buffer at the requested, not at the received length; empty messages look like a closed connection; a length field below 4 or above 2^31 makes the request wrap around (C30).
* FIFO evaluation with a non-constant priority function is not fair (C33).
* tform_find_miniscopeable overflows with LONG_MAX and bypasses the limit (C34).
* `EPIsSplitLit` is 65636, not 65536, and overlaps three other literal properties (C36).
* term_collect_idx_subterms recurses with lambda_demod = true: the backward rewriting index holds only the sides of literals and their arguments (C39).
* A positive unit subsumes any clause with a literal s=s, which the FV index does not find; FVIndexDelete decrements counts of absent clauses (C23).
* The definition store uses the permutation vector of another feature specification (cco_proofproc.c:1424-1437): reads out of bounds for AC and All (C42).
* 32-bit v_count wraps: a term with 2^32 variable occurrences is flagged as ground (C43).
* ccl_splitting.c:299 uses an index as a truth value: SplitGroundOne misses ground subclauses when the first literal is not ground (C20).
* A quoted name with a second arity gets a new code at every occurrence; the internal name `f_ARITYFIX2 ` can be written in the input; `'1'` and `1` are one symbol; a quoted known name in `$let` makes SigEnterLetScope dereference NULL (C44).
* Rationals are cut off by strtoll, and negating LLONG_MIN overflows; reals are normalised by `%f`, so 0.0000001 and 0.0000002 are one symbol while 0.0 and -0.0 are two (C45).
* scan_string replaces the character after a backslash by a backslash: `'a\'b'` and `'a\\b'` are one token (C46).
* prefer_conj_*_freq (ccl_satinterface.c:221, 243, 273, 295) write `=` for `==`: the constant chosen need not be the preferred one, and the counts are overwritten (C48).
* Blocked clause elimination treats answer literals as atoms without partners: `~q(X)|$answer(X)` is removed and the proof is lost; with --no-preprocessing also `~$true` (C51).
* Predicate elimination with gates accepts a gate after testing one pair of its clauses (`check_tautologies`: the inner loop tests and increments `i` instead of `j`); clauses that are no definition are removed and an unsatisfiable set becomes satisfiable (C52_gates_refuted).
* Predicate elimination, too, treats answer literals as atoms without partners (C52_answer_refuted).
* SInE takes clauses as seeds before formulas and stops at the size limit, so a conjecture can be dropped by its own selection (C54_seed_lost_refuted).  compute_d_rel files axioms under symbols `>= internal`, SelectDefiningAxioms follows symbols `> internal` only (C54_boundary_refuted).  A negative relevance level removes all axioms (C54_negative_level_refuted).
* gd_term_define stores definitions under the normal form and looks them up under the term itself, so with subterms a defined term is defined again, as one new constant by another (C55_once_refuted).  TermCollectGroundTerms in its mode for maximal terms stops at ground atoms without collecting their arguments (C55_ground_atom_refuted).
* EqnCanonize exchanges the sides only if they weigh the same, not, as its comment says, to bring the larger one to the left or $true to the right (C56_canonize_order_refuted; harmless).
* C58_associative_only_refuted: a symbol known to be associative but not commutative is marked, but the mark is not used: f(f(a,b),c) and f(a,f(b,c)) are not recognised as equal.
* C59_duplicate_roots_refuted: a clause that occurs twice among the roots of a derivation is listed twice.
* C59_root_conjecture_refuted: DerivationMarkProofSteps looks for conjectures only among the premises of steps: for `cnf(c,negated_conjecture,$false).` the status is ContradictoryAxioms and not Theorem/Unsatisfiable (eprover.c:873).
* C59_introdef_refuted: DCIntroDef is declared with a numerical argument but pushed without one, so that the next code on the stack is taken as the argument.
* C60_maximal_constant_refuted: the default weight method gives weight 0 to the greatest symbol without a look at its arity ("no checks if symbol is unary"); with a precedence that has a constant on top (e.g. -Ginvarity) a constant is lighter than a variable, f(X,a) is found greater than its instance f(a,a), and rewriting with f(X,a)=f(a,a) does not terminate.
* C60_modarity_new_constant_refuted: the modarity weights give variables weight 4, but symbols introduced later (e.g. by splitting or definitions) weigh 1; the same failure, and $true is found greater than a new propositional symbol.
* C60_unused_symbol_refuted: the occurrence-rank methods give weight 0 to all symbols that do not occur in the axioms (e.g. from the watch list) wherever they are in the precedence.
* C60_user_precedence_refuted: with --precedence the generated chain is added tuple by tuple and refused tuples are skipped silently; the result is not total and the symbol with weight 0 need not be the greatest, so a term need not be greater than its subterms.
* C60_min_constant_refuted: the designated smallest constant is the one with the lowest code; C60_min_constant_matrix: with a user precedence OCBFindMinConst returns the greatest.
* C60_unary_first_freq_refuted, C60_invfreq_constmin_refuted: the comments say that rarer symbols are larger, the code sorts (all symbols, the constants) by ascending frequency.
* C60_semi_infinity_refuted: a symbol with more than two million occurrences is placed below the "minimal" constants.
* C61_clauses_alone_refuted: rewrite links stored at shared terms are followed although their demodulator has been moved or replaced since (ccl_rewrite.c:141-165, with a comment at 830-895). If an unoriented equation has subsumed the demodulator, e.g. f(X)=g(Y) the rule f(X)=g(c), it can be rewritten itself by the link that the rule has left, to g(c)=g(Y) modulo further rules, and nothing says any more what f is. In the model a complete run on an unsatisfiable set ends with no unprocessed clauses and no empty clause, i.e. with "Satisfiable".
* C62_capital_constant_refuted: `p(X())` is read as p applied to a constant X, which is printed as `p(X)` and read back as a variable.
* C62_quotes_refuted: SigInsertId (cte_signature.c:662-745) looks names up without their single quotes, so '5' is the number 5 and a predicate '$true' is truth.
* C62_scope_refuted: VarBankPopEnv (cte_termvars.c:716-742) restores names that were changed but does not forget new ones: in `(![X:$int]:(p(X)))&(![X]:(q(X)))` the second X is of sort $int too.
* C63_equal_share_refuted: GetFilteredDefaultSchedule (cco_scheduling.c:403-407) does not set the time of the last strategy; if one strategy is left it has an eighth of the time.
* C63_default_time_refuted: eprover.c:716-733 and ScheduleTimesInitMultiCore both subtract the CPU time of the process from the time for the default schedule; the difference can be negative and is converted to an unsigned number.
* C63_no_time_no_limit_refuted: a preprocessing strategy with no time left is started without a limit, as EGPCtrlCreate takes 0 for none.
* C63_too_wide_refuted, C63_placeholder_first_refuted: not reached with the predefined schedules.
* C64_pure_var_refuted: PSelectFirstVariableLiteral (che_litselection.c:946) selects the positive literals but not the inequation it has found; inferences are then restricted to positive literals.
* C64_stale_marks_refuted: SelectVGNonCR (che_litselection.c:5654) does not delete CPIsOriented when it selects a ground literal, so that ClauseCondMarkMaximalTerms (cco_forward_contraction.c:164) keeps the marks made before the selection.
* C64_prefer_refuted: the break statements in SelectComplexPreferNEQ and SelectComplexPreferEQ (che_litselection.c:3516-3561, 3665-3710) end the search at the first literal that is not better.
* C65_empty_number_refuted: CLStateGetIntArg (cio_commandline.c:603) accepts an empty argument, as in --cpu-limit=, as 0.
* C65_no_name_refuted: CLStateAlloc (cio_commandline.c:423) sets argc to -1 if a program is started with an empty argument vector, so that the programs do not add "-" and read nothing.
* C66_dangling_crashes, C66_dangling_refuted: PCLExprCollectPreconds (pcl_protocol.c:464) stores the NULL that PCLProtFindStep returns for an unknown identifier; PCLProtMarkProofClauses (pcl_protocol.c:552) dereferences it. The fast version reports an error.
* C66_big_id_refuted: PCLIdCompare (pcl_idents.c:158-181) converts a difference of long to int, so that identifiers 2^32 apart are equal.
* C66_status_refuted: PCLProtMarkProofClauses (pcl_protocol.c:533-544) looks for the empty clause in the whole protocol, so that epclextract calls an output without it CNFRefutation.
* C67_file_refuted: ClausePrintDimacs (ccl_grounding.c:587, 591) prints literals to stdout instead of the output file, so that eground -d -o writes files with empty clauses.
* C69_too_small_refuted: SizeMallocReal of the alternative memory manager (clb_newmem.c:211, USE_NEWMEM, off by default) allocates blocks of 256 bytes and more with their exact size, but keeps free blocks in lists for 16 sizes each, so that a freed block of 264 bytes is handed out for 272.

Without a theorem:
* ExecuteScheduleMultiCore (cco_scheduling.c:305-306) reads the exit status from the record of a child that EGPCtrlSetFree has freed already; the memory management leaves that field as it is until the memory is used again, so the model uses the status.
* answer_lit_print (cco_interpreted.c:60-88) does not look at the sign of the literal: a negative answer literal (possible only if the input contains $answer) would be printed like an answer. With several questions the printed tuple does not say which question it answers.
* scan_C_comment does not stop at the end of the input: an unterminated `/*` loops and allocates without end.
* The printed name of a second arity of a quoted name loses its quotes.  SigFree reads f_info[0].pname, which is never set.

* `try_condensation` (ccl_condensation.c:56-91) passes `false` instead of `swap`.
* `IntMapGetRef` calls the array/tree decision with swapped arguments; entry_no counts too much; lookups during an iteration over the tree splay it.
* PTreeDestrIntersection stops at a NULL key.  PDTree: the root's reference count is never decremented; strong-rw-inst leaves bindings during the search.
* TPIsRRewritten is never cleared (harmless).  ccl_unit_simplify.c:272 sets CPInitial instead of CPIsSOS.
* tformula_rename_test tests the position with `pos==2`, but positions are 0 and 1, so both sides of an implication are estimated with the negative sign (only the choice of definitions, C53: `estimate`).
* pred_elim changes heap keys without an update, and cmp_tasks prefers tasks that cannot be scheduled; eqn_found is used uninitialised if there is no equation (harmless for satisfiability, C52: `junk`); react_clause_removed merges gate sets without updating their cardinalities.
* HCBClauseSetDelProp compares with the wrong array element (che_hcb.c:972-1020).
* The predicate introduced for split variables never gets its type declared.  A reused split definition must still follow from the other clauses.
* TermCellStoreDelete reads term->arity after the cell was freed during the sweep; tb_termtop_insert sets the bank after TermTopFree (LFHO only).
* cte_termbanks.c:210 `TypeIsBool(t->args[i])` and TFormulaIsComplexBool pass a term as a type.  SigSymbolUnifiesWithVar is true for everything but DB_LAMBDA.
* SigGetEqnCode sets FPFOFOp on eqn_code when creating neqn_code (cte_signature.h:445).  tformula_rename_test's `pos==2` is never true.  tform_copy_mod never descends into quantifiers.  TFormulaCollectClause silently drops non-literal leaves (unreachable after NNF).
* use_perm_vectors is ignored.  DStrAddress of an empty string is NULL.
* axiomdist_array is never initialised in FCodeFeatureArrayAlloc (che_fcode_featurearrays.c); OCBTermMaxFunCode starts its loop at the second argument; with freqranksq and forced variable weights var_weight becomes 0 because of unused constants such as $false.
