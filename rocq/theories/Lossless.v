(** * What saturation keeps: specification for C61.

    The states and steps are those of Saturate.v (CONTROL/cco_proofproc.c, cco_forward_contraction.c, cco_simplification.c).  Here a run
    also remembers which facts have been used to replace clauses by others: the processed unit clauses (rewriting, unit subsumption and simplify-reflect), the axioms found
    to make a symbol AC (cco_proofproc.c:80-110, ccl_clausefunc.c:345-374) and the definitions of split predicates
    (ccl_def_handling.c:167-330). *)
From Verif Require Import Terms Unify Semantics Clauses Infer Subsume Taut Rewrite RewriteHist Split AC Saturate.
Local Open Scope nat_scope.

(** The facts a state can use to replace clauses: processed unit clauses (state->processed_pos_rules, processed_pos_eqns,
    processed_neg_units, ccl_proofstate.h:54-56), AC axioms (sig->ac_axioms),
    stored definitions (def_store, ccl_def_handling.h:33-60). *)
Definition definition_clause (E : env) (q : clause * sym) : clause := def_lit E (snd q) true [] :: fst q.
Definition facts (E : env) (s : state) : list clause :=
  map lits (rules s ++ eqns s ++ negs s) ++ ac_axioms (acs s) ++ map (definition_clause E) (defs s).

(** Clauses dropped as orphans (ClauseIsOrphaned, during selection and cleanup) have to follow from what stays. *)
Definition orphans_follow (E : env) (P : policy) (D : list clause) (s : state) : Prop :=
  forall c, In c (unproc s) -> orphan P s c = true ->
    follows E (D ++ map lits (rules s ++ eqns s ++ negs s ++ nons s ++ tmp s ++ filter (fun c => negb (orphan P s c)) (unproc s))) (lits c).
(** No clause is dropped for lack of memory (HCBClauseSetDeleteBadClauses), and sorting tmp_store loses none. *)
Record keeping (P : policy) : Prop := {
  k_bad : forall s c, bad P s c = false;
  k_tmp : forall s i, i < length (tmp s) -> In i (tmp_order P s) }.

(** A run together with all facts that were available after each of its steps. *)
Inductive run_with (E : env) (K : conf) (n0 : sym) (N : list clause) : list clause -> state -> Prop :=
| rw_init : run_with E K n0 N (facts E (init K n0 N)) (init K n0 N)
| rw_process P n D s s' : run_with E K n0 N D s -> keeping P -> orphans_follow E P D s -> process_clause E K P n s = Some (s', None) ->
    run_with E K n0 N (D ++ facts E s') s'
| rw_cleanup P n D s s' : run_with E K n0 N D s -> keeping P -> orphans_follow E P D s -> cleanup E K P n s = Some (s', None) ->
    run_with E K n0 N (D ++ facts E s') s'
| rw_filter P n desc D s s' : run_with E K n0 N D s -> filter_unproc E K P n desc s = Some (s', None) ->
    run_with E K n0 N (D ++ facts E s') s'
| rw_tick D s : run_with E K n0 N D s -> run_with E K n0 N D (tick s).
(** Term_p->entry_no: different terms have different numbers (cte_termcellstores.c, C01). *)
Definition numbered (K : conf) : Prop := forall t u, eno K t = eno K u -> t = u.
