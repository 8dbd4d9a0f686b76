(** * Model of axiom selection: SInE and relevancy pruning
    (CLAUSES/ccl_sine.c, ccl_f_generality.c, ccl_relevance.c, CONTROL/cco_sine.c, cco_batch_spec.c, PROVER/eprover.c).
    Executable definitions only.

    Clauses and formulas are items; the symbols that occur in them (after TermTrimImplications for a conjecture, if asked for) are functions of
    the item.  Addresses decide about the order in some places; the sets do not depend on it. *)
From Coq Require Export List ZArith Lia Bool.
Export ListNotations.

Inductive item := Cl (i : nat) | Fo (i : nat).
Definition item_eq_dec (a b : item) : {a = b} + {a <> b}.
Proof. decide equality; apply Nat.eq_dec. Defined.
Definition mem (i : item) (l : list item) : bool := if in_dec item_eq_dec i l then true else false.
Definition has (s : nat) (l : list nat) : bool := existsb (Nat.eqb s) l.
Definition is_clause (i : item) : bool := match i with Cl _ => true | Fo _ => false end.

(** ** The symbols by which an axiom is selected *)

(** compute_d_rel, ccl_f_generality.c:180-252.  [gen] is the generality of a symbol, [ben] the product with the benevolence (a double), [sort] is
    PStackSort by generality.  [symbols] is the stack of the symbols of the axiom. *)
Section DRel.
  Variables (internal : nat) (gen : nat -> Z) (ben : Z -> Z) (generosity : nat) (sort : list nat -> list nat).
  Fixpoint take_while (P : nat -> bool) (l : list nat) : list nat :=
    match l with [] => [] | x :: l' => if P x then x :: take_while P l' else [] end.
  Definition d_symbols (symbols : list nat) : list nat :=
    match sort (filter (fun i => internal <=? i) symbols) with
    | [] => []
    | (s :: _) as l =>
        let aux := gen (nth (if length l <=? generosity then length l - 1 else generosity) l 0) in
        let limit := ben (gen s) in
        take_while (fun f => (gen f <=? (if (aux <? limit)%Z then aux else limit))%Z) l
    end.
End DRel.

(** ** Selection *)
Section Select.
  (** [symbols i]: the symbols of the item, in the order of TermAddSymbolDistExist, cte_termfunc.c:2499-2531;
      [dsyms i]: the result of ClauseComputeDRel / FormulaComputeDRel (with the defined symbol, ccl_sine.c:246-253) *)
  Variables (internal : nat) (symbols dsyms : item -> list nat).

  (** DRelationAddClause, DRelationAddFormula, ccl_sine.c:180-270: an axiom without such a symbol is filed under 0 *)
  Definition keys (i : item) : list nat := match dsyms i with [] => [0] | l => l end.
  (** DRelationAddClauseSets, DRelationAddFormulaSets: the entry of a symbol, clauses first *)
  Definition filed (axioms : list item) (s : nat) : list item := flat_map (fun i => repeat i (count_occ Nat.eq_dec (keys i) s)) axioms.
  Definition drel (axioms : list item) (s : nat) : list item := filter is_clause (filed axioms s) ++ filter (fun i => negb (is_clause i)) (filed axioms s).

  Variable axioms : list item.

  (** the state of SelectDefiningAxioms: the queue ([None] is ATNoType), the selected items in order (those with CPIsRelevant), the activated
      symbols and the recursion level *)
  Record sstate := mkss { queue : list (option item); sel : list item; act : list nat; level : Z }.

  (** the loop over the symbols, ccl_sine.c:627-652 *)
  Fixpoint activate (ss : list nat) (a : list nat) : list nat * list item :=
    match ss with
    | [] => (a, [])
    | s :: ss' => if (internal <? s) && negb (has s a)
                  then let '(a', new) := activate ss' (s :: a) in (a', drel axioms s ++ new)
                  else activate ss' a
    end.

  (** SelectDefiningAxioms, ccl_sine.c:539-661.  [None] = fuel exhausted. *)
  Fixpoint select_loop (fuel : nat) (max_depth max_size : Z) (st : sstate) : option sstate :=
    match fuel with
    | 0 => None
    | S fuel' =>
        match queue st with
        | [] => Some st
        | q :: qs =>
            if ((max_size <? Z.of_nat (length (sel st))) || (max_depth <? level st))%Z then Some st
            else match q with
                 | None => select_loop fuel' max_depth max_size
                             (mkss (match qs with [] => [] | _ => qs ++ [None] end) (sel st) (act st) (level st + 1)%Z)
                 | Some i => if mem i (sel st) then select_loop fuel' max_depth max_size (mkss qs (sel st) (act st) (level st))
                             else let '(a, new) := activate (symbols i) (act st) in
                                  select_loop fuel' max_depth max_size (mkss (qs ++ map Some new) (sel st ++ [i]) a (level st))
                 end
        end
    end.
  Definition select_defining (fuel : nat) (max_depth max_size : Z) (seeds : list item) : option (list item) :=
    option_map sel (select_loop fuel max_depth max_size (mkss (map Some seeds ++ [None]) [] [] 0%Z)).

  (** SelectAxioms, ccl_sine.c:681-780, for one pair of sets (StructFOFSpecAddProblem, cco_batch_spec.c:593-606): clauses are searched for seeds
      first.  [max_size] is max_result_size (734-741). *)
  Definition seeds_of (seed : item -> bool) : list item := filter seed (filter is_clause axioms ++ filter (fun i => negb (is_clause i)) axioms).
  Definition select_axioms (fuel : nat) (seed : item -> bool) (add_no_symbol : bool) (max_depth max_size : Z) : option (list item) :=
    match seeds_of seed with
    | [] => Some []
    | seeds => option_map (fun l => (if add_no_symbol then drel axioms 0 else []) ++ l) (select_defining fuel max_depth max_size seeds)
    end.
End Select.

(** AxFilter types with their parameters *)
Inductive ax_filter :=
| GSinE (internal : nat) (symbols dsyms : item -> list nat) (seed : item -> bool) (add_no_symbol : bool) (max_depth max_size : Z)
| Threshold (limit : Z)
| LambdaDefines (wanted : item -> bool).
(** StructFOFSpecGetProblem, cco_batch_spec.c:664-702; SelectThreshold, ccl_sine.c:797-838; SelectDefinitions, 853-881 ([wanted]: lambda
    definition, conjecture or hypothesis) *)
Definition get_problem (fuel : nat) (f : ax_filter) (axioms : list item) : option (list item) :=
  match f with
  | GSinE internal symbols dsyms seed nosym depth size => select_axioms internal symbols dsyms axioms fuel seed nosym depth size
  | Threshold t => Some (if (Z.of_nat (length axioms) <=? t)%Z then axioms else [])
  | LambdaDefines wanted => Some (filter (fun i => negb (is_clause i) && wanted i) axioms)
  end.

(** ClauseSetMoveClause, ccl_clausesets.h:88-89; PStackClausesMove, PStackFormulasMove, ccl_sine.c:1090-1125: an item is taken out of its
    set, even if this is the new one, and appended *)
Definition move (set : list item) (i : item) : list item := remove item_eq_dec i set ++ [i].
Definition moved (l : list item) : list item := fold_left move l [].
(** ProofStateSinE, cco_sine.c:601-676: the new axioms and the number of axioms lost ([None] for no filter) *)
Definition sine (fuel : nat) (f : option ax_filter) (axioms : list item) : option (list item * Z) :=
  match f with
  | None => Some (axioms, 0%Z)
  | Some f => match get_problem fuel f axioms with
              | None => None
              | Some l => let new := moved l in Some (new, (Z.of_nat (length axioms) - Z.of_nat (length new))%Z)
              end
  end.

(** ** Relevancy pruning *)
Section Relevance.
  (** [codes i]: ClauseReturnFCodes / WFormulaReturnFCodes without special symbols; [goal]: conjecture or negated conjecture *)
  Variables (codes : item -> list nat) (goal : item -> bool).
  (** find_level_fcodes, ccl_relevance.c:57-105: the codes of the core that have no level yet *)
  Definition new_codes (core : list item) (seen : list nat) : list nat := filter (fun f => negb (has f seen)) (flat_map codes core).
  Definition touches (fs : list nat) (i : item) : bool := existsb (fun f => has f (codes i)) fs.
  (** RelevanceDataCompute, ccl_relevance.c:445-475, with extract_new_core, 121-146: the levels and the rest.  The order inside a level
      depends on addresses in the code. *)
  Fixpoint levels (fuel : nat) (core rest : list item) (seen : list nat) : option (list (list item) * list item) :=
    match core with
    | [] => Some ([], rest)
    | _ => match fuel with
           | 0 => None
           | S fuel' => let fs := new_codes core seen in
                        match levels fuel' (filter (touches fs) rest) (filter (fun i => negb (touches fs i)) rest) (fs ++ seen) with
                        | None => None
                        | Some (ls, r) => Some (core :: ls, r)
                        end
           end
    end.
  (** proofstate_rel_prune, ccl_relevance.c:218-254: the loop over the levels *)
  Definition keep_levels (level : nat) (ls : list (list item)) (rest : list item) : list item :=
    concat (firstn level ls) ++ (if length ls <? level then rest else []).
  (** RelevanceDataInit, 413-430, and ProofStateRelevancyProcess, 492-512 *)
  Definition relevancy (level : Z) (axioms : list item) : option (list item * Z) :=
    if (level =? 0)%Z then Some (axioms, 0%Z)
    else match levels (S (length axioms)) (filter goal axioms) (filter (fun i => negb (goal i)) axioms) [] with
         | None => None
         | Some (ls, rest) => let new := keep_levels (Z.to_nat level) ls rest in
                              Some (new, (Z.of_nat (length axioms) - Z.of_nat (length new))%Z)
         end.
End Relevance.

(** ** The verdict *)

(** What the search found.  [deleted_bad]: clauses deleted for lack of memory (cleanup_unprocessed_clauses, cco_proofproc.c:917-934). *)
Record search := mksearch { success : bool; answers : bool; out_of_clauses : bool; deleted_bad : bool; watchlist_done : bool; proof_uses_conjecture : bool }.
(** Options and facts about the problem.  [inf_complete]: eprover.c:812-819 and 1577-1581; [incomplete_opt]: option --assume-incompleteness. *)
Record setting := mkset { incomplete_opt : bool; inf_complete : bool; assume_complete : bool; interpreted : bool; higher_order : bool; cnf_only : bool; negated_conjecture : bool }.
Inductive status := Theorem_ | ContradictoryAxioms | Unsatisfiable | Satisfiable | CounterSatisfiable | ResourceOut | GaveUp | Unknown.
(** eprover.c:843-985; [pruned] is relevancy_pruned (630-652), status_reported is not set before *)
Definition verdict (s : setting) (pruned : Z) (r : search) : status :=
  let complete := negb (negb (pruned =? 0)%Z || incomplete_opt s) && negb (deleted_bad r) in
  if success r || answers r then
    if negated_conjecture s then (if proof_uses_conjecture r then Theorem_ else ContradictoryAxioms) else Unsatisfiable
  else if watchlist_done r then ResourceOut
  else if cnf_only s then Unknown
  else if out_of_clauses r then
    if negb (inf_complete s || assume_complete s) then GaveUp
    else if complete && inf_complete s && interpreted s then GaveUp
    else if negb (higher_order s) && complete && inf_complete s then (if negated_conjecture s then CounterSatisfiable else Satisfiable)
    else GaveUp
  else ResourceOut.

(** eprover.c:630-632 and the end of main *)
Definition run (fuel : nat) (f : option ax_filter) (codes : item -> list nat) (goal : item -> bool) (rlevel : Z) (s : setting)
  (search_on : list item -> search) (axioms : list item) : option (status * list item) :=
  match sine fuel f axioms with
  | None => None
  | Some (a1, n1) => match relevancy codes goal rlevel a1 with
                     | None => None
                     | Some (a2, n2) => Some (verdict s (n1 + n2)%Z (search_on a2), a2)
                     end
  end.

(** ** Specification vocabulary *)

(** An item is triggered in [k] steps from the seeds: every step goes from an item with a non-internal symbol to an item filed under it. *)
Inductive triggered (internal : nat) (symbols dsyms : item -> list nat) (axioms seeds : list item) : nat -> item -> Prop :=
| trig_seed i : In i seeds -> triggered internal symbols dsyms axioms seeds 0 i
| trig_step k i s j : triggered internal symbols dsyms axioms seeds k i -> In s (symbols i) -> internal < s ->
    In j axioms -> In s (dsyms j) -> triggered internal symbols dsyms axioms seeds (S k) j.

(** An item shares symbols with the goals over [k] steps. *)
Inductive linked (codes : item -> list nat) (goal : item -> bool) (axioms : list item) : nat -> item -> Prop :=
| link_goal i : In i axioms -> goal i = true -> linked codes goal axioms 0 i
| link_step k i f j : linked codes goal axioms k i -> In f (codes i) -> In j axioms -> In f (codes j) -> linked codes goal axioms (S k) j.
