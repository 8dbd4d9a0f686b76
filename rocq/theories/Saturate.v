(** * Model of the given-clause loop: CONTROL/cco_proofproc.c, cco_forward_contraction.c, cco_simplification.c, cco_eqnresolving.c,
      cco_factoring.c, cco_diseq_decomp.c, cco_clausesplitting.c, put together from the models of the single inferences.

    Everything that is decided by heuristics or by an index is taken from a policy (a record of arbitrary functions of the state):
    which clause is selected, which literals are selected, the order in which trees deliver units and demodulators, which overlaps
    are tried, which clauses backward rewriting finds, which clauses are dropped as orphans or as bad.

    BooleanSimplification has no effect on first-order clauses and has no counterpart.  ClauseOrientLiterals is called again after every
    Condense here, in the code only if the clause was changed: on literals that are up to date it does nothing.

    Not modelled: higher-order inferences, the watchlist, answer literals, SATCheck,
    the limits that end Saturate early (the number of rounds is arbitrary), proof recording. *)
From Verif Require Import Terms Unify Semantics Clauses LitOrder MatchProofs Infer Subsume Taut Rewrite RewriteHist Split AC.
Local Open Scope nat_scope.

(** Clause_p: literals, date, CPLimitedRW, CPIsIRVictim, CPIsProcessed (ccl_clauses.h:33-90) *)
Record cl := mkcl { lits : clause; cdate : Z; limited : bool; irv : bool; isproc : bool }.
Definition new_cl (c : clause) : cl := mkcl c 0 false false false.
Definition with_lits (c : cl) (l : clause) (lim : bool) : cl := mkcl l (cdate c) lim (irv c) (isproc c).

(** ProofState_p (ccl_proofstate.h:42-140): processed_pos_rules, processed_pos_eqns, processed_neg_units, processed_non_units, the
    dates of the first two, the rewrite links and dates of the shared terms, unprocessed, tmp_store, the definition store, the next
    free code of the signature, a counter of steps, and what is known about AC symbols (kept in the signature). *)
Record state := mkst {
  rules : list cl; eqns : list cl; negs : list cl; nons : list cl; rdate : Z; edate : Z; links : store;
  unproc : list cl; tmp : list cl; defs : defstore; nextc : sym; time : nat; acs : acsig }.
Definition set_links (s : state) (W : store) : state :=
  mkst (rules s) (eqns s) (negs s) (nons s) (rdate s) (edate s) W (unproc s) (tmp s) (defs s) (nextc s) (time s) (acs s).
Definition set_unproc (s : state) (u : list cl) : state :=
  mkst (rules s) (eqns s) (negs s) (nons s) (rdate s) (edate s) (links s) u (tmp s) (defs s) (nextc s) (time s) (acs s).
Definition set_tmp (s : state) (t : list cl) : state :=
  mkst (rules s) (eqns s) (negs s) (nons s) (rdate s) (edate s) (links s) (unproc s) t (defs s) (nextc s) (time s) (acs s).
Definition set_proc (s : state) (r e g n : list cl) : state :=
  mkst r e g n (rdate s) (edate s) (links s) (unproc s) (tmp s) (defs s) (nextc s) (time s) (acs s).
Definition set_dates (s : state) (a b : Z) : state :=
  mkst (rules s) (eqns s) (negs s) (nons s) a b (links s) (unproc s) (tmp s) (defs s) (nextc s) (time s) (acs s).
Definition set_defs (s : state) (d : defstore) (n : sym) : state :=
  mkst (rules s) (eqns s) (negs s) (nons s) (rdate s) (edate s) (links s) (unproc s) (tmp s) d n (time s) (acs s).
Definition tick (s : state) : state :=
  mkst (rules s) (eqns s) (negs s) (nons s) (rdate s) (edate s) (links s) (unproc s) (tmp s) (defs s) (nextc s) (S (time s)) (acs s).
Definition set_ac (s : state) (A : acsig) : state :=
  mkst (rules s) (eqns s) (negs s) (nons s) (rdate s) (edate s) (links s) (unproc s) (tmp s) (defs s) (nextc s) (time s) A.

(** RewriteLevel, ccl_rewrite.h *)
Inductive rwlevel := NoRewrite | RuleRewrite | FullRewrite.

(** An overlap to be tried: with the clause at position [pcl] of processed set number [pset_no]; [from_new]: the new clause is the
    one paramodulated from; [indexed]: ClauseParamodConstruct (with index) or ClauseOrderedParamod (without). *)
Record overlap := { pset_no : nat; pcl : nat; from_new : bool; indexed : bool; ofi : nat; ofs : bool; oii : nat; ois : bool; opos : list nat }.

(** HeuristicParms (che_heuristics.h), term ordering, and the remaining fixed parameters of a run *)
Record conf := {
  ordr : lord; gtb : term -> term -> bool; strong_inst : bool; minterm : sort -> term;
  eno : term -> Z; max_neg : nat;                      (* Term_p->entry_no; TAUTOLOGY limit: see Taut.v *)
  altv : var -> var;                                   (* VarBankGetAltVar, cte_termvars.h:204-213 *)
  lookup : defstore -> clause -> option (clause * sym);
  given_simpl : bool; fwd_csr : bool; fwd_csr_aggr : bool; bwd_csr : bool; condensing : bool; condensing_aggr : bool;
  local_rewriting : bool; strong_subsumption : bool; forward_demod : rwlevel; subsumption_aggr : bool;
  er_varlit : bool; er_strong : bool; er_aggr : bool; er_max_only : bool;
  split_horn : bool; split_nonhorn : bool; split_negative : bool; split_positive : bool; split_mixed : bool;
  split_how : split_type; split_fresh : bool; split_aggr : bool;
  eq_factoring : bool; diseq_lits : nat; diseq_arity : nat; neg_unit_pm : bool; pm_type : pmtype; generate : bool;
  ac_handling : ac_mode }.

(** What the heuristics and the indices decide, as arbitrary functions of the state. *)
Record policy := {
  orphan : state -> cl -> bool;                        (* ClauseIsOrphaned during selection and cleanup *)
  bad : state -> cl -> bool;                           (* HCBClauseSetDeleteBadClauses *)
  contract_all : state -> bool;                        (* forward_contract_limit reached *)
  choose : state -> option nat;                        (* hcb_select *)
  choose_lits : state -> clause -> nat -> bool;        (* selection_strategy *)
  dem_order : state -> nat -> term -> Z -> list nat;   (* order of PDTreeFindNextDemodulator *)
  unit_order : state -> clause -> list nat;
  overlaps : state -> clause -> list overlap;
  factor_pairs : state -> clause -> list (nat * bool * nat * bool);
  counts : state -> counters;                          (* variable counters left over, see equality_factor in Infer.v *)
  bw_terms : state -> list nat;                        (* indexed terms tried by backward rewriting *)
  bw_found : state -> cl -> bool;                      (* clauses found by backward rewriting *)
  tmp_order : state -> list nat;                       (* detsort_tmpset *)
  has_split_lit : state -> clause -> bool }.           (* ClauseHasSplitLiteral *)

(** Elements at the given positions; positions that do not exist are skipped. *)
Definition pick {A} (ix : list nat) (l : list A) : list A := flat_map (fun i => match nth_error l i with Some a => [a] | None => [] end) ix.

Section Loop.
Variables (E : env) (K : conf) (P : policy) (n : nat).
Definition nob : binding := fun _ => None.

Definition units_of (l : list cl) : list upos :=
  flat_map (fun c => match lits c with
                     | [e] => {| ulit := e; uleft := true |} :: if ori e then [] else [{| ulit := e; uleft := false |}]
                     | _ => []
                     end) l.
Definition dems_at (l : list cl) : list dem :=
  flat_map (fun c => match lits c with [e] => dems_of e (cdate c) | _ => [] end) l.
Definition dem_enum (s : state) (i : nat) (t : term) (z : Z) : list dem :=
  pick (dem_order P s i t z) (dems_at (match i with 0 => rules s | _ => eqns s end)).
Definition pos_units (s : state) (c : clause) : list upos := pick (unit_order P s c) (units_of (eqns s)).
Definition neg_units (s : state) (c : clause) : list upos := pick (unit_order P s c) (units_of (negs s)).

(** ClauseComputeLINormalform(ocb, bank, clause, state->demods, level, ...), ccl_rewrite.c:1255-1317 *)
Definition li_nf (lv : rwlevel) (s : state) (c : cl) : option (state * cl) :=
  match lv with
  | NoRewrite => Some (s, c)
  | _ => match clause_nf E (gtb K) (strong_inst K) (minterm K) (dem_enum s) (set_date (rdate s) (edate s))
                 (match lv with FullRewrite => true | _ => false end) n (links s) (lits c) (limited c) with
         | Some (W, l, lim) => Some (set_links s W, with_lits c l lim)
         | None => None
         end
  end.

(** ClauseRemoveSuperfluousLiterals, ccl_clausefunc.c:233-270 *)
Definition superfluous (c : cl) : cl :=
  let l := remove_dups (remove_resolved E (lits c)) in
  with_lits c l (limited c && Nat.eqb (length l) (length (lits c))).

(** ClauseRemoveACResolved, ccl_clausefunc.c:345-374, if AC handling is active *)
Definition ac_resolve (A : acsig) (c : cl) : cl :=
  if ac_active A then
    let l := remove_ac_resolved A (lits c) in
    with_lits c l (limited c && Nat.eqb (length l) (length (lits c)))
  else c.

(** EqnListOrient, ccl_eqnlist.c:1287-1302 *)
Definition orient (c : clause) : clause := map (eqn_orient (ordr K) nob) c.

(** *** ClauseLocalRW, ccl_rewrite.c:1462-1513 *)
(** a literal that gives a rule: 1469 and 1473 *)
Definition local_rule (e : eqn) : option (term * term) :=
  if negb (pos e) && ori e then Some (lt e, rt e)
  else if negb (equlit e) && pos e then Some (lt e, tfalse)
  else None.
(** the map rw_sys; the last rule stored for a key counts (PObjMapStore, clb_objmaps.c:256-264) *)
Definition local_rules (c : clause) : list (term * term) :=
  fold_left (fun m e => match local_rule e with Some r => r :: m | None => m end) c [].
(** replace_term, ccl_rewrite.c:508-539 *)
Fixpoint replace_term (fuel : nat) (rw : list (term * term)) (t : term) : option term :=
  match fuel with
  | O => None
  | S m =>
      match find (fun r => term_eqb (fst r) t && negb (term_eqb (snd r) t)) rw with
      | Some r => replace_term m rw (snd r)
      | None => match t with
                | Var _ => Some t
                | Fun f a => match mapo (replace_term m rw) a with Some a' => Some (Fun f a') | None => None end
                end
      end
  end.
(** EqnMap, ccl_eqn.c:3423-3468 *)
Definition eqn_map (f : term -> option term) (e : eqn) : option eqn :=
  match f (lt e), f (rt e) with
  | Some l, Some r =>
      let h := eqn_alloc E l r (pos e) in
      let same := term_eqb (lt h) (lt e) in
      Some (mkeqn (lt h) (rt h) (pos h) (ori e && same) (uptodate e && same) (maxi e) (smaxi e) (sel e) (pseudo e))
  | _, _ => None
  end.
Definition same_sides (e e' : eqn) : bool := term_eqb (lt e) (lt e') && term_eqb (rt e) (rt e').
Definition local_rw (c : cl) : option cl :=
  let l := orient (lits c) in
  let rw := local_rules l in
  match mapo (fun e => match local_rule e with Some _ => Some e | None => eqn_map (replace_term n rw) e end) l with
  | None => None
  | Some l' => let c' := with_lits c l' (limited c) in
               if forallb (fun '(e, e') => same_sides e e') (combine l l') then Some c' else Some (superfluous c')
  end.

(** *** ForwardModifyClause, cco_forward_contraction.c:239-338; the boolean: the clause became trivial *)
Fixpoint forward_modify (fuel : nat) (cond : bool) (lv : rwlevel) (s : state) (c : cl) : option (state * cl * bool) :=
  match fuel with
  | O => None
  | S m =>
      match li_nf lv s c with
      | None => None
      | Some (s1, c1) =>
          let lim := limited c1 in
          let c2 := ac_resolve (acs s1) (superfluous c1) in
          match (if local_rewriting K then local_rw c2 else Some c2) with
          | None => None
          | Some c3 =>
              let l4 := orient (lits c3) in
              match (if cond then match condense E n l4 with Condensed d => Some (orient d) | _ => None end else Some l4) with
              | None => None
              | Some l5 =>
                  match clause_is_trivial (eno K) E l5 with
                  | None => None
                  | Some true => Some (s1, with_lits c3 l5 (limited c3), true)
                  | Some false =>
                      match (if Nat.eqb (neg_no l5) 0 then Some (l5, []) else
                             pos_simplify_reflect E n (strong_subsumption K) (pos_units s1 l5) l5) with
                      | None => None
                      | Some (l6, used1) =>
                          match (if Nat.eqb (pos_no l6) 0 then Some (l6, []) else neg_simplify_reflect E n (neg_units s1 l6) l6) with
                          | None => None
                          | Some (l7, used2) =>
                              let lim' := limited c3 && match used1, used2 with [], [] => true | _, _ => false end in
                              let c7 := with_lits c3 l7 lim' in
                              if Bool.eqb lim' lim then Some (s1, c7, false) else forward_modify m cond lv s1 c7
                          end
                      end
                  end
              end
          end
      end
  end.

(** ForwardSubsumption, cco_forward_contraction.c:187-232; the literals as they are left, and whether the clause is subsumed *)
Definition forward_subsumption (non_unit : bool) (s : state) (l : clause) : option (clause * bool) :=
  match (if Nat.eqb (pos_no l) 0 then NotFound else unit_set_subsumes E n (strong_subsumption K) (pos_units s l) l) with
  | Found _ => Some (l, true)
  | NotFound =>
      match (if Nat.eqb (neg_no l) 0 then NotFound else unit_set_subsumes E n (strong_subsumption K) (neg_units s l) l) with
      | Found _ => Some (l, true)
      | NotFound =>
          if Nat.ltb 1 (length l) && non_unit then
            let l' := sort_lits l in
            match set_subsumes E n (map lits (nons s)) l' with
            | Found _ => Some (l', true)
            | NotFound => Some (l', false)
            | _ => None
            end
          else Some (l, false)
      | _ => None
      end
  | _ => None
  end.

(** DoLiteralSelection, che_proofcontrol.c:263-308: only EPIsSelected changes *)
Definition select_lits (s : state) (l : clause) : clause :=
  map (fun '(i, e) => mkeqn (lt e) (rt e) (pos e) (ori e) (uptodate e) (maxi e) (smaxi e) (choose_lits P s l i) (pseudo e))
      (combine (seq 0 (length l)) l).
(** EqnListDelProp(EPIsSelected) *)
Definition unselect (l : clause) : clause :=
  map (fun e => mkeqn (lt e) (rt e) (pos e) (ori e) (uptodate e) (maxi e) (smaxi e) false (pseudo e)) l.
(** ClauseMarkMaximalTerms, ccl_clauses.c:1846-1852 *)
Definition mark_maximal (l : clause) : option clause := maximal_literals (ordr K) nob (orient l).

(** forward_contract_keep, cco_forward_contraction.c:62-165 (= ForwardContractClause, 352-378): [None] inside = NULL, the clause is
    redundant. *)
Definition forward_contract (non_unit csr cond : bool) (lv : rwlevel) (s : state) (c : cl) : option (state * option cl) :=
  let finish (s : state) (c : cl) :=
    match mark_maximal (select_lits s (lits c)) with
    | Some l => Some (s, Some (with_lits c l (limited c)))
    | None => None
    end in
  if given_simpl K then
    match forward_modify n cond lv s c with
    | None => None
    | Some (s1, _, true) => Some (s1, None)
    | Some (s1, c1, false) =>
        match lits c1 with
        | [] => Some (s1, Some c1)
        | _ =>
            if ac_discard (ac_handling K) (acs s1) (lits c1) then Some (s1, None) else
            match clause_is_tautology (eno K) (max_neg K) E n (lits c1) with
            | TAns true => Some (s1, None)
            | TAns false =>
                match forward_subsumption non_unit s1 (lits c1) with
                | None => None
                | Some (_, true) => Some (s1, None)
                | Some (l2, false) =>
                    if csr && Nat.ltb 1 (length l2) then
                      match contextual_sr E n (map lits (nons s1)) l2 with
                      | None => None
                      | Some (l3, used) =>
                          finish s1 (with_lits c1 (sort_lits l3) (limited c1 && match used with [] => true | _ => false end))
                      end
                    else finish s1 (with_lits c1 l2 (limited c1))
                end
            | _ => None
            end
        end
    end
  else match lits c with [] => Some (s, Some c) | _ => finish s c end.

(** *** Replacing inferences *)
(** ClauseERNormalizeVar, cco_eqnresolving.c:119-179: the first literal that can be resolved ([None]: a computation did not return) *)
Definition var_lit (e : eqn) : bool :=
  negb (pos e) && ((isVar (lt e) && isVar (rt e)) || (er_strong K && (isVar (lt e) || isVar (rt e)))).
Fixpoint er_first (c : clause) (ix : list nat) : option (option clause) :=
  match ix with
  | [] => Some None
  | i :: ix' =>
      match nth_error c i with
      | Some e => if var_lit e then
                    match eq_res E n c i with
                    | Derived d => Some (Some d)
                    | NoClause => er_first c ix'
                    | _ => None
                    end
                  else er_first c ix'
      | None => None
      end
  end.
(** the while loop 136-168; the boolean: at least one step was done *)
Fixpoint er_normalize (fuel : nat) (c : clause) (done : bool) : option (clause * bool) :=
  match fuel with
  | O => None
  | S m => match er_first c (seq 0 (length c)) with
           | None => None
           | Some None => Some (c, done)
           | Some (Some d) => er_normalize m d true
           end
  end.

(** ControlledClauseSplit, cco_clausesplitting.c:58-82; ClauseIsHorn etc., ccl_clauses.h:240-260 *)
Definition split_wanted (l : clause) : bool :=
  let horn := Nat.leb (pos_no l) 1 in
  let negative := Nat.eqb (pos_no l) 0 in
  let positive := Nat.eqb (neg_no l) 0 in
  (horn && split_horn K) || (negb horn && split_nonhorn K) || (negative && split_negative K) || (positive && split_positive K)
  || (negb (negative || positive) && split_mixed K).
Definition controlled_split (s : state) (l : clause) : option (option (state * list cl)) :=
  if split_wanted l then
    match clause_split E (lookup K) (split_how K) (split_fresh K) [] (has_split_lit P s l) (defs s) (nextc s) l with
    | None => None
    | Some None => Some None
    | Some (Some r) => Some (Some (set_defs s (new_store r) (new_next r), map new_cl (new_defs r ++ [rest r])))
    end
  else Some None.

(** *** insert_new_clauses, cco_proofproc.c:652-775; the option: the empty clause that was found.  [acc]: eval_store, reversed *)
Fixpoint insert_new (fuel : nat) (s : state) (acc : list cl) : option (state * option cl) :=
  match fuel with
  | O => None
  | S m =>
      match tmp s with
      | [] => Some (set_unproc s (unproc s ++ rev acc), None)
      | h :: rest =>
          let s0 := set_tmp s rest in
          let cond := condensing_aggr K in
          match (if irv h then forward_modify n cond FullRewrite s0 h else Some (s0, h, false)) with
          | None => None
          | Some (s1, h1, _) =>
              match forward_modify n cond (forward_demod K) s1 (mkcl (lits h1) (cdate h1) (limited h1) false (isproc h1)) with
              | None => None
              | Some (s2, h2, _) =>
                  match clause_is_trivial (eno K) E (lits h2) with
                  | None => None
                  | Some true => insert_new m s2 acc
                  | Some false =>
                      match lits h2 with
                      | [] => Some (s2, Some h2)
                      | _ =>
                          match (if subsumption_aggr K then forward_subsumption true s2 (lits h2) else Some (lits h2, false)) with
                          | None => None
                          | Some (_, true) => insert_new m s2 acc
                          | Some (l3, false) =>
                              match (if er_aggr K && er_varlit K then er_normalize n l3 false else Some (l3, false)) with
                              | None => None
                              | Some (l4, true) => insert_new m (set_tmp s2 (tmp s2 ++ [with_lits h2 l4 (limited h2)])) acc
                              | Some (_, false) =>
                                  match (if split_aggr K then controlled_split s2 l3 else Some None) with
                                  | None => None
                                  | Some (Some (s3, cs)) => insert_new m (set_tmp s3 (tmp s3 ++ cs)) acc
                                  | Some None =>
                                      let l5 := if choose_lits P s2 [] 0 then select_lits s2 l3 else unselect l3 in
                                      insert_new m s2 (with_lits h2 l5 (limited h2) :: acc)
                                  end
                              end
                          end
                      end
                  end
              end
          end
      end
  end.

(** replacing_inferences, cco_proofproc.c:795-837: [inl]: the clause was replaced (the option as above), [inr]: it stays *)
Definition replacing (s : state) (c : cl) : option (state * (option cl + cl)) :=
  match (if er_varlit K then er_normalize n (lits c) false else Some (lits c, false)) with
  | None => None
  | Some (d, true) =>
      match insert_new n (set_tmp s (tmp s ++ [with_lits c d (limited c)])) [] with
      | Some (s', e) => Some (s', inl e)
      | None => None
      end
  | Some (_, false) =>
      match controlled_split s (lits c) with
      | None => None
      | Some (Some (s1, cs)) => match insert_new n (set_tmp s1 (tmp s1 ++ cs)) [] with
                                | Some (s', e) => Some (s', inl e)
                                | None => None
                                end
      | Some None => Some (s, inr c)
      end
  end.

(** *** Backward simplification *)
Definition is_demod (l : clause) : bool := Nat.eqb (pos_no l) 1 && Nat.eqb (neg_no l) 0.
Definition is_rule (l : clause) : bool := is_demod l && match l with e :: _ => ori e | [] => false end.

(** terms in the index of backward rewriting: subterms of processed clauses (ccl_global_indices.c, C40) *)
Definition indexed_terms (s : state) : list term :=
  flat_map (fun c => flat_map (fun e => subterms (lt e) ++ subterms (rt e)) (lits c)) (rules s ++ eqns s ++ negs s ++ nons s).
(** eliminate_backward_rewritten_clauses, cco_proofproc.c:170-236, with RemoveRewritableClausesIndexed (cco_simplification.c:120-145):
    links are added to indexed terms that can be rewritten, the clauses found are moved (ClauseMoveSimplified, 52-70). *)
Definition back_rewrite (s : state) (c : cl) (z : Z) : state :=
  match lits c with
  | [e] =>
      if is_demod (lits c) then
        let ts := pick (bw_terms P s) (indexed_terms s) in
        let W := fold_left (fun W t => fold_left (fun W d => backward_link E (gtb K) (strong_inst K) (minterm K) W d t) (dems_of e z) W) ts (links s) in
        let f := bw_found P s in
        let keep := filter (fun c => negb (f c)) in
        set_tmp (set_links (set_proc s (keep (rules s)) (keep (eqns s)) (keep (negs s)) (keep (nons s))) W)
                (tmp s ++ filter f (rules s ++ eqns s ++ negs s ++ nons s))
      else s
  | _ => s
  end.

(** remove_subsumed, cco_proofproc.c:119-152, for one set *)
Fixpoint remove_subsumed (l : clause) (set : list cl) : option (list cl) :=
  match set with
  | [] => Some []
  | d :: set' => match clause_subsumes E n l (lits d), remove_subsumed l set' with
                 | Ans b, Some r => Some (if b then r else d :: r)
                 | _, _ => None
                 end
  end.
(** eliminate_backward_subsumed_clauses, cco_proofproc.c:252-299 *)
Definition back_subsume (s : state) (l : clause) : option state :=
  let single := Nat.eqb (length l) 1 in
  let positive := single && negb (Nat.eqb (pos_no l) 0) in
  match (if positive && negb (is_rule l) then remove_subsumed l (rules s) else Some (rules s)),
        (if positive && negb (is_rule l) then remove_subsumed l (eqns s) else Some (eqns s)),
        (if single && negb positive then remove_subsumed l (negs s) else Some (negs s)),
        remove_subsumed l (nons s) with
  | Some r, Some e, Some g, Some x => Some (set_proc s r e g x)
  | _, _, _, _ => None
  end.

(** EqnSubsumeDirected, EqnSubsume, ccl_eqn.c:2037-2089 *)
Definition eqn_subsumes (e f : eqn) : bool :=
  let dir a b := match match2 E n no_bindings a (lt f) b (rt f) with Success _ => true | _ => false end in
  if ori e && negb (ori f) then false
  else dir (lt e) (rt e) || (negb (ori e) && dir (rt e) (lt e)).
(** ClauseUnitSimplifyTest, ccl_clausefunc.c:385-418 *)
Definition unit_simplify_test (e : eqn) (l : clause) : bool :=
  if Bool.eqb (pos e) (Nat.eqb (neg_no l) 0) then false
  else existsb (fun f => xorb (pos e) (pos f) && eqn_subsumes e f) l.
(** ClauseSetUnitSimplify, cco_simplification.c:163-185, and eliminate_unit_simplified_clauses, cco_proofproc.c:313-349 *)
Definition back_unit_simplify (s : state) (l : clause) : state :=
  match l with
  | [e] =>
      if is_rule l then s else
      let f c := unit_simplify_test e (lits c) in
      let keep := filter (fun c => negb (f c)) in
      if pos e
      then set_tmp (set_proc s (rules s) (eqns s) (keep (negs s)) (keep (nons s))) (tmp s ++ filter f (nons s) ++ filter f (negs s))
      else set_tmp (set_proc s (keep (rules s)) (keep (eqns s)) (negs s) (keep (nons s)))
                   (tmp s ++ filter f (nons s) ++ filter f (rules s) ++ filter f (eqns s))
  | _ => s
  end.

(** ClauseSetFindContextSRClauses, ccl_context_sr.c:119-139: some literal of the new clause negated makes it subsume the clause *)
Definition context_sr_test (l : clause) (d : clause) : bool :=
  existsb (fun i => match nth_error l i with
                    | Some e => match clause_subsumes E n (sort_lits (flip_lit e :: except i l)) d with Ans true => true | _ => false end
                    | None => false
                    end) (seq 0 (length l)).
(** RemoveContextualSRClauses, cco_simplification.c:201-228, and eliminate_context_sr_clauses, cco_proofproc.c:363-378 *)
Definition back_context_sr (s : state) (l : clause) : state :=
  if bwd_csr K then
    let f c := context_sr_test l (lits c) in
    set_tmp (set_proc s (rules s) (eqns s) (negs s) (filter (fun c => negb (f c)) (nons s))) (tmp s ++ filter f (nons s))
  else s.

(** *** Generating inferences *)
(** collect the clauses of a list of calls; [None]: some call did not return *)
Fixpoint results (l : list Infer.result) : option (list clause) :=
  match l with
  | [] => Some []
  | r :: l' => match r, results l' with
               | Derived d, Some ds => Some (d :: ds)
               | NoClause, Some ds => Some ds
               | _, _ => None
               end
  end.
(** ComputeAllEqualityFactors, cco_factoring.c:116-162: different positive literals (ccl_factor.c:336-394) *)
Definition all_factors (s : state) (c : clause) : option (list clause) :=
  if Nat.leb (pos_no c) 1 then Some []
  else results (flat_map (fun '(i, l1, j, l2) =>
         match nth_error c i, nth_error c j with
         | Some e1, Some e2 => if pos e1 && pos e2 && negb (Nat.eqb i j) then [equality_factor E (ordr K) n (counts P s) c i l1 j l2] else []
         | _, _ => []
         end) (factor_pairs P s c)).
(** ComputeAllEqnResolvents, cco_eqnresolving.c:64-103, with the literal iterator ccl_eqnresolution.c:141-190 *)
Definition all_eq_res (c : clause) : option (list clause) :=
  results (flat_map (fun i => match nth_error c i with
                              | Some e => if negb (pos e) && (negb (er_max_only K) || maxi e) then [eq_res E n c i] else []
                              | None => []
                              end) (seq 0 (length c))).
(** ClauseDisEqDecomposition, ccl_diseq_decomp.c:63-94 *)
Definition diseq_decomp (c : clause) (i : nat) (a b : list term) : option clause :=
  match mapo (copy_opt n E nob) (except i c) with
  | Some l => Some (finish E (l ++ rev (map (fun '(s, t) => eqn_alloc E s t false) (combine a b))))
  | None => None
  end.
(** ComputeDisEqDecompositions, cco_diseq_decomp.c:63-97 *)
Definition all_diseqs (c : clause) : option (list clause) :=
  if Nat.leb (length c) (diseq_lits K) then
    mapo (fun x => x) (flat_map (fun i =>
      match nth_error c i with
      | Some e => match lt e, rt e with
                  | Fun f a, Fun g b =>
                      if equlit e && negb (pos e) && Nat.eqb f g && Nat.leb (length a) (diseq_arity K) && negb (Nat.eqb (length a) 0)
                      then [diseq_decomp c i a b] else []
                  | _, _ => []
                  end
      | None => []
      end) (seq 0 (length c)))
  else Some [].
(** ComputeAllParamodulantsIndexed / ComputeAllParamodulants, cco_paramodulation.c:351-640, 662-760: overlaps from positive literals
    only, between the copy of the new clause and a processed clause *)
Definition proc_set (s : state) (k : nat) : list cl := match k with 0 => rules s | 1 => eqns s | 2 => negs s | _ => nons s end.
Definition all_paramods (s : state) (copy : clause) : option (list clause) :=
  results (flat_map (fun o =>
    match nth_error (proc_set s (pset_no o)) (pcl o) with
    | Some d =>
        let cf := if from_new o then copy else lits d in
        let ci := if from_new o then lits d else copy in
        match nth_error cf (ofi o) with
        | Some fl => if pos fl then
                       [if indexed o then paramod E (ordr K) n (pm_type K) cf (ofi o) (ofs o) ci (oii o) (ois o) (opos o)
                        else ordered_paramod E (ordr K) n cf (ofi o) (ofs o) ci (oii o) (ois o) (opos o)]
                     else []
        | None => []
        end
    | None => []
    end) (overlaps P s copy)).
(** generate_new_clauses, cco_proofproc.c:532-608 *)
Definition generate_new (s : state) (c copy : clause) : option state :=
  match (if eq_factoring K then all_factors s c else Some []), all_eq_res c, all_diseqs c,
        (if neg_unit_pm K || negb (Nat.eqb (length c) 1) || negb (Nat.eqb (pos_no c) 0) then all_paramods s copy else Some []) with
  | Some f, Some r, Some d, Some p => Some (set_tmp s (tmp s ++ map new_cl (f ++ r ++ d ++ p)))
  | _, _, _, _ => None
  end.

(** ClauseNormalizeVars, ccl_clauses.c:2438-2461 *)
Definition normalize_vars (c : clause) : option clause :=
  match norm_eqns n E (start, reset) c with
  | Some (st, _) => match trail st with [] => Some c | _ => mapo (copy_eqn E n (bnd st)) c end
  | None => None
  end.
(** ClauseCopyDisjoint, ccl_clauses.c:1036-1043, with EqnCopyDisjoint, ccl_eqn.c:1540-1557 *)
Definition copy_disjoint (c : clause) : clause :=
  map (fun e => let h := eqn_alloc E (Terms.app (fun x => Var (altv K x)) (lt e)) (Terms.app (fun x => Var (altv K x)) (rt e)) (pos e) in
                mkeqn (lt h) (rt h) (pos h) (ori e) (uptodate e) (maxi e) (smaxi e) (sel e) (pseudo e)) c.

(** *** ProcessClause, cco_proofproc.c:1560-1715; the option: the empty clause returned *)
Definition set_irv (c : cl) : cl := mkcl (lits c) (cdate c) (limited c) true (isproc c).
Definition insert_proc (s : state) (c : cl) (z : Z) : state :=
  if is_demod (lits c)
  then if is_rule (lits c) then set_dates (set_proc s (c :: rules s) (eqns s) (negs s) (nons s)) z (edate s)
       else set_dates (set_proc s (rules s) (c :: eqns s) (negs s) (nons s)) (rdate s) z
  else if Nat.eqb (length (lits c)) 1 then set_proc s (rules s) (eqns s) (c :: negs s) (nons s)
  else set_proc s (rules s) (eqns s) (negs s) (c :: nons s).

Definition process_clause (s : state) : option (state * option cl) :=
  let u := filter (fun c => negb (orphan P s c)) (unproc s) in
  match choose P s with
  | None => Some (set_unproc s u, None)
  | Some i =>
      match nth_error u i with
      | None => None
      | Some c0 =>
          let s0 := set_unproc s (except i u) in
          match forward_contract true (fwd_csr K) (condensing K) FullRewrite s0 (mkcl (lits c0) (cdate c0) (limited c0) (irv c0) true) with
          | None => None
          | Some (s1, None) => Some (s1, None)
          | Some (s1, Some c1) =>
              match lits c1 with
              | [] => Some (s1, Some c1)
              | _ =>
                  match replacing (set_ac s1 (ac_check (ac_handling K) (acs s1) (lits c1))) c1 with
                  | None => None
                  | Some (s2, inl e) => Some (s2, e)
                  | Some (s2, inr c2) =>
                      let z0 := Z.max (rdate s2) (edate s2) in
                      let z := if is_demod (lits c2) then (z0 + 1)%Z else z0 in
                      let s3 := back_rewrite s2 c2 z in
                      match back_subsume s3 (lits c2) with
                      | None => None
                      | Some s4 =>
                          let s5 := back_context_sr (back_unit_simplify s4 (lits c2)) (lits c2) in
                          let s6 := set_tmp s5 (map set_irv (tmp s5)) in
                          match normalize_vars (lits c2) with
                          | None => None
                          | Some l =>
                              let s7 := insert_proc s6 (mkcl l z true (irv c2) (isproc c2)) z in
                              match (if generate K then generate_new s7 l (copy_disjoint l) else Some s7) with
                              | None => None
                              | Some s8 => insert_new n (set_tmp s8 (pick (tmp_order P s8) (tmp s8))) []
                              end
                          end
                      end
                  end
              end
          end
      end
  end.

(** ForwardContractSet, cco_forward_contraction.c:395-435, on the unprocessed clauses *)
Fixpoint contract_set (non_unit : bool) (lv : rwlevel) (s : state) (cs acc : list cl) : option (state * option cl) :=
  match cs with
  | [] => Some (set_unproc s (rev acc), None)
  | c :: cs' =>
      match forward_contract non_unit false false lv s c with
      | None => None
      | Some (s1, None) => contract_set non_unit lv s1 cs' acc
      | Some (s1, Some c1) =>
          match lits c1 with
          | [] => Some (set_unproc s1 (rev acc ++ cs'), Some c1)
          | _ => contract_set non_unit lv s1 cs' (c1 :: acc)
          end
      end
  end.
(** cleanup_unprocessed_clauses, cco_proofproc.c:858-940 *)
Definition cleanup (s : state) : option (state * option cl) :=
  let s1 := set_unproc s (filter (fun c => negb (orphan P s c)) (unproc s)) in
  match (if contract_all P s1 then contract_set false FullRewrite s1 (unproc s1) [] else Some (s1, None)) with
  | None => None
  | Some (s2, Some e) => Some (s2, Some e)
  | Some (s2, None) => Some (set_unproc s2 (filter (fun c => negb (bad P s2 c)) (unproc s2)), None)
  end.

(** Saturate, cco_proofproc.c:1738-1800: at most [k] rounds *)
Fixpoint saturate (k : nat) (s : state) : option (state * option cl) :=
  match k with
  | O => Some (s, None)
  | S k' =>
      match unproc s with
      | [] => Some (s, None)
      | _ =>
          match process_clause s with
          | None => None
          | Some (s1, Some e) => Some (s1, Some e)
          | Some (s1, None) =>
              match cleanup s1 with
              | None => None
              | Some (s2, Some e) => Some (s2, Some e)
              | Some (s2, None) => saturate k' (tick s2)
              end
          end
      end
  end.

(** ProofStateFilterUnprocessed, cco_forward_contraction.c:560-625, without the deleting filters u and c *)
Fixpoint filter_unproc (desc : list (bool * rwlevel)) (s : state) : option (state * option cl) :=
  match desc with
  | [] => Some (s, None)
  | (nu, lv) :: desc' =>
      match contract_set nu lv s (unproc s) [] with
      | Some (s1, None) => filter_unproc desc' s1
      | r => r
      end
  end.
End Loop.

(** ProofStateInit, cco_proofproc.c:1465-1535: everything empty, the input in unprocessed, which is scanned for AC axioms *)
Definition init (K : conf) (n0 : sym) (N : list clause) : state :=
  mkst [] [] [] [] 0 0 no_links (map new_cl N) [] [] n0 0 (ac_init (ac_handling K) N).

(** ** Specification *)
Definition all_clauses (s : state) : list clause := map lits (rules s ++ eqns s ++ negs s ++ nons s ++ unproc s ++ tmp s).

(** The states of a run with configuration [K] on the input [N] over symbols with codes below [n0]: main loop steps, cleanup steps and
    filters in any order, each with any policy. *)
Inductive reaches (E : env) (K : conf) (n0 : sym) (N : list clause) : state -> Prop :=
| reaches_init : reaches E K n0 N (init K n0 N)
| reaches_process P n s s' : reaches E K n0 N s -> process_clause E K P n s = Some (s', None) -> reaches E K n0 N s'
| reaches_cleanup P n s s' : reaches E K n0 N s -> cleanup E K P n s = Some (s', None) -> reaches E K n0 N s'
| reaches_filter P n desc s s' : reaches E K n0 N s -> filter_unproc E K P n desc s = Some (s', None) -> reaches E K n0 N s'
| reaches_tick s : reaches E K n0 N s -> reaches E K n0 N (tick s).
(** what the parameters have to satisfy *)
Record conf_ok (E : env) (K : conf) (n0 : sym) : Prop := {
  co_lookup : lookup_ok E (lookup K);
  co_min : strong_inst K = true -> forall x, let t := minterm K (vsort (srt E) x) in
             wf (srt E) t /\ primary t /\ (forall f, In f (tsyms t) -> f < n0) /\ tsort (srt E) t = vsort (srt E) x;
  co_alt : forall x, vsort (srt E) (altv K x) = vsort (srt E) x /\ is_fresh (altv K x) = false;
  co_decl : forall m, declared E [] n0 m }.
