(** * Model of the propositional check of the proof state: CLAUSES/ccl_satinterface.c, CONTROL/cco_proofproc.c:954-1020 (SATCheck),
      TERMS/cte_termbanks.c:2323-2381, TERMS/cte_signature.c:1350-1375.

    Terms are shared (C24), so the entry number of a term stands for the term: the renumbering array is a list of pairs (term, number).
    The SAT solver (PicoSAT, an external program) is an arbitrary function from the clauses it was given to an answer.  Counters, timing
    and output are not modelled; neither is ForwardContractSetReweight before the check (see Saturate.v). *)
From Verif Require Import Terms Unify Semantics Clauses.
From Coq Require Import ZArith.
Local Open Scope nat_scope.

(** ** Grounding substitutions *)

(** VarBank_p->varstacks: for each sort the variables in order of creation (cte_termvars.h:40-70) *)
Notation varbank := (list (list var)).

(** FunConstCmpFunType.  The functions get the arrays of occurrence counts and may write to the first one, so they also return it. *)
Definition counts := sym -> Z.
Definition upd (a : counts) (f : sym) (z : Z) : counts := fun g => if Nat.eqb g f then z else a g.
Definition prefer := sym -> sym -> counts -> counts -> bool * counts.

(** C's [(conj[f1] = conj[f2]) && b]: an assignment, whose value is the condition *)
Definition assign_and (f1 f2 : sym) (cj : counts) (b : bool) : bool * counts :=
  let cj' := upd cj f1 (cj f2) in (negb (Z.eqb (cj f2) 0) && b, cj').

(** prefer_conj_min_max_freq, ccl_satinterface.c:208-223 *)
Definition prefer_conj_min_max : prefer := fun f1 f2 cj d =>
  if negb (Z.eqb (cj f1) 0) && Z.eqb (cj f2) 0 then (true, cj)
  else if Z.eqb (cj f1) 0 && negb (Z.eqb (cj f2) 0) then (false, cj)
  else if Z.ltb (cj f1) (cj f2) then (true, cj) else assign_and f1 f2 cj (Z.ltb (d f2) (d f1)).
(** prefer_conj_max_max_freq, 238-245 *)
Definition prefer_conj_max_max : prefer := fun f1 f2 cj d =>
  if Z.ltb (cj f2) (cj f1) then (true, cj) else assign_and f1 f2 cj (Z.ltb (d f2) (d f1)).
(** prefer_conj_min_min_freq, 260-275 *)
Definition prefer_conj_min_min : prefer := fun f1 f2 cj d =>
  if negb (Z.eqb (cj f1) 0) && Z.eqb (cj f2) 0 then (true, cj)
  else if Z.eqb (cj f1) 0 && negb (Z.eqb (cj f2) 0) then (false, cj)
  else if Z.ltb (cj f1) (cj f2) then (true, cj) else assign_and f1 f2 cj (Z.ltb (d f1) (d f2)).
(** prefer_conj_max_min_freq, 290-297 *)
Definition prefer_conj_max_min : prefer := fun f1 f2 cj d =>
  if Z.ltb (cj f2) (cj f1) then (true, cj) else assign_and f1 f2 cj (Z.ltb (d f1) (d f2)).
(** prefer_global_max_freq, 311-315, and prefer_global_min_freq, 329-333 *)
Definition prefer_global_max : prefer := fun f1 f2 cj d => (Z.ltb (d f2) (d f1), cj).
Definition prefer_global_min : prefer := fun f1 f2 cj d => (Z.ltb (d f1) (d f2), cj).

(** SigCollectSortConsts, cte_signature.c:1350-1375; [syms]: the codes after the internal symbols, in order *)
Definition sort_consts (S : sorting) (syms : list sym) (s : sort) : list sym :=
  filter (fun f => match fargs S f with [] => Nat.eqb (fres S f) s | _ => false end) syms.

(** the loop of TBGetFreqConstTerm, cte_termbanks.c:2368-2377 *)
Fixpoint best_const (p : prefer) (d : counts) (cands : list sym) (f : sym) (cj : counts) : sym * counts :=
  match cands with
  | [] => (f, cj)
  | c :: cs => let '(b, cj') := p c f cj d in best_const p d cs (if b then c else f) cj'
  end.
(** TBGetFreqConstTerm, 2353-2381; [None] is NULL *)
Definition freq_const (S : sorting) (syms : list sym) (p : prefer) (d : counts) (s : sort) (cj : counts) : option sym * counts :=
  match sort_consts S syms s with
  | [] => (None, cj)
  | f :: cs => let '(g, cj') := best_const p d cs f cj in (Some g, cj')
  end.
(** TBGetFirstConstTerm, 2323-2335 *)
Definition first_const (S : sorting) (syms : list sym) (s : sort) : option sym := hd_error (sort_consts S syms s).

(** GroundingStrategy, ccl_satinterface.h / che_heuristics; the six frequency based strategies differ in the preference only *)
Inductive strategy := GMPseudoVar | GMFirstConst | GMFreq (p : prefer).

(** What the grounding functions read: constants, counts, the rewrite links (TermFollowRWChain) if norm_const is set. *)
Record ginfo := { gsyms : list sym; gdist : counts; gconj : counts; gnorm : option (term -> term) }.

(** The term all variables of one stack are bound to.  SubstPseudoGroundVarBank, ccl_satinterface.c:668-700;
    SubstGroundVarBankFirstConst, 715-765; SubstGroundFreqBased, 779-845. *)
Definition norm_term (G : ginfo) (f : option sym) (backup : var) : term :=
  match f with
  | None => Var backup
  | Some f => match gnorm G with Some nf => nf (Fun f []) | None => Fun f [] end
  end.
Definition stack_term (S : sorting) (G : ginfo) (st : strategy) (backup : var) (cj : counts) : term * counts :=
  match st with
  | GMPseudoVar => (Var backup, cj)
  | GMFirstConst => (norm_term G (first_const S (gsyms G) (vsort S backup)) backup, cj)
  | GMFreq p => let '(f, cj') := freq_const S (gsyms G) p (gdist G) (vsort S backup) cj in (norm_term G f backup, cj')
  end.
(** the loop over the stacks; the bindings in the order in which they are made *)
Fixpoint ground_binds (S : sorting) (G : ginfo) (st : strategy) (vb : varbank) (cj : counts) : list (var * term) :=
  match vb with
  | [] => []
  | [] :: vb' => ground_binds S G st vb' cj
  | (x :: xs) :: vb' => let '(t, cj') := stack_term S G st x cj in map (fun y => (y, t)) (x :: xs) ++ ground_binds S G st vb' cj'
  end.
(** x->binding.  A variable cell occurs once in the bank, so which of two bindings wins does not matter. *)
Fixpoint lookup_var (b : list (var * term)) (x : var) : term :=
  match b with
  | [] => Var x
  | (y, t) :: b' => if Nat.eqb y x then t else lookup_var b' x
  end.
Definition ground_subst (S : sorting) (G : ginfo) (st : strategy) (vb : varbank) : subst := lookup_var (ground_binds S G st vb (gconj G)).

(** ** Encoding *)

(** SatClauseCell, SatClauseSetCell (ccl_satinterface.h:33-60); has_pure_lit is computed below, exported is an argument *)
Record satcl := mksc { slits : list Z; ssrc : clause }.
Record satset := mkss { sindex : list (term * Z); smax : Z; sset : list satcl; slimit : option nat }.
(** SatClauseSetAlloc, 455-475 *)
Definition sat_alloc (lim : option nat) : satset := mkss [] 0 [] lim.

Fixpoint find_no (ix : list (term * Z)) (t : term) : Z :=
  match ix with
  | [] => 0
  | (u, n) :: ix' => if term_eqb u t then n else find_no ix' t
  end.

Section Encode.
(** the code of $eq; PGreater: comparison of addresses, about which nothing is known here; the bindings in force *)
Variables (eqc : sym) (pg : term -> term -> bool) (sg : subst).

(** the first half of sat_translate_literal, 79-97: the term that represents the atom.  TBInsertInstantiatedFO (cte_termbanks.c:1227-1269)
    replaces a variable by its binding, once.  EqnTermsTBTermEncode, ccl_eqn.c:894-921. *)
Definition lit_atom (e : eqn) : term :=
  if equlit e
  then let l := app sg (lt e) in let r := app sg (rt e) in
       if pg l r then Fun eqc [l; r] else Fun eqc [r; l]
  else app sg (lt e).
(** the second half, 98-116 *)
Definition translate_lit (ix : list (term * Z)) (mx : Z) (e : eqn) : Z * list (term * Z) * Z :=
  let t := lit_atom e in
  let '(n, ix', mx') := let n := find_no ix t in
                        if Z.eqb n 0 then (Z.succ mx, (t, Z.succ mx) :: ix, Z.succ mx) else (n, ix, mx) in
  ((if pos e then n else Z.opp n), ix', mx').
(** the loop of SatClauseCreateAndStore, 532-538 *)
Fixpoint translate_lits (ix : list (term * Z)) (mx : Z) (c : clause) : list Z * list (term * Z) * Z :=
  match c with
  | [] => ([], ix, mx)
  | e :: c' => let '(z, ix1, mx1) := translate_lit ix mx e in
               let '(zs, ix2, mx2) := translate_lits ix1 mx1 c' in (z :: zs, ix2, mx2)
  end.
(** SatClauseCreateAndStore, 516-542; [None] is NULL *)
Definition create_and_store (c : clause) (s : satset) : option satset :=
  if match slimit s with None => false | Some k => Nat.leb k (length (sset s)) end then None
  else let '(zs, ix, mx) := translate_lits (sindex s) (smax s) c in Some (mkss ix mx (sset s ++ [mksc zs c]) (slimit s)).
(** SatClauseSetImportClauseSet, 626-645 *)
Fixpoint import_set (cs : list clause) (s : satset) : satset :=
  match cs with
  | [] => s
  | c :: cs' => match create_and_store c s with None => s | Some s' => import_set cs' s' end
  end.
(** the end of SatClauseSetImportProofState, 940-946: processed_pos_rules, processed_pos_eqns, processed_neg_units,
    processed_non_units, unprocessed *)
Definition import_sets (css : list (list clause)) (s : satset) : satset := fold_left (fun s cs => import_set cs s) css s.
End Encode.

(** ** Purity, export, answer *)

(** litstate_add_satclause, 129-148; the two bits of the array elements *)
Definition litstate := Z -> bool * bool.
Definition add_state (st : litstate) (z : Z) : litstate :=
  if Z.ltb 0 z then fun n => if Z.eqb n z then (true, snd (st n)) else st n
  else fun n => if Z.eqb n (Z.opp z) then (fst (st n), true) else st n.
Definition add_satclause (st : litstate) (c : satcl) : litstate := fold_left add_state (slits c) st.
(** litstate_check_pure, 163-192: state != 3 *)
Definition pure_lit (st : litstate) (z : Z) : bool := let '(p, n) := st (if Z.ltb 0 z then z else Z.opp z) in negb (p && n).
Definition check_pure (st : litstate) (c : satcl) : bool := existsb (pure_lit st) (slits c).
(** SatClauseSetMarkPure, 966-993: the clauses and whether they are marked *)
Definition mark_pure (s : satset) : list (satcl * bool) :=
  let st := fold_left add_satclause (sset s) (fun _ => (false, false)) in
  map (fun c => (c, check_pure st c)) (sset s).
(** export_to_solver with sat_clause_not_pure, 345-387, 858-862: the content of exported *)
Definition exported (s : satset) : list satcl := map fst (filter (fun c => negb (snd c)) (mark_pure s)).

(** picosat_sat and picosat_coreclause *)
Inductive answer := ASat | AUnsat (core : nat -> bool) | AUnknown.
Definition solver := list (list Z) -> answer.

(** sat_extract_core, 1007-1025: the elements of exported whose number is in the core *)
Fixpoint core_of {A} (core : nat -> bool) (i : nat) (l : list A) : list A :=
  match l with
  | [] => []
  | c :: l' => if core i then c :: core_of core (S i) l' else core_of core (S i) l'
  end.

(** The result of the check: the parents of the empty clause in order; [NoParent]: PStackPopP on an empty stack. *)
Inductive check_result := CUnsat (parents : list clause) | CSat | CGaveUp | NoParent.
(** SatClauseSetCheckUnsat, 1038-1085 *)
Definition check_unsat (sv : solver) (s : satset) : check_result :=
  match sv (map slits (exported s)) with
  | ASat => CSat
  | AUnknown => CGaveUp
  | AUnsat core => match rev (map ssrc (core_of core 0 (exported s))) with [] => NoParent | ps => CUnsat ps end
  end.
(** SATCheck, cco_proofproc.c:970-985, without the normalization *)
Definition sat_check (E : env) (eqc : sym) (pg : term -> term -> bool) (G : ginfo) (st : strategy) (vb : varbank) (sv : solver)
    (lim : option nat) (css : list (list clause)) : check_result :=
  check_unsat sv (import_sets eqc pg (ground_subst (srt E) G st vb) css (sat_alloc lim)).

(** ** Specification vocabulary *)

(** Propositional truth of DIMACS clauses *)
Definition lit_true (V : Z -> bool) (z : Z) : bool := if Z.ltb 0 z then V z else negb (V (Z.opp z)).
Definition prop_sat (cs : list (list Z)) : Prop := exists V, forall c, In c cs -> exists z, In z c /\ lit_true V z = true.
(** The solver does not lie: if it answers "satisfiable" its clauses are, if it answers "unsatisfiable" the clauses whose numbers
    (from 0, in the order in which they were added) it reports as core cannot be satisfied together. *)
Definition solver_ok (sv : solver) : Prop := forall cs,
  match sv cs with
  | ASat => prop_sat cs
  | AUnsat core => ~ exists V, forall i c, nth_error cs i = Some c -> core i = true -> exists z, In z c /\ lit_true V z = true
  | AUnknown => True
  end.

(** Truth of clauses, not of numbers: [A true l r] is the truth value given to the equation l = r, [A false t $true] that given to the
    atom t.  Nothing is required of it but that l = r and r = l get the same value. *)
Definition valuation_ok (A : bool -> term -> term -> bool) : Prop := forall l r, A true l r = A true r l.
Definition inst_sat (A : bool -> term -> term -> bool) (sg : subst) (cs : list clause) : Prop :=
  forall c, In c cs -> exists e, In e c /\ A (equlit e) (app sg (lt e)) (app sg (rt e)) = pos e.

(** The symbol $eq is not a predicate of the clauses. *)
Definition eq_free (eqc : sym) (c : clause) : Prop :=
  forall e args, In e c -> equlit e = false -> lt e <> Fun eqc args.
(** Atoms are not variables (there are no variables of the sort of truth values). *)
Definition atoms_ok (c : clause) : Prop := forall e x, In e c -> equlit e = false -> lt e <> Var x.
(** Addresses are linearly ordered. *)
Definition total_order (pg : term -> term -> bool) : Prop := forall s t, s <> t -> pg s t = negb (pg t s).

(** Rewriting a constant gives a term of its sort; the variables of one stack have one sort. *)
Definition ginfo_ok (E : env) (G : ginfo) : Prop :=
  forall nf f, gnorm G = Some nf -> fargs (srt E) f = [] -> wf (srt E) (nf (Fun f [])) /\ tsort (srt E) (nf (Fun f [])) = fres (srt E) f.
Definition bank_ok(E : env) (vb : varbank) : Prop := forall st x y, In st vb -> In x st -> In y st -> vsort (srt E) x = vsort (srt E) y.

(** The preferences as documented above the functions: f is at least as good as g *)
Definition as_good_min_max (cj d : counts) (f g : sym) : Prop :=
  (cj g <> 0%Z -> cj f <> 0%Z) /\ (cj f <> 0%Z -> cj g <> 0%Z -> (cj f < cj g \/ cj f = cj g /\ d g <= d f)%Z)
  /\ (cj f = 0%Z -> cj g = 0%Z -> (d g <= d f)%Z).
Definition as_good_min_min (cj d : counts) (f g : sym) : Prop :=
  (cj g <> 0%Z -> cj f <> 0%Z) /\ (cj f <> 0%Z -> cj g <> 0%Z -> (cj f < cj g \/ cj f = cj g /\ d f <= d g)%Z)
  /\ (cj f = 0%Z -> cj g = 0%Z -> (d f <= d g)%Z).
Definition as_good_max_max (cj d : counts) (f g : sym) : Prop := (cj g < cj f \/ cj f = cj g /\ d g <= d f)%Z.
Definition as_good_max_min (cj d : counts) (f g : sym) : Prop := (cj g < cj f \/ cj f = cj g /\ d f <= d g)%Z.
