(** * Model of predicate elimination
    (CLAUSES/ccl_pred_elim.c; EqnMap, ccl_eqn.c:3423-3468; ClauseNormalizeVars, ccl_clauses.c:2438-2461).
    First-order problems; executable definitions only.  Output and derivation records are not modelled.

    A clause object is its number: [objs] lists the clauses in the order in which they were created, the two clause sets and the sets of a
    task are lists of numbers.  The statistics of a task (num_lit, sq_vars, size unless it is TASK_BLOCKED, the last_check fields, the
    cardinalities) only decide when a predicate is given up, in which order tasks are taken and whether a result is accepted.  They are
    replaced by an arbitrary function [heur] of the number of decisions made so far: what is proved holds for all limits, tolerances and
    orders of the heap. *)
From Verif Require Import Terms Unify Semantics Clauses Taut Split Infer Bce Unfold.
Local Open Scope nat_scope.

(** PETaskCell, 37-62: positive_singular, negative_singular, offending_cls, pos_gates, neg_gates, g_status == IS_GATE, size == TASK_BLOCKED *)
Record ptask := mkptask { ps : list nat; ns : list nat; off : list nat; pg : list nat; ng : list nat; gate : bool; blocked : bool }.
(** mk_task, 217-240 *)
Definition mk_task : ptask := mkptask [] [] [] [] [] false false.
(** CCSStoreCl, CCSRemoveCl, 162-196 *)
Definition has (i : nat) (l : list nat) : bool := existsb (Nat.eqb i) l.
Definition store_cl (i : nat) (l : list nat) : list nat := if has i l then l else i :: l.
Definition remove_cl (i : nat) (l : list nat) : list nat := filter (fun k => negb (Nat.eqb i k)) l.
(** CAN_SCHEDULE, 71 *)
Definition can_schedule (t : ptask) : bool := match off t with [] => true | _ => gate t end.
Definition block (t : ptask) : ptask := mkptask (ps t) (ns t) (off t) (pg t) (ng t) (gate t) true.

(** The state: clause objects, the sets passive and archive, sym_map (with its keys), task_queue, decisions made *)
Record pstate := mkps { objs : list clause; passive : list nat; archive : list nat; tasks : sym -> option ptask; keys : list sym; queue : list sym; tick : nat }.
Definition set_task (st : pstate) (f : sym) (t : ptask) : pstate :=
  mkps (objs st) (passive st) (archive st) (fun g => if Nat.eqb g f then Some t else tasks st g) (if has f (keys st) then keys st else keys st ++ [f]) (queue st) (tick st).
Definition set_queue (st : pstate) (q : list sym) : pstate := mkps (objs st) (passive st) (archive st) (tasks st) (keys st) q (tick st).
Definition ticked (st : pstate) : pstate := mkps (objs st) (passive st) (archive st) (tasks st) (keys st) (queue st) (S (tick st)).

(** an atom with the predicate f: !EqnIsEquLit(lit) and lit->lterm->f_code == f *)
Definition atom_of (f : sym) (e : eqn) : bool := negb (equlit e) && match lt e with Fun g _ => Nat.eqb g f | Var _ => false end.

(** find_fcode_except, 277-289: is there one but the literal at position [j]? *)
Definition find_except (f : sym) (c : clause) (j : nat) : bool := existsb (atom_of f) (except j c).

(** unique_distinct_vars, 339-347 *)
Definition unique_distinct_vars (t : term) : option (list var) :=
  match t with
  | Fun _ a => match var_args a with
               | Some xs => if distinct xs then Some xs else None
               | None => None
               end
  | Var _ => None
  end.
(** potential_gate, 360-376, with term_vars_from_set, 303-322 *)
Definition potential_gate (c : clause) (j : nat) (e : eqn) : bool :=
  match unique_distinct_vars (lt e) with
  | Some xs => forallb (fun l => forallb (fun x => mem x xs) (vars (lt l) ++ vars (rt l))) (except j c)
  | None => false
  end.

Section Elim.
(** [alt]: VarBankGetAltVar; [eno], [max_neg]: see Taut.v; [n]: fuel of unification, instantiation and the tautology test *)
Variables (E : env) (alt : var -> var) (eno : term -> Z) (max_neg n : nat).
(** the decisions, see above *)
Variable heur : nat -> nat.
Definition yes (st : pstate) : bool := Nat.odd (heur (tick st)).

(** ** Finding the occurrences of predicates *)

(** which of the sets a clause belongs to *)
Definition add_single (s : bool) (i : nat) (t : ptask) : ptask :=
  if s then mkptask (store_cl i (ps t)) (ns t) (off t) (pg t) (ng t) (gate t) (blocked t)
  else mkptask (ps t) (store_cl i (ns t)) (off t) (pg t) (ng t) (gate t) (blocked t).
Definition add_gate (s : bool) (i : nat) (t : ptask) : ptask :=
  if s then mkptask (ps t) (ns t) (off t) (store_cl i (pg t)) (ng t) (gate t) (blocked t)
  else mkptask (ps t) (ns t) (off t) (pg t) (store_cl i (ng t)) (gate t) (blocked t).
Definition add_off (i : nat) (t : ptask) : ptask := mkptask (ps t) (ns t) (store_cl i (off t)) (pg t) (ng t) (gate t) (blocked t).

(** the body of the loop of scan_clause_for_predicates, 417-476, for the literal at position [j] of the clause [c] with number [i] *)
Definition scan_lit (gates : bool) (i : nat) (c : clause) (st : pstate) (j : nat) : pstate :=
  match nth_error c j with
  | None => st
  | Some e =>
      if equlit e then st
      else match lt e with
           | Var _ => st
           | Fun f _ =>
               let t0 := match tasks st f with Some t => t | None => mk_task end in
               let t1 := if yes st then block t0 else t0 in
               if blocked t1 then ticked (set_task st f t1)
               else let t2 := if find_except f c j then add_off i t1
                              else add_single (pos e) i (if gates && potential_gate c j e then add_gate (pos e) i t1 else t1) in
                    let st2 := ticked (set_task st f t2) in
                    if has f (queue st) && negb (can_schedule t2) then set_queue st2 (remove_cl f (queue st2)) else st2
           end
  end.
(** scan_clause_for_predicates, 410-483 *)
Definition scan (gates : bool) (st : pstate) (i : nat) (c : clause) : pstate := fold_left (scan_lit gates i c) (seq 0 (length c)) st.

(** ** Resolvents *)

(** find_lit_w_head, 634-661, with ANY_SIGN if [s] is [None]: the position of the first such literal *)
Fixpoint find_lit (f : sym) (s : option bool) (c : clause) : option nat :=
  match c with
  | [] => None
  | e :: c' => if match lt e with Fun g _ => Nat.eqb g f | Var _ => false end && match s with Some b => Bool.eqb b (pos e) | None => true end
               then Some 0 else option_map S (find_lit f s c')
  end.
(** EqnMap with inst_term, ccl_eqn.c:3423-3468, 678-681 *)
Definition eqn_map (b : binding) (e : eqn) : option eqn :=
  match inst n b (lt e), inst n b (rt e) with
  | Some l, Some r =>
      let h := eqn_alloc E l r (pos e) in
      let same := term_eqb (lt h) (lt e) in
      Some (mkeqn (lt h) (rt h) (pos h) (ori e && same) (uptodate e && same) (maxi e) (smaxi e) (sel e) (pseudo e))
  | _, _ => None
  end.
(** the literals of the two clauses but those resolved upon; the rest is collected in front, 654 *)
Definition rest (j : nat) (c : clause) : clause := rev (except j c).
Definition join_rests (b : binding) (P N : clause) (j k : nat) : option clause :=
  match mapo (eqn_map b) (rest j P), mapo (eqn_map b) (rest k N) with
  | Some x, Some y => Some (finish E (x ++ y))
  | _, _ => None
  end.
(** build_neq_resolvent, 683-734; [Some None]: not unifiable, NULL *)
Definition neq_resolvent (P N : clause) (f : sym) : option (option clause) :=
  let P' := disjoint E alt P in
  let N' := map (lit_copy E) N in
  match find_lit f (Some true) P', find_lit f (Some false) N' with
  | Some j, Some k =>
      match nth_error P' j, nth_error N' k with
      | Some p, Some q =>
          match mgu n (srt E) (pp E) start (lt q) (lt p) with
          | Success st => option_map Some (join_rests (bnd st) P' N' j k)
          | Failure _ => Some None
          | _ => None
          end
      | _, _ => None
      end
  | _, _ => None
  end.
(** build_eq_resolvent, 748-803.  Without assertions the result of SubstComputeMgu, 778, is not looked at. *)
Definition eq_resolvent (P N : clause) (f : sym) : option (option clause) :=
  let P' := disjoint E alt P in
  let N' := map (lit_copy E) N in
  match find_lit f (Some true) P', find_lit f (Some false) N' with
  | Some j, Some k =>
      match nth_error P' j, nth_error N' k with
      | Some p, Some q =>
          match unique_distinct_vars (lt p), unique_distinct_vars (lt q) with
          | None, None => Some (Some (finish E (rev (map (fun '(a, b) => eqn_alloc E a b false) (combine (args (lt p)) (args (lt q)))) ++ rest j P' ++ rest k N')))
          | _, _ => match mgu n (srt E) (pp E) start (lt p) (lt q) with
                    | Success st | Failure st => option_map Some (join_rests (bnd st) P' N' j k)
                    | _ => None
                    end
          end
      | _, _ => None
      end
  | _, _ => None
  end.
Definition resolver (eq : bool) : clause -> clause -> sym -> option (option clause) := if eq then eq_resolvent else neq_resolvent.

(** ClauseNormalizeVars, ccl_clauses.c:2438-2461, followed by EqnListMapTerms with reassign_vars, 79-82: the variables, in the order of
    their occurrence, become the first variables of their sorts (see norm_loop in Clauses.v) *)
Fixpoint assign (xs seen : list var) (cnt : counters) : subst :=
  match xs with
  | [] => Var
  | x :: xs' => let s := vsort (srt E) x in
                if has x seen then assign xs' seen cnt
                else fun z => if Nat.eqb z x then Var (prim (fresh E s (cnt s))) else assign xs' (x :: seen) (bump cnt s) z
  end.
Definition clause_vars (c : clause) : list var := flat_map (fun e => vars (lt e) ++ vars (rt e)) c.
Definition norm_lit (s : subst) (e : eqn) : eqn :=
  let h := eqn_alloc E (Terms.app s (lt e)) (Terms.app s (rt e)) (pos e) in
  mkeqn (lt h) (rt h) (pos h) (ori e) (uptodate e && ori e) (maxi e) (smaxi e) (sel e) (pseudo e).
Definition normalize (c : clause) : clause := map (norm_lit (assign (clause_vars c) [] reset)) c.

(** ClauseIsTautology *)
Definition taut (c : clause) : option bool := match clause_is_tautology eno max_neg E n c with TAns b => Some b | _ => None end.

(** ** Gates *)

(** SatClauseSetCheckAndGetCore, ccl_satinterface.c: the positions of an unsatisfiable core *)
Variable core : list clause -> option (list nat).
(** the pairs of gate clauses that check_tautologies resolves *)
Variable pairs : list nat -> list nat -> list (nat * nat).
(** check_tautologies, 831-842: the inner loop runs over i instead of j, so that its body is only ever executed for the first two clauses; the
    outer loop ends with it or stops doing anything once a resolvent is not a tautology *)
Definition code_pairs (p q : list nat) : list (nat * nat) :=
  match p, q with
  | a :: _, b :: _ => [(a, b)]
  | _, _ => []
  end.
Definition all_pairs (p q : list nat) : list (nat * nat) := flat_map (fun a => map (fun b => (a, b)) q) p.

(** the clauses given to the SAT solver, check_unsat_and_tauto, 896-937: the rest of a copy of the pivot, the rests of the others with the
    variables of the pivot's literal *)
Definition gate_rest (f : sym) (zs : list var) (c : clause) : option clause :=
  match find_lit f None c with
  | Some k => match nth_error c k with
              | Some e => match var_args (args (lt e)) with
                          | Some ys => Some (clause_alloc (map (fun l => eqn_alloc E (Terms.app (zip_subst ys (map Var zs)) (lt l)) (Terms.app (zip_subst ys (map Var zs)) (rt l)) (pos l)) (except k c)))
                          | None => None
                          end
              | None => None
              end
  | None => None
  end.
Definition pivot_rest (f : sym) (c : clause) : option (list var * clause) :=
  let c' := disjoint E alt c in
  match find_lit f None c' with
  | Some k => match nth_error c' k with
              | Some e => match var_args (args (lt e)) with
                          | Some zs => Some (zs, rest k c')
                          | None => None
                          end
              | None => None
              end
  | None => None
  end.
Definition obj (st : pstate) (i : nat) : clause := nth i (objs st) [].
Definition is_pos (f : sym) (c : clause) : bool :=
  match find_lit f None c with Some k => match nth_error c k with Some e => pos e | None => false end | None => false end.
Definition not_gate (t : ptask) : ptask := mkptask (ps t) (ns t) (off t) [] [] false (blocked t).
Definition taut_pair (st : pstate) (f : sym) (p : nat * nat) : option bool :=
  match neq_resolvent (obj st (fst p)) (obj st (snd p)) f with
  | Some (Some r) => taut r
  | _ => None
  end.
(** check_tautologies, 817-872, for the clauses in [ids] *)
Definition check_tautologies (st : pstate) (f : sym) (t : ptask) (ids : list nat) : option ptask :=
  let p := filter (fun i => is_pos f (obj st i)) ids in
  let q := filter (fun i => negb (is_pos f (obj st i))) ids in
  match forallo (taut_pair st f) (pairs p q) with
  | Some true => Some (mkptask (filter (fun i => negb (has i p)) (ps t)) (filter (fun i => negb (has i q)) (ns t)) (off t) p q true (blocked t))
  | Some false => Some (not_gate t)
  | None => None
  end.
(** check_unsat_and_tauto, 887-974 *)
Definition check_gate (st : pstate) (f : sym) (t : ptask) : option ptask :=
  match rev (pg t ++ ng t) with
  | [] => None
  | pivot :: others =>
      match pivot_rest f (obj st pivot) with
      | None => None
      | Some (zs, r) =>
          match mapo (fun i => gate_rest f zs (obj st i)) others with
          | None => None
          | Some rs =>
              match core (r :: rs) with
              | None => Some (not_gate t)
              | Some is => check_tautologies st f t (rev (flat_map (fun k => match nth_error (pivot :: others) k with Some i => [i] | None => [] end) is))
              end
          end
      end
  end.
(** update_gate_status, 990-1009 *)
Fixpoint update_gates (st : pstate) (fs : list sym) : option pstate :=
  match fs with
  | [] => Some st
  | f :: fs' =>
      match tasks st f with
      | None => update_gates st fs'
      | Some t =>
          match (match pg t, ng t with _ :: _, _ :: _ => check_gate st f t | _, _ => Some (not_gate t) end) with
          | Some t' => update_gates (set_task st f t') fs'
          | None => None
          end
      end
  end.

(** build_task_queue, 1028-1065; eqn_found: is there an equation? *)
Fixpoint scan_all (gates : bool) (st : pstate) (is : list nat) : pstate :=
  match is with
  | [] => st
  | i :: is' => scan_all gates (scan gates st i (obj st i)) is'
  end.
Definition schedulable (st : pstate) (f : sym) : bool := match tasks st f with Some t => can_schedule t | None => false end.
Definition build_queue (gates : bool) (N : list clause) : option pstate :=
  let st0 := mkps N (seq 0 (length N)) [] (fun _ => None) [] [] 0 in
  let st1 := scan_all gates st0 (passive st0) in
  match (if gates then update_gates st1 (keys st1) else Some st1) with
  | Some st2 => Some (set_queue st2 (filter (schedulable st2) (keys st2)))
  | None => None
  end.

(** ** Eliminating a predicate *)

(** do_singular_elimination, 1080-1111 *)
Definition resolve_pair (res : clause -> clause -> sym -> option (option clause)) (f : sym) (P N : clause) : option (list clause) :=
  match res P N f with
  | Some (Some r) => match taut r with
                     | Some true => Some []
                     | Some false => Some [r]
                     | None => None
                     end
  | Some None => Some []
  | None => None
  end.
Definition singular (res : clause -> clause -> sym -> option (option clause)) (st : pstate) (f : sym) (P N : list nat) : option (list clause) :=
  option_map (@concat clause) (mapo (fun p => resolve_pair res f (obj st (fst p)) (obj st (snd p))) (all_pairs P N)).

(** do_gates_against_offending, 1125-1184: what is pushed to cls, what is moved to the archive.  A clause of the worklist that comes from
    the task has no mark [true]. *)
Definition gate_res (f : sym) (sign : bool) (o g : clause) : option (list clause) :=
  match (if sign then neq_resolvent o g f else neq_resolvent g o f) with
  | Some (Some r) => match taut r with
                     | Some true => Some []
                     | Some false => Some [normalize r]
                     | None => None
                     end
  | _ => None
  end.
Fixpoint offending (fuel : nat) (f : sym) (pgs ngs : list clause) (work : list (bool * clause)) : option (list clause * list clause) :=
  match fuel with
  | O => match work with [] => Some ([], []) | _ => None end
  | S fuel' =>
      match work with
      | [] => Some ([], [])
      | (new, o) :: work' =>
          match List.find (atom_of f) o with
          | None => match offending fuel' f pgs ngs work' with
                    | Some (cls, arch) => Some (o :: cls, arch)
                    | None => None
                    end
          | Some e =>
              match mapo (gate_res f (pos e) o) (if pos e then ngs else pgs) with
              | None => None
              | Some rs => match offending fuel' f pgs ngs (map (fun r => (true, r)) (rev (concat rs)) ++ work') with
                           | Some (cls, arch) => Some (cls, if new then o :: arch else arch)
                           | None => None
                           end
              end
          end
      end
  end.

(** try_gate_elimination, 1200-1209, or try_singular_elimination, 1224-1229 *)
Definition new_clauses (fuel : nat) (eq : bool) (st : pstate) (f : sym) (t : ptask) : option (list clause * list clause) :=
  if gate t
  then match singular neq_resolvent st f (pg t) (ns t), singular neq_resolvent st f (ps t) (ng t),
             offending fuel f (map (obj st) (pg t)) (map (obj st) (ng t)) (map (fun i => (false, obj st i)) (rev (off t))) with
       | Some a, Some b, Some (c, arch) => Some (a ++ b ++ c, arch)
       | _, _, _ => None
       end
  else match singular (resolver eq) st f (ps t) (ns t) with
       | Some a => Some (a, [])
       | None => None
       end.

(** the body of the loop of react_clause_removed, 1265-1308.  [None]: there is no task, a null pointer is followed. *)
Definition react_lit (i : nat) (st : pstate) (e : eqn) : option pstate :=
  if equlit e then Some st
  else match lt e with
       | Var _ => None
       | Fun f _ =>
           match tasks st f with
           | None => None
           | Some t =>
               if blocked t then Some st
               else if has i (if pos e then pg t else ng t)
                    then let pg' := if pos e then remove_cl i (pg t) else pg t in
                         let ng' := if pos e then ng t else remove_cl i (ng t) in
                         let t' := mkptask (fold_right store_cl (ps t) pg') (fold_right store_cl (ns t) ng') (off t) [] [] false false in
                         let st' := set_task st f t' in
                         Some (if has f (queue st) && negb (can_schedule t') then set_queue st' (remove_cl f (queue st')) else st')
                    else let sing := if pos e then ps t else ns t in
                         let removed := has i sing || has i (off t) in
                         let t' := mkptask (if pos e then remove_cl i (ps t) else ps t) (if pos e then ns t else remove_cl i (ns t)) (remove_cl i (off t)) (pg t) (ng t) (gate t) false in
                         let st' := ticked (set_task st f t') in
                         Some (if removed && negb (has f (queue st)) && can_schedule t' && yes st then set_queue st' (queue st' ++ [f]) else st')
           end
       end.
Fixpoint react_removed (i : nat) (st : pstate) (c : clause) : option pstate :=
  match c with
  | [] => Some st
  | e :: c' => match react_lit i st e with Some st' => react_removed i st' c' | None => None end
  end.
(** remove_clauses_from_state, 1325-1345; ClauseSetMoveClause *)
Definition move (st : pstate) (i : nat) : pstate :=
  mkps (objs st) (remove_cl i (passive st)) (archive st ++ [i]) (tasks st) (keys st) (queue st) (tick st).
Fixpoint remove_all (st : pstate) (is : list nat) : option pstate :=
  match is with
  | [] => Some st
  | i :: is' => match react_removed i (move st i) (obj st i) with Some st' => remove_all st' is' | None => None end
  end.
Definition remove_clauses (st : pstate) (f : sym) (t : ptask) : option pstate :=
  remove_all (set_task st f (block t)) (rev (pg t ++ ng t ++ ps t ++ ns t ++ off t)).

(** a new clause object in the set passive, or in the archive *)
Definition insert (st : pstate) (c : clause) : pstate :=
  mkps (objs st ++ [c]) (passive st ++ [length (objs st)]) (archive st) (tasks st) (keys st) (queue st) (tick st).
Definition insert_archive (st : pstate) (c : clause) : pstate :=
  mkps (objs st ++ [c]) (passive st) (archive st ++ [length (objs st)]) (tasks st) (keys st) (queue st) (tick st).
(** 1425-1434, with react_clause_added, 1243-1246 *)
Definition add_clause (st : pstate) (c : clause) : pstate := let c' := normalize c in scan false (insert st c') (length (objs st)) c'.

(** MinHeapPopMinP: any task *)
Definition pop (st : pstate) : option (sym * pstate) :=
  match queue st with
  | [] => None
  | f :: _ => let i := Nat.modulo (heur (tick st)) (length (queue st)) in
              Some (nth i (queue st) f, ticked (set_queue st (except i (queue st))))
  end.

(** eliminate_predicates, 1398-1447; [wf]: fuel of the inner worklists; measure_decreases, 1361-1381, is a decision *)
Fixpoint eliminate (fuel wfuel : nat) (eq : bool) (st : pstate) : option pstate :=
  match fuel with
  | O => match queue st with [] => Some st | _ => None end
  | S fuel' =>
      match pop st with
      | None => Some st
      | Some (f, st1) =>
          match tasks st1 f with
          | None => None
          | Some t =>
              if blocked t then eliminate fuel' wfuel eq st1
              else match new_clauses wfuel eq st1 f t with
                   | None => None
                   | Some (cls, arch) =>
                       let st2 := fold_left insert_archive arch st1 in
                       if yes st2
                       then match remove_clauses (ticked st2) f t with
                            | None => None
                            | Some st3 => eliminate fuel' wfuel eq (fold_left add_clause (rev cls) st3)
                            end
                       else eliminate fuel' wfuel eq (ticked st2)
                   end
          end
      end
  end.

(** PredicateElimination, 1447-1480.  The variable eqn_found is not initialised, 1455, and never set to false: if there is no equation it has
    an arbitrary value, [junk]. *)
Definition has_equation (N : list clause) : bool := existsb (existsb equlit) N.
Definition predicate_elimination (fuel wfuel : nat) (gates junk : bool) (N : list clause) : option pstate :=
  match build_queue gates N with
  | Some st => eliminate fuel wfuel (has_equation N || junk) st
  | None => None
  end.
Definition clauses (st : pstate) (is : list nat) : list clause := map (obj st) is.
End Elim.
