(** * Model of clause selection: evaluations, evaluation trees, the heuristic control block.

    HEURISTICS/che_hcb.c, che_fifo.c, che_wfcb.c, CLAUSES/ccl_neweval.c, CLAUSES/ccl_clausesets.c, and their use in CONTROL/cco_proofproc.c and
    cco_forward_contraction.c.  A clause is an identifier: only its evaluations matter for selection. *)
From Verif Require Import Splay.
Open Scope Z_scope.

Definition cid := nat.

(** ** Evaluations *)

(** "heuristic" is a C float, and the value of a FIFO queue is counted in a double.  Adding 1.0 to a double: exact below 2^53, and
    2^53 + 1 is rounded (ties to even) to 2^53. *)
Definition dsucc (d : Z) : Z := if d <? 2 ^ 53 then d + 1 else d.
(** conversion of a non-negative integer to float: 24 significant bits, round to nearest, ties to even *)
Definition to_float (z : Z) : Z :=
  if z <? 2 ^ 24 then z
  else let s := Z.log2 z - 23 in
       let u := 2 ^ s in
       let q := z / u in
       let r := z mod u in
       u * (if (2 * r <? u) || ((2 * r =? u) && Z.even q) then q else q + 1).

(** PrioBest, PrioNormal, PrioLargestReasonable: ccl_neweval.h:44-48, clb_defines.h (MEGA) *)
Definition PrioBest : Z := 0.
Definition PrioNormal : Z := 40.
Definition MEGA : Z := 1048576.

(** WFCBCell, che_wfcb.h.  A FIFO queue has its own counter, named [id] (a heuristic can contain the same queue twice); its priority
    function is any function of the clause, [n] being the number of the evaluation (the clause may have changed since the last one).
    Any other weight function is an arbitrary function; its values are only compared, so they are integers here (NaN is not modelled). *)
Inductive wfun :=
| Fifo (id : nat) (prio : Z -> cid -> Z)
| Weight (prio : Z -> cid -> Z) (weight : Z -> cid -> Z).
Definition prio_of (w : wfun) : Z -> cid -> Z := match w with Fifo _ p => p | Weight p _ => p end.

(** EvalCell, ccl_neweval.h:59-66, without the links of the trees *)
Record evalcell := mkeval { ecount : Z; evals : list (Z * Z) }.
Definition key : Type := Z * Z * Z.
Definition ekey (i : nat) (e : evalcell) : key := let '(p, h) := nth i (evals e) (0, 0) in (p, h, ecount e).

(** EvalCompare, ccl_neweval.c:387-412 *)
Definition eval_cmp (a b : key) : comparison :=
  let '(p1, h1, c1) := a in let '(p2, h2, c2) := b in
  match Z.compare (p1 - p2) 0 with
  | Eq => match Z.compare (c1 - c2) 0 with
          | Eq => Eq
          | r => match Z.compare h1 h2 with Eq => r | x => x end
          end
  | x => x
  end.
Notation etree := (tree key cid).

(** EvalTreeFindSmallest, ccl_neweval.c:571-584.  EvalTreeInsert (430-459), EvalTreeExtractEntry (504-529) and splay_tree (76-145) are the
    functions of Splay.v with this comparison. *)
Fixpoint min_node (t : etree) : option (key * cid) :=
  match t with Leaf => None | Node Leaf k v _ => Some (k, v) | Node l _ _ _ => min_node l end.

(** ** The heuristic control block *)

(** HCBCell: wfcb_list and select_switch *)
Record hcb := mkhcb { h_list : list wfun; h_switch : list Z }.
(** HCBAlloc, che_hcb.c:782-796 *)
Definition hcb_alloc : hcb := mkhcb [] [].
(** HCBAddWFCB, che_hcb.c:839-857; the parser only passes positive steps (che_hcbadmin.c:64-71) *)
Definition hcb_add (h : hcb) (w : wfun) (steps : Z) : hcb :=
  let no := length (h_list h) in
  let steps := if Nat.eqb no 0 then steps else steps + nth (no - 1) (h_switch h) 0 in
  mkhcb (h_list h ++ [w]) (h_switch h ++ [steps]).
Definition hcb_of (qs : list (wfun * Z)) : hcb := fold_left (fun h q => hcb_add h (fst q) (snd q)) qs hcb_alloc.
(** PDArrayElementInt: elements that have not been assigned are 0 (clb_pdarrays.c:104-107, 146-178) *)
Definition switch (h : hcb) (i : nat) : Z := nth i (h_switch h) 0.

(** The set of unprocessed clauses (list and evaluation trees), current_eval and select_count of the HCB, EvaluationCounter, and the
    counters of the FIFO queues. *)
Record sstate := mks {
  u_list : list (cid * evalcell);
  u_trees : nat -> etree;
  s_cur : nat;
  s_cnt : Z;
  s_evals : Z;
  s_fifo : nat -> Z }.
Definition init : sstate := mks [] (fun _ => Leaf) 0 0 0 (fun _ => 0).

(** HCBClauseEvaluate, che_hcb.c:873-889, ClauseAddEvaluation, che_wfcb.c:104-116, FIFOEvalCompute, che_fifo.c:109-115 *)
Fixpoint eval_queues (n : Z) (c : cid) (empty : bool) (ws : list wfun) (ff : nat -> Z) : list (Z * Z) * (nat -> Z) :=
  match ws with
  | [] => ([], ff)
  | w :: ws' =>
      let '(v, ff1) := match w with
                       | Fifo id _ => (to_float (dsucc (ff id)), fun j => if Nat.eqb j id then dsucc (ff id) else ff j)
                       | Weight _ g => (g n c, ff)
                       end in
      let p := if empty then PrioBest else prio_of w n c in
      let '(r, ff2) := eval_queues n c empty ws' ff1 in
      ((p, v) :: r, ff2)
  end.
(** EvalsAlloc, ccl_neweval.c:168-175 *)
Definition evaluate (h : hcb) (st : sstate) (c : cid) (empty : bool) : evalcell * sstate :=
  let '(r, ff) := eval_queues (s_evals st) c empty (h_list h) (s_fifo st) in
  (mkeval (s_evals st) r, mks (u_list st) (u_trees st) (s_cur st) (s_cnt st) (s_evals st + 1) ff).
(** EvalListChangePriority, ccl_neweval.c:322-331 *)
Definition change_priority (e : evalcell) (d : Z) : evalcell := mkeval (ecount e) (map (fun q => (fst q + d, snd q)) (evals e)).

(** ClauseSetInsert, ccl_clausesets.c:465-494 *)
Definition insert_entry (st : sstate) (c : cid) (e : evalcell) : sstate :=
  mks (u_list st ++ [(c, e)])
      (fun i => if Nat.ltb i (length (evals e)) then snd (insert key cid eval_cmp (u_trees st i) (ekey i e) c) else u_trees st i)
      (s_cur st) (s_cnt st) (s_evals st) (s_fifo st).
(** clause_set_extract_entry, ccl_clausesets.c:269-296; a clause that is not in the set: nothing *)
Definition extract_entry (st : sstate) (c : cid) : sstate :=
  match List.find (fun q => Nat.eqb (fst q) c) (u_list st) with
  | None => st
  | Some (_, e) =>
      mks (filter (fun q => negb (Nat.eqb (fst q) c)) (u_list st))
          (fun i => if Nat.ltb i (length (evals e)) then snd (extract key cid eval_cmp (u_trees st i) (ekey i e)) else u_trees st i)
          (s_cur st) (s_cnt st) (s_evals st) (s_fifo st)
  end.
(** ClauseSetFindBest, ccl_clausesets.c:760-778 *)
Definition find_best (st : sstate) (i : nat) : option cid := option_map snd (min_node (u_trees st i)).

(** the loop over orphans of HCBStandardClauseSelect and HCBSingleWeightClauseSelect, che_hcb.c:907-913, 945-951; the orphans that are
    removed are returned.  [None] = fuel exhausted *)
Fixpoint skip_orphans (fuel : nat) (orph : cid -> bool) (st : sstate) : option (option cid * sstate * list cid) :=
  match fuel with
  | O => None
  | S n => match find_best st (s_cur st) with
           | None => Some (None, st, [])
           | Some c => if orph c
                       then match skip_orphans n orph (extract_entry st c) with
                            | None => None
                            | Some (r, st', l) => Some (r, st', c :: l)
                            end
                       else Some (Some c, st, [])
           end
  end.
(** the rest of HCBStandardClauseSelect, che_hcb.c:914-924 *)
Fixpoint next_eval (fuel : nat) (h : hcb) (cnt : Z) (cur : nat) : option nat :=
  match fuel with
  | O => None
  | S n => if cnt =? switch h cur then next_eval n h cnt (S cur) else Some cur
  end.
Definition advance (h : hcb) (st : sstate) : option sstate :=
  let cnt := s_cnt st + 1 in
  match next_eval (S (S (length (h_list h)))) h cnt (s_cur st) with
  | None => None
  | Some cur => Some (if Nat.eqb cur (length (h_list h))
                      then mks (u_list st) (u_trees st) 0 0 (s_evals st) (s_fifo st)
                      else mks (u_list st) (u_trees st) cur cnt (s_evals st) (s_fifo st))
  end.
(** HCBStandardClauseSelect, che_hcb.c:903-926; HCBSingleWeightClauseSelect, 941-954, if there is one weight function (853-854) *)
Definition hcb_select (h : hcb) (orph : cid -> bool) (st : sstate) : option (option cid * sstate * list cid) :=
  match skip_orphans (S (length (u_list st))) orph st with
  | None => None
  | Some (r, st1, l) =>
      if Nat.eqb (length (h_list h)) 1 then Some (r, st1, l)
      else match advance h st1 with None => None | Some st2 => Some (r, st2, l) end
  end.

(** ClauseSetRemoveEvaluations, ccl_clausesets.c:1444-1458, and ClauseSetReweight, cco_forward_contraction.c:450-475; [sf]: the clauses
    that are semantically false now *)
Definition insert_new (h : hcb) (sf : cid -> bool) (st : sstate) (c : cid) : sstate :=
  let '(e, st1) := evaluate h st c (sf c) in insert_entry st1 c e.
Definition reweight (h : hcb) (sf : cid -> bool) (st : sstate) : sstate :=
  fold_left (insert_new h sf) (map fst (u_list st)) (mks [] (fun _ => Leaf) (s_cur st) (s_cnt st) (s_evals st) (s_fifo st)).

(** the end of insert_new_clauses, cco_proofproc.c:763-775: the new clauses are evaluated, then inserted *)
Fixpoint evaluate_all (h : hcb) (st : sstate) (cs : list (cid * bool)) : list (cid * evalcell) * sstate :=
  match cs with
  | [] => ([], st)
  | (c, empty) :: cs' => let '(e, st1) := evaluate h st c empty in let '(r, st2) := evaluate_all h st1 cs' in ((c, e) :: r, st2)
  end.
Definition insert_batch (h : hcb) (st : sstate) (cs : list (cid * bool)) : sstate :=
  let '(r, st1) := evaluate_all h st cs in fold_left (fun s q => insert_entry s (fst q) (snd q)) r st1.

(** ** Histories *)
Inductive op :=
| ONew (cs : list (cid * bool))          (* insert_new_clauses; the flag: ClauseIsSemFalse *)
| OInitial (c : cid) (empty : bool)      (* ProofStateInit, cco_proofproc.c:1499-1512, ProofStateResetProcessedSet, 1226-1234, with prefer_initial_clauses *)
| ODelete (c : cid)                      (* any deletion of an unprocessed clause *)
| OReweight (sf : list cid)              (* cleanup_unprocessed_clauses, cco_proofproc.c:912 *)
| OOtherEval                             (* evaluation of some other clause set with another heuristic: uses up a number *)
| OSelect (orph : cid -> bool).          (* ProcessClause, cco_proofproc.c:1567-1586 *)
Inductive event := Selected (c : cid) | Removed (c : cid).

Definition memb (l : list cid) (c : cid) : bool := existsb (Nat.eqb c) l.
(** [None] = fuel exhausted *)
Definition step (h : hcb) (st : sstate) (o : op) : option (sstate * list event) :=
  match o with
  | ONew cs => Some (insert_batch h st cs, [])
  | OInitial c empty => let '(e, st1) := evaluate h st c empty in Some (insert_entry st1 c (change_priority e (- MEGA)), [])
  | ODelete c => Some (extract_entry st c, [Removed c])
  | OReweight sf => Some (reweight h (memb sf) st, [])
  | OOtherEval => Some (mks (u_list st) (u_trees st) (s_cur st) (s_cnt st) (s_evals st + 1) (s_fifo st), [])
  | OSelect orph =>
      match hcb_select h orph st with
      | None => None
      | Some (None, st1, l) => Some (st1, map Removed l)
      | Some (Some c, st1, l) => Some (extract_entry st1 c, map Removed l ++ [Selected c])
      end
  end.
Fixpoint run (h : hcb) (st : sstate) (os : list op) : option (sstate * list event) :=
  match os with
  | [] => Some (st, [])
  | o :: os' => match step h st o with
                | None => None
                | Some (st1, ev) => match run h st1 os' with None => None | Some (st2, ev') => Some (st2, ev ++ ev') end
                end
  end.

(** ** Specification vocabulary *)

(** the clauses waiting for selection *)
Definition waiting (st : sstate) : list cid := map fst (u_list st).
(** a clause is put into the set only if it is not there *)
Definition op_ok (st : sstate) (o : op) : Prop :=
  match o with
  | ONew cs => NoDup (map fst cs) /\ forall c, In c (map fst cs) -> ~ In c (waiting st)
  | OInitial c _ => ~ In c (waiting st)
  | _ => True
  end.
Fixpoint run_ok (h : hcb) (st : sstate) (os : list op) : Prop :=
  match os with
  | [] => True
  | o :: os' => op_ok st o /\ match step h st o with None => True | Some (st1, _) => run_ok h st1 os' end
  end.
Definition is_select (o : op) : bool := match o with OSelect _ => true | _ => false end.
Definition selections (os : list op) : nat := length (filter is_select os).
(** how many clauses an operation can put before older ones: initial clauses and clauses that are semantically false *)
Definition preferred (o : op) : nat :=
  match o with
  | ONew cs => length (filter snd cs)
  | OInitial _ _ => 1
  | OReweight sf => length sf
  | _ => 0
  end.
Definition all_preferred (os : list op) : nat := list_sum (map preferred os).
(** the length of one round of the queues *)
Definition round (qs : list (wfun * Z)) : Z := fold_right Z.add 0 (map snd qs).
(** the queue used by each selection of a history *)
Fixpoint turns (h : hcb) (st : sstate) (os : list op) : list nat :=
  match os with
  | [] => []
  | o :: os' => (if is_select o then [s_cur st] else []) ++ match step h st o with Some (st1, _) => turns h st1 os' | None => [] end
  end.
(** the states of the set during a proof search with heuristic [h] *)
Definition reachable (h : hcb) (st : sstate) : Prop := exists os ev, run_ok h init os /\ run h init os = Some (st, ev).
(** lexicographic order of (priority, heuristic value, number of the evaluation): the better clause is smaller *)
Definition better (a b : key) : Prop :=
  let '(p1, h1, n1) := a in let '(p2, h2, n2) := b in p1 < p2 \/ p1 = p2 /\ (h1 < h2 \/ h1 = h2 /\ n1 < n2).
