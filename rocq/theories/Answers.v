(** * Model of the answers the prover gives to questions
    (CONTROL/cco_interpreted.c:60-193, CONTROL/cco_proofproc.c:1608-1620, CLAUSES/ccl_clauses.c:722-745, ccl_eqn.h:203-204, ccl_eqnlist.c:936-953).
    The question gets an answer literal before it is negated, see [annotate] in Pipeline.v; a clause of answer literals alone is an answer.
    Executable definitions only.  Printing is modelled up to the tuples of terms that are printed; the copy in extract_roots is not modelled. *)
From Verif Require Import Terms Unify Semantics Clauses CNF Pipeline Rewrite Saturate.
Local Open Scope nat_scope.

(** ClauseIsSemFalse, ccl_clauses.c:722-745: all literals are pseudo-literals, as in the empty clause *)
Definition sem_false (c : clause) : bool := forallb pseudo c.
(** EqnIsSimpleAnswer, ccl_eqn.h:203-204; [answer] is the code of $answer *)
Definition simple_answer (answer : sym) (e : eqn) : bool := match lt e with Fun f _ => Nat.eqb f answer | Var _ => false end.
(** EqnListRemoveSimpleAnswers, ccl_eqnlist.c:936-953, ClauseEvaluateAnswerLits, cco_interpreted.c:154-193 *)
Definition evaluate_answers (answer : sym) (c : clause) : clause := if sem_false c then filter (fun e => negb (simple_answer answer e)) c else c.
(** answer_lit_print, cco_interpreted.c:60-88: the printed tuple, [None] if the literal is printed as it is *)
Definition printed_tuple (answer : sym) (e : eqn) : option (list term) :=
  if pseudo e && simple_answer answer e then match lt e with Fun _ (Fun _ ts :: _) => Some ts | _ => None end else None.
(** ClausePrintAnswer, 109-137: what is printed for each literal; [None] if nothing is printed *)
Definition print_answer (answer : sym) (c : clause) : option (list (option (list term))) :=
  if sem_false c && negb (match c with [] => true | _ => false end) then Some (map (printed_tuple answer) c) else None.

Section Loop.
Variables (E : env) (K : conf) (P : policy) (n : nat) (answer : sym) (limit : Z).
(** the beginning of ProcessClause, cco_proofproc.c:1566-1606, as in [process_clause]: the given clause, contracted *)
Definition given (s : state) : option (state * option cl) :=
  let u := filter (fun c => negb (orphan P s c)) (unproc s) in
  match choose P s with
  | None => Some (set_unproc s u, None)
  | Some i =>
      match nth_error u i with
      | None => None
      | Some c0 => forward_contract E K P n true (fwd_csr K) (condensing K) FullRewrite (set_unproc s (except i u)) (mkcl (lits c0) (cdate c0) (limited c0) (irv c0) true)
      end
  end.
(** ProcessClause with the treatment of answers, 1608-1620: the state, the number of answers, the printed answer and its clause, the returned clause.
    If the limit is not reached, ProcessClause goes on as without answers. *)
Definition process_answers (count : Z) (s : state) : option (state * Z * option (clause * list (option (list term))) * option cl) :=
  match given s with
  | None => None
  | Some (s1, None) => Some (s1, count, None, None)
  | Some (s1, Some c1) =>
      if sem_false (lits c1)
      then let count' := (count + 1)%Z in
           let printed := option_map (pair (lits c1)) (print_answer answer (lits c1)) in
           if (match lits c1 with [] => true | _ => false end) || (limit <=? count')%Z
           then Some (s1, count', printed, Some (with_lits c1 (evaluate_answers answer (lits c1)) (limited c1)))
           else match process_clause E K P n s with Some (s', r) => Some (s', count', printed, r) | None => None end
      else match process_clause E K P n s with Some (s', r) => Some (s', count, None, r) | None => None end
  end.
(** Saturate, cco_proofproc.c:1738-1800, as in [saturate]: the state, the printed answers in order, the returned clause *)
Fixpoint saturate_answers (k : nat) (count : Z) (s : state) : option (state * list (clause * list (option (list term))) * option cl) :=
  match k with
  | 0 => Some (s, [], None)
  | S k' =>
      match unproc s with
      | [] => Some (s, [], None)
      | _ =>
          match process_answers count s with
          | None => None
          | Some (s1, count1, p, r1) =>
              let out := match p with Some a => [a] | None => [] end in
              match r1 with
              | Some e => Some (s1, out, Some e)
              | None =>
                  match cleanup E K P n s1 with
                  | None => None
                  | Some (s2, Some e) => Some (s2, out, Some e)
                  | Some (s2, None) => match saturate_answers k' count1 (tick s2) with Some (s3, l, r) => Some (s3, out ++ l, r) | None => None end
                  end
              end
          end
      end
  end.
End Loop.

(** ** Specification vocabulary *)

(** The questions among the formulas: a formula that asks for something, with its outermost existential quantifiers xs and its body b.  The k-th of them gets
    the code n + k, counted from 0, for the function symbol that collects the answers. *)
Fixpoint questions (caq : bool) (n : sym) (ws : list wformula) : list (sym * list var * form) :=
  match ws with
  | [] => []
  | (r, f) :: ws' =>
      if is_question caq r then match leading f with ([], _) => questions caq n ws' | (xs, b) => (n, xs, b) :: questions caq (S n) ws' end
      else questions caq n ws'
  end.
(** What is to be proved but asks for nothing. *)
Definition plain (caq : bool) (ws : list wformula) (f : form) : Prop :=
  exists r, In (r, f) ws /\ to_prove caq r /\ (is_question caq r = false \/ fst (leading f) = []).
(** The terms ts, valued by v, are a solution of: for which xs is b true? *)
Definition solves (S : sorting) (M : structure) (v : var -> dom M) (xs : list var) (b : form) (ts : list term) : Prop :=
  exists w, respects S M w /\ map w xs = map (eval M v) ts /\ sem S M w b.
(** The clause consists of answers to these questions. *)
Definition answers_to (answer : sym) (Q : list (sym * list var * form)) (c : clause) : Prop :=
  forall e, In e c -> pos e = true /\ rt e = ttrue /\ exists k xs b ts, In (k, xs, b) Q /\ lt e = Fun answer [Fun k ts].
