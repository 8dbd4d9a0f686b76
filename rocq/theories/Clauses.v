(** * Model of literals, clauses and instantiating copies
    (CLAUSES/ccl_eqn.c, ccl_eqnlist.c, ccl_clauses.c, TERMS/cte_subst.c, cte_termbanks.c,
    cte_replace.c).  First-order build; executable definitions only. *)
From Verif Require Import Terms Unify Semantics.

(** EqnCell, CLAUSES/ccl_eqn.h:78-86, with the properties (ccl_eqn.h:38-71) that the modelled
    code reads: EPIsPositive, EPIsOriented, EPMaxIsUpToDate, EPIsMaximal, EPIsStrictlyMaximal,
    EPIsSelected, EPPseudoLit.  EPIsEquLiteral is the function [equlit] below: EqnAlloc sets it iff
    the right side is not $true, and instantiation cannot change that as no variable has the sort
    of the truth values.  Other properties (heuristic marks) are not modelled. *)
Record eqn := mkeqn {
  lt : term; rt : term; pos : bool;
  ori : bool; uptodate : bool; maxi : bool; smaxi : bool; sel : bool; pseudo : bool }.

(** Clause_p->literals, ccl_clauses.h:60-90; the counters pos_lit_no/neg_lit_no are functions of it. *)
Notation clause := (list eqn).

(** What the functions below read from the term bank, the signature and the variable banks:
    sorts, TPPredPos marking, distinct_props (cte_signature.h:190-200), FPPseudoPred, and the
    k-th variable of a sort in the bank of fresh variables. *)
Record env := {
  srt : sorting;
  pp : sym -> bool;
  dist : sym -> bool;
  pspred : sym -> bool;
  fresh : sort -> nat -> var }.

(** Variable cells.  The two variable banks are paired (VarBankPairShadow, cte_termvars.c:193-230,
    ccl_proofstate.c:154): primary cell 2k and fresh ("shadow") cell 2k+1 carry the same f_code.
    TBInsert maps a cell to the primary cell with its f_code (VarBankVarAssertAlloc). *)
Definition is_fresh (x : var) : bool := Nat.odd x.
Definition prim (x : var) : var := Nat.double (Nat.div2 x).

(** EqnIsEquLit, ccl_eqn.h:157 *)
Definition equlit (e : eqn) : bool := negb (term_eqb (rt e) ttrue).

(** EqnAlloc, ccl_eqn.c:613-682. *)
Definition eqn_alloc (E : env) (l r : term) (p : bool) : eqn :=
  let '(l1, p1) := if term_eqb l tfalse then (ttrue, negb p) else (l, p) in
  let '(r1, p2) := if term_eqb r tfalse then (ttrue, negb p1) else (r, p1) in
  let '(l2, r2) := if term_eqb l1 ttrue then (r1, l1) else (l1, r1) in
  mkeqn l2 r2 p2 false false false false false
    (term_eqb r2 ttrue && match l2 with Fun f _ => pspred E f | Var _ => false end).

(** The property assignment at the end of EqnCopyOpt/EqnCopyRepl/EqnCopyReplPlain,
    ccl_eqn.c:1516-1520: sign from the new cell, everything else from the old one, then
    EPMaxIsUpToDate and EPIsOriented deleted. *)
Definition copy_props (h e : eqn) : eqn :=
  mkeqn (lt h) (rt h) (pos h) false false (maxi e) (smaxi e) (sel e) (pseudo e).

(** [mapo]: a C loop that stops when a step does not return. *)
Fixpoint mapo {A B} (f : A -> option B) (l : list A) : option (list B) :=
  match l with
  | [] => Some []
  | a :: l' => match f a with
               | None => None
               | Some b => match mapo f l' with None => None | Some bs => Some (b :: bs) end
               end
  end.

(** TBInsert, TBInsertNoProps, TBInsertOpt with DEREF_ALWAYS, cte_termbanks.c:862-896, 1005-1055:
    copy the term with all bindings followed.  (TBInsertOpt only skips ground terms.)
    [None] = fuel exhausted. *)
Fixpoint inst (fuel : nat) (b : binding) (t : term) : option term :=
  match fuel with
  | O => None
  | S n =>
    match deref n b t with
    | None => None
    | Some (Var y) => Some (Var (prim y))
    | Some (Fun f args) => match mapo (inst n b) args with
                           | None => None
                           | Some l => Some (Fun f l)
                           end
    end
  end.

(** TBInsertRepl with DEREF_ALWAYS, cte_termbanks.c:1101-1142: the same, but a subterm identical to
    [old] (compared before dereferencing) is replaced by [repl]. *)
Fixpoint inst_repl (fuel : nat) (b : binding) (old repl : term) (t : term) : option term :=
  match fuel with
  | O => None
  | S n =>
    if term_eqb t old then Some repl else
    match deref n b t with
    | None => None
    | Some (Var y) => Some (Var (prim y))
    | Some (Fun f args) => match mapo (inst_repl n b old repl) args with
                           | None => None
                           | Some l => Some (Fun f l)
                           end
    end
  end.

(** TBInsertReplPlain, cte_termbanks.c:1156-1205: no bindings, early exit on weight. *)
Fixpoint repl_plain (old repl t : term) : term :=
  if term_eqb t old then repl
  else if (stdweight t <=? stdweight old)%Z then t
  else match t with
       | Var _ => t
       | Fun f args => Fun f (map (repl_plain old repl) args)
       end.

(** Subterm at a position (TermPosGetSubterm, cte_termpos.c) and replacement at a position
    (TBTermPosReplace, cte_replace.c:166-237: top copies along the path with the new argument).
    A position is the list of argument indices from the root.  [None]: args[i] out of range. *)
Fixpoint subterm_at (t : term) (p : list nat) : option term :=
  match p with
  | [] => Some t
  | i :: p' => match t with
               | Var _ => None
               | Fun f args => match nth_error args i with
                               | None => None
                               | Some a => subterm_at a p'
                               end
               end
  end.

Fixpoint set_nth (l : list term) (i : nat) (a : term) : list term :=
  match l, i with
  | [], _ => []
  | _ :: l', O => a :: l'
  | x :: l', S j => x :: set_nth l' j a
  end.

Fixpoint replace_at (t : term) (p : list nat) (r : term) : option term :=
  match p with
  | [] => Some r
  | i :: p' => match t with
               | Var _ => None
               | Fun f args => match nth_error args i with
                               | None => None
                               | Some a => match replace_at a p' r with
                                           | None => None
                                           | Some a' => Some (Fun f (set_nth args i a'))
                                           end
                               end
               end
  end.

(** SubstNormTerm, cte_subst.c:154-184.  [cnt s] is the position of the next fresh variable of sort
    s (VarBankGetFreshVar, cte_termvars.c:556-583).  TPSpecialFlag is set on every fresh variable
    handed out and on no other cell, hence [is_fresh].  [None] = fuel exhausted. *)
Definition counters := sort -> nat.
Definition bump (c : counters) (s : sort) : counters := fun s' => if Nat.eqb s s' then S (c s') else c s'.
Definition nstate := (bstate * counters)%type.

Fixpoint norm_loop (fuel : nat) (E : env) (ns : nstate) (stack : list term) : option nstate :=
  match fuel with
  | O => None
  | S n =>
    match stack with
    | [] => Some ns
    | t :: rest =>
      match deref n (bnd (fst ns)) t with
      | None => None
      | Some (Var x) =>
          if is_fresh x then norm_loop n E ns rest
          else let s := vsort (srt E) x in
               norm_loop n E (add_binding (fst ns) x (Var (fresh E s (snd ns s))), bump (snd ns) s) rest
      | Some (Fun f args) => norm_loop n E ns (args ++ rest)
      end
    end
  end.

Definition norm_term (fuel : nat) (E : env) (ns : nstate) (t : term) : option nstate := norm_loop fuel E ns [t].

(** SubstNormEqn, ccl_eqn.c:2661-2669 *)
Definition norm_eqn (fuel : nat) (E : env) (ns : nstate) (e : eqn) : option nstate :=
  match norm_term fuel E ns (lt e) with
  | None => None
  | Some ns1 => norm_term fuel E ns1 (rt e)
  end.

(** NormSubstEqnList / NormSubstEqnListExcept, ccl_eqnlist.c:1634-1648; the literals to be skipped
    have been removed from the list. *)
Fixpoint norm_eqns (fuel : nat) (E : env) (ns : nstate) (l : list eqn) : option nstate :=
  match l with
  | [] => Some ns
  | e :: l' => match norm_eqn fuel E ns e with
               | None => None
               | Some ns1 => norm_eqns fuel E ns1 l'
               end
  end.

(** "list != except": the literals except the one at index i. *)
Fixpoint except {A} (i : nat) (l : list A) : list A :=
  match l, i with
  | [], _ => []
  | _ :: l', O => l'
  | e :: l', S j => e :: except j l'
  end.

(** EqnCopyOpt, ccl_eqn.c:1504-1523 *)
Definition copy_opt (fuel : nat) (E : env) (b : binding) (e : eqn) : option eqn :=
  match inst fuel b (lt e), inst fuel b (rt e) with
  | Some l, Some r => Some (copy_props (eqn_alloc E l r (pos e)) e)
  | _, _ => None
  end.

(** EqnCopyRepl, ccl_eqn.c:1433-1452 *)
Definition copy_repl (fuel : nat) (E : env) (b : binding) (old repl : term) (e : eqn) : option eqn :=
  match inst_repl fuel b old repl (lt e), inst_repl fuel b old repl (rt e) with
  | Some l, Some r => Some (copy_props (eqn_alloc E l r (pos e)) e)
  | _, _ => None
  end.

(** EqnCopyReplPlain, ccl_eqn.c:1467-1487 *)
Definition copy_repl_plain (E : env) (old repl : term) (e : eqn) : eqn :=
  copy_props (eqn_alloc E (repl_plain old repl (lt e)) (repl_plain old repl (rt e)) (pos e)) e.

(** EqnIsTrivial, ccl_eqn.h:256 (pointer comparison of shared terms) *)
Definition eqn_trivial (e : eqn) : bool := term_eqb (lt e) (rt e).

(** EqnTermsAreDistinct, ccl_eqn.c:1593-1606 *)
Definition terms_distinct (E : env) (e : eqn) : bool :=
  match lt e, rt e with
  | Fun f [], Fun g [] => dist E f && dist E g && negb (Nat.eqb f g)
  | _, _ => false
  end.

(** EqnIsTrue, EqnIsFalse, ccl_eqn.c:1621-1650 *)
Definition eqn_is_true (E : env) (e : eqn) : bool := if pos e then eqn_trivial e else terms_distinct E e.
Definition eqn_is_false (E : env) (e : eqn) : bool := if pos e then terms_distinct E e else eqn_trivial e.

(** EqnListRemoveResolved, ccl_eqnlist.c:871-888 *)
Definition remove_resolved (E : env) (l : list eqn) : list eqn := filter (fun e => negb (eqn_is_false E e)) l.

(** LiteralSyntaxCompare(e1,e2) == 0, ccl_eqn.c:2289-2370: same sign, same equational status, same
    larger and same smaller entry number, i.e. the same unordered pair of shared terms. *)
Definition lit_same (e1 e2 : eqn) : bool :=
  Bool.eqb (pos e1) (pos e2) &&
  ((term_eqb (lt e1) (lt e2) && term_eqb (rt e1) (rt e2)) ||
   (term_eqb (lt e1) (rt e2) && term_eqb (rt e1) (lt e2))).

(** EqnListRemoveDuplicates, ccl_eqnlist.c:829-855.  [seen] is the content of the splay tree
    (PTreeObjStore refuses an element that compares equal to a stored one; C26). *)
Fixpoint remove_dups_from (seen : list eqn) (l : list eqn) : list eqn :=
  match l with
  | [] => []
  | e :: l' => if existsb (lit_same e) seen then remove_dups_from seen l'
               else e :: remove_dups_from (e :: seen) l'
  end.
Definition remove_dups (l : list eqn) : list eqn := remove_dups_from [] l.

(** ClauseAlloc, ccl_clauses.c:298-329: positive literals first, both groups in order. *)
Definition clause_alloc (l : list eqn) : clause := filter pos l ++ filter (fun e => negb (pos e)) l.

(** EqnListRemoveResolved; EqnListRemoveDuplicates; ClauseAlloc: the common end of all inferences. *)
Definition finish (E : env) (l : list eqn) : clause := clause_alloc (remove_dups (remove_resolved E l)).

(** EqnListFindTrue, ccl_eqnlist.c:997-1010 *)
Definition find_true (E : env) (l : list eqn) : bool := existsb (eqn_is_true E) l.

(** EqnSwapSidesSimple, ccl_eqn.c:1315-1322 *)
Definition swap_sides (e : eqn) : eqn :=
  mkeqn (rt e) (lt e) (pos e) (ori e) (uptodate e) (maxi e) (smaxi e) (sel e) (pseudo e).

(** ** Specification vocabulary *)

(** The literal holds under a valuation; a clause is true when under every valuation one of its
    literals holds. *)
Definition holds (M : structure) (v : var -> dom M) (e : eqn) : Prop := lit_holds M v (pos e) (lt e) (rt e).
Definition clause_true (S : sorting) (M : structure) (c : clause) : Prop :=
  forall v, respects S M v -> Exists (holds M v) c.

(** Well-formed literals: well-sorted terms, both sides of the same sort, no fresh cells. *)
Definition primary (t : term) : Prop := forall x, In x (vars t) -> is_fresh x = false.
Definition eqn_ok (E : env) (e : eqn) : Prop :=
  wf (srt E) (lt e) /\ wf (srt E) (rt e) /\ tsort (srt E) (lt e) = tsort (srt E) (rt e)
  /\ primary (lt e) /\ primary (rt e).
Definition clause_ok (E : env) (c : clause) : Prop := Forall (eqn_ok E) c.

(** The pairing of the variable banks; truth constants are constants of one sort. *)
Record env_ok (E : env) : Prop := {
  eo_prim : forall x, vsort (srt E) (prim x) = vsort (srt E) x;
  eo_fresh_cell : forall s k, is_fresh (fresh E s k) = true;
  eo_fresh_sort : forall x k, vsort (srt E) (fresh E (vsort (srt E) x) k) = vsort (srt E) x;
  eo_fresh_inj : forall s k k', fresh E s k = fresh E s k' -> k = k';
  eo_true : fargs (srt E) true_code = [];
  eo_false : fargs (srt E) false_code = [];
  eo_tf : fres (srt E) true_code = fres (srt E) false_code }.

(** [d] is true in every interpretation (with equality) in which all clauses of [ps] are true. *)
Definition follows (E : env) (ps : list clause) (d : clause) : Prop :=
  forall M, model_ok (srt E) (dist E) M -> (forall c, In c ps -> clause_true (srt E) M c) -> clause_true (srt E) M d.
