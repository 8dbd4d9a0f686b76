(** * Model of the unfolding of equational definitions
    (CLAUSES/ccl_unfold_defs.c, ccl_eqn.c:1669-1724, ccl_clausesets.c:1541-1649, TERMS/cte_termfunc.c:2121-2191).
    First-order problems; executable definitions only.  Derivations, output and the TPTP types of clauses are not modelled. *)
From Verif Require Import Terms Unify Semantics Clauses Subsume Taut Split.
Local Open Scope nat_scope.

(** ** Recognition *)

Fixpoint var_args (l : list term) : option (list var) :=
  match l with
  | [] => Some []
  | Var x :: l' => option_map (cons x) (var_args l')
  | Fun _ _ :: _ => None
  end.
Fixpoint distinct (l : list var) : bool :=
  match l with
  | [] => true
  | x :: l' => negb (mem x l') && distinct l'
  end.
(** TermIsDefTerm, cte_termfunc.c:2121-2152: [Some (f, xs)] for f(xs).  The test of the weight, 2135, only anticipates that all arguments
    are variables. *)
Definition def_term (min_arity : nat) (t : term) : option (sym * list var) :=
  match t with
  | Var _ => None
  | Fun f args => if length args <? min_arity then None
                  else match var_args args with
                       | Some xs => if distinct xs then Some (f, xs) else None
                       | None => None
                       end
  end.
(** TermHasFCode, 2168-2191; in a first-order term a variable has no function code *)
Fixpoint has_fcode (f : sym) (t : term) : bool :=
  match t with
  | Var _ => false
  | Fun g args => Nat.eqb g f || existsb (has_fcode f) args
  end.
(** EqnHasUnboundVars, ccl_eqn.c:1669-1686: a variable of [other] that is not in [dom] *)
Definition unbound_vars (dom other : term) : bool := existsb (fun x => negb (mem x (vars dom))) (vars other).

(** A definition f(xs) = rhs *)
Record defn := mkdef { dsym : sym; dvars : list var; drhs : term }.
(** one half of EqnIsDefinition, 1709-1715 *)
Definition side_def (E : env) (min_arity : nat) (l r : term) : option defn :=
  match def_term min_arity l with
  | Some (f, xs) => if negb (pspred E f) && negb (has_fcode f r) && negb (unbound_vars l r) then Some (mkdef f xs r) else None
  | None => None
  end.
(** EqnIsDefinition, 1703-1724; the result stands for the side and what is read off it.  Note that an atom p(X) is the equation
    p(X) = $true. *)
Definition eqn_def (E : env) (min_arity : nat) (e : eqn) : option defn :=
  if negb (pos e) then None
  else match side_def E min_arity (lt e) (rt e) with
       | Some d => Some d
       | None => side_def E min_arity (rt e) (lt e)
       end.
(** ClauseIsEqDefinition, ccl_clauses.c:905-914 *)
Definition clause_def (E : env) (min_arity : nat) (c : clause) : option defn :=
  match c with [e] => eqn_def E min_arity e | _ => None end.

(** ** Unfolding *)

(** SubstMatchComplete(f(xs), f(args)) binds the i-th variable to the i-th argument (C04); TBInsertInstantiated then replaces variables
    by their bindings *)
Fixpoint zip_subst (xs : list var) (args : list term) : subst :=
  match xs, args with
  | x :: xs', a :: args' => fun y => if Nat.eqb y x then a else zip_subst xs' args' y
  | _, _ => Var
  end.
(** term_unfold_def with term_top_unfold_def_fo, ccl_unfold_defs.c:56-75, 139-174: innermost first; a term none of whose arguments
    changed is not copied (terms are shared) *)
Fixpoint term_unfold (d : defn) (t : term) : term :=
  match t with
  | Var x => Var x
  | Fun g args => let args' := map (term_unfold d) args in
                  if Nat.eqb g (dsym d) then app (zip_subst (dvars d) args') (drhs d) else Fun g args'
  end.
(** eqn_unfold_def, 188-208 *)
Definition eqn_unfold (d : defn) (e : eqn) : eqn :=
  mkeqn (term_unfold d (lt e)) (term_unfold d (rt e)) (pos e) (ori e) (uptodate e) (maxi e) (smaxi e) (sel e) (pseudo e).
(** ClauseRemoveSuperfluousLiterals, ccl_clausefunc.c:233-273 *)
Definition remove_superfluous (E : env) (c : clause) : clause := remove_dups (remove_resolved E c).
(** ClauseUnfoldEqDef, 229-258: whether the stack of positions is not empty *)
Definition unfolds (d : defn) (c : clause) : bool := existsb (fun e => has_fcode (dsym d) (lt e) || has_fcode (dsym d) (rt e)) c.
(** the loop body of ClauseSetUnfoldEqDef, 274-308 *)
Definition clause_unfold (E : env) (d : defn) (c : clause) : clause :=
  if unfolds d c then remove_superfluous E (map (eqn_unfold d) c) else c.
Definition set_unfold (E : env) (d : defn) (l : list clause) : list clause := map (clause_unfold E d) l.

(** ClauseSetFindEqDefinition, ccl_clausesets.c:1615-1649: the clauses skipped, the definition, the clauses behind it *)
Fixpoint find_def (E : env) (min_arity : nat) (l : list clause) : option (list clause * clause * defn * list clause) :=
  match l with
  | [] => None
  | c :: l' => match clause_def E min_arity c with
               | Some d => Some ([], c, d, l')
               | None => match find_def E min_arity l' with
                         | Some (pre, c', d, post) => Some (c :: pre, c', d, post)
                         | None => None
                         end
               end
  end.
(** the weight test, 336-337; the defined side is rebuilt from the record *)
Definition small_enough (limit : Z) (d : defn) : bool :=
  (stdweight (drhs d) - stdweight (Fun (dsym d) (map Var (dvars d))) <=? limit)%Z.
(** ClauseSetUnfoldAllEqDefs, 324-352.  The list is split at the pointer [start]; [None]: out of fuel. *)
Fixpoint unfold_loop (E : env) (min_arity : nat) (limit : Z) (fuel : nat) (before rest passive archive : list clause)
    : option (list clause * list clause * list clause) :=
  match fuel with
  | O => None
  | S n => match find_def E min_arity rest with
           | None => Some (before ++ rest, passive, archive)
           | Some (pre, c, d, post) =>
               if small_enough limit d
               then unfold_loop E min_arity limit n (set_unfold E d (before ++ pre)) (set_unfold E d post) (set_unfold E d passive) (archive ++ [c])
               else unfold_loop E min_arity limit n (before ++ pre ++ [c]) post passive archive
           end
  end.
Definition unfold_all (E : env) (min_arity : nat) (limit : Z) (set passive : list clause) : option (list clause * list clause * list clause) :=
  unfold_loop E min_arity limit (S (length set)) [] set passive [].

(** ClauseSetFilterTautologies, ccl_clausesets.c:1541-1564; [None]: the tautology test does not answer (see Taut.v) *)
Fixpoint filter_taut (eno : term -> Z) (max_neg fuel : nat) (E : env) (l : list clause) : option (list clause) :=
  match l with
  | [] => Some []
  | c :: l' => match clause_is_tautology eno max_neg E fuel c, filter_taut eno max_neg fuel E l' with
               | TAns b, Some r => Some (if b then r else c :: r)
               | _, _ => None
               end
  end.
(** ClauseSetUnfoldEqDefNormalize, 397-413, without ClauseSetCanonize (which sorts literals and clauses).  [off]: eqdef_incrlimit ==
    LONG_MIN; the tautology test is given the clauses after unfolding. *)
Definition unfold_normalize (eno : term -> Z) (max_neg fuel : nat) (E : env) (off : bool) (limit : Z) (maxclauses : Z) (set passive : list clause)
    : option (list clause * list clause * list clause) :=
  if off || (maxclauses <? Z.of_nat (length set))%Z then Some (set, passive, [])
  else match unfold_all E 1 limit set passive with
       | None => None
       | Some (set', passive', archive) =>
           match archive with
           | [] => Some (set', passive', [])
           | _ => match filter_taut eno max_neg fuel E set' with Some r => Some (r, passive', archive) | None => None end
           end
       end.

(** ** Specification vocabulary *)

(** The symbol occurs in the clause. *)
Definition occurs (f : sym) (c : clause) : Prop := exists e, In e c /\ In f (lit_syms e).
(** [M'] is [M] with other functions for the symbols in [fs]. *)
Definition differ_only (fs : list sym) (M M' : structure) : Prop :=
  exists F', M' = {| dom := dom M; ifun := F'; isort := isort M |} /\ forall f ds, ~ In f fs -> F' f ds = ifun M f ds.
(** The clause defines [f]: it is one positive equation f(x1,...,xn) = t, or t = f(x1,...,xn), with different variables x1, ..., xn, n > 0, and
    t contains neither f nor other variables. *)
Definition defines (c : clause) (f : sym) : Prop :=
  exists e xs t, c = [e] /\ pos e = true /\ (lt e = Fun f (map Var xs) /\ rt e = t \/ rt e = Fun f (map Var xs) /\ lt e = t)
    /\ xs <> [] /\ NoDup xs /\ ~ In f (tsyms t) /\ incl (vars t) xs.
(** Replacing the defined term by the other side adds at most [limit] to the standard weight. *)
Definition grows_at_most (limit : Z) (c : clause) : Prop :=
  exists e f xs, c = [e]
    /\ (lt e = Fun f (map Var xs) /\ (stdweight (rt e) <= stdweight (lt e) + limit)%Z
        \/ rt e = Fun f (map Var xs) /\ (stdweight (lt e) <= stdweight (rt e) + limit)%Z).
