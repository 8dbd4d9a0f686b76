(** * Model of clause splitting
    (CLAUSES/ccl_splitting.c, ccl_def_handling.c).  First-order build; executable definitions only.

    Variable sets (splay trees of variable cells, C26) are lists without duplicates.  EPIsSplitLit is not a field of the modelled
    literals: whether the clause has a split literal is an argument.  Derivation records and output are not modelled. *)
From Verif Require Import Terms Unify Semantics Clauses Subsume.

(** SplitType, ccl_splitting.h:31-38 *)
Inductive split_type := SplitGroundNone | SplitGroundOne | SplitGroundFull.

(** LitSplitDescCell, ccl_splitting.c:30-38 *)
Record row := mkrow { rlit : eqn; rpart : nat; rvars : list var }.

Definition mem (x : var) (l : list var) : bool := existsb (Nat.eqb x) l.
Definition add_var (l : list var) (x : var) : list var := if mem x l then l else x :: l.

(** EqnCollectPropVariables: the variables that carry the flag, i.e. those not in [sv] (cond_init_lit_table, ccl_splitting.c:103-130:
    TPCheckFlag is set in the whole clause and removed from the split variables) *)
Definition collect_vars (sv : list var) (e : eqn) : list var :=
  fold_left add_var (filter (fun x => negb (mem x sv)) (vars (lt e) ++ vars (rt e))) [].

(** initialize_lit_table, ccl_splitting.c:59-85 *)
Definition init_row (how : split_type) (sv : list var) (e : eqn) : row :=
  let vs := collect_vars sv e in
  mkrow e (match how with SplitGroundFull => 0 | _ => match vs with [] => 1 | _ => 0 end end) vs.
Definition init_table (how : split_type) (sv : list var) (c : clause) : list row := map (init_row how sv) c.

(** find_free_literal, ccl_splitting.c:150-163; [None] is -1 *)
Fixpoint find_free (t : list row) : option nat :=
  match t with
  | [] => None
  | r :: t' => if Nat.eqb (rpart r) 0 then Some 0 else option_map S (find_free t')
  end.

(** PTreeSharedElement (clb_ptrees.c:694-719) and PTreeMerge (468-498) *)
Definition shared_var (hs vs : list var) : bool := existsb (fun x => mem x hs) vs.
Definition merge_vars (hs vs : list var) : list var := fold_left add_var vs hs.
Definition gains (hs vs : list var) : bool := existsb (fun x => negb (mem x hs)) vs.

(** the for loop of build_part, ccl_splitting.c:191-204, over the rows after lit_index; [hs] is lit_table[lit_index].varset *)
Fixpoint pass (part : nat) (hs : list var) (new_vars : bool) (t : list row) : list row * list var * bool :=
  match t with
  | [] => ([], hs, new_vars)
  | r :: t' =>
      if Nat.eqb (rpart r) 0 && shared_var hs (rvars r)
      then let '(t2, hs2, nv2) := pass part (merge_vars hs (rvars r)) (gains hs (rvars r) || new_vars) t' in
           (mkrow (rlit r) part [] :: t2, hs2, nv2)
      else let '(t2, hs2, nv2) := pass part hs new_vars t' in (r :: t2, hs2, nv2)
  end.
(** the while loop, 188-205; [None] = fuel exhausted *)
Fixpoint grow (fuel : nat) (part : nat) (hs : list var) (t : list row) : option (list row * list var) :=
  match fuel with
  | O => None
  | S n => let '(t2, hs2, nv) := pass part hs false t in if nv then grow n part hs2 t2 else Some (t2, hs2)
  end.
(** build_part, ccl_splitting.c:181-206 *)
Definition build_part (fuel : nat) (t : list row) (i part : nat) : option (list row) :=
  match nth_error t i with
  | None => None
  | Some r => match grow fuel part (rvars r) (skipn (S i) t) with
              | None => None
              | Some (t2, hs) => Some (firstn i t ++ mkrow (rlit r) part hs :: t2)
              end
  end.
(** ccl_splitting.c:304-308 *)
Fixpoint all_parts (fuel : nat) (part : nat) (t : list row) : option (nat * list row) :=
  match fuel with
  | O => None
  | S n => match find_free t with
           | None => Some (part, t)
           | Some i => match build_part (S (length t)) t i (S part) with
                       | None => None
                       | Some t' => all_parts n (S part) t'
                       end
           end
  end.
(** 297-308.  Line 299 uses the result of find_free_literal as a truth value: it is nonzero for -1 and for every index but 0. *)
Definition split_table (how : split_type) (sv : list var) (c : clause) : option (nat * list row) :=
  let t := init_table how sv c in
  let part := match how, find_free t with SplitGroundOne, Some 0 => 0 | SplitGroundOne, _ => 1 | _, _ => 0 end in
  all_parts (S (length t)) part t.

(** assemble_part_literals, ccl_splitting.c:222-237: each literal is put in front *)
Definition assemble (t : list row) (part : nat) : list eqn :=
  rev (map rlit (filter (fun r => Nat.eqb (rpart r) part) t)).
Definition blocks (t : list row) (part : nat) : list (list eqn) := map (assemble t) (seq 1 part).

(** GenDefLit, ccl_def_handling.c:112-148 *)
Definition def_lit (E : env) (p : sym) (sign : bool) (sv : list var) : eqn := eqn_alloc E (Fun p (map Var sv)) ttrue sign.

(** DefStore: def_clauses with def_assocs, ccl_def_handling.h; an entry is a stored clause and its predicate *)
Definition defstore := list (clause * sym).

Section Split.
  Variable E : env.
  (** ClauseSetFindVariantClause on def_clauses followed by NumTreeFind on def_assocs, ccl_def_handling.c:280-289 (the index is C42) *)
  Variable lookup : defstore -> clause -> option (clause * sym).

  (** GetDefinitions, ccl_def_handling.c:251-315, with GetClauseDefinition 167-184.  [next] is the next free code of the signature
      (SigGetNewPredicateCode; that its name is new is C44). *)
  Definition get_definitions (fresh_defs : bool) (st : defstore) (next : sym) (l : list eqn) : sym * option clause * defstore * sym :=
    let def := clause_alloc (def_lit E next true [] :: l) in
    if fresh_defs then (next, Some def, st, S next)
    else let d := sort_lits (clause_alloc l) in
         match lookup st d with
         | Some (_, p) => (p, None, st, next)
         | None => (next, Some def, (d, next) :: st, S next)
         end.

  (** one round of the loop ccl_splitting.c:318-377: predicate, definition clause, store, next code *)
  Definition one_def (fresh_defs : bool) (sv : list var) (st : defstore) (next : sym) (l : list eqn) : sym * option clause * defstore * sym :=
    match sv with
    | [] => get_definitions fresh_defs st next l
    | _ => (next, Some (clause_alloc (def_lit E next true sv :: l)), st, S next)
    end.
  (** the loop; [join] is built up front to back reversed (375-376) *)
  Fixpoint make_defs (fresh_defs : bool) (sv : list var) (bs : list (list eqn)) (st : defstore) (next : sym) (join : list eqn)
    : list clause * list eqn * defstore * sym :=
    match bs with
    | [] => ([], join, st, next)
    | l :: bs' =>
        let '(p, d, st1, next1) := one_def fresh_defs sv st next l in
        let '(ds, j, st2, next2) := make_defs fresh_defs sv bs' st1 next1 (def_lit E p false sv :: join) in
        (match d with Some x => x :: ds | None => ds end, j, st2, next2)
    end.

  Record result := { new_defs : list clause; rest : clause; new_store : defstore; new_next : sym; count : nat }.

  (** clause_split_general, ccl_splitting.c:269-394.  Outer [None]: fuel exhausted; inner [None]: return value 0, nothing changed.
      [flagged] is ClauseHasSplitLiteral (477-489). *)
  Definition clause_split (how : split_type) (fresh_defs : bool) (sv : list var) (flagged : bool) (st : defstore) (next : sym) (c : clause)
    : option (option result) :=
    if (length c <=? 1) || flagged then Some None
    else match split_table how sv c with
         | None => None
         | Some (part, t) =>
             if Nat.ltb 1 part
             then let '(ds, j, st', next') := make_defs fresh_defs sv (blocks t part) st next [] in
                  Some (Some {| new_defs := ds; rest := j; new_store := st'; new_next := next'; count := S part |})
             else Some None
         end.
End Split.

(** ** Specification vocabulary *)

Definition lit_vars (e : eqn) : list var := vars (lt e) ++ vars (rt e).
(** symbols of a term *)
Fixpoint tsyms (t : term) : list sym := match t with Var _ => [] | Fun f a => f :: flat_map tsyms a end.
Definition lit_syms (e : eqn) : list sym := tsyms (lt e) ++ tsyms (rt e).
(** all symbols of the clause were known when the signature had the codes below [n] *)
Definition below (n : sym) (c : clause) : Prop := forall e f, In e c -> In f (lit_syms e) -> (f < n)%nat.

Definition satisfied (E : env) (M : structure) (N : list clause) : Prop := forall c, In c N -> clause_true (srt E) M c.
Definition unsat (E : env) (N : list clause) : Prop := forall M, model_ok (srt E) (dist E) M -> ~ satisfied E M N.
Definition sat (E : env) (N : list clause) : Prop := exists M, model_ok (srt E) (dist E) M /\ satisfied E M N.

(** literals of a clause connected by shared variables not in [sv] *)
Inductive linked (sv : list var) (c : clause) (e : eqn) : eqn -> Prop :=
| linked_refl : In e c -> linked sv c e e
| linked_step e1 e2 x : linked sv c e e1 -> In e2 c -> In x (lit_vars e1) -> In x (lit_vars e2) -> ~ In x sv -> linked sv c e e2.

(** codes [n .. m-1] are declared as predicates over the sorts of [sv] *)
Definition declared (E : env) (sv : list var) (n m : sym) : Prop :=
  forall f, (n <= f < m)%nat -> fres (srt E) f = fres (srt E) true_code /\ fargs (srt E) f = map (vsort (srt E)) sv /\ dist E f = false.

(** the lookup returns a stored clause that subsumes the given one and is subsumed by it *)
Definition lookup_ok (E : env) (lookup : defstore -> clause -> option (clause * sym)) : Prop :=
  forall st d d' p, lookup st d = Some (d', p) ->
    In (d', p) st /\ exists fuel, clause_subsumes E fuel d' d = Ans true /\ clause_subsumes E fuel d d' = Ans true.

(** The clauses of a proof state, the definition store and the next free code, and how they may change: a clause is split, a clause
    that follows from the others is added or removed.  [svs] says which split variables are allowed.  When a stored definition is used
    again, it must still follow from the other clauses. *)
Record pstate := { pset : list clause; pstore : defstore; pnext : sym }.
Inductive move (E : env) (lookup : defstore -> clause -> option (clause * sym)) (svs : list var -> Prop) : pstate -> pstate -> Prop :=
| move_split how fd sv flagged N1 c N2 st n r : svs sv -> clause_split E lookup how fd sv flagged st n c = Some (Some r) ->
    declared E sv n (new_next r) -> incl sv (flat_map lit_vars c) ->
    (forall d p, In (d, p) st -> In (def_lit E p false []) (rest r) -> follows E (N1 ++ N2) (def_lit E p true [] :: d)) ->
    move E lookup svs {| pset := N1 ++ c :: N2; pstore := st; pnext := n |}
      {| pset := N1 ++ N2 ++ new_defs r ++ [rest r]; pstore := new_store r; pnext := new_next r |}
| move_add N d st n : follows E N d -> clause_ok E d -> below n d ->
    move E lookup svs {| pset := N; pstore := st; pnext := n |} {| pset := d :: N; pstore := st; pnext := n |}
| move_remove N1 d N2 st n : follows E (N1 ++ N2) d ->
    move E lookup svs {| pset := N1 ++ d :: N2; pstore := st; pnext := n |} {| pset := N1 ++ N2; pstore := st; pnext := n |}.
Inductive moves (E : env) (lookup : defstore -> clause -> option (clause * sym)) (svs : list var -> Prop) : pstate -> pstate -> Prop :=
| moves_refl s : moves E lookup svs s s
| moves_step s1 s2 s3 : moves E lookup svs s1 s2 -> move E lookup svs s2 s3 -> moves E lookup svs s1 s3.
