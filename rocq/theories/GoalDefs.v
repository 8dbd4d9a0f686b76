(** * Model of the goal-directed transformation (CLAUSES/ccl_gd_transformation.c): definitions t = c with a new constant c for ground terms of
    the goals.  Executable definitions only. *)
From Verif Require Import Terms Unify Semantics Clauses Subsume Split Unfold Inj.
Local Open Scope nat_scope.

(** TermIsGround, TermIsConst *)
Definition is_ground (t : term) : bool := match vars t with [] => true | _ => false end.
Definition is_const (t : term) : bool := match t with Fun _ [] => true | _ => false end.
(** TPPredPos: the term is an atom *)
Definition is_atom (E : env) (t : term) : bool := Nat.eqb (tsort (srt E) t) (fres (srt E) true_code).

(** TermCollectGroundTerms, cte_termfunc.c:2809-2844; the terms go into a set *)
Fixpoint ground_terms (E : env) (all : bool) (t : term) : list term :=
  match t with
  | Var _ => []
  | Fun f args =>
      (if is_ground t && negb (is_const t) && negb (is_atom E t) then [t] else []) ++
      (if negb (is_ground t) || all then flat_map (ground_terms E all) args else [])
  end.
(** EqnListCollectGroundTerms, ccl_eqnlist.c:2008-2022; EqnCollectGroundTerms, ccl_eqn.c *)
Definition clause_terms (E : env) (p n all : bool) (c : clause) : list term :=
  flat_map (fun e => if (pos e && p) || (negb (pos e) && n) then ground_terms E all (lt e) ++ ground_terms E all (rt e) else []) c.

(** the definitions so far: left-hand side and constant (NumTree with entry_no as key; terms are shared, C24); the next code; the new
    clauses and declarations *)
Record gstate := mkgs { g_next : sym; g_defs : list (term * term); g_new : list clause; g_decl : list decl }.
Definition gfind (ds : list (term * term)) (t : term) : option term :=
  option_map snd (find (fun d => term_eqb (fst d) t) ds).

(** gd_def_nf, ccl_gd_transformation.c:56-84 *)
Fixpoint gd_nf (ds : list (term * term)) (t : term) : term :=
  match t with
  | Fun f ((_ :: _) as args) =>
      match gfind ds t with
      | Some c => c
      | None => let t' := Fun f (map (gd_nf ds) args) in match gfind ds t' with Some c => c | None => t' end
      end
  | _ => t
  end.
(** gd_term_define, 101-137; NumTreeStore does not replace an entry *)
Definition gd_define (E : env) (t : term) (st : gstate) : gstate :=
  if is_const t then st
  else match gfind (g_defs st) t with
       | Some _ => st
       | None => let l := gd_nf (g_defs st) t in
                 let c := Fun (g_next st) [] in
                 mkgs (S (g_next st)) (match gfind (g_defs st) l with Some _ => g_defs st | None => (l, c) :: g_defs st end)
                      (g_new st ++ [[eqn_alloc E l c true]]) (g_decl st ++ [mkdecl (g_next st) [] (tsort (srt E) t)])
       end.
(** gd_term_rek_define, 152-175 *)
Fixpoint gd_rek (E : env) (t : term) (st : gstate) : gstate :=
  match t with
  | Fun f ((_ :: _) as args) =>
      gd_define E t ((fix go l s := match l with [] => s | a :: l' => go l' (gd_rek E a s) end) args st)
  | _ => st
  end.
(** ClauseSetGDTransform, 195-240.  [goal] is ClauseIsConjecture; [order] is the order of the set of terms (by address). *)
Definition gd_step (E : env) (subterms : bool) (st : gstate) (t : term) : gstate :=
  match gfind (g_defs st) t with
  | Some _ => st
  | None => if is_const t then st else if subterms then gd_rek E t st else gd_define E t st
  end.
Definition goal_terms (E : env) (goal : clause -> bool) (p n all : bool) (set : list clause) : list term :=
  flat_map (clause_terms E p n all) (filter goal set).
Definition gd_transform (E : env) (goal : clause -> bool) (order : list term -> list term) (p n subterms : bool) (next : sym) (set : list clause) : list clause * gstate :=
  let st := fold_left (gd_step E subterms) (order (goal_terms E goal p n subterms set)) (mkgs next [] [] []) in
  (set ++ g_new st, st).

(** ** Specification vocabulary *)

(** an equation between a ground term and a constant *)
Definition names (c : clause) (t : term) (f : sym) : Prop := exists e, c = [e] /\ pos e = true /\ lt e = t /\ rt e = Fun f [] /\ vars t = [].
