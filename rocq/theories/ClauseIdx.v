(** * Compact clause positions (CLAUSES/ccl_clausecpos.c) and what the clause indices hold
    (CLAUSES/ccl_subterm_index.c, ccl_overlap_index.c, ccl_global_indices.c) *)
From Verif Require Export Terms Clauses FPIndex.
Open Scope Z_scope.

(** ** Compact positions *)
(** EqnStandardWeight, ccl_eqn.h *)
Definition lit_weight (e : eqn) : Z := stdweight (lt e) + stdweight (rt e).
(** the sides of a literal; EqnSide of ClausePos *)
Definition eside (e : eqn) (left : bool) : term := if left then lt e else rt e.

(** PackTermPos, ccl_clausecpos.c:58-84. The stack of terms and indices is here the term and the path of indices. *)
Fixpoint pack_term (t : term) (p : list nat) : Z :=
  match p with
  | [] => 0
  | i :: r => match t with
              | Var _ => 0                                                       (* not a position *)
              | Fun _ args => 2 + fold_right (fun a n => stdweight a + n) 0 (firstn i args) + match nth_error args i with Some a => pack_term a r | None => 0 end
              end
  end.
(** PackClausePos, 99-121; the literal is given by its number *)
Definition pack (c : clause) (i : nat) (left : bool) (p : list nat) : Z :=
  fold_right (fun e n => lit_weight e + n) 0 (firstn i c) +
  match nth_error c i with
  | Some e => (if left then 0 else stdweight (lt e)) + pack_term (eside e left) p
  | None => 0
  end.

(** UnpackTermPos, 137-164: no result when the number lies outside of the term *)
Fixpoint unpack_term (t : term) (k : Z) : option (list nat) :=
  if k <=? 0 then Some []
  else match t with
       | Var _ => None
       | Fun _ args =>
           (fix go (i : nat) (l : list term) (k : Z) : option (list nat) :=
              match l with
              | [] => None
              | a :: r => if k <? stdweight a then option_map (cons i) (unpack_term a k) else go (S i) r (k - stdweight a)
              end) 0%nat args (k - 2)
       end.
(** ClauseCPosSplit, 319-330: the literal and what is left of the number *)
Fixpoint cpos_split (c : clause) (k : Z) : option (nat * eqn * Z) :=
  match c with
  | [] => None
  | e :: r => if lit_weight e <=? k then option_map (fun x => match x with (i, e', k') => (S i, e', k') end) (cpos_split r (k - lit_weight e)) else Some (0%nat, e, k)
  end.
(** UnpackClausePosInto, 180-208 *)
Definition unpack (c : clause) (k : Z) : option (nat * bool * list nat) :=
  match cpos_split c k with
  | None => None
  | Some (i, e, k') =>
      if stdweight (lt e) <=? k' then option_map (fun p => (i, false, p)) (unpack_term (rt e) (k' - stdweight (lt e)))
      else option_map (fun p => (i, true, p)) (unpack_term (lt e) k')
  end.
(** ClauseCPosGetSubterm, 247-256 *)
Definition cpos_subterm (c : clause) (k : Z) : option term :=
  match unpack c k with
  | Some (i, lf, p) => match nth_error c i with Some e => subterm_at (eside e lf) p | None => None end
  | None => None
  end.
(** ClauseCPosFirstLit and ClauseCPosNextLit, 271-302: the numbers of the literals *)
Fixpoint lit_cpos (c : clause) (k : Z) : list Z := match c with [] => [] | e :: r => k :: lit_cpos r (k + lit_weight e) end.

(** ** Overlap index *)
(** term_collect_into_terms_pos, ccl_overlap_index.c:172-194 *)
Fixpoint into_pos (t : term) (k : Z) : list (term * Z) :=
  match t with
  | Var _ => []
  | Fun _ args => (t, k) :: (fix go (l : list term) (k : Z) := match l with [] => [] | a :: r => into_pos a k ++ go r (k + stdweight a) end) args (k + 2)
  end.
(** term_collect_into_terms, 54-70 *)
Fixpoint into_terms (t : term) : list term := match t with Var _ => [] | Fun _ args => t :: flat_map into_terms args end.
(** term_collect_into_terms_pos2, 210-236: subterms, and the atom *)
Definition into_pos2 (t : term) (k : Z) : list (term * Z) * list (term * Z) :=
  match t with Var _ => ([], []) | Fun _ _ => (tl (into_pos t k), [(t, k)]) end.
(** term_collect_into_terms2, 85-101 *)
Definition into_terms2 (t : term) : list term * list term :=
  match t with Var _ => ([], []) | Fun _ _ => (tl (into_terms t), [t]) end.
Definition app2 {A B} (x y : list A * list B) : list A * list B := (fst x ++ fst y, snd x ++ snd y).
(** eqn_collect_into_terms_pos2, 277-296 *)
Definition lit_into_pos (e : eqn) (k : Z) : list (term * Z) * list (term * Z) :=
  app2 (if negb (pos e) && negb (equlit e) then into_pos2 (lt e) k else (into_pos (lt e) k, []))
       (if ori e then ([], []) else (into_pos (rt e) (k + stdweight (lt e)), [])).
(** eqn_collect_into_terms2, 140-157 *)
Definition lit_into_terms (e : eqn) : list term * list term :=
  app2 (if negb (pos e) && negb (equlit e) then into_terms2 (lt e) else (into_terms (lt e), [])) (if ori e then ([], []) else (into_terms (rt e), [])).
(** ClauseCollectIntoTermsPos2, 830-847 *)
Fixpoint clause_into_pos (c : clause) (k : Z) : list (term * Z) * list (term * Z) :=
  match c with [] => ([], []) | e :: r => app2 (if maxi e then lit_into_pos e k else ([], [])) (clause_into_pos r (k + lit_weight e)) end.
(** ClauseCollectIntoTerms2, 800-813 *)
Fixpoint clause_into_terms (c : clause) : list term * list term :=
  match c with [] => ([], []) | e :: r => app2 (if maxi e then lit_into_terms e else ([], [])) (clause_into_terms r) end.
Definition is_from (e : eqn) : bool := maxi e && pos e && negb (sel e).
(** ClauseCollectFromTermsPos, 546-569, and ClauseCollectFromTerms, 511-530 *)
Fixpoint clause_from_pos (c : clause) (k : Z) : list (term * Z) :=
  match c with
  | [] => []
  | e :: r => (if is_from e then (lt e, k) :: (if ori e then [] else [(rt e, k + stdweight (lt e))]) else []) ++ clause_from_pos r (k + lit_weight e)
  end.
Fixpoint clause_from_terms (c : clause) : list term :=
  match c with [] => [] | e :: r => (if is_from e then lt e :: (if ori e then [] else [rt e]) else []) ++ clause_from_terms r end.

(** ** Subterm index *)
(** term_collect_idx_subterms, ccl_subterm_index.c:57-85, in a first-order problem (no lambda, all terms closed): the flags
    lambda_demod of the two calls are those of the code. The result lists the terms for [rest] (true) and for [full] (false). *)
Fixpoint idx_subterms (t : term) (restricted lambda_demod : bool) : list (term * bool) :=
  match t with
  | Var _ => []
  | Fun _ args => (t, restricted) :: (if lambda_demod then [] else flat_map (fun a => idx_subterms a false true) args)
  end.
(** eqn_collect_idx_subterms, 102-112; ClauseCollectIdxSubterms, 256-269 *)
Definition lit_idx_subterms (e : eqn) (lambda_demod : bool) : list (term * bool) :=
  idx_subterms (lt e) (maxi e && pos e && ori e) lambda_demod ++ idx_subterms (rt e) false lambda_demod.
Definition clause_idx_subterms (c : clause) (lambda_demod : bool) : list (term * bool) := flat_map (fun e => lit_idx_subterms e lambda_demod) c.

(** ** The global indices *)
(** GlobalIndices, ccl_global_indices.h: bw_rw_index, pm_into_index, pm_negp_index, pm_from_index. A clause is its number and its literals.
    The calls on the four indices, ccl_global_indices.c:215-304, as operations of FPIndex.v. PStackPop yields the collected pairs in reverse
    order; PTreeTraverse some order, and each term once: here the order of collection, where repetitions have no effect. *)
Definition restno (r : bool) : Z := if r then 1 else 0.
Definition bw_insert (id : nat) (c : clause) (ld : bool) : list iop := map (fun tr => Insert (fst tr) (id, restno (snd tr))) (clause_idx_subterms c ld).
Definition bw_delete (id : nat) (c : clause) (ld : bool) : list iop := map (fun tr => Delete (fst tr) (id, restno (snd tr))) (clause_idx_subterms c ld).
Definition ol_insert (id : nat) (l : list (term * Z)) : list iop := map (fun tk => Insert (fst tk) (id, snd tk)) (rev l).
Definition ol_delete (id : nat) (l : list term) : list iop := map (fun t => DeleteClause t id) l.
Inductive gop := GInsert (id : nat) (c : clause) | GDelete (id : nat) (c : clause).
Definition bw_ops (ld : bool) (o : gop) : list iop := match o with GInsert id c => bw_insert id c ld | GDelete id c => bw_delete id c ld end.
Definition into_ops (o : gop) : list iop := match o with GInsert id c => ol_insert id (fst (clause_into_pos c 0)) | GDelete id c => ol_delete id (fst (clause_into_terms c)) end.
Definition negp_ops (o : gop) : list iop := match o with GInsert id c => ol_insert id (snd (clause_into_pos c 0)) | GDelete id c => ol_delete id (snd (clause_into_terms c)) end.
Definition from_ops (o : gop) : list iop := match o with GInsert id c => ol_insert id (clause_from_pos c 0) | GDelete id c => ol_delete id (clause_from_terms c) end.
Definition gindex (fn : fpfun) (iops : gop -> list iop) (ops : list gop) : fptree := fold_left (index_step fn) (flat_map iops ops) fp_empty.

(** * Specification *)
(** [t] is the subterm of clause [c] at path [p] of one side of its i-th literal *)
Definition occurs (c : clause) (i : nat) (left : bool) (p : list nat) (t : term) : Prop :=
  exists e, nth_error c i = Some e /\ subterm_at (eside e left) p = Some t.
Definition isfun (t : term) : Prop := match t with Var _ => False | Fun _ _ => True end.
(** The positions into which a clause is paramodulated: non-variable subterms of maximal literals, of both sides if not oriented. *)
Definition into_position (c : clause) (i : nat) (left : bool) (p : list nat) (t : term) : Prop :=
  exists e, nth_error c i = Some e /\ maxi e = true /\ (left = true \/ ori e = false) /\ subterm_at (eside e left) p = Some t /\ isfun t.
(** among them, the atoms of negative non-equational literals *)
Definition neg_atom (c : clause) (i : nat) (left : bool) (p : list nat) : Prop :=
  exists e, nth_error c i = Some e /\ pos e = false /\ equlit e = false /\ left = true /\ p = [].
(** The positions with which a clause paramodulates: sides of maximal, positive, unselected literals; only the bigger one if oriented. *)
Definition from_position (c : clause) (i : nat) (left : bool) (t : term) : Prop :=
  exists e, nth_error c i = Some e /\ maxi e = true /\ pos e = true /\ sel e = false /\ (left = true \/ ori e = false) /\ eside e left = t.

(** The clauses present after a history: a clause is inserted when its number is not in use, and deleted when it is present
    (CPIsGlobalIndexed), with the same literals. *)
Inductive history : list gop -> list (nat * clause) -> Prop :=
| history_nil : history [] []
| history_insert ops ps id c : history ops ps -> ~ In id (map fst ps) -> history (ops ++ [GInsert id c]) ((id, c) :: ps)
| history_delete ops ps1 ps2 id c : history ops (ps1 ++ (id, c) :: ps2) -> history (ops ++ [GDelete id c]) (ps1 ++ ps2).
Definition clause_fo (arity : Z -> nat) (c : clause) : Prop := Forall (fun e => fo_term arity (lt e) /\ fo_term arity (rt e)) c.
Definition gop_clause (o : gop) : clause := match o with GInsert _ c | GDelete _ c => c end.
