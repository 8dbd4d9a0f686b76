(** * Model of the generating inferences
    (CLAUSES/ccl_eqnresolution.c, ccl_factor.c, ccl_paramod.c, CONTROL/cco_paramodulation.c).
    First-order build: CSUIterInit/NextCSUElement enumerate the single most general unifier
    computed by SubstMguComplete (TERMS/cte_ho_csu.c:521-548 for problemType != PROBLEM_HO; C leaves the order of
    its two arguments unspecified, we take left then right), and
    EqnListLambdaNormalize does nothing. *)
From Verif Require Import Terms Unify KBO Semantics Clauses LitOrder.

(** The clause returned, or NULL, or one of the outcomes excluded by theorems. *)
Inductive result := Derived (c : clause) | NoClause | Diverges | Undefined.

(** All inferences start with no variable bound (SubstAlloc, and SubstDelete at the end of every
    earlier inference) and, except for equality factoring, with the fresh variable counters reset
    (VarBankResetVCounts, cte_termvars.c:600-620). *)
Definition start : bstate := {| bnd := fun _ => None; trail := [] |}.
Definition reset : counters := fun _ => 0.

Section Infer.
Variables (E : env) (o : lord) (fuel : nat).

Definition copies (b : binding) (l : list eqn) : option (list eqn) := mapo (copy_opt fuel E b) l.

(** ** Equality resolution *)

(** build_resolvent, ccl_eqnresolution.c:56-66 *)
Definition build_resolvent (st : bstate) (c : clause) (i : nat) : result :=
  match norm_eqns fuel E (st, reset) (except i c) with
  | None => Diverges
  | Some (st1, _) => match copies (bnd st1) (except i c) with
                     | None => Diverges
                     | Some l => Derived (finish E l)
                     end
  end.

(** ComputeEqRes, ccl_eqnresolution.c:90-127, for the literal at index i *)
Definition eq_res (c : clause) (i : nat) : result :=
  match nth_error c i with
  | None => Undefined
  | Some e => match mgu fuel (srt E) (pp E) start (lt e) (rt e) with
              | Success st => build_resolvent st c i
              | Failure _ => NoClause
              | OutOfFuel => Diverges
              | UndefBehaviour => Undefined
              end
  end.

(** ** Factoring *)

(** EqnUnifyDirected, ccl_eqn.c:2153-2170 *)
Definition unify_directed (st : bstate) (e1 e2 : eqn) : outcome :=
  match mgu fuel (srt E) (pp E) st (lt e1) (lt e2) with
  | Success st1 => match mgu fuel (srt E) (pp E) st1 (rt e1) (rt e2) with
                   | Failure st2 => Failure (backtrack_to_pos st2 (length (trail st)))
                   | r => r
                   end
  | Failure st1 => Failure (backtrack_to_pos st1 (length (trail st)))
  | r => r
  end.

(** ComputeOrderedFactor, ccl_factor.c:126-166: literals at i and j; [right]: pos2->side is RightSide *)
Definition ordered_factor (c : clause) (i j : nat) (right : bool) : result :=
  match nth_error c i, nth_error c j with
  | Some e1, Some e2 =>
      match unify_directed start e1 (if right then swap_sides e2 else e2) with
      | Success st =>
          if is_maximal o (bnd st) c i e1 then
            match norm_eqns fuel E (st, reset) (except j c) with
            | None => Diverges
            | Some (st1, _) => match copies (bnd st1) (except j c) with
                               | None => Diverges
                               | Some l => Derived (finish E l)
                               end
            end
          else NoClause
      | Failure _ => NoClause
      | OutOfFuel => Diverges
      | UndefBehaviour => Undefined
      end
  | _, _ => Undefined
  end.

(** ClausePosGetSide, ClausePosGetOtherSide, ccl_clausepos.h *)
Definition side (e : eqn) (left : bool) : term := if left then lt e else rt e.

(** TOGreater(ocb, s, t, DEREF_ALWAYS, DEREF_ALWAYS) *)
Definition togreater (b : binding) (s t : term) : bool := gt (tcmp o b s t).

(** ComputeEqualityFactor, ccl_factor.c:270-318.  [cnt]: the fresh variable counters are NOT reset
    here.  Note that the normalisation skips literal j but the copy skips literal i. *)
Definition equality_factor (cnt : counters) (c : clause) (i : nat) (left1 : bool) (j : nat) (left2 : bool) : result :=
  match nth_error c i, nth_error c j with
  | Some e1, Some e2 =>
      let max_term := side e1 left1 in
      let with_term := side e2 left2 in
      let min_term := side e1 (negb left1) in
      if (negb (isVar max_term) || equlit e2) && (negb (isVar with_term) || equlit e1) then
        match mgu fuel (srt E) (pp E) start max_term with_term with
        | Success st =>
            if negb (togreater (bnd st) min_term max_term) && is_maximal o (bnd st) c i e1 then
              match norm_eqns fuel E (st, cnt) (except j c) with
              | None => Diverges
              | Some (st1, _) =>
                  match inst fuel (bnd st1) min_term, inst fuel (bnd st1) (side e2 (negb left2)),
                        copies (bnd st1) (except i c) with
                  | Some l, Some r, Some lits => Derived (finish E (eqn_alloc E l r false :: lits))
                  | _, _, _ => Diverges
                  end
              end
            else NoClause
        | Failure _ => NoClause
        | OutOfFuel => Diverges
        | UndefBehaviour => Undefined
        end
      else NoClause
  | _, _ => Undefined
  end.

(** ** Paramodulation *)

(** The literals of the two parents after the overlap; common end of the construct functions. *)
Definition join (into_copy from_copy : list eqn) : result :=
  if find_true E into_copy then NoClause
  else if find_true E from_copy then NoClause
  else Derived (finish E (into_copy ++ from_copy)).

(** NormSubstEqnList on the into clause, then on the from clause *)
Definition norm_both (st : bstate) (ci cf : clause) : option nstate :=
  match norm_eqns fuel E (st, reset) ci with
  | None => None
  | Some ns => norm_eqns fuel E ns cf
  end.

(** ClausePlainParamodConstruct, ccl_paramod.c:233-302: from clause [cf], literal [fi], side [fs];
    into clause [ci], literal [ii], side [is], position [p]; the unifier is in force in [st]. *)
Definition plain_construct (st : bstate) (cf : clause) (fi : nat) (fs : bool)
                           (ci : clause) (ii : nat) (is : bool) (p : list nat) : result :=
  match nth_error cf fi, nth_error ci ii with
  | Some fl, Some il =>
      match norm_both st ci cf with
      | None => Diverges
      | Some (st1, _) =>
          match replace_at (side il is) p (side fl (negb fs)) with
          | None => Undefined
          | Some t =>
              match inst fuel (bnd st1) t, inst fuel (bnd st1) (side il (negb is)) with
              | Some l, Some r =>
                  if pos il && term_eqb l r then NoClause
                  else match copies (bnd st1) (except ii ci), copies (bnd st1) (except fi cf) with
                       | Some into_copy, Some from_copy =>
                           if find_true E into_copy then NoClause
                           else if find_true E from_copy then NoClause
                           else Derived (finish E (eqn_alloc E l r (pos il) :: into_copy ++ from_copy))
                       | _, _ => Diverges
                       end
              | _, _ => Diverges
              end
          end
      end
  | _, _ => Undefined
  end.

(** ClauseSimParamodConstruct, ccl_paramod.c:319-377 *)
Definition sim_construct (st : bstate) (cf : clause) (fi : nat) (fs : bool)
                         (ci : clause) (ii : nat) (is : bool) (p : list nat) : result :=
  match nth_error cf fi, nth_error ci ii with
  | Some fl, Some il =>
      match subterm_at (side il is) p with
      | None => Undefined
      | Some into_term =>
          match norm_both st ci cf with
          | None => Diverges
          | Some (st1, _) =>
              match inst fuel (bnd st1) (side fl (negb fs)) with
              | None => Diverges
              | Some rhs =>
                  match mapo (copy_repl fuel E (bnd st1) into_term rhs) ci, copies (bnd st1) (except fi cf) with
                  | Some into_copy, Some from_copy => join into_copy from_copy
                  | _, _ => Diverges
                  end
              end
          end
      end
  | _, _ => Undefined
  end.

(** ClauseSuperSimParamodConstruct, ccl_paramod.c:395-465 *)
Definition supersim_construct (st : bstate) (cf : clause) (fi : nat) (fs : bool)
                              (ci : clause) (ii : nat) (is : bool) (p : list nat) : result :=
  match nth_error cf fi, nth_error ci ii with
  | Some fl, Some il =>
      match subterm_at (side il is) p with
      | None => Undefined
      | Some into_term =>
          match norm_both st ci cf with
          | None => Diverges
          | Some (st1, _) =>
              match inst fuel (bnd st1) into_term, inst fuel (bnd st1) (side fl (negb fs)),
                    copies (bnd st1) ci, copies (bnd st1) (except fi cf) with
              | Some lhs, Some rhs, Some tmp, Some from_copy =>
                  join (map (copy_repl_plain E lhs rhs) tmp) from_copy
              | _, _, _, _ => Diverges
              end
          end
      end
  | _, _ => Undefined
  end.

(** ParamodulationType, ccl_paramod.h; sim_paramod_q, cco_paramodulation.c:57-95 *)
Inductive pmtype := PmPlain | PmSim | PmOrientedSim | PmSuperSim | PmOrientedSuperSim | PmDecreasingSim | PmSizeDecreasingSim.

Definition sim_paramod_q (b : binding) (fl : eqn) (fs : bool) (ty : pmtype) : pmtype :=
  match ty with
  | PmPlain => PmPlain
  | PmSim => PmSim
  | PmSuperSim => PmSuperSim
  | PmOrientedSim => if ori fl then PmSim else PmPlain
  | PmOrientedSuperSim => if ori fl then PmSuperSim else PmPlain
  | PmDecreasingSim => if togreater b (side fl fs) (side fl (negb fs)) then PmSim else PmPlain
  | PmSizeDecreasingSim => if (stdweight (side fl (negb fs)) <? stdweight (side fl fs))%Z then PmSim else PmPlain
  end.

(** ClauseParamodConstruct, ccl_paramod.c:487-512 *)
Definition construct (ty : pmtype) :=
  match ty with
  | PmSim => sim_construct
  | PmSuperSim => supersim_construct
  | _ => plain_construct
  end.

(** compute_pos_into_pm_term and compute_into_pm_pos_clause, cco_paramodulation.c:197-335, for one
    from position and one into position: unify, check the ordering conditions, construct.  The
    retrieval of candidates from the overlap index is not part of this definition. *)
Definition paramod (ty : pmtype) (cf : clause) (fi : nat) (fs : bool)
                   (ci : clause) (ii : nat) (is : bool) (p : list nat) : result :=
  match nth_error cf fi, nth_error ci ii with
  | Some fl, Some il =>
      match subterm_at (side il is) p with
      | None => Undefined
      | Some into_term =>
          match mgu fuel (srt E) (pp E) start (side fl fs) into_term with
          | Success st =>
              let b := bnd st in
              if (ori fl || negb (togreater b (side fl (negb fs)) (side fl fs)))
                 && is_strictly_maximal o b cf fi fl
                 && (ori il || negb (togreater b (side il (negb is)) (side il is)))
                 && (if pos il then is_strictly_maximal o b ci ii il else is_maximal o b ci ii il)
              then construct (sim_paramod_q b fl fs ty) st cf fi fs ci ii is p
              else NoClause
          | Failure _ => NoClause
          | OutOfFuel => Diverges
          | UndefBehaviour => Undefined
          end
      end
  | _, _ => Undefined
  end.

(** ClauseOrderedParamod, ccl_paramod.c:536-745 (with ComputeOverlap and EqnOrderedParamod): the
    variant used without an index.  Only the overlapped literal is normalised before the new literal
    is built; the other literals afterwards. *)
Definition ordered_paramod (cf : clause) (fi : nat) (fs : bool)
                           (ci : clause) (ii : nat) (is : bool) (p : list nat) : result :=
  match nth_error cf fi, nth_error ci ii with
  | Some fl, Some il =>
      match subterm_at (side il is) p, replace_at (side il is) p (side fl (negb fs)) with
      | Some into_term, Some t =>
          match mgu fuel (srt E) (pp E) start (side fl fs) into_term with
          | Success st =>
              if negb (ori fl) && togreater (bnd st) (side fl (negb fs)) (side fl fs) then NoClause
              else
              match norm_term fuel E (st, reset) (side il is) with
              | None => Diverges
              | Some ns1 =>
                match norm_term fuel E ns1 (side fl (negb fs)) with
                | None => Diverges
                | Some ns2 =>
                  match inst fuel (bnd (fst ns2)) t with
                  | None => Diverges
                  | Some new_l =>
                    if negb (ori il) && togreater (bnd (fst ns2)) (side il (negb is)) (side il is) then NoClause
                    else
                    match norm_term fuel E ns2 (side il (negb is)) with
                    | None => Diverges
                    | Some ns3 =>
                      match inst fuel (bnd (fst ns3)) (side il (negb is)) with
                      | None => Diverges
                      | Some new_r =>
                        if pos il && term_eqb new_l new_r then NoClause
                        else if (if pos il then is_strictly_maximal o (bnd (fst ns3)) ci ii il
                                 else is_maximal o (bnd (fst ns3)) ci ii il)
                                && is_strictly_maximal o (bnd (fst ns3)) cf fi fl
                        then
                          match norm_eqns fuel E ns3 (except ii ci) with
                          | None => Diverges
                          | Some ns4 =>
                            match norm_eqns fuel E ns4 (except fi cf) with
                            | None => Diverges
                            | Some ns5 =>
                              match copies (bnd (fst ns5)) (except ii ci), copies (bnd (fst ns5)) (except fi cf) with
                              | Some into_copy, Some from_copy =>
                                  Derived (finish E (eqn_alloc E new_l new_r (pos il) :: into_copy ++ from_copy))
                              | _, _ => Diverges
                              end
                            end
                          end
                        else NoClause
                      end
                    end
                  end
                end
              end
          | Failure _ => NoClause
          | OutOfFuel => Diverges
          | UndefBehaviour => Undefined
          end
      | _, _ => Undefined
      end
  | _, _ => Undefined
  end.
End Infer.
