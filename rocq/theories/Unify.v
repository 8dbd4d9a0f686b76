(** * Model of unification and matching (TERMS/cte_match_mgu_1-1.c, TERMS/cte_subst.c).
    First-order build (ENABLE_LFHO off). Executable definitions only. *)
From Verif Require Import Terms.

(** var->binding for every variable cell, and the Subst stack (cte_subst.h:30-40,
    a PStack of the variables bound, top first). *)
Definition binding := var -> option term.
Record bstate := { bnd : binding; trail : list var }.

Definition upd (b : binding) (x : var) (o : option term) : binding :=
  fun y => if Nat.eqb x y then o else b y.

(** SubstAddBinding, cte_subst.h:75-95: push the variable, set its binding. *)
Definition add_binding (st : bstate) (x : var) (t : term) : bstate :=
  {| bnd := upd (bnd st) x (Some t); trail := x :: trail st |}.

(** SubstBacktrackSingle, cte_subst.c:64-80 *)
Definition backtrack_single (st : bstate) : bstate :=
  match trail st with
  | [] => st
  | x :: tr => {| bnd := upd (bnd st) x None; trail := tr |}
  end.

(** SubstBacktrackToPos, cte_subst.c:95-105: while(PStackGetSP(subst) > pos).
    [backtrack_n k] is k iterations; the stack pointer is the trail length. *)
Fixpoint backtrack_n (k : nat) (st : bstate) : bstate :=
  match k with O => st | S k' => backtrack_n k' (backtrack_single st) end.
Definition backtrack_to_pos (st : bstate) (pos : nat) : bstate :=
  backtrack_n (length (trail st) - pos) st.

(** SubstBacktrack, cte_subst.c:119-128 *)
Definition backtrack_all (st : bstate) : bstate := backtrack_to_pos st 0.

(** TermDerefAlways, cte_termtypes.h:468-481: while(term->binding) term = term->binding.
    Only variables carry bindings.  [None] = fuel exhausted (the loop does not end
    on cyclic bindings). *)
Fixpoint deref (fuel : nat) (b : binding) (t : term) : option term :=
  match t with
  | Fun _ _ => Some t
  | Var x => match b x with
             | None => Some t
             | Some u => match fuel with O => None | S n => deref n b u end
             end
  end.

(** OccurCheck, cte_match_mgu_1-1.c:88-107 (default build): dereference, compare,
    recurse into the arguments. [None] = fuel exhausted. *)
Fixpoint occur_check (fuel : nat) (b : binding) (t : term) (x : var) : option bool :=
  match fuel with
  | O => None
  | S n =>
    match deref n b t with
    | None => None
    | Some (Var y) => Some (Nat.eqb y x)
    | Some (Fun f args) =>
        (fix go (l : list term) : option bool :=
           match l with
           | [] => Some false
           | a :: l' => match occur_check n b a x with
                        | None => None
                        | Some true => Some true
                        | Some false => go l'
                        end
           end) args
    end
  end.

(** Result of a call: success, failure, and two outcomes that the theorems exclude:
    fuel exhausted (non-termination) and undefined behaviour (args[i] out of range). *)
Inductive outcome := Success (st : bstate) | Failure (st : bstate) | OutOfFuel | UndefBehaviour.

(** The loop "for(i=arity-1; i>=0; i--)" of SubstComputeMgu, lines 526-540, on the
    argument vectors in reversed order.  The job queue is a list whose head is the
    end the loop reads from (PQueueGetLastP); PQueueStoreP conses, PQueueBuryP appends. *)
Fixpoint push_args_rev (a1 a2 : list term) (jobs : list term) : option (list term) :=
  match a1, a2 with
  | [], [] => Some jobs
  | x :: r1, y :: r2 =>
      if isVar x || isVar y
      then push_args_rev r1 r2 (jobs ++ [y; x])     (* Bury t2 arg, then Bury t1 arg *)
      else push_args_rev r1 r2 (y :: x :: jobs)     (* Store t1 arg, then Store t2 arg *)
  | _, _ => None                                    (* args[i] out of range *)
  end.

(** SubstComputeMgu, cte_match_mgu_1-1.c:463-560, main loop 488-543. *)
Fixpoint mgu_loop (fuel : nat) (S : sorting) (st : bstate) (jobs : list term) : outcome :=
  match fuel with
  | O => OutOfFuel
  | Datatypes.S n =>
    match jobs with
    | [] => Success st
    | [_] => UndefBehaviour                         (* PQueueGetLastP on an empty queue *)
    | j2 :: j1 :: rest =>
      match deref n (bnd st) j2, deref n (bnd st) j1 with
      | Some d2, Some d1 =>
          let '(t1, t2) := if isVar d2 then (d2, d1) else (d1, d2) in   (* SWAP *)
          match t1 with
          | Var x =>
              if term_eqb t1 t2 then mgu_loop n S st rest
              else if negb (Nat.eqb (vsort S x) (tsort S t2)) then Failure st
              else match occur_check n (bnd st) t2 x with
                   | None => OutOfFuel
                   | Some true => Failure st
                   | Some false => mgu_loop n S (add_binding st x t2) rest
                   end
          | Fun f a1 =>
              match t2 with
              | Var _ => UndefBehaviour             (* not reached: t2 variable implies t1 variable *)
              | Fun g a2 =>
                  if Nat.eqb f g
                  then match push_args_rev (rev a1) (rev a2) rest with
                       | Some jobs' => mgu_loop n S st jobs'
                       | None => UndefBehaviour
                       end
                  else Failure st
              end
          end
      | _, _ => OutOfFuel
      end
    end
  end.

(** TermCellQueryProp(t, TPPredPos): set on atoms.  [predpos f] says f is a predicate symbol. *)
Definition qpredpos (predpos : sym -> bool) (t : term) : bool :=
  match t with Var _ => false | Fun f _ => predpos f end.

Definition mgu (fuel : nat) (S : sorting) (predpos : sym -> bool) (st : bstate) (t1 t2 : term) : outcome :=
  if (qpredpos predpos t1 && isVar t2) || (qpredpos predpos t2 && isVar t1) then Failure st   (* 474-480 *)
  else match mgu_loop fuel S st [t2; t1] with
       | Failure st' => Failure (backtrack_to_pos st' (length (trail st)))   (* 546-549 *)
       | o => o
       end.

(** ** Matching: SubstComputeMatch, cte_match_mgu_1-1.c:211-287. *)

(** The loop pushing argument pairs, 270-274: i from arity-1 down to 0, so that argument 0
    is on top.  The stack is a list of (matcher, to_match) entries, top first, two cells per
    entry; pushing matcher then to_match and popping in reverse is one entry. *)
Fixpoint push_pairs (a1 a2 : list term) (jobs : list (term * term)) : option (list (term * term)) :=
  match a1, a2 with
  | [], [] => Some jobs
  | x :: r1, y :: r2 => match push_pairs r1 r2 jobs with
                        | Some j => Some ((x, y) :: j)
                        | None => None
                        end
  | _, _ => None
  end.

(** main loop 230-279; [mw] is matcher_weight, [tw] to_match_weight *)
Fixpoint match_loop (fuel : nat) (S : sorting) (mw tw : Z) (st : bstate) (jobs : list (term * term)) : outcome :=
  match fuel with
  | O => OutOfFuel
  | Datatypes.S n =>
    match jobs with
    | [] => Success st
    | (m, t) :: rest =>
      match m with
      | Var x =>
          if negb (Nat.eqb (vsort S x) (tsort S t)) then Failure st
          else
            let cont st' :=
              let mw' := (mw + (stdweight t - 1))%Z in
              if (tw <? mw')%Z then Failure st' else match_loop n S mw' tw st' rest in
            match bnd st x with
            | Some u => if term_eqb u t then cont st else Failure st
            | None => cont (add_binding st x t)
            end
      | Fun f a1 =>
          match t with
          | Var _ => Failure st                     (* f_code differs *)
          | Fun g a2 =>
              if Nat.eqb f g
              then match push_pairs a1 a2 rest with
                   | Some jobs' => match_loop n S mw tw st jobs'
                   | None => UndefBehaviour
                   end
              else Failure st
          end
      end
    end
  end.

Definition smatch (fuel : nat) (S : sorting) (predpos : sym -> bool) (st : bstate) (matcher to_match : term) : outcome :=
  let mw := stdweight matcher in
  let tw := stdweight to_match in
  if (tw <? mw)%Z || (qpredpos predpos to_match && isVar matcher) then Failure st   (* 221-224 *)
  else match match_loop fuel S mw tw st [(matcher, to_match)] with
       | Failure st' => Failure (backtrack_to_pos st' (length (trail st)))
       | o => o
       end.

(** ** Specification vocabulary used by the property theorems *)

(** [s] is the substitution denoted by the bindings: every bound variable is mapped to the
    instance of what it is bound to, every unbound variable to itself. *)
Definition denotes (b : binding) (s : subst) : Prop :=
  forall x, match b x with Some t => s x = app s t | None => s x = Var x end.

(** [s] respects the bindings in force. *)
Definition solves (b : binding) (s : subst) : Prop :=
  forall x t, b x = Some t -> s x = app s t.

(** Acyclic bindings: no variable is (transitively) bound to a term containing itself. *)
Definition acyclic (b : binding) : Prop :=
  exists rank : var -> nat, forall x t y, b x = Some t -> In y (vars t) -> rank y < rank x.

(** Bound terms are well-formed and have the sort of the variable. *)
Definition wfbinding (S : sorting) (b : binding) : Prop :=
  forall x t, b x = Some t -> wf S t /\ tsort S t = vsort S x.

(** In first-order problems no variable ranges over the truth values, and predicates have that sort. *)
Definition fo_sorts (S : sorting) (predpos : sym -> bool) : Prop :=
  forall f x, predpos f = true -> fres S f <> vsort S x.
