(** * Model of subsumption and of the simplifications based on it
    (CLAUSES/ccl_subsumption.c, ccl_unit_simplify.c, ccl_condensation.c, ccl_context_sr.c,
    literal sorting in ccl_eqn.c and ccl_clauses.c).  Performance counters, SOS flags and the
    documentation of the steps (DocClause..., ClausePushDerivation) are not modelled. *)
From Verif Require Import Terms Unify Semantics Clauses.

(** Result of a test: the answer, or the two outcomes that the theorems exclude. *)
Inductive answer := Ans (b : bool) | NoFuel | Undef.

(** EqnStandardWeight, ccl_eqn.h:326-328 *)
Definition eqn_weight (e : eqn) : Z := (stdweight (lt e) + stdweight (rt e))%Z.
(** ClauseStandardWeight, ccl_clauses.c:2109-2119; clause->weight always has this value when it is
    read here (asserted in the code). *)
Definition clause_weight (c : clause) : Z := fold_right (fun e w => (eqn_weight e + w)%Z) 0%Z c.
(** pos_lit_no, neg_lit_no *)
Definition pos_no (c : clause) : nat := length (filter pos c).
Definition neg_no (c : clause) : nat := length (filter (fun e => negb (pos e)) c).

(** ** Sorting literals for subsumption *)

(** the C expressions a-b for truth values, and CMP(a,b) (clb_defines.h) *)
Definition bcmp (a b : bool) : comparison :=
  match a, b with true, false => Gt | false, true => Lt | _, _ => Eq end.
(** f_code: variables have negative codes, the two cells of a pair the same one. *)
Definition fcode (t : term) : Z :=
  match t with Var x => (- Z.of_nat (Nat.div2 x) - 1)%Z | Fun f _ => Z.of_nat f end.

(** EqnSubsumeQOrderCompare, ccl_eqn.c:1739-1763 *)
Definition qorder (l1 l2 : eqn) : comparison :=
  match bcmp (pos l1) (pos l2) with
  | Eq => match bcmp (equlit l1) (equlit l2) with
          | Eq => if negb (equlit l1) then Z.compare (fcode (lt l1)) (fcode (lt l2)) else Eq
          | c => c
          end
  | c => c
  end.

(** EqnSubsumeInverseCompareRef, ccl_eqn.c:1779-1791 *)
Definition inv_compare (l1 l2 : eqn) : comparison :=
  match qorder l2 l1 with
  | Eq => Z.compare (eqn_weight l2) (eqn_weight l1)
  | c => c
  end.

(** ClauseIsSorted with this comparison, ccl_clauses.c:512-535 *)
Fixpoint subsume_ordered (c : clause) : bool :=
  match c with
  | e :: ((e' :: _) as r) => match inv_compare e e' with Gt => false | _ => subsume_ordered r end
  | _ => true
  end.

(** ClauseSubsumeOrderSortLits, ccl_clauses.h:264 with ccl_clauses.c:442-467: qsort with
    EqnSubsumeInverseRefinedCompareRef (ccl_eqn.c:1806-1833), which breaks ties by the position in
    the list; so the result is that of a stable sort, here insertion. *)
Fixpoint insert_lit (e : eqn) (c : clause) : clause :=
  match c with
  | [] => [e]
  | e' :: r => match inv_compare e e' with Gt => e' :: insert_lit e r | _ => e :: c end
  end.
Definition sort_lits (c : clause) : clause := fold_right insert_lit [] c.

Section Tests.
Variable E : env.
Variable n : nat.          (* fuel for the matching loops *)

(** SubstMatchComplete(m1,t1,subst) && SubstMatchComplete(m2,t2,subst) *)
Definition match2 (st : bstate) (m1 t1 m2 t2 : term) : outcome :=
  match smatch n (srt E) (pp E) st m1 t1 with
  | Success st1 => smatch n (srt E) (pp E) st1 m2 t2
  | o => o
  end.

Definition no_bindings : bstate := {| bnd := fun _ => None; trail := [] |}.

(** eqn_topsubsumes_termpair, ccl_subsumption.c:169-195.  Note that the second case is tried only
    if the left side does not match t1, and with what is left of the bindings. *)
Definition topsubsumes (e : eqn) (t1 t2 : term) : answer :=
  match smatch n (srt E) (pp E) no_bindings (lt e) t1 with
  | Success st => match smatch n (srt E) (pp E) st (rt e) t2 with
                  | Success _ => Ans true | Failure _ => Ans false
                  | OutOfFuel => NoFuel | UndefBehaviour => Undef end
  | Failure st =>
      match smatch n (srt E) (pp E) st (lt e) t2 with
      | Success st' => match smatch n (srt E) (pp E) st' (rt e) t1 with
                       | Success _ => Ans true | Failure _ => Ans false
                       | OutOfFuel => NoFuel | UndefBehaviour => Undef end
      | Failure _ => Ans false
      | OutOfFuel => NoFuel | UndefBehaviour => Undef
      end
  | OutOfFuel => NoFuel | UndefBehaviour => Undef
  end.

(** The pairs of arguments that differ, in order (loop over args); [None]: t2->args read out of
    bounds. *)
Fixpoint diff_args (a b : list term) : option (list (term * term)) :=
  match a, b with
  | [], _ => Some []
  | x :: a', y :: b' => match diff_args a' b' with
                        | None => None
                        | Some r => Some (if term_eqb x y then r else (x, y) :: r)
                        end
  | _ :: _, [] => None
  end.

(** eqn_subsumes_termpair, ccl_subsumption.c:210-259 *)
Fixpoint subsumes_termpair (k : nat) (e : eqn) (t1 t2 : term) : answer :=
  match topsubsumes e t1 t2 with
  | Ans true => Ans true
  | Ans false =>
      match t1, t2 with
      | Fun f a, Fun g b =>
          if negb (Nat.eqb f g) || match a with [] => true | _ => false end then Ans false
          else match diff_args a b with
               | None => Undef
               | Some [] => Ans true
               | Some [(x, y)] => match k with O => NoFuel | S k' => subsumes_termpair k' e x y end
               | Some _ => Ans false
               end
      | _, _ => Ans false
      end
  | r => r
  end.

(** LiteralSubsumesClause, ccl_subsumption.c:1145-1173 *)
Fixpoint literal_subsumes (l : eqn) (c : clause) : answer :=
  match c with
  | [] => Ans false
  | h :: c' =>
      if pos l then
        if pos h then match subsumes_termpair n l (lt h) (rt h) with
                      | Ans false => literal_subsumes l c'
                      | r => r
                      end
        else literal_subsumes l c'
      else
        if negb (pos h) then match topsubsumes l (lt h) (rt h) with
                             | Ans false => literal_subsumes l c'
                             | r => r
                             end
        else literal_subsumes l c'
  end.

(** find_spec_literal, ccl_subsumption.c:314-360: is there a literal that could be an instance *)
Fixpoint find_spec (l : eqn) (c : clause) : answer :=
  match c with
  | [] => Ans false
  | e :: c' =>
      match qorder l e with
      | Gt => Ans false
      | Lt => find_spec l c'
      | Eq =>
          if (eqn_weight e <? eqn_weight l)%Z then Ans false
          else if ori l && negb (ori e) then find_spec l c'
          else match match2 no_bindings (lt l) (lt e) (rt l) (rt e) with
               | Success _ => Ans true
               | OutOfFuel => NoFuel | UndefBehaviour => Undef
               | Failure st =>
                   let st0 := backtrack_all st in
                   if ori l then find_spec l c'
                   else match match2 st0 (lt l) (rt e) (rt l) (lt e) with
                        | Success _ => Ans true
                        | OutOfFuel => NoFuel | UndefBehaviour => Undef
                        | Failure _ => find_spec l c'
                        end
               end
      end
  end.

(** check_subsumption_possibility, ccl_subsumption.c:376-391 *)
Fixpoint possible (ls : list eqn) (c : clause) : answer :=
  match ls with
  | [] => Ans true
  | l :: ls' => match find_spec l c with Ans true => possible ls' c | r => r end
  end.

(** pick_list[i]++, pick_list[i]-- *)
Fixpoint at_index (f : nat -> nat) (l : list nat) (i : nat) : list nat :=
  match l, i with
  | [], _ => []
  | x :: l', O => f x :: l'
  | x :: l', S j => x :: at_index f l' j
  end.

(** Result of the recursive search: answer, bindings and pick list as left behind. *)
Inductive sres := SYes (st : bstate) (pk : list nat) | SNo (st : bstate) (pk : list nat) | SFuel | SUndef.

(** The attempt of lines 557-566 and of 573-582: match the two sides, go on with the rest of the
    literals, undo the bindings if that fails. *)
Definition attempt (rest : bstate -> list nat -> sres) (l : eqn) (a b : term) (st : bstate) (pk : list nat) : sres :=
  match match2 st (lt l) a (rt l) b with
  | Success st1 => match rest st1 pk with
                   | SNo st2 pk2 => SNo (backtrack_to_pos st2 (length (trail st))) pk2
                   | r => r
                   end
  | Failure st1 => SNo (backtrack_to_pos st1 (length (trail st))) pk
  | OutOfFuel => SFuel
  | UndefBehaviour => SUndef
  end.

(** the loop of eqn_list_rec_subsume over the candidate's literals, 522-585 *)
Fixpoint pick_loop (rest : bstate -> list nat -> sres) (l : eqn) (es : list eqn) (i : nat) (st : bstate) (pk : list nat) : sres :=
  match es with
  | [] => SNo st pk
  | e :: es' =>
      if negb (Nat.eqb (nth i pk 0) 0) then pick_loop rest l es' (S i) st pk
      else match qorder e l with
      | Lt => SNo st pk
      | Gt => pick_loop rest l es' (S i) st pk
      | Eq =>
          if (eqn_weight e <? eqn_weight l)%Z then SNo st pk
          else if ori l && negb (ori e) then pick_loop rest l es' (S i) st pk
          else match attempt rest l (lt e) (rt e) st (at_index S pk i) with
               | SNo st2 pk2 =>
                   if ori l then pick_loop rest l es' (S i) st2 (at_index pred pk2 i)
                   else match attempt rest l (rt e) (lt e) st2 pk2 with
                        | SNo st3 pk3 => pick_loop rest l es' (S i) st3 (at_index pred pk3 i)
                        | r => r
                        end
               | r => r
               end
      end
  end.

(** eqn_list_rec_subsume, ccl_subsumption.c:509-586 *)
Fixpoint rec_subsume (ls : list eqn) (cand : list eqn) (st : bstate) (pk : list nat) : sres :=
  match ls with
  | [] => SYes st pk
  | l :: ls' => pick_loop (rec_subsume ls' cand) l cand 0 st pk
  end.

(** clause_subsumes_clause / ClauseSubsumesClause, ccl_subsumption.c:602-683, 1388-1397 *)
Definition clause_subsumes (c d : clause) : answer :=
  match c with
  | [] => Ans true
  | [l] => literal_subsumes l d
  | _ =>
      if Nat.ltb (pos_no d) (pos_no c) || Nat.ltb (neg_no d) (neg_no c) then Ans false
      else if (clause_weight d <? clause_weight c)%Z then Ans false
      else
        match (if Nat.leb 3 (pos_no d) || Nat.leb 3 (neg_no d) then possible c d else Ans true) with
        | Ans true =>
            match rec_subsume c d no_bindings (repeat 0 (length d)) with
            | SYes _ _ => Ans true
            | SNo _ _ => Ans false
            | SFuel => NoFuel
            | SUndef => Undef
            end
        | r => r
        end
  end.

(** A search result in a clause set. *)
Inductive found {A} := Found (a : A) | NotFound | FNoFuel | FUndef.
Arguments found : clear implicits.

(** clause_set_subsumes_clause, ccl_subsumption.c:699-718 (set given as the list of its clauses);
    clause_tree_find_subsuming_clause 735-758 is the same for the clauses stored at a leaf of the
    feature vector index, in preorder. *)
Fixpoint set_subsumes (set : list clause) (d : clause) : found clause :=
  match set with
  | [] => NotFound
  | c :: set' => match clause_subsumes c d with
                 | Ans true => Found c
                 | Ans false => set_subsumes set' d
                 | NoFuel => FNoFuel
                 | Undef => FUndef
                 end
  end.

(** ClauseSetFindSubsumedClause, ccl_subsumption.c:1482-1501, from a position in the set *)
Fixpoint find_subsumed (c : clause) (set : list clause) : found clause :=
  match set with
  | [] => NotFound
  | d :: set' => match clause_subsumes c d with
                 | Ans true => Found d
                 | Ans false => find_subsumed c set'
                 | NoFuel => FNoFuel
                 | Undef => FUndef
                 end
  end.

(** ** Simplification with unit clauses *)

(** A position in a unit clause: its literal and the side used as key ([true]: left).
    ClausePosGetSide, ClausePosGetOtherSide *)
Record upos := { ulit : eqn; uleft : bool }.
Definition ukey (p : upos) : term := if uleft p then lt (ulit p) else rt (ulit p).
Definition uother (p : upos) : term := if uleft p then rt (ulit p) else lt (ulit p).

(** FindTopSimplifyingUnit / FindSignedTopSimplifyingUnit, ccl_unit_simplify.c:71-135.
    PDTreeSearchInit/PDTreeFindNextDemodulator enumerate the unit positions whose key matches t1
    (that the tree does this is C21); here they are tried in the order of an arbitrary list.
    [sign]: [Some b] = only units of that sign. *)
Fixpoint find_top (units : list upos) (sign : option bool) (t1 t2 : term) : found upos :=
  match units with
  | [] => NotFound
  | p :: units' =>
      match smatch n (srt E) (pp E) no_bindings (ukey p) t1 with
      | Success st =>
          if match sign with Some b => Bool.eqb (pos (ulit p)) b | None => true end
          then match smatch n (srt E) (pp E) st (uother p) t2 with
               | Success _ => Found p
               | Failure _ => find_top units' sign t1 t2
               | OutOfFuel => FNoFuel
               | UndefBehaviour => FUndef
               end
          else find_top units' sign t1 t2
      | Failure _ => find_top units' sign t1 t2
      | OutOfFuel => FNoFuel
      | UndefBehaviour => FUndef
      end
  end.

(** The loop of FindSimplifyingUnit, ccl_unit_simplify.c:172-209: descend while exactly one argument
    differs.  [first]: tmp2 is still NULL, so a pair without differences ends the loop; later it
    would continue with the NULL pointer tmp1. *)
Fixpoint find_below (k : nat) (units : list upos) (first : bool) (t1 t2 : term) : found upos :=
  match t1, t2 with
  | Fun f a, Fun g b =>
      if negb (Nat.eqb f g) || match a with [] => true | _ => false end then NotFound
      else match diff_args a b with
           | None => FUndef
           | Some [] => if first then NotFound else FUndef
           | Some [(x, y)] =>
               match find_top units (Some true) x y with
               | NotFound => match k with O => FNoFuel | S k' => find_below k' units false x y end
               | r => r
               end
           | Some _ => NotFound
           end
  | _, _ => NotFound
  end.

(** FindSimplifyingUnit, ccl_unit_simplify.c:151-211 *)
Definition find_simplifying (units : list upos) (positive_only : bool) (t1 t2 : term) : found upos :=
  match find_top units (if positive_only then Some true else None) t1 t2 with
  | NotFound => find_below n units true t1 t2
  | r => r
  end.

(** unit_clause_set_strongsubsumes_termpair, ccl_subsumption.c:65-105: a stack of pairs, every one
    of which needs a unit; the last unit found is the result.  (Pushing in argument order, so the
    last differing pair is on top.) *)
Fixpoint strong_loop (k : nat) (units : list upos) (sign : bool) (stack : list (term * term)) (last : found upos) : found upos :=
  match stack with
  | [] => last
  | (t1, t2) :: rest =>
      match k with
      | O => FNoFuel
      | S k' =>
        match find_top units (Some sign) t1 t2 with
        | Found p => strong_loop k' units sign rest (Found p)
        | NotFound =>
            match t1, t2 with
            | Fun f a, Fun g b =>
                if negb (Nat.eqb f g) || match a with [] => true | _ => false end then NotFound
                else match diff_args a b with
                     | None => FUndef
                     | Some ps => strong_loop k' units sign (rev ps ++ rest) NotFound
                     end
            | _, _ => NotFound
            end
        | r => r
        end
      end
  end.
Definition strong_subsumes (units : list upos) (sign : bool) (t1 t2 : term) : found upos :=
  strong_loop n units sign [(t1, t2)] NotFound.

(** the choice made by StrongUnitForwardSubsumption *)
Definition find_pos_unit (strong : bool) (units : list upos) (t1 t2 : term) : found upos :=
  if strong then strong_subsumes units true t1 t2 else find_simplifying units true t1 t2.

(** unit_clause_set_subsumes_clause / UnitClauseSetSubsumesClause, ccl_subsumption.c:121-154 *)
Fixpoint unit_set_subsumes (strong : bool) (units : list upos) (c : clause) : found upos :=
  match c with
  | [] => NotFound
  | h :: c' =>
      match (if pos h then find_pos_unit strong units (lt h) (rt h) else find_top units (Some false) (lt h) (rt h)) with
      | NotFound => unit_set_subsumes strong units c'
      | r => r
      end
  end.

(** ClausePositiveSimplifyReflect, ccl_subsumption.c:1281-1320: the remaining literals, and the
    units used. [None]: a search did not return. *)
Fixpoint pos_simplify_reflect (strong : bool) (units : list upos) (c : clause) : option (clause * list upos) :=
  match c with
  | [] => Some ([], [])
  | h :: c' =>
      match (if negb (pos h) then find_pos_unit strong units (lt h) (rt h) else NotFound) with
      | Found p => match pos_simplify_reflect strong units c' with
                   | Some (r, us) => Some (r, p :: us)
                   | None => None
                   end
      | NotFound => match pos_simplify_reflect strong units c' with
                    | Some (r, us) => Some (h :: r, us)
                    | None => None
                    end
      | _ => None
      end
  end.

(** ClauseNegativeSimplifyReflect, ccl_subsumption.c:1338-1373 *)
Fixpoint neg_simplify_reflect (units : list upos) (c : clause) : option (clause * list upos) :=
  match c with
  | [] => Some ([], [])
  | h :: c' =>
      match (if pos h then find_top units (Some false) (lt h) (rt h) else NotFound) with
      | Found p => match neg_simplify_reflect units c' with
                   | Some (r, us) => Some (r, p :: us)
                   | None => None
                   end
      | NotFound => match neg_simplify_reflect units c' with
                    | Some (r, us) => Some (h :: r, us)
                    | None => None
                    end
      | _ => None
      end
  end.

(** ClauseSimplifyWithUnitSet, ccl_unit_simplify.c:232-287: [inl u] = subsumed by u (result false),
    [inr c'] = the simplified clause.  [done]: the literals kept so far, in reverse. *)
Fixpoint simplify_with_units (full : bool) (units : list upos) (done c : clause) : option (upos + clause) :=
  match c with
  | [] => Some (inr (rev done))
  | h :: c' =>
      match (if full then find_simplifying units false (lt h) (rt h) else find_top units None (lt h) (rt h)) with
      | Found p => if Bool.eqb (pos h) (pos (ulit p)) then Some (inl p)
                   else simplify_with_units full units done c'
      | NotFound => simplify_with_units full units (h :: done) c'
      | _ => None
      end
  end.

(** ** Condensation *)

(** LiteralUnifyOneWay with swapped = false, ccl_eqn.c:2243-2270 *)
Definition unify_one_way (e1 e2 : eqn) : outcome :=
  if negb (Bool.eqb (pos e1) (pos e2)) then Failure no_bindings
  else match mgu n (srt E) (pp E) no_bindings (lt e1) (lt e2) with
       | Success st => mgu n (srt E) (pp E) st (rt e1) (rt e2)
       | o => o
       end.

(** EqnCopy, ccl_eqn.c:1364-1384: like EqnCopyOpt, but an oriented literal stays marked as oriented
    (and its maximality as up to date). *)
Definition copy_eqn (b : binding) (e : eqn) : option eqn :=
  match inst n b (lt e), inst n b (rt e) with
  | Some l, Some r =>
      let h := eqn_alloc E l r (pos e) in
      Some (mkeqn (lt h) (rt h) (pos h) (ori e) (uptodate e && ori e) (maxi e) (smaxi e) (sel e) (pseudo e))
  | _, _ => None
  end.

Inductive cres := Condensed (c : clause) | NotCondensed | CFail.

(** try_condensation, ccl_condensation.c:56-91, for the literals at positions i < j.  (The argument
    [swap] is not used: LiteralUnifyOneWay is called with false.) *)
Definition try_condensation (c : clause) (i j : nat) : cres :=
  match nth_error c i, nth_error c j with
  | Some l1, Some l2 =>
      match unify_one_way l1 l2 with
      | Success st =>
          match mapo (copy_eqn (bnd st)) (except j c) with
          | None => CFail
          | Some new =>
              let cand := sort_lits (clause_alloc (remove_resolved E (remove_dups new))) in
              match clause_subsumes cand c with
              | Ans true => Condensed cand
              | Ans false => NotCondensed
              | _ => CFail
              end
          end
      | Failure _ => NotCondensed
      | _ => CFail
      end
  | _, _ => CFail
  end.

(** CondenseOnce, ccl_condensation.c:114-139: the pairs i < j in order, each once or twice. *)
Fixpoint first_condensed (c : clause) (ps : list (nat * nat)) : cres :=
  match ps with
  | [] => NotCondensed
  | (i, j) :: ps' => match try_condensation c i j with
                     | NotCondensed => first_condensed c ps'
                     | r => r
                     end
  end.
Definition is_oriented (c : clause) (i : nat) : bool := match nth_error c i with Some e => ori e | None => true end.
Definition condense_once (c : clause) : cres :=
  first_condensed c (flat_map (fun i => flat_map (fun j =>
      (i, j) :: (if negb (is_oriented c i) || negb (is_oriented c j) then [(i, j)] else []))
    (seq (S i) (length c - S i))) (seq 0 (length c))).

(** the loop of Condense, ccl_condensation.c:166-169; [k] iterations at most *)
Fixpoint condense_loop (k : nat) (c : clause) : cres :=
  match k with
  | O => CFail
  | S k' => match condense_once c with
            | Condensed c' => condense_loop k' c'
            | NotCondensed => Condensed c
            | CFail => CFail
            end
  end.
(** Condense, ccl_condensation.c:156-178 *)
Definition condense (c : clause) : cres :=
  if Nat.ltb 1 (pos_no c) || Nat.ltb 1 (neg_no c) then condense_loop (S (length c)) (sort_lits c) else Condensed c.

(** ** Contextual simplify-reflect *)

(** ClauseFlipLiteralSign, ccl_clausefunc.c:204-218 *)
Definition flip_lit (e : eqn) : eqn :=
  mkeqn (lt e) (rt e) (negb (pos e)) (ori e) (uptodate e) (maxi e) (smaxi e) (sel e) (pseudo e).

(** Literal cells have an identity (their address), here a number; sorting moves cells. *)
Notation cell := (nat * eqn)%type.
Fixpoint insert_cell (e : cell) (c : list cell) : list cell :=
  match c with
  | [] => [e]
  | e' :: r => match inv_compare (snd e) (snd e') with Gt => e' :: insert_cell e r | _ => e :: c end
  end.
Definition sort_cells (c : list cell) : list cell := fold_right insert_cell [] c.
Definition flip_cell (i : nat) (c : list cell) : list cell :=
  map (fun '(j, e) => if Nat.eqb i j then (j, flip_lit e) else (j, e)) c.
(** ClauseRemoveLiteral, ccl_clausefunc.c:179-189 *)
Definition remove_cell (i : nat) (c : list cell) : list cell := filter (fun '(j, _) => negb (Nat.eqb i j)) c.

(** The loop of ClauseContextualSimplifyReflect, ccl_context_sr.c:70-98, over the stack of cells;
    result: the clause and the subsumers used. *)
Fixpoint csr_loop (set : list clause) (stack : list nat) (c : list cell) : option (list cell * list clause) :=
  match stack with
  | [] => Some (c, [])
  | i :: stack' =>
      let c1 := sort_cells (flip_cell i c) in
      match set_subsumes set (map snd c1) with
      | Found s => match csr_loop set stack' (remove_cell i c1) with
                   | Some (r, us) => Some (r, s :: us)
                   | None => None
                   end
      | NotFound => csr_loop set stack' (flip_cell i c1)
      | _ => None
      end
  end.
(** ClauseContextualSimplifyReflect, ccl_context_sr.c:61-101; ClauseToStack pushes in order, so the
    last literal comes first. *)
Definition contextual_sr (set : list clause) (c : clause) : option (clause * list clause) :=
  match csr_loop set (rev (seq 0 (length c))) (combine (seq 0 (length c)) c) with
  | Some (r, us) => Some (map snd r, us)
  | None => None
  end.
End Tests.
Arguments found : clear implicits.
