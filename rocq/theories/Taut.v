(** * Model of the tautology tests (CLAUSES/ccl_tautologies.c, ClauseIsTrivial in ccl_clauses.c,
    EqnListIsTrivial and EqnLongListIsTrivial in ccl_eqnlist.c, PStackBinSearch in
    BASICS/clb_pstacks.c). *)
From Verif Require Import Terms Unify KBO Semantics Clauses Subsume.

(** ** ClauseIsTrivial *)

(** EqnEqual = EqnEqualDeref with DEREF_NEVER, ccl_eqn.c:2005-2019 *)
Definition eqn_equal (e1 e2 : eqn) : bool :=
  let direct a b := term_eqb (lt a) (lt b) && term_eqb (rt a) (rt b) in
  if direct e1 e2 then true
  else if ori e1 && ori e2 then false
  else direct e1 (swap_sides e2).

(** EqnListIsTrivial, ccl_eqnlist.c:1024-1045 *)
Fixpoint list_trivial (l : list eqn) : bool :=
  match l with
  | [] => false
  | e :: l' => existsb (fun h => negb (Bool.eqb (pos h) (pos e)) && eqn_equal h e) l' || list_trivial l'
  end.

Section Entries.
Variable eno : term -> Z.      (* entry_no of the shared terms *)

(** EqnSyntaxCompare, ccl_eqn.c:2289-2329 *)
Definition syntax_compare (e1 e2 : eqn) : comparison :=
  if equlit e1 && negb (equlit e2) then Lt
  else if equlit e2 && negb (equlit e1) then Gt
  else match Z.compare (Z.max (eno (lt e1)) (eno (rt e1))) (Z.max (eno (lt e2)) (eno (rt e2))) with
       | Eq => Z.compare (Z.min (eno (lt e1)) (eno (rt e1))) (Z.min (eno (lt e2)) (eno (rt e2)))
       | c => c
       end.

(** PStackSort with comp_stack_eqns, clb_pstacks.c:192-195, ccl_eqnlist.c:1062-1068 (qsort; elements
    that compare as equal are the same equation). *)
Fixpoint insert_eqn (e : eqn) (l : list eqn) : list eqn :=
  match l with
  | [] => [e]
  | e' :: r => match syntax_compare e e' with Gt => e' :: insert_eqn e r | _ => e :: l end
  end.
Definition sort_eqns (l : list eqn) : list eqn := fold_right insert_eqn [] l.

(** PStackBinSearch, clb_pstacks.c:211-239.  [None]: element out of range. *)
Fixpoint bin_search (fuel : nat) (l : list eqn) (key : eqn) (lower upper : nat) : option nat :=
  match fuel with
  | O => None
  | S n =>
      if Nat.ltb lower upper then
        let i := Nat.div2 (lower + upper) in
        match nth_error l i with
        | None => None
        | Some e => match syntax_compare key e with
                    | Lt => bin_search n l key lower (i - 1)
                    | Gt => bin_search n l key (i + 1) upper
                    | Eq => Some i
                    end
        end
      else Some (lower + 1)
  end.

(** the loop of EqnLongListIsTrivial, ccl_eqnlist.c:1089-1116 *)
Fixpoint long_loop (fuel : nat) (ps ns : list eqn) (pp np : nat) : option bool :=
  match fuel with
  | O => None
  | S n =>
      if Nat.ltb pp (length ps) then
        match nth_error ps pp with
        | None => None
        | Some key =>
            match bin_search (S (length ns)) ns key np (length ns) with
            | None => None
            | Some np' =>
                if Nat.leb (length ns) np' then Some false
                else match nth_error ns np' with
                     | None => None
                     | Some key2 =>
                         match syntax_compare key key2 with
                         | Eq => Some true
                         | _ => match bin_search (S (length ps)) ps key2 pp (length ps) with
                                | None => None
                                | Some pp' => long_loop n ps ns pp' np'
                                end
                         end
                     end
            end
        end
      else Some false
  end.

(** EqnLongListIsTrivial, ccl_eqnlist.c:1070-1121 *)
Definition long_list_trivial (l : list eqn) : option bool :=
  let ps := sort_eqns (filter pos l) in
  let ns := sort_eqns (filter (fun e => negb (pos e)) l) in
  long_loop (S (S (length ns))) ps ns 0 0.

(** EQN_LIST_LONG_LIMIT, ccl_eqnlist.h:40 *)
Definition long_limit : nat := 15.

(** ClauseIsTrivial, ccl_clauses.c:380-395 *)
Definition clause_is_trivial (E : env) (c : clause) : option bool :=
  if find_true E c then Some true
  else if negb (Nat.eqb (pos_no c) 0) && negb (Nat.eqb (neg_no c) 0)
       then if Nat.ltb long_limit (length c) then long_list_trivial c else Some (list_trivial c)
       else Some false.

(** ** ClauseIsTautologyReal *)

(** The cells of the rewrite system: two sides and EPGONatural. *)
Record geq := { gl : term; gr : term; natural : bool }.

(** t->args, t->arity *)
Definition targs (t : term) : list term := match t with Var _ => [] | Fun _ a => a end.

(** TO_ground_compare, ccl_tautologies.c:56-112: compares weight, symbol and arity of the pairs on a
    stack, last arguments first.  [None]: more steps than terms on the stack have symbols. *)
Fixpoint ground_cmp_loop (fuel : nat) (stack : list (term * term)) : option cmp :=
  match stack with
  | [] => Some Equal
  | (t1, t2) :: rest =>
      match fuel with
      | O => None
      | S n =>
          match Z.compare (stdweight t1) (stdweight t2), Z.compare (fcode t1) (fcode t2),
                Nat.compare (length (targs t1)) (length (targs t2)) with
          | Lt, _, _ => Some Lesser
          | Gt, _, _ => Some Greater
          | Eq, Lt, _ => Some Lesser
          | Eq, Gt, _ => Some Greater
          | Eq, Eq, Lt => Some Lesser
          | Eq, Eq, Gt => Some Greater
          | Eq, Eq, Eq => ground_cmp_loop n (rev (combine (targs t1) (targs t2)) ++ rest)
          end
      end
  end.
Definition ground_compare (t1 t2 : term) : option cmp := ground_cmp_loop (size t1) [(t1, t2)].

(** ground_orient_eqn, ccl_tautologies.c:127-143 *)
Definition ground_orient (g : geq) : option geq :=
  match ground_compare (gl g) (gr g) with
  | Some Greater => Some {| gl := gl g; gr := gr g; natural := true |}
  | Some _ => Some {| gl := gl g; gr := gr g; natural := false |}
  | None => None
  end.

(** the two sides of a rule, as read by term_compute_top_nf, ccl_tautologies.c:165-174 *)
Definition lside (g : geq) : term := if natural g then gl g else gr g.
Definition rside (g : geq) : term := if natural g then gr g else gl g.

(** term_compute_top_nf, ccl_tautologies.c:158-184: new term and whether it was rewritten *)
Fixpoint top_nf (rules : list geq) (t : term) : term * bool :=
  match rules with
  | [] => (t, false)
  | g :: rules' => if term_eqb (lside g) t then (rside g, true) else top_nf rules' t
  end.

(** term_compute_ground_NF, ccl_tautologies.c:203-217: one pass, arguments first *)
Fixpoint ground_nf (rules : list geq) (t : term) : term * bool :=
  match t with
  | Var _ => top_nf rules t
  | Fun f args =>
      let rs := map (ground_nf rules) args in
      let '(t', b) := top_nf rules (Fun f (map fst rs)) in
      (t', existsb snd rs || b)
  end.

(** ground_normalize_eqn, ccl_tautologies.c:233-259 *)
Definition ground_normalize (rules : list geq) (g : geq) : geq * bool :=
  let '(l, bl) := ground_nf rules (gl g) in
  let '(r, br) := ground_nf rules (gr g) in
  ({| gl := if bl then l else gl g; gr := if br then r else gr g; natural := natural g |},
   (bl && natural g) || (br && natural g)).

(** ground_backward_contract, ccl_tautologies.c:274-292: remaining rules, and the list [to] with the
    rules that have to be treated again in front *)
Fixpoint backward_contract (from : list geq) (h : geq) (to : list geq) : list geq * list geq :=
  match from with
  | [] => ([], to)
  | g :: from' =>
      let '(g', b) := ground_normalize [h] g in
      if b then backward_contract from' h (g' :: to)
      else let '(r, to') := backward_contract from' h to in (g' :: r, to')
  end.

(** ground_complete_neg_eqns, ccl_tautologies.c:308-331.  [None] = fuel exhausted. *)
Fixpoint ground_complete (fuel : nat) (unproc proc : list geq) : option (list geq) :=
  match unproc with
  | [] => Some proc
  | h :: unproc' =>
      match fuel with
      | O => None
      | S n =>
          let h1 := fst (ground_normalize proc h) in
          if term_eqb (gl h1) (gr h1) then ground_complete n unproc' proc
          else match ground_orient h1 with
               | None => None
               | Some h2 => let '(proc', unproc'') := backward_contract proc h2 unproc' in
                            ground_complete n unproc'' (h2 :: proc')
               end
      end
  end.

Inductive tres := TAns (b : bool) | TFuel | TUndef.

Definition as_geq (e : eqn) : geq := {| gl := lt e; gr := rt e; natural := false |}.

(** MAX_EQ_TAUTOLOGY_CHECK_LITNO, ccl_tautologies.h:43 (1000); a parameter, so that theorems hold for
    all values *)
Variable max_neg : nat.

(** ClauseIsTautologyReal, ccl_tautologies.c:352-399, with no bindings in force.  ClauseCopy passes
    every literal through EqnAlloc; EqnListExtractByProps reverses the negative ones.  [TUndef]: the
    list of negative literals is empty and ground_orient_eqn dereferences NULL. *)
Definition clause_is_tautology (E : env) (fuel : nat) (c : clause) : tres :=
  if find_true E c then TAns true
  else if Nat.eqb (pos_no c) 0 || Nat.eqb (neg_no c) 0 then TAns false
  else if Nat.ltb max_neg (neg_no c)
       then match clause_is_trivial E c with Some b => TAns b | None => TUndef end
  else
    let w := map (fun e => eqn_alloc E (lt e) (rt e) (pos e)) c in
    let negs := rev (map as_geq (filter (fun e => negb (pos e)) w)) in
    let poss := map as_geq (filter pos w) in
    let decide rules := TAns (existsb (fun g => let g' := fst (ground_normalize rules g) in term_eqb (gl g') (gr g')) poss) in
    if Nat.ltb 1 (neg_no c) then
      match ground_complete fuel negs [] with Some rules => decide rules | None => TFuel end
    else match negs with
         | [] => TUndef
         | g :: gs => match ground_orient g with Some g' => decide (g' :: gs) | None => TUndef end
         end.
End Entries.

(** ** Specification vocabulary *)

(** The same equation up to swapping the sides; an atom and its negation in one clause. *)
Definition same_equation (e1 e2 : eqn) : Prop :=
  (lt e1 = lt e2 /\ rt e1 = rt e2) \/ (lt e1 = rt e2 /\ rt e1 = lt e2).
Definition complementary_pair (c : clause) : Prop :=
  exists e1 e2, In e1 c /\ In e2 c /\ pos e1 = true /\ pos e2 = false /\ same_equation e1 e2.

(** Literals marked as oriented are so by an asymmetric relation. *)
Definition orient_ok (gt : term -> term -> Prop) (c : clause) : Prop :=
  (forall t u, gt t u -> ~ gt u t) /\ forall e, In e c -> ori e = true -> gt (lt e) (rt e).

(** Shared terms: different sides of literals have different entry numbers (C24). *)
Definition injective_on (eno : term -> Z) (c : clause) : Prop :=
  forall a b t u, In a c -> In b c -> (t = lt a \/ t = rt a) -> (u = lt b \/ u = rt b) -> eno t = eno u -> t = u.

(** EqnAlloc never leaves $false as a side of a literal. *)
Definition no_false (c : clause) : Prop := forall e, In e c -> lt e <> tfalse /\ rt e <> tfalse.
