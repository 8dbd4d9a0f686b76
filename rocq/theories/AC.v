(** * Model of AC handling: TERMS/cte_acterms.c, HEURISTICS/che_axiomscan.c and the AC functions of CLAUSES/ccl_eqn.c,
      ccl_eqnlist.c, ccl_clauses.c, ccl_clausefunc.c.

    Commutativity and associativity axioms are recognised among the clauses, the symbols are marked in the signature, and literals
    whose sides are equal modulo these axioms are treated as trivial.

    Simplification: AC terms are values; the ordered tree in which the arguments of an AC symbol are collected (PTree with
    acterm_uniq_compare, cte_acterms.c:36-65, ties decided by the address) is a list kept in order, since arguments that compare equal
    are equal.  Higher-order cases (lambda terms, applied variables, phony applications) do not occur in first-order terms. *)
From Verif Require Import Terms Semantics Clauses.
Local Open Scope nat_scope.

(** ACTermCell, cte_acterms.h:33-39: f_code and argument array *)
Inductive acterm : Type :=
| AVar (x : var)
| AFun (f : sym) (args : list acterm).

(** f_code of an AC term; variables have negative codes *)
Definition ac_code (t : acterm) : Z := match t with AVar x => (- Z.of_nat x - 1)%Z | AFun f _ => Z.of_nat f end.

(** ACTermCompare, cte_acterms.c:177-223: [Lt], [Eq], [Gt] for a negative, zero and positive result *)
Fixpoint ac_compare (t1 t2 : acterm) : comparison :=
  match (ac_code t1 ?= ac_code t2)%Z with
  | Eq => match t1, t2 with
          | AFun _ a1, AFun _ a2 =>
              (fix go (l1 l2 : list acterm) : comparison :=
                 match l1, l2 with
                 | [], [] => Eq
                 | [], _ => Lt
                 | _, [] => Gt
                 | x :: l1', y :: l2' => match ac_compare x y with Eq => go l1' l2' | r => r end
                 end) a1 a2
          | _, _ => Eq
          end
  | r => r
  end.

(** PTreeObjStore with acterm_uniq_compare, and the traversal of the tree in order *)
Fixpoint ac_insert (t : acterm) (l : list acterm) : list acterm :=
  match l with
  | [] => [t]
  | u :: l' => match ac_compare t u with Gt => u :: ac_insert t l' | _ => t :: l end
  end.
Definition ac_sort (l : list acterm) : list acterm := fold_right ac_insert [] l.

(** Properties of symbols (FPCommutative, FPAssociative in the signature, cte_signature.h:44-75), the stack sig->ac_axioms, and
    control->ac_handling_active (che_proofcontrol.h:46) *)
Record acsig := mkac { comm : list sym; assoc : list sym; ac_axioms : list clause; ac_active : bool }.
Definition no_ac : acsig := mkac [] [] [] false.
Definition memb (f : sym) (l : list sym) : bool := existsb (Nat.eqb f) l.
Definition is_comm (A : acsig) (f : sym) : bool := memb f (comm A).
(** FPIsAC: both properties, cte_signature.h:51, clb_properties.h:51 *)
Definition is_ac (A : acsig) (f : sym) : bool := memb f (comm A) && memb f (assoc A).

(** ACTermNormalize with ac_collect_args, cte_acterms.c:81-104, 238-290 *)
Fixpoint ac_norm (A : acsig) (t : term) : acterm :=
  match t with
  | Var x => AVar x
  | Fun f a =>
      if is_ac A f then
        AFun f (ac_sort (flat_map
          (fix collect (u : term) : list acterm :=
             match u with
             | Var _ => [ac_norm A u]
             | Fun g b => if Nat.eqb g f then flat_map collect b else [ac_norm A u]
             end) a))
      else if is_comm A f then
        match a with
        | [t1; t2] => let n1 := ac_norm A t1 in let n2 := ac_norm A t2 in
                      match ac_compare n1 n2 with Gt => AFun f [n2; n1] | _ => AFun f [n1; n2] end
        | _ => AFun f (map (ac_norm A) a)
        end
      else AFun f (map (ac_norm A) a)
  end.

(** TermACEqual, cte_acterms.c:345-387 *)
Definition ac_equal (A : acsig) (s t : term) : bool :=
  if Z.eqb (stdweight s) (stdweight t)
  then match ac_compare (ac_norm A s) (ac_norm A t) with Eq => true | _ => false end
  else false.

(** DetectCommutativity, che_axiomscan.c:62-103 *)
Definition detect_comm (c : clause) : option sym :=
  match c with
  | [e] =>
      if pos e then
        match lt e, rt e with
        | Fun f [Var x; Var y], Fun g [Var x'; Var y'] =>
            if Nat.eqb f g && negb (Nat.eqb x y) && Nat.eqb x y' && Nat.eqb y x' then Some f else None
        | _, _ => None
        end
      else None
  | _ => None
  end.

(** DetectAssociativity, che_axiomscan.c:120-176; the weight of the left term is tested twice, that of the right one never *)
Definition detect_assoc (c : clause) : option sym :=
  match c with
  | [e] =>
      if pos e && Z.eqb (stdweight (lt e)) (2 * 2 + 3 * 1) then
        let '(l, r) := match lt e with Fun _ (Var _ :: _) => (rt e, lt e) | _ => (lt e, rt e) end in
        match l, r with
        | Fun f [Fun g [Var v1; Var v2]; Var v3], Fun f' [Var w1; Fun g' [Var w2; Var w3]] =>
            if Nat.eqb f f' && Nat.eqb f g && negb (Nat.eqb v1 v2) && negb (Nat.eqb v1 v3) && negb (Nat.eqb v2 v3)
               && Nat.eqb f g' && Nat.eqb v1 w1 && Nat.eqb v2 w2 && Nat.eqb v3 w3
            then Some f else None
        | _, _ => None
        end
      else None
  | _ => None
  end.

(** ClauseScanAC, che_axiomscan.c:192-217; the boolean: a commutativity axiom *)
Definition scan_clause (A : acsig) (c : clause) : acsig * bool :=
  match detect_comm c with
  | Some f => (if memb f (comm A) then A else mkac (f :: comm A) (assoc A) (c :: ac_axioms A) (ac_active A), true)
  | None =>
      match detect_assoc c with
      | Some f => (if memb f (assoc A) then A else mkac (comm A) (f :: assoc A) (c :: ac_axioms A) (ac_active A), false)
      | None => (A, false)
      end
  end.
(** ClauseSetScanAC, che_axiomscan.c:233-246 *)
Definition scan_set (A : acsig) (cs : list clause) : acsig * bool :=
  fold_left (fun '(A, b) c => let '(A', r) := scan_clause A c in (A', b || r)) cs (A, false).

(** ACHandlingType, che_hcb.h:47-53 *)
Inductive ac_mode := NoACHandling | ACDiscardAll | ACKeepUnits | ACKeepOrientable.
Definition set_active (A : acsig) (b : bool) : acsig := mkac (comm A) (assoc A) (ac_axioms A) b.
(** cco_proofproc.c:1518-1535, when the proof state is initialised *)
Definition ac_init (m : ac_mode) (cs : list clause) : acsig :=
  match m with
  | NoACHandling => no_ac
  | _ => let '(A, b) := scan_set no_ac cs in set_active A b
  end.
(** check_ac_status, cco_proofproc.c:86-103 *)
Definition ac_check (m : ac_mode) (A : acsig) (c : clause) : acsig :=
  match m with
  | NoACHandling => A
  | _ => let '(A', b) := scan_clause A c in if b && negb (ac_active A') then set_active A' true else A'
  end.

(** EqnIsACTrivial, ccl_eqn.c:1575-1578 *)
Definition ac_trivial (A : acsig) (e : eqn) : bool := ac_equal A (lt e) (rt e).
(** EqnListRemoveACResolved, ccl_eqnlist.c:901-920, ClauseRemoveACResolved, ccl_clausefunc.c:345-374 *)
Definition remove_ac_resolved (A : acsig) (c : clause) : clause := filter (fun e => negb (negb (pos e) && ac_trivial A e)) c.
(** EqnListIsACTrivial, ccl_eqnlist.c:1139-1151 *)
Definition some_ac_trivial (A : acsig) (c : clause) : bool := existsb (fun e => pos e && ac_trivial A e) c.
(** ClauseIsACRedundant, ccl_clauses.c:665-677; EqnStandardWeight, ccl_eqn.h *)
Definition ac_redundant (A : acsig) (c : clause) : bool :=
  match c with
  | [e] => if pos e && Z.leb (stdweight (lt e) + stdweight (rt e)) (4 * 2 + 6 * 1) then false else some_ac_trivial A c
  | _ => some_ac_trivial A c
  end.
(** the decision in forward_contract_keep, cco_forward_contraction.c:104-115: the clause is dropped.  Kept unit clauses are marked
    CPNoGeneration, which only restricts the overlaps that are tried. *)
Definition ac_discard (m : ac_mode) (A : acsig) (c : clause) : bool :=
  ac_active A && ac_redundant A c &&
  match c with
  | [e] => match m with ACDiscardAll => true | ACKeepOrientable => negb (ori e) | _ => false end
  | _ => true
  end.

(** ** Specification *)
(** [f] is a commutative operation on the elements of sort [s] of the structure; associative *)
Definition commutes (M : structure) (s : sort) (f : sym) : Prop :=
  forall a b, isort M s a -> isort M s b -> ifun M f [a; b] = ifun M f [b; a].
Definition associates (M : structure) (s : sort) (f : sym) : Prop :=
  forall a b c, isort M s a -> isort M s b -> isort M s c -> ifun M f [ifun M f [a; b]; c] = ifun M f [a; ifun M f [b; c]].
(** [f] takes two arguments of one sort (and gives a result of that sort) *)
Definition binary (S : sorting) (f : sym) : Prop := exists s, fargs S f = [s; s].
Definition operation (S : sorting) (f : sym) : Prop := fargs S f = [fres S f; fres S f].
Definition arg_sort (S : sorting) (f : sym) : sort := hd 0 (fargs S f).
(** the structure has the properties the signature claims *)
Definition respects_ac (S : sorting) (A : acsig) (M : structure) : Prop :=
  (forall f, In f (comm A) -> commutes M (arg_sort S f) f) /\
  (forall f, In f (assoc A) -> associates M (arg_sort S f) f).
(** the properties are declared for symbols that can have them *)
Definition acsig_ok (S : sorting) (A : acsig) : Prop :=
  (forall f, In f (comm A) -> binary S f) /\ (forall f, In f (assoc A) -> operation S f).
