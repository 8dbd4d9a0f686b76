(** When the conditional strategies of literal selection select: vocabulary. *)
From Coq Require Import ZArith String List Bool.
From Verif Require Import LitSel LitSelSpec.
Import ListNotations.
Local Open Scope Z_scope.

(** Some literal, two literals, exactly one literal has the property *)
Definition some (p : lit -> Prop) (c : clause) : Prop := exists l, In l c /\ p l.
Definition two (p : lit -> Prop) (c : clause) : Prop :=
  exists i j l l', i <> j /\ nth_error c i = Some l /\ nth_error c j = Some l' /\ p l /\ p l'.
Definition exactly_one (p : lit -> Prop) (c : clause) : Prop := some p c /\ ~ two p c.

Definition max_lit (l : lit) : Prop := maximal (at_ l) = true.
Definition pos_lit (l : lit) : Prop := positive l = true.
Definition pos_max_lit (l : lit) : Prop := pos_lit l /\ max_lit l.
Definition is_horn (c : clause) : Prop := ~ two pos_lit c.

(** At least a third of the weight of the literal is that of variables. *)
Definition mostly_vars (l : lit) : Prop :=
  let a := at_ l in
  if equ a then lstd a + rstd a <= lv3 a + rv3 a else lstd a <= lv3 a.

(** A positive maximal literal has the predicate of a negative literal
    (equations count as one predicate). *)
Definition dominated (c : clause) : Prop :=
  exists p n, In p c /\ In n c /\ pos_max_lit p /\ neg_lit n /\
    (equ (at_ p) = equ (at_ n) /\ (equ (at_ p) = true \/ fcode (at_ p) = fcode (at_ n))).

(** Equations and literals with a variable as predicate *)
Definition equational (l : lit) : bool := equ (at_ l) || lvar (at_ l).

(** Literal number i with l is at least as good as number k with l': equational
    literals first (last), then high (low) arity, then the alphabetic rank of
    the symbol, then low imbalance, then the earlier one. *)
Definition cq_le (eq_first high : bool) (i : nat) (l : lit) (k : nat) (l' : lit) : Prop :=
  match equational l, equational l' with
  | true, false => eq_first = true
  | false, true => eq_first = false
  | true, true => imbalance l < imbalance l' \/ imbalance l = imbalance l' /\ (i <= k)%nat
  | false, false =>
      let a := arity (at_ l) in let a' := arity (at_ l') in
      (if high then a' < a else a < a') \/ a = a' /\
      (alpha (at_ l) < alpha (at_ l') \/ alpha (at_ l) = alpha (at_ l') /\
       (imbalance l < imbalance l' \/ imbalance l = imbalance l' /\ (i <= k)%nat))
  end.
Definition cq_choice (eq_first high : bool) (c : clause) (i : nat) : Prop :=
  exists l, nth_error c i = Some l /\ neg_lit l /\
    forall k l', nth_error c k = Some l' -> neg_lit l' -> cq_le eq_first high i l k l'.

(** Name of the strategy, name of the strategy it follows, and the condition
    under which it does so; otherwise it selects nothing. *)
Definition conditional : list (string * string * (env -> clause -> Prop)) := [
  ("SelectUnlessUniqMax", "SelectOptimalLit", fun _ c => two max_lit c);
  ("PSelectUnlessUniqMax", "PSelectOptimalLit", fun _ c => two max_lit c);
  ("SelectUnlessPosMax", "SelectOptimalLit", fun _ c => ~ some pos_max_lit c);
  ("PSelectUnlessPosMax", "PSelectOptimalLit", fun _ c => ~ some pos_max_lit c);
  ("SelectUnlessUniqPosMax", "SelectOptimalLit", fun _ c => ~ exactly_one pos_max_lit c);
  ("PSelectUnlessUniqPosMax", "PSelectOptimalLit", fun _ c => ~ exactly_one pos_max_lit c);
  ("SelectUnlessUniqMaxPos", "SelectOptimalLit", fun _ c => some neg_max_lit c \/ two max_lit c);
  ("PSelectUnlessUniqMaxPos", "PSelectOptimalLit", fun _ c => some neg_max_lit c \/ two max_lit c);
  ("SelectUnlessUniqMaxSmallestOrientable", "SelectSmallestOrientable", fun _ c => two max_lit c);
  ("PSelectUnlessUniqMaxSmallestOrientable", "PSelectSmallestOrientable", fun _ c => two max_lit c);
  ("SelectCondOptimalLit", "SelectOptimalLit",
     fun _ c => ~ some (fun l => pos_lit l /\ mostly_vars l) c);
  ("PSelectCondOptimalLit", "PSelectOptimalLit",
     fun _ c => ~ some (fun l => pos_lit l /\ mostly_vars l) c);
  ("SelectAllCondOptimalLit", "SelectOptimalLit",
     fun _ c => some (fun l => pos_lit l /\ ~ mostly_vars l) c);
  ("PSelectAllCondOptimalLit", "PSelectOptimalLit",
     fun _ c => some (fun l => pos_lit l /\ ~ mostly_vars l) c);
  ("SelectOptimalRestrDepth2", "SelectOptimalLit",
     fun _ c => ~ some (fun l => depth (at_ l) <= 2) c);
  ("PSelectOptimalRestrDepth2", "PSelectOptimalLit",
     fun _ c => ~ some (fun l => depth (at_ l) <= 2) c);
  ("SelectOptimalRestrPDepth2", "SelectOptimalLit",
     fun _ c => ~ some (fun l => pos_lit l /\ depth (at_ l) <= 2) c);
  ("PSelectOptimalRestrPDepth2", "PSelectOptimalLit",
     fun _ c => ~ some (fun l => pos_lit l /\ depth (at_ l) <= 2) c);
  ("SelectOptimalRestrNDepth2", "SelectOptimalLit",
     fun _ c => ~ some (fun l => neg_lit l /\ depth (at_ l) <= 2) c);
  ("PSelectOptimalRestrNDepth2", "PSelectOptimalLit",
     fun _ c => ~ some (fun l => neg_lit l /\ depth (at_ l) <= 2) c);
  ("SelectNonRROptimalLit", "SelectOptimalLit", fun e _ => rr e = false);
  ("PSelectNonRROptimalLit", "PSelectOptimalLit", fun e _ => rr e = false);
  ("SelectNonStrongRROptimalLit", "SelectOptimalLit", fun e _ => srr e = false);
  ("PSelectNonStrongRROptimalLit", "PSelectOptimalLit", fun e _ => srr e = false);
  ("SelectAntiRROptimalLit", "SelectOptimalLit", fun e _ => arr e = true);
  ("PSelectAntiRROptimalLit", "PSelectOptimalLit", fun e _ => arr e = true);
  ("SelectNonAntiRROptimalLit", "SelectOptimalLit", fun e _ => arr e = false);
  ("PSelectNonAntiRROptimalLit", "PSelectOptimalLit", fun e _ => arr e = false);
  ("SelectStrongRRNonRROptimalLit", "SelectOptimalLit", fun e _ => rr e = false \/ srr e = true);
  ("PSelectStrongRRNonRROptimalLit", "PSelectOptimalLit", fun e _ => rr e = false \/ srr e = true);
  ("SelectComplexExceptRRHorn", "SelectComplex", fun e c => ~ (is_horn c /\ rr e = true));
  ("PSelectComplexExceptRRHorn", "PSelectComplex", fun e c => ~ (is_horn c /\ rr e = true));
  ("SelectComplexAHPExceptRRHorn", "SelectComplexAHP", fun e c => ~ (is_horn c /\ rr e = true));
  ("PSelectComplexAHPExceptRRHorn", "PSelectComplexAHP", fun e c => ~ (is_horn c /\ rr e = true));
  ("SelectNewComplexAHPExceptRRHorn", "SelectNewComplexAHP", fun e c => ~ (is_horn c /\ rr e = true));
  ("PSelectNewComplexAHPExceptRRHorn", "PSelectNewComplexAHP", fun e c => ~ (is_horn c /\ rr e = true));
  ("SelectComplexExceptUniqMaxHorn", "SelectComplex",
     fun _ c => ~ (is_horn c /\ exactly_one max_lit c));
  ("PSelectComplexExceptUniqMaxHorn", "PSelectComplex",
     fun _ c => ~ (is_horn c /\ exactly_one max_lit c));
  ("SelectNewComplexExceptUniqMaxHorn", "SelectNewComplex",
     fun _ c => ~ (is_horn c /\ exactly_one max_lit c));
  ("PSelectNewComplexExceptUniqMaxHorn", "PSelectNewComplex",
     fun _ c => ~ (is_horn c /\ exactly_one max_lit c));
  ("SelectNewComplexAHPExceptUniqMaxHorn", "SelectNewComplexAHP",
     fun _ c => ~ (is_horn c /\ exactly_one max_lit c));
  ("PSelectNewComplexAHPExceptUniqMaxHorn", "PSelectNewComplexAHP",
     fun _ c => ~ (is_horn c /\ exactly_one max_lit c));
  ("SelectComplexExceptUniqMaxPosHorn", "SelectComplex",
     fun _ c => ~ (is_horn c /\ exactly_one max_lit c /\ exactly_one pos_max_lit c));
  ("PSelectComplexExceptUniqMaxPosHorn", "PSelectComplex",
     fun _ c => ~ (is_horn c /\ exactly_one max_lit c /\ exactly_one pos_max_lit c));
  ("SelectCQArNpEqFirstUnlessPDom", "SelectCQArNpEqFirst", fun _ c => ~ dominated c);
  ("SelectCQArNTEqFirstUnlessPDom", "SelectCQArNTEqFirst", fun _ c => ~ dominated c) ]%string.
