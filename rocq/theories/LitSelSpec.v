(** What is claimed about literal selection: a small vocabulary. *)
From Coq Require Import ZArith String List Bool.
From Verif Require Import LitSel.
Import ListNotations.
Local Open Scope Z_scope.

(** Literal number i of a clause is selected. *)
Definition sel (c : clause) (i : nat) : Prop :=
  exists l, nth_error c i = Some l /\ selected l = true.

(** No literal is selected. *)
Definition none_selected (c : clause) : Prop := forall i, ~ sel c i.

(** The two clauses differ in the selected flags only. *)
Definition same (c c' : clause) : Prop :=
  Forall2 (fun l l' => positive l' = positive l /\ into l' = into l /\ at_ l' = at_ l) c c'.

Definition neg_at (c : clause) (i : nat) : Prop :=
  exists l, nth_error c i = Some l /\ positive l = false.
Definition pos_at (c : clause) (i : nat) : Prop :=
  exists l, nth_error c i = Some l /\ positive l = true.

Definition has_negative (c : clause) : Prop := exists i, neg_at c i.

(** Exactly one literal is selected, or exactly it and all positive ones. *)
Definition alone (c : clause) (i : nat) : Prop := forall j, sel c j <-> j = i.
Definition with_positive (c : clause) (i : nat) : Prop :=
  forall j, sel c j <-> j = i \/ pos_at c j.

(** Measures as terms have them: each side has at least one symbol, sums fit
    into a long, and a type literal p(X) is not ground and no equation
    (TBTermIsTypeTerm, TERMS/cte_termbanks.h:121: its weight is that of one
    function symbol and one variable; EqnIsTypePred, ccl_eqn.h); the symbol of a
    literal that is no equation is not 0. *)
Definition measured (l : lit) : Prop :=
  let a := at_ l in
  0 < lstd a /\ 0 < rstd a /\ 0 < l21 a /\ 0 < r21 a /\ 0 < l11 a /\ 0 < r11 a /\
  lstd a + rstd a < LONG_MAX /\ l21 a + r21 a < LONG_MAX /\ l11 a + r11 a < LONG_MAX /\
  (equ a = false -> fcode a <> 0) /\
  (typ a = true -> ground a = false /\ equ a = false /\ lvar a = false).

(** A clause as it is given to a strategy *)
Definition ready (c : clause) : Prop :=
  none_selected c /\ has_negative c /\ Forall measured c.

(** Measures: the symbols of both sides; a hundred times the difference of the
    sides and the symbols; the symbols of the sides in which there can be
    inferences. *)
Definition weight_of (l : lit) : Z := lstd (at_ l) + rstd (at_ l).
Definition imbalance (l : lit) : Z :=
  100 * Z.abs (lstd (at_ l) - rstd (at_ l)) + lstd (at_ l) + rstd (at_ l).
Definition positions (l : lit) : Z :=
  if oriented (at_ l) then lstd (at_ l) else lstd (at_ l) + rstd (at_ l).

(** Among the literals with property p, number i is the first with the
    largest (smallest) weight. *)
Definition largest_at (p : lit -> Prop) (w : lit -> Z) (c : clause) (i : nat) : Prop :=
  exists l, nth_error c i = Some l /\ p l /\
    forall k l', nth_error c k = Some l' -> p l' ->
      w l' <= w l /\ ((k < i)%nat -> w l' < w l).
Definition smallest_at (p : lit -> Prop) (w : lit -> Z) (c : clause) (i : nat) : Prop :=
  largest_at p (fun l => - w l) c i.
Definition first_at (p : lit -> Prop) (c : clause) (i : nat) : Prop :=
  exists l, nth_error c i = Some l /\ p l /\
    forall k l', nth_error c k = Some l' -> p l' -> (i <= k)%nat.
Definition no_such (p : lit -> Prop) (c : clause) : Prop := forall l, In l c -> ~ p l.

Definition neg_lit (l : lit) : Prop := positive l = false.
Definition neg_ground_lit (l : lit) : Prop := positive l = false /\ ground (at_ l) = true.
Definition neg_var_lit (l : lit) : Prop :=
  positive l = false /\ lvar (at_ l) = true /\ rvar (at_ l) = true.

(** A strategy whose name does not begin with an M, P, H or G before Select
    selects negative literals only. *)
Definition plain (n : string) : bool := prefix "Select" n || prefix "No" n.

(** The strategy of this name always selects one literal and nothing else, and
    this literal is as described. *)
Definition selects (n : string) (P : clause -> nat -> Prop) : Prop :=
  exists f, strategy n = Some f /\
  forall e s, ready (lits s) ->
    exists s' i, f e s = Some s' /\ same (lits s) (lits s') /\ alone (lits s') i /\ P (lits s) i.

(** The best of one kind, or if there are none of this kind, as otherwise
    described. *)
Definition or_none (p : lit -> Prop) (A B : clause -> nat -> Prop) (c : clause) (i : nat) : Prop :=
  A c i \/ (no_such p c /\ B c i).

Definition neg_oriented_lit (l : lit) : Prop := positive l = false /\ oriented (at_ l) = true.
Definition neg_max_lit (l : lit) : Prop := positive l = false /\ maximal (at_ l) = true.

(** The strategies that select all positive literals whenever they select a
    negative one.  (The others with a P do so only if no literal is ground or an
    inequation of variables.) *)
Definition p_names : list string := [
  "PSelectLargestNegLit"; "PSelectSmallestNegLit"; "PSelectLargestOrientable";
  "PSelectSmallestOrientable"; "PSelectDiffNegLit"; "PSelectGroundNegLit";
  "PSelectMinOptimalNoTypePred"; "PSelectMinOptimalNoXTypePred";
  "PSelectMinOptimalNoRXTypePred"; "PSelectMaxLComplexNoTypePred";
  "PSelectMaxLComplexNoXTypePred"; "PSelectComplexPreferNEQ"; "PSelectComplexPreferEQ";
  "PSelectNewComplex"; "PSelectNewComplexExceptUniqMaxHorn"; "PSelectMinInfpos";
  "PSelectMinInfposNoTypePred"; "PSelectMin2Infpos";
  "PSelectUnlessUniqMaxSmallestOrientable"; "PSelectComplexAHP"; "PSelectNewComplexAHP";
  "PSelectComplexAHPExceptRRHorn"; "PSelectNewComplexAHPExceptRRHorn";
  "PSelectNewComplexAHPExceptUniqMaxHorn" ]%string.

(** The strategies that never select a negative type literal *)
Definition no_type_names : list string := [
  "SelectMinOptimalNoTypePred"; "PSelectMinOptimalNoTypePred";
  "SelectMaxLComplexNoTypePred"; "PSelectMaxLComplexNoTypePred";
  "SelectMinInfposNoTypePred"; "PSelectMinInfposNoTypePred";
  "SelectMaxLComplexAPPNTNp"; "SelectMaxLComplexAPPNoType";
  "SelectCQArNTEqFirst"; "SelectCQIArNTEqFirst"; "SelectCQArNTNpEqFirst";
  "SelectCQIArNTNpEqFirst"; "SelectCQArNTNp"; "SelectCQIArNTNp"; "SelectCQArNT";
  "SelectCQIArNT"; "SelectCQPrecWNTNp"; "SelectCQIPrecWNTNp";
  "SelectCQArNTEqFirstUnlessPDom" ]%string.
