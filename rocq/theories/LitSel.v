(** Literal selection: which literals of a clause the strategies named by
    --literal-selection-strategy select.

    HEURISTICS/che_litselection.c (all strategies of the table), with
    DoLiteralSelection and select_inherited_literal from
    HEURISTICS/che_proofcontrol.c.

    Simplified: a literal carries what the strategies measure of it (sizes,
    flags, symbol data) instead of its terms, with the values they have after
    the maximal literals and terms have been marked; the strategies change none
    of it.  Sizes and weights are unbounded integers, with LONG_MAX as given.
    The applied variables of the higher-order build are a flag. *)
From Coq Require Import ZArith String Ascii List Bool.
Import ListNotations.
Local Open Scope list_scope.
Local Open Scope Z_scope.

(** What is measured of a literal (CLAUSES/ccl_eqn.h:158-203, 326-354):
    EqnIsGround, EqnIsMaximal, EqnIsOriented, TermIsFreeVar of the two sides,
    EqnIsEquLit, EqnIsTypePred, EqnIsXTypePred, EqnIsRealXTypePred,
    EqnIsPropositional, EqnIsSplitLit, EqnHasAppVar; TermStandardWeight,
    TermWeight(.,2,1), TermWeight(.,1,1) and TermWeight(.,0,3) of the two
    sides; EqnDepth; and f_code of the left side with its arity, alphabetic
    rank and weight in the precedence. *)
Record attr := mkattr {
  ground : bool; maximal : bool; oriented : bool;
  lvar : bool; rvar : bool; equ : bool;
  typ : bool; xtyp : bool; rxtyp : bool; prop : bool; split_lit : bool; appvar : bool;
  lstd : Z; rstd : Z; l21 : Z; r21 : Z; l11 : Z; r11 : Z; lv3 : Z; rv3 : Z;
  depth : Z; fcode : Z; arity : Z; alpha : Z; precw : Z }.

(** EqnCell, CLAUSES/ccl_eqn.h: EPIsPositive, EPIsSelected, EPIsPMIntoLit *)
Record lit := mklit { positive : bool; selected : bool; into : bool; at_ : attr }.

Definition clause := list lit.

Definition negative (l : lit) : bool := negb (positive l).

(** EqnSetProp(., EPIsSelected), EqnDelProp *)
Definition set_selected (b : bool) (l : lit) : lit :=
  mklit (positive l) b (into l) (at_ l).

(** EqnIsPureVar, ccl_eqn.h:191 *)
Definition pure_var (l : lit) : bool := lvar (at_ l) && rvar (at_ l).

(** EqnStandardWeight, ccl_eqn.h:326; EqnStandardDiff, ccl_eqn.h:350;
    lit_sel_diff_weight, che_litselection.c:203 *)
Definition std (l : lit) : Z := lstd (at_ l) + rstd (at_ l).
Definition diff (l : lit) : Z :=
  Z.max (lstd (at_ l)) (rstd (at_ l)) - Z.min (lstd (at_ l)) (rstd (at_ l)).
Definition dw (l : lit) : Z := 100 * diff l + std l.

(** The sum of the weights of the sides in which inferences are possible:
    che_litselection.c:4038-4043, 4325-4330; EqnMaxTermPositions,
    CLAUSES/ccl_eqn.c:3067 *)
Definition infpos (l : lit) : Z :=
  lstd (at_ l) + (if oriented (at_ l) then 0 else rstd (at_ l)).
Definition infpos2 (l : lit) : Z :=
  l21 (at_ l) + (if oriented (at_ l) then 0 else r21 (at_ l)).
Definition infpos1 (l : lit) : Z :=
  l11 (at_ l) + (if oriented (at_ l) then 0 else r11 (at_ l)).

(** EqnGetPredCode, ccl_eqn.h:164 *)
Definition pred (l : lit) : Z := if equ (at_ l) then 0 else fcode (at_ l).

Definition LONG_MAX : Z := 9223372036854775807.

(** EqnListQueryPropNumber(., EPIsMaximal) and with EPIsPositive *)
Definition count (p : lit -> bool) (c : clause) : Z := Z.of_nat (length (filter p c)).
Definition is_max (l : lit) : bool := maximal (at_ l).
Definition max_no (c : clause) : Z := count is_max c.
Definition max_pos_no (c : clause) : Z := count (fun l => is_max l && positive l) c.
Definition pos_no (c : clause) : Z := count positive c.
Definition neg_no (c : clause) : Z := count negative c.

(** ClauseIsHorn, CLAUSES/ccl_clauses.h:238 *)
Definition horn (c : clause) : bool := pos_no c <=? 1.

(** A clause with its property CPIsOriented: whether the maximal literals have
    been marked, so that ClauseCondMarkMaximalTerms (ccl_clauses.h:328) does
    nothing. *)
Record st := mkst { lits : clause; marked : bool }.

(** What else a strategy sees: ClauseIsRangeRestricted,
    ClauseIsStronglyRangeRestricted, ClauseIsAntiRangeRestricted of the clause,
    and the global literal_weight_counter (che_litselection.c:195), which
    counts the literals weighted before. *)
Record env := mkenv { rr : bool; srr : bool; arr : bool; counter : Z }.

(** A LiteralSelectionFun; None when a NULL pointer is written through. *)
Definition selfun := env -> st -> option st.

(** ** The pieces *)

Fixpoint select_nth (i : nat) (c : clause) : clause :=
  match c, i with
  | [], _ => []
  | l :: r, 0%nat => set_selected true l :: r
  | l :: r, S i => l :: select_nth i r
  end.

(** clause_select_pos, che_litselection.c:529-543 *)
Definition select_pos (c : clause) : clause :=
  map (fun l => if positive l then set_selected true l else l) c.

(** EqnListDelProp(., EPIsSelected) *)
Definition unselect (c : clause) : clause := map (set_selected false) c.

Definition mark (s : st) : st := mkst (lits s) true.
Definition unmark (s : st) : st := mkst (lits s) false.
Definition on_lits (f : clause -> clause) (s : st) : st := mkst (f (lits s)) (marked s).

(** The loops that look for the first literal with a property *)
Fixpoint first_from (i : nat) (p : lit -> bool) (c : clause) : option nat :=
  match c with
  | [] => None
  | l :: r => if p l then Some i else first_from (S i) p r
  end.
Definition first (p : lit -> bool) (c : clause) : option nat := first_from 0 p c.

(** The loops that look for the first literal with a property whose weight is
    best: select_weight starts with w0, and a literal is taken if its weight is
    better. *)
Fixpoint best_from (i : nat) (better : Z -> Z -> bool) (p : lit -> bool) (w : lit -> Z)
  (w0 : Z) (sel : option nat) (c : clause) : option nat :=
  match c with
  | [] => sel
  | l :: r => if p l && better (w l) w0
              then best_from (S i) better p w (w l) (Some i) r
              else best_from (S i) better p w w0 sel r
  end.
Definition largest (w0 : Z) (p : lit -> bool) (w : lit -> Z) (c : clause) : option nat :=
  best_from 0 Z.gtb p w w0 None c.
Definition smallest (p : lit -> bool) (w : lit -> Z) (c : clause) : option nat :=
  best_from 0 Z.ltb p w LONG_MAX None c.

(** EqnSetProp(selected, EPIsSelected), without and with a test for NULL *)
Definition pick (F : clause -> option nat) : selfun := fun _ s =>
  match F (lits s) with
  | Some i => Some (on_lits (select_nth i) s)
  | None => None
  end.
Definition pick_if (F : clause -> option nat) : selfun := fun _ s =>
  match F (lits s) with
  | Some i => Some (on_lits (select_nth i) s)
  | None => Some s
  end.
(** The same with all positive literals; most variants with P select them in
    the loop that looks for the negative one, which they do not disturb. *)
Definition ppick (F : clause -> option nat) : selfun := fun _ s =>
  match F (lits s) with
  | Some i => Some (on_lits (fun c => select_pos (select_nth i c)) s)
  | None => None
  end.
Definition ppick_if (F : clause -> option nat) : selfun := fun _ s =>
  match F (lits s) with
  | Some i => Some (on_lits (fun c => select_pos (select_nth i c)) s)
  | None => Some s
  end.
(** if(selected) EqnSetProp(selected, EPIsSelected); else the next strategy *)
Definition pick_or (F : clause -> option nat) (f : selfun) : selfun := fun e s =>
  match F (lits s) with
  | Some i => Some (on_lits (select_nth i) s)
  | None => f e s
  end.
(** if(cond) strategy *)
Definition when (b : env -> clause -> bool) (f : selfun) : selfun := fun e s =>
  if b e (lits s) then f e s else Some s.
(** if(cond) strategy else EqnListDelProp *)
Definition when_else_clear (b : env -> clause -> bool) (f : selfun) : selfun := fun e s =>
  if b e (lits s) then f e s else Some (on_lits unselect s).
(** ClauseCondMarkMaximalTerms before, ClauseDelProp(., CPIsOriented) after *)
Definition marking (f : selfun) : selfun := fun e s => f e (mark s).
Definition unmarking (f : selfun) : selfun := fun e s =>
  match f e s with Some s' => Some (unmark s') | None => None end.
(** if(selected) { ... ClauseDelProp(., CPIsOriented) } *)
Definition unmarking_if (F : clause -> option nat) (f : selfun) : selfun := fun e s =>
  match F (lits s) with Some _ => unmarking f e s | None => f e s end.

(** ** Finding a literal *)

Definition neg_ground (l : lit) := negative l && ground (at_ l).
Definition neg_max (l : lit) := negative l && is_max l.
Definition neg_nonmax (l : lit) := negative l && negb (is_max l).

(** One search after the other *)
Definition or_else (F G : clause -> option nat) (c : clause) : option nat :=
  match F c with Some i => Some i | None => G c end.

(** ClauseFindNegPureVarLit, CLAUSES/ccl_clauses.h *)
Definition find_neg_pure_var : clause -> option nat :=
  first (fun l => negative l && pure_var l).

(** find_maxlcomplex_literal, che_litselection.c:221-280 *)
Definition find_maxlcomplex : clause -> option nat :=
  or_else (first (fun l => neg_max l && pure_var l))
  (or_else (largest (-1) (fun l => neg_max l && ground (at_ l)) dw)
           (largest (-1) neg_max dw)).

(** find_lcomplex_literal, che_litselection.c:296-357 *)
Definition find_lcomplex : clause -> option nat :=
  or_else (first (fun l => neg_nonmax l && pure_var l))
  (or_else (largest (-1) (fun l => neg_nonmax l && ground (at_ l)) dw)
           (largest (-1) neg_nonmax dw)).

(** find_smallest_neg_ground_lit, che_litselection.c:373-395 *)
Definition find_smallest_neg_ground : clause -> option nat := smallest neg_ground std.

(** find_smallest_max_neg_ground_lit, che_litselection.c:410-432; lterm->weight
    is the standard weight of the left side *)
Definition find_smallest_max_neg_ground : clause -> option nat :=
  smallest neg_ground (fun l => lstd (at_ l)).

(** find_ng_min11_infpos_no_xtype_lit, che_litselection.c:448-476 *)
Definition find_ng_min11 : clause -> option nat :=
  smallest (fun l => negative l && negb (ground (at_ l)) && negb (xtyp (at_ l))) infpos1.

(** find_max_xtype_no_type_lit, che_litselection.c:489-514 *)
Definition find_max_xtype : clause -> option nat :=
  largest (-1) (fun l => negative l && xtyp (at_ l) && negb (typ (at_ l)))
    (fun l => lstd (at_ l)).

(** The loops of Select(Largest|Smallest)OrientableLiteral,
    che_litselection.c:1124-1144, 1247-1267: oriented literals first *)
Fixpoint orientable_from (i : nat) (better : Z -> Z -> bool) (o : bool) (w0 : Z)
  (sel : option nat) (c : clause) : option nat :=
  match c with
  | [] => sel
  | l :: r =>
      let lo := oriented (at_ l) in
      if negative l &&
         ((negb o && lo) || (((o && lo) || (negb o && negb lo)) && better (std l) w0))
      then orientable_from (S i) better lo (std l) (Some i) r
      else orientable_from (S i) better o w0 sel r
  end.
Definition largest_orientable (c : clause) := orientable_from 0 Z.gtb false 0 None c.
Definition smallest_orientable (c : clause) := orientable_from 0 Z.ltb false LONG_MAX None c.

(** The loops of SelectComplexPreferNEQ and SelectComplexPreferEQ,
    che_litselection.c:3516-3561, 3665-3710; [good] says which kind is
    preferred.  The break statements end the loop over the literals. *)
Fixpoint prefer_from (i : nat) (good : lit -> bool) (sg sv sgr : bool) (sw : Z)
  (sel : option nat) (c : clause) : option nat :=
  match c with
  | [] => sel
  | l :: r =>
      if negative l then
        let cg := good l in
        let cv := pure_var l in
        let cgr := ground (at_ l) in
        let stop :=
          if sg && negb cg then true
          else if eqb cg sg then
            if sv && negb cv then true
            else if eqb cv sv then
              if sgr && negb cgr then true
              else if eqb cgr sgr then dw l <=? sw
              else false
            else false
          else false in
        if stop then sel
        else prefer_from (S i) good cg cv cgr (dw l) (Some i) r
      else prefer_from (S i) good sg sv sgr sw sel r
  end.
Definition prefer (good : lit -> bool) (c : clause) : option nat :=
  prefer_from 0 good false false false (-1) None c.

(** ** Weighting all literals *)

(** LitEvalCell, che_litselection.h:45-52, with LitEvalInit *)
Record eval := mkeval { forbidden : bool; w1 : Z; w2 : Z; w3 : Z }.
Definition eval0 := mkeval false 0 0 0.

(** A LitWeightFun, given the value of literal_weight_counter, the clause, and
    the number of leading positive literals with a predicate symbol *)
Definition weightfun := Z -> clause -> (Z -> Z) -> lit -> eval.

(** lit_eval_compare, che_litselection.c:560-585, and its use with < 0.
    Simplified: the subtractions do not overflow. *)
Definition eval_lt (l1 : lit) (e1 : eval) (l2 : lit) (e2 : eval) : bool :=
  if negb (eqb (positive l1) (positive l2)) then positive l2
  else if negb (w1 e1 =? w1 e2) then w1 e1 <? w1 e2
  else if negb (w2 e1 =? w2 e2) then w2 e1 <? w2 e2
  else w3 e1 <? w3 e2.

(** pos_pred_dist_array_compute, che_litselection.c:667-681: only the leading
    positive literals are counted *)
Fixpoint pos_pred_dist (c : clause) (f : Z) : Z :=
  match c with
  | l :: r => if positive l then (if pred l =? f then 1 else 0) + pos_pred_dist r f else 0
  | [] => 0
  end.

(** generic_uniq_selection, che_litselection.c:599-652.  The counter is advanced
    for each literal by those weight functions that read it. *)
Fixpoint evals_from (n : Z) (wf : Z -> lit -> eval) (c : clause) : list (lit * eval) :=
  match c with
  | [] => []
  | l :: r => (l, wf n l) :: evals_from (n + 1) wf r
  end.
Fixpoint cand_from (i best : nat) (b : lit * eval) (c : list (lit * eval))
  : nat * (lit * eval) :=
  match c with
  | [] => (best, b)
  | x :: r => if eval_lt (fst x) (snd x) (fst b) (snd b)
              then cand_from (S i) i x r
              else cand_from (S i) best b r
  end.
Definition uniq_selection (pos order : bool) (pd : clause -> Z -> Z) (wf : weightfun) : selfun :=
  fun e s =>
  let c := lits s in
  let s := if order then mark s else s in
  match evals_from (counter e) (fun n l => wf n c (pd c) l) c with
  | [] => None
  | x :: r =>
      let (i, b) := cand_from 1 0 x r in
      if forbidden (snd b) then Some s
      else let s' := unmark (on_lits (select_nth i) s) in
           if pos then Some (on_lits select_pos s') else Some s'
  end.

Definition no_dist (c : clause) (f : Z) : Z := 0.

(** PDArrayAssignInt(pred_dist, 0, 0), che_litselection.c:5117 *)
Definition pos_upred_dist (c : clause) (f : Z) : Z :=
  if f =? 0 then 0 else pos_pred_dist c f.

(** diversification_weight, che_litselection.c:4460-4467 *)
Definition diversification_weight : weightfun := fun n c _ l =>
  if negative l then mkeval false (n mod neg_no c) 0 0 else eval0.

(** diversification_prefer_into_weight, che_litselection.c:4503-4513 *)
Definition diversification_prefer_into_weight : weightfun := fun n c _ l =>
  mkeval false (if into l then -1 else 0) (if negative l then n mod neg_no c else 0) 0.

(** The common part of the maxlcomplex weights, che_litselection.c:4550-4569 *)
Definition maxl (l : lit) : Z :=
  (if is_max l then 0 else 100) + (if pure_var l then 0 else 10)
  + (if ground (at_ l) then 0 else 1).

(** maxlcomplex_weight, che_litselection.c:4548-4572 *)
Definition maxlcomplex_weight : weightfun := fun n c _ l =>
  if negative l then mkeval false (maxl l) (- dw l) (n mod neg_no c) else eval0.

(** maxlcomplexavoidpred_weight, che_litselection.c:4624-4658 *)
Definition maxlcomplexavoidpred_weight : weightfun := fun _ _ pd l =>
  if negative l then
    mkeval false (maxl l) (- dw l)
      (if equ (at_ l) || lvar (at_ l) then pd 0 else pd (fcode (at_ l)))
  else eval0.

(** maxlcomplexavoidappvar_weight, maxlcomplexstronglyavoidappvar_weight,
    maxlcomplexstronglypreferappvar_weight, che_litselection.c:4673-4815 *)
Definition maxlcomplexappvar_weight (p : lit -> bool) (v : Z) : weightfun := fun _ _ pd l =>
  if negative l then
    mkeval false (maxl l + if p l then v else 0) (- dw l)
      (if equ (at_ l) then pd 0 else pd (fcode (at_ l)))
  else eval0.

(** maxlcomplexappNTNp_weight, che_litselection.c:4930-4972 *)
Definition maxlcomplexappNTNp_weight : weightfun := fun _ _ pd l =>
  if negative l then
    let bad := typ (at_ l) || prop (at_ l) in
    mkeval bad
      ((if bad then 100000 else if is_max l then 0 else 100)
       + (if pure_var l then 0 else 10) + (if ground (at_ l) then 0 else 1))
      (- dw l) (if equ (at_ l) then pd 0 else pd (fcode (at_ l)))
  else eval0.

(** maxlcomplexavoidprednotype_weight, che_litselection.c:5029-5037 *)
Definition maxlcomplexavoidprednotype_weight : weightfun := fun n c pd l =>
  let e := maxlcomplexavoidpred_weight n c pd l in
  if typ (at_ l) then mkeval true (w1 e) (w2 e) (w3 e) else e.

(** complex_weight, che_litselection.c:5136-5156 *)
Definition complex_weight : weightfun := fun _ _ _ l =>
  if negative l then
    if pure_var l then mkeval false 0 0 0
    else if ground (at_ l) then mkeval false 10 (std l) 0
    else mkeval false 20 (- dw l) 0
  else eval0.

(** complex_weight_ahp, che_litselection.c:5193-5222 *)
Definition complex_weight_ahp : weightfun := fun n c pd l =>
  let e := complex_weight n c pd l in
  mkeval (forbidden e) (w1 e) (w2 e) (if fcode (at_ l) >? 0 then pd (fcode (at_ l)) else 0).

(** new_complex_notp_ahp, che_litselection.c:5300-5337 *)
Definition new_complex_notp_ahp : weightfun := fun _ _ pd l =>
  let v := if lvar (at_ l) then 0 else pd (fcode (at_ l)) in
  if negative l then
    if ground (at_ l) then mkeval false 0 (lstd (at_ l)) v
    else if negb (xtyp (at_ l)) then mkeval false 10 (infpos1 l) v
    else if negb (typ (at_ l)) then mkeval false 20 (- lstd (at_ l)) v
    else mkeval true 100000 0 v
  else mkeval false 0 0 v.

(** new_complex_notp_ahp_ns, che_litselection.c:5562-5604 *)
Definition new_complex_notp_ahp_ns : weightfun := fun n c pd l =>
  if negative l && split_lit (at_ l)
  then mkeval true 100000 0 (if lvar (at_ l) then 0 else pd (fcode (at_ l)))
  else new_complex_notp_ahp n c pd l.

(** The weights with names select_cq_..., che_litselection.c:5713-6765.  [eqw]
    is the weight of equations and variables, [eqa] says whether they have a
    rank, [sgn] whether high (-1) or low (1) arity is preferred, [bad] which
    literals are never selected; these get [badw]. *)
Definition cq_weight (eqw : Z) (eqa : bool) (sgn : Z) (bad : lit -> bool) (badw : Z)
  : weightfun := fun _ _ _ l =>
  let a := at_ l in
  if equ a || lvar a
  then mkeval false eqw (if eqa then if fcode a >? 0 then alpha a else 0 else 0) (dw l)
  else if bad l then mkeval true badw (alpha a) (dw l)
  else mkeval false (sgn * arity a) (alpha a) (dw l).

Definition none_bad (l : lit) : bool := false.
Definition arity0 (l : lit) : bool := arity (at_ l) =? 0.
Definition is_typ (l : lit) : bool := typ (at_ l).
Definition is_xtyp (l : lit) : bool := xtyp (at_ l).
Definition is_prop (l : lit) : bool := prop (at_ l).
Definition typ_or_prop (l : lit) : bool := typ (at_ l) || prop (at_ l).

(** select_grcq_ar_eqf_weight, select_cqgr_ar_eqf_weight,
    che_litselection.c:6092-6112, 6142-6161 *)
Definition grcq_weight : weightfun := fun n c pd l =>
  let e := cq_weight (-1000000) false (-1) none_bad 0 n c pd l in
  if ground (at_ l) then mkeval (forbidden e) (w1 e - 2000000) (w2 e) (w3 e) else e.
Definition cqgr_weight : weightfun := fun n c pd l =>
  let e := cq_weight (-1000000) false (-1) none_bad 0 n c pd l in
  if ground (at_ l) then mkeval (forbidden e) (w1 e) (w2 e - 2000000) (w3 e) else e.

(** select_cq_precw_weight and its variants, che_litselection.c:6917-7084 *)
Definition precw_weight (sgn : Z) (bad : lit -> bool) : weightfun := fun _ _ _ l =>
  let a := at_ l in
  if lvar a then mkeval false 0 0 (dw l)
  else if bad l then mkeval true 100000 0 (dw l)
  else mkeval false (sgn * precw a) (alpha a) (dw l).

(** ** The strategies *)

(** SelectNoLiterals, SelectNoGeneration, che_litselection.c:833-855 *)
Definition no_literals : selfun := fun _ s => Some s.

(** SelectNegativeLiterals, PSelectNegativeLiterals, che_litselection.c:870-908 *)
Definition negative_literals : selfun := fun _ s =>
  Some (on_lits (map (fun l => if positive l then l else set_selected true l)) s).
Definition pnegative_literals : selfun := fun _ s =>
  Some (on_lits (map (set_selected true)) s).

(** SelectFirstVariableLiteral, che_litselection.c:922-930 *)
Definition first_variable : selfun := pick_if find_neg_pure_var.
(** PSelectFirstVariableLiteral, che_litselection.c:946-954: the literal found
    is not selected *)
Definition pfirst_variable : selfun := fun _ s =>
  match find_neg_pure_var (lits s) with
  | Some _ => Some (on_lits select_pos s)
  | None => Some s
  end.

(** Select(Largest|Smallest)NegativeLiteral, che_litselection.c:969-1100 *)
Definition largest_neg : selfun := pick (largest 0 negative std).
Definition plargest_neg : selfun := ppick (largest 0 negative std).
Definition smallest_neg : selfun := pick (smallest negative std).
Definition psmallest_neg : selfun := ppick (smallest negative std).

(** The Orientable strategies, che_litselection.c:1116-1347 *)
Definition largest_or : selfun := marking (unmarking (pick largest_orientable)).
Definition plargest_or : selfun := marking (unmarking (ppick largest_orientable)).
Definition mlargest_or : selfun := fun e s =>
  if horn (lits s) then plargest_or e s else largest_or e s.
Definition smallest_or : selfun := marking (unmarking (pick smallest_orientable)).
Definition psmallest_or : selfun := marking (unmarking (ppick smallest_orientable)).
Definition msmallest_or : selfun := fun e s =>
  if horn (lits s) then psmallest_or e s else smallest_or e s.

(** SelectDiffNegativeLiteral, PSelectDiffNegativeLiteral,
    che_litselection.c:1361-1425 *)
Definition diff_neg : selfun := pick_if (largest (-1) negative dw).
Definition pdiff_neg : selfun := ppick (largest (-1) negative dw).

(** SelectGroundNegativeLiteral, PSelectGroundNegativeLiteral,
    che_litselection.c:1438-1509; the latter selects the positive literals
    first and takes that back when there is no ground literal. *)
Definition ground_neg : selfun := pick_if (largest (-1) neg_ground dw).
Definition pground_neg : selfun := fun _ s =>
  match largest (-1) neg_ground dw (lits s) with
  | Some i => Some (on_lits (fun c => select_pos (select_nth i c)) s)
  | None => Some (on_lits (fun c => unselect (select_pos c)) s)
  end.

(** SelectOptimalLiteral, PSelectOptimalLiteral, SelectMinOptimalLiteral,
    PSelectMinOptimalLiteral, che_litselection.c:1525-1680 *)
Definition optimal : selfun := pick_or (largest (-1) neg_ground dw) diff_neg.
Definition poptimal : selfun := pick_or (largest (-1) neg_ground dw) pdiff_neg.
Definition min_optimal : selfun := pick_or (smallest neg_ground std) smallest_neg.
Definition pmin_optimal : selfun := pick_or (smallest neg_ground std) psmallest_neg.

(** SelectMinOptimalNoTypePred and its variants, che_litselection.c:1696-1967;
    CPIsOriented is deleted if a literal has been selected *)
Definition find_min_optimal (bad : attr -> bool) : clause -> option nat :=
  or_else find_smallest_neg_ground (smallest (fun l => negative l && negb (bad (at_ l))) std).
Definition min_optimal_no (bad : attr -> bool) : selfun :=
  unmarking_if (find_min_optimal bad) (pick_if (find_min_optimal bad)).
Definition pmin_optimal_no (bad : attr -> bool) : selfun :=
  unmarking_if (find_min_optimal bad) (ppick_if (find_min_optimal bad)).

(** SelectCondOptimalLiteral and its variants, che_litselection.c:1979-2163 *)
Definition var_heavy (l : lit) : bool :=
  lstd (at_ l) + (if equ (at_ l) then rstd (at_ l) else 0)
  <=? lv3 (at_ l) + (if equ (at_ l) then rv3 (at_ l) else 0).
Definition cond : env -> clause -> bool := fun _ c =>
  negb (existsb (fun l => positive l && var_heavy l) c).
Definition all_cond : env -> clause -> bool := fun _ c =>
  existsb (fun l => positive l && negb (var_heavy l)) c.
Definition cond_optimal : selfun := when_else_clear cond optimal.
Definition pcond_optimal : selfun := when_else_clear cond poptimal.
Definition all_cond_optimal : selfun := when_else_clear all_cond optimal.
Definition pall_cond_optimal : selfun := when_else_clear all_cond poptimal.

(** SelectDepth2OptimalLiteral and its variants, che_litselection.c:2177-2390 *)
Definition deep (p : lit -> bool) : env -> clause -> bool := fun _ c =>
  negb (existsb (fun l => p l && (depth (at_ l) <=? 2)) c).
Definition depth2 : selfun := when_else_clear (deep (fun _ => true)) optimal.
Definition pdepth2 : selfun := when_else_clear (deep (fun _ => true)) poptimal.
Definition posdepth2 : selfun := when_else_clear (deep positive) optimal.
Definition pposdepth2 : selfun := when_else_clear (deep positive) poptimal.
Definition negdepth2 : selfun := when_else_clear (deep negative) optimal.
Definition pnegdepth2 : selfun := when_else_clear (deep negative) poptimal.

(** The strategies for range-restricted clauses, che_litselection.c:2402-2622 *)
Definition nonrr : selfun := when (fun e _ => negb (rr e)) optimal.
Definition pnonrr : selfun := when (fun e _ => negb (rr e)) poptimal.
Definition nonsrr : selfun := when (fun e _ => negb (srr e)) optimal.
Definition pnonsrr : selfun := when (fun e _ => negb (srr e)) poptimal.
Definition antirr : selfun := when (fun e c => negb (neg_no c =? 0) && arr e) optimal.
Definition pantirr : selfun := when (fun e _ => arr e) poptimal.
Definition nonantirr : selfun := when (fun e _ => negb (arr e)) optimal.
Definition pnonantirr : selfun := when (fun e _ => negb (arr e)) poptimal.
Definition srrnonrr : selfun := when (fun e _ => negb (rr e) || srr e) optimal.
Definition psrrnonrr : selfun := when_else_clear (fun e _ => negb (rr e) || srr e) poptimal.

(** The SelectUnless strategies, che_litselection.c:2636-2913 *)
Definition uniq_max : env -> clause -> bool := fun _ c => max_no c >? 1.
Definition pos_max : env -> clause -> bool := fun _ c => max_pos_no c =? 0.
Definition uniq_pos_max : env -> clause -> bool := fun _ c => negb (max_pos_no c =? 1).
(** The loop at 2848-2862: stops at a negative maximal literal or at the second
    positive one *)
Fixpoint uniq_max_pos_from (found : bool) (c : clause) : bool :=
  match c with
  | [] => false
  | l :: r => if is_max l
              then if negative l then true else if found then true
                   else uniq_max_pos_from true r
              else uniq_max_pos_from found r
  end.
Definition uniq_max_pos : env -> clause -> bool := fun _ c => uniq_max_pos_from false c.
Definition unless (b : env -> clause -> bool) (f : selfun) : selfun :=
  marking (when b (unmarking f)).

(** SelectComplex, PSelectComplex, che_litselection.c:2929-3016 *)
Definition find_complex : clause -> option nat :=
  or_else find_neg_pure_var (smallest neg_ground std).
Definition complex : selfun := pick_or find_complex diff_neg.
Definition pcomplex : selfun := pick_or find_complex pdiff_neg.

(** SelectComplexExceptRRHorn etc., che_litselection.c:3030-3060, 5414-5488 *)
Definition not_rr_horn : env -> clause -> bool := fun e c => negb (horn c && rr e).

(** SelectLComplex, PSelectLComplex, che_litselection.c:3074-3159 *)
Definition find_lcomplex0 : clause -> option nat :=
  or_else find_neg_pure_var (largest (-1) neg_ground dw).
Definition lcomplex : selfun := pick_or find_lcomplex0 diff_neg.
Definition plcomplex : selfun := pick_or find_lcomplex0 pdiff_neg.

(** SelectMaxLComplex, PSelectMaxLComplex, che_litselection.c:3180-3246 *)
Definition max_lcomplex_with (f : selfun) : selfun :=
  marking (when uniq_max (unmarking (fun e s =>
    if negb (max_pos_no (lits s) =? max_no (lits s))
    then pick find_maxlcomplex e s
    else f e s))).
Definition max_lcomplex : selfun := max_lcomplex_with lcomplex.
Definition pmax_lcomplex : selfun := max_lcomplex_with plcomplex.

(** Whether the literal with the given number has a property *)
Definition has (p : attr -> bool) (i : nat) (c : clause) : bool :=
  match nth_error c i with Some l => p (at_ l) | None => false end.

(** SelectMaxLComplexNoTypePred and its variants, che_litselection.c:3270-3493.
    The search gives NULL when the maximal literal must not be selected and the
    other one must not either. *)
Definition find_no (bad : attr -> bool) (c : clause) : option nat :=
  let first :=
    if negb (max_pos_no c =? max_no c)
    then match find_maxlcomplex c with
         | Some i => if has bad i c then None else Some i
         | None => None
         end
    else None in
  match first with
  | Some i => Some i
  | None => match find_lcomplex c with
            | Some i => if has bad i c then None else Some i
            | None => None
            end
  end.
(** EqnIsTypePred(selected) at 3288 reads through NULL if there is no maximal
    negative literal *)
Definition no_null (c : clause) : bool :=
  if negb (max_pos_no c =? max_no c)
  then match find_maxlcomplex c with Some _ => true | None => false end else true.
Definition max_lcomplex_no (bad : attr -> bool) (f : (clause -> option nat) -> selfun) : selfun :=
  marking (when uniq_max (unmarking (fun e s =>
    if no_null (lits s) then f (find_no bad) e s else None))).

(** SelectComplexPreferNEQ and its variants, che_litselection.c:3508-3795 *)
Definition is_neq (l : lit) : bool := negb (equ (at_ l)).
Definition is_eq (l : lit) : bool := equ (at_ l).

(** SelectComplexExceptUniqMaxHorn etc., che_litselection.c:3806-3877,
    4402-4445: the maximal literals are marked for Horn clauses only *)
Definition except_horn (b : clause -> bool) (f : selfun) : selfun := fun e s =>
  if horn (lits s)
  then if b (lits s) then Some (mark s) else f e (mark s)
  else f e s.
Definition one_max (c : clause) : bool := max_no c =? 1.
Definition one_max_pos (c : clause) : bool := (max_no c =? 1) && (max_pos_no c =? 1).
Definition complex_horn : selfun := except_horn one_max (unmarking complex).
Definition pcomplex_horn : selfun := except_horn one_max (unmarking pcomplex).
Definition mcomplex_horn : selfun := fun e s =>
  if horn (lits s) then pcomplex_horn e s else complex_horn e s.

(** SelectNewComplex, PSelectNewComplex, che_litselection.c:3893-3956 *)
Definition find_new : clause -> option nat :=
  or_else find_smallest_max_neg_ground (or_else find_ng_min11 find_max_xtype).
Definition new_complex : selfun := marking (unmarking_if find_new (pick_if find_new)).
Definition pnew_complex : selfun := marking (unmarking_if find_new (ppick_if find_new)).

(** SelectMinInfpos etc., che_litselection.c:4026-4390 *)
Definition find_infpos : clause -> option nat := smallest negative infpos.
Definition find_infpos2 : clause -> option nat := smallest negative infpos2.
Definition find_infpos_no : clause -> option nat :=
  smallest (fun l => negative l && negb (typ (at_ l))) infpos.
Definition min_infpos : selfun := marking (unmarking (pick find_infpos)).
Definition pmin_infpos : selfun := marking (unmarking (ppick find_infpos)).
(** HSelectMinInfpos, GSelectMinInfpos, che_litselection.c:4116-4207 *)
Definition hg_min_infpos (g : bool) : selfun := marking (fun e s =>
  match find_infpos (lits s) with
  | Some i => if eqb (has ground i (lits s)) g
              then unmarking (ppick find_infpos) e s
              else unmarking (pick find_infpos) e s
  | None => None
  end).
Definition min_infpos_no : selfun := marking (unmarking_if find_infpos_no (pick_if find_infpos_no)).
Definition pmin_infpos_no : selfun :=
  marking (unmarking_if find_infpos_no (ppick_if find_infpos_no)).
Definition min2_infpos : selfun := marking (unmarking (pick find_infpos2)).
Definition pmin2_infpos : selfun := marking (unmarking (ppick find_infpos2)).

(** The strategies with weights that need more than one maximal literal,
    che_litselection.c:4587-4607, 4833-4860, 4987-5014, 5054-5081, 5098-5122;
    generic_app_var_sel, che_litselection.c:697-723 *)
Definition max_uniq (pd : clause -> Z -> Z) (wf : weightfun) : selfun :=
  when (fun _ c => negb (neg_no c =? 0))
    (marking (when uniq_max (uniq_selection false true pd wf))).
Definition max_uniq0 (pd : clause -> Z -> Z) (wf : weightfun) : selfun :=
  marking (when uniq_max (uniq_selection false true pd wf)).

(** SelectComplexG ... PSelectNewComplexAHP, che_litselection.c:5171-5398 *)
Definition complex_g : selfun := uniq_selection false false no_dist complex_weight.
Definition complex_ahp : selfun := uniq_selection false true pos_pred_dist complex_weight_ahp.
Definition pcomplex_ahp : selfun := uniq_selection true true pos_pred_dist complex_weight_ahp.
Definition new_complex_ahp : selfun := uniq_selection false true pos_pred_dist new_complex_notp_ahp.
Definition pnew_complex_ahp : selfun := uniq_selection true true pos_pred_dist new_complex_notp_ahp.
Definition new_complex_ahp_ns : selfun :=
  uniq_selection false true pos_pred_dist new_complex_notp_ahp_ns.

(** SelectVGNonCR, che_litselection.c:5654-5696: CPIsOriented is not deleted
    when a ground literal is selected *)
Definition vg_non_cr : selfun :=
  pick_or find_neg_pure_var
    (marking (pick_or find_smallest_neg_ground
      (when (fun _ c => negb (one_max_pos c)) new_complex_ahp_ns))).

Definition cq (wf : weightfun) : selfun := uniq_selection false true no_dist wf.

(** select_unless_pdom, che_litselection.c:6799-6862 *)
Definition pdom (c : clause) : bool :=
  existsb (fun n => negative n &&
    existsb (fun p => positive p && is_max p && (pred p =? pred n)) c) c.
Definition unless_pdom (f : selfun) : selfun := marking (when (fun _ c => negb (pdom c)) f).

Definition ar_np_eqf := cq (cq_weight (-100000) false (-1) arity0 100000).
Definition ar_nt_eqf := cq (cq_weight (-100000) false (-1) is_typ 100000).

(** name_fun_assoc, che_litselection.c:35-192 *)
Definition table : list (string * selfun) := [
  ("NoSelection", no_literals);
  ("NoGeneration", no_literals);
  ("SelectNegativeLiterals", negative_literals);
  ("PSelectNegativeLiterals", pnegative_literals);
  ("SelectPureVarNegLiterals", first_variable);
  ("PSelectPureVarNegLiterals", pfirst_variable);
  ("SelectLargestNegLit", largest_neg);
  ("PSelectLargestNegLit", plargest_neg);
  ("SelectSmallestNegLit", smallest_neg);
  ("PSelectSmallestNegLit", psmallest_neg);
  ("SelectLargestOrientable", largest_or);
  ("PSelectLargestOrientable", plargest_or);
  ("MSelectLargestOrientable", mlargest_or);
  ("SelectSmallestOrientable", smallest_or);
  ("PSelectSmallestOrientable", psmallest_or);
  ("MSelectSmallestOrientable", msmallest_or);
  ("SelectDiffNegLit", diff_neg);
  ("PSelectDiffNegLit", pdiff_neg);
  ("SelectGroundNegLit", ground_neg);
  ("PSelectGroundNegLit", pground_neg);
  ("SelectOptimalLit", optimal);
  ("PSelectOptimalLit", poptimal);
  ("SelectMinOptimalLit", min_optimal);
  ("PSelectMinOptimalLit", pmin_optimal);
  ("SelectMinOptimalNoTypePred", min_optimal_no typ);
  ("PSelectMinOptimalNoTypePred", pmin_optimal_no typ);
  ("SelectMinOptimalNoXTypePred", min_optimal_no xtyp);
  ("PSelectMinOptimalNoXTypePred", pmin_optimal_no xtyp);
  ("SelectMinOptimalNoRXTypePred", min_optimal_no rxtyp);
  ("PSelectMinOptimalNoRXTypePred", pmin_optimal_no rxtyp);
  ("SelectCondOptimalLit", cond_optimal);
  ("PSelectCondOptimalLit", pcond_optimal);
  ("SelectAllCondOptimalLit", all_cond_optimal);
  ("PSelectAllCondOptimalLit", pall_cond_optimal);
  ("SelectOptimalRestrDepth2", depth2);
  ("PSelectOptimalRestrDepth2", pdepth2);
  ("SelectOptimalRestrPDepth2", posdepth2);
  ("PSelectOptimalRestrPDepth2", pposdepth2);
  ("SelectOptimalRestrNDepth2", negdepth2);
  ("PSelectOptimalRestrNDepth2", pnegdepth2);
  ("SelectNonRROptimalLit", nonrr);
  ("PSelectNonRROptimalLit", pnonrr);
  ("SelectNonStrongRROptimalLit", nonsrr);
  ("PSelectNonStrongRROptimalLit", pnonsrr);
  ("SelectAntiRROptimalLit", antirr);
  ("PSelectAntiRROptimalLit", pantirr);
  ("SelectNonAntiRROptimalLit", nonantirr);
  ("PSelectNonAntiRROptimalLit", pnonantirr);
  ("SelectStrongRRNonRROptimalLit", srrnonrr);
  ("PSelectStrongRRNonRROptimalLit", psrrnonrr);
  ("SelectUnlessUniqMax", unless uniq_max optimal);
  ("PSelectUnlessUniqMax", unless uniq_max poptimal);
  ("SelectUnlessPosMax", unless pos_max optimal);
  ("PSelectUnlessPosMax", unless pos_max poptimal);
  ("SelectUnlessUniqPosMax", unless uniq_pos_max optimal);
  ("PSelectUnlessUniqPosMax", unless uniq_pos_max poptimal);
  ("SelectUnlessUniqMaxPos", unless uniq_max_pos optimal);
  ("PSelectUnlessUniqMaxPos", unless uniq_max_pos poptimal);
  ("SelectComplex", complex);
  ("PSelectComplex", pcomplex);
  ("SelectComplexExceptRRHorn", when not_rr_horn complex);
  ("PSelectComplexExceptRRHorn", when not_rr_horn pcomplex);
  ("SelectLComplex", lcomplex);
  ("PSelectLComplex", plcomplex);
  ("SelectMaxLComplex", max_lcomplex);
  ("PSelectMaxLComplex", pmax_lcomplex);
  ("SelectMaxLComplexNoTypePred", max_lcomplex_no typ pick_if);
  ("PSelectMaxLComplexNoTypePred", max_lcomplex_no typ ppick_if);
  ("SelectMaxLComplexNoXTypePred", max_lcomplex_no xtyp pick_if);
  ("PSelectMaxLComplexNoXTypePred", max_lcomplex_no xtyp ppick_if);
  ("SelectComplexPreferNEQ", pick_if (prefer is_neq));
  ("PSelectComplexPreferNEQ", ppick_if (prefer is_neq));
  ("SelectComplexPreferEQ", pick_if (prefer is_eq));
  ("PSelectComplexPreferEQ", ppick_if (prefer is_eq));
  ("SelectComplexExceptUniqMaxHorn", complex_horn);
  ("PSelectComplexExceptUniqMaxHorn", pcomplex_horn);
  ("MSelectComplexExceptUniqMaxHorn", mcomplex_horn);
  ("SelectNewComplex", new_complex);
  ("PSelectNewComplex", pnew_complex);
  ("SelectNewComplexExceptUniqMaxHorn", except_horn one_max new_complex);
  ("PSelectNewComplexExceptUniqMaxHorn", except_horn one_max pnew_complex);
  ("SelectMinInfpos", min_infpos);
  ("PSelectMinInfpos", pmin_infpos);
  ("HSelectMinInfpos", hg_min_infpos false);
  ("GSelectMinInfpos", hg_min_infpos true);
  ("SelectMinInfposNoTypePred", min_infpos_no);
  ("PSelectMinInfposNoTypePred", pmin_infpos_no);
  ("SelectMin2Infpos", min2_infpos);
  ("PSelectMin2Infpos", pmin2_infpos);
  ("SelectComplexExceptUniqMaxPosHorn", except_horn one_max_pos (unmarking complex));
  ("PSelectComplexExceptUniqMaxPosHorn", except_horn one_max_pos (unmarking pcomplex));
  ("SelectUnlessUniqMaxSmallestOrientable", unless uniq_max smallest_or);
  ("PSelectUnlessUniqMaxSmallestOrientable", unless uniq_max psmallest_or);
  ("SelectDivLits", uniq_selection false false no_dist diversification_weight);
  ("SelectDivPreferIntoLits",
     uniq_selection false false no_dist diversification_prefer_into_weight);
  ("SelectMaxLComplexG", max_uniq no_dist maxlcomplex_weight);
  ("SelectMaxLComplexAvoidPosPred", max_uniq pos_pred_dist maxlcomplexavoidpred_weight);
  ("SelectMaxLComplexAPPNTNp", max_uniq pos_pred_dist maxlcomplexappNTNp_weight);
  ("SelectMaxLComplexAPPNoType", max_uniq pos_pred_dist maxlcomplexavoidprednotype_weight);
  ("SelectMaxLComplexAvoidPosUPred", max_uniq0 pos_upred_dist maxlcomplexavoidpred_weight);
  ("SelectComplexG", complex_g);
  ("SelectComplexAHP", complex_ahp);
  ("PSelectComplexAHP", pcomplex_ahp);
  ("SelectNewComplexAHP", new_complex_ahp);
  ("PSelectNewComplexAHP", pnew_complex_ahp);
  ("SelectComplexAHPExceptRRHorn", when not_rr_horn complex_ahp);
  ("PSelectComplexAHPExceptRRHorn", when not_rr_horn pcomplex_ahp);
  ("SelectNewComplexAHPExceptRRHorn", when not_rr_horn new_complex_ahp);
  ("PSelectNewComplexAHPExceptRRHorn", when not_rr_horn pnew_complex_ahp);
  ("SelectNewComplexAHPExceptUniqMaxHorn", except_horn one_max new_complex_ahp);
  ("PSelectNewComplexAHPExceptUniqMaxHorn", except_horn one_max pnew_complex_ahp);
  ("SelectNewComplexAHPNS", new_complex_ahp_ns);
  ("SelectVGNonCR", vg_non_cr);
  ("SelectCQArEqLast", cq (cq_weight 1000000 false (-1) none_bad 0));
  ("SelectCQArEqFirst", cq (cq_weight (-100000) false (-1) none_bad 0));
  ("SelectCQIArEqLast", cq (cq_weight 100000 false 1 none_bad 0));
  ("SelectCQIArEqFirst", cq (cq_weight (-100000) false 1 none_bad 0));
  ("SelectCQAr", cq (cq_weight (-2) true (-1) none_bad 0));
  ("SelectCQIAr", cq (cq_weight 2 true 1 none_bad 0));
  ("SelectCQArNpEqFirst", ar_np_eqf);
  ("SelectCQIArNpEqFirst", cq (cq_weight (-1000000) false 1 arity0 1000000));
  ("SelectGrCQArEqFirst", cq grcq_weight);
  ("SelectCQGrArEqFirst", cq cqgr_weight);
  ("SelectCQArNTEqFirst", ar_nt_eqf);
  ("SelectCQIArNTEqFirst", cq (cq_weight (-100000) false 1 is_typ 100000));
  ("SelectCQArNTNpEqFirst", cq (cq_weight (-100000) false (-1) typ_or_prop 100000));
  ("SelectCQIArNTNpEqFirst", cq (cq_weight (-100000) false 1 typ_or_prop 100000));
  ("SelectCQArNXTEqFirst", cq (cq_weight (-100000) false (-1) is_xtyp 100000));
  ("SelectCQIArNXTEqFirst", cq (cq_weight (-100000) false 1 is_xtyp 100000));
  ("SelectCQArNTNp", cq (cq_weight (-2) true (-1) typ_or_prop 100000));
  ("SelectCQIArNTNp", cq (cq_weight 2 true 1 typ_or_prop 100000));
  ("SelectCQArNT", cq (cq_weight (-2) true (-1) is_typ 100000));
  ("SelectCQIArNT", cq (cq_weight 2 true 1 is_typ 100000));
  ("SelectCQArNp", cq (cq_weight (-2) true (-1) is_prop 100000));
  ("SelectCQIArNp", cq (cq_weight 2 true 1 is_prop 100000));
  ("SelectCQArNpEqFirstUnlessPDom", unless_pdom ar_np_eqf);
  ("SelectCQArNTEqFirstUnlessPDom", unless_pdom ar_nt_eqf);
  ("SelectCQPrecW", cq (precw_weight 1 none_bad));
  ("SelectCQIPrecW", cq (precw_weight (-1) none_bad));
  ("SelectCQPrecWNTNp", cq (precw_weight 1 typ_or_prop));
  ("SelectCQIPrecWNTNp", cq (precw_weight (-1) typ_or_prop));
  ("SelectMaxLComplexAvoidAppVar",
     max_uniq pos_pred_dist (maxlcomplexappvar_weight (fun l => appvar (at_ l)) 20));
  ("SelectMaxLComplexStronglyAvoidAppVar",
     max_uniq pos_pred_dist (maxlcomplexappvar_weight (fun l => appvar (at_ l)) 200));
  ("SelectMaxLComplexPreferAppVar",
     max_uniq pos_pred_dist (maxlcomplexappvar_weight (fun l => negb (appvar (at_ l))) 200)) ]%string.

(** GetLitSelFun, che_litselection.c:744-758 *)
Fixpoint lookup (n : string) (t : list (string * selfun)) : option selfun :=
  match t with
  | [] => None
  | (m, f) :: r => if String.eqb n m then Some f else lookup n r
  end.
Definition strategy (n : string) : option selfun := lookup n table.

(** ** DoLiteralSelection, HEURISTICS/che_proofcontrol.c:263-304 *)

(** HeuristicParms: inherit_paramod_lit, inherit_goal_pm_lit,
    inherit_conj_pm_lit, the bounds, and selection_strategy *)
Record parms := mkparms {
  inherit_all : bool; inherit_goal : bool; inherit_conj : bool;
  pos_min : Z; pos_max_ : Z; neg_min : Z; neg_max_ : Z; all_min : Z; all_max : Z;
  weight_min : Z; the_strategy : selfun }.

(** select_inherited_literal, che_proofcontrol.c:113-142 *)
Definition select_inherited (c : clause) : option clause :=
  if neg_no c =? 0 then None
  else if existsb (fun l => negative l && into l) c
  then Some (map (fun l => if into l then set_selected true l else l) c)
  else None.

(** [conj] is ClauseIsConjecture, [weight] is ClauseStandardWeight *)
Definition do_selection (p : parms) (conj : bool) (weight : Z) (e : env) (s : st) : option st :=
  let s0 := mkst (unselect (lits s)) false in
  let c := lits s0 in
  let general :=
    if negb (neg_no c =? 0)
       && (pos_min p <=? pos_no c) && (pos_no c <=? pos_max_ p)
       && (neg_min p <=? neg_no c) && (neg_no c <=? neg_max_ p)
       && (all_min p <=? Z.of_nat (length c)) && (Z.of_nat (length c) <=? all_max p)
       && ((weight_min p =? 0) || (weight_min p <=? weight))
    then the_strategy p e s0
    else no_literals e s0 in
  if inherit_all p || (inherit_goal p && (pos_no c =? 0)) || (inherit_conj p && conj)
  then match select_inherited c with
       | Some c' => Some (mkst c' false)
       | None => general
       end
  else general.
