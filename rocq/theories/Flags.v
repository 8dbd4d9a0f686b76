(** * Properties of literals, clauses, terms and function symbols (BASICS/clb_properties.h) *)
From Coq Require Export List ZArith Lia Bool.
Export ListNotations.
Open Scope Z_scope.

(** The field [properties] is an enumeration stored in a machine integer: a word of bits, here any integer
    (two's complement, so that TPIsConjectureTerm = 1<<31 is a bit like the others). *)

(** SetProp, DelProp, FlipProp, AssignProp, clb_properties.h:44-47 *)
Definition set_prop (w p : Z) : Z := Z.lor w p.
Definition del_prop (w p : Z) : Z := Z.land w (Z.lnot p).
Definition flip_prop (w p : Z) : Z := Z.lxor w p.
Definition assign_prop (w sel p : Z) : Z := set_prop (del_prop w sel) (Z.land sel p).
(** QueryProp, 50; IsAnyPropSet, 53; GiveProps, 57; PropsAreEquiv, 61-62 *)
Definition query_prop (w p : Z) : bool := Z.eqb (Z.land w p) p.
Definition any_prop (w p : Z) : bool := negb (Z.eqb (Z.land w p) 0).
Definition give_props (w p : Z) : Z := Z.land w p.
Definition props_equiv (w1 w2 p : Z) : bool := Z.eqb (Z.land w1 p) (Z.land w2 p).

(** EqnProperties, CLAUSES/ccl_eqn.h:38-71, in the order of the source: EPIsPositive, EPIsMaximal, EPIsStrictlyMaximal, EPIsEquLiteral,
    EPIsOriented, EPMaxIsUpToDate, EPHasEquiv, EPIsDominated (= EPDominates), EPIsUsed, EPGONatural, EPIsSelected, EPIsPMIntoLit,
    EPFromClauseLit, EPPseudoLit, EPLPatMinimal, EPRPatMinimal *)
Definition EPIsPositive := 1.
Definition EPIsStrictlyMaximal := 4.
Definition EPMaxIsUpToDate := 32.
Definition EPHasEquiv := 64.
Definition eqn_props : list Z :=
  [EPIsPositive; 2; EPIsStrictlyMaximal; 8; 16; EPMaxIsUpToDate; EPHasEquiv; 128; 256; 512; 1024; 2048; 4096; 8192; 16384; 32768].
(** ccl_eqn.h:69 *)
Definition EPIsSplitLit := 65636.

(** FormulaProperties, CLAUSES/ccl_clauses.h:37-131: each is twice the one before it; the enumeration starts with CPInitial = 1 and ends
    with CPIsLambdaDef, the composite values (CPTypeAxiom, ..., CP_CSSCPA_Mask) are combinations of CPType1..3 and CP_CSSCPA_1..8.
    CPInitial, CPInputFormula, CPIsDead, CPIsProcessed, CPIsOriented, CPIsDIndexed, CPIsSIndexed, CPIsGlobalIndexed, CPRWDetected,
    CPDeleteClause, CPType1, CPType2, CPType3, CPIsIRVictim, CPOpFlag, CPIsSelected, CPIsFinal, CPIsProofClause, CPIsSOS, CPNoGeneration,
    CP_CSSCPA_1, CP_CSSCPA_2, CP_CSSCPA_4, CP_CSSCPA_8, CPIsProtected, CPWatchOnly, CPSubsumesWatch, CPLimitedRW, CPIsRelevant,
    CPIsPureInjectivity, CPIsLambdaDef *)
Fixpoint doubling (n : nat) (c : Z) : list Z := match n with O => [] | S n' => c :: doubling n' (2 * c) end.
Definition CPInitial := 1.
Definition clause_props : list Z := doubling 31 CPInitial.
Definition CPIsSOS := 2 ^ 18.
Definition CPTypeMask := Z.lor (Z.lor (2 ^ 10) (2 ^ 11)) (2 ^ 12).

(** TermProperties, TERMS/cte_termtypes.h:46-103 *)
Definition term_props : list Z :=
  [2; 4; 8; 16; 32; 64; 128; 256; 512; 1024; 2048; 4096; 8192; 16384; 32768; 65536; 131072] ++ map (Z.shiftl 1) [18; 19; 20; 21; 22; 23; 24; 25; 26; 27; 28; 29; 30; 31].
(** FunctionProperties, TERMS/cte_signature.h:42-76, without the composite values FPIsAC and FPDistinctProp *)
Definition func_props : list Z := [1; 2; 4; 8; 16; 32; 64; 128; 256; 512; 1024; 2048; 4096] ++ doubling 6 8192.

(** ClauseSetTPTPType and ClauseQueryTPTPType, CLAUSES/ccl_clauses.c:214-218 and ccl_clauses.h:196-197: three bits hold the type of the clause *)
Definition set_type (w t : Z) : Z := set_prop (del_prop w CPTypeMask) t.
Definition query_type (w : Z) : Z := give_props w CPTypeMask.

(** * Specification. Operations on the properties of one object, and what they mean when every property is a separate truth value. *)
Inductive fop := FSet (p : Z) | FDel (p : Z) | FFlip (p : Z).
Definition fop_word (w : Z) (o : fop) : Z :=
  match o with FSet p => set_prop w p | FDel p => del_prop w p | FFlip p => flip_prop w p end.
Definition fop_bools (f : Z -> bool) (o : fop) : Z -> bool :=
  match o with
  | FSet p => fun q => if Z.eqb q p then true else f q
  | FDel p => fun q => if Z.eqb q p then false else f q
  | FFlip p => fun q => if Z.eqb q p then negb (f q) else f q
  end.
Definition fop_prop (o : fop) : Z := match o with FSet p | FDel p | FFlip p => p end.

(** The properties of the enumeration [ps] do not influence each other. *)
Definition independent (ps : list Z) : Prop :=
  forall w ops, (forall o, In o ops -> In (fop_prop o) ps) ->
    forall q, In q ps -> query_prop (fold_left fop_word ops w) q = fold_left fop_bools ops (query_prop w) q.
