(** * Model of the generation of the term ordering for a problem:
    symbol precedences (HEURISTICS/che_to_precgen.c, che_fcode_featurearrays.c), symbol weights
    (HEURISTICS/che_to_weightgen.c), the selection of the parameters (che_to_autoselect.c:855-885)
    and the designated constants (ORDERINGS/cto_ocb.c:500-590).

    Simplifications.
    - The occurrence counts and the rank of first occurrence, which the code takes from the clauses
      of the problem, are arbitrary functions here.  axiomfreq is arbitrary as well, which covers that
      FCodeFeatureArrayAlloc (che_fcode_featurearrays.c:85-115) adds to memory it never initialises.
    - qsort is any function that permutes its array, and sorts it if the comparison is consistent.
    - Counters, weights and keys are unbounded integers; the subtractions of the comparison
      function, done in int, are checked for overflow.
    - The methods for higher-order builds and the user's own weights (--order-weights) are left out. *)
From Coq Require Import String Permutation.
From Verif Require Import Terms KBO OCB.

(** What the generation reads about the signature and the axioms.
    [sigsize] = ocb->sig_size = sig->f_count; [ari] = SigFindArity; [dst] = distinct objects. *)
Record problem := {
  sigsize : nat; ari : sym -> nat; dst : sym -> bool; nm : sym -> string;
  freq : sym -> Z; conjfreq : sym -> Z; axiomfreq : sym -> Z; posrank : sym -> Z;
  skolem : sym -> bool; defpred : sym -> bool }.

(** TOPrecGenMethod, che_to_params.h; POrientAxioms ends the program and is left out. *)
Inductive pmethod :=
| PNoMethod | PUnaryFirst | PUnaryFirstFreq | PArity | PInvArity | PConstMax | PInvArConstMin
| PByFrequency | PByInvFrequency | PByInvConjFrequency | PByInvFreqConjMax | PByInvFreqConjMin
| PByInvFreqConstMin | PByInvFreqHack | PArrayOpt.

(** TOWeightGenMethod, che_to_params.h *)
Inductive wmethod :=
| WNoMethod | WSelectMaximal | WConstantWeight
| WArityWeight | WArityMax0 | WModArityWeight | WModArityMax0 | WAritySqWeight | WAritySqMax0
| WInvArityWeight | WInvArityMax0 | WInvAritySqWeight | WInvAritySqMax0
| WPrecedence | WPrecedenceInv | WPrecRank5 | WPrecRank10 | WPrecRank20
| WFrequency | WInvFrequency | WFrequencyRank | WInvFrequencyRank | WInvConjFrequencyRank
| WFrequencyRankSq | WInvFrequencyRankSq | WInvModFreqRank | WInvModFreqRankMax0.

(** OrderParmsCell, che_to_params.h:140-165: the fields used here *)
Record oparms := {
  to_prec_gen : pmethod; to_weight_gen : wmethod; to_const_weight : Z; force_kbo_var_weight : bool;
  conj_only_mod : Z; conj_axiom_mod : Z; axiom_only_mod : Z; skolem_mod : Z; defpred_mod : Z }.

Section Gen.
  Variable P : problem.

  (** the symbols after $true: codes SIG_TRUE_CODE+1 .. sig_size *)
  Definition codes : list sym := seq 2 (sigsize P - 1).

  (** ** Precedences *)

  (** INT_MAX *)
  Definition int_max : Z := 2147483647.
  (** FREQ_SEMI_INFTY, che_to_precgen.h:40 *)
  Definition freq_semi_infty : Z := 2000000.

  (** FCodeFeatureSortCell, che_fcode_featurearrays.h:35-46 *)
  Record entry := { key0 : Z; key1 : Z; key2 : Z; key3 : Z; rank : Z; symbol : sym }.

  (** FCodeFeatureArrayUpdateOccKey and FCodeFeatureArrayUpdateSymbKey, che_fcode_featurearrays.c:150-220 *)
  Definition key0_of (q : oparms) (i : sym) : Z :=
    ((if Z.eqb (conjfreq P i) 0
      then (if Z.eqb (axiomfreq P i) 0 then 0 else axiom_only_mod q)
      else (if Z.eqb (axiomfreq P i) 0 then conj_only_mod q else conj_axiom_mod q))
     + (if skolem P i then skolem_mod q else 0) + (if defpred P i then defpred_mod q else 0))%Z.

  (** strncmp(id, p, strlen(p)) == 0 *)
  Definition starts (p : string) (i : sym) : bool := prefix p (nm P i).

  (** generate_arrayopt_precedence, che_to_precgen.c:780-840: key1 *)
  Definition array_key (i : sym) : Z :=
    if String.eqb (nm P i) "store" then 30
    else if String.eqb (nm P i) "select" then 25
    else if String.eqb (nm P i) "sk" then 20
    else if starts "a_" i || starts "b_" i then 10
    else if starts "a" i || starts "b" i then 15
    else if starts "e_" i then 5
    else if starts "e" i then 7
    else if starts "i_" i then 0
    else if starts "i" i then 2
    else 5.

  (** generate_invfreq_hack_precedence, che_to_precgen.c:716-728 *)
  Definition max_unary_freq : Z :=
    fold_left (fun m i => if Nat.eqb (ari P i) 1 then Z.max m (freq P i) else m) (seq 1 (sigsize P)) (-1)%Z.

  Definition zar (i : sym) : Z := Z.of_nat (ari P i).

  (** key1, key2 and key3 as set by the generate_..._precedence functions, che_to_precgen.c:135-850;
      PNoMethod falls through to PUnaryFirst (906-914) *)
  Definition keys (m : pmethod) (i : sym) : Z * Z * Z :=
    match m with
    | PNoMethod | PUnaryFirst => ((if Nat.eqb (ari P i) 1 then int_max else zar i), 0, 0)
    | PUnaryFirstFreq =>
        ((if Nat.eqb (ari P i) 1 then 2 else if Nat.eqb (ari P i) 0 then 0 else 1), freq P i, 0)
    | PArity => (zar i, 0, 0)
    | PInvArity => (- zar i, 0, 0)
    | PConstMax => ((if Nat.eqb (ari P i) 0 then int_max else zar i), 0, 0)
    | PInvArConstMin => ((if Nat.eqb (ari P i) 0 then - freq_semi_infty else - zar i), 0, 0)
    | PByFrequency => (freq P i, zar i, 0)
    | PByInvFrequency => (- freq P i, zar i, 0)
    | PByInvConjFrequency =>
        ((if Z.eqb (conjfreq P i) 0 then 0 else int_max - conjfreq P i), - freq P i, zar i)
    | PByInvFreqConjMax => ((if Z.eqb (conjfreq P i) 0 then 0 else 1), - freq P i, zar i)
    | PByInvFreqConjMin => ((if Z.eqb (conjfreq P i) 0 then 1 else 0), - freq P i, zar i)
    | PByInvFreqConstMin =>
        if Nat.eqb (ari P i) 0 then (- freq_semi_infty, freq P i, 0) else (- freq P i, zar i, 0)
    | PByInvFreqHack =>
        if Nat.eqb (ari P i) 0 then (- freq_semi_infty, - freq P i, 0)
        else if Nat.eqb (ari P i) 1 && Z.eqb (freq P i) max_unary_freq then (freq_semi_infty, 0, 0)
        else (- freq P i, zar i, 0)
    | PArrayOpt => (array_key i, - freq P i, 0)
    end%Z.

  Definition entry_of (q : oparms) (i : sym) : entry :=
    let '(k1, k2, k3) := keys (to_prec_gen q) i in
    {| key0 := key0_of q i; key1 := k1; key2 := k2; key3 := k3; rank := posrank P i; symbol := i |}.

  (** int subtraction; [None] = signed overflow (undefined) *)
  Definition isub (a b : Z) : option Z :=
    if ((- int_max - 1 <=? a - b) && (a - b <=? int_max))%Z then Some (a - b)%Z else None.

  (** feature_compare_function, che_fcode_featurearrays.c:50-82 *)
  Definition feature_compare (a b : entry) : option Z :=
    let step (x y : Z) (rest : option Z) :=
      match isub x y with
      | None => None
      | Some d => if Z.eqb d 0 then rest else Some d
      end in
    step (key0 a) (key0 b) (step (key1 a) (key1 b) (step (key2 a) (key2 b) (step (key3 a) (key3 b)
      (isub (rank a) (rank b))))).

  (** What the C standard says about qsort: the array is permuted, and it is sorted if the
      comparison is defined on its elements and is an ordering of them. *)
  Definition consistent (c : entry -> entry -> option Z) (l : list entry) : Prop :=
    (forall a b, In a l -> In b l -> exists x y, c a b = Some x /\ c b a = Some y /\ Z.sgn y = (- Z.sgn x)%Z) /\
    (forall a b d x y, In a l -> In b l -> In d l -> c a b = Some x -> c b d = Some y -> (x <= 0)%Z -> (y <= 0)%Z ->
       exists z, c a d = Some z /\ (z <= 0)%Z).
  Definition qsorted (c : entry -> entry -> option Z) (l l' : list entry) : Prop :=
    Permutation l l' /\
    (consistent c l -> forall i j a b, i < j -> nth_error l' i = Some a -> nth_error l' j = Some b ->
       exists x, c a b = Some x /\ (x <= 0)%Z).

  (** FCodeFeatureArraySort, che_fcode_featurearrays.c:245-252, on the array filled by the method:
      [order] lists the symbols in the resulting order *)
  Definition sorted_codes (q : oparms) (order : list sym) : Prop :=
    exists l', qsorted feature_compare (map (entry_of q) codes) l' /\ order = map symbol l'.

  Fixpoint index (i : sym) (l : list sym) (k : nat) : nat :=
    match l with
    | [] => k
    | j :: l' => if Nat.eqb i j then k else index i l' (S k)
    end.

  (** compute_precedence_from_array, che_to_precgen.c:88-120, without a user precedence:
      prec_weights[array[i].symbol] = i; $true: LONG_MIN/2; cell 0 belongs to no symbol *)
  Definition prec_weights (order : list sym) (f : sym) : Z :=
    if Nat.eqb f 0 then 0%Z
    else if Nat.eqb f sig_true then (- 2 ^ 62)%Z else Z.of_nat (index f order 2).
  Definition prec_weighted (order : list sym) : sym -> sym -> cmp :=
    fun_compare_w (sigsize P) (dst P) (prec_weights order).

  (** compute_precedence_from_array with a user precedence (lines 110-117): the chain of tuples is
      added to the matrix, refused tuples are skipped; [None] = no fuel *)
  Fixpoint chain (fuel : nat) (st : pstate) (last : sym) (l : list sym) : option pstate :=
    match l with
    | [] => Some st
    | f :: l' => match add_tuple (sigsize P) (dst P) fuel st last f Lesser with
                 | None => None
                 | Some (_, st') => chain fuel st' f l'
                 end
    end.
  Definition prec_matrix (st : pstate) (order : list sym) : option (sym -> sym -> cmp) :=
    match chain (S (sigsize P * sigsize P)) st sig_true order with
    | None => None
    | Some st' => Some (fun_compare (sigsize P) (dst P) st')
    end.

  (** ** Weights *)

  Definition upd (w : sym -> Z) (f : sym) (v : Z) : sym -> Z := fun g => if Nat.eqb g f then v else w g.

  (** a loop over all symbols after $true that sets the weight of each *)
  Definition for_all (v : sym -> Z) (w : sym -> Z) : sym -> Z := fold_left (fun w i => upd w i (v i)) codes w.

  Section Weights.
    Variable p : sym -> sym -> cmp.     (* OCBFunCompare *)

    (** PStackDiscardElement, BASICS/clb_pstacks.c:90-101 *)
    Fixpoint set_nth (j : nat) (x : sym) (l : list sym) : list sym :=
      match l, j with
      | [], _ => []
      | _ :: l', O => x :: l'
      | y :: l', S j' => y :: set_nth j' x l'
      end.
    Definition discard (res : list sym) (j : nat) : list sym :=
      let r := removelast res in
      if Nat.eqb (length r) j then r else set_nth j (last res 0) r.

    (** find_max_symbols, che_to_weightgen.c:188-222: inner loop (stack bottom first) ... *)
    Fixpoint dominate (i : sym) (j : nat) (res : list sym) : bool * list sym :=
      match j with
      | O => (true, res)
      | S j' => match p i (nth j' res 0) with
                | Lesser => (false, res)
                | Greater => dominate i j' (discard res j')
                | _ => dominate i j' res
                end
      end.
    (** ... and outer loop *)
    Definition max_step (res : list sym) (i : sym) : list sym :=
      let '(max, res') := dominate i (length res) res in if max then res' ++ [i] else res'.
    Definition find_max_symbols : list sym := fold_left max_step codes [].

    (** the smallest code on the stack: che_to_weightgen.c:243-253, 275-285 *)
    Definition first_max : option sym :=
      match find_max_symbols with
      | [] => None
      | x :: l => Some (fold_left (fun m y => if Nat.ltb y m then y else m) l x)
      end.

    (** set_maximal_0, che_to_weightgen.c:234-257 (first-order problems) *)
    Definition set_maximal_0 (w : sym -> Z) : sym -> Z :=
      match first_max with None => w | Some f => upd w f 0 end.

    (** set_maximal_unary_0, che_to_weightgen.c:269-294 *)
    Definition set_maximal_unary_0 (w : sym -> Z) : sym -> Z :=
      match first_max with
      | None => w
      | Some f => if Nat.eqb (ari P f) 1 then upd w f 0 else w
      end.

    (** SigFindMaxUsedArity, TERMS/cte_signature.c:1094-1104 *)
    Definition max_arity : Z := fold_left (fun m i => Z.max m (zar i)) (seq 1 (sigsize P)) 0%Z.

    (** generate_precedence_weights, generate_invprecedence_weights, che_to_weightgen.c:402-466 *)
    Definition count_rel (r : cmp) (i : sym) : Z :=
      fold_left (fun w j => if cmp_eqb (p i j) r then (w + 1)%Z else w) codes 1%Z.

    (** generate_precrank_weights, che_to_weightgen.c:139-170; [psrt] is the array sorted by
        precedence, the quotient is exact here and a float in C *)
    Fixpoint precrank (ranks : Z) (l : list sym) (i : Z) (w : sym -> Z) : sym -> Z :=
      match l with
      | [] => w
      | f :: l' => precrank ranks l' (i + 1) (upd w f (i * ranks / Z.of_nat (length codes) + 1))
      end.

    (** generate_invfreq_weights, che_to_weightgen.c: max_count *)
    Definition max_count : Z := (fold_left (fun m i => Z.max (freq P i) m) codes 1 + 1)%Z.

    (** the loops of generate_freqrank_weights and its variants: [fin] maps the rank to the weight *)
    Fixpoint freqrank (fin : Z -> Z) (l : list sym) (weight fr : Z) (w : sym -> Z) : sym -> Z :=
      match l with
      | [] => w
      | f :: l' =>
          let weight' := if Z.eqb fr (freq P f) then weight else (weight + 1)%Z in
          freqrank fin l' weight' (freq P f) (upd w f (fin weight'))
      end.

    (** generate_invconjfreqrank_weights *)
    Fixpoint conjrank (l : list sym) (weight fr cfr : Z) (w : sym -> Z) : sym -> Z :=
      match l with
      | [] => w
      | f :: l' =>
          let weight' := if Z.eqb fr (freq P f) && Z.eqb cfr (conjfreq P f) then weight else (weight + 1)%Z in
          conjrank l' weight' (freq P f) (conjfreq P f) (upd w f weight')
      end.

    (** generate_inv_modfreqrank_weights *)
    Fixpoint modrank (l : list sym) (weight base fr : Z) (w : sym -> Z) : sym -> Z :=
      match l with
      | [] => w
      | f :: l' =>
          let base' := (base + 1)%Z in
          let weight' := if Z.eqb fr (freq P f) then weight else base' in
          modrank l' weight' base' (freq P f) (upd w f weight')
      end.

    Definition sq (z : Z) : Z := (z * z)%Z.

    (** the switch of TOGenerateWeights, che_to_weightgen.c:1330-1445; [wsrt] is the order of the
        feature array sorted by frequency, [psrt] the symbols sorted by precedence *)
    Definition method_weights (m : wmethod) (wsrt psrt : list sym) (w : sym -> Z) : sym -> Z :=
      let arity v := for_all v w in
      match m with
      | WNoMethod | WSelectMaximal => set_maximal_0 (for_all (fun _ => 1%Z) w)
      | WConstantWeight => for_all (fun _ => 1%Z) w
      | WArityWeight => arity (fun i => zar i + 1)%Z
      | WArityMax0 => set_maximal_0 (arity (fun i => zar i + 1)%Z)
      | WModArityWeight => arity (fun i => zar i + 4)%Z
      | WModArityMax0 => set_maximal_0 (arity (fun i => zar i + 4)%Z)
      | WAritySqWeight => arity (fun i => sq (zar i) + 1)%Z
      | WAritySqMax0 => set_maximal_0 (arity (fun i => sq (zar i) + 1)%Z)
      | WInvArityWeight => arity (fun i => max_arity - zar i + 1)%Z
      | WInvArityMax0 => set_maximal_0 (arity (fun i => max_arity - zar i + 1)%Z)
      | WInvAritySqWeight => arity (fun i => sq max_arity - sq (zar i) + 1)%Z
      | WInvAritySqMax0 => set_maximal_0 (arity (fun i => sq max_arity - sq (zar i) + 1)%Z)
      | WPrecedence => for_all (count_rel Greater) w
      | WPrecedenceInv => for_all (count_rel Lesser) w
      | WPrecRank5 => precrank 5 psrt 0 w
      | WPrecRank10 => precrank 10 psrt 0 w
      | WPrecRank20 => precrank 20 psrt 0 w
      | WFrequency => for_all (fun i => Z.max (freq P i) 1) w
      | WInvFrequency => for_all (fun i => max_count - Z.max (freq P i) 1)%Z w
      | WFrequencyRank => freqrank (fun z => Z.max z 1) wsrt 0 0 w
      | WInvFrequencyRank => freqrank (fun z => Z.max z 1) (rev wsrt) 0 0 w
      | WInvConjFrequencyRank => conjrank wsrt 0 0 0 w
      | WFrequencyRankSq => freqrank sq wsrt 0 0 w
      | WInvFrequencyRankSq => freqrank sq (rev wsrt) 0 0 w
      | WInvModFreqRank => modrank (rev wsrt) 0 0 0 w
      | WInvModFreqRankMax0 => set_maximal_unary_0 (modrank (rev wsrt) 0 0 0 w)
      end.

    (** che_to_weightgen.c:1341-1354 *)
    Definition is_modarity (m : wmethod) : bool :=
      match m with WModArityWeight | WModArityMax0 => true | _ => false end.

    (** the loop over the constants, che_to_weightgen.c:1447-1462 *)
    Definition const_step (q : oparms) (wv : (sym -> Z) * Z) (i : sym) : (sym -> Z) * Z :=
      let '(w, vwt) := wv in
      if Nat.eqb (ari P i) 0 then
        let w' := if Z.eqb (to_const_weight q) (-1) then w else upd w i (Z.max (to_const_weight q) 1) in
        (w', if force_kbo_var_weight q then Z.min vwt (w' i) else vwt)
      else (w, vwt).

    (** TOGenerateWeights, che_to_weightgen.c:1318-1475, on a fresh OCB (all weights 1, var_weight 1);
        OCBFunWeight gives 1 for symbols beyond sig_size (cto_ocb.h:179-186) *)
    Definition generate (q : oparms) (wsrt psrt : list sym) : ocb :=
      let w0 : sym -> Z := fun _ => 1%Z in
      let w1 := method_weights (to_weight_gen q) wsrt psrt w0 in
      let v1 := if is_modarity (to_weight_gen q)
                then (if Z.eqb (to_const_weight q) (-1) then 4 else to_const_weight q)%Z else 1%Z in
      let '(w2, v2) := fold_left (const_step q) codes (w1, v1) in
      let w3 := upd w2 sig_true v2 in
      {| fw := fun f => if Nat.leb f (sigsize P) then w3 f else 1%Z; vw := v2; prec := p |}.
  End Weights.

  (** TOSelectOrdering, che_to_autoselect.c:872-875: a constant weight of 0 (the default of the
      parameter, che_to_params.c:141) is replaced by "no special weight" *)
  Definition select_const_weight (c : Z) : Z := if Z.eqb c 0 then (-1)%Z else c.
  Definition select (q : oparms) : oparms :=
    {| to_prec_gen := to_prec_gen q; to_weight_gen := to_weight_gen q;
       to_const_weight := select_const_weight (to_const_weight q);
       force_kbo_var_weight := force_kbo_var_weight q;
       conj_only_mod := conj_only_mod q; conj_axiom_mod := conj_axiom_mod q;
       axiom_only_mod := axiom_only_mod q; skolem_mod := skolem_mod q; defpred_mod := defpred_mod q |}.

  (** TOCreateOrdering, che_to_autoselect.c:897-955, for KBO and KBO6 and no user precedence:
      the orderings that can come out for a problem and given parameters *)
  Definition created (q : oparms) (o : ocb) : Prop :=
    exists order wsrt psrt, sorted_codes (select q) order /\
      Permutation codes wsrt /\ Permutation codes psrt /\
      o = generate (prec_weighted order) (select q) wsrt psrt.

  (** ** Designated constants *)
  (** [typ] = type_uid of SigGetType, [fconst] = constant, not a predicate, not special.
      compute_precedence_from_array (che_to_precgen.c:97-103) sets min_constants[type] to the
      first such code if it is still 0; OCBMinConst (cto_ocb.c:511-520) reads it. *)
  Definition min_const_weighted (typ : sym -> nat) (fconst : sym -> bool) (t : nat) : option sym :=
    find (fun i => fconst i && Nat.eqb (typ i) t) codes.
  (** OCBFindMinConst, cto_ocb.c:559-590, when nothing is recorded (user precedence): the loop *)
  Definition min_const_matrix (p : sym -> sym -> cmp) (typ : sym -> nat) (fconst : sym -> bool) (t : nat) : option sym :=
    fold_left (fun c i => if fconst i && Nat.eqb (typ i) t
                          then match c with
                               | None => Some i
                               | Some d => if cmp_eqb (p i d) Greater then Some i else c
                               end
                          else c) codes None.
End Gen.
