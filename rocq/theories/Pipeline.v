(** * Model of the way from the parsed formulas and clauses to the clauses the saturation starts with
    (PROVER/eprover.c:640-685, CLAUSES/ccl_formulafunc.c:659-672, 1286-1434, CONTROL/cco_preprocessing.c:61-124, CLAUSES/ccl_unfold_defs.c:368-413,
    ccl_clausefunc.c:274-330, ccl_clauses.c:485-497, ccl_eqn.c:1875-1886, TERMS/cte_termfunc.c:1673-1788).
    First-order problems; executable definitions only.  The copies in the archives, derivation records, the recognition of choice axioms (higher-order
    only), the instantiation of induction axioms (preinstantiate_induction) and the watchlist are not modelled. *)
From Verif Require Import Terms Unify Semantics Clauses Subsume Taut Split Infer CNF CNFDefs Unfold Inj Bce PredElim GoalDefs.
Local Open Scope nat_scope.

(** ** Roles *)

(** FormulaProperties, CPType..., CLAUSES/ccl_clauses.h: a number of three bits *)
Definition role := Z.
Definition r_axiom : role := 1%Z.
Definition r_hypothesis : role := 2%Z.
Definition r_conjecture : role := 3%Z.
Definition r_lemma : role := 4%Z.
Definition r_negconjecture : role := 5%Z.
Definition r_question : role := 6%Z.
(** FormulaQueryProp: all bits of the property are set (BASICS/clb_properties.h:51) *)
Definition query_prop (r p : role) : bool := Z.eqb (Z.land r p) p.
Definition wformula := (role * form)%type.

(** ** Questions and conjectures *)

(** the loop of TFormulaAnnotateQuestion, ccl_formulafunc.c:1324-1328 *)
Fixpoint leading (f : form) : list var * form :=
  match f with
  | FQ false x a => let '(xs, b) := leading a in (x :: xs, b)
  | _ => ([], f)
  end.
(** answer_lit_alloc, 659-672, TFormulaAnnotateQuestion, 1316-1348.  [answer] is the code of $answer, [indiv] the sort of a Skolem symbol without given
    type. *)
Definition annotate (answer : sym) (indiv : sort) (st : cstate) (f : form) : form * cstate :=
  let '(xs, b) := leading f in
  match xs with
  | [] => (f, st)
  | _ => let '(sk, E, n) := new_skolem (c_env st) (c_next st) xs indiv in
         (fold_right (FQ false) (FBin And b (FLit false (Fun answer [sk]) ttrue)) xs, mkst E n (c_vars st))
  end.
(** WFormulaAnnotateQuestion, 1366-1386 *)
Definition is_question (caq : bool) (r : role) : bool := query_prop r r_question || query_prop r r_conjecture && caq.
Definition annotate_question (answer : sym) (indiv : sort) (add caq : bool) (st : cstate) (w : wformula) : wformula * cstate :=
  let '(r, f) := w in
  if is_question caq r
  then let '(f', st') := if add then annotate answer indiv st f else (f, st) in ((r_conjecture, f'), st')
  else (w, st).
(** WFormulaConjectureNegate, 1286-1303 *)
Definition conjecture_negate (w : wformula) : wformula :=
  let '(r, f) := w in if Z.eqb r r_conjecture then (r_negconjecture, FNot f) else w.
(** FormulaSetPreprocConjectures, 1402-1434 *)
Fixpoint preproc_conjectures (answer : sym) (indiv : sort) (add caq : bool) (st : cstate) (ws : list wformula) : list wformula * cstate :=
  match ws with
  | [] => ([], st)
  | w :: ws' => let '(w1, st1) := annotate_question answer indiv add caq st w in
                let '(r, st2) := preproc_conjectures answer indiv add caq st1 ws' in
                (conjecture_negate w1 :: r, st2)
  end.

(** ** Canonization *)

(** TermStructWeightCompare, cte_termfunc.c:1673-1741; the types of variables are compared by their codes *)
Definition is_true (t : term) : bool := match t with Fun f _ => Nat.eqb f true_code | Var _ => false end.
Fixpoint struct_compare (S : sorting) (s t : term) : Z :=
  if is_true s then (if is_true t then 0 else -1)%Z
  else if is_true t then 1%Z
  else let d := (stdweight s - stdweight t)%Z in
       if negb (Z.eqb d 0) then d
       else match s, t with
            | Fun _ a, Fun _ b =>
                let k := (Z.of_nat (length a) - Z.of_nat (length b))%Z in
                if negb (Z.eqb k 0) then k
                else (fix go (a b : list term) : Z :=
                        match a, b with
                        | x :: a', y :: b' => let r := struct_compare S x y in if Z.eqb r 0 then go a' b' else r
                        | _, _ => 0%Z
                        end) a b
            | _, _ => (Z.of_nat (tsort S s) - Z.of_nat (tsort S t))%Z
            end.
(** TermLexCompare, 1756-1788; the codes of variables are negative *)
Definition code (t : term) : Z := match t with Var x => (- 1 - Z.of_nat x)%Z | Fun f _ => Z.of_nat f end.
Fixpoint lex_compare (s t : term) : Z :=
  let d := (code s - code t)%Z in
  if negb (Z.eqb d 0) then d
  else match s, t with
       | Fun _ a, Fun _ b =>
           let k := (Z.of_nat (length a) - Z.of_nat (length b))%Z in
           if negb (Z.eqb k 0) then k
           else (fix go (a b : list term) : Z :=
                   match a, b with
                   | x :: a', y :: b' => let r := lex_compare x y in if Z.eqb r 0 then go a' b' else r
                   | _, _ => 0%Z
                   end) a b
       | _, _ => 0%Z
       end.
(** EqnCanonize, ccl_eqn.c:1875-1886, with EqnSwapSides, 1339-1348 *)
Definition eqn_canonize (S : sorting) (e : eqn) : eqn :=
  if Z.eqb (struct_compare S (lt e) (rt e)) 0 && (lex_compare (lt e) (rt e) <? 0)%Z
  then mkeqn (rt e) (lt e) (pos e) false false (maxi e) (smaxi e) (sel e) (pseudo e)
  else e.
(** ClauseSetCanonize, ccl_clausefunc.c:317-330, ClauseCanonize, ccl_clauses.c:485-497.  [sortl], [sortc]: sorting of literals and of clauses (qsort), here any
    function that rearranges a list. *)
Definition canonize (E : env) (sortl : clause -> clause) (sortc : list clause -> list clause) (N : list clause) : list clause :=
  sortc (map (fun c => sortl (map (eqn_canonize (srt E)) (remove_superfluous E c))) N).

(** ** Clausal preprocessing *)

(** HeuristicParms: the options that are used here *)
Record popts := mkpopts {
  no_preproc : bool; replace_inj_defs : bool; eqdef_off : bool; eqdef_limit : Z; eqdef_max : Z; bce : bool; bce_max_occs : nat; pred_elim : bool;
  goal_pos : bool; goal_neg : bool; goal_subterms : bool }.
(** what the models of the steps are parameterized with: term numbers, the limit of the tautology test, fuel, orders of traversal, decisions, see there *)
Record orac := mkorac {
  k_eno : term -> Z; k_max_neg : nat; k_fuel : nat; k_internal : sym; k_known : list clause -> clause -> bool; k_sortl : clause -> clause;
  k_sortc : list clause -> list clause; k_alt : var -> var; k_pick : list Bce.task -> nat; k_heur : nat -> nat; k_core : list clause -> option (list nat);
  k_pairs : list nat -> list nat -> list (nat * nat); k_wfuel : nat; k_junk : bool; k_goal : clause -> bool; k_order : list term -> list term }.

Section Preproc.
Variables (E : env) (P : popts) (K : orac).
(** ClauseSetPreprocess, ccl_unfold_defs.c:368-384: the clauses, the next code, the declared symbols *)
Definition set_preprocess (n : sym) (N : list clause) : option (list clause * sym * list decl) :=
  match filter_taut (k_eno K) (k_max_neg K) (k_fuel K) E (map (remove_superfluous E) N) with
  | None => None
  | Some N1 => let '(N2, _, ds) := if replace_inj_defs P then replace_injectivity_defs E (k_internal K) (k_known K) n N1 else (N1, [], []) in
               Some (canonize E (k_sortl K) (k_sortc K) N2, n + length ds, ds)
  end.
(** ClauseSetUnfoldEqDefNormalize, 397-413; it is called with the watchlist as second set, here empty *)
Definition unfold_step (N : list clause) : option (list clause) :=
  match unfold_normalize (k_eno K) (k_max_neg K) (k_fuel K) E (eqdef_off P) (eqdef_limit P) (eqdef_max P) N [] with
  | None => None
  | Some (N', _, []) => Some N'
  | Some (N', _, _) => Some (canonize E (k_sortl K) (k_sortc K) N')
  end.
Definition bce_step (N : list clause) : option (list clause) :=
  if bce P then option_map fst (eliminate_blocked E (k_alt K) (k_eno K) (k_max_neg K) (k_fuel K) (k_pick K) (k_fuel K) (bce_max_occs P) N) else Some N.
(** gates are not recognized (pred_elim_gates, off by default), see C52 *)
Definition elim_step (N : list clause) : option (list clause) :=
  if pred_elim P
  then match predicate_elimination E (k_alt K) (k_eno K) (k_max_neg K) (k_fuel K) (k_heur K) (k_core K) (k_pairs K) (k_fuel K) (k_wfuel K) false (k_junk K) N with
       | Some st => Some (clauses st (passive st))
       | None => None
       end
  else Some N.
Definition goal_step (n : sym) (N : list clause) : list clause * sym * list decl :=
  if goal_pos P || goal_neg P
  then let '(N', st) := gd_transform E (k_goal K) (k_order K) (goal_pos P) (goal_neg P) (goal_subterms P) n N in (N', g_next st, g_decl st)
  else (N, n, []).
(** ProofStateClausalPreproc, cco_preprocessing.c:61-124 *)
Definition clausal_preproc (n : sym) (N : list clause) : option (list clause * sym * list decl) :=
  match (if no_preproc P then Some (N, n, []) else set_preprocess n N) with
  | None => None
  | Some (N1, n1, ds1) =>
      match unfold_step N1 with
      | None => None
      | Some N2 =>
          match bce_step N2 with
          | None => None
          | Some N3 =>
              match elim_step N3 with
              | None => None
              | Some N4 => let '(N5, n5, ds5) := goal_step n1 N4 in Some (N5, n5, ds1 ++ ds5)
              end
          end
      end
  end.
End Preproc.

(** ** From formulas to clauses *)
(** eprover.c:654-676: FormulaSetPreprocConjectures, then FormulaSetCNF2, whose clauses are added to the input clauses [N].  [add]: answer literals are wanted
    (answer_limit > 0), [caq]: conjectures are questions.  The other parameters are those of [set_cnf]. *)
Definition to_clauses (answer : sym) (indiv : sort) (add caq : bool) (fuel : nat) (arrange : list var -> list var) (estimate : form -> bool -> Z)
  (def_limit mlimit : Z) (unroll : bool) (st : cstate) (ws : list wformula) (N : list clause) : option (list clause * cstate) :=
  let '(ws', st1) := preproc_conjectures answer indiv add caq st ws in
  match set_cnf fuel arrange estimate def_limit mlimit unroll st1 (map snd ws') with
  | None => None
  | Some (cs, st2) => Some (N ++ cs, st2)
  end.

(** ** Specification vocabulary *)

(** A formula with this role is to be proved (questions too), *)
Definition to_prove (caq : bool) (r : role) : Prop := r = r_conjecture \/ is_question caq r = true.
(** the others are assumed. *)
Definition closed (f : form) : Prop := free_vars f = [].
(** A literal of a first-order clause or $true or ~$true *)
Definition weak_lit (E : env) (e : eqn) : Prop := fo_lit E e \/ lt e = ttrue /\ rt e = ttrue.
