(** Grounding of near-propositional clauses (PROVER/eground.c,
    CLAUSES/ccl_grounding.c, CLAUSES/ccl_groundconstr.c,
    CLAUSES/ccl_propclauses.c).

    The arguments of a literal are variables and constants; in a clause
    without variables a constant stands for any term.  Equations have been
    recoded as literals (ClauseSetEqlitRecode()).  Splitting, sorting of the
    clauses and the option --give-up are not modelled. *)

From Coq Require Import ZArith List Bool Arith.
Import ListNotations.
Local Open Scope Z_scope.

Inductive term := Var (x : nat) | Con (c : Z).
Record lit := mklit { l_pos : bool; l_pred : Z; l_args : list term }.
Definition clause := list lit.

(** A ground literal: its sign and the entry number of its atom, the
    EqnLitCode() of ccl_grounding.h line 112.  Atoms are shared terms: two
    are the same if and only if their entry numbers are (C24). *)
Definition glit := (bool * Z)%type.
Definition gclause := list glit.

Definition eqlit (a b : glit) : bool :=
  Bool.eqb (fst a) (fst b) && (snd a =? snd b).

(** ccl_grounding.h: GroundSetCell.  The array units has a status of two bits
    for each atom; it is modelled as the list of the literals whose bit is
    set. *)
Record gset := mkgset {
  g_units : list glit;
  g_unit_no : Z;
  g_max : Z;              (** max_literal *)
  g_non : list gclause    (** non_units, in the order of insertion *)
}.

(** Lines 634-653: GroundSetAlloc(). *)
Definition GroundSetAlloc : gset := mkgset [] 0 0 [].

(** The test of a bit of the status of an atom. *)
Definition status (g : gset) (l : glit) : bool := existsb (eqlit l) (g_units g).

Definition opp (l : glit) : glit := (negb (fst l), snd l).

(** Lines 56-67: clause_get_max_lit(). *)
Definition clause_get_max_lit (c : gclause) : Z :=
  fold_left (fun r l => Z.max r (snd l)) c 0.

(** Lines 728-779: GroundSetInsert(). *)
Definition GroundSetInsert (g : gset) (c : gclause) : gset :=
  match c with
  | [l] => if status g l then g
           else mkgset (l :: g_units g) (g_unit_no g + 1)
                  (Z.max (g_max g) (snd l)) (g_non g)
  | _ => mkgset (g_units g) (g_unit_no g)
           (Z.max (g_max g) (clause_get_max_lit c)) (g_non g ++ [c])
  end.

(** Lines 863-913: GroundSetUnitSimplifyClause(); None if it returns true. *)
Fixpoint GroundSetUnitSimplifyClause (g : gset) (c : gclause)
  (subsume resolve : bool) : option gclause :=
  match c with
  | [] => Some []
  | l :: r =>
      if subsume && status g l then None
      else match GroundSetUnitSimplifyClause g r subsume resolve with
           | None => None
           | Some r' => Some (if resolve && status g (opp l) then r' else l :: r')
           end
  end.

(** ccl_eqnlist.c lines 829-855: EqnListRemoveDuplicates(). *)
Fixpoint dedup (seen : gclause) (c : gclause) : gclause :=
  match c with
  | [] => []
  | l :: r => if existsb (eqlit l) seen then dedup seen r
              else l :: dedup (l :: seen) r
  end.
Definition EqnListRemoveDuplicates (c : gclause) : gclause := dedup [] c.

(** ccl_eqnlist.c lines 1024-1046: EqnListIsTrivial(). *)
Fixpoint EqnListIsTrivial (c : gclause) : bool :=
  match c with
  | [] => false
  | l :: r => existsb (eqlit (opp l)) r || EqnListIsTrivial r
  end.

(** ccl_clauses.c lines 298-329: ClauseAlloc() puts positive literals
    first. *)
Definition ClauseAlloc (c : gclause) : gclause :=
  filter (fun l => fst l) c ++ filter (fun l => negb (fst l)) c.

(* ------------------------------------------------------------------ *)
(** * Substitutions *)

(** ccl_grounding.h: VarSetInst; a variable and its alternatives.  The
    positions are kept apart. *)
Definition cell := (nat * list Z)%type.

(** ccl_grounding.c lines 135-152: varsetinstinitialize(). *)
Fixpoint varsetinstinitialize (cs : list cell) : option (list nat) :=
  match cs with
  | [] => Some []
  | (_, a) :: r =>
      match length a with
      | 0%nat => None
      | S n => match varsetinstinitialize r with
               | Some ps => Some (n :: ps)
               | None => None
               end
      end
  end.

(** Lines 192-209: varsetinstnext(); None if it returns false. *)
Fixpoint varsetinstnext (cs : list cell) (ps : list nat) : option (list nat) :=
  match cs, ps with
  | (_, a) :: cs', p :: ps' =>
      match p with
      | S p' => Some (p' :: ps')
      | 0%nat => match varsetinstnext cs' ps' with
                 | Some qs => Some (Nat.pred (length a) :: qs)
                 | None => None
                 end
      end
  | _, _ => None
  end.

(** Lines 82-98: varsetinstapply(), as the binding of a variable; None if it
    is not bound. *)
Fixpoint varsetinstapply (cs : list cell) (ps : list nat) (x : nat) : option Z :=
  match cs, ps with
  | (y, a) :: cs', p :: ps' =>
      if Nat.eqb x y then nth_error a p else varsetinstapply cs' ps' x
  | _, _ => None
  end.

Section Grounding.

(** The entry number of an atom. *)
Variable code : Z -> list Z -> Z.

(** EqnListCopy() under the bindings; a variable that is not bound does not
    occur (0 stands for it). *)
Definition ground_term (b : nat -> option Z) (t : term) : Z :=
  match t with
  | Con c => c
  | Var x => match b x with Some c => c | None => 0 end
  end.
Definition ground_lit (b : nat -> option Z) (l : lit) : glit :=
  (l_pos l, code (l_pred l) (map (ground_term b) (l_args l))).

Record opts := mkopts { subsume : bool; resolve : bool; taut_check : bool }.

(** Lines 960-987: one round of the loop of ClauseCreateGroundInstances();
    the second component is res. *)
Definition instance (o : opts) (c : clause) (b : nat -> option Z) (g : gset)
  : gset * bool :=
  let handle := EqnListRemoveDuplicates (map (ground_lit b) c) in
  if taut_check o && EqnListIsTrivial handle then (g, true)
  else match GroundSetUnitSimplifyClause g (ClauseAlloc handle)
               (subsume o) (resolve o) with
       | None => (g, true)
       | Some [] => (GroundSetInsert (mkgset [] 0 (g_max g) []) [], false)
       | Some new => (GroundSetInsert g new, true)
       end.

(** Lines 927-993: the loop of ClauseCreateGroundInstances().  [time] is the
    number of rounds until TimeIsUp or MemIsLow is set; what is left of it is
    returned. *)
Fixpoint instances (time : nat) (o : opts) (c : clause) (cs : list cell)
  (ps : list nat) (g : gset) : gset * bool * nat :=
  match time with
  | 0%nat => (g, true, 0%nat)
  | S t =>
      let (g', res) := instance o c (varsetinstapply cs ps) g in
      match varsetinstnext cs ps with
      | Some ps' => if res then instances t o c cs ps' g' else (g', false, t)
      | None => (g', res, t)
      end
  end.

(** Lines 1038-1056, 1115-1146: the loop over the clauses; [alts] gives the
    cells of a clause. *)
Fixpoint create (time : nat) (o : opts) (alts : clause -> list cell)
  (set : list clause) (g : gset) : gset * nat :=
  match set with
  | [] => (g, time)
  | c :: r =>
      match time with
      | 0%nat => (g, 0%nat)
      | S _ =>
          match varsetinstinitialize (alts c) with
          | None => create time o alts r g
          | Some ps =>
              match instances time o c (alts c) ps g with
              | (g', true, t) => create t o alts r g'
              | (g', false, t) => (g', t)
              end
          end
      end
  end.

Definition term_vars (t : term) : list nat :=
  match t with Var x => [x] | Con _ => [] end.
Definition vars (c : clause) : list nat :=
  flat_map (fun l => flat_map term_vars (l_args l)) c.

(** The orders in which variables and terms come out of the trees, which are
    ordered by addresses. *)
Variable ordv : list nat -> list nat.
Variable ordt : list Z -> list Z.

(** ccl_groundconstr.c lines 328-369: SigCollectConstantTerms(); [consts]
    are the constants of the signature, [fresh] is a new Skolem constant. *)
Definition SigCollectConstantTerms (consts : list Z) (fresh : Z) : list Z :=
  match consts with [] => [fresh] | _ => consts end.

(** ccl_grounding.c lines 1041-1045: all constants for all variables. *)
Definition default_cells (terms : list Z) (c : clause) : list cell :=
  map (fun x => (x, terms)) (ordv (vars c)).

(** Lines 1005-1073: ClauseSetCreateGroundInstances(); the second component
    says whether the set is complete. *)
Definition ClauseSetCreateGroundInstances (time : nat) (o : opts)
  (consts : list Z) (fresh : Z) (set : list clause) : gset * bool :=
  let terms := SigCollectConstantTerms consts fresh in
  let (g, t) := create time o (default_cells terms) set GroundSetAlloc in
  (g, negb (Nat.eqb t 0)).

(* ------------------------------------------------------------------ *)
(** * Constraints *)

(** ccl_groundconstr.c: an entry of a table; a table is a list of what has
    been entered. *)
Definition entry := (Z * nat * term)%type.

(** Lines 192-216: LitOccAddLitAlt(), the entries of a literal. *)
Fixpoint lit_entries (p : Z) (i : nat) (args : list term) : list entry :=
  match args with
  | [] => []
  | t :: r => (p, i, t) :: lit_entries p (S i) r
  end.

(** Lines 232-269: LitOccAddClauseSetAlt(), the table for a sign. *)
Definition table (sign : bool) (set : list clause) : list entry :=
  flat_map (fun c => flat_map (fun l =>
    if Bool.eqb (l_pos l) sign then lit_entries (l_pred l) 0 (l_args l) else [])
    c) set.

Definition here (p : Z) (i : nat) (e : entry) : bool :=
  let '(q, j, _) := e in (q =? p) && Nat.eqb j i.

(** Lines 115-123, 170-180: LitPosGetConstrState(); false once a variable
    has been entered. *)
Definition constrained (tb : list entry) (p : Z) (i : nat) : bool :=
  negb (existsb (fun e => here p i e &&
                          match snd e with Var _ => true | Con _ => false end) tb).

(** Lines 148-157: LitPosGetConstraints(). *)
Definition constraints (tb : list entry) (p : Z) (i : nat) : list Z :=
  flat_map (fun e => if here p i e
                     then match snd e with Con c => [c] | Var _ => [] end
                     else []) tb.

(** Lines 271-300: the loop of EqnCollectVarConstr() over the arguments of a
    literal. *)
Fixpoint arg_constr (tb : list entry) (p : Z) (i : nat) (args : list term)
  (vc : nat -> list Z) : nat -> list Z :=
  match args with
  | [] => vc
  | t :: r =>
      let vc' :=
        match t with
        | Var x =>
            if constrained tb p i
            then let v := filter (fun c => existsb (Z.eqb c) (constraints tb p i))
                            (vc x) in
                 fun y => if Nat.eqb y x then v else vc y
            else vc
        | Con _ => vc
        end in
      arg_constr tb p (S i) r vc'
  end.

(** Lines 271-313: EqnCollectVarConstr(), ClauseCollectVarConstr(). *)
Fixpoint ClauseCollectVarConstr (pt nt : list entry) (c : clause)
  (vc : nat -> list Z) : nat -> list Z :=
  match c with
  | [] => vc
  | l :: r =>
      ClauseCollectVarConstr pt nt r
        (arg_constr (if l_pos l then nt else pt) (l_pred l) 0 (l_args l) vc)
  end.

(** ccl_grounding.c lines 446-497: VarSetConstrInstAlloc(). *)
Definition constr_cells (terms : list Z) (pt nt : list entry) (c : clause)
  : list cell :=
  let vc := ClauseCollectVarConstr pt nt c (fun _ => terms) in
  map (fun x => (x, ordt (vc x))) (ordv (vars c)).

(** Lines 1088-1166: ClauseSetCreateConstrGroundInstances(). *)
Definition ClauseSetCreateConstrGroundInstances (time : nat) (o : opts)
  (consts : list Z) (fresh : Z) (set : list clause) : gset * bool :=
  let terms := SigCollectConstantTerms consts fresh in
  let (g, t) := create time o
                  (constr_cells terms (table true set) (table false set))
                  set GroundSetAlloc in
  (g, negb (Nat.eqb t 0)).

End Grounding.

(* ------------------------------------------------------------------ *)
(** * Output *)

Definition dimacs (l : glit) : Z := if fst l then snd l else - snd l.

(** The numbers that ClausePrintDimacs() (lines 571-598) writes to the file
    [out].  The literals go to stdout whatever [out] is; [same] says that it
    is stdout. *)
Definition ClausePrintDimacs (same : bool) (c : gclause) : list Z :=
  match c with
  | [] => [-1; 0; 1; 0]
  | _ => (if same then map dimacs c else []) ++ [0]
  end.

(** Lines 822-848: GroundSetPrintDimacs(); the cells of the array behind the
    last atom with a status are 0. *)
Definition GroundSetPrintDimacs (same : bool) (g : gset) : list Z :=
  flat_map (fun i => (if status g (true, i) then [i; 0] else []) ++
                     (if status g (false, i) then [- i; 0] else []))
    (map Z.of_nat (seq 0 (Z.to_nat (clause_get_max_lit (g_units g) + 1))))
  ++ flat_map (ClausePrintDimacs same) (g_non g).

(** Lines 549-556, ccl_grounding.h lines 123-130: the numbers in the
    header. *)
Definition PrintDimacsHeader (g : gset) : Z * Z :=
  (if g_max g <=? 0 then 1 else g_max g,
   g_unit_no g + Z.of_nat (length (g_non g)) +
   Z.of_nat (length (filter (fun c : gclause => match c with [] => true | _ => false end)
                       (g_non g)))).
