(** * Model of proof objects: CLAUSES/ccl_derivation.c, the archive functions of CLAUSES/ccl_clausefunc.c:430-478, and the names of steps
      (CLAUSES/ccl_clauseinfo.c:242-276, CLAUSES/ccl_formula_wrapper.c:277-301).

    Every clause and every formula carries a stack that records how it was derived.  At the end of the proof search the steps on which the
    final clauses rest are collected, sorted, numbered and printed.

    Simplifications: pointers are numbers; the splay tree of derivation cells (C26) is a pair of functions giving the reference count and
    the freshness of each node, where a missing cell is one with count 0 that is fresh (DerivedAlloc, ccl_derivation.c:1207-1220,
    DerivationGetDerived, 2056-2080); numbers are unbounded.  Higher-order op codes are left out. *)
From Coq Require Import String Ascii List ZArith NArith Lia Bool Arith.
From Verif Require Import Sig.
Import ListNotations.
Local Open Scope nat_scope.
Local Open Scope list_scope.

(** ** Derivation codes *)
(** ArgDesc, ccl_derivation.h:110-119: the bits that describe the arguments *)
Definition Arg1Fof : N := 256%N.
Definition Arg1Cnf : N := 512%N.
Definition Arg1Num : N := 1024%N.
Definition Arg2Fof : N := 2048%N.
Definition Arg2Cnf : N := 4096%N.
Definition Arg2Num : N := 8192%N.
(** DerivationCode, ccl_derivation.h:122-188; the numbers are the positions in OpCode, 45-107 *)
Definition DCCnfQuote : N := N.lor 1 Arg1Cnf.
Definition DCFofQuote : N := N.lor 1 Arg1Fof.
Definition DCCnfAddArg : N := N.lor 2 Arg1Cnf.
Definition DCCnfEvalGC : N := 3%N.
Definition DCRewrite : N := N.lor 4 Arg1Cnf.
Definition DCLocalRewrite : N := 5%N.
Definition DCUnfold : N := N.lor 6 Arg1Cnf.
Definition DCApplyDef : N := N.lor 7 Arg1Fof.
Definition DCContextSR : N := N.lor 8 Arg1Cnf.
Definition DCDesEqRes : N := 9%N.
Definition DCSR : N := N.lor 10 Arg1Cnf.
Definition DCACRes : N := N.lor 11 Arg1Num.
Definition DCCondense : N := 12%N.
Definition DCNormalize : N := 13%N.
Definition DCEvalAnswers : N := 14%N.
Definition DCNegateConjecture : N := 15%N.
Definition DCFofSimplify : N := 16%N.
Definition DCFNNF : N := 17%N.
Definition DCShiftQuantors : N := 18%N.
Definition DCVarRename : N := 19%N.
Definition DCSkolemize : N := 20%N.
Definition DCDistDisjunctions : N := 21%N.
Definition DCAnnoQuestion : N := 22%N.
Definition DCExpandDistinct : N := N.lor 23 Arg1Fof.
Definition DCParamod : N := N.lor 24 (N.lor Arg1Cnf Arg2Cnf).
Definition DCSimParamod : N := N.lor 25 (N.lor Arg1Cnf Arg2Cnf).
Definition DCOrderedFactor : N := N.lor 26 Arg1Cnf.
Definition DCEqFactor : N := N.lor 27 Arg1Cnf.
Definition DCEqRes : N := N.lor 28 Arg1Cnf.
Definition DCDisEqDecompose : N := N.lor 29 Arg1Cnf.
Definition DCSatGen : N := N.lor 30 Arg1Cnf.
Definition DCPEResolve : N := N.lor 31 (N.lor Arg1Cnf Arg2Cnf).
Definition DCSplitEquiv : N := N.lor 32 Arg1Fof.
Definition DCIntroDef : N := N.lor 33 Arg1Num.
Definition DCSplitConjunct : N := N.lor 34 Arg1Fof.
Definition DCEqToEq : N := 35%N.
Definition DCFoolUnroll : N := 37%N.
Definition DCLiftIte : N := 38%N.
Definition DCEliminateBVar : N := 39%N.
(** the codes that are pushed with ClausePushDerivation and WFormulaPushDerivation, DCIntroDef apart *)
Definition codes : list N :=
  [ DCCnfQuote; DCFofQuote; DCCnfAddArg; DCCnfEvalGC; DCRewrite; DCLocalRewrite; DCUnfold; DCApplyDef; DCContextSR; DCDesEqRes; DCSR;
    DCCondense; DCNormalize; DCEvalAnswers; DCNegateConjecture; DCFofSimplify; DCFNNF; DCShiftQuantors; DCVarRename; DCSkolemize;
    DCDistDisjunctions; DCAnnoQuestion; DCExpandDistinct; DCParamod; DCSimParamod; DCOrderedFactor; DCEqFactor; DCEqRes;
    DCDisEqDecompose; DCSatGen; DCPEResolve; DCSplitEquiv; DCSplitConjunct; DCEqToEq; DCFoolUnroll; DCLiftIte; DCEliminateBVar ].

(** DCOpHasCnfArg1 etc., ccl_derivation.h:236-246 *)
Definition has (b op : N) : bool := negb (N.eqb (N.land op b) 0).

(** ** Derivation stacks *)
(** an element of a derivation stack: an integer or a pointer (IntOrP) *)
Inductive cell := CInt (k : N) | CPtr (p : nat).
(** a clause or a formula (DerivedCell, ccl_derivation.h:201-208: exactly one of the two is set) *)
Inductive node := Cl (p : nat) | Fm (p : nat).
Definition ptr (n : node) : nat := match n with Cl p => p | Fm p => p end.
Definition node_eqb (a b : node) : bool :=
  match a, b with Cl p, Cl q => Nat.eqb p q | Fm p, Fm q => Nat.eqb p q | _, _ => false end.
(** the derivation stack of each clause and formula, from the bottom; [None]: NULL *)
Definition heap := node -> option (list cell).
Definition set_stack (H : heap) (n : node) (l : option (list cell)) : heap := fun m => if node_eqb m n then l else H m.

(** ClausePushDerivation, WFormulaPushDerivation, ccl_derivation.c:717-739, 777-801 *)
Definition push_deriv (old : option (list cell)) (op : N) (a1 a2 : option nat) : list cell :=
  match old with Some l => l | None => [] end ++
  CInt op :: match a1 with Some p => CPtr p :: match a2 with Some q => [CPtr q] | None => [] end | None => [] end.
(** ClausePushACResDerivation, ccl_derivation.c:753-763; [ac]: sig->ac_axioms from the bottom *)
Definition push_acres (old : option (list cell)) (ac : list nat) : list cell :=
  match old with Some l => l | None => [] end ++ [CInt DCACRes; CInt (N.of_nat (length ac))].
(** ClauseArchive, ccl_clausefunc.c:430-443: the copy quotes the archived clause *)
Definition archive (H : heap) (c new : nat) : heap := set_stack H (Cl new) (Some (push_deriv None DCCnfQuote (Some c) None)).
(** ClauseArchiveCopy, ccl_clausefunc.c:461-478: the archived copy takes the derivation over and the clause quotes it *)
Definition archive_copy (H : heap) (c new : nat) : heap :=
  set_stack (set_stack H (Cl new) (H (Cl c))) (Cl c) (Some (push_deriv None DCCnfQuote (Some new) None)).

(** An inference on a stack: the code and its arguments.  [ARaw]: an element read as a number, [ARaw None] if it lies above the top of
    the stack. *)
Inductive arg := ANone | ANode (n : node) | ARaw (c : option cell).
Record frame := mkfr { op : N; arg1 : arg; arg2 : arg }.
(** the reading of one argument, e.g. ccl_derivation.c:982-998; [None]: a number is used as a pointer, or there is no element *)
Definition read_arg (cnf fof num : N) (op : N) (l : list cell) : option (arg * list cell) :=
  if has cnf op then match l with CPtr p :: l' => Some (ANode (Cl p), l') | _ => None end
  else if has fof op then match l with CPtr p :: l' => Some (ANode (Fm p), l') | _ => None end
  else if has num op then match l with c :: l' => Some (ARaw (Some c), l') | [] => Some (ARaw None, []) end
  else Some (ANone, l).
(** The traversal of a stack, common to DerivStackExtractParents, DerivStackExtractOptParents, the print functions (ccl_derivation.c:
    975-1020, 1064-1115, 1313-1327, 1436-1450).  [None]: undefined behaviour, a pointer is used as a code or as above. *)
Fixpoint decode (k : nat) (l : list cell) : option (list frame) :=
  match k, l with
  | _, [] => Some []
  | 0, _ => None
  | S k', CPtr _ :: _ => None
  | S k', CInt o :: l1 =>
      match read_arg Arg1Cnf Arg1Fof Arg1Num o l1 with
      | None => None
      | Some (a1, l2) =>
          match read_arg Arg2Cnf Arg2Fof Arg2Num o l2 with
          | None => None
          | Some (a2, l3) => match decode k' l3 with Some fs => Some (mkfr o a1 a2 :: fs) | None => None end
          end
      end
  end.
Definition frames (l : list cell) : option (list frame) := decode (length l) l.
Definition encode_arg (a : arg) : list cell := match a with ANone => [] | ANode n => [CPtr (ptr n)] | ARaw (Some c) => [c] | ARaw None => [] end.
Definition encode (fs : list frame) : list cell := flat_map (fun f => CInt (op f) :: encode_arg (arg1 f) ++ encode_arg (arg2 f)) fs.

(** the first [numarg1] elements of sig->ac_axioms for DCACRes, 1013-1019; [None]: the number is not one, or too large *)
Definition ac_parents (ac : list nat) (f : frame) : option (list node) :=
  if N.eqb (op f) DCACRes then
    match arg1 f with
    | ARaw (Some (CInt k)) => if Nat.leb (N.to_nat k) (length ac) then Some (map Cl (firstn (N.to_nat k) ac)) else None
    | _ => None
    end
  else Some [].
Definition arg_node (a : arg) : list node := match a with ANode n => [n] | _ => [] end.
Definition is_cl (n : node) : bool := match n with Cl _ => true | Fm _ => false end.
(** all premises of a stack, in the order in which they are found *)
Fixpoint premises (ac : list nat) (fs : list frame) : option (list node) :=
  match fs with
  | [] => Some []
  | f :: fs' =>
      match ac_parents ac f, premises ac fs' with
      | Some l, Some m => Some (arg_node (arg1 f) ++ arg_node (arg2 f) ++ l ++ m)
      | _, _ => None
      end
  end.
(** DerivStackExtractParents, ccl_derivation.c:961-1022, as its callers see it: the stack of clauses is popped, then the one of formulas *)
Definition popped (l : list node) : list node := rev (filter is_cl l) ++ rev (filter (fun n => negb (is_cl n)) l).
Definition parents (ac : list nat) (H : heap) (n : node) : option (list node) :=
  match H n with
  | None => Some []
  | Some l => match frames l with
              | Some fs => match premises ac fs with Some ps => Some (popped ps) | None => None end
              | None => None
              end
  end.

(** ClauseIsDummyQuote, ClauseDerivFindFirst, WFormulaDerivFindFirst, ccl_derivation.c:842-853, 899-909, 929-944 *)
Definition quoted (H : heap) (n : node) : option node :=
  match n, H n with
  | Cl _, Some [CInt o; CPtr p] => if N.eqb o DCCnfQuote then Some (Cl p) else None
  | Fm _, Some [CInt o; CPtr p] => if N.eqb o DCFofQuote then Some (Fm p) else None
  | _, _ => None
  end.
Fixpoint find_first (k : nat) (H : heap) (n : node) : option node :=
  match quoted H n with
  | None => Some n
  | Some m => match k with 0 => None | S k' => find_first k' H m end
  end.
Definition first_arg (k : nat) (H : heap) (a : arg) : option arg :=
  match a with ANode n => match find_first k H n with Some m => Some (ANode m) | None => None end | _ => Some a end.
Fixpoint first_frames (k : nat) (H : heap) (fs : list frame) : option (list frame) :=
  match fs with
  | [] => Some []
  | f :: fs' =>
      match first_arg k H (arg1 f), first_arg k H (arg2 f), first_frames k H fs' with
      | Some a1, Some a2, Some r => Some (mkfr (op f) a1 a2 :: r)
      | _, _, _ => None
      end
  end.
(** DerivStackExtractOptParents, ccl_derivation.c:1046-1125: the premises are replaced by their first occurrences *)
Definition opt_parents (k : nat) (ac : list nat) (H : heap) (n : node) : option (heap * list node) :=
  match H n with
  | None => Some (H, [])
  | Some l =>
      match frames l with
      | None => None
      | Some fs =>
          match first_frames k H fs with
          | None => None
          | Some fs' => match premises ac fs' with
                        | Some ps => Some (set_stack H n (Some (encode fs')), popped ps)
                        | None => None
                        end
          end
      end
  end.

(** ** Extraction *)
Definition upd {A} (f : node -> A) (n : node) (a : A) : node -> A := fun m => if node_eqb m n then a else f m.
(** the treatment of one premise, ccl_derivation.c:2134-2144, 2147-2157: counts, freshness, stack *)
Definition visit (s : (node -> Z) * (node -> bool) * list node) (p : node) : (node -> Z) * (node -> bool) * list node :=
  let '(rc, fr, st) := s in
  (upd rc p (rc p + 1)%Z, upd fr p false, if fr p then p :: st else st).
(** DerivationExtract, ccl_derivation.c:2097-2169, the main loop *)
Fixpoint extract (k : nat) (ac : list nat) (H : heap) (rc : node -> Z) (fr : node -> bool) (st : list node)
  : option (heap * (node -> Z)) :=
  match st with
  | [] => Some (H, rc)
  | n :: st' =>
      match k with
      | 0 => None
      | S k' =>
          match opt_parents k ac H n with
          | None => None
          | Some (H1, ps) => let '(rc1, fr1, st1) := fold_left visit ps (rc, fr, st') in extract k' ac H1 rc1 fr1 st1
          end
      end
  end.

(** ** Marking *)
(** What is known of clauses and formulas: the clause is empty, the clause or formula is a conjecture (ClauseIsConjecture, FormulaIsConjecture),
    the name of a formula in the input *)
Record attrs := mkat { is_empty : nat -> bool; conj : node -> bool; input_name : nat -> option string }.
(** DerivedInProof, ccl_derivation.c:621-636; [mk]: the nodes with CPIsProofClause *)
Definition in_proof (A : attrs) (mk : list node) (n : node) : bool :=
  match n with Cl p => is_empty A p | Fm _ => false end || existsb (node_eqb n) mk.
(** ccl_derivation.c:2222-2247 *)
Definition mark_visit (A : attrs) (s : list node * list node * bool) (p : node) : list node * list node * bool :=
  let '(mk, st, hc) := s in
  let hc' := hc || conj A p in
  if in_proof A mk p then (mk, st, hc') else (p :: mk, p :: st, hc').
(** DerivationMarkProofSteps, ccl_derivation.c:2181-2256, the main loop; the result: has_conjecture *)
Fixpoint mark (k : nat) (ac : list nat) (A : attrs) (H : heap) (mk : list node) (st : list node) (hc : bool) : option (heap * bool) :=
  match st with
  | [] => Some (H, hc)
  | n :: st' =>
      match k with
      | 0 => None
      | S k' =>
          if in_proof A mk n then
            match opt_parents k ac H n with
            | None => None
            | Some (H1, ps) => let '(mk1, st1, hc1) := fold_left (mark_visit A) ps (mk, st', hc) in mark k' ac A H1 mk1 st1 hc1
            end
          else mark k' ac A H mk st' hc
      end
  end.

(** ** Topological sort *)
(** ccl_derivation.c:2315-2345: counts, queue (front first), axioms (top first) *)
Definition release (H : heap) (s : (node -> Z) * list node * list node) (p : node) : (node -> Z) * list node * list node :=
  let '(rc, q, ax) := s in
  let rc' := upd rc p (rc p - 1)%Z in
  if Z.eqb (rc' p) 0 then match H p with Some _ => (rc', q ++ [p], ax) | None => (rc', q, p :: ax) end else (rc', q, ax).
(** DerivationTopoSort, ccl_derivation.c:2273-2360, the main loop; [ord]: ordered_deriv, top first.  The axioms are pushed at the end,
    so that they are on top. *)
Fixpoint topo (k : nat) (ac : list nat) (H : heap) (rc : node -> Z) (q ax ord : list node) : option (list node) :=
  match q with
  | [] => Some (ax ++ ord)
  | n :: q' =>
      match k with
      | 0 => None
      | S k' =>
          match parents ac H n with
          | None => None
          | Some ps => let '(rc1, q1, ax1) := fold_left (release H) ps (rc, q', ax) in topo k' ac H rc1 q1 ax1 (n :: ord)
          end
      end
  end.

(** ** Names *)
(** strtol with base 10, without overflow: blanks, sign, digits; what is not read *)
Definition is_blank (c : ascii) : bool := let n := nat_of_ascii c in Nat.eqb n 32 || (Nat.leb 9 n && Nat.leb n 13).
Definition digit (c : ascii) : option Z := let n := nat_of_ascii c in if Nat.leb 48 n && Nat.leb n 57 then Some (Z.of_nat (n - 48)) else None.
Fixpoint read_num (acc : Z) (s : string) : Z * string :=
  match s with
  | String c s' => match digit c with Some d => read_num (10 * acc + d)%Z s' | None => (acc, s) end
  | EmptyString => (acc, s)
  end.
Fixpoint skip_blanks (s : string) : string := match s with String c s' => if is_blank c then skip_blanks s' else s | EmptyString => s end.
Definition starts_digit (s : string) : bool := match s with String c _ => match digit c with Some _ => true | None => false end | _ => false end.
Definition strtol (s : string) : Z * string :=
  let t := skip_blanks s in
  let '(neg, u) := match t with String "-" u => (true, u) | String "+" u => (false, u) | _ => (false, t) end in
  if starts_digit u then let '(v, r) := read_num 0 u in (if neg then (- v)%Z else v, r) else (0%Z, s).
(** ClauseInfoGetIdCounter, ccl_clauseinfo.c:242-276 *)
Definition id_counter (name : option string) : Z :=
  match name with
  | Some (String c0 (String "_" (String d r))) =>
      if (Ascii.eqb c0 "i" || Ascii.eqb c0 "c") then
        match digit d with
        | None => (-1)%Z
        | Some _ =>
            match snd (strtol r) with
            | String "_" r2 => let '(v, r3) := strtol r2 in match r3 with EmptyString => v | _ => (-1)%Z end
            | _ => (-1)%Z
            end
        end
      else (-1)%Z
  | _ => (-1)%Z
  end.
(** derivation_find_max_id, ccl_derivation.c:576-598 *)
Definition max_id (A : attrs) (l : list node) : Z :=
  fold_left (fun m n => match n with Fm p => Z.max m (id_counter (input_name A p)) | Cl _ => m end) l (-1)%Z.
(** DerivationRenumber, ccl_derivation.c:2372-2395; the list is in the order of printing *)
Fixpoint number (i : Z) (l : list node) : list (node * Z) := match l with [] => [] | n :: l' => (n, i) :: number (i + 1) l' end.
Definition renumber (A : attrs) (l : list node) : list (node * Z) := number (max_id A l + 1) l.
(** the numbers after renumbering: a node that occurs twice gets a new number each time, and the last one stays *)
Definition ident (ids : list (node * Z)) (n : node) : Z :=
  fold_left (fun r p => if node_eqb (fst p) n then snd p else r) ids (-1)%Z.
(** the name of a step in TSTP output: tstp_get_clauseform_id, WFormulaGetId, ClauseTSTPPrint, ccl_derivation.c:512-560,
    ccl_formula_wrapper.c:277-301, ccl_clauses.c:1513-1519 (CSSCPA source 0, numbers are not negative);
    [keep]: FormulasKeepInputNames *)
Definition c_name (i : Z) : string := ("c_0_" ++ print_Z i)%string.
Definition step_name (keep : bool) (A : attrs) (ids : list (node * Z)) (n : node) : string :=
  match n with
  | Cl _ => c_name (ident ids n)
  | Fm p => match keep, input_name A p with true, Some s => s | _, _ => c_name (ident ids n) end
  end.

(** the premises whose names are printed: DerivationStackPCLPrint, DerivationStackTSTPPrint, ccl_derivation.c:1294-1400, 1418-1540;
    [pend]: arg_stack, top first *)
Fixpoint refs (ac : list nat) (fs : list frame) (pend : list node) : option (list node) :=
  match fs with
  | [] => Some []
  | f :: fs' =>
      if N.eqb (op f) DCCnfAddArg then refs ac fs' pend else
      match ac_parents ac f, refs ac fs' [] with
      | Some l, Some m =>
          Some ((if has Arg1Cnf (op f) || has Arg1Fof (op f) then
                   arg_node (arg1 f) ++ (if has Arg2Cnf (op f) || has Arg2Fof (op f) then arg_node (arg2 f) else [])
                 else []) ++ pend ++ l ++ m)
      | _, _ => None
      end
  end.
Definition add_args (fs : list frame) : list node := flat_map (fun f => if N.eqb (op f) DCCnfAddArg then arg_node (arg1 f) else []) fs.
Definition printed_refs (ac : list nat) (H : heap) (n : node) : option (list node) :=
  match H n with
  | None => Some []
  | Some l => match frames l with Some fs => refs ac fs (add_args fs) | None => None end
  end.

(** ** DerivationCompute, ccl_derivation.c:2412-2436 *)
Fixpoint first_roots (k : nat) (H : heap) (roots : list nat) : option (list node) :=
  match roots with
  | [] => Some []
  | r :: roots' => match find_first k H (Cl r), first_roots k H roots' with Some n, Some l => Some (n :: l) | _, _ => None end
  end.
Record object := mkob { final : heap; steps : list node; idents : list (node * Z); has_conjecture : bool }.
(** [steps]: in the order of printing, DerivationPrint, ccl_derivation.c:2535-2558 *)
Definition compute (k : nat) (ac : list nat) (A : attrs) (H : heap) (roots : list nat) : option object :=
  match first_roots k H roots with
  | None => None
  | Some rs =>
      (* 2118-2123: the roots are not fresh, the empty clauses among them are marked *)
      let mk := filter (in_proof A []) rs in
      match extract k ac H (fun _ => 0%Z) (fun n => negb (existsb (node_eqb n) rs)) (rev rs) with
      | None => None
      | Some (H1, rc) =>
          match mark k ac A H1 mk (rev rs) false with
          | None => None
          | Some (H2, hc) =>
              match topo k ac H2 rc (filter (fun n => Z.eqb (rc n) 0) rs) [] [] with
              | None => None
              | Some l => Some (mkob H2 l (renumber A l) hc)
              end
          end
      end
  end.

(** ** Histories *)
(** a node is used as a premise, or listed as an AC axiom *)
Definition used (ac : list nat) (H : heap) (n : node) : Prop :=
  (exists m ps, parents ac H m = Some ps /\ In n ps) \/ exists p, n = Cl p /\ In p ac.
(** the number and kind of arguments is the one the code demands *)
Definition arg_ok (cnf fof op : N) (a : option nat) : bool :=
  match a with Some _ => has cnf op || has fof op | None => negb (has cnf op || has fof op) end.
Definition node_of (cnf op : N) (p : nat) : node := if has cnf op then Cl p else Fm p.
(** What happens to derivations during the proof search.  Clauses and formulas exist from the beginning, with no derivation and
    not used.  Inferences with premises are recorded only for clauses that are not used as premises themselves: clauses that are used are
    archived first (ClauseMoveSimplified, cco_simplification.c:60-77).  DCIntroDef is pushed without its argument and nothing
    is pushed on top of it. *)
Inductive event : list nat * heap -> list nat * heap -> Prop :=
| e_push ac H n o a1 a2 :
    In o codes -> arg_ok Arg1Cnf Arg1Fof o a1 = true -> arg_ok Arg2Cnf Arg2Fof o a2 = true ->
    H n <> Some [CInt DCIntroDef] -> (o = DCCnfAddArg -> H n <> None) ->
    (a1 <> None -> ~ used ac H n /\ (forall p, a1 = Some p -> node_of Arg1Cnf o p <> n) /\ (forall p, a2 = Some p -> node_of Arg2Cnf o p <> n)) ->
    event (ac, H) (ac, set_stack H n (Some (push_deriv (H n) o a1 a2)))
| e_define ac H n : H n = None -> event (ac, H) (ac, set_stack H n (Some (push_deriv None DCIntroDef None None)))
| e_acres ac H c : H (Cl c) <> Some [CInt DCIntroDef] -> ~ used ac H (Cl c) -> event (ac, H) (ac, set_stack H (Cl c) (Some (push_acres (H (Cl c)) ac)))
| e_axiom ac H c : event (ac, H) (ac ++ [c], H)
| e_archive ac H c new : H (Cl new) = None -> ~ used ac H (Cl new) -> c <> new -> event (ac, H) (ac, archive H c new)
| e_archive_copy ac H c new : H (Cl new) = None -> ~ used ac H (Cl new) -> c <> new -> event (ac, H) (ac, archive_copy H c new).
Inductive history : list nat * heap -> Prop :=
| h_start : history ([], fun _ => None)
| h_step s t : history s -> event s t -> history t.

(** ** Specification *)
(** the premises named in the derivation of a step, and the origin of a step that is only quoted *)
Definition premise_of (ac : list nat) (H : heap) (n p : node) : Prop := exists l fs, H n = Some l /\ frames l = Some fs /\
  exists f, In f fs /\ (In p (arg_node (arg1 f)) \/ In p (arg_node (arg2 f))).
Definition ac_premise_of (ac : list nat) (H : heap) (n p : node) : Prop := exists l fs, H n = Some l /\ frames l = Some fs /\
  exists f ps, In f fs /\ ac_parents ac f = Some ps /\ In p ps.
Inductive origin (H : heap) : node -> node -> Prop :=
| o_here n : quoted H n = None -> origin H n n
| o_quote n m o : quoted H n = Some m -> origin H m o -> origin H n o.
(** the premise that is shown for a step: AC axioms are taken as they are *)
Definition shown (ac : list nat) (H : heap) (n p : node) : Prop :=
  (exists q, premise_of ac H n q /\ origin H q p) \/ ac_premise_of ac H n p.
(** the steps a proof of [roots] needs *)
Inductive needed (ac : list nat) (H : heap) (roots : list nat) : node -> Prop :=
| n_root r o : In r roots -> origin H (Cl r) o -> needed ac H roots o
| n_premise n p : needed ac H roots n -> shown ac H n p -> needed ac H roots p.
(** [p] is used, directly or not, in the derivation of [n] *)
Inductive depends (ac : list nat) (H : heap) : node -> node -> Prop :=
| d_one n p : shown ac H n p -> depends ac H n p
| d_more n m p : depends ac H n m -> shown ac H m p -> depends ac H n p.
(** stacks are sequences of inferences with their arguments; no derivation rests on itself *)
Definition stack_ok (ac : list nat) (l : list cell) : Prop :=
  exists fs, frames l = Some fs /\ fs <> [] /\ premises ac fs <> None /\
    (forall f, hd_error fs = Some f -> op f <> DCCnfAddArg) /\
    Forall (fun f => (has Arg1Num (op f) = true \/ In (op f) codes) /\ has Arg2Num (op f) = false /\
                     (has Arg1Num (op f) = true -> has Arg2Cnf (op f) = false /\ has Arg2Fof (op f) = false)) fs.
Definition heap_ok (ac : list nat) (H : heap) : Prop :=
  (forall n l, H n = Some l -> stack_ok ac l) /\
  exists rank : node -> nat, forall n ps p, parents ac H n = Some ps -> In p ps -> rank p < rank n.
(** the roots of a proof object, after following quotations *)
Definition distinct_roots (H : heap) (roots : list nat) : Prop := exists os, Forall2 (fun r o => origin H (Cl r) o) roots os /\ NoDup os.
