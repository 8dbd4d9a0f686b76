(** * Feature vectors of clauses (CLAUSES/ccl_freqvectors.c) and the feature vector index (CLAUSES/ccl_fcvindexing.c) with
    the searches in it (CLAUSES/ccl_subsumption.c).  [long] values are integers. *)
From Verif Require Export Terms Unify Semantics Clauses Subsume SubsumeSpec.
From Verif Require Import FPIndex.
Open Scope Z_scope.

(** ** Features of clauses *)
(** FVIndexType, ccl_freqvectors.h:59-70 *)
Inductive ftype := NoFeatures | ACFeatures | SSFeatures | AllFeatures | BillFeatures | BillPlusFeatures | ACFold | ACStagger | CollectFeatures.
(** one of the triples ..._base, ..._offset, ..._mod of FVCollectCell *)
Record window := { wbase : nat; woff : nat; wmod : nat }.
(** FVCollectCell, ccl_freqvectors.h:76-124; -1 in the assembly vector is [None] *)
Record cspec := { features : ftype; use_litcount : bool; ass : list (option nat); reslen : nat;
                  pcount : window; ncount : window; pdepth : window; ndepth : window; maxsym : nat }.

(** arrays of features, indexed by function codes. The bound (all codes are at most sig->f_count) is not modelled. *)
Notation farr := (nat -> Z).
Definition fupd (a : farr) (i : nat) (v : Z) : farr := fun j => if Nat.eqb j i then v else a j.

(** TermAddSymbolFeaturesLimited, TERMS/cte_termfunc.c:2530-2555 (no phony applications in first-order terms) *)
Fixpoint term_features_limited (limit : nat) (t : term) (depth : Z) (fd : farr * farr) : farr * farr :=
  match t with
  | Var _ => fd
  | Fun f args =>
      let i := if Nat.ltb f limit then f else O in
      let fd1 := (fupd (fst fd) i (fst fd i + 1), fupd (snd fd) i (Z.max depth (snd fd i))) in
      (fix go (l : list term) (acc : farr * farr) : farr * farr :=
         match l with [] => acc | a :: r => go r (term_features_limited limit a (depth + 1) acc) end) args fd1
  end.
(** EqnAddSymbolFeaturesLimited, ccl_eqn.h:409-413 *)
Definition eqn_features_limited (limit : nat) (e : eqn) (fd : farr * farr) : farr * farr :=
  term_features_limited limit (rt e) 0 (term_features_limited limit (lt e) 0 fd).
(** the loop 406-422 of VarFreqVectorAddVals over the literals, for the literals of one sign *)
Fixpoint lits_features_limited (sign : bool) (limit : nat) (c : clause) (fd : farr * farr) : farr * farr :=
  match c with
  | [] => fd
  | e :: r => lits_features_limited sign limit r (if Bool.eqb (pos e) sign then eqn_features_limited limit e fd else fd)
  end.
Definition no_features : farr * farr := (fun _ => 0, fun _ => 0).
Definition segment (symbols : nat) (a : farr) : list Z := map a (seq 0 (S symbols)).
(** VarFreqVectorAddVals, ccl_freqvectors.c:350-427, on a zero vector. The segments of the vector are separate arrays here; those of
    the features that are not used (the array 'unused') are dropped. [None]: other feature types *)
Definition var_freq_vector (symbols : nat) (f : ftype) (c : clause) : option (list Z) :=
  let n := lits_features_limited false symbols c no_features in
  let p := lits_features_limited true symbols c no_features in
  let lits := [Z.of_nat (pos_no c); Z.of_nat (neg_no c)] in
  match f with
  | ACFeatures => Some (lits ++ segment symbols (fst n) ++ segment symbols (fst p))
  | SSFeatures => Some (segment symbols (snd n) ++ segment symbols (snd p))
  | AllFeatures => Some (lits ++ segment symbols (fst n) ++ segment symbols (fst p) ++ segment symbols (snd p) ++ segment symbols (snd n))
  | _ => None
  end.

(** TermAddSymbolFeatures, cte_termfunc.c:2577-2601: the array and mod_stack (top first) *)
Fixpoint term_features (t : term) (depth : Z) (offset : nat) (am : farr * list nat) : farr * list nat :=
  match t with
  | Var _ => am
  | Fun f args =>
      let i := (4 * f + offset)%nat in
      let a := fst am in
      let m := if a i =? 0 then i :: snd am else snd am in
      let a1 := fupd a i (a i + 1) in
      let a2 := fupd a1 (S i) (Z.max depth (a1 (S i))) in
      (fix go (l : list term) (acc : farr * list nat) : farr * list nat :=
         match l with [] => acc | x :: r => go r (term_features x (depth + 1) offset acc) end) args (a2, m)
  end.
(** EqnAddSymbolFeatures, ccl_eqn.c:3355-3361 *)
Definition eqn_features (e : eqn) (am : farr * list nat) : farr * list nat :=
  let offset := if pos e then 0%nat else 2%nat in
  term_features (rt e) 0 offset (term_features (lt e) 0 offset am).
(** EqnListAddSymbolFeatures, ccl_eqnlist.c:1766-1775 *)
Fixpoint lits_features (c : clause) (am : farr * list nat) : farr * list nat :=
  match c with [] => am | e :: r => lits_features r (eqn_features e am) end.

(** array[i] += v; [None]: write out of bounds *)
Fixpoint vadd (vec : list Z) (i : nat) (v : Z) : option (list Z) :=
  match vec, i with
  | [], _ => None
  | x :: r, O => Some (x + v :: r)
  | x :: r, S j => match vadd r j v with Some r' => Some (x :: r') | None => None end
  end.
(** 106-142 of gather_feature_vec: resindex *)
Definition resindex (cs : cspec) (findex : nat) : option nat :=
  if Nat.ltb findex (length (ass cs)) then nth findex (ass cs) None
  else
    let w := match Nat.modulo findex 4 with O => pcount cs | 1%nat => pdepth cs | 2%nat => ncount cs | _ => ndepth cs end in
    if Nat.eqb (wmod w) 0 then None else Some (wbase w + Nat.modulo (woff w + Nat.div findex 4) (wmod w))%nat.
(** gather_feature_vec, ccl_freqvectors.c:101-147 *)
Definition gather (cs : cspec) (full : farr) (vec : list Z) (findex : nat) : option (list Z) :=
  match resindex cs findex with None => Some vec | Some r => vadd vec r (full findex) end.
(** the loop 692-699 of FVCollectFreqVectorCompute *)
Fixpoint gather_all (cs : cspec) (stack : list nat) (full : farr) (vec : list Z) : option (list Z * farr) :=
  match stack with
  | [] => Some (vec, full)
  | i :: r => match gather cs full vec i with
              | None => None
              | Some v1 =>
                  let full1 := fupd full i 0 in
                  match gather cs full1 v1 (S i) with
                  | None => None
                  | Some v2 => gather_all cs r (fupd full1 (S i) 0) v2
                  end
              end
  end.
(** FVCollectFreqVectorCompute, 667-704. The static array full_vec is passed in and out (RegMemProvide fills new parts with zeros). *)
Definition collect_vector (cs : cspec) (full : farr) (c : clause) : option (list Z * farr) :=
  match c with
  | [] => Some (repeat 0 (reslen cs), full)
  | _ =>
      let zero := repeat 0 (reslen cs) in
      let start := if use_litcount cs
                   then match zero with _ :: _ :: r => Some (Z.of_nat (pos_no c) :: Z.of_nat (neg_no c) :: r) | _ => None end
                   else Some zero in
      match start with
      | None => None
      | Some v => let (a, m) := lits_features c (full, []) in gather_all cs m a v
      end
  end.
(** VarFreqVectorCompute, 443-470 *)
Definition freq_vector (cs : cspec) (full : farr) (c : clause) : option (list Z * farr) :=
  match features cs with
  | CollectFeatures => collect_vector cs full c
  | f => match var_freq_vector (maxsym cs) f c with Some v => Some (v, full) | None => None end
  end.
(** FVSize and 2172-2179 of PermVectorCompute *)
Definition vec_len (cs : cspec) : nat :=
  match features cs with
  | CollectFeatures => reslen cs
  | ACFeatures => (maxsym cs + 1) * 2 + 2
  | SSFeatures => (maxsym cs + 1) * 2
  | _ => (maxsym cs + 1) * 4 + 2
  end%nat.
(** the loop 509-514 of OptimizedVarFreqVectorCompute; [None]: read out of bounds *)
Fixpoint permute (perm : list nat) (v : list Z) : option (list Z) :=
  match perm with
  | [] => Some []
  | i :: r => match nth_error v i, permute r v with Some x, Some y => Some (x :: y) | _, _ => None end
  end.
(** OptimizedVarFreqVectorCompute, 487-522 *)
Definition opt_vector (cs : cspec) (perm : option (list nat)) (full : farr) (c : clause) : option (list Z * farr) :=
  match freq_vector cs full c with
  | None => None
  | Some (v, full') => match perm with
                       | None => Some (v, full')
                       | Some p => match permute p v with Some w => Some (w, full') | None => None end
                       end
  end.

(** ** Permutation vectors *)
(** FreqVectorAdd, FreqVectorMax, FreqVectorMin, 973-985, 1030-1069 *)
Fixpoint vmap2 (f : Z -> Z -> Z) (a b : list Z) : list Z :=
  match a, b with x :: a', y :: b' => f x y :: vmap2 f a' b' | _, _ => [] end.
(** ClauseSetFindCharFreqVectors, ccl_clausesets.c:2117-2143: sums, maxima, minima *)
Fixpoint char_vectors (cs : cspec) (full : farr) (set : list clause) (acc : list Z * list Z * list Z) : option ((list Z * list Z * list Z) * farr) :=
  match set with
  | [] => Some (acc, full)
  | c :: r => match freq_vector cs full c with
              | None => None
              | Some (v, full') =>
                  let '(s, mx, mn) := acc in
                  char_vectors cs full' r (vmap2 Z.add s v, vmap2 Z.max mx v, vmap2 Z.min mn v)
              end
  end.
(** Tuple3Cell: pos, diff, value *)
Definition tuple3 := (nat * Z * Z)%type.
(** tuple3_compare_23lex, 55-85: is t1 before t2 *)
Definition tuple3_before (t1 t2 : tuple3) : bool :=
  let '(p1, d1, v1) := t1 in let '(p2, d2, v2) := t2 in
  if d1 <? d2 then true else if d2 <? d1 then false
  else if v1 <? v2 then true else if v2 <? v1 then false
  else Nat.ltb p2 p1.
(** qsort: the order is total, so its result is that of insertion *)
Fixpoint tuple3_insert (x : tuple3) (l : list tuple3) : list tuple3 :=
  match l with [] => [x] | y :: r => if tuple3_before y x then y :: tuple3_insert x r else x :: l end.
Definition tuple3_sort (l : list tuple3) : list tuple3 := fold_right tuple3_insert [] l.
Fixpoint tuples (i : nat) (mx mn s : list Z) : list tuple3 :=
  match mx, mn, s with a :: mx', b :: mn', v :: s' => (i, a - b, v) :: tuples (S i) mx' mn' s' | _, _, _ => [] end.
(** the loop 199-202: entries without information at the beginning *)
Fixpoint uninformative (l : list tuple3) : nat :=
  match l with [] => O | (_, d, _) :: r => if d =? 0 then S (uninformative r) else O end.
(** PermVectorComputeInternal, 171-221. ([size] - 1 is 0 for an empty vector; there the code goes wrong, but vectors are not empty.) *)
Definition perm_internal (mx mn s : list Z) (max_len : nat) (eliminate : bool) : list nat :=
  let size := length s in
  let array := tuple3_sort (tuples 0 mx mn s) in
  let start := (size - max_len)%nat in
  let start1 := if eliminate then uninformative array else O in
  let st := Nat.max start start1 in
  let st := if Nat.eqb st size then (st - 1)%nat else st in
  map (fun t => fst (fst t)) (skipn st array).
Definition LONG_MAX := 2 ^ 63 - 1.
(** PermVectorCompute, ccl_clausesets.c:2160-2198; the outer [None]: undefined, the inner one: NULL *)
Definition perm_compute (cs : cspec) (full : farr) (axioms : list clause) (eliminate : bool) : option (option (list nat)) :=
  match features cs with
  | NoFeatures => Some None
  | _ =>
      let n := vec_len cs in
      match char_vectors cs full axioms (repeat 0 n, repeat 0 n, repeat LONG_MAX n) with
      | None => None
      | Some ((s, mx, mn), _) => Some (Some (perm_internal mx mn s (maxsym cs) eliminate))
      end
  end.

(** ** Choice of the features *)
Definition w0 : window := {| wbase := 0; woff := 0; wmod := 0 |}.
Definition wnd b o m : window := {| wbase := b; woff := o; wmod := m |}.
(** What BillFeaturesCollectAlloc reads of the signature *)
Record signat := { internal_symbols : nat; f_count : nat; special : nat -> bool; predicate : nat -> bool; function : nat -> bool }.
Definition symbols_from (sg : signat) : list nat := seq (S (internal_symbols sg)) (f_count sg - internal_symbols sg).
(** SigCountSymbols, TERMS/cte_signature.c:1276-1296 *)
Definition count_symbols (sg : signat) (sel : nat -> bool) : nat :=
  length (filter (fun i => negb (special sg i) && sel i) (symbols_from sg)).
(** the loops 739-749 and 825-835: reduce the numbers until base+2*p+4*f <= len; they do not return if they never reach that *)
Fixpoint reduce (fuel base len p f : nat) : option (nat * nat) :=
  if Nat.leb (base + 2 * p + 4 * f) len then Some (p, f)
  else match fuel with
       | O => None
       | S n => if Nat.ltb f p then reduce n base len (p - 1) f else match f with O => None | S g => reduce n base len p g end
       end.
Fixpoint set_nth {A} (l : list A) (i : nat) (x : A) : list A :=
  match l, i with [], _ => [] | _ :: r, O => x :: r | y :: r, S j => y :: set_nth r j x end.
(** assembly_vector[4*i+j] = pos+j for j < slots *)
Fixpoint set_slots (slots : nat) (l : list (option nat)) (i pos : nat) : list (option nat) :=
  match slots with O => l | S n => set_nth (set_slots n l i pos) (4 * i + n) (Some (pos + n)%nat) end.
(** the loops 760-771 and 773-788: [n] more symbols to be entered; [None]: they run beyond the signature *)
Fixpoint fill (sg : signat) (sel : nat -> bool) (slots : nat) (syms : list nat) (n pos : nat) (l : list (option nat)) : option (nat * list (option nat)) :=
  match n with
  | O => Some (pos, l)
  | S m => match syms with
           | [] => None
           | i :: r => if negb (special sg i) && sel i then fill sg sel slots r m (pos + slots) (set_slots slots l i pos) else fill sg sel slots r n pos l
           end
  end.
(** BillFeaturesCollectAlloc, 730-790 ([plus] = false) and BillPlusFeaturesCollectAlloc, 816-876 *)
Definition bill_spec (sg : signat) (plus : bool) (len : nat) : option cspec :=
  let p0 := count_symbols sg (predicate sg) in
  let f0 := count_symbols sg (function sg) in
  match reduce (p0 + f0) (if plus then 6 else 2) len p0 f0 with
  | None => None
  | Some (p, f) =>
      match fill sg (predicate sg) 2 (symbols_from sg) p 2 (repeat None ((f_count sg + 1) * 4 + 2)) with
      | None => None
      | Some (pos1, l1) =>
          match fill sg (function sg) 4 (symbols_from sg) f pos1 l1 with
          | None => None
          | Some (_, l2) =>
              Some {| features := CollectFeatures; use_litcount := true; ass := l2; reslen := len;
                      pcount := if plus then wnd (len - 4) 0 1 else w0; ncount := if plus then wnd (len - 3) 0 1 else w0;
                      pdepth := if plus then wnd (len - 2) 0 1 else w0; ndepth := if plus then wnd (len - 1) 0 1 else w0;
                      maxsym := 17 |}
          end
      end
  end%nat.
Definition with_maxsym (cs : cspec) (n : nat) : cspec :=
  {| features := features cs; use_litcount := use_litcount cs; ass := ass cs; reslen := reslen cs;
     pcount := pcount cs; ncount := ncount cs; pdepth := pdepth cs; ndepth := ndepth cs; maxsym := n |}.
(** 1347-1358 and 1427-1438 of fvi_param_init *)
Definition fold_spec (symbols : nat) : cspec :=
  {| features := CollectFeatures; use_litcount := true; ass := []; reslen := symbols * 2 + 2;
     pcount := wnd 2 0 symbols; ncount := wnd (symbols + 2) 0 symbols; pdepth := w0; ndepth := w0; maxsym := symbols |}.
(** fvi_param_init, CONTROL/cco_proofproc.c:1322-1405: the description of the features. The case FVICollectFeatures cannot be chosen
    by a user (PROVER/eprover.c:1883-1922) and is left out. *)
Definition init_spec (f : ftype) (sg : signat) (slack max_symbols : nat) : option cspec :=
  let symbols := Nat.min (f_count sg + slack) max_symbols in
  let r := match f with
           | BillFeatures => bill_spec sg false (symbols * 2 + 2)
           | BillPlusFeatures => bill_spec sg true (symbols * 2 + 4)
           | ACFold => Some (fold_spec symbols)
           | ACStagger => Some {| features := CollectFeatures; use_litcount := true; ass := []; reslen := symbols * 2 + 2;
                                  pcount := wnd 2 0 (2 * symbols); ncount := wnd 2 (2 + symbols) (2 * symbols); pdepth := w0; ndepth := w0; maxsym := symbols |}
           | CollectFeatures => None
           | _ => Some {| features := f; use_litcount := false; ass := []; reslen := 0; pcount := w0; ncount := w0; pdepth := w0; ndepth := w0; maxsym := symbols |}
           end%nat in
  match r with Some cs => Some (with_maxsym cs symbols) | None => None end.
(** cspec and permutation vector of the indices of the processed clauses and the watchlist, 1404-1424 *)
Definition init_index (f : ftype) (sg : signat) (slack max_symbols : nat) (full : farr) (axioms : list clause) (eliminate : bool) : option (cspec * option (list nat)) :=
  match init_spec f sg slack max_symbols with
  | None => None
  | Some cs => match perm_compute cs full axioms eliminate with Some p => Some (cs, p) | None => None end
  end.
(** cspec and permutation vector of the index of the definition store, 1427-1440 *)
Definition init_defstore (f : ftype) (sg : signat) (slack max_symbols : nat) (full : farr) (axioms : list clause) (eliminate : bool) : option (cspec * option (list nat)) :=
  match init_index f sg slack max_symbols full axioms eliminate with
  | None => None
  | Some (_, p) => Some (fold_spec (Nat.min (f_count sg + slack) max_symbols), p)
  end.

(** ** The index *)
(** FVIndexCell, ccl_fcvindexing.h:50-63: clause_count and the union of successors (an IntMap, C29: here the pairs in the order of the
    keys) and clauses (a PTree, C26: here a list; [clauses] is used if final). A clause is given by its address. *)
Inductive fvnode := FVNode (count : Z) (b : fvbody)
with fvbody := BNull | BSucc (l : list (Z * fvnode)) | BClauses (l : list nat).
Definition fcount (x : fvnode) : Z := match x with FVNode c _ => c end.
Definition fbody (x : fvnode) : fvbody := match x with FVNode _ b => b end.
(** FVIndexAlloc, 250-260 *)
Definition fv_empty : fvnode := FVNode 0 BNull.

(** PTreeStore, PTreeDeleteEntry *)
Definition pstore (id : nat) (l : list nat) : list nat := if existsb (Nat.eqb id) l then l else id :: l.
Definition pdelete (id : nat) (l : list nat) : list nat := filter (fun x => negb (Nat.eqb x id)) l.

(** the tree part of FVIndexInsert, 413-431; [None]: the wrong member of the union is used *)
Fixpoint fv_insert (vec : list Z) (id : nat) (x : fvnode) {struct vec} : option fvnode :=
  match vec with
  | [] => match fbody x with
          | BNull => Some (FVNode (fcount x + 1) (BClauses [id]))
          | BClauses l => Some (FVNode (fcount x + 1) (BClauses (pstore id l)))
          | BSucc _ => None
          end
  | k :: r =>
      match fbody x with
      | BClauses _ => None
      | b =>
          let l := match b with BSucc l => l | _ => [] end in
          let next := match aget k l with Some y => y | None => fv_empty end in
          match fv_insert r id next with
          | Some y => Some (FVNode (fcount x + 1) (BSucc (aset k y l)))
          | None => None
          end
      end
  end.
(** the tree part of FVIndexDelete, 463-478 *)
Fixpoint fv_delete (vec : list Z) (id : nat) (x : fvnode) {struct vec} : option fvnode :=
  match vec with
  | [] => match fbody x with
          | BClauses l => Some (FVNode (fcount x - 1) (BClauses (pdelete id l)))
          | BNull => Some (FVNode (fcount x - 1) BNull)
          | BSucc _ => None
          end
  | k :: r =>
      match fbody x with
      | BClauses _ => None
      | BNull => Some (FVNode (fcount x - 1) BNull)
      | BSucc l => match aget k l with
                   | None => Some (FVNode (fcount x - 1) (BSucc l))
                   | Some y => match fv_delete r id y with
                               | Some y' => Some (FVNode (fcount x - 1) (BSucc (aset k y' l)))
                               | None => None
                               end
                   end
      end
  end.

(** An index with its parameters, the static array of FVCollectFreqVectorCompute and the clauses. *)
Record fvstate := { fvroot : fvnode; fvfull : farr; fvlits : nat -> clause }.
Inductive fvop := FInsert (id : nat) | FDelete (id : nat).
(** FVIndexInsert, 401-434 (the vector is computed by FVIndexPackClause, 549-555, in ClauseSetIndexedInsertClause; then the literals
    are sorted); FVIndexDelete, 452-481 *)
Definition fv_step (cs : cspec) (perm : option (list nat)) (st : fvstate) (o : fvop) : option fvstate :=
  match o with
  | FInsert id =>
      match opt_vector cs perm (fvfull st) (fvlits st id) with
      | None => None
      | Some (v, full) =>
          match fv_insert v id (fvroot st) with
          | None => None
          | Some x => Some {| fvroot := x; fvfull := full; fvlits := fun j => if Nat.eqb j id then sort_lits (fvlits st id) else fvlits st j |}
          end
      end
  | FDelete id =>
      match opt_vector cs perm (fvfull st) (fvlits st id) with
      | None => None
      | Some (v, full) => match fv_delete v id (fvroot st) with
                          | None => None
                          | Some x => Some {| fvroot := x; fvfull := full; fvlits := fvlits st |}
                          end
      end
  end.
Fixpoint fv_run (cs : cspec) (perm : option (list nat)) (st : fvstate) (os : list fvop) : option fvstate :=
  match os with [] => Some st | o :: r => match fv_step cs perm st o with Some st' => fv_run cs perm st' r | None => None end end.
(** FVIAnchorAlloc, 315-325 *)
Definition fv_start (lits : nat -> clause) : fvstate := {| fvroot := fv_empty; fvfull := fun _ => 0; fvlits := lits |}.

(** ** Searches *)
Section Search.
Variable E : env.
Variable n : nat.                        (* fuel for the matching loops *)
Variable lits : nat -> clause.

(** clause_tree_find_subsuming_clause, ccl_subsumption.c:734-758; the order in the tree is not specified *)
Fixpoint tree_subsuming (ids : list nat) (d : clause) : found nat :=
  match ids with
  | [] => NotFound
  | id :: r => match clause_subsumes E n (lits id) d with
               | Ans true => Found id | Ans false => tree_subsuming r d | NoFuel => FNoFuel | Undef => FUndef end
  end.
(** clause_tree_find_first_subsumed_clause, 857-882 *)
Fixpoint tree_first_subsumed (ids : list nat) (c : clause) : found nat :=
  match ids with
  | [] => NotFound
  | id :: r => match clause_subsumes E n c (lits id) with
               | Ans true => Found id | Ans false => tree_first_subsumed r c | NoFuel => FNoFuel | Undef => FUndef end
  end.
(** clause_tree_find_subsumed_clauses, 821-842: what is pushed, [Error]: see [answer] *)
Fixpoint tree_subsumed (ids : list nat) (c : clause) : found (list nat) :=
  match ids with
  | [] => Found []
  | id :: r => match clause_subsumes E n c (lits id) with
               | Ans b => match tree_subsumed r c with Found l => Found (if b then id :: l else l) | x => x end
               | NoFuel => FNoFuel | Undef => FUndef end
  end.
(** clause_tree_find_variant_clause, 1060-1083 *)
Fixpoint tree_variant (ids : list nat) (d : clause) : found nat :=
  match ids with
  | [] => NotFound
  | id :: r =>
      match clause_subsumes E n (lits id) d with
      | Ans true => match clause_subsumes E n d (lits id) with
                    | Ans true => Found id | Ans false => tree_variant r d | NoFuel => FNoFuel | Undef => FUndef end
      | Ans false => tree_variant r d
      | NoFuel => FNoFuel | Undef => FUndef
      end
  end.

(** u1.clauses *)
Definition leaf_clauses {A} (x : fvnode) (k : list nat -> found A) : found A :=
  match fbody x with BClauses l => k l | BNull => k [] | BSucc _ => FUndef end.
(** IntMapIterAlloc(map, lower, upper) with IntMapIterNext (C29): all pairs in this range *)
Definition in_range {A} (lower : Z) (upper : option Z) (l : list (Z * A)) : list (Z * A) :=
  filter (fun ky => (lower <=? fst ky) && match upper with Some u => fst ky <=? u | None => true end) l.
(** the loops 794-801 and 1030-1038 over the successors: skip empty nodes, stop when something is found *)
Fixpoint first_found {A} (f : fvnode -> found A) (l : list (Z * fvnode)) : found A :=
  match l with
  | [] => NotFound
  | (_, y) :: r => if fcount y =? 0 then first_found f r
                   else match f y with NotFound => first_found f r | x => x end
  end.
(** the loop 985-992 *)
Fixpoint all_found {A} (f : fvnode -> found (list A)) (l : list (Z * fvnode)) : found (list A) :=
  match l with
  | [] => Found []
  | (_, y) :: r => if fcount y =? 0 then all_found f r
                   else match f y with
                        | Found a => match all_found f r with Found b => Found (a ++ b) | x => x end
                        | x => x
                        end
  end.

(** clause_set_subsumes_clause_indexed, 774-806 *)
Fixpoint subsuming_indexed (d : clause) (vec : list Z) (x : fvnode) {struct vec} : found nat :=
  match vec with
  | [] => leaf_clauses x (fun l => tree_subsuming l d)
  | v :: r => match fbody x with
              | BSucc l => first_found (subsuming_indexed d r) (in_range 0 (Some v) l)
              | BNull => NotFound
              | BClauses _ => FUndef
              end
  end.
(** clauseset_find_subsumed_clauses_indexed, 967-995 (LONG_MAX as upper bound) *)
Fixpoint subsumed_indexed (c : clause) (vec : list Z) (x : fvnode) {struct vec} : found (list nat) :=
  match vec with
  | [] => leaf_clauses x (fun l => tree_subsumed l c)
  | v :: r => match fbody x with
              | BSucc l => all_found (subsumed_indexed c r) (in_range v None l)
              | BNull => Found []
              | BClauses _ => FUndef
              end
  end.
(** clauseset_find_first_subsumed_clause_indexed, 1011-1042 *)
Fixpoint first_subsumed_indexed (c : clause) (vec : list Z) (x : fvnode) {struct vec} : found nat :=
  match vec with
  | [] => leaf_clauses x (fun l => tree_first_subsumed l c)
  | v :: r => match fbody x with
              | BSucc l => first_found (first_subsumed_indexed c r) (in_range v None l)
              | BNull => NotFound
              | BClauses _ => FUndef
              end
  end.
(** clauseset_find_variant_clause_indexed, 1101-1124 *)
Fixpoint variant_indexed (d : clause) (vec : list Z) (x : fvnode) {struct vec} : found nat :=
  match vec with
  | [] => leaf_clauses x (fun l => tree_variant l d)
  | v :: r => match fbody x with
              | BSucc l => match aget v l with
                           | Some y => if fcount y =? 0 then NotFound else variant_indexed d r y
                           | None => NotFound
                           end
              | BNull => NotFound
              | BClauses _ => FUndef
              end
  end.
End Search.

(** ClauseSetSubsumesClause, 1446-1465; ClauseSetFindSubsumedClauses, 1590-1606 with ClauseSetFindFVSubsumedClauses, 1517-1537;
    ClauseSetFindFirstSubsumedClause, 1623-1638 with 1554-1573; ClauseSetFindVariantClause, 1679-1694 with 1656-1663 *)
Inductive query := QSubsuming (d : clause) | QFirstSubsumed (c : clause) | QVariant (d : clause).
Definition query_clause (q : query) : clause := match q with QSubsuming d => d | QFirstSubsumed c => c | QVariant d => d end.
Definition fv_query (E : env) (fuel : nat) (cs : cspec) (perm : option (list nat)) (st : fvstate) (q : query) : found nat :=
  match opt_vector cs perm (fvfull st) (query_clause q) with
  | None => FUndef
  | Some (v, _) =>
      match q with
      | QSubsuming d => subsuming_indexed E fuel (fvlits st) d v (fvroot st)
      | QFirstSubsumed c => first_subsumed_indexed E fuel (fvlits st) c v (fvroot st)
      | QVariant d => variant_indexed E fuel (fvlits st) d v (fvroot st)
      end
  end.
Definition fv_subsumed (E : env) (fuel : nat) (cs : cspec) (perm : option (list nat)) (st : fvstate) (c : clause) : found (list nat) :=
  match opt_vector cs perm (fvfull st) c with
  | None => FUndef
  | Some (v, _) => subsumed_indexed E fuel (fvlits st) c v (fvroot st)
  end.

(** ** Specification *)
(** The addresses that are in the index after a history; a clause may be deleted only if it is there. *)
Inductive fv_history : list fvop -> list nat -> Prop :=
| fh_nil : fv_history [] []
| fh_insert os ids id : fv_history os ids -> fv_history (os ++ [FInsert id]) (pstore id ids)
| fh_delete os ids id : fv_history os ids -> In id ids -> fv_history (os ++ [FDelete id]) (pdelete id ids).
(** A clause without positive literals s = s (such clauses are tautologies and deleted before) *)
Definition no_trivial (c : clause) : Prop := Forall (fun e => pos e = true -> lt e <> rt e) c.
