(** * Fingerprint indices (TERMS/cte_idx_fp.c, TERMS/cte_fp_index.c) and the two kinds of entries stored in them
    (CLAUSES/ccl_subterm_index.c, ccl_subterm_tree.c, ccl_overlap_index.c, ccl_clausepos_tree.c) *)
From Verif Require Export Terms.
Open Scope Z_scope.

(** cte_idx_fp.h:52-54 *)
Definition BELOW_VAR := -2.
Definition ANY_VAR := -1.
Definition NOT_IN_TERM := 0.
(** TERMS/cte_signature.h:195-203: codes of higher-order constructs, which do not occur in first-order terms *)
Definition SIG_PHONY_APP_CODE : sym := 17%nat.
Definition SIG_DB_LAMBDA_CODE : Z := 19.

(** ** Fingerprints *)
(** TermFPSampleFO, cte_idx_fp.c:135-161; the argument list ends with -1 *)
Fixpoint sample (t : term) (pos : list nat) : Z :=
  match pos with
  | [] => match t with Var _ => ANY_VAR | Fun f _ => Z.of_nat f end
  | p :: r => match t with
              | Var _ => BELOW_VAR
              | Fun _ args => match nth_error args p with None => NOT_IN_TERM | Some a => sample a r end
              end
  end.
(** the loop 303-306 of TermFPFlexSampleFO: skip to the next -1 (and over it, 309) *)
Fixpoint skip_pos (seq : list Z) : list Z := match seq with [] => [] | z :: r => if z =? -1 then r else skip_pos r end.
(** TermFPFlexSampleFO, 276-311: the value and the rest of the sequence *)
Fixpoint flex_sample (t : term) (seq : list Z) : Z * list Z :=
  match seq with
  | [] => (0, [])                                          (* not reached: sequences end with -1, -2 *)
  | z :: r => if z =? -1 then ((match t with Var _ => ANY_VAR | Fun f _ => Z.of_nat f end), r)
              else match t with
                   | Var _ => (BELOW_VAR, skip_pos seq)
                   | Fun _ args => match nth_error args (Z.to_nat z) with None => (NOT_IN_TERM, skip_pos seq) | Some a => flex_sample a r end
                   end
  end.
(** IndexFPFlexCreate, 821-837; the fuel is the length of the sequence *)
Fixpoint flex_key (fuel : nat) (t : term) (seq : list Z) : list Z :=
  match fuel with
  | O => []
  | S n => match seq with
           | [] => []
           | z :: _ => if z =? -2 then [] else let (v, r) := flex_sample t seq in v :: flex_key n t r
           end
  end.
(** push_fcodes, 97-116 *)
Fixpoint fcodes (t : term) : list Z :=
  match t with
  | Var _ => [ANY_VAR]
  | Fun f args => (if Nat.eqb f SIG_PHONY_APP_CODE then [] else [Z.of_nat f]) ++ flat_map fcodes args
  end.

(** IndexFPfpCreate, 437-464: predicate and function symbols are replaced by one representative each, kept in static variables
    (0: not yet chosen). [pp f]: terms with this head carry TPPredPos. *)
Definition fpfp_call (pp : sym -> bool) (st : Z * Z) (t : term) : list Z * (Z * Z) :=
  let v := sample t [] in
  if 0 <? v then
    match t with
    | Fun f _ => if pp f then let p := if snd st =? 0 then v else snd st in ([p], (fst st, p))
                 else let p := if fst st =? 0 then v else fst st in ([p], (p, snd st))
    | Var _ => ([v], st)
    end
  else ([v], st).
(** the same once the representatives are known *)
Definition fpfp_key (pp : sym -> bool) (frep prep : Z) (t : term) : list Z :=
  match t with Fun f _ => [if 0 <? Z.of_nat f then (if pp f then prep else frep) else Z.of_nat f] | Var _ => [ANY_VAR] end.

(** The fingerprint functions, 51-71: samples at fixed positions, the flexible version, FPfp and IndexDTCreate. The array of C starts with
    its length; here a list. *)
Inductive fpfun := FPpos (ps : list (list nat)) | FPflex (seq : list Z) | FPfp (pp : sym -> bool) (frep prep : Z) | FPdt.
Definition fp_key (fn : fpfun) (t : term) : list Z :=
  match fn with
  | FPpos ps => map (sample t) ps
  | FPflex seq => flex_key (length seq) t seq
  | FPfp pp fr pr => fpfp_key pp fr pr t
  | FPdt => fcodes t
  end.
(** IndexFP0Create .. IndexFP3DFlexCreate, 415-872 *)
Definition FP0 := FPpos [].
Definition FP1 := FPpos [[]].
Definition FP2 := FPpos [[]; [0]]%nat.
Definition FP3D := FPpos [[]; [0]; [0; 0]]%nat.
Definition FP3W := FPpos [[]; [0]; [1]]%nat.
Definition FP4D := FPpos [[]; [0]; [0; 0]; [0; 0; 0]]%nat.
Definition FP4W := FPpos [[]; [0]; [1]; [2]]%nat.
Definition FP4M := FPpos [[]; [0]; [1]; [0; 0]]%nat.
Definition FP5M := FPpos [[]; [0]; [1]; [2]; [0; 0]]%nat.
Definition FP6M := FPpos [[]; [0]; [1]; [2]; [0; 0]; [0; 1]]%nat.
Definition FP7 := FPpos [[]; [0]; [1]; [0; 0]; [0; 1]; [1; 0]; [1; 1]]%nat.
Definition FP7M := FPpos [[]; [0]; [1]; [2]; [0; 0]; [3]; [0; 1]]%nat.
Definition FP4X2_2 := FPpos [[]; [0]; [1]; [2]; [3]; [0; 0]; [0; 1]; [0; 2]; [1; 0]; [1; 1]; [1; 2]; [2; 0]; [2; 1]; [2; 2]; [0; 0; 0]; [1; 0; 0]]%nat.
Definition FP3DFlex := FPflex [-1; 0; -1; 0; 0; -1; -2].

(** ** The tree *)
(** What a leaf stores: a PObjTree of SubtermOcc cells, one for each term, each with a set of occurrences. An occurrence is a clause and
    a number: for the subterm index 1 or 0 for the sets rw_rest and rw_full, for the overlap index the compact position.
    The PObjTree, PTree and NumTree are splay trees (C26), here association lists; terms are shared and compared by address. *)
Definition occ := (nat * Z)%type.
Definition payload := list (term * list occ).

(** FPTreeCell, cte_fp_index.h:54-61. f_alternatives is an IntMap (C29): here the pairs in the order of the keys. *)
Inductive fptree := FPNode (alts : list (Z * fptree)) (count : Z) (pl : payload).
(** FPTreeAlloc, cte_fp_index.c:934-943 *)
Definition fp_empty : fptree := FPNode [] 0 [].
Definition alts_of (x : fptree) : list (Z * fptree) := match x with FPNode a _ _ => a end.
Definition pl_of (x : fptree) : payload := match x with FPNode _ _ p => p end.

(** IntMapGetVal, IntMapAssign, IntMapDelKey *)
Fixpoint aget {A} (k : Z) (l : list (Z * A)) : option A :=
  match l with [] => None | (i, c) :: r => if i =? k then Some c else aget k r end.
Fixpoint aset {A} (k : Z) (v : A) (l : list (Z * A)) : list (Z * A) :=
  match l with
  | [] => [(k, v)]
  | (i, c) :: r => if i =? k then (k, v) :: r else if k <? i then (k, v) :: l else (i, c) :: aset k v r
  end.
Fixpoint adel {A} (k : Z) (l : list (Z * A)) : list (Z * A) :=
  match l with [] => [] | (i, c) :: r => if i =? k then r else (i, c) :: adel k r end.

(** FPTreeInsert, 1022-1042, followed by a change [g] of the payload of the leaf it returns *)
Fixpoint fp_insert (key : list Z) (g : payload -> payload) (x : fptree) : fptree :=
  match x with
  | FPNode alts n p =>
      match key with
      | [] => FPNode alts n (g p)
      | k :: r => match aget k alts with
                  | Some c => FPNode (aset k (fp_insert r g c) alts) n p
                  | None => FPNode (aset k (fp_insert r g fp_empty) alts) (n + 1) p
                  end
      end
  end.
(** FPTreeFind, 996-1006 *)
Fixpoint fp_find (key : list Z) (x : fptree) : option fptree :=
  match key with [] => Some x | k :: r => match aget k (alts_of x) with Some c => fp_find r c | None => None end end.
(** a change of the payload of the leaf that FPTreeFind returned *)
Fixpoint fp_modify (key : list Z) (g : payload -> payload) (x : fptree) : fptree :=
  match x with
  | FPNode alts n p =>
      match key with
      | [] => FPNode alts n (g p)
      | k :: r => match aget k alts with Some c => FPNode (aset k (fp_modify r g c) alts) n p | None => x end
      end
  end.
(** fpindex_rek_delete, 149-174 (fpindex_extract_alt 115-130 inlined) *)
Fixpoint fp_delete (key : list Z) (x : fptree) : fptree * bool :=
  match x with
  | FPNode alts n p =>
      match key with
      | [] => (x, match p with [] => true | _ => false end)
      | k :: r => match aget k alts with
                  | None => (x, n =? 0)
                  | Some c => let (c', d) := fp_delete r c in
                              if d then (FPNode (adel k alts) (n - 1) p, n - 1 =? 0) else (FPNode (aset k c' alts) n p, n =? 0)
                  end
      end
  end.

(** SigSymbolUnifiesWithVar, TERMS/cte_signature.c:2107-2117, in a first-order problem *)
Definition unifies_with_var (ispred : Z -> bool) (f : Z) : bool :=
  (f =? 1) || (f =? 2) || negb (f =? SIG_DB_LAMBDA_CODE) || (f <=? 0) || negb (ispred f).

Section Find.
  Variable ispred : Z -> bool.
  Variable sigarity : Z -> nat.                            (* SigFindArity *)
  (** GET_SYMBOL_ARITY, 717-718 *)
  Definition arity (f : Z) : nat := if 0 <? f then sigarity f else 0%nat.
  Let uwv := unifies_with_var ispred.

  (** fp_index_rek_find_unif, 190-289; the result is the stack [collect], in the order of the pushes *)
  Fixpoint find_unif (key : list Z) (x : fptree) : list payload :=
    match key with
    | [] => [pl_of x]
    | k :: r =>
        let alt i := match aget i (alts_of x) with Some c => find_unif r c | None => [] end in
        if 0 <? k then alt k ++ (if uwv k then alt ANY_VAR ++ alt BELOW_VAR else [])
        else if k =? NOT_IN_TERM then alt NOT_IN_TERM ++ alt BELOW_VAR
        else if (k =? BELOW_VAR) || (k =? ANY_VAR)
             then alt ANY_VAR ++ alt BELOW_VAR ++
                  flat_map (fun ic => if (fst ic <=? 0) || uwv (fst ic) then find_unif r (snd ic) else [])
                           (filter (fun ic => (if k =? BELOW_VAR then 0 else 1) <=? fst ic) (alts_of x))
             else []
    end.
  (** fp_index_rek_find_matchable, 305-391 *)
  Fixpoint find_matchable (key : list Z) (x : fptree) : list payload :=
    match key with
    | [] => [pl_of x]
    | k :: r =>
        let alt i := match aget i (alts_of x) with Some c => find_matchable r c | None => [] end in
        if 0 <? k then alt k
        else if k =? NOT_IN_TERM then alt NOT_IN_TERM
        else if (k =? BELOW_VAR) || (k =? ANY_VAR)
             then alt ANY_VAR ++ (if k =? BELOW_VAR then alt BELOW_VAR else []) ++
                  flat_map (fun ic => if (fst ic <=? 0) || uwv (fst ic) then find_matchable r (snd ic) else [])
                           (filter (fun ic => (if k =? BELOW_VAR then 0 else 1) <=? fst ic) (alts_of x))
             else []
    end.
  (** the branch skip_term of the two functions for discrimination trees, 758-772 and 842-856: the nodes reached when skip_term becomes 0 *)
  Fixpoint skip_terms (n : nat) (x : fptree) {struct x} : list fptree :=
    match n with
    | O => [x]
    | S m => match x with
             | FPNode alts _ _ => (fix go (l : list (Z * fptree)) := match l with [] => [] | (i, c) :: r => skip_terms (m + arity i) c ++ go r end) alts
             end
    end.
  (** dt_index_rek_find_matchable, 742-808 *)
  Fixpoint dt_matchable (key : list Z) (x : fptree) : list payload :=
    match key with
    | [] => [pl_of x]
    | k :: r =>
        if k =? ANY_VAR
        then flat_map (fun ic => if (fst ic <=? 0) || uwv (fst ic) then flat_map (dt_matchable r) (skip_terms (arity (fst ic)) (snd ic)) else [])
                      (filter (fun ic => BELOW_VAR <=? fst ic) (alts_of x))
        else match aget k (alts_of x) with Some c => dt_matchable r c | None => [] end
    end.
  (** the branch skip_key of dt_index_rek_find_unifiable, 857-866: what is left of the key when skip_key becomes 0; no result when the
      end of the key is passed. *)
  Fixpoint skip_key (n : nat) (key : list Z) : option (list Z) :=
    match n, key with
    | O, _ => Some key
    | S _, [] => None
    | S m, k :: r => skip_key (m + arity k) r
    end.
  Fixpoint concat_some {A} (l : list (option (list A))) : option (list A) :=
    match l with [] => Some [] | Some a :: r => option_map (fun b => a ++ b) (concat_some r) | None :: _ => None end.
  (** dt_index_rek_find_unifiable, 825-914. The fuel bounds the length of the key. *)
  Fixpoint dt_unif (fuel : nat) (key : list Z) (x : fptree) : option (list payload) :=
    match fuel with
    | O => None
    | S n =>
        match key with
        | [] => Some [pl_of x]
        | k :: r =>
            if k =? ANY_VAR
            then concat_some (flat_map (fun ic => if (fst ic <=? 0) || uwv (fst ic) then map (dt_unif n r) (skip_terms (arity (fst ic)) (snd ic)) else [])
                                       (filter (fun ic => BELOW_VAR <=? fst ic) (alts_of x)))
            else concat_some
                   [match aget k (alts_of x) with Some c => dt_unif n r c | None => Some [] end;
                    if (k <=? 0) || uwv k
                    then match aget ANY_VAR (alts_of x) with
                         | Some c => match skip_key (arity k) r with Some r' => dt_unif n r' c | None => None end
                         | None => Some []
                         end
                    else Some []]
        end
    end.

  (** FPIndexFindUnifiable, 1238-1263, and FPIndexFindMatchable, 1279-1308 *)
  Definition index_unifiable (fn : fpfun) (x : fptree) (t : term) : option (list payload) :=
    match fn with FPdt => dt_unif (S (length (fcodes t))) (fcodes t) x | _ => Some (find_unif (fp_key fn t) x) end.
  Definition index_matchable (fn : fpfun) (x : fptree) (t : term) : list payload :=
    match fn with FPdt => dt_matchable (fcodes t) x | _ => find_matchable (fp_key fn t) x end.
End Find.

(** ** The entries *)
Definition occ_eqb (a b : occ) : bool := Nat.eqb (fst a) (fst b) && Z.eqb (snd a) (snd b).
Fixpoint pl_get (t : term) (p : payload) : option (list occ) :=
  match p with [] => None | (s, os) :: r => if term_eqb s t then Some os else pl_get t r end.
Fixpoint pl_set (t : term) (os : list occ) (p : payload) : payload :=
  match p with [] => [(t, os)] | (s, o) :: r => if term_eqb s t then (s, os) :: r else (s, o) :: pl_set t os r end.
Fixpoint pl_del (t : term) (p : payload) : payload :=
  match p with [] => [] | (s, o) :: r => if term_eqb s t then r else (s, o) :: pl_del t r end.
(** SubtermTreeInsertTerm, ccl_subterm_tree.c:291-302, then PTreeStore or ClauseTPosTreeInsertPos *)
Definition pl_insert (t : term) (o : occ) (p : payload) : payload :=
  match pl_get t p with
  | None => pl_set t [o] p
  | Some os => if existsb (occ_eqb o) os then p else pl_set t (o :: os) p
  end.
(** SubtermTreeDeleteTermOcc, ccl_subterm_tree.c:391-418; the same in OverlapIndexDeletePos, ccl_overlap_index.c:364-373, and
    OverlapIndexDeleteClauseOcc, 415-427: remove the occurrences selected by [sel], and the term when none is left *)
Definition pl_delete (t : term) (sel : occ -> bool) (p : payload) : payload :=
  match pl_get t p with
  | None => p
  | Some os => match filter (fun o => negb (sel o)) os with [] => pl_del t p | os' => pl_set t os' p end
  end.

Inductive iop :=
| Insert (t : term) (o : occ)          (* SubtermIndexInsertOcc, ccl_subterm_index.c:190-202; OverlapIndexInsertPos, ccl_overlap_index.c:316-332 *)
| Delete (t : term) (o : occ)          (* SubtermIndexDeleteOcc, ccl_subterm_index.c:218-237; OverlapIndexDeletePos, ccl_overlap_index.c:347-379 *)
| DeleteClause (t : term) (c : nat).   (* OverlapIndexDeleteClauseOcc, ccl_overlap_index.c:395-433 *)
Definition index_delete (fn : fpfun) (t : term) (sel : occ -> bool) (x : fptree) : fptree :=
  match fp_find (fp_key fn t) x with
  | None => x
  | Some node => let x' := fp_modify (fp_key fn t) (pl_delete t sel) x in
                 match pl_delete t sel (pl_of node) with
                 | [] => fst (fp_delete (fp_key fn t) x')   (* FPIndexDelete, cte_fp_index.c:1216-1222 *)
                 | _ => x'
                 end
  end.
Definition index_step (fn : fpfun) (x : fptree) (o : iop) : fptree :=
  match o with
  | Insert t e => fp_insert (fp_key fn t) (pl_insert t e) x
  | Delete t e => index_delete fn t (occ_eqb e) x
  | DeleteClause t c => index_delete fn t (fun e => Nat.eqb c (fst e)) x
  end.

(** * Specification *)
(** The index holds a set of entries: term, clause, number. *)
Definition entry := (term * occ)%type.
Definition spec_step (s : entry -> Prop) (o : iop) : entry -> Prop :=
  match o with
  | Insert t e => fun x => x = (t, e) \/ s x
  | Delete t e => fun x => s x /\ x <> (t, e)
  | DeleteClause t c => fun x => s x /\ ~ (fst x = t /\ fst (snd x) = c)
  end.
(** the entries in the answer of a search *)
Definition answers (ps : list payload) (e : entry) : Prop := exists p os, In p ps /\ In (fst e, os) p /\ In (snd e) os.

(** first-order terms: positive symbol codes, none of the higher-order codes, and as many arguments as the symbol has *)
Fixpoint fo_term (arity : Z -> nat) (t : term) : Prop :=
  match t with
  | Var _ => True
  | Fun f args => (0 < f)%nat /\ f <> SIG_PHONY_APP_CODE /\ Z.of_nat f <> SIG_DB_LAMBDA_CODE /\ length args = arity (Z.of_nat f) /\
      (fix all (l : list term) : Prop := match l with [] => True | a :: r => fo_term arity a /\ all r end) args
  end.
Definition iop_term (o : iop) : term := match o with Insert t _ | Delete t _ | DeleteClause t _ => t end.
(** two terms, after renaming them apart, have a common instance *)
Definition unifiable (s t : term) : Prop := exists sg tau : subst, app sg s = app tau t.
(** t is an instance of s *)
Definition instance (s t : term) : Prop := exists sg : subst, app sg s = t.
(** what is needed of the fingerprint functions with parameters; the others are always fine *)
Definition good_code (c : Z) : Prop := 0 < c /\ c <> SIG_DB_LAMBDA_CODE.
Definition fpfun_ok (fn : fpfun) : Prop :=
  match fn with
  | FPfp _ fr pr => good_code fr /\ good_code pr
  | FPflex seq => exists ps : list (list nat), seq = flat_map (fun p => map Z.of_nat p ++ [-1]) ps ++ [-2]
  | _ => True
  end.
(** a program's calls of IndexFPfpCreate, from the initial values of the static variables [st] *)
Fixpoint fpfp_run (pp : sym -> bool) (st : Z * Z) (ts : list term) : list (list Z) * (Z * Z) :=
  match ts with [] => ([], st) | t :: r => let (k, st1) := fpfp_call pp st t in let (ks, st2) := fpfp_run pp st1 r in (k :: ks, st2) end.
