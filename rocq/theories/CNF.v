(** * Model of clausification
    (CLAUSES/ccl_tcnf.c, ccl_tformulae.c, ccl_formulafunc.c).  First-order build; executable definitions only.

    E encodes formulas as terms over the codes $not, $and, ... (cte_signature.c:209-252); here they are a data type of their own.
    Formulas are shared like terms, so pointer comparison is structural equality (C24).  Formulas inside terms (FOOL), if-then-else,
    let and lambda are not modelled; derivation records and output are not modelled. *)
From Verif Require Import Terms Unify Semantics Clauses Split.

(** and_code, or_code, impl_code, equiv_code, nand_code, nor_code, bimpl_code, xor_code: cte_signature.c:235-250 *)
Inductive op := And | Or | Impl | Equiv | Nand | Nor | Bimpl | Xor.
Definition op_eqb (o o' : op) : bool :=
  match o, o' with
  | And, And | Or, Or | Impl, Impl | Equiv, Equiv | Nand, Nand | Nor, Nor | Bimpl, Bimpl | Xor, Xor => true
  | _, _ => false
  end.

(** TFormula_p.  [FLit p l r] is $eq(l,r) or $neq(l,r) (TFormulaIsLiteral, ccl_tformulae.h:62-64), [FAtom] a term of truth value sort
    that is not encoded as an equation (including the terms $true and $false), [FQ true]/[FQ false] are $qall and $qex. *)
Inductive form :=
| FLit (p : bool) (l r : term)
| FAtom (t : term)
| FNot (f : form)
| FBin (o : op) (f g : form)
| FQ (q : bool) (x : var) (f : form).

(** TFormulaEqual and the comparisons of formula pointers *)
Fixpoint form_eqb (f g : form) : bool :=
  match f, g with
  | FLit p l r, FLit p' l' r' => Bool.eqb p p' && term_eqb l l' && term_eqb r r'
  | FAtom t, FAtom t' => term_eqb t t'
  | FNot a, FNot a' => form_eqb a a'
  | FBin o a b, FBin o' a' b' => op_eqb o o' && form_eqb a a' && form_eqb b b'
  | FQ q x a, FQ q' x' a' => Bool.eqb q q' && Nat.eqb x x' && form_eqb a a'
  | _, _ => false
  end.

(** term->weight and term->v_count of the encoding (tb_termtop_insert, cte_termbanks.c:195-262; DEFAULT_FWEIGHT 2, DEFAULT_VWEIGHT 1) *)
Fixpoint fweight (f : form) : Z :=
  match f with
  | FLit _ l r => 2 + stdweight l + stdweight r
  | FAtom t => stdweight t
  | FNot a => 2 + fweight a
  | FBin _ a b => 2 + fweight a + fweight b
  | FQ _ _ a => 3 + fweight a
  end%Z.
Fixpoint vcount (f : form) : nat :=
  match f with
  | FLit _ l r => length (vars l) + length (vars r)
  | FAtom t => length (vars t)
  | FNot a => vcount a
  | FBin _ a b => vcount a + vcount b
  | FQ _ _ a => S (vcount a)
  end.

(** TFormulaIsPropConst, ccl_tformulae.c:1373-1384 *)
Definition has_code (c : sym) (t : term) : bool := match t with Fun f _ => Nat.eqb f c | Var _ => false end.
Definition is_prop (positive : bool) (f : form) : bool :=
  match f with
  | FLit p l r => Bool.eqb p positive && has_code true_code l && has_code true_code r
  | _ => false
  end.
(** TFormulaPropConstantAlloc, ccl_tformulae.c:1499-1510 *)
Definition prop_const (positive : bool) : form := FLit positive ttrue ttrue.
(** TFormulaNegAlloc, ccl_tcnf.c:1690-1698 *)
Definition neg_alloc (f : form) : form := match f with FNot a => a | _ => FNot f end.

(** tprop_arg_return_other, tprop_arg_return, ccl_tcnf.c:55-94 *)
Definition return_other (a b : form) (positive : bool) : option form :=
  if is_prop positive a then Some b else if is_prop positive b then Some a else None.
Definition return_it (a b : form) (positive : bool) : option form :=
  if is_prop positive a then Some a else if is_prop positive b then Some b else None.

(** TFormulaVarIsFree, ccl_tformulae.c:2186-2224 *)
Definition occurs (x : var) (t : term) : bool := existsb (Nat.eqb x) (vars t).
Fixpoint is_free (x : var) (f : form) : bool :=
  match f with
  | FLit _ l r => occurs x l || occurs x r
  | FAtom t => occurs x t
  | FNot a => is_free x a
  | FBin _ a b => is_free x a || is_free x b
  | FQ _ y a => if Nat.eqb x y then false else is_free x a
  end.

(** ** TFormulaSimplify, ccl_tcnf.c:1823-1999 *)

(** one round of the while loop, 1858-1996; [rec] is the recursive call *)
Definition simp_step (rec : form -> option form) (limit : Z) (f : form) : option form :=
  match f with
  | FNot (FLit p l r) => Some (FLit (negb p) l r)
  | FBin Or a b =>
      Some (match return_other a b false with
            | Some h => h
            | None => match return_it a b true with
                      | Some h => h
                      | None => if form_eqb a b then a else f
                      end
            end)
  | FBin And a b =>
      Some (match return_other a b true with
            | Some h => h
            | None => match return_it a b false with
                      | Some h => h
                      | None => if form_eqb a b then a else f
                      end
            end)
  | FBin Equiv a b =>
      Some (match return_other a b true with
            | Some h => h
            | None => match return_other a b false with
                      | Some h => neg_alloc h
                      | None => if form_eqb a b then prop_const true else f
                      end
            end)
  | FBin Impl a b =>
      Some (if is_prop true a then b
            else if is_prop false a then prop_const true
            else if is_prop false b then neg_alloc a
            else if is_prop true b then prop_const true
            else if form_eqb a b then prop_const true else f)
  | FBin Xor a b => rec (FNot (FBin Equiv a b))
  | FBin Bimpl a b => rec (FBin Impl b a)
  | FBin Nor a b => rec (FNot (FBin Or a b))
  | FBin Nand a b => rec (FNot (FBin And a b))
  | FQ _ x a => Some (if Nat.eqb (vcount f) 0 || ((fweight f <=? limit)%Z && negb (is_free x a)) then a else f)
  | _ => Some f
  end.
(** [None] = fuel exhausted *)
Fixpoint simp_loop (rec : form -> option form) (limit : Z) (fuel : nat) (f : form) : option form :=
  match fuel with
  | O => None
  | S m => match simp_step rec limit f with
           | None => None
           | Some g => if form_eqb g f then Some g else simp_loop rec limit m g
           end
  end.

(** a bound on the number of rounds *)
Fixpoint wsimp (f : form) : nat :=
  match f with
  | FLit _ _ _ | FAtom _ => 1
  | FNot a => S (wsimp a)
  | FBin (Nand | Nor | Bimpl | Xor) a b => 3 + wsimp a + wsimp b
  | FBin _ a b => 1 + wsimp a + wsimp b
  | FQ _ _ a => S (wsimp a)
  end.

Fixpoint simp (fuel : nat) (limit : Z) (f : form) : option form :=
  match fuel with
  | O => None
  | S n =>
    match f with
    | FLit _ _ _ => Some f
    | FAtom _ => simp_loop (simp n limit) limit (S (wsimp f)) f
    | FNot a => match simp n limit a with
                | None => None
                | Some a' => simp_loop (simp n limit) limit (S (wsimp (FNot a'))) (FNot a')
                end
    | FBin o a b => match simp n limit a, simp n limit b with
                    | Some a', Some b' => simp_loop (simp n limit) limit (S (wsimp (FBin o a' b'))) (FBin o a' b')
                    | _, _ => None
                    end
    | FQ q x a => match simp n limit a with
                  | None => None
                  | Some a' => simp_loop (simp n limit) limit (S (wsimp (FQ q x a'))) (FQ q x a')
                  end
    end
  end.
Definition simplify (limit : Z) (f : form) : option form := simp (S (wsimp f)) limit f.

(** ** TFormulaNNF *)

(** one round of troot_nnf, ccl_tcnf.c:241-349; [None]: handle stays NULL.  [pol]: polarity is 1 *)
Definition root_step (pol : bool) (f : form) : option form :=
  match f with
  | FNot (FLit p l r) => Some (FLit (negb p) l r)
  | FNot (FAtom t) => if term_eqb t ttrue then Some (FLit false t t)
                      else if term_eqb t tfalse then Some (FLit true t t) else None
  | FNot (FNot a) => Some a
  | FNot (FBin Or a b) => Some (FBin And (FNot a) (FNot b))
  | FNot (FBin And a b) => Some (FBin Or (FNot a) (FNot b))
  | FNot (FQ true x a) => Some (FQ false x (FNot a))
  | FNot (FQ false x a) => Some (FQ true x (FNot a))
  | FBin Impl a b => Some (FBin Or (FNot a) b)
  | FBin Equiv a b => Some (if pol then FBin And (FBin Impl a b) (FBin Impl b a)
                            else FBin Or (FBin And a b) (FBin And (FNot a) (FNot b)))
  | _ => None
  end.
Fixpoint root_nnf (fuel : nat) (pol : bool) (f : form) : option form :=
  match fuel with
  | O => None
  | S m => match root_step pol f with None => Some f | Some g => root_nnf m pol g end
  end.

(** EncodePredicateAsEqn, ccl_tformulae.c:1313-1358, with the cases for $true and $false in TFormulaNNF *)
Definition encode_atom (t : term) : form :=
  if term_eqb t ttrue then FLit true t t else if term_eqb t tfalse then FLit false t t else FLit true t ttrue.

(** a bound on the number of rounds *)
Fixpoint wnnf (f : form) : nat :=
  match f with
  | FLit _ _ _ => 1
  | FAtom _ => 2
  | FNot a => 2 * wnnf a
  | FBin Impl a b => 2 * wnnf a + wnnf b + 2
  | FBin Equiv a b => 3 * wnnf a + 3 * wnnf b + 6
  | FBin _ a b => wnnf a + wnnf b + 1
  | FQ _ _ a => S (wnnf a)
  end.

(** TFormulaNNF, ccl_tcnf.c:2035-2112; going round the loop again is a recursive call *)
Fixpoint nnf_rec (fuel : nat) (pol : bool) (f : form) : option form :=
  match fuel with
  | O => None
  | S n =>
    match root_nnf (S (wnnf f)) pol f with
    | None => None
    | Some (FNot a) => match nnf_rec n (negb pol) a with
                       | None => None
                       | Some h => if form_eqb h a then Some (FNot a) else nnf_rec n pol (FNot h)
                       end
    | Some (FQ q x a) => match nnf_rec n pol a with
                         | None => None
                         | Some h => if form_eqb h a then Some (FQ q x a) else nnf_rec n pol (FQ q x h)
                         end
    | Some (FBin (And | Or) a b as f1) =>
        match nnf_rec n pol a, nnf_rec n pol b with
        | Some h, Some h2 =>
            if form_eqb h a && form_eqb h2 b then Some f1
            else match f1 with FBin o _ _ => nnf_rec n pol (FBin o h h2) | _ => None end
        | _, _ => None
        end
    | Some (FAtom t) => Some (encode_atom t)
    | Some f1 => Some f1
    end
  end.
Definition nnf (f : form) : option form := nnf_rec (S (wnnf f)) true f.

(** ** Miniscoping *)

(** the first part of TFormulaMiniScope, ccl_tcnf.c:2135-2183 *)
Definition push_quant (f : form) : form :=
  match f with
  | FQ q x (FBin (And | Or) a b as g) =>
      match g with
      | FBin o _ _ =>
          if negb (is_free x a) then FBin o a (FQ q x b)
          else if negb (is_free x b) then FBin o (FQ q x a) b
          else match o, q with
               | And, true => FBin And (FQ true x a) (FQ true x b)
               | Or, false => FBin Or (FQ false x a) (FQ false x b)
               | _, _ => f
               end
      | _ => f
      end
  | _ => f
  end.
(** a bound on the number of calls *)
Fixpoint wmini (f : form) : nat :=
  match f with
  | FLit _ _ _ | FAtom _ => 1
  | FNot a => S (wmini a)
  | FBin _ a b => wmini a + wmini b + 1
  | FQ _ _ a => 2 * wmini a
  end.
(** TFormulaMiniScope, ccl_tcnf.c:2129-2205 *)
Fixpoint mini_rec (fuel : nat) (f : form) : option form :=
  match fuel with
  | O => None
  | S n =>
    match push_quant f with
    | FNot a => match mini_rec n a with
                | None => None
                | Some a' => if form_eqb a' a then Some (FNot a) else mini_rec n (FNot a')
                end
    | FBin o a b => match mini_rec n a, mini_rec n b with
                    | Some a', Some b' => if form_eqb a' a && form_eqb b' b then Some (FBin o a b) else mini_rec n (FBin o a' b')
                    | _, _ => None
                    end
    | FQ q x a => match mini_rec n a with
                  | None => None
                  | Some a' => if form_eqb a' a then Some (FQ q x a) else mini_rec n (FQ q x a')
                  end
    | f1 => Some f1
    end
  end.
Definition miniscope (f : form) : option form := mini_rec (S (wmini f)) f.

(** long is a 64-bit two's complement number.  The additions below overflow (LONG_MAX is returned for ground formulas), which C leaves
    undefined; the model wraps around. *)
Definition wrap64 (z : Z) : Z := ((z + 2 ^ 63) mod 2 ^ 64 - 2 ^ 63)%Z.
Definition LONG_MAX : Z := (2 ^ 63 - 1)%Z.

(** tform_find_miniscopeable, ccl_tcnf.c:811-871: size, candidates, new value of *exq.  The set of candidates is a list. *)
Fixpoint find_mini (limit : Z) (f : form) (exq : bool) : Z * list form * bool :=
  if Nat.eqb (vcount f) 0 then (LONG_MAX, [], exq)
  else match f with
       | FLit _ _ _ => (1%Z, [], exq)
       | FAtom _ => (1%Z, [], exq)
       | FQ q x a =>
           let '(r, lc, lexq) := find_mini limit a false in
           let size := wrap64 (1 + r) in
           if q then (size, if (size <=? limit)%Z && lexq then [f] else lc, lexq)
           else (size, lc, true)
       | FNot a =>
           let '(r, lc, lexq) := find_mini limit a false in
           (wrap64 (1 + wrap64 (1 + r)), lc, exq || lexq)
       | FBin _ a b =>
           let '(r1, lc1, lexq1) := find_mini limit a false in
           let size1 := wrap64 (1 + wrap64 (1 + r1)) in
           let '(r2, lc2, lexq2) := find_mini limit b lexq1 in
           (wrap64 (size1 + wrap64 (size1 + r2)), lc1 ++ lc2, exq || lexq1 || lexq2)
       end.

(** tform_copy_mod, ccl_tcnf.c:886-920; the binding of a candidate is its miniscoped form.  There is no case for quantifiers: $qall and
    $qex do not have FPFOFOp (cte_signature.c:228-229), so TFormulaHasSubForm1/2 are false for them. *)
Fixpoint copy_mod (cands : list form) (f : form) : option form :=
  match f with
  | FLit _ _ _ => Some f
  | _ =>
    if Nat.eqb (vcount f) 0 then Some f
    else if existsb (form_eqb f) cands then miniscope f
    else match f with
         | FNot a => option_map FNot (copy_mod cands a)
         | FBin o a b => match copy_mod cands a, copy_mod cands b with
                         | Some a', Some b' => Some (FBin o a' b')
                         | _, _ => None
                         end
         | _ => Some f
         end
  end.
(** TFormulaMiniScope3, ccl_tcnf.c:2289-2330 *)
Definition miniscope3 (limit : Z) (f : form) : option form :=
  let '(_, cands, _) := find_mini limit f false in
  match cands with [] => Some f | _ => copy_mod cands f end.

(** ** Variable renaming and Skolemisation *)

(** TFormulaCopy, ccl_tformulae.h: TBInsertNoPropsCached with DEREF_ALWAYS *)
Definition copy_term (b : binding) (t : term) : option term := inst (4 + size t) b t.

Section WithEnv.
  (** VarBankGetFreshVar on the variables of the term bank, cte_termvars.c:556-583.  The counters are set to the number of variables of
      each sort by VarBankSetVCountsToUsed (305-322), so the variable is a new one.  The bank of fresh variables is paired with this
      bank: the k-th variable of a sort is the primary cell of [fresh]. *)
  Definition new_var (E : env) (c : counters) (s : sort) : var := prim (fresh E s (c s)).

  (** TFormulaVarRename, ccl_tcnf.c:2348-2404.  The old binding of the variable is restored on exit, so bindings are an argument. *)
  Fixpoint rename (E : env) (b : binding) (c : counters) (f : form) : option (form * counters) :=
    match f with
    | FLit p l r => match copy_term b l, copy_term b r with
                    | Some l', Some r' => Some (FLit p l' r', c)
                    | _, _ => None
                    end
    | FAtom t => match copy_term b t with Some t' => Some (FAtom t', c) | None => None end
    | FNot a => match rename E b c a with Some (a', c') => Some (FNot a', c') | None => None end
    | FBin o a b' => match rename E b c a with
                     | None => None
                     | Some (a', c1) => match rename E b c1 b' with
                                        | None => None
                                        | Some (b'', c2) => Some (FBin o a' b'', c2)
                                        end
                     end
    | FQ q x a =>
        let s := vsort (srt E) x in
        let y := new_var E c s in
        match rename E (upd b x (Some (Var y))) (bump c s) a with
        | None => None
        | Some (a', c') => Some (FQ q y a', c')
        end
    end.
End WithEnv.

(** SigDeclareType for the new symbol, cte_signature.c:1552-1590 *)
Definition declare (E : env) (f : sym) (args : list sort) (res : sort) : env :=
  {| srt := {| vsort := vsort (srt E);
               fres := fun g => if Nat.eqb g f then res else fres (srt E) g;
               fargs := fun g => if Nat.eqb g f then args else fargs (srt E) g |};
     pp := pp E; dist := dist E; pspred := pspred E; fresh := fresh E |}.

(** TBAllocNewSkolem, cte_termbanks.c:1508-1517, TermAllocNewSkolem, cte_termtypes.c:322-378: a new symbol over the given variables.
    [n] is the next free code of the signature (SigGetNewSkolemCode, SigGetNewPredicateCode). *)
Definition new_skolem (E : env) (n : sym) (U : list var) (res : sort) : term * env * sym :=
  (Fun n (map Var U), declare E n (map (vsort (srt E)) U) res, S n).

(** tformula_rek_skolemize, ccl_tcnf.c:374-435.  Bindings are an argument: the variable is unbound before and after.  The copy of an
    [FAtom] is computed and dropped (line 393, [handle] instead of [form]). *)
Fixpoint skolem (E : env) (n : sym) (b : binding) (U : list var) (f : form) : option (form * env * sym) :=
  if Nat.eqb (vcount f) 0 then Some (f, E, n)
  else match f with
       | FLit p l r => match copy_term b l, copy_term b r with
                       | Some l', Some r' => Some (FLit p l' r', E, n)
                       | _, _ => None
                       end
       | FAtom t => Some (f, E, n)
       | FQ false x a =>
           let '(sk, E1, n1) := new_skolem E n U (vsort (srt E) x) in
           skolem E1 n1 (upd b x (Some sk)) U a
       | FQ true x a => match skolem E n b (U ++ [x]) a with
                        | None => None
                        | Some (a', E1, n1) => Some (FQ true x a', E1, n1)
                        end
       | FNot a => match skolem E n b U a with
                   | None => None
                   | Some (a', E1, n1) => Some (FNot a', E1, n1)
                   end
       | FBin o a a2 => match skolem E n b U a with
                        | None => None
                        | Some (a', E1, n1) => match skolem E1 n1 b U a2 with
                                               | None => None
                                               | Some (a2', E2, n2) => Some (FBin o a' a2', E2, n2)
                                               end
                        end
       end.

(** TFormulaCollectFreeVars, ccl_tformulae.c:863-904, 2268-2272 *)
Fixpoint free_vars (f : form) : list var :=
  match f with
  | FLit _ l r => vars l ++ vars r
  | FAtom t => vars t
  | FNot a => free_vars a
  | FBin _ a b => free_vars a ++ free_vars b
  | FQ _ x a => filter (fun y => negb (Nat.eqb x y)) (free_vars a)
  end.
(** TFormulaSkolemizeOutermost, ccl_tcnf.c:2420-2437.  The free variables come out of the tree in the order of their addresses: any
    order, given by [arrange]. *)
Definition skolemize (arrange : list var -> list var) (E : env) (n : sym) (f : form) : option (form * env * sym) :=
  skolem E n (fun _ => None) (arrange (nodup Nat.eq_dec (free_vars f))) f.

(** ** Quantifier shifting, ccl_tcnf.c:540-572 and 2458-2478 *)
Fixpoint extract_core (f : form) : form * list var :=
  match f with
  | FQ _ x a => let '(g, vs) := extract_core a in (g, x :: vs)
  | FBin (And | Or) a b =>
      let '(a', vs1) := extract_core a in
      let '(b', vs2) := extract_core b in
      (match f with FBin o _ _ => FBin o a' b' | _ => f end, vs1 ++ vs2)
  | _ => (f, [])
  end.
Definition shift_quantors (f : form) : form :=
  let '(g, vs) := extract_core f in fold_right (FQ true) g vs.

(** ** TFormulaExpandLiterals, ccl_tcnf.c:1717-1771, on formulas without FOOL features (do_fool_unroll, ccl_formulafunc.c:869-960, then
    finds nothing to do): disequations become negated equations, an equation between truth values an equivalence, $true = $true the
    term $true. *)
Definition expand_eq (E : env) (l r : term) : form :=
  if negb (isVar l) && Nat.eqb (tsort (srt E) l) (fres (srt E) true_code)
  then if negb (term_eqb r ttrue) then FBin Equiv (FAtom l) (FAtom r)
       else if has_code true_code l || has_code false_code l then FAtom l else FLit true l r
  else FLit true l r.
Fixpoint expand (E : env) (f : form) : form :=
  match f with
  | FLit p l r => if p then expand_eq E l r else FNot (expand_eq E l r)
  | FAtom t => f
  | FNot a => FNot (expand E a)
  | FBin o a b => FBin o (expand E a) (expand E b)
  | FQ q x a => FQ q x (expand E a)
  end.

(** ** TFormulaDistributeDisjunctions, ccl_tcnf.c:2532-2600 *)
Fixpoint wdist (f : form) : nat :=
  match f with
  | FLit _ _ _ | FAtom _ => 2
  | FNot a => S (wdist a)
  | FBin Or a b => wdist a * wdist b
  | FBin _ a b => wdist a + wdist b + 1
  | FQ _ _ a => S (wdist a)
  end.
Fixpoint dist_rec (fuel : nat) (f : form) : option form :=
  match fuel with
  | O => None
  | S n =>
    match f with
    | FLit _ _ _ | FAtom _ => Some f
    | FNot a => option_map FNot (dist_rec n a)
    | FQ q x a => option_map (FQ q x) (dist_rec n a)
    | FBin o a b =>
        match dist_rec n a, dist_rec n b with
        | Some a', Some b' =>
            match o with
            | Or => match a', b' with
                    | FBin And f1 f2, _ => dist_rec n (FBin And (FBin Or f1 b') (FBin Or f2 b'))
                    | _, FBin And f1 f2 => dist_rec n (FBin And (FBin Or f1 a') (FBin Or f2 a'))
                    | _, _ => Some (FBin Or a' b')
                    end
            | _ => Some (FBin o a' b')
            end
        | _, _ => None
        end
    end
  end.
Definition distribute (f : form) : option form := dist_rec (S (wdist f)) f.

(** ** WTFormulaConjunctiveNF3, ccl_tcnf.c:2820-2908 *)
Notation "x <- a ;; b" := (match a with None => None | Some x => b end) (at level 100, a at next level, right associativity, only parsing).

Record cstate := mkst { c_env : env; c_next : sym; c_vars : counters }.

Definition conjunctive_nf (arrange : list var -> list var) (mlimit : Z) (unroll_fool : bool) (st : cstate) (f : form) : option (form * cstate) :=
  f1 <- simplify 1000 f ;;
  f2 <- nnf f1 ;;
  f3 <- miniscope3 mlimit f2 ;;
  match rename (c_env st) (fun _ => None) (c_vars st) f3 with
  | None => None
  | Some (f4, c1) =>
    match skolemize arrange (c_env st) (c_next st) f4 with
    | None => None
    | Some (f5, E1, n1) =>
        let f6 := shift_quantors f5 in
        let f7 := if unroll_fool then expand E1 f6 else f6 in
        f8 <- nnf f7 ;;
        f9 <- distribute f8 ;;
        Some (f9, mkst E1 n1 c1)
    end
  end.

(** ** Clauses *)

(** TFormulaCollectClause, ccl_tformulae.c:2628-2702: the literals in the order in which they leave the stack (2646-2669) *)
Fixpoint disj_lits (E : env) (f : form) : list eqn :=
  match f with
  | FBin Or a b => disj_lits E b ++ disj_lits E a
  | FLit p l r => [eqn_alloc E l r p]
  | FAtom t => if term_eqb t ttrue then [eqn_alloc E t t true] else []
  | _ => []
  end.
(** the rest; the counters of the fresh variables are reset.  [None] = fuel exhausted.  EqnCopy, ccl_eqn.c:1364-1384, differs from
    EqnCopyOpt only in keeping the orientation flag, which is not set here. *)
Definition collect_clause (fuel : nat) (E : env) (f : form) : option clause :=
  let l := rev (disj_lits E f) in
  match norm_eqns fuel E ({| bnd := fun _ => None; trail := [] |}, fun _ => 0) l with
  | None => None
  | Some (st, _) => option_map clause_alloc (mapo (copy_opt fuel E (bnd st)) l)
  end.

(** TFormulaToCNF, ccl_formulafunc.c:1869-1917.  ClauseEliminateNakedBooleanVariables has no effect without Boolean variables. *)
Fixpoint skip_quantors (f : form) : form := match f with FQ true _ a => skip_quantors a | _ => f end.
Fixpoint conjuncts (f : form) : list form :=
  match f with FBin And a b => conjuncts b ++ conjuncts a | _ => [f] end.
Definition to_cnf (fuel : nat) (E : env) (f : form) : option (list clause) := mapo (collect_clause fuel E) (conjuncts (skip_quantors f)).

(** WFormulaCNF2, ccl_formulafunc.c:1482-1508, for a formula that is not yet a clause *)
Definition clausify (fuel : nat) (arrange : list var -> list var) (mlimit : Z) (unroll_fool : bool) (st : cstate) (f : form)
  : option (list clause * cstate) :=
  match conjunctive_nf arrange mlimit unroll_fool st f with
  | None => None
  | Some (g, st') => match to_cnf fuel (c_env st') g with None => None | Some cs => Some (cs, st') end
  end.

(** the loop of FormulaSetCNF2, ccl_formulafunc.c:1663-1688, after definitions have been introduced *)
Fixpoint clausify_all (fuel : nat) (arrange : list var -> list var) (mlimit : Z) (unroll_fool : bool) (st : cstate) (fs : list form)
  : option (list clause * cstate) :=
  match fs with
  | [] => Some ([], st)
  | f :: fs' => match clausify fuel arrange mlimit unroll_fool st f with
                | None => None
                | Some (cs, st1) => match clausify_all fuel arrange mlimit unroll_fool st1 fs' with
                                    | None => None
                                    | Some (cs', st2) => Some (cs ++ cs', st2)
                                    end
                end
  end.

(** ** Specification vocabulary: the meaning of formulas *)

Definition vset {D : Type} (v : var -> D) (x : var) (d : D) : var -> D := fun y => if Nat.eqb x y then d else v y.
Definition op_sem (o : op) (A B : Prop) : Prop :=
  match o with
  | And => A /\ B | Or => A \/ B | Impl => A -> B | Equiv => A <-> B
  | Nand => ~ (A /\ B) | Nor => ~ (A \/ B) | Bimpl => B -> A | Xor => ~ (A <-> B)
  end.
Fixpoint sem (S : sorting) (M : structure) (v : var -> dom M) (f : form) : Prop :=
  match f with
  | FLit p l r => lit_holds M v p l r
  | FAtom t => eval M v t = ifun M true_code []
  | FNot a => ~ sem S M v a
  | FBin o a b => op_sem o (sem S M v a) (sem S M v b)
  | FQ true x a => forall d, isort M (vsort S x) d -> sem S M (vset v x d) a
  | FQ false x a => exists d, isort M (vsort S x) d /\ sem S M (vset v x d) a
  end.
(** free variables are universally quantified *)
Definition form_true (S : sorting) (M : structure) (f : form) : Prop := forall v, respects S M v -> sem S M v f.

(** Well-sorted formulas; variables are cells of the term bank. *)
Fixpoint form_ok (E : env) (f : form) : Prop :=
  match f with
  | FLit _ l r => wf (srt E) l /\ wf (srt E) r /\ tsort (srt E) l = tsort (srt E) r /\ primary l /\ primary r
  | FAtom t => wf (srt E) t /\ tsort (srt E) t = fres (srt E) true_code /\ primary t
  | FNot a => form_ok E a
  | FBin _ a b => form_ok E a /\ form_ok E b
  | FQ _ x a => is_fresh x = false /\ form_ok E a
  end.
(** all variables, bound ones included; all symbols *)
Fixpoint all_vars (f : form) : list var :=
  match f with
  | FLit _ l r => vars l ++ vars r
  | FAtom t => vars t
  | FNot a => all_vars a
  | FBin _ a b => all_vars a ++ all_vars b
  | FQ _ x a => x :: all_vars a
  end.
Fixpoint form_syms (f : form) : list sym :=
  match f with
  | FLit _ l r => tsyms l ++ tsyms r
  | FAtom t => tsyms t
  | FNot a => form_syms a
  | FBin _ a b => form_syms a ++ form_syms b
  | FQ _ _ a => form_syms a
  end.

(** The variables were known when the bank had the given numbers of variables; the symbols when the signature had the codes below [n]. *)
Definition old_var (E : env) (c : counters) (x : var) : Prop :=
  forall k, c (vsort (srt E) x) <= k -> x <> prim (fresh E (vsort (srt E) x) k).
Definition form_known (E : env) (n : sym) (c : counters) (f : form) : Prop :=
  (forall x, In x (all_vars f) -> old_var E c x) /\ (forall s, In s (form_syms f) -> s < n).
(** codes from [n] on are not used for numbers or distinct objects, and are not those of $true and $false *)
Definition next_ok (E : env) (n : sym) : Prop := 2 < n /\ forall f, n <= f -> dist E f = false.
Definition input_ok (st : cstate) (f : form) : Prop :=
  form_ok (c_env st) f /\ form_known (c_env st) (c_next st) (c_vars st) f.

(** Two structures over the same domain that differ only in symbols from [n] on. *)
Definition same_below (n : sym) (M M' : structure) : Prop :=
  exists F, M' = {| dom := dom M; ifun := F; isort := isort M |} /\ forall f ds, f < n -> F f ds = ifun M f ds.
