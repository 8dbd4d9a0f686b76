(** * The shared term store and its garbage collector

    Models TERMS/cte_termbanks.c (tb_termtop_insert, TBAlloc, TBInsert, TBInsertReplPlain, TBInsertInstantiatedFO,
    TBInsertDisjoint, TBFind, TBFindRepr, TBCreateMinTerm, TBGCMarkTerm, TBGCSweep), TERMS/cte_termcellstore.c/.h (hash table of
    splay trees), TERMS/cte_termtrees.c (through Splay.v), the variable array of TERMS/cte_termvars.c/.h, the rewrite links of
    TERMS/cte_replace.c and TBGCCollect of CLAUSES/ccl_garbage_coll.c.

    Memory is a partial map from addresses to term cells.  malloc/free are an arbitrary allocator: a function of the number of
    the call and of the memory, required only to return a free address (so every history of a real allocator is covered).
    Reading a cell that is not allocated is the outcome [Undef]; running out of fuel is [NoFuel].

    Simplifications: first-order problems only (problemType == PROBLEM_FO, no De Bruijn variables, no applied variables, no
    cached normal forms), types are not stored in cells (in FO mode TermTopCompare does not look at them, cte_termtrees.c:213),
    of the property bits only the garbage flag, TPIsGround and TPIsRewritten (as [replace <> None]) are kept, [long] fields are
    unbounded integers while the [unsigned int] fields v_count and f_count wrap at 2^32, and the node keys of a tree are stored in the
    tree although the C code reads them from the cell (the invariant proved later says they agree). *)
From Verif Require Import Terms Splay.
Local Open Scope Z_scope.

Inductive res (A : Type) : Type := Ok (x : A) | Undef | NoFuel.
Arguments Ok {A} _.  Arguments Undef {A}.  Arguments NoFuel {A}.
Definition rbind {A B} (r : res A) (k : A -> res B) : res B :=
  match r with Ok x => k x | Undef => Undef | NoFuel => NoFuel end.

(** TermCell, cte_termtypes.h:135-165.  [cargs] are the argument pointers (their number is [arity]). *)
Record cell := mkcell {
  fcode : Z; cargs : list Z;
  gflag : bool;                (* TPGarbageFlag *)
  ground : bool;               (* TPIsGround *)
  replace : option Z;          (* rw_data.rw_desc.replace, meaningful when TPIsRewritten *)
  weight : Z;                  (* long *)
  v_count : Z; f_count : Z     (* unsigned int *)
}.
(** the arithmetic of [unsigned int], cte_termtypes.h:146-147 *)
Definition wrap32 (z : Z) : Z := z mod 4294967296.

Definition key := (Z * list Z)%type.
Definition ktree := tree key Z.
Arguments Leaf {K V}.  Arguments Node {K V} _ _ _ _.

(** TB_p (cte_termbanks.h:70-115) with its TermCellStore (cte_termcellstore.h:44-49) and VarBank (variables array) *)
Record bank := mkbank {
  tick : nat;                  (* number of allocator calls so far *)
  heap : Z -> option cell;
  store : Z -> ktree;          (* term_store.store[i] *)
  entries : Z;                 (* term_store.entries *)
  varcell : Z -> option Z;     (* vars->variables[-f_code], indexed here by f_code *)
  gstate : bool;               (* garbage_state == TPGarbageFlag *)
  true_term : Z; false_term : Z;
  min_terms : list (nat * Z);  (* min_terms, indexed by type *)
  insertions : Z; recovered : Z
}.

Definition upd {A} (h : Z -> A) (a : Z) (v : A) : Z -> A := fun x => if x =? a then v else h x.

Definition set_mem (b : bank) (n : nat) (h : Z -> option cell) : bank :=
  mkbank n h (store b) (entries b) (varcell b) (gstate b) (true_term b) (false_term b) (min_terms b) (insertions b) (recovered b).
Definition set_store (b : bank) (s : Z -> ktree) (e : Z) : bank :=
  mkbank (tick b) (heap b) s e (varcell b) (gstate b) (true_term b) (false_term b) (min_terms b) (insertions b) (recovered b).
Definition set_var (b : bank) (f : Z) (a : Z) : bank :=
  mkbank (tick b) (heap b) (store b) (entries b) (upd (varcell b) f (Some a)) (gstate b) (true_term b) (false_term b) (min_terms b)
    (insertions b) (recovered b).
Definition count_insert (b : bank) : bank :=
  mkbank (tick b) (heap b) (store b) (entries b) (varcell b) (gstate b) (true_term b) (false_term b) (min_terms b)
    (insertions b + 1) (recovered b).
Definition set_min (b : bank) (l : list (nat * Z)) : bank :=
  mkbank (tick b) (heap b) (store b) (entries b) (varcell b) (gstate b) (true_term b) (false_term b) l (insertions b) (recovered b).

Definition write (b : bank) (a : Z) (c : cell) : bank := set_mem b (tick b) (upd (heap b) a (Some c)).
(** TermTopFree, cte_termtypes.c *)
Definition free_cell (b : bank) (a : Z) : bank := set_mem b (S (tick b)) (upd (heap b) a None).

Definition set_gflag (c : cell) (g : bool) : cell :=
  mkcell (fcode c) (cargs c) g (ground c) (replace c) (weight c) (v_count c) (f_count c).
Definition set_replace (c : cell) (r : option Z) : cell :=
  mkcell (fcode c) (cargs c) (gflag c) (ground c) r (weight c) (v_count c) (f_count c).
Definition set_args (c : cell) (l : list Z) : cell :=
  mkcell (fcode c) l (gflag c) (ground c) (replace c) (weight c) (v_count c) (f_count c).

(** TermCellHash, cte_termcellstore.h:41-64 *)
Definition hash (k : key) : Z :=
  Z.land (match snd k with
          | [] => fst k
          | [x] => Z.lxor (fst k) (Z.shiftr x 3)
          | x :: y :: _ => Z.lxor (Z.lxor (fst k) (Z.shiftr x 3)) (Z.shiftr y 4)
          end) 32767.
Definition ckey (c : cell) : key := (fcode c, cargs c).

Definition DEFAULT_VWEIGHT : Z := 1.   (* cte_termtypes.h:41 *)
Definition DEFAULT_FWEIGHT : Z := 2.   (* cte_termtypes.h:42 *)

(** f_codes: variables are negative, function symbols positive; SIG_TRUE_CODE = 1, SIG_FALSE_CODE = 2 *)
Definition vcode (x : var) : Z := - Z.of_nat x - 1.
Definition scode (f : sym) : Z := Z.of_nat f + 1.

Section Bank.
  (** SizeMalloc: the n-th allocator call, on the given memory *)
  Variable alloc : nat -> (Z -> option cell) -> Z.

  Definition new_cell (b : bank) (c : cell) : bank * Z :=
    let a := alloc (tick b) (heap b) in (set_mem b (S (tick b)) (upd (heap b) a (Some c)), a).

  (** TermTopCopyWithoutArgs, cte_termtypes.h:742-760 (keeps only TPPredPos); the arguments are filled in later *)
  Definition new_top (b : bank) (f : Z) (n : nat) : bank * Z :=
    new_cell b (mkcell f (repeat 0 n) false false None 0 0 0).

  (** VarBankVarAssertAlloc cte_termvars.h:171-189 and var_bank_var_alloc cte_termvars.c:478-511; a non-negative code is outside
      the array *)
  Definition var_assert_alloc (b : bank) (f : Z) : res (bank * Z) :=
    if f <? 0 then
      match varcell b f with
      | Some a => Ok (b, a)
      | None => let '(b1, a) := new_cell b (mkcell f [] false false None DEFAULT_VWEIGHT 1 0) in Ok (set_var b1 f a, a)
      end
    else Undef.

  (** TermCellStoreInsert, cte_termcellstore.c:163-174 *)
  Definition store_insert (b : bank) (k : key) (a : Z) : option Z * bank :=
    let i := hash k in
    match insert key Z top_cmp (store b i) k a with
    | (Some (_, a'), tr) => (Some a', set_store b (upd (store b) i tr) (entries b))
    | (None, tr) => (None, set_store b (upd (store b) i tr) (entries b + 1))
    end.

  (** the loop over the arguments, cte_termbanks.c:203-232 *)
  Fixpoint sum_args (h : Z -> option cell) (l : list Z) (w v f : Z) : option (Z * Z * Z) :=
    match l with
    | [] => Some (w, v, f)
    | x :: l' =>
        match h x with
        | None => None
        | Some c =>
            if fcode c <? 0 then sum_args h l' (w + DEFAULT_VWEIGHT) (wrap32 (v + 1)) f
            else sum_args h l' (w + weight c) (wrap32 (v + v_count c)) (wrap32 (f + f_count c))
        end
    end.

  (** tb_termtop_insert, cte_termbanks.c:132-268 *)
  Definition top_insert (b0 : bank) (a : Z) : res (bank * Z) :=
    let b := count_insert b0 in
    match heap b a with
    | None => Undef
    | Some c =>
        match store_insert b (ckey c) a with
        | (Some a', b1) =>
            match heap b1 a' with
            | None => Undef
            | Some c' => Ok (free_cell (write b1 a' (set_gflag c' (gflag c' || gflag c))) a, a')
            end
        | (None, b1) =>
            match sum_args (heap b1) (cargs c) (DEFAULT_FWEIGHT * 1) 0 1 with
            | None => Undef
            | Some (w, v, f) => Ok (write b1 a (mkcell (fcode c) (cargs c) (gstate b1) (v =? 0) (replace c) w v f), a)
            end
        end
    end.

  (** "t->args[i] = ..." for all i *)
  Definition ins_args {A} (ins : A -> bank -> res (bank * Z)) :=
    fix go (l : list A) (b : bank) : res (bank * list Z) :=
      match l with
      | [] => Ok (b, [])
      | t :: l' => rbind (ins t b) (fun '(b1, x) => rbind (go l' b1) (fun '(b2, xs) => Ok (b2, x :: xs)))
      end.
  Definition fill (b : bank) (a : Z) (xs : list Z) : res bank :=
    match heap b a with None => Undef | Some c => Ok (write b a (set_args c xs)) end.

  (** TBInsert, cte_termbanks.c:862-896, on a term outside the bank (already dereferenced) *)
  Fixpoint tb_insert (t : term) (b : bank) {struct t} : res (bank * Z) :=
    match t with
    | Var x => var_assert_alloc b (vcode x)
    | Fun f args =>
        let '(b1, a) := new_top b (scode f) (length args) in
        rbind (ins_args tb_insert args b1) (fun '(b2, xs) => rbind (fill b2 a xs) (fun b3 => top_insert b3 a))
    end.

  (** TBInsertInstantiatedFO, cte_termbanks.c:1227-1269; [bnd] gives the binding fields *)
  Fixpoint tb_inst (fuel : nat) (bnd : Z -> option Z) (a : Z) (b : bank) : res (bank * Z) :=
    match fuel with
    | O => NoFuel
    | S n =>
        match heap b a with
        | None => Undef
        | Some c =>
            if ground c then Ok (b, a)
            else match bnd a with
                 | Some r => Ok (b, r)
                 | None =>
                     if fcode c <? 0 then var_assert_alloc b (fcode c)
                     else let '(b1, a1) := new_top b (fcode c) (length (cargs c)) in
                          rbind (ins_args (tb_inst n bnd) (cargs c) b1) (fun '(b2, xs) =>
                          rbind (fill b2 a1 xs) (fun b3 => top_insert b3 a1))
                 end
        end
    end.

  (** the "changed" flag, cte_termbanks.c:1189-1192 *)
  Definition changed (xs ys : list Z) : bool := existsb (fun p => negb (fst p =? snd p)) (combine xs ys).

  (** TBInsertReplPlain, cte_termbanks.c:1156-1205 *)
  Fixpoint tb_repl (fuel : nat) (old repl a : Z) (b : bank) : res (bank * Z) :=
    match fuel with
    | O => NoFuel
    | S n =>
        if a =? old then Ok (b, repl)
        else match heap b a, heap b old with
             | Some c, Some co =>
                 if weight c <=? weight co then Ok (b, a)
                 else if fcode c <? 0 then Ok (b, a)
                 else let '(b1, a1) := new_top b (fcode c) (length (cargs c)) in
                      rbind (ins_args (tb_repl n old repl) (cargs c) b1) (fun '(b2, xs) =>
                      rbind (fill b2 a1 xs) (fun b3 =>
                      if changed xs (cargs c) then top_insert b3 a1 else Ok (free_cell b3 a1, a)))
             | _, _ => Undef
             end
    end.

  (** TBInsertDisjoint, cte_termbanks.c:1436-1472, with VarBankGetAltVar cte_termvars.h:204-213 *)
  Fixpoint tb_disjoint (fuel : nat) (a : Z) (b : bank) : res (bank * Z) :=
    match fuel with
    | O => NoFuel
    | S n =>
        match heap b a with
        | None => Undef
        | Some c =>
            if ground c then Ok (b, a)
            else if fcode c <? 0 then var_assert_alloc b (fcode c + 1)
            else let '(b1, a1) := new_top b (fcode c) (length (cargs c)) in
                 rbind (ins_args (tb_disjoint n) (cargs c) b1) (fun '(b2, xs) =>
                 rbind (fill b2 a1 xs) (fun b3 => top_insert b3 a1))
        end
    end.

  (** TBFind cte_termbanks.c:1532-1543 (TermCellStoreFind cte_termcellstore.c:144-148); NULL is 0 *)
  Definition store_find (b : bank) (k : key) : Z * bank :=
    let i := hash k in
    match find key Z top_cmp (store b i) k with
    | (Some (_, a), tr) => (a, set_store b (upd (store b) i tr) (entries b))
    | (None, tr) => (0, set_store b (upd (store b) i tr) (entries b))
    end.
  (** TBFindRepr, cte_termbanks.c:2287-2307, on a term outside the bank.  The temporary top cell (allocated and freed here) is
      represented by its key only. *)
  Fixpoint tb_find (t : term) (b : bank) {struct t} : Z * bank :=
    match t with
    | Var x => (match varcell b (vcode x) with Some a => a | None => 0 end, b)
    | Fun f args =>
        let '(xs, b1) := (fix go (l : list term) (b : bank) : list Z * bank :=
                            match l with
                            | [] => ([], b)
                            | t :: l' => let '(x, b1) := tb_find t b in let '(xs, b2) := go l' b1 in (x :: xs, b2)
                            end) args b in
        store_find b1 (scode f, xs)
    end.

  (** TBCreateMinTerm, cte_termbanks.c:2223-2236 *)
  Definition create_min (b : bank) (ty : nat) (f : sym) : res (bank * Z) :=
    match List.find (fun p => Nat.eqb (fst p) ty) (min_terms b) with
    | Some (_, a) => Ok (b, a)
    | None => rbind (tb_insert (Fun f []) b) (fun '(b1, a) => Ok (set_min b1 ((ty, a) :: min_terms b1), a))
    end.

  (** TBAlloc, cte_termbanks.c:740-774 *)
  Definition empty_bank : bank :=
    mkbank 0 (fun _ => None) (fun _ => Leaf) 0 (fun _ => None) false 0 0 [] 0 0.
  Definition tb_alloc : res bank :=
    rbind (tb_insert (Fun 0%nat []) empty_bank) (fun '(b1, tt1) =>
    rbind (tb_insert (Fun 1%nat []) b1) (fun '(b2, ff) =>
    Ok (mkbank (tick b2) (heap b2) (store b2) (entries b2) (varcell b2) (gstate b2) tt1 ff [] (insertions b2) (recovered b2)))).

  (** TermAddRWLink cte_replace.c:66-87 and TermDeleteRWLink :102-110 *)
  Definition set_link (b : bank) (a : Z) (r : option Z) : res bank :=
    match heap b a with None => Undef | Some c => Ok (write b a (set_replace c r)) end.

  (** TBGCMarkTerm, cte_termbanks.c:2100-2131; TBTermCellIsMarked is gflag != garbage_state *)
  Fixpoint gc_mark (fuel : nat) (b : bank) (stack : list Z) : res bank :=
    match stack with
    | [] => Ok b
    | a :: st =>
        match fuel with
        | O => NoFuel
        | S n =>
            match heap b a with
            | None => Undef
            | Some c =>
                if Bool.eqb (gflag c) (gstate b)
                then gc_mark n (write b a (set_gflag c (negb (gflag c))))
                       (match replace c with Some r => [r] | None => [] end ++ rev (cargs c) ++ st)
                else gc_mark n b st
            end
        end
    end.
  Fixpoint gc_mark_all (fuel : nat) (b : bank) (roots : list Z) : res bank :=
    match roots with [] => Ok b | r :: rs => rbind (gc_mark fuel b [r]) (fun b1 => gc_mark_all fuel b1 rs) end.

  (** collect_unmarked_termcells, cte_termcellstore.c:57-78: the result stack, bottom first *)
  Fixpoint collect_unmarked (h : Z -> option cell) (g : bool) (t : ktree) : res (list Z) :=
    match t with
    | Leaf => Ok []
    | Node l _ a r =>
        match h a with
        | None => Undef
        | Some c =>
            rbind (collect_unmarked h g r) (fun xs => rbind (collect_unmarked h g l) (fun ys =>
            Ok ((if Bool.eqb (gflag c) g then [a] else []) ++ xs ++ ys)))
        end
    end.

  (** TermCellStoreDelete, cte_termcellstore.c:214-227 with TermTreeDelete cte_termtrees.c:368-379.  (The C code decreases
      arg_count by term->arity after the cell has been freed; arg_count is not modelled.) *)
  Definition store_delete (b : bank) (a : Z) : res bank :=
    match heap b a with
    | None => Undef
    | Some c =>
        let i := hash (ckey c) in
        match extract key Z top_cmp (store b i) (ckey c) with
        | (Some (_, a'), tr) => Ok (free_cell (set_store b (upd (store b) i tr) (entries b - 1)) a')
        | (None, tr) => Ok (set_store b (upd (store b) i tr) (entries b))
        end
    end.
  (** the loops of TermCellStoreGCSweep, cte_termcellstore.c:316-335 *)
  Fixpoint delete_all (b : bank) (l : list Z) : res bank :=
    match l with [] => Ok b | a :: l' => rbind (store_delete b a) (fun b1 => delete_all b1 l') end.
  Fixpoint sweep_buckets (b : bank) (is : list Z) (n : Z) : res (bank * Z) :=
    match is with
    | [] => Ok (b, n)
    | i :: is' =>
        rbind (collect_unmarked (heap b) (gstate b) (store b i)) (fun l =>
        rbind (delete_all b (rev l)) (fun b1 => sweep_buckets b1 is' (n + Z.of_nat (length l))))
    end.
  Fixpoint upto (x : Z) (n : nat) : list Z := match n with O => [] | S n' => x :: upto (x + 1) n' end.
  Definition bucket_list : list Z := upto 0 (Z.to_nat 32768).

  (** TBGCSweep, cte_termbanks.c:2148-2184 *)
  Definition gc_sweep (fuel : nat) (b : bank) : res (bank * Z) :=
    rbind (gc_mark fuel b [true_term b]) (fun b1 =>
    rbind (gc_mark fuel b1 [false_term b1]) (fun b2 =>
    rbind (gc_mark_all fuel b2 (map snd (min_terms b2))) (fun b3 =>
    rbind (sweep_buckets b3 bucket_list 0) (fun '(b4, n) =>
    Ok (mkbank (tick b4) (heap b4) (store b4) (entries b4) (varcell b4) (negb (gstate b4)) (true_term b4) (false_term b4)
          (min_terms b4) (insertions b4) (recovered b4 + n), n))))).

  (** TBGCCollect, ccl_garbage_coll.c:61-87: [roots] are the terms of the literals of the registered clauses and formulas *)
  Definition gc_collect (fuel : nat) (roots : list Z) (b : bank) : res (bank * Z) :=
    rbind (gc_mark_all fuel b roots) (fun b1 => gc_sweep fuel b1).
End Bank.

(** ** Specification vocabulary *)

(** an allocator that never hands out memory in use (nor NULL); at the call after [n] earlier ones at most [n] cells are in use *)
Definition fair_alloc (alloc : nat -> (Z -> option cell) -> Z) : Prop :=
  forall n h (used : list Z), (length used <= n)%nat -> (forall x, h x <> None -> In x used) -> h (alloc n h) = None /\ 0 < alloc n h.
(** one of them: first fit *)
Fixpoint fit (h : Z -> option cell) (x : Z) (n : nat) : Z :=
  match n with O => x | S n' => match h x with None => x | Some _ => fit h (x + 1) n' end end.
Definition first_fit (n : nat) (h : Z -> option cell) : Z := fit h 1 n.

(** the term a cell stands for *)
Fixpoint denotes (h : Z -> option cell) (a : Z) (t : term) {struct t} : Prop :=
  match t with
  | Var x => exists c, h a = Some c /\ fcode c = vcode x
  | Fun f ts =>
      exists c, h a = Some c /\ fcode c = scode f /\
        (fix all (ts : list term) (xs : list Z) {struct ts} : Prop :=
           match ts, xs with
           | [], [] => True
           | t :: ts', x :: xs' => denotes h x t /\ all ts' xs'
           | _, _ => False
           end) ts (cargs c)
  end.

(** the cell is in the hash table, or is the cell of a variable *)
Definition stored (b : bank) (a : Z) : Prop := exists k, find_binary key Z top_cmp (store b (hash k)) k = Some (k, a).
Definition is_var (b : bank) (a : Z) : Prop := exists f, varcell b f = Some a.
Definition shared (b : bank) (a : Z) : Prop := stored b a \/ is_var b a.

(** number of variable and of function symbol occurrences *)
Fixpoint nvars (t : term) : Z := match t with Var _ => 1 | Fun _ ts => fold_right (fun t n => nvars t + n) 0 ts end.
Fixpoint nsyms (t : term) : Z := match t with Var _ => 0 | Fun _ ts => 1 + fold_right (fun t n => nsyms t + n) 0 ts end.

(** cells reachable from a set of roots through arguments and rewrite links *)
Inductive reachable (h : Z -> option cell) (roots : list Z) : Z -> Prop :=
| reach_root a : In a roots -> reachable h roots a
| reach_arg a c x : reachable h roots a -> h a = Some c -> In x (cargs c) -> reachable h roots x
| reach_link a c x : reachable h roots a -> h a = Some c -> replace c = Some x -> reachable h roots x.
(** what the collector always keeps besides the given roots *)
Definition all_roots (b : bank) (roots : list Z) : list Z := roots ++ true_term b :: false_term b :: map snd (min_terms b).

(** nothing but the garbage flag differs *)
Definition same_cell (c c' : cell) : Prop := c' = set_gflag c (gflag c').

(** VarIsAltVar, cte_termvars.h: ordinary variables have even f_codes, i.e. odd numbers here; the alternative of a variable *)
Definition alt_var (x : var) : term := Var (x - 1)%nat.
(** height of a term *)
Fixpoint tdepth (t : term) : nat := match t with Var _ => 1 | Fun _ ts => S (fold_right (fun t n => Nat.max (tdepth t) n) 0%nat ts) end.

(** replacing every occurrence of [s] in a term by [r] *)
Fixpoint replace_all (s r t : term) : term :=
  if term_eqb t s then r else match t with Var x => Var x | Fun f ts => Fun f (map (replace_all s r) ts) end.

(** the calls of the interface that do not collect garbage, with any arguments a program may pass *)
Inductive use (alloc : nat -> (Z -> option cell) -> Z) : bank -> bank -> Prop :=
| use_insert t b b' a : tb_insert alloc t b = Ok (b', a) -> use alloc b b'
| use_inst n bnd x b b' a : shared b x -> (forall y r, bnd y = Some r -> is_var b y /\ shared b r) ->
    tb_inst alloc n bnd x b = Ok (b', a) -> use alloc b b'
| use_repl n old repl x b b' a : shared b x -> shared b old -> shared b repl ->
    tb_repl alloc n old repl x b = Ok (b', a) -> use alloc b b'
| use_disjoint n x t b b' a : shared b x -> denotes (heap b) x t -> (forall v, In v (vars t) -> Nat.odd v = true) ->
    tb_disjoint alloc n x b = Ok (b', a) -> use alloc b b'
| use_find t b b' a : tb_find t b = (a, b') -> use alloc b b'
| use_min ty f b b' a : create_min alloc b ty f = Ok (b', a) -> use alloc b b'
| use_link x r b b' : stored b x -> (forall y, r = Some y -> shared b y) -> set_link b x r = Ok b' -> use alloc b b'.

(** the states a program can bring a bank into: calls and garbage collections in any order *)
Inductive program_state (alloc : nat -> (Z -> option cell) -> Z) : bank -> Prop :=
| ps_start b : tb_alloc alloc = Ok b -> program_state alloc b
| ps_use b b' : program_state alloc b -> use alloc b b' -> program_state alloc b'
| ps_gc n roots b b' k : program_state alloc b -> (forall x, In x roots -> shared b x) ->
    gc_collect n roots b = Ok (b', k) -> program_state alloc b'.

(** histories during which a given cell is never garbage: in every collection it is reachable from the roots *)
Inductive keeping (alloc : nat -> (Z -> option cell) -> Z) (a : Z) : bank -> bank -> Prop :=
| keep_refl b : keeping alloc a b b
| keep_use b b' b'' : keeping alloc a b b' -> use alloc b' b'' -> keeping alloc a b b''
| keep_gc n roots b b' b'' k : keeping alloc a b b' -> (forall x, In x roots -> shared b' x) ->
    reachable (heap b') (all_roots b' roots) a -> gc_collect n roots b' = Ok (b'', k) -> keeping alloc a b b''.
