(** * Model of perfect discrimination trees (CLAUSES/ccl_pdtrees.c), the index of the demodulators.
    First-order build: lambda terms, applied variables and the eta steps are not modelled. *)
From Verif Require Import Terms Unify.

(** Branch of a node: f_alternatives is keyed by function symbol (an IntMap), v_alternatives by variable (a PObjMap);
    pdt_select_alt_ref, ccl_pdtrees.c:104-130.  The two maps are one association list here, with disjoint keys. *)
Inductive key := KF (f : sym) | KV (x : var).

Definition key_eqb (a b : key) : bool :=
  match a, b with KF f, KF g => Nat.eqb f g | KV x, KV y => Nat.eqb x y | _, _ => false end.

(** The branch a term cell selects. *)
Definition head_key (t : term) : key := match t with Var x => KV x | Fun f _ => KF f end.

(** TermLRTraverseNext, ccl_pdtrees.c:1011-1034: pop a term, push its arguments so that the first is on top. *)
Definition lr_next (stack : list term) : option (term * list term) :=
  match stack with
  | [] => None
  | Var x :: r => Some (Var x, r)
  | Fun f a :: r => Some (Fun f a, a ++ r)
  end.

(** The loop "curr = TermLRTraverseNext(stack); while(curr) ..." of PDTreeInsertTerm/PDTreeDelete/PDTreeMatchPrefix:
    the branches it selects, in order. [None] = fuel exhausted. *)
Fixpoint lr_seq (fuel : nat) (stack : list term) : option (list key) :=
  match fuel with
  | O => None
  | S n => match lr_next stack with
           | None => Some []
           | Some (t, r) => option_map (cons (head_key t)) (lr_seq n r)
           end
  end.

(** The same sequence by recursion on the term (PDTreeProofs.lr_seq_keys). *)
Fixpoint keys (t : term) : list key :=
  match t with Var x => [KV x] | Fun f a => KF f :: flat_map keys a end.

(** LONG_MAX *)
Definition long_max : Z := (2 ^ 63 - 1)%Z.

Section Tree.
  (** The entries (ClausePos_p): the indexed term (ClausePosGetSide), the clause (a pointer) and its date.
      Simplification: the set of entries of a node (a PTree of freshly allocated positions) is a list. *)
  Context {A : Type}.
  Variables (aterm : A -> term) (aclause : A -> nat) (adate : A -> Z).
  (** Order of the keys inside the alternatives of a node (addresses of variable cells): arbitrary. *)
  Variable rank : key -> Z.
  (** PDTreeUseSizeConstraints, PDTreeUseAgeConstraints, ccl_pdtrees.c:33-34 *)
  Variables (use_size use_age : bool).

  (** PDTNodeCell, ccl_pdtrees.h:49-83: size_constr, age_constr, ref_count, leaf, entries, alternatives.
      A [None] alternative is a key whose value is NULL (left behind by PObjMapGetRef/IntMapGetRef).
      The search state fields (prev_subst, var_traverse_stack, trav_state) are in [frame]; the parent pointer
      and the variable field are given by the position. *)
  Inductive node := Node (sz ag rc : Z) (lf : bool) (es : list A) (ks : list (key * option node)).

  Definition n_size n := match n with Node sz _ _ _ _ _ => sz end.
  Definition n_age n := match n with Node _ ag _ _ _ _ => ag end.
  Definition n_ref n := match n with Node _ _ rc _ _ _ => rc end.
  Definition n_leaf n := match n with Node _ _ _ lf _ _ => lf end.
  Definition n_entries n := match n with Node _ _ _ _ es _ => es end.
  Definition n_kids n := match n with Node _ _ _ _ _ ks => ks end.

  (** PDTNodeAlloc, ccl_pdtrees.c:902-923 *)
  Definition node_alloc : node := Node long_max 0 0 true [] [].

  (** IntMapGetVal / PObjMapFind *)
  Fixpoint kfind (k : key) (l : list (key * option node)) : option node :=
    match l with
    | [] => None
    | (k', o) :: r => if key_eqb k k' then o else kfind k r
    end.

  (** writing through the reference returned by IntMapGetRef / PObjMapGetRef (clb_objmaps.c:282-312): the key is added
      if it is not there *)
  Fixpoint kset (k : key) (v : option node) (l : list (key * option node)) : list (key * option node) :=
    match l with
    | [] => [(k, v)]
    | (k', o) :: r =>
        if key_eqb k k' then (k, v) :: r
        else if (rank k <? rank k')%Z && negb (existsb (fun p => key_eqb k (fst p)) r) then (k, v) :: l
        else (k', o) :: kset k v r
    end.

  (** PObjMapExtract / IntMapDelKey *)
  Definition kdel (k : key) (l : list (key * option node)) := filter (fun p => negb (key_eqb k (fst p))) l.

  (** pos_tree_compute_size_constraint 231-248, pos_tree_compute_age_constraint 352-369 *)
  Definition ents_size (es : list A) : Z := fold_left (fun r e => Z.min r (stdweight (aterm e))) es long_max.
  Definition ents_age (es : list A) : Z := fold_left (fun r e => Z.max r (adate e)) es 0%Z.

  (** PDTNodeGetSizeConstraint (ccl_pdtrees.h:165) with pdt_compute_size_constraint 264-290: -1 means "recompute".
      The iteration over the successors ends at the first NULL value (184-215).
      The value stored back into the node is modelled by [refresh]. *)
  Fixpoint get_size (n : node) : Z :=
    match n with
    | Node sz _ _ lf es ks =>
        if (sz =? -1)%Z then
          if lf then ents_size es
          else (fix go (l : list (key * option node)) (acc : Z) : Z :=
                  match l with
                  | (_, Some c) :: r => go r (Z.min acc (get_size c))
                  | _ => acc
                  end) ks (ents_size es)
        else sz
    end.

  (** PDTNodeGetAgeConstraint (ccl_pdtrees.h:166) with pdt_compute_age_constraint 386-412 *)
  Fixpoint get_age (n : node) : Z :=
    match n with
    | Node _ ag _ lf es ks =>
        if (ag =? -1)%Z then
          if lf then ents_age es
          else (fix go (l : list (key * option node)) (acc : Z) : Z :=
                  match l with
                  | (_, Some c) :: r => go r (Z.max acc (get_age c))
                  | _ => acc
                  end) ks (ents_age es)
        else ag
    end.

  (** The caching side effect of the two functions above: any of the invalid constraints may have been recomputed. *)
  Fixpoint refresh (n m : node) {struct n} : Prop :=
    match n, m with
    | Node sz ag rc lf es ks, Node sz' ag' rc' lf' es' ks' =>
        rc' = rc /\ lf' = lf /\ es' = es /\
        (sz' = sz \/ (sz = -1 /\ sz' = get_size n)%Z) /\ (ag' = ag \/ (ag = -1 /\ ag' = get_age n)%Z) /\
        (fix go (l l' : list (key * option node)) {struct l} : Prop :=
           match l, l' with
           | [], [] => True
           | (k, Some c) :: r, (k', Some c') :: r' => k' = k /\ refresh c c' /\ go r r'
           | (k, None) :: r, (k', None) :: r' => k' = k /\ go r r'
           | _, _ => False
           end) ks ks'
    end.

  (** ** PDTreeInsertTerm, 1102-1180 (store_data = true), along the branches selected by the term. [w] is its weight. *)
  Definition bump (w d : Z) (n : node) : node :=
    match n with
    | Node sz ag rc lf es ks =>
        Node (Z.min w sz) (if (ag =? -1)%Z then ag else Z.max d ag) (rc + 1) lf es ks
    end.

  Fixpoint ins (n : node) (p : list key) (w : Z) (e : A) : node :=
    match bump w (adate e) n with
    | Node sz ag rc lf es ks =>
        match p with
        | [] => Node sz ag rc lf (e :: es) ks                                       (* PTreeStore, 1175 *)
        | k :: p' =>
            match kfind k ks with
            | Some c => Node sz ag rc lf es (kset k (Some (ins c p' w e)) ks)
            | None => Node sz ag rc false es (kset k (Some (ins node_alloc p' w e)) ks)   (* 1146-1159 *)
            end
        end
    end.

  Definition pdt_insert (root : node) (e : A) : node := ins root (keys (aterm e)) (stdweight (aterm e)) e.

  (** ** PDTreeDelete, 1249-1358 *)
  (** 1291-1298, 1339-1346 *)
  Definition invalidate (w d : Z) (n : node) : node :=
    match n with
    | Node sz ag rc lf es ks => Node (if (w =? sz)%Z then -1 else sz) (if (ag =? d)%Z then -1 else ag) rc lf es ks
    end%Z.

  (** The new node and the number of entries deleted; [None] if the path ended at a NULL reference (1349-1352):
      then pdt_select_alt_ref has left a key without value behind. *)
  Fixpoint del (n : node) (p : list key) (w : Z) (c : nat) (d : Z) : node * option Z :=
    match n with
    | Node sz ag rc lf es ks =>
        match p with
        | [] =>
            let es' := filter (fun e => negb (Nat.eqb (aclause e) c)) es in           (* delete_clause_entries 477-505 *)
            (invalidate w d (Node sz ag rc lf es' ks), Some (Z.of_nat (length es) - Z.of_nat (length es'))%Z)
        | k :: p' =>
            match kfind k ks with
            | None => (Node sz ag rc lf es (kset k None ks), None)
            | Some m =>
                match del m p' w c d with
                | (m', None) => (Node sz ag rc lf es (kset k (Some m') ks), None)
                | (Node sz1 ag1 rc1 lf1 es1 ks1, Some res) =>
                    let rc2 := (rc1 - res)%Z in                                     (* 1305 *)
                    let ks' := if (rc2 =? 0)%Z then kdel k ks                       (* 1306-1332 *)
                               else kset k (Some (Node sz1 ag1 rc2
                                      (if (rc2 =? Z.of_nat (length es1))%Z then true else lf1) es1 ks1)) ks in
                    (invalidate w d (Node sz ag rc lf es ks'), Some res)
                end
            end
        end
    end.

  Definition pdt_delete (root : node) (t : term) (c : nat) (d : Z) : node :=
    fst (del root (keys t) (stdweight t) c d).

  (** ** Searching *)
  (** Search state of one node on the current path: trav_state, var_traverse_stack, prev_subst; and how it was entered
      ([Some x]: the variable field is set). *)
  Record frame := { fn : node; fvar : option var; fstt : nat; fvs : list (var * option node); fprev : nat }.

  (** PDTreeCell, ccl_pdtrees.h:88-108: tree_pos with its parents ([] = NULL), term_stack, term_proc, term_weight, store_stack. *)
  Record sstate := { frames : list frame; tstack : list term; tproc : list term; tweight : Z; store : option (list A) }.

  Fixpoint vlist (l : list (key * option node)) : list (var * option node) :=
    match l with
    | [] => []
    | (KV x, o) :: r => (x, o) :: vlist r
    | _ :: r => vlist r
    end.
  Definition valts (n : node) := vlist (n_kids n).

  Variables (S : sorting) (pp : sym -> bool).
  (** prefer_general of PDTreeSearchInit, 1391-1402 (it makes the symbols come first); term_date *)
  Variables (general : bool) (date : Z).

  (** A node that is entered: trav_state 0, and the variable traversal initialised if it comes first (603-612, 668-677). *)
  Definition enter (n : node) (v : option var) (prev : nat) : frame :=
    {| fn := n; fvar := v; fstt := 0; fvs := if general then [] else valts n; fprev := prev |}.

  (** PDTreeSearchInit, 1373-1408 *)
  Definition search_init (root : node) (t : term) : sstate :=
    {| frames := [enter root None 0]; tstack := [t]; tproc := []; tweight := stdweight t; store := None |}.

  (** pdtree_verify_node_constr, 521-543 *)
  Definition verify (n : node) (w : Z) : bool :=
    negb (use_size && (w <? get_size n)%Z) && negb (use_age && negb (date =? 0)%Z && negb (date <? get_age n)%Z).

  (** 629-661: the test at a variable node *)
  Definition var_try (st : bstate) (x : var) (t : term) : option bstate :=
    if Nat.eqb (vsort S x) (tsort S t) then
      match bnd st x with
      | Some u => if term_eqb u t then Some st else None
      | None => match smatch 2 S pp st (Var x) t with Success st' => Some st' | _ => None end
      end
    else None.

  (** the TRAVERSING_VARIABLES branch repeated until it succeeds or PObjMapTraverseNext returns NULL, 624-694 *)
  Fixpoint try_vars (st : bstate) (t : term) (l : list (var * option node)) :
    option (var * node * bstate * list (var * option node)) :=
    match l with
    | (x, Some c) :: r => match var_try st x t with
                          | Some st' => Some (x, c, st', r)
                          | None => try_vars st t r
                          end
    | _ => None
    end.

  Definition set_top (s : sstate) (f : frame) : sstate :=
    {| frames := match frames s with [] => [] | _ :: r => f :: r end; tstack := tstack s; tproc := tproc s;
       tweight := tweight s; store := store s |}.

  (** 584-618; [f] is the current frame with its new trav_state *)
  Definition fwd_syms (s : sstate) (f : frame) (t : term) (rest : list term) (st : bstate) : option (sstate * bstate) :=
    match t with
    | Var _ => None
    | Fun g a =>
        match kfind (KF g) (n_kids (fn f)) with
        | None => None
        | Some c => Some ({| frames := enter c None (length (trail st)) :: f :: tl (frames s);
                             tstack := a ++ rest; tproc := t :: tproc s; tweight := tweight s; store := store s |}, st)
        end
    end.

  (** 664-687 *)
  Definition fwd_vars (s : sstate) (f : frame) (t : term) (rest : list term) (st : bstate) : option (sstate * bstate) :=
    match try_vars st t (fvs f) with
    | None => None
    | Some (x, c, st', r) =>
        Some ({| frames := enter c (Some x) (length (trail st)) ::
                           {| fn := fn f; fvar := fvar f; fstt := fstt f; fvs := r; fprev := fprev f |} :: tl (frames s);
                 tstack := rest; tproc := t :: tproc s;
                 tweight := (tweight s - (stdweight t - 1))%Z; store := store s |}, st')
    end.

  Definition with_st (f : frame) (i : nat) (l : list (var * option node)) : frame :=
    {| fn := fn f; fvar := fvar f; fstt := i; fvs := l; fprev := fprev f |}.

  (** pdtree_forward, 560-697 *)
  Definition forward (s : sstate) (f : frame) (st : bstate) : sstate * bstate :=
    match tstack s with
    | [] => (set_top s (with_st f 2 []), st)                            (* 566-570 *)
    | t :: rest =>
        let or o (k : sstate * bstate) := match o with Some r => r | None => k end in
        if general then
          let vars_phase :=
            fun f1 => or (fwd_vars s f1 t rest st) (set_top s (with_st f1 2 []), st) in
          match fstt f with
          | 0 => let f1 := with_st f 1 (valts (fn f)) in
                 or (fwd_syms s f1 t rest st) (vars_phase f1)
          | 1 => vars_phase f
          | _ => (s, st)
          end
        else
          let syms_phase :=
            fun f1 => or (fwd_syms s (with_st f1 2 (fvs f1)) t rest st) (set_top s (with_st f1 2 (fvs f1)), st) in
          match fstt f with
          | 0 => or (fwd_vars s f t rest st) (syms_phase (with_st f 1 []))
          | 1 => syms_phase f
          | _ => (s, st)
          end
    end.

  (** pdtree_backtrack, 711-731. [None]: a pop from an empty stack. *)
  Definition pdt_backtrack (s : sstate) (st : bstate) : option (sstate * bstate) :=
    match frames s with
    | [] => None
    | f :: r =>
        match fvar f with
        | Some x =>
            match tproc s with
            | [] => None
            | t :: pr => Some ({| frames := r; tstack := t :: tstack s; tproc := pr;
                                  tweight := (tweight s + (stdweight t - 1))%Z; store := store s |},
                               backtrack_to_pos st (fprev f))
            end
        | None =>
            match r with
            | [] => Some ({| frames := []; tstack := tstack s; tproc := tproc s; tweight := tweight s; store := store s |}, st)
            | _ =>
                match tproc s with
                | [] => None
                | t :: pr =>                                             (* TermLRTraversePrev, 1050-1064 *)
                    let k := match t with Var _ => 0 | Fun _ a => length a end in
                    if Nat.ltb (length (tstack s)) k then None
                    else Some ({| frames := r; tstack := t :: skipn k (tstack s); tproc := pr;
                                  tweight := tweight s; store := store s |}, st)
                end
            end
        end
    end.

  Definition is_nil {B} (l : list B) : bool := match l with [] => true | _ => false end.

  (** One iteration of the loop in PDTreeFindNextIndexedLeaf, 1452-1476; the flag says that the loop is left by break. *)
  Definition leaf_step (s : sstate) (st : bstate) : option (bool * sstate * bstate) :=
    match frames s with
    | [] => None
    | f :: _ =>
        if negb (verify (fn f) (tweight s)) || Nat.eqb (fstt f) 2 then
          match pdt_backtrack s st with Some (s', st') => Some (false, s', st') | None => None end
        else if n_leaf (fn f) && is_nil (tstack s) then Some (true, set_top s (with_st f 2 (fvs f)), st)
        else let '(s', st') := forward s f st in
             Some (match frames s' with
                   | f' :: _ => negb (is_nil (n_entries (fn f'))) && is_nil (tstack s')
                   | [] => false
                   end, s', st')
    end.

  (** PDTreeFindNextIndexedLeaf, 1450-1478 *)
  Fixpoint find_leaf (fuel : nat) (s : sstate) (st : bstate) : option (sstate * bstate) :=
    match frames s with
    | [] => Some (s, st)
    | _ => match fuel with
           | O => None
           | Datatypes.S n => match leaf_step s st with
                    | None => None
                    | Some (true, s', st') => Some (s', st')
                    | Some (false, s', st') => find_leaf n s' st'
                    end
           end
    end.

  Definition with_store (s : sstate) (o : option (list A)) : sstate :=
    {| frames := frames s; tstack := tstack s; tproc := tproc s; tweight := tweight s; store := o |}.

  (** PDTreeFindNextDemodulator, 1493-1521 *)
  Fixpoint next_demod (fuel : nat) (s : sstate) (st : bstate) : option (option A * sstate * bstate) :=
    match fuel with
    | O => None
    | Datatypes.S n =>
      match frames s with
      | [] => Some (None, s, st)
      | _ =>
        match store s with
        | Some (e :: r) => Some (Some e, with_store s (Some r), st)
        | _ =>
          match find_leaf n (with_store s None) st with
          | None => None
          | Some (s', st') =>
              next_demod n (match frames s' with
                            | [] => s'
                            | f :: _ => with_store s' (Some (n_entries (fn f)))
                            end) st'
          end
        end
      end
    end.

  (** The retrieval loop "while((pos = PDTreeFindNextDemodulator(tree, subst)))" of indexed_find_demodulator
      (ccl_rewrite.c:583), for a caller that does not change the bindings: the entries returned, each with the bindings
      in force at that moment, and the bindings after the last call. *)
  Fixpoint collect (fuel : nat) (s : sstate) (st : bstate) : option (list (A * bstate) * bstate) :=
    match fuel with
    | O => None
    | Datatypes.S n =>
      match next_demod n s st with
      | None => None
      | Some (None, _, st') => Some ([], st')
      | Some (Some e, s', st') =>
          match collect n s' st' with
          | None => None
          | Some (l, st2) => Some ((e, st') :: l, st2)
          end
      end
    end.

  Definition retrieve (fuel : nat) (root : node) (t : term) : option (list (A * bstate) * bstate) :=
    collect fuel (search_init root t) {| bnd := fun _ => None; trail := [] |}.

  (** ** Specification vocabulary *)

  (** [history n L]: n is a possible tree after insertions and deletions (and searches, which only recompute cached
      constraints), when L is what has been inserted and not deleted.  A deletion names a term that is indexed. *)
  Inductive history : node -> list A -> Prop :=
  | h_new : history node_alloc []
  | h_insert : forall n L e, history n L -> wf S (aterm e) -> (0 <= adate e)%Z -> history (pdt_insert n e) (e :: L)
  | h_delete : forall n L t c d, history n L -> (exists e, In e L /\ aterm e = t) ->
      history (pdt_delete n t c d) (filter (fun e => negb (term_eqb (aterm e) t && Nat.eqb (aclause e) c)) L)
  | h_search : forall n L m, history n L -> refresh n m -> history m L.
End Tree.
