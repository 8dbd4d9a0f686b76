(** * Model of E's top-down splay trees.

    The same algorithm is written out four times: BASICS/clb_ptrees.c:50-120 (pointer sets),
    BASICS/clb_numtrees.c:107-179 (long -> two values), BASICS/clb_quadtrees.c:55-127 (quadruple -> value),
    TERMS/cte_termtrees.c:56-127 (term cells, key = top symbol and argument pointers).  It is modelled once,
    over a key type [K] with the three-way comparison of the instance and a payload [V]. *)
From Coq Require Export List Arith ZArith Lia Bool.
Export ListNotations.

Section Splay.
  Variables (K V : Type) (kcmp : K -> K -> comparison).

  (** PTreeCell (clb_ptrees.h:40-46), NumTreeCell, QuadTreeCell, TermCell with lson/rson *)
  Inductive tree := Leaf | Node (l : tree) (k : K) (v : V) (r : tree).

  (** "left->rson = t" with [left] the last cell of the chain hanging off newnode.rson; the chain is kept innermost first *)
  Fixpoint asml (L : list (tree * K * V)) (t : tree) : tree :=
    match L with [] => t | (l, k, v) :: L' => asml L' (Node l k v t) end.
  (** "right->lson = t", chain hanging off newnode.lson *)
  Fixpoint asmr (R : list (K * V * tree)) (t : tree) : tree :=
    match R with [] => t | (k, v, r) :: R' => asmr R' (Node t k v r) end.
  (** clb_ptrees.c:114-117 *)
  Definition assemble L R l k v r : tree := Node (asml L l) k v (asmr R r).

  (** splay_ptree, clb_ptrees.c:65-119 (loop and final assembly) *)
  Fixpoint sloop (key : K) (t : tree) (L : list (tree * K * V)) (R : list (K * V * tree)) : tree :=
    match t with
    | Leaf => Leaf                                    (* not reached: the loop never moves to a NULL son *)
    | Node l k v r =>
        match kcmp key k with
        | Lt => match l with
                | Leaf => assemble L R l k v r
                | Node ll kl vl lr =>
                    match kcmp key kl with
                    | Lt => match ll with
                            | Leaf => assemble L R Leaf kl vl (Node lr k v r)
                            | _ => sloop key ll L ((kl, vl, Node lr k v r) :: R)
                            end
                    | _ => sloop key l L ((k, v, r) :: R)
                    end
                end
        | Gt => match r with
                | Leaf => assemble L R l k v r
                | Node rl kr vr rr =>
                    match kcmp key kr with
                    | Gt => match rr with
                            | Leaf => assemble L R (Node l k v rl) kr vr Leaf
                            | _ => sloop key rr ((Node l k v rl, kr, vr) :: L) R
                            end
                    | _ => sloop key r ((l, k, v) :: L) R
                    end
                end
        | Eq => assemble L R l k v r
        end
    end.
  Definition splay (t : tree) (key : K) : tree := sloop key t [] [].

  (** PTreeInsert, clb_ptrees.c:208-235; NumTreeInsert :264-293; QuadTreeInsert :241-272; TermTreeInsert :282-311.
      First component: the entry already there ([None] = NULL, inserted). *)
  Definition insert (t : tree) (key : K) (val : V) : option (K * V) * tree :=
    match t with
    | Leaf => (None, Node Leaf key val Leaf)
    | _ => match splay t key with
           | Leaf => (None, Leaf)                     (* not reached *)
           | Node l k v r =>
               match kcmp key k with
               | Lt => (None, Node l key val (Node Leaf k v r))
               | Gt => (None, Node (Node l k v Leaf) key val r)
               | Eq => (Some (k, v), Node l k v r)
               end
           end
    end.

  (** PTreeStore :253-270, NumTreeStore :310-327, QuadTreeStore :291-310 *)
  Definition store (t : tree) (key : K) (val : V) : bool * tree :=
    let (o, t') := insert t key val in (match o with None => true | Some _ => false end, t').

  (** PTreeFind :285-296, NumTreeFind :363-374, QuadTreeFind :325-336, TermTreeFind :254-265 *)
  Definition find (t : tree) (key : K) : option (K * V) * tree :=
    match t with
    | Leaf => (None, Leaf)
    | _ => match splay t key with
           | Leaf => (None, Leaf)
           | Node l k v r => (match kcmp k key with Eq => Some (k, v) | _ => None end, Node l k v r)
           end
    end.

  (** PTreeFindBinary, clb_ptrees.c:312-330 *)
  Fixpoint find_binary (t : tree) (key : K) : option (K * V) :=
    match t with
    | Leaf => None
    | Node l k v r => match kcmp key k with Lt => find_binary l key | Gt => find_binary r key | Eq => Some (k, v) end
    end.

  (** PTreeExtractEntry :349-375, NumTreeExtractEntry :392-418, QuadTreeExtractEntry :355-381, TermTreeExtract :327-353 *)
  Definition extract (t : tree) (key : K) : option (K * V) * tree :=
    match t with
    | Leaf => (None, Leaf)
    | _ => match splay t key with
           | Leaf => (None, Leaf)
           | Node l k v r =>
               match kcmp key k with
               | Eq => (Some (k, v),
                        match l with
                        | Leaf => r
                        | _ => match splay l key with Leaf => Leaf | Node l' k' v' _ => Node l' k' v' r end
                        end)
               | _ => (None, Node l k v r)
               end
           end
    end.

  (** PTreeDeleteEntry :440-451 etc. *)
  Definition delete (t : tree) (key : K) : bool * tree :=
    let (o, t') := extract t key in (match o with Some _ => true | None => false end, t').

  (** PTreeExtractRootKey :418-425 *)
  Definition extract_root (t : tree) : option (K * V) * tree :=
    match t with Leaf => (None, Leaf) | Node _ k _ _ => extract t k end.

  (** AVL_TRAVERSE_DEFINITION, clb_avlgeneric.h:92-122: TraverseInit/TraverseNext *)
  Fixpoint push_left (t : tree) (st : list tree) : list tree :=
    match t with Leaf => st | Node l k v r => push_left l (t :: st) end.
  Definition trav_init (t : tree) : list tree := push_left t [].
  Definition trav_next (st : list tree) : option (K * V) * list tree :=
    match st with
    | Node l k v r :: st' => (Some (k, v), push_left r st')
    | Leaf :: st' => (None, st')                      (* not reached: only non-NULL cells are pushed *)
    | [] => (None, [])
    end.
  (** the whole iteration; [fuel] bounds the number of calls *)
  Fixpoint trav_all (fuel : nat) (st : list tree) : option (list (K * V)) :=
    match fuel with
    | O => None
    | S n => match trav_next st with
             | (None, _) => Some []
             | (Some e, st') => option_map (cons e) (trav_all n st')
             end
    end.

  (** Stack-driven pre-order walk shared by PTreeNodes :545-565, PTreeToPStack :653-675, PTreeInsertTree, PTreeCopy,
      PTreeIntersection, PTreeMerge: pop a cell, visit it, push lson then rson. *)
  Fixpoint walk (fuel : nat) (st : list tree) : option (list (K * V)) :=
    match fuel with
    | O => None
    | S n => match st with
             | [] => Some []
             | Leaf :: st' => walk n st'
             | Node l k v r :: st' => option_map (cons (k, v)) (walk n (r :: l :: st'))
             end
    end.

  Definition store_list (t : tree) (es : list (K * V)) : tree :=
    fold_left (fun t e => snd (store t (fst e) (snd e))) es t.

  (** NumTreeMaxNode, clb_numtrees.c:518-528 *)
  Fixpoint max_node (t : tree) : option (K * V) :=
    match t with Leaf => None | Node _ k v Leaf => Some (k, v) | Node _ _ _ r => max_node r end.

  (** NumTreeLimitedTraverseInit, clb_numtrees.c:544-568 *)
  Fixpoint limited_init (t : tree) (limit : K) (st : list tree) : list tree :=
    match t with
    | Leaf => st
    | Node l k v r => match kcmp k limit with
                      | Lt => limited_init r limit st
                      | Eq => t :: st
                      | Gt => limited_init l limit (t :: st)
                      end
    end.

  Fixpoint tsize (t : tree) : nat := match t with Leaf => 0 | Node l _ _ r => S (tsize l + tsize r) end.

  (** ** Specification: a finite map as a partial function *)
  Definition fmap := K -> option (K * V).
  Definition fempty : fmap := fun _ => None.
  Definition fadd (m : fmap) (k : K) (v : V) : fmap := fun x => match kcmp x k with Eq => Some (k, v) | _ => m x end.
  Definition fdel (m : fmap) (k : K) : fmap := fun x => match kcmp x k with Eq => None | _ => m x end.

  Inductive op := OStore (k : K) (v : V) | OFind (k : K) | OExtract (k : K) | ODelete (k : K).
  Inductive out := OB (b : bool) | OE (e : option (K * V)).
  Definition okey (o : op) : K := match o with OStore k _ | OFind k | OExtract k | ODelete k => k end.

  Definition isSome {A} (o : option A) : bool := match o with Some _ => true | None => false end.
  Definition spec_step (m : fmap) (o : op) : out * fmap :=
    match o with
    | OStore k v => match m k with Some _ => (OB false, m) | None => (OB true, fadd m k v) end
    | OFind k => (OE (m k), m)
    | OExtract k => (OE (m k), fdel m k)
    | ODelete k => (OB (isSome (m k)), fdel m k)
    end.
  Definition tree_step (t : tree) (o : op) : out * tree :=
    match o with
    | OStore k v => let (b, t') := store t k v in (OB b, t')
    | OFind k => let (e, t') := find t k in (OE e, t')
    | OExtract k => let (e, t') := extract t k in (OE e, t')
    | ODelete k => let (b, t') := delete t k in (OB b, t')
    end.
  Fixpoint run {S} (step : S -> op -> out * S) (s : S) (os : list op) : list out * S :=
    match os with
    | [] => ([], s)
    | o :: os' => let (x, s1) := step s o in let (xs, s2) := run step s1 os' in (x :: xs, s2)
    end.

  (** The comparison is a total order on the keys in use ([dom]), and equality means identity. *)
  Record key_order (dom : K -> Prop) : Prop := {
    ko_eq : forall a b, dom a -> dom b -> (kcmp a b = Eq <-> a = b);
    ko_anti : forall a b, dom a -> dom b -> kcmp a b = CompOpp (kcmp b a);
    ko_trans : forall a b c, dom a -> dom b -> dom c -> kcmp a b = Lt -> kcmp b c = Lt -> kcmp a c = Lt }.
End Splay.
Arguments Leaf {K V}. Arguments Node {K V}.

(** ** The comparisons of the instances *)
(** PLesser/PGreater/PCmp on addresses, clb_ptrees.h:72-75,120-123 *)
Definition pcmp (a b : Z) : comparison := Z.compare a b.

(** "key - tree->key" on 64-bit long, clb_numtrees.c:125-147; signed overflow is undefined in C, modelled as wrap-around *)
Definition wrap64 (z : Z) : Z := ((z + 2 ^ 63) mod 2 ^ 64 - 2 ^ 63)%Z.
Definition num_cmp (a b : Z) : comparison := Z.compare (wrap64 (a - b)) 0.

(** DoubleKeyCmp, QuadKeyCmp: clb_quadtrees.c:148-185; key = (p1, i1, p2, i2) *)
Definition dbl_cmp (p1 i1 p2 i2 : Z) : comparison :=
  match pcmp p1 p2 with Eq => Z.compare (i1 - i2) 0 | c => c end.
Definition quad_cmp (a b : Z * Z * Z * Z) : comparison :=
  let '(p1, i1, p2, i2) := a in let '(q1, j1, q2, j2) := b in
  match dbl_cmp p1 i1 q1 j1 with Eq => dbl_cmp p2 i2 q2 j2 | c => c end.

(** TermTopCompare, cte_termtrees.c:193-237 (first-order: types are not compared): f_code, arity, argument addresses *)
Fixpoint args_cmp (a b : list Z) : comparison :=
  match a, b with x :: a', y :: b' => match pcmp x y with Eq => args_cmp a' b' | c => c end | _, _ => Eq end.
Definition top_cmp (a b : Z * list Z) : comparison :=
  match Z.compare (fst a - fst b) 0 with
  | Eq => match Nat.compare (length (snd a)) (length (snd b)) with Eq => args_cmp (snd a) (snd b) | c => c end
  | c => c
  end.

(** ** PTree set operations (BASICS/clb_ptrees.c); pointers are addresses in Z, NULL = 0 *)
Notation ptree := (tree Z unit).
Definition pwalk (t : ptree) : option (list (Z * unit)) := walk Z unit (2 + 3 * tsize Z unit t) [t].
Definition ptrav (t : ptree) : option (list (Z * unit)) := trav_all Z unit (1 + tsize Z unit t) (trav_init Z unit t).

(** PTreeNodes :545-565 *)
Definition ptree_nodes (t : ptree) : option nat := option_map (@length _) (pwalk t).
(** PTreeMerge :468-497: inserts the cells of [add], reports whether any was new *)
Definition merge_step (st : bool * ptree) (e : Z * unit) : bool * ptree :=
  let (b, t') := store Z unit pcmp (snd st) (fst e) tt in (b || fst st, t').
Definition ptree_merge (root add : ptree) : option (bool * ptree) :=
  option_map (fun es => fold_left merge_step es (false, root)) (pwalk add).
(** PTreeInsertTree :513-530 *)
Definition ptree_insert_tree (root add : ptree) : option ptree := option_map (store_list Z unit pcmp root) (pwalk add).
(** PTreeCopy :807-826 *)
Definition ptree_copy (t : ptree) : option ptree := option_map (store_list Z unit pcmp Leaf) (pwalk t).
(** PTreeIntersection :733-756 *)
Definition ptree_intersection (t1 t2 : ptree) : option ptree :=
  option_map (fun es => store_list Z unit pcmp Leaf (filter (fun e => isSome (find_binary Z unit pcmp t1 (fst e))) es)) (pwalk t2).
(** PTreeDestrIntersection :771-792: number of removed keys and the new tree; stops at a NULL key *)
Fixpoint destr_inter (fuel : nat) (t1 t2 tmp : ptree) (res : nat) : option (nat * ptree) :=
  match fuel with
  | O => None
  | S n => match extract_root Z unit pcmp t1 with
           | (None, _) => Some (res, tmp)
           | (Some (k, _), t1') =>
               if Z.eqb k 0 then Some (res, tmp)
               else if isSome (find_binary Z unit pcmp t2 k) then destr_inter n t1' t2 (snd (store Z unit pcmp tmp k tt)) res
               else destr_inter n t1' t2 tmp (S res)
           end
  end.
Definition ptree_destr_intersection (t1 t2 : ptree) : option (nat * ptree) := destr_inter (1 + tsize Z unit t1) t1 t2 Leaf 0.
(** PTreeSharedElement :693-718; NULL if none.  tree1 is splayed by the lookups. *)
Fixpoint shared_in (t1 : ptree) (es : list (Z * unit)) : Z * ptree :=
  match es with
  | [] => (0%Z, t1)
  | e :: es' => match find Z unit pcmp t1 (fst e) with (Some (k, _), t') => (k, t') | (None, t') => shared_in t' es' end
  end.
Definition ptree_shared_element (t1 t2 : ptree) : option (Z * ptree) := option_map (shared_in t1) (pwalk t2).
(** PTreeIsSubset :884-902; super is splayed *)
Fixpoint all_found (es : list (Z * unit)) (super : ptree) : bool * ptree :=
  match es with
  | [] => (true, super)
  | e :: es' => match find Z unit pcmp super (fst e) with (Some _, s') => all_found es' s' | (None, s') => (false, s') end
  end.
Definition ptree_is_subset (sub super : ptree) : option (bool * ptree) := option_map (fun es => all_found es super) (ptrav sub).
(** PTreeEquiv :841-869 *)
Fixpoint equiv_iter (a b : list (Z * unit)) : bool :=
  match a, b with
  | [], [] => true
  | x :: a', y :: b' => if Z.eqb (fst x) (fst y) then equiv_iter a' b' else false
  | _, _ => false
  end.
Definition ptree_equiv (a b : ptree) : option bool :=
  match ptrav a, ptrav b with Some x, Some y => Some (equiv_iter x y) | _, _ => None end.

(** the set of keys of a tree, as seen by the caller *)
Definition pmem (t : ptree) (x : Z) : Prop := find_binary Z unit pcmp t x <> None.
