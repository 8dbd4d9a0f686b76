(** * Model of integer maps (BASICS/clb_intmap.h, clb_intmap.c) and of the range arrays they use (BASICS/clb_pdrangearrays.h, .c).
    Values are pointers: [Some a], or [None] for NULL.  Keys are 64-bit numbers; sizes and counters are unbounded, running
    out of memory is not modelled.  [None] as a result: access outside of a block or to a cell that was never written, a
    dangling reference, or not enough fuel. *)
From Verif Require Import Mem.
From Verif Require Export Splay.
Open Scope Z_scope.

Section IntMap.
  Context {A : Type}.
  Notation ptr := (option A).

  (** ** Range arrays *)
  (** PDRangeArrCell, clb_pdrangearrays.h:42-51 (pointer arrays: integer is false) *)
  Record rarr := { roff : Z; rsize : nat; rgrow : nat; rmem : mem ptr }.

  (** range_arr_size, clb_pdrangearrays.c:57-73 *)
  Fixpoint double_until (fuel minsize size : nat) : nat :=
    if (size <=? minsize)%nat then match fuel with O => size | S n => double_until n minsize (size * 2) end else size.
  Definition range_size (minsize size grow : nat) : nat :=
    match grow with
    | O => double_until minsize minsize size
    | _ => (minsize / grow + 1) * grow
    end%nat.

  (** for(i=from; i<from+cnt; i++) array[i] = NULL *)
  Fixpoint mfill (cnt from : nat) (m : mem ptr) : option (mem ptr) :=
    match cnt with
    | O => Some m
    | S c => match mwrite m from (Some None) with Some m' => mfill c (S from) m' | None => None end
    end.

  (** range_arr_expand_down, 89-119 *)
  Definition expand_down (a : rarr) (idx : Z) : option rarr :=
    let size := range_size (Z.to_nat (roff a - idx) + rsize a) (rsize a) (rgrow a) in
    let off := roff a - (Z.of_nat size - Z.of_nat (rsize a)) in
    let d := Z.to_nat (roff a - off) in
    match mfill d 0 (malloc size) with
    | None => None
    | Some m1 => match mcopy (rmem a) (rsize a) 0 d m1 with
                 | None => None
                 | Some m2 => Some {| roff := off; rsize := size; rgrow := rgrow a; rmem := m2 |}
                 end
    end.

  (** range_arr_expand_up, 135-164 *)
  Definition expand_up (a : rarr) (idx : Z) : option rarr :=
    let size := range_size (Z.to_nat (idx - roff a + 1)) (rsize a) (rgrow a) in
    match mcopy (rmem a) (rsize a) 0 0 (malloc size) with
    | None => None
    | Some m1 => match mfill (size - rsize a) (rsize a) m1 with
                 | None => None
                 | Some m2 => Some {| roff := roff a; rsize := size; rgrow := rgrow a; rmem := m2 |}
                 end
    end.

  (** PDRangeArrAlloc, 185-203 *)
  Definition rarr_alloc (idx : Z) (grow : nat) : option rarr :=
    let size := match grow with O => 1%nat | _ => grow end in
    match mfill size 0 (malloc size) with
    | Some m => Some {| roff := idx; rsize := size; rgrow := grow; rmem := m |}
    | None => None
    end.

  (** PDRangeArrIndexIsCovered, clb_pdrangearrays.h:96-97; PDRangeArrEnlarge, .c:273-285; PDRangeArrElementRef, .h:122-134 *)
  Definition covered (a : rarr) (idx : Z) : bool := (roff a <=? idx) && (idx <? roff a + Z.of_nat (rsize a)).
  Definition enlarge (a : rarr) (idx : Z) : option rarr := if idx <? roff a then expand_down a idx else expand_up a idx.
  Definition rarr_ref (a : rarr) (idx : Z) : option (nat * rarr) :=
    match (if covered a idx then Some a else enlarge a idx) with
    | Some a' => Some (Z.to_nat (idx - roff a'), a')
    | None => None
    end.
  (** PDRangeArrElementP, PDRangeArrAssignP *)
  Definition rarr_get (a : rarr) (idx : Z) : option (ptr * rarr) :=
    match rarr_ref a idx with
    | Some (i, a') => match mread (rmem a') i with Some v => Some (v, a') | None => None end
    | None => None
    end.
  Definition rarr_put (a : rarr) (i : nat) (v : ptr) : option rarr :=
    match mwrite (rmem a) i (Some v) with
    | Some m => Some {| roff := roff a; rsize := rsize a; rgrow := rgrow a; rmem := m |}
    | None => None
    end.
  Definition rarr_set (a : rarr) (idx : Z) (v : ptr) : option rarr :=
    match rarr_ref a idx with Some (i, a') => rarr_put a' i v | None => None end.

  (** ** Integer maps *)
  Notation ntree := (tree Z ptr).
  (** IntMapType and the union, clb_intmap.h:39-78 *)
  Inductive body := BEmpty | BSingle (v : ptr) | BArray (a : rarr) | BTree (t : ntree).
  Record imap := { mbody : body; mcount : Z; mmin : Z; mmax : Z }.

  (** IntMapAlloc, clb_intmap.c:233-240; the other fields are not initialised and not read while the map is empty
      (IntMapIterAlloc copies them to fields it does not use) *)
  Definition imap_alloc : imap := {| mbody := BEmpty; mcount := 0; mmin := 0; mmax := 0 |}.

  (** switch_to_array, 57-67; switch_to_tree, 83-93; MIN_TREE_DENSITY is 4, MAX_TREE_DENSITY and IM_ARRAY_SIZE are 8 *)
  Definition switch_to_array (old_min old_max new_key entries : Z) : bool :=
    Z.max old_max new_key - Z.min old_min new_key <? entries * 4.
  Definition switch_to_tree (old_min old_max new_key entries : Z) : bool :=
    entries * 8 <? Z.max old_max new_key - Z.min old_min new_key.

  (** the loop of array_to_tree, 148-158, on (tree, entry_no, max_key, min_key) *)
  Fixpoint to_tree_loop (cnt : nat) (i : Z) (a : rarr) (t : ntree) (n mx mn : Z) : option (ntree * Z * Z * Z) :=
    match cnt with
    | O => Some (t, n, mx, mn)
    | S c => match rarr_get a i with
             | None => None
             | Some (None, a') => to_tree_loop c (i + 1) a' t n mx mn
             | Some (Some v, a') => to_tree_loop c (i + 1) a' (snd (store Z ptr num_cmp t i (Some v))) (n + 1) i (Z.min mn i)
             end
    end.
  (** array_to_tree, 134-162 *)
  Definition array_to_tree (m : imap) : option imap :=
    match mbody m with
    | BArray a =>
        match to_tree_loop (Z.to_nat (mmax m + 1 - roff a)) (roff a) a Leaf 0 (mmin m) (mmax m) with
        | Some (t, n, mx, mn) => Some {| mbody := BTree t; mcount := n; mmin := Z.min mn mx; mmax := mx |}
        | None => None
        end
    | _ => None
    end.

  (** the loop of tree_to_array, 190-199, over the nodes in the order of the traversal *)
  Fixpoint to_array_loop (es : list (Z * ptr)) (a : rarr) (n mx mn : Z) : option (rarr * Z * Z * Z) :=
    match es with
    | [] => Some (a, n, mx, mn)
    | (k, None) :: r => to_array_loop r a n mx mn
    | (k, Some v) :: r => match rarr_set a k (Some v) with
                          | Some a' => to_array_loop r a' (n + 1) k (Z.min mn k)
                          | None => None
                          end
    end.
  (** tree_to_array, 177-206 *)
  Definition tree_to_array (m : imap) : option imap :=
    match mbody m with
    | BTree t =>
        match rarr_alloc (mmin m) 8, trav_all Z ptr (S (tsize Z ptr t)) (trav_init Z ptr t) with
        | Some a, Some es =>
            match to_array_loop es a 0 (mmin m) (mmax m) with
            | Some (a', n, mx, mn) => Some {| mbody := BArray a'; mcount := n; mmin := Z.min mn mx; mmax := mx |}
            | None => None
            end
        | _, _ => None
        end
    | _ => None
    end.

  (** IntMapGetVal, 289-327; a lookup in a tree restructures it, one in an array may enlarge it *)
  Definition get_val (m : imap) (key : Z) : option (ptr * imap) :=
    match mbody m with
    | BEmpty => Some (None, m)
    | BSingle v => Some (if mmax m =? key then v else None, m)
    | BArray a => if key <=? mmax m
                  then match rarr_get a key with
                       | Some (v, a') => Some (v, {| mbody := BArray a'; mcount := mcount m; mmin := mmin m; mmax := mmax m |})
                       | None => None
                       end
                  else Some (None, m)
    | BTree t => if key <=? mmax m
                 then let (e, t') := find Z ptr num_cmp t key in
                      Some (match e with Some (_, v) => v | None => None end,
                            {| mbody := BTree t'; mcount := mcount m; mmin := mmin m; mmax := mmax m |})
                 else Some (None, m)
    end.

  (** What IntMapGetRef returns: the address of the single value, of an array cell, or of the value in the node with that key *)
  Inductive ref := RSingle | RCell (i : nat) | RNode (k : Z).

  (** IntMapGetRef, 345-443 *)
  Fixpoint get_ref (fuel : nat) (m : imap) (key : Z) : option (ref * imap) :=
    match fuel with
    | O => None
    | S n =>
        let upd := fun b c => {| mbody := b; mcount := c; mmin := Z.min (mmin m) key; mmax := Z.max key (mmax m) |} in
        match mbody m with
        | BEmpty => Some (RSingle, {| mbody := BSingle None; mcount := 1; mmin := key; mmax := key |})
        | BSingle v =>
            if key =? mmax m then Some (RSingle, upd (BSingle v) (mcount m))
            else if switch_to_array key (mmin m) (mmax m) 2 then
              match rarr_alloc (Z.min key (mmax m)) 8 with
              | None => None
              | Some a0 =>
                  match rarr_set a0 (mmax m) v with
                  | None => None
                  | Some a1 => match rarr_set a1 key None with
                               | None => None
                               | Some a2 => match rarr_ref a2 key with
                                            | None => None
                                            | Some (i, a3) => Some (RCell i, upd (BArray a3) 2)
                                            end
                               end
                  end
              end
            else
              let t1 := snd (store Z ptr num_cmp Leaf (mmax m) v) in
              match insert Z ptr num_cmp t1 key None with
              | (None, t2) => Some (RNode key, upd (BTree t2) 2)
              | (Some _, _) => None                       (* the key is not new: the reference would point to a lost cell *)
              end
        | BArray a =>
            if ((mmax m <? key) || (key <? mmin m)) && switch_to_tree (mmin m) (mmax m) key (mcount m + 1) then
              match array_to_tree m with
              | None => None
              | Some m1 => match get_ref n m1 key with
                           | None => None
                           | Some (r, m2) => Some (r, {| mbody := mbody m2; mcount := mcount m2; mmin := Z.min (mmin m2) key; mmax := Z.max (mmax m2) key |})
                           end
              end
            else
              match rarr_ref a key with
              | None => None
              | Some (i, a') => match mread (rmem a') i with
                                | None => None
                                | Some v => Some (RCell i, upd (BArray a') (match v with None => mcount m + 1 | Some _ => mcount m end))
                                end
              end
        | BTree t =>
            match find Z ptr num_cmp t key with
            | (Some _, t') => Some (RNode key, {| mbody := BTree t'; mcount := mcount m; mmin := mmin m; mmax := mmax m |})
            | (None, t') =>
                let m' := {| mbody := BTree t'; mcount := mcount m; mmin := mmin m; mmax := mmax m |} in
                if switch_to_array (mmin m) (mmax m) key (mcount m + 1) then
                  match tree_to_array m' with None => None | Some m1 => get_ref n m1 key end
                else
                  match insert Z ptr num_cmp t' key None with
                  | (None, t2) => Some (RNode key, upd (BTree t2) (mcount m + 1))
                  | (Some _, _) => None
                  end
            end
        end
    end.

  (** reading and writing through the reference *)
  Fixpoint tget (t : ntree) (k : Z) : option ptr :=
    match t with
    | Leaf => None
    | Node l k' v r => match Z.compare k k' with Lt => tget l k | Gt => tget r k | Eq => Some v end
    end.
  Fixpoint tset (t : ntree) (k : Z) (v : ptr) : option ntree :=
    match t with
    | Leaf => None
    | Node l k' v' r => match Z.compare k k' with
                        | Lt => option_map (fun l' => Node l' k' v' r) (tset l k v)
                        | Gt => option_map (fun r' => Node l k' v' r') (tset r k v)
                        | Eq => Some (Node l k' v r)
                        end
    end.
  Definition read_ref (m : imap) (r : ref) : option ptr :=
    match r, mbody m with
    | RSingle, BSingle v => Some v
    | RCell i, BArray a => mread (rmem a) i
    | RNode k, BTree t => tget t k
    | _, _ => None
    end.
  Definition write_ref (m : imap) (r : ref) (v : ptr) : option imap :=
    option_map (fun b => {| mbody := b; mcount := mcount m; mmin := mmin m; mmax := mmax m |})
      match r, mbody m with
      | RSingle, BSingle _ => Some (BSingle v)
      | RCell i, BArray a => option_map BArray (rarr_put a i v)
      | RNode k, BTree t => option_map BTree (tset t k v)
      | _, _ => None
      end.

  (** calls of IntMapGetRef nest at most four deep (proved) *)
  Definition ref_fuel : nat := 4.
  (** IntMapAssign, 459-467 *)
  Definition assign (m : imap) (key : Z) (v : ptr) : option imap :=
    match get_ref ref_fuel m key with Some (r, m') => write_ref m' r v | None => None end.

  (** IntMapDelKey, 486-551 *)
  Definition del_key (m : imap) (key : Z) : option (ptr * imap) :=
    let upd := fun b c => {| mbody := b; mcount := c; mmin := mmin m; mmax := mmax m |} in
    match mbody m with
    | BEmpty => Some (None, m)
    | BSingle v => if key =? mmax m then Some (v, upd BEmpty 0) else Some (None, m)
    | BArray a =>
        if mmax m <? key then Some (None, m)
        else match rarr_get a key with
             | None => None
             | Some (None, a') => Some (None, upd (BArray a') (mcount m))
             | Some (Some v, a') =>
                 match rarr_set a' key None with
                 | None => None
                 | Some a2 =>
                     let m1 := upd (BArray a2) (mcount m - 1) in
                     if switch_to_tree (mmin m) (mmax m) (mmax m) (mcount m1)
                     then match array_to_tree m1 with Some m2 => Some (Some v, m2) | None => None end
                     else Some (Some v, m1)
                 end
             end
    | BTree t =>
        match extract Z ptr num_cmp t key with
        | (None, t') => Some (None, upd (BTree t') (mcount m))
        | (Some (k, v), t') =>
            if k =? mmax m then
              let mx := match max_node Z ptr t' with Some (k', _) => k' | None => mmin m end in
              let m1 := {| mbody := BTree t'; mcount := mcount m - 1; mmin := mmin m; mmax := mx |} in
              if switch_to_array (mmin m) mx mx (mcount m1)
              then match tree_to_array m1 with Some m2 => Some (v, m2) | None => None end
              else Some (v, m1)
            else Some (v, upd (BTree t') (mcount m - 1))
        end
    end.

  (** IntMapIterCell, clb_intmap.h:82-93; the field lower_key is written and never read *)
  Inductive istate := INone | ISeen (b : bool) | ICurrent (i : Z) | IStack (st : list ntree).
  Record iter := { iupper : Z; iadmin : istate }.

  (** IntMapIterAlloc, clb_intmap.c:569-604 *)
  Definition iter_alloc (m : imap) (lower upper : Z) : iter :=
    {| iupper := Z.min upper (mmax m);
       iadmin := match mbody m with
                 | BEmpty => INone
                 | BSingle _ => ISeen (negb ((lower <=? mmax m) && (mmax m <=? upper)))
                 | BArray _ => ICurrent lower
                 | BTree t => IStack (limited_init Z ptr Z.compare t lower [])
                 end |}.

  (** the loop of case IMArray, clb_intmap.h:190-199: the pair found, the next index, the array *)
  Fixpoint array_next (cnt : nat) (i : Z) (a : rarr) : option (option (Z * A) * Z * rarr) :=
    match cnt with
    | O => Some (None, i + 1, a)
    | S c => match rarr_get a i with
             | None => None
             | Some (Some v, a') => Some (Some (i, v), i + 1, a')
             | Some (None, a') => array_next c (i + 1) a'
             end
    end.
  (** the loop of case IMTree, clb_intmap.h:204-221 *)
  Fixpoint tree_next (fuel : nat) (upper : Z) (st : list ntree) : option (option (Z * A) * list ntree) :=
    match fuel with
    | O => None
    | S n => match trav_next Z ptr st with
             | (None, st') => Some (None, st')
             | (Some (k, v), st') =>
                 if upper <? k then Some (None, st')
                 else match v with Some x => Some (Some (k, x), st') | None => tree_next n upper st' end
             end
    end.

  (** IntMapIterNext, clb_intmap.h:158-230: the pair, or [None] for NULL *)
  Definition iter_next (m : imap) (it : iter) : option (option (Z * A) * imap * iter) :=
    match mbody m, iadmin it with
    | BEmpty, _ => Some (None, m, it)
    | BSingle v, ISeen b =>
        if b then Some (None, m, it)
        else Some (match v with Some x => Some (mmax m, x) | None => None end, m, {| iupper := iupper it; iadmin := ISeen true |})
    | BArray a, ICurrent c =>
        match array_next (Z.to_nat (iupper it + 1 - c)) c a with
        | Some (r, i, a') => Some (r, {| mbody := BArray a'; mcount := mcount m; mmin := mmin m; mmax := mmax m |}, {| iupper := iupper it; iadmin := ICurrent i |})
        | None => None
        end
    | BTree t, IStack st =>
        match tree_next (S (tsize Z ptr t)) (iupper it) st with
        | Some (r, st') => Some (r, m, {| iupper := iupper it; iadmin := IStack st' |})
        | None => None
        end
    | _, _ => None
    end.

  (** for(val=IntMapIterNext(iter, &key); val; val=IntMapIterNext(iter, &key)) *)
  Fixpoint iter_all (fuel : nat) (m : imap) (it : iter) : option (list (Z * A) * imap) :=
    match fuel with
    | O => None
    | S n => match iter_next m it with
             | Some (Some e, m', it') => match iter_all n m' it' with Some (l, m2) => Some (e :: l, m2) | None => None end
             | Some (None, m', _) => Some ([], m')
             | None => None
             end
    end.
  (** more iterations than the map can have entries *)
  Definition iter_fuel (m : imap) (lower : Z) : nat :=
    match mbody m with
    | BArray _ => (2 + Z.to_nat (mmax m + 1 - lower))%nat
    | BTree t => (2 + tsize Z ptr t)%nat
    | _ => 2%nat
    end.
  Definition iterate (m : imap) (lower upper : Z) : option (list (Z * A) * imap) :=
    iter_all (iter_fuel m lower) m (iter_alloc m lower upper).
End IntMap.
Arguments imap : clear implicits.
Arguments rarr : clear implicits.

(** * Specification: a partial function from numbers to objects. *)
Inductive iop (A : Type) := OGet (k : Z) | OAssign (k : Z) (v : option A) | ORef (k : Z) | ODel (k : Z) | OIter (lower upper : Z).
Arguments OGet {A}. Arguments OAssign {A}. Arguments ORef {A}. Arguments ODel {A}. Arguments OIter {A}.
Inductive ians (A : Type) := APtr (v : option A) | AUnit | APairs (l : list (Z * A)).
Arguments APtr {A}. Arguments AUnit {A}. Arguments APairs {A}.

Definition fset {A} (f : Z -> option A) (k : Z) (v : option A) : Z -> option A := fun x => if x =? k then v else f x.

(** the sequence of pairs of f with lower <= key <= upper, by increasing key *)
Definition range_of {A} (f : Z -> option A) (lower upper : Z) (l : list (Z * A)) : Prop :=
  (forall k v, In (k, v) l <-> lower <= k <= upper /\ f k = Some v) /\
  (forall i j a b, (i < j)%nat -> nth_error l i = Some a -> nth_error l j = Some b -> fst a < fst b).

Definition fmap_step {A} (f : Z -> option A) (o : iop A) (a : ians A) (f' : Z -> option A) : Prop :=
  match o with
  | OGet k | ORef k => a = APtr (f k) /\ forall x, f' x = f x
  | OAssign k v => a = AUnit /\ forall x, f' x = fset f k v x
  | ODel k => a = APtr (f k) /\ forall x, f' x = fset f k None x
  | OIter lower upper => (exists l, a = APairs l /\ range_of f lower upper l) /\ forall x, f' x = f x
  end.

Definition imap_step {A} (m : imap A) (o : iop A) : option (ians A * imap A) :=
  match o with
  | OGet k => option_map (fun p => (APtr (fst p), snd p)) (get_val m k)
  | OAssign k v => option_map (fun m' => (AUnit, m')) (assign m k v)
  | ORef k => match get_ref ref_fuel m k with Some (r, m') => option_map (fun v => (APtr v, m')) (read_ref m' r) | None => None end
  | ODel k => option_map (fun p => (APtr (fst p), snd p)) (del_key m k)
  | OIter lower upper => option_map (fun p => (APairs (fst p), snd p)) (iterate m lower upper)
  end.

(** Numbers whose differences fit into 64 bits (C26: numeric trees compare by subtraction). *)
Definition key_ok (k : Z) : Prop := - 2 ^ 62 <= k < 2 ^ 62.
Definition iop_ok {A} (o : iop A) : Prop :=
  match o with OGet k | OAssign k _ | ORef k | ODel k => key_ok k | OIter lower _ => key_ok lower end.

(** A sequence of operations, each answered as the partial function prescribes. *)
Fixpoint behaves {A} (f : Z -> option A) (os : list (iop A)) (answers : list (ians A)) : Prop :=
  match os, answers with
  | [], [] => True
  | o :: os', a :: answers' => exists f', fmap_step f o a f' /\ behaves f' os' answers'
  | _, _ => False
  end.
