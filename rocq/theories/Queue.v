(** * Model of the ring buffer queues (BASICS/clb_pqueue.h, clb_pqueue.c) and the stacks (BASICS/clb_pstacks.h, clb_pstacks.c).
    Elements (IntOrP: integers or pointers) are of an arbitrary type.  [None] as a result: access outside the allocated block,
    use of a cell that was never written, or a violated assertion about the arguments (asserts are compiled out, the accesses
    that would follow are not modelled). *)
From Verif Require Import Mem.

Section Containers.
  Context {A : Type}.

  (** PQueueCell, clb_pqueue.h:38-44 *)
  Record pqueue := { qsize : nat; qhead : nat; qtail : nat; qmem : mem A }.

  (** PQueueAlloc, clb_pqueue.h:165-175; PQUEUE_DEFAULT_SIZE is 128 *)
  Definition pqueue_alloc_size (n : nat) : pqueue := {| qsize := n; qhead := 0; qtail := 0; qmem := malloc n |}.
  Definition pqueue_alloc : pqueue := pqueue_alloc_size 128.

  (** PQueueEmpty, clb_pqueue.h:56 *)
  Definition pqueue_empty (q : pqueue) : bool := qhead q =? qtail q.

  (** PQueueReset, clb_pqueue.h:207-211 *)
  Definition pqueue_reset (q : pqueue) : pqueue := {| qsize := qsize q; qhead := 0; qtail := 0; qmem := qmem q |}.

  (** PQueueGrow, clb_pqueue.c:59-80 *)
  Definition pqueue_grow (q : pqueue) : option pqueue :=
    let new_size := qsize q * 2 in
    match mcopy (qmem q) (qhead q) 0 0 (malloc new_size) with
    | None => None
    | Some m1 => match mcopy (qmem q) (qsize q - qhead q) (qhead q) (qsize q) m1 with
                 | None => None
                 | Some m2 => Some {| qsize := new_size; qhead := qhead q; qtail := qtail q + qsize q; qmem := m2 |}
                 end
    end.

  (** pqueue_store, clb_pqueue.h:107-120 *)
  Definition pqueue_store (q : pqueue) (v : A) : option pqueue :=
    match mwrite (qmem q) (qhead q) (Some v) with
    | None => None
    | Some m =>
        let h := if qhead q + 1 =? qsize q then 0 else qhead q + 1 in
        let q' := {| qsize := qsize q; qhead := h; qtail := qtail q; qmem := m |} in
        if h =? qtail q then pqueue_grow q' else Some q'
    end.

  (** pqueue_bury, clb_pqueue.h:136-145 *)
  Definition pqueue_bury (q : pqueue) (v : A) : option pqueue :=
    let t := if qtail q =? 0 then qsize q - 1 else qtail q - 1 in
    match mwrite (qmem q) t (Some v) with
    | None => None
    | Some m => let q' := {| qsize := qsize q; qhead := qhead q; qtail := t; qmem := m |} in
                if qhead q =? t then pqueue_grow q' else Some q'
    end.

  (** PQueueGetNext, clb_pqueue.h:303-317 *)
  Definition pqueue_get_next (q : pqueue) : option (A * pqueue) :=
    match mread (qmem q) (qtail q) with
    | None => None
    | Some v => let t := if qtail q + 1 =? qsize q then 0 else qtail q + 1 in
                Some (v, {| qsize := qsize q; qhead := qhead q; qtail := t; qmem := qmem q |})
    end.

  (** PQueueGetLast, clb_pqueue.h:333-343 *)
  Definition pqueue_get_last (q : pqueue) : option (A * pqueue) :=
    let h := if qhead q =? 0 then qsize q - 1 else qhead q - 1 in
    match mread (qmem q) h with
    | None => None
    | Some v => Some (v, {| qsize := qsize q; qhead := h; qtail := qtail q; qmem := qmem q |})
    end.

  (** PQueueLook, clb_pqueue.h:359-364; PQueueLookLast 381-392 *)
  Definition pqueue_look (q : pqueue) : option A := mread (qmem q) (qtail q).
  Definition pqueue_look_last (q : pqueue) : option A := mread (qmem q) (if qhead q =? 0 then qsize q - 1 else qhead q - 1).

  (** PQueueCardinality, clb_pqueue.c:94-106 *)
  Definition pqueue_card (q : pqueue) : nat :=
    if qtail q <=? qhead q then qhead q - qtail q else qhead q + (qsize q - qtail q).

  (** PQueueElement, clb_pqueue.c:122-125; PQueueTailIndex 141-148, PQueueIncIndex 163-171: [None] is -1 *)
  Definition pqueue_element (q : pqueue) (i : nat) : option A := mread (qmem q) i.
  Definition pqueue_tail_index (q : pqueue) : option nat := if pqueue_empty q then None else Some (qtail q).
  Definition pqueue_inc_index (q : pqueue) (i : nat) : option nat :=
    let j := (i + 1) mod qsize q in if j =? qhead q then None else Some j.

  (** The loop for(i=PQueueTailIndex(q); i!=-1; i=PQueueIncIndex(q, i)) that collects PQueueElement(q, i). *)
  Fixpoint pqueue_iterate (fuel : nat) (q : pqueue) (i : option nat) : option (list A) :=
    match i with
    | None => Some []
    | Some j => match fuel with
                | 0 => None
                | S n => match pqueue_element q j, pqueue_iterate n q (pqueue_inc_index q j) with
                         | Some v, Some l => Some (v :: l)
                         | _, _ => None
                         end
                end
    end.

  (** PStackCell, clb_pstacks.h:37-42 *)
  Record pstack := { ssize : nat; scur : nat; smem : mem A }.

  (** PStackVarAlloc, clb_pstacks.h:177-187; PStackAlloc 152-163 with PSTACK_DEFAULT_SIZE 128 *)
  Definition pstack_var_alloc (n : nat) : pstack := {| ssize := n; scur := 0; smem := malloc n |}.
  Definition pstack_alloc : pstack := pstack_var_alloc 128.

  Definition pstack_empty (s : pstack) : bool := scur s =? 0.
  (** PStackReset, clb_pstacks.h:247-250 *)
  Definition pstack_reset (s : pstack) : pstack := {| ssize := ssize s; scur := 0; smem := smem s |}.

  (** PStackGrow, clb_pstacks.c:62-74 *)
  Definition pstack_grow (s : pstack) : option pstack :=
    match mcopy (smem s) (ssize s) 0 0 (malloc (ssize s * 2)) with
    | None => None
    | Some m => Some {| ssize := ssize s * 2; scur := scur s; smem := m |}
    end.

  (** push, clb_pstacks.h:130-138 *)
  Definition pstack_push (s : pstack) (v : A) : option pstack :=
    match (if scur s =? ssize s then pstack_grow s else Some s) with
    | None => None
    | Some s' => match mwrite (smem s') (scur s') (Some v) with
                 | None => None
                 | Some m => Some {| ssize := ssize s'; scur := scur s' + 1; smem := m |}
                 end
    end.

  (** PStackPop, clb_pstacks.h:302-308; PStackDiscardTop 323-328; PStackTop 344-349; PStackBelowTop 366-371 *)
  Definition pstack_pop (s : pstack) : option (A * pstack) :=
    match scur s with
    | 0 => None
    | S c => match mread (smem s) c with
             | None => None
             | Some v => Some (v, {| ssize := ssize s; scur := c; smem := smem s |})
             end
    end.
  Definition pstack_discard_top (s : pstack) : option pstack :=
    match scur s with 0 => None | S c => Some {| ssize := ssize s; scur := c; smem := smem s |} end.
  Definition pstack_top (s : pstack) : option A := match scur s with 0 => None | S c => mread (smem s) c end.
  Definition pstack_below_top (s : pstack) : option A := match scur s with 0 | 1 => None | S (S c) => mread (smem s) c end.

  (** PStackElement, clb_pstacks.h:387-393; PStackAssignP/Int 94-97 with PStackElementRef 409-415 *)
  Definition pstack_element (s : pstack) (i : nat) : option A := mread (smem s) i.
  Definition pstack_assign (s : pstack) (i : nat) (v : A) : option pstack :=
    match mwrite (smem s) i (Some v) with
    | None => None
    | Some m => Some {| ssize := ssize s; scur := scur s; smem := m |}
    end.

  (** PStackDiscardElement, clb_pstacks.c:90-101 *)
  Definition pstack_discard_element (s : pstack) (i : nat) : option pstack :=
    match scur s with
    | 0 => None
    | S c => if c =? i then Some {| ssize := ssize s; scur := c; smem := smem s |}
             else match nth_error (smem s) c with
                  | None => None
                  | Some v => match mwrite (smem s) i v with
                              | None => None
                              | Some m => Some {| ssize := ssize s; scur := c; smem := m |}
                              end
                  end
    end.

  (** the loops of PStackCopy (clb_pstacks.h:223-233) and PStackPushStack (clb_pstacks.c:303-311) *)
  Fixpoint push_from (target source : pstack) (cnt i : nat) : option pstack :=
    match cnt with
    | 0 => Some target
    | S c => match pstack_element source i with
             | None => None
             | Some v => match pstack_push target v with
                         | None => None
                         | Some t => push_from t source c (S i)
                         end
             end
    end.
  Definition pstack_push_stack (target source : pstack) : option pstack := push_from target source (scur source) 0.
  Definition pstack_copy (s : pstack) : option pstack := pstack_push_stack pstack_alloc s.

  (** PStackFindP / PStackFindInt, clb_pstacks.h:428-462 *)
  Fixpoint find_from (eqb : A -> A -> bool) (s : pstack) (v : A) (cnt i : nat) : option bool :=
    match cnt with
    | 0 => Some false
    | S c => match pstack_element s i with
             | None => None
             | Some w => if eqb w v then Some true else find_from eqb s v c (S i)
             end
    end.
  Definition pstack_find (eqb : A -> A -> bool) (s : pstack) (v : A) : option bool := find_from eqb s v (scur s) 0.

  (** PStackMerge, clb_pstacks.c:255-288; the comparison function returns a negative, zero or positive number *)
  Fixpoint pstack_merge (fuel : nat) (cmp : A -> A -> comparison) (s1 s2 res : pstack) : option pstack :=
    if pstack_empty s1 && pstack_empty s2 then Some res
    else match fuel with
         | 0 => None
         | S n =>
             let next :=
               if pstack_empty s1 then match pstack_pop s2 with Some (v, s2') => Some (v, s1, s2') | None => None end
               else if pstack_empty s2 then match pstack_pop s1 with Some (v, s1') => Some (v, s1', s2) | None => None end
               else match pstack_top s1, pstack_top s2 with
                    | Some a, Some b =>
                        match cmp a b with
                        | Lt => match pstack_pop s1 with Some (v, s1') => Some (v, s1', s2) | None => None end
                        | _ => match pstack_pop s2 with Some (v, s2') => Some (v, s1, s2') | None => None end
                        end
                    | _, _ => None
                    end in
             match next with
             | None => None
             | Some (v, s1', s2') =>
                 let push := if pstack_empty res then Some true
                             else match pstack_top res with
                                  | Some w => Some (match cmp w v with Eq => false | _ => true end)
                                  | None => None
                                  end in
                 match push with
                 | None => None
                 | Some false => pstack_merge n cmp s1' s2' res
                 | Some true => match pstack_push res v with Some r => pstack_merge n cmp s1' s2' r | None => None end
                 end
             end
         end.

  (** PStackBinSearch, clb_pstacks.c:211-239 (indices as integers: upper may become -1, which ends the loop) *)
  Fixpoint pstack_bin_search (fuel : nat) (cmp : A -> A -> comparison) (s : pstack) (key : A) (lower upper : nat) : option nat :=
    if lower <? upper then
      match fuel with
      | 0 => None
      | S n => let i := (lower + upper) / 2 in
               match pstack_element s i with
               | None => None
               | Some e => match cmp key e with
                           | Lt => pstack_bin_search n cmp s key lower (i - 1)
                           | Gt => pstack_bin_search n cmp s key (i + 1) upper
                           | Eq => Some i
                           end
               end
      end
    else Some (lower + 1).
End Containers.
Arguments pqueue : clear implicits.
Arguments pstack : clear implicits.

(** * Specification: what a user of a double-ended queue / a stack expects. *)
Inductive qop (A : Type) := QStore (v : A) | QBury (v : A) | QNext | QLast | QLook | QLookLast | QCard | QEmpty | QIter | QReset.
Arguments QStore {A}. Arguments QBury {A}. Arguments QNext {A}. Arguments QLast {A}. Arguments QLook {A}. Arguments QLookLast {A}.
Arguments QCard {A}. Arguments QEmpty {A}. Arguments QIter {A}. Arguments QReset {A}.
Inductive answer (A : Type) := AVal (v : A) | ANum (n : nat) | ABool (b : bool) | AList (l : list A) | ANone.
Arguments AVal {A}. Arguments ANum {A}. Arguments ABool {A}. Arguments AList {A}. Arguments ANone {A}.

(** A queue is a list: the next element first. [None]: the operation needs an element and there is none. *)
Definition deque_step {A} (l : list A) (o : qop A) : option (answer A * list A) :=
  match o with
  | QStore v => Some (ANone, l ++ [v])
  | QBury v => Some (ANone, v :: l)
  | QNext => match l with [] => None | v :: r => Some (AVal v, r) end
  | QLast => match rev l with [] => None | v :: r => Some (AVal v, rev r) end
  | QLook => match l with [] => None | v :: r => Some (AVal v, l) end
  | QLookLast => match rev l with [] => None | v :: r => Some (AVal v, l) end
  | QCard => Some (ANum (length l), l)
  | QEmpty => Some (ABool (match l with [] => true | _ => false end), l)
  | QIter => Some (AList l, l)
  | QReset => Some (ANone, [])
  end.

(** The same operation of the implementation. *)
Definition pqueue_step {A} (q : pqueue A) (o : qop A) : option (answer A * pqueue A) :=
  match o with
  | QStore v => option_map (pair ANone) (pqueue_store q v)
  | QBury v => option_map (pair ANone) (pqueue_bury q v)
  | QNext => option_map (fun r => (AVal (fst r), snd r)) (pqueue_get_next q)
  | QLast => option_map (fun r => (AVal (fst r), snd r)) (pqueue_get_last q)
  | QLook => option_map (fun v => (AVal v, q)) (pqueue_look q)
  | QLookLast => option_map (fun v => (AVal v, q)) (pqueue_look_last q)
  | QCard => Some (ANum (pqueue_card q), q)
  | QEmpty => Some (ABool (pqueue_empty q), q)
  | QIter => option_map (fun l => (AList l, q)) (pqueue_iterate (qsize q) q (pqueue_tail_index q))
  | QReset => Some (ANone, pqueue_reset q)
  end.

(** Run a sequence of operations and collect the answers. *)
Fixpoint run {X O B} (step : X -> O -> option (B * X)) (x : X) (os : list O) : option (list B * X) :=
  match os with
  | [] => Some ([], x)
  | o :: r => match step x o with
              | None => None
              | Some (b, x') => match run step x' r with Some (bs, y) => Some (b :: bs, y) | None => None end
              end
  end.

Inductive sop (A : Type) := SPush (v : A) | SPop | SDrop | STop | SBelow | SElem (i : nat) | SAssign (i : nat) (v : A)
  | SDiscard (i : nat) | SSize | SReset | SCopy | SAppendCopy | SFind (v : A).
Arguments SPush {A}. Arguments SPop {A}. Arguments SDrop {A}. Arguments STop {A}. Arguments SBelow {A}. Arguments SElem {A}.
Arguments SAssign {A}. Arguments SDiscard {A}. Arguments SSize {A}. Arguments SReset {A}. Arguments SCopy {A}. Arguments SAppendCopy {A}.
Arguments SFind {A}.

Definition set_nth {A} (l : list A) (i : nat) (v : A) : list A := firstn i l ++ v :: skipn (S i) l.

(** A stack is a list, bottom first, so that the index of an element is its position. *)
Definition stack_step {A} (eqb : A -> A -> bool) (l : list A) (o : sop A) : option (answer A * list A) :=
  let n := length l in
  match o with
  | SPush v => Some (ANone, l ++ [v])
  | SPop => match nth_error l (n - 1) with Some v => Some (AVal v, firstn (n - 1) l) | None => None end
  | SDrop => match l with [] => None | _ => Some (ANone, firstn (n - 1) l) end
  | STop => match nth_error l (n - 1) with Some v => Some (AVal v, l) | None => None end
  | SBelow => if 2 <=? n then match nth_error l (n - 2) with Some v => Some (AVal v, l) | None => None end else None
  | SElem i => match nth_error l i with Some v => Some (AVal v, l) | None => None end
  | SAssign i v => if i <? n then Some (ANone, set_nth l i v) else None
  | SDiscard i =>                                  (* the last element takes the place of the one that is removed *)
      if i <? n then
        Some (ANone, if i =? n - 1 then firstn (n - 1) l
                     else match nth_error l (n - 1) with Some v => set_nth (firstn (n - 1) l) i v | None => [] end)
      else None
  | SSize => Some (ANum n, l)
  | SReset => Some (ANone, [])
  | SCopy => Some (ANone, l)
  | SAppendCopy => Some (ANone, l ++ l)            (* append a copy of itself *)
  | SFind v => Some (ABool (existsb (fun w => eqb w v) l), l)
  end.

Definition pstack_step {A} (eqb : A -> A -> bool) (s : pstack A) (o : sop A) : option (answer A * pstack A) :=
  match o with
  | SPush v => option_map (pair ANone) (pstack_push s v)
  | SPop => option_map (fun r => (AVal (fst r), snd r)) (pstack_pop s)
  | SDrop => option_map (pair ANone) (pstack_discard_top s)
  | STop => option_map (fun v => (AVal v, s)) (pstack_top s)
  | SBelow => option_map (fun v => (AVal v, s)) (pstack_below_top s)
  | SElem i => option_map (fun v => (AVal v, s)) (pstack_element s i)
  | SAssign i v => option_map (pair ANone) (pstack_assign s i v)
  | SDiscard i => option_map (pair ANone) (pstack_discard_element s i)
  | SSize => Some (ANum (scur s), s)
  | SReset => Some (ANone, pstack_reset s)
  | SCopy => option_map (pair ANone) (pstack_copy s)
  | SAppendCopy => match pstack_copy s with Some c => option_map (pair ANone) (pstack_push_stack s c) | None => None end
  | SFind v => option_map (fun b => (ABool b, s)) (pstack_find eqb s v)
  end.
