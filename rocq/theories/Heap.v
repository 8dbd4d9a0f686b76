(** * Model of the priority heap (BASICS/clb_min_heap.c).
    The array is a PStack (C27: a list, bottom first).  [None] as a result: an index outside of the stack, or SysError. *)
From Coq Require Import Permutation.
From Verif Require Import Mem Queue.

Section Heap.
  (** elements (pointers), with decidable equality *)
  Context {A : Type}.
  Variable eqb : A -> A -> bool.
  (** whether the heap was allocated with an index setter (MinHeapAllocWithIndex, 169-176) *)
  Variable setter : bool.

  (** MinHeapCell, clb_min_heap.h:34-39: the array, and the index fields of the elements that the setter writes ([None] = -1) *)
  Record heap := { harr : list A; hidx : A -> option nat }.

  (** h->cmp(a, b) < 0; it reads the current keys of the elements and may change between two calls *)
  Variable lt : A -> A -> bool.

  (** CALL_SETTER, clb_min_heap.c:37 *)
  Definition set_idx (ix : A -> option nat) (x : A) (i : option nat) : A -> option nat :=
    if setter then fun y => if eqb x y then i else ix y else ix.

  (** 66-68, 117-119: the two setter calls and SWAP *)
  Definition swap (h : heap) (i j : nat) : option heap :=
    match nth_error (harr h) i, nth_error (harr h) j with
    | Some a, Some b => Some {| harr := set_nth (set_nth (harr h) i b) j a; hidx := set_idx (set_idx (hidx h) a (Some j)) b (Some i) |}
    | _, _ => None
    end.

  (** bubble_up, 57-77 *)
  Fixpoint bubble_up (fuel : nat) (h : heap) (child : nat) : option heap :=
    match child with
    | 0 => Some h
    | _ =>
        match fuel with
        | 0 => None
        | S n =>
            let parent := (child - 1) / 2 in
            match nth_error (harr h) child, nth_error (harr h) parent with
            | Some c, Some p =>
                if lt c p then match swap h child parent with Some h' => bubble_up n h' parent | None => None end
                else Some h
            | _, _ => None
            end
        end
    end.

  (** drop_down, 92-128 *)
  Fixpoint drop_down (fuel : nat) (h : heap) (curr : nat) : option heap :=
    let size := length (harr h) in
    let l := 2 * curr + 1 in
    let r := l + 1 in
    if size <=? l then Some h
    else
      match fuel with
      | 0 => None
      | S n =>
          match nth_error (harr h) curr, nth_error (harr h) l with
          | Some x, Some xl =>
              let m1 := if lt xl x then l else curr in
              let m2 := if r <? size
                        then match nth_error (harr h) r, nth_error (harr h) m1 with
                             | Some xr, Some xm => Some (if lt xr xm then r else m1)
                             | _, _ => None
                             end
                        else Some m1 in
              match m2 with
              | None => None
              | Some m => if m =? curr then Some h
                          else match swap h curr m with Some h' => drop_down n h' m | None => None end
              end
          | _, _ => None
          end
      end.

  (** add, 143-148 (MinHeapAddP, MinHeapAddInt) *)
  Definition heap_add (h : heap) (x : A) : option heap :=
    let n := length (harr h) in
    bubble_up (S n) {| harr := harr h ++ [x]; hidx := set_idx (hidx h) x (Some n) |} n.

  (** MinHeapPopMin, 245-265 *)
  Definition heap_pop (h : heap) : option (A * heap) :=
    match nth_error (harr h) 0, nth_error (harr h) (length (harr h) - 1) with
    | Some ret, Some last =>
        let arr1 := firstn (length (harr h) - 1) (harr h) in
        let done := fun h' => Some (ret, {| harr := harr h'; hidx := set_idx (hidx h') ret None |}) in
        match arr1 with
        | [] => done {| harr := arr1; hidx := hidx h |}
        | _ => match drop_down (length arr1) {| harr := set_nth arr1 0 last; hidx := set_idx (hidx h) last (Some 0) |} 0 with
               | Some h' => done h'
               | None => None
               end
        end
    | _, _ => None
    end.

  (** MinHeapUpdateElement, 363-379, for an index that is not negative *)
  Definition heap_update (h : heap) (i : nat) : option heap :=
    match i with
    | 0 => drop_down (length (harr h)) h 0
    | _ => match nth_error (harr h) i, nth_error (harr h) ((i - 1) / 2) with
           | Some x, Some p => if lt x p then bubble_up (length (harr h)) h i else drop_down (length (harr h)) h i
           | _, _ => None
           end
    end.

  (** MinHeapDecrKey, 279-282; MinHeapIncrKey, 296-299 *)
  Definition heap_decr_key (h : heap) (i : nat) : option heap := drop_down (length (harr h)) h i.
  Definition heap_incr_key (h : heap) (i : nat) : option heap := bubble_up (length (harr h)) h i.

  (** MinHeapRemoveElement, 393-404 *)
  Definition heap_remove (h : heap) (i : nat) : option heap :=
    match nth_error (harr h) i, nth_error (harr h) (length (harr h) - 1) with
    | Some x, Some last =>
        let ix := set_idx (hidx h) x None in
        let arr1 := firstn (length (harr h) - 1) (harr h) in
        if i =? length arr1 then Some {| harr := arr1; hidx := ix |}
        else heap_update {| harr := set_nth arr1 i last; hidx := set_idx ix last (Some i) |} i
    | _, _ => None
    end.
End Heap.
Arguments heap : clear implicits.

(** MinHeapAllocWithIndex: an empty heap; elements that are in no heap have index -1 *)
Definition heap_alloc {A} : heap A := {| harr := []; hidx := fun _ => None |}.

(** * Specification *)
(** The comparison function orders the elements (ties are allowed). *)
Record weak_order {A} (lt : A -> A -> bool) : Prop := {
  wo_asym : forall a b, lt a b = true -> lt b a = false;
  wo_trans : forall a b c, lt b a = false -> lt c b = false -> lt c a = false }.   (* a <= b <= c implies a <= c *)

Fixpoint remove1 {A} (eqb : A -> A -> bool) (x : A) (l : list A) : list A :=
  match l with [] => [] | y :: r => if eqb x y then r else y :: remove1 eqb x r end.

(** [indexed lt h L]: h is a possible heap with index setter when lt is the current order of the keys and L the elements added and
    not yet taken out.  Elements are added only if they are not in the heap.  After the key of an element has changed (and
    no other key), the heap is told by MinHeapUpdateElement. *)
Inductive indexed {A} (eqb : A -> A -> bool) : (A -> A -> bool) -> heap A -> list A -> Prop :=
| i_new : forall lt, weak_order lt -> indexed eqb lt heap_alloc []
| i_add : forall lt h L x h', indexed eqb lt h L -> ~ In x L -> heap_add eqb true lt h x = Some h' -> indexed eqb lt h' (x :: L)
| i_pop : forall lt h L x h', indexed eqb lt h L -> heap_pop eqb true lt h = Some (x, h') -> indexed eqb lt h' (remove1 eqb x L)
| i_remove : forall lt h L x i h', indexed eqb lt h L -> In x L -> hidx h x = Some i -> heap_remove eqb true lt h i = Some h' ->
    indexed eqb lt h' (remove1 eqb x L)
| i_change : forall lt lt' h L x i h', indexed eqb lt h L -> In x L -> weak_order lt' ->
    (forall a b, a <> x -> b <> x -> lt' a b = lt a b) -> hidx h x = Some i -> heap_update eqb true lt' h i = Some h' -> indexed eqb lt' h' L.

(** The same for a heap without index setter and with a fixed order; elements may be added several times. *)
Inductive plain {A} (eqb : A -> A -> bool) (lt : A -> A -> bool) : heap A -> list A -> Prop :=
| p_new : plain eqb lt heap_alloc []
| p_add : forall h L x h', plain eqb lt h L -> heap_add eqb false lt h x = Some h' -> plain eqb lt h' (x :: L)
| p_pop : forall h L x h', plain eqb lt h L -> heap_pop eqb false lt h = Some (x, h') -> plain eqb lt h' (remove1 eqb x L).

(** Take out elements until the heap is empty. *)
Fixpoint pop_all {A} (eqb : A -> A -> bool) (setter : bool) (lt : A -> A -> bool) (fuel : nat) (h : heap A) : option (list A) :=
  match harr h with
  | [] => Some []
  | _ => match fuel with
         | 0 => None
         | S n => match heap_pop eqb setter lt h with
                  | Some (x, h') => option_map (cons x) (pop_all eqb setter lt n h')
                  | None => None
                  end
         end
  end.
