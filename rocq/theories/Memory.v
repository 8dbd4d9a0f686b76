(** The memory manager (BASICS/clb_memory.c, BASICS/clb_memory.h).

    Memory is given by the pointers it holds: [mem a] is the pointer stored in
    the eight bytes from [a] on.  The program is the one compiled with NDEBUG,
    where a MemCell is one pointer, and without USE_NEWMEM, which is the
    default.  The statistics are not modelled. *)

From Coq Require Import ZArith List Bool.
Import ListNotations.
Local Open Scope Z_scope.

(** clb_memory.h lines 54-55. *)
Definition MEM_ARR_SIZE : nat := Z.to_nat 8192.
Definition MEM_ARR_MIN_INDEX : Z := 8.

(** The C library's part of the state are the blocks that malloc() has given
    out and free() has not got back, with their sizes. *)
Record state := mkstate {
  mem : Z -> Z;
  free_mem_list : Z -> Z;         (** 0 is NULL *)
  regions : list (Z * Z)
}.

(** Out of memory ends the program; Undefined is undefined behaviour. *)
Inductive result (A : Type) :=
| Done (st : state) (x : A)
| OutOfMemory
| Undefined.
Arguments Done {A}. Arguments OutOfMemory {A}. Arguments Undefined {A}.

Definition overlaps (a p n : Z) : bool := (p <? a + 8) && (a <? p + n).

(** Storing a pointer; what other cells that overlap it hold afterwards has
    no meaning (0 stands for it). *)
Definition store (m : Z -> Z) (p v : Z) : Z -> Z :=
  fun a => if a =? p then v else if overlaps a p 8 then 0 else m a.

Definition set_list (h : Z -> Z) (i v : Z) : Z -> Z :=
  fun j => if j =? i then v else h j.

Section Manager.

(** The answer of malloc(), which depends on the blocks in use; None is
    NULL. *)
Variable malloc : list (Z * Z) -> Z -> option Z.

(** What free() leaves behind in a block. *)
Variable junk : Z -> Z.

Fixpoint take (p : Z) (rs : list (Z * Z)) : option (Z * list (Z * Z)) :=
  match rs with
  | [] => None
  | (q, n) :: r =>
      if q =? p then Some (n, r)
      else match take p r with
           | Some (s, r') => Some (s, (q, n) :: r')
           | None => None
           end
  end.

(** free(), and the macro FREE() (clb_memory.h line 109): undefined if the
    argument is no block that malloc() has given out. *)
Definition FREE (st : state) (p : Z) : result unit :=
  match take p (regions st) with
  | Some (n, rs) =>
      Done (mkstate (fun a => if overlaps a p n then junk a else mem st a)
              (free_mem_list st) rs) tt
  | None => Undefined
  end.

(** clb_memory.c lines 121-126: the inner loop of MemFlushFreeList(); [fuel]
    bounds the number of rounds, and running out of it counts as undefined. *)
Fixpoint flush_list (fuel : nat) (st : state) (f : Z) : result unit :=
  if free_mem_list st f =? 0 then Done st tt
  else match fuel with
       | O => Undefined
       | S k =>
           let handle := free_mem_list st f in
           let st1 := mkstate (mem st)
                        (set_list (free_mem_list st) f (mem st handle))
                        (regions st) in
           match FREE st1 handle with
           | Done st2 _ => flush_list k st2 f
           | r => r
           end
       end.

(** Lines 119-127: the outer loop. *)
Fixpoint flush_loop (n : nat) (f : Z) (st : state) : result unit :=
  match n with
  | O => Done st tt
  | S n' => match flush_list (length (regions st)) st f with
            | Done st' _ => flush_loop n' (f + 1) st'
            | r => r
            end
  end.

(** Lines 113-128: MemFlushFreeList(). *)
Definition MemFlushFreeList (st : state) : result unit :=
  flush_loop MEM_ARR_SIZE 0 st.

Definition new_block (st : state) (p size : Z) : result Z :=
  Done (mkstate (mem st) (free_mem_list st) ((p, size) :: regions st)) p.

(** Lines 147-181: SecureMalloc(). *)
Definition SecureMalloc (st : state) (size : Z) : result Z :=
  match malloc (regions st) size with
  | Some p => new_block st p size
  | None =>
      match MemFlushFreeList st with
      | Done st' _ =>
          match malloc (regions st') size with
          | Some p => new_block st' p size
          | None => OutOfMemory
          end
      | OutOfMemory => OutOfMemory
      | Undefined => Undefined
      end
  end.

(** realloc(): the answer of [malloc] is about the memory without the block
    [p]; the block may stay in its place or not. *)
Definition moved (m : Z -> Z) (p n q size : Z) : Z -> Z :=
  fun a =>
    if (q <=? a) && (a + 8 <=? q + size) then
      if a + 8 <=? q + n then m (p + (a - q)) else junk a
    else if overlaps a p n || overlaps a q size then junk a
    else m a.

Definition realloc (st : state) (p size : Z) : result Z :=
  match take p (regions st) with
  | Some (n, rs) =>
      match malloc rs size with
      | Some q => Done (mkstate (moved (mem st) p n q size) (free_mem_list st)
                          ((q, size) :: rs)) q
      | None => OutOfMemory
      end
  | None => Undefined
  end.

(** Lines 214, 219: the call of realloc() or malloc(). *)
Definition try_realloc (st : state) (p size : Z) : result Z :=
  if p =? 0 then match malloc (regions st) size with
                 | Some q => new_block st q size
                 | None => OutOfMemory
                 end
  else realloc st p size.

(** Lines 197-243: SecureRealloc(), for a size that is not 0. *)
Definition SecureRealloc (st : state) (p size : Z) : result Z :=
  match try_realloc st p size with
  | OutOfMemory =>
      match MemFlushFreeList st with
      | Done st' _ => try_realloc st' p size
      | OutOfMemory => OutOfMemory
      | Undefined => Undefined
      end
  | r => r
  end.

(** clb_memory.h lines 163-192: SizeMallocReal(). *)
Definition SizeMalloc (st : state) (size : Z) : result Z :=
  if (MEM_ARR_MIN_INDEX <=? size) && (size <? Z.of_nat MEM_ARR_SIZE) &&
     negb (free_mem_list st size =? 0)
  then let handle := free_mem_list st size in
       Done (mkstate (mem st)
               (set_list (free_mem_list st) size (mem st handle))
               (regions st)) handle
  else SecureMalloc st size.

(** Lines 211-235: SizeFreeReal(). *)
Definition SizeFree (st : state) (p size : Z) : result unit :=
  if (MEM_ARR_MIN_INDEX <=? size) && (size <? Z.of_nat MEM_ARR_SIZE)
  then Done (mkstate (store (mem st) p (free_mem_list st size))
               (set_list (free_mem_list st) size p) (regions st)) tt
  else FREE st p.

End Manager.

(** At the start all lists are empty (clb_memory.c line 44). *)
Definition start (m : Z -> Z) : state := mkstate m (fun _ => 0) [].
