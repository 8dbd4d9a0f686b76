(** The alternative memory manager (BASICS/clb_newmem.c, clb_newmem.h), which
    is used if USE_NEWMEM is defined.  Memory and the C library are those of
    Memory.v; the program is the one compiled with NDEBUG. *)

From Coq Require Import ZArith List Bool.
From Verif Require Import Memory.
Import ListNotations.
Local Open Scope Z_scope.

(** clb_newmem.h lines 55-59. *)
Definition NEW_ARR_SIZE : Z := 8192.
Definition MEM_ALIGN : Z := 16.
Definition MEM_CHUNKLIMIT : Z := 4096 / MEM_ALIGN.
Definition MEM_MULTIPLIER : nat := Z.to_nat 1024.
Definition sizeof_MemCell : Z := 8.

Section Manager.

Variable malloc : list (Z * Z) -> Z -> option Z.
Variable junk : Z -> Z.

(** clb_newmem.c lines 98-126: SecureMalloc().  MemFlushFreeList() does
    nothing, so that the second call of malloc() is like the first. *)
Definition NewSecureMalloc (st : state) (size : Z) : result Z :=
  match malloc (regions st) size with
  | Some p => new_block st p size
  | None => OutOfMemory
  end.

(** Lines 309-315: the loop of MemAddNewChunk(); returns the memory and the
    last handle. *)
Fixpoint chunk_loop (n : nat) (handle block size : Z) (m : Z -> Z)
  : (Z -> Z) * Z :=
  match n with
  | O => (m, handle)
  | S n' => chunk_loop n' block (block + size) size (store m block (block + size))
  end.

(** Lines 298-317: MemAddNewChunk(). *)
Definition MemAddNewChunk (st : state) (mem_index : Z) : result unit :=
  let old := free_mem_list st mem_index in
  let size := mem_index * MEM_ALIGN in
  match NewSecureMalloc st (size * Z.of_nat MEM_MULTIPLIER) with
  | Done st1 block =>
      let (m, handle) := chunk_loop MEM_MULTIPLIER 0 block size (mem st1) in
      Done (mkstate (store m handle old)
              (set_list (free_mem_list st1) mem_index block) (regions st1)) tt
  | OutOfMemory => OutOfMemory
  | Undefined => Undefined
  end.

(** The index of the list for a size (lines 197, 263). *)
Definition mem_index (size : Z) : Z := (size + MEM_ALIGN - 1) / MEM_ALIGN.

(** Lines 201-214: filling an empty list. *)
Definition fill (st : state) (size : Z) : result unit :=
  if size <? MEM_CHUNKLIMIT then MemAddNewChunk st (mem_index size)
  else match NewSecureMalloc st size with
       | Done s p => Done (mkstate (store (mem s) p 0)
                             (set_list (free_mem_list s) (mem_index size) p)
                             (regions s)) tt
       | OutOfMemory => OutOfMemory
       | Undefined => Undefined
       end.

(** Lines 218-221: taking the first block of a list. *)
Definition first_block (st : state) (i : Z) : result Z :=
  let handle := free_mem_list st i in
  Done (mkstate (mem st) (set_list (free_mem_list st) i (mem st handle))
          (regions st)) handle.

(** Lines 190-234: SizeMallocReal(). *)
Definition NewSizeMalloc (st : state) (size0 : Z) : result Z :=
  let size := Z.max size0 sizeof_MemCell in
  if mem_index size <? NEW_ARR_SIZE then
    if free_mem_list st (mem_index size) =? 0 then
      match fill st size with
      | Done st1 _ => first_block st1 (mem_index size)
      | OutOfMemory => OutOfMemory
      | Undefined => Undefined
      end
    else first_block st (mem_index size)
  else NewSecureMalloc st size.

(** Lines 253-280: SizeFreeReal(). *)
Definition NewSizeFree (st : state) (p size0 : Z) : result unit :=
  let size := Z.max size0 sizeof_MemCell in
  if mem_index size <? NEW_ARR_SIZE then
    Done (mkstate (store (mem st) p (free_mem_list st (mem_index size)))
            (set_list (free_mem_list st) (mem_index size) p) (regions st)) tt
  else FREE junk st p.

End Manager.
