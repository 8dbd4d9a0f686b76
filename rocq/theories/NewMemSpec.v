(** Programs that use the alternative memory manager. *)

From Coq Require Import ZArith List Bool.
From Verif Require Import Memory MemorySpec NewMem.
Import ListNotations.
Local Open Scope Z_scope.

(** As for the other manager; [sizes] are the sizes that the program asks
    for. *)
Inductive new_reach (sizes : Z -> Prop) : state -> list (Z * Z) -> Prop :=
| new_start : forall m, new_reach sizes (start m) []
| new_malloc : forall st live malloc size st' p,
    new_reach sizes st live -> 0 < size -> sizes size -> good_malloc malloc ->
    NewSizeMalloc malloc st size = Done st' p ->
    new_reach sizes st' ((p, size) :: live)
| new_free : forall st l1 l2 p size junk st',
    new_reach sizes st (l1 ++ (p, size) :: l2) ->
    NewSizeFree junk st p size = Done st' tt ->
    new_reach sizes st' (l1 ++ l2)
| new_write : forall st live m,
    new_reach sizes st live ->
    (forall a r, In r (regions st) -> inside a 8 r ->
                 (forall b, In b live -> apart (a, 8) b) -> m a = mem st a) ->
    new_reach sizes (mkstate m (free_mem_list st) (regions st)) live.

(** Of the sizes over 256 that share a list only one is used, [only i] for
    those from 16 i - 15 to 16 i. *)
Definition one_size (only : Z -> Z) (size : Z) : Prop :=
  256 < size <= 16 * 8191 -> size = only ((size + 15) / 16).

(** A block lies in memory that malloc() has given out. *)
Definition allocated (st : state) (b : Z * Z) : Prop :=
  exists r, In r (regions st) /\ inside (fst b) (snd b) r.
