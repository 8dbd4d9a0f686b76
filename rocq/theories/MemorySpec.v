(** Programs that use the memory manager. *)

From Coq Require Import ZArith List Bool.
From Verif Require Import Memory.
Import ListNotations.
Local Open Scope Z_scope.

(** A block is an address and a number of bytes. *)
Definition apart (b c : Z * Z) : Prop :=
  fst b + snd b <= fst c \/ fst c + snd c <= fst b.

Definition inside (a n : Z) (b : Z * Z) : Prop :=
  fst b <= a /\ a + n <= fst b + snd b.

(** malloc() gives memory that is not in use, or fails. *)
Definition good_malloc (malloc : list (Z * Z) -> Z -> option Z) : Prop :=
  forall rs n p, 0 < n -> malloc rs n = Some p ->
    0 < p /\ forall r, In r rs -> apart (p, n) r.

(** The states that a program can reach that gives back only blocks it has
    got, with the same size, and writes only to its blocks.  [live] are its
    blocks.  malloc() and what free() leaves behind may be different each
    time, and the C library may change what is outside of the memory that it
    has given out. *)
Inductive reach : state -> list (Z * Z) -> Prop :=
| reach_start : forall m, reach (start m) []
| reach_malloc : forall st live malloc junk size st' p,
    reach st live -> 0 < size -> good_malloc malloc ->
    SizeMalloc malloc junk st size = Done st' p \/
    SecureMalloc malloc junk st size = Done st' p \/
    SecureRealloc malloc junk st 0 size = Done st' p ->
    reach st' ((p, size) :: live)
| reach_free : forall st l1 l2 p size junk st',
    reach st (l1 ++ (p, size) :: l2) ->
    SizeFree junk st p size = Done st' tt \/ FREE junk st p = Done st' tt ->
    reach st' (l1 ++ l2)
| reach_realloc : forall st l1 l2 p n malloc junk size st' q,
    reach st (l1 ++ (p, n) :: l2) -> 0 < size -> good_malloc malloc ->
    SecureRealloc malloc junk st p size = Done st' q ->
    reach st' ((q, size) :: l1 ++ l2)
| reach_flush : forall st live junk st',
    reach st live -> MemFlushFreeList junk st = Done st' tt -> reach st' live
| reach_write : forall st live m,
    reach st live ->
    (forall a r, In r (regions st) -> inside a 8 r ->
                 (forall b, In b live -> apart (a, 8) b) -> m a = mem st a) ->
    reach (mkstate m (free_mem_list st) (regions st)) live.

(** Pairwise disjoint blocks. *)
Fixpoint disjoint (l : list (Z * Z)) : Prop :=
  match l with
  | [] => True
  | b :: r => (forall c, In c r -> apart b c) /\ disjoint r
  end.

(** The blocks hold the same pointers in both states. *)
Definition same_contents (live : list (Z * Z)) (st st' : state) : Prop :=
  forall a b, In b live -> inside a 8 b -> mem st' a = mem st a.
