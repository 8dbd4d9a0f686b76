(** * The random number generator (BASICS/clb_simple_stuff.c) *)
From Coq Require Export List ZArith Lia Bool.
Export ListNotations.
Open Scope Z_scope.

(** RandStateCell, clb_simple_stuff.h:44-50: four unsigned int *)
Record cell := { xs : Z; ys : Z; zs : Z; cs : Z }.
Definition u32 (z : Z) : Z := z mod 2 ^ 32.

(** Everything the functions can reach: the file-level variables xstate, ystate, zstate, cstate (.c:31-34), the file-level cell
    rand_state (.c:37) and the cells of the callers, addressed by a number. *)
Record world := { statics : cell; deflt : cell; user : nat -> cell }.
Definition cell0 : cell := {| xs := 123456789; ys := 987654321; zs := 43219876; cs := 6543217 |}.
Definition start (u : nat -> cell) : world := {| statics := cell0; deflt := cell0; user := u |}.

(** JKISSSeed, .c:134-143; [None] is the NULL handle. The carry cstate of the cell is not set. *)
Definition seed_cell (c : cell) (s1 s2 s3 : Z) : cell := {| xs := u32 s1; ys := u32 s2; zs := u32 s3; cs := cs c |}.
Definition jkiss_seed (w : world) (h : option nat) (s1 s2 s3 : Z) : world :=
  match h with
  | None => {| statics := statics w; deflt := seed_cell (deflt w) s1 s2 s3; user := user w |}
  | Some i => {| statics := statics w; deflt := deflt w; user := fun j => if Nat.eqb j i then seed_cell (user w i) s1 s2 s3 else user w j |}
  end.

(** JKISSRand, .c:159-175. The handle is replaced by &rand_state if it is NULL and then not used: the statements work on the
    file-level variables of the same names. *)
Definition kiss_next (c : cell) : cell :=
  let x := u32 (314527869 * xs c + 1234567) in
  let y1 := Z.lxor (ys c) (u32 (Z.shiftl (ys c) 5)) in
  let y2 := Z.lxor y1 (Z.shiftr y1 7) in
  let y3 := Z.lxor y2 (u32 (Z.shiftl y2 22)) in
  let t := (4294584393 * zs c + cs c) mod 2 ^ 64 in
  {| xs := x; ys := y3; zs := u32 t; cs := u32 (Z.shiftr t 32) |}.
Definition kiss_out (c : cell) : Z := u32 (xs c + ys c + zs c).
Definition jkiss_rand (w : world) (h : option nat) : Z * world :=
  let c := kiss_next (statics w) in (kiss_out c, {| statics := c; deflt := deflt w; user := user w |}).

(** JKISSRandDouble, .c:189-192: JKISSRand(state)/4294967296.0, as a numerator over 2^32 (the quotient of a 32-bit number by 2^32 is exact
    in double precision) *)
Definition jkiss_rand_double (w : world) (h : option nat) : Z * world := jkiss_rand w h.

(** * Histories *)
Inductive rop := RSeed (h : option nat) (s1 s2 s3 : Z) | RRand (h : option nat).
Fixpoint rand_run (w : world) (ops : list rop) : list Z * world :=
  match ops with
  | [] => ([], w)
  | RSeed h a b c :: r => rand_run (jkiss_seed w h a b c) r
  | RRand h :: r => let (v, w') := jkiss_rand w h in let (l, w2) := rand_run w' r in (v :: l, w2)
  end.
