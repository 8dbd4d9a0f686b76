(** Satisfiability of clauses and of DIMACS files. *)

From Coq Require Import ZArith List Bool.
From Verif Require Import Ground.
Import ListNotations.
Local Open Scope Z_scope.

(** Clauses are satisfiable if they are true in some nonempty domain for all
    values of the variables. *)
Definition value {D} (con : Z -> D) (env : nat -> D) (t : term) : D :=
  match t with Var x => env x | Con c => con c end.

Definition satisfiable (set : list clause) : Prop :=
  exists (D : Type) (d : D) (con : Z -> D) (pr : Z -> list D -> bool),
    forall c env, In c set ->
      exists l, In l c /\ pr (l_pred l) (map (value con env) (l_args l)) = l_pos l.

(** A DIMACS file is a sequence of clauses that end with 0. *)
Fixpoint reads (acc s : list Z) : list (list Z) :=
  match s with
  | [] => []
  | z :: r => if z =? 0 then rev acc :: reads [] r else reads (z :: acc) r
  end.

Definition true_in (v : Z -> bool) (c : list Z) : Prop :=
  exists z, In z c /\ (0 < z /\ v z = true \/ z < 0 /\ v (- z) = false).

Definition model (v : Z -> bool) (file : list Z) : Prop :=
  forall c, In c (reads [] file) -> true_in v c.

Definition sat_file (file : list Z) : Prop := exists v, model v file.

(** The constants of the clauses. *)
Definition constants_in (set : list clause) (consts : list Z) : Prop :=
  forall c l a, In c set -> In l c -> In (Con a) (l_args l) -> In a consts.

(** Different atoms have different positive numbers. *)
Definition numbering (code : Z -> list Z -> Z) : Prop :=
  (forall p a, 0 < code p a) /\
  (forall p a q b, code p a = code q b -> p = q /\ a = b).

Definition lists {A} (ord : list A -> list A) : Prop :=
  forall l x, In x (ord l) <-> In x l.

(** A valuation of atoms makes all instances of the clauses over some
    constants true. *)
Definition true_instances (code : Z -> list Z -> Z) (v : Z -> bool)
  (terms : list Z) (set : list clause) : Prop :=
  forall c env, In c set -> (forall x, In (env x) terms) ->
    exists l, In l c /\
      v (code (l_pred l) (map (value (fun c => c) env) (l_args l))) = l_pos l.
