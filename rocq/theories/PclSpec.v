(** What an extracted proof is. *)

From Coq Require Import ZArith String Ascii List Bool.
From Verif Require Import Pcl.
Import ListNotations.
Local Open Scope Z_scope.

(** The identifier [i] occurs in a justification. *)
Inductive quotes : expr -> id -> Prop :=
| q_quote : forall i, quotes (Quote i) i
| q_op : forall e args i, In e args -> quotes e i -> quotes (Op args) i.

(** The steps that the roots depend on, and the roots. *)
Inductive needed (l : list step) (root : step -> Prop) : step -> Prop :=
| n_root : forall s, In s l -> root s -> needed l root s
| n_dep : forall s s', needed l root s -> In s' l ->
    quotes (s_just s) (s_id s') -> needed l root s'.

(** A step whose extra string says proof, final or extract, in quotes or
    not. *)
Definition flagged (s : step) : Prop :=
  exists q w r, s_extra s = Some (q ++ text w ++ r) /\
    In q [[]; text "'"; [""""%char]] /\
    (w = "proof" \/ w = "final" \/ w = "extract")%string.

(** The end of a refutation: the empty clause, or a shell step with the
    extra string 'proof'. *)
Definition refutation (s : step) : Prop :=
  s_shell s = false /\ s_fof s = false /\ s_empty s = true \/
  s_shell s = true /\ s_extra s = Some (text "'proof'").

(** Identifiers in lexicographic order. *)
Inductive lex_lt : id -> id -> Prop :=
| lt_nil : forall y b, lex_lt [] (y :: b)
| lt_head : forall x y a b, x < y -> lex_lt (x :: a) (y :: b)
| lt_tail : forall x a b, lex_lt a b -> lex_lt (x :: a) (x :: b).

(** Identifiers that an int can tell apart. *)
Definition small_id (i : id) : Prop := Forall (fun x => 0 <= x < 2 ^ 31 - 1) i.
Definition small (l : list step) : Prop :=
  forall s, In s l -> small_id (s_id s) /\
    forall i, quotes (s_just s) i -> small_id i.

(** Identifiers that are just numbers. *)
Definition number_id (i : id) : Prop := exists n, 0 <= n /\ i = [n].
Definition numbered (l : list step) : Prop :=
  forall s, In s l -> number_id (s_id s) /\
    forall i, quotes (s_just s) i -> number_id i.

(** All references of the needed steps are to steps of the protocol. *)
Definition resolved (l : list step) (root : step -> Prop) : Prop :=
  forall s i, needed l root s -> quotes (s_just s) i ->
    exists s', In s' l /\ s_id s' = i.

(** A way of listing a set of steps. *)
Definition listing (ord : list (option step) -> list (option step)) : Prop :=
  forall l, (forall x, In x (ord l) <-> In x l) /\
            (length (ord l) <= length l)%nat.

(** The flagged steps at the very end of a protocol: from the step on, all
    numbers up to the greatest are those of flagged steps. *)
Definition trailing (l : list step) (s : step) : Prop :=
  exists n, s_id s = [n] /\
    forall m, n <= m -> (exists t k, In t l /\ s_id t = [k] /\ m <= k) ->
      exists t, In t l /\ s_id t = [m] /\ flagged t.
