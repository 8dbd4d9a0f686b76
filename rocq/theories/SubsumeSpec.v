(** * Specification of subsumption. *)
From Coq Require Import Permutation.
From Verif Require Import Terms Unify Semantics Clauses.

(** [e] is the instance of [l] under [s], up to the symmetry of equality. *)
Definition inst_of (s : subst) (l e : eqn) : Prop :=
  pos l = pos e /\
  ((app s (lt l) = lt e /\ app s (rt l) = rt e) \/ (app s (lt l) = rt e /\ app s (rt l) = lt e)).

(** Multiset subsumption: some instance of C is a sub-multiset of D. *)
Definition multiset_subsumes (S : sorting) (c d : clause) : Prop :=
  exists s d1 d2, wfsubst S s /\ Permutation d (d1 ++ d2) /\ Forall2 (inst_of s) c d1.


(** Equality below some position: the two terms are equal because of an instance of the equation e. *)
Inductive eq_by (S : sorting) (e : eqn) : term -> term -> Prop :=
| eb_refl : forall t, eq_by S e t t
| eb_top : forall s, wfsubst S s -> eq_by S e (app s (lt e)) (app s (rt e))
| eb_top' : forall s, wfsubst S s -> eq_by S e (app s (rt e)) (app s (lt e))
| eb_arg : forall f l r x y, eq_by S e x y -> eq_by S e (Fun f (l ++ x :: r)) (Fun f (l ++ y :: r)).


(** Literals in normal form for an ordering gt. *)
Record norm_lit (gt : term -> term -> Prop) (e : eqn) : Prop := {
  nl_true : lt e = ttrue -> rt e = ttrue;                        (* EqnAlloc puts $true on the right *)
  nl_ori : ori e = true <-> gt (lt e) (rt e);                    (* literals are oriented ... *)
  nl_left : ~ gt (rt e) (lt e) }.                                (* ... with the larger side left *)


(** Size of clauses, to state how much fuel suffices. *)
Definition lsize (e : eqn) : nat := size (lt e) + size (rt e).
Fixpoint csize (c : clause) : nat := match c with [] => 0 | e :: c' => lsize e + csize c' end.
