(** * Properties C01-C04: unification and matching. Statements only; proofs are in
    UnifyProofs.v and MatchProofs.v.  Vocabulary ([denotes], [solves], [acyclic],
    [wfbinding], [fo_sorts]) is at the end of Unify.v. *)
From Verif Require Import Terms Unify UnifyProofs MatchProofs.

Section Statements.
Variables (S : sorting) (pp : sym -> bool).

(** C01: after success the two terms have the same instance under the substitution that the
    bindings denote; that substitution exists, is unique and respects sorts. *)
Theorem C01_unifier_unifies :
  forall n st t1 t2 st',
    acyclic (bnd st) -> wfbinding S (bnd st) -> wf S t1 -> wf S t2 ->
    mgu n S pp st t1 t2 = Success st' ->
    exists s, denotes (bnd st') s /\ app s t1 = app s t2 /\ wfsubst S s
      /\ (forall s', denotes (bnd st') s' -> forall x, s' x = s x)
      /\ acyclic (bnd st') /\ wfbinding S (bnd st').
Proof.
  intros n st t1 t2 st' HA HB W1 W2 H.
  pose proof (mgu_correct n S pp st t1 t2 (Build_inv _ _ HA HB) W1 W2) as HC. rewrite H in HC.
  destruct HC as [[HA' HB'] [_ HC]].
  destruct (acyclic_denotes _ HA') as [s Hs]. exists s. split; [exact Hs|].
  split; [apply HC, denotes_solves, Hs|].
  split; [exact (denotes_wf S _ _ HA' HB' Hs)|].
  split; [intros s' Hs'; exact (denotes_unique _ _ _ HA' Hs' Hs)|].
  exact (conj HA' HB').
Qed.

(** C01 (no undefined behaviour): the argument loops never read past an argument array and the
    job queue is never read when empty. *)
Theorem C01_no_undefined_behaviour :
  forall n st t1 t2,
    acyclic (bnd st) -> wfbinding S (bnd st) -> wf S t1 -> wf S t2 ->
    mgu n S pp st t1 t2 <> UndefBehaviour.
Proof.
  intros n st t1 t2 HA HB W1 W2 H.
  pose proof (mgu_correct n S pp st t1 t2 (Build_inv _ _ HA HB) W1 W2) as HC. rewrite H in HC. exact HC.
Qed.

(** C02: unification terminates; the answer does not depend on the fuel once there is enough. *)
Theorem C02_unification_terminates :
  forall st t1 t2,
    acyclic (bnd st) -> wfbinding S (bnd st) -> wf S t1 -> wf S t2 ->
    exists N o, o <> OutOfFuel /\ o <> UndefBehaviour /\ forall n, N <= n -> mgu n S pp st t1 t2 = o.
Proof.
  intros st t1 t2 HA HB W1 W2.
  destruct (mgu_terminates S pp st t1 t2 (Build_inv _ _ HA HB) W1 W2) as [N HN].
  exists N, (mgu N S pp st t1 t2). split; [exact HN|]. split.
  - exact (C01_no_undefined_behaviour N st t1 t2 HA HB W1 W2).
  - intros n Hn. exact (mgu_mono S pp N n st t1 t2 Hn HN).
Qed.

(** C02: if any sort-respecting substitution compatible with the bindings unifies the terms, the
    call succeeds and that substitution is an instance of the computed one. *)
Theorem C02_most_general_unifier :
  forall st t1 t2 tau,
    fo_sorts S pp -> acyclic (bnd st) -> wfbinding S (bnd st) -> wf S t1 -> wf S t2 ->
    wfsubst S tau -> solves (bnd st) tau -> app tau t1 = app tau t2 ->
    exists N st', (forall n, N <= n -> mgu n S pp st t1 t2 = Success st')
      /\ exists s, denotes (bnd st') s /\ app s t1 = app s t2 /\ forall t, app tau (app s t) = app tau t.
Proof.
  intros st t1 t2 tau HF HA HB W1 W2 HT HS HE.
  destruct (mgu_terminates S pp st t1 t2 (Build_inv _ _ HA HB) W1 W2) as [N HN].
  pose proof (mgu_correct N S pp st t1 t2 (Build_inv _ _ HA HB) W1 W2) as HC.
  destruct (mgu N S pp st t1 t2) as [st'|st'| |] eqn:E; try contradiction.
  - exists N, st'. split.
    + intros n Hn. rewrite <- E. apply mgu_mono; [exact Hn | rewrite E; discriminate].
    + destruct HC as [[HA' HB'] [_ HC]]. destruct (acyclic_denotes _ HA') as [s Hs]. exists s.
      split; [exact Hs|]. split; [apply HC, denotes_solves, Hs|].
      intros t. apply (solves_denotes (bnd st')); [exact HA'|exact Hs|]. apply HC. auto.
  - destruct HC as [_ [_ HC]]. exfalso. exact (HC HF tau HT HS HE).
Qed.

(** C02: failure is reported only when there is no unifier at all. *)
Theorem C02_failure_means_no_unifier :
  forall n st t1 t2 st' tau,
    fo_sorts S pp -> acyclic (bnd st) -> wfbinding S (bnd st) -> wf S t1 -> wf S t2 ->
    mgu n S pp st t1 t2 = Failure st' ->
    wfsubst S tau -> solves (bnd st) tau -> app tau t1 <> app tau t2.
Proof.
  intros n st t1 t2 st' tau HF HA HB W1 W2 H.
  pose proof (mgu_correct n S pp st t1 t2 (Build_inv _ _ HA HB) W1 W2) as HC. rewrite H in HC.
  intros HT HS. destruct HC as [_ [_ HC]]. exact (HC HF tau HT HS).
Qed.

(** C03: a failed unification leaves every binding and the backtrack stack as they were. *)
Theorem C03_failed_unification_restores :
  forall n st t1 t2 st',
    acyclic (bnd st) -> wfbinding S (bnd st) -> wf S t1 -> wf S t2 ->
    mgu n S pp st t1 t2 = Failure st' ->
    trail st' = trail st /\ forall x, bnd st' x = bnd st x.
Proof.
  intros n st t1 t2 st' HA HB W1 W2 H.
  pose proof (mgu_correct n S pp st t1 t2 (Build_inv _ _ HA HB) W1 W2) as HC. rewrite H in HC.
  destruct HC as [A [B _]]. exact (conj A B).
Qed.

(** C03: backtracking to the position noted before a successful call undoes it. *)
Theorem C03_successful_unification_can_be_undone :
  forall n st t1 t2 st',
    acyclic (bnd st) -> wfbinding S (bnd st) -> wf S t1 -> wf S t2 ->
    mgu n S pp st t1 t2 = Success st' ->
    trail (backtrack_to_pos st' (length (trail st))) = trail st /\
    forall x, bnd (backtrack_to_pos st' (length (trail st))) x = bnd st x.
Proof.
  intros n st t1 t2 st' HA HB W1 W2 H.
  pose proof (mgu_correct n S pp st t1 t2 (Build_inv _ _ HA HB) W1 W2) as HC. rewrite H in HC.
  destruct HC as [_ [A _]]. exact (backtrack_ext _ _ A).
Qed.

(** C03, for matching. *)
Theorem C03_failed_match_restores :
  forall n st m t st',
    wfbinding S (bnd st) -> wf S m -> wf S t -> smatch n S pp st m t = Failure st' ->
    trail st' = trail st /\ forall x, bnd st' x = bnd st x.
Proof.
  intros n st m t st' HB Wm Wt H. pose proof (smatch_correct n S pp st m t HB Wm Wt) as HC.
  rewrite H in HC. destruct HC as [A [B _]]. exact (conj A B).
Qed.

Theorem C03_successful_match_can_be_undone :
  forall n st m t st',
    wfbinding S (bnd st) -> wf S m -> wf S t -> smatch n S pp st m t = Success st' ->
    trail (backtrack_to_pos st' (length (trail st))) = trail st /\
    forall x, bnd (backtrack_to_pos st' (length (trail st))) x = bnd st x.
Proof.
  intros n st m t st' HB Wm Wt H. pose proof (smatch_correct n S pp st m t HB Wm Wt) as HC.
  rewrite H in HC. destruct HC as [A _]. exact (backtrack_ext _ _ A).
Qed.

(** C03: every state reached from "no bindings" by any sequence of unification attempts and
    backtracks is consistent, so the theorems above apply to every reachable state. *)
Theorem C03_reachable_states_consistent :
  forall n ops st',
    (forall t1 t2, In (OpUnify t1 t2) ops -> wf S t1 /\ wf S t2) ->
    run_ops n S pp empty_state ops = Some st' ->
    acyclic (bnd st') /\ wfbinding S (bnd st').
Proof.
  intros n ops st' HW H. destruct (run_ops_inv n S pp ops _ _ (inv_empty S) HW H) as [A B]. exact (conj A B).
Qed.

(** C04: a reported match is one: reading the bindings as a substitution maps the pattern to the
    target, earlier bindings are kept, every pattern variable is bound. *)
Theorem C04_match_sound :
  forall n st m t st',
    wfbinding S (bnd st) -> wf S m -> wf S t -> smatch n S pp st m t = Success st' ->
    app (as_subst (bnd st')) m = t
    /\ (forall x u, bnd st x = Some u -> bnd st' x = Some u)
    /\ (forall x, In x (vars m) -> bnd st' x <> None)
    /\ (forall s, agrees (bnd st) s -> app s m = t -> agrees (bnd st') s).
Proof.
  intros n st m t st' HB Wm Wt H. pose proof (smatch_correct n S pp st m t HB Wm Wt) as HC.
  rewrite H in HC. destruct HC as [A [_ [C D]]].
  destruct (proj1 (C _) (as_subst_agrees (bnd st'))) as [E F].
  split; [exact F|]. split.
  - intros x u Hx. destruct A as [new [_ [A2 A3]]]. rewrite A3; [exact Hx|]. intros Hn. rewrite (A2 x Hn) in Hx. discriminate.
  - split; [exact D|]. intros s Hs Hm. apply C. auto.
Qed.

(** C04: if the target is an instance of the pattern, compatible with the bindings, the call
    succeeds: no early exit (weights, sorts) rejects it.  The fuel needed is the pattern size. *)
Theorem C04_match_complete :
  forall n st m t s,
    fo_sorts S pp -> wfbinding S (bnd st) -> wf S m -> wf S t ->
    wfsubst S s -> agrees (bnd st) s -> app s m = t -> size m < n ->
    exists st', smatch n S pp st m t = Success st'.
Proof.
  intros n st m t s HF HB Wm Wt Hs Ha E Hn. pose proof (smatch_correct n S pp st m t HB Wm Wt) as HC.
  destruct (smatch n S pp st m t) as [st'|st'| |].
  - exists st'. reflexivity.
  - destruct HC as [_ [_ HC]]. exfalso. exact (HC HF s Hs Ha E).
  - exfalso. lia.
  - contradiction.
Qed.
End Statements.

(** ** Non-vacuity: the hypotheses hold for concrete non-trivial inputs. *)

(* one sort 1 for individuals, sort 0 for truth values; f (2) binary, g (3) unary, a (4) constant, p (5) predicate *)
Definition exS : sorting := {| vsort := fun _ => 1;
  fres := fun f => if Nat.eqb f 5 then 0 else 1;
  fargs := fun f => match f with 2 => [1;1] | 3 => [1] | 5 => [1] | _ => [] end |}.
Definition expp (f : sym) := Nat.eqb f 5.
Definition ex_t1 := Fun 2 [Var 0; Fun 3 [Var 1]].
Definition ex_t2 := Fun 2 [Fun 3 [Var 2]; Var 0].

Example C01_ex_hyps : acyclic (bnd empty_state) /\ wfbinding exS (bnd empty_state) /\ wf exS ex_t1 /\ wf exS ex_t2 /\ fo_sorts exS expp.
Proof.
  split; [apply (inv_empty exS)|]. split; [apply (inv_empty exS)|].
  split; [reflexivity|]. split; [reflexivity|].
  intros f x H. unfold expp in H. simpl. rewrite H. discriminate.
Qed.
Example C01_ex_success : exists st, mgu 20 exS expp empty_state ex_t1 ex_t2 = Success st /\ trail st = [2; 0]
   /\ bnd st 0 = Some (Fun 3 [Var 1]) /\ bnd st 2 = Some (Var 1).
Proof. eexists. repeat split; vm_compute; reflexivity. Qed.
(* occurs-check failure found after a binding was made: x0:=g(x1), then x1 vs g(x0) *)
Example C03_ex_failure : exists st, mgu 20 exS expp empty_state
   (Fun 2 [Var 0; Var 1]) (Fun 2 [Fun 3 [Var 1]; Fun 3 [Var 0]]) = Failure st /\ trail st = [] /\ bnd st 0 = None /\ bnd st 1 = None.
Proof. eexists. repeat split; vm_compute; reflexivity. Qed.
Example C04_ex : exists st, smatch 20 exS expp empty_state ex_t1 (Fun 2 [Fun 4 []; Fun 3 [Fun 3 [Fun 4 []]]]) = Success st
   /\ bnd st 1 = Some (Fun 3 [Fun 4 []]).
Proof. eexists. split; vm_compute; reflexivity. Qed.
Example C03_ex_reach : exists st, run_ops 20 exS expp empty_state
   [OpUnify ex_t1 ex_t2; OpUnify (Var 1) (Fun 4 []); OpUnify (Var 0) (Fun 4 []); OpBacktrackTo 2] = Some st /\ trail st = [2;0].
Proof. eexists. split; vm_compute; reflexivity. Qed.

Print Assumptions C01_unifier_unifies.
Print Assumptions C01_no_undefined_behaviour.
Print Assumptions C02_unification_terminates.
Print Assumptions C02_most_general_unifier.
Print Assumptions C02_failure_means_no_unifier.
Print Assumptions C03_failed_unification_restores.
Print Assumptions C03_successful_unification_can_be_undone.
Print Assumptions C03_failed_match_restores.
Print Assumptions C03_successful_match_can_be_undone.
Print Assumptions C03_reachable_states_consistent.
Print Assumptions C04_match_sound.
Print Assumptions C04_match_complete.
