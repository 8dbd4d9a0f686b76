(** C29: integer maps answer every history of operations like a partial function from numbers to objects. *)
From Coq Require Import List ZArith Lia Bool.
From Verif Require Queue.
From Verif Require Import Mem Splay IntMap IntMapProofs.
Import ListNotations.
Open Scope Z_scope.

(** Any sequence of lookups, assignments, references, deletions and bounded iterations, whatever representation the map goes
    through: no step reads memory that is not there, no step fails to return, and every answer is that of the partial function. *)
Theorem C29_intmap_history : forall A (ops : list (iop A)), Forall iop_ok ops ->
  exists answers m, Queue.run imap_step imap_alloc ops = Some (answers, m) /\ behaves (fun _ => None) ops answers.
Proof. intros A ops F. apply (run_ok ops imap_alloc (fun _ => None) F alloc_inv). Qed.

(** A stored object can be read back and is what an iteration reports; other keys are not affected. *)
Theorem C29_assign_then_get : forall A (ops : list (iop A)) k v k', Forall iop_ok ops -> key_ok k -> key_ok k' ->
  exists before x m, Queue.run imap_step imap_alloc (ops ++ [OGet k'; OAssign k v; OGet k; OGet k']) =
    Some (before ++ [APtr x; AUnit; APtr v; APtr (if k' =? k then v else x)], m).
Proof.
  intros A ops k v k' F Hk Hk'.
  destruct (run_ok (ops ++ [OGet k'; OAssign k v; OGet k; OGet k']) imap_alloc (fun _ => None)) as [ans [m [E B]]]; [|apply alloc_inv|].
  - apply Forall_app. split; auto; repeat (constructor; simpl; auto).
  - rewrite E. clear E. generalize dependent ans. generalize (fun _ : Z => @None A). clear F. induction ops as [|o ops IH]; intros f ans B.
    + destruct ans as [|a1 ans]; [destruct B|]. destruct B as [f1 [[-> F1] B]]. destruct ans as [|a2 ans]; [destruct B|]. destruct B as [f2 [[-> F2] B]].
      destruct ans as [|a3 ans]; [destruct B|]. destruct B as [f3 [[-> F3] B]]. destruct ans as [|a4 ans]; [destruct B|]. destruct B as [f4 [[-> F4] B]].
      destruct ans; [|destruct B]. exists [], (f k'), m. simpl. rewrite F3, !F2. unfold fset. rewrite Z.eqb_refl, F1. reflexivity.
    + destruct ans as [|a ans]; [destruct B|]. destruct B as [f' [_ B]]. destruct (IH f' ans B) as [b [x [m' E]]]. exists (a :: b), x, m'. inversion E; subst. reflexivity.
Qed.

(** The history below goes through all representations: one value, tree, array, tree, array. *)
Definition kind {A} (m : imap A) : nat := match mbody m with BEmpty => 0 | BSingle _ => 1 | BArray _ => 2 | BTree _ => 3 end.
Fixpoint kinds {A} (m : imap A) (ops : list (iop A)) : list nat :=
  kind m :: match ops with [] => [] | o :: r => match imap_step m o with Some (_, m') => kinds m' r | None => [] end end.
Definition keys (n : nat) (i : Z) : list (iop nat) := map (fun j => OAssign (i + Z.of_nat j) (Some j)) (seq 0 n).
Definition history : list (iop nat) :=
  [OGet 3; OAssign 100 (Some 7%nat); OAssign 1 (Some 8%nat)] ++ keys 30 2 ++ [OAssign (-900) (Some 9%nat); ODel (-900); OIter 0 5; ORef 40; OIter 95 1000; ODel 100; ODel 77].
Example history_ok : Forall iop_ok history.
Proof. unfold history, keys, iop_ok, key_ok. cbn. repeat (constructor; [lia|]). constructor. Qed.
Example history_kinds : kinds imap_alloc history =
  ([0; 0; 1] ++ repeat 3 23 ++ repeat 2 8 ++ repeat 3 7)%nat.
Proof. vm_compute. reflexivity. Qed.
Example history_answers : option_map (fun p => skipn 33 (fst p)) (Queue.run imap_step imap_alloc history) =
  Some [AUnit; APtr (Some 9%nat); APairs [(1, 8%nat); (2, 0%nat); (3, 1%nat); (4, 2%nat); (5, 3%nat)]; APtr None; APairs [(100, 7%nat)]; APtr (Some 7%nat); APtr None].
Proof. vm_compute. reflexivity. Qed.

Print Assumptions C29_intmap_history.
Print Assumptions C29_assign_then_get.
