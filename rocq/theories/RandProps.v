(** C32: what determines the random numbers. *)
From Verif Require Import Rand.

Fixpoint kiss_stream (c : cell) (n : nat) : list Z := match n with O => [] | S n' => let c' := kiss_next c in kiss_out c' :: kiss_stream c' n' end.
Fixpoint rands (ops : list rop) : nat := match ops with [] => O | RRand _ :: r => S (rands r) | RSeed _ _ _ _ :: r => rands r end.
Lemma run_stream : forall ops w, fst (rand_run w ops) = kiss_stream (statics w) (rands ops).
Proof.
  induction ops as [|[h a b c|h] r IH]; intros w; auto.
  - cbn [rand_run rands]. rewrite IH. destruct h; reflexivity.
  - cbn [rand_run rands kiss_stream]. unfold jkiss_rand. destruct (rand_run _ r) as [l w2] eqn:E. cbn [fst]. f_equal.
    pose proof (IH {| statics := kiss_next (statics w); deflt := deflt w; user := user w |}) as H. rewrite E in H. exact H.
Qed.

(** The numbers that a run of the program draws are the same in every run: they do not depend on the memory of the callers, on the
    handles, or on anything else. In particular a rerun with the same seeds draws the same numbers. *)
Theorem C32_reproducible_partial : forall ops ops' u u', rands ops = rands ops' -> fst (rand_run (start u) ops) = fst (rand_run (start u') ops').
Proof. intros ops ops' u u' E. rewrite !run_stream, E. reflexivity. Qed.

(** They are 32-bit numbers, so that JKISSRandDouble is in [0, 1). *)
Theorem C32_range : forall ops u v, In v (fst (rand_run (start u) ops)) -> 0 <= v < 2 ^ 32.
Proof.
  intros ops u v. rewrite run_stream. generalize (statics (start u)). induction (rands ops) as [|n IH]; intros c; [intros []|]. cbn [kiss_stream].
  intros [<-|H]; [|eapply IH; eauto]. unfold kiss_out, u32. apply Z.mod_pos_bound. lia.
Qed.

(** Seeding does not determine the sequence: seeding with the same seeds and drawing one number can give different numbers ... *)
Theorem C32_same_seed_different_refuted : exists before s1 s2 s3 u,
  let draw := fun ops => nth_error (rev (fst (rand_run (start u) (ops ++ [RSeed None s1 s2 s3; RRand None])))) 0 in
  draw [] <> None /\ draw before <> None /\ draw [] <> draw before.
Proof. exists [RRand None], 1, 2, 3, (fun _ => cell0). vm_compute. repeat split; discriminate. Qed.
(** ... whatever the seeds and the generators are ... *)
Theorem C32_seed_ignored : forall ops r h s1 s2 s3 u, fst (rand_run (start u) (ops ++ RSeed h s1 s2 s3 :: r)) = fst (rand_run (start u) (ops ++ r)).
Proof. intros. apply C32_reproducible_partial. induction ops as [|[]]; simpl; auto. Qed.
(** ... and generators with separate states are not separate: drawing from one changes what the other returns. *)
Theorem C32_generators_shared_refuted : exists i j u, i <> j /\
  fst (rand_run (start u) [RRand (Some i)]) <> skipn 1 (fst (rand_run (start u) [RRand (Some j); RRand (Some i)])).
Proof. exists 0%nat, 1%nat, (fun _ => cell0). split; [discriminate|]. vm_compute. discriminate. Qed.

Example first_numbers : fst (rand_run (start (fun _ => cell0)) [RSeed None 1 2 3; RRand (Some 7%nat); RRand None; RRand None]) <> [] /\
  NoDup (fst (rand_run (start (fun _ => cell0)) [RSeed None 1 2 3; RRand (Some 7%nat); RRand None; RRand None])).
Proof.
  split; [vm_compute; discriminate|].
  match goal with |- NoDup ?l => assert (X : nodup Z.eq_dec l = l) by (vm_compute; reflexivity) end. rewrite <- X. apply NoDup_nodup.
Qed.

Print Assumptions C32_reproducible_partial.
Print Assumptions C32_range.
Print Assumptions C32_same_seed_different_refuted.
Print Assumptions C32_seed_ignored.
Print Assumptions C32_generators_shared_refuted.
