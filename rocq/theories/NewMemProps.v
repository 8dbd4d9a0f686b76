(** C69: the alternative memory manager. *)

From Coq Require Import ZArith List Bool Lia Permutation.
From Verif Require Import Memory MemorySpec MemoryProofs MemoryProps NewMem
  NewMemSpec NewMemProofs.
Import ListNotations.
Local Open Scope Z_scope.

Lemma live_disjoint : forall only fr live,
  pw (blocks only live fr) ->
  (forall b, In b live -> snd b <= lcap only (snd b)) -> disjoint live.
Proof.
  intros only fr. induction live as [|b live IH]; intros P L; cbn; auto.
  assert (PT : pw (blocks only live fr)) by (eapply pw_tail; exact P).
  split; [|apply IH; auto; intros c C; apply L; right; auto].
  intros c C. destruct P as [N A].
  unfold blocks in N, A. cbn [map app] in N, A. apply NoDup_cons_iff in N.
  assert (I : In (lb only c) (map (lb only) live ++ map (fb only) fr)).
  { apply in_or_app. left. apply in_map. exact C. }
  assert (NE : lb only b <> lb only c) by (intros E; rewrite E in N; tauto).
  pose proof (A _ _ (or_introl eq_refl) (or_intror I) NE) as AP.
  pose proof (L b (or_introl eq_refl)). pose proof (L c (or_intror C)).
  unfold apart, lb in *. cbn [fst snd] in *. lia.
Qed.

(** If of the sizes over 256 that share a list only one is used, blocks do
    not overlap and lie in memory that malloc() has given out. *)
Theorem C69_blocks : forall only st live, new_reach (one_size only) st live ->
  disjoint live /\
  forall b, In b live -> 0 < fst b /\ allocated st b.
Proof.
  intros only st live H. apply new_reach_inv in H. destruct H as (fr & V). split.
  - apply (live_disjoint only fr); [apply V|].
    intros b B. apply (n_live _ _ _ _ V b B).
  - intros b B. pose proof (n_live _ _ _ _ V b B) as L.
    destruct (n_in _ _ _ _ V _ (in_live only live fr b B)) as [_ (r & R & I)].
    pose proof (n_pos _ _ _ _ V r R). unfold inside, lb in I. cbn [fst snd] in I.
    split; [lia|]. exists r. split; auto. unfold inside. lia.
Qed.

(** No operation is undefined, and none changes what the program keeps in its
    blocks. *)
Theorem C69_contents : forall only st live, new_reach (one_size only) st live ->
  (forall malloc size, good_malloc malloc -> 0 < size -> one_size only size ->
     match NewSizeMalloc malloc st size with
     | Done st' _ => same_contents live st st'
     | OutOfMemory => True
     | Undefined => False
     end) /\
  (forall junk l1 l2 p size, live = l1 ++ (p, size) :: l2 ->
     exists st', NewSizeFree junk st p size = Done st' tt /\
       same_contents (l1 ++ l2) st st').
Proof.
  intros only st live H. apply new_reach_inv in H. destruct H as (fr & V). split.
  - intros malloc size G P O.
    destruct (newsize_ok only malloc st live fr size G V P O)
      as [(s & q & f & A & _ & C)|A]; rewrite A; auto.
  - intros junk l1 l2 p size ->.
    apply (ninv_live_perm _ _ _ ((p, size) :: l1 ++ l2)) in V;
      [|apply Permutation_sym; apply Permutation_middle].
    destruct (newfree_ok only junk _ _ _ _ _ V) as (s & f & A & _ & C). eauto.
Qed.

(** Memory is used again, by all sizes that share a list. *)
Theorem C69_reuse : forall only st live junk malloc p size st' size',
  new_reach (one_size only) st live -> In (p, size) live -> 0 < size' ->
  (Z.max size 8 + 15) / 16 = (Z.max size' 8 + 15) / 16 -> size <= 131056 ->
  NewSizeFree junk st p size = Done st' tt ->
  exists st'', NewSizeMalloc malloc st' size' = Done st'' p /\
    regions st'' = regions st.
Proof.
  intros only st live junk malloc p size st' size' H I P E L K.
  assert (P0 : p <> 0).
  { destruct (C69_blocks _ _ _ H) as [_ B]. apply B in I. cbn in I. lia. }
  assert (EI : mem_index (Z.max size' 8) = mem_index (Z.max size 8)).
  { unfold mem_index, MEM_ALIGN.
    replace (Z.max size' 8 + 16 - 1) with (Z.max size' 8 + 15) by lia.
    replace (Z.max size 8 + 16 - 1) with (Z.max size 8 + 15) by lia. auto. }
  assert (LT : mem_index (Z.max size 8) <? NEW_ARR_SIZE = true).
  { apply Z.ltb_lt. pose proof (index_ok (Z.max size 8) ltac:(lia)).
    unfold NEW_ARR_SIZE. lia. }
  unfold NewSizeFree, sizeof_MemCell in K. rewrite LT in K. injection K as <-.
  unfold NewSizeMalloc, sizeof_MemCell. rewrite EI, LT.
  cbn [free_mem_list]. unfold first_block. cbn [free_mem_list mem regions].
  assert (Q : set_list (free_mem_list st) (mem_index (Z.max size 8)) p
                (mem_index (Z.max size 8)) = p)
    by (unfold set_list; rewrite Z.eqb_refl; reflexivity).
  rewrite Q. destruct (Z.eqb_spec p 0); [contradiction|].
  eexists. split; reflexivity.
Qed.

(* ------------------------------------------------------------------ *)
(** * Concrete cases *)

(** A malloc() that never fails. *)
Definition always (rs : list (Z * Z)) (n : Z) : option Z := Some (top rs).

Example always_ok : good_malloc always.
Proof.
  intros rs n p N H. injection H as <-. destruct (top_ok rs) as [A B].
  split; [lia|]. intros r R. apply B in R. right. exact R.
Qed.

Lemma always_done : forall st s, exists st' p, NewSizeMalloc always st s = Done st' p.
Proof.
  intros st s. unfold NewSizeMalloc, fill, MemAddNewChunk, NewSecureMalloc, always,
    new_block, first_block. cbv zeta.
  destruct (_ <? NEW_ARR_SIZE); [|eauto].
  destruct (_ =? 0); [|eauto]. destruct (_ <? MEM_CHUNKLIMIT); [|eauto].
  destruct (chunk_loop _ _ _ _ _) as [m h]. eauto.
Qed.

(** Blocks of 24 bytes from a chunk of 1024, of 272 and of 200000 bytes. *)
Example new_history : exists st p q r,
  new_reach (one_size (fun i => 16 * i)) st [(r, 200000); (q, 272); (p, 24)].
Proof.
  assert (A := new_start (one_size (fun i => 16 * i)) (fun _ => 0)).
  destruct (always_done (start (fun _ => 0)) 24) as (s1 & p & E1).
  destruct (always_done s1 272) as (s2 & q & E2).
  destruct (always_done s2 200000) as (s3 & r & E3).
  exists s3, p, q, r.
  eapply new_malloc; [|lia|unfold one_size; lia|apply always_ok|exact E3].
  eapply new_malloc; [|lia|intros _; reflexivity|apply always_ok|exact E2].
  eapply new_malloc; [exact A|lia|unfold one_size; lia|apply always_ok|exact E1].
Qed.

(** SizeMallocReal() (clb_newmem.c line 211) allocates 264 bytes for a block
    of 264, and hands out the same block for 272 once it is free. *)
Theorem C69_too_small_refuted : exists st p,
  new_reach (fun _ => True) st [(p, 272)] /\ ~ allocated st (p, 272).
Proof.
  assert (A := new_start (fun _ => True) (fun _ => 0)).
  eapply (new_malloc _ _ _ (bump 9) 264) in A;
    [|lia|exact I|apply bump_ok|reflexivity].
  eapply (new_free _ _ [] [] 16 264 (fun _ => 7)) in A; [|reflexivity].
  eapply (new_malloc _ _ _ (bump 9) 272) in A;
    [|lia|exact I|apply bump_ok|reflexivity].
  eexists _, _. split; [exact A|]. intros (r & R & K). cbn in R.
  destruct R as [<-|[]]. unfold inside in K. cbn in K. lia.
Qed.

Print Assumptions C69_blocks.
Print Assumptions C69_contents.
Print Assumptions C69_reuse.
Print Assumptions C69_too_small_refuted.
