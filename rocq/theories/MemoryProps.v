(** C68: the memory manager. *)

From Coq Require Import ZArith List Bool Lia Permutation.
From Verif Require Import Memory MemorySpec MemoryProofs.
Import ListNotations.
Local Open Scope Z_scope.

Lemma disjoint_live : forall st live fr, inv st live fr -> disjoint live.
Proof.
  intros st live fr V. apply (disjoint_app_l live fr). apply pw_disjoint.
  eapply pw_perm; [apply (i_perm _ _ _ V)|apply (i_pw _ _ _ V)].
Qed.

Lemma live_region : forall st live fr b, inv st live fr -> In b live ->
  In b (regions st).
Proof.
  intros st live fr b V B.
  eapply Permutation_in; [apply Permutation_sym; apply (i_perm _ _ _ V)|].
  apply in_or_app. auto.
Qed.

(** The blocks of a program do not overlap, they are no null pointers, and
    each is memory that malloc() has given out with this size. *)
Theorem C68_blocks : forall st live, reach st live ->
  disjoint live /\
  forall b, In b live -> 0 < fst b /\ In b (regions st).
Proof.
  intros st live H. apply reach_inv in H. destruct H as (fr & V). split.
  - eapply disjoint_live; eauto.
  - intros b B. pose proof (live_region _ _ _ _ V B) as R. split; auto.
    apply (i_pos _ _ _ V b R).
Qed.

(** No operation is undefined: memory is given back to the C library only
    once, and the lists are intact whatever the program writes to its
    blocks. *)
Theorem C68_defined : forall st live junk, reach st live ->
  (forall malloc size, good_malloc malloc -> 0 < size ->
     SizeMalloc malloc junk st size <> Undefined /\
     SecureMalloc malloc junk st size <> Undefined /\
     SecureRealloc malloc junk st 0 size <> Undefined /\
     forall p n, In (p, n) live ->
       SecureRealloc malloc junk st p size <> Undefined) /\
  (forall p size, In (p, size) live ->
     (exists st', SizeFree junk st p size = Done st' tt) /\
     (exists st', FREE junk st p = Done st' tt)) /\
  (exists st', MemFlushFreeList junk st = Done st' tt).
Proof.
  intros st live junk H. apply reach_inv in H. destruct H as (fr & V).
  split; [|split].
  - intros malloc size G Z. split; [|split; [|split]].
    + destruct (size_ok malloc junk st live fr size G Z V)
        as [(s & q & f' & A & _)|[A _]]; rewrite A; discriminate.
    + destruct (secure_ok malloc junk st live fr size G Z V)
        as [(s & q & f' & A & _)|[A _]]; rewrite A; discriminate.
    + destruct (realloc0_ok malloc junk st live fr size G Z V)
        as [(s & q & f' & A & _)|[A _]]; rewrite A; discriminate.
    + intros p n I. apply in_split in I. destruct I as (l1 & l2 & ->).
      apply (inv_live_perm _ _ ((p, n) :: l1 ++ l2)) in V;
        [|apply Permutation_sym; apply Permutation_middle].
      destruct (secure_realloc_ok malloc junk _ _ _ _ _ size G Z V)
        as [(s & q & f' & A & _)|[A _]]; rewrite A; discriminate.
  - intros p size I. apply in_split in I. destruct I as (l1 & l2 & ->).
    apply (inv_live_perm _ _ ((p, size) :: l1 ++ l2)) in V;
      [|apply Permutation_sym; apply Permutation_middle]. split.
    + destruct (sizefree_ok junk _ _ _ _ _ V) as (s & f' & A & _). eauto.
    + destruct (FREE_ok junk _ _ _ _ _ V) as (s & A & _). eauto.
  - destruct (flush_ok junk _ _ _ V) as (s & A & _). eauto.
Qed.

(** The manager does not change what the program keeps in its blocks. *)
Theorem C68_contents_malloc : forall st live malloc junk size st' p,
  reach st live -> good_malloc malloc -> 0 < size ->
  SizeMalloc malloc junk st size = Done st' p \/
  SecureMalloc malloc junk st size = Done st' p \/
  SecureRealloc malloc junk st 0 size = Done st' p ->
  same_contents live st st'.
Proof.
  intros st live malloc junk size st' p H G Z K. apply reach_inv in H.
  destruct H as (fr & V). destruct K as [K|[K|K]].
  - destruct (size_ok malloc junk st live fr size G Z V)
      as [(s & q & f' & A & _ & M)|[A _]]; rewrite A in K; [|discriminate].
    injection K as <- <-. exact M.
  - destruct (secure_ok malloc junk st live fr size G Z V)
      as [(s & q & f' & A & _ & M)|[A _]]; rewrite A in K; [|discriminate].
    injection K as <- <-. exact M.
  - destruct (realloc0_ok malloc junk st live fr size G Z V)
      as [(s & q & f' & A & _ & M)|[A _]]; rewrite A in K; [|discriminate].
    injection K as <- <-. exact M.
Qed.

Theorem C68_contents_free : forall st l1 l2 junk p size st',
  reach st (l1 ++ (p, size) :: l2) ->
  SizeFree junk st p size = Done st' tt \/ FREE junk st p = Done st' tt ->
  same_contents (l1 ++ l2) st st'.
Proof.
  intros st l1 l2 junk p size st' H K. apply reach_inv in H.
  destruct H as (fr & V).
  apply (inv_live_perm _ _ ((p, size) :: l1 ++ l2)) in V;
    [|apply Permutation_sym; apply Permutation_middle].
  destruct K as [K|K].
  - destruct (sizefree_ok junk _ _ _ _ _ V) as (s & f' & A & _ & M).
    rewrite A in K. injection K as <-. exact M.
  - destruct (FREE_ok junk _ _ _ _ _ V) as (s & A & _ & _ & _ & M).
    rewrite A in K. injection K as <-. intros a b B. apply M.
    apply in_or_app. auto.
Qed.

(** A flush gives back all memory that the program does not use, and nothing
    else. *)
Theorem C68_flush : forall st live junk st', reach st live ->
  MemFlushFreeList junk st = Done st' tt ->
  Permutation (regions st') live /\ same_contents live st st'.
Proof.
  intros st live junk st' H K. apply reach_inv in H. destruct H as (fr & V).
  destruct (flush_ok junk _ _ _ V) as (s & A & B & M).
  rewrite A in K. injection K as <-. split; [|exact M].
  pose proof (i_perm _ _ _ B) as P. rewrite app_nil_r in P. exact P.
Qed.

(** The program runs out of memory only if malloc() fails although the
    program's blocks are all that is in use. *)
Theorem C68_out_of_memory : forall st live malloc junk size,
  reach st live -> good_malloc malloc -> 0 < size ->
  SizeMalloc malloc junk st size = OutOfMemory \/
  SecureMalloc malloc junk st size = OutOfMemory \/
  SecureRealloc malloc junk st 0 size = OutOfMemory ->
  exists rs, Permutation rs live /\ malloc rs size = None.
Proof.
  intros st live malloc junk size H G Z K. apply reach_inv in H.
  destruct H as (fr & V). destruct K as [K|[K|K]].
  - destruct (size_ok malloc junk st live fr size G Z V)
      as [(s & q & f' & A & _)|[_ A]]; auto. rewrite A in K. discriminate.
  - destruct (secure_ok malloc junk st live fr size G Z V)
      as [(s & q & f' & A & _)|[_ A]]; auto. rewrite A in K. discriminate.
  - destruct (realloc0_ok malloc junk st live fr size G Z V)
      as [(s & q & f' & A & _)|[_ A]]; auto. rewrite A in K. discriminate.
Qed.

(** A block whose size is changed keeps what it holds as far as it fits, and
    so do the other blocks; this fails only if malloc() fails although the
    other blocks are all that is in use. *)
Theorem C68_realloc : forall st l1 l2 p n malloc junk size,
  reach st (l1 ++ (p, n) :: l2) -> good_malloc malloc -> 0 < size ->
  match SecureRealloc malloc junk st p size with
  | Done st' q =>
      same_contents (l1 ++ l2) st st' /\
      forall k, 0 <= k -> k + 8 <= n -> k + 8 <= size ->
        mem st' (q + k) = mem st (p + k)
  | OutOfMemory =>
      exists rs, Permutation rs (l1 ++ l2) /\ malloc rs size = None
  | Undefined => False
  end.
Proof.
  intros st l1 l2 p n malloc junk size H G Z. apply reach_inv in H.
  destruct H as (fr & V).
  apply (inv_live_perm _ _ ((p, n) :: l1 ++ l2)) in V;
    [|apply Permutation_sym; apply Permutation_middle].
  destruct (secure_realloc_ok malloc junk _ _ _ _ _ size G Z V)
    as [(s & q & f' & A & _ & C & D)|[A B]]; rewrite A; auto.
Qed.

(** Memory is used again: a block of at least 8 and less than 8192 bytes that
    is given back is the next one of its size, without a call of malloc(). *)
Theorem C68_reuse : forall st live junk malloc p size st',
  reach st live -> In (p, size) live -> 8 <= size < 8192 ->
  SizeFree junk st p size = Done st' tt ->
  exists st'', SizeMalloc malloc junk st' size = Done st'' p /\
    regions st'' = regions st.
Proof.
  intros st live junk malloc p size st' H I L K.
  assert (P : p <> 0).
  { destruct (C68_blocks _ _ H) as [_ B]. apply B in I. cbn in I. lia. }
  assert (E : (MEM_ARR_MIN_INDEX <=? size) && (size <? Z.of_nat MEM_ARR_SIZE) = true).
  { unfold MEM_ARR_MIN_INDEX, MEM_ARR_SIZE. rewrite Z2Nat.id by lia.
    apply andb_true_iff. split; [apply Z.leb_le|apply Z.ltb_lt]; lia. }
  unfold SizeFree in K. rewrite E in K. injection K as <-.
  unfold SizeMalloc. rewrite E. cbn [free_mem_list mem regions].
  assert (Q : set_list (free_mem_list st) size p size = p)
    by (unfold set_list; rewrite Z.eqb_refl; reflexivity).
  rewrite Q. destruct (Z.eqb_spec p 0); [contradiction|]. cbn [negb andb].
  eexists. split; reflexivity.
Qed.

(* ------------------------------------------------------------------ *)
(** * Concrete cases *)

(** A malloc() that fails if [limit] blocks are in use. *)
Definition top (rs : list (Z * Z)) : Z :=
  fold_right (fun r t => Z.max (fst r + snd r) t) 16 rs.
Definition bump (limit : nat) (rs : list (Z * Z)) (n : Z) : option Z :=
  if Nat.ltb (length rs) limit then Some (top rs) else None.

Lemma top_ok : forall rs, 16 <= top rs /\
  forall r, In r rs -> fst r + snd r <= top rs.
Proof.
  induction rs as [|x rs [A B]]; cbn [top fold_right].
  - split; [lia|]. intros r [].
  - fold (top rs). split; [lia|]. intros r [<-|R]; [lia|]. apply B in R. lia.
Qed.

Example bump_ok : forall limit, good_malloc (bump limit).
Proof.
  intros limit rs n p N H. unfold bump in H.
  destruct (Nat.ltb _ _); [|discriminate]. injection H as <-.
  destruct (top_ok rs) as [A B]. split; [lia|]. intros r R. apply B in R.
  right. exact R.
Qed.

(** Blocks of 16, 24 and 16 bytes; the first is given back.  A fourth block
    of 40 bytes then needs the memory of the first. *)
Definition jk : Z -> Z := fun _ => 7.

Example some_history : exists st,
  reach st [(56, 16); (32, 24)] /\ free_mem_list st 16 = 16 /\
  length (regions st) = 3%nat /\
  (exists st', SizeMalloc (bump 3) jk st 16 = Done st' 16) /\
  (exists st' p, SizeMalloc (bump 3) jk st 40 = Done st' p /\
     length (regions st') = 3%nat /\ free_mem_list st' 16 = 0) /\
  SizeMalloc (bump 2) jk st 40 = OutOfMemory.
Proof.
  assert (A := reach_start (fun _ => 0)).
  eapply (reach_malloc _ _ (bump 9) jk 16) in A;
    [|lia|apply bump_ok|left; reflexivity].
  eapply (reach_malloc _ _ (bump 9) jk 24) in A;
    [|lia|apply bump_ok|left; reflexivity].
  eapply (reach_malloc _ _ (bump 9) jk 16) in A;
    [|lia|apply bump_ok|left; reflexivity].
  eapply (reach_free _ [(56, 16); (32, 24)] [] 16 16 jk) in A;
    [|left; reflexivity].
  eexists. split; [exact A|]. split; [reflexivity|]. split; [reflexivity|].
  split; [eexists; reflexivity|]. split; [|vm_compute; reflexivity].
  eexists _, _. split; [vm_compute; reflexivity|]. split; vm_compute; reflexivity.
Qed.

Print Assumptions C68_blocks.
Print Assumptions C68_defined.
Print Assumptions C68_contents_malloc.
Print Assumptions C68_contents_free.
Print Assumptions C68_flush.
Print Assumptions C68_out_of_memory.
Print Assumptions C68_reuse.
Print Assumptions C68_realloc.
