(** * C27: queues and stacks *)
From Verif Require Import Mem Queue QueueProofs.

(** Every sequence of operations that a list would allow (nothing is taken from an empty queue) is answered as by a list,
    and no access leaves the allocated block: the model has no result otherwise. *)
Theorem C27_queue_is_a_double_ended_queue {A} (os : list (qop A)) bs l :
  run deque_step [] os = Some (bs, l) -> exists q, run pqueue_step pqueue_alloc os = Some (bs, q).
Proof. intros H. destruct (run_rep os pqueue_alloc [] bs l) as [q [E _]]; eauto. apply alloc_rep. lia. Qed.

(** Whatever was done before, iterating over the queue by index gives its elements in order. *)
Theorem C27_queue_iteration {A} (os : list (qop A)) bs l :
  run deque_step [] os = Some (bs, l) ->
  exists q, run pqueue_step pqueue_alloc os = Some (bs, q) /\ pqueue_card q = length l /\
    pqueue_iterate (qsize q) q (pqueue_tail_index q) = Some l.
Proof.
  intros H. destruct (run_rep os pqueue_alloc [] bs l) as [q [E R]]; auto. { apply alloc_rep. lia. }
  exists q. split; auto. split; [apply card_rep|apply iterate_rep]; auto.
Qed.

Theorem C27_stack_is_a_stack {A} eqb n (os : list (sop A)) bs l : 0 < n ->
  run (stack_step eqb) [] os = Some (bs, l) -> exists s, run (pstack_step eqb) (pstack_var_alloc n) os = Some (bs, s).
Proof. intros N H. destruct (srun_rep eqb os (pstack_var_alloc n) [] bs l) as [q [E _]]; eauto. apply salloc_rep. auto. Qed.

(** Merging two stacks whose tops are their smallest elements: the result has every element once (up to the comparison
    function), the smallest at the bottom. *)
Theorem C27_merge {A} (cmp : A -> A -> comparison) eqb os1 os2 b1 b2 l1 l2 :
  (forall a b, cmp b a = CompOpp (cmp a b)) -> (forall a b c, cmp a b <> Gt -> cmp b c <> Gt -> cmp a c <> Gt) ->
  run (stack_step eqb) [] os1 = Some (b1, l1) -> run (stack_step eqb) [] os2 = Some (b2, l2) ->
  (forall i j a b, i < j -> nth_error l1 i = Some a -> nth_error l1 j = Some b -> cmp b a <> Gt) ->
  (forall i j a b, i < j -> nth_error l2 i = Some a -> nth_error l2 j = Some b -> cmp b a <> Gt) ->
  exists s1 s2 r, run (pstack_step eqb) pstack_alloc os1 = Some (b1, s1) /\ run (pstack_step eqb) pstack_alloc os2 = Some (b2, s2) /\
    pstack_merge (length l1 + length l2) cmp s1 s2 pstack_alloc = Some r /\
    exists lr, (forall i, i < scur r -> pstack_element r i = nth_error lr i) /\ scur r = length lr /\
      (forall i j a b, i < j -> nth_error lr i = Some a -> nth_error lr j = Some b -> cmp a b = Lt) /\
      (forall x, In x lr -> In x l1 \/ In x l2) /\
      (forall y, In y l1 \/ In y l2 -> exists x, In x lr /\ cmp x y = Eq).
Proof.
  intros Sy Tr H1 H2 D1 D2.
  destruct (srun_rep eqb os1 pstack_alloc [] b1 l1) as [s1 [E1 R1]]; auto. { apply salloc_rep. lia. }
  destruct (srun_rep eqb os2 pstack_alloc [] b2 l2) as [s2 [E2 R2]]; auto. { apply salloc_rep. lia. }
  destruct (merge_rep cmp Sy Tr (length l1 + length l2) s1 s2 pstack_alloc l1 l2 []) as [r [lr [M1 [M2 [M3 [_ [M5 M6]]]]]]]; auto.
  { apply salloc_rep. lia. }
  { intros i j a b _ Ha. destruct i; discriminate. }
  { intros x y []. }
  exists s1, s2, r. split; auto. split; auto. split; auto. exists lr. split; [|split; [|split; [|split]]].
  - intros i Hi. rewrite (sr_cur _ _ M2) in Hi. destruct (nth_error lr i) eqn:En; [|apply nth_error_None in En; lia]. apply (el_rep _ _ _ _ M2 En).
  - exact (sr_cur _ _ M2).
  - exact M3.
  - intros x Hx. apply M5 in Hx. simpl in Hx. apply in_app_or in Hx. auto.
  - intros y Hy. apply M6. apply in_or_app. auto.
Qed.

(** A stack allocated with room for no element cannot grow: the first push writes outside of the block. *)
Theorem C27_stack_of_size_zero_refuted : run (pstack_step Nat.eqb) (pstack_var_alloc 0) [SPush 1] = None.
Proof. reflexivity. Qed.

(** PStackBinSearch "returns index of key, when found, or index of the next bigger element if not" - it does not: for the
    stack 1,2,3 it returns 1 for the key 1. *)
Theorem C27_binary_search_refuted : exists s (os : list (sop nat)) bs,
  run (pstack_step Nat.eqb) pstack_alloc os = Some (bs, s) /\ pstack_element s 0 = Some 1 /\ pstack_element s 1 = Some 2 /\
  pstack_bin_search 10 Nat.compare s 1 0 3 = Some 1 /\
  (* and for the key 0 the next bigger element is at 0 *) pstack_bin_search 10 Nat.compare s 0 0 3 = Some 1.
Proof. eexists. exists [SPush 1; SPush 2; SPush 3]. eexists. split; [reflexivity|]. repeat split. Qed.

(** ** Examples: the hypotheses hold for a queue that wraps around and grows (130 elements in a block of 128). *)
Definition wrap_ops : list (qop nat) := [QStore 7; QStore 8; QBury 6; QNext; QNext] ++ map QStore (seq 10 130) ++ [QCard; QNext; QLast; QBury 1; QLook].
Example C27_ex_queue : exists l, run deque_step [] wrap_ops = Some ([ANone; ANone; ANone; AVal 6; AVal 7] ++ map (fun _ => ANone) (seq 10 130) ++
    [ANum 131; AVal 8; AVal 139; ANone; AVal 1], l) /\ length l = 130.
Proof. eexists. split; vm_compute; reflexivity. Qed.
Example C27_ex_stack : run (stack_step Nat.eqb) [] [SPush 3; SPush 4; SPush 5; SDiscard 0; SAppendCopy; SBelow; SPop; SAssign 0 9; SElem 0; SFind 4; SSize]
  = Some ([ANone; ANone; ANone; ANone; ANone; AVal 5; AVal 4; ANone; AVal 9; ABool true; ANum 3], [9; 4; 5]).
Proof. reflexivity. Qed.
Example C27_ex_merge : match run (pstack_step Nat.eqb) pstack_alloc [SPush 5; SPush 3; SPush 3], run (pstack_step Nat.eqb) pstack_alloc [SPush 9; SPush 5; SPush 1] with
  | Some (_, s1), Some (_, s2) => option_map (fun r => map (pstack_element r) [0; 1; 2; 3]) (pstack_merge 6 Nat.compare s1 s2 pstack_alloc)
  | _, _ => None
  end = Some [Some 1; Some 3; Some 5; Some 9].
Proof. reflexivity. Qed.

Print Assumptions C27_queue_is_a_double_ended_queue.
Print Assumptions C27_queue_iteration.
Print Assumptions C27_stack_is_a_stack.
Print Assumptions C27_merge.
Print Assumptions C27_stack_of_size_zero_refuted.
Print Assumptions C27_binary_search_refuted.
