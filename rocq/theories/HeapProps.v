(** * C28: the priority heap
    Of every history of insertions, removals and key changes. *)
From Coq Require Import Permutation Sorted.
From Verif Require Import Mem Queue QueueProofs Heap HeapProofs.

Section Inv.
  Context {A : Type}.
  Variable eqb : A -> A -> bool.
  Hypothesis eqb_ok : forall a b, eqb a b = true <-> a = b.

  Lemma remove1_perm x (l r : list A) : Permutation (x :: l) r -> Permutation l (remove1 eqb x r).
  Proof.
    intros P. apply (Permutation_cons_inv (a := x)). rewrite P.
    assert (I : In x r) by (eapply Permutation_in; [exact P|simpl; auto]). clear P l.
    induction r as [|y r IH]; simpl in *; [tauto|]. destruct (eqb x y) eqn:E.
    - apply eqb_ok in E. subst. reflexivity.
    - destruct I as [->|I]; [rewrite (eqb_refl eqb eqb_ok) in E; discriminate|]. rewrite (IH I) at 1. apply perm_swap.
  Qed.

  Definition inv (lt : A -> A -> bool) (h : heap A) (L : list A) : Prop :=
    weak_order lt /\ heaped lt (harr h) /\ Permutation (harr h) L /\ NoDup L /\ tracks h /\ (forall x, ~ In x L -> hidx h x = None).

  Lemma indexed_inv lt h L : indexed eqb lt h L -> inv lt h L.
  Proof.
    assert (Hr : forall lt h L x h', inv lt h L -> weak_order lt -> heaped lt (harr h') -> Permutation (x :: harr h') (harr h) ->
              (forall y, ~ In y (harr h) -> hidx h' y = hidx h y) -> tracks h' /\ hidx h' x = None -> inv lt h' (remove1 eqb x L)).
    { clear lt h L. intros lt h L x h' [WO [H [P [ND [T O]]]]] W' H' P' O' [T' X']. 
      assert (P2 : Permutation (harr h') (remove1 eqb x L)) by (apply remove1_perm; rewrite P', P; reflexivity).
      assert (ND2 : NoDup (x :: harr h')) by (apply (Permutation_NoDup (l := L)); auto; rewrite P', P; reflexivity).
      apply NoDup_cons_iff in ND2. destruct ND2 as [Nx ND2].
      split; auto. split; auto. split; auto. split; [eapply Permutation_NoDup; eauto|]. split; auto.
      intros y Hy. destruct (eqb x y) eqn:E; [apply eqb_ok in E; subst; auto|].
      assert (~ In y L).
      { intros I. apply Hy. apply (Permutation_in _ P2). assert (I2 : In y (x :: harr h')) by (apply (Permutation_in _ (Permutation_sym P')), (Permutation_in _ (Permutation_sym P)); auto).
        destruct I2 as [->|I2]; auto. rewrite (eqb_refl eqb eqb_ok) in E. discriminate. }
      rewrite O'; auto. intros I. apply (Permutation_in _ P) in I. tauto. }
    induction 1 as [lt W|lt h L x h' I IH N E|lt h L x h' I IH E|lt h L x i h' I IH Hx Hi E|lt lt' h L x i h' I IH Hx W Ag Hi E].
    - split; auto. split; [intros p c _ a b Ha; destruct p; discriminate|]. split; [reflexivity|]. split; [constructor|]. split; [intros i x Hx; destruct i; discriminate|auto].
    - destruct IH as [WO [H [P [ND [T O]]]]]. destruct (add_ok eqb eqb_ok true lt WO h x H) as [h2 [E2 [H2 [P2 [O2 T2]]]]].
      rewrite E in E2. inversion E2; subst h2. split; auto. split; auto. split; [rewrite P2, P; reflexivity|]. split; [constructor; auto|]. split.
      + apply T2; auto. apply (Permutation_NoDup (l := x :: L)); [rewrite P; reflexivity|constructor; auto].
      + intros y Hy. rewrite O2; [apply O|]; simpl in *; [tauto|]. intros [?|I2]; [tauto|]. apply (Permutation_in _ P) in I2. tauto.
    - pose proof IH as J. destruct IH as [WO [H [P [ND [T O]]]]].
      assert (NE : harr h <> []) by (intros Z; unfold heap_pop in E; rewrite Z in E; discriminate).
      destruct (pop_ok eqb eqb_ok true lt WO h H NE) as [x2 [h2 [E2 [F2 [M2 [H2 [P2 [O2 T2]]]]]]]]. rewrite E in E2. inversion E2; subst x2 h2.
      apply (Hr lt h L x h' J); auto. apply T2; auto. apply (Permutation_NoDup (Permutation_sym P)); auto.
    - pose proof IH as J. destruct IH as [WO [H [P [ND [T O]]]]].
      assert (Hn : nth_error (harr h) i = Some x).
      { apply (Permutation_in _ (Permutation_sym P)) in Hx. apply In_nth_error in Hx. destruct Hx as [j Hj]. pose proof (T _ _ Hj). congruence. }
      destruct (remove_ok eqb eqb_ok true lt WO h i x H Hn) as [h2 [E2 [H2 [P2 [O2 T2]]]]]. rewrite E in E2. inversion E2; subst h2.
      apply (Hr lt h L x h' J); auto. apply T2; auto. apply (Permutation_NoDup (Permutation_sym P)); auto.
    - destruct IH as [WO [H [P [ND [T O]]]]].
      assert (Hn : nth_error (harr h) i = Some x).
      { apply (Permutation_in _ (Permutation_sym P)) in Hx. apply In_nth_error in Hx. destruct Hx as [j Hj]. pose proof (T _ _ Hj). congruence. }
      assert (NDh : NoDup (harr h)) by (apply (Permutation_NoDup (Permutation_sym P)); auto).
      assert (Ox : forall k a, nth_error (harr h) k = Some a -> k <> i -> a <> x) by (intros k a Hk Nk ->; apply Nk; pose proof (T _ _ Hk); congruence).
      destruct (update_ok eqb eqb_ok true lt' W h i) as [h2 [E2 [H2 [P2 [O2 T2]]]]].
      + eapply nth_lt; eauto.
      + intros p c C Np Nc a b Ha Hb. unfold le. rewrite Ag; [apply (H p c C); auto| |]; eapply Ox; eauto.
      + intros p j Cp Cj a b Ha Hb. unfold le.
        rewrite Ag; [apply (le_trans lt WO a x b); [apply (H p i Cp)|apply (H i j Cj)]; auto| |]; eapply Ox; eauto; unfold child in *; lia.
      + rewrite E in E2. inversion E2; subst h2. split; auto. split; auto. split; [rewrite P2; auto|]. split; auto. split; auto.
        intros y Hy. rewrite O2; auto. intros I2. apply (Permutation_in _ P) in I2. tauto.
  Qed.

  Lemma plain_inv lt h L : weak_order lt -> plain eqb lt h L -> heaped lt (harr h) /\ Permutation (harr h) L.
  Proof.
    intros WO. induction 1 as [|h L x h' I [H P] E|h L x h' I [H P] E].
    - split; [intros p c _ a b Ha; destruct p; discriminate|reflexivity].
    - destruct (add_ok eqb eqb_ok false lt WO h x H) as [h2 [E2 [H2 [P2 _]]]]. rewrite E in E2. inversion E2; subst h2. split; auto. rewrite P2, P. reflexivity.
    - assert (NE : harr h <> []) by (intros Z; unfold heap_pop in E; rewrite Z in E; discriminate).
      destruct (pop_ok eqb eqb_ok false lt WO h H NE) as [x2 [h2 [E2 [F2 [M2 [H2 [P2 _]]]]]]]. rewrite E in E2. inversion E2; subst x2 h2.
      split; auto. apply remove1_perm. rewrite P2, P. reflexivity.
  Qed.

  Lemma pop_all_ok setter lt : weak_order lt -> forall fuel h, heaped lt (harr h) -> length (harr h) <= fuel ->
    exists r, pop_all eqb setter lt fuel h = Some r /\ Permutation r (harr h) /\ StronglySorted (fun a b => lt b a = false) r.
  Proof.
    intros WO. induction fuel as [|n IH]; intros h H Hf.
    - destruct (harr h) eqn:E; [|simpl in Hf; lia]. exists []. simpl. rewrite E. repeat split; auto. constructor.
    - destruct (harr h) as [|y l] eqn:E.
      { exists []. simpl. rewrite E. repeat split; auto. constructor. }
      assert (NE : harr h <> []) by congruence.
      destruct (pop_ok eqb eqb_ok setter lt WO h ltac:(rewrite E; auto) NE) as [x [h2 [E2 [F2 [M2 [H2 [P2 _]]]]]]].
      destruct (IH h2 H2) as [r [Er [Pr Sr]]].
      { apply Permutation_length in P2. rewrite E in P2. simpl in *. lia. }
      exists (x :: r). cbn [pop_all]. rewrite E, E2, Er. split; auto. split; [rewrite Pr, P2, E; reflexivity|].
      constructor; auto. apply Forall_forall. intros z Hz. apply (M2 z). apply (Permutation_in _ P2). right. apply (Permutation_in _ Pr). auto.
  Qed.
End Inv.

(** ** C28, heaps with an index setter: whatever was added, removed and updated before, the heap holds exactly the elements
    added and not taken out; every element knows its place; MinHeapPopMin returns an element that is minimal under the current keys,
    and no operation on an element of the heap fails or reads outside of the array. *)
Theorem C28_heap_with_index : forall (A : Type) (eqb lt : A -> A -> bool) h L,
  (forall a b, eqb a b = true <-> a = b) -> indexed eqb lt h L ->
  Permutation (harr h) L /\
  (forall x i, hidx h x = Some i <-> nth_error (harr h) i = Some x) /\
  (forall x, ~ In x L -> hidx h x = None) /\
  (forall x, ~ In x L -> exists h', heap_add eqb true lt h x = Some h') /\
  (L <> [] -> exists x h', heap_pop eqb true lt h = Some (x, h') /\ In x L /\ forall y, In y L -> lt y x = false) /\
  (forall x, In x L -> exists i h', hidx h x = Some i /\ heap_remove eqb true lt h i = Some h') /\
  (forall x lt', In x L -> weak_order lt' -> (forall a b, a <> x -> b <> x -> lt' a b = lt a b) ->
     exists i h', hidx h x = Some i /\ heap_update eqb true lt' h i = Some h').
Proof.
  intros A eqb lt h L Eq I. pose proof (indexed_inv eqb Eq lt h L I) as [WO [H [P [ND [T O]]]]]. 
  assert (In_ex : forall x, In x L -> exists i, nth_error (harr h) i = Some x /\ hidx h x = Some i).
  { intros x Hx. apply (Permutation_in _ (Permutation_sym P)) in Hx. apply In_nth_error in Hx. destruct Hx as [j Hj]. eauto. }
  split; auto. split.
  { intros x i. split; [|apply T]. intros Hx.
    assert (Hin : In x (harr h)).
    { destruct (in_dec (fun a b => match bool_dec (eqb a b) true with left e => left (proj1 (Eq a b) e) | right n => right (fun e => n (proj2 (Eq a b) e)) end) x L) as [J|J].
      - apply (Permutation_in _ (Permutation_sym P)). auto.
      - rewrite (O _ J) in Hx. discriminate. }
    apply In_nth_error in Hin. destruct Hin as [j Hj]. pose proof (T _ _ Hj). congruence. }
  split; auto. split.
  { intros x Hx. destruct (add_ok eqb Eq true lt WO h x H) as [h2 [E2 _]]. eauto. }
  split.
  { intros N. assert (NE : harr h <> []) by (intros Z; rewrite Z in P; apply Permutation_nil in P; auto).
    destruct (pop_ok eqb Eq true lt WO h H NE) as [x [h2 [E2 [F2 [M2 _]]]]]. exists x, h2. split; auto. split.
    - apply (Permutation_in _ P). eapply nth_error_In; eauto.
    - intros y Hy. apply (M2 y). apply (Permutation_in _ (Permutation_sym P)). auto. }
  split.
  { intros x Hx. destruct (In_ex x Hx) as [i [Hi Ix]]. destruct (remove_ok eqb Eq true lt WO h i x H Hi) as [h2 [E2 _]]. eauto. }
  intros x lt' Hx W Ag. destruct (In_ex x Hx) as [i [Hi Ix]]. exists i.
  assert (Ox : forall k a, nth_error (harr h) k = Some a -> k <> i -> a <> x) by (intros k a Hk Nk ->; apply Nk; pose proof (T _ _ Hk); congruence).
  destruct (update_ok eqb Eq true lt' W h i) as [h2 [E2 _]].
  - eapply nth_lt; eauto.
  - intros p c C Np Nc a b Ha Hb. unfold le. rewrite Ag; [apply (H p c C); auto| |]; eapply Ox; eauto.
  - intros p j Cp Cj a b Ha Hb. unfold le.
    rewrite Ag; [apply (le_trans lt WO a x b); [apply (H p i Cp)|apply (H i j Cj)]; auto| |]; eapply Ox; eauto; unfold child in *; lia.
  - eauto.
Qed.
Print Assumptions C28_heap_with_index.

(** ** C28, plain heaps: elements may be added several times. *)
Theorem C28_plain_heap : forall (A : Type) (eqb lt : A -> A -> bool) h L,
  (forall a b, eqb a b = true <-> a = b) -> weak_order lt -> plain eqb lt h L ->
  Permutation (harr h) L /\
  (forall x, exists h', heap_add eqb false lt h x = Some h') /\
  (L <> [] -> exists x h', heap_pop eqb false lt h = Some (x, h') /\ In x L /\ forall y, In y L -> lt y x = false).
Proof.
  intros A eqb lt h L Eq WO I. destruct (plain_inv eqb Eq lt h L WO I) as [H P]. split; auto. split.
  { intros x. destruct (add_ok eqb Eq false lt WO h x H) as [h2 [E2 _]]. eauto. }
  intros N. assert (NE : harr h <> []) by (intros Z; rewrite Z in P; apply Permutation_nil in P; auto).
  destruct (pop_ok eqb Eq false lt WO h H NE) as [x [h2 [E2 [F2 [M2 _]]]]]. exists x, h2. split; auto. split.
  - apply (Permutation_in _ P). eapply nth_error_In; eauto.
  - intros y Hy. apply (M2 y). apply (Permutation_in _ (Permutation_sym P)). auto.
Qed.
Print Assumptions C28_plain_heap.

(** ** C28: taking out all elements delivers each exactly once and in ascending order. *)
Theorem C28_pops_in_order : forall (A : Type) (eqb lt : A -> A -> bool) h L,
  (forall a b, eqb a b = true <-> a = b) -> indexed eqb lt h L ->
  exists r, pop_all eqb true lt (length L) h = Some r /\ Permutation r L /\ StronglySorted (fun a b => lt b a = false) r.
Proof.
  intros A eqb lt h L Eq I. pose proof (indexed_inv eqb Eq lt h L I) as [WO [H [P _]]].
  destruct (pop_all_ok eqb Eq true lt WO (length L) h H) as [r [E [Pr S]]].
  - apply Permutation_length in P. lia.
  - exists r. split; auto. split; auto. rewrite Pr. auto.
Qed.
Print Assumptions C28_pops_in_order.

(** ** Refuted: MinHeapDecrKey is to be called when a key "has (possibly) been decreased" (clb_min_heap.c:270), but
    it moves the element away from the root: the heap then no longer returns a minimal element. *)
Definition ltk (k : nat -> nat) (a b : nat) : bool := k a <? k b.
Lemma ltk_order k : weak_order (ltk k).
Proof. split; unfold ltk; intros; rewrite ?Nat.ltb_lt, ?Nat.ltb_ge in *; lia. Qed.

Definition k0 (x : nat) : nat := x.
(** the key of element 30 drops to 5 *)
Definition k1 (x : nat) : nat := if x =? 30 then 5 else x.
(** the key of element 10 grows to 50 *)
Definition k2 (x : nat) : nat := if x =? 10 then 50 else x.
Definition obind {A B} (o : option A) (f : A -> option B) : option B := match o with Some a => f a | None => None end.
Definition h3 : option (heap nat) :=
  obind (heap_add Nat.eqb true (ltk k0) heap_alloc 30) (fun h => obind (heap_add Nat.eqb true (ltk k0) h 20) (fun h => heap_add Nat.eqb true (ltk k0) h 10)).

Lemma h3_indexed : exists h, h3 = Some h /\ indexed Nat.eqb (ltk k0) h [10; 20; 30].
Proof.
  destruct h3 as [h|] eqn:E; [|discriminate]. exists h. split; auto. unfold h3, obind in E.
  destruct (heap_add Nat.eqb true (ltk k0) heap_alloc 30) as [ha|] eqn:E1; [|discriminate].
  destruct (heap_add Nat.eqb true (ltk k0) ha 20) as [hb|] eqn:E2; [|discriminate].
  eapply i_add; [eapply i_add; [eapply i_add; [apply i_new, ltk_order| |exact E1]| |exact E2]| |exact E]; simpl; intuition discriminate.
Qed.

Theorem C28_decr_key_refuted : exists h L x i h' y h2, indexed Nat.eqb (ltk k0) h L /\ In x L /\ hidx h x = Some i /\
  (forall a b, a <> x -> b <> x -> ltk k1 a b = ltk k0 a b) /\ k1 x < k0 x /\
  heap_decr_key Nat.eqb true (ltk k1) h i = Some h' /\ heap_pop Nat.eqb true (ltk k1) h' = Some (y, h2) /\ ltk k1 x y = true.
Proof.
  destruct h3_indexed as [h [E I]]. exists h, [10; 20; 30], 30, 1, h, 10. vm_compute in E. inversion E; subst h. clear E.
  eexists. split; [exact I|]. split; [simpl; auto|]. split; [reflexivity|]. split.
  { intros a b Na Nb. unfold ltk, k1, k0. destruct (Nat.eqb_spec a 30), (Nat.eqb_spec b 30); tauto. }
  split; [vm_compute; lia|]. split; [vm_compute; reflexivity|]. split; vm_compute; reflexivity.
Qed.
Print Assumptions C28_decr_key_refuted.

(** ... and MinHeapIncrKey moves an element whose key has grown towards the root. *)
Theorem C28_incr_key_refuted : exists h L x i h' y h2, indexed Nat.eqb (ltk k0) h L /\ In x L /\ hidx h x = Some i /\
  (forall a b, a <> x -> b <> x -> ltk k2 a b = ltk k0 a b) /\ k0 x < k2 x /\
  heap_incr_key Nat.eqb true (ltk k2) h i = Some h' /\ heap_pop Nat.eqb true (ltk k2) h' = Some (y, h2) /\ exists z, In z L /\ ltk k2 z y = true.
Proof.
  destruct h3_indexed as [h [E I]]. exists h, [10; 20; 30], 10, 0, h, 10. vm_compute in E. inversion E; subst h. clear E.
  eexists. split; [exact I|]. split; [simpl; auto|]. split; [reflexivity|]. split.
  { intros a b Na Nb. unfold ltk, k2, k0. destruct (Nat.eqb_spec a 10), (Nat.eqb_spec b 10); tauto. }
  split; [vm_compute; lia|]. split; [vm_compute; reflexivity|]. split; [vm_compute; reflexivity|]. exists 20. split; [simpl; auto|vm_compute; reflexivity].
Qed.
Print Assumptions C28_incr_key_refuted.

(** Non-vacuity: a history with three insertions, a key change that lifts an element to the top, a removal from the middle, and pops. *)
Example C28_ex : exists h, indexed Nat.eqb (ltk k1) h [30; 40] /\ option_map fst (heap_pop Nat.eqb true (ltk k1) h) = Some 30.
Proof.
  destruct h3_indexed as [h [E I]]. vm_compute in E. inversion E; subst h. clear E.
  eassert (I2 : indexed Nat.eqb (ltk k1) _ [10; 20; 30]).
  { eapply (i_change _ _ _ _ _ 30 1 _ I); [simpl; auto|apply ltk_order| |reflexivity|vm_compute; reflexivity].
    intros a b Na Nb. unfold ltk, k1, k0. destruct (Nat.eqb_spec a 30), (Nat.eqb_spec b 30); tauto. }
  eassert (I3 : indexed Nat.eqb (ltk k1) _ [40; 10; 20; 30]) by (eapply (i_add _ _ _ _ 40 _ I2); [simpl; intuition discriminate|vm_compute; reflexivity]).
  eassert (I4 : indexed Nat.eqb (ltk k1) _ [40; 20; 30]) by (eapply (i_remove _ _ _ _ 10 1 _ I3); [simpl; auto|reflexivity|vm_compute; reflexivity]).
  eassert (I5 : indexed Nat.eqb (ltk k1) _ [40; 20]) by (eapply (i_pop _ _ _ _ 30 _ I4); vm_compute; reflexivity).
  eassert (I6 : indexed Nat.eqb (ltk k1) _ [40]) by (eapply (i_pop _ _ _ _ 20 _ I5); vm_compute; reflexivity).
  eassert (I7 : indexed Nat.eqb (ltk k1) _ [30; 40]) by (eapply (i_add _ _ _ _ 30 _ I6); [simpl; intuition discriminate|vm_compute; reflexivity]).
  eexists. split; [exact I7|vm_compute; reflexivity].
Qed.

Example C28_ex_plain : exists h, plain Nat.eqb (ltk k0) h [7; 7; 3] /\ option_map fst (heap_pop Nat.eqb false (ltk k0) h) = Some 3.
Proof.
  eassert (I1 : plain Nat.eqb (ltk k0) _ [3]) by (eapply p_add; [apply p_new|vm_compute; reflexivity]).
  eassert (I2 : plain Nat.eqb (ltk k0) _ [7; 3]) by (eapply p_add; [exact I1|vm_compute; reflexivity]).
  eassert (I3 : plain Nat.eqb (ltk k0) _ [7; 7; 3]) by (eapply p_add; [exact I2|vm_compute; reflexivity]).
  eexists. split; [exact I3|vm_compute; reflexivity].
Qed.
