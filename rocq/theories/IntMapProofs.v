(** * Proofs about range arrays and integer maps *)
From Coq Require Import ZifyBool.
From Verif Require Queue.
From Verif Require Import Mem Splay SplayProofs SplayProps IntMap.
Open Scope Z_scope.

Section R.
  Context {A : Type}.
  Notation ptr := (option A).
  Notation rarr := (rarr A).

  Lemma mfill_ok : forall cnt from (m : mem ptr), (from + cnt <= length m)%nat -> exists m', mfill cnt from m = Some m' /\ length m' = length m /\
    (forall i, (from <= i < from + cnt)%nat -> nth_error m' i = Some (Some None)) /\ (forall i, (i < from \/ from + cnt <= i)%nat -> nth_error m' i = nth_error m i).
  Proof.
    induction cnt as [|c IH]; intros from m H; cbn [mfill].
    - exists m. split; auto. split; auto. split; [intros; lia|auto].
    - destruct (mwrite_ok m from (Some None)) as [m1 [E1 [L1 [R1 R2]]]]; [lia|]. rewrite E1.
      destruct (IH (S from) m1) as [m2 [E2 [L2 [R3 R4]]]]; [lia|]. exists m2. split; auto. split; [lia|]. split.
      + intros i Hi. destruct (Nat.eq_dec i from) as [->|]; [rewrite R4 by lia; auto|]. apply R3. lia.
      + intros i Hi. rewrite R4 by lia. apply R2. lia.
  Qed.

  (** the array's cells are all initialised *)
  Definition ra_ok (a : rarr) : Prop := (0 < rsize a)%nat /\ length (rmem a) = rsize a /\ forall i, (i < rsize a)%nat -> exists v, nth_error (rmem a) i = Some (Some v).
  Definition ra_val (a : rarr) (k : Z) : ptr :=
    if covered a k then match nth_error (rmem a) (Z.to_nat (k - roff a)) with Some (Some v) => v | _ => None end else None.

  Lemma double_gt : forall fuel minsize size, (0 < size)%nat -> (minsize < size * 2 ^ fuel)%nat -> (minsize < double_until fuel minsize size)%nat /\ (size <= double_until fuel minsize size)%nat.
  Proof.
    induction fuel as [|n IH]; intros minsize size Hs H; cbn [double_until]; destruct (Nat.leb_spec size minsize); try lia.
    - simpl in H. lia.
    - destruct (IH minsize (size * 2)%nat); [lia| |lia]. rewrite Nat.pow_succ_r' in H. lia.
  Qed.
  Lemma range_size_gt minsize size grow : (0 < size)%nat -> (minsize < range_size minsize size grow)%nat.
  Proof.
    intros H. unfold range_size. destruct grow as [|g].
    - apply double_gt; auto. assert (minsize < 2 ^ minsize)%nat by (apply Nat.pow_gt_lin_r; lia). nia.
    - pose proof (Nat.div_mod minsize (S g) ltac:(lia)). pose proof (Nat.mod_upper_bound minsize (S g) ltac:(lia)). nia.
  Qed.

  Lemma alloc_ok idx grow : exists a, rarr_alloc idx grow = Some a /\ ra_ok a /\ forall k, ra_val a k = None.
  Proof.
    unfold rarr_alloc. set (size := match grow with O => 1%nat | _ => grow end). assert (0 < size)%nat by (unfold size; destruct grow; lia).
    destruct (mfill_ok size 0 (malloc size)) as [m [E [L [R1 R2]]]]; [rewrite malloc_len; lia|]. rewrite E. rewrite malloc_len in L.
    eexists. split; [reflexivity|]. split.
    - split; simpl; auto. split; auto. intros i Hi. exists None. apply R1. lia.
    - intros k. unfold ra_val, covered. simpl. destruct ((idx <=? k) && (k <? idx + Z.of_nat size)) eqn:C; auto. rewrite R1 by lia. auto.
  Qed.

  Lemma enlarge_ok a idx : ra_ok a -> covered a idx = false -> exists a', enlarge a idx = Some a' /\ ra_ok a' /\ covered a' idx = true /\ forall k, ra_val a' k = ra_val a k.
  Proof.
    intros [S0 [L I]] C. unfold covered in C. unfold enlarge. destruct (Z.ltb_spec idx (roff a)) as [Hd|Hu].
    - unfold expand_down. set (size := range_size (Z.to_nat (roff a - idx) + rsize a) (rsize a) (rgrow a)).
      assert (Hs : (Z.to_nat (roff a - idx) + rsize a < size)%nat) by (apply range_size_gt; auto).
      set (off := roff a - (Z.of_nat size - Z.of_nat (rsize a))). set (d := Z.to_nat (roff a - off)).
      assert (Hdd : (d + rsize a = size)%nat) by (unfold d, off; lia).
      destruct (mfill_ok d 0 (malloc size)) as [m1 [E1 [L1 [R1 R2]]]]; [rewrite malloc_len; lia|]. rewrite E1. rewrite malloc_len in L1.
      destruct (mcopy_ok (rmem a) d (rsize a) 0 m1) as [m2 [E2 [L2 [R3 R4]]]]; try lia. rewrite E2. eexists. split; [reflexivity|]. split; [|split].
      + split; simpl; [lia|]. split; [lia|]. intros i Hi. destruct (Nat.lt_ge_cases i d) as [Hid|Hid].
        * exists None. rewrite R4 by lia. apply R1. lia.
        * replace i with ((i - d) + d)%nat by lia. rewrite R3 by lia. apply I. lia.
      + unfold covered. simpl. unfold off. lia.
      + intros k. unfold ra_val, covered. simpl. destruct ((off <=? k) && (k <? off + Z.of_nat size)) eqn:C2.
        * destruct ((roff a <=? k) && (k <? roff a + Z.of_nat (rsize a))) eqn:C3.
          -- replace (Z.to_nat (k - off)) with (Z.to_nat (k - roff a) + d)%nat by (unfold d, off; lia). rewrite R3 by (unfold d, off in *; lia). auto.
          -- rewrite R4 by (unfold d, off in *; lia). rewrite R1 by (unfold d, off in *; lia). auto.
        * destruct ((roff a <=? k) && (k <? roff a + Z.of_nat (rsize a))) eqn:C3; auto. unfold off in *. lia.
    - unfold expand_up. set (size := range_size (Z.to_nat (idx - roff a + 1)) (rsize a) (rgrow a)).
      assert (Hs : (Z.to_nat (idx - roff a + 1) < size)%nat) by (apply range_size_gt; auto). assert (rsize a <= size)%nat by lia.
      destruct (mcopy_ok (rmem a) 0 (rsize a) 0 (malloc size)) as [m1 [E1 [L1 [R1 R2]]]]; try (rewrite ?malloc_len; lia). rewrite E1. rewrite malloc_len in L1.
      destruct (mfill_ok (size - rsize a) (rsize a) m1) as [m2 [E2 [L2 [R3 R4]]]]; try lia. rewrite E2. eexists. split; [reflexivity|].
      assert (Old : forall i, (i < rsize a)%nat -> nth_error m2 i = nth_error (rmem a) i).
      { intros i Hi. rewrite R4 by lia. rewrite <- (R1 i) by lia. f_equal. lia. }
      split; [|split].
      + split; simpl; [lia|]. split; [lia|]. intros i Hi. destruct (Nat.lt_ge_cases i (rsize a)) as [Hid|Hid].
        * rewrite Old by lia. apply I. lia.
        * exists None. apply R3. lia.
      + unfold covered. simpl. lia.
      + intros k. unfold ra_val, covered. simpl. destruct ((roff a <=? k) && (k <? roff a + Z.of_nat size)) eqn:C2.
        * destruct ((roff a <=? k) && (k <? roff a + Z.of_nat (rsize a))) eqn:C3.
          -- rewrite Old by lia. auto.
          -- rewrite R3 by lia. auto.
        * destruct ((roff a <=? k) && (k <? roff a + Z.of_nat (rsize a))) eqn:C3; auto. lia.
  Qed.

  Lemma ref_ok a idx : ra_ok a -> exists a', rarr_ref a idx = Some (Z.to_nat (idx - roff a'), a') /\ ra_ok a' /\ covered a' idx = true /\
    (forall k, ra_val a' k = ra_val a k) /\ mread (rmem a') (Z.to_nat (idx - roff a')) = Some (ra_val a idx).
  Proof.
    intros H. assert (X : exists a', (if covered a idx then Some a else enlarge a idx) = Some a' /\ ra_ok a' /\ covered a' idx = true /\ (forall k, ra_val a' k = ra_val a k)).
    { destruct (covered a idx) eqn:C; [eauto|]. apply enlarge_ok; auto. }
    destruct X as [a' [E [O [C V]]]]. exists a'. unfold rarr_ref. rewrite E. split; auto. split; auto. split; auto. split; auto.
    rewrite <- V. unfold ra_val. rewrite C. destruct O as [_ [L I]]. unfold covered in C. destruct (I (Z.to_nat (idx - roff a'))) as [v Hv]; [lia|].
    rewrite Hv. apply mread_nth. auto.
  Qed.
  Lemma get_ok a idx : ra_ok a -> exists a', rarr_get a idx = Some (ra_val a idx, a') /\ ra_ok a' /\ (forall k, ra_val a' k = ra_val a k).
  Proof.
    intros H. destruct (ref_ok a idx H) as [a' [E [O [C [V R]]]]]. exists a'. unfold rarr_get. rewrite E, R. auto.
  Qed.
  Lemma put_ok a idx v : ra_ok a -> covered a idx = true -> exists a', rarr_put a (Z.to_nat (idx - roff a)) v = Some a' /\ ra_ok a' /\
    forall k, ra_val a' k = fset (ra_val a) idx v k.
  Proof.
    intros [S0 [L I]] C. unfold covered in C. unfold rarr_put. destruct (mwrite_ok (rmem a) (Z.to_nat (idx - roff a)) (Some v)) as [m [E [L2 [R1 R2]]]]; [lia|].
    rewrite E. eexists. split; [reflexivity|]. split.
    - split; simpl; auto. split; [lia|]. intros i Hi. destruct (Nat.eq_dec i (Z.to_nat (idx - roff a))) as [->|N]; [eauto|]. rewrite R2 by auto. apply I. lia.
    - intros k. unfold fset, ra_val, covered. simpl. destruct (Z.eqb_spec k idx) as [->|N].
      + replace ((roff a <=? idx) && (idx <? roff a + Z.of_nat (rsize a))) with true by lia. rewrite R1. auto.
      + destruct ((roff a <=? k) && (k <? roff a + Z.of_nat (rsize a))) eqn:C2; auto. rewrite R2 by lia. auto.
  Qed.
  Lemma set_ok a idx v : ra_ok a -> exists a', rarr_set a idx v = Some a' /\ ra_ok a' /\ forall k, ra_val a' k = fset (ra_val a) idx v k.
  Proof.
    intros H. destruct (ref_ok a idx H) as [a1 [E [O [C [V R]]]]]. unfold rarr_set. rewrite E. destruct (put_ok a1 idx v O C) as [a2 [E2 [O2 V2]]].
    exists a2. split; auto. split; auto. intros k. rewrite V2. unfold fset. rewrite V. auto.
  Qed.
End R.

Notation KO := C26_numeric_keys.
Lemma num_cmp_z a b : key_ok a -> key_ok b -> num_cmp a b = Z.compare a b.
Proof.
  unfold key_ok. intros Ha Hb. unfold num_cmp, wrap64. rewrite Z.mod_small by lia.
  replace (a - b + 2 ^ 63 - 2 ^ 63)%Z with (a - b)%Z by lia. destruct (Z.compare_spec a b), (Z.compare_spec (a - b) 0); auto; lia.
Qed.
Lemma num_cmp_refl a : key_ok a -> num_cmp a a = Eq.
Proof. intros H. rewrite num_cmp_z by auto. apply Z.compare_refl. Qed.

Section T.
  Context {A : Type}.
  Notation ptr := (option A).
  Notation ntree := (tree Z ptr).
  Notation bst := (@bst Z ptr num_cmp key_ok).
  Notation assoc := (@assoc Z ptr num_cmp).
  Notation inord := (@inord Z ptr).

  Definition tval (t : ntree) (k : Z) : ptr := match assoc (inord t) k with Some (_, v) => v | None => None end.

  Lemma rel_self t : bst t -> rel num_cmp key_ok t (assoc (inord t)).
  Proof. intros H. split; auto. intros x _. auto. Qed.
  Lemma in_iff t e : bst t -> (In e (inord t) <-> key_ok (fst e) /\ assoc (inord t) (fst e) = Some e).
  Proof.
    intros [S D]. split.
    - intros H. pose proof (D e H) as De. split; auto. apply (in_assoc num_cmp key_ok KO); auto.
    - intros [De H]. apply (assoc_in num_cmp key_ok KO) in H; tauto.
  Qed.
  Lemma assoc_key t k e : bst t -> key_ok k -> assoc (inord t) k = Some e -> fst e = k /\ In e (inord t).
  Proof. intros [S D] Dk H. apply (assoc_in num_cmp key_ok KO) in H; tauto. Qed.
  Lemma tval_in t k v : bst t -> tval t k = Some v -> key_ok k -> In (k, Some v) (inord t).
  Proof.
    intros B H Dk. unfold tval in H. destruct (assoc (inord t) k) as [[k' w]|] eqn:E; [|discriminate].
    destruct (assoc_key t k _ B Dk E) as [E1 E2]. simpl in E1. subst. auto.
  Qed.
  Lemma in_tval t k v : bst t -> In (k, v) (inord t) -> tval t k = v.
  Proof. intros B H. apply in_iff in H; auto. destruct H as [_ H]. unfold tval. simpl in H. rewrite H. auto. Qed.

  Lemma find_ok t k : key_ok k -> bst t -> let (o, t') := find Z ptr num_cmp t k in o = assoc (inord t) k /\ bst t' /\ inord t' = inord t.
  Proof.
    intros Dk B. pose proof (find_rel num_cmp key_ok KO t (assoc (inord t)) k Dk (rel_self t B)) as H.
    destruct (find Z ptr num_cmp t k) as [o t'] eqn:E. destruct H as [H1 [H2 H3]]. split; auto. split; auto.
    unfold find in E. destruct t as [|l0 k0 v0 r0]; [inversion E; auto|]. pose proof (splay_inord num_cmp (Node l0 k0 v0 r0) k) as SI.
    destruct (splay Z ptr num_cmp (Node l0 k0 v0 r0) k) as [|l k1 v r]; inversion E; subst; auto.
  Qed.
  Lemma insert_ok t k v : key_ok k -> bst t -> assoc (inord t) k = None -> exists t', insert Z ptr num_cmp t k v = (None, t') /\ bst t' /\
    forall x, key_ok x -> assoc (inord t') x = if x =? k then Some (k, v) else assoc (inord t) x.
  Proof.
    intros Dk B N. pose proof (insert_rel num_cmp key_ok KO t (assoc (inord t)) k v Dk (rel_self t B)) as H.
    destruct (insert Z ptr num_cmp t k v) as [o t'] eqn:E. rewrite N in H. destruct H as [-> [H2 H3]]. exists t'. split; auto. split; auto.
    intros x Dx. rewrite (H3 x Dx). unfold fadd. rewrite num_cmp_z by auto. destruct (Z.compare_spec x k), (Z.eqb_spec x k); auto; lia.
  Qed.
  Lemma extract_ok t k : key_ok k -> bst t -> exists t', extract Z ptr num_cmp t k = (assoc (inord t) k, t') /\ bst t' /\
    forall x, key_ok x -> assoc (inord t') x = if x =? k then None else assoc (inord t) x.
  Proof.
    intros Dk B. pose proof (extract_rel num_cmp key_ok KO t (assoc (inord t)) k Dk (rel_self t B)) as H.
    destruct (extract Z ptr num_cmp t k) as [o t'] eqn:E. destruct H as [-> [H2 H3]]. exists t'. split; auto. split; auto.
    intros x Dx. rewrite (H3 x Dx). unfold fdel. rewrite num_cmp_z by auto. destruct (Z.compare_spec x k), (Z.eqb_spec x k); auto; lia.
  Qed.

  Lemma tget_ok t k : key_ok k -> bst t -> tget t k = option_map snd (assoc (inord t) k).
  Proof.
    intros Dk B. rewrite <- (find_binary_spec num_cmp key_ok KO) by auto. induction t as [|l IHl k' v r IHr]; auto.
    apply (bst_node num_cmp key_ok KO) in B. destruct B as [Bl [Br [Dn _]]]. cbn [tget find_binary].
    rewrite num_cmp_z by auto. destruct (Z.compare k k'); [reflexivity|apply IHl; auto|apply IHr; auto].
  Qed.
  Lemma sorted_fst (l : list (Z * ptr)) : forall l' : list (Z * ptr), map fst l = map fst l' -> sorted num_cmp l -> sorted num_cmp l'.
  Proof.
    induction l as [|a l IH]; intros [|b l'] E; try discriminate; auto. simpl in *. inversion E as [[E1 E2]]. intros [H S]. split; auto.
    intros x Hx. assert (Hf : In (fst x) (map fst l)) by (rewrite E2; apply in_map; auto). apply in_map_iff in Hf. destruct Hf as [y [Hy1 Hy2]].
    unfold lt in *. rewrite <- Hy1, <- E1. apply H. auto.
  Qed.
  Lemma tset_ok t k v : key_ok k -> bst t -> assoc (inord t) k <> None -> exists t', tset t k v = Some t' /\ bst t' /\ map fst (inord t') = map fst (inord t) /\
    forall x, key_ok x -> assoc (inord t') x = if x =? k then Some (k, v) else assoc (inord t) x.
  Proof.
    intros Dk B. assert (X : assoc (inord t) k <> None -> exists t', tset t k v = Some t' /\ map fst (inord t') = map fst (inord t) /\
      forall e, In e (inord t') -> e = (k, v) \/ fst e <> k /\ In e (inord t)).
    { rewrite <- (find_binary_spec num_cmp key_ok KO) by auto. induction t as [|l IHl k' v' r IHr]; [simpl; congruence|].
      apply (bst_node num_cmp key_ok KO) in B. destruct B as [Bl [Br [Dn [Xl Xr]]]]. cbn [tset find_binary].
      assert (Xl' : forall e, In e (inord l) -> fst e < k').
      { intros e He. pose proof (Xl e He) as H. rewrite num_cmp_z in H; [apply Z.compare_lt_iff in H; auto| |auto]. apply Bl. auto. }
      assert (Xr' : forall e, In e (inord r) -> k' < fst e).
      { intros e He. pose proof (Xr e He) as H. rewrite num_cmp_z in H; [apply Z.compare_lt_iff in H; auto|auto|]. apply Br. auto. }
      rewrite num_cmp_z by auto. destruct (Z.compare_spec k k') as [->|L|L]; intros N.
      - eexists. split; [reflexivity|]. cbn [SplayProofs.inord]. split; [rewrite !map_app; auto|]. intros e He. apply in_app_or in He. destruct He as [He|[He|He]]; auto.
        + right. pose proof (Xl' e He). split; [lia|]. apply in_or_app. auto.
        + right. pose proof (Xr' e He). split; [lia|]. apply in_or_app. simpl. auto.
      - destruct (IHl Bl N) as [t' [-> [E1 E2]]]. eexists. split; [reflexivity|]. cbn [SplayProofs.inord]. split; [rewrite !map_app, E1; auto|]. intros e He. apply in_app_or in He. destruct He as [He|[He|He]].
        + destruct (E2 e He) as [|[]]; auto. right. split; auto. apply in_or_app. auto.
        + right. subst e. simpl. split; [lia|]. apply in_or_app. simpl. auto.
        + right. pose proof (Xr' e He). split; [lia|]. apply in_or_app. simpl. auto.
      - destruct (IHr Br N) as [t' [-> [E1 E2]]]. eexists. split; [reflexivity|]. cbn [SplayProofs.inord]. split; [rewrite !map_app; simpl; rewrite E1; auto|]. intros e He. apply in_app_or in He. destruct He as [He|[He|He]].
        + right. pose proof (Xl' e He). split; [lia|]. apply in_or_app. auto.
        + right. subst e. simpl. split; [lia|]. apply in_or_app. simpl. auto.
        + destruct (E2 e He) as [|[]]; auto. right. split; auto. apply in_or_app. simpl. auto. }
    intros N. destruct (X N) as [t' [E [E1 E2]]]. exists t'. split; auto.
    assert (B' : bst t').
    { split; [apply (sorted_fst (inord t)); [auto|apply B]|]. intros e He. assert (Hf : In (fst e) (map fst (inord t))) by (rewrite <- E1; apply in_map; auto).
      apply in_map_iff in Hf. destruct Hf as [y [<- Hy2]]. apply B. auto. }
    split; auto. split; auto.
    assert (Keys : forall x, In x (map fst (inord t')) <-> In x (map fst (inord t))) by (intros; rewrite E1; tauto).
    intros x Dx. destruct (assoc (inord t') x) as [e|] eqn:Ex.
    - destruct (assoc_key t' x e B' Dx Ex) as [F I]. destruct (E2 e I) as [->|[Ne It]].
      + simpl in F. subst x. rewrite Z.eqb_refl. auto.
      + destruct (Z.eqb_spec x k); [congruence|]. apply in_iff in It; auto. destruct It as [_ It]. rewrite F in It. auto.
    - destruct (assoc (inord t) x) as [e|] eqn:Et.
      + destruct (assoc_key t x e B Dx Et) as [F I]. assert (Hf : In x (map fst (inord t'))) by (rewrite E1, <- F; apply in_map; auto).
        apply in_map_iff in Hf. destruct Hf as [y [Hy1 Hy2]]. apply in_iff in Hy2; auto. destruct Hy2 as [_ Hy2]. rewrite Hy1 in Hy2. congruence.
      + destruct (Z.eqb_spec x k) as [->|]; auto. congruence.
  Qed.

  (** ** The invariant *)
  Definition inv (m : imap A) (f : Z -> ptr) : Prop :=
    (forall k, f k <> None -> key_ok k) /\
    match mbody m with
    | BEmpty => forall k, f k = None
    | BSingle v => mmin m = mmax m /\ key_ok (mmax m) /\ forall k, f k = if k =? mmax m then v else None
    | BArray a => ra_ok a /\ (forall k, ra_val a k = f k) /\ forall k, f k <> None -> mmin m <= k <= mmax m
    | BTree t => bst t /\ (forall k, key_ok k -> tval t k = f k) /\ forall e, In e (inord t) -> mmin m <= fst e <= mmax m
    end.

  Lemma inv_ext m f g : (forall k, f k = g k) -> inv m f -> inv m g.
  Proof.
    intros E [H1 H2]. split; [intros k; rewrite <- E; auto|]. destruct (mbody m) as [|v|a|t].
    - intros k. rewrite <- E. auto.
    - destruct H2 as [? [? H2]]. split; auto. split; auto. intros k. rewrite <- E. auto.
    - destruct H2 as [? [H2 H3]]. split; auto. split; [intros k; rewrite <- E; auto|]. intros k. rewrite <- E. auto.
    - destruct H2 as [? [H2 H3]]. split; auto. split; auto. intros k. rewrite <- E. auto.
  Qed.

  (** the nodes of a tree that was just built from an array *)
  Definition clean (m : imap A) : Prop := exists t, mbody m = BTree t /\ (forall e, In e (inord t) -> snd e <> None) /\
    mcount m = Z.of_nat (length (inord t)) /\ mmin m <= mmax m.

  Lemma ptr_dec (p : ptr) : p = None \/ exists a, p = Some a.
  Proof. destruct p; eauto. Qed.

  Lemma insert_len t k v : assoc (inord t) k = None -> key_ok k -> bst t -> length (inord (snd (insert Z ptr num_cmp t k v))) = S (length (inord t)).
  Proof.
    intros N Dk B. unfold insert. destruct t as [|l0 k0 v0 r0]; [reflexivity|].
    destruct (splay_split num_cmp key_ok KO (Node l0 k0 v0 r0) k Dk B) as [l [k1 [v1 [r [E [HB [HI [HA HBo]]]]]]]]; [discriminate|].
    rewrite E. rewrite <- HI in N |- *. rewrite (at_key num_cmp l k1 v1 r k HA HBo) in N.
    destruct (num_cmp k k1); [discriminate| |]; cbn [snd SplayProofs.inord]; rewrite !app_length; simpl; rewrite ?app_length; simpl; lia.
  Qed.

  Lemma to_tree_ok f : (forall k, f k <> None -> key_ok k) -> forall cnt i a t n mx mn, ra_ok a -> (forall k, ra_val a k = f k) -> bst t ->
    (forall e, In e (inord t) -> fst e < i /\ mn <= fst e <= mx /\ snd e <> None) -> n = Z.of_nat (length (inord t)) -> 
    exists t' n' mx' mn', to_tree_loop cnt i a t n mx mn = Some (t', n', mx', mn') /\ bst t' /\
      (forall e, In e (inord t') -> mn' <= fst e <= mx' /\ snd e <> None) /\ n' = Z.of_nat (length (inord t')) /\
      forall k, key_ok k -> tval t' k = if (i <=? k) && (k <? i + Z.of_nat cnt) then f k else tval t k.
  Proof.
    intros Fk. induction cnt as [|c IH]; intros i a t n mx mn O V B Bd Hn; cbn [to_tree_loop].
    - exists t, n, mx, mn. split; auto. split; auto. split; [intros e He; apply Bd; auto|]. split; auto. intros k _. replace ((i <=? k) && (k <? i + Z.of_nat 0)) with false by lia. auto.
    - destruct (get_ok a i O) as [a' [E [O' V']]]. rewrite E, V. destruct (f i) as [v|] eqn:Fi.
      + assert (Di : key_ok i) by (apply Fk; congruence).
        assert (Ni : assoc (inord t) i = None).
        { destruct (assoc (inord t) i) as [e|] eqn:Ea; auto. destruct (assoc_key t i e B Di Ea) as [F I]. apply Bd in I. lia. }
        destruct (insert_ok t i (Some v) Di B Ni) as [t1 [E1 [B1 A1]]]. pose proof (insert_len t i (Some v) Ni Di B) as L1. rewrite E1 in L1. simpl in L1.
        unfold store. rewrite E1. cbn [snd].
        assert (In1 : forall e, In e (inord t1) -> e = (i, Some v) \/ In e (inord t)).
        { intros e He. apply in_iff in He; auto. destruct He as [De He]. rewrite A1 in He by auto. destruct (Z.eqb_spec (fst e) i); [left; congruence|]. right. apply in_iff; auto. }
        destruct (IH (i + 1) a' t1 (n + 1) i (Z.min mn i)) as [t' [n' [mx' [mn' [E2 [B2 [Bd2 [N2 V2]]]]]]]]; auto.
        * intros k. rewrite V'. auto.
        * intros e He. destruct (In1 e He) as [->|I]; [simpl; split; [lia|split; [lia|discriminate]]|]. destruct (Bd e I) as [? [? ?]]. split; [lia|]. split; [lia|auto].
        * lia.
        * exists t', n', mx', mn'. split; auto. split; auto. split; auto. split; auto. intros k Dk. rewrite V2 by auto. unfold tval. rewrite A1 by auto.
          destruct (Z.eqb_spec k i) as [->|].
          -- replace ((i + 1 <=? i) && (i <? i + 1 + Z.of_nat c)) with false by lia. replace ((i <=? i) && (i <? i + Z.of_nat (S c))) with true by lia. auto.
          -- replace ((i + 1 <=? k) && (k <? i + 1 + Z.of_nat c)) with ((i <=? k) && (k <? i + Z.of_nat (S c))) by lia. auto.
      + destruct (IH (i + 1) a' t n mx mn) as [t' [n' [mx' [mn' [E2 [B2 [Bd2 [N2 V2]]]]]]]]; auto.
        * intros k. rewrite V'. auto.
        * intros e He. destruct (Bd e He) as [? [? ?]]. split; [lia|]. split; [lia|auto].
        * exists t', n', mx', mn'. split; auto. split; auto. split; auto. split; auto. intros k Dk. rewrite V2 by auto.
          destruct (Z.eqb_spec k i) as [->|].
          -- replace ((i + 1 <=? i) && (i <? i + 1 + Z.of_nat c)) with false by lia. replace ((i <=? i) && (i <? i + Z.of_nat (S c))) with true by lia. rewrite Fi.
             unfold tval. destruct (assoc (inord t) i) as [e|] eqn:Ea; auto. destruct (assoc_key t i e B Dk Ea) as [F I]. apply Bd in I. lia.
          -- replace ((i + 1 <=? k) && (k <? i + 1 + Z.of_nat c)) with ((i <=? k) && (k <? i + Z.of_nat (S c))) by lia. auto.
  Qed.

  Lemma array_to_tree_ok m f : inv m f -> (exists a, mbody m = BArray a) -> exists m', array_to_tree m = Some m' /\ inv m' f /\ clean m'.
  Proof.
    intros [Fk I] [a Ea]. rewrite Ea in I. destruct I as [O [V Bd]]. unfold array_to_tree. rewrite Ea.
    destruct (to_tree_ok f Fk (Z.to_nat (mmax m + 1 - roff a)) (roff a) a Leaf 0 (mmin m) (mmax m) O V) as [t [n [mx [mn [E [B [Bd2 [N V2]]]]]]]]; auto.
    - split; simpl; auto. intros e [].
    - intros e [].
    - rewrite E. eexists. split; [reflexivity|]. split.
      + split; auto. simpl. split; auto. split.
        * intros k Dk. rewrite V2 by auto. destruct ((roff a <=? k) && (k <? roff a + Z.of_nat (Z.to_nat (mmax m + 1 - roff a)))) eqn:C; auto.
          unfold tval. simpl. destruct (ptr_dec (f k)) as [|[x Hx]]; auto. pose proof (Bd k ltac:(congruence)).
          assert (covered a k = true). { rewrite <- V in Hx. unfold ra_val in Hx. destruct (covered a k); [auto|discriminate]. }
          unfold covered in *. lia.
        * intros e He. apply Bd2 in He. lia.
      + exists t. simpl. split; auto. split; [intros e He; apply Bd2; auto|]. split; auto. lia.
  Qed.

  Lemma to_array_ok lo hi : forall es a n mx mn, ra_ok a -> sorted num_cmp es -> domain key_ok es ->
    (forall k, ra_val a k <> None -> mn <= k <= mx /\ forall e, In e es -> k < fst e) ->
    exists a' n' mx' mn', to_array_loop es a n mx mn = Some (a', n', mx', mn') /\ ra_ok a' /\
      (forall k, key_ok k -> ra_val a' k = match assoc es k with Some (_, Some v) => Some v | _ => ra_val a k end) /\
      (forall k, ra_val a' k <> None -> mn' <= k <= mx' /\ (ra_val a k <> None \/ In k (map fst es))) /\
      ((forall e, In e es -> snd e <> None /\ lo <= fst e <= hi) -> lo <= mx <= hi -> lo <= mn ->
         n' = n + Z.of_nat (length es) /\ lo <= mx' <= hi /\ lo <= mn').
  Proof.
    induction es as [|[k v] es IH]; intros a n mx mn O S D Bd; cbn [to_array_loop].
    - exists a, n, mx, mn. split; auto. split; auto. split; auto. split; [intros k Hk; split; [apply Bd; auto|auto]|]. simpl. intros. lia.
    - simpl in S. destruct S as [S1 S2]. assert (Dk : key_ok k) by (apply (D (k, v)); simpl; auto).
      assert (D2 : domain key_ok es) by (intros e He; apply D; simpl; auto).
      assert (Gt : forall e, In e es -> k < fst e).
      { intros e He. pose proof (S1 e He) as H. unfold lt in H. simpl in H. rewrite num_cmp_z in H; auto. }
      destruct v as [v|].
      + destruct (set_ok a k (Some v) O) as [a1 [E1 [O1 V1]]]. rewrite E1.
        destruct (IH a1 (n + 1) k (Z.min mn k)) as [a' [n' [mx' [mn' [E2 [O2 [V2 [Bd2 C2]]]]]]]]; auto.
        { intros j Hj. rewrite V1 in Hj. unfold fset in Hj. destruct (Z.eqb_spec j k) as [Ej|Ej]; [split; [lia|]; intros e He; rewrite Ej; auto|].
          destruct (Bd j Hj) as [B1 B2]. pose proof (B2 (k, Some v) (or_introl eq_refl)) as B3. simpl in B3. split; [lia|]. intros e He. apply (B2 e). simpl. auto. }
        exists a', n', mx', mn'. split; auto. split; auto. split; [|split].
        * intros j Dj. rewrite V2 by auto. cbn [SplayProofs.assoc]. cbn [fst]. rewrite num_cmp_z by auto. rewrite V1. unfold fset.
          destruct (Z.compare_spec j k) as [->|L|L].
          -- rewrite Z.eqb_refl. assert (X : assoc es k = None).
             { apply assoc_above. intros e He. rewrite num_cmp_z; auto. apply Z.compare_lt_iff. auto. }
             rewrite X. auto.
          -- destruct (Z.eqb_spec j k); [lia|]. auto.
          -- destruct (Z.eqb_spec j k); [lia|]. auto.
        * intros j Hj. destruct (Bd2 j Hj) as [? [H|H]]; split; auto; [|right; simpl; auto]. rewrite V1 in H. unfold fset in H. destruct (Z.eqb_spec j k) as [Ej|Ej]; [right; simpl; auto|auto].
        * intros Ce Hx Hn. assert (Ck := Ce (k, Some v) (or_introl eq_refl)). simpl in Ck. destruct C2 as [C3 [C4 C5]]; try lia; [intros e He; apply Ce; simpl; auto|].
          simpl length. lia.
      + destruct (IH a n mx mn) as [a' [n' [mx' [mn' [E2 [O2 [V2 [Bd2 C2]]]]]]]]; auto.
        { intros j Hj. destruct (Bd j Hj) as [B1 B2]. split; auto. intros e He. apply (B2 e). simpl. auto. }
        exists a', n', mx', mn'. split; auto. split; auto. split; [|split].
        * intros j Dj. rewrite V2 by auto. cbn [SplayProofs.assoc]. cbn [fst]. rewrite num_cmp_z by auto. 
          destruct (Z.compare_spec j k) as [->|L|L]; auto.
          assert (X : assoc es k = None).
          { apply assoc_above. intros e He. rewrite num_cmp_z; auto. apply Z.compare_lt_iff. auto. }
          rewrite X. auto.
        * intros j Hj. destruct (Bd2 j Hj) as [? [H|H]]; split; auto; right; simpl; auto.
        * intros Ce. destruct (Ce (k, None) (or_introl eq_refl)) as [Ck _]. simpl in Ck. tauto.
  Qed.

  Lemma tree_to_array_ok m f t : inv m f -> mbody m = BTree t -> exists m' a, tree_to_array m = Some m' /\ inv m' f /\ mbody m' = BArray a /\
    (clean m -> mcount m' = mcount m /\ mmin m <= mmin m' /\ mmax m' <= mmax m).
  Proof.
    intros [Fk I] Et. rewrite Et in I. destruct I as [B [V Bd]]. unfold tree_to_array. rewrite Et.
    destruct (alloc_ok (A := A) (mmin m) 8) as [a [Ea [Oa Va]]]. rewrite Ea.
    assert (Tr : trav_all Z ptr (S (tsize Z ptr t)) (trav_init Z ptr t) = Some (inord t)).
    { unfold trav_init. destruct (push_left_spec t []) as [E N]; [intros ? []|]. rewrite trav_all_spec; auto.
      - rewrite E. simpl. rewrite app_nil_r. auto.
      - rewrite E. simpl. rewrite app_nil_r, inord_length. lia. }
    rewrite Tr. destruct B as [S D].
    destruct (to_array_ok (mmin m) (mmax m) (inord t) a 0 (mmin m) (mmax m) Oa S D) as [a' [n' [mx' [mn' [E2 [O2 [V2 [Bd2 C2]]]]]]]].
    { intros k Hk. rewrite Va in Hk. tauto. }
    rewrite E2. eexists. exists a'. split; [reflexivity|]. split; [|split; auto].
    - split; auto. simpl. split; auto. 
      assert (Vf : forall k, ra_val a' k = f k).
      { intros k. destruct (ptr_dec (f k)) as [N|[x Hx]].
        - destruct (ptr_dec (ra_val a' k)) as [N2|[x Hx]]; [congruence|]. destruct (Bd2 k ltac:(congruence)) as [_ [H|H]]; [rewrite Va in H; tauto|].
          apply in_map_iff in H. destruct H as [e [<- He]]. pose proof (D e He) as De. rewrite V2 by auto. rewrite Va.
          pose proof (V (fst e) De) as Hv. unfold tval in Hv. destruct (assoc (inord t) (fst e)) as [[? [?|]]|]; congruence.
        - assert (Dk : key_ok k) by (apply Fk; congruence). rewrite V2, Va by auto. pose proof (V k Dk) as Hv. unfold tval in Hv.
          destruct (assoc (inord t) k) as [[? [?|]]|]; congruence. }
      split; auto. intros k Hk. rewrite <- Vf in Hk. apply Bd2 in Hk. lia.
    - intros [t' [Et' [Cl [Cn Cm]]]]. rewrite Et in Et'. inversion Et'; subst t'. simpl. destruct C2 as [C3 [C4 C5]]; try lia.
      intros e He. split; auto.
  Qed.

  (** ** IntMapGetRef *)
  (** the reference belongs to the key *)
  Definition reffed (m : imap A) (r : ref) (f : Z -> ptr) (key : Z) : Prop :=
    inv m f /\ match mbody m, r with
               | BSingle _, RSingle => key = mmax m
               | BArray a, RCell i => covered a key = true /\ i = Z.to_nat (key - roff a) /\ mmin m <= key <= mmax m
               | BTree t, RNode k => k = key /\ assoc (inord t) key <> None
               | _, _ => False
               end.

  Lemma reffed_ok m r f key : key_ok key -> reffed m r f key -> inv m f /\ read_ref m r = Some (f key) /\
    forall v, exists m', write_ref m r v = Some m' /\ inv m' (fset f key v).
  Proof.
    intros Dk [I R]. split; auto. pose proof I as [Fk J].
    assert (Fk' : forall v k, fset f key v k <> None -> key_ok k) by (intros v k; unfold fset; destruct (Z.eqb_spec k key); [subst; auto|apply Fk]).
    unfold read_ref, write_ref, inv in *. destruct (mbody m) as [|w|a|t] eqn:Eb; destruct r as [|i|k]; try tauto.
    - subst key. destruct J as [J1 [J2 J3]]. split; [rewrite J3, Z.eqb_refl; auto|]. intros v. eexists. split; [reflexivity|]. split; [exact (Fk' v)|]. simpl. split; [exact J1|]. split; [exact J2|].
      intros k. unfold fset. rewrite J3. destruct (k =? mmax m); auto.
    - destruct R as [C [-> Bk]]. destruct J as [O [V Bd]]. split.
      + pose proof O as [_ [L I2]]. unfold covered in C. destruct (I2 (Z.to_nat (key - roff a))) as [v Hv]; [lia|]. rewrite (proj2 (mread_nth _ _ _) Hv). f_equal.
        rewrite <- V. unfold ra_val, covered. replace ((roff a <=? key) && (key <? roff a + Z.of_nat (rsize a))) with true. rewrite Hv. auto.
      + intros v. destruct (put_ok a key v O C) as [a' [E [O' V']]]. rewrite E. eexists. split; [reflexivity|]. split; [exact (Fk' v)|]. simpl. split; auto.
        split; [intros k; rewrite V'; unfold fset; rewrite V; auto|]. intros k Hk. unfold fset in Hk. destruct (Z.eqb_spec k key); [subst; auto|apply Bd; auto].
    - destruct R as [-> N]. destruct J as [B [V Bd]]. split.
      + rewrite tget_ok by auto. rewrite <- V by auto. unfold tval. destruct (assoc (inord t) key) as [[? ?]|]; [auto|congruence].
      + intros v. destruct (tset_ok t key v Dk B N) as [t' [E [B' [K' V']]]]. rewrite E. eexists. split; [reflexivity|]. split; [exact (Fk' v)|]. simpl. split; auto.
        split; [intros k Hk; unfold tval, fset; rewrite V' by auto; destruct (k =? key); auto; apply (V k Hk)|].
        intros e He. assert (Hf : In (fst e) (map fst (inord t))) by (rewrite <- K'; apply in_map; auto). apply in_map_iff in Hf. destruct Hf as [y [<- Hy]]. apply Bd. auto.
  Qed.

  Lemma reffed_widen m r f key : reffed m r f key -> (forall v, mbody m <> BSingle v) ->
    reffed {| mbody := mbody m; mcount := mcount m; mmin := Z.min (mmin m) key; mmax := Z.max (mmax m) key |} r f key.
  Proof.
    intros [[Fk J] R] N. unfold reffed, inv in *. simpl. destruct (mbody m) as [|w|a|t] eqn:Eb; destruct r as [|i|k]; try tauto.
    - elim (N w). auto.
    - destruct J as [O [V Bd]]. split; [split; auto; split; auto; split; auto; intros k Hk; apply Bd in Hk; lia|]. intuition lia.
    - destruct J as [O [V Bd]]. split; auto. split; auto. split; auto. split; auto. intros e He. apply Bd in He. lia.
  Qed.

  (** L1: an array that stays an array *)
  Lemma ref_array n m a f key : key_ok key -> inv m f -> mbody m = BArray a ->
    ((mmax m <? key) || (key <? mmin m)) && switch_to_tree (mmin m) (mmax m) key (mcount m + 1) = false ->
    exists r m', get_ref (S n) m key = Some (r, m') /\ reffed m' r f key /\ forall v, mbody m' <> BSingle v.
  Proof.
    intros Dk [Fk J] Eb C. cbn [get_ref]. rewrite Eb in *. rewrite C. destruct J as [O [V Bd]].
    destruct (ref_ok a key O) as [a' [E [O' [C' [V' R']]]]]. rewrite E, R'. eexists. eexists. split; [reflexivity|]. split; [|simpl; discriminate].
    split; simpl.
    - split; auto. simpl. split; auto. split; [intros k; rewrite V'; auto|]. intros k Hk. apply Bd in Hk. lia.
    - split; auto. split; auto. lia.
  Qed.
  Lemma ref_tree n m t f key : key_ok key -> inv m f -> mbody m = BTree t ->
    (forall m', inv m' f -> (exists a, mbody m' = BArray a) -> (clean m -> mcount m' = mcount m /\ mmin m <= mmin m' /\ mmax m' <= mmax m) ->
       switch_to_array (mmin m) (mmax m) key (mcount m + 1) = true ->
       exists r m2, get_ref n m' key = Some (r, m2) /\ reffed m2 r f key /\ forall v, mbody m2 <> BSingle v) ->
    exists r m', get_ref (S n) m key = Some (r, m') /\ reffed m' r f key /\ forall v, mbody m' <> BSingle v.
  Proof.
    intros Dk [Fk J] Eb IH. cbn [get_ref]. rewrite Eb in *. destruct J as [B [V Bd]].
    pose proof (find_ok t key Dk B) as Hf. destruct (find Z ptr num_cmp t key) as [o t'] eqn:Ef. destruct Hf as [-> [B' I']].
    destruct (assoc (inord t) key) as [e|] eqn:Ea.
    - eexists. eexists. split; [reflexivity|]. split; [|simpl; discriminate]. split; simpl; [split; auto; simpl; split; auto; split|].
      + intros k Hk. unfold tval. rewrite I'. apply (V k Hk).
      + rewrite I'. auto.
      + split; auto. rewrite I', Ea. discriminate.
    - set (m' := {| mbody := BTree t'; mcount := mcount m; mmin := mmin m; mmax := mmax m |}).
      assert (Im : inv m' f).
      { split; auto. simpl. split; auto. rewrite I'. split; auto. intros k Hk. unfold tval. rewrite I'. apply (V k Hk). }
      destruct (switch_to_array (mmin m) (mmax m) key (mcount m + 1)) eqn:Sw.
      + destruct (tree_to_array_ok m' f t' Im eq_refl) as [m1 [a [E1 [I1 [Ba C1]]]]]. rewrite E1. apply IH; eauto.
        intros [tt [Et [Cl [Cn Cm]]]]. rewrite Eb in Et. inversion Et; subst tt. destruct C1 as [C2 C3]; [|simpl in C2; rewrite C2; auto].
        exists t'. split; auto. rewrite I'. auto.
      + destruct (insert_ok t' key None Dk B') as [t2 [E2 [B2 V2]]]; [rewrite I'; auto|]. rewrite E2. eexists. eexists. split; [reflexivity|].
        split; [|simpl; discriminate]. split; simpl; [split; auto; simpl; split; auto; split|].
        * intros k Hk. unfold tval. rewrite V2, I' by auto. rewrite <- (V k Hk). unfold tval. destruct (Z.eqb_spec k key); [subst; rewrite Ea; auto|auto].
        * intros e He. apply in_iff in He; auto. destruct He as [De He]. rewrite V2 in He by auto. destruct (Z.eqb_spec (fst e) key); [lia|].
          rewrite I' in He. assert (Hi : In e (inord t)) by (apply in_iff; auto). apply Bd in Hi. lia.
        * split; auto. rewrite V2, Z.eqb_refl by auto. discriminate.
  Qed.
  (** L2: a tree that was just built *)
  Lemma ref_clean_tree n m f key : key_ok key -> inv m f -> clean m ->
    exists r m', get_ref (S (S n)) m key = Some (r, m') /\ reffed m' r f key /\ forall v, mbody m' <> BSingle v.
  Proof.
    intros Dk I C. pose proof C as [t [Et _]]. apply (ref_tree (S n) m t f key Dk I Et). intros m' I' [a Ea] Cl Sw.
    destruct (Cl C) as [C1 [C2 C3]]. apply (ref_array n m' a f key Dk I' Ea). unfold switch_to_array, switch_to_tree in *. destruct C as [t2 [_ [_ [Cn _]]]]. lia.
  Qed.
  (** L3: any array *)
  Lemma ref_any_array n m a f key : key_ok key -> inv m f -> mbody m = BArray a ->
    exists r m', get_ref (S (S (S n))) m key = Some (r, m') /\ reffed m' r f key /\ forall v, mbody m' <> BSingle v.
  Proof.
    intros Dk I Ea. destruct (((mmax m <? key) || (key <? mmin m)) && switch_to_tree (mmin m) (mmax m) key (mcount m + 1)) eqn:C.
    - remember (S (S n)) as k eqn:Ek. cbn [get_ref]. rewrite Ea, C. destruct (array_to_tree_ok m f I (ex_intro _ a Ea)) as [m1 [E1 [I1 C1]]]. rewrite E1. subst k.
      destruct (ref_clean_tree n m1 f key Dk I1 C1) as [r [m2 [E2 [R2 N2]]]]. rewrite E2. eexists. eexists. split; [reflexivity|]. split; [apply reffed_widen; auto|auto].
    - apply (ref_array _ m a); auto.
  Qed.
  Lemma get_ref_ok m f key : key_ok key -> inv m f -> exists r m', get_ref ref_fuel m key = Some (r, m') /\ reffed m' r f key.
  Proof.
    intros Dk I. unfold ref_fuel. destruct (mbody m) as [|v|a|t] eqn:Eb.
    - cbn [get_ref]. rewrite Eb. eexists. eexists. split; [reflexivity|]. destruct I as [Fk J]. rewrite Eb in J. split; simpl; auto. split; auto. simpl.
      split; auto. split; auto. intros k. rewrite J. destruct (k =? key); auto.
    - pose proof I as [Fk J]. rewrite Eb in J. destruct J as [J1 [J2 J3]]. remember 3%nat as n3. cbn [get_ref]. rewrite Eb. destruct (Z.eqb_spec key (mmax m)) as [->|N].
      + eexists. eexists. split; [reflexivity|]. split; simpl; [split; auto; simpl|lia]. rewrite J1, Z.min_id, Z.max_id. auto.
      + assert (Bnd : forall k, f k <> None -> k = mmax m) by (intros k; rewrite J3; destruct (Z.eqb_spec k (mmax m)); tauto).
        destruct (switch_to_array key (mmin m) (mmax m) 2).
        * destruct (alloc_ok (A := A) (Z.min key (mmax m)) 8) as [a0 [E0 [O0 V0]]]. rewrite E0.
          destruct (set_ok a0 (mmax m) v O0) as [a1 [E1 [O1 V1]]]. rewrite E1. destruct (set_ok a1 key None O1) as [a2 [E2 [O2 V2]]]. rewrite E2.
          destruct (ref_ok a2 key O2) as [a3 [E3 [O3 [C3 [V3 R3]]]]]. rewrite E3. eexists. eexists. split; [reflexivity|]. split; simpl; [split; auto; simpl; split; auto; split|].
          -- intros k. rewrite V3, V2. unfold fset. rewrite V1. unfold fset. rewrite V0, J3. destruct (Z.eqb_spec k key), (Z.eqb_spec k (mmax m)); auto. lia.
          -- intros k Hk. rewrite (Bnd k Hk). lia.
          -- split; auto. split; auto. lia.
        * unfold store. destruct (insert_ok (Leaf (V := ptr)) (mmax m) v J2) as [t1 [E1 [B1 V1]]]; [split; simpl; auto; intros e []|reflexivity|]. rewrite E1. cbn [snd].
          destruct (insert_ok t1 key None Dk B1) as [t2 [E2 [B2 V2]]].
          { rewrite V1 by auto. destruct (Z.eqb_spec key (mmax m)); [lia|reflexivity]. }
          rewrite E2. eexists. eexists. split; [reflexivity|]. split; simpl; [split; auto; simpl; split; auto; split|].
          -- intros k Hk. unfold tval. rewrite V2, V1, J3 by auto. simpl. destruct (Z.eqb_spec k key), (Z.eqb_spec k (mmax m)); auto. lia.
          -- intros e He. apply in_iff in He; auto. destruct He as [De He]. rewrite V2, V1 in He by auto. destruct (Z.eqb_spec (fst e) key); [lia|].
             destruct (Z.eqb_spec (fst e) (mmax m)); [lia|]. discriminate.
          -- split; auto. rewrite V2, Z.eqb_refl by auto. discriminate.
    - destruct (ref_any_array 1 m a f key Dk I Eb) as [r [m' [E [R _]]]]. eauto.
    - destruct (ref_tree 3 m t f key Dk I Eb) as [r [m' [E [R _]]]]; eauto. intros m' I' [a Ea] _ _. apply (ref_any_array 0 m' a); auto.
  Qed.

  (** ** Lookup and deletion *)
  Lemma get_val_ok m f key : key_ok key -> inv m f -> exists m', get_val m key = Some (f key, m') /\ inv m' f.
  Proof.
    intros Dk [Fk J]. unfold get_val. destruct (mbody m) as [|v|a|t] eqn:Eb.
    - exists m. rewrite J. split; auto. split; auto. rewrite Eb. auto.
    - exists m. destruct J as [J1 [J2 J3]]. rewrite J3, Z.eqb_sym. split; auto. split; auto. rewrite Eb. auto.
    - destruct J as [O [V Bd]]. destruct (Z.leb_spec key (mmax m)).
      + destruct (get_ok a key O) as [a' [E [O' V']]]. rewrite E, V. eexists. split; [reflexivity|]. split; auto. simpl. split; auto. split; auto. intros k. rewrite V'. auto.
      + exists m. destruct (ptr_dec (f key)) as [->|[x Hx]]; [split; auto; split; auto; rewrite Eb; auto|]. pose proof (Bd key ltac:(congruence)). lia.
    - destruct J as [B [V Bd]]. destruct (Z.leb_spec key (mmax m)).
      + pose proof (find_ok t key Dk B) as Hf. destruct (find Z ptr num_cmp t key) as [o t'] eqn:Ef. destruct Hf as [-> [B' I']]. rewrite <- (V key Dk). eexists. split; [reflexivity|].
        split; auto. simpl. rewrite I'. split; auto. split; auto. intros k Hk. unfold tval. rewrite I'. apply (V k Hk).
      + exists m. rewrite <- (V key Dk). unfold tval. destruct (assoc (inord t) key) as [e|] eqn:Ea.
        * destruct (assoc_key t key e B Dk Ea) as [F I]. apply Bd in I. lia.
        * split; auto. split; auto. rewrite Eb. auto.
  Qed.

  Lemma del_ok m f key : key_ok key -> inv m f -> exists m', del_key m key = Some (f key, m') /\ inv m' (fset f key None).
  Proof.
    intros Dk I. pose proof I as [Fk J]. unfold del_key.
    assert (Fk' : forall k, fset f key None k <> None -> key_ok k) by (intros k; unfold fset; destruct (k =? key); [tauto|apply Fk]).
    assert (Same : f key = None -> forall k, f k = fset f key None k) by (intros Hn k; unfold fset; destruct (Z.eqb_spec k key); subst; auto).
    destruct (mbody m) as [|v|a|t] eqn:Eb.
    - exists m. rewrite J. split; auto. apply (inv_ext m f); auto.
    - destruct J as [J1 [J2 J3]]. destruct (Z.eqb_spec key (mmax m)) as [->|N].
      + eexists. rewrite J3, Z.eqb_refl. split; [reflexivity|]. split; auto. simpl. intros k. unfold fset. rewrite J3. destruct (k =? mmax m); auto.
      + exists m. assert (Hn : f key = None) by (rewrite J3; destruct (Z.eqb_spec key (mmax m)); tauto). rewrite Hn. split; auto. apply (inv_ext m f); auto.
    - destruct J as [O [V Bd]]. destruct (Z.ltb_spec (mmax m) key) as [L|L].
      + assert (Hn : f key = None) by (destruct (ptr_dec (f key)) as [->|[x Hx]]; auto; pose proof (Bd key ltac:(congruence)); lia). exists m. rewrite Hn. split; auto. apply (inv_ext m f); auto.
      + destruct (get_ok a key O) as [a' [E [O' V']]]. rewrite E, V. destruct (f key) as [x|] eqn:Fx.
        * destruct (set_ok a' key None O') as [a2 [E2 [O2 V2]]]. rewrite E2. cbn [mcount].
          set (m1 := {| mbody := BArray a2; mcount := mcount m - 1; mmin := mmin m; mmax := mmax m |}).
          assert (I1 : inv m1 (fset f key None)).
          { split; auto. simpl. split; auto. split; [intros k; rewrite V2; unfold fset; rewrite V', V; auto|]. intros k Hk. unfold fset in Hk. destruct (k =? key); [tauto|]. apply Bd. auto. }
          destruct (switch_to_tree (mmin m) (mmax m) (mmax m) (mcount m - 1)).
          -- destruct (array_to_tree_ok m1 _ I1 (ex_intro _ a2 eq_refl)) as [m2 [E3 [I3 _]]]. rewrite E3. eauto.
          -- eauto.
        * eexists. split; [reflexivity|]. eapply inv_ext; [apply Same; auto|]. split; auto. simpl. split; auto. split; auto. intros k. rewrite V'. auto.
    - destruct J as [B [V Bd]]. destruct (extract_ok t key Dk B) as [t' [E [B' V']]]. rewrite E.
      assert (Sub : forall e, In e (inord t') -> In e (inord t) /\ fst e <> key).
      { intros e He. apply in_iff in He; auto. destruct He as [De He]. rewrite V' in He by auto. destruct (Z.eqb_spec (fst e) key); [discriminate|]. split; auto. apply in_iff; auto. }
      assert (Vt : forall k, key_ok k -> tval t' k = fset f key None k).
      { intros k Hk. unfold tval, fset. rewrite V' by auto. destruct (k =? key); auto. apply (V k Hk). }
      destruct (assoc (inord t) key) as [[k v]|] eqn:Ea.
      + destruct (assoc_key t key _ B Dk Ea) as [F Ik]. simpl in F. subst k.
        assert (Hv : f key = v) by (rewrite <- (V key Dk); unfold tval; rewrite Ea; auto). rewrite Hv.
        destruct (Z.eqb_spec key (mmax m)) as [Em|Nm].
        * set (mx := match max_node Z ptr t' with Some (k', _) => k' | None => mmin m end).
          set (m1 := {| mbody := BTree t'; mcount := mcount m - 1; mmin := mmin m; mmax := mx |}).
          assert (I1 : inv m1 (fset f key None)).
          { split; auto. simpl. split; auto. split; auto. intros e He. split; [apply Bd, Sub; auto|]. unfold mx.
            destruct (max_node_spec t') as [em [Ae [E1 E2]]]; [intros Ez; rewrite Ez in He; destruct He|]. rewrite E1. destruct em as [km vm].
            rewrite E2 in He. destruct B' as [S' D']. rewrite E2 in S', D'. apply sorted_app in S'. destruct S' as [_ [_ S']]. apply in_app_or in He. destruct He as [He|[<-|[]]]; [|simpl; lia].
            pose proof (S' e (km, vm) He (or_introl eq_refl)) as H. unfold lt in H. simpl in H.
            rewrite num_cmp_z in H; [assert (fst e < km) by exact H; lia| |]; [apply D'; apply in_or_app; auto|apply (D' (km, vm)); apply in_or_app; simpl; auto]. }
          fold mx. fold m1. destruct (switch_to_array (mmin m) mx mx (mcount m1)).
          -- destruct (tree_to_array_ok m1 _ t' I1 eq_refl) as [m2 [a2 [E3 [I3 _]]]]. fold m1. rewrite E3. exists m2. split; [reflexivity|exact I3].
          -- exists m1. split; [reflexivity|exact I1].
        * eexists. split; [reflexivity|]. split; auto. simpl. split; auto. split; auto. intros e He. apply Bd, Sub. auto.
      + assert (Hn : f key = None) by (rewrite <- (V key Dk); unfold tval; rewrite Ea; auto). rewrite Hn. eexists. split; [reflexivity|].
        split; auto. simpl. split; auto. split; auto. intros e He. apply Bd, Sub. auto.
  Qed.

  (** ** Iteration *)
  Definition increasing (l : list (Z * A)) : Prop := forall i j a b, (i < j)%nat -> nth_error l i = Some a -> nth_error l j = Some b -> fst a < fst b.
  Lemma increasing_cons e l : increasing l -> (forall x, In x l -> fst e < fst x) -> increasing (e :: l).
  Proof.
    intros I H [|i] [|j] a b L Ha Hb; try lia.
    - simpl in *. inversion Ha; subst. apply H. apply nth_error_In in Hb. auto.
    - simpl in *. apply (I i j); auto. lia.
  Qed.
  Lemma increasing_nil : increasing [].
  Proof. intros [|i] j a b _ Ha; discriminate. Qed.

  Fixpoint seqvals (f : Z -> ptr) (cnt : nat) (i : Z) : list (Z * A) :=
    match cnt with O => [] | S c => match f i with Some v => (i, v) :: seqvals f c (i + 1) | None => seqvals f c (i + 1) end end.
  Lemma seqvals_in f k v : forall cnt i, In (k, v) (seqvals f cnt i) <-> i <= k < i + Z.of_nat cnt /\ f k = Some v.
  Proof.
    induction cnt as [|c IH]; intros i; [simpl; lia|]. cbn [seqvals]. destruct (f i) as [w|] eqn:E.
    - simpl In. rewrite IH. split.
      + intros [H|[H1 H2]]; [inversion H; subst; split; auto; lia|split; auto; lia].
      + intros [H1 H2]. destruct (Z.eq_dec i k) as [->|N]; [left; congruence|right; split; auto; lia].
    - rewrite IH. split; intros [H1 H2]; split; auto; try lia. destruct (Z.eq_dec i k) as [->|N]; [congruence|lia].
  Qed.
  Lemma seqvals_inc f : forall cnt i, increasing (seqvals f cnt i).
  Proof.
    induction cnt as [|c IH]; intros i; [apply increasing_nil|]. cbn [seqvals]. destruct (f i) as [w|] eqn:E; auto.
    apply increasing_cons; auto. intros [k v] H. apply seqvals_in in H. simpl. lia.
  Qed.

  Lemma array_next_ok f : forall cnt i a, ra_ok a -> (forall k, ra_val a k = f k) -> exists r i' a', array_next cnt i a = Some (r, i', a') /\ ra_ok a' /\ (forall k, ra_val a' k = f k) /\
    match r with
    | None => seqvals f cnt i = []
    | Some e => i < i' <= i + Z.of_nat cnt /\ seqvals f cnt i = e :: seqvals f (Z.to_nat (i + Z.of_nat cnt - i')) i'
    end.
  Proof.
    induction cnt as [|c IH]; intros i a O V; [exists None, (i + 1), a; auto|]. cbn [array_next seqvals].
    destruct (get_ok a i O) as [a1 [E [O1 V1]]]. rewrite E, V. destruct (f i) as [w|] eqn:Ef.
    - exists (Some (i, w)), (i + 1), a1. split; auto. split; auto. split; [intros k; rewrite V1; auto|]. split; [lia|]. f_equal. f_equal. lia.
    - destruct (IH (i + 1) a1 O1) as [r [i' [a' [E2 [O2 [V2 R]]]]]]; [intros k; rewrite V1; auto|]. exists r, i', a'. split; auto. split; auto. split; auto.
      destruct r; auto. destruct R as [R1 R2]. split; [lia|]. rewrite R2. f_equal. f_equal. lia.
  Qed.
  Lemma iter_array_ok f u : forall n m a c, inv m f -> mbody m = BArray a -> (Z.to_nat (u + 1 - c) < n)%nat ->
    exists m', iter_all n m {| iupper := u; iadmin := ICurrent c |} = Some (seqvals f (Z.to_nat (u + 1 - c)) c, m') /\ inv m' f.
  Proof.
    induction n as [|n IH]; intros m a c I Eb L; [lia|]. pose proof I as [Fk J]. rewrite Eb in J. destruct J as [O [V Bd]]. cbn [iter_all]. unfold iter_next. rewrite Eb. cbn [iadmin iupper].
    destruct (array_next_ok f (Z.to_nat (u + 1 - c)) c a O V) as [r [i' [a' [E2 [O2 [V2 R]]]]]]. rewrite E2.
    set (m1 := {| mbody := BArray a'; mcount := mcount m; mmin := mmin m; mmax := mmax m |}).
    assert (I1 : inv m1 f) by (split; auto; simpl; auto). destruct r as [e|].
    - destruct R as [R1 R2]. destruct (IH m1 a' i' I1 eq_refl) as [m2 [E3 I3]]; [lia|]. rewrite E3, R2. exists m2. split; auto. f_equal. f_equal. f_equal. f_equal. lia.
    - rewrite R. eauto.
  Qed.

  Fixpoint tvals (u : Z) (es : list (Z * ptr)) : list (Z * A) :=
    match es with
    | [] => []
    | (k, v) :: r => if u <? k then [] else match v with Some x => (k, x) :: tvals u r | None => tvals u r end
    end.
  Lemma tree_next_ok u : forall n st, noleaf st -> (length (stkord st) < n)%nat -> exists r st', tree_next n u st = Some (r, st') /\
    match r with
    | None => tvals u (stkord st) = []
    | Some e => noleaf st' /\ tvals u (stkord st) = e :: tvals u (stkord st') /\ (length (stkord st') < length (stkord st))%nat
    end.
  Proof.
    induction n as [|n IH]; intros st N L; [lia|]. cbn [tree_next]. destruct st as [|[|l k v r] st].
    - exists None, []. auto.
    - exfalso. apply (N Leaf (or_introl eq_refl)). auto.
    - cbn [trav_next]. destruct (push_left_spec r st) as [E N']; [intros t Ht; apply N; right; auto|]. cbn [SplayProofs.stkord tvals].
      destruct (u <? k) eqn:Eu; [eexists; eexists; split; [reflexivity|reflexivity]|].
      cbn [SplayProofs.stkord length] in L. rewrite <- E in L |- *. destruct v as [x|].
      + eexists. eexists. split; [reflexivity|]. simpl. split; auto.
      + destruct (IH _ N') as [r' [st' [E2 R]]]; [lia|]. exists r', st'. split; auto. destruct r'; auto. destruct R as [R1 [R2 R3]]. split; auto. split; auto. simpl. lia.
  Qed.
  Lemma iter_tree_ok f u t : forall n m st, inv m f -> mbody m = BTree t -> noleaf st -> (length (stkord st) < n)%nat -> (length (stkord st) <= tsize Z ptr t)%nat ->
    exists m', iter_all n m {| iupper := u; iadmin := IStack st |} = Some (tvals u (stkord st), m') /\ inv m' f.
  Proof.
    induction n as [|n IH]; intros m st I Eb N L L2; [lia|]. cbn [iter_all]. unfold iter_next. rewrite Eb. cbn [iadmin iupper].
    destruct (tree_next_ok u (S (tsize Z ptr t)) st N) as [r [st' [E2 R]]]; [lia|]. rewrite E2. destruct r as [e|].
    - destruct R as [R1 [R2 R3]]. destruct (IH m st' I Eb R1) as [m' [E3 I3]]; try lia. rewrite E3, R2. eauto.
    - rewrite R. eauto.
  Qed.
  Lemma tvals_in u k v : forall es, sorted num_cmp es -> domain key_ok es -> (In (k, v) (tvals u es) <-> k <= u /\ In (k, Some v) es).
  Proof.
    induction es as [|[k' w] es IH]; intros S D; [simpl; tauto|]. simpl in S. destruct S as [S1 S2]. assert (D2 : domain key_ok es) by (intros e He; apply D; simpl; auto).
    assert (Dk : key_ok k') by (apply (D (k', w)); simpl; auto).
    assert (Gt : forall e, In e es -> k' < fst e).
    { intros e He. pose proof (S1 e He) as H. unfold lt in H. simpl in H. rewrite num_cmp_z in H; auto. }
    cbn [tvals]. destruct (Z.ltb_spec u k') as [Lu|Lu].
    - split; [intros []|]. intros [H1 [H2|H2]]; [inversion H2; lia|]. apply Gt in H2. simpl in H2. lia.
    - destruct w as [x|]; simpl In; rewrite IH by auto.
      + split; [intros [H|[H1 H2]]; [inversion H; subst; split; auto; lia|auto]|]. intros [H1 [H2|H2]]; [left; congruence|right; auto].
      + split; [tauto|]. intros [H1 [H2|H2]]; [discriminate|auto].
  Qed.
  Lemma tvals_inc u : forall es, sorted num_cmp es -> domain key_ok es -> increasing (tvals u es).
  Proof.
    induction es as [|[k' w] es IH]; intros S D; [apply increasing_nil|]. simpl in S. destruct S as [S1 S2]. assert (D2 : domain key_ok es) by (intros e He; apply D; simpl; auto).
    assert (Dk : key_ok k') by (apply (D (k', w)); simpl; auto).
    cbn [tvals]. destruct (u <? k'); [apply increasing_nil|]. destruct w as [x|]; auto. apply increasing_cons; auto. intros [k v] H. apply tvals_in in H; auto. destruct H as [_ H].
    pose proof (S1 _ H) as X. unfold lt in X. simpl in X. rewrite num_cmp_z in X; auto. apply (D2 _ H).
  Qed.
  Lemma limited_eq limit : forall t st, key_ok limit -> (forall e, In e (inord t) -> key_ok (fst e)) ->
    limited_init Z ptr Z.compare t limit st = limited_init Z ptr num_cmp t limit st.
  Proof.
    induction t as [|l IHl k v r IHr]; intros st Dl D; auto. cbn [limited_init]. cbn [SplayProofs.inord] in D.
    rewrite num_cmp_z; auto; [|apply (D (k, v)); apply in_or_app; simpl; auto].
    destruct (k ?= limit); auto; [apply IHr|apply IHl]; auto; intros e He; apply D; apply in_or_app; simpl; auto.
  Qed.
  Lemma filter_sorted (P : Z * ptr -> bool) : forall es, sorted num_cmp es -> sorted num_cmp (filter P es).
  Proof.
    induction es as [|e es IH]; simpl; auto. intros [S1 S2]. destruct (P e); simpl; auto. split; auto. intros x Hx. apply filter_In in Hx. apply S1. tauto.
  Qed.
  Lemma filter_len (P : Z * ptr -> bool) : forall es, (length (filter P es) <= length es)%nat.
  Proof. induction es as [|e es IH]; simpl; auto. destruct (P e); simpl; lia. Qed.

  Lemma iterate_ok m f lower upper : key_ok lower -> inv m f -> exists l m', iterate m lower upper = Some (l, m') /\ range_of f lower upper l /\ inv m' f.
  Proof.
    intros Dl I. unfold iterate, iter_alloc, iter_fuel. pose proof I as [Fk J]. destruct (mbody m) as [|v|a|t] eqn:Eb.
    - cbn [iter_all]. unfold iter_next. rewrite Eb. exists [], m. split; auto. split; auto. split; [|apply increasing_nil]. intros k v. rewrite J. split; [intros []|intros [_ H]; discriminate].
    - destruct J as [J1 [J2 J3]]. remember 1%nat as n1 eqn:E1. cbn [iter_all]. unfold iter_next. rewrite Eb. cbn [iadmin iupper].
      assert (N : forall k v', f k = Some v' -> k = mmax m) by (intros k v'; rewrite J3; destruct (Z.eqb_spec k (mmax m)); [auto|discriminate]).
      destruct ((lower <=? mmax m) && (mmax m <=? upper)) eqn:C; cbn [negb].
      + destruct v as [x|].
        * subst n1. cbn [iter_all]. unfold iter_next. rewrite Eb. cbn [iadmin iupper]. exists [(mmax m, x)], m. split; auto. split; auto. split; [|apply increasing_cons; [apply increasing_nil|intros ? []]].
          intros k v'. simpl. split.
          -- intros [H|[]]. inversion H; subst. split; [lia|]. rewrite J3, Z.eqb_refl. auto.
          -- intros [H1 H2]. left. pose proof (N _ _ H2). subst k. rewrite J3, Z.eqb_refl in H2. congruence.
        * exists [], m. split; auto. split; auto. split; [|apply increasing_nil]. intros k v'. split; [intros []|]. intros [_ H]. rewrite J3 in H. destruct (k =? mmax m); discriminate.
      + exists [], m. split; auto. split; auto. split; [|apply increasing_nil]. intros k v'. split; [intros []|]. intros [H1 H]. pose proof (N _ _ H). subst k. lia.
    - destruct J as [O [V Bd]]. destruct (iter_array_ok f (Z.min upper (mmax m)) (2 + Z.to_nat (mmax m + 1 - lower)) m a lower I Eb) as [m' [E I']]; [lia|].
      rewrite E. eexists. exists m'. split; [reflexivity|]. split; auto. split; [|apply seqvals_inc]. intros k v. rewrite seqvals_in. split; intros [H1 H2]; split; auto; try lia.
      pose proof (Bd k ltac:(congruence)). lia.
    - destruct J as [B [V Bd]]. rewrite limited_eq by (auto; apply B). destruct (limited_spec num_cmp key_ok KO lower t Dl B []) as [E N]; [intros ? []|].
      cbn [SplayProofs.stkord] in E. rewrite app_nil_r in E.
      pose proof (filter_len (at_least num_cmp lower) (inord t)) as FL. rewrite <- E, inord_length in FL.
      destruct (iter_tree_ok f (Z.min upper (mmax m)) t (2 + tsize Z ptr t) m _ I Eb N) as [m' [E2 I2]]; try lia.
      rewrite E2, E. eexists. exists m'. split; [reflexivity|]. split; auto.
      destruct B as [S D]. assert (S' := filter_sorted (at_least num_cmp lower) _ S).
      assert (D' : domain key_ok (filter (at_least num_cmp lower) (inord t))) by (intros e He; apply filter_In in He; apply D; tauto).
      split; [|apply tvals_inc; auto]. intros k v. rewrite tvals_in, filter_In by auto. unfold at_least. simpl. split.
      + intros [H1 [H2 H3]]. assert (Dk : key_ok k) by (apply (D _ H2)). rewrite num_cmp_z in H3 by auto. rewrite <- (V k Dk). rewrite (in_tval t k (Some v)); [|split; auto|auto]. split; auto.
        destruct (Z.compare_spec k lower); try discriminate; lia.
      + intros [H1 H2]. assert (Dk : key_ok k) by (apply Fk; congruence). rewrite <- (V k Dk) in H2. apply tval_in in H2; [|split; auto|auto].
        pose proof (Bd _ H2) as Bk. simpl in Bk. split; [lia|]. split; auto. rewrite num_cmp_z by auto. destruct (Z.compare_spec k lower); auto. lia.
  Qed.

  (** ** Every operation *)
  Lemma step_ok m f o : iop_ok o -> inv m f -> exists a m' f', imap_step m o = Some (a, m') /\ fmap_step f o a f' /\ inv m' f'.
  Proof.
    intros Ok I. destruct o as [k|k v|k|k|lower upper]; cbn [imap_step iop_ok fmap_step] in *.
    - destruct (get_val_ok m f k Ok I) as [m' [E I']]. rewrite E. exists (APtr (f k)), m', f. simpl. auto.
    - unfold assign. destruct (get_ref_ok m f k Ok I) as [r [m1 [E R]]]. rewrite E. destruct (reffed_ok m1 r f k Ok R) as [_ [_ W]]. destruct (W v) as [m' [E2 I2]]. rewrite E2.
      exists AUnit, m', (fset f k v). simpl. auto.
    - destruct (get_ref_ok m f k Ok I) as [r [m1 [E R]]]. rewrite E. destruct (reffed_ok m1 r f k Ok R) as [I1 [Rd W]]. rewrite Rd. exists (APtr (f k)), m1, f. simpl. auto.
    - destruct (del_ok m f k Ok I) as [m' [E I']]. rewrite E. exists (APtr (f k)), m', (fset f k None). simpl. auto.
    - destruct (iterate_ok m f lower upper Ok I) as [l [m' [E [R I']]]]. rewrite E. exists (APairs l), m', f. simpl. split; auto. split; eauto.
  Qed.
End T.

Lemma run_ok {A} : forall (os : list (iop A)) m f, Forall iop_ok os -> inv m f -> exists answers m', Queue.run imap_step m os = Some (answers, m') /\ behaves f os answers.
Proof.
  induction os as [|o os IH]; intros m f F I; [exists [], m; simpl; auto|]. inversion F as [|x y F1 F2]; subst. destruct (step_ok m f o F1 I) as [a [m' [f' [E [S I']]]]].
  destruct (IH m' f' F2 I') as [l [m2 [E2 B]]]. exists (a :: l), m2. cbn [Queue.run]. rewrite E, E2. split; auto. simpl. eauto.
Qed.
Lemma alloc_inv {A} : inv (imap_alloc (A := A)) (fun _ => None).
Proof. split; [congruence|]. simpl. auto. Qed.
