(** * Property C26: splay trees are finite maps. Model and specification are in Splay.v. *)
From Verif Require Import Splay SplayProofs.
From Coq Require Import ZifyBool.

(** C26: whatever the sequence of operations, the answers are those of the finite map. *)
Theorem C26_every_history_answers_like_a_finite_map :
  forall (K V : Type) (kcmp : K -> K -> comparison) (dom : K -> Prop), key_order K kcmp dom ->
    forall os : list (op K V), (forall o, In o os -> dom (okey K V o)) ->
      fst (run K V (tree_step K V kcmp) Leaf os) = fst (run K V (spec_step K V kcmp) (fempty K V) os).
Proof. intros K V kcmp dom KO os D. apply (run_rel kcmp dom KO os); auto. apply leaf_rel. Qed.

(** C26: after any history, an in-order traversal ends, yields the keys strictly increasing (hence each once), and yields exactly
    the entries of the finite map; the non-restructuring lookup and the node count agree with it. *)
Theorem C26_traversal_is_the_sorted_content :
  forall (K V : Type) (kcmp : K -> K -> comparison) (dom : K -> Prop), key_order K kcmp dom ->
    forall os : list (op K V), (forall o, In o os -> dom (okey K V o)) ->
      let t := snd (run K V (tree_step K V kcmp) Leaf os) in
      let m := snd (run K V (spec_step K V kcmp) (fempty K V) os) in
      exists es, trav_all K V (S (tsize K V t)) (trav_init K V t) = Some es /\
        (forall i j a b, i < j -> nth_error es i = Some a -> nth_error es j = Some b -> kcmp (fst a) (fst b) = Lt) /\
        (forall x, dom x -> find_binary K V kcmp t x = m x) /\
        (forall e, In e es <-> dom (fst e) /\ m (fst e) = Some e) /\
        exists pre, walk K V (2 + 3 * tsize K V t) [t] = Some pre /\ length pre = length es /\ forall e, In e pre <-> In e es.
Proof.
  intros K V kcmp dom KO os D t m.
  destruct (run_rel kcmp dom KO os Leaf (fempty K V) D (leaf_rel kcmp dom)) as [_ [[HS HD] HA]]. fold t m in HS, HD, HA.
  exists (inord t). split; [|split; [|split; [|split]]].
  - unfold trav_init. destruct (push_left_spec t []) as [E N]; [intros ? []|]. rewrite trav_all_spec; auto.
    + rewrite E. simpl. rewrite app_nil_r. auto.
    + rewrite E. simpl. rewrite app_nil_r, inord_length. lia.
  - clear - HS. revert HS. generalize (inord t). intros l. induction l as [|a l IH]; intros HS i j x y L Hi Hj.
    + destruct i; discriminate.
    + simpl in HS. destruct HS as [H1 H2]. destruct j as [|j]; [lia|]. simpl in Hj. destruct i as [|i]; simpl in Hi.
      * injection Hi as <-. apply H1. eapply nth_error_In; eauto.
      * apply (IH H2 i j); auto. lia.
  - intros x Dx. rewrite (find_binary_spec kcmp dom KO) by (auto; split; auto). apply HA; auto.
  - intros e. split.
    + intros He. assert (De := HD e He). split; auto. rewrite <- HA by auto. apply (in_assoc kcmp dom KO); auto.
    + intros [De He]. rewrite <- HA in He by auto. apply (assoc_in kcmp dom KO) in He; tauto.
  - exists (preord t). rewrite walk_spec; [|simpl; lia]. simpl. rewrite app_nil_r. split; auto.
    rewrite preord_length, inord_length. split; auto. apply preord_in.
Qed.

(** C26: iteration from a lower limit (numeric trees) yields exactly the entries at or above the limit, in order; the maximum is found. *)
Theorem C26_limited_traversal_and_maximum :
  forall (K V : Type) (kcmp : K -> K -> comparison) (dom : K -> Prop), key_order K kcmp dom ->
    forall (os : list (op K V)) limit, (forall o, In o os -> dom (okey K V o)) -> dom limit ->
      let t := snd (run K V (tree_step K V kcmp) Leaf os) in
      exists es, trav_all K V (S (tsize K V t)) (trav_init K V t) = Some es /\
        trav_all K V (S (tsize K V t)) (limited_init K V kcmp t limit []) =
          Some (filter (fun e => match kcmp (fst e) limit with Lt => false | _ => true end) es) /\
        max_node K V t = last (map Some es) None.
Proof.
  intros K V kcmp dom KO os limit D Dl t.
  destruct (run_rel kcmp dom KO os Leaf (fempty K V) D (leaf_rel kcmp dom)) as [_ [HB _]]. fold t in HB.
  exists (inord t). split; [|split].
  - unfold trav_init. destruct (push_left_spec t []) as [E N]; [intros ? []|]. rewrite trav_all_spec; auto.
    + rewrite E. simpl. rewrite app_nil_r. auto.
    + rewrite E. simpl. rewrite app_nil_r, inord_length. lia.
  - destruct (limited_spec kcmp dom KO limit t Dl HB []) as [E N]; [intros ? []|]. simpl in E. rewrite app_nil_r in E.
    rewrite trav_all_spec; auto; [rewrite E; reflexivity|]. rewrite E.
    assert (HF : forall (P : K * V -> bool) l, length (filter P l) <= length l) by (intros P l; induction l; simpl; auto; destruct (P a); simpl; lia).
    specialize (HF (at_least kcmp limit) (inord t)). rewrite inord_length in HF. unfold at_least in *. lia.
  - destruct t as [|l k v r] eqn:Et; auto. destruct (max_node_spec (Node l k v r)) as [e [A [E1 E2]]]; [discriminate|].
    rewrite E1, E2, map_app. simpl. rewrite last_last. auto.
Qed.

(** ** The comparisons used by the program are such orders *)
Theorem C26_pointer_keys : key_order Z pcmp (fun _ => True).
Proof.
  unfold pcmp. split; intros.
  - rewrite Z.compare_eq_iff. tauto.
  - rewrite (Z.compare_antisym b a). auto.
  - rewrite Z.compare_lt_iff in *. lia.
Qed.
(** Numeric trees compare by subtracting 64-bit numbers; that is right as long as no two keys are 2^63 or more apart. *)
Theorem C26_numeric_keys : key_order Z num_cmp (fun z => (- 2 ^ 62 <= z < 2 ^ 62)%Z).
Proof.
  assert (E : forall a b, (- 2 ^ 62 <= a < 2 ^ 62)%Z -> (- 2 ^ 62 <= b < 2 ^ 62)%Z -> num_cmp a b = Z.compare a b).
  { intros a b Ha Hb. unfold num_cmp, wrap64. rewrite Z.mod_small by lia.
    replace (a - b + 2 ^ 63 - 2 ^ 63)%Z with (a - b)%Z by lia.
    destruct (Z.compare_spec a b), (Z.compare_spec (a - b) 0); auto; lia. }
  split; intros; rewrite ?E in * by auto.
  - rewrite Z.compare_eq_iff. tauto.
  - rewrite (Z.compare_antisym b a). auto.
  - rewrite Z.compare_lt_iff in *. lia.
Qed.
Lemma zc_lt a b : Z.compare a b = Lt <-> (a < b)%Z. Proof. apply Z.compare_lt_iff. Qed.
Lemma dbl_cmp_lex p1 i1 p2 i2 : dbl_cmp p1 i1 p2 i2 = match Z.compare p1 p2 with Eq => Z.compare i1 i2 | c => c end.
Proof.
  unfold dbl_cmp, pcmp. destruct (Z.compare p1 p2); auto. destruct (Z.compare_spec i1 i2), (Z.compare_spec (i1 - i2) 0); auto; lia.
Qed.
Theorem C26_quadruple_keys : key_order (Z * Z * Z * Z) quad_cmp (fun _ => True).
Proof.
  split.
  - intros [[[p1 i1] p2] i2] [[[q1 j1] q2] j2] _ _. unfold quad_cmp. rewrite !dbl_cmp_lex.
    destruct (Z.compare_spec p1 q1), (Z.compare_spec i1 j1), (Z.compare_spec p2 q2), (Z.compare_spec i2 j2); subst; split; intros E; try discriminate; auto; injection E; intros; subst; lia.
  - intros [[[p1 i1] p2] i2] [[[q1 j1] q2] j2] _ _. unfold quad_cmp. rewrite !dbl_cmp_lex.
    rewrite (Z.compare_antisym q1 p1), (Z.compare_antisym j1 i1), (Z.compare_antisym q2 p2), (Z.compare_antisym j2 i2).
    destruct (Z.compare q1 p1), (Z.compare j1 i1), (Z.compare q2 p2), (Z.compare j2 i2); auto.
  - intros [[[p1 i1] p2] i2] [[[q1 j1] q2] j2] [[[r1 k1] r2] k2] _ _ _. unfold quad_cmp. rewrite !dbl_cmp_lex.
    destruct (Z.compare_spec p1 q1), (Z.compare_spec q1 r1), (Z.compare_spec p1 r1); try discriminate; try lia; auto;
    destruct (Z.compare_spec i1 j1), (Z.compare_spec j1 k1), (Z.compare_spec i1 k1); try discriminate; try lia; auto;
    destruct (Z.compare_spec p2 q2), (Z.compare_spec q2 r2), (Z.compare_spec p2 r2); try discriminate; try lia; auto;
    destruct (Z.compare_spec i2 j2), (Z.compare_spec j2 k2), (Z.compare_spec i2 k2); try discriminate; try lia; auto.
Qed.
Lemma args_cmp_eq : forall a b, length a = length b -> (args_cmp a b = Eq <-> a = b).
Proof.
  induction a as [|x a IH]; intros [|y b] L; simpl in *; try discriminate; [tauto|].
  unfold pcmp. destruct (Z.compare_spec x y).
  - subst. rewrite IH by lia. split; [intros ->; auto|intros E; injection E; auto].
  - split; [discriminate|intros E; injection E; intros; subst; lia].
  - split; [discriminate|intros E; injection E; intros; subst; lia].
Qed.
Lemma args_cmp_anti : forall a b, args_cmp a b = CompOpp (args_cmp b a).
Proof.
  induction a as [|x a IH]; intros [|y b]; simpl; auto. unfold pcmp. rewrite (Z.compare_antisym y x).
  destruct (Z.compare y x); simpl; auto.
Qed.
Lemma args_cmp_trans : forall a b c, length a = length b -> length b = length c -> args_cmp a b = Lt -> args_cmp b c = Lt -> args_cmp a c = Lt.
Proof.
  induction a as [|x a IH]; intros [|y b] [|z c] L1 L2; simpl in *; try discriminate. unfold pcmp.
  destruct (Z.compare_spec x y), (Z.compare_spec y z), (Z.compare_spec x z); try discriminate; try lia; auto. intros. apply (IH b c); auto.
Qed.
Theorem C26_term_cell_keys : key_order (Z * list Z) top_cmp (fun _ => True).
Proof.
  assert (SUB : forall a b, Z.compare (a - b) 0 = Z.compare a b).
  { intros. destruct (Z.compare_spec a b), (Z.compare_spec (a - b) 0); auto; lia. }
  split.
  - intros [f a] [g b] _ _. unfold top_cmp. simpl. rewrite SUB. destruct (Z.compare_spec f g).
    + subst. destruct (Nat.compare_spec (length a) (length b)).
      * rewrite args_cmp_eq by auto. split; [intros ->; auto|intros E; injection E; auto].
      * split; [discriminate|intros E; injection E; intros; subst; lia].
      * split; [discriminate|intros E; injection E; intros; subst; lia].
    + split; [discriminate|intros E; injection E; intros; subst; lia].
    + split; [discriminate|intros E; injection E; intros; subst; lia].
  - intros [f a] [g b] _ _. unfold top_cmp. simpl. rewrite !SUB. rewrite (Z.compare_antisym g f), (Nat.compare_antisym (length b) (length a)), (args_cmp_anti a b).
    destruct (Z.compare g f), (Nat.compare (length b) (length a)); auto.
  - intros [f a] [g b] [h c] _ _ _. unfold top_cmp. simpl. rewrite !SUB.
    destruct (Z.compare_spec f g), (Z.compare_spec g h), (Z.compare_spec f h); try discriminate; try lia; auto;
    destruct (Nat.compare_spec (length a) (length b)), (Nat.compare_spec (length b) (length c)), (Nat.compare_spec (length a) (length c)); try discriminate; try lia; auto.
    intros. apply (args_cmp_trans a b c); auto.
Qed.

(** Finding: beyond that range a stored key is not found again. *)
Theorem C26_numeric_trees_far_keys_refuted :
  exists os : list (op Z unit), (forall o, In o os -> (- 2 ^ 63 <= okey Z unit o < 2 ^ 63)%Z) /\
    fst (run Z unit (tree_step Z unit num_cmp) Leaf os) <> fst (run Z unit (spec_step Z unit num_cmp) (fempty Z unit) os).
Proof.
  exists [OStore _ _ 0%Z tt; OStore _ _ (2 ^ 62)%Z tt; OStore _ _ (- 2 ^ 62 - 1)%Z tt; OFind _ _ (2 ^ 62)%Z; OFind _ _ 0%Z; OFind _ _ (- 2 ^ 62 - 1)%Z].
  split.
  - simpl. intros o [<-|[<-|[<-|[<-|[<-|[<-|[]]]]]]]; simpl; lia.
  - vm_compute. discriminate.
Qed.

(** ** Pointer sets *)
Notation pbst := (bst (V := unit) pcmp (fun _ => True)).
Definition pset (t : ptree) : Prop := exists os, t = snd (run Z unit (tree_step Z unit pcmp) Leaf os).

Lemma pset_bst t : pset t -> pbst t.
Proof. intros [os ->]. apply (run_rel pcmp (fun _ => True) C26_pointer_keys os Leaf (fempty Z unit)); auto. apply leaf_rel. Qed.
Lemma pbst_rel t : pbst t -> rel pcmp (fun _ => True) t (assoc pcmp (inord t)).
Proof. intros H. split; auto. intros x _. auto. Qed.
Lemma pmem_in t x : pbst t -> (pmem t x <-> exists u, In (x, u) (inord t)).
Proof.
  intros HB. unfold pmem. rewrite (find_binary_spec pcmp (fun _ => True) C26_pointer_keys) by auto. destruct HB as [HS HD]. split.
  - intros H. destruct (assoc pcmp (inord t) x) as [[k u]|] eqn:E; [|congruence].
    apply (assoc_in pcmp (fun _ => True) C26_pointer_keys) in E; auto. destruct E as [E1 E2]. simpl in E2. subst. eauto.
  - intros [u Hu] E. apply (in_assoc pcmp (fun _ => True) C26_pointer_keys) in Hu; auto. simpl in Hu. congruence.
Qed.

Lemma store_set t k : pbst t -> let (b, t') := store Z unit pcmp t k tt in pbst t' /\ (forall x, pmem t' x <-> pmem t x \/ x = k) /\ (b = true <-> ~ pmem t k).
Proof.
  intros HB. pose proof (insert_rel pcmp (fun _ => True) C26_pointer_keys t _ k tt I (pbst_rel t HB)) as H. unfold store.
  destruct (insert Z unit pcmp t k tt) as [o t']. destruct H as [-> [HB' HA]]. split; auto.
  assert (MT : forall x, pmem t x <-> assoc pcmp (inord t) x <> None).
  { intros x. unfold pmem. rewrite (find_binary_spec pcmp (fun _ => True) C26_pointer_keys) by auto. tauto. }
  split.
  - intros x. unfold pmem at 1. rewrite (find_binary_spec pcmp (fun _ => True) C26_pointer_keys) by auto. rewrite HA by auto. rewrite MT.
    destruct (assoc pcmp (inord t) k) eqn:E.
    + split; [auto|intros [H| ->]; congruence].
    + unfold fadd, pcmp. destruct (Z.compare_spec x k); split; intros; auto; try congruence; destruct H0; auto; subst; lia.
  - rewrite MT. destruct (assoc pcmp (inord t) k); split; intros; auto; try congruence. exfalso. apply H. discriminate.
Qed.

Lemma store_list_set es : forall t, pbst t -> pbst (store_list Z unit pcmp t es) /\
  forall x, pmem (store_list Z unit pcmp t es) x <-> pmem t x \/ exists u, In (x, u) es.
Proof.
  unfold store_list. induction es as [|[k []] es IH]; intros t HB; simpl.
  - split; auto. intros x. split; auto. intros [H|[u []]]; auto.
  - pose proof (store_set t k HB) as H. destruct (store Z unit pcmp t k tt) as [b t']. destruct H as [HB' [HM _]]. simpl.
    destruct (IH t' HB') as [H1 H2]. split; auto. intros x. rewrite H2, HM. split.
    + intros [[H| ->]|[u Hu]]; eauto.
    + intros [H|[u [E|Hu]]]; eauto. injection E as <-. auto.
Qed.

Lemma pwalk_spec t : pwalk t = Some (preord t).
Proof. unfold pwalk. rewrite walk_spec; [simpl; rewrite app_nil_r; auto|simpl; lia]. Qed.
Lemma ptrav_spec t : ptrav t = Some (inord t).
Proof.
  unfold ptrav, trav_init. destruct (push_left_spec t []) as [E N]; [intros ? []|]. rewrite trav_all_spec; auto.
  - rewrite E. simpl. rewrite app_nil_r. auto.
  - rewrite E. simpl. rewrite app_nil_r, inord_length. lia.
Qed.
Lemma find_keeps t x : pbst t -> let (o, t') := find Z unit pcmp t x in pbst t' /\ (forall y, pmem t' y <-> pmem t y) /\ (o = None <-> ~ pmem t x) /\ (forall k u, o = Some (k, u) -> k = x).
Proof.
  intros HB. pose proof (find_rel pcmp (fun _ => True) C26_pointer_keys t _ x I (pbst_rel t HB)) as H.
  destruct (find Z unit pcmp t x) as [o t']. destruct H as [-> [HB' HA]]. split; auto.
  assert (MT : forall t x, pbst t -> (pmem t x <-> assoc pcmp (inord t) x <> None)).
  { intros t0 x0 H0. unfold pmem. rewrite (find_binary_spec pcmp (fun _ => True) C26_pointer_keys) by auto. tauto. }
  split; [intros y; rewrite !MT by auto; rewrite HA by auto; tauto|]. rewrite MT by auto. split.
  - destruct (assoc pcmp (inord t) x); split; intros; auto; try congruence. exfalso. apply H. discriminate.
  - intros k u E. apply (assoc_in pcmp (fun _ => True) C26_pointer_keys) in E; auto; [|apply HB]. destruct E as [_ E]. simpl in E. auto.
Qed.
Lemma extract_set t k : pbst t -> let (o, t') := extract Z unit pcmp t k in
  pbst t' /\ (forall x, pmem t' x <-> pmem t x /\ x <> k) /\ (pmem t k -> o = Some (k, tt)) /\ (pmem t k -> S (tsize Z unit t') = tsize Z unit t).
Proof.
  intros HB. pose proof (extract_rel pcmp (fun _ => True) C26_pointer_keys t _ k I (pbst_rel t HB)) as H.
  destruct (extract Z unit pcmp t k) as [o t'] eqn:Ee. destruct H as [Ho [HB' HA]]. subst o. split; auto.
  assert (MT : forall t x, pbst t -> (pmem t x <-> assoc pcmp (inord t) x <> None)).
  { intros t0 x0 H0. unfold pmem. rewrite (find_binary_spec pcmp (fun _ => True) C26_pointer_keys) by auto. tauto. }
  split; [|split].
  - intros x. rewrite !MT by auto. rewrite HA by auto. unfold fdel, pcmp. destruct (Z.compare_spec x k).
    + split; [congruence|]. intros [_ H1]. congruence.
    + split; [intros HH; split; auto; lia|tauto].
    + split; [intros HH; split; auto; lia|tauto].
  - rewrite MT by auto. intros H. destruct (assoc pcmp (inord t) k) as [[k' []]|] eqn:E; [|congruence].
    apply (assoc_in pcmp (fun _ => True) C26_pointer_keys) in E; auto; [|apply HB]. destruct E as [_ E]. simpl in E. subst. auto.
  - rewrite MT by auto. intros H. rewrite <- !inord_length.
    unfold extract in Ee. destruct t as [|l0 k0 v0 r0]; [simpl in H; congruence|].
    destruct (splay_split pcmp (fun _ => True) C26_pointer_keys (Node l0 k0 v0 r0) k I HB) as [l [k1 [v1 [r [E [B1 [I1 [A1 R1]]]]]]]]; [discriminate|].
    rewrite E in Ee. rewrite <- I1 in *. rewrite (at_key pcmp) in * by auto.
    destruct (pcmp k k1); try congruence. injection Ee as Ee.
    destruct l as [|la ka va lb].
    + subst t'. simpl. auto.
    + apply (bst_node pcmp (fun _ => True) C26_pointer_keys) in B1. destruct B1 as [Bl _].
      destruct (splay_split pcmp (fun _ => True) C26_pointer_keys (Node la ka va lb) k I Bl) as [l2 [k2 [v2 [r2 [E2 [_ [I2 [A2 R2]]]]]]]]; [discriminate|].
      rewrite E2 in Ee. subst t'.
      assert (r2 = Leaf).
      { destruct r2 as [|ra kb vb rb]; auto. exfalso.
        assert (X : In (kb, vb) (inord (Node la ka va lb))) by (rewrite <- I2; simpl; apply in_or_app; right; right; apply in_or_app; right; left; auto).
        apply A1 in X. assert (Y : In (kb, vb) (inord (Node ra kb vb rb))) by (simpl; apply in_or_app; right; left; auto).
        apply R2 in Y. congruence. }
      subst r2. cbn [inord] in I2 |- *. rewrite <- I2. rewrite ?app_length. simpl. rewrite ?app_length. simpl. rewrite ?app_length. simpl. lia.
Qed.

(** C26: copy, union, intersection, subset and equality tests of pointer sets compute what their names say, for every pair of sets. *)
Theorem C26_set_copy_and_union :
  forall a b, pset a -> pset b ->
    (exists c, ptree_copy a = Some c /\ forall x, pmem c x <-> pmem a x) /\
    (exists c, ptree_insert_tree a b = Some c /\ forall x, pmem c x <-> pmem a x \/ pmem b x) /\
    (exists r c, ptree_merge a b = Some (r, c) /\ (forall x, pmem c x <-> pmem a x \/ pmem b x) /\ (r = true <-> exists x, pmem b x /\ ~ pmem a x)).
Proof.
  intros a b Ha Hb. apply pset_bst in Ha, Hb.
  assert (PI : forall t x, pbst t -> ((exists u, In (x, u) (preord t)) <-> pmem t x)).
  { intros t x H. rewrite pmem_in by auto. split; intros [u Hu]; exists u; [apply preord_in; auto|apply preord_in; auto]. }
  split; [|split].
  - unfold ptree_copy. rewrite pwalk_spec. simpl. eexists. split; [reflexivity|]. intros x.
    destruct (store_list_set (preord a) Leaf) as [_ H]; [apply leaf_rel|]. rewrite H, PI by auto.
    split; [intros [Q|Q]; auto; exfalso; apply Q; auto|auto].
  - unfold ptree_insert_tree. rewrite pwalk_spec. simpl. eexists. split; [reflexivity|]. intros x.
    destruct (store_list_set (preord b) a Ha) as [_ H]. rewrite H, PI by auto. tauto.
  - unfold ptree_merge. rewrite pwalk_spec. simpl.
    assert (G : forall es r0 (t : ptree), pbst t -> let (r, c) := fold_left merge_step es (r0, t) in
        (forall x, pmem c x <-> pmem t x \/ exists u, In (x, u) es) /\ (r = true <-> r0 = true \/ exists x u, In (x, u) es /\ ~ pmem t x)).
    { induction es as [|[k []] es IH]; intros r0 t HB; simpl.
      - split; [intros x; split; auto; intros [Q|[u []]]; auto|split; auto; intros [Q|[x [u [[] _]]]]; auto].
      - unfold merge_step at 2. simpl. pose proof (store_set t k HB) as H. destruct (store Z unit pcmp t k tt) as [b0 t'].
        destruct H as [HB' [HM HBo]]. simpl. specialize (IH (b0 || r0) t' HB'). destruct (fold_left merge_step es (b0 || r0, t')) as [r c].
        destruct IH as [I1 I2]. split.
        + intros x. rewrite I1, HM. split.
          * intros [[Q| ->]|[u Hu]]; eauto.
          * intros [Q|[u [E|Hu]]]; eauto. injection E as <-. auto.
        + rewrite I2, orb_true_iff, HBo. split.
          * intros [[Q|Q]|[x [u [Hu Q]]]]; auto; right; [exists k, tt; auto|].
            exists x, u. split; auto. intros W. apply Q. apply HM. auto.
          * intros [Q|[x [u [[E|Hu] Q]]]]; auto.
            -- injection E as <-. auto.
            -- destruct (Z.eq_dec x k) as [->|N]; auto. right. exists x, u. split; auto. rewrite HM. intros [W|W]; auto. }
    specialize (G (preord b) false a Ha). destruct (fold_left merge_step (preord b) (false, a)) as [r c]. destruct G as [G1 G2].
    exists r, c. split; auto. split; [intros x; rewrite G1, PI by auto; tauto|]. rewrite G2. split.
    + intros [Q|[x [u [Hu Q]]]]; [discriminate|]. exists x. split; auto. apply PI; eauto.
    + intros [x [Hx Q]]. right. apply PI in Hx; auto. destruct Hx as [u Hu]. eauto.
Qed.

Theorem C26_set_intersection :
  forall a b, pset a -> pset b ->
    (exists c, ptree_intersection a b = Some c /\ forall x, pmem c x <-> pmem a x /\ pmem b x) /\
    (~ pmem a 0%Z -> exists n c, ptree_destr_intersection a b = Some (n, c) /\ (forall x, pmem c x <-> pmem a x /\ pmem b x) /\
       ptree_nodes a = Some (n + tsize Z unit c)) /\
    (exists x a', ptree_shared_element a b = Some (x, a') /\ (forall y, pmem a' y <-> pmem a y) /\
       ((pmem a x /\ pmem b x) \/ (x = 0%Z /\ forall y, ~ (pmem a y /\ pmem b y)))).
Proof.
  intros a b Ha Hb. apply pset_bst in Ha, Hb.
  assert (PI : forall t x, pbst t -> ((exists u, In (x, u) (preord t)) <-> pmem t x)).
  { intros t x H. rewrite pmem_in by auto. split; intros [u Hu]; exists u; [apply preord_in; auto|apply preord_in; auto]. }
  assert (IS : forall t k, isSome (find_binary Z unit pcmp t k) = true <-> pmem t k).
  { intros t k. unfold isSome, pmem. destruct (find_binary Z unit pcmp t k); split; congruence. }
  split; [|split].
  - unfold ptree_intersection. rewrite pwalk_spec. simpl. eexists. split; [reflexivity|]. intros x.
    destruct (store_list_set (filter (fun e => isSome (find_binary Z unit pcmp a (fst e))) (preord b)) Leaf) as [_ H]; [apply leaf_rel|].
    rewrite H. rewrite <- (PI b x Hb). split.
    + intros [Q|[u Hu]]; [exfalso; apply Q; auto|]. apply filter_In in Hu. destruct Hu as [H1 H2]. split; eauto. apply IS. auto.
    + intros [H1 [u Hu]]. right. exists u. apply filter_In. split; auto. apply IS. auto.
  - intros NZ. unfold ptree_destr_intersection.
    assert (G : forall n t tmp res, pbst t -> pbst tmp -> ~ pmem t 0%Z -> (forall x, pmem t x -> ~ pmem tmp x) -> tsize Z unit t < n ->
      exists k c, destr_inter n t b tmp res = Some (k, c) /\ (forall x, pmem c x <-> pmem tmp x \/ pmem t x /\ pmem b x) /\
        tsize Z unit t + res + tsize Z unit tmp = k + tsize Z unit c).
    { induction n as [|n IH]; intros t tmp res Bt Btmp N0 DJ HS; [lia|]. cbn [destr_inter].
      destruct t as [|l k v r].
      - simpl. exists res, tmp. split; auto. split; [|simpl; lia]. intros x. split; auto. intros [Q|[Q _]]; auto. exfalso. apply Q. auto.
      - cbn [extract_root]. pose proof (extract_set (Node l k v r) k Bt) as H. destruct (extract Z unit pcmp (Node l k v r) k) as [o t'].
        destruct H as [Bt' [HM [HO HSz]]].
        assert (Pk : pmem (Node l k v r) k).
        { apply pmem_in; auto. exists v. simpl. apply in_or_app. right. left. auto. }
        rewrite (HO Pk). specialize (HSz Pk). destruct (Z.eqb_spec k 0); [subst; contradiction|].
        assert (N0' : ~ pmem t' 0%Z) by (rewrite HM; tauto).
        destruct (isSome (find_binary Z unit pcmp b k)) eqn:Eb.
        + apply IS in Eb. pose proof (store_set tmp k Btmp) as S1.
          assert (SZ : tsize Z unit (snd (store Z unit pcmp tmp k tt)) = S (tsize Z unit tmp)).
          { unfold store. rewrite <- !inord_length. unfold insert. destruct tmp as [|tl tk tv tr]; [reflexivity|].
            destruct (splay_split pcmp (fun _ => True) C26_pointer_keys (Node tl tk tv tr) k I Btmp) as [l1 [k1 [v1 [r1 [E1 [B1 [I1 [A1 R1]]]]]]]]; [discriminate|].
            rewrite E1, <- I1. destruct (pcmp k k1) eqn:Ek; simpl; rewrite ?app_length; simpl; rewrite ?app_length; simpl; try lia.
            exfalso. apply (DJ k Pk). apply pmem_in; auto. unfold pcmp in Ek. apply Z.compare_eq in Ek. subst k1. exists v1. rewrite <- I1. simpl. apply in_or_app. right. left. auto. }
          destruct (store Z unit pcmp tmp k tt) as [b0 tmp']. destruct S1 as [Bs [Ms _]]. cbn [snd] in SZ |- *.
          destruct (IH t' tmp' res) as [j [c [E [M1 M2]]]]; auto.
          { intros x Hx. rewrite Ms. apply HM in Hx. destruct Hx as [Hx1 Hx2]. intros [Q|Q]; [apply (DJ x); auto|congruence]. }
          { lia. }
          exists j, c. split; auto. split; [|lia]. intros x. rewrite M1, Ms, HM. destruct (Z.eq_dec x k) as [->|]; tauto.
        + assert (Nb : ~ pmem b k) by (rewrite <- IS; congruence).
          destruct (IH t' tmp (S res)) as [j [c [E [M1 M2]]]]; auto.
          { intros x Hx. apply HM in Hx. apply DJ. tauto. }
          { lia. }
          exists j, c. split; auto. split; [|lia]. intros x. rewrite M1, HM. destruct (Z.eq_dec x k) as [->|]; tauto. }
    destruct (G (1 + tsize Z unit a) a Leaf 0) as [k [c [E [M1 M2]]]]; auto.
    { apply leaf_rel. }
    exists k, c. split; auto. split.
    + intros x. rewrite M1. split; auto. intros [Q|Q]; auto. exfalso. apply Q. auto.
    + unfold ptree_nodes. rewrite pwalk_spec. simpl. rewrite preord_length. f_equal. simpl in M2. lia.
  - unfold ptree_shared_element. rewrite pwalk_spec. simpl.
    assert (G : forall es (t : ptree), pbst t -> let (x, t') := shared_in t es in (forall y, pmem t' y <-> pmem t y) /\
       ((pmem t x /\ exists u, In (x, u) es) \/ (x = 0%Z /\ forall y u, In (y, u) es -> ~ pmem t y))).
    { induction es as [|[k u] es IH]; intros t HB; simpl.
      - split; [tauto|]. right. split; auto.
      - pose proof (find_keeps t k HB) as H. destruct (find Z unit pcmp t k) as [[[k' u']|] t']; destruct H as [HB' [HM [HN HK]]].
        + split; auto. left. rewrite (HK k' u' eq_refl). split; eauto.
          unfold pmem in *. destruct (find_binary Z unit pcmp t k) eqn:E; [discriminate|]. exfalso.
          assert (~ None <> @None (Z * unit)) by tauto. apply HN in H. discriminate.
        + specialize (IH t' HB'). destruct (shared_in t' es) as [x t'']. destruct IH as [I1 I2]. split; [intros y; rewrite I1; apply HM|].
          destruct I2 as [[Q [w Hw]]|[-> Q]].
          * left. split; eauto. apply HM; auto.
          * right. split; auto. intros y w [E|Hw]; [injection E as <-; apply HN; auto|]. intros W. apply (Q y w Hw). apply HM; auto. }
    specialize (G (preord b) a Ha). destruct (shared_in a (preord b)) as [x a']. destruct G as [G1 G2]. exists x, a'. split; auto. split; auto.
    destruct G2 as [[Q Hw]|[-> Q]].
    + left. split; auto. apply PI; auto.
    + right. split; auto. intros y [Y1 Y2]. apply PI in Y2; auto. destruct Y2 as [u Hu]. apply (Q y u Hu); auto.
Qed.

Theorem C26_set_comparisons :
  forall a b, pset a -> pset b ->
    (exists r b', ptree_is_subset a b = Some (r, b') /\ (r = true <-> forall x, pmem a x -> pmem b x) /\ forall x, pmem b' x <-> pmem b x) /\
    (exists r, ptree_equiv a b = Some r /\ (r = true <-> forall x, pmem a x <-> pmem b x)).
Proof.
  intros a b Ha Hb. apply pset_bst in Ha, Hb. split.
  - unfold ptree_is_subset. rewrite ptrav_spec. simpl.
    assert (G : forall es (t : ptree), pbst t -> let (r, t') := all_found es t in (forall y, pmem t' y <-> pmem t y) /\ (r = true <-> forall y u, In (y, u) es -> pmem t y)).
    { induction es as [|[k u] es IH]; intros t HB; simpl.
      - split; [tauto|]. split; auto. intros _ y u [].
      - pose proof (find_keeps t k HB) as H. destruct (find Z unit pcmp t k) as [[[k' u']|] t']; destruct H as [HB' [HM [HN HK]]].
        + specialize (IH t' HB'). destruct (all_found es t') as [r t'']. destruct IH as [I1 I2]. split; [intros y; rewrite I1; apply HM|].
          rewrite I2. split.
          * intros Q y w [E|Hw]; [injection E as <- <-|apply HM; eauto].
            unfold pmem in *. destruct (find_binary Z unit pcmp t k) eqn:E; [discriminate|]. exfalso.
            assert (~ None <> @None (Z * unit)) by tauto. apply HN in H. discriminate.
          * intros Q y w Hw. apply HM. eauto.
        + split; auto. split; [discriminate|]. intros Q. exfalso. apply (proj1 HN eq_refl). eauto. }
    specialize (G (inord a) b Hb). destruct (all_found (inord a) b) as [r b']. destruct G as [G1 G2]. exists r, b'. split; auto. split; auto.
    rewrite G2. split.
    + intros Q x Hx. apply pmem_in in Hx; auto. destruct Hx as [u Hu]. eauto.
    + intros Q y u Hu. apply Q. apply pmem_in; eauto.
  - unfold ptree_equiv. rewrite !ptrav_spec. eexists. split; [reflexivity|].
    assert (G : forall x y, equiv_iter x y = true <-> x = y).
    { induction x as [|[k []] x IH]; intros [|[k' []] y]; simpl; try (split; congruence). destruct (Z.eqb_spec k k').
      - rewrite IH. split; [intros ->; subst; auto|intros E; injection E; auto].
      - split; [discriminate|intros E; injection E; intros; congruence]. }
    rewrite G. split.
    + intros E x. rewrite !pmem_in by auto. rewrite E. tauto.
    + intros H.
      assert (HH : forall e, In e (inord a) <-> In e (inord b)).
      { intros [x []]. pose proof (H x) as Hx. rewrite !pmem_in in Hx by auto. split; intros Q.
        - destruct (proj1 Hx (ex_intro _ tt Q)) as [[] Hu]. auto.
        - destruct (proj2 Hx (ex_intro _ tt Q)) as [[] Hu]. auto. }
      destruct Ha as [SA _], Hb as [SB _]. revert HH SA SB. clear. generalize (inord a) (inord b).
      assert (LT : forall x y : Z * unit, lt pcmp x y -> (fst x < fst y)%Z) by (intros x y Q; apply Z.compare_lt_iff; auto).
      induction l as [|x l IH]; intros [|y k] HH SA SB; auto.
      * exfalso. apply (proj2 (HH y)). left; auto.
      * exfalso. apply (proj1 (HH x)). left; auto.
      * simpl in SA, SB. destruct SA as [X1 SA], SB as [Y1 SB].
        assert (x = y).
        { destruct (proj1 (HH x) (or_introl eq_refl)) as [|Q1]; auto. destruct (proj2 (HH y) (or_introl eq_refl)) as [|Q2]; auto.
          apply X1, LT in Q2. apply Y1, LT in Q1. lia. }
        subst y. f_equal. apply IH; auto. intros e. split; intros He.
        -- destruct (proj1 (HH e) (or_intror He)) as [<-|]; auto. apply X1, LT in He. lia.
        -- destruct (proj2 (HH e) (or_intror He)) as [<-|]; auto. apply Y1, LT in He. lia.
Qed.

(** ** Non-vacuity *)
Example C26_example_history :
  fst (run Z nat (tree_step Z nat num_cmp) Leaf
        [OStore _ _ 5%Z 50; OStore _ _ 2%Z 20; OStore _ _ 9%Z 90; OStore _ _ 2%Z 21; OFind _ _ 2%Z; ODelete _ _ 5%Z; OFind _ _ 5%Z; OExtract _ _ 9%Z])
  = [OB _ _ true; OB _ _ true; OB _ _ true; OB _ _ false; OE _ _ (Some (2%Z, 20)); OB _ _ true; OE _ _ None; OE _ _ (Some (9%Z, 90))].
Proof. vm_compute. reflexivity. Qed.
Example C26_example_sets : exists a b, pset a /\ pset b /\ a <> Leaf /\ b <> Leaf /\
  option_map (fun c => ptrav c) (ptree_intersection a b) = Some (Some [(3%Z, tt); (7%Z, tt)]).
Proof.
  exists (snd (run Z unit (tree_step Z unit pcmp) Leaf [OStore _ _ 3%Z tt; OStore _ _ 1%Z tt; OStore _ _ 7%Z tt])).
  exists (snd (run Z unit (tree_step Z unit pcmp) Leaf [OStore _ _ 7%Z tt; OStore _ _ 3%Z tt; OStore _ _ 8%Z tt])).
  split; [eexists; reflexivity|]. split; [eexists; reflexivity|]. split; [vm_compute; discriminate|]. split; [vm_compute; discriminate|]. vm_compute. reflexivity.
Qed.

Print Assumptions C26_every_history_answers_like_a_finite_map.
Print Assumptions C26_traversal_is_the_sorted_content.
Print Assumptions C26_limited_traversal_and_maximum.
Print Assumptions C26_numeric_keys.
Print Assumptions C26_quadruple_keys.
Print Assumptions C26_term_cell_keys.
Print Assumptions C26_numeric_trees_far_keys_refuted.
Print Assumptions C26_set_copy_and_union.
Print Assumptions C26_set_intersection.
Print Assumptions C26_set_comparisons.
