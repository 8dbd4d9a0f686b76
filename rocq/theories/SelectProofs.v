(** Proofs about clause selection. *)
From Verif Require Import Splay SplayProofs Select.
From Coq Require Import Lia Sorted.
Open Scope Z_scope.

(** ** Rounding is monotone *)
Lemma dsucc_ge d : d <= dsucc d.
Proof. unfold dsucc. destruct (d <? 2 ^ 53); lia. Qed.

Definition rne (u z : Z) : Z := if (2 * (z mod u) <? u) || ((2 * (z mod u) =? u) && Z.even (z / u)) then z / u else z / u + 1.
Lemma to_float_eq z : to_float z = if z <? 2 ^ 24 then z else 2 ^ (Z.log2 z - 23) * rne (2 ^ (Z.log2 z - 23)) z.
Proof. reflexivity. Qed.
Lemma rne_ge u z : z / u <= rne u z.
Proof. unfold rne. destruct (_ || _); lia. Qed.
Lemma rne_le u z : rne u z <= z / u + 1.
Proof. unfold rne. destruct (_ || _); lia. Qed.
Lemma rne_mono u x y : 0 < u -> x <= y -> rne u x <= rne u y.
Proof.
  intros U H. assert (Q : x / u <= y / u) by (apply Z.div_le_mono; lia).
  destruct (Z.eq_dec (x / u) (y / u)) as [E|E].
  - assert (R : x mod u <= y mod u) by (rewrite !Z.mod_eq, E by lia; lia).
    unfold rne. rewrite E. destruct (Z.even (y / u)), (Z.ltb_spec (2 * (x mod u)) u), (Z.ltb_spec (2 * (y mod u)) u),
      (Z.eqb_spec (2 * (x mod u)) u), (Z.eqb_spec (2 * (y mod u)) u); simpl; lia.
  - pose proof (rne_le u x). pose proof (rne_ge u y). lia.
Qed.
Lemma to_float_bounds z : 2 ^ 24 <= z -> 2 ^ Z.log2 z <= to_float z <= 2 ^ (Z.log2 z + 1).
Proof.
  intros H. rewrite to_float_eq. destruct (Z.ltb_spec z (2 ^ 24)); [lia|].
  assert (L : 24 <= Z.log2 z) by (rewrite <- (Z.log2_pow2 24) by lia; apply Z.log2_le_mono; lia).
  destruct (Z.log2_spec z) as [A B]; [lia|]. set (m := Z.log2 z) in *.
  assert (U : 0 < 2 ^ (m - 23)) by (apply Z.pow_pos_nonneg; lia).
  assert (E1 : 2 ^ m = 2 ^ (m - 23) * 2 ^ 23) by (rewrite <- Z.pow_add_r by lia; f_equal; lia).
  assert (E2 : 2 ^ (m + 1) = 2 ^ (m - 23) * 2 ^ 24) by (rewrite <- Z.pow_add_r by lia; f_equal; lia).
  rewrite <- Z.add_1_r in B. rewrite E1, E2 in *.
  assert (Q1 : 2 ^ 23 <= z / 2 ^ (m - 23)) by (apply Z.div_le_lower_bound; lia).
  assert (Q2 : z / 2 ^ (m - 23) < 2 ^ 24) by (apply Z.div_lt_upper_bound; lia).
  pose proof (rne_le (2 ^ (m - 23)) z). pose proof (rne_ge (2 ^ (m - 23)) z).
  split; apply Z.mul_le_mono_nonneg_l; lia.
Qed.
Lemma to_float_mono x y : x <= y -> to_float x <= to_float y.
Proof.
  intros H. destruct (Z.ltb_spec y (2 ^ 24)) as [Hy|Hy].
  - rewrite !to_float_eq. destruct (Z.ltb_spec y (2 ^ 24)); [|lia]. destruct (Z.ltb_spec x (2 ^ 24)); lia.
  - destruct (Z.ltb_spec x (2 ^ 24)) as [Hx|Hx].
    + pose proof (to_float_bounds y Hy) as [A _]. rewrite (to_float_eq x). destruct (Z.ltb_spec x (2 ^ 24)); [|lia].
      assert (2 ^ 24 <= 2 ^ Z.log2 y); [|lia]. apply Z.pow_le_mono_r; [lia|]. rewrite <- (Z.log2_pow2 24) by lia. apply Z.log2_le_mono. lia.
    + assert (L : Z.log2 x <= Z.log2 y) by (apply Z.log2_le_mono; lia).
      destruct (Z.eq_dec (Z.log2 x) (Z.log2 y)) as [E|E].
      * rewrite !to_float_eq. destruct (Z.ltb_spec y (2 ^ 24)); [lia|]. destruct (Z.ltb_spec x (2 ^ 24)); [lia|]. rewrite E.
        assert (24 <= Z.log2 y) by (rewrite <- (Z.log2_pow2 24) by lia; apply Z.log2_le_mono; lia).
        assert (0 < 2 ^ (Z.log2 y - 23)) by (apply Z.pow_pos_nonneg; lia).
        apply Z.mul_le_mono_nonneg_l; [lia|]. apply rne_mono; lia.
      * pose proof (to_float_bounds x Hx) as [_ A]. pose proof (to_float_bounds y Hy) as [B _].
        assert (2 ^ (Z.log2 x + 1) <= 2 ^ Z.log2 y); [|lia]. apply Z.pow_le_mono_r; lia.
Qed.

(** ** Evaluation trees *)
Definition edom (i : nat) (l : list (cid * evalcell)) (k : key) : Prop := exists c e, In (c, e) l /\ k = ekey i e.
Definition counts_differ (l : list (cid * evalcell)) : Prop :=
  forall a b, In a l -> In b l -> ecount (snd a) = ecount (snd b) -> a = b.

Lemma ekey_count i e : snd (ekey i e) = ecount e.
Proof. unfold ekey. destruct (nth i (evals e) (0, 0)); auto. Qed.
Lemma edom_count i l a b : counts_differ l -> edom i l a -> edom i l b -> snd a = snd b -> a = b.
Proof.
  intros C [c1 [e1 [I1 ->]]] [c2 [e2 [I2 ->]]] E. rewrite !ekey_count in E. specialize (C _ _ I1 I2 E). congruence.
Qed.
(** on keys with different counts, the comparison is lexicographic *)
Lemma eval_cmp_lt p1 h1 c1 p2 h2 c2 : eval_cmp (p1, h1, c1) (p2, h2, c2) = Lt <->
  p1 < p2 \/ p1 = p2 /\ c1 <> c2 /\ (h1 < h2 \/ h1 = h2 /\ c1 < c2).
Proof.
  unfold eval_cmp. destruct (Z.compare_spec (p1 - p2) 0), (Z.compare_spec (c1 - c2) 0), (Z.compare_spec h1 h2);
    split; intros H'; try discriminate; try reflexivity; try (exfalso; lia); lia.
Qed.
Lemma eval_cmp_eq p1 h1 c1 p2 h2 c2 : eval_cmp (p1, h1, c1) (p2, h2, c2) = Eq <-> p1 = p2 /\ c1 = c2.
Proof.
  unfold eval_cmp. destruct (Z.compare_spec (p1 - p2) 0), (Z.compare_spec (c1 - c2) 0), (Z.compare_spec h1 h2);
    split; intros H'; try discriminate; try reflexivity; try (exfalso; lia); lia.
Qed.
Lemma eval_cmp_anti a b : eval_cmp a b = CompOpp (eval_cmp b a).
Proof.
  destruct a as [[p1 h1] c1], b as [[p2 h2] c2]. unfold eval_cmp.
  destruct (Z.compare_spec (p1 - p2) 0), (Z.compare_spec (c1 - c2) 0), (Z.compare_spec h1 h2),
    (Z.compare_spec (p2 - p1) 0), (Z.compare_spec (c2 - c1) 0), (Z.compare_spec h2 h1); simpl; auto; exfalso; lia.
Qed.
Lemma edom_order i l : counts_differ l -> key_order key eval_cmp (edom i l).
Proof.
  intros C. split.
  - intros a b Da Db. split; [|intros <-; destruct a as [[p h] c]; apply eval_cmp_eq; auto].
    intros H. apply (edom_count i l); auto. destruct a as [[p1 h1] c1], b as [[p2 h2] c2]. apply eval_cmp_eq in H. simpl. lia.
  - intros. apply eval_cmp_anti.
  - intros a b c Da Db Dc H1 H2.
    assert (N : snd a = snd c -> a = c) by (apply (edom_count i l); auto).
    destruct a as [[p1 h1] c1], b as [[p2 h2] c2], c as [[p3 h3] c3]. apply eval_cmp_lt in H1. apply eval_cmp_lt in H2. apply eval_cmp_lt. simpl in N.
    destruct (Z.eq_dec c1 c3) as [E|E]; [specialize (N E); inversion N; subst; exfalso; lia|lia].
Qed.

Section Tree.
  Variable dom : key -> Prop.
  Hypothesis KO : key_order key eval_cmp dom.
  Lemma insert_in (t : etree) k v : dom k -> bst eval_cmp dom t -> (forall x, In x (inord t) -> fst x <> k) ->
    bst eval_cmp dom (snd (insert key cid eval_cmp t k v)) /\
    forall x, In x (inord (snd (insert key cid eval_cmp t k v))) <-> x = (k, v) \/ In x (inord t).
  Proof.
    intros Dk B N. pose proof (insert_rel eval_cmp dom KO t (assoc eval_cmp (inord t)) k v Dk) as H.
    destruct (insert key cid eval_cmp t k v) as [o t']. destruct H as [_ [B' A']]; [split; auto; intros y Dy; auto|]. simpl. split; auto.
    assert (E0 : assoc eval_cmp (inord t) k = None).
    { destruct (assoc eval_cmp (inord t) k) as [e|] eqn:E; auto. apply (assoc_in eval_cmp dom KO) in E; auto; [|apply B]. destruct E as [E1 E2]. destruct (N e E1 E2). }
    rewrite E0 in A'. intros [k' v']. split; intros H.
    - assert (D' : dom k') by (apply (proj2 B' _ H)). apply (in_assoc eval_cmp dom KO) in H; [|apply B'|apply B']. simpl in H. rewrite (A' k' D') in H.
      unfold fadd in H. destruct (eval_cmp k' k) eqn:E; [inversion H; auto| |];
        (right; apply (assoc_in eval_cmp dom KO) in H; [tauto|apply B|auto]).
    - assert (D' : dom k') by (destruct H as [H|H]; [inversion H; subst; auto|apply (proj2 B _ H)]).
      assert (X : assoc eval_cmp (inord t') k' = Some (k', v')).
      { rewrite (A' k' D'). unfold fadd. destruct H as [H|H].
        - inversion H; subst. rewrite (proj2 (ko_eq _ _ _ KO k k Dk Dk) eq_refl). auto.
        - assert (Q := N _ H). simpl in Q. apply (in_assoc eval_cmp dom KO) in H; [|apply B|apply B]. simpl in H.
          destruct (eval_cmp k' k) eqn:E; auto. apply (ko_eq _ _ _ KO) in E; auto. congruence. }
      apply (assoc_in eval_cmp dom KO) in X; [tauto|apply B'|auto].
  Qed.
  Lemma extract_in (t : etree) k : dom k -> bst eval_cmp dom t ->
    bst eval_cmp dom (snd (extract key cid eval_cmp t k)) /\
    forall x, In x (inord (snd (extract key cid eval_cmp t k))) <-> In x (inord t) /\ fst x <> k.
  Proof.
    intros Dk B. pose proof (extract_rel eval_cmp dom KO t (assoc eval_cmp (inord t)) k Dk) as H.
    destruct (extract key cid eval_cmp t k) as [o t']. destruct H as [_ [B' A']]; [split; auto; intros y Dy; auto|]. simpl. split; auto.
    intros [k' v']. simpl. split.
    - intros H. assert (D' : dom k') by (apply (proj2 B' _ H)). apply (in_assoc eval_cmp dom KO) in H; [|apply B'|apply B']. simpl in H. rewrite (A' k' D') in H.
      unfold fdel in H. destruct (eval_cmp k' k) eqn:E; [discriminate| |];
        (apply (assoc_in eval_cmp dom KO) in H; [|apply B|auto]; split; [tauto|];
         intros ->; rewrite (proj2 (ko_eq _ _ _ KO k k Dk Dk) eq_refl) in E; discriminate).
    - intros [H N]. assert (D' : dom k') by (apply (proj2 B _ H)). apply (in_assoc eval_cmp dom KO) in H; [|apply B|apply B]. simpl in H.
      assert (X : assoc eval_cmp (inord t') k' = Some (k', v')).
      { rewrite (A' k' D'). unfold fdel. destruct (eval_cmp k' k) eqn:E; auto. apply (ko_eq _ _ _ KO) in E; auto. congruence. }
      apply (assoc_in eval_cmp dom KO) in X; [tauto|apply B'|auto].
  Qed.
End Tree.

Lemma min_node_spec (t : etree) : match min_node t with None => t = Leaf | Some x => exists l, inord t = x :: l end.
Proof.
  induction t as [|l IHl k v r IHr]; simpl; auto. destruct l as [|ll lk lv lr]; [exists (inord r); auto|].
  destruct (min_node (Node ll lk lv lr)); [|discriminate]. destruct IHl as [l' E]. rewrite E. simpl. eauto.
Qed.

Definition tree_ok (i : nat) (l : list (cid * evalcell)) (t : etree) : Prop :=
  bst eval_cmp (edom i l) t /\ forall k c, In (k, c) (inord t) <-> exists e, In (c, e) l /\ k = ekey i e.

Lemma bst_weaken (dom1 dom2 : key -> Prop) (t : etree) : (forall x, In x (inord t) -> dom2 (fst x)) -> bst eval_cmp dom1 t -> bst eval_cmp dom2 t.
Proof. intros H [A B]. split; auto. Qed.
Lemma tree_ok_leaf i : tree_ok i [] Leaf.
Proof. split; [split; simpl; auto; intros e []|]. intros k c. simpl. split; [tauto|intros [e [[] _]]]. Qed.
Lemma tree_ok_insert i l t c e : counts_differ (l ++ [(c, e)]) -> ~ In c (map fst l) -> tree_ok i l t ->
  tree_ok i (l ++ [(c, e)]) (snd (insert key cid eval_cmp t (ekey i e) c)).
Proof.
  intros C N [B I]. assert (KO := edom_order i _ C).
  assert (X : forall x, In x (inord t) -> edom i (l ++ [(c, e)]) (fst x)).
  { intros [k v] H. apply I in H. destruct H as [e' [H ->]]. exists v, e'. split; auto. apply in_or_app. auto. }
  destruct (insert_in _ KO t (ekey i e) c) as [B' I'].
  - exists c, e. split; auto. apply in_or_app. simpl. auto.
  - eapply bst_weaken; eauto.
  - intros [k v] H E. simpl in E. subst k. apply I in H. destruct H as [e' [H E]].
    assert (Q : (c, e) = (v, e')).
    { apply C; [apply in_or_app; simpl; auto|apply in_or_app; auto|]. simpl. rewrite <- (ekey_count i e), <- (ekey_count i e'). congruence. }
    inversion Q; subst. apply N. apply (in_map fst) in H. auto.
  - split; auto. intros k v. rewrite I'. split.
    + intros [H|H]; [inversion H; subst; exists e; split; auto; apply in_or_app; simpl; auto|].
      apply I in H. destruct H as [e' [H ->]]. exists e'. split; auto. apply in_or_app. auto.
    + intros [e' [H ->]]. apply in_app_or in H. destruct H as [H|[H|[]]]; [right; apply I; eauto|left; congruence].
Qed.
Lemma tree_ok_extract i l t c e : counts_differ l -> NoDup (map fst l) -> In (c, e) l -> tree_ok i l t ->
  tree_ok i (filter (fun q => negb (Nat.eqb (fst q) c)) l) (snd (extract key cid eval_cmp t (ekey i e))).
Proof.
  intros C ND Hc [B I]. assert (KO := edom_order i _ C).
  destruct (extract_in _ KO t (ekey i e)) as [B' I']; [exists c, e; auto|auto|].
  assert (U : forall e', In (c, e') l -> e' = e).
  { intros e' H. clear - ND Hc H. induction l as [|[c0 e0] l IH]; [destruct H|]. simpl in *. inversion ND as [|? ? N1 N2]; subst.
    destruct Hc as [Hc|Hc], H as [H|H]; try congruence; auto.
    - inversion Hc; subst. destruct N1. apply (in_map fst) in H. auto.
    - inversion H; subst. destruct N1. apply (in_map fst) in Hc. auto. }
  assert (Q : forall k v, In (k, v) (inord (snd (extract key cid eval_cmp t (ekey i e)))) <->
     exists e', In (v, e') (filter (fun q => negb (Nat.eqb (fst q) c)) l) /\ k = ekey i e').
  { intros k v. rewrite I', I. simpl. split.
    - intros [[e' [H ->]] N]. exists e'. split; auto. apply filter_In. split; auto. simpl. destruct (Nat.eqb_spec v c) as [->|]; auto.
      rewrite (U e' H) in N. congruence.
    - intros [e' [H ->]]. apply filter_In in H. destruct H as [H N]. simpl in N. split; [eauto|]. intros E.
      assert (Q : (v, e') = (c, e)) by (apply C; auto; simpl; rewrite <- (ekey_count i e), <- (ekey_count i e'); congruence).
      inversion Q; subst. rewrite Nat.eqb_refl in N. discriminate. }
  split; auto. eapply bst_weaken; [|exact B']. intros [k v] H. apply Q in H. destruct H as [e' [H ->]]. exists v, e'. auto.
Qed.

(** ** The invariant of the set *)
Definition prio_at (f : nat) (e : evalcell) : Z := fst (nth f (evals e) (0, 0)).
Definition heur_at (f : nat) (e : evalcell) : Z := snd (nth f (evals e) (0, 0)).
Lemma ekey_eq i e : ekey i e = (prio_at i e, heur_at i e, ecount e).
Proof. unfold ekey, prio_at, heur_at. destruct (nth i (evals e) (0, 0)); auto. Qed.

Record inv (h : hcb) (st : sstate) : Prop := {
  iv_nodup : NoDup (waiting st);
  iv_sorted : StronglySorted (fun a b => ecount (snd a) < ecount (snd b)) (u_list st);
  iv_lt : forall q, In q (u_list st) -> ecount (snd q) < s_evals st;
  iv_len : forall q, In q (u_list st) -> length (evals (snd q)) = length (h_list h);
  iv_tree : forall i, (i < length (h_list h))%nat -> tree_ok i (u_list st) (u_trees st i);
  iv_fifo : forall f id p, nth_error (h_list h) f = Some (Fifo id p) ->
    (forall q, In q (u_list st) -> heur_at f (snd q) <= to_float (s_fifo st id)) /\
    StronglySorted (fun a b => heur_at f (snd a) <= heur_at f (snd b)) (u_list st);
  iv_prio : forall f w, nth_error (h_list h) f = Some w -> (forall n c, prio_of w n c = PrioNormal) ->
    forall q, In q (u_list st) -> prio_at f (snd q) <= PrioNormal }.

Lemma ss_app {A} (R : A -> A -> Prop) l x : StronglySorted R l -> (forall a, In a l -> R a x) -> StronglySorted R (l ++ [x]).
Proof.
  induction 1 as [|a l HS IH F]; simpl; intros H; [repeat constructor|]. constructor; [apply IH; auto|].
  apply Forall_app. split; auto.
Qed.
Lemma ss_filter {A} (R : A -> A -> Prop) P l : StronglySorted R l -> StronglySorted R (filter P l).
Proof.
  induction 1 as [|a l HS IH F]; simpl; [constructor|]. destruct (P a); auto. constructor; auto.
  rewrite Forall_forall in *. intros x Hx. apply filter_In in Hx. apply F. tauto.
Qed.
Lemma sorted_counts l : StronglySorted (fun a b : cid * evalcell => ecount (snd a) < ecount (snd b)) l -> counts_differ l.
Proof.
  induction 1 as [|x l HS IH F]; [intros ? ? []|]. rewrite Forall_forall in F. intros a b [->|Ha] [->|Hb] E; auto.
  - specialize (F b Hb). lia.
  - specialize (F a Ha). lia.
Qed.
Lemma inv_counts h st : inv h st -> counts_differ (u_list st).
Proof. intros I. apply sorted_counts, I. Qed.

Lemma inv_init h : inv h init.
Proof.
  split; simpl; try (constructor; fail); try (intros; tauto).
  - intros i Hi. apply tree_ok_leaf.
  - intros. split; [intros ? []|constructor].
Qed.

(** a freshly evaluated clause *)
Definition fresh_eval (h : hcb) (st st1 : sstate) (e : evalcell) : Prop :=
  length (evals e) = length (h_list h) /\ ecount e = s_evals st /\ s_evals st1 = s_evals st + 1 /\
  (forall id, s_fifo st id <= s_fifo st1 id) /\
  (forall f id p, nth_error (h_list h) f = Some (Fifo id p) -> exists v, s_fifo st id <= v <= s_fifo st1 id /\ heur_at f e = to_float v) /\
  (forall f w, nth_error (h_list h) f = Some w -> (forall n c, prio_of w n c = PrioNormal) -> prio_at f e <= PrioNormal).

Lemma eval_queues_spec n c empty ws : forall ff r ff2, eval_queues n c empty ws ff = (r, ff2) ->
  length r = length ws /\ (forall id, ff id <= ff2 id) /\
  (forall f id p, nth_error ws f = Some (Fifo id p) -> exists v, ff id <= v <= ff2 id /\ snd (nth f r (0, 0)) = to_float v) /\
  (forall f w, nth_error ws f = Some w -> fst (nth f r (0, 0)) = if empty then PrioBest else prio_of w n c).
Proof.
  induction ws as [|w ws IH]; intros ff r ff2 H; cbn [eval_queues] in H.
  - inversion H; subst. repeat split; auto; try lia; intros [|f] *; discriminate.
  - destruct (match w with Fifo id _ => _ | Weight _ g => _ end) as [v ff1] eqn:E1.
    destruct (eval_queues n c empty ws ff1) as [r' ff2'] eqn:E2. inversion H; subst. destruct (IH _ _ _ E2) as [L [M [F P]]].
    assert (M1 : forall id, ff id <= ff1 id).
    { destruct w as [i p|p g]; inversion E1; subst; intros id; [|lia]. destruct (Nat.eqb_spec id i) as [->|]; [apply dsucc_ge|lia]. }
    assert (M2 : forall id, ff id <= ff2 id) by (intros id; specialize (M1 id); specialize (M id); lia).
    split; [simpl; auto|]. split; auto. split.
    + intros [|f] id p Hf; simpl in Hf.
      * inversion Hf; subst. inversion E1; subst. exists (dsucc (ff id)). simpl. split; auto. split; [apply dsucc_ge|].
        specialize (M id). cbn beta in M. rewrite Nat.eqb_refl in M. auto.
      * destruct (F _ _ _ Hf) as [v' [B' E']]. exists v'. split; auto. specialize (M1 id). lia.
    + intros [|f] w' Hf; simpl in Hf; [inversion Hf; subst; auto|]. apply (P _ _ Hf).
Qed.
Lemma evaluate_fresh h st c empty e st1 : evaluate h st c empty = (e, st1) ->
  fresh_eval h st st1 e /\ u_list st1 = u_list st /\ u_trees st1 = u_trees st /\ s_cur st1 = s_cur st /\ s_cnt st1 = s_cnt st.
Proof.
  unfold evaluate. destruct (eval_queues _ _ _ _ _) as [r ff] eqn:E. intros H. inversion H; subst. simpl.
  destruct (eval_queues_spec _ _ _ _ _ _ _ E) as [L [M [F P]]].
  split; auto. unfold fresh_eval. simpl. repeat split; auto.
  intros f w Hf K. unfold prio_at. cbn [evals]. rewrite (P f w Hf), K. destruct empty; unfold PrioBest, PrioNormal; lia.
Qed.
Lemma evaluate_prio h st c empty e st1 f w : evaluate h st c empty = (e, st1) -> nth_error (h_list h) f = Some w ->
  prio_at f e = if empty then PrioBest else prio_of w (s_evals st) c.
Proof.
  unfold evaluate. destruct (eval_queues _ _ _ _ _) as [r ff] eqn:E. intros H. inversion H; subst. simpl.
  destruct (eval_queues_spec _ _ _ _ _ _ _ E) as [L [M [F P]]]. apply P.
Qed.
Lemma nth_change f e d : (f < length (evals e))%nat -> nth f (evals (change_priority e d)) (0, 0) = (prio_at f e + d, heur_at f e).
Proof.
  intros H. unfold change_priority. cbn [evals]. set (g := fun q : Z * Z => (fst q + d, snd q)).
  rewrite (nth_indep _ (0, 0) (g (0, 0))) by (rewrite map_length; auto). rewrite map_nth. reflexivity.
Qed.
Lemma nth_error_lt {A} (l : list A) f x : nth_error l f = Some x -> (f < length l)%nat.
Proof. intros H. apply nth_error_Some. congruence. Qed.
Lemma change_fresh h st st1 e d : d <= 0 -> fresh_eval h st st1 e -> fresh_eval h st st1 (change_priority e d).
Proof.
  intros Hd [L [C [N [M [F P]]]]]. unfold fresh_eval. split; [unfold change_priority; simpl; rewrite map_length; auto|].
  do 3 (split; [auto|]). split.
  - intros f id p Hf. destruct (F f id p Hf) as [v [A B]]. exists v. split; auto. unfold heur_at. rewrite nth_change; auto.
    rewrite L. eapply nth_error_lt; eauto.
  - intros f w Hf K. specialize (P f w Hf K). unfold prio_at. rewrite nth_change; [simpl; lia|]. rewrite L. eapply nth_error_lt; eauto.
Qed.

Lemma inv_insert h st st1 c e : inv h st -> ~ In c (waiting st) -> fresh_eval h st st1 e ->
  u_list st1 = u_list st -> u_trees st1 = u_trees st -> inv h (insert_entry st1 c e).
Proof.
  intros I N [L [C [EV [M [F P]]]]] EL ET. destruct I as [I1 I2 I3 I4 I5 I6 I7].
  assert (ST : StronglySorted (fun a b : cid * evalcell => ecount (snd a) < ecount (snd b)) (u_list st ++ [(c, e)])).
  { apply ss_app; auto. intros a Ha. simpl. rewrite C. apply I3; auto. }
  unfold insert_entry. split; simpl; rewrite ?EL; auto.
  - unfold waiting. simpl. rewrite ?EL, map_app. simpl. apply NoDup_Add with (a := c) (l := waiting st).
    + unfold waiting. pose proof (Add_app c (map fst (u_list st)) []) as A. rewrite app_nil_r in A. exact A.
    + split; auto.
  - intros q Hq. apply in_app_or in Hq. destruct Hq as [Hq|[<-|[]]]; [specialize (I3 q Hq); lia|simpl; lia].
  - intros q Hq. apply in_app_or in Hq. destruct Hq as [Hq|[<-|[]]]; auto.
  - intros i Hi. rewrite L. destruct (Nat.ltb_spec i (length (h_list h))); [|lia]. rewrite ET.
    apply tree_ok_insert; auto. apply sorted_counts; auto.
  - intros f id p Hf. destruct (F f id p Hf) as [v [[A1 A2] B]]. destruct (I6 f id p Hf) as [J1 J2].
    assert (Q : forall q, In q (u_list st) -> heur_at f (snd q) <= heur_at f e).
    { intros q Hq. specialize (J1 q Hq). rewrite B. pose proof (to_float_mono _ _ A1). lia. }
    split.
    + intros q Hq. pose proof (to_float_mono _ _ A2) as R. apply in_app_or in Hq. destruct Hq as [Hq|[<-|[]]]; [specialize (Q q Hq); lia|simpl; lia].
    + apply ss_app; auto.
  - intros f w Hf K q Hq. apply in_app_or in Hq. destruct Hq as [Hq|[<-|[]]]; [eauto|]. simpl. eauto.
Qed.

Lemma find_some st c e : List.find (fun q : cid * evalcell => Nat.eqb (fst q) c) (u_list st) = Some e -> In (c, snd e) (u_list st).
Proof. intros H. apply find_some in H. destruct H as [H E]. apply Nat.eqb_eq in E. destruct e; simpl in *. subst; auto. Qed.
Lemma waiting_extract st c : waiting (extract_entry st c) = filter (fun d => negb (Nat.eqb d c)) (waiting st).
Proof.
  unfold extract_entry, waiting. destruct (List.find (fun q => Nat.eqb (fst q) c) (u_list st)) as [[c' e]|] eqn:E; simpl.
  - clear E. induction (u_list st) as [|[d e'] l IH]; simpl; auto. destruct (negb (Nat.eqb d c)); simpl; rewrite IH; auto.
  - symmetry. induction (u_list st) as [|[d e'] l IH]; simpl in *; auto. destruct (Nat.eqb d c) eqn:Ed; [discriminate|]. simpl. rewrite IH; auto.
Qed.
Lemma list_extract st c : u_list (extract_entry st c) = filter (fun q => negb (Nat.eqb (fst q) c)) (u_list st).
Proof.
  unfold extract_entry. destruct (List.find (fun q => Nat.eqb (fst q) c) (u_list st)) as [[c' e]|] eqn:E; simpl; auto.
  symmetry. induction (u_list st) as [|[d e'] l IH]; simpl in *; auto. destruct (Nat.eqb d c) eqn:Ed; [discriminate|]. simpl. rewrite IH; auto.
Qed.
Lemma extract_cc st c : s_cur (extract_entry st c) = s_cur st /\ s_cnt (extract_entry st c) = s_cnt st.
Proof. unfold extract_entry. destruct (List.find (fun q => Nat.eqb (fst q) c) (u_list st)) as [[? ?]|]; auto. Qed.
Lemma nodup_filter_map (P : cid -> bool) (l : list (cid * evalcell)) : NoDup (map fst l) -> NoDup (map fst (filter (fun q => P (fst q)) l)).
Proof.
  induction l as [|[c e] l IH]; simpl; auto. intros H. inversion H as [|? ? H1 H2]; subst. destruct (P c); simpl; auto. constructor; auto.
  intros X. apply H1. apply in_map_iff in X. destruct X as [[c' e'] [E X]]. simpl in E. subst. apply filter_In in X. apply (in_map fst l (c, e')). tauto.
Qed.
Lemma inv_extract h st c : inv h st -> inv h (extract_entry st c).
Proof.
  intros I. assert (C := inv_counts _ _ I). assert (EL := list_extract st c).
  unfold extract_entry in *. destruct (List.find (fun q => Nat.eqb (fst q) c) (u_list st)) as [[c' e]|] eqn:E; auto.
  assert (X := find_some _ _ _ E). simpl in X. destruct I as [I1 I2 I3 I4 I5 I6 I7].
  assert (SUB : forall q, In q (filter (fun q => negb (Nat.eqb (fst q) c)) (u_list st)) -> In q (u_list st)) by (intros q Hq; apply filter_In in Hq; tauto).
  split; simpl; auto.
  - unfold waiting. simpl. apply (nodup_filter_map (fun d => negb (Nat.eqb d c))). auto.
  - apply ss_filter; auto.
  - intros i Hi. rewrite (I4 (c, e) X : length (evals e) = _). destruct (Nat.ltb_spec i (length (h_list h))); [|lia]. apply tree_ok_extract; auto.
  - intros f id p Hf. destruct (I6 f id p Hf) as [A B]. split; auto. apply ss_filter; auto.
  - intros f w Hf K q Hq. eauto.
Qed.

Lemma best_spec h st i : inv h st -> (i < length (h_list h))%nat ->
  match find_best st i with
  | None => u_list st = []
  | Some c => exists e, In (c, e) (u_list st) /\ forall c' e', In (c', e') (u_list st) -> c' <> c -> eval_cmp (ekey i e) (ekey i e') = Lt
  end.
Proof.
  intros I Hi. destruct (iv_tree _ _ I i Hi) as [B T]. unfold find_best. pose proof (min_node_spec (u_trees st i)) as M.
  destruct (min_node (u_trees st i)) as [[k c]|]; simpl.
  - destruct M as [l E]. assert (X : In (k, c) (inord (u_trees st i))) by (rewrite E; simpl; auto).
    apply T in X. destruct X as [e [X ->]]. exists e. split; auto. intros c' e' H N.
    assert (Y : In (ekey i e', c') (inord (u_trees st i))) by (apply T; eauto). rewrite E in Y. destruct Y as [Y|Y]; [congruence|].
    destruct B as [B _]. rewrite E in B. destruct B as [B _]. apply (B _ Y).
  - destruct (u_list st) as [|[c e] l] eqn:E; auto. assert (Y : In (ekey i e, c) (inord (u_trees st i))) by (apply T; exists e; simpl; auto).
    rewrite M in Y. destruct Y.
Qed.
