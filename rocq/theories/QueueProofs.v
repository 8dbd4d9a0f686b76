(** * Proofs about queues and stacks *)
From Verif Require Import Mem Queue.

Section Q.
  Context {A : Type}.
  Implicit Types (q : pqueue A) (l : list A).

  Definition wrap (s x : nat) : nat := if x <? s then x else x - s.
  Lemma wrap_cases s x : (x < s /\ wrap s x = x) \/ (s <= x /\ wrap s x = x - s).
  Proof. unfold wrap. destruct (Nat.ltb_spec x s); auto. Qed.

  (** the queue holds l, possibly filling the whole block *)
  Record qpre q l : Prop := {
    qp_mem : length (qmem q) = qsize q;
    qp_tail : qtail q < qsize q;
    qp_len : length l <= qsize q;
    qp_head : qhead q = wrap (qsize q) (qtail q + length l);
    qp_el : forall k v, nth_error l k = Some v -> nth_error (qmem q) (wrap (qsize q) (qtail q + k)) = Some (Some v) }.
  Definition qrep q l : Prop := qpre q l /\ length l < qsize q.

  Lemma nth_lt l k v : nth_error l k = Some v -> k < length l.
  Proof. intros H. apply nth_error_Some. congruence. Qed.

  Lemma alloc_rep n : 0 < n -> qrep (pqueue_alloc_size n) [].
  Proof.
    intros H. split; [|simpl; auto]. constructor; simpl; auto; try lia.
    - apply malloc_len.
    - destruct (wrap_cases n 0) as [[_ ->]|[? ?]]; lia.
    - intros [|k] v Hv; discriminate.
  Qed.

  Lemma grow_rep q l : qpre q l -> length l = qsize q -> exists q', pqueue_grow q = Some q' /\ qrep q' l.
  Proof.
    intros [M T L Hh E] F. rewrite F in Hh.
    assert (Hht : qhead q = qtail q) by (destruct (wrap_cases (qsize q) (qtail q + qsize q)); lia).
    unfold pqueue_grow.
    destruct (mcopy_ok (qmem q) 0 (qhead q) 0 (malloc (qsize q * 2))) as [m1 [E1 [L1 [R1 R2]]]]; [lia|rewrite malloc_len; lia|].
    rewrite E1. rewrite malloc_len in L1.
    destruct (mcopy_ok (qmem q) (qsize q) (qsize q - qhead q) (qhead q) m1) as [m2 [E2 [L2 [R3 R4]]]]; [lia|lia|].
    rewrite E2. eexists. split; [reflexivity|]. split; [|simpl; lia]. constructor; simpl; try lia.
    - destruct (wrap_cases (qsize q * 2) (qtail q + qsize q + length l)); lia.
    - intros k v Hk. pose proof (nth_lt _ _ _ Hk). pose proof (E k v Hk) as Ek.
      destruct (wrap_cases (qsize q) (qtail q + k)) as [[C1 C2]|[C1 C2]]; rewrite C2 in Ek;
        destruct (wrap_cases (qsize q * 2) (qtail q + qsize q + k)) as [[D1 D2]|[D1 D2]]; try lia; rewrite D2.
      + replace (qtail q + qsize q + k) with (qtail q + k + qsize q) by lia. rewrite R3 by lia. exact Ek.
      + rewrite R4 by lia. replace (qtail q + qsize q + k - qsize q * 2) with (qtail q + k - qsize q + 0) by lia. rewrite R1 by lia. exact Ek.
  Qed.

  Lemma finish q l : qpre q l -> 0 < length l ->
    exists q', (if qhead q =? qtail q then pqueue_grow q else Some q) = Some q' /\ qrep q' l.
  Proof.
    intros P N. destruct (Nat.eqb_spec (qhead q) (qtail q)) as [E|E].
    - apply grow_rep; auto. destruct P. destruct (wrap_cases (qsize q) (qtail q + length l)); lia.
    - exists q. split; auto. split; auto. destruct P. destruct (wrap_cases (qsize q) (qtail q + length l)); lia.
  Qed.

  Lemma store_rep q l v : qrep q l -> exists q', pqueue_store q v = Some q' /\ qrep q' (l ++ [v]).
  Proof.
    intros [[M T L Hh E] Lt]. unfold pqueue_store.
    destruct (mwrite_ok (qmem q) (qhead q) (Some v)) as [m [E1 [L1 [R1 R2]]]].
    { destruct (wrap_cases (qsize q) (qtail q + length l)); lia. }
    rewrite E1.
    destruct (finish {| qsize := qsize q; qhead := if qhead q + 1 =? qsize q then 0 else qhead q + 1; qtail := qtail q; qmem := m |} (l ++ [v]))
      as [q' [E2 R]].
    - constructor; simpl; try lia.
      + rewrite app_length. simpl. lia.
      + rewrite app_length. simpl. destruct (wrap_cases (qsize q) (qtail q + length l)); destruct (wrap_cases (qsize q) (qtail q + (length l + 1)));
          destruct (Nat.eqb_spec (qhead q + 1) (qsize q)); lia.
      + intros k w Hk. pose proof (nth_lt _ _ _ Hk) as Hl. rewrite app_length in Hl. simpl in Hl. destruct (Nat.eq_dec k (length l)) as [->|N].
        * rewrite nth_error_app2, Nat.sub_diag in Hk by lia. simpl in Hk. inversion Hk; subst. rewrite <- Hh. exact R1.
        * rewrite nth_error_app1 in Hk by lia. rewrite R2; auto.
          destruct (wrap_cases (qsize q) (qtail q + length l)); destruct (wrap_cases (qsize q) (qtail q + k)); lia.
    - rewrite app_length. simpl. lia.
    - exists q'. split; auto.
  Qed.

  Lemma bury_rep q l v : qrep q l -> exists q', pqueue_bury q v = Some q' /\ qrep q' (v :: l).
  Proof.
    intros [[M T L Hh E] Lt]. unfold pqueue_bury.
    set (t := if qtail q =? 0 then qsize q - 1 else qtail q - 1).
    assert (Ht : t < qsize q /\ wrap (qsize q) (t + 1) = qtail q).
    { unfold t. destruct (Nat.eqb_spec (qtail q) 0); [destruct (wrap_cases (qsize q) (qsize q - 1 + 1))|destruct (wrap_cases (qsize q) (qtail q - 1 + 1))]; lia. }
    destruct Ht as [Ht1 Ht2].
    destruct (mwrite_ok (qmem q) t (Some v)) as [m [E1 [L1 [R1 R2]]]]; [lia|]. rewrite E1.
    assert (Sh : forall k, k < qsize q -> wrap (qsize q) (t + S k) = wrap (qsize q) (qtail q + k) /\ (k < qsize q - 1 -> wrap (qsize q) (qtail q + k) <> t)).
    { intros k Hk. destruct (wrap_cases (qsize q) (t + 1)); destruct (wrap_cases (qsize q) (t + S k)); destruct (wrap_cases (qsize q) (qtail q + k)); lia. }
    destruct (finish {| qsize := qsize q; qhead := qhead q; qtail := t; qmem := m |} (v :: l)) as [q' [E2 R]].
    - constructor; simpl; try lia.
      + destruct (Sh (length l) Lt) as [-> _]. exact Hh.
      + intros k w Hk. pose proof (nth_lt _ _ _ Hk) as Hl. simpl in Hl. destruct k as [|k]; simpl in Hk.
        * inversion Hk; subst. rewrite Nat.add_0_r. destruct (wrap_cases (qsize q) t) as [[_ ->]|[? ?]]; [exact R1|lia].
        * destruct (Sh k) as [-> Hn]; [lia|]. rewrite R2; auto. apply Hn. lia.
    - simpl. lia.
    - exists q'. split; auto.
  Qed.

  Lemma head_el q v l : qrep q (v :: l) -> mread (qmem q) (qtail q) = Some v.
  Proof.
    intros [[M T L Hh E] Lt]. apply mread_nth. specialize (E 0 v eq_refl). rewrite Nat.add_0_r in E.
    destruct (wrap_cases (qsize q) (qtail q)) as [[_ W]|[? ?]]; [rewrite W in E; auto|lia].
  Qed.
  Lemma next_rep q v l : qrep q (v :: l) -> exists q', pqueue_get_next q = Some (v, q') /\ qrep q' l.
  Proof.
    intros R. pose proof (head_el _ _ _ R) as Hr. destruct R as [[M T L Hh E] Lt]. simpl in *. unfold pqueue_get_next. rewrite Hr. eexists. split; [reflexivity|].
    set (t := if qtail q + 1 =? qsize q then 0 else qtail q + 1).
    assert (Sh : forall k, k < qsize q -> t < qsize q /\ wrap (qsize q) (t + k) = wrap (qsize q) (qtail q + S k)).
    { intros k Hk. unfold t. destruct (Nat.eqb_spec (qtail q + 1) (qsize q));
        [destruct (wrap_cases (qsize q) (0 + k))|destruct (wrap_cases (qsize q) (qtail q + 1 + k))]; destruct (wrap_cases (qsize q) (qtail q + S k)); lia. }
    split; [|simpl; lia]. constructor; simpl; try lia.
    - destruct (Sh 0); lia.
    - destruct (Sh (length l)) as [_ ->]; [lia|]. exact Hh.
    - intros k w Hk. pose proof (nth_lt _ _ _ Hk). destruct (Sh k) as [_ ->]; [lia|]. apply E. exact Hk.
  Qed.

  Lemma last_idx q v l : qrep q (l ++ [v]) -> (if qhead q =? 0 then qsize q - 1 else qhead q - 1) = wrap (qsize q) (qtail q + length l) /\
    mread (qmem q) (if qhead q =? 0 then qsize q - 1 else qhead q - 1) = Some v.
  Proof.
    intros [[M T L Hh E] Lt]. rewrite app_length in *. simpl in *.
    assert (X : (if qhead q =? 0 then qsize q - 1 else qhead q - 1) = wrap (qsize q) (qtail q + length l)).
    { destruct (wrap_cases (qsize q) (qtail q + length l)); destruct (wrap_cases (qsize q) (qtail q + (length l + 1)));
        destruct (Nat.eqb_spec (qhead q) 0); lia. }
    split; auto. rewrite X. apply mread_nth. apply E. rewrite nth_error_app2, Nat.sub_diag by lia. reflexivity.
  Qed.
  Lemma last_rep q v l : qrep q (l ++ [v]) -> exists q', pqueue_get_last q = Some (v, q') /\ qrep q' l.
  Proof.
    intros R. destruct (last_idx _ _ _ R) as [I1 I2]. destruct R as [[M T L Hh E] Lt]. rewrite app_length in *. simpl in *.
    unfold pqueue_get_last. rewrite I2. eexists. split; [reflexivity|]. split; [|simpl; lia]. constructor; simpl; auto; try lia.
    intros k w Hk. apply E. rewrite nth_error_app1; auto. apply nth_lt in Hk. lia.
  Qed.

  Lemma card_rep q l : qrep q l -> pqueue_card q = length l.
  Proof.
    intros [[M T L Hh E] Lt]. unfold pqueue_card. destruct (wrap_cases (qsize q) (qtail q + length l)); destruct (Nat.leb_spec (qtail q) (qhead q)); lia.
  Qed.
  Lemma empty_rep q l : qrep q l -> pqueue_empty q = match l with [] => true | _ => false end.
  Proof.
    intros [[M T L Hh E] Lt]. unfold pqueue_empty. destruct (wrap_cases (qsize q) (qtail q + length l)); destruct (Nat.eqb_spec (qhead q) (qtail q));
      destruct l; simpl in *; auto; try lia.
  Qed.
  Lemma reset_rep q l : qrep q l -> qrep (pqueue_reset q) [].
  Proof.
    intros [[M T L Hh E] Lt]. split; [|simpl; lia]. constructor; simpl; auto; try lia.
    - destruct (wrap_cases (qsize q) 0); lia.
    - intros [|k] v Hv; discriminate.
  Qed.

  Lemma inc_index q l k : qrep q l -> k < length l ->
    pqueue_inc_index q (wrap (qsize q) (qtail q + k)) = if S k =? length l then None else Some (wrap (qsize q) (qtail q + S k)).
  Proof.
    intros [[M T L Hh E] Lt] Hk. unfold pqueue_inc_index.
    assert (X : (wrap (qsize q) (qtail q + k) + 1) mod qsize q = wrap (qsize q) (qtail q + S k)).
    { destruct (wrap_cases (qsize q) (qtail q + k)) as [[C ->]|[C ->]]; destruct (wrap_cases (qsize q) (qtail q + S k)) as [[D ->]|[D ->]]; try lia.
      - rewrite Nat.mod_small; lia.
      - replace (qtail q + k + 1) with (qsize q) by lia. rewrite Nat.mod_same; lia.
      - rewrite Nat.mod_small; lia. }
    rewrite X, Hh. destruct (Nat.eqb_spec (S k) (length l)) as [<-|N].
    - rewrite Nat.eqb_refl. reflexivity.
    - destruct (Nat.eqb_spec (wrap (qsize q) (qtail q + S k)) (wrap (qsize q) (qtail q + length l))); auto.
      destruct (wrap_cases (qsize q) (qtail q + S k)); destruct (wrap_cases (qsize q) (qtail q + length l)); lia.
  Qed.
  Lemma iterate_from q l : qrep q l -> forall fuel k, k < length l -> length l - k <= fuel ->
    pqueue_iterate fuel q (Some (wrap (qsize q) (qtail q + k))) = Some (skipn k l).
  Proof.
    intros R. induction fuel as [|n IH]; intros k Hk Hf; [lia|]. cbn [pqueue_iterate].
    destruct (nth_error l k) as [v|] eqn:En; [|apply nth_error_None in En; lia].
    assert (El : pqueue_element q (wrap (qsize q) (qtail q + k)) = Some v) by (apply mread_nth; apply R; auto).
    rewrite El, (inc_index _ _ _ R Hk). assert (Sk : skipn k l = v :: skipn (S k) l).
    { clear - En. revert l En. induction k; intros [|x l] En; simpl in *; try discriminate; [congruence|]. apply IHk. auto. }
    rewrite Sk. destruct (Nat.eqb_spec (S k) (length l)) as [e|e].
    - rewrite e, skipn_all. destruct n; reflexivity.
    - rewrite IH by lia. reflexivity.
  Qed.
  Lemma iterate_rep q l : qrep q l -> pqueue_iterate (qsize q) q (pqueue_tail_index q) = Some l.
  Proof.
    intros R. unfold pqueue_tail_index. rewrite (empty_rep _ _ R). destruct l as [|v l]; [destruct (qsize q); reflexivity|].
    pose proof R as [[M T L Hh E] Lt]. replace (qtail q) with (wrap (qsize q) (qtail q + 0)) by (destruct (wrap_cases (qsize q) (qtail q + 0)); lia).
    rewrite (iterate_from _ _ R); simpl in *; auto; lia.
  Qed.

  Lemma step_rep q l o b l' : qrep q l -> deque_step l o = Some (b, l') -> exists q', pqueue_step q o = Some (b, q') /\ qrep q' l'.
  Proof.
    intros R H. destruct o as [v|v| | | | | | | |]; cbn [deque_step pqueue_step] in *.
    - inversion H; subst. destruct (store_rep q l v R) as [q' [E R']]. exists q'. rewrite E. auto.
    - inversion H; subst. destruct (bury_rep q l v R) as [q' [E R']]. exists q'. rewrite E. auto.
    - destruct l as [|v r]; [discriminate|]. inversion H; subst. destruct (next_rep _ _ _ R) as [q' [E R']]. exists q'. rewrite E. auto.
    - destruct (rev l) as [|v r] eqn:Er; [discriminate|]. inversion H; subst.
      assert (El : l = rev r ++ [v]) by (rewrite <- (rev_involutive l), Er; reflexivity). rewrite El in R.
      destruct (last_rep _ _ _ R) as [q' [E R']]. exists q'. rewrite E. auto.
    - destruct l as [|v r]; [discriminate|]. inversion H; subst. exists q. unfold pqueue_look. rewrite (head_el _ _ _ R). auto.
    - destruct (rev l) as [|v r] eqn:Er; [discriminate|]. inversion H; subst.
      assert (El : l' = rev r ++ [v]) by (rewrite <- (rev_involutive l'), Er; reflexivity). exists q. split; auto. rewrite El in R.
      unfold pqueue_look_last. rewrite (proj2 (last_idx _ _ _ R)). auto.
    - inversion H; subst. exists q. rewrite (card_rep _ _ R). auto.
    - inversion H; subst. exists q. rewrite (empty_rep _ _ R). auto.
    - inversion H; subst. exists q. rewrite (iterate_rep _ _ R). auto.
    - inversion H; subst. eexists. split; [reflexivity|]. eapply reset_rep; eauto.
  Qed.

  Lemma run_rep os : forall q l bs l', qrep q l -> run deque_step l os = Some (bs, l') -> exists q', run pqueue_step q os = Some (bs, q') /\ qrep q' l'.
  Proof.
    induction os as [|o r IH]; intros q l bs l' R H; simpl in H.
    - inversion H; subst. exists q. auto.
    - destruct (deque_step l o) as [[b l1]|] eqn:E; [|discriminate]. destruct (run deque_step l1 r) as [[bs1 l2]|] eqn:E2; [|discriminate].
      inversion H; subst. destruct (step_rep _ _ _ _ _ R E) as [q1 [E3 R1]]. destruct (IH _ _ _ _ R1 E2) as [q2 [E4 R2]].
      exists q2. cbn [run]. rewrite E3, E4. auto.
  Qed.
End Q.

Section Stack.
  Context {A : Type}.
  Implicit Types (s : pstack A) (l : list A).

  Record srep s l : Prop := {
    sr_mem : length (smem s) = ssize s;
    sr_cur : scur s = length l;
    sr_len : length l <= ssize s;
    sr_pos : 0 < ssize s;
    sr_el : forall k v, nth_error l k = Some v -> nth_error (smem s) k = Some (Some v) }.

  Lemma salloc_rep n : 0 < n -> srep (pstack_var_alloc n) [].
  Proof. intros H. constructor; simpl; auto; try lia. apply malloc_len. intros [|k] v E; discriminate. Qed.

  Lemma push_rep s l v : srep s l -> exists s', pstack_push s v = Some s' /\ srep s' (l ++ [v]).
  Proof.
    intros [M C L P E]. unfold pstack_push.
    assert (X : exists s1, (if scur s =? ssize s then pstack_grow s else Some s) = Some s1 /\ srep s1 l /\ length l < ssize s1).
    { destruct (Nat.eqb_spec (scur s) (ssize s)) as [Es|Es].
      - unfold pstack_grow. destruct (mcopy_ok (smem s) 0 (ssize s) 0 (malloc (ssize s * 2))) as [m [E1 [L1 [R1 R2]]]]; [lia|rewrite malloc_len; lia|].
        rewrite E1. rewrite malloc_len in L1. eexists. split; [reflexivity|]. split; [|simpl; lia]. constructor; simpl; try lia.
        intros k v0 Hk. pose proof (nth_lt _ _ _ Hk). rewrite <- (Nat.add_0_r k), R1 by lia. auto.
      - exists s. split; auto. split; [constructor; auto|lia]. }
    destruct X as [s1 [-> [[M1 C1 L1 P1 E1] Lt]]].
    destruct (mwrite_ok (smem s1) (scur s1) (Some v)) as [m [E2 [L2 [R1 R2]]]]; [lia|]. rewrite E2. eexists. split; [reflexivity|].
    constructor; simpl; rewrite ?app_length; simpl; try lia.
    intros k w Hk. pose proof (nth_lt _ _ _ Hk) as Hl. rewrite app_length in Hl. simpl in Hl. destruct (Nat.eq_dec k (length l)) as [->|N].
    - rewrite nth_error_app2, Nat.sub_diag in Hk by lia. simpl in Hk. inversion Hk; subst. rewrite <- C1. auto.
    - rewrite nth_error_app1 in Hk by lia. rewrite R2 by lia. auto.
  Qed.

  Lemma firstn_nth l k n v : nth_error (firstn n l) k = Some v -> nth_error l k = Some v.
  Proof.
    intros H. pose proof (nth_lt _ _ _ H) as Hl. rewrite firstn_length in Hl. rewrite <- (firstn_skipn n l), nth_error_app1; auto.
    rewrite firstn_length. lia.
  Qed.
  Lemma shrink_rep s l c : srep s l -> c <= length l -> srep {| ssize := ssize s; scur := c; smem := smem s |} (firstn c l).
  Proof.
    intros [M C L P E] Hc. constructor; simpl; auto; rewrite ?firstn_length; try lia. intros k v Hk. apply E. eapply firstn_nth; eauto.
  Qed.
  Lemma set_nth_len l i v : i < length l -> length (set_nth l i v) = length l.
  Proof. intros H. unfold set_nth. rewrite app_length, firstn_length. cbn [length]. rewrite skipn_length. lia. Qed.
  Lemma set_nth_el l i v k w : i < length l -> nth_error (set_nth l i v) k = Some w -> (k = i /\ w = v) \/ (k <> i /\ nth_error l k = Some w).
  Proof.
    intros H Hk. unfold set_nth in Hk. destruct (Nat.lt_ge_cases k i) as [C|C].
    - rewrite nth_error_app1 in Hk by (rewrite firstn_length; lia). right. split; [lia|]. eapply firstn_nth; eauto.
    - rewrite nth_error_app2 in Hk by (rewrite firstn_length; lia). rewrite firstn_length, Nat.min_l in Hk by lia.
      destruct (Nat.eq_dec k i) as [->|N].
      + rewrite Nat.sub_diag in Hk. simpl in Hk. inversion Hk; auto.
      + right. split; auto. replace (k - i) with (S (k - S i)) in Hk by lia. cbn [nth_error] in Hk.
        rewrite <- (firstn_skipn (S i) l), nth_error_app2 by (rewrite firstn_length; lia). rewrite firstn_length, Nat.min_l by lia. auto.
  Qed.
  Lemma write_rep s l i v m : srep s l -> i < length l -> mwrite (smem s) i (Some v) = Some m ->
    srep {| ssize := ssize s; scur := scur s; smem := m |} (set_nth l i v).
  Proof.
    intros [M C L P E] Hi Hm. destruct (mwrite_ok (smem s) i (Some v)) as [m' [E1 [L1 [R1 R2]]]]; [lia|]. rewrite E1 in Hm. inversion Hm; subst.
    constructor; simpl; rewrite ?set_nth_len; auto; try lia. intros k w Hk. apply set_nth_el in Hk; auto. destruct Hk as [[-> ->]|[N Hk]]; auto.
    rewrite R2; auto.
  Qed.
  Lemma el_rep s l i v : srep s l -> nth_error l i = Some v -> mread (smem s) i = Some v.
  Proof. intros R H. apply mread_nth. apply R. auto. Qed.

  Lemma push_from_rep s2 l2 : srep s2 l2 -> forall cnt i s1 l1, i + cnt = length l2 -> srep s1 l1 ->
    exists s', push_from s1 s2 cnt i = Some s' /\ srep s' (l1 ++ skipn i l2).
  Proof.
    intros R2. induction cnt as [|c IH]; intros i s1 l1 Hi R1; simpl.
    - exists s1. split; auto. rewrite skipn_all2 by lia. rewrite app_nil_r. auto.
    - destruct (nth_error l2 i) as [v|] eqn:En; [|apply nth_error_None in En; lia]. unfold pstack_element. rewrite (el_rep _ _ _ _ R2 En).
      destruct (push_rep s1 l1 v R1) as [s3 [E3 R3]]. rewrite E3. destruct (IH (S i) s3 _ ltac:(lia) R3) as [s' [E' R']]. exists s'. split; auto.
      assert (Sk : skipn i l2 = v :: skipn (S i) l2).
      { clear - En. revert l2 En. induction i; intros [|x l] En; simpl in *; try discriminate; [congruence|]. apply IHi. auto. }
      rewrite Sk. rewrite <- app_assoc in R'. exact R'.
  Qed.
  Lemma push_stack_rep s1 l1 s2 l2 : srep s1 l1 -> srep s2 l2 -> exists s', pstack_push_stack s1 s2 = Some s' /\ srep s' (l1 ++ l2).
  Proof.
    intros R1 R2. unfold pstack_push_stack. rewrite (sr_cur _ _ R2). destruct (push_from_rep _ _ R2 (length l2) 0 s1 l1 eq_refl R1) as [s' [E R]].
    exists s'. auto.
  Qed.
  Lemma copy_rep s l : srep s l -> exists s', pstack_copy s = Some s' /\ srep s' l.
  Proof. intros R. apply (push_stack_rep pstack_alloc [] s l); auto. apply salloc_rep. lia. Qed.

  Lemma find_rep eqb s l v : srep s l -> forall cnt i, i + cnt = length l -> find_from eqb s v cnt i = Some (existsb (fun w => eqb w v) (skipn i l)).
  Proof.
    intros R. induction cnt as [|c IH]; intros i Hi; simpl.
    - rewrite skipn_all2 by lia. reflexivity.
    - destruct (nth_error l i) as [w|] eqn:En; [|apply nth_error_None in En; lia]. unfold pstack_element. rewrite (el_rep _ _ _ _ R En).
      assert (Sk : skipn i l = w :: skipn (S i) l).
      { clear - En. revert l En. induction i; intros [|x l] En; simpl in *; try discriminate; [congruence|]. apply IHi. auto. }
      rewrite Sk. cbn [existsb]. destruct (eqb w v); auto. rewrite IH by lia. reflexivity.
  Qed.

  Lemma pop_rep s l v : srep s l -> nth_error l (length l - 1) = Some v -> exists s', pstack_pop s = Some (v, s') /\ srep s' (firstn (length l - 1) l).
  Proof.
    intros R En. pose proof (nth_lt _ _ _ En). unfold pstack_pop. rewrite (sr_cur _ _ R). destruct (length l) as [|c] eqn:Ec; [lia|].
    simpl in En. rewrite Nat.sub_0_r in En. rewrite (el_rep _ _ _ _ R En). eexists. split; [reflexivity|].
    replace (S c - 1) with c by lia. apply shrink_rep; auto. lia.
  Qed.

  Lemma sstep_rep eqb s l o b l' : srep s l -> stack_step eqb l o = Some (b, l') -> exists s', pstack_step eqb s o = Some (b, s') /\ srep s' l'.
  Proof.
    intros R H. destruct o as [v| | | | |i|i v|i| | | | |v]; cbn [stack_step pstack_step] in *.
    - inversion H; subst. destruct (push_rep s l v R) as [s' [E R']]. exists s'. rewrite E. auto.
    - destruct (nth_error l (length l - 1)) as [v|] eqn:En; [|discriminate]. inversion H; subst. destruct (pop_rep _ _ _ R En) as [s' [E R']].
      exists s'. rewrite E. auto.
    - destruct l as [|x r]; [discriminate|]. unfold pstack_discard_top. rewrite (sr_cur _ _ R).
      assert (HL : length (x :: r) = S (length r)) by reflexivity. rewrite HL in *. rewrite Nat.sub_succ, Nat.sub_0_r in H.
      pose proof (shrink_rep _ _ (length r) R ltac:(simpl; lia)) as X. injection H as <- <-. eexists. split; [reflexivity|]. exact X.
    - destruct (nth_error l (length l - 1)) as [v|] eqn:En; [|discriminate]. inversion H; subst. exists s. split; auto.
      pose proof (nth_lt _ _ _ En). unfold pstack_top. rewrite (sr_cur _ _ R). destruct (length l') as [|c]; [lia|].
      simpl in En. rewrite Nat.sub_0_r in En. rewrite (el_rep _ _ _ _ R En). auto.
    - destruct (Nat.leb_spec 2 (length l)); [|discriminate]. destruct (nth_error l (length l - 2)) as [v|] eqn:En; [|discriminate].
      inversion H; subst. exists s. split; auto. unfold pstack_below_top. rewrite (sr_cur _ _ R). destruct (length l') as [|[|c]]; try lia.
      simpl in En. rewrite Nat.sub_0_r in En. rewrite (el_rep _ _ _ _ R En). auto.
    - destruct (nth_error l i) as [v|] eqn:En; [|discriminate]. inversion H; subst. exists s. unfold pstack_element. rewrite (el_rep _ _ _ _ R En). auto.
    - destruct (Nat.ltb_spec i (length l)); [|discriminate]. inversion H; subst. unfold pstack_assign. pose proof R as [M C L P E].
      destruct (mwrite_ok (smem s) i (Some v)) as [m [E1 _]]; [lia|]. rewrite E1. eexists. split; [reflexivity|]. eapply write_rep; eauto.
    - destruct (Nat.ltb_spec i (length l)); [|discriminate]. unfold pstack_discard_element. pose proof R as [M C L P E]. rewrite C.
      destruct (length l) as [|c] eqn:Ec; [lia|]. rewrite Nat.sub_succ, Nat.sub_0_r in *. rewrite (Nat.eqb_sym i c) in H. destruct (Nat.eqb_spec c i) as [->|N].
      + inversion H; subst. eexists. split; [reflexivity|]. apply shrink_rep; auto. lia.
      + destruct (nth_error l c) as [v|] eqn:En; [|apply nth_error_None in En; lia]. inversion H; subst. rewrite (E _ _ En).
        destruct (mwrite_ok (smem s) i (Some v)) as [m [E1 _]]; [lia|]. rewrite E1. eexists. split; [reflexivity|].
        apply (write_rep {| ssize := ssize s; scur := c; smem := smem s |} (firstn c l) i v m); auto.
        * apply shrink_rep; auto. lia.
        * rewrite firstn_length. lia.
    - inversion H; subst. exists s. rewrite (sr_cur _ _ R). auto.
    - inversion H; subst. eexists. split; [reflexivity|]. apply (shrink_rep s l 0 R). lia.
    - inversion H; subst. destruct (copy_rep s l' R) as [s' [E R']]. exists s'. rewrite E. auto.
    - inversion H; subst. destruct (copy_rep s l R) as [s' [E R']]. rewrite E. destruct (push_stack_rep _ _ _ _ R R') as [s2 [E2 R2]].
      exists s2. rewrite E2. auto.
    - inversion H; subst. exists s. unfold pstack_find. rewrite (sr_cur _ _ R), (find_rep eqb s l' v R (length l') 0 eq_refl). auto.
  Qed.

  Lemma srun_rep eqb os : forall s l bs l', srep s l -> run (stack_step eqb) l os = Some (bs, l') ->
    exists s', run (pstack_step eqb) s os = Some (bs, s') /\ srep s' l'.
  Proof.
    induction os as [|o r IH]; intros s l bs l' R H; simpl in H.
    - inversion H; subst. exists s. auto.
    - destruct (stack_step eqb l o) as [[b l1]|] eqn:E; [|discriminate]. destruct (run (stack_step eqb) l1 r) as [[bs1 l2]|] eqn:E2; [|discriminate].
      inversion H; subst. destruct (sstep_rep _ _ _ _ _ _ R E) as [q1 [E3 R1]]. destruct (IH _ _ _ _ R1 E2) as [q2 [E4 R2]].
      exists q2. cbn [run]. rewrite E3, E4. auto.
  Qed.

  (** ** merging *)
  Variable cmp : A -> A -> comparison.
  Definition cle (a b : A) : Prop := cmp a b <> Gt.
  Hypothesis cmp_sym : forall a b, cmp b a = CompOpp (cmp a b).
  Hypothesis cmp_trans : forall a b c, cle a b -> cle b c -> cle a c.

  Lemma clt_le a b : cmp a b = Lt -> cle a b.
  Proof. unfold cle. congruence. Qed.
  Lemma cle_total a b : cle a b \/ cle b a.
  Proof. unfold cle. rewrite (cmp_sym a b). destruct (cmp a b); simpl; [left|left|right]; discriminate. Qed.
  Lemma clt_cle_trans a b c : cmp a b = Lt -> cle b c -> cmp a c = Lt.
  Proof.
    intros H1 H2. destruct (cmp a c) eqn:E; auto; exfalso.
    - assert (X : cle b a). { apply (cmp_trans b c a); auto. unfold cle. rewrite (cmp_sym a c), E. discriminate. }
      apply X. rewrite (cmp_sym a b), H1. reflexivity.
    - assert (X : cle b a). { apply (cmp_trans b c a); auto. unfold cle. rewrite (cmp_sym a c), E. discriminate. }
      apply X. rewrite (cmp_sym a b), H1. reflexivity.
  Qed.

  (** bottom-first lists: [up] strictly increasing towards the top, [down] decreasing *)
  Definition up l := forall i j a b, i < j -> nth_error l i = Some a -> nth_error l j = Some b -> cmp a b = Lt.
  Definition down l := forall i j a b, i < j -> nth_error l i = Some a -> nth_error l j = Some b -> cle b a.

  Lemma last_nth l v : nth_error (l ++ [v]) (length (l ++ [v]) - 1) = Some v.
  Proof. rewrite app_length. simpl. rewrite Nat.add_sub, nth_error_app2, Nat.sub_diag by lia. reflexivity. Qed.
  Lemma last_firstn l v : firstn (length (l ++ [v]) - 1) (l ++ [v]) = l.
  Proof. rewrite app_length. simpl. rewrite Nat.add_sub, firstn_app, Nat.sub_diag, firstn_all. simpl. apply app_nil_r. Qed.
  Lemma empty_srep s l : srep s l -> pstack_empty s = match l with [] => true | _ => false end.
  Proof. intros R. unfold pstack_empty. rewrite (sr_cur _ _ R). destruct l; reflexivity. Qed.
  Lemma pop_last s l v : srep s (l ++ [v]) -> exists s', pstack_pop s = Some (v, s') /\ srep s' l.
  Proof. intros R. destruct (pop_rep _ _ v R (last_nth l v)) as [s' [E R']]. rewrite last_firstn in R'. eauto. Qed.
  Lemma top_last s l v : srep s (l ++ [v]) -> pstack_top s = Some v.
  Proof.
    intros R. unfold pstack_top. rewrite (sr_cur _ _ R), app_length. simpl. rewrite Nat.add_comm. simpl. apply (el_rep _ _ _ _ R).
    rewrite nth_error_app2, Nat.sub_diag by lia. reflexivity.
  Qed.
  Lemma down_last l v : down (l ++ [v]) -> down l /\ forall x, In x l -> cle v x.
  Proof.
    intros D. split.
    - intros i j a b Hij Ha Hb. apply (D i j a b Hij); rewrite nth_error_app1; auto; apply nth_error_Some; congruence.
    - intros x Hx. apply In_nth_error in Hx. destruct Hx as [i Hi]. pose proof (nth_lt _ _ _ Hi). apply (D i (length l) x v); auto.
      + rewrite nth_error_app1; auto.
      + rewrite nth_error_app2, Nat.sub_diag by lia. reflexivity.
  Qed.
  Lemma up_snoc l v : up l -> (forall x, In x l -> cmp x v = Lt) -> up (l ++ [v]).
  Proof.
    intros U H i j a b Hij Ha Hb. pose proof (nth_lt _ _ _ Hb) as Hl. rewrite app_length in Hl. simpl in Hl.
    assert (Ha' : nth_error l i = Some a) by (rewrite nth_error_app1 in Ha by lia; exact Ha). destruct (Nat.eq_dec j (length l)) as [->|N].
    - rewrite nth_error_app2, Nat.sub_diag in Hb by lia. simpl in Hb. inversion Hb; subst. apply H. eapply nth_error_In; eauto.
    - rewrite nth_error_app1 in Hb by lia. exact (U i j a b Hij Ha' Hb).
  Qed.

  Lemma merge_rep : forall fuel s1 s2 r l1 l2 lr, srep s1 l1 -> srep s2 l2 -> srep r lr -> down l1 -> down l2 -> up lr ->
    (forall x y, In x lr -> In y (l1 ++ l2) -> cle x y) -> length l1 + length l2 <= fuel ->
    exists r' lr', pstack_merge fuel cmp s1 s2 r = Some r' /\ srep r' lr' /\ up lr' /\ incl lr lr' /\ incl lr' (lr ++ l1 ++ l2) /\
      (forall y, In y (l1 ++ l2) -> exists x, In x lr' /\ cmp x y = Eq).
  Proof.
    induction fuel as [|n IH]; intros s1 s2 r l1 l2 lr R1 R2 Rr D1 D2 U B F.
    - destruct l1; [|simpl in F; lia]. destruct l2; [|simpl in F; lia]. cbn [pstack_merge]. rewrite (empty_srep _ _ R1), (empty_srep _ _ R2). simpl.
      exists r, lr. split; auto. split; auto. split; auto. split; [intros x; auto|]. split; [rewrite app_nil_r; intros x; auto|intros ? []].
    - cbn [pstack_merge]. rewrite (empty_srep _ _ R1), (empty_srep _ _ R2), (empty_srep _ _ Rr).
      (* the element taken *)
      assert (X : l1 = [] /\ l2 = [] \/ (exists v l1' l2' s1' s2',
        (if match l1 with [] => true | _ => false end then match pstack_pop s2 with Some (v, s2') => Some (v, s1, s2') | None => None end
         else if match l2 with [] => true | _ => false end then match pstack_pop s1 with Some (v, s1') => Some (v, s1', s2) | None => None end
         else match pstack_top s1, pstack_top s2 with
              | Some a, Some b => match cmp a b with
                                  | Lt => match pstack_pop s1 with Some (v, s1') => Some (v, s1', s2) | None => None end
                                  | _ => match pstack_pop s2 with Some (v, s2') => Some (v, s1, s2') | None => None end
                                  end
              | _, _ => None
              end) = Some (v, s1', s2') /\ srep s1' l1' /\ srep s2' l2' /\ down l1' /\ down l2' /\ length l1' + length l2' < length l1 + length l2 /\
         (forall x, In x (l1 ++ l2) <-> x = v \/ In x (l1' ++ l2')) /\ (forall x, In x (l1' ++ l2') -> cle v x))).
      { clear IH. destruct l1 as [|x1 t1 _] using rev_ind; destruct l2 as [|x2 t2 _] using rev_ind.
        - left. auto.
        - right. destruct (pop_last _ _ _ R2) as [s2' [E R2']]. destruct (down_last _ _ D2) as [D2' M2]. exists x2, [], t2, s1, s2'. rewrite E.
          split; [reflexivity|]. split; auto. split; auto. split; auto. split; auto. split; [simpl; rewrite app_length; simpl; lia|]. split.
          + intros x. simpl. rewrite in_app_iff. simpl. intuition auto.
          + simpl. exact M2.
        - right. destruct (pop_last _ _ _ R1) as [s1' [E R1']]. destruct (down_last _ _ D1) as [D1' M1]. exists x1, t1, [], s1', s2.
          assert (N : match t1 ++ [x1] with [] => true | _ => false end = false) by (destruct t1; reflexivity). rewrite N, E.
          split; [reflexivity|]. split; auto. split; auto. split; auto. split; auto. split; [simpl; rewrite app_length; simpl; lia|]. split.
          + intros x. rewrite !app_nil_r, in_app_iff. simpl. intuition auto.
          + rewrite app_nil_r. exact M1.
        - right. destruct (pop_last _ _ _ R1) as [s1' [E1 R1']]. destruct (pop_last _ _ _ R2) as [s2' [E2 R2']].
          destruct (down_last _ _ D1) as [D1' M1]. destruct (down_last _ _ D2) as [D2' M2].
          assert (N1 : match t1 ++ [x1] with [] => true | _ => false end = false) by (destruct t1; reflexivity).
          assert (N2 : match t2 ++ [x2] with [] => true | _ => false end = false) by (destruct t2; reflexivity). rewrite N1, N2.
          rewrite (top_last _ _ _ R1), (top_last _ _ _ R2), E1, E2.
          assert (C : (cmp x1 x2 = Lt /\ cle x1 x2) \/ (cmp x1 x2 <> Lt /\ cle x2 x1)).
          { unfold cle. rewrite (cmp_sym x1 x2). destruct (cmp x1 x2); simpl; [right|left|right]; split; discriminate || reflexivity. }
          destruct C as [[C1 C2]|[C1 C2]].
          + exists x1, t1, (t2 ++ [x2]), s1', s2. rewrite C1. split; [reflexivity|]. split; auto. split; auto. split; auto. split; auto.
            split; [rewrite !app_length; simpl; lia|]. split.
            * intros x. rewrite !in_app_iff. simpl. intuition auto.
            * intros x. rewrite !in_app_iff. simpl. intros [H|[H|[<-|[]]]]; auto. apply (cmp_trans x1 x2 x); auto.
          + exists x2, (t1 ++ [x1]), t2, s1, s2'. split; [destruct (cmp x1 x2); auto; congruence|]. split; auto. split; auto. split; auto. split; auto.
            split; [rewrite !app_length; simpl; lia|]. split.
            * intros x. rewrite !in_app_iff. simpl. intuition auto.
            * intros x. rewrite !in_app_iff. simpl. intros [[H|[<-|[]]]|H]; auto. apply (cmp_trans x2 x1 x); auto. }
      destruct X as [[-> ->]|[v [l1' [l2' [s1' [s2' [E [R1' [R2' [D1' [D2' [Len [Mem Min]]]]]]]]]]]]].
      { simpl. exists r, lr. split; auto. split; auto. split; auto. split; [intros x; auto|]. split; [rewrite app_nil_r; intros x; auto|intros ? []]. }
      assert (N : match l1 with [] => true | _ => false end && match l2 with [] => true | _ => false end = false).
      { destruct l1, l2; auto. simpl in Len. lia. }
      rewrite N, E.
      assert (Bv : forall x, In x lr -> cle x v) by (intros x Hx; apply B; auto; apply Mem; auto).
      destruct lr as [|w lr0 _] using rev_ind.
      + destruct (push_rep r [] v Rr) as [r1 [Er Rr1]]. rewrite Er. simpl in Rr1.
        destruct (IH s1' s2' r1 l1' l2' [v]) as [r' [lr' [I1 [I2 [I3 [I4 [I5 I6]]]]]]]; auto.
        * intros [|i] [|j] a b Hij Ha Hb; try lia; destruct j; discriminate.
        * intros x y [<-|[]] Hy. auto.
        * lia.
        * exists r', lr'. split; auto. split; auto. split; auto. split; [intros ? []|]. split.
          { intros x Hx. simpl. apply Mem. apply I5 in Hx. destruct Hx as [<-|Hx]; auto. }
          { intros y Hy. apply Mem in Hy. destruct Hy as [->|Hy]; auto. exists v. split; [apply I4; simpl; auto|].
            pose proof (cmp_sym v v) as Sv. destruct (cmp v v); auto; discriminate. }
      + assert (N2 : match lr0 ++ [w] with [] => true | _ => false end = false) by (destruct lr0; reflexivity). rewrite N2, (top_last _ _ _ Rr).
        assert (Hw : cle w v) by (apply Bv; apply in_or_app; simpl; auto).
        destruct (cmp w v) eqn:Ew.
        * destruct (IH s1' s2' r l1' l2' (lr0 ++ [w])) as [r' [lr' [I1 [I2 [I3 [I4 [I5 I6]]]]]]]; auto.
          { intros x y Hx Hy. apply B; auto. apply Mem. auto. }
          { lia. }
          exists r', lr'. split; auto. split; auto. split; auto. split; auto. split.
          { intros x Hx. apply I5 in Hx. apply in_app_or in Hx. apply in_or_app. destruct Hx as [Hx|Hx]; auto. right. apply Mem. auto. }
          { intros y Hy. apply Mem in Hy. destruct Hy as [->|Hy]; auto. exists w. split; auto. apply I4. apply in_or_app. simpl. auto. }
        * destruct (push_rep r _ v Rr) as [r1 [Er Rr1]]. rewrite Er.
          destruct (IH s1' s2' r1 l1' l2' ((lr0 ++ [w]) ++ [v])) as [r' [lr' [I1 [I2 [I3 [I4 [I5 I6]]]]]]]; auto.
          { apply up_snoc; auto. intros x Hx. apply in_app_or in Hx. destruct Hx as [Hx|[<-|[]]]; auto.
            apply In_nth_error in Hx. destruct Hx as [i Hi]. pose proof (nth_lt _ _ _ Hi). apply (clt_cle_trans x w v); auto.
            apply (U i (length lr0)); auto; [rewrite nth_error_app1; auto|]. rewrite nth_error_app2, Nat.sub_diag by lia. reflexivity. }
          { intros x y Hx Hy. apply in_app_or in Hx. destruct Hx as [Hx|[<-|[]]]; auto. apply B; auto. apply Mem. auto. }
          { lia. }
          exists r', lr'. split; auto. split; auto. split; auto. split; [intros x Hx; apply I4; apply in_or_app; auto|]. split.
          { intros x Hx. apply I5 in Hx. apply in_app_or in Hx. apply in_or_app. destruct Hx as [Hx|Hx]; [apply in_app_or in Hx; destruct Hx as [Hx|[<-|[]]]; auto|]; right; apply Mem; auto. }
          { intros y Hy. apply Mem in Hy. destruct Hy as [->|Hy]; auto. exists v. split; [apply I4; apply in_or_app; simpl; auto|].
            pose proof (cmp_sym v v) as Sv. destruct (cmp v v); auto; discriminate. }
        * elim (Hw Ew).
  Qed.
End Stack.
