(** Proofs about clause selection: rounds of the queues, progress of the FIFO queue. *)
From Verif Require Import Splay SplayProofs Select SelectProofs.
From Coq Require Import Lia Sorted.
Open Scope Z_scope.

(** ** The control block *)
Definition psum (qs : list (wfun * Z)) (k : nat) : Z := fold_right Z.add 0 (firstn k (map snd qs)).

Lemma fold_add_app a b : fold_right Z.add 0 (a ++ b) = fold_right Z.add 0 a + fold_right Z.add 0 b.
Proof. induction a as [|x a IH]; simpl; [lia|]. rewrite IH. lia. Qed.
Lemma hcb_of_snoc qs q : hcb_of (qs ++ [q]) = hcb_add (hcb_of qs) (fst q) (snd q).
Proof. unfold hcb_of. rewrite fold_left_app. auto. Qed.
Lemma hcb_of_spec qs : h_list (hcb_of qs) = map fst qs /\ h_switch (hcb_of qs) = map (fun i => psum qs (S i)) (seq 0 (length qs)).
Proof.
  induction qs as [|q qs IH] using rev_ind; [auto|]. destruct IH as [L W]. rewrite hcb_of_snoc. unfold hcb_add. simpl. rewrite L, W, map_app. split; auto.
  rewrite app_length, Nat.add_1_r, seq_S, map_app. cbn [map]. rewrite Nat.add_0_l. f_equal.
  - apply map_ext_in. intros i Hi. apply in_seq in Hi. unfold psum. rewrite map_app, firstn_app, map_length.
    replace (S i - length qs)%nat with 0%nat by lia. rewrite firstn_O, app_nil_r. auto.
  - f_equal. rewrite map_length. unfold psum at 2. rewrite map_app, firstn_all2 by (rewrite app_length, map_length; simpl; lia).
    rewrite fold_add_app. simpl. destruct qs as [|q0 qs]; [simpl; lia|].
    cbn [length Nat.eqb].
    assert (N : (S (length qs) - 1 < length (seq 0 (S (length qs))))%nat) by (rewrite seq_length; lia).
    set (g := fun i => psum (q0 :: qs) (S i)). rewrite (nth_indep _ 0 (g 0%nat)) by (rewrite map_length; auto).
    rewrite map_nth. unfold g. rewrite seq_nth by lia. unfold psum.
    rewrite firstn_all2 by (rewrite map_length; simpl; lia). lia.
Qed.
Lemma switch_spec qs i : switch (hcb_of qs) i = if Nat.ltb i (length qs) then psum qs (S i) else 0.
Proof.
  unfold switch. destruct (hcb_of_spec qs) as [_ ->]. destruct (Nat.ltb_spec i (length qs)).
  - set (g := fun i => psum qs (S i)). rewrite (nth_indep _ 0 (g 0%nat)) by (rewrite map_length, seq_length; auto). rewrite map_nth, seq_nth by auto. auto.
  - apply nth_overflow. rewrite map_length, seq_length. auto.
Qed.

Lemma filter_len {A} (P : A -> bool) l : (length (filter P l) <= length l)%nat.
Proof. induction l as [|a l IH]; simpl; auto. destruct (P a); simpl; lia. Qed.
Lemma filter_strict {A} (P : A -> bool) l a : In a l -> P a = false -> (length (filter P l) < length l)%nat.
Proof.
  induction l as [|b l IH]; [intros []|]. intros [->|H] E; simpl; [rewrite E; pose proof (filter_len P l); lia|].
  specialize (IH H E). destruct (P b); simpl; lia.
Qed.

Section Round.
  Variable qs : list (wfun * Z).
  Hypothesis POS : forall q, In q qs -> 0 < snd q.
  Hypothesis NE : qs <> [].
  Let h := hcb_of qs.
  Let n := length qs.
  Let T := round qs.

  Lemma h_len : length (h_list h) = n.
  Proof. unfold h. destruct (hcb_of_spec qs) as [-> _]. rewrite map_length. auto. Qed.
  Lemma h_nth f w s : nth_error qs f = Some (w, s) -> nth_error (h_list h) f = Some w.
  Proof. intros H. unfold h. destruct (hcb_of_spec qs) as [-> _]. rewrite nth_error_map, H. auto. Qed.
  Lemma n_pos : (0 < n)%nat.
  Proof. unfold n. destruct qs; [congruence|simpl; lia]. Qed.
  Lemma psum_S k q : nth_error qs k = Some q -> psum qs (S k) = psum qs k + snd q.
  Proof.
    clear POS NE. unfold psum. revert k. induction qs as [|a l IH]; intros [|k] H; simpl in *; try discriminate.
    - inversion H; subst. lia.
    - specialize (IH k H). cbn [firstn fold_right] in IH |- *. destruct l; [destruct k; discriminate|]. cbn [map] in *. lia.
  Qed.
  Lemma psum_lt k : (k < n)%nat -> psum qs k < psum qs (S k).
  Proof.
    intros H. destruct (nth_error qs k) as [q|] eqn:E; [|apply nth_error_None in E; unfold n in H; lia].
    rewrite (psum_S k q E). apply nth_error_In in E. specialize (POS q E). lia.
  Qed.
  Lemma psum_all : psum qs n = T.
  Proof. unfold psum, T, round, n. rewrite firstn_all2; auto. rewrite map_length. auto. Qed.
  Lemma psum_0 : psum qs 0 = 0. Proof. reflexivity. Qed.
  Lemma psum_mono a b : (a <= b)%nat -> (b <= n)%nat -> psum qs a <= psum qs b.
  Proof. intros H. induction H as [|b H IH]; intros L; [lia|]. pose proof (psum_lt b ltac:(lia)). specialize (IH ltac:(lia)). lia. Qed.

  (** current_eval and select_count *)
  Definition cur_ok (st : sstate) : Prop := (s_cur st < n)%nat /\ psum qs (s_cur st) <= s_cnt st < psum qs (S (s_cur st)).
  Lemma cur_init : cur_ok init.
  Proof. split; simpl; [apply n_pos|]. pose proof (psum_lt 0 n_pos). change (psum qs 0) with 0 in *. lia. Qed.
  Lemma cnt_range st : cur_ok st -> 0 <= s_cnt st < T.
  Proof.
    intros [A B]. pose proof (psum_mono 0 (s_cur st) ltac:(lia) ltac:(lia)). pose proof (psum_mono (S (s_cur st)) n ltac:(lia) ltac:(lia)).
    rewrite psum_all in *. change (psum qs 0) with 0 in *. lia.
  Qed.
  Lemma advance_spec st : cur_ok st -> exists st2, advance h st = Some st2 /\ cur_ok st2 /\
    s_cnt st2 = (if s_cnt st + 1 =? T then 0 else s_cnt st + 1) /\
    u_list st2 = u_list st /\ u_trees st2 = u_trees st /\ s_evals st2 = s_evals st /\ s_fifo st2 = s_fifo st.
  Proof.
    intros K. assert (R := cnt_range st K). destruct K as [A B].
    assert (Q : exists cur, next_eval (S (S (length (h_list h)))) h (s_cnt st + 1) (s_cur st) = Some cur /\
      (cur = s_cur st /\ s_cnt st + 1 < psum qs (S (s_cur st)) \/ cur = S (s_cur st) /\ s_cnt st + 1 = psum qs (S (s_cur st)))).
    { cbn [next_eval]. unfold h. rewrite !switch_spec. destruct (Nat.ltb_spec (s_cur st) (length qs)); [|unfold n in A; lia].
      destruct (Z.eqb_spec (s_cnt st + 1) (psum qs (S (s_cur st)))) as [E|E]; [|exists (s_cur st); split; auto; left; split; auto; lia].
      exists (S (s_cur st)). split; [|auto]. destruct (Nat.ltb_spec (S (s_cur st)) (length qs)) as [L|L].
      - pose proof (psum_lt (S (s_cur st)) L). destruct (Z.eqb_spec (s_cnt st + 1) (psum qs (S (S (s_cur st))))); [lia|auto].
      - destruct (Z.eqb_spec (s_cnt st + 1) 0); [lia|auto]. }
    destruct Q as [cur [E Q]]. unfold advance. rewrite E, h_len.
    destruct Q as [[-> Q]|[-> Q]].
    - destruct (Nat.eqb_spec (s_cur st) n); [lia|]. eexists. split; [reflexivity|]. simpl.
      pose proof (psum_mono (S (s_cur st)) n ltac:(lia) ltac:(lia)). rewrite psum_all in *.
      destruct (Z.eqb_spec (s_cnt st + 1) T); [lia|]. split; [|auto]. split; simpl; lia.
    - destruct (Nat.eqb_spec (S (s_cur st)) n) as [X|X].
      + eexists. split; [reflexivity|]. simpl. rewrite X, psum_all in Q. destruct (Z.eqb_spec (s_cnt st + 1) T); [|lia]. split; [apply cur_init|auto].
      + eexists. split; [reflexivity|]. simpl. pose proof (psum_lt (S (s_cur st)) ltac:(lia)). pose proof (psum_mono (S (S (s_cur st))) n ltac:(lia) ltac:(lia)).
        rewrite psum_all in *. destruct (Z.eqb_spec (s_cnt st + 1) T); [lia|]. split; [|auto]. split; simpl; lia.
  Qed.
  Lemma cur_unique st f : cur_ok st -> (f < n)%nat -> psum qs f <= s_cnt st < psum qs (S f) -> s_cur st = f.
  Proof.
    intros [A B] Hf C. destruct (Nat.lt_trichotomy (s_cur st) f) as [L|[L|L]]; auto.
    - pose proof (psum_mono (S (s_cur st)) f ltac:(lia) ltac:(lia)). lia.
    - pose proof (psum_mono (S f) (s_cur st) ltac:(lia) ltac:(lia)). lia.
  Qed.

  (** ** Selection *)
  Notation inv := (inv h).
  Definition gone (l : list cid) (q : cid * evalcell) : bool := negb (memb l (fst q)).
  Lemma memb_in l c : memb l c = true <-> In c l.
  Proof. unfold memb. rewrite existsb_exists. split; [intros [x [H E]]; apply Nat.eqb_eq in E; subst; auto|intros H; exists c; rewrite Nat.eqb_refl; auto]. Qed.

  Lemma skip_spec orph : forall fuel st, inv st -> cur_ok st -> (length (u_list st) < fuel)%nat ->
    exists r st1 l, skip_orphans fuel orph st = Some (r, st1, l) /\ inv st1 /\ s_cur st1 = s_cur st /\ s_cnt st1 = s_cnt st /\
      u_list st1 = filter (gone l) (u_list st) /\
      (forall c, In c l -> In c (waiting st) /\ orph c = true) /\
      match r with
      | None => u_list st1 = []
      | Some c => orph c = false /\ find_best st1 (s_cur st1) = Some c
      end.
  Proof.
    induction fuel as [|fuel IH]; intros st I K L; [lia|]. cbn [skip_orphans].
    assert (HC : (s_cur st < length (h_list h))%nat) by (rewrite h_len; apply K).
    pose proof (best_spec h st (s_cur st) I HC) as B. destruct (find_best st (s_cur st)) as [c|] eqn:FB.
    - destruct B as [e [Hc B]]. destruct (orph c) eqn:O.
      + assert (EC := extract_cc st c). destruct (IH (extract_entry st c)) as [r [st1 [l [E [I1 [E1 [E2 [E3 [E4 E5]]]]]]]]].
        * apply inv_extract; auto.
        * destruct EC as [EC1 EC2]. unfold cur_ok. rewrite EC1, EC2. auto.
        * rewrite list_extract. pose proof (filter_strict (fun q : cid * evalcell => negb (Nat.eqb (fst q) c)) (u_list st) (c, e) Hc) as FL. simpl in FL. rewrite Nat.eqb_refl in FL. specialize (FL eq_refl).
          eapply Nat.lt_le_trans; [exact FL|]. apply Nat.lt_succ_r. exact L.
        * rewrite E. exists r, st1, (c :: l). destruct EC as [EC1 EC2]. split; auto. split; auto. split; [congruence|]. split; [congruence|]. split.
          -- rewrite E3, list_extract. clear. induction (u_list st) as [|[d e] l0 IHl]; simpl; auto. unfold gone, memb. simpl.
             destruct (Nat.eqb_spec d c) as [->|N]; simpl; [auto|]. unfold gone, memb in IHl. simpl in IHl. simpl. rewrite IHl. auto.
          -- split; auto. intros d [<-|Hd]; [split; auto; apply (in_map fst) in Hc; auto|]. destruct (E4 d Hd) as [A A']. split; auto.
             rewrite waiting_extract in A. apply filter_In in A. tauto.
      + exists (Some c), st, []. split; auto. split; auto. split; auto. split; auto. split.
        * clear. induction (u_list st) as [|q l IHl]; simpl; auto. rewrite <- IHl. auto.
        * split; [intros d []|]. auto.
    - exists None, st, []. split; auto. split; auto. split; auto. split; auto. split.
      + rewrite B. auto.
      + split; [intros d []|auto].
  Qed.

  (** ** Progress of a clause *)
  Section Track.
    Variables (f : nat) (id : nat) (prio : Z -> cid -> Z) (s : Z).
    Hypothesis Hf : nth_error qs f = Some (Fifo id prio, s).
    Hypothesis CP : forall m c, prio m c = PrioNormal.

    Definition before (ec : evalcell) (q : cid * evalcell) : bool := (ecount (snd q) <? ecount ec) || (prio_at f (snd q) <? prio_at f ec).
    Definition ahead (ec : evalcell) (l : list (cid * evalcell)) : nat := length (filter (before ec) l).

    Lemma f_lt : (f < n)%nat. Proof. eapply nth_error_lt; eauto. Qed.
    Lemma ss_two (l : list (cid * evalcell)) a b : StronglySorted (fun a b => ecount (snd a) < ecount (snd b)) l ->
      StronglySorted (fun a b => heur_at f (snd a) <= heur_at f (snd b)) l -> In a l -> In b l -> ecount (snd a) < ecount (snd b) ->
      heur_at f (snd a) <= heur_at f (snd b).
    Proof.
      intros H1. induction H1 as [|x l H1 IH F1]; intros H2 Ha Hb E; [destruct Ha|]. inversion H2 as [|? ? H2' F2]; subst.
      rewrite Forall_forall in F1, F2. destruct Ha as [->|Ha], Hb as [->|Hb]; auto; [lia|]. specialize (F1 a Ha). lia.
    Qed.
    Lemma key_before st c ec d ed : inv st -> In (c, ec) (u_list st) -> In (d, ed) (u_list st) ->
      eval_cmp (ekey f ed) (ekey f ec) = Lt -> before ec (d, ed) = true.
    Proof.
      intros I Hc Hd L. rewrite !ekey_eq in L. apply eval_cmp_lt in L. unfold before. simpl. apply orb_true_iff. rewrite !Z.ltb_lt.
      destruct L as [L|[E [N L]]]; auto. left. destruct L as [L|[_ L]]; auto.
      destruct (iv_fifo _ _ I f id prio (h_nth _ _ _ Hf)) as [_ SS].
      destruct (Z.lt_trichotomy (ecount ed) (ecount ec)) as [Q|[Q|Q]]; auto; [congruence|].
      pose proof (ss_two _ _ _ (iv_sorted _ _ I) SS Hc Hd Q) as R. simpl in R. lia.
    Qed.
    Lemma filter_filter_le {A} (P Q : A -> bool) l : (length (filter P (filter Q l)) <= length (filter P l))%nat.
    Proof. induction l as [|a l IH]; simpl; auto. destruct (Q a); simpl; destruct (P a); simpl; lia. Qed.
    Lemma filter_filter_lt {A} (P Q : A -> bool) l a : In a l -> P a = true -> Q a = false -> (length (filter P (filter Q l)) < length (filter P l))%nat.
    Proof.
      induction l as [|b l IH]; [intros []|]. intros [->|H] HP HQ.
      - simpl. rewrite HQ, HP. simpl. pose proof (filter_filter_le P Q l). lia.
      - specialize (IH H HP HQ). simpl. destruct (Q b); simpl; destruct (P b); simpl; lia.
    Qed.
    Lemma before_self c ec : before ec (c, ec) = false.
    Proof. unfold before. simpl. rewrite !Z.ltb_irrefl. auto. Qed.
    Lemma ahead_lt ec c l : In (c, ec) l -> (ahead ec l < length l)%nat.
    Proof.
      unfold ahead. induction l as [|a l IH]; [intros []|]. intros [->|H]; simpl.
      - rewrite before_self. pose proof (filter_len (before ec) l). lia.
      - specialize (IH H). destruct (before ec a); simpl; lia.
    Qed.
    Lemma in_uniq st c e1 e2 : inv st -> In (c, e1) (u_list st) -> In (c, e2) (u_list st) -> e1 = e2.
    Proof.
      intros I. assert (ND := iv_nodup _ _ I). unfold waiting in ND. revert ND. induction (u_list st) as [|[d e] l IH]; [intros _ []|].
      simpl. intros ND [A|A] [B|B]; inversion ND as [|? ? N1 N2]; subst; try congruence; auto.
      - inversion A; subst. destruct N1. apply (in_map fst) in B. auto.
      - inversion B; subst. destruct N1. apply (in_map fst) in A. auto.
    Qed.

    Definition wait (cnt : Z) : Z := if cnt <=? psum qs f then psum qs f - cnt else psum qs f - cnt + T.
    Definition phi (st : sstate) (ec : evalcell) : Z := Z.of_nat (ahead ec (u_list st)) * T + wait (s_cnt st).

    Lemma T_pos : 0 < T.
    Proof. pose proof (psum_lt 0 n_pos). pose proof (psum_mono 1 n ltac:(pose proof n_pos; lia) ltac:(lia)). rewrite psum_all in *. change (psum qs 0) with 0 in *. lia. Qed.
    Lemma P_range : 0 <= psum qs f < T.
    Proof.
      pose proof f_lt. pose proof (psum_mono 0 f ltac:(lia) ltac:(lia)). pose proof (psum_lt f ltac:(lia)). pose proof (psum_mono (S f) n ltac:(lia) ltac:(lia)).
      rewrite psum_all in *. change (psum qs 0) with 0 in *. lia.
    Qed.
    Lemma wait_range cnt : 0 <= cnt < T -> 0 <= wait cnt < T.
    Proof. intros H. pose proof P_range. unfold wait. destruct (Z.leb_spec cnt (psum qs f)); lia. Qed.
    Lemma wait_next cnt : 0 <= cnt < T -> wait (if cnt + 1 =? T then 0 else cnt + 1) = if cnt =? psum qs f then T - 1 else wait cnt - 1.
    Proof.
      intros H. pose proof P_range. unfold wait.
      destruct (Z.eqb_spec (cnt + 1) T), (Z.eqb_spec cnt (psum qs f)), (Z.leb_spec cnt (psum qs f));
        match goal with |- context [?a <=? ?b] => destruct (Z.leb_spec a b) end; lia.
    Qed.

    Lemma select_track orph st c ec : inv st -> cur_ok st -> In (c, ec) (u_list st) ->
      exists r st1 l, hcb_select h orph st = Some (r, st1, l) /\ inv st1 /\ cur_ok st1 /\
        (In c l \/ exists d, r = Some d /\ (d = c \/ d <> c /\ In (c, ec) (u_list (extract_entry st1 d)) /\ phi (extract_entry st1 d) ec + 1 <= phi st ec)).
    Proof.
      intros I K Hc. unfold hcb_select. destruct (skip_spec orph (S (length (u_list st))) st I K ltac:(lia)) as [r [st1 [l [-> [I1 [E1 [E2 [E3 [E4 E5]]]]]]]]].
      assert (K1 : cur_ok st1) by (unfold cur_ok; rewrite E1, E2; auto).
      assert (HC : (s_cur st1 < length (h_list h))%nat) by (rewrite h_len; apply K1).
      assert (M : ~ In c l -> exists d, r = Some d /\ (d = c \/ d <> c /\ In (c, ec) (u_list st1) /\
         (ahead ec (u_list (extract_entry st1 d)) <= ahead ec (u_list st))%nat /\
         (s_cur st = f -> (ahead ec (u_list (extract_entry st1 d)) < ahead ec (u_list st))%nat))).
      { intros NI. assert (X : In (c, ec) (u_list st1)).
        { rewrite E3. apply filter_In. split; auto. unfold gone. simpl. destruct (memb l c) eqn:Em; auto. apply memb_in in Em. tauto. }
        destruct r as [d|]; [|rewrite E5 in X; destruct X]. destruct E5 as [O FB].
        pose proof (best_spec h st1 (s_cur st1) I1 HC) as B. rewrite FB in B. destruct B as [ed [Hd B]].
        exists d. split; auto. destruct (Nat.eq_dec d c) as [->|N]; auto. right. split; auto. split; auto.
        rewrite list_extract. unfold ahead. rewrite E3 in Hd |- *. split.
        - etransitivity; [apply filter_filter_le|apply filter_filter_le].
        - intros Ec. assert (L : eval_cmp (ekey f ed) (ekey f ec) = Lt) by (rewrite <- Ec, <- E1; apply (B c ec X); auto).
          rewrite <- E3 in Hd. assert (BF := key_before st1 c ec d ed I1 X Hd L). rewrite E3 in Hd.
          eapply Nat.lt_le_trans; [apply (filter_filter_lt _ _ _ (d, ed)); auto; simpl; rewrite Nat.eqb_refl; auto|apply filter_filter_le]. }
      assert (TP := T_pos). rewrite h_len. destruct (Nat.eqb_spec n 1) as [N1|N1].
      - exists r, st1, l. split; auto. split; auto. split; auto. destruct (in_dec Nat.eq_dec c l) as [|NI]; auto. right. destruct (M NI) as [d [-> D]].
        exists d. split; auto. destruct D as [->|[D [X [M1 M2]]]]; auto. right. split; auto. split.
        + rewrite list_extract. apply filter_In. simpl. split; auto. destruct (Nat.eqb_spec c d); auto; congruence.
        + pose proof f_lt. destruct K as [K _]. specialize (M2 ltac:(lia)). unfold phi. destruct (extract_cc st1 d) as [_ ->]. rewrite E2. nia.
      - destruct (advance_spec st1 K1) as [st2 [-> [K2 [C2 [L2 [T2 [V2 F2]]]]]]].
        assert (I2 : inv st2).
        { destruct I1 as [J1 J2 J3 J4 J5 J6 J7]. split; unfold waiting; rewrite ?L2, ?T2, ?V2, ?F2; auto. }
        exists r, st2, l. split; auto. split; auto. split; auto. destruct (in_dec Nat.eq_dec c l) as [|NI]; auto. right. destruct (M NI) as [d [-> D]].
        exists d. split; auto. destruct D as [->|[D [X [M1 M2]]]]; auto. right. split; auto.
        assert (EL : u_list (extract_entry st2 d) = u_list (extract_entry st1 d)) by (rewrite !list_extract, L2; auto). rewrite EL. split.
        + rewrite list_extract. apply filter_In. simpl. split; auto. destruct (Nat.eqb_spec c d); auto; congruence.
        + unfold phi. rewrite EL. destruct (extract_cc st2 d) as [_ ->]. rewrite C2, E2, wait_next by (apply cnt_range; auto).
          destruct (Z.eqb_spec (s_cnt st) (psum qs f)) as [EP|EP]; [|nia].
          assert (EC : s_cur st = f). { apply cur_unique; auto; [apply f_lt|]. pose proof (psum_lt f f_lt). lia. }
          specialize (M2 EC). unfold wait. rewrite EP. destruct (Z.leb_spec (psum qs f) (psum qs f)); nia.
    Qed.

    (** insertions *)
    Lemma ahead_insert st1 d e ec : ahead ec (u_list (insert_entry st1 d e)) = (ahead ec (u_list st1) + if before ec (d, e) then 1 else 0)%nat.
    Proof. unfold insert_entry, ahead. simpl. rewrite filter_app, app_length. simpl. destruct (before ec (d, e)); simpl; lia. Qed.
    Lemma new_not_before st st1 c ec d b e : inv st -> In (c, ec) (u_list st) -> evaluate h st d b = (e, st1) ->
      before ec (d, e) = true -> b = true.
    Proof.
      intros I Hc E B. destruct b; auto. exfalso. destruct (evaluate_fresh _ _ _ _ _ _ E) as [[_ [C _]] _].
      assert (P := evaluate_prio _ _ _ _ _ _ _ _ E (h_nth _ _ _ Hf)). simpl in P. rewrite CP in P.
      unfold before in B. simpl in B. apply orb_true_iff in B. rewrite !Z.ltb_lt, C, P in B.
      pose proof (iv_lt _ _ I _ Hc) as L. simpl in L.
      pose proof (iv_prio _ _ I f _ (h_nth _ _ _ Hf) (CP : forall m c, prio_of (Fifo id prio) m c = _) _ Hc) as Q. simpl in Q. lia.
    Qed.
  End Track.

  (** insertion, one by one *)
  Definition insert_one (st : sstate) (q : cid * bool) : sstate := let '(e, st1) := evaluate h st (fst q) (snd q) in insert_entry st1 (fst q) e.
  Lemma evaluate_insert st c e d b : evaluate h (insert_entry st c e) d b =
    (fst (evaluate h st d b), insert_entry (snd (evaluate h st d b)) c e).
  Proof. unfold evaluate, insert_entry. simpl. destruct (eval_queues _ _ _ _ _). auto. Qed.
  Lemma evaluate_all_insert cs : forall st c e, evaluate_all h (insert_entry st c e) cs =
    (fst (evaluate_all h st cs), insert_entry (snd (evaluate_all h st cs)) c e).
  Proof.
    induction cs as [|[d b] cs IH]; intros st c e; cbn [evaluate_all]; auto. rewrite evaluate_insert.
    destruct (evaluate h st d b) as [e1 st1]. simpl. rewrite IH. destruct (evaluate_all h st1 cs) as [r st2]. auto.
  Qed.
  Lemma batch_one cs : forall st, insert_batch h st cs = fold_left insert_one cs st.
  Proof.
    induction cs as [|[d b] cs IH]; intros st; [auto|]. cbn [fold_left]. rewrite <- IH. unfold insert_batch, insert_one. cbn [evaluate_all fst snd].
    destruct (evaluate h st d b) as [e1 st1]. rewrite evaluate_all_insert. destruct (evaluate_all h st1 cs) as [r st2]. auto.
  Qed.
  Lemma insert_one_spec st q : inv st -> ~ In (fst q) (waiting st) ->
    inv (insert_one st q) /\ waiting (insert_one st q) = waiting st ++ [fst q] /\ s_cur (insert_one st q) = s_cur st /\ s_cnt (insert_one st q) = s_cnt st /\
    exists e st1, evaluate h st (fst q) (snd q) = (e, st1) /\ insert_one st q = insert_entry st1 (fst q) e /\ u_list (insert_one st q) = u_list st ++ [(fst q, e)].
  Proof.
    intros I N. unfold insert_one. destruct (evaluate h st (fst q) (snd q)) as [e st1] eqn:E.
    destruct (evaluate_fresh _ _ _ _ _ _ E) as [F [EL [ET [EC EN]]]].
    split; [apply (inv_insert h st); auto|]. unfold waiting, insert_entry. simpl. rewrite EL, map_app. simpl. repeat (split; [auto; fail|]). exists e, st1. rewrite EL. repeat split; auto.
  Qed.
  Lemma fold_insert_spec cs : forall st, inv st -> NoDup (map fst cs) -> (forall c, In c (map fst cs) -> ~ In c (waiting st)) ->
    let st' := fold_left insert_one cs st in
    inv st' /\ waiting st' = waiting st ++ map fst cs /\ s_cur st' = s_cur st /\ s_cnt st' = s_cnt st /\
    (forall q, In q (u_list st) -> In q (u_list st')) /\
    (forall f w, nth_error (h_list h) f = Some w -> (forall m c, prio_of w m c = PrioNormal) ->
       forall c e, In (c, e) (u_list st') -> In (c, e) (u_list st) \/ exists b, In (c, b) cs /\ prio_at f e = if b then PrioBest else PrioNormal) /\
    (forall f id prio s, nth_error qs f = Some (Fifo id prio, s) -> (forall m c, prio m c = PrioNormal) ->
       forall c ec, In (c, ec) (u_list st) -> (ahead f ec (u_list st') <= ahead f ec (u_list st) + length (filter snd cs))%nat).
  Proof.
    induction cs as [|q cs IH]; intros st I ND D; cbn [fold_left map].
    - rewrite app_nil_r. cbv zeta. do 5 (split; [solve [auto]|]). split; [auto|]. intros. simpl. lia.
    - inversion ND as [|? ? ND1 ND2]; subst. destruct (insert_one_spec st q I (D _ (or_introl eq_refl))) as [I1 [W1 [C1 [N1 [e [st1 [E1 [EI EL]]]]]]]].
      destruct (IH (insert_one st q) I1 ND2) as [I2 [W2 [C2 [N2 [S2 [P2 A2]]]]]].
      { intros c Hc. rewrite W1, in_app_iff. intros [X|[X|[]]]; [apply (D c); simpl; auto|]. subst c. contradiction. }
      split; auto. split; [rewrite W2, W1, <- app_assoc; auto|]. split; [congruence|]. split; [congruence|]. split.
      { intros x Hx. apply S2. rewrite EL. apply in_or_app; auto. } split.
      + intros f w Hf K c ec Hc. destruct (P2 f w Hf K c ec Hc) as [X|[b [X Y]]]; [|right; exists b; simpl; auto].
        rewrite EL in X. apply in_app_or in X. destruct X as [X|[X|[]]]; auto. right. inversion X; subst. exists (snd q). split; [destruct q; simpl; auto|].
        rewrite (evaluate_prio _ _ _ _ _ _ _ _ E1 Hf), K. auto.
      + intros f id prio s Hf K c ec Hc. assert (X : In (c, ec) (u_list (insert_one st q))) by (rewrite EL; apply in_or_app; auto).
        specialize (A2 f id prio s Hf K c ec X). assert (Y : (ahead f ec (u_list (insert_one st q)) <= ahead f ec (u_list st) + if snd q then 1 else 0)%nat).
        { rewrite EI, ahead_insert. destruct (evaluate_fresh _ _ _ _ _ _ E1) as [_ [-> _]]. destruct (before f ec (fst q, e)) eqn:B; [|lia].
          rewrite (new_not_before f id prio s Hf K st st1 c ec (fst q) (snd q) e I Hc E1 B). lia. }
        simpl. destruct (snd q); simpl; lia.
  Qed.

  Lemma reweight_eq sf st : reweight h sf st = fold_left insert_one (map (fun c => (c, sf c)) (waiting st)) (mks [] (fun _ => Leaf) (s_cur st) (s_cnt st) (s_evals st) (s_fifo st)).
  Proof.
    unfold reweight, waiting. generalize (mks [] (fun _ => Leaf) (s_cur st) (s_cnt st) (s_evals st) (s_fifo st)) as s0.
    induction (map fst (u_list st)) as [|c l IH]; intros s0; simpl; auto.
  Qed.
  Lemma inv_empty st : inv (mks [] (fun _ => Leaf) (s_cur st) (s_cnt st) (s_evals st) (s_fifo st)).
  Proof.
    split; simpl; try (constructor; fail); try (intros; tauto).
    - intros i Hi. apply tree_ok_leaf.
    - intros. split; [intros ? []|constructor].
  Qed.
  Lemma reweight_spec sf st : inv st -> let st' := reweight h sf st in
    inv st' /\ waiting st' = waiting st /\ s_cur st' = s_cur st /\ s_cnt st' = s_cnt st /\
    (forall f w, nth_error (h_list h) f = Some w -> (forall m c, prio_of w m c = PrioNormal) ->
       forall c e, In (c, e) (u_list st') -> prio_at f e = if sf c then PrioBest else PrioNormal).
  Proof.
    intros I. cbv zeta. rewrite reweight_eq.
    destruct (fold_insert_spec (map (fun c => (c, sf c)) (waiting st)) _ (inv_empty st)) as [I2 [W2 [C2 [N2 [S2 [P2 A2]]]]]].
    - rewrite map_map, map_id. apply I.
    - intros c _ [].
    - rewrite map_map, map_id in W2. split; auto. split; auto. split; auto. split; auto. intros f w Hf K c e Hc.
      destruct (P2 f w Hf K c e Hc) as [[]|[b [X Y]]]. apply in_map_iff in X. destruct X as [c' [X _]]. inversion X; subst. auto.
  Qed.
  Lemma filter_none {A} (P : A -> bool) l : (forall a, In a l -> P a = false) -> filter P l = [].
  Proof. induction l as [|a l IH]; simpl; auto. intros H. rewrite H by auto. auto. Qed.
  Lemma filter_every {A} (P : A -> bool) l : (forall a, In a l -> P a = true) -> filter P l = l.
  Proof. induction l as [|a l IH]; simpl; auto. intros H. rewrite H by auto. f_equal. auto. Qed.
  Lemma filter_impl_le {A} (P Q : A -> bool) l : (forall a, In a l -> P a = true -> Q a = true) -> (length (filter P l) <= length (filter Q l))%nat.
  Proof.
    induction l as [|a l IH]; simpl; auto. intros H. assert (X := IH (fun b Hb => H b (or_intror Hb))). specialize (H a (or_introl eq_refl)).
    destruct (P a); [rewrite H by auto; simpl; lia|]. destruct (Q a); simpl; lia.
  Qed.
  Lemma ss_split (R : cid * evalcell -> cid * evalcell -> Prop) l1 x l2 : StronglySorted R (l1 ++ x :: l2) -> (forall a, In a l1 -> R a x) /\ (forall b, In b l2 -> R x b).
  Proof.
    induction l1 as [|a l1 IH]; simpl; intros H; inversion H as [|? ? H1 H2]; subst; rewrite Forall_forall in H2.
    - split; [intros ? []|auto].
    - destruct (IH H1) as [A B]. split; auto. intros b [<-|Hb]; auto. apply H2. apply in_or_app. simpl. auto.
  Qed.
  Lemma reweight_ahead f id prio s sf st c ec : nth_error qs f = Some (Fifo id prio, s) -> (forall m c, prio m c = PrioNormal) ->
    inv st -> In (c, ec) (u_list st) ->
    exists ec', In (c, ec') (u_list (reweight h (memb sf) st)) /\
      (ahead f ec' (u_list (reweight h (memb sf) st)) <= ahead f ec (u_list st) + length sf)%nat.
  Proof.
    intros Hf K I Hc. destruct (reweight_spec (memb sf) st I) as [I2 [W2 [_ [_ P2]]]]. set (st' := reweight h (memb sf) st) in *.
    destruct (in_split _ _ Hc) as [l1 [l2 EL]].
    assert (X : exists l1' ec' l2', u_list st' = l1' ++ (c, ec') :: l2' /\ length l1' = length l1).
    { unfold waiting in W2. rewrite EL, map_app in W2. simpl in W2. clear - W2.
      revert l1 W2. induction (u_list st') as [|[d e] l IH]; intros [|[d1 e1] l1] W2; simpl in *; try discriminate.
      - inversion W2; subst. exists [], e, l. auto.
      - injection W2 as E1 E2. subst d1. destruct (IH l1 E2) as [l1' [ec' [l2' [-> L]]]]. exists ((d, e) :: l1'), ec', l2'. split; [reflexivity|]. cbn [length]. f_equal. exact L. }
    destruct X as [l1' [ec' [l2' [EL' L1]]]]. exists ec'. assert (Hc' : In (c, ec') (u_list st')) by (rewrite EL'; apply in_or_app; simpl; auto). split; auto.
    assert (S1 := iv_sorted _ _ I). rewrite EL in S1. apply ss_split in S1. destruct S1 as [S1 _].
    assert (S2 := iv_sorted _ _ I2). rewrite EL' in S2. apply ss_split in S2. destruct S2 as [_ S2].
    unfold ahead. rewrite EL, EL', !filter_app, !app_length. simpl. rewrite before_self.
    rewrite (filter_every (before f ec) l1).
    2:{ intros a Ha. unfold before. specialize (S1 a Ha). simpl in S1. apply Z.ltb_lt in S1. rewrite S1. auto. }
    pose proof (filter_len (before f ec') l1') as Q1.
    assert (Q2 : (length (filter (before f ec') l2') <= length sf)%nat).
    { etransitivity; [apply (filter_impl_le _ (fun q => memb sf (fst q)))|].
      - intros [d e] Hd B. specialize (S2 _ Hd). simpl in S2. unfold before in B. simpl in B. apply orb_true_iff in B. rewrite !Z.ltb_lt in B.
        destruct B as [B|B]; [lia|]. assert (Y : In (d, e) (u_list st')) by (rewrite EL'; apply in_or_app; simpl; auto).
        rewrite (P2 f _ (h_nth _ _ _ Hf) (K : forall m c, prio_of (Fifo id prio) m c = _) d e Y) in B.
        rewrite (P2 f _ (h_nth _ _ _ Hf) (K : forall m c, prio_of (Fifo id prio) m c = _) c ec' Hc') in B.
        simpl. destruct (memb sf d); auto. destruct (memb sf c); unfold PrioBest, PrioNormal in B; lia.
      - rewrite <- (map_length fst). apply NoDup_incl_length.
        + apply (nodup_filter_map (memb sf)). assert (ND := iv_nodup _ _ I2). unfold waiting in ND. rewrite EL', map_app in ND. simpl in ND.
          apply NoDup_remove_1 in ND. clear - ND. induction (map fst l1') as [|a l IH]; simpl in ND; auto. inversion ND; auto.
        + intros d Hd. apply in_map_iff in Hd. destruct Hd as [[d' e] [<- Hd]]. apply filter_In in Hd. apply memb_in. apply Hd. }
    lia.
  Qed.

  (** ** Every operation *)
  Lemma other_inv st : inv st -> inv (mks (u_list st) (u_trees st) (s_cur st) (s_cnt st) (s_evals st + 1) (s_fifo st)).
  Proof. intros [J1 J2 J3 J4 J5 J6 J7]. split; simpl; auto. intros q Hq. specialize (J3 q Hq). lia. Qed.
  Lemma initial_spec st c b e st1 : inv st -> ~ In c (waiting st) -> evaluate h st c b = (e, st1) ->
    inv (insert_entry st1 c (change_priority e (- MEGA))) /\ u_list st1 = u_list st /\ s_cur st1 = s_cur st /\ s_cnt st1 = s_cnt st.
  Proof.
    intros I N E. destruct (evaluate_fresh _ _ _ _ _ _ E) as [F [EL [ET [EC EN]]]]. split; auto.
    apply (inv_insert h st); auto. apply change_fresh; auto. unfold MEGA. lia.
  Qed.
  Lemma inv_same st st2 : u_list st2 = u_list st -> u_trees st2 = u_trees st -> s_evals st2 = s_evals st -> s_fifo st2 = s_fifo st -> inv st -> inv st2.
  Proof. intros L2 T2 V2 F2 [J1 J2 J3 J4 J5 J6 J7]. split; unfold waiting; rewrite ?L2, ?T2, ?V2, ?F2; auto. Qed.
  Lemma select_total orph st : inv st -> cur_ok st -> exists r st1 l, hcb_select h orph st = Some (r, st1, l) /\ inv st1 /\ cur_ok st1 /\
    s_cnt st1 = (if Nat.eqb n 1 then s_cnt st else if s_cnt st + 1 =? T then 0 else s_cnt st + 1) /\
    u_list st1 = filter (gone l) (u_list st) /\
    (forall c, In c l -> In c (waiting st) /\ orph c = true) /\
    match r with
    | None => u_list st1 = []
    | Some c => orph c = false /\ exists e, In (c, e) (u_list st1) /\
        forall c' e', In (c', e') (u_list st1) -> c' <> c -> eval_cmp (ekey (s_cur st) e) (ekey (s_cur st) e') = Lt
    end.
  Proof.
    intros I K. unfold hcb_select. destruct (skip_spec orph (S (length (u_list st))) st I K ltac:(lia)) as [r [st1 [l [-> [I1 [E1 [E2 [E3 [E4 E5]]]]]]]]].
    assert (K1 : cur_ok st1) by (unfold cur_ok; rewrite E1, E2; auto).
    assert (HC : (s_cur st1 < length (h_list h))%nat) by (rewrite h_len; apply K1).
    assert (R : match r with
    | None => u_list st1 = []
    | Some c => orph c = false /\ exists e, In (c, e) (u_list st1) /\
        forall c' e', In (c', e') (u_list st1) -> c' <> c -> eval_cmp (ekey (s_cur st) e) (ekey (s_cur st) e') = Lt
    end).
    { destruct r as [c|]; auto. destruct E5 as [O FB]. split; auto. pose proof (best_spec h st1 (s_cur st1) I1 HC) as B. rewrite FB, E1 in B. exact B. }
    rewrite h_len. destruct (Nat.eqb n 1).
    - exists r, st1, l. repeat (split; [auto; fail|]). auto.
    - destruct (advance_spec st1 K1) as [st2 [-> [K2 [C2 [L2 [T2 [V2 F2]]]]]]].
      exists r, st2, l. split; auto. split; [apply (inv_same st1); auto|]. split; auto. split; [rewrite C2, E2; auto|]. rewrite L2. auto.
  Qed.

  Lemma step_total st o : inv st -> cur_ok st -> op_ok st o -> exists st1 ev, step h st o = Some (st1, ev) /\ inv st1 /\ cur_ok st1.
  Proof.
    intros I K O. destruct o as [cs|c b|c|sf| |orph]; cbn [step].
    - destruct O as [O1 O2]. rewrite batch_one. destruct (fold_insert_spec cs st I O1 O2) as [I2 [W2 [C2 [N2 _]]]].
      eexists _, _. split; [reflexivity|]. split; auto. unfold cur_ok. rewrite C2, N2. auto.
    - destruct (evaluate h st c b) as [e st1] eqn:E. destruct (initial_spec st c b e st1 I O E) as [I2 [L2 [C2 N2]]].
      eexists _, _. split; [reflexivity|]. split; auto. unfold cur_ok. simpl. rewrite C2, N2. auto.
    - eexists _, _. split; [reflexivity|]. split; [apply inv_extract; auto|]. destruct (extract_cc st c) as [C2 N2]. unfold cur_ok. rewrite C2, N2. auto.
    - eexists _, _. split; [reflexivity|]. destruct (reweight_spec (memb sf) st I) as [I2 [W2 [C2 [N2 _]]]]. split; auto. unfold cur_ok. rewrite C2, N2. auto.
    - eexists _, _. split; [reflexivity|]. split; [apply other_inv; auto|]. auto.
    - destruct (select_total orph st I K) as [r [st1 [l [-> [I1 [K1 _]]]]]]. destruct r as [c|]; eexists _, _; (split; [reflexivity|]); auto.
      split; [apply inv_extract; auto|]. destruct (extract_cc st1 c) as [C2 N2]. unfold cur_ok. rewrite C2, N2. auto.
  Qed.
  Lemma run_total os : forall st, inv st -> cur_ok st -> run_ok h st os -> exists st1 ev, run h st os = Some (st1, ev) /\ inv st1 /\ cur_ok st1.
  Proof.
    induction os as [|o os IH]; intros st I K O; [eexists _, _; split; [reflexivity|auto]|]. destruct O as [O1 O2]. cbn [run].
    destruct (step_total st o I K O1) as [st1 [ev [E [I1 K1]]]]. rewrite E in *. destruct (IH st1 I1 K1 O2) as [st2 [ev' [-> [I2 K2]]]]. eauto.
  Qed.
  Lemma run_app os1 : forall st os2 st1 ev1, run h st os1 = Some (st1, ev1) ->
    run h st (os1 ++ os2) = match run h st1 os2 with None => None | Some (st2, ev2) => Some (st2, ev1 ++ ev2) end.
  Proof.
    induction os1 as [|o os1 IH]; intros st os2 st1 ev1 H; simpl in *; [inversion H; subst; destruct (run h st1 os2) as [[? ?]|]; auto|].
    destruct (step h st o) as [[s1 e1]|]; [|discriminate]. destruct (run h s1 os1) as [[s2 e2]|] eqn:E; [|discriminate]. inversion H; subst.
    rewrite (IH _ os2 _ _ E). destruct (run h st1 os2) as [[? ?]|]; auto. rewrite app_assoc. auto.
  Qed.
  Lemma run_ok_app os1 : forall st os2 st1 ev1, run h st os1 = Some (st1, ev1) -> run_ok h st (os1 ++ os2) -> run_ok h st os1 /\ run_ok h st1 os2.
  Proof.
    induction os1 as [|o os1 IH]; intros st os2 st1 ev1 H O; simpl in *; [inversion H; subst; auto|]. destruct O as [O1 O2].
    destruct (step h st o) as [[s1 e1]|]; [|discriminate]. destruct (run h s1 os1) as [[s2 e2]|] eqn:E; [|discriminate]. inversion H; subst.
    destruct (IH _ _ _ _ E O2). auto.
  Qed.

  Section Fair.
    Variables (f : nat) (id : nat) (prio : Z -> cid -> Z) (s : Z).
    Hypothesis Hf : nth_error qs f = Some (Fifo id prio, s).
    Hypothesis CP : forall m c, prio m c = PrioNormal.

    Lemma step_track st o c ec st1 ev : inv st -> cur_ok st -> op_ok st o -> In (c, ec) (u_list st) -> step h st o = Some (st1, ev) ->
      In (Selected c) ev \/ In (Removed c) ev \/
      exists ec', In (c, ec') (u_list st1) /\ phi f st1 ec' + (if is_select o then 1 else 0) <= phi f st ec + Z.of_nat (preferred o) * T.
    Proof.
      intros I K O Hc E. assert (TP := T_pos). destruct o as [cs|d b|d|sf| |orph]; cbn [step is_select preferred] in *.
      - inversion E; subst. right. right. exists ec. destruct O as [O1 O2]. rewrite batch_one.
        destruct (fold_insert_spec cs st I O1 O2) as [I2 [W2 [C2 [N2 [S2 [_ A2]]]]]]. split; auto.
        specialize (A2 f id prio s Hf CP c ec Hc). unfold phi. rewrite N2. nia.
      - destruct (evaluate h st d b) as [e st2] eqn:E2. inversion E; subst. right. right. exists ec.
        destruct (initial_spec st d b e st2 I O E2) as [I2 [L2 [C2 N2]]]. split; [simpl; rewrite L2; apply in_or_app; auto|].
        unfold phi. rewrite ahead_insert, L2, Nat2Z.inj_add. unfold insert_entry. cbn [s_cnt]. rewrite N2. match goal with |- context [if ?b then _ else _] => destruct b end; lia.
      - inversion E; subst. destruct (Nat.eq_dec d c) as [->|N]; [right; left; simpl; auto|]. right. right. exists ec.
        rewrite list_extract. split; [apply filter_In; simpl; split; auto; destruct (Nat.eqb_spec c d); auto; congruence|].
        unfold phi. destruct (extract_cc st d) as [_ ->]. rewrite list_extract.
        match goal with |- Z.of_nat ?a * _ + _ + _ <= Z.of_nat ?b * _ + _ + _ => assert ((a <= b)%nat) by (unfold ahead; apply filter_filter_le) end. nia.
      - inversion E; subst. right. right. destruct (reweight_ahead f id prio s sf st c ec Hf CP I Hc) as [ec' [A B]]. exists ec'. split; auto.
        unfold phi. destruct (reweight_spec (memb sf) st I) as [_ [_ [_ [-> _]]]]. nia.
      - inversion E; subst. right. right. exists ec. simpl. split; auto. unfold phi. simpl. lia.
      - destruct (select_track f id prio s Hf orph st c ec I K Hc) as [r [st2 [l [E2 [I2 [K2 D]]]]]]. rewrite E2 in E.
        destruct D as [D|[d [-> D]]].
        + right. left. destruct r; inversion E; subst; [apply in_or_app; left|]; apply in_map; auto.
        + inversion E; subst. destruct D as [->|[N [X Y]]]; [left; apply in_or_app; simpl; auto|]. right. right. exists ec. split; auto. lia.
    Qed.
    Lemma run_track os : forall st c ec st1 ev, inv st -> cur_ok st -> run_ok h st os -> In (c, ec) (u_list st) -> run h st os = Some (st1, ev) ->
      In (Selected c) ev \/ In (Removed c) ev \/
      exists ec', In (c, ec') (u_list st1) /\ cur_ok st1 /\ phi f st1 ec' + Z.of_nat (selections os) <= phi f st ec + Z.of_nat (all_preferred os) * T.
    Proof.
      induction os as [|o os IH]; intros st c ec st1 ev I K O Hc H.
      - simpl in H. inversion H; subst. right. right. exists ec. split; auto. split; auto. unfold selections, all_preferred. simpl. lia.
      - destruct O as [O1 O2]. cbn [run] in H. destruct (step_total st o I K O1) as [s1 [e1 [E [I1 K1]]]]. rewrite E in *.
        destruct (run h s1 os) as [[s2 e2]|] eqn:E2; [|discriminate]. inversion H; subst.
        destruct (step_track st o c ec s1 e1 I K O1 Hc E) as [A|[A|[ec1 [A B]]]].
        + left. apply in_or_app; auto.
        + right. left. apply in_or_app; auto.
        + destruct (IH s1 c ec1 st1 e2 I1 K1 O2 A E2) as [X|[X|[ec' [X [Y Z0]]]]].
          * left. apply in_or_app; auto.
          * right. left. apply in_or_app; auto.
          * right. right. exists ec'. split; auto. split; auto. assert (EP : all_preferred (o :: os) = (preferred o + all_preferred os)%nat) by reflexivity.
            assert (ES : Z.of_nat (selections (o :: os)) = (if is_select o then 1 else 0) + Z.of_nat (selections os)).
            { unfold selections. cbn [filter]. destruct (is_select o); cbn [length]; lia. }
            rewrite EP, ES, Nat2Z.inj_add. lia.
    Qed.
    Lemma fair os st c st1 ev : inv st -> cur_ok st -> run_ok h st os -> In c (waiting st) -> run h st os = Some (st1, ev) ->
      Z.of_nat (length (waiting st) + all_preferred os) * T <= Z.of_nat (selections os) -> In (Selected c) ev \/ In (Removed c) ev.
    Proof.
      intros I K O Hc H B. apply in_map_iff in Hc. destruct Hc as [[c' ec] [E Hc]]. simpl in E. subst c'.
      destruct (run_track os st c ec st1 ev I K O Hc H) as [A|[A|[ec' [A [K1 P]]]]]; auto. exfalso.
      assert (TP := T_pos). pose proof (ahead_lt f ec c _ Hc) as L. unfold waiting in B. rewrite map_length in B.
      unfold phi in P. pose proof (wait_range f id prio s Hf _ (cnt_range _ K)) as W1. pose proof (wait_range f id prio s Hf _ (cnt_range _ K1)) as W2. nia.
    Qed.
  End Fair.

  (** ** Shares *)
  Definition part (i : nat) (cnt : Z) : Z := Z.max (psum qs i) (Z.min cnt (psum qs (S i))) - psum qs i.
  Notation turns := (turns h).
  Lemma step_cnt st o st1 ev : inv st -> cur_ok st -> op_ok st o -> step h st o = Some (st1, ev) -> n <> 1%nat ->
    s_cnt st1 = if is_select o then (if s_cnt st + 1 =? T then 0 else s_cnt st + 1) else s_cnt st.
  Proof.
    intros I K O E N. destruct o as [cs|d b|d|sf| |orph]; cbn [step is_select] in *.
    - inversion E; subst. destruct O as [O1 O2]. rewrite batch_one. destruct (fold_insert_spec cs st I O1 O2) as [I2 [W2 [C2 [N2 _]]]]. auto.
    - destruct (evaluate h st d b) as [e st2] eqn:E2. inversion E; subst. destruct (initial_spec st d b e st2 I O E2) as [I2 [L2 [C2 N2]]]. auto.
    - inversion E; subst. apply extract_cc.
    - inversion E; subst. destruct (reweight_spec (memb sf) st I) as [_ [_ [_ [-> _]]]]. auto.
    - inversion E; subst. auto.
    - destruct (select_total orph st I K) as [r [st2 [l [E2 [_ [_ [C2 _]]]]]]]. rewrite E2 in E. destruct (Nat.eqb_spec n 1); [congruence|].
      destruct r; inversion E; subst; auto. destruct (extract_cc st2 c) as [_ ->]. auto.
  Qed.
  Lemma turns_count i w s os : nth_error qs i = Some (w, s) -> n <> 1%nat -> forall st, inv st -> cur_ok st -> run_ok h st os ->
    exists st1 ev k, run h st os = Some (st1, ev) /\ cur_ok st1 /\ 0 <= k /\
      Z.of_nat (selections os) = k * T + s_cnt st1 - s_cnt st /\
      Z.of_nat (count_occ Nat.eq_dec (turns st os) i) = k * s + part i (s_cnt st1) - part i (s_cnt st).
  Proof.
    intros Hi N. assert (Li : (i < n)%nat) by (eapply nth_error_lt; eauto). assert (PS := psum_S i _ Hi). simpl in PS.
    assert (P0 := psum_mono 0 i ltac:(lia) ltac:(lia)). change (psum qs 0) with 0 in P0. assert (P1 := psum_lt i Li).
    assert (P2 := psum_mono (S i) n ltac:(lia) ltac:(lia)). rewrite psum_all in P2.
    induction os as [|o os IH]; intros st I K O.
    - exists st, [], 0. unfold selections. simpl. split; auto. split; auto. lia.
    - destruct O as [O1 O2]. cbn [run turns]. destruct (step_total st o I K O1) as [s1 [e1 [E [I1 K1]]]]. rewrite E in *.
      destruct (IH s1 I1 K1 O2) as [st1 [ev [k [R [K2 [KP [A B]]]]]]]. rewrite R.
      assert (C := step_cnt st o s1 e1 I K O1 E N). assert (CR := cnt_range st K). unfold selections in *. cbn [filter]. destruct (is_select o).
      + assert (Q : Z.of_nat (count_occ Nat.eq_dec ([s_cur st] ++ turns s1 os) i) =
                    (if Nat.eq_dec (s_cur st) i then 1 else 0) + Z.of_nat (count_occ Nat.eq_dec (turns s1 os) i)).
        { simpl. destruct (Nat.eq_dec (s_cur st) i); lia. }
        assert (D : if Nat.eq_dec (s_cur st) i then psum qs i <= s_cnt st < psum qs (S i) else (s_cnt st < psum qs i \/ psum qs (S i) <= s_cnt st)).
        { destruct (Nat.eq_dec (s_cur st) i) as [<-|NE2]; [apply K|].
          destruct (Z_lt_le_dec (s_cnt st) (psum qs i)), (Z_lt_le_dec (s_cnt st) (psum qs (S i))); auto; try lia. exfalso. apply NE2. apply cur_unique; auto. }
        destruct (Z.eqb_spec (s_cnt st + 1) T) as [W|W].
        * exists st1, (e1 ++ ev), (k + 1). split; auto. split; auto. split; [lia|]. cbn [length]. split; [lia|]. rewrite Q, B, C. unfold part.
          destruct (Nat.eq_dec (s_cur st) i); lia.
        * exists st1, (e1 ++ ev), k. split; auto. split; auto. split; [lia|]. cbn [length]. split; [lia|]. rewrite Q, B, C. unfold part.
          destruct (Nat.eq_dec (s_cur st) i); lia.
      + exists st1, (e1 ++ ev), k. split; auto. split; auto. split; auto. cbn [List.app]. rewrite <- C. auto.
  Qed.
  Lemma one_turns st os : n = 1%nat -> inv st -> cur_ok st -> run_ok h st os -> count_occ Nat.eq_dec (turns st os) 0%nat = selections os.
  Proof.
    intros N. revert st. induction os as [|o os IH]; intros st I K O; auto. destruct O as [O1 O2]. cbn [turns].
    destruct (step_total st o I K O1) as [s1 [e1 [E [I1 K1]]]]. rewrite E in *. specialize (IH s1 I1 K1 O2).
    unfold selections in *. cbn [filter]. destruct (is_select o); cbn [List.app length]; auto. cbn [count_occ].
    destruct K as [K _]. replace (s_cur st) with 0%nat by lia. destruct (Nat.eq_dec 0 0); [|congruence]. rewrite IH. auto.
  Qed.
  Lemma shares i w s st os : nth_error qs i = Some (w, s) -> inv st -> cur_ok st -> run_ok h st os -> Z.of_nat (selections os) = T ->
    Z.of_nat (count_occ Nat.eq_dec (turns st os) i) = s.
  Proof.
    intros Hi I K O ES. destruct (Nat.eq_dec n 1) as [N|N].
    - assert (Li : (i < n)%nat) by (eapply nth_error_lt; eauto). assert (i = 0%nat) by lia. subst i. rewrite one_turns; auto.
      rewrite ES, <- psum_all, N, (psum_S 0 _ Hi), psum_0. auto.
    - destruct (turns_count i w s os Hi N st I K O) as [st1 [ev [k [R [K1 [KP [A B]]]]]]].
      assert (C1 := cnt_range st K). assert (C2 := cnt_range st1 K1). assert (k = 1) by nia. subst k. assert (s_cnt st1 = s_cnt st) by lia.
      rewrite H in B. lia.
  Qed.
End Round.
