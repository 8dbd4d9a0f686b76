(** Proofs about the partition. *)
From Coq Require Import Permutation.
From Verif Require Import Terms Unify Semantics Clauses Subsume Split.

Lemma mem_In x l : mem x l = true <-> In x l.
Proof.
  unfold mem. rewrite existsb_exists. split; [intros [y [H E]]; apply Nat.eqb_eq in E; subst; auto|]. intros H. exists x. rewrite Nat.eqb_refl. auto.
Qed.
Lemma mem_not x l : mem x l = false <-> ~ In x l.
Proof. rewrite <- mem_In. destruct (mem x l); split; congruence. Qed.
Lemma add_vars_in l : forall acc x, In x (fold_left add_var l acc) <-> In x acc \/ In x l.
Proof.
  induction l as [|y l IH]; intros acc x; cbn [fold_left In]; [tauto|]. rewrite IH. unfold add_var. destruct (mem y acc) eqn:Y; cbn [In].
  - apply mem_In in Y. split; [tauto|]. intros [H|[<-|H]]; auto.
  - tauto.
Qed.
(** a variable that counts for the partition *)
Definition nv (sv : list var) (x : var) (e : eqn) : Prop := In x (lit_vars e) /\ ~ In x sv.
Lemma collect_in sv e x : In x (collect_vars sv e) <-> nv sv x e.
Proof.
  unfold collect_vars, nv, lit_vars. rewrite add_vars_in, filter_In, negb_true_iff, mem_not. cbn [In]. tauto.
Qed.
Lemma shared_iff hs vs : shared_var hs vs = true <-> exists x, In x vs /\ In x hs.
Proof. unfold shared_var. rewrite existsb_exists. split; intros [x [A B]]; exists x; rewrite mem_In in *; auto. Qed.
Lemma gains_false hs vs : gains hs vs = false -> forall x, In x vs -> In x hs.
Proof.
  intros G x H. destruct (mem x hs) eqn:M; [apply mem_In; auto|]. exfalso. revert G. unfold gains. rewrite <- not_true_iff_false, existsb_exists. intros G. apply G.
  exists x. rewrite M. auto.
Qed.

Section Part.
  Variable sv : list var.
  (** ground literals are put together *)
  Variable gr : Prop.
  Notation nvs := (nv sv).
  Definition row_ok (r : row) : Prop := rpart r = 0 -> forall x, In x (rvars r) <-> nvs x (rlit r).
  Definition zeros (t : list row) : nat := length (filter (fun r => Nat.eqb (rpart r) 0) t).
  (** row by row: unchanged, or newly in part [p] with all its variables in [hs] *)
  Definition chg (p : nat) (hs : list var) (P : eqn -> Prop) (r r' : row) : Prop :=
    rlit r' = rlit r /\ (r' = r \/ (rpart r = 0 /\ rpart r' = p /\ P (rlit r) /\ forall x, nvs x (rlit r) -> In x hs)).
  Definition free_disjoint (hs : list var) (t : list row) : Prop := forall r x, In r t -> rpart r = 0 -> In x hs -> ~ nvs x (rlit r).

  Lemma chg_mono p hs hs' P r r' : (forall x, In x hs -> In x hs') -> chg p hs P r r' -> chg p hs' P r r'.
  Proof. intros H [A [B|[B [C [D F]]]]]; split; auto. right. auto 10. Qed.
  Lemma chg_zero p hs P r r' : p <> 0 -> chg p hs P r r' -> rpart r' = 0 -> r' = r.
  Proof. intros Hp [_ [B|[_ [C _]]]] Z; auto. congruence. Qed.
  Lemma chg_trans p hs P r1 r2 r3 : p <> 0 -> chg p hs P r1 r2 -> chg p hs P r2 r3 -> chg p hs P r1 r3.
  Proof.
    intros Hp [A B] [A' B']. split; [congruence|]. destruct B as [->|[B1 [B2 [B3 B4]]]]; auto. destruct B' as [->|[B1' _]]; [right; auto 10|congruence].
  Qed.
  Lemma forall2_trans {A} (R : A -> A -> Prop) : (forall x y z, R x y -> R y z -> R x z) -> forall l1 l2 l3, Forall2 R l1 l2 -> Forall2 R l2 l3 -> Forall2 R l1 l3.
  Proof. intros T l1 l2 l3 H. revert l3. induction H; intros l3 H3; inversion H3; subst; constructor; eauto. Qed.

  Definition closed_under (P : eqn -> Prop) (t : list row) : Prop := forall e r x, P e -> In r t -> nvs x e -> nvs x (rlit r) -> P (rlit r).
  Definition from (P : eqn -> Prop) (hs : list var) : Prop := forall x, In x hs -> exists e, P e /\ nvs x e.

  Lemma pass_spec p P : p <> 0 -> forall t hs new t2 hs2 nw, pass p hs new t = (t2, hs2, nw) -> Forall row_ok t -> closed_under P t -> from P hs ->
    Forall2 (chg p hs2 P) t t2 /\ Forall row_ok t2 /\ (forall x, In x hs -> In x hs2) /\ from P hs2 /\
    (nw = false -> new = false /\ (forall x, In x hs2 -> In x hs) /\ free_disjoint hs2 t2) /\
    (zeros t2 <= zeros t /\ (nw = true -> new = true \/ zeros t2 < zeros t)).
  Proof.
    intros Hp. induction t as [|r t IH]; intros hs new t2 hs2 nw E RO CL FR; cbn [pass] in E.
    - injection E as <- <- <-. split; [constructor|]. split; auto. split; auto. split; auto. split; [|split; auto].
      intros ->. split; auto. split; auto. intros r x [].
    - pose proof (Forall_inv RO) as R0. pose proof (Forall_inv_tail RO) as RT.
      assert (CLT : closed_under P t) by (intros e r' x Pe Hr; apply (CL e r' x); auto; right; auto).
      destruct (Nat.eqb (rpart r) 0 && shared_var hs (rvars r)) eqn:Q.
      + apply andb_true_iff in Q. destruct Q as [Z S]. apply Nat.eqb_eq in Z. specialize (R0 Z). apply shared_iff in S. destruct S as [z [Z1 Z2]].
        assert (Pr : P (rlit r)).
        { destruct (FR z Z2) as [e [Pe Ne]]. apply (CL e r z); auto; [left; auto|apply R0; auto]. }
        destruct (pass p (merge_vars hs (rvars r)) (gains hs (rvars r) || new) t) as [[t3 hs3] nw3] eqn:E3. injection E as <- <- <-.
        assert (MV : forall x, In x (merge_vars hs (rvars r)) <-> In x hs \/ In x (rvars r)) by (intros x; apply add_vars_in).
        destruct (IH _ _ _ _ _ E3 RT CLT) as [A [B [C [D [F [G1 G2]]]]]].
        { intros x Hx. apply MV in Hx. destruct Hx as [Hx|Hx]; auto. exists (rlit r). split; auto. apply R0. auto. }
        split; [constructor; auto; split; auto; right; repeat split; auto; intros x Hx; apply C, MV; right; apply R0; auto|].
        split; [constructor; auto; intros W; cbn in W; congruence|]. split; [intros x Hx; apply C, MV; auto|]. split; auto. split.
        * intros N. destruct (F N) as [F1 [F2 F3]]. apply orb_false_iff in F1. destruct F1 as [F1 F4]. split; auto. split.
          -- intros x Hx. apply F2, MV in Hx. destruct Hx; auto. apply (gains_false hs (rvars r)); auto.
          -- intros r' x [<-|Hr] Z' Hx; [cbn in Z'; congruence|]. apply (F3 r' x); auto.
        * assert (zeros (mkrow (rlit r) p [] :: t3) <= zeros t).
          { unfold zeros. cbn [filter rpart]. destruct (Nat.eqb_spec p 0); [congruence|]. exact G1. }
          assert (zeros (r :: t) = S (zeros t)) by (unfold zeros; cbn [filter]; rewrite Z; reflexivity). split; [lia|]. intros _. right. lia.
      + destruct (pass p hs new t) as [[t3 hs3] nw3] eqn:E3. injection E as <- <- <-.
        destruct (IH _ _ _ _ _ E3 RT CLT FR) as [A [B [C [D [F [G1 G2]]]]]].
        split; [constructor; auto; split; auto|]. split; [constructor; auto|]. split; auto. split; auto. split.
        * intros N. destruct (F N) as [F1 [F2 F3]]. split; auto. split; auto. intros r' x [<-|Hr] Z' Hx; [|apply (F3 r' x); auto].
          intros X. rewrite Z' in Q. cbn in Q. apply not_true_iff_false in Q. apply Q. apply shared_iff. exists x. split; [apply (R0 Z'); auto|auto].
        * assert (zeros (r :: t3) + zeros t = zeros (r :: t) + zeros t3) as Y.
          { unfold zeros. cbn [filter]. destruct (Nat.eqb (rpart r) 0); cbn [length]; lia. } split; [lia|]. intros N. destruct (G2 N); auto. right. lia.
  Qed.

  Lemma grow_spec p P : p <> 0 -> forall fuel t hs, zeros t < fuel -> Forall row_ok t -> closed_under P t -> from P hs ->
    exists t2 hs2, grow fuel p hs t = Some (t2, hs2) /\ Forall2 (chg p hs2 P) t t2 /\ Forall row_ok t2 /\ (forall x, In x hs -> In x hs2) /\ free_disjoint hs2 t2.
  Proof.
    intros Hp. induction fuel as [|n IH]; intros t hs F RO CL FR; [lia|]. cbn [grow].
    destruct (pass p hs false t) as [[t2 hs2] nw] eqn:E. destruct (pass_spec p P Hp t hs false t2 hs2 nw E RO CL FR) as [A [B [C [D [G [H1 H2]]]]]].
    destruct nw.
    - destruct (H2 eq_refl) as [|Z]; [discriminate|].
      assert (LIT : map rlit t2 = map rlit t) by (clear - A; induction A as [|r r' l l' [E _] _ IH]; cbn; congruence).
      destruct (IH t2 hs2) as [t3 [hs3 [E3 [A3 [B3 [C3 D3]]]]]]; auto; [lia| |].
      + intros e r x Pe Hr N1 N2. assert (In (rlit r) (map rlit t)) by (rewrite <- LIT; apply in_map; auto). apply in_map_iff in H. destruct H as [r' [Er Hr']].
        rewrite <- Er in *. apply (CL e r' x); auto.
      + exists t3, hs3. split; auto. split; [|split; auto]. eapply forall2_trans; [intros x y z; apply chg_trans; auto| |exact A3].
        clear - A C3. induction A; constructor; auto. eapply chg_mono; eauto.
    - exists t2, hs2. split; auto. split; auto. split; auto. split; auto. apply (G eq_refl).
  Qed.

  (** the table between two calls of build_part *)
  Definition ground_lit (e : eqn) : Prop := gr /\ forall x, ~ nvs x e.
  Record table_ok (c : clause) (part : nat) (t : list row) : Prop := {
    t_lits : map rlit t = c;
    t_rows : Forall row_ok t;
    t_disj : forall r1 r2 x, In r1 t -> In r2 t -> rpart r1 <> rpart r2 -> nvs x (rlit r1) -> nvs x (rlit r2) -> False;
    t_max : forall r, In r t -> rpart r <= Nat.max 1 part;
    t_nonempty : forall q, 1 <= q <= part -> exists r, In r t /\ rpart r = q;
    t_ground : part = 0 -> forall r, In r t -> rpart r <> 0 -> ground_lit (rlit r);
    t_conn : forall q, 1 <= q -> exists e, forall r, In r t -> rpart r = q -> ground_lit (rlit r) \/ linked sv c e (rlit r)
  }.
  Lemma zeros_le t : zeros t <= length t.
  Proof. unfold zeros. induction t as [|r t IH]; cbn; auto. destruct (Nat.eqb (rpart r) 0); cbn; lia. Qed.
  Lemma zeros_app t1 t2 : zeros (t1 ++ t2) = zeros t1 + zeros t2.
  Proof. unfold zeros. rewrite filter_app, app_length. reflexivity. Qed.
  Lemma chg_zeros p hs P t t2 : p <> 0 -> Forall2 (chg p hs P) t t2 -> zeros t2 <= zeros t.
  Proof.
    intros Hp H. unfold zeros. induction H as [|r r' l l' [_ [->|[Z [Q _]]]] _ IH]; cbn [filter length]; auto.
    - destruct (Nat.eqb (rpart r) 0); cbn [length]; lia.
    - rewrite Z, Q. destruct (Nat.eqb_spec p 0); [congruence|]. cbn [length Nat.eqb]. lia.
  Qed.

  Lemma find_free_some t : forall i, find_free t = Some i -> exists r, nth_error t i = Some r /\ rpart r = 0 /\ Forall (fun r => rpart r <> 0) (firstn i t).
  Proof.
    induction t as [|r t IH]; intros i E; cbn [find_free] in E; [discriminate|]. destruct (Nat.eqb_spec (rpart r) 0) as [Z|Z].
    - injection E as <-. exists r. cbn. auto.
    - destruct (find_free t) as [j|]; [|discriminate]. injection E as <-. destruct (IH j eq_refl) as [r' [A [B C]]]. exists r'. cbn. auto.
  Qed.
  Lemma find_free_none t : find_free t = None -> Forall (fun r => rpart r <> 0) t.
  Proof.
    induction t as [|r t IH]; intros E; cbn [find_free] in E; [constructor|]. destruct (Nat.eqb_spec (rpart r) 0) as [Z|Z]; [discriminate|].
    destruct (find_free t); [discriminate|]. constructor; auto.
  Qed.

  Lemma split_nth {A} (t : list A) i r : nth_error t i = Some r -> t = firstn i t ++ r :: skipn (S i) t.
  Proof.
    revert i. induction t as [|a t IH]; intros [|i] E; cbn in E; try discriminate; [injection E as <-; reflexivity|]. cbn. f_equal. apply IH. auto.
  Qed.

  Lemma build_part_spec c part t i : table_ok c part t -> find_free t = Some i ->
    exists t', build_part (S (length t)) t i (S part) = Some t' /\ table_ok c (S part) t' /\ zeros t' < zeros t.
  Proof.
    intros T E. destruct (find_free_some t i E) as [r [N [Z FS]]]. unfold build_part. rewrite N.
    pose proof (split_nth t i r N) as TS. set (pre := firstn i t) in *. set (post := skipn (S i) t) in *.
    assert (RO : row_ok r) by (pose proof (t_rows c part t T) as Q; rewrite Forall_forall in Q; apply Q; eapply nth_error_In; eauto).
    assert (INr : In r t) by (eapply nth_error_In; eauto).
    assert (Hc : forall r', In r' t -> In (rlit r') c) by (intros r' H; rewrite <- (t_lits c part t T); apply in_map; auto).
    set (P := fun e => linked sv c (rlit r) e).
    assert (ROp : Forall row_ok post) by (pose proof (t_rows c part t T) as Q; rewrite TS in Q; apply Forall_app in Q; destruct Q as [_ Q]; inversion Q; auto).
    destruct (grow_spec (S part) P ltac:(lia) (S (length t)) post (rvars r)) as [t2 [hs2 [G [A [B [C D]]]]]]; auto.
    { assert (length post <= length t) by (rewrite TS, app_length; cbn [length]; lia). pose proof (zeros_le post). lia. }
    { intros e r' x Pe Hr' N1 N2. unfold P in *. eapply linked_step; [exact Pe| | |apply N2|apply N1]; [|apply N1].
      apply Hc. rewrite TS. apply in_or_app. right. right. auto. }
    { intros x Hx. exists (rlit r). split; [apply linked_refl; auto|]. apply (RO Z); auto. }
    rewrite G. set (r' := mkrow (rlit r) (S part) hs2). exists (pre ++ r' :: t2). split; auto.
    (* the whole table changes row by row *)
    assert (CH : Forall2 (chg (S part) hs2 P) t (pre ++ r' :: t2)).
    { rewrite TS. apply Forall2_app.
      - clear. induction pre; constructor; auto. split; auto.
      - constructor; auto. split; auto. right. split; auto. split; auto. split; [apply linked_refl; auto|]. intros x Hx. apply C. apply (RO Z); auto. }
    assert (BACK : forall s', In s' (pre ++ r' :: t2) -> exists s, In s t /\ chg (S part) hs2 P s s').
    { clear - CH. induction CH as [|s s' l l' H _ IH]; intros x Hx; [destruct Hx|]. destruct Hx as [<-|Hx]; [exists s; split; auto; left; auto|].
      destruct (IH x Hx) as [s1 [H1 H2]]. exists s1. split; auto. right; auto. }
    assert (FORW : forall s, In s t -> exists s', In s' (pre ++ r' :: t2) /\ chg (S part) hs2 P s s').
    { clear - CH. induction CH as [|s s' l l' H _ IH]; intros x Hx; [destruct Hx|]. destruct Hx as [<-|Hx]; [exists s'; split; auto; left; auto|].
      destruct (IH x Hx) as [s1 [H1 H2]]. exists s1. split; auto. right; auto. }
    assert (LITS : map rlit (pre ++ r' :: t2) = c).
    { rewrite <- (t_lits c part t T). clear - CH. induction CH as [|s s' l l' [H _] _ IH]; cbn [map]; auto. congruence. }
    assert (FD : free_disjoint hs2 (pre ++ r' :: t2)).
    { intros s x Hs Zs Hx. apply in_app_or in Hs. destruct Hs as [Hs|[<-|Hs]]; [|cbn in Zs; lia|apply (D s x); auto].
      rewrite Forall_forall in FS. exfalso. apply (FS s); auto. }
    split.
    - split; auto.
      + apply Forall_app. split; [|constructor; auto].
        * pose proof (t_rows c part t T) as Q. rewrite TS in Q. apply Forall_app in Q. apply Q.
        * intros W. cbn in W. lia.
      + intros s1 s2 x H1 H2 NE N1 N2. destruct (BACK s1 H1) as [o1 [O1 [L1 C1]]], (BACK s2 H2) as [o2 [O2 [L2 C2]]]. rewrite L1 in N1. rewrite L2 in N2.
        destruct C1 as [->|[Z1 [P1 [_ V1]]]], C2 as [->|[Z2 [P2 [_ V2]]]].
        * apply (t_disj c part t T o1 o2 x); auto.
        * destruct (Nat.eq_dec (rpart o1) 0) as [Z1|Z1]; [|apply (t_disj c part t T o1 o2 x); auto; congruence].
          apply (FD o1 x); auto.
        * destruct (Nat.eq_dec (rpart o2) 0) as [Z2|Z2]; [|apply (t_disj c part t T o1 o2 x); auto; congruence].
          apply (FD o2 x); auto.
        * congruence.
      + intros s Hs. destruct (BACK s Hs) as [o [O [_ [->|[_ [-> _]]]]]]; [pose proof (t_max c part t T o O)|]; lia.
      + intros q Hq. destruct (Nat.eq_dec q (S part)) as [->|NQ]; [exists r'; split; auto; apply in_or_app; right; left; auto|].
        destruct (t_nonempty c part t T q) as [o [O Po]]; [lia|]. destruct (FORW o O) as [s [Hs [_ [->|[Z0 _]]]]]; [exists o; auto|lia].
      + discriminate.
      + intros q Hq. destruct (Nat.eq_dec q (S part)) as [->|NQ].
        * exists (rlit r). intros s Hs Ps. destruct (BACK s Hs) as [o [O [L [->|[_ [_ [Po _]]]]]]]; [|right; rewrite L; exact Po].
          (* already in this part: a ground literal of the initial table *)
          left. pose proof (t_max c part t T o O) as Mx. apply (t_ground c part t T); auto; lia.
        * destruct (t_conn c part t T q Hq) as [e He]. exists e. intros s Hs Ps. destruct (BACK s Hs) as [o [O [L [->|[_ [Po _]]]]]]; [apply He; auto|congruence].
    - replace (zeros t) with (zeros (pre ++ r :: post)) by (rewrite <- TS; reflexivity). rewrite !zeros_app. assert (zeros (r' :: t2) = zeros t2) by reflexivity.
      assert (zeros (r :: post) = S (zeros post)) by (unfold zeros; cbn [filter]; rewrite Z; reflexivity).
      pose proof (chg_zeros (S part) hs2 P post t2 ltac:(lia) A). lia.
  Qed.

  Lemma all_parts_spec c : forall fuel part t, zeros t < fuel -> table_ok c part t ->
    exists part' t', all_parts fuel part t = Some (part', t') /\ table_ok c part' t' /\ Forall (fun r => rpart r <> 0) t' /\ part <= part'.
  Proof.
    induction fuel as [|n IH]; intros part t F T; [lia|]. cbn [all_parts]. destruct (find_free t) as [i|] eqn:E.
    - destruct (build_part_spec c part t i T E) as [t' [B [T' Z]]]. rewrite B. destruct (IH (S part) t') as [p2 [t2 [A [T2 [N L]]]]]; [lia|auto|].
      exists p2, t2. split; auto. split; auto. split; auto. lia.
    - exists part, t. split; auto. split; auto. split; auto. apply find_free_none; auto.
  Qed.
End Part.

Lemma init_rows how sv c : Forall (row_ok sv) (init_table how sv c).
Proof. apply Forall_forall. intros r H. apply in_map_iff in H. destruct H as [e [<- _]]. intros _ x. apply collect_in. Qed.
Lemma init_in how sv c r : In r (init_table how sv c) -> In (rlit r) c /\ (rpart r = 0 \/ (rpart r = 1 /\ ground_lit sv (how <> SplitGroundFull) (rlit r))).
Proof.
  intros H. apply in_map_iff in H. destruct H as [e [<- H]]. unfold init_row. cbn [rlit rpart]. split; auto.
  assert (G : collect_vars sv e = [] -> forall x, ~ nv sv x e) by (intros E x N; apply collect_in in N; rewrite E in N; destruct N).
  destruct how; auto; destruct (collect_vars sv e) eqn:E; auto; right; split; auto; split; auto; discriminate.
Qed.
Lemma init_zero how sv c r : In r (init_table how sv c) -> rpart r = 0 -> how <> SplitGroundFull -> exists x, nv sv x (rlit r).
Proof.
  intros H. apply in_map_iff in H. destruct H as [e [<- H]]. unfold init_row. cbn [rlit rpart]. destruct (collect_vars sv e) as [|x l] eqn:E.
  - destruct how; congruence.
  - intros _ _. exists x. apply collect_in. rewrite E. left; auto.
Qed.
Definition a_lit : eqn := mkeqn ttrue ttrue true false false false false false false.
Lemma init_ok how sv c part : part = 0 \/ (part = 1 /\ exists r, In r (init_table how sv c) /\ rpart r = 1) -> table_ok sv (how <> SplitGroundFull) c part (init_table how sv c).
Proof.
  intros Hp. split.
  - unfold init_table. rewrite map_map. cbn. apply map_id.
  - apply init_rows.
  - intros r1 r2 x H1 H2 NE N1 N2. apply init_in in H1. apply init_in in H2. destruct H1 as [_ [Z1|[O1 [_ G1]]]], H2 as [_ [Z2|[O2 [_ G2]]]]; try congruence;
    first [apply (G1 x); exact N1|apply (G2 x); exact N2].
  - intros r H. apply init_in in H. destruct H as [_ [->|[-> _]]]; lia.
  - intros q Hq. destruct Hp as [->|[-> [r [A B]]]]; [lia|]. exists r. split; auto. lia.
  - intros _ r H N. apply init_in in H. destruct H as [_ [Z|[_ G]]]; [congruence|auto].
  - intros q Hq. exists a_lit. intros r H R. left. apply init_in in H. destruct H as [_ [Z|[_ G]]]; [lia|auto].
Qed.

Theorem split_table_spec how sv c : c <> [] -> exists part t, split_table how sv c = Some (part, t) /\ table_ok sv (how <> SplitGroundFull) c part t /\ Forall (fun r => rpart r <> 0) t.
Proof.
  intros NE. unfold split_table. set (t := init_table how sv c).
  set (p0 := match how, find_free t with SplitGroundOne, Some 0 => 0 | SplitGroundOne, _ => 1 | _, _ => 0 end).
  assert (T : table_ok sv (how <> SplitGroundFull) c p0 t).
  { apply init_ok. unfold p0. destruct how; auto. destruct (find_free t) as [[|i]|] eqn:F; auto; right; split; auto.
    - destruct (find_free_some t _ F) as [r [_ [_ Q]]]. destruct t as [|r0 t'] eqn:Et; [cbn in F; discriminate|]. cbn in Q. apply Forall_inv in Q.
      assert (In r0 (init_table SplitGroundOne sv c)) as I by (fold t; rewrite Et; left; auto). exists r0. split; auto. apply init_in in I. destruct I as [_ [Z|[O _]]]; auto; congruence.
    - pose proof (find_free_none t F) as Q. destruct c as [|e c']; [congruence|]. exists (init_row SplitGroundOne sv e). split; [left; auto|].
      unfold t in Q. cbn [init_table map] in Q. apply Forall_inv in Q. assert (I : In (init_row SplitGroundOne sv e) (init_table SplitGroundOne sv (e :: c'))) by (left; auto).
      apply init_in in I. destruct I as [_ [Z|[O _]]]; auto; congruence. }
  destruct (all_parts_spec sv (how <> SplitGroundFull) c (S (length t)) p0 t) as [p [t' [A [B [C _]]]]]; auto.
  - pose proof (zeros_le t). lia.
  - exists p, t'. auto.
Qed.

(** *** the blocks *)
Lemma filter_or_perm {A} (f g : A -> bool) l : (forall x, f x = true -> g x = false) ->
  Permutation (filter f l ++ filter g l) (filter (fun x => f x || g x) l).
Proof.
  intros D. induction l as [|a l IH]; [constructor|]. cbn [filter]. destruct (f a) eqn:F.
  - rewrite (D a F). cbn [orb app]. constructor. exact IH.
  - cbn [orb]. destruct (g a); auto. apply Permutation_sym. apply Permutation_cons_app. apply Permutation_sym. exact IH.
Qed.
Lemma blocks_perm t l : NoDup l -> Permutation (concat (map (assemble t) l)) (map rlit (filter (fun r => mem (rpart r) l) t)).
Proof.
  induction l as [|p l IH]; intros ND; cbn [map concat].
  - unfold mem. cbn. replace (filter (fun _ : row => false) t) with (@nil row); [constructor|]. induction t; cbn; auto.
  - inversion ND as [|? ? N ND']; subst. eapply perm_trans; [apply Permutation_app; [unfold assemble; apply Permutation_sym, Permutation_rev|apply IH; auto]|].
    rewrite <- map_app. apply Permutation_map. eapply perm_trans; [apply filter_or_perm|].
    + intros r H. apply Nat.eqb_eq in H. rewrite H. apply mem_not. auto.
    + erewrite filter_ext; [apply Permutation_refl|]. intros r. reflexivity.
Qed.
Lemma assemble_in t p e : In e (assemble t p) <-> exists r, In r t /\ rpart r = p /\ rlit r = e.
Proof.
  unfold assemble. rewrite <- in_rev, in_map_iff. split.
  - intros [r [A B]]. apply filter_In in B. destruct B as [B C]. apply Nat.eqb_eq in C. exists r. auto.
  - intros [r [A [B C]]]. exists r. split; auto. apply filter_In. rewrite B, Nat.eqb_refl. auto.
Qed.

(** what the partition guarantees *)
Record partition_ok (how : split_type) (sv : list var) (c : clause) (bs : list (list eqn)) : Prop := {
  pt_perm : Permutation (concat bs) c;
  pt_nonempty : forall b, In b bs -> b <> [];
  pt_disj : forall i j bi bj x ei ej, i <> j -> nth_error bs i = Some bi -> nth_error bs j = Some bj -> In ei bi -> In ej bj ->
              In x (lit_vars ei) -> In x (lit_vars ej) -> In x sv;
  pt_conn : forall b, In b bs -> exists e, forall e', In e' b -> (how <> SplitGroundFull /\ forall x, In x (lit_vars e') -> In x sv) \/ linked sv c e e'
}.
Theorem partition_spec how sv c part t : split_table how sv c = Some (part, t) -> 1 < part -> c <> [] -> partition_ok how sv c (blocks t part).
Proof.
  intros ST P NE. destruct (split_table_spec how sv c NE) as [p [t' [E [T N]]]]. rewrite E in ST. injection ST as -> ->.
  assert (NTH : forall i b, nth_error (blocks t part) i = Some b -> b = assemble t (S i) /\ i < part).
  { intros i b H. unfold blocks in H. rewrite nth_error_map in H. destruct (nth_error (seq 1 part) i) as [q|] eqn:Q; [|discriminate]. injection H as <-.
    assert (i < part) by (rewrite <- (seq_length part 1); apply nth_error_Some; congruence). split; auto.
    apply nth_error_nth with (d := 0) in Q. rewrite seq_nth in Q by auto. rewrite <- Q. reflexivity. }
  split.
  - unfold blocks. eapply perm_trans; [apply blocks_perm, seq_NoDup|]. rewrite <- (t_lits sv _ c part t T). apply Permutation_map.
    replace (filter (fun r => mem (rpart r) (seq 1 part)) t) with t; [apply Permutation_refl|]. symmetry.
    pose proof (t_max sv _ c part t T) as MX. clear - N P MX. induction t as [|r t IH]; auto. cbn [filter].
    replace (mem (rpart r) (seq 1 part)) with true; [f_equal; apply IH; [exact (Forall_inv_tail N)|intros; apply MX; right; auto]|].
    symmetry. apply mem_In. apply in_seq. pose proof (Forall_inv N) as N0. cbv beta in N0. pose proof (MX r (or_introl eq_refl)). lia.
  - intros b Hb. apply in_map_iff in Hb. destruct Hb as [q [<- Q]]. apply in_seq in Q. destruct (t_nonempty sv _ c part t T q) as [r [A B]]; [lia|].
    intros Z. assert (In (rlit r) (assemble t q)) by (apply assemble_in; exists r; auto). rewrite Z in H. destruct H.
  - intros i j bi bj x ei ej NIJ Hi Hj Ei Ej Xi Xj. destruct (NTH i bi Hi) as [-> _], (NTH j bj Hj) as [-> _].
    apply assemble_in in Ei. apply assemble_in in Ej. destruct Ei as [r1 [A1 [B1 C1]]], Ej as [r2 [A2 [B2 C2]]]. subst ei ej.
    destruct (mem x sv) eqn:M; [apply mem_In; auto|]. apply mem_not in M. exfalso. apply (t_disj sv _ c part t T r1 r2 x); auto; [congruence| |]; split; auto.
  - intros b Hb. apply in_map_iff in Hb. destruct Hb as [q [<- Q]]. apply in_seq in Q. destruct (t_conn sv _ c part t T q ltac:(lia)) as [e He]. exists e.
    intros e' H. apply assemble_in in H. destruct H as [r [A [B C]]]. subst e'. destruct (He r A B) as [[G1 G2]|X]; auto. left. split; auto. intros x Hx.
    destruct (mem x sv) eqn:M; [apply mem_In; auto|]. apply mem_not in M. exfalso. apply (G2 x). split; auto.
Qed.
