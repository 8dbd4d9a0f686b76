(** Proofs about times, cores and the choice of schedules. *)
From Coq Require Import Arith.Arith ZArith QArith Qround String Ascii List Bool Lia Lqa Permutation.
From Verif Require Import Sched SchedSpec SchedProofs.
Import ListNotations.
Local Open Scope list_scope.
Local Open Scope Z_scope.

(** ** Cores *)

Lemma sum_cores_eq : forall l, sum_cores l = sum (map cores l).
Proof.
  intros l. unfold sum_cores.
  assert (X : forall l n, fold_left (fun n s => n + cores s) l n = n + sum (map cores l)).
  { induction l0 as [|s l0 IH]; simpl; intros n; [lia | rewrite IH; lia]. }
  rewrite X. lia.
Qed.

Lemma take_back_same : forall (A : Type) (f : strat -> A), (forall s c, f (with_cores s c) = f s) ->
  forall r err, map f (take_back err r) = map f r.
Proof.
  intros A f Hf. induction r as [|s r IH]; intros err; simpl; [reflexivity|].
  destruct (err =? 0); [reflexivity|]. simpl. rewrite Hf, IH. reflexivity.
Qed.

Lemma take_back_ok : forall r err,
  (forall s, In s r -> 1 <= cores s) ->
  err <= sum (map cores r) - Z.of_nat (length r) -> r <> [] \/ err = 0 ->
  sum (map cores (take_back err r)) = sum (map cores r) - err /\
  (forall s, In s (take_back err r) -> 1 <= cores s).
Proof.
  induction r as [|s r IH]; intros err P B NE; cbn [take_back].
  - destruct NE as [NE | ->]; [congruence|]. simpl. split; [lia | auto].
  - destruct (Z.eqb_spec err 0) as [-> | N0]; [split; [lia | exact P]|].
    assert (Ps : 1 <= cores s) by (apply P; simpl; auto).
    rewrite Nat2Z.inj_succ in B || (simpl length in B; rewrite Nat2Z.inj_succ in B).
    simpl in B.
    set (k := Z.min (cores s - 1) err).
    assert (R : err - k = 0 \/ (0 < err - k /\ k = cores s - 1)) by lia.
    destruct R as [R | [R1 R2]].
    + rewrite R.
      assert (T0 : take_back 0 r = r) by (destruct r; reflexivity).
      rewrite T0. cbn [map sum cores with_cores]. split; [lia|].
      intros x [<- | Hx]; [simpl; lia | apply P; simpl; auto].
    + assert (NE' : r <> [] \/ err - k = 0).
      { left. intros ->. simpl in B. lia. }
      destruct (IH (err - k)) as [S Q]; [intros x Hx; apply P; simpl; auto | lia | exact NE' |].
      cbn [map sum cores with_cores]. rewrite S. split; [lia|].
      intros x [<- | Hx]; [simpl; lia | apply Q; exact Hx].
Qed.

(** Cores are taken back from the least important strategies first. *)
Lemma take_back_order : forall (W : strat -> Z), (forall s c, W (with_cores s c) = W s) ->
  forall r err, (forall s, In s r -> cores s = W s /\ 1 <= cores s) ->
  (forall a t b s c, take_back err r = a ++ t :: b ++ s :: c -> cores s < W s -> cores t = 1) /\
  (forall t b s, take_back err r = t :: b -> In s b -> cores s <= W s).
Proof.
  intros W HW. induction r as [|x r IH]; intros err P; cbn [take_back].
  - split; [intros a t b s c E; destruct a; discriminate | discriminate].
  - assert (Pr : forall s, In s r -> cores s = W s /\ 1 <= cores s) by (intros; apply P; simpl; auto).
    destruct (P x) as [Ex Px]; [simpl; auto|].
    destruct (Z.eqb_spec err 0) as [-> | N0].
    + split.
      * intros a t b s c E L. exfalso.
        assert (In s (x :: r)) by (rewrite E; apply in_or_app; right; right; apply in_or_app; right; simpl; auto).
        destruct (P s H). lia.
      * intros t b s E H. inversion E; subst. destruct (Pr s H). lia.
    + set (k := Z.min (cores x - 1) err).
      assert (LE : forall s, In s (take_back (err - k) r) -> cores s <= W s).
      { assert (G : forall r0 e, 0 <= e -> (forall s, In s r0 -> cores s = W s /\ 1 <= cores s) ->
                    forall s, In s (take_back e r0) -> cores s <= W s).
        { clear - HW. induction r0 as [|y r0 IH]; intros e He Q s H; cbn [take_back] in H; [contradiction|].
          destruct (e =? 0); [destruct (Q s H); lia|].
          destruct (Q y) as [Ey Py]; [simpl; auto|].
          destruct H as [<- | H].
          - rewrite HW. simpl. lia.
          - eapply IH; [| |exact H]; [lia | intros; apply Q; simpl; auto]. }
        intros s H. apply (G r (err - k)); [lia | exact Pr | exact H]. }
      split.
      * intros a t b s c E L. destruct a as [|y a]; simpl in E; inversion E as [[E1 E2]].
        -- assert (R : err - k = 0 \/ k = cores x - 1) by lia.
           destruct R as [R | R]; [|simpl; lia]. exfalso. rewrite R in E2.
           assert (T0 : take_back 0 r = r) by (destruct r; reflexivity). rewrite T0 in E2.
           assert (In s r) by (rewrite E2; apply in_or_app; simpl; auto).
           destruct (Pr s H). lia.
        -- eapply (proj1 (IH (err - k) Pr)); eauto.
      * intros t b s E H. inversion E; subst. apply LE. exact H.
Qed.

Lemma shorten_length : forall l c, 0 <= c ->
  Z.of_nat (length (shorten l c)) = Z.min (Z.of_nat (length l)) c.
Proof.
  intros l c H. unfold shorten. destruct (Z.gtb_spec (Z.of_nat (length l)) c).
  - rewrite map_length, firstn_length. lia.
  - lia.
Qed.

Lemma shorten_names : forall l c, map name (shorten l c) = firstn (length (shorten l c)) (map name l).
Proof.
  intros l c. unfold shorten. destruct (Z.of_nat (length l) >? c).
  - rewrite map_map, map_length. simpl. rewrite firstn_length.
    rewrite firstn_map. f_equal.
    destruct (Nat.le_ge_cases (Z.to_nat c) (length l)).
    + f_equal. lia.
    + rewrite !firstn_all2; [reflexivity | lia | lia].
  - symmetry. apply firstn_all2. rewrite map_length. lia.
Qed.

Lemma total_eq : forall l, (total l == fractions l)%Q.
Proof.
  intros l. unfold total, fractions.
  assert (X : forall l q, (fold_left (fun q s => q + frac s)%Q l q ==
                           q + fold_right (fun s q => frac s + q)%Q 0%Q l)%Q).
  { induction l0 as [|s l0 IH]; simpl; intros q; [ring | rewrite IH; ring]. }
  rewrite X. ring.
Qed.

Lemma fractions_scale : forall l q,
  (fractions (map (fun s => with_frac s (frac s * q)%Q) l) == fractions l * q)%Q.
Proof. induction l as [|s l IH]; simpl; intros q; [ring | rewrite IH; ring]. Qed.

Lemma shorten_fractions : forall l c, (forall s, In s l -> 0 < frac s)%Q -> 1 <= c ->
  Z.of_nat (length l) > c -> (fractions (shorten l c) == 1)%Q.
Proof.
  intros l c P C G. unfold shorten. destruct (Z.gtb_spec (Z.of_nat (length l)) c); [|lia].
  rewrite fractions_scale, total_eq.
  assert (Q : (0 < fractions (firstn (Z.to_nat c) l))%Q).
  { assert (NN : forall x, (forall s, In s x -> 0 < frac s)%Q -> (0 <= fractions x)%Q).
    { induction x as [|s x IH]; simpl; intros Hx; [lra|].
      assert (0 < frac s)%Q by (apply Hx; simpl; auto).
      assert (0 <= fractions x)%Q by (apply IH; intros; apply Hx; simpl; auto). lra. }
    destruct l as [|s l]; [simpl in G; lia|]. destruct (Z.to_nat c) as [|n] eqn:E; [lia|].
    simpl. assert (0 < frac s)%Q by (apply P; simpl; auto).
    assert (0 <= fractions (firstn n l))%Q.
    { apply NN. intros y Hy. apply P. right.
      rewrite <- (firstn_skipn n l). apply in_or_app; auto. }
    lra. }
  field. lra.
Qed.

Lemma give_cores_ok : forall l c, 1 <= c -> l <> [] -> Z.of_nat (length l) <= c ->
  let l' := fst (give_cores l c false) in
  sum (map cores l') = c /\ (forall s, In s l' -> 1 <= cores s) /\
  map name l' = map name l /\ map frac l' = map frac l.
Proof.
  intros l c C NE Le l'. unfold give_cores in l'. simpl in l'.
  set (l1 := map (fun s => with_cores s (wish c s)) l) in *.
  assert (P : forall s, In s (rev l1) -> 1 <= cores s).
  { intros s H. apply in_rev in H. apply in_map_iff in H as (x & <- & _). simpl. unfold wish. lia. }
  assert (NE1 : rev l1 <> []).
  { intros E. apply (f_equal (@length _)) in E. rewrite rev_length in E. unfold l1 in E.
    rewrite map_length in E. destruct l; [congruence | discriminate]. }
  assert (LN : length (rev l1) = length l) by (unfold l1; rewrite rev_length, map_length; reflexivity).
  assert (SR : sum (map cores (rev l1)) = sum (map cores l1)) by (rewrite map_rev, sum_rev; reflexivity).
  destruct (take_back_ok (rev l1) (sum_cores l1 - c) P) as [S Q].
  { rewrite SR, LN, sum_cores_eq. lia. }
  { left; exact NE1. }
  unfold l'. split; [|split; [|split]].
  - rewrite map_rev, sum_rev, S, SR, sum_cores_eq. lia.
  - intros s H. apply in_rev in H. auto.
  - rewrite map_rev, take_back_same by reflexivity. rewrite map_rev, rev_involutive.
    unfold l1. rewrite map_map. reflexivity.
  - rewrite map_rev, take_back_same by reflexivity. rewrite map_rev, rev_involutive.
    unfold l1. rewrite map_map. reflexivity.
Qed.

Lemma give_cores_order : forall l c, 
  let l' := fst (give_cores l c false) in
  (forall a s b t d, l' = a ++ s :: b ++ t :: d -> cores s < wish c s -> cores t = 1) /\
  (forall a s b, l' = a ++ s :: b -> b <> [] -> cores s <= wish c s).
Proof.
  intros l c l'. unfold give_cores in l'. simpl in l'.
  set (l1 := map (fun s => with_cores s (wish c s)) l) in *.
  destruct (take_back_order (wish c) (fun s x => eq_refl) (rev l1) (sum_cores l1 - c)) as [A B].
  { intros s H. apply in_rev in H. apply in_map_iff in H as (x & <- & _). simpl.
    split; [reflexivity | unfold wish; lia]. }
  split.
  - intros a s b t d E L. unfold l' in E. apply (f_equal (@rev _)) in E.
    rewrite rev_involutive in E. rewrite rev_app_distr in E. simpl in E.
    rewrite rev_app_distr in E. simpl in E. rewrite <- !app_assoc in E. simpl in E.
    eapply A; [|exact L]. rewrite E. reflexivity.
  - intros a s b E NE. unfold l' in E. apply (f_equal (@rev _)) in E.
    rewrite rev_involutive in E. rewrite rev_app_distr in E. simpl in E.
    destruct b as [|t b] using rev_ind; [congruence|]. rewrite rev_app_distr in E. simpl in E.
    eapply B; [exact E|]. apply in_or_app. left. apply in_or_app. right. simpl; auto.
Qed.

(** ** Times *)

Lemma give_times_same : forall (A : Type) (f : strat -> A), (forall s t, f (with_time s t) = f s) ->
  forall ser lim l sum0, map f (give_times true ser lim sum0 l) = map f l.
Proof.
  intros A f Hf ser lim. induction l as [|s l IH]; intros sum0; simpl; [reflexivity|].
  rewrite Hf, IH. reflexivity.
Qed.

Lemma give_times_parallel : forall lim l sum0 s, In s (give_times true false lim sum0 l) ->
  tabs s = cores s * lim.
Proof.
  intros lim. induction l as [|x l IH]; intros sum0 s H; [contradiction|].
  cbn [give_times andb negb] in H. destruct H as [<- | H]; [|eapply IH; exact H].
  cbn [tabs with_time cores].
  rewrite <- (Qceiling_Z (cores x * lim)). apply Qceiling_comp. rewrite inject_Z_mult. ring.
Qed.

Lemma ceil_lt : forall q, (inject_Z (Qceiling q) < q + 1)%Q.
Proof.
  intros q. pose proof (Qceiling_lt q) as H. 
  assert (E : (inject_Z (Qceiling q - 1) == inject_Z (Qceiling q) - 1)%Q).
  { unfold Z.sub. rewrite inject_Z_plus. reflexivity. }
  rewrite E in H. lra.
Qed.

Lemma give_times_serial : forall lim l sum0, 0 <= lim -> (forall s, In s l -> cores s = 1) ->
  (forall s, In s l -> 0 <= frac s)%Q ->
  (inject_Z (sum (map tabs (give_times true true lim sum0 l))) <=
   fractions l * inject_Z lim + inject_Z (Z.of_nat (length l)))%Q.
Proof.
  intros lim. induction l as [|x l IH]; intros sum0 L C P.
  - simpl. change (inject_Z 0) with 0%Q. lra.
  - cbn [give_times andb negb map sum tabs with_time fractions fold_right length].
    fold (fractions l). rewrite (C x) by (simpl; auto).
    rewrite inject_Z_plus, Nat2Z.inj_succ. unfold Z.succ. rewrite inject_Z_plus.
    change (inject_Z 1) with 1%Q.
    set (q := (frac x * 1 * inject_Z lim)%Q).
    pose proof (ceil_lt q) as Hq.
    pose proof (IH (sum0 + Qceiling q) L (fun s H => C s (or_intror H)) (fun s H => P s (or_intror H))) as Hr.
    assert (Eq : (q == frac x * inject_Z lim)%Q) by (unfold q; ring).
    lra.
Qed.

(** What a kept strategy has got. *)
Definition share (lim : Z) (s : strat) : Z := Qceiling (frac s * inject_Z (cores s) * inject_Z lim).

Lemma share_pos : forall lim s, (0 < frac s)%Q -> 1 <= cores s -> 1 <= lim -> 1 <= share lim s.
Proof.
  intros lim s F C L. unfold share.
  assert (0 < Qceiling (frac s * inject_Z (cores s) * inject_Z lim)); [|lia].
  rewrite Zlt_Qlt. eapply Qlt_le_trans; [|apply Qle_ceiling].
  change (inject_Z 0) with 0%Q.
  assert (0 < inject_Z (cores s))%Q by (change 0%Q with (inject_Z 0); rewrite <- Zlt_Qlt; lia).
  assert (0 < inject_Z lim)%Q by (change 0%Q with (inject_Z 0); rewrite <- Zlt_Qlt; lia).
  apply Qmult_lt_0_compat; [apply Qmult_lt_0_compat|]; assumption.
Qed.

Lemma give_times_search : forall ser lim l sum0, 0 <= sum0 <= lim ->
  (forall s, In s l -> (0 < frac s)%Q /\ 1 <= cores s) ->
  let l' := give_times false ser lim sum0 l in
  exists kept rest, l = kept ++ rest /\
    Forall2 (fun s s' => name s' = name s /\ frac s' = frac s /\ cores s' = cores s /\
                         1 <= tabs s' <= share lim s) kept l' /\
    sum0 + sum (map tabs l') <= lim /\
    (rest <> [] -> sum0 + sum (map tabs l') = lim) /\
    (sum0 + sum (map tabs l') < lim -> Forall2 (fun s s' => tabs s' = share lim s) kept l').
Proof.
  intros ser lim. induction l as [|s l IH]; intros sum0 B P; cbn [give_times andb negb].
  - exists [], []. repeat split; try constructor; simpl; try lia; congruence.
  - destruct (Z.leb_spec lim sum0).
    + exists [], (s :: l). repeat split; try constructor; simpl; lia.
    + destruct (P s) as [F C]; [simpl; auto|].
      fold (share lim s). pose proof (share_pos lim s F C ltac:(lia)) as SP.
      set (t := Z.min (share lim s) (lim - sum0)).
      destruct (IH (sum0 + t)) as (k & r & E & A & U & R & V); [lia | intros; apply P; simpl; auto|].
      exists (s :: k), r. cbn [map sum tabs with_time].
      split; [simpl; congruence|]. split; [|split; [lia|split]].
      * constructor; [|exact A]. simpl. repeat split; lia.
      * intros NR. specialize (R NR). lia.
      * intros L. constructor; [|apply V; lia]. simpl.
        pose proof U. 
        assert (0 <= sum (map tabs (give_times false ser lim (sum0 + t) l))).
        { clear - A. induction A as [|? ? ? ? (_ & _ & _ & H & _) A IH]; simpl; lia. }
        lia.
Qed.

(** ** Putting schedules together *)

Lemma swap_length : forall A i j (l : list A), length (swap i j l) = length l.
Proof.
  intros. unfold swap. destruct (nth_error l i); [|reflexivity].
  destruct (nth_error l j); [|reflexivity]. rewrite map_length, seq_length. reflexivity.
Qed.

Lemma nth_error_ext : forall A (a b : list A), (forall n, nth_error a n = nth_error b n) -> a = b.
Proof.
  induction a as [|x a IH]; destruct b as [|y b]; intros H; try reflexivity.
  - specialize (H 0%nat). discriminate.
  - specialize (H 0%nat). discriminate.
  - pose proof (H 0%nat) as H0. simpl in H0. inversion H0; subst. f_equal.
    apply IH. intros n. apply (H (S n)).
Qed.

Lemma nth_seq_map : forall A (f : nat -> A) n m,
  nth_error (map f (seq 0 m)) n = if (n <? m)%nat then Some (f n) else None.
Proof.
  intros A f n m. destruct (Nat.ltb_spec n m).
  - erewrite map_nth_error; [reflexivity|].
    rewrite (nth_error_nth' _ 0%nat) by (rewrite seq_length; lia). rewrite seq_nth; [reflexivity | lia].
  - apply nth_error_None. rewrite map_length, seq_length. lia.
Qed.

Lemma swap_nth : forall A i j (l : list A) n, (i < length l)%nat -> (j < length l)%nat ->
  nth_error (swap i j l) n = nth_error l (if (n =? i)%nat then j else if (n =? j)%nat then i else n).
Proof.
  intros A i j l n Hi Hj. unfold swap.
  destruct (nth_error l i) as [x|] eqn:Ei; [|apply nth_error_None in Ei; lia].
  destruct (nth_error l j) as [y|] eqn:Ej; [|apply nth_error_None in Ej; lia].
  rewrite nth_seq_map.
  destruct (Nat.eqb_spec n i) as [-> | N1].
  - destruct (Nat.ltb_spec i (length l)); [|lia]. rewrite Ej. reflexivity.
  - destruct (Nat.eqb_spec n j) as [-> | N2].
    + destruct (Nat.ltb_spec j (length l)); [|lia]. rewrite Ei. reflexivity.
    + destruct (Nat.ltb_spec n (length l)).
      * destruct (nth_error l n) eqn:E; [reflexivity | apply nth_error_None in E; lia].
      * symmetry. apply nth_error_None. exact H.
Qed.

Lemma swap_mid : forall A (a m r : list A) x y,
  swap (length a) (length a + S (length m)) (a ++ y :: m ++ x :: r) = a ++ x :: m ++ y :: r.
Proof.
  intros A a m r x y. apply nth_error_ext. intros n.
  rewrite swap_nth by (rewrite app_length; simpl; rewrite app_length; simpl; lia).
  destruct (Nat.eqb_spec n (length a)) as [-> | N1].
  - rewrite (nth_error_app2 a (y :: m ++ x :: r)) by lia.
    replace (length a + S (length m) - length a)%nat with (S (length m)) by lia.
    rewrite (nth_error_app2 a (x :: m ++ y :: r)) by lia. rewrite Nat.sub_diag. simpl.
    rewrite nth_error_app2 by lia. rewrite Nat.sub_diag. reflexivity.
  - destruct (Nat.eqb_spec n (length a + S (length m))) as [-> | N2].
    + rewrite (nth_error_app2 a (y :: m ++ x :: r)) by lia. rewrite Nat.sub_diag.
      rewrite (nth_error_app2 a (x :: m ++ y :: r)) by lia.
      replace (length a + S (length m) - length a)%nat with (S (length m)) by lia. simpl.
      rewrite nth_error_app2 by lia. rewrite Nat.sub_diag. reflexivity.
    + destruct (Nat.lt_ge_cases n (length a)).
      * rewrite !nth_error_app1 by lia. reflexivity.
      * rewrite !(nth_error_app2 a) by lia.
        destruct (n - length a)%nat as [|k] eqn:E; [lia|]. simpl.
        destruct (Nat.lt_ge_cases k (length m)).
        -- rewrite !nth_error_app1 by lia. reflexivity.
        -- rewrite !nth_error_app2 by lia. destruct (k - length m)%nat eqn:E2; [lia | reflexivity].
Qed.

Lemma swap_self : forall A i (l : list A), swap i i l = l.
Proof.
  intros A i l. destruct (Nat.lt_ge_cases i (length l)).
  - apply nth_error_ext. intros n. rewrite swap_nth by lia.
    destruct (Nat.eqb_spec n i) as [-> | N]; reflexivity.
  - unfold swap. replace (nth_error l i) with (@None A); [reflexivity|].
    symmetry. apply nth_error_None. lia.
Qed.

Lemma swap_sym : forall A i j (l : list A), (i < length l)%nat -> (j < length l)%nat ->
  swap i j l = swap j i l.
Proof.
  intros A i j l Hi Hj. apply nth_error_ext. intros n. rewrite !swap_nth by lia. f_equal.
  destruct (Nat.eqb_spec n i), (Nat.eqb_spec n j); congruence.
Qed.

Lemma upto_null_some : forall l r, upto_null (map Some l ++ None :: r) = l.
Proof. induction l as [|s l IH]; simpl; intros r; [reflexivity | rewrite IH; reflexivity]. Qed.

Lemma swap_second : forall x m new,
  upto_null (swap (length (x :: m)) 1 (map Some ((x :: m) ++ [new]) ++ [None])) =
  match m with [] => [x; new] | y :: m' => x :: new :: m' ++ [y] end.
Proof.
  intros x m new. destruct m as [|y m].
  - reflexivity.
  - rewrite swap_sym.
    2: { rewrite app_length, map_length, app_length. simpl. lia. }
    2: { rewrite app_length, map_length, app_length. simpl. lia. }
    cbn [length].
    replace (map Some ((x :: y :: m) ++ [new]) ++ [None])
      with ([Some x] ++ Some y :: map Some m ++ Some new :: [None])
      by (simpl; rewrite map_app, <- app_assoc; reflexivity).
    replace (S (S (length m))) with (length [Some x] + S (length (map Some m)))%nat
      by (simpl; rewrite map_length; reflexivity).
    change 1%nat with (length [Some x]) at 1. rewrite swap_mid.
    replace ([Some x] ++ Some new :: map Some m ++ Some y :: [None])
      with (map Some (x :: new :: m ++ [y]) ++ None :: [])
      by (simpl; rewrite map_app, <- app_assoc; reflexivity).
    apply upto_null_some.
Qed.

Lemma fractions_perm : forall a b, Permutation a b -> (fractions a == fractions b)%Q.
Proof.
  intros a b H. induction H; simpl; [reflexivity | rewrite IHPermutation; reflexivity | ring |].
  rewrite IHPermutation1. exact IHPermutation2.
Qed.

Definition is_placeholder (s : strat) : bool := String.eqb (name s) "<placeholder>".

Lemma find_placeholder_iff : forall a h b pre force,
  (forall s, In s a -> is_placeholder s = false) -> is_placeholder h = true ->
  find_placeholder (a ++ h :: b) pre force =
  Some (a, h, b, force && negb (existsb (fun s => String.eqb (name s) pre) a)).
Proof.
  induction a as [|s a IH]; intros h b pre force N H; simpl.
  - unfold is_placeholder in H. rewrite H, andb_true_r. reflexivity.
  - assert (E := N s (or_introl eq_refl)). unfold is_placeholder in E. rewrite E.
    rewrite IH; [|intros; apply N; simpl; auto | exact H].
    destruct (String.eqb (name s) pre); simpl; [rewrite andb_false_r; reflexivity | reflexivity].
Qed.

Lemma name_in_iff : forall n l, name_in n l = true <-> In n (map name l).
Proof.
  induction l as [|s l IH]; simpl; [split; [discriminate | contradiction]|].
  rewrite orb_true_iff, IH, String.eqb_eq. split; intros [H | H]; auto.
Qed.

Definition fresh_in (old : list strat) (s : strat) : bool := negb (name_in (name s) old).

Lemma partition_ok : forall old n f m r, length r = n ->
  exists m', partition old n (length f + length m) (length f) (f ++ m ++ r) =
    ((f ++ filter (fresh_in old) r) ++ m', length (f ++ filter (fresh_in old) r)).
Proof.
  intros old. induction n as [|n IH]; intros f m r L.
  - destruct r; [|discriminate]. simpl. rewrite !app_nil_r. exists m. reflexivity.
  - destruct r as [|x r]; [discriminate|]. simpl in L. cbn [partition].
    rewrite (app_assoc f m). rewrite nth_error_app2 by (rewrite app_length; lia).
    rewrite app_length, Nat.sub_diag. cbn [nth_error filter].
    assert (FE : name_in (name x) old = negb (fresh_in old x))
      by (unfold fresh_in; rewrite negb_involutive; reflexivity).
    rewrite FE. destruct (fresh_in old x); cbn [negb].
    2: { destruct (IH f (m ++ [x]) r) as (m' & E); [lia|].
      exists m'. rewrite <- E. f_equal; [rewrite app_length; simpl; lia|].
      rewrite <- !app_assoc. reflexivity. }
    + assert (SW : exists m2, length m2 = length m /\
        swap (length f) (length f + length m) ((f ++ m) ++ x :: r) = (f ++ [x]) ++ m2 ++ r).
      { destruct m as [|y m].
        - exists []. split; [reflexivity|]. simpl. rewrite Nat.add_0_r, swap_self, app_nil_r.
          rewrite <- app_assoc. reflexivity.
        - exists (m ++ [y]). split; [rewrite app_length; simpl; lia|].
          rewrite <- (app_assoc f (y :: m)). simpl. rewrite swap_mid, <- !app_assoc. reflexivity. }
      destruct SW as (m2 & L2 & ->).
      destruct (IH (f ++ [x]) m2 r) as (m' & E); [lia|].
      exists m'. rewrite app_length in E. simpl in E.
      replace (S (length f + length m)) with (length f + 1 + length m2)%nat by lia.
      replace (S (length f)) with (length f + 1)%nat by lia.
      rewrite E. rewrite <- !app_assoc. reflexivity.
Qed.

(** ** Choosing a class *)

Lemma distance_spec : forall a b, distance a b = differences a b.
Proof.
  unfold differences.
  assert (X : forall A (f : nat -> bool) (c : list A), (forall i, (i < length c)%nat -> f i = true) ->
            length (filter f (seq 0 (length c))) = length c).
  { intros A f c H. rewrite filter_id; [apply seq_length|].
    intros i Hi. apply in_seq in Hi. apply H. lia. }
  induction a as [|x a IH]; intros b; [|destruct b as [|y b]].
  - simpl. rewrite (X _ (differ [] b) b); [reflexivity|].
    intros i Hi. unfold differ. rewrite (proj2 (nth_error_None [] i)) by (simpl; lia).
    destruct (nth_error b i) eqn:E; [reflexivity | apply nth_error_None in E; lia].
  - cbn [distance length]. rewrite Nat.add_0_r, Nat.max_0_r.
    change (S (length a)) with (length (x :: a)).
    rewrite (X _ (differ (x :: a) []) (x :: a)); [reflexivity|].
    intros i Hi. unfold differ.
    destruct (nth_error (x :: a) i) eqn:E; [|apply nth_error_None in E; lia].
    destruct i; reflexivity.
  - cbn [distance length]. rewrite <- Nat.succ_max_distr. cbn [seq filter].
    rewrite IH, <- seq_shift.
    assert (F : forall n, length (filter (differ (x :: a) (y :: b)) (map S n)) =
                          length (filter (differ a b) n)).
    { induction n as [|i n IHn]; simpl; [reflexivity|].
      change (differ (x :: a) (y :: b) (S i)) with (differ a b i).
      destruct (differ a b i); simpl; rewrite IHn; reflexivity. }
    unfold differ at 2. simpl nth_error. cbv iota beta.
    destruct (Ascii.eqb x y); cbn [negb length]; rewrite F; reflexivity.
Qed.

Lemma distance_zero : forall a b, distance a b = 0%nat <-> a = b.
Proof.
  induction a as [|x a IH]; destruct b as [|y b]; simpl; try (split; [lia | discriminate]).
  - split; auto.
  - destruct (Ascii.eqb_spec x y) as [-> | N]; simpl.
    + rewrite IH. split; congruence.
    + split; [discriminate | congruence].
Qed.

Section Choose.
Context {A : Type}.
Implicit Types c : sclass A.

Definition better cat c (d : sclass A) : Prop :=
  (distance (key c) cat < distance (key d) cat)%nat \/
  distance (key c) cat = distance (key d) cat /\ csize d <= csize c.

Lemma choose_some : forall cat l b bd bs, bd = distance (key b) cat -> bs = csize b -> (0 < bd)%nat ->
  exists r, choose cat (Some (b, bd, bs)) l = Some r /\ (r = b \/ In r l) /\
    (key r = cat \/ ~ In cat (map key l) /\ forall d, d = b \/ In d l -> better cat r d).
Proof.
  intros cat. induction l as [|c l IH]; intros b bd bs Eb Es P; simpl.
  - exists b. split; [reflexivity|]. split; [auto|]. right. split; [auto|].
    intros d [-> | []]. right. split; [reflexivity | lia].
  - destruct (Nat.eqb_spec (distance (key c) cat) 0) as [Z | NZ].
    + exists c. split; [reflexivity|]. split; [auto|]. left. apply distance_zero. exact Z.
    + assert (NK : key c <> cat) by (intros E; apply NZ; apply distance_zero; exact E).
      assert (KEEP : forall b' bd' bs', bd' = distance (key b') cat -> bs' = csize b' -> (0 < bd')%nat ->
        (b' = b \/ b' = c) ->
        better cat b' b -> better cat b' c ->
        exists r, choose cat (Some (b', bd', bs')) l = Some r /\ (r = b \/ c = r \/ In r l) /\
         (key r = cat \/ ~ (key c = cat \/ In cat (map key l)) /\
           forall d, d = b \/ c = d \/ In d l -> better cat r d)).
      { intros b' bd' bs' E1 E2 P' W B1 B2. destruct (IH b' bd' bs' E1 E2 P') as (r & R & I & M).
        exists r. split; [exact R|]. split.
        - destruct I as [-> | I]; [|auto]. destruct W as [-> | ->]; auto.
        - destruct M as [M | [M1 M2]]; [auto|]. right. split.
          + intros [X | X]; auto.
          + assert (TR : forall d, better cat b' d -> better cat r d).
            { intros d Bd. pose proof (M2 b' (or_introl eq_refl)) as M3.
              unfold better in *. lia. }
            intros d [-> | [<- | Hd]]; [apply TR; exact B1 | apply TR; exact B2 | apply M2; auto]. }
      destruct (Nat.ltb_spec (distance (key c) cat) bd).
      * apply KEEP; auto; [lia | left; lia | right; lia].
      * destruct (Nat.eqb_spec (distance (key c) cat) bd) as [E | NE]; cbn [andb].
        -- destruct (Z.ltb_spec bs (csize c)).
           ++ apply KEEP; auto; [lia | right; lia | right; lia].
           ++ apply KEEP; auto; [right; lia | right; lia].
        -- apply KEEP; auto; [right; lia | left; lia].
Qed.

Lemma class_ok : forall cat (l : list (sclass A)), l <> [] ->
  exists r, class_to_schedule cat l = Some r /\ In r l /\
    (In cat (map key l) -> key r = cat) /\
    (~ In cat (map key l) -> forall d, In d l -> better cat r d).
Proof.
  intros cat l NE. unfold class_to_schedule. destruct l as [|c l]; [congruence|]. simpl.
  destruct (Nat.eqb_spec (distance (key c) cat) 0) as [Z | NZ].
  - exists c. apply distance_zero in Z. split; [reflexivity|]. split; [auto|]. split; [auto|].
    intros N. exfalso. apply N. auto.
  - destruct (choose_some cat l c (distance (key c) cat) (csize c) eq_refl eq_refl ltac:(lia))
      as (r & R & I & M).
    exists r. split; [exact R|]. split; [destruct I; auto|].
    assert (NK : key c <> cat) by (intros E; apply NZ; apply distance_zero; exact E).
    destruct M as [M | [M1 M2]].
    + split; [auto|]. intros N. exfalso. apply N.
      destruct I as [-> | I]; [auto|]. right. rewrite <- M. apply in_map. exact I.
    + split.
      * intros [X | X]; [congruence | contradiction].
      * intros _ d [<- | Hd]; apply M2; auto.
Qed.
End Choose.
