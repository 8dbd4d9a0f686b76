(** C63: strategy scheduling. *)
From Coq Require Import Arith.Arith ZArith QArith Qround String Ascii List Bool Lia Lqa Permutation.
From Verif Require Import Sched SchedSpec SchedProofs SchedRun SchedTimes.
Import ListNotations.
Local Open Scope list_scope.
Local Open Scope Z_scope.

(** ** Running a schedule *)

(** At no time do the running children have more cores than there are. *)
Theorem C63_cores : forall l max ins a b,
  (forall s, In s l -> 0 <= cores s) -> 0 <= max ->
  history (execute l max ins) = a ++ b -> cores_in_use a <= max.
Proof.
  intros l max ins a b P M E. destruct (history_ok max l P M ins) as (W & _ & _). exact (W a b E).
Qed.

(** The strategies are started in the order of the schedule, each once, with
    the cores and the time it says; and no child ends that has not been
    started, or ends twice, or is killed after it has ended. *)
Theorem C63_order : forall l max ins,
  (forall s, In s l -> 0 <= cores s) -> 0 <= max ->
  let h := history (execute l max ins) in
  (exists n, starts_of h = firstn n (plan l)) /\
  (forall a e b k, h = a ++ e :: b -> ends_child k e = true -> alive a k).
Proof.
  intros l max ins P M h. destruct (history_ok max l P M ins) as (_ & O & d & r & L & S).
  split.
  - exists (length d). unfold h. rewrite S, L, plan_app.
    assert (LP : length (plan d) = length d)
      by (unfold plan; rewrite map_length, combine_length, seq_length; lia).
    rewrite <- LP at 1. rewrite firstn_app, firstn_all, Nat.sub_diag. simpl. rewrite app_nil_r. reflexivity.
  - intros a e b k E K. destruct (O a e b k E K). split; assumption.
Qed.

(** A reported answer is all that a child has written that has ended with this
    status, it contains an SZS status that answers the problem, and it is the
    first such answer; it is printed, and nothing else is. *)
Theorem C63_answer : forall l max ins out s t,
  (forall s, In s l -> 0 <= cores s) -> 0 <= max ->
  execute l max ins = inr (Answer out s, t) ->
  let h := rev t in exists k,
    started h k /\ In (Ended k s) h /\ out = written h k /\ answers out /\
    (forall x, In (Printed x) h <-> x = out) /\
    (forall j s', In (Ended j s') h -> answers (written h j) -> j = k).
Proof. intros l max ins out s t P M E. eapply answer_result; eauto. Qed.

(** The schedule is exhausted only when every strategy has been started and
    has ended by itself without an answer; it is stopped only by a signal; and
    as long as it runs, no child has ended with an answer. *)
Theorem C63_no_answer : forall l max ins,
  (forall s, In s l -> 0 <= cores s) -> 0 <= max ->
  let h := history (execute l max ins) in
  match execute l max ins with
  | inr (Exhausted, _) =>
      starts_of h = plan l /\
      forall k, (k < length l)%nat -> exists s, In (Ended k s) h /\ ~ answers (written h k)
  | inr (Stopped, _) =>
      (exists i, In i ins /\ term i = true) /\
      forall k s, In (Ended k s) h -> ~ answers (written h k)
  | inr (Answer _ _, _) => True
  | inl _ => forall k s, In (Ended k s) h -> ~ answers (written h k)
  end.
Proof.
  intros l max ins P M h. unfold h. clear h.
  destruct (execute l max ins) as [st | [[out s | |] t]] eqn:E.
  - apply (no_answer_yet max l P M ins st E).
  - exact Logic.I.
  - destruct (stopped_result max l P M ins t E) as (A & _ & B). split; [exact A|].
    intros k s H. apply (B k s). apply in_rev. exact H.
  - destruct (exhausted_result max l P M ins t E) as (A & B & _). split; [exact A | exact B].
Qed.

(** However it ends, no child is left running. *)
Theorem C63_nothing_left : forall l max ins o t k,
  (forall s, In s l -> 0 <= cores s) -> 0 <= max ->
  execute l max ins = inr (o, t) -> ~ alive (rev t) k.
Proof.
  intros l max ins o t k P M E [S G]. apply G.
  pose proof (execute_ok max l P M ins) as X. rewrite E in X.
  destruct (ended_ok max l P _ _ X) as (_ & _ & _ & Y). apply Y. exact S.
Qed.

(** If every strategy fits on the machine, the parent never waits for nothing:
    in a round in which nothing happens, a child is running.  And once all
    strategies have ended, so has the execution. *)
Theorem C63_progress : forall l max ins st,
  fits max l -> l <> [] -> execute l max ins = inl st ->
  (exists st', execute l max (ins ++ [quiet]) = inl st' /\ exists k, alive (history (inl st')) k) /\
  (exists k, (k < length l)%nat /\ forall s, ~ In (Ended k s) (history (inl st))).
Proof.
  intros l max ins st F NE E.
  assert (P : forall s, In s l -> 0 <= cores s) by (intros s H; pose proof (F s H); lia).
  assert (M : 0 <= max) by (destruct l as [|s l0]; [congruence|]; pose proof (F s (or_introl eq_refl)); lia).
  split; [eapply waits_for; eauto | eapply ends_when; eauto].
Qed.

(** ** Cores and times *)

(** A preprocessing schedule for several cores: each strategy that is kept has
    at least one core, together they have all cores, and each may use its
    cores for the whole time.  The first strategies are kept, as many as there
    are cores.  No strategy but the last has more than its share rounded up,
    and one that has less is followed only by strategies with one core. *)
Theorem C63_preproc : forall l used limit c l' c',
  1 <= c -> l <> [] ->
  times_init l used limit true c false = Some (l', c') ->
  c' = c /\ fits c l' /\ sum (map cores l') = c /\
  Z.of_nat (length l') = Z.min (Z.of_nat (length l)) c /\
  map name l' = firstn (length l') (map name l) /\
  (forall s, In s l' -> tabs s = cores s * Qceiling (limit - used)) /\
  (Z.of_nat (length l) <= c -> map frac l' = map frac l) /\
  (Z.of_nat (length l) > c -> (forall s, In s l -> 0 < frac s)%Q -> (fractions l' == 1)%Q) /\
  (forall a s b, l' = a ++ s :: b -> b <> [] ->
     cores s <= Z.max 1 (Qceiling (frac s * inject_Z c))) /\
  (forall a s b t d, l' = a ++ s :: b ++ t :: d ->
     cores s < Z.max 1 (Qceiling (frac s * inject_Z c)) -> cores t = 1).
Proof.
  intros l used limit c l' c' C NE E. unfold times_init in E.
  destruct (Qceiling (limit - used) <? 0) eqn:N; [discriminate|].
  set (l0 := shorten l c) in E.
  assert (L0 : Z.of_nat (length l0) = Z.min (Z.of_nat (length l)) c) by (apply shorten_length; lia).
  assert (NE0 : l0 <> []).
  { intros X. rewrite X in L0. destruct l; [congruence|]. simpl length in L0. lia. }
  destruct (give_cores_ok l0 c C NE0 ltac:(lia)) as (S & P & NM & FR).
  destruct (give_cores_order l0 c) as [OR SH].
  assert (E2 : snd (give_cores l0 c false) = c) by reflexivity.
  destruct (give_cores l0 c false) as [l1 c1]. simpl in S, P, NM, FR, OR, SH, E2. subst c1.
  inversion E; subst l' c'. clear E.
  set (l2 := give_times true false (Qceiling (limit - used)) 0 l1).
  assert (CO : map cores l2 = map cores l1) by (apply give_times_same; reflexivity).
  assert (NM2 : map name l2 = map name l1) by (apply give_times_same; reflexivity).
  assert (FR2 : map frac l2 = map frac l1) by (apply give_times_same; reflexivity).
  assert (LN : length l2 = length l0).
  { transitivity (length (map name l2)); [rewrite map_length; reflexivity|].
    rewrite NM2, NM, map_length. reflexivity. }
  assert (P2 : forall s, In s l2 -> 1 <= cores s).
  { intros s H. apply (in_map cores) in H. rewrite CO in H.
    apply in_map_iff in H as (x & <- & H). apply P; exact H. }
  assert (FX : forall x y, map frac x = map frac y -> (fractions x == fractions y)%Q).
  { clear. induction x as [|a x IH]; destruct y as [|b y]; simpl; intros H; try discriminate; [reflexivity|].
    inversion H as [[H1 H2]]. rewrite H1, (IH y H2). reflexivity. }
  (* a place in l2 is a place in l1 *)
  assert (SPLIT : forall a s b, l2 = a ++ s :: b -> exists a1 s1 b1, l1 = a1 ++ s1 :: b1 /\
             cores s1 = cores s /\ frac s1 = frac s /\ map cores b1 = map cores b /\ map frac b1 = map frac b).
  { intros a s b X. exists (firstn (length a) l1).
    assert (LL : length l1 = length l2) by (rewrite <- (map_length cores l1), <- CO, map_length; reflexivity).
    assert (K : skipn (length a) l1 <> []).
    { intros Y. apply (f_equal (@length _)) in Y. rewrite skipn_length, LL, X, app_length in Y. simpl in Y. lia. }
    destruct (skipn (length a) l1) as [|s1 b1] eqn:SK; [congruence|].
    exists s1, b1. split; [rewrite <- SK; symmetry; apply firstn_skipn|].
    assert (G : forall (B : Type) (f : strat -> B), map f l2 = map f l1 -> map f (s :: b) = map f (s1 :: b1)).
    { intros B f Hf. rewrite <- SK. rewrite <- skipn_map, <- Hf, X, map_app.
      rewrite skipn_app, skipn_all2 by (rewrite map_length; lia).
      rewrite map_length, Nat.sub_diag. reflexivity. }
    pose proof (G _ cores CO) as G1. pose proof (G _ frac FR2) as G2. simpl in G1, G2.
    inversion G1; inversion G2; auto. }
  repeat match goal with |- _ /\ _ => split end.
  - reflexivity.
  - intros s H. split; [apply P2; exact H|].
    assert (G : forall x : list Z, (forall y, In y x -> 0 <= y) -> forall y, In y x -> y <= sum x).
    { clear. assert (NN : forall x, (forall y, In y x -> 0 <= y) -> 0 <= sum x).
      { induction x as [|a x IH]; simpl; intros Q; [lia|].
        pose proof (Q a (or_introl eq_refl)). assert (0 <= sum x) by (apply IH; auto). lia. }
      induction x as [|a x IH]; simpl; intros Q y H; [contradiction|]. destruct H as [<- | H].
      - assert (0 <= sum x) by (apply NN; auto). lia.
      - pose proof (Q a (or_introl eq_refl)). assert (y <= sum x) by (apply IH; auto). lia. }
    rewrite <- S, <- CO. apply G; [|apply in_map; exact H].
    intros y Hy. apply in_map_iff in Hy as (x & <- & Hx). pose proof (P2 x Hx). lia.
  - rewrite CO. exact S.
  - rewrite LN. exact L0.
  - rewrite NM2, NM, LN. apply shorten_names.
  - intros s H. eapply give_times_parallel. exact H.
  - intros Le. rewrite FR2, FR. unfold l0, shorten.
    destruct (Z.gtb_spec (Z.of_nat (length l)) c); [lia | reflexivity].
  - intros Gt Pf. rewrite (FX l2 l0) by congruence. apply shorten_fractions; auto.
  - intros a s b X NB. destruct (SPLIT a s b X) as (a1 & s1 & b1 & X1 & C1 & F1 & C2 & _).
    rewrite <- C1, <- F1, Z.max_comm. apply (SH a1 s1 b1 X1).
    intros ->. destruct b; [congruence | discriminate].
  - intros a s b t d X LT. destruct (SPLIT a s (b ++ t :: d) X) as (a1 & s1 & b1 & X1 & C1 & F1 & C2 & F2).
    assert (D : exists b2 t2 d2, b1 = b2 ++ t2 :: d2 /\ cores t2 = cores t).
    { clear - C2. revert b C2. induction b1 as [|y b1 IH]; intros b C2.
      - destruct b; discriminate.
      - destruct b as [|z b]; simpl in C2; inversion C2.
        + exists [], y, b1. auto.
        + destruct (IH b H1) as (b2 & t2 & d2 & -> & K). exists (y :: b2), t2, d2. auto. }
    destruct D as (b2 & t2 & d2 & -> & K). rewrite <- K.
    eapply OR; [exact X1|]. rewrite C1. unfold wish. rewrite F1, Z.max_comm. exact LT.
Qed.

(** A preprocessing schedule for one core: all strategies one after the other,
    together for the whole time, up to a second for each. *)
Theorem C63_serial : forall l used limit c l' c',
  1 <= c -> (forall s, In s l -> 0 < frac s)%Q -> Z.of_nat (length l) > c \/ (fractions l <= 1)%Q ->
  times_init l used limit true c true = Some (l', c') ->
  c' = 1 /\ fits 1 l' /\ map name l' = firstn (length l') (map name l) /\
  Z.of_nat (length l') = Z.min (Z.of_nat (length l)) c /\
  sum (map tabs l') <= Qceiling (limit - used) + Z.of_nat (length l').
Proof.
  intros l used limit c l' c' C P FR E. unfold times_init in E.
  destruct (Qceiling (limit - used) <? 0) eqn:N; [discriminate|]. apply Z.ltb_ge in N.
  cbn [give_cores] in E. set (l1 := map (fun s => with_cores s 1) (shorten l c)) in E.
  inversion E; subst l' c'. clear E.
  set (lim := Qceiling (limit - used)) in *. set (l2 := give_times true true lim 0 l1).
  assert (NM : map name l2 = map name (shorten l c)).
  { unfold l2. rewrite give_times_same by reflexivity. unfold l1. rewrite map_map. reflexivity. }
  assert (CO : map cores l2 = map (fun _ => 1) (shorten l c)).
  { unfold l2. rewrite give_times_same by reflexivity. unfold l1. rewrite map_map. reflexivity. }
  assert (LN : length l2 = length (shorten l c)).
  { rewrite <- (map_length name l2), NM, map_length. reflexivity. }
  split; [reflexivity|]. split; [|split; [|split]].
  - intros s H. apply (in_map cores) in H. rewrite CO in H. apply in_map_iff in H as (x & <- & _). lia.
  - rewrite NM, LN. apply shorten_names.
  - rewrite LN. apply shorten_length. lia.
  - assert (F1 : (fractions l1 <= 1)%Q).
    { assert (X : (fractions l1 == fractions (shorten l c))%Q).
      { unfold l1. clear. induction (shorten l c) as [|s x IH]; simpl; [reflexivity|].
        rewrite IH. reflexivity. }
      rewrite X. destruct (Z.le_gt_cases (Z.of_nat (length l)) c) as [Le | Gt].
      - unfold shorten. destruct (Z.gtb_spec (Z.of_nat (length l)) c); [lia|]. destruct FR; [lia | assumption].
      - rewrite shorten_fractions; [apply Qle_refl | exact P | exact C | lia]. }
    assert (P1 : forall s, In s l1 -> (0 <= frac s)%Q).
    { intros s H. unfold l1 in H. apply in_map_iff in H as (x & <- & H). simpl.
      unfold shorten in H. destruct (Z.of_nat (length l) >? c).
      - apply in_map_iff in H as (y & <- & H). simpl.
        assert (Py : (0 < frac y)%Q).
        { apply P. rewrite <- (firstn_skipn (Z.to_nat c) l). apply in_or_app; auto. }
        assert (T : (0 <= total (firstn (Z.to_nat c) l))%Q).
        { rewrite total_eq. assert (Q : forall z, In z (firstn (Z.to_nat c) l) -> (0 < frac z)%Q).
          { intros z Hz. apply P. rewrite <- (firstn_skipn (Z.to_nat c) l). apply in_or_app; auto. }
          revert Q. generalize (firstn (Z.to_nat c) l). induction l0 as [|z l0 IH]; simpl; intros Q; [lra|].
          assert (0 < frac z)%Q by auto. assert (0 <= fractions l0)%Q by (apply IH; auto). lra. }
        apply Qmult_le_0_compat; [lra|]. unfold Qdiv. rewrite Qmult_1_l.
        apply Qinv_le_0_compat. exact T.
      - apply Qlt_le_weak. apply P. exact H. }
    assert (C1 : forall s, In s l1 -> cores s = 1).
    { intros s H. unfold l1 in H. apply in_map_iff in H as (x & <- & _). reflexivity. }
    pose proof (give_times_serial lim l1 0 N C1 P1) as B. fold l2 in B.
    rewrite Zle_Qle, inject_Z_plus.
    assert (L1 : length l1 = length l2) by (rewrite LN; unfold l1; apply map_length).
    rewrite L1 in B. eapply Qle_trans; [exact B|]. apply Qplus_le_compat; [|apply Qle_refl].
    setoid_replace (inject_Z lim) with (1 * inject_Z lim)%Q at 2 by ring.
    apply Qmult_le_compat_r; [exact F1|]. change 0%Q with (inject_Z 0). rewrite <- Zle_Qle. exact N.
Qed.

(** A search schedule: the first strategies are kept; together they have at
    most the time that is left, each has at least a second and at most its
    share rounded up; strategies are dropped, or have less than their share,
    only if all the time has been given away. *)
Theorem C63_search : forall l used limit c l' c' serialize,
  (forall s, In s l -> (0 < frac s)%Q /\ 1 <= cores s) ->
  times_init l used limit false c serialize = Some (l', c') ->
  let lim := Qceiling (limit - used) in
  c' = c /\
  exists kept rest, l = kept ++ rest /\
    Forall2 (fun s s' => name s' = name s /\ frac s' = frac s /\ cores s' = cores s /\
               1 <= tabs s' <= Qceiling (frac s * inject_Z (cores s) * inject_Z lim)) kept l' /\
    sum (map tabs l') <= lim /\
    (rest <> [] -> sum (map tabs l') = lim) /\
    (sum (map tabs l') < lim ->
     Forall2 (fun s s' => tabs s' = Qceiling (frac s * inject_Z (cores s) * inject_Z lim)) kept l').
Proof.
  intros l used limit c l' c' ser P E lim. unfold times_init in E. fold lim in E.
  destruct (lim <? 0) eqn:N; [discriminate|]. apply Z.ltb_ge in N.
  inversion E; subst l' c'. split; [reflexivity|].
  destruct (give_times_search ser lim l 0 ltac:(lia) P) as (k & r & A & B & U & R & V).
  exists k, r. rewrite Z.add_0_l in U, R, V. auto 10.
Qed.

(** ** Putting schedules together *)

(** A search schedule ends with a placeholder.  It is dropped, or, if the
    strategy of the preprocessing is wanted and not there yet, replaced by it:
    it comes second and has a tenth of the time, all others keep their order
    but for the one that was second, and have nine tenths of their share. *)
Theorem C63_placeholder : forall a h pre force,
  a <> [] -> name h = "<placeholder>"%string ->
  (forall s, In s a -> name s <> "<placeholder>"%string) ->
  exists r, init_placeholder (a ++ [h]) pre force = Some r /\
  ((force = false \/ In pre (map name a)) -> r = a) /\
  (force = true -> ~ In pre (map name a) ->
     let new := mkstrat pre (1 # 10) (tabs h) (cores h) in
     let scaled := map (fun s => mkstrat (name s) (frac s * (9 # 10))%Q (tabs s) (cores s)) a in
     Permutation r (new :: scaled) /\ nth_error r 1 = Some new /\
     nth_error r 0 = nth_error scaled 0 /\
     (forall i, (2 <= i < length a)%nat -> nth_error r i = nth_error scaled i) /\
     (fractions r == (1 # 10) + (9 # 10) * fractions a)%Q).
Proof.
  intros a h pre force NE H N.
  assert (FP := find_placeholder_iff a h [] pre force).
  unfold is_placeholder in FP. rewrite H in FP.
  specialize (FP (fun s X => proj2 (String.eqb_neq _ _) (N s X)) eq_refl).
  unfold init_placeholder. rewrite FP.
  assert (EX : existsb (fun s => String.eqb (name s) pre) a = true <-> In pre (map name a)).
  { rewrite existsb_exists, in_map_iff. split; intros (x & A & B); exists x.
    - apply String.eqb_eq in B. auto.
    - split; [exact B | apply String.eqb_eq; exact A]. }
  destruct (force && negb (existsb (fun s => String.eqb (name s) pre) a)) eqn:F.
  - apply andb_true_iff in F as [-> F]. apply negb_true_iff in F.
    assert (NI : ~ In pre (map name a)) by (rewrite <- EX, F; discriminate).
    eexists. split; [reflexivity|]. split; [intros [X | X]; [discriminate | contradiction]|].
    intros _ _. cbv zeta.
    change (fun s => with_frac s (frac s * (9 # 10))%Q)
      with (fun s => mkstrat (name s) (frac s * (9 # 10))%Q (tabs s) (cores s)).
    set (new := mkstrat pre (1 # 10) (tabs h) (cores h)).
    set (scaled := map (fun s => mkstrat (name s) (frac s * (9 # 10))%Q (tabs s) (cores s)) a).
    assert (FS : (fractions scaled == (9 # 10) * fractions a)%Q).
    { unfold scaled. rewrite Qmult_comm. apply (fractions_scale a (9 # 10)). }
    assert (LA : length a = length scaled) by (unfold scaled; rewrite map_length; reflexivity).
    rewrite LA.
    assert (PM : forall r, Permutation r (new :: scaled) ->
               (fractions r == (1 # 10) + (9 # 10) * fractions a)%Q).
    { intros r Hr. rewrite (fractions_perm _ _ Hr). simpl. rewrite FS. reflexivity. }
    clearbody scaled new.
    destruct scaled as [|x sc]; [destruct a; [congruence | discriminate]|].
    rewrite swap_second. destruct sc as [|y m].
    + assert (Q : Permutation [x; new] [new; x]) by apply perm_swap.
      split; [exact Q|]. split; [reflexivity|]. split; [reflexivity|].
      split; [intros i Hi; simpl in Hi; lia | apply PM; exact Q].
    + assert (Q : Permutation (x :: new :: m ++ [y]) (new :: x :: y :: m)).
      { eapply perm_trans; [apply perm_swap|]. constructor. constructor.
        apply Permutation_sym, Permutation_cons_append. }
      split; [exact Q|]. split; [reflexivity|]. split; [reflexivity|].
      split; [|apply PM; exact Q].
      intros i Hi. destruct i as [|[|i]]; [lia | lia|]. simpl in Hi |- *.
      apply nth_error_app1. lia.
  - exists a. split; [reflexivity|]. split; [reflexivity|].
    intros -> NI. exfalso. apply NI. apply EX.
    simpl in F. apply negb_false_iff in F. exact F.
Qed.

(** What is left of the default schedule: exactly the strategies that have not
    been in the exhausted schedule, in their order; all but the last have the
    same share of the time (for the last, see C63_equal_share_refuted). *)
Theorem C63_default : forall default old,
  let r := filtered_default default old in
  map name r = filter (fun n => negb (existsb (String.eqb n) (map name old))) (map name default) /\
  (forall s i, nth_error r i = Some s -> (S i < length r)%nat ->
     (frac s == 1 / inject_Z (Z.of_nat (length r)))%Q) /\
  (forall s, In s r -> exists d, In d default /\ name s = name d /\ cores s = cores d).
Proof.
  intros default old. cbv zeta.
  destruct (partition_ok old (length default) [] [] default eq_refl) as (m & E). simpl in E.
  unfold filtered_default. rewrite E. cbv zeta.
  set (kept := filter (fresh_in old) default) in *.
  assert (FK : firstn (length kept) (kept ++ m) = kept).
  { rewrite firstn_app, firstn_all, Nat.sub_diag. simpl. apply app_nil_r. }
  rewrite FK.
  set (r := map (fun p => if (fst p <? pred (length kept))%nat
                          then with_frac (snd p) (1 / inject_Z (Z.of_nat (length kept))) else snd p)
                (combine (seq 0 (length kept)) kept)).
  assert (LR : length r = length kept).
  { unfold r. rewrite map_length, combine_length, seq_length. lia. }
  assert (NTH : forall i s, nth_error r i = Some s -> exists k, nth_error kept i = Some k /\
            s = if (i <? pred (length kept))%nat
                then with_frac k (1 / inject_Z (Z.of_nat (length kept))) else k).
  { intros i s H. unfold r in H.
    assert (G : forall (kept : list strat) b i x, nth_error (combine (seq b (length kept)) kept) i = Some x ->
              fst x = (b + i)%nat /\ nth_error kept i = Some (snd x)).
    { clear. induction kept as [|k kept IH]; intros b i x H; destruct i; simpl in H; try discriminate.
      - inversion H. simpl. split; [lia | reflexivity].
      - destruct (IH (S b) i x H) as [A B]. simpl. split; [lia | exact B]. }
    assert (X : exists p, nth_error (combine (seq 0 (length kept)) kept) i = Some p /\
       s = if (fst p <? pred (length kept))%nat
           then with_frac (snd p) (1 / inject_Z (Z.of_nat (length kept))) else snd p).
    { destruct (nth_error (combine (seq 0 (length kept)) kept) i) as [p|] eqn:Ep.
      - exists p. split; [reflexivity|]. rewrite (map_nth_error _ _ _ Ep) in H. congruence.
      - exfalso. apply nth_error_None in Ep. assert (L : (i < length r)%nat).
        { apply nth_error_Some. unfold r. rewrite H. discriminate. }
        unfold r in L. rewrite map_length in L. lia. }
    destruct X as (p & Ep & Es). destruct (G kept 0%nat i p Ep) as [A B].
    exists (snd p). split; [exact B|]. rewrite Es, A. reflexivity. }
  split; [|split].
  - assert (NR : map name r = map name kept).
    { apply nth_error_ext. intros n. destruct (nth_error r n) as [s|] eqn:H.
      - rewrite (map_nth_error name _ _ H). destruct (NTH n s H) as (k & Hk & ->).
        rewrite (map_nth_error name _ _ Hk).
        destruct (n <? pred (length kept))%nat; reflexivity.
      - apply nth_error_None in H.
        transitivity (@None string); [|symmetry]; apply nth_error_None; rewrite map_length; lia. }
    rewrite NR. unfold kept. clear. induction default as [|d default IH]; simpl; [reflexivity|].
    assert (Q : name_in (name d) old = existsb (String.eqb (name d)) (map name old)).
    { clear. induction old as [|o old IH]; simpl; [reflexivity | rewrite IH; reflexivity]. }
    unfold fresh_in at 1. rewrite Q.
    destruct (existsb (String.eqb (name d)) (map name old)); simpl; rewrite IH; reflexivity.
  - intros s i H L. destruct (NTH i s H) as (k & Hk & ->). rewrite LR in L |- *.
    destruct (Nat.ltb_spec i (pred (length kept))); [reflexivity | lia].
  - intros s H. apply In_nth_error in H as (i & H). destruct (NTH i s H) as (k & Hk & ->).
    apply nth_error_In in Hk. unfold kept in Hk. apply filter_In in Hk as [Hk _].
    exists k. destruct (i <? pred (length kept))%nat; auto.
Qed.

(** The schedule for a class of problems: that of the class itself, if there
    is one; otherwise one of a class whose name differs from it at the fewest
    places, and of those one of the largest. *)
Theorem C63_class : forall (A : Type) (l : list (sclass A)) cat, l <> [] ->
  exists r, class_to_schedule cat l = Some r /\ In r l /\
    (In cat (map key l) -> key r = cat) /\
    (~ In cat (map key l) -> forall d, In d l ->
       (differences (key r) cat < differences (key d) cat)%nat \/
       differences (key r) cat = differences (key d) cat /\ csize d <= csize r).
Proof.
  intros A l cat NE. destruct (class_ok cat l NE) as (r & R & I & K & B).
  exists r. split; [exact R|]. split; [exact I|]. split; [exact K|].
  intros N d Hd. rewrite <- !distance_spec. apply (B N d Hd).
Qed.

(** ** Cases that meet the hypotheses *)

Definition a1 := mkstrat "first" (1 # 2) 10 2.
Definition a2 := mkstrat "second" (1 # 4) 0 1.
Definition a3 := mkstrat "third" (1 # 4) 5 2.

Definition thm := str "% SZS status Theorem".

(** Three strategies on three cores: the first two start together; when the
    first has failed, the third starts; the second finds a proof. *)
Definition ins1 : list input :=
  [ mkinput (Some [(0%nat, Data (str "no idea")); (1%nat, Data (firstn 9 thm))]) false;
    mkinput None false;
    mkinput (Some [(0%nat, Eof (-1)); (1%nat, Data (skipn 9 thm))]) false;
    mkinput (Some [(1%nat, Eof 0); (2%nat, Data thm)]) false ].

Example C63_run : fits 3 [a1; a2; a3] /\
  execute [a1; a2; a3] 3 ins1 =
  inr (Answer thm 0,
       rev [Started 0 "first" 2 (Some 10); Started 1 "second" 1 None;
            Read 0 (str "no idea"); Read 1 (firstn 9 thm);
            Ended 0 (-1); Read 1 (skipn 9 thm); Started 2 "third" 2 (Some 5);
            Ended 1 0; Printed thm; Killed 2]).
Proof.
  split; [|reflexivity]. intros s H. simpl in H.
  destruct H as [<- | [<- | [<- | []]]]; simpl; lia.
Qed.

(** All three fail. *)
Example C63_run_exhausted : exists t,
  execute [a1; a2; a3] 3
    [mkinput (Some [(0%nat, Eof 1); (1%nat, Eof 2)]) false; mkinput (Some [(2%nat, Eof 3)]) false] =
  inr (Exhausted, t).
Proof. eexists. reflexivity. Qed.

Example C63_run_stopped : exists t,
  execute [a1; a2; a3] 3 [quiet; mkinput None true] = inr (Stopped, t) /\ In (Killed 0) t.
Proof. eexists. split; [reflexivity | simpl; auto]. Qed.

(** Five cores for three strategies; then two cores only. *)
Example C63_preproc_case :
  times_init [a1; a2; a3] (1 # 2) 100 true 5 false =
    Some ([mkstrat "first" (1 # 2) 300 3; mkstrat "second" (1 # 4) 100 1;
           mkstrat "third" (1 # 4) 100 1], 5) /\
  exists l, times_init [a1; a2; a3] (1 # 2) 100 true 2 false = Some (l, 2) /\
    map name l = ["first"; "second"]%string /\ map cores l = [1; 1] /\ map tabs l = [100; 100].
Proof. split; [reflexivity|]. eexists. split; [reflexivity|]. repeat split. Qed.

Example C63_serial_case : exists l,
  times_init [a1; a2; a3] 0 10 true 4 true = Some (l, 1) /\ map tabs l = [5; 3; 3].
Proof. eexists. split; reflexivity. Qed.

(** The second strategy gets what is left, the third is dropped. *)
Example C63_search_case : exists l,
  times_init [a2; mkstrat "big" (9 # 10) 0 1; a3] 0 4 false 3 false = Some (l, 3) /\ map tabs l = [1; 3].
Proof. eexists. split; reflexivity. Qed.

Definition hole := mkstrat "<placeholder>" 0 1 1.

Example C63_placeholder_case : exists r,
  init_placeholder [a1; a2; a3; hole] "pre" true = Some r /\
  map name r = ["first"; "pre"; "third"; "second"]%string.
Proof. eexists. split; reflexivity. Qed.

Example C63_class_case :
  option_map value (class_to_schedule (str "FGHS") [mkclass (str "FGHF") 3 1%nat; mkclass (str "FGUS") 8 2%nat;
     mkclass (str "UUUU") 9 3%nat]) = Some 2%nat.
Proof. reflexivity. Qed.

(** ** What does not hold *)

(** The strategies left of the default schedule do not all have the same share
    of the time: the loop in cco_scheduling.c:404 stops before the last.  The
    schedule is the predefined one (HEURISTICS/schedule.vars:17684), all of
    which but the second have been tried: the one strategy left has an eighth
    of the time. *)
Definition default_schedule : list strat :=
  mkstrat "SubtermCWHack" (1 # 10) 1 1 ::
  map (fun n => mkstrat n (1 # 8) 1 1)
   ["G-E--_208_C18C--_F1_SE_CS_SP_PS_S5PRR_RG_S04AN"; "new_ho_10";
    "G-E--_207_C18_F1_SE_CS_SP_PI_PS_S2SI"; "G-E--_301_C18_F1_URBAN_S5PRR_S0Y"; "lpo1_def_fix";
    "G-E--_208_B07_F1_S5PRR_SE_CS_SP_PS_S0Y"; "H----_047_C09_12_F1_AE_ND_CS_SP_S5PRR_S2S";
    "G-E--_107_C41_F1_PI_AE_Q4_CS_SP_PS_S4S"]%string.

Theorem C63_equal_share_refuted : exists old s,
  filtered_default default_schedule old = [s] /\ (frac s == 1 # 8)%Q.
Proof.
  exists (firstn 1 default_schedule ++ skipn 2 default_schedule). eexists.
  split; reflexivity.
Qed.

(** The time the process itself has used is subtracted twice from the time for
    the default schedule (eprover.c:720 and cco_scheduling.c:176): the limit
    can be negative although seconds are left, and the conversion to an
    unsigned number is undefined. *)
Theorem C63_default_time_refuted : exists limit own children t,
  retry limit own children = Some t /\ t = 10 /\
  times_init default_schedule own (inject_Z t) false 1 false = None.
Proof. exists 100%Q, 40%Q, 50%Q, 10. repeat split. Qed.

(** A preprocessing strategy for which no time is left has no time limit. *)
Theorem C63_no_time_no_limit_refuted : exists l used limit l' c t,
  times_init l used limit true 1 true = Some (l', c) /\ (limit <= used)%Q /\
  execute l' c [quiet] = inl t /\ trace t = [Started 0 "first" 1 None].
Proof.
  exists [a1], (21 # 2)%Q, 10%Q. do 3 eexists. split; [reflexivity|]. split; [|split; reflexivity].
  unfold Qle. simpl. lia.
Qed.

(** A strategy that needs more cores than there are makes the program wait
    forever, with nothing running.  (The predefined schedules are all for one
    core for each strategy.) *)
Theorem C63_too_wide_refuted : exists s max, 1 <= max /\
  forall ins, (forall i, In i ins -> term i = false) ->
  exists st, execute [s] max ins = inl st /\ history (inl st) = [].
Proof.
  exists a1, 1. split; [lia|]. intros ins H. unfold execute.
  exists (mkstate [a1] 0 [] 0 []). split; [|reflexivity].
  induction ins as [|i ins IH]; [reflexivity|]. simpl.
  assert (P : forall rs, poll (mkstate [a1] 0 [] 0 []) rs = (mkstate [a1] 0 [] 0 [], None)).
  { induction rs as [|[k r] rs IHr]; [reflexivity | exact IHr]. }
  unfold round. change (launch 1 (mkstate [a1] 0 [] 0 [])) with (mkstate [a1] 0 [] 0 []).
  assert (R : (match ready i with
               | Some l => poll (mkstate [a1] 0 [] 0 []) l
               | None => (mkstate [a1] 0 [] 0 [], None)
               end) = (mkstate [a1] 0 [] 0 [], None)) by (destruct (ready i); [apply P | reflexivity]).
  rewrite R. rewrite (H i) by (simpl; auto). simpl. apply IH. intros j Hj. apply H. simpl; auto.
Qed.

(** A schedule that begins with the placeholder is emptied when the
    preprocessing strategy is to be put there.  (No predefined schedule does.) *)
Theorem C63_placeholder_first_refuted : exists h pre,
  name h = "<placeholder>"%string /\ init_placeholder [h] pre true = Some [].
Proof. exists hole, "pre"%string. split; reflexivity. Qed.

Print Assumptions C63_cores.
Print Assumptions C63_order.
Print Assumptions C63_answer.
Print Assumptions C63_no_answer.
Print Assumptions C63_nothing_left.
Print Assumptions C63_progress.
Print Assumptions C63_preproc.
Print Assumptions C63_serial.
Print Assumptions C63_search.
Print Assumptions C63_placeholder.
Print Assumptions C63_default.
Print Assumptions C63_class.
Print Assumptions C63_equal_share_refuted.
Print Assumptions C63_default_time_refuted.
Print Assumptions C63_no_time_no_limit_refuted.
Print Assumptions C63_too_wide_refuted.
Print Assumptions C63_placeholder_first_refuted.
