(** * The main loop of blocked clause elimination (C51). *)
From Coq Require Import Permutation.
From Verif Require Import Terms Unify Semantics Clauses Taut Split Infer Bce.
Local Open Scope nat_scope.

(** ** make_sym_map *)
Lemma key_eqb_eq a b : key_eqb a b = true <-> a = b.
Proof.
  destruct a as [f s], b as [g t]. unfold key_eqb. cbn [fst snd]. rewrite andb_true_iff, Nat.eqb_eq, Bool.eqb_true_iff. split; [intros [-> ->]; auto|intros H; injection H; auto].
Qed.
Lemma opp_opp k : opp (opp k) = k.
Proof. destruct k as [f s]. unfold opp. cbn. rewrite negb_involutive. reflexivity. Qed.
Lemma store_same m k l : store m k l k = Some l.
Proof. unfold store. replace (key_eqb k k) with true; auto. symmetry. apply key_eqb_eq. reflexivity. Qed.
Lemma store_other m k l k' : k <> k' -> store m k l k' = m k'.
Proof. intros H. unfold store. destruct (key_eqb k k') eqn:K; auto. apply key_eqb_eq in K. congruence. Qed.
Lemma key_dec (a b : key) : {a = b} + {a <> b}.
Proof. decide equality; [apply Bool.bool_dec|apply Nat.eq_dec]. Defined.

(** occurrence [i] of key [k] is recorded, or the predicate is not tracked *)
Definition recorded (m : smap) (k : key) (i : nat) : Prop := m k = Some [] \/ exists l, m k = Some l /\ In i l.
(** what one literal does to the map *)
Definition grows (b : nat) (m m' : smap) : Prop :=
  (forall k i, recorded m k i -> recorded m' k i)
  /\ (forall k l, m' k = Some l -> forall i, In i l -> i = b \/ exists l0, m k = Some l0 /\ In i l0)
  /\ ((forall k, m k = Some [] -> m (opp k) = Some []) -> forall k, m' k = Some [] -> m' (opp k) = Some []).
Lemma grows_refl b m : grows b m m.
Proof. split; [auto|]. split; auto. intros k l H i Hi. right. eauto. Qed.
Lemma grows_trans b m1 m2 m3 : grows b m1 m2 -> grows b m2 m3 -> grows b m1 m3.
Proof.
  intros (A1 & A2 & A3) (B1 & B2 & B3). split; [auto|]. split; [|auto].
  intros k l H i Hi. destruct (B2 k l H i Hi) as [->|[l0 [H0 I0]]]; auto. destruct (A2 k l0 H0 i I0); auto.
Qed.

Lemma sym_lit_grows limit i m b e m' b' : sym_lit limit i (m, b) e = (m', b') ->
  grows i m m' /\ (b = true -> b' = true) /\ (equlit e = true -> b' = true)
  /\ (equlit e = false -> forall k, lit_key e = Some k -> recorded m' k i).
Proof.
  unfold sym_lit. destruct (equlit e) eqn:Q.
  { intros H. injection H as <- <-. split; [apply grows_refl|]. split; auto. split; auto. discriminate. }
  destruct (lit_key e) as [k|] eqn:K.
  2:{ intros H. injection H as <- <-. split; [apply grows_refl|]. split; auto. split; [discriminate|]. discriminate. }
  destruct (is_blocked (m k)) eqn:B.
  { intros H. injection H as <- <-. split; [apply grows_refl|]. split; auto. split; [discriminate|].
    intros _ k0 H. injection H as <-. left. unfold is_blocked in B. destruct (m k) as [[|]|]; congruence. }
  assert (NB : m k <> Some []) by (intros A; rewrite A in B; discriminate).
  destruct (Nat.ltb 0 limit && _) eqn:LM.
  { intros H. injection H as <- <-. split; [|split; auto; split; [discriminate|]].
    - split; [|split].
      + intros k0 j R. unfold recorded. destruct (key_dec (opp k) k0) as [<-|N1]; [left; apply store_same|].
        rewrite (store_other _ _ _ _ N1). destruct (key_dec k k0) as [<-|N2]; [left; apply store_same|]. rewrite (store_other _ _ _ _ N2). exact R.
      + intros k0 l. destruct (key_dec (opp k) k0) as [<-|N1]; [rewrite store_same; intros H; injection H as <-; intros j []|].
        rewrite (store_other _ _ _ _ N1). destruct (key_dec k k0) as [<-|N2]; [rewrite store_same; intros H; injection H as <-; intros j []|].
        rewrite (store_other _ _ _ _ N2). intros H j Hj. right. eauto.
      + intros HB k0. destruct (key_dec (opp k) k0) as [<-|N1].
        { intros _. rewrite opp_opp. destruct (key_dec (opp k) k) as [A|N2]; [rewrite A; apply store_same|]. rewrite (store_other _ _ _ _ N2). apply store_same. }
        rewrite (store_other _ _ _ _ N1). destruct (key_dec k k0) as [<-|N2]; [intros _; apply store_same|].
        rewrite (store_other _ _ _ _ N2). intros H. rewrite store_other; [|intros A; apply (f_equal opp) in A; rewrite !opp_opp in A; auto].
        rewrite store_other; [auto|]. intros A. apply (f_equal opp) in A. rewrite opp_opp in A. auto.
    - intros _ k0 H. injection H as <-. left. destruct (key_dec (opp k) k) as [A|N2]; [rewrite A; apply store_same|].
      rewrite (store_other _ _ _ _ N2). apply store_same. }
  assert (ST : forall l, l <> [] -> In i l -> (forall j, In j l -> j = i \/ exists l0, m k = Some l0 /\ In j l0) ->
    (forall j, recorded m k j -> In j l) ->
    grows i m (store m k l) /\ (b = true -> b = true) /\ (false = true -> b = true) /\ (false = false -> forall k0, Some k = Some k0 -> recorded (store m k l) k0 i)).
  { intros l NE Il S1 S2. split; [|split; auto; split; [discriminate|]].
    - split; [|split].
      + intros k0 j R. unfold recorded. destruct (key_dec k k0) as [<-|N2].
        * right. exists l. rewrite store_same. auto.
        * rewrite (store_other _ _ _ _ N2). exact R.
      + intros k0 l1. destruct (key_dec k k0) as [<-|N2].
        * rewrite store_same. intros H. injection H as <-. exact S1.
        * rewrite (store_other _ _ _ _ N2). intros H j Hj. right. eauto.
      + intros HB k0. destruct (key_dec k k0) as [<-|N2]; [rewrite store_same; intros H; injection H as ->; congruence|].
        rewrite (store_other _ _ _ _ N2). intros H. rewrite store_other; [auto|]. intros A. apply NB. subst k. apply HB. exact H.
    - intros _ k0 H. injection H as <-. right. exists l. rewrite store_same. auto. }
  destruct (m k) as [[|j l]|] eqn:MK.
  - congruence.
  - destruct (Nat.eqb i j) eqn:IJ.
    + apply Nat.eqb_eq in IJ. subst j. intros H. injection H as <- <-. split; [apply grows_refl|]. split; auto. split; [discriminate|].
      intros _ k0 H. injection H as <-. right. exists (i :: l). split; [exact MK|left; auto].
    + intros H. injection H as <- <-. apply ST; [discriminate|left; auto| |].
      * intros j0 [<-|H]; auto. right. eauto.
      * intros j0 [R|[l0 [R I]]]; [congruence|]. right. congruence.
  - intros H. injection H as <- <-. apply ST; [discriminate|left; auto| |].
    + intros j0 [<-|[]]. auto.
    + intros j0 [R|[l0 [R I]]]; congruence.
Qed.

Lemma sym_clause_grows limit i c : forall m b m' b', fold_left (sym_lit limit i) c (m, b) = (m', b') ->
  grows i m m' /\ (b = true -> b' = true) /\ (forall e, In e c -> equlit e = true -> b' = true)
  /\ (forall e k, In e c -> equlit e = false -> lit_key e = Some k -> recorded m' k i).
Proof.
  induction c as [|e c IH]; intros m b m' b' H.
  { injection H as <- <-. split; [apply grows_refl|]. split; auto. split; [intros ? []|intros ? ? []]. }
  cbn [fold_left] in H. destruct (sym_lit limit i (m, b) e) as [m1 b1] eqn:S1.
  destruct (sym_lit_grows _ _ _ _ _ _ _ S1) as (A1 & A2 & A3 & A4). destruct (IH m1 b1 m' b' H) as (B1 & B2 & B3 & B4).
  split; [eapply grows_trans; eauto|]. split; auto. split.
  - intros e' [<-|I] Q; [auto|eauto].
  - intros e' k [<-|I] Q K; [|eauto]. apply (proj1 B1). auto.
Qed.

Lemma sym_map_spec limit : forall N i m b m' b', sym_map limit i N (m, b) = (m', b') ->
  (forall k j, recorded m k j -> recorded m' k j) /\ (b = true -> b' = true)
  /\ (forall k l, m' k = Some l -> forall j, In j l -> (i <= j < i + length N) \/ exists l0, m k = Some l0 /\ In j l0)
  /\ ((forall k, m k = Some [] -> m (opp k) = Some []) -> forall k, m' k = Some [] -> m' (opp k) = Some [])
  /\ (forall j c e, nth_error N j = Some c -> In e c -> equlit e = true -> b' = true)
  /\ (forall j c e k, nth_error N j = Some c -> In e c -> equlit e = false -> lit_key e = Some k -> recorded m' k (i + j)).
Proof.
  induction N as [|c N IH]; intros i m b m' b' H.
  { injection H as <- <-. split; auto. split; auto. split; [intros k l K j J; right; eauto|]. split; auto. split; intros [|j]; discriminate. }
  cbn [sym_map] in H. destruct (fold_left (sym_lit limit i) c (m, b)) as [m1 b1] eqn:S1.
  destruct (sym_clause_grows _ _ _ _ _ _ _ S1) as ((A1 & A1' & A1'') & A2 & A3 & A4). destruct (IH (S i) m1 b1 m' b' H) as (B1 & B2 & B3 & B3' & B4 & B5).
  split; auto. split; auto. split; [|split; [auto|split]].
  - intros k l K j J. destruct (B3 k l K j J) as [L|[l0 [K0 I0]]]; [left; cbn [length]; lia|].
    destruct (A1' k l0 K0 j I0) as [->|]; auto. left. cbn [length]. lia.
  - intros [|j] c0 e HN Ie Q; [injection HN as <-; eauto|]. apply (B4 j c0 e); auto.
  - intros [|j] c0 e k HN Ie Q K.
    + injection HN as <-. rewrite Nat.add_0_r. eauto.
    + replace (i + S j) with (S i + j) by lia. apply (B5 j c0 e); auto.
Qed.

Lemma make_sym_map_spec limit N m b : make_sym_map limit N = (m, b) ->
  (forall j c e, nth_error N j = Some c -> In e c -> equlit e = true -> b = true)
  /\ (forall j c e k, nth_error N j = Some c -> In e c -> equlit e = false -> lit_key e = Some k -> recorded m k j)
  /\ (forall k l, m k = Some l -> forall j, In j l -> j < length N)
  /\ (forall k, m k = Some [] -> m (opp k) = Some []).
Proof.
  intros H. destruct (sym_map_spec limit N 0 _ _ m b H) as (_ & _ & A & A' & B & C). split; auto. split; [intros; eapply C; eauto|]. split.
  - intros k l K j J. destruct (A k l K j J) as [L|[l0 [K0 _]]]; [lia|discriminate].
  - apply A'. discriminate.
Qed.

(** ** The queue *)
Definition task_for (m : smap) (N : list clause) (t : task) : Prop :=
  exists c e k, nth_error N (torig t) = Some c /\ nth_error c (tlit t) = Some e /\ equlit e = false /\ lit_key e = Some k
    /\ ((m (opp k) = None /\ tcands t = []) \/ exists l, m (opp k) = Some l /\ l <> [] /\ tcands t = rev l).
Lemma lit_tasks_spec m i c t : In t (lit_tasks m i c) <->
  torig t = i /\ tdone t = 0 /\ exists e k, nth_error c (tlit t) = Some e /\ equlit e = false /\ lit_key e = Some k
    /\ ((m (opp k) = None /\ tcands t = []) \/ exists l, m (opp k) = Some l /\ l <> [] /\ tcands t = rev l).
Proof.
  unfold lit_tasks. rewrite in_flat_map. split.
  - intros [j [Hj Ht]]. destruct (nth_error c j) as [e|] eqn:NE; [|destruct Ht]. destruct (equlit e) eqn:Q; [destruct Ht|].
    destruct (lit_key e) as [k|] eqn:K; [|destruct Ht]. destruct (m (opp k)) as [[|x l]|] eqn:MK; [destruct Ht| |].
    + destruct Ht as [<-|[]]. cbn. split; auto. split; auto. exists e, k. split; auto. split; auto. split; auto. right. exists (x :: l). split; auto. split; [discriminate|auto].
    + destruct Ht as [<-|[]]. cbn. split; auto. split; auto. exists e, k. auto 12.
  - intros (T1 & T2 & e & k & NE & Q & K & HM). exists (tlit t). split.
    + apply in_seq. assert (nth_error c (tlit t) <> None) by congruence. apply nth_error_Some in H. lia.
    + rewrite NE, Q, K. destruct t as [o j cs d]. cbn in *. subst i d. destruct HM as [[-> ->]|[l [-> [NL ->]]]]; [left; auto|].
      destruct l as [|x l]; [congruence|]. left. reflexivity.
Qed.
Lemma make_queue_spec m : forall N i t, In t (make_queue m i N) <->
  i <= torig t /\ tdone t = 0 /\ exists c e k, nth_error N (torig t - i) = Some c /\ nth_error c (tlit t) = Some e /\ equlit e = false /\ lit_key e = Some k
    /\ ((m (opp k) = None /\ tcands t = []) \/ exists l, m (opp k) = Some l /\ l <> [] /\ tcands t = rev l).
Proof.
  induction N as [|c N IH]; intros i t; cbn [make_queue].
  - split; [intros []|]. intros (_ & _ & c & e & k & H & _). destruct (torig t - i); discriminate.
  - rewrite in_app_iff, lit_tasks_spec, IH. split.
    + intros [(T1 & T2 & e & k & H)|(T1 & T2 & c0 & e & k & H0 & H)].
      * split; [lia|]. split; auto. exists c, e, k. replace (torig t - i) with 0 by lia. auto 12.
      * split; [lia|]. split; auto. exists c0, e, k. replace (torig t - i) with (S (torig t - S i)) by lia. auto.
    + intros (T1 & T2 & c0 & e & k & H0 & H). destruct (torig t - i) as [|d] eqn:D.
      * left. injection H0 as <-. split; [lia|]. split; auto. exists e, k. auto 12.
      * right. split; [lia|]. split; auto. exists c0, e, k. replace (torig t - S i) with d by lia. auto.
Qed.
Lemma queue_tasks m N t : In t (make_queue m 0 N) <-> tdone t = 0 /\ task_for m N t.
Proof.
  rewrite make_queue_spec, Nat.sub_0_r. unfold task_for. split; [intros (_ & A & B); auto|intros [A B]; split; [lia|auto]].
Qed.

(** ** The loop *)
Section Loop.
Variables (E : env) (alt : var -> var) (eno : term -> Z) (max_neg n : nat) (pick : list task -> nat) (he : bool) (N : list clause).
Notation chk := (chk_id E alt eno max_neg n he N).
Notation elim := (eliminate E alt eno max_neg n pick).

Lemma existsb_mem x l : existsb (Nat.eqb x) l = true <-> In x l.
Proof. rewrite existsb_exists. split; [intros [y [H A]]; apply Nat.eqb_eq in A; subst; auto|intros H; exists x; rewrite Nat.eqb_refl; auto]. Qed.

(** candidate [d] does not prevent the elimination of [o] *)
Definition passed (t : task) (arch : list nat) (d : nat) : Prop := d = torig t \/ In d arch \/ chk t d = Some true.
Lemma passed_mono t arch arch' d : incl arch arch' -> passed t arch d -> passed t arch' d.
Proof. intros H [A|[A|A]]; unfold passed; auto. Qed.

Lemma advance_spec t arch : forall cs k r, advance (chk t) (torig t) arch cs k = Some r ->
  k <= r <= k + length cs /\ (forall i d, nth_error cs i = Some d -> k + i < r -> passed t arch d)
  /\ (forall d, nth_error cs (r - k) = Some d -> d <> torig t /\ ~ In d arch /\ chk t d = Some false).
Proof.
  induction cs as [|c cs IH]; intros k r H; cbn [advance] in H.
  { injection H as <-. split; [cbn; lia|]. split; intros i; [destruct i; discriminate|]. destruct (k - k); discriminate. }
  assert (ST : passed t arch c -> advance (chk t) (torig t) arch cs (S k) = Some r ->
    k <= r <= k + length (c :: cs) /\ (forall i d, nth_error (c :: cs) i = Some d -> k + i < r -> passed t arch d)
    /\ (forall d, nth_error (c :: cs) (r - k) = Some d -> d <> torig t /\ ~ In d arch /\ chk t d = Some false)).
  { intros P H1. destruct (IH (S k) r H1) as (A & B & C). split; [cbn [length]; lia|]. split.
    - intros [|i] d NE L; [injection NE as <-; auto|]. apply (B i d NE). lia.
    - intros d. replace (r - k) with (S (r - S k)) by lia. apply C. }
  destruct (Nat.eqb c (torig t) || existsb (Nat.eqb c) arch) eqn:SK.
  { apply ST; auto. apply orb_true_iff in SK. destruct SK as [SK|SK]; [apply Nat.eqb_eq in SK; left; auto|]. apply existsb_mem in SK. right. left. auto. }
  apply orb_false_iff in SK. destruct SK as [SK1 SK2].
  destruct (chk t c) as [[|]|] eqn:CH; [|injection H as <-|discriminate].
  { apply ST; auto. right. right. exact CH. }
  split; [lia|]. split; [intros; lia|]. rewrite Nat.sub_diag. intros d ND. injection ND as <-. split; [apply Nat.eqb_neq; auto|]. split; auto.
  intros I. apply existsb_mem in I. congruence.
Qed.

Lemma nth_split_in {A} (l : list A) x : forall i, nth_error l i = Some x -> Permutation l (x :: except i l).
Proof.
  induction l as [|y l IH]; intros [|i] H; try discriminate.
  - injection H as ->. reflexivity.
  - cbn [except]. cbn in H. rewrite perm_swap. constructor. auto.
Qed.
Lemma pop_perm q t q' : pop pick q = Some (t, q') -> Permutation q (t :: q').
Proof.
  unfold pop. destruct q as [|t0 q]; [discriminate|]. set (i := _ mod _). intros H. injection H as <- <-. apply nth_split_in.
  assert (i < length (t0 :: q)) by (apply Nat.mod_upper_bound; discriminate). clearbody i. exact (nth_error_nth' _ _ H).
Qed.
Lemma pop_none q : pop pick q = None <-> q = [].
Proof. unfold pop. destruct q; split; intros; auto; discriminate. Qed.

(** what every task satisfies *)
Definition prefix_ok (arch : list nat) (t : task) : Prop := forall i d, nth_error (tcands t) i = Some d -> i < tdone t -> passed t arch d.
Definition is_base (base : task -> Prop) (t : task) : Prop := base (with_done t 0).
Record inv (base : task -> Prop) (q : list task) (arch : list nat) (blk : list (nat * task)) : Prop := {
  iv_q : forall t, In t q -> is_base base t /\ prefix_ok arch t;
  iv_b : forall d t, In (d, t) blk -> is_base base t /\ prefix_ok arch t /\ nth_error (tcands t) (tdone t) = Some d
           /\ ~ In d arch /\ d <> torig t /\ chk t d = Some false;
  iv_cover : forall t, base t -> In (torig t) arch \/ (exists t', In t' q /\ with_done t' 0 = t) \/ (exists d t', In (d, t') blk /\ with_done t' 0 = t) }.

Lemma chk_done t k d : chk (with_done t k) d = chk t d.
Proof. reflexivity. Qed.
Lemma passed_done t k arch d : passed (with_done t k) arch d <-> passed t arch d.
Proof. reflexivity. Qed.
Lemma chk_base t t' d : with_done t' 0 = with_done t 0 -> chk t' d = chk t d.
Proof. intros H. destruct t, t'. injection H as -> -> ->. reflexivity. Qed.

(** [o] may be eliminated when the clauses in [arch] are gone *)
Definition blocked (base : task -> Prop) (arch : list nat) (o : nat) : Prop :=
  exists t, base t /\ torig t = o /\ forall d, In d (tcands t) -> passed t arch d.
Definition chain (base : task -> Prop) (start l : list nat) : Prop :=
  exists ext, l = start ++ ext /\ forall pre o post, ext = pre ++ o :: post -> blocked base (start ++ pre) o /\ ~ In o (start ++ pre).
Lemma chain_nil base arch : chain base arch arch.
Proof. exists []. split; [rewrite app_nil_r; auto|]. intros [|] o post H; discriminate. Qed.
Lemma chain_cons base arch o l : blocked base arch o -> ~ In o arch -> chain base (arch ++ [o]) l -> chain base arch l.
Proof.
  intros B NI (ext & -> & H). exists (o :: ext). split; [rewrite <- app_assoc; auto|]. intros [|x pre] o' post A.
  - injection A as <- _. rewrite app_nil_r. auto.
  - injection A as <- A. specialize (H pre o' post A). rewrite <- app_assoc in H. exact H.
Qed.

Lemma in_perm {A} (q q' : list A) t : Permutation q (t :: q') -> forall x, In x q <-> x = t \/ In x q'.
Proof. intros P x. split; intros H; [apply (Permutation_in _ P) in H; destruct H; auto|apply (Permutation_in _ (Permutation_sym P)); destruct H; [left|right]; auto]. Qed.

Lemma inv_skip base q q' t arch blk : Permutation q (t :: q') -> inv base q arch blk -> In (torig t) arch -> inv base q' arch blk.
Proof.
  intros P I AR. pose proof (in_perm _ _ _ P) as IQ. constructor; [intros x Ix; apply (iv_q _ _ _ _ I); apply IQ; auto|apply (iv_b _ _ _ _ I)|].
  intros x Bx. destruct (iv_cover _ _ _ _ I x Bx) as [C|[[t' [I1 I2]]|C]]; auto. apply IQ in I1. destruct I1 as [->|I1]; [left; subst x; auto|right; left; eauto].
Qed.

Lemma advanced base q q' t arch blk k : Permutation q (t :: q') -> inv base q arch blk ->
  advance (chk t) (torig t) arch (skipn (tdone t) (tcands t)) (tdone t) = Some k ->
  (forall i d, nth_error (tcands t) i = Some d -> i < k -> passed t arch d)
  /\ (forall d, nth_error (tcands t) k = Some d -> d <> torig t /\ ~ In d arch /\ chk t d = Some false)
  /\ tdone t <= k.
Proof.
  intros P I AD. destruct (advance_spec t arch _ _ _ AD) as (K1 & K2 & K3).
  destruct (iv_q _ _ _ _ I t ltac:(apply (in_perm _ _ _ P); auto)) as [Bt Pt].
  assert (SK : forall i d, nth_error (tcands t) i = Some d -> tdone t <= i -> nth_error (skipn (tdone t) (tcands t)) (i - tdone t) = Some d).
  { intros i d NE L. rewrite <- NE. rewrite <- (firstn_skipn (tdone t) (tcands t)) at 2.
    assert (length (firstn (tdone t) (tcands t)) = tdone t).
    { rewrite firstn_length. assert (nth_error (tcands t) i <> None) by congruence. apply nth_error_Some in H. lia. }
    rewrite nth_error_app2 by lia. rewrite H. reflexivity. }
  split; [|split; [|lia]].
  - intros i d NE L. destruct (Nat.lt_ge_cases i (tdone t)) as [L1|L1]; [eauto|]. apply (K2 (i - tdone t) d); [apply SK; auto|lia].
  - intros d NE. apply K3. apply SK; auto. lia.
Qed.

Lemma inv_block base q q' t arch blk k d : Permutation q (t :: q') -> inv base q arch blk ->
  advance (chk t) (torig t) arch (skipn (tdone t) (tcands t)) (tdone t) = Some k -> nth_error (tcands t) k = Some d ->
  inv base q' arch ((d, with_done t k) :: blk).
Proof.
  intros P I AD NE. destruct (advanced _ _ _ _ _ _ _ P I AD) as (PK & K3 & _). pose proof (in_perm _ _ _ P) as IQ.
  destruct (K3 d NE) as (D1 & D2 & D3). destruct (iv_q _ _ _ _ I t ltac:(apply IQ; auto)) as [Bt Pt]. constructor.
  - intros x Ix. apply (iv_q _ _ _ _ I). apply IQ. auto.
  - intros d0 x [Hx|Hx]; [|apply (iv_b _ _ _ _ I); auto]. injection Hx as <- <-. split; [exact Bt|]. split; [exact PK|]. split; [exact NE|]. auto.
  - intros x Bx. destruct (iv_cover _ _ _ _ I x Bx) as [C|[[t' [I1 I2]]|[d0 [t' [I1 I2]]]]]; auto.
    + apply IQ in I1. destruct I1 as [->|I1]; [|right; left; eauto]. right. right. exists d, (with_done t k). split; [left; auto|exact I2].
    + right. right. exists d0, t'. split; [right; auto|auto].
Qed.

Lemma inv_archive base q q' t arch blk : Permutation q (t :: q') -> inv base q arch blk ->
  inv base (q' ++ map (fun p => resume (snd p)) (filter (fun p => Nat.eqb (fst p) (torig t)) blk))
    (arch ++ [torig t]) (filter (fun p => negb (Nat.eqb (fst p) (torig t))) blk).
Proof.
  intros P I. pose proof (in_perm _ _ _ P) as IQ. assert (INC : incl arch (arch ++ [torig t])) by (intros x Hx; apply in_app_iff; auto).
  constructor.
  - intros x Ix. apply in_app_iff in Ix. destruct Ix as [Ix|Ix].
    + destruct (iv_q _ _ _ _ I x ltac:(apply IQ; auto)) as [X1 X2]. split; auto. intros i d Hi L. eapply passed_mono; eauto.
    + apply in_map_iff in Ix. destruct Ix as [[d y] [<- Iy]]. apply filter_In in Iy. destruct Iy as [Iy Ed]. cbn [fst snd] in *. apply Nat.eqb_eq in Ed.
      destruct (iv_b _ _ _ _ I d y Iy) as (J1 & J2 & J3 & J4 & J5 & J6). split; [exact J1|]. intros i d' Hi L. cbn [tcands tdone resume] in *.
      destruct (Nat.eq_dec i (tdone y)) as [->|NE1].
      * rewrite J3 in Hi. injection Hi as <-. right. left. apply in_app_iff. right. left. auto.
      * apply (passed_mono y arch); auto. apply (J2 i d' Hi). lia.
  - intros d x Ix. apply filter_In in Ix. destruct Ix as [Ix Ed]. cbn [fst] in Ed. apply negb_true_iff, Nat.eqb_neq in Ed.
    destruct (iv_b _ _ _ _ I d x Ix) as (J1 & J2 & J3 & J4 & J5 & J6). split; auto. split; [intros i d' Hi L; eapply passed_mono; eauto|]. split; auto. split; auto.
    intros A. apply in_app_iff in A. destruct A as [A|[A|[]]]; auto.
  - intros x Bx. destruct (iv_cover _ _ _ _ I x Bx) as [C|[[t' [I1 I2]]|[d0 [t' [I1 I2]]]]].
    + left. auto.
    + apply IQ in I1. destruct I1 as [->|I1]; [left; subst x; apply in_app_iff; right; left; auto|]. right. left. exists t'. split; auto. apply in_app_iff. auto.
    + destruct (Nat.eq_dec d0 (torig t)) as [->|NE1].
      * right. left. exists (resume t'). split; [|exact I2]. apply in_app_iff. right. apply in_map_iff. exists (torig t, t'). split; auto.
        apply filter_In. split; auto. cbn. apply Nat.eqb_refl.
      * right. right. exists d0, t'. split; auto. apply filter_In. split; auto. cbn. apply negb_true_iff, Nat.eqb_neq. auto.
Qed.

Lemma inv_done base arch blk : inv base [] arch blk ->
  forall t, base t -> In (torig t) arch \/ exists d, In d (tcands t) /\ d <> torig t /\ ~ In d arch /\ chk t d = Some false.
Proof.
  intros I t Bt. destruct (iv_cover _ _ _ _ I t Bt) as [C|[[t' [[] _]]|[d [t' [I1 I2]]]]]; auto. right. exists d.
  destruct (iv_b _ _ _ _ I d t' I1) as (J1 & J2 & J3 & J4 & J5 & J6). subst t. cbn [tcands with_done torig]. split; [eapply nth_error_In; eauto|]. auto.
Qed.

Lemma elim_spec base : forall fuel q arch blk arch', elim fuel he N q arch blk = Some arch' -> inv base q arch blk ->
  chain base arch arch' /\ forall t, base t -> In (torig t) arch' \/ exists d, In d (tcands t) /\ d <> torig t /\ ~ In d arch' /\ chk t d = Some false.
Proof.
  induction fuel as [|fuel IH]; intros q arch blk arch' H I.
  - cbn in H. destruct q; [|discriminate]. injection H as <-. split; [apply chain_nil|apply (inv_done _ _ _ I)].
  - cbn [eliminate] in H. destruct (pop pick q) as [[t q']|] eqn:P.
    2:{ injection H as <-. apply pop_none in P. subst q. split; [apply chain_nil|apply (inv_done _ _ _ I)]. }
    apply pop_perm in P.
    destruct (existsb (Nat.eqb (torig t)) arch) eqn:AR.
    { apply existsb_mem in AR. apply (IH q' arch blk arch' H). eapply inv_skip; eauto. }
    assert (NA : ~ In (torig t) arch) by (intros A; apply existsb_mem in A; congruence). clear AR.
    destruct (advance _ _ _ _ _) as [k|] eqn:AD; [|discriminate].
    destruct (nth_error (tcands t) k) as [d|] eqn:NE.
    + apply (IH _ _ _ _ H). eapply inv_block; eauto.
    + destruct (advanced _ _ _ _ _ _ _ P I AD) as (PK & _ & _). destruct (iv_q _ _ _ _ I t ltac:(apply (in_perm _ _ _ P); auto)) as [Bt _].
      destruct (IH _ _ _ _ H (inv_archive _ _ _ _ _ _ P I)) as [C1 C2]. split; auto. apply (chain_cons base arch (torig t)); auto.
      exists (with_done t 0). split; [exact Bt|]. split; auto. cbn [tcands with_done].
      intros d Hd. apply In_nth_error in Hd. destruct Hd as [i Hi]. apply (PK i d Hi). apply nth_error_None in NE.
      assert (nth_error (tcands t) i <> None) by congruence. apply nth_error_Some in H0. lia.
Qed.

(** termination *)
Definition cost (t : task) : nat := 2 * (length (tcands t) - tdone t).
Definition total (q : list task) (blk : list (nat * task)) : nat :=
  list_sum (map (fun t => S (cost t)) q) + list_sum (map (fun p => cost (snd p)) blk).
Lemma sum_perm {A} (f : A -> nat) l l' : Permutation l l' -> list_sum (map f l) = list_sum (map f l').
Proof. intros P. induction P; unfold list_sum in *; cbn [map fold_right] in *; lia. Qed.
Lemma sum_filter {A} (f : A -> nat) p l : list_sum (map f l) = list_sum (map f (filter p l)) + list_sum (map f (filter (fun x => negb (p x)) l)).
Proof. induction l as [|a l IH]; auto. cbn [map filter]. unfold list_sum in *. destruct (p a); cbn [map fold_right negb] in *; lia. Qed.
Lemma sum_le {A} (f g : A -> nat) l : (forall x, In x l -> f x <= g x) -> list_sum (map f l) <= list_sum (map g l).
Proof. induction l as [|a l IH]; intros H; [cbn; lia|]. unfold list_sum in *. cbn [map fold_right]. pose proof (H a ltac:(left; auto)). assert (fold_right Nat.add 0 (map f l) <= fold_right Nat.add 0 (map g l)) by (apply IH; intros; apply H; right; auto). lia. Qed.

Lemma advance_total t arch : (forall d, In d (tcands t) -> chk t d <> None) -> forall cs k, incl cs (tcands t) -> advance (chk t) (torig t) arch cs k <> None.
Proof.
  intros HC. induction cs as [|c cs IH]; intros k HI; cbn [advance]; [discriminate|].
  assert (HI' : incl cs (tcands t)) by (intros x Hx; apply HI; right; auto). destruct (_ || _); [auto|].
  pose proof (HC c ltac:(apply HI; left; auto)). destruct (chk t c) as [[|]|]; [auto|discriminate|congruence].
Qed.
Lemma skipn_incl {A} k (l : list A) : incl (skipn k l) l.
Proof. intros x H. rewrite <- (firstn_skipn k l). apply in_app_iff. auto. Qed.

Lemma elim_total (base : task -> Prop) : (forall t d, base t -> In d (tcands t) -> chk t d <> None) ->
  forall fuel q arch blk, inv base q arch blk -> total q blk <= fuel -> exists arch', elim fuel he N q arch blk = Some arch'.
Proof.
  intros HC. induction fuel as [|fuel IH]; intros q arch blk I L.
  { destruct q as [|t q]; [eexists; reflexivity|]. unfold total in L. cbn in L. lia. }
  cbn [eliminate]. destruct (pop pick q) as [[t q']|] eqn:P; [|eexists; reflexivity].
  apply pop_perm in P.
  assert (TQ : total q blk = S (cost t) + total q' blk) by (unfold total; rewrite (sum_perm _ _ _ P); unfold list_sum; cbn [map fold_right]; lia).
  destruct (existsb (Nat.eqb (torig t)) arch) eqn:AR.
  { apply existsb_mem in AR. apply IH; [eapply inv_skip; eauto|lia]. }
  destruct (iv_q _ _ _ _ I t ltac:(apply (in_perm _ _ _ P); auto)) as [Bt _].
  assert (HT : forall d, In d (tcands t) -> chk t d <> None) by (intros d Hd; apply (HC (with_done t 0) d Bt Hd)).
  destruct (advance _ _ _ _ _) as [k|] eqn:AD; [|exfalso; revert AD; apply advance_total; auto; apply skipn_incl].
  destruct (advanced _ _ _ _ _ _ _ P I AD) as (_ & _ & LK).
  destruct (nth_error (tcands t) k) as [d|] eqn:NE.
  - apply IH; [eapply inv_block; eauto|]. unfold total, list_sum in *. cbn [map fold_right snd]. unfold cost in *. cbn [tcands tdone with_done] in *. lia.
  - apply IH; [apply (inv_archive _ _ _ _ _ _ P I)|]. rewrite TQ in L. clear TQ. unfold total in *. rewrite map_app, list_sum_app, map_map.
    rewrite (sum_filter (fun p => cost (snd p)) (fun p => Nat.eqb (fst p) (torig t)) blk) in L.
    assert (list_sum (map (fun x : nat * task => S (cost (resume (snd x)))) (filter (fun p => Nat.eqb (fst p) (torig t)) blk))
      <= list_sum (map (fun p => cost (snd p)) (filter (fun p => Nat.eqb (fst p) (torig t)) blk))); [|lia].
    apply sum_le. intros [d x] Hx. apply filter_In in Hx. destruct Hx as [Hx _]. destruct (iv_b _ _ _ _ I d x Hx) as (_ & _ & J & _).
    assert (nth_error (tcands x) (tdone x) <> None) by congruence. apply nth_error_Some in H. unfold cost. cbn [snd tcands tdone resume]. lia.
Qed.

Lemma inv_start (base : task -> Prop) q : (forall t, In t q <-> tdone t = 0 /\ base t) -> (forall t, base t -> base (with_done t 0)) -> (forall t, base (with_done t 0) -> base t) ->
  inv (fun t => tdone t = 0 /\ base t) q [] [].
Proof.
  intros H B1 B2. constructor.
  - intros t Ht. apply H in Ht. destruct Ht as [T B]. split; [split; [reflexivity|auto]|]. intros i d _ L. lia.
  - intros d t [].
  - intros t [T B]. right. left. exists t. split; [apply H; auto|]. destruct t. cbn in *. subst. reflexivity.
Qed.
End Loop.
