(** Proofs about running a schedule. *)
From Coq Require Import Arith.Arith ZArith QArith Qround String Ascii List Bool Lia.
From Verif Require Import Sched SchedSpec.
Import ListNotations.
Local Open Scope list_scope.
Local Open Scope Z_scope.

(** ** strstr *)

Lemma starts_iff : forall p s, starts p s = true <-> exists b, s = p ++ b.
Proof.
  induction p as [|a p IH]; intros s; simpl.
  - split; eauto.
  - destruct s as [|c s]; simpl.
    + split; [discriminate | intros [b H]; discriminate].
    + rewrite andb_true_iff, Ascii.eqb_eq, IH. split.
      * intros [-> [b ->]]. eauto.
      * intros [b H]. inversion H; subst. eauto.
Qed.

Lemma strstr_iff : forall p s, strstr s p = true <-> exists a b, s = a ++ p ++ b.
Proof.
  intros p s. induction s as [|c s IH]; simpl; rewrite orb_true_iff, starts_iff.
  - split.
    + intros [[b H] | H]; [exists [], b; exact H | discriminate].
    + intros (a & b & H). destruct a; [left; exists b; exact H | discriminate].
  - rewrite IH. split.
    + intros [[b H] | (a & b & ->)]; [exists [], b; exact H | exists (c :: a), b; reflexivity].
    + intros (a & b & H). destruct a as [|x a]; [left; exists b; exact H|].
      right. inversion H; subst. eauto.
Qed.

Lemma classify_iff : forall out, classify out <> PRFailure <-> answers out.
Proof.
  intros out. unfold classify, answers. split.
  - intros H.
    assert (X : exists w, In w ["Theorem"; "ContradictoryAxioms"; "Unsatisfiable"; "Satisfiable";
                      "CounterSatisfiable"]%string /\
                strstr out (str "% SZS status " ++ str w) = true).
    { destruct (strstr out (str "% SZS status Theorem")) eqn:E1;
        [exists "Theorem"%string; simpl In; auto|].
      destruct (strstr out (str "% SZS status ContradictoryAxioms")) eqn:E2;
        [exists "ContradictoryAxioms"%string; simpl In; auto|].
      destruct (strstr out (str "% SZS status Unsatisfiable")) eqn:E3;
        [exists "Unsatisfiable"%string; simpl In; auto|].
      destruct (strstr out (str "% SZS status Satisfiable")) eqn:E4;
        [exists "Satisfiable"%string; simpl In; auto 10|].
      destruct (strstr out (str "% SZS status CounterSatisfiable")) eqn:E5;
        [exists "CounterSatisfiable"%string; simpl In; auto 10|].
      congruence. }
    destruct X as (w & Hw & X). apply strstr_iff in X as (a & b & X).
    exists w, a, b. split; [exact Hw|]. rewrite X, <- app_assoc. reflexivity.
  - intros (w & a & b & Hw & E).
    assert (X : strstr out (str "% SZS status " ++ str w) = true).
    { apply strstr_iff. exists a, b. rewrite E, <- app_assoc. reflexivity. }
    clear E. simpl in Hw.
    destruct Hw as [<- | [<- | [<- | [<- | [<- | []]]]]];
      change (str "% SZS status " ++ str "Theorem") with (str "% SZS status Theorem") in X;
      change (str "% SZS status " ++ str "ContradictoryAxioms")
        with (str "% SZS status ContradictoryAxioms") in X;
      change (str "% SZS status " ++ str "Unsatisfiable")
        with (str "% SZS status Unsatisfiable") in X;
      change (str "% SZS status " ++ str "Satisfiable")
        with (str "% SZS status Satisfiable") in X;
      change (str "% SZS status " ++ str "CounterSatisfiable")
        with (str "% SZS status CounterSatisfiable") in X;
      rewrite X;
      repeat match goal with |- context [if ?x then _ else _] => destruct x end; discriminate.
Qed.

(** ** Histories *)

Definition over (h : list event) (k : nat) : bool := existsb (ends_child k) h.

Lemma over_iff : forall h k, over h k = true <-> gone h k.
Proof. intros h k. unfold over, gone. rewrite existsb_exists. reflexivity. Qed.

Lemma over_false : forall h k, over h k = false <-> ~ gone h k.
Proof.
  intros h k. rewrite <- over_iff. destruct (over h k); split; intros; congruence.
Qed.

Definition kn (c : nat * string * Z * option Z) : nat * Z :=
  match c with (k, _, n, _) => (k, n) end.

Definition running (h : list event) : list (nat * Z) :=
  filter (fun x => negb (over h (fst x))) (map kn (starts_of h)).

Lemma over_app : forall h h' k, over (h ++ h') k = over h k || over h' k.
Proof. intros; unfold over; apply existsb_app. Qed.

Lemma starts_app : forall h h', starts_of (h ++ h') = starts_of h ++ starts_of h'.
Proof. intros; unfold starts_of; apply flat_map_app. Qed.

Lemma written_app : forall h h' k, written (h ++ h') k = written h k ++ written h' k.
Proof. intros; unfold written; apply flat_map_app. Qed.

Lemma in_use_running : forall h, cores_in_use h = sum (map snd (running h)).
Proof.
  intros h. unfold cores_in_use, running. fold (over h).
  induction (starts_of h) as [|[[[k s] n] x] l IH]; simpl; [reflexivity|].
  fold (over h k). rewrite IH. destruct (over h k); simpl; lia.
Qed.

Lemma started_in : forall h k, started h k <-> In k (map fst (map kn (starts_of h))).
Proof.
  intros h k. unfold started, starts_of. split.
  - intros (s & n & x & H). apply in_map_iff. exists (k, n). split; [reflexivity|].
    apply in_map_iff. exists (k, s, n, x). split; [reflexivity|].
    apply in_flat_map. eexists; split; [exact H | left; reflexivity].
  - intros H. apply in_map_iff in H as ([k' n] & Hk & H). simpl in Hk. subst k'.
    apply in_map_iff in H as ([[[k' s] n'] x] & Hk & H). inversion Hk; subst.
    apply in_flat_map in H as (e & He & H). destruct e; try contradiction.
    destruct H as [H | []]. inversion H; subst. eauto.
Qed.

Lemma filter_id : forall A (f : A -> bool) l, (forall x, In x l -> f x = true) -> filter f l = l.
Proof.
  induction l as [|a l IH]; simpl; intros H; [reflexivity|].
  rewrite (H a) by auto. f_equal. apply IH. auto.
Qed.

Lemma filter_filter : forall A (f g : A -> bool) l,
  filter f (filter g l) = filter (fun x => g x && f x) l.
Proof.
  induction l as [|a l IH]; simpl; [reflexivity|].
  destruct (g a); simpl; [destruct (f a); simpl; congruence | exact IH].
Qed.

Lemma running_start : forall h k s n x,
  over h k = false -> running (h ++ [Started k s n x]) = running h ++ [(k, n)].
Proof.
  intros h k s n x H. unfold running. rewrite starts_app, map_app, filter_app. simpl.
  rewrite over_app. simpl. rewrite H. simpl. f_equal. apply filter_ext. intros a.
  rewrite over_app. simpl. rewrite orb_false_r. reflexivity.
Qed.

Lemma running_read : forall h k t, running (h ++ [Read k t]) = running h.
Proof.
  intros. unfold running. rewrite starts_app. simpl. rewrite app_nil_r.
  apply filter_ext. intros a. rewrite over_app. simpl. rewrite orb_false_r. reflexivity.
Qed.

Lemma running_print : forall h t, running (h ++ [Printed t]) = running h.
Proof.
  intros. unfold running. rewrite starts_app. simpl. rewrite app_nil_r.
  apply filter_ext. intros a. rewrite over_app. simpl. rewrite orb_false_r. reflexivity.
Qed.

Lemma running_end : forall h k e,
  (exists s, e = Ended k s) \/ e = Killed k ->
  running (h ++ [e]) = filter (fun x => negb (fst x =? k)%nat) (running h).
Proof.
  intros h k e H. unfold running. rewrite starts_app, filter_filter.
  assert (starts_of [e] = []) as -> by (destruct H as [[s ->] | ->]; reflexivity).
  rewrite app_nil_r. apply filter_ext. intros a.
  rewrite over_app. rewrite negb_orb. f_equal. f_equal.
  destruct H as [[s ->] | ->]; simpl; rewrite orb_false_r; apply Nat.eqb_sym.
Qed.

Lemma sum_filter : forall (f : nat * Z -> bool) l,
  (forall x, In x l -> 0 <= snd x) -> sum (map snd (filter f l)) <= sum (map snd l).
Proof.
  induction l as [|a l IH]; simpl; intros H; [lia|].
  assert (0 <= snd a) by auto.
  assert (sum (map snd (filter f l)) <= sum (map snd l)) by (apply IH; auto).
  destruct (f a); simpl; lia.
Qed.

Lemma sum_app : forall a b, sum (a ++ b) = sum a + sum b.
Proof. induction a; simpl; intros; [reflexivity | rewrite IHa; lia]. Qed.

Lemma sum_rev : forall l, sum (rev l) = sum l.
Proof. induction l; simpl; [reflexivity | rewrite sum_app, IHl; simpl; lia]. Qed.

Lemma sum_drop : forall (l : list (nat * Z)) k n,
  NoDup (map fst l) -> In (k, n) l ->
  sum (map snd (filter (fun x => negb (fst x =? k)%nat) l)) = sum (map snd l) - n.
Proof.
  induction l as [|[j m] l IH]; simpl; intros k n ND H; [contradiction|].
  inversion ND as [|? ? Nj ND']; subst. destruct H as [H | H].
  - inversion H; subst. rewrite Nat.eqb_refl. simpl.
    rewrite filter_id; [lia|]. intros [j' m'] Hx. simpl.
    apply negb_true_iff, Nat.eqb_neq. intros ->. apply Nj.
    apply in_map_iff. exists (k, m'). auto.
  - destruct (Nat.eqb_spec j k) as [-> | Hj].
    + exfalso. apply Nj. apply in_map_iff. exists (k, n). auto.
    + simpl. rewrite (IH k n) by assumption. lia.
Qed.

(** ** The invariant *)

Definition pk (p : proc) : nat * Z := (pidx p, pcores p).

(** All beginnings of a history keep to the number of cores. *)
Definition within (max : Z) (h : list event) : Prop :=
  forall a b, h = a ++ b -> cores_in_use a <= max.

Lemma within_snoc : forall max h e,
  within max h -> cores_in_use (h ++ [e]) <= max -> within max (h ++ [e]).
Proof.
  intros max h e W H a b E.
  destruct b as [|x b] using rev_ind.
  - rewrite app_nil_r in E. subst a. exact H.
  - rewrite app_assoc in E. apply app_inj_tail in E as [E _]. eapply W; exact E.
Qed.

Definition quiet_event (e : event) : Prop :=
  match e with Killed _ | Printed _ => False | _ => True end.

Definition once (h : list event) : Prop :=
  forall a e b k, h = a ++ e :: b -> ends_child k e = true -> ~ gone a k /\ started a k.

Record Inv (max : Z) (l : list strat) (st : state) (h : list event) : Prop := {
  i_hist : h = rev (trace st);
  i_done : exists d, l = d ++ todo st /\ nexti st = length d /\ starts_of h = plan d;
  i_res : reserved st = sum (map pcores (procs st));
  i_run : map pk (procs st) = rev (running h);
  i_out : forall p, In p (procs st) -> pout p = written h (pidx p);
  i_fresh : forall k, (nexti st <= k)%nat -> written h k = [];
  i_quiet : forall e, In e h -> quiet_event e;
  i_ended : forall k s, In (Ended k s) h -> ~ answers (written h k);
  i_within : within max h;
  i_once : once h
}.

Lemma plan_app : forall a b, plan (a ++ b) =
  plan a ++ map (fun p => ((length a + fst p)%nat, name (snd p), cores (snd p),
                 if tabs (snd p) =? 0 then None else Some (tabs (snd p))))
      (combine (seq 0 (length b)) b).
Proof.
  intros a b. unfold plan. rewrite app_length.
  assert (C : forall (x y : list nat) (u v : list strat), length x = length u ->
            combine (x ++ y) (u ++ v) = combine x u ++ combine y v).
  { induction x as [|x0 x IH]; destruct u; simpl; intros; try discriminate; [reflexivity|].
    f_equal. apply IH. congruence. }
  rewrite seq_app. simpl.
  rewrite C by (rewrite seq_length; reflexivity). rewrite map_app. f_equal.
  assert (X : forall (b : list strat) n m,
    map (fun p => (fst p, name (snd p), cores (snd p),
                 if tabs (snd p) =? 0 then None else Some (tabs (snd p))))
      (combine (seq (n + m) (length b)) b) =
    map (fun p => ((n + fst p)%nat, name (snd p), cores (snd p),
                 if tabs (snd p) =? 0 then None else Some (tabs (snd p))))
      (combine (seq m (length b)) b)).
  { clear. induction b as [|s b IH]; intros n m; simpl; [reflexivity|].
    f_equal. rewrite <- Nat.add_succ_r. apply IH. }
  specialize (X b (length a) 0%nat). rewrite Nat.add_0_r in X. exact X.
Qed.

Lemma plan_fst : forall l, map fst (map kn (plan l)) = seq 0 (length l).
Proof.
  intros l. unfold plan. rewrite !map_map. generalize 0%nat.
  induction l as [|s l IH]; intros m; simpl; [reflexivity|]. f_equal. apply IH.
Qed.

Lemma plan_in : forall l c, In c (map kn (plan l)) -> exists s, In s l /\ snd c = cores s.
Proof.
  intros l c H. apply in_map_iff in H as (x & <- & H). unfold plan in H.
  apply in_map_iff in H as ([k s] & <- & H). apply in_combine_r in H. simpl. eauto.
Qed.

Lemma gone_started : forall h k, once h -> gone h k -> started h k.
Proof.
  intros h k O (e & He & Hk). apply in_split in He as (a & b & ->).
  destruct (O a e b k eq_refl Hk) as [_ (s & n & x & H)].
  exists s, n, x. apply in_or_app. auto.
Qed.

Lemma once_snoc : forall h e, once h ->
  (forall k, ends_child k e = true -> ~ gone h k /\ started h k) -> once (h ++ [e]).
Proof.
  intros h e O H a e' b k E Hk.
  destruct b as [|x b] using rev_ind.
  - apply app_inj_tail in E as [-> ->]. auto.
  - change (a ++ e' :: b ++ [x]) with (a ++ (e' :: b) ++ [x]) in E.
    rewrite app_assoc in E. apply app_inj_tail in E as [E _]. eapply O; eauto.
Qed.

Section Steps.
Variables (max : Z) (l : list strat).
Hypothesis Hpos : forall s, In s l -> 0 <= cores s.

Lemma inv_bound : forall st h k, Inv max l st h -> started h k -> (k < nexti st)%nat.
Proof.
  intros st h k I H. destruct (i_done _ _ _ _ I) as (d & _ & N & S).
  apply started_in in H. rewrite S, plan_fst in H. apply in_seq in H. lia.
Qed.

Lemma inv_nodup : forall st h, Inv max l st h -> NoDup (map fst (running h)).
Proof.
  intros st h I. destruct (i_done _ _ _ _ I) as (d & _ & N & S).
  unfold running. rewrite S.
  assert (X : NoDup (map fst (map kn (plan d)))) by (rewrite plan_fst; apply seq_NoDup).
  revert X. generalize (map kn (plan d)). intros c. induction c as [|a c IH]; simpl; intros X; [constructor|].
  inversion X; subst. destruct (negb (over h (fst a))); simpl; auto.
  constructor; auto. intros Y. apply H1. apply in_map_iff in Y as (z & <- & Y).
  apply filter_In in Y as [Y _]. apply in_map. exact Y.
Qed.

Lemma inv_pos : forall st h c, Inv max l st h -> In c (running h) -> 0 <= snd c.
Proof.
  intros st h c I H. destruct (i_done _ _ _ _ I) as (d & L & N & S).
  unfold running in H. apply filter_In in H as [H _]. rewrite S in H.
  apply plan_in in H as (s & Hs & ->). apply Hpos. rewrite L. apply in_or_app; auto.
Qed.

Lemma inv_use : forall st h, Inv max l st h -> cores_in_use h = reserved st.
Proof.
  intros st h I. rewrite in_use_running, (i_res _ _ _ _ I), <- sum_rev.
  rewrite <- map_rev, <- (i_run _ _ _ _ I), map_map. reflexivity.
Qed.

(** A child in the set is running. *)
Lemma inv_proc : forall st h p, Inv max l st h -> In p (procs st) ->
  started h (pidx p) /\ ~ gone h (pidx p).
Proof.
  intros st h p I H.
  assert (X : In (pk p) (running h)).
  { apply in_rev. rewrite <- (i_run _ _ _ _ I). apply in_map. exact H. }
  unfold running in X. apply filter_In in X as [X Y]. apply negb_true_iff in Y.
  split; [|apply over_false; exact Y].
  apply started_in. apply in_map_iff. exists (pk p). auto.
Qed.

Lemma inv_alive : forall st h k, Inv max l st h -> alive h k ->
  exists p, In p (procs st) /\ pidx p = k.
Proof.
  intros st h k I [A B]. apply started_in in A.
  apply in_map_iff in A as (c & <- & A).
  assert (X : In c (running h)).
  { unfold running. apply filter_In. split; [exact A|]. apply negb_true_iff, over_false. exact B. }
  apply in_rev in X. rewrite <- (i_run _ _ _ _ I) in X.
  apply in_map_iff in X as (p & <- & X). eauto.
Qed.

Lemma inv_start : forall st h s rest, Inv max l st h -> todo st = s :: rest ->
  cores s <= max - reserved st ->
  Inv max l (start st s rest)
    (h ++ [Started (nexti st) (name s) (cores s) (if tabs s =? 0 then None else Some (tabs s))]).
Proof.
  intros st h s rest I T C.
  assert (Ov : over h (nexti st) = false).
  { apply over_false. intros G. apply (gone_started _ _ (i_once _ _ _ _ I)) in G.
    pose proof (inv_bound _ _ _ I G). lia. }
  pose proof (inv_use _ _ I) as U.
  constructor.
  - simpl. rewrite <- (i_hist _ _ _ _ I). reflexivity.
  - destruct (i_done _ _ _ _ I) as (d & L & N & S). exists (d ++ [s]). simpl.
    rewrite T in L. repeat split.
    + rewrite <- app_assoc. exact L.
    + rewrite app_length. simpl. lia.
    + rewrite starts_app, plan_app, S, N. simpl. rewrite Nat.add_0_r. reflexivity.
  - simpl. rewrite (i_res _ _ _ _ I). lia.
  - simpl. rewrite running_start by exact Ov. rewrite rev_app_distr. simpl.
    rewrite <- (i_run _ _ _ _ I). reflexivity.
  - intros p [<- | H]; simpl; rewrite written_app; simpl; rewrite app_nil_r.
    + symmetry. apply (i_fresh _ _ _ _ I). lia.
    + apply (i_out _ _ _ _ I); exact H.
  - simpl. intros k Hk. rewrite written_app. simpl. rewrite app_nil_r.
    apply (i_fresh _ _ _ _ I). lia.
  - intros e He. apply in_app_or in He as [He | [<- | []]]; [apply (i_quiet _ _ _ _ I); exact He | exact Logic.I].
  - intros k x He. apply in_app_or in He as [He | [He | []]]; [|discriminate].
    rewrite written_app. simpl. rewrite app_nil_r. apply (i_ended _ _ _ _ I) with x; exact He.
  - apply within_snoc; [apply (i_within _ _ _ _ I)|].
    rewrite in_use_running, running_start by exact Ov.
    rewrite map_app, sum_app, <- in_use_running. simpl. lia.
  - apply once_snoc; [apply (i_once _ _ _ _ I)|]. discriminate.
Qed.

Lemma inv_launch : forall st h, Inv max l st h -> exists h', Inv max l (launch max st) h'.
Proof.
  intros st h I. unfold launch. remember (todo st) as q eqn:T. symmetry in T.
  revert st h I T. induction q as [|s q IH]; intros st h I T; simpl; [eauto|].
  destruct (Z.leb_spec (cores s) (max - reserved st)); [|eauto].
  eapply IH; [apply inv_start; eassumption | reflexivity].
Qed.

(** After launching, something runs or nothing is left. *)
Lemma launch_busy : forall st h, fits max l -> Inv max l st h ->
  procs (launch max st) = [] -> todo (launch max st) = [] .
Proof.
  intros st h F I. unfold launch. destruct (todo st) as [|s q] eqn:T; simpl; [auto|].
  destruct (Z.leb_spec (cores s) (max - reserved st)).
  - intros E. exfalso. revert E.
    assert (X : forall q st, procs st <> [] -> procs (launch_list max q st) <> []).
    { clear. induction q as [|s q IH]; simpl; intros st H; [exact H|].
      destruct (cores s <=? max - reserved st); [apply IH; discriminate | exact H]. }
    apply X. discriminate.
  - intros E. pose proof (i_res _ _ _ _ I) as R. rewrite E in R. simpl in R.
    destruct (i_done _ _ _ _ I) as (d & L & _). rewrite T in L.
    assert (In s l) by (rewrite L; apply in_or_app; simpl; auto).
    pose proof (F s H0). lia.
Qed.

Lemma find_proc_in : forall k ps p, find_proc k ps = Some p -> In p ps /\ pidx p = k.
Proof.
  intros k ps p H. unfold find_proc in H. apply find_some in H as [H E].
  apply Nat.eqb_eq in E. auto.
Qed.

Lemma inv_read : forall st h k t p, Inv max l st h -> find_proc k (procs st) = Some p ->
  Inv max l (mkstate (todo st) (nexti st) (add_out k (cstring t) (procs st))
                     (reserved st) (Read k t :: trace st)) (h ++ [Read k t]).
Proof.
  intros st h k t p I F. apply find_proc_in in F as [F K].
  assert (PK : map pk (add_out k (cstring t) (procs st)) = map pk (procs st)).
  { unfold add_out. rewrite map_map. apply map_ext. intros q. destruct (pidx q =? k)%nat; reflexivity. }
  constructor; simpl.
  - rewrite <- (i_hist _ _ _ _ I). reflexivity.
  - destruct (i_done _ _ _ _ I) as (d & L & N & S). exists d. rewrite starts_app, S. simpl.
    rewrite app_nil_r. auto.
  - rewrite (i_res _ _ _ _ I). f_equal.
    transitivity (map snd (map pk (procs st))); [rewrite map_map; reflexivity|].
    rewrite <- PK, map_map. reflexivity.
  - rewrite running_read, PK. apply (i_run _ _ _ _ I).
  - intros q H. unfold add_out in H. apply in_map_iff in H as (q' & <- & H).
    rewrite written_app. simpl. rewrite app_nil_r.
    destruct (Nat.eqb_spec (pidx q') k) as [E | E]; simpl.
    + rewrite (i_out _ _ _ _ I _ H), E, Nat.eqb_refl. reflexivity.
    + destruct (Nat.eqb_spec k (pidx q')) as [E' | _]; [congruence|].
      rewrite app_nil_r. apply (i_out _ _ _ _ I); exact H.
  - intros j Hj. rewrite written_app. simpl. rewrite (i_fresh _ _ _ _ I) by exact Hj.
    destruct (Nat.eqb_spec k j) as [E | _]; [|reflexivity].
    exfalso. destruct (inv_proc _ _ _ I F) as [S _]. apply (inv_bound _ _ _ I) in S. lia.
  - intros e He. apply in_app_or in He as [He | [<- | []]]; [apply (i_quiet _ _ _ _ I); exact He | exact Logic.I].
  - intros j x He. apply in_app_or in He as [He | [He | []]]; [|discriminate].
    rewrite written_app. simpl. rewrite app_nil_r.
    destruct (Nat.eqb_spec k j) as [E | _].
    + exfalso. destruct (inv_proc _ _ _ I F) as [_ G]. apply G. rewrite K, E.
      exists (Ended j x). split; [exact He | simpl; apply Nat.eqb_refl].
    + rewrite app_nil_r. apply (i_ended _ _ _ _ I) with x; exact He.
  - apply within_snoc; [apply (i_within _ _ _ _ I)|].
    rewrite in_use_running, running_read, <- in_use_running.
    apply (i_within _ _ _ _ I h []). rewrite app_nil_r. reflexivity.
  - apply once_snoc; [apply (i_once _ _ _ _ I)|]. discriminate.
Qed.

(** What holds of any ending of a running child. *)
Lemma end_within : forall st h k s, Inv max l st h -> within max (h ++ [Ended k s]).
Proof.
  intros st h k s I. apply within_snoc; [apply (i_within _ _ _ _ I)|].
  rewrite in_use_running, (running_end h k) by eauto.
  eapply Z.le_trans; [apply sum_filter; intros x Hx; eapply inv_pos; eauto|].
  rewrite <- in_use_running. apply (i_within _ _ _ _ I h []). rewrite app_nil_r. reflexivity.
Qed.

Lemma end_once : forall st h k s p, Inv max l st h -> find_proc k (procs st) = Some p ->
  once (h ++ [Ended k s]).
Proof.
  intros st h k s p I F. apply find_proc_in in F as [F K].
  apply once_snoc; [apply (i_once _ _ _ _ I)|]. intros j Hj. simpl in Hj.
  apply Nat.eqb_eq in Hj. subst j. destruct (inv_proc _ _ _ I F) as [A B]. subst k. auto.
Qed.

Lemma inv_end : forall st h k s p, Inv max l st h -> find_proc k (procs st) = Some p ->
  classify (pout p) = PRFailure ->
  Inv max l (mkstate (todo st) (nexti st) (drop_proc k (procs st))
                     (reserved st - pcores p) (Ended k s :: trace st)) (h ++ [Ended k s]).
Proof.
  intros st h k s p I F C.
  pose proof (end_within _ _ k s I) as W. pose proof (end_once _ _ _ s _ I F) as O.
  pose proof (find_proc_in _ _ _ F) as [Fp K].
  assert (FM : map pk (drop_proc k (procs st)) =
               filter (fun x => negb (fst x =? k)%nat) (map pk (procs st))).
  { unfold drop_proc. clear. induction (procs st) as [|q ps IH]; simpl; [reflexivity|].
    change (fst (pk q)) with (pidx q).
    destruct (negb (pidx q =? k)%nat); simpl; congruence. }
  assert (FR : forall (f : nat * Z -> bool) x, filter f (rev x) = rev (filter f x)).
  { clear. intros f x. induction x as [|a x IH]; simpl; [reflexivity|].
    rewrite filter_app, IH. simpl. destruct (f a); simpl; [reflexivity|].
    rewrite app_nil_r. reflexivity. }
  constructor; simpl; try assumption.
  - rewrite <- (i_hist _ _ _ _ I). reflexivity.
  - destruct (i_done _ _ _ _ I) as (d & L & N & S). exists d. rewrite starts_app, S. simpl.
    rewrite app_nil_r. auto.
  - rewrite (i_res _ _ _ _ I).
    transitivity (sum (map snd (map pk (drop_proc k (procs st)))));
      [|rewrite map_map; reflexivity].
    rewrite FM, (sum_drop _ k (pcores p)).
    + rewrite map_map. reflexivity.
    + rewrite (i_run _ _ _ _ I), map_rev. apply NoDup_rev. apply (inv_nodup _ _ I).
    + apply in_map_iff. exists p. split; [unfold pk; congruence | exact Fp].
  - rewrite FM, (i_run _ _ _ _ I), FR, (running_end h k) by eauto. reflexivity.
  - intros q H. unfold drop_proc in H. apply filter_In in H as [H _].
    rewrite written_app. simpl. rewrite app_nil_r. apply (i_out _ _ _ _ I); exact H.
  - intros j Hj. rewrite written_app. simpl. rewrite app_nil_r. apply (i_fresh _ _ _ _ I); exact Hj.
  - intros e He. apply in_app_or in He as [He | [<- | []]]; [apply (i_quiet _ _ _ _ I); exact He | exact Logic.I].
  - intros j x He. rewrite written_app. simpl. rewrite app_nil_r.
    apply in_app_or in He as [He | [He | []]]; [apply (i_ended _ _ _ _ I) with x; exact He|].
    inversion He; subst j x. subst k. rewrite <- (i_out _ _ _ _ I _ Fp).
    intros A. exact (proj2 (classify_iff _) A C).
Qed.

(** The state in which an answer has been found. *)
Record Found (st : state) (p : proc) (s : Z) (h0 : list event) : Prop := {
  f_st : exists st0, Inv max l st0 h0 /\ procs st0 = procs st /\ find_proc (pidx p) (procs st) = Some p;
  f_hist : rev (trace st) = h0 ++ [Ended (pidx p) s];
  f_ans : answers (pout p)
}.

Lemma inv_poll : forall rs st h, Inv max l st h ->
  match poll st rs with
  | (st', None) => exists h', Inv max l st' h'
  | (st', Some (p, s)) => exists h0, Found st' p s h0
  end.
Proof.
  induction rs as [|[k r] rs IH]; intros st h I; simpl; [eauto|].
  destruct (find_proc k (procs st)) as [p|] eqn:F; [|eapply IH; eauto].
  destruct r as [t | s].
  - eapply IH. eapply inv_read; eauto.
  - destruct (find_proc_in _ _ _ F) as [Fp K].
    destruct (classify (pout p)) eqn:C;
      try (exists h; constructor;
           [ exists st; simpl; rewrite K; auto
           | simpl; rewrite <- (i_hist _ _ _ _ I), K; reflexivity
           | apply classify_iff; congruence ]).
    eapply IH. eapply inv_end; eauto.
Qed.
End Steps.
