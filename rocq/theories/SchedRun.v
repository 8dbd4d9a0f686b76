(** Proofs about running a schedule, to its end. *)
From Coq Require Import Arith.Arith ZArith QArith Qround String Ascii List Bool Lia.
From Verif Require Import Sched SchedSpec SchedProofs.
Import ListNotations.
Local Open Scope list_scope.
Local Open Scope Z_scope.

Definition nonneg (h : list event) : Prop := forall c, In c (map kn (starts_of h)) -> 0 <= snd c.

Lemma starts_killed : forall ks, starts_of (map Killed ks) = [].
Proof. induction ks; simpl; auto. Qed.

Lemma written_killed : forall ks k, written (map Killed ks) k = [].
Proof. induction ks; simpl; auto. Qed.

Lemma in_use_end : forall h k e, nonneg h -> (exists s, e = Ended k s) \/ e = Killed k ->
  cores_in_use (h ++ [e]) <= cores_in_use h.
Proof.
  intros h k e N H. rewrite !in_use_running, (running_end h k) by exact H.
  apply sum_filter. intros x Hx. unfold running in Hx. apply filter_In in Hx as [Hx _]. auto.
Qed.

Lemma within_self : forall max h, within max h -> cores_in_use h <= max.
Proof. intros max h W. apply (W h []). rewrite app_nil_r. reflexivity. Qed.

Lemma gone_app : forall h h' k, gone (h ++ h') k <-> gone h k \/ gone h' k.
Proof.
  intros h h' k. unfold gone. split.
  - intros (e & He & K). apply in_app_or in He as [He | He]; eauto.
  - intros [(e & He & K) | (e & He & K)]; exists e; split; auto; apply in_or_app; auto.
Qed.

Lemma started_app : forall h h' k, started h k -> started (h ++ h') k.
Proof. intros h h' k (s & n & x & H). exists s, n, x. apply in_or_app; auto. Qed.

Lemma kills_ok : forall max ks h,
  within max h -> once h -> nonneg h -> NoDup ks -> (forall k, In k ks -> alive h k) ->
  within max (h ++ map Killed ks) /\ once (h ++ map Killed ks).
Proof.
  intros max. induction ks as [|k ks IH]; intros h W O N ND A; simpl.
  - rewrite app_nil_r. auto.
  - change (h ++ Killed k :: map Killed ks) with (h ++ [Killed k] ++ map Killed ks).
    rewrite app_assoc. inversion ND as [|? ? Nk ND']; subst. apply IH; auto.
    + apply within_snoc; [exact W|]. eapply Z.le_trans; [apply (in_use_end h k); auto|].
      apply within_self; exact W.
    + apply once_snoc; [exact O|]. intros j Hj. simpl in Hj. apply Nat.eqb_eq in Hj. subst j.
      destruct (A k); simpl; auto.
    + unfold nonneg. rewrite starts_app. simpl. rewrite app_nil_r. exact N.
    + intros j Hj. destruct (A j) as [S G]; [simpl; auto|]. split; [apply started_app; exact S|].
      rewrite gone_app. intros [X | (e & [<- | []] & X)]; [auto|].
      simpl in X. apply Nat.eqb_eq in X. congruence.
Qed.

Section Run.
Variables (max : Z) (l : list strat).
Hypothesis Hpos : forall s, In s l -> 0 <= cores s.

Lemma inv_nonneg : forall st h, Inv max l st h -> nonneg h.
Proof.
  intros st h I c H. destruct (i_done _ _ _ _ I) as (d & L & N & S).
  rewrite S in H. apply plan_in in H as (s & Hs & ->). apply Hpos. rewrite L. apply in_or_app; auto.
Qed.

Lemma inv_idx_nodup : forall st h, Inv max l st h -> NoDup (map pidx (procs st)).
Proof.
  intros st h I. pose proof (inv_nodup max l _ _ I) as X.
  apply NoDup_rev in X. rewrite <- map_rev, <- (i_run _ _ _ _ I), map_map in X. exact X.
Qed.

Definition kills (but : option nat) (st : state) : list nat :=
  map pidx (filter (fun p => match but with Some k => negb (pidx p =? k)%nat | None => true end)
                   (procs st)).

Lemma kill_all_history : forall but st, rev (kill_all but st) = rev (trace st) ++ map Killed (kills but st).
Proof.
  intros but st. unfold kill_all, kills. rewrite rev_app_distr, rev_involutive, map_map. reflexivity.
Qed.

(** How an execution ends. *)
Inductive ended : outcome -> list event -> Prop :=
| ended_answer : forall st h0 p s,
    Inv max l st h0 -> find_proc (pidx p) (procs st) = Some p -> answers (pout p) ->
    ended (Answer (pout p) s)
          ((h0 ++ [Ended (pidx p) s] ++ [Printed (pout p)]) ++ map Killed (kills (Some (pidx p)) st))
| ended_stop : forall st h0,
    Inv max l st h0 -> ended Stopped (h0 ++ map Killed (kills None st))
| ended_out : forall st h0,
    Inv max l st h0 -> procs st = [] -> todo st = [] -> ended Exhausted h0.

Lemma round_ok : forall st h i, Inv max l st h ->
  match round max st i with
  | inl st' => (exists h', Inv max l st' h') /\ ~ (procs st' = [] /\ todo st' = [])
  | inr (o, t) => ended o (rev t)
  end.
Proof.
  intros st h i I. unfold round.
  destruct (inv_launch max l st h I) as (h1 & I1).
  assert (P : match (match ready i with None => (launch max st, None) | Some rs => poll (launch max st) rs end) with
              | (st', None) => exists h', Inv max l st' h'
              | (st', Some (p, s)) => exists h0, Found max l st' p s h0
              end).
  { destruct (ready i); [eapply inv_poll; eauto | eauto]. }
  destruct (match ready i with None => (launch max st, None) | Some rs => poll (launch max st) rs end)
    as [st' [[p s]|]].
  - destruct P as [h0 [(st0 & I0 & E & F) H A]].
    rewrite kill_all_history. simpl. rewrite H.
    assert (X : kills (Some (pidx p)) (mkstate (todo st') (nexti st') (procs st') (reserved st')
                   (Printed (pout p) :: trace st')) = kills (Some (pidx p)) st0).
    { unfold kills. simpl. rewrite E. reflexivity. }
    rewrite X, <- (app_assoc h0). apply ended_answer; [exact I0 | rewrite E; exact F | exact A].
  - destruct P as [h' I'].
    destruct (term i).
    + rewrite kill_all_history, <- (i_hist _ _ _ _ I'). apply ended_stop. exact I'.
    + destruct (procs st') eqn:EP; [destruct (todo st') eqn:ET|].
      * rewrite kill_all_history, <- (i_hist _ _ _ _ I'). unfold kills. rewrite EP. simpl.
        rewrite app_nil_r. eapply ended_out; eauto.
      * split; [eauto|]. intros [_ X]. rewrite ET in X. discriminate.
      * split; [eauto|]. intros [X _]. rewrite EP in X. discriminate.
Qed.

Lemma rounds_ok : forall ins st h, Inv max l st h ->
  match rounds max st ins with
  | inl st' => (exists h', Inv max l st' h') /\ (ins <> [] -> ~ (procs st' = [] /\ todo st' = []))
  | inr (o, t) => ended o (rev t)
  end.
Proof.
  induction ins as [|i ins IH]; intros st h I; simpl.
  - split; [eauto | congruence].
  - pose proof (round_ok st h i I) as R. destruct (round max st i) as [st' | [o t]]; [|exact R].
    destruct R as [[h' I'] N]. specialize (IH st' h' I').
    destruct (rounds max st' ins) as [st2 | [o t]] eqn:E; [|exact IH].
    destruct IH as [A B]. split; [exact A|]. intros _.
    destruct ins as [|i' ins]; [simpl in E; inversion E; subst; exact N | apply B; discriminate].
Qed.

Hypothesis Hmax : 0 <= max.

Lemma inv_start_state : Inv max l (mkstate l 0 [] 0 []) [].
Proof.
  constructor; simpl; try reflexivity; try contradiction.
  - exists []. auto.
  - intros a b E. destruct a; [exact Hmax | discriminate].
  - intros a e b k E. destruct a; discriminate.
Qed.

Lemma execute_ok : forall ins,
  match execute l max ins with
  | inl st => (exists h, Inv max l st h) /\ (ins <> [] -> ~ (procs st = [] /\ todo st = []))
  | inr (o, t) => ended o (rev t)
  end.
Proof. intros ins. eapply rounds_ok. apply inv_start_state. Qed.

(** Facts about the end. *)
Lemma kills_alive : forall but st h, Inv max l st h ->
  NoDup (kills but st) /\
  (forall k, In k (kills but st) <-> alive h k /\ match but with Some j => k <> j | None => True end).
Proof.
  intros but st h I. split.
  - unfold kills. pose proof (inv_idx_nodup st h I) as ND. revert ND. generalize (procs st).
    induction l0 as [|p ps IH]; simpl; intros ND; [constructor|].
    inversion ND; subst. destruct but as [j|]; simpl.
    + destruct (negb (pidx p =? j)%nat); simpl; [|auto]. constructor; [|auto].
      intros X. apply H1. apply in_map_iff in X as (q & <- & X). apply filter_In in X as [X _].
      apply in_map; exact X.
    + constructor; [|auto].
      intros X. apply H1. apply in_map_iff in X as (q & <- & X). apply filter_In in X as [X _].
      apply in_map; exact X.
  - intros k. unfold kills. rewrite in_map_iff. split.
    + intros (p & <- & X). apply filter_In in X as [X Y]. split.
      * apply (inv_proc max l _ _ _ I X).
      * destruct but as [j|]; [|exact Logic.I]. apply negb_true_iff, Nat.eqb_neq in Y. exact Y.
    + intros [A B]. destruct (inv_alive max l _ _ _ I A) as (p & P & E). exists p. split; [exact E|].
      apply filter_In. split; [exact P|]. destruct but as [j|]; [|reflexivity].
      apply negb_true_iff, Nat.eqb_neq. congruence.
Qed.

(** The history up to the answer. *)
Lemma answer_ok : forall st h0 p s, Inv max l st h0 -> find_proc (pidx p) (procs st) = Some p ->
  let h1 := h0 ++ [Ended (pidx p) s] ++ [Printed (pout p)] in
  within max h1 /\ once h1 /\ nonneg h1 /\ starts_of h1 = starts_of h0 /\
  (forall k, alive h1 k <-> alive h0 k /\ k <> pidx p).
Proof.
  intros st h0 p s I F h1.
  assert (N0 := inv_nonneg _ _ I).
  assert (S1 : starts_of h1 = starts_of h0).
  { unfold h1. rewrite !starts_app. simpl. rewrite app_nil_r. reflexivity. }
  assert (W : within max (h0 ++ [Ended (pidx p) s])) by (eapply end_within; eauto).
  assert (O : once (h0 ++ [Ended (pidx p) s])) by (eapply end_once; eauto).
  unfold h1. rewrite app_assoc. split; [|split; [|split; [|split; [|intros k; split; intros H; [split; [split|] | split]]]]].
  - apply within_snoc; [exact W|]. rewrite in_use_running, running_print, <- in_use_running.
    apply within_self; exact W.
  - apply once_snoc; [exact O|]. discriminate.
  - intros c Hc. apply N0. rewrite <- app_assoc in Hc. fold h1 in Hc. rewrite S1 in Hc. exact Hc.
  - rewrite <- app_assoc. exact S1.
  - destruct H as [(x & n & y & H) G]. exists x, n, y.
    apply in_app_or in H as [H | [H | []]]; [|discriminate].
    apply in_app_or in H as [H | [H | []]]; [exact H | discriminate].
  - destruct H as [_ G]. intros X. apply G. rewrite !gone_app. auto.
  - destruct H as [_ G]. intros ->. apply G. rewrite !gone_app. left. right.
    exists (Ended (pidx p) s). split; [simpl; auto | simpl; apply Nat.eqb_refl].
  - destruct H as [[A B] C]. apply started_app, started_app. exact A.
  - destruct H as [[A B] C]. rewrite !gone_app. intros [[X | (e & [<- | []] & X)] | (e & [<- | []] & X)].
    + auto.
    + simpl in X. apply Nat.eqb_eq in X. congruence.
    + discriminate.
Qed.

Lemma ended_ok : forall o h, ended o h ->
  within max h /\ once h /\ (exists d r, l = d ++ r /\ starts_of h = plan d) /\
  (forall k, started h k -> gone h k).
Proof.
  intros o h H. destruct H as [st h0 p s I F A | st h0 I | st h0 I P T].
  - destruct (answer_ok st h0 p s I F) as (W & O & N & S & AL).
    destruct (kills_alive (Some (pidx p)) st h0 I) as [ND K].
    destruct (kills_ok max (kills (Some (pidx p)) st) _ W O N ND) as [W' O'].
    { intros k Hk. apply AL. apply K. exact Hk. }
    split; [exact W'|]. split; [exact O'|]. split.
    + destruct (i_done _ _ _ _ I) as (d & L & _ & E). exists d, (todo st). split; [exact L|].
      rewrite starts_app, S, starts_killed, app_nil_r. exact E.
    + intros k (x & n & y & X). apply gone_app.
      apply in_app_or in X as [X | X]; [|apply in_map_iff in X as (j & X & _); discriminate].
      destruct (over (h0 ++ [Ended (pidx p) s] ++ [Printed (pout p)]) k) eqn:G;
        [left; apply over_iff; exact G|].
      right. apply over_false in G.
      assert (Y : In k (kills (Some (pidx p)) st)).
      { apply K. apply AL. split; [exists x, n, y; exact X | exact G]. }
      exists (Killed k). split; [apply in_map; exact Y | simpl; apply Nat.eqb_refl].
  - destruct (kills_alive None st h0 I) as [ND K].
    destruct (kills_ok max (kills None st) h0 (i_within _ _ _ _ I) (i_once _ _ _ _ I)
                (inv_nonneg _ _ I) ND) as [W' O'].
    { intros k Hk. apply K. exact Hk. }
    split; [exact W'|]. split; [exact O'|]. split.
    + destruct (i_done _ _ _ _ I) as (d & L & _ & E). exists d, (todo st). split; [exact L|].
      rewrite starts_app, starts_killed, app_nil_r. exact E.
    + intros k (x & n & y & X). apply gone_app.
      apply in_app_or in X as [X | X]; [|apply in_map_iff in X as (j & X & _); discriminate].
      destruct (over h0 k) eqn:G; [left; apply over_iff; exact G|].
      right. apply over_false in G.
      assert (Y : In k (kills None st)).
      { apply K. split; [|exact Logic.I]. split; [exists x, n, y; exact X | exact G]. }
      exists (Killed k). split; [apply in_map; exact Y | simpl; apply Nat.eqb_refl].
  - split; [apply (i_within _ _ _ _ I)|]. split; [apply (i_once _ _ _ _ I)|]. split.
    + destruct (i_done _ _ _ _ I) as (d & L & _ & E). exists d, (todo st). auto.
    + intros k S. destruct (over h0 k) eqn:G; [apply over_iff; exact G|]. apply over_false in G.
      destruct (inv_alive max l _ _ k I (conj S G)) as (p & X & _). rewrite P in X. contradiction.
Qed.

(** Properties of any execution, finished or not. *)
Lemma history_ok : forall ins, let h := history (execute l max ins) in
  within max h /\ once h /\ (exists d r, l = d ++ r /\ starts_of h = plan d).
Proof.
  intros ins. pose proof (execute_ok ins) as E. unfold history.
  destruct (execute l max ins) as [st | [o t]].
  - destruct E as [[h I] _]. rewrite <- (i_hist _ _ _ _ I).
    split; [apply (i_within _ _ _ _ I)|]. split; [apply (i_once _ _ _ _ I)|].
    destruct (i_done _ _ _ _ I) as (d & L & _ & E). exists d, (todo st). auto.
  - destruct (ended_ok _ _ E) as (W & O & D & _). auto.
Qed.

Lemma answer_result : forall ins out s t, execute l max ins = inr (Answer out s, t) ->
  let h := rev t in exists k,
    started h k /\ In (Ended k s) h /\ out = written h k /\ answers out /\
    (forall x, In (Printed x) h <-> x = out) /\
    (forall j s', In (Ended j s') h -> answers (written h j) -> j = k).
Proof.
  intros ins out s t E h. pose proof (execute_ok ins) as X. rewrite E in X. fold h in X.
  clearbody h. clear E t ins.
  inversion X as [st h0 p s' I F A | |]; subst. clear X.
  pose proof (find_proc_in _ _ _ F) as [Fp _].
  assert (WR : forall k, written ((h0 ++ [Ended (pidx p) s] ++ [Printed (pout p)]) ++
                  map Killed (kills (Some (pidx p)) st)) k = written h0 k).
  { intros k. rewrite !written_app, written_killed. simpl. rewrite !app_nil_r. reflexivity. }
  exists (pidx p). split; [|split; [|split; [|split; [|split]]]].
  - apply started_app, started_app. apply (inv_proc max l _ _ _ I Fp).
  - apply in_or_app. left. apply in_or_app. right. simpl; auto.
  - rewrite WR. apply (i_out _ _ _ _ I); exact Fp.
  - exact A.
  - intros x. split.
    + intros H. apply in_app_or in H as [H | H]; [|apply in_map_iff in H as (j & H & _); discriminate].
      apply in_app_or in H as [H | [H | [H | []]]]; [|discriminate | congruence].
      apply (i_quiet _ _ _ _ I) in H. contradiction.
    + intros ->. apply in_or_app. left. apply in_or_app. right. simpl; auto.
  - intros j s' H B. rewrite WR in B.
    apply in_app_or in H as [H | H]; [|apply in_map_iff in H as (i & H & _); discriminate].
    apply in_app_or in H as [H | [H | [H | []]]]; [|congruence | discriminate].
    exfalso. eapply (i_ended _ _ _ _ I); eauto.
Qed.

Lemma no_answer_yet : forall ins st, execute l max ins = inl st ->
  let h := history (inl st) in
  (forall e, In e h -> quiet_event e) /\
  (forall k s, In (Ended k s) h -> ~ answers (written h k)).
Proof.
  intros ins st E. pose proof (execute_ok ins) as X. rewrite E in X. destruct X as [[h' I] _].
  simpl. unfold history. rewrite <- (i_hist _ _ _ _ I).
  split; [apply (i_quiet _ _ _ _ I) | apply (i_ended _ _ _ _ I)].
Qed.

Lemma stopped_result : forall ins t, execute l max ins = inr (Stopped, t) ->
  (exists i, In i ins /\ term i = true) /\
  (forall x, ~ In (Printed x) t) /\ (forall j s, In (Ended j s) t -> ~ answers (written (rev t) j)).
Proof.
  intros ins t E. split.
  - unfold execute in E. revert E. generalize (mkstate l 0 [] 0 []).
    induction ins as [|i ins IH]; simpl; intros st E; [discriminate|].
    destruct (round max st i) as [st' | [o t']] eqn:R.
    + destruct (IH st' E) as (i' & H & T). eauto.
    + exists i. split; [auto|]. inversion E; subst o t'. unfold round in R.
      destruct (match ready i with None => (launch max st, None) | Some rs => poll (launch max st) rs end)
        as [st' [[p s]|]]; [discriminate|].
      destruct (term i); [reflexivity|]. destruct (procs st'), (todo st'); discriminate.
  - pose proof (execute_ok ins) as X. rewrite E in X. remember (rev t) as h eqn:Eh in X.
    inversion X as [| st h0 I X1 X2 |]. clear X. rename X2 into H. rewrite Eh in H.
    assert (IN : forall e, In e t <-> In e (h0 ++ map Killed (kills None st))).
    { intros e. rewrite H. apply in_rev. }
    split.
    + intros x Hx. apply IN in Hx. apply in_app_or in Hx as [Hx | Hx].
      * apply (i_quiet _ _ _ _ I) in Hx. contradiction.
      * apply in_map_iff in Hx as (j & Hx & _). discriminate.
    + intros j s Hx. apply IN in Hx. rewrite <- H, written_app, written_killed, app_nil_r.
      apply in_app_or in Hx as [Hx | Hx].
      * eapply (i_ended _ _ _ _ I); eauto.
      * apply in_map_iff in Hx as (i & Hx & _). discriminate.
Qed.

Lemma exhausted_result : forall ins t, execute l max ins = inr (Exhausted, t) ->
  let h := rev t in
  starts_of h = plan l /\
  (forall k, (k < length l)%nat -> exists s, In (Ended k s) h /\ ~ answers (written h k)) /\
  (forall e, In e h -> quiet_event e).
Proof.
  intros ins t E h. pose proof (execute_ok ins) as X. rewrite E in X. fold h in X. clearbody h.
  inversion X as [| | st h0 I P T]; subst.
  destruct (i_done _ _ _ _ I) as (d & L & N & S). rewrite T, app_nil_r in L. subst d.
  split; [exact S|]. split; [|apply (i_quiet _ _ _ _ I)].
  intros k Hk.
  assert (ST : started h k).
  { apply started_in. rewrite S, plan_fst. apply in_seq. lia. }
  destruct (ended_ok _ _ X) as (_ & _ & _ & G). destruct (G k ST) as (e & He & K).
  destruct e; try discriminate; simpl in K; apply Nat.eqb_eq in K; subst.
  - eexists; split; [exact He | eapply (i_ended _ _ _ _ I); eauto].
  - apply (i_quiet _ _ _ _ I) in He. contradiction.
Qed.

Lemma waits_for : forall ins st, fits max l -> l <> [] -> execute l max ins = inl st ->
  exists st', execute l max (ins ++ [quiet]) = inl st' /\ exists k, alive (history (inl st')) k.
Proof.
  intros ins st F NE E. pose proof (execute_ok ins) as X. rewrite E in X.
  destruct X as [[h I] N].
  assert (R : forall ins st0, rounds max st0 ins = inl st ->
    rounds max st0 (ins ++ [quiet]) = match round max st quiet with inl s' => inl s' | inr r => inr r end).
  { clear. induction ins as [|i ins IH]; simpl; intros st0 E; [inversion E; reflexivity|].
    destruct (round max st0 i); [auto | discriminate]. }
  unfold execute. rewrite (R ins _ E). unfold round. simpl.
  destruct (inv_launch max l st h I) as (h1 & I1).
  assert (NP : procs (launch max st) <> []).
  { intros EP. pose proof (launch_busy max l st h F I EP) as ET.
    destruct ins as [|i ins].
    - simpl in E. inversion E; subst st.
      assert (Q : forall q st, (procs st <> [] \/ todo st <> []) ->
                  procs (launch_list max q st) <> [] \/ todo (launch_list max q st) <> []).
      { clear. induction q as [|s q IH]; simpl; intros st H; [exact H|].
        destruct (cores s <=? max - reserved st); [|exact H]. apply IH. left. discriminate. }
      destruct (Q l (mkstate l 0 [] 0 [])) as [Y | Y]; [right; exact NE | exact (Y EP) | exact (Y ET)].
    - assert (Q : forall q st, (procs st <> [] \/ todo st <> []) ->
                  procs (launch_list max q st) <> [] \/ todo (launch_list max q st) <> []).
      { clear. induction q as [|s q IH]; simpl; intros st H; [exact H|].
        destruct (cores s <=? max - reserved st); [|exact H]. apply IH. left. discriminate. }
      assert (Y : procs st <> [] \/ todo st <> []).
      { destruct (procs st) eqn:E1; [|left; discriminate].
        destruct (todo st) eqn:E2; [|right; discriminate].
        exfalso. apply N; [discriminate | auto]. }
      destruct (Q (todo st) st Y) as [Z | Z]; [exact (Z EP) | exact (Z ET)]. }
  destruct (procs (launch max st)) as [|p ps] eqn:EP; [congruence|].
  eexists. split; [reflexivity|]. exists (pidx p). unfold history. rewrite <- (i_hist _ _ _ _ I1).
  apply (inv_proc max l _ _ _ I1). rewrite EP. simpl; auto.
Qed.

Lemma ends_when : forall ins st, l <> [] -> execute l max ins = inl st ->
  exists k, (k < length l)%nat /\ forall s, ~ In (Ended k s) (history (inl st)).
Proof.
  intros ins st NE E. pose proof (execute_ok ins) as X. rewrite E in X. destruct X as [[h I] N].
  unfold history. rewrite <- (i_hist _ _ _ _ I).
  destruct (i_done _ _ _ _ I) as (d & L & ND & S).
  destruct (procs st) as [|p ps] eqn:EP; [destruct (todo st) as [|q r] eqn:ET|].
  - destruct ins as [|i ins]; [|exfalso; apply N; [discriminate | auto]].
    simpl in E. inversion E; subst st. simpl in ET. congruence.
  - exists (length d). split; [rewrite L, app_length; simpl; lia|]. intros s H.
    assert (G : gone h (length d)).
    { exists (Ended (length d) s). split; [exact H | simpl; apply Nat.eqb_refl]. }
    apply (gone_started _ _ (i_once _ _ _ _ I)) in G. apply (inv_bound max l _ _ _ I) in G. lia.
  - assert (Fp : In p (procs st)) by (rewrite EP; simpl; auto).
    destruct (inv_proc max l _ _ _ I Fp) as [A B].
    exists (pidx p). split.
    + apply (inv_bound max l _ _ _ I) in A. rewrite L, app_length. lia.
    + intros s H. apply B. exists (Ended (pidx p) s). split; [exact H | simpl; apply Nat.eqb_refl].
Qed.
End Run.
