(** References that lead nowhere. *)

From Coq Require Import ZArith String Ascii List Bool Lia Arith Sorted
  Permutation.
From Verif Require Import Pcl PclSpec PclProofs PclMain PclFast.
Import ListNotations.
Local Open Scope Z_scope.

Section Loop.
Variable ord : list (option step) -> list (option step).
Hypothesis LI : listing ord.
Variable collect : step -> out (list (option step)).
Variable l : list step.
Hypothesis ND : NoDup (map s_id l).
Variable root : step -> Prop.

Hypothesis COL : forall s, needed l root s -> collect s = Error \/
  exists p, collect s = Ok p /\
    (forall s', In (Some s') p <-> In s' l /\ quotes (s_just s) (s_id s')) /\
    (length p <= length (refs (s_just s)))%nat.

Lemma loop_total : forall fuel stack m res,
  (forall s, In (Some s) stack -> needed l root s) ->
  (length stack + todo l m < fuel)%nat ->
  mark_loop ord collect fuel stack m res = Ub \/
  mark_loop ord collect fuel stack m res = Error \/
  exists m' res', mark_loop ord collect fuel stack m res = Ok (m', res') /\
    ~ In None stack /\
    (forall s, In (Some s) stack -> In (s_id s) m') /\
    (forall i, In i m -> In i m') /\
    (forall s, In s l -> In (s_id s) m' -> In (s_id s) m \/
       exists p, collect s = Ok p /\ ~ In None p /\
         forall s', In (Some s') p -> In (s_id s') m').
Proof.
  induction fuel as [|n IH]; intros stack m res ST L; [lia|].
  cbn [mark_loop]. destruct stack as [|x st].
  { right. right. exists m, res. split; [reflexivity|]. split; [intros []|].
    split; [intros s []|]. split; auto. }
  destruct x as [s|]; [|left; reflexivity].
  assert (NS : needed l root s) by (apply ST; left; reflexivity).
  assert (INL : In s l) by (eapply needed_in; eauto).
  assert (ST' : forall a, In (Some a) st -> needed l root a)
    by (intros a H; apply ST; right; exact H).
  destruct (marked m s) eqn:M.
  - destruct (IH st m (res || ends s)) as [H|[H|H]]; auto.
    { cbn [length] in L. lia. }
    destruct H as (m' & r & E & P1 & P2 & P3 & P4). right. right.
    exists m', r. split; [exact E|]. split.
    { intros [H|H]; [discriminate|auto]. }
    split; [|split; auto]. intros a [H|H]; auto. injection H as <-.
    apply P3. apply marked_iff. exact M.
  - destruct (COL s NS) as [C|(p & C & HP & LP)].
    { rewrite C. cbn [bind]. auto. }
    rewrite C. cbn [bind]. destruct (LI p) as [LI1 LI2].
    destruct (IH (ord p ++ st) (s_id s :: m) (res || ends s)) as [H|[H|H]]; auto.
    { intros a H. apply in_app_or in H. destruct H as [H|H]; auto.
      apply LI1 in H. apply HP in H. destruct H as [A B].
      apply (n_dep l root s); auto. }
    { pose proof (todo_mark l m s ND INL M) as T. rewrite app_length.
      cbn [length] in L. lia. }
    destruct H as (m' & r & E & P1 & P2 & P3 & P4). right. right.
    exists m', r. split; [exact E|]. split.
    { intros [H|H]; [discriminate|]. apply P1. apply in_or_app. auto. }
    split.
    { intros a [H|H].
      - injection H as <-. apply P3. left. reflexivity.
      - apply P2. apply in_or_app. right. exact H. }
    split; [intros i H; apply P3; right; exact H|].
    intros a A B. destruct (P4 a A B) as [[H|H]|H]; auto.
    right. assert (a = s) by (apply (same_id l); auto). subst a.
    exists p. split; auto. split.
    + intros G. apply P1. apply in_or_app. left. apply LI1. exact G.
    + intros s' G. apply P2. apply in_or_app. left. apply LI1. exact G.
Qed.

Lemma loop_bad : forall fuel stack,
  (forall x, In x stack <-> exists s, x = Some s /\ In s l /\ root s) ->
  (length stack + todo l [] < fuel)%nat ->
  (exists s, needed l root s /\ forall p, collect s = Ok p -> In None p) ->
  mark_loop ord collect fuel stack [] false = Ub \/
  mark_loop ord collect fuel stack [] false = Error.
Proof.
  intros fuel stack ST L (b & B1 & B2).
  destruct (loop_total fuel stack [] false) as [H|[H|H]]; auto.
  { intros s H. apply ST in H. destruct H as (s' & A & B & C).
    injection A as ->. apply n_root; auto. }
  exfalso. destruct H as (m & r & E & P1 & P2 & P3 & P4).
  assert (P5 : forall s, In s l -> In (s_id s) m ->
    exists p, collect s = Ok p /\ ~ In None p /\
         forall s', In (Some s') p -> In (s_id s') m).
  { intros s A B. destruct (P4 s A B) as [[]|H]. exact H. }
  assert (NM : forall s, needed l root s -> In (s_id s) m).
  { induction 1 as [s A B|s s' A IHA B C].
    - apply P2. apply ST. exists s. auto.
    - destruct (P5 s) as (p & Q1 & Q2 & Q3); auto.
      { eapply needed_in; eauto. }
      apply Q3. destruct (COL s A) as [F|(p' & F & G & _)]; [congruence|].
      rewrite F in Q1. injection Q1 as <-. apply G. auto. }
  destruct (P5 b) as (p & Q1 & Q2 & _); auto.
  eapply needed_in; eauto.
Qed.
End Loop.

Lemma loop_no_error : forall ord collect,
  (forall s, exists p, collect s = Ok p) -> forall fuel stack m res,
  mark_loop ord collect fuel stack m res <> Error.
Proof.
  intros ord collect H. induction fuel as [|n IH]; intros stack m res;
    cbn [mark_loop]; [discriminate|].
  destruct stack as [|[s|] st]; try discriminate.
  destruct (marked m s); auto. destruct (H s) as (p & E). rewrite E. apply IH.
Qed.

Lemma loop_no_ub : forall ord collect, listing ord ->
  (forall s, collect s = Error \/ exists p, collect s = Ok p /\ ~ In None p) ->
  forall fuel stack m res, ~ In None stack ->
  mark_loop ord collect fuel stack m res <> Ub.
Proof.
  intros ord collect LI H. induction fuel as [|n IH]; intros stack m res NN;
    cbn [mark_loop]; [discriminate|].
  destruct stack as [|[s|] st]; try discriminate.
  - destruct (marked m s).
    + apply IH. intros F. apply NN. right. exact F.
    + destruct (H s) as [E|(p & E & F)]; rewrite E; cbn [bind]; [discriminate|].
      apply IH. intros G. apply in_app_or in G. destruct G as [G|G].
      * apply F. apply (LI p). exact G.
      * apply NN. right. exact G.
  - exfalso. apply NN. left. reflexivity.
Qed.

Lemma extract_bad : forall ord l, listing ord -> small l ->
  NoDup (map s_id l) ->
  (exists s i, needed l flagged s /\ quotes (s_just s) i /\
     forall s', In s' l -> s_id s' <> i) ->
  epclextract ord l = Ub.
Proof.
  intros ord l LI SM ND (b & bi & B1 & B2 & B3). unfold epclextract.
  destruct (parse_ok l []) as (p & E & SO & PE).
  { intros x H. rewrite app_nil_r in H. apply SM. exact H. }
  { unfold sorted. constructor. }
  { rewrite app_nil_r. exact ND. }
  rewrite app_nil_r in PE. rewrite E. cbn [bind].
  assert (IN : forall x, In x l <-> In x p).
  { intros x. split; apply Permutation_in; [symmetry|]; exact PE. }
  assert (NDp : NoDup (map s_id p)).
  { apply (Permutation_NoDup (l := map s_id l)); auto.
    apply Permutation_map. symmetry. exact PE. }
  assert (SMp : forall x, In x p -> small_id (s_id x))
    by (intros x H; apply SM; apply IN; exact H).
  unfold PCLProtMarkProofClauses.
  destruct (loop_bad ord LI (PCLExprCollectPreconds p) p NDp flagged) with
    (fuel := rounds p)
    (stack := rev (map Some (filter (fun s => PCLStepExtract (s_extra s)) p)))
    as [F|F].
  - intros s N. right. eexists. split; [reflexivity|].
    assert (SMq : forall i, In i (refs (s_just s)) -> small_id i).
    { intros i H. apply refs_quotes in H.
      destruct (SM s) as [_ Q]; auto. apply IN. eapply needed_in; eauto. }
    split; [|rewrite map_length; lia].
    intros s'. rewrite in_map_iff. split.
    + intros (i & A & B). unfold PCLProtFindStep in A. apply find_some in A.
      destruct A as [A1 A2]. split; auto. apply Z.eqb_eq in A2.
      rewrite compare_small in A2; auto. apply id_diff_zero in A2; auto.
      apply refs_quotes. subst i. exact B.
    + intros (A & B). exists (s_id s'). apply refs_quotes in B. split; auto.
      destruct (find_known p (s_id s')) as (s2 & C1 & C2 & C3); eauto.
      rewrite C1. f_equal. apply (same_id p); auto.
  - intros x. rewrite <- in_rev, in_map_iff. split.
    + intros (s & <- & H). apply filter_In in H. destruct H as [H1 H2].
      apply extract_iff in H2. eauto.
    + intros (s & -> & A & B). exists s. split; auto. apply filter_In.
      split; auto. apply extract_iff. exact B.
  - rewrite rev_length, map_length. unfold rounds.
    pose proof (todo_bound p).
    assert (length (filter (fun s => PCLStepExtract (s_extra s)) p) <= length p)%nat.
    { clear. induction p as [|x p IH]; cbn; auto.
      destruct (PCLStepExtract (s_extra x)); cbn; lia. }
    lia.
  - exists b. split; [apply (needed_perm l p); auto|].
    intros q Q. injection Q as <-. apply in_map_iff. exists bi.
    split; [|apply refs_quotes; exact B2].
    destruct (PCLProtFindStep p bi) as [x|] eqn:G; auto. exfalso.
    unfold PCLProtFindStep in G. apply find_some in G. destruct G as [G1 G2].
    apply Z.eqb_eq in G2.
    assert (SB : small_id bi).
    { destruct (SM b) as [_ Q]; auto. eapply needed_in; eauto. }
    rewrite compare_small in G2; auto. apply id_diff_zero in G2; auto.
    apply (B3 x); auto. apply IN. exact G1.
  - rewrite F. reflexivity.
  - exfalso. revert F. apply loop_no_error. intros s. eexists. reflexivity.
Qed.

Lemma find_all_shape : forall p is_, find_all p is_ = Error \/
  exists q, find_all p is_ = Ok q /\ ~ In None q.
Proof.
  induction is_ as [|i r IH]; cbn [find_all].
  - right. exists []. auto.
  - destruct (PCLMiniProtFindStep p (num i)); auto.
    destruct IH as [E|(q & E & F)]; rewrite E; cbn [bind]; auto.
    right. eexists. split; [reflexivity|]. intros [H|H]; [discriminate|auto].
Qed.

Lemma find_all_bad : forall p is_ i, In i is_ ->
  PCLMiniProtFindStep p (num i) = None -> find_all p is_ = Error.
Proof.
  induction is_ as [|j r IH]; intros i A B; [destruct A|].
  cbn [find_all]. destruct A as [->|A].
  - rewrite B. reflexivity.
  - destruct (PCLMiniProtFindStep p (num j)); auto.
    rewrite (IH i A B). reflexivity.
Qed.

Lemma find_all_good : forall p is_ q, find_all p is_ = Ok q ->
  forall i, In i is_ -> exists s, PCLMiniProtFindStep p (num i) = Some s.
Proof.
  intros p is_ q H i A. destruct (PCLMiniProtFindStep p (num i)) as [s|] eqn:E.
  - eauto.
  - rewrite (find_all_bad p is_ i A E) in H. discriminate.
Qed.

Lemma fast_bad : forall ord l, listing ord -> numbered l ->
  NoDup (map s_id l) ->
  (exists s i, needed l (trailing l) s /\ quotes (s_just s) i /\
     forall s', In s' l -> s_id s' <> i) ->
  epclextract_fast ord l = Error.
Proof.
  intros ord l LI NU ND (b & bi & B1 & B2 & B3). unfold epclextract_fast.
  destruct (fast_setup l NU ND) as (p & mx & E & IN & NDp & NUp & TR & _).
  rewrite E. cbn [bind]. unfold PCLMiniProtMarkProofClauses. cbn [m_steps m_max].
  assert (INb : In b l) by (eapply needed_in; eauto).
  destruct (NU b INb) as [_ NQ]. destruct (NQ bi B2) as (n & N0 & ->).
  destruct (loop_bad ord LI (fun s => find_all p (refs (s_just s))) p NDp
              (trailing l)) with
    (fuel := (rounds p + S (Z.to_nat mx))%nat)
    (stack := rev (map Some (last_roots (S (Z.to_nat mx)) p mx)))
    as [F|F].
  - intros s N.
    assert (INs : In s p) by (eapply needed_in; eauto).
    destruct (find_all_shape p (refs (s_just s))) as [F|(q & F & _)]; auto.
    right. pose proof (find_all_good _ _ _ F) as G.
    assert (FD : forall i, In i (refs (s_just s)) ->
      exists n s', i = [n] /\ PCLMiniProtFindStep p n = Some s').
    { intros i H. destruct (G i H) as (s' & S1).
      apply refs_quotes in H. destruct (NUp s INs) as [_ Q].
      destruct (Q i H) as (k & K & ->). exists k, s'. auto. }
    destruct (find_all_ok p _ FD) as (q' & Q1 & Q2 & Q3).
    exists q'. split; auto. split; [|rewrite Q2; apply le_n].
    intros s'. rewrite Q3. split.
    + intros (i & s2 & A & B & C). injection B as <-.
      destruct (FD i A) as (k & s2 & -> & _). cbn [num] in C.
      apply mfind_some in C. split; [apply C|].
      apply refs_quotes. rewrite (proj2 C). exact A.
    + intros (A & B). apply refs_quotes in B.
      exists (s_id s'), s'. split; auto. split; auto.
      destruct (FD _ B) as (k & s2 & H & _). rewrite H. cbn [num].
      apply mfind_known; auto.
  - intros x. rewrite <- in_rev, in_map_iff. split.
    + intros (s & <- & H). apply TR in H. exists s. tauto.
    + intros (s & -> & H). exists s. split; auto. apply TR. exact H.
  - rewrite rev_length, map_length. unfold rounds.
    pose proof (todo_bound p). pose proof (last_length (S (Z.to_nat mx)) p mx).
    lia.
  - exists b. split; [apply (needed_perm l p); auto|].
    intros q Q. exfalso.
    destruct (find_all_good _ _ _ Q [n]) as (s' & S1).
    { apply refs_quotes. exact B2. }
    cbn [num] in S1. apply mfind_some in S1. destruct S1 as [S1 S2].
    apply (B3 s'); auto. apply IN. exact S1.
  - exfalso. revert F. apply loop_no_ub; auto.
    + intros s. apply find_all_shape.
    + rewrite <- in_rev, in_map_iff. intros (s & H & _). discriminate.
  - rewrite F. reflexivity.
Qed.
