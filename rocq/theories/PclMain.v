(** The whole extraction. *)

From Coq Require Import ZArith String Ascii List Bool Lia Arith Sorted
  Permutation.
From Verif Require Import Pcl PclSpec PclProofs.
Import ListNotations.
Local Open Scope Z_scope.

Definition sorted (p : list step) : Prop := StronglySorted lex_lt (map s_id p).

Lemma compare_small : forall a b, small_id a -> small_id b ->
  PCLIdCompare a b = id_diff a b.
Proof.
  intros a b A B. unfold PCLIdCompare. apply to_int_id.
  apply id_diff_range; auto.
Qed.

Lemma insert_ok : forall s p, small_id (s_id s) ->
  (forall x, In x p -> small_id (s_id x)) -> sorted p ->
  (In (s_id s) (map s_id p) -> insert_step s p = None) /\
  (~ In (s_id s) (map s_id p) ->
   exists q, insert_step s p = Some q /\ sorted q /\ Permutation q (s :: p)).
Proof.
  intros s p SS. induction p as [|x p IH]; intros SP SO.
  - cbn. split; [intros []|]. intros _. exists [s]. repeat split; auto.
    unfold sorted. cbn. repeat constructor.
  - assert (SX : small_id (s_id x)) by (apply SP; left; reflexivity).
    assert (SP' : forall y, In y p -> small_id (s_id y))
      by (intros y H; apply SP; right; exact H).
    unfold sorted in SO. cbn [map] in SO. apply StronglySorted_inv in SO.
    destruct SO as [SO FO]. destruct (IH SP' SO) as [I1 I2].
    cbn [insert_step]. cbv zeta. rewrite (compare_small _ _ SS SX).
    destruct (id_diff (s_id s) (s_id x) <? 0) eqn:C1.
    + apply Z.ltb_lt in C1. apply id_diff_neg in C1; auto. split.
      * intros H. exfalso. cbn [map In] in H. destruct H as [H|H].
        -- rewrite H in C1. eapply lex_irrefl; eauto.
        -- rewrite Forall_forall in FO. apply FO in H.
           eapply lex_irrefl. eapply lex_trans; eauto.
      * intros _. exists (s :: x :: p). repeat split; auto.
        unfold sorted. cbn [map]. constructor.
        -- constructor; auto.
        -- constructor; auto. rewrite Forall_forall in *. intros i H.
           eapply lex_trans; eauto.
    + apply Z.ltb_ge in C1. destruct (id_diff (s_id s) (s_id x) =? 0) eqn:C2.
      * apply Z.eqb_eq in C2. apply id_diff_zero in C2; auto. split; auto.
        intros H. exfalso. apply H. cbn. left. symmetry. exact C2.
      * apply Z.eqb_neq in C2.
        assert (LT : lex_lt (s_id x) (s_id s))
          by (apply id_diff_pos; auto; lia).
        split.
        -- intros [H|H].
           ++ rewrite H in LT. exfalso. eapply lex_irrefl; eauto.
           ++ rewrite (I1 H). reflexivity.
        -- intros H. destruct I2 as (q & E & Q1 & Q2).
           { intros F. apply H. right. exact F. }
           rewrite E. exists (x :: q). repeat split; auto.
           ++ unfold sorted. cbn [map]. constructor; auto.
              rewrite Forall_forall in *. intros i F.
              apply in_map_iff in F. destruct F as (y & <- & F).
              apply (Permutation_in y Q2) in F. destruct F as [<-|F]; auto.
              apply FO. apply in_map. exact F.
           ++ rewrite Q2. apply perm_swap.
Qed.

Lemma parse_ok : forall l p,
  (forall x, In x (l ++ p) -> small_id (s_id x)) -> sorted p ->
  NoDup (map s_id (l ++ p)) ->
  exists q, PCLProtParse l p = Ok q /\ sorted q /\ Permutation q (l ++ p).
Proof.
  induction l as [|s l IH]; intros p SM SO N.
  - exists p. cbn. auto.
  - cbn [PCLProtParse app map] in *. apply NoDup_cons_iff in N.
    destruct N as [N1 N2].
    destruct (insert_ok s p) as [_ I2]; auto.
    { apply SM. left. reflexivity. }
    { intros x H. apply SM. right. apply in_or_app. right. exact H. }
    destruct I2 as (q & E & Q1 & Q2).
    { intros H. apply N1. rewrite map_app. apply in_or_app. right. exact H. }
    assert (PM : Permutation (l ++ q) (s :: l ++ p)).
    { rewrite Q2. symmetry. apply Permutation_middle. }
    rewrite E. destruct (IH q) as (r & F & R1 & R2); auto.
    + intros x H. apply SM. apply (Permutation_in x PM) in H. exact H.
    + apply (Permutation_NoDup (l := map s_id (s :: l ++ p))).
      * symmetry. apply Permutation_map. exact PM.
      * cbn. constructor; auto.
    + exists r. repeat split; auto. rewrite R2. exact PM.
Qed.

Lemma parse_dup : forall l p,
  (forall x, In x (l ++ p) -> small_id (s_id x)) -> sorted p ->
  NoDup (map s_id p) -> ~ NoDup (map s_id (l ++ p)) ->
  PCLProtParse l p = Error.
Proof.
  induction l as [|s l IH]; intros p SM SO NP N.
  - contradiction.
  - cbn [PCLProtParse app map] in *.
    destruct (insert_ok s p) as [I1 I2]; auto.
    { apply SM. left. reflexivity. }
    { intros x H. apply SM. right. apply in_or_app. right. exact H. }
    destruct (in_dec (list_eq_dec Z.eq_dec) (s_id s) (map s_id p)) as [D|D].
    { rewrite (I1 D). reflexivity. }
    destruct (I2 D) as (q & E & Q1 & Q2). rewrite E.
    assert (PM : Permutation (l ++ q) (s :: l ++ p)).
    { rewrite Q2. symmetry. apply Permutation_middle. }
    apply IH; auto.
    + intros x H. apply SM. apply (Permutation_in x PM) in H. exact H.
    + apply (Permutation_NoDup (l := map s_id (s :: p))).
      * symmetry. apply Permutation_map. exact Q2.
      * cbn. constructor; auto.
    + intros H. apply N.
      apply (Permutation_NoDup (l := map s_id (l ++ q))); auto.
      apply (Permutation_map s_id PM).
Qed.

Lemma find_known : forall p i, small_id i ->
  (forall x, In x p -> small_id (s_id x)) ->
  (exists s, In s p /\ s_id s = i) ->
  exists s, PCLProtFindStep p i = Some s /\ In s p /\ s_id s = i.
Proof.
  intros p i SI SP (s & A & B). unfold PCLProtFindStep.
  destruct (find (fun s => PCLIdCompare i (s_id s) =? 0) p) as [x|] eqn:E.
  - apply find_some in E. destruct E as [E1 E2]. exists x. split; auto.
    split; auto. apply Z.eqb_eq in E2. rewrite compare_small in E2; auto.
    apply id_diff_zero in E2; auto.
  - exfalso. apply (find_none _ _ E) in A. rewrite compare_small in A; auto.
    subst i. rewrite (proj2 (id_diff_zero (s_id s) (s_id s) SI SI) eq_refl) in A.
    discriminate.
    subst i. exact SI.
Qed.

Lemma needed_perm : forall l p root s, (forall x, In x l <-> In x p) ->
  needed l root s -> needed p root s.
Proof.
  intros l p root s H N. induction N as [s A B|s s' A IHA B C].
  - apply n_root; auto. apply H. exact A.
  - apply (n_dep p root s); auto. apply H. exact B.
Qed.

Lemma sorted_filter : forall f p, sorted p -> sorted (filter f p).
Proof.
  unfold sorted. induction p as [|x p IH]; intros S0; [exact S0|].
  cbn [map] in S0. apply StronglySorted_inv in S0. destruct S0 as [S0 F].
  cbn [filter]. destruct (f x); auto. cbn [map]. constructor; auto.
  rewrite Forall_forall in *. intros i H. apply in_map_iff in H.
  destruct H as (y & <- & H). apply filter_In in H. apply F.
  apply in_map. apply H.
Qed.

Lemma extract_ok : forall ord l, listing ord -> small l ->
  NoDup (map s_id l) -> resolved l flagged ->
  exists o res, epclextract ord l = Ok (o, res) /\ sorted o /\
    (forall s, In s o <-> needed l flagged s) /\
    (res = true <-> exists s, In s l /\ refutation s).
Proof.
  intros ord l LI SM ND RE. unfold epclextract.
  destruct (parse_ok l []) as (p & E & SO & PE).
  { intros x H. rewrite app_nil_r in H. apply SM. exact H. }
  { unfold sorted. constructor. }
  { rewrite app_nil_r. exact ND. }
  rewrite app_nil_r in PE. rewrite E. cbn [bind].
  assert (IN : forall x, In x l <-> In x p).
  { intros x. split; apply Permutation_in; [symmetry|]; exact PE. }
  assert (NDp : NoDup (map s_id p)).
  { apply (Permutation_NoDup (l := map s_id l)); auto.
    apply Permutation_map. symmetry. exact PE. }
  unfold PCLProtMarkProofClauses.
  destruct (mark_ok ord LI (PCLExprCollectPreconds p) p NDp flagged) with
    (fuel := rounds p)
    (stack := rev (map Some (filter (fun s => PCLStepExtract (s_extra s)) p)))
    as (m & r & F & M & _).
  - intros s N. eexists. split; [reflexivity|].
    assert (Nl : needed l flagged s).
    { apply (needed_perm p l); auto. intros x. symmetry. apply IN. }
    assert (SMq : forall i, In i (refs (s_just s)) -> small_id i).
    { intros i H. apply refs_quotes in H.
      destruct (SM s) as [_ Q]; auto. apply IN. eapply needed_in; eauto. }
    assert (SMp : forall x, In x p -> small_id (s_id x))
      by (intros x H; apply SM; apply IN; exact H).
    split; [|rewrite map_length; lia].
    intros x. rewrite in_map_iff. split.
    + intros (i & A & B).
      destruct (find_known p i) as (s' & C1 & C2 & C3); auto.
      { apply refs_quotes in B. destruct (RE s i Nl B) as (s' & D1 & D2).
        exists s'. split; auto. apply IN. exact D1. }
      exists s'. split; [congruence|]. split; auto.
      apply refs_quotes. rewrite C3. exact B.
    + intros (s' & -> & A & B). exists (s_id s'). apply refs_quotes in B.
      split; auto.
      destruct (find_known p (s_id s')) as (s2 & C1 & C2 & C3); eauto.
      rewrite C1. f_equal. apply (same_id p); auto.
  - intros x. rewrite <- in_rev, in_map_iff. split.
    + intros (s & <- & H). apply filter_In in H. destruct H as [H1 H2].
      apply extract_iff in H2. eauto.
    + intros (s & -> & A & B). exists s. split; auto. apply filter_In.
      split; auto. apply extract_iff. exact B.
  - rewrite rev_length, map_length. unfold rounds.
    pose proof (todo_bound p).
    assert (length (filter (fun s => PCLStepExtract (s_extra s)) p) <= length p)%nat.
    { clear. induction p as [|x p IH]; cbn; auto.
      destruct (PCLStepExtract (s_extra x)); cbn; lia. }
    lia.
  - rewrite F. cbn [bind]. do 2 eexists. split; [reflexivity|].
    split; [apply sorted_filter; exact SO|]. split.
    + intros s. rewrite filter_In. split.
      * intros [A B]. apply M in B; auto. apply (needed_perm p l); auto.
        intros x. symmetry. apply IN.
      * intros N. assert (A : In s p) by (apply IN; eapply needed_in; eauto).
        split; auto. apply M; auto. apply (needed_perm l p); auto.
    + rewrite existsb_exists. split.
      * intros (s & A & B). apply ends_iff in B. exists s. split; auto.
        apply IN. exact A.
      * intros (s & A & B). apply ends_iff in B. exists s. split; auto.
        apply IN. exact A.
Qed.
