(** Lemmas about which literal is selected. *)
From Coq Require Import ZArith Lia String List Bool PeanoNat.
From Verif Require Import LitSel LitSelSpec LitSelProofs LitSelGood.
Import ListNotations.
Local Open Scope Z_scope.

Definition kb (b : bool) : Z := if b then 1 else 0.
Definition beats (g : Z -> Z) (o1 : bool) (w1 : Z) (o0 : bool) (w0 : Z) : Prop :=
  kb o0 < kb o1 \/ kb o0 = kb o1 /\ g w0 < g w1.

Lemma orientable_best : forall better g, (forall a b, better a b = true <-> g b < g a) ->
  forall c i o w0 sl,
  let r := orientable_from i better o w0 sl c in
  let lb l o w := beats g (oriented (at_ l)) (std l) o w in
  (r = sl /\ forall l, In l c -> negative l = true -> ~ lb l o w0) \/
  (exists k l, r = Some (i + k)%nat /\ nth_error c k = Some l /\ positive l = false /\ lb l o w0 /\
     forall k' l', nth_error c k' = Some l' -> negative l' = true ->
       ~ lb l' (oriented (at_ l)) (std l) /\
       ((k' < k)%nat -> lb l (oriented (at_ l')) (std l'))).
Proof.
  intros better g G. induction c as [|a c IH]; intros i o w0 sl r lb; subst r lb; simpl.
  - left; split; auto.
  - set (b := negative a && _).
    assert (B : b = true <-> negative a = true /\ beats g (oriented (at_ a)) (std a) o w0).
    { subst b. unfold beats. specialize (G (std a) w0).
      destruct (negative a), o, (oriented (at_ a)), (better (std a) w0); simpl;
        split; intros H; repeat split; try discriminate; try (destruct H as [H1 H2]; try discriminate H1);
        try reflexivity; try (destruct G as [G1 G2]); try (right; split; [reflexivity|auto]);
        try (left; reflexivity); try (exfalso; cbn in *; try lia; assert (false = true) by (apply G2; lia); discriminate). }
    destruct b.
    + destruct (proj1 B eq_refl) as [N Bt]. clear B.
      destruct (IH (S i) (oriented (at_ a)) (std a) (Some i)) as [[-> H]|[k [l [-> [E [P [L M]]]]]]].
      * right. exists 0%nat, a. rewrite Nat.add_0_r. repeat split; auto.
        -- apply neg_of; auto.
        -- destruct k'; simpl in H0; [injection H0 as <-; unfold beats; lia|].
           apply nth_error_In in H0. auto.
        -- lia.
      * right. exists (S k), l. rewrite Nat.add_succ_r. repeat split; auto.
        -- unfold beats in *; lia.
        -- destruct k'; simpl in H; [injection H as <-; unfold beats in *; lia|]. apply (M _ _ H H0).
        -- intros K. destruct k'; simpl in H; [injection H as <-; auto|]. apply (M _ _ H H0); lia.
    + assert (Q : negative a = true -> ~ beats g (oriented (at_ a)) (std a) o w0).
      { intros N Q. assert (false = true) by (apply B; auto). discriminate. }
      clear B.
      destruct (IH (S i) o w0 sl) as [[-> H]|[k [l [-> [E [P [L M]]]]]]].
      * left; split; auto. intros l [<-|I]; auto.
      * right. exists (S k), l. rewrite Nat.add_succ_r. repeat split; auto.
        -- destruct k'; simpl in H; [injection H as <-; specialize (Q H0); unfold beats in *; lia|].
           apply (M _ _ H H0).
        -- intros K. destruct k'; simpl in H; [injection H as <-; specialize (Q H0); unfold beats in *; lia|].
           apply (M _ _ H H0); lia.
Qed.

Lemma orientable_at : forall better g w0, (forall a b, better a b = true <-> g b < g a) ->
  forall c i, orientable_from 0 better false w0 None c = Some i ->
  or_none neg_oriented_lit (largest_at neg_oriented_lit (fun l => g (std l)))
    (largest_at neg_lit (fun l => g (std l))) c i.
Proof.
  intros better g w0 G c i H.
  destruct (orientable_best better g G c 0 false w0 None) as [[E _]|[k [l [E [N [P [L M]]]]]]];
    rewrite H in E; [discriminate|]. injection E as ->.
  assert (NL : forall l', positive l' = false -> negative l' = true)
    by (intros l' Q; unfold negative; rewrite Q; auto).
  destruct (oriented (at_ l)) eqn:O.
  - left. exists l. repeat split; auto.
    + destruct H1 as [Q1 Q2]. destruct (M k0 l' H0 (NL _ Q1)) as [A B].
      rewrite ?O, ?Q2 in A, B. unfold beats in *. lia.
    + intros K. destruct H1 as [Q1 Q2]. destruct (M k0 l' H0 (NL _ Q1)) as [A B].
      specialize (B K). rewrite ?O, ?Q2 in A, B. unfold beats in *. lia.
  - assert (X : no_such neg_oriented_lit c).
    { intros l' I [Q1 Q2]. apply In_nth_error in I as [k' I].
      destruct (M k' l' I (NL _ Q1)) as [A _]. rewrite ?O, ?Q2 in A. unfold beats, kb in A. lia. }
    right. split; auto. exists l. repeat split; auto.
    + destruct (M k0 l' H0 (NL _ H1)) as [A B].
      assert (Q2 : oriented (at_ l') = false).
      { destruct (oriented (at_ l')) eqn:Q; auto. exfalso. apply (X l'); [eapply nth_error_In; eauto|split; auto]. }
      rewrite ?O, ?Q2 in A, B. unfold beats in *. lia.
    + intros K. destruct (M k0 l' H0 (NL _ H1)) as [A B]. specialize (B K).
      assert (Q2 : oriented (at_ l') = false).
      { destruct (oriented (at_ l')) eqn:Q; auto. exfalso. apply (X l'); [eapply nth_error_In; eauto|split; auto]. }
      rewrite ?O, ?Q2 in A, B. unfold beats in *. lia.
Qed.

(** From tests to descriptions *)
Lemma largest_ext : forall (p q : lit -> Prop) w c i, (forall l, p l <-> q l) ->
  largest_at p w c i -> largest_at q w c i.
Proof.
  intros p q w c i H [l [N [P M]]]. exists l. split; [auto|]. split; [apply H; auto|].
  intros k l' N' Q. apply (M k l' N'), H, Q.
Qed.
Lemma first_ext : forall (p q : lit -> Prop) c i, (forall l, p l <-> q l) ->
  first_at p c i -> first_at q c i.
Proof.
  intros p q c i H [l [N [P M]]]. exists l. split; [auto|]. split; [apply H; auto|].
  intros k l' N' Q. apply (M k l' N'), H, Q.
Qed.
Lemma none_ext : forall (p q : lit -> Prop) c, (forall l, p l <-> q l) ->
  no_such p c -> no_such q c.
Proof. intros p q c H N l I Q. apply (N l I), H, Q. Qed.

Lemma h_neg : forall l, holds negative l <-> neg_lit l.
Proof. intros l; unfold holds, negative, neg_lit. destruct (positive l); simpl; intuition congruence. Qed.
Lemma h_ground : forall l, holds neg_ground l <-> neg_ground_lit l.
Proof.
  intros l; unfold holds, neg_ground, negative, neg_ground_lit.
  destruct (positive l), (ground (at_ l)); simpl; intuition congruence.
Qed.
Lemma h_var : forall l, holds (fun l => negative l && pure_var l) l <-> neg_var_lit l.
Proof.
  intros l; unfold holds, negative, pure_var, neg_var_lit.
  destruct (positive l), (lvar (at_ l)), (rvar (at_ l)); simpl; intuition congruence.
Qed.
Lemma h_max : forall l, holds neg_max l <-> neg_max_lit l.
Proof.
  intros l; unfold holds, neg_max, is_max, negative, neg_max_lit.
  destruct (positive l), (maximal (at_ l)); simpl; intuition congruence.
Qed.

(** A strategy that selects what a search finds *)
Lemma selects_by : forall n f P, strategy n = Some f ->
  (forall e s, ready (lits s) -> exists i m, f e s = Some (mkst (select_nth i (lits s)) m) /\ P (lits s) i) ->
  (forall c i, P c i -> exists l, nth_error c i = Some l) ->
  selects n P.
Proof.
  intros n f P S H K. exists f; split; auto. intros e s R.
  destruct (H e s R) as [i [m [E Q]]]. eexists; exists i. split; [exact E|]. simpl.
  destruct (K _ _ Q) as [l N].
  repeat split; auto using same_select_nth.
  - apply (sel_select_nth (lits s) i l); [apply R|auto].
  - apply (sel_select_nth (lits s) i l); [apply R|auto].
Qed.

Lemma largest_ok : forall p w c i, largest_at p w c i -> exists l, nth_error c i = Some l.
Proof. intros p w c i [l [N _]]; eauto. Qed.
Lemma first_ok : forall p c i, first_at p c i -> exists l, nth_error c i = Some l.
Proof. intros p c i [l [N _]]; eauto. Qed.
Lemma or_none_ok : forall p (A B : clause -> nat -> Prop),
  (forall c i, A c i -> exists l, nth_error c i = Some l) ->
  (forall c i, B c i -> exists l, nth_error c i = Some l) ->
  forall c i, or_none p A B c i -> exists l, nth_error c i = Some l.
Proof. intros p A B HA HB c i [H|[_ H]]; eauto. Qed.
#[export] Hint Resolve largest_ok first_ok or_none_ok : sel.

Lemma pick_some : forall F e s i, F (lits s) = Some i ->
  pick F e s = Some (mkst (select_nth i (lits s)) (marked s)).
Proof. intros F e s i H. unfold pick. rewrite H. reflexivity. Qed.
Lemma pick_if_some : forall F e s i, F (lits s) = Some i ->
  pick_if F e s = Some (mkst (select_nth i (lits s)) (marked s)).
Proof. intros F e s i H. unfold pick_if. rewrite H. reflexivity. Qed.

Lemma total_some : forall F c, total F -> ready c -> exists i, F c = Some i.
Proof. intros F c T R. specialize (T c R). destruct (F c); [eauto|congruence]. Qed.

Lemma dw_all : forall c, ready c -> forall l, In l c -> -1 < dw l.
Proof. intros c R l I. apply (measured_in c l R) in I. apply std_pos in I. lia. Qed.
Lemma std_all : forall c, ready c -> forall l, In l c -> std l < LONG_MAX.
Proof. intros c R l I. apply (measured_in c l R) in I. apply std_pos in I. lia. Qed.

Lemma diff_neg_best : forall e s, ready (lits s) -> exists i m,
  diff_neg e s = Some (mkst (select_nth i (lits s)) m) /\ largest_at neg_lit dw (lits s) i.
Proof.
  intros e s R. destruct (total_some _ _ t_diff R) as [i E].
  exists i, (marked s). split; [apply pick_if_some; auto|].
  apply largest_some in E. eapply largest_ext; [apply h_neg|exact E].
Qed.
Lemma smallest_neg_best : forall e s, ready (lits s) -> exists i m,
  smallest_neg e s = Some (mkst (select_nth i (lits s)) m) /\ smallest_at neg_lit std (lits s) i.
Proof.
  intros e s R. destruct (total_some _ _ t_small R) as [i E].
  exists i, (marked s). split; [apply pick_some; auto|].
  apply smallest_some in E. eapply largest_ext; [apply h_neg|exact E].
Qed.

(** if the first search finds nothing, the other strategy *)
Lemma pick_or_best : forall p (A B : clause -> nat -> Prop) F f,
  (forall c i, F c = Some i -> A c i) ->
  (forall c, ready c -> F c = None -> no_such p c) ->
  (forall e s, ready (lits s) -> exists i m,
     f e s = Some (mkst (select_nth i (lits s)) m) /\ B (lits s) i) ->
  forall e s, ready (lits s) -> exists i m,
     pick_or F f e s = Some (mkst (select_nth i (lits s)) m) /\ or_none p A B (lits s) i.
Proof.
  intros p A B F f HA HN HB e s R. unfold pick_or. destruct (F (lits s)) as [i|] eqn:E.
  - exists i, (marked s). split; [reflexivity|left; auto].
  - destruct (HB e s R) as [i [m [-> H]]]. exists i, m. split; [reflexivity|right; auto].
Qed.

Lemma pick_or_or : forall F G f e s,
  pick_or (or_else F G) f e s = pick_or F (pick_or G f) e s.
Proof. intros. unfold pick_or, or_else. destruct (F (lits s)); reflexivity. Qed.

Lemma ground_s : forall c i, smallest neg_ground std c = Some i -> smallest_at neg_ground_lit std c i.
Proof. intros c i H. apply smallest_some in H. eapply largest_ext; [apply h_ground|exact H]. Qed.
Lemma ground_s0 : forall c, ready c -> smallest neg_ground std c = None -> no_such neg_ground_lit c.
Proof.
  intros c R H. eapply none_ext; [apply h_ground|]. eapply smallest_none; [exact H|].
  apply std_all; auto.
Qed.
Lemma ground_l : forall c i, largest (-1) neg_ground dw c = Some i -> largest_at neg_ground_lit dw c i.
Proof. intros c i H. apply largest_some in H. eapply largest_ext; [apply h_ground|exact H]. Qed.
Lemma ground_l0 : forall c, ready c -> largest (-1) neg_ground dw c = None -> no_such neg_ground_lit c.
Proof.
  intros c R H. eapply none_ext; [apply h_ground|]. eapply largest_none; [exact H|].
  apply dw_all; auto.
Qed.
Lemma var_f : forall c i, find_neg_pure_var c = Some i -> first_at neg_var_lit c i.
Proof. intros c i H. apply first_some in H. eapply first_ext; [apply h_var|exact H]. Qed.
Lemma var_f0 : forall c, ready c -> find_neg_pure_var c = None -> no_such neg_var_lit c.
Proof. intros c R H. apply first_none in H. eapply none_ext; [apply h_var|exact H]. Qed.

Definition complex_choice : clause -> nat -> Prop :=
  or_none neg_var_lit (first_at neg_var_lit)
    (or_none neg_ground_lit (smallest_at neg_ground_lit std) (largest_at neg_lit dw)).

Lemma complex_best : forall e s, ready (lits s) -> exists i m,
  complex e s = Some (mkst (select_nth i (lits s)) m) /\ complex_choice (lits s) i.
Proof.
  intros e s R. unfold complex, find_complex. rewrite pick_or_or.
  apply (pick_or_best neg_var_lit); auto using var_f, var_f0.
  apply (pick_or_best neg_ground_lit); auto using ground_s, ground_s0, diff_neg_best.
Qed.
Lemma lcomplex_best : forall e s, ready (lits s) -> exists i m,
  lcomplex e s = Some (mkst (select_nth i (lits s)) m) /\
  or_none neg_var_lit (first_at neg_var_lit)
    (or_none neg_ground_lit (largest_at neg_ground_lit dw) (largest_at neg_lit dw)) (lits s) i.
Proof.
  intros e s R. unfold lcomplex, find_lcomplex0. rewrite pick_or_or.
  apply (pick_or_best neg_var_lit); auto using var_f, var_f0.
  apply (pick_or_best neg_ground_lit); auto using ground_l, ground_l0, diff_neg_best.
Qed.

Lemma complex_g_best : forall e s, ready (lits s) -> exists i m,
  complex_g e s = Some (mkst (select_nth i (lits s)) m) /\ complex_choice (lits s) i.
Proof.
  intros e s R. unfold complex_g.
  destruct (uniq_result false false no_dist complex_weight e s) as [i [l [N [P [M ->]]]]]; [apply R|].
  assert (F : forbidden (complex_weight (counter e + Z.of_nat i) (lits s) (no_dist (lits s)) l) = false).
  { unfold complex_weight. destruct (negative l), (pure_var l), (ground (at_ l)); reflexivity. }
  rewrite F. exists i, false. split; [reflexivity|].
  assert (W : forall n c pd x, positive x = false -> complex_weight n c pd x =
     if pure_var x then mkeval false 0 0 0 else if ground (at_ x) then mkeval false 10 (std x) 0
     else mkeval false 20 (- dw x) 0).
  { intros n c pd x Q. unfold complex_weight, negative. rewrite Q. reflexivity. }
  assert (PV : forall x, neg_var_lit x -> positive x = false /\ pure_var x = true).
  { intros x [Q1 [Q2 Q3]]. unfold pure_var. rewrite Q2, Q3. auto. }
  rewrite W in M by auto. unfold complex_choice.
  destruct (pure_var l) eqn:V.
  - left. exists l. split; [auto|]. split.
    + unfold pure_var in V. apply andb_prop in V as [V1 V2]. repeat split; auto.
    + intros k l' N' Q. apply PV in Q as [Q1 Q2].
      destruct (M k l' N') as [_ B]. rewrite W, Q2 in B by auto.
      destruct (Nat.le_gt_cases i k) as [|K]; auto. specialize (B K).
      unfold elt in B; simpl in B. rewrite P, Q1 in B. lia.
  - right. split.
    { intros l' I Q. apply PV in Q as [Q1 Q2]. apply In_nth_error in I as [k I].
      destruct (M k l' I) as [A _]. apply A. rewrite W, Q2 by auto. unfold elt; simpl.
      rewrite P, Q1. destruct (ground (at_ l)); simpl; lia. }
    assert (NV : forall k l', nth_error (lits s) k = Some l' -> positive l' = false -> pure_var l' = false).
    { intros k l' I Q1. destruct (pure_var l') eqn:Q2; auto. exfalso.
      destruct (M k l' I) as [A _]. apply A. rewrite W, Q2 by auto. unfold elt; simpl.
      rewrite P, Q1. destruct (ground (at_ l)); simpl; lia. }
    destruct (ground (at_ l)) eqn:G.
    + left. exists l. split; [auto|]. split; [split; auto|].
      intros k l' N' [Q1 Q2]. destruct (M k l' N') as [A B].
      rewrite W, (NV _ _ N' Q1), Q2 in A, B by auto. unfold elt in A, B; simpl in A, B.
      rewrite P, Q1 in A, B. split; [lia|intros K; specialize (B K); lia].
    + assert (NG : forall k l', nth_error (lits s) k = Some l' -> positive l' = false ->
        ground (at_ l') = false).
      { intros k l' I Q1. destruct (ground (at_ l')) eqn:Q2; auto. exfalso.
        destruct (M k l' I) as [A _]. apply A. rewrite W, (NV _ _ I Q1), Q2 by auto.
        unfold elt; simpl. rewrite P, Q1. lia. }
      right. split.
      * intros l' I [Q1 Q2]. apply In_nth_error in I as [k I]. rewrite (NG k l' I Q1) in Q2. discriminate.
      * exists l. split; [auto|]. split; [auto|].
        intros k l' N' Q1. destruct (M k l' N') as [A B]. unfold neg_lit in Q1.
        rewrite W, (NV _ _ N' Q1), (NG _ _ N' Q1) in A, B by auto. unfold elt in A, B; simpl in A, B.
        rewrite P, Q1 in A, B. split; [lia|intros K; specialize (B K); lia].
Qed.

(** From the measures of the code to those of the description *)
Lemma largest_w : forall p w w' c i, (forall l, w l = w' l) ->
  largest_at p w c i -> largest_at p w' c i.
Proof.
  intros p w w' c i H [l [N [P M]]]. exists l. split; auto. split; auto.
  intros k l' N' P'. rewrite <- !H. auto.
Qed.
Lemma dw_imb : forall l, dw l = imbalance l.
Proof. intros l. unfold dw, imbalance, diff, std. lia. Qed.
Lemma infpos_pos : forall l, infpos l = positions l.
Proof. intros l. unfold infpos, positions. destruct (oriented (at_ l)); lia. Qed.
Lemma l_dw : forall p c i, largest_at p dw c i -> largest_at p imbalance c i.
Proof. intros p c i. apply largest_w, dw_imb. Qed.
Lemma s_infpos : forall p c i, smallest_at p infpos c i -> smallest_at p positions c i.
Proof. intros p c i. apply largest_w. intros l. rewrite infpos_pos. reflexivity. Qed.
Lemma or_none_impl : forall p (A B A' B' : clause -> nat -> Prop),
  (forall c i, A c i -> A' c i) -> (forall c i, B c i -> B' c i) ->
  forall c i, or_none p A B c i -> or_none p A' B' c i.
Proof. intros p A B A' B' HA HB c i [H|[N H]]; [left|right]; auto. Qed.
Lemma selects_impl : forall n (P Q : clause -> nat -> Prop), (forall c i, P c i -> Q c i) ->
  selects n P -> selects n Q.
Proof.
  intros n P Q H [f [S K]]. exists f. split; auto. intros e s R.
  destruct (K e s R) as [s' [i [E [A [B C]]]]]. exists s', i. auto.
Qed.
#[export] Hint Resolve l_dw s_infpos or_none_impl : mono.
