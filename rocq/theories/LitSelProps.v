(** C64: what the literal selection strategies select. *)
From Coq Require Import ZArith Lia String List Bool PeanoNat.
From Verif Require Import LitSel LitSelSpec LitSelProofs LitSelGood LitSelBest LitSelRest LitSelCondSpec LitSelCond.
Import ListNotations.
Local Open Scope Z_scope.

Fixpoint nodupb (l : list string) : bool :=
  match l with [] => true | x :: r => negb (existsb (String.eqb x) r) && nodupb r end.

Lemma nodupb_ok : forall l, nodupb l = true -> NoDup l.
Proof.
  induction l as [|x r IH]; simpl; intros H; constructor; apply andb_prop in H as [H K].
  - intros I. apply negb_true_iff in H. assert (existsb (String.eqb x) r = true); [|congruence].
    apply existsb_exists. exists x. split; auto. apply String.eqb_refl.
  - auto.
Qed.

(** No name is in the table twice, so that each entry can be reached. *)
Theorem C64_names : NoDup (map fst table) /\
  forall n f, In (n, f) table -> strategy n = Some f.
Proof.
  assert (D : NoDup (map fst table)) by (apply nodupb_ok; vm_compute; reflexivity).
  split; auto. unfold strategy. revert D. generalize table. induction l as [|[m g] l IH]; simpl.
  - intros _ n f [].
  - intros D n f [E|I]; inversion D; subst.
    + injection E as -> ->. rewrite String.eqb_refl. reflexivity.
    + destruct (String.eqb_spec n m) as [->|N]; [|apply IH; auto].
      exfalso. apply H1. apply in_map_iff. exists (m, f); auto.
Qed.

(** Every strategy but three, on every clause with a negative literal: no NULL
    is written through, nothing but the flags changes, and what is selected is
    nothing, exactly one negative literal, or - only if the name does not begin
    with Select - exactly one negative literal and all positive ones. *)
Theorem C64_shape : forall n f e s, strategy n = Some f ->
  ~ In n ["SelectNegativeLiterals"; "PSelectNegativeLiterals"; "PSelectPureVarNegLiterals"]%string ->
  ready (lits s) ->
  exists s', f e s = Some s' /\ same (lits s) (lits s') /\
    (none_selected (lits s') \/
     exists i, neg_at (lits s) i /\
       (alone (lits s') i \/ (plain n = false /\ with_positive (lits s') i))).
Proof.
  intros n f e s S O R. apply lookup_in in S.
  pose proof table_good as T. rewrite Forall_forall in T. specialize (T _ S). simpl in T.
  destruct T as [T|T]; [contradiction|].
  destruct (T e s R) as [s' [E [H|[i [[l [N P]] [H|[B H]]]]]]]; exists s'; split; auto; rewrite H.
  - split; [apply same_refl|left; apply R].
  - split; [apply same_select_nth|]. right. exists i. split; [exists l; auto|].
    left. eapply sel_select_nth; eauto. apply R.
  - split; [eapply same_trans; [apply same_select_nth|apply same_select_pos]|].
    right. exists i. split; [exists l; auto|]. right. split; [apply negb_true_iff; auto|].
    eapply sel_select_pos; eauto. apply R.
Qed.

(** The strategies of the list p_names select all positive literals together
    with the negative one. *)
Theorem C64_with_positive : forall n e s, In n p_names -> ready (lits s) ->
  exists f s', strategy n = Some f /\ f e s = Some s' /\
    (none_selected (lits s') \/ exists i, neg_at (lits s) i /\ with_positive (lits s') i).
Proof.
  intros n e s I R. pose proof p_table as T. rewrite Forall_forall in T.
  destruct (T n I) as [f [S G]]. destruct (G e s R) as [s' [E [H|[i [[l [N P]] H]]]]];
    exists f, s'; repeat split; auto; rewrite H.
  - left; apply R.
  - right. exists i. split; [exists l; auto|]. eapply sel_select_pos; eauto. apply R.
Qed.

(** The two strategies that select all negative literals *)
Theorem C64_all_negative : forall e s, none_selected (lits s) ->
  (exists f s', strategy "SelectNegativeLiterals" = Some f /\ f e s = Some s' /\
     same (lits s) (lits s') /\ forall i, sel (lits s') i <-> neg_at (lits s) i) /\
  (exists f s', strategy "PSelectNegativeLiterals" = Some f /\ f e s = Some s' /\
     same (lits s) (lits s') /\ forall i, sel (lits s') i <-> neg_at (lits s) i \/ pos_at (lits s) i).
Proof.
  intros e s N. split; do 2 eexists; (split; [reflexivity|]); (split; [reflexivity|]); simpl.
  - split; [apply same_map; intros l; destruct (positive l) eqn:E; simpl; rewrite ?E; auto|].
    intros i. unfold sel, neg_at. rewrite nth_map. split.
    + intros [l [H K]]. destruct (nth_error (lits s) i) as [x|] eqn:E; [|discriminate].
      exists x; split; auto. injection H as <-. destruct (positive x) eqn:P; auto.
      exfalso; apply (N i); exists x; auto.
    + intros [l [H K]]. rewrite H. exists (set_selected true l). rewrite K. auto.
  - split; [apply same_map; auto|].
    intros i. unfold sel, neg_at, pos_at. rewrite nth_map. split.
    + intros [l [H K]]. destruct (nth_error (lits s) i) as [x|] eqn:E; [|discriminate].
      destruct (positive x) eqn:P; [right|left]; eauto.
    + intros [[l [H K]]|[l [H K]]]; rewrite H; exists (set_selected true l); auto.
Qed.

(** DoLiteralSelection: with any strategy, bounds and inheritance options it
    ends well and changes the flags only; a clause without negative literals has
    no selected literal afterwards; a clause with a selected literal has a
    selected negative one, and its maximality marks are off, so that they will
    be computed anew for the selected literals. *)
Theorem C64_do_selection : forall n p conj weight e s, strategy n = Some (the_strategy p) ->
  Forall measured (lits s) ->
  exists s', do_selection p conj weight e s = Some s' /\
    same (lits s) (lits s') /\
    (~ has_negative (lits s) -> none_selected (lits s')) /\
    (n <> "PSelectPureVarNegLiterals"%string -> forall i, sel (lits s') i ->
       exists j, sel (lits s') j /\ neg_at (lits s) j) /\
    (n <> "SelectVGNonCR"%string -> forall i, sel (lits s') i -> marked s' = false).
Proof.
  intros n p conj weight e s S M.
  set (c := unselect (lits s)).
  assert (NS : none_selected c) by apply none_unselect.
  assert (SM : same (lits s) c) by apply same_unselect.
  assert (NEG : forall i, neg_at c i <-> neg_at (lits s) i).
  { intros i; split; intros [l [N P]].
    - destruct (same_nth_inv _ _ _ _ SM N) as [x [X [Q _]]]. exists x; split; congruence.
    - destruct (same_nth _ _ _ _ SM N) as [x [X [Q _]]]. exists x; split; congruence. }
  assert (HN : neg_no c <> 0 <-> has_negative (lits s)).
  { unfold neg_no, count. split.
    - intros H. destruct (filter negative c) as [|x r] eqn:E; [simpl in H; lia|].
      assert (I : In x (filter negative c)) by (rewrite E; left; auto).
      apply filter_In in I as [I Q]. apply In_nth_error in I as [k I].
      exists k. apply NEG. exists x. split; auto. apply neg_of; auto.
    - intros [i H]. apply NEG in H as [l [N P]]. apply nth_error_In in N.
      assert (I : In l (filter negative c)).
      { apply filter_In. split; auto. unfold negative; rewrite P; auto. }
      destruct (filter negative c); [destruct I|simpl; lia]. }
  assert (MC : Forall measured c).
  { unfold c, unselect. clear - M. induction M; simpl; constructor; auto. }
  (* nothing selected *)
  assert (NONE : forall s', lits s' = c ->
    same (lits s) (lits s') /\
    (~ has_negative (lits s) -> none_selected (lits s')) /\
    (n <> "PSelectPureVarNegLiterals"%string -> forall i, sel (lits s') i ->
       exists j, sel (lits s') j /\ neg_at (lits s) j) /\
    (n <> "SelectVGNonCR"%string -> forall i, sel (lits s') i -> marked s' = false)).
  { intros s' ->. split; [auto|]. split; [auto|].
    split; intros _ i H; exfalso; apply (NS i H). }
  assert (GEN : exists s', (if negb (neg_no c =? 0)
       && (pos_min p <=? pos_no c) && (pos_no c <=? pos_max_ p)
       && (neg_min p <=? neg_no c) && (neg_no c <=? neg_max_ p)
       && (all_min p <=? Z.of_nat (length c)) && (Z.of_nat (length c) <=? all_max p)
       && ((weight_min p =? 0) || (weight_min p <=? weight))
    then the_strategy p e (mkst c false) else no_literals e (mkst c false)) = Some s' /\
    same (lits s) (lits s') /\
    (~ has_negative (lits s) -> none_selected (lits s')) /\
    (n <> "PSelectPureVarNegLiterals"%string -> forall i, sel (lits s') i ->
       exists j, sel (lits s') j /\ neg_at (lits s) j) /\
    (n <> "SelectVGNonCR"%string -> forall i, sel (lits s') i -> marked s' = false)).
  { destruct (negb (neg_no c =? 0) && _ && _ && _ && _ && _ && _ && _) eqn:B.
    2: { eexists; split; [reflexivity|]. apply NONE; reflexivity. }
    repeat (apply andb_prop in B as [B _]). apply negb_true_iff, Z.eqb_neq in B.
    assert (HNG : has_negative (lits s)) by (apply HN; auto).
    assert (R : ready (lits (mkst c false))).
    { split; [auto|]. split; [|auto]. destruct HNG as [i HNG]. exists i. apply NEG; auto. }
    assert (MK : n <> "SelectVGNonCR"%string -> forall s' i, the_strategy p e (mkst c false) = Some s' ->
      sel (lits s') i -> marked s' = false).
    { intros V s' i E SI. pose proof S as S'. apply lookup_in in S'.
      pose proof table_keep as T. rewrite Forall_forall in T. specialize (T _ S'). simpl in T.
      destruct T as [T|T]; [contradiction|].
      destruct (T e (mkst c false) s' NS eq_refl E) as [H|H]; auto.
      exfalso. rewrite H in SI. apply (NS i SI). }
    destruct (in_dec string_dec n others) as [O|O].
    - destruct (C64_all_negative e (mkst c false) NS) as [[f1 [t1 [F1 [G1 [A1 B1]]]]] [f2 [t2 [F2 [G2 [A2 B2]]]]]].
      destruct O as [<-|[<-|[<-|[]]]].
      + assert (f1 = the_strategy p) by congruence; subst f1. exists t1. split; auto.
        split; [eapply same_trans; eauto|]. split; [intros; contradiction|].
        split; [|intros V i SI; eapply MK; eauto].
        intros _ i SI. exists i. split; auto. apply NEG, B1; auto.
      + assert (f2 = the_strategy p) by congruence; subst f2. exists t2. split; auto.
        split; [eapply same_trans; eauto|]. split; [intros; contradiction|].
        split; [|intros V i SI; eapply MK; eauto].
        intros _ i SI. destruct HNG as [j HNG]. apply NEG in HNG. exists j. split; [apply B2; auto|apply NEG; auto].
      + assert (pfirst_variable = the_strategy p) as PF.
        { assert (strategy "PSelectPureVarNegLiterals" = Some pfirst_variable) by reflexivity. congruence. }
        assert (X : exists s', pfirst_variable e (mkst c false) = Some s' /\ same c (lits s')).
        { unfold pfirst_variable. simpl. destruct (find_neg_pure_var c); eexists; (split; [reflexivity|]).
          - apply same_select_pos.
          - apply same_refl. }
        destruct X as [s' [E X]]. rewrite PF in E. exists s'. split; auto.
        split; [eapply same_trans; eauto|]. split; [intros; contradiction|].
        split; [congruence|]. intros V i SI. eapply MK; eauto.
    - destruct (C64_shape n _ e (mkst c false) S O R) as [s' [E [A [H|[j [NJ H]]]]]]; exists s';
        (split; [auto|]); (split; [eapply same_trans; eauto|]).
      + split; [auto|]. split; intros V i SI; exfalso; apply (H i SI).
      + split; [intros; contradiction|]. split; [|intros V i SI; eapply MK; eauto].
        intros V i SI. exists j. split; [|apply NEG; auto].
        destruct H as [H|[_ H]]; apply H; auto. }
  unfold do_selection. simpl lits. fold c.
  destruct (inherit_all p || _ || _); [|exact GEN].
  destruct (select_inherited c) as [c'|] eqn:I; [|exact GEN].
  exists (mkst c' false). split; [reflexivity|]. simpl.
  unfold select_inherited in I. destruct (neg_no c =? 0) eqn:Z0; [discriminate|].
  apply Z.eqb_neq in Z0.
  destruct (existsb _ c) eqn:X; [|discriminate]. injection I as <-.
  split; [eapply same_trans; [exact SM|]; apply same_map; intros l; destruct (into l) eqn:E; simpl; rewrite ?E; auto|].
  split; [intros H; exfalso; apply H, HN; auto|]. split; [|auto].
  intros _ i _. apply existsb_exists in X as [l [I Q]]. apply andb_prop in Q as [Q1 Q2].
  apply In_nth_error in I as [j I]. exists j. split.
  - exists (set_selected true l). rewrite nth_map, I, Q2. auto.
  - apply NEG. exists l. split; auto. apply neg_of; auto.
Qed.

(** With inheritance, if a negative literal descends from one paramodulated
    into, exactly the literals that do so are selected. *)
Theorem C64_inherited : forall p conj weight e s,
  inherit_all p = true \/ (inherit_goal p = true /\ forall i, ~ pos_at (lits s) i) \/
    (inherit_conj p = true /\ conj = true) ->
  (exists i l, nth_error (lits s) i = Some l /\ positive l = false /\ into l = true) ->
  exists s', do_selection p conj weight e s = Some s' /\
    forall i, sel (lits s') i <-> exists l, nth_error (lits s) i = Some l /\ into l = true.
Proof.
  intros p conj weight e s O [i0 [l0 [N0 [P0 I0]]]]. unfold do_selection. simpl lits.
  set (c := unselect (lits s)).
  assert (C : forall i, nth_error c i = match nth_error (lits s) i with
    | Some l => Some (set_selected false l) | None => None end) by (intros; apply nth_map).
  assert (B : inherit_all p || (inherit_goal p && (pos_no c =? 0)) || (inherit_conj p && conj) = true).
  { destruct O as [->|[[-> H]|[-> ->]]]; simpl.
    - reflexivity.
    - assert (pos_no c = 0) as ->; [|simpl; rewrite orb_true_r; reflexivity].
      unfold pos_no, count. destruct (filter positive c) as [|x r] eqn:E; [reflexivity|exfalso].
      assert (I : In x (filter positive c)) by (rewrite E; left; auto).
      apply filter_In in I as [I Q]. apply In_nth_error in I as [k I]. rewrite C in I.
      destruct (nth_error (lits s) k) as [y|] eqn:Y; [|discriminate]. injection I as <-.
      apply (H k). exists y; auto.
    - apply orb_true_r. }
  rewrite B. unfold select_inherited.
  assert (I1 : In (set_selected false l0) c).
  { apply (nth_error_In c i0). rewrite C, N0. reflexivity. }
  assert (Z0 : (neg_no c =? 0) = false).
  { apply Z.eqb_neq. unfold neg_no, count.
    assert (I : In (set_selected false l0) (filter negative c)).
    { apply filter_In. split; auto. unfold negative; simpl. rewrite P0; auto. }
    destruct (filter negative c); [destruct I|simpl; lia]. }
  rewrite Z0.
  assert (existsb (fun l => negative l && into l) c = true) as ->.
  { apply existsb_exists. exists (set_selected false l0). split; auto. unfold negative; simpl.
    rewrite P0, I0. reflexivity. }
  eexists; split; [reflexivity|]. simpl. intros i. unfold sel. rewrite nth_map, C.
  destruct (nth_error (lits s) i) as [l|]; split.
  - intros [x [X K]]. exists l. split; auto. injection X as <-. simpl in K.
    destruct (into l); auto.
  - intros [x [X K]]. injection X as <-. eexists; split; [reflexivity|]. simpl. rewrite K. reflexivity.
  - intros [x [X K]]. discriminate.
  - intros [x [X K]]. discriminate.
Qed.

(** Without inheritance, a clause whose numbers of literals are outside the
    bounds, or which is too light, gets no selected literal; inside the bounds
    the strategy decides. *)
Theorem C64_bounds : forall p conj weight e s,
  inherit_all p = false -> inherit_goal p = false -> inherit_conj p = false ->
  let c := lits s in
  let inside := (pos_min p <= pos_no c <= pos_max_ p /\ neg_min p <= neg_no c <= neg_max_ p /\
                 all_min p <= Z.of_nat (length c) <= all_max p /\
                 (weight_min p = 0 \/ weight_min p <= weight)) in
  (inside /\ has_negative c ->
     do_selection p conj weight e s = the_strategy p e (mkst (unselect c) false)) /\
  (~ inside -> exists s', do_selection p conj weight e s = Some s' /\ none_selected (lits s')).
Proof.
  intros p conj weight e s I1 I2 I3 c inside. subst inside.
  unfold do_selection. rewrite I1, I2, I3. simpl lits. simpl orb. fold c.
  assert (CN : forall q, (forall l, q (set_selected false l) = q l) -> count q (unselect c) = count q c).
  { intros q H. unfold count, unselect. f_equal. clear - H. induction c as [|a c IH]; simpl; auto.
    rewrite H. destruct (q a); simpl; auto. }
  assert (E1 : neg_no (unselect c) = neg_no c) by (apply CN; reflexivity).
  assert (E2 : pos_no (unselect c) = pos_no c) by (apply CN; reflexivity).
  assert (E3 : length (unselect c) = length c) by apply map_length.
  rewrite E1, E2, E3. split.
  - intros [[[A1 A2] [[B1 B2] [[C1 C2] D]]] HN].
    assert (N0 : neg_no c <> 0).
    { destruct HN as [i [l [N P]]]. apply nth_error_In in N. unfold neg_no, count.
      assert (I : In l (filter negative c)) by (apply filter_In; split; auto; unfold negative; rewrite P; auto).
      destruct (filter negative c); [destruct I|simpl; lia]. }
    apply Z.eqb_neq in N0. rewrite N0.
    apply Z.leb_le in A1, A2, B1, B2, C1, C2. rewrite A1, A2, B1, B2, C1, C2.
    assert ((weight_min p =? 0) || (weight_min p <=? weight) = true) as ->.
    { apply orb_true_iff. rewrite Z.eqb_eq, Z.leb_le. auto. }
    reflexivity.
  - intros H. destruct (negb _ && _ && _ && _ && _ && _ && _ && _) eqn:B.
    + exfalso. apply H. repeat rewrite andb_true_iff in B. rewrite orb_true_iff in B.
      repeat rewrite Z.leb_le in B. rewrite Z.eqb_eq in B. tauto.
    + eexists; split; [reflexivity|]. simpl. apply none_unselect.
Qed.

(** ** Which literal *)

Theorem C64_largest : selects "SelectLargestNegLit" (largest_at neg_lit weight_of).
Proof.
  eapply selects_by; [reflexivity| |eauto with sel]. intros e s R.
  destruct (total_some _ _ t_large R) as [i E]. exists i, (marked s).
  split; [apply pick_some; auto|]. apply largest_some in E. eapply largest_ext; [apply h_neg|exact E].
Qed.
Theorem C64_smallest : selects "SelectSmallestNegLit" (smallest_at neg_lit weight_of).
Proof. eapply selects_by; [reflexivity|apply smallest_neg_best|unfold smallest_at; eauto with sel]. Qed.
Theorem C64_diff : selects "SelectDiffNegLit" (largest_at neg_lit imbalance).
Proof.
  apply (selects_impl _ (largest_at neg_lit dw)).
  { eauto 6 with mono. }
  eapply selects_by; [reflexivity|apply diff_neg_best|eauto with sel]. Qed.
Theorem C64_optimal : selects "SelectOptimalLit"
  (or_none neg_ground_lit (largest_at neg_ground_lit imbalance) (largest_at neg_lit imbalance)).
Proof.
  apply (selects_impl _ (or_none neg_ground_lit (largest_at neg_ground_lit dw) (largest_at neg_lit dw))).
  { eauto 6 with mono. }
 
  eapply selects_by; [reflexivity| |eauto with sel].
  apply pick_or_best; auto using ground_l, ground_l0, diff_neg_best.
Qed.
Theorem C64_min_optimal : selects "SelectMinOptimalLit"
  (or_none neg_ground_lit (smallest_at neg_ground_lit weight_of) (smallest_at neg_lit weight_of)).
Proof.
  eapply selects_by; [reflexivity| |unfold smallest_at; eauto with sel].
  apply pick_or_best; auto using ground_s, ground_s0, smallest_neg_best.
Qed.
Theorem C64_complex : selects "SelectComplex"
  (or_none neg_var_lit (first_at neg_var_lit)
    (or_none neg_ground_lit (smallest_at neg_ground_lit weight_of) (largest_at neg_lit imbalance))).
Proof.
  apply (selects_impl _ (or_none neg_var_lit (first_at neg_var_lit)
    (or_none neg_ground_lit (smallest_at neg_ground_lit weight_of) (largest_at neg_lit dw)))).
  { eauto 6 with mono. }
  eapply selects_by; [reflexivity|apply complex_best|unfold smallest_at; eauto 6 with sel]. Qed.
(** SelectComplexG, written with a weight function, does the same. *)
Theorem C64_complex_g : selects "SelectComplexG"
  (or_none neg_var_lit (first_at neg_var_lit)
    (or_none neg_ground_lit (smallest_at neg_ground_lit weight_of) (largest_at neg_lit imbalance))).
Proof.
  apply (selects_impl _ (or_none neg_var_lit (first_at neg_var_lit)
    (or_none neg_ground_lit (smallest_at neg_ground_lit weight_of) (largest_at neg_lit dw)))).
  { eauto 6 with mono. }
  eapply selects_by; [reflexivity|apply complex_g_best|unfold smallest_at; eauto 6 with sel]. Qed.
Theorem C64_lcomplex : selects "SelectLComplex"
  (or_none neg_var_lit (first_at neg_var_lit)
    (or_none neg_ground_lit (largest_at neg_ground_lit imbalance) (largest_at neg_lit imbalance))).
Proof.
  apply (selects_impl _ (or_none neg_var_lit (first_at neg_var_lit)
    (or_none neg_ground_lit (largest_at neg_ground_lit dw) (largest_at neg_lit dw)))).
  { eauto 6 with mono. }
  eapply selects_by; [reflexivity|apply lcomplex_best|eauto 6 with sel]. Qed.
Theorem C64_min_infpos : selects "SelectMinInfpos" (smallest_at neg_lit positions).
Proof.
  apply (selects_impl _ (smallest_at neg_lit infpos)).
  { eauto 6 with mono. }
 
  eapply selects_by; [reflexivity| |unfold smallest_at; eauto with sel]. intros e s R.
  destruct (total_some _ _ t_infpos R) as [i E]. exists i, false. split.
  - unfold min_infpos, marking, unmarking. rewrite (pick_some _ _ (mark s) i E). reflexivity.
  - apply smallest_some in E. eapply largest_ext; [apply h_neg|exact E].
Qed.
Theorem C64_largest_orientable : selects "SelectLargestOrientable"
  (or_none neg_oriented_lit (largest_at neg_oriented_lit weight_of) (largest_at neg_lit weight_of)).
Proof.
  eapply selects_by; [reflexivity| |eauto with sel]. intros e s R.
  destruct (total_some _ _ t_lor R) as [i E]. exists i, false. split.
  - unfold largest_or, marking, unmarking. rewrite (pick_some _ _ (mark s) i E). reflexivity.
  - apply (orientable_at Z.gtb (fun x => x) 0) in E; [exact E|]. intros a b. apply Z.gtb_lt.
Qed.
Theorem C64_smallest_orientable : selects "SelectSmallestOrientable"
  (or_none neg_oriented_lit (smallest_at neg_oriented_lit weight_of) (smallest_at neg_lit weight_of)).
Proof.
  eapply selects_by; [reflexivity| |unfold smallest_at; eauto with sel]. intros e s R.
  destruct (total_some _ _ t_sor R) as [i E]. exists i, false. split.
  - unfold smallest_or, marking, unmarking. rewrite (pick_some _ _ (mark s) i E). reflexivity.
  - apply (orientable_at Z.ltb Z.opp LONG_MAX) in E; [exact E|]. intros a b. rewrite Z.ltb_lt. lia.
Qed.

(** No type literal is selected by the strategies that promise this. *)
Theorem C64_no_type : forall n, In n no_type_names ->
  exists f, strategy n = Some f /\
  forall e s s' i l, ready (lits s) -> f e s = Some s' -> sel (lits s') i ->
    nth_error (lits s) i = Some l -> positive l = false -> typ (at_ l) = false.
Proof.
  intros n I. pose proof type_table as T. rewrite Forall_forall in T. apply (T n I).
Qed.

(** SelectMaxLComplex selects nothing if there is at most one maximal literal;
    otherwise, if some maximal literal is negative, it selects one of these: an
    inequation of variables, or else the ground one with the largest weight, or
    else the one with the largest weight. *)
Theorem C64_max_lcomplex : exists f, strategy "SelectMaxLComplex" = Some f /\
  forall e s, ready (lits s) ->
    (max_no (lits s) <= 1 -> exists s', f e s = Some s' /\ none_selected (lits s')) /\
    (1 < max_no (lits s) -> (exists l, In l (lits s) /\ neg_max_lit l) ->
     exists s' i, f e s = Some s' /\ alone (lits s') i /\ 
       or_none (fun l => neg_max_lit l /\ neg_var_lit l)
         (first_at (fun l => neg_max_lit l /\ neg_var_lit l))
         (or_none (fun l => neg_max_lit l /\ neg_ground_lit l)
           (largest_at (fun l => neg_max_lit l /\ neg_ground_lit l) imbalance)
           (largest_at neg_max_lit imbalance)) (lits s) i).
Proof.
  exists max_lcomplex. split; [reflexivity|]. intros e s R.
  unfold max_lcomplex, max_lcomplex_with, marking, when, uniq_max. simpl lits. split.
  - intros M. rewrite Z.gtb_ltb. destruct (Z.ltb_spec 1 (max_no (lits s))); [lia|].
    eexists; split; [reflexivity|]. simpl. apply R.
  - intros M [l [I Q]]. rewrite Z.gtb_ltb. destruct (Z.ltb_spec 1 (max_no (lits s))); [|lia].
    assert (D : max_pos_no (lits s) <> max_no (lits s)).
    { unfold max_pos_no, max_no, count. destruct Q as [P Q].
      assert (L : forall c, In l c ->
        (length (filter (fun l => is_max l && positive l) c) < length (filter is_max c))%nat).
      { assert (L0 : forall c, (length (filter (fun l => is_max l && positive l) c) <= length (filter is_max c))%nat).
        { induction c as [|a c IH]; simpl; auto. destruct (is_max a), (positive a); simpl; lia. }
        induction c as [|a c IH]; simpl; intros J; [contradiction|]. specialize (L0 c).
        destruct J as [->|J].
        - assert (Q' : is_max l = true) by exact Q. rewrite Q', P. simpl. lia.
        - specialize (IH J). destruct (is_max a), (positive a); simpl; lia. }
      specialize (L _ I). lia. }
    unfold unmarking. simpl lits. apply Z.eqb_neq in D. rewrite D. simpl negb. cbv iota.
    apply Z.eqb_neq in D. pose proof (max_neg_found _ R D) as F.
    destruct (find_maxlcomplex (lits s)) as [i|] eqn:E; [|congruence].
    rewrite (pick_some _ _ (mark s) i E). simpl. eexists; exists i. split; [reflexivity|]. simpl.
    destruct (fn_maxl _ _ E) as [x [X _]].
    split; [apply (sel_select_nth _ _ x); [apply R|auto]|].
    unfold find_maxlcomplex, or_else in E.
    assert (HV : forall l, holds (fun l => neg_max l && pure_var l) l <-> neg_max_lit l /\ neg_var_lit l).
    { intros y. pose proof (h_max y). pose proof (h_var y). unfold holds in *.
      unfold neg_max in *. destruct (negative y), (is_max y), (pure_var y); simpl in *; tauto. }
    assert (HG : forall l, holds (fun l => neg_max l && ground (at_ l)) l <-> neg_max_lit l /\ neg_ground_lit l).
    { intros y. pose proof (h_max y). pose proof (h_ground y). unfold holds in *.
      unfold neg_max, neg_ground in *. destruct (negative y), (is_max y), (ground (at_ y)); simpl in *; tauto. }
    destruct (first _ (lits s)) as [k|] eqn:E1.
    { injection E as ->. left. apply first_some in E1. eapply first_ext; [apply HV|exact E1]. }
    right. split; [eapply none_ext; [apply HV|apply first_none; exact E1]|].
    destruct (largest (-1) (fun l => neg_max l && ground (at_ l)) dw (lits s)) as [k|] eqn:E2.
    { injection E as ->. left. apply l_dw. apply largest_some in E2. eapply largest_ext; [apply HG|exact E2]. }
    right. split.
    { eapply none_ext; [apply HG|]. eapply largest_none; [exact E2|apply dw_all; auto]. }
    apply l_dw. apply largest_some in E. eapply largest_ext; [apply h_max|exact E].
Qed.

(** The strategies with a weight function (here in general): the literal
    selected is negative and the first whose triple of weights is
    lexicographically least among the negative ones; nothing is selected exactly
    if this literal is forbidden. *)
Theorem C64_generic : forall order pd wf e s, ready (lits s) ->
  let c := lits s in
  let v k l := wf (counter e + Z.of_nat k) c (pd c) l in
  exists s' i l, uniq_selection false order pd wf e s = Some s' /\
    nth_error c i = Some l /\ positive l = false /\
    (forall k l', nth_error c k = Some l' -> positive l' = false ->
       let a := v i l in let b := v k l' in
       w1 a < w1 b \/ w1 a = w1 b /\
         (w2 a < w2 b \/ w2 a = w2 b /\
           (w3 a < w3 b \/ w3 a = w3 b /\ (i <= k)%nat))) /\
    (if forbidden (v i l) then none_selected (lits s') else alone (lits s') i).
Proof.
  intros order pd wf e s R c v.
  destruct (uniq_result false order pd wf e s) as [i [l [N [P [M E]]]]]; [apply R|].
  fold c in N, M, E. fold (v i l) in E.
  destruct (forbidden (v i l)) eqn:F; eexists; exists i, l; (split; [exact E|]);
    (split; [exact N|]); (split; [exact P|]); split.
  1, 3: intros k l' N' P'; cbv zeta; destruct (M k l' N') as [A B]; fold (v k l') in A, B;
    fold (v i l) in A, B; unfold elt in A, B; simpl in A, B; rewrite P, P' in A, B;
    destruct (Nat.le_gt_cases i k); [lia|specialize (B H); lia].
  - rewrite F. destruct order; apply R.
  - rewrite F. simpl. apply (sel_select_nth c i l); [apply R|auto].
Qed.

(** SelectDivLits: if the positive literals come first, each negative literal
    is selected for the right value of the counter; the counter values modulo
    the number of negative literals decide. *)
Theorem C64_diversify : forall e s ps ns k,
  lits s = ps ++ ns -> Forall (fun l => positive l = true) ps ->
  Forall (fun l => positive l = false) ns -> none_selected (lits s) ->
  (k < length ns)%nat ->
  (counter e + Z.of_nat (length ps + k)) mod Z.of_nat (length ns) = 0 ->
  exists f s', strategy "SelectDivLits" = Some f /\ f e s = Some s' /\
    alone (lits s') (length ps + k).
Proof.
  intros e s ps ns k L FP FN NS K Z0.
  assert (NN : neg_no (lits s) = Z.of_nat (length ns)).
  { unfold neg_no, count. f_equal. rewrite L, filter_app, app_length.
    assert (A : filter negative ps = []).
    { clear - FP. induction FP as [|x l P _ IH]; simpl; auto. unfold negative; rewrite P; auto. }
    assert (B : filter negative ns = ns).
    { clear - FN. induction FN as [|x l P _ IH]; simpl; auto. unfold negative at 1; rewrite P; simpl.
      rewrite IH; auto. }
    rewrite A, B. reflexivity. }
  destruct (nth_error ns k) as [lk|] eqn:LK; [|apply nth_error_None in LK; lia].
  assert (LK' : nth_error (lits s) (length ps + k) = Some lk).
  { rewrite L, nth_error_app2 by lia. replace (length ps + k - length ps)%nat with k by lia. auto. }
  assert (PK : positive lk = false).
  { rewrite Forall_forall in FN. apply FN. eapply nth_error_In; eauto. }
  eexists. destruct (uniq_result false false no_dist diversification_weight e s) as [i [l [N [P [M E]]]]].
  { exists (length ps + k)%nat, lk. auto. }
  assert (W : forall n pd x, positive x = false -> diversification_weight n (lits s) pd x
     = mkeval false (n mod Z.of_nat (length ns)) 0 0).
  { intros n pd x Q. unfold diversification_weight, negative. rewrite Q, NN. reflexivity. }
  rewrite W in E by auto. simpl in E. eexists. split; [reflexivity|]. split; [exact E|]. simpl.
  assert (i = length ps + k)%nat as ->.
  2: { eapply sel_select_nth; eauto. }
  destruct (M _ _ LK') as [A _]. rewrite !W in A by auto. unfold elt in A. simpl in A.
  rewrite PK, P, Z0 in A.
  assert (IN : (length ps <= i < length ps + length ns)%nat).
  { assert (i < length (lits s))%nat by (apply nth_error_Some; congruence).
    rewrite L, app_length in H. split; [|lia].
    destruct (Nat.le_gt_cases (length ps) i); auto. exfalso.
    rewrite L, nth_error_app1 in N by auto. apply nth_error_In in N.
    rewrite Forall_forall in FP. rewrite (FP _ N) in P. discriminate. }
  assert (LN : 0 < Z.of_nat (length ns)) by lia.
  pose proof (Z.mod_pos_bound (counter e + Z.of_nat i) _ LN) as B.
  assert (I0 : (counter e + Z.of_nat i) mod Z.of_nat (length ns) = 0) by lia.
  apply Z.mod_divide in Z0; [|lia]. apply Z.mod_divide in I0; [|lia].
  destruct Z0 as [a Z0], I0 as [b I0].
  assert (a = b) by nia. subst b. lia.
Qed.

(** The strategies with a condition: under the condition, which is given in the
    list, they select the same literals as the strategy they are named after;
    otherwise nothing. *)
Theorem C64_conditional : forall n b P, In (n, b, P) conditional ->
  exists f g, strategy n = Some f /\ strategy b = Some g /\
  forall e s, ready (lits s) ->
    (P e (lits s) -> exists s1 s2, f e s = Some s1 /\ g e s = Some s2 /\ lits s1 = lits s2) /\
    (~ P e (lits s) -> exists s1, f e s = Some s1 /\ none_selected (lits s1)).
Proof.
  intros n b P I. pose proof cond_table as T. rewrite Forall_forall in T. apply (T _ I).
Qed.

(** The basic CQ strategies, for symbols with less than 100000 arguments *)
Theorem C64_cq : forall n ef hi,
  In (n, ef, hi) [("SelectCQArEqFirst", true, true); ("SelectCQArEqLast", false, true);
                  ("SelectCQIArEqFirst", true, false); ("SelectCQIArEqLast", false, false)]%string ->
  exists f, strategy n = Some f /\
  forall e s, ready (lits s) -> Forall (fun l => 0 <= arity (at_ l) < 100000) (lits s) ->
    exists s' i, f e s = Some s' /\ alone (lits s') i /\ cq_choice ef hi (lits s) i.
Proof.
  intros n ef hi I.
  assert (X : exists eqw sgn, strategy n = Some (cq (cq_weight eqw false sgn none_bad 0)) /\
    (forall x, 0 <= x < 100000 -> if ef then eqw < sgn * x else sgn * x < eqw) /\
    sgn = (if hi then -1 else 1)).
  { simpl in I. destruct I as [I|[I|[I|[I|[]]]]]; injection I as <- <- <-;
      do 2 eexists; (split; [reflexivity|]); (split; [intros; lia|reflexivity]). }
  destruct X as [eqw [sgn [S [B SG]]]]. eexists; split; [exact S|]. intros e s R A.
  destruct (cq_best eqw sgn ef hi B SG e s R A) as [i [m [E C]]].
  eexists; exists i. split; [exact E|]. split; [|exact C]. simpl.
  destruct C as [l [N _]]. apply (sel_select_nth _ _ l); [apply R|exact N].
Qed.

(** ** Where the code does not do what it says *)

Definition a0 := mkattr false false false false false false false false false false false false
  5 1 5 1 5 1 0 0 1 1 1 1 1.
Definition a_ground := mkattr true false false false false false false false false false false false
  7 1 7 1 7 1 0 0 1 2 1 1 1.
Definition a_eq := mkattr false false false false false true false false false false false false
  3 3 3 3 3 3 0 0 1 3 1 1 1.
Definition a_var := mkattr false false false true true true false false false false false false
  1 1 1 1 1 1 3 3 1 0 0 0 0.
Definition pl (a : attr) := mklit true false false a.
Definition nl (a : attr) := mklit false false false a.
Definition e0 := mkenv true true true 0.

Ltac is_ready :=
  split; [intros [|[|[|[|i]]]] [l [H K]]; simpl in H; try discriminate H; try (injection H as <-; discriminate K);
          destruct i; discriminate H
         |split; [|repeat constructor; simpl; try discriminate]].

(** PSelectPureVarNegLiterals ("select it and all positive literals"): only the
    positive literals are selected. *)
Theorem C64_pure_var_refuted : exists f e s s',
  strategy "PSelectPureVarNegLiterals" = Some f /\ ready (lits s) /\ f e s = Some s' /\
  (exists i, sel (lits s') i) /\ forall i, sel (lits s') i -> ~ neg_at (lits s) i.
Proof.
  exists pfirst_variable, e0, (mkst [pl a0; nl a_var] false). eexists.
  split; [reflexivity|]. split; [is_ready; exists 1%nat, (nl a_var); auto|].
  split; [reflexivity|]. simpl. split.
  - exists 0%nat. eexists; split; reflexivity.
  - intros [|[|i]] [l [H K]] [l' [H' K']]; simpl in *.
    + injection H' as <-; discriminate.
    + injection H as <-; discriminate.
    + destruct i; discriminate.
Qed.

(** SelectVGNonCR selects a ground literal and leaves the mark on. *)
Theorem C64_stale_marks_refuted : exists f e s s' i,
  strategy "SelectVGNonCR" = Some f /\ ready (lits s) /\ marked s = false /\
  f e s = Some s' /\ sel (lits s') i /\ marked s' = true.
Proof.
  exists vg_non_cr, e0, (mkst [pl a0; nl a_ground] false). eexists; exists 1%nat.
  split; [reflexivity|]. split; [is_ready; exists 1%nat, (nl a_ground); auto|].
  split; [reflexivity|]. split; [reflexivity|]. split; [|reflexivity].
  eexists; split; reflexivity.
Qed.

(** SelectComplexPreferNEQ ("as SelectComplex, but prefer non-equational
    literals"): the loop ends at the first literal that is not better, so that a
    non-equational ground literal behind it is passed over for one that is not
    ground. *)
Theorem C64_prefer_refuted : exists f e s s' i j l k,
  strategy "SelectComplexPreferNEQ" = Some f /\ ready (lits s) /\ f e s = Some s' /\
  alone (lits s') i /\
  nth_error (lits s) i = Some l /\ nth_error (lits s) j = Some k /\
  neg_lit l /\ equ (at_ l) = false /\ ground (at_ l) = false /\
  neg_ground_lit k /\ equ (at_ k) = false /\ no_such neg_var_lit (lits s).
Proof.
  exists (pick_if (prefer is_neq)), e0, (mkst [nl a0; nl a_eq; nl a_ground] false).
  eexists; exists 0%nat, 2%nat, (nl a0), (nl a_ground).
  assert (R : ready [nl a0; nl a_eq; nl a_ground]) by (is_ready; exists 1%nat, (nl a_eq); auto).
  split; [reflexivity|]. split; [exact R|]. split; [reflexivity|].
  split; [apply (sel_select_nth [nl a0; nl a_eq; nl a_ground] 0 (nl a0)); [apply R|reflexivity]|].
  repeat split; try reflexivity.
  intros l [<-|[<-|[<-|[]]]] [_ [H _]]; discriminate.
Qed.

(** ** Concrete cases *)

Definition c0 : clause := [pl a0; nl a0; nl a_ground; nl a_eq].
Example c0_ready : ready c0.
Proof. is_ready. exists 1%nat, (nl a0); auto. Qed.

Definition chosen (n : string) (c : clause) : option (list nat) :=
  match strategy n with
  | Some f => match f e0 (mkst c false) with
              | Some s => Some (filter (fun i => match nth_error (lits s) i with
                                                 | Some l => selected l | None => false end)
                                  (seq 0 (length c)))
              | None => None end
  | None => None
  end.
Example c0_cases :
  map (fun n => chosen n c0)
    ["NoSelection"; "SelectLargestNegLit"; "PSelectLargestNegLit"; "SelectSmallestNegLit";
     "SelectComplex"; "SelectComplexG"; "PSelectComplex"; "SelectNewComplexAHP"; "SelectDivLits"]%string
  = [Some []; Some [2]; Some [0; 2]; Some [1]; Some [2]; Some [2]; Some [2]; Some [2]; Some [3]]%nat.
Proof. vm_compute. reflexivity. Qed.

(** A type literal: not selected by SelectCQArNT, selected by SelectCQAr *)
Definition a_typ := mkattr false false false false false false true true true false false false
  3 1 3 1 3 1 0 0 1 4 1 1 1.
Example typ_measured : ready [pl a0; nl a_typ].
Proof. is_ready; try (exists 1%nat, (nl a_typ); auto); auto. Qed.
Example typ_cases : chosen "SelectCQArNT" [pl a0; nl a_typ] = Some [] /\
  chosen "SelectCQAr" [pl a0; nl a_typ] = Some [1%nat].
Proof. split; vm_compute; reflexivity. Qed.

Definition a_max := mkattr false true false false false false false false false false false false
  5 1 5 1 5 1 0 0 1 1 1 1 1.
Example max_case : ready [pl a_max; nl a0; nl a_max] /\ max_no [pl a_max; nl a0; nl a_max] = 2 /\
  chosen "SelectMaxLComplex" [pl a_max; nl a0; nl a_max] = Some [2%nat].
Proof. split; [is_ready; exists 1%nat, (nl a0); auto|split; vm_compute; reflexivity]. Qed.

Example cond_case :
  chosen "SelectUnlessUniqMax" [pl a_max; nl a0] = Some [] /\
  chosen "SelectUnlessUniqMax" [pl a_max; nl a0; nl a_max] = Some [1%nat] /\
  chosen "SelectCQArEqFirst" c0 = Some [3%nat] /\ chosen "SelectCQIArEqLast" c0 = Some [1%nat].
Proof. repeat split; vm_compute; reflexivity. Qed.

Example do_case :
  match do_selection (mkparms false false false 0 10 0 10 0 10 0 complex) false 20 e0 (mkst c0 true) with
  | Some s => map selected (lits s) = [false; false; true; false] /\ marked s = false
  | None => False
  end.
Proof. vm_compute. auto. Qed.

Example inherit_case :
  match do_selection (mkparms true false false 0 10 0 10 0 10 0 complex) false 20 e0
          (mkst [pl a0; mklit false false true a0; nl a_ground] true) with
  | Some s => map selected (lits s) = [false; true; false]
  | None => False
  end.
Proof. vm_compute. auto. Qed.

Example div_case : map (fun k => 
  match strategy "SelectDivLits" with
  | Some f => match f (mkenv true true true k) (mkst c0 false) with
              | Some s => map selected (lits s) | None => [] end
  | None => [] end) [0; 1; 2]
  = [[false; false; false; true]; [false; false; true; false]; [false; true; false; false]].
Proof. vm_compute. reflexivity. Qed.

Print Assumptions C64_names.
Print Assumptions C64_shape.
Print Assumptions C64_with_positive.
Print Assumptions C64_all_negative.
Print Assumptions C64_do_selection.
Print Assumptions C64_inherited.
Print Assumptions C64_bounds.
Print Assumptions C64_largest.
Print Assumptions C64_smallest.
Print Assumptions C64_diff.
Print Assumptions C64_optimal.
Print Assumptions C64_min_optimal.
Print Assumptions C64_complex.
Print Assumptions C64_complex_g.
Print Assumptions C64_lcomplex.
Print Assumptions C64_min_infpos.
Print Assumptions C64_largest_orientable.
Print Assumptions C64_smallest_orientable.
Print Assumptions C64_no_type.
Print Assumptions C64_max_lcomplex.
Print Assumptions C64_generic.
Print Assumptions C64_diversify.
Print Assumptions C64_conditional.
Print Assumptions C64_cq.
Print Assumptions C64_pure_var_refuted.
Print Assumptions C64_stale_marks_refuted.
Print Assumptions C64_prefer_refuted.
