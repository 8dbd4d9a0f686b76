(** Lemmas about literal selection. *)
From Coq Require Import ZArith Lia String List Bool PeanoNat.
From Verif Require Import LitSel LitSelSpec.
Import ListNotations.
Local Open Scope Z_scope.

(** ** Selecting *)

Lemma nth_select_nth : forall c i j,
  nth_error (select_nth i c) j =
  match nth_error c j with
  | Some l => Some (if Nat.eqb i j then set_selected true l else l)
  | None => None
  end.
Proof.
  induction c as [|a c IH]; intros i j; simpl.
  - destruct i, j; reflexivity.
  - destruct i, j; simpl; try reflexivity.
    + destruct (nth_error c j); reflexivity.
    + apply IH.
Qed.

Lemma nth_map : forall (f : lit -> lit) c j,
  nth_error (map f c) j = match nth_error c j with Some l => Some (f l) | None => None end.
Proof. induction c; intros [|j]; simpl; auto. Qed.

Lemma same_refl : forall c, same c c.
Proof. induction c; constructor; auto. Qed.

Lemma same_trans : forall a b c, same a b -> same b c -> same a c.
Proof.
  intros a b c H; revert c; induction H as [|x y a b [E1 [E2 E3]] H IH]; intros c K;
    inversion K as [|x' y' a' b' [F1 [F2 F3]] K']; subst; constructor.
  - repeat split; congruence.
  - apply IH; auto.
Qed.

Lemma same_select_nth : forall c i, same c (select_nth i c).
Proof.
  induction c as [|a c IH]; intros [|i]; simpl; constructor; auto.
  apply same_refl.
  apply IH.
Qed.

Lemma same_map : forall f c,
  (forall l, positive (f l) = positive l /\ into (f l) = into l /\ at_ (f l) = at_ l) ->
  same c (map f c).
Proof. intros f c H; induction c; constructor; auto. Qed.

Lemma same_select_pos : forall c, same c (select_pos c).
Proof. intros c; apply same_map; intros l; destruct (positive l) eqn:E; simpl; rewrite ?E; auto. Qed.

Lemma same_unselect : forall c, same c (unselect c).
Proof. intros c; apply same_map; auto. Qed.

Lemma same_nth : forall c c' i l, same c c' -> nth_error c i = Some l ->
  exists l', nth_error c' i = Some l' /\ positive l' = positive l /\ into l' = into l /\ at_ l' = at_ l.
Proof.
  intros c c' i l H; revert i; induction H as [|x y a b E H IH]; intros [|i] K; simpl in *;
    try discriminate.
  - injection K as <-; eauto.
  - apply IH; auto.
Qed.

Lemma same_nth_inv : forall c c' i l', same c c' -> nth_error c' i = Some l' ->
  exists l, nth_error c i = Some l /\ positive l' = positive l /\ into l' = into l /\ at_ l' = at_ l.
Proof.
  intros c c' i l' H; revert i; induction H as [|x y a b E H IH]; intros [|i] K; simpl in *;
    try discriminate.
  - injection K as <-; eauto.
  - apply IH; auto.
Qed.

Lemma none_unselect : forall c, none_selected (unselect c).
Proof.
  intros c i [l [H K]]. unfold unselect in H. rewrite nth_map in H.
  destruct (nth_error c i); [|discriminate]. injection H as <-. discriminate.
Qed.

Lemma none_flag : forall c l, none_selected c -> In l c -> selected l = false.
Proof.
  intros c l H K. apply In_nth_error in K as [i K].
  destruct (selected l) eqn:E; [|reflexivity].
  exfalso; apply (H i); exists l; auto.
Qed.

Lemma unselect_id : forall c, none_selected c -> unselect c = c.
Proof.
  intros c H. assert (K : forall l, In l c -> selected l = false) by (intros; eapply none_flag; eauto).
  clear H. unfold unselect. induction c as [|a c IH]; simpl; [reflexivity|].
  rewrite IH by (intros; apply K; right; auto).
  f_equal. specialize (K a (or_introl eq_refl)). destruct a; simpl in *; subst; reflexivity.
Qed.

Lemma sel_select_nth : forall c i l, none_selected c -> nth_error c i = Some l ->
  alone (select_nth i c) i.
Proof.
  intros c i l H K j; split.
  - intros [x [E F]]. rewrite nth_select_nth in E.
    destruct (nth_error c j) as [y|] eqn:N; [|discriminate].
    injection E as <-. destruct (Nat.eqb_spec i j) as [->|D]; [reflexivity|].
    exfalso; apply (H j); exists y; auto.
  - intros ->. exists (set_selected true l). rewrite nth_select_nth, K, Nat.eqb_refl. auto.
Qed.

Lemma sel_select_pos : forall c i l, none_selected c -> nth_error c i = Some l ->
  with_positive (select_pos (select_nth i c)) i.
Proof.
  intros c i l H K j; split.
  - intros [x [E F]]. unfold select_pos in E. rewrite nth_map, nth_select_nth in E.
    destruct (nth_error c j) as [y|] eqn:N; [|discriminate].
    destruct (Nat.eqb_spec i j) as [->|D]; [left; reflexivity|].
    injection E as <-. destruct (positive y) eqn:P.
    + right. exists (set_selected true y). unfold select_pos. rewrite nth_map, nth_select_nth, N.
      apply Nat.eqb_neq in D. rewrite D, P. auto.
    + exfalso; apply (H j); exists y; auto.
  - intros [->|[x [E P]]].
    + exists (set_selected true l). unfold select_pos. rewrite nth_map, nth_select_nth, K, Nat.eqb_refl.
      destruct (positive _); auto.
    + exists x; split; auto. unfold select_pos in E. rewrite nth_map, nth_select_nth in E.
      destruct (nth_error c j) as [y|] eqn:N; [|discriminate].
      injection E as <-. destruct (positive (if Nat.eqb i j then set_selected true y else y)) eqn:Q.
      * reflexivity.
      * rewrite Q in P; discriminate.
Qed.

(** ** Searching *)

Definition holds (p : lit -> bool) (l : lit) : Prop := p l = true.

Lemma best_gt : forall p w c i w0 sel r,
  best_from i Z.gtb p w w0 sel c = r ->
  (r = sel /\ forall l, In l c -> p l = true -> w l <= w0) \/
  (exists k l, r = Some (i + k)%nat /\ nth_error c k = Some l /\ p l = true /\ w0 < w l /\
     forall k' l', nth_error c k' = Some l' -> p l' = true ->
       w l' <= w l /\ ((k' < k)%nat -> w l' < w l)).
Proof.
  intros p w. induction c as [|a c IH]; intros i w0 sl r H; simpl in H.
  - left; split; [auto|intros l []].
  - destruct (p a && (w a >? w0)) eqn:E.
    + apply andb_prop in E as [P G]. apply Z.gtb_lt in G.
      apply IH in H as [[-> H]|[k [l [-> [N [Pl [L M]]]]]]].
      * right. exists 0%nat, a. rewrite Nat.add_0_r. repeat split; auto.
        -- destruct k'; simpl in H0; [injection H0 as <-; lia|].
           apply nth_error_In in H0. apply H; auto.
        -- intros; lia.
      * right. exists (S k), l. rewrite Nat.add_succ_r. repeat split; auto; try lia.
        -- destruct k'; simpl in H; [injection H as <-; lia|]. apply (M _ _ H H0).
        -- intros K. destruct k'; simpl in H; [injection H as <-; lia|].
           apply (M _ _ H H0); lia.
    + assert (Q : p a = true -> w a <= w0).
      { intros P. rewrite P in E; simpl in E. rewrite Z.gtb_ltb in E. apply Z.ltb_ge in E; auto. }
      apply IH in H as [[-> H]|[k [l [-> [N [Pl [L M]]]]]]].
      * left; split; auto. intros l [<-|I] P; auto.
      * right. exists (S k), l. rewrite Nat.add_succ_r. repeat split; auto.
        -- destruct k'; simpl in H; [injection H as <-; specialize (Q H0); lia|]. apply (M _ _ H H0).
        -- intros K. destruct k'; simpl in H; [injection H as <-; specialize (Q H0); lia|].
           apply (M _ _ H H0); lia.
Qed.

Lemma best_lt_gt : forall p w c i w0 sel,
  best_from i Z.ltb p w w0 sel c = best_from i Z.gtb p (fun l => - w l) (- w0) sel c.
Proof.
  intros p w. induction c as [|a c IH]; intros; simpl; [reflexivity|].
  replace (- w a >? - w0) with (w a <? w0).
  - destruct (p a && (w a <? w0)); apply IH.
  - rewrite Z.gtb_ltb. destruct (Z.ltb_spec (w a) w0), (Z.ltb_spec (- w0) (- w a)); auto; lia.
Qed.

Lemma largest_some : forall w0 p w c i, largest w0 p w c = Some i ->
  largest_at (holds p) w c i.
Proof.
  intros w0 p w c i H. apply best_gt in H as [[H _]|[k [l [H [N [P [L M]]]]]]]; [discriminate|].
  injection H as ->. exists l. auto.
Qed.

Lemma largest_none : forall w0 p w c, largest w0 p w c = None ->
  (forall l, In l c -> w0 < w l) -> no_such (holds p) c.
Proof.
  intros w0 p w c H K l I P. apply best_gt in H as [[_ H]|[k [l' [H _]]]]; [|discriminate].
  specialize (K l I); specialize (H l I P); lia.
Qed.

Lemma smallest_some : forall p w c i, smallest p w c = Some i ->
  smallest_at (holds p) w c i.
Proof.
  intros p w c i H. unfold smallest in H. rewrite best_lt_gt in H.
  apply (largest_some (- LONG_MAX) p (fun l => - w l)); exact H.
Qed.

Lemma smallest_none : forall p w c, smallest p w c = None ->
  (forall l, In l c -> w l < LONG_MAX) -> no_such (holds p) c.
Proof.
  intros p w c H K. unfold smallest in H. rewrite best_lt_gt in H.
  apply (largest_none (- LONG_MAX) p (fun l => - w l)); [exact H|].
  intros l I; specialize (K l I); lia.
Qed.

Lemma first_from_spec : forall p c i,
  match first_from i p c with
  | Some j => exists k l, j = (i + k)%nat /\ nth_error c k = Some l /\ p l = true /\
       forall k' l', nth_error c k' = Some l' -> p l' = true -> (k <= k')%nat
  | None => no_such (holds p) c
  end.
Proof.
  intros p. induction c as [|a c IH]; intros i; simpl.
  - intros l [].
  - destruct (p a) eqn:P.
    + exists 0%nat, a. rewrite Nat.add_0_r. repeat split; auto. intros; lia.
    + specialize (IH (S i)). destruct (first_from (S i) p c) as [j|].
      * destruct IH as [k [l [-> [N [Q M]]]]]. exists (S k), l. rewrite Nat.add_succ_r.
        repeat split; auto. intros [|k'] l' H K; simpl in H; [injection H as <-; congruence|].
        specialize (M k' l' H K); lia.
      * intros l [<-|I] Q; [unfold holds in Q; congruence|]. apply (IH l I Q).
Qed.

Lemma first_some : forall p c i, first p c = Some i -> first_at (holds p) c i.
Proof.
  intros p c i H. pose proof (first_from_spec p c 0) as S. unfold first in H. rewrite H in S.
  destruct S as [k [l [-> [N [P M]]]]]. exists l. auto.
Qed.

Lemma first_none : forall p c, first p c = None -> no_such (holds p) c.
Proof. intros p c H. pose proof (first_from_spec p c 0) as S. unfold first in H. rewrite H in S. auto. Qed.

(** A search that finds negative literals only *)
Definition finds_neg (F : clause -> option nat) : Prop :=
  forall c i, F c = Some i -> neg_at c i.

Lemma neg_of : forall l, negative l = true -> positive l = false.
Proof. intros l H. unfold negative in H. destruct (positive l); auto; discriminate. Qed.

Definition neg_prop (p : lit -> bool) : Prop := forall l, p l = true -> positive l = false.

Lemma fn_largest : forall w0 p w, neg_prop p -> finds_neg (largest w0 p w).
Proof.
  intros w0 p w H c i K. apply largest_some in K as [l [N [P _]]]. exists l; split; auto.
Qed.
Lemma fn_smallest : forall p w, neg_prop p -> finds_neg (smallest p w).
Proof.
  intros p w H c i K. apply smallest_some in K as [l [N [P _]]]. exists l; split; auto.
Qed.
Lemma fn_first : forall p, neg_prop p -> finds_neg (first p).
Proof.
  intros p H c i K. apply first_some in K as [l [N [P _]]]. exists l; split; auto.
Qed.
Lemma fn_or_else : forall F G, finds_neg F -> finds_neg G -> finds_neg (or_else F G).
Proof.
  intros F G HF HG c i K. unfold or_else in K. destruct (F c) as [j|] eqn:E.
  - injection K as <-. apply HF; auto.
  - apply HG; auto.
Qed.

Lemma np_neg : neg_prop negative. Proof. exact neg_of. Qed.
Lemma np_and : forall p q, neg_prop p -> neg_prop (fun l => p l && q l).
Proof. intros p q H l K. apply andb_prop in K as [K _]. apply H; auto. Qed.
Lemma np_and_r : forall p, neg_prop (fun l => negative l && p l).
Proof. intros p. apply np_and, np_neg. Qed.
Lemma np_ground : neg_prop neg_ground. Proof. apply np_and_r. Qed.
Lemma np_max : neg_prop neg_max. Proof. apply np_and_r. Qed.
Lemma np_nonmax : neg_prop neg_nonmax. Proof. apply np_and_r. Qed.

Lemma orientable_sound : forall better c i o w0 sl j,
  orientable_from i better o w0 sl c = Some j ->
  sl = Some j \/ exists k l, j = (i + k)%nat /\ nth_error c k = Some l /\ positive l = false.
Proof.
  intros better. induction c as [|a c IH]; intros i o w0 sl j H; simpl in H; [auto|].
  destruct (negative a && _) eqn:E.
  - apply andb_prop in E as [E _]. apply IH in H as [H|[k [l [-> [N P]]]]].
    + injection H as <-. right. exists 0%nat, a. rewrite Nat.add_0_r. repeat split; auto.
      apply neg_of; auto.
    + right. exists (S k), l. rewrite Nat.add_succ_r. auto.
  - apply IH in H as [H|[k [l [-> [N P]]]]]; auto.
    right. exists (S k), l. rewrite Nat.add_succ_r. auto.
Qed.

Lemma prefer_sound : forall good c i sg sv sgr sw sl j,
  prefer_from i good sg sv sgr sw sl c = Some j ->
  sl = Some j \/ exists k l, j = (i + k)%nat /\ nth_error c k = Some l /\ positive l = false.
Proof.
  intros good. induction c as [|a c IH]; intros i sg sv sgr sw sl j H; simpl in H; [auto|].
  destruct (negative a) eqn:E.
  - match type of H with (if ?b then _ else _) = _ => destruct b end; [auto|].
    apply IH in H as [H|[k [l [-> [N P]]]]].
    + injection H as <-. right. exists 0%nat, a. rewrite Nat.add_0_r. repeat split; auto.
      apply neg_of; auto.
    + right. exists (S k), l. rewrite Nat.add_succ_r. auto.
  - apply IH in H as [H|[k [l [-> [N P]]]]]; auto.
    right. exists (S k), l. rewrite Nat.add_succ_r. auto.
Qed.

Lemma fn_lor : finds_neg largest_orientable.
Proof.
  intros c i H. apply orientable_sound in H as [H|[k [l [-> [N P]]]]]; [discriminate|].
  exists l; auto.
Qed.
Lemma fn_sor : finds_neg smallest_orientable.
Proof.
  intros c i H. apply orientable_sound in H as [H|[k [l [-> [N P]]]]]; [discriminate|].
  exists l; auto.
Qed.
Lemma fn_prefer : forall good, finds_neg (prefer good).
Proof.
  intros good c i H. apply prefer_sound in H as [H|[k [l [-> [N P]]]]]; [discriminate|].
  exists l; auto.
Qed.

#[export] Hint Resolve fn_largest fn_smallest fn_first fn_or_else np_neg np_and np_and_r
  np_ground np_max np_nonmax fn_lor fn_sor fn_prefer : sel.

Lemma fn_pure_var : finds_neg find_neg_pure_var. Proof. unfold find_neg_pure_var; auto with sel. Qed.
Lemma fn_maxl : finds_neg find_maxlcomplex. Proof. unfold find_maxlcomplex; auto 8 with sel. Qed.
Lemma fn_l : finds_neg find_lcomplex. Proof. unfold find_lcomplex; auto 8 with sel. Qed.
Lemma fn_sng : finds_neg find_smallest_neg_ground.
Proof. unfold find_smallest_neg_ground; auto with sel. Qed.
Lemma fn_smng : finds_neg find_smallest_max_neg_ground.
Proof. unfold find_smallest_max_neg_ground; auto with sel. Qed.
Lemma fn_ng11 : finds_neg find_ng_min11. Proof. unfold find_ng_min11; auto with sel. Qed.
Lemma fn_mx : finds_neg find_max_xtype. Proof. unfold find_max_xtype; auto with sel. Qed.
#[export] Hint Resolve fn_pure_var fn_maxl fn_l fn_sng fn_smng fn_ng11 fn_mx : sel.
Lemma fn_minopt : forall b, finds_neg (find_min_optimal b).
Proof. intros; unfold find_min_optimal; auto with sel. Qed.
Lemma fn_complex : finds_neg find_complex. Proof. unfold find_complex; auto with sel. Qed.
Lemma fn_lcomplex0 : finds_neg find_lcomplex0. Proof. unfold find_lcomplex0; auto with sel. Qed.
Lemma fn_new : finds_neg find_new. Proof. unfold find_new; auto with sel. Qed.
Lemma fn_infpos : finds_neg find_infpos. Proof. unfold find_infpos; auto with sel. Qed.
Lemma fn_infpos2 : finds_neg find_infpos2. Proof. unfold find_infpos2; auto with sel. Qed.
Lemma fn_infpos_no : finds_neg find_infpos_no. Proof. unfold find_infpos_no; auto with sel. Qed.
Lemma fn_no : forall b, finds_neg (find_no b).
Proof.
  intros b c i H. unfold find_no in H.
  assert (K : forall F, finds_neg F -> forall j,
    match F c with Some i => if has b i c then None else Some i | None => None end = Some j ->
    neg_at c j).
  { intros F HF j E. destruct (F c) as [m|] eqn:EF; [|discriminate].
    destruct (has b m c); [discriminate|]. injection E as <-. apply HF; auto. }
  set (A := match find_maxlcomplex c with
         | Some i => if has b i c then None else Some i | None => None end) in H.
  set (B := match find_lcomplex c with
         | Some i => if has b i c then None else Some i | None => None end) in H.
  assert (KA : forall j, A = Some j -> neg_at c j) by (intros; eapply (K find_maxlcomplex); eauto with sel).
  assert (KB : forall j, B = Some j -> neg_at c j) by (intros; eapply (K find_lcomplex); eauto with sel).
  destruct (negb (max_pos_no c =? max_no c)); [|apply KB; auto].
  destruct A as [j|]; [injection H as <-; apply KA; auto|apply KB; auto].
Qed.
#[export] Hint Resolve fn_minopt fn_complex fn_lcomplex0 fn_new fn_infpos fn_infpos2 fn_infpos_no fn_no : sel.
