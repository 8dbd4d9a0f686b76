(** More lemmas about the strategies of literal selection. *)
From Coq Require Import ZArith Lia String List Bool PeanoNat.
From Verif Require Import LitSel LitSelSpec LitSelProofs LitSelGood LitSelBest.
Import ListNotations.
Local Open Scope Z_scope.

(** ** All positive literals with the negative one *)

Definition gp (f : selfun) : Prop := forall e s, ready (lits s) ->
  exists s', f e s = Some s' /\
    (lits s' = lits s \/ exists i, neg_at (lits s) i /\ lits s' = select_pos (select_nth i (lits s))).

Lemma gp_ppick : forall F, finds_neg F -> total F -> gp (ppick F).
Proof.
  intros F HF T e s R. unfold ppick. specialize (T _ R). specialize (HF (lits s)).
  destruct (F (lits s)) as [i|]; [|congruence]. eexists; split; [reflexivity|]. right; exists i; auto.
Qed.
Lemma gp_ppick_if : forall F, finds_neg F -> gp (ppick_if F).
Proof.
  intros F HF e s R. unfold ppick_if. specialize (HF (lits s)).
  destruct (F (lits s)) as [i|]; eexists; (split; [reflexivity|]); [right; exists i; auto|left; auto].
Qed.
Lemma gp_when : forall p f, gp f -> gp (when p f).
Proof.
  intros p f H e s R. unfold when. destruct (p e (lits s)); [apply H; auto|].
  eexists; split; [reflexivity|left; reflexivity].
Qed.
Lemma gp_marking : forall f, gp f -> gp (marking f).
Proof. intros f H e s R. apply (H e (mark s)); auto. Qed.
Lemma gp_unmarking : forall f, gp f -> gp (unmarking f).
Proof.
  intros f H e s R. unfold unmarking. destruct (H e s R) as [s' [-> O]].
  eexists; split; [reflexivity|auto].
Qed.
Lemma gp_unmarking_if : forall F f, gp f -> gp (unmarking_if F f).
Proof.
  intros F f H e s R. unfold unmarking_if. destruct (F (lits s)); [apply gp_unmarking; auto|apply H; auto].
Qed.
Lemma gp_except_horn : forall p f, gp f -> gp (except_horn p f).
Proof.
  intros p f H e s R. unfold except_horn. destruct (horn (lits s)); [|apply H; auto].
  destruct (p (lits s)); [eexists; split; [reflexivity|left; reflexivity]|apply (H e (mark s)); auto].
Qed.
Lemma gp_unless : forall p f, gp f -> gp (unless p f).
Proof. intros; apply gp_marking, gp_when, gp_unmarking; auto. Qed.
Lemma gp_no : forall bad, gp (max_lcomplex_no bad ppick_if).
Proof.
  intros bad. apply gp_marking, gp_when, gp_unmarking. intros e s R.
  assert (N : no_null (lits s) = true).
  { unfold no_null. destruct (Z.eqb_spec (max_pos_no (lits s)) (max_no (lits s))) as [E|E]; simpl; auto.
    pose proof (max_neg_found _ R E). destruct (find_maxlcomplex (lits s)); congruence. }
  rewrite N. apply gp_ppick_if; auto with sel.
Qed.
Lemma gp_pground : gp pground_neg.
Proof.
  intros e s R. destruct (good_pground e s R) as [s' [E O]]. exists s'; split; auto.
  unfold pground_neg in E.
  assert (N : finds_neg (largest (-1) neg_ground dw)) by auto with sel. specialize (N (lits s)).
  destruct (largest (-1) neg_ground dw (lits s)) as [i|]; injection E as <-.
  - right; exists i; auto.
  - left. simpl. unfold unselect, select_pos. rewrite map_map.
    transitivity (unselect (lits s)); [|apply unselect_id, R].
    apply map_ext. intros l. destruct (positive l) eqn:E'; auto.
Qed.
Lemma gp_uniq : forall order pd wf, gp (uniq_selection true order pd wf).
Proof.
  intros order pd wf e s R.
  destruct (uniq_result true order pd wf e s) as [i [l [L [P [_ ->]]]]]; [apply R|].
  destruct (forbidden _); eexists; (split; [reflexivity|]).
  - left. destruct order; reflexivity.
  - right. exists i. split; [exists l; auto|reflexivity].
Qed.
#[export] Hint Resolve gp_ppick gp_ppick_if gp_when gp_marking gp_unmarking gp_unmarking_if
  gp_except_horn gp_unless gp_no gp_pground gp_uniq : sel.

Lemma p_table : Forall (fun n => exists f, strategy n = Some f /\ gp f) p_names.
Proof.
  unfold p_names. repeat apply Forall_cons; try apply Forall_nil.
  all: eexists; (split; [reflexivity|]).
  all: try solve [auto 8 with sel].
  all: try solve [match goal with |- gp ?f => unfold f end; auto 10 with sel].
  all: try solve [match goal with |- gp (?f _) => unfold f end; auto 10 with sel].
  all: unfold pnew_complex, pcomplex_ahp, pnew_complex_ahp, psmallest_or; auto 10 with sel.
Qed.

(** ** Literals that are never selected *)

(** What a search finds does not have the property. *)
Definition avoids (bad : attr -> bool) (F : clause -> option nat) : Prop :=
  forall c i l, ready c -> F c = Some i -> nth_error c i = Some l -> bad (at_ l) = false.

Definition never (bad : attr -> bool) (f : selfun) : Prop :=
  forall e s s' i l, ready (lits s) -> f e s = Some s' -> sel (lits s') i ->
    nth_error (lits s) i = Some l -> positive l = false -> bad (at_ l) = false.

Lemma nv_same : forall c i, none_selected c -> ~ sel c i. Proof. auto. Qed.
Lemma nv_sel : forall c i j l, none_selected c -> nth_error c j = Some l ->
  sel (select_nth j c) i -> i = j.
Proof. intros c i j l N E H. apply (sel_select_nth c j l N E) in H; auto. Qed.
Lemma nv_selp : forall c i j l x, none_selected c -> nth_error c j = Some l ->
  sel (select_pos (select_nth j c)) i -> nth_error c i = Some x -> positive x = false -> i = j.
Proof.
  intros c i j l x N E H X P. apply (sel_select_pos c j l N E) in H as [H|[y [H Q]]]; auto.
  exfalso. unfold select_pos in H. rewrite nth_map, nth_select_nth, X in H.
  injection H as <-. destruct (Nat.eqb j i); simpl in *; rewrite ?P in *; simpl in *; congruence.
Qed.

Lemma nv_pick_if : forall bad F, finds_neg F -> avoids bad F -> never bad (pick_if F).
Proof.
  intros bad F HF A e s s' i l R E S N P. unfold pick_if in E.
  destruct (F (lits s)) as [j|] eqn:EF; injection E as <-; [|exfalso; apply (proj1 R i); auto].
  destruct (HF _ _ EF) as [x [X _]]. apply (nv_sel _ _ _ _ (proj1 R) X) in S as ->.
  eapply A; eauto.
Qed.
Lemma nv_ppick_if : forall bad F, finds_neg F -> avoids bad F -> never bad (ppick_if F).
Proof.
  intros bad F HF A e s s' i l R E S N P. unfold ppick_if in E.
  destruct (F (lits s)) as [j|] eqn:EF; injection E as <-; [|exfalso; apply (proj1 R i); auto].
  destruct (HF _ _ EF) as [x [X _]]. assert (i = j) as -> by (eapply nv_selp; [apply R|exact X|exact S|exact N|exact P]).
  eapply A; eauto.
Qed.
Lemma nv_when : forall bad p f, never bad f -> never bad (when p f).
Proof.
  intros bad p f H e s s' i l R E S N P. unfold when in E. destruct (p e (lits s)).
  - eapply H; eauto.
  - injection E as <-. exfalso; apply (proj1 R i); auto.
Qed.
Lemma nv_marking : forall bad f, never bad f -> never bad (marking f).
Proof. intros bad f H e s s' i l R E S N P. apply (H e (mark s) s' i l); auto. Qed.
Lemma nv_unmarking : forall bad f, never bad f -> never bad (unmarking f).
Proof.
  intros bad f H e s s' i l R E S N P. unfold unmarking in E. destruct (f e s) as [s0|] eqn:D; [|discriminate].
  injection E as <-. apply (H e s s0 i l); auto.
Qed.
Lemma nv_unmarking_if : forall bad F f, never bad f -> never bad (unmarking_if F f).
Proof.
  intros bad F f H e s s' i l R E. unfold unmarking_if in E. destruct (F (lits s)).
  - eapply nv_unmarking; eauto.
  - eapply H; eauto.
Qed.
Lemma nv_no : forall bad f, (forall F, finds_neg F -> avoids bad F -> never bad (f F)) ->
  never bad (max_lcomplex_no bad f).
Proof.
  intros bad f H. apply nv_marking, nv_when, nv_unmarking. intros e s s' i l R E.
  destruct (no_null (lits s)); [|discriminate]. eapply (H (find_no bad)); eauto with sel.
  intros c k x _ K N. unfold find_no in K.
  assert (Z : forall o, match o with Some i => if has bad i c then None else Some i | None => None end
    = Some k -> bad (at_ x) = false).
  { intros [m|] Q; [|discriminate]. unfold has in Q. destruct (nth_error c m) as [y|] eqn:Y.
    - destruct (bad (at_ y)) eqn:B; [discriminate|]. injection Q as ->. congruence.
    - injection Q as ->. congruence. }
  destruct (negb (max_pos_no c =? max_no c)); [|apply (Z _ K)].
  destruct (match find_maxlcomplex c with Some i => if has bad i c then None else Some i | None => None end)
    as [m|] eqn:D; [injection K as ->; apply (Z _ D)|apply (Z _ K)].
Qed.
Lemma nv_uniq : forall bad pos order pd wf,
  (forall n c d l, measured l -> positive l = false -> bad (at_ l) = true ->
     forbidden (wf n c d l) = true) ->
  never bad (uniq_selection pos order pd wf).
Proof.
  intros bad pos order pd wf H e s s' i l R E S N P.
  destruct (uniq_result pos order pd wf e s) as [j [x [X [Q [_ K]]]]]; [apply R|].
  rewrite K in E. destruct (forbidden _) eqn:F.
  - injection E as <-. exfalso. apply (proj1 R i). destruct order; auto.
  - injection E as <-. simpl in S.
    assert (i = j) as ->.
    { destruct pos; [eapply nv_selp; eauto; apply R|eapply nv_sel; eauto; apply R]. }
    destruct (bad (at_ l)) eqn:B; auto. assert (x = l) by congruence. subst x.
    assert (M : measured l) by (eapply measured_in; eauto; eapply nth_error_In; eauto).
    rewrite (H _ _ _ l M P B) in F. discriminate.
Qed.
Lemma nv_min_optimal : avoids typ (find_min_optimal typ).
Proof.
  intros c i l R H N. unfold find_min_optimal, or_else in H.
  destruct (find_smallest_neg_ground c) as [j|] eqn:E.
  - injection H as ->. apply smallest_some in E as [x [X [P _]]].
    assert (x = l) by congruence; subst x. apply h_ground in P as [_ P].
    destruct (typ (at_ l)) eqn:T; auto. assert (M : measured l).
    { eapply measured_in; eauto. eapply nth_error_In; eauto. }
    unfold measured in M. cbv zeta in M. destruct M as (_&_&_&_&_&_&_&_&_&_&M).
    destruct (M T). congruence.
  - apply smallest_some in H as [x [X [P _]]]. assert (x = l) by congruence; subst x.
    unfold holds in P. apply andb_prop in P as [_ P]. apply negb_true_iff in P. auto.
Qed.
Lemma nv_infpos_no : avoids typ find_infpos_no.
Proof.
  intros c i l R H N. apply smallest_some in H as [x [X [P _]]]. assert (x = l) by congruence; subst x.
  unfold holds in P. apply andb_prop in P as [_ P]. apply negb_true_iff in P. auto.
Qed.
Lemma nv_cq : forall eqw eqa sgn b w, (forall l, typ (at_ l) = true -> b l = true) ->
  never typ (cq (cq_weight eqw eqa sgn b w)).
Proof.
  intros eqw eqa sgn b w H. apply nv_uniq. intros n c d l M P T. unfold cq_weight.
  unfold measured in M. cbv zeta in M. destruct M as (_&_&_&_&_&_&_&_&_&_&M).
  destruct (M T) as [_ [-> ->]]. simpl. rewrite H; auto.
Qed.
Lemma nv_precw : forall sgn b, (forall l, typ (at_ l) = true -> b l = true) ->
  never typ (cq (precw_weight sgn b)).
Proof.
  intros sgn b H. apply nv_uniq. intros n c d l M P T. unfold precw_weight.
  unfold measured in M. cbv zeta in M. destruct M as (_&_&_&_&_&_&_&_&_&_&M).
  destruct (M T) as [_ [_ ->]]. simpl. rewrite H; auto.
Qed.
Lemma nt_np : forall l, typ (at_ l) = true -> typ_or_prop l = true.
Proof. intros l H. unfold typ_or_prop. rewrite H. reflexivity. Qed.
Lemma nt_t : forall l, typ (at_ l) = true -> is_typ l = true.
Proof. auto. Qed.
Lemma nv_maxuniq : forall bad pd wf,
  (forall n c d l, measured l -> positive l = false -> bad (at_ l) = true ->
     forbidden (wf n c d l) = true) -> never bad (max_uniq pd wf).
Proof. intros. apply nv_when, nv_marking, nv_when, nv_uniq; auto. Qed.
#[export] Hint Resolve nv_pick_if nv_ppick_if nv_when nv_marking nv_unmarking nv_unmarking_if nv_no
  nv_min_optimal nv_infpos_no nv_cq nv_precw nt_np nt_t : sel.

Lemma type_table : Forall (fun n => exists f, strategy n = Some f /\ never typ f) no_type_names.
Proof.
  unfold no_type_names. repeat apply Forall_cons; try apply Forall_nil.
  all: eexists; (split; [reflexivity|]).
  all: try solve [auto 8 with sel].
  all: try solve [match goal with |- never _ ?f => unfold f end; auto 10 with sel].
  all: try solve [match goal with |- never _ (?f _) => unfold f end; auto 10 with sel].
  - apply nv_maxuniq. intros n c d l M P T. unfold maxlcomplexappNTNp_weight, negative.
    rewrite P, T. reflexivity.
  - apply nv_maxuniq. intros n c d l M P T. unfold maxlcomplexavoidprednotype_weight.
    rewrite T. reflexivity.
  - apply nv_marking, nv_when. unfold ar_nt_eqf. auto with sel.
Qed.
