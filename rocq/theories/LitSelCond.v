(** Lemmas about the conditional strategies of literal selection. *)
From Coq Require Import ZArith Lia String List Bool PeanoNat.
From Verif Require Import LitSel LitSelSpec LitSelProofs LitSelGood LitSelBest LitSelRest LitSelCondSpec.
Import ListNotations.
Local Open Scope Z_scope.

(** ** Counting *)

Lemma two_cons : forall p a c, two p (a :: c) <-> two p c \/ (p a /\ some p c).
Proof.
  intros p a c. split.
  - intros [i [j [l [l' [D [E [E' [P P']]]]]]]]. destruct i, j; simpl in *; try congruence.
    + injection E as <-. right. split; auto. exists l'. split; auto. eapply nth_error_In; eauto.
    + injection E' as <-. right. split; auto. exists l. split; auto. eapply nth_error_In; eauto.
    + left. exists i, j, l, l'. repeat split; auto.
  - intros [[i [j [l [l' [D [E [E' [P P']]]]]]]]|[P [l [I Q]]]].
    + exists (S i), (S j), l, l'. repeat split; auto.
    + apply In_nth_error in I as [k K]. exists 0%nat, (S k), a, l. repeat split; auto.
Qed.
Lemma some_cons : forall p a c, some p (a :: c) <-> p a \/ some p c.
Proof.
  intros p a c. split.
  - intros [l [[<-|I] P]]; auto. right; exists l; auto.
  - intros [P|[l [I P]]]; [exists a; simpl; auto|exists l; simpl; auto].
Qed.
Lemma some_nil : forall p, ~ some p []. Proof. intros p [l [[] _]]. Qed.
Lemma two_nil : forall p, ~ two p [].
Proof. intros p [[|i] [j [l [l' [_ [H _]]]]]]; discriminate. Qed.

Lemma count_spec : forall q (p : lit -> Prop) c, (forall l, In l c -> (q l = true <-> p l)) ->
  (1 <= count q c <-> some p c) /\ (2 <= count q c <-> two p c).
Proof.
  intros q p. induction c as [|a c IH]; intros H.
  - unfold count; simpl. pose proof (some_nil p); pose proof (two_nil p).
    split; (split; [lia|contradiction]).
  - rewrite two_cons, some_cons.
    destruct IH as [I1 I2]; [intros l I; apply H; right; auto|].
    assert (Ha := H a (or_introl eq_refl)).
    assert (T : two p c -> some p c).
    { intros [i [_ [l [_ [_ [E [_ [P _]]]]]]]]. exists l. split; auto. eapply nth_error_In; eauto. }
    unfold count in *. simpl. destruct (q a).
    + assert (P : p a) by (apply Ha; auto). simpl length. rewrite Nat2Z.inj_succ.
      split; [split; [auto|lia]|]. rewrite <- I1. split.
      * intros; right; split; auto; lia.
      * intros [K|[_ K]]; [apply I2 in K|]; lia.
    + assert (P : ~ p a) by (intros P; apply Ha in P; discriminate).
      tauto.
Qed.

Lemma count_nonneg : forall q c, 0 <= count q c.
Proof. intros; unfold count; lia. Qed.

Lemma max_spec : forall c, (1 <= max_no c <-> some max_lit c) /\ (2 <= max_no c <-> two max_lit c).
Proof. intros c. apply count_spec. intros l _. reflexivity. Qed.
Lemma max_pos_spec : forall c,
  (1 <= max_pos_no c <-> some pos_max_lit c) /\ (2 <= max_pos_no c <-> two pos_max_lit c).
Proof.
  intros c. apply count_spec. intros l _. rewrite andb_true_iff. unfold pos_max_lit, pos_lit, max_lit, is_max.
  tauto.
Qed.
Lemma horn_spec : forall c, horn c = true <-> is_horn c.
Proof.
  intros c. unfold horn, is_horn. rewrite Z.leb_le.
  assert (K : 2 <= pos_no c <-> two pos_lit c) by (apply count_spec; intros l _; reflexivity).
  rewrite <- K. lia.
Qed.

Lemma b_uniq_max : forall c, (max_no c >? 1) = true <-> two max_lit c.
Proof. intros c. rewrite Z.gtb_lt. destruct (max_spec c) as [_ K]. rewrite <- K. lia. Qed.
Lemma b_pos_max : forall c, (max_pos_no c =? 0) = true <-> ~ some pos_max_lit c.
Proof.
  intros c. rewrite Z.eqb_eq. destruct (max_pos_spec c) as [K _]. rewrite <- K.
  pose proof (count_nonneg (fun l => is_max l && positive l) c). unfold max_pos_no in *. lia.
Qed.
Lemma b_one_pos : forall c, (max_pos_no c =? 1) = true <-> exactly_one pos_max_lit c.
Proof.
  intros c. rewrite Z.eqb_eq. unfold exactly_one. destruct (max_pos_spec c) as [K1 K2].
  rewrite <- K1, <- K2. lia.
Qed.
Lemma b_one_max : forall c, one_max c = true <-> exactly_one max_lit c.
Proof.
  intros c. unfold one_max. rewrite Z.eqb_eq. unfold exactly_one. destruct (max_spec c) as [K1 K2].
  rewrite <- K1, <- K2. lia.
Qed.
Lemma b_one_max_pos : forall c, one_max_pos c = true <-> exactly_one max_lit c /\ exactly_one pos_max_lit c.
Proof.
  intros c. unfold one_max_pos. rewrite andb_true_iff. rewrite b_one_pos.
  change (max_no c =? 1) with (one_max c). rewrite b_one_max. reflexivity.
Qed.

Lemma max_pos_from : forall c found, uniq_max_pos_from found c = true <->
  some neg_max_lit c \/ two max_lit c \/ (found = true /\ some max_lit c).
Proof.
  assert (T : forall c, two max_lit c -> some max_lit c).
  { intros c [i [_ [l [_ [_ [E [_ [P _]]]]]]]]. exists l. split; auto. eapply nth_error_In; eauto. }
  induction c as [|a c IH]; intros found; simpl.
  - pose proof (some_nil neg_max_lit). pose proof (two_nil max_lit). pose proof (some_nil max_lit).
    split; [discriminate|tauto].
  - rewrite two_cons, !some_cons. specialize (T c).
    assert (N : is_max a = true <-> max_lit a) by reflexivity.
    assert (P : negative a = true <-> neg_lit a) by apply h_neg.
    assert (Q : neg_max_lit a <-> neg_lit a /\ max_lit a) by reflexivity.
    assert (R : some neg_max_lit c -> some max_lit c).
    { intros [l [I [_ K]]]. exists l; auto. }
    destruct (is_max a).
    + assert (M : max_lit a) by (apply N; auto). destruct (negative a).
      * assert (neg_lit a) by (apply P; auto). tauto.
      * assert (~ neg_lit a) by (intros X; apply P in X; discriminate). destruct found.
        -- split; [|auto]. intros _. right; right; auto.
        -- rewrite IH. intuition (try discriminate).
    + assert (M : ~ max_lit a) by (intros X; apply N in X; discriminate). rewrite IH.
      destruct found; intuition (try discriminate).
Qed.
Lemma b_uniq_max_pos : forall c, uniq_max_pos_from false c = true <->
  some neg_max_lit c \/ two max_lit c.
Proof. intros c. rewrite max_pos_from. intuition discriminate. Qed.

Lemma ex_spec : forall q (p : lit -> Prop) c, (forall l, q l = true <-> p l) ->
  (existsb q c = true <-> some p c).
Proof.
  intros q p c H. rewrite existsb_exists. split; intros [l [I K]]; exists l; split; auto; apply H; auto.
Qed.
Lemma nex_spec : forall q (p : lit -> Prop) c, (forall l, q l = true <-> p l) ->
  (negb (existsb q c) = true <-> ~ some p c).
Proof.
  intros q p c H. rewrite negb_true_iff, <- (ex_spec q p c H). destruct (existsb q c); intuition congruence.
Qed.
Lemma vh : forall l, var_heavy l = true <-> mostly_vars l.
Proof.
  intros l. unfold var_heavy, mostly_vars. rewrite Z.leb_le. destruct (equ (at_ l)); lia.
Qed.
Lemma b_cond : forall e c, cond e c = true <-> ~ some (fun l => pos_lit l /\ mostly_vars l) c.
Proof. intros e c. apply nex_spec. intros l. rewrite andb_true_iff, vh. reflexivity. Qed.
Lemma b_all_cond : forall e c, all_cond e c = true <-> some (fun l => pos_lit l /\ ~ mostly_vars l) c.
Proof.
  intros e c. apply ex_spec. intros l. rewrite andb_true_iff, negb_true_iff, <- vh.
  unfold pos_lit. destruct (var_heavy l); intuition congruence.
Qed.
Lemma b_deep : forall e c, deep (fun _ => true) e c = true <-> ~ some (fun l => depth (at_ l) <= 2) c.
Proof. intros e c. apply nex_spec. intros l. simpl. apply Z.leb_le. Qed.
Lemma b_deep_p : forall e c, deep positive e c = true <-> ~ some (fun l => pos_lit l /\ depth (at_ l) <= 2) c.
Proof. intros e c. apply nex_spec. intros l. rewrite andb_true_iff, Z.leb_le. reflexivity. Qed.
Lemma b_deep_n : forall e c, deep negative e c = true <-> ~ some (fun l => neg_lit l /\ depth (at_ l) <= 2) c.
Proof. intros e c. apply nex_spec. intros l. rewrite andb_true_iff, Z.leb_le. rewrite (h_neg l). reflexivity. Qed.
Lemma b_pdom : forall c, ready c -> (negb (pdom c) = true <-> ~ dominated c).
Proof.
  intros c R. rewrite negb_true_iff. cut (pdom c = true <-> dominated c).
  { destruct (pdom c); intuition congruence. }
  assert (E : forall p n, In p c -> In n c -> (pred p = pred n <->
    equ (at_ p) = equ (at_ n) /\ (equ (at_ p) = true \/ fcode (at_ p) = fcode (at_ n)))).
  { intros p n Ip In'. apply (measured_in c _ R) in Ip. apply (measured_in c _ R) in In'.
    unfold measured in Ip, In'. cbv zeta in Ip, In'.
    destruct Ip as (_&_&_&_&_&_&_&_&_&Ip&_), In' as (_&_&_&_&_&_&_&_&_&In'&_).
    unfold pred. destruct (equ (at_ p)), (equ (at_ n)); intuition congruence. }
  unfold pdom. rewrite existsb_exists. split.
  - intros [n [In' H]]. apply andb_prop in H as [N H]. apply existsb_exists in H as [p [Ip H]].
    apply andb_prop in H as [H Q]. apply andb_prop in H as [H M]. apply Z.eqb_eq in Q.
    exists p, n. repeat split; auto; try (apply E; auto). apply neg_of; auto.
  - intros [p [n [Ip [In' [[P M] [N Q]]]]]]. exists n. split; auto.
    apply andb_true_iff. split; [apply h_neg; auto|]. apply existsb_exists. exists p. split; auto.
    rewrite P. unfold is_max. rewrite M. simpl. apply Z.eqb_eq, E; auto.
Qed.

(** ** Following another strategy *)

Definition follows (f g : selfun) (P : env -> clause -> Prop) : Prop :=
  forall e s, ready (lits s) ->
    (P e (lits s) -> exists s1 s2, f e s = Some s1 /\ g e s = Some s2 /\ lits s1 = lits s2) /\
    (~ P e (lits s) -> exists s1, f e s = Some s1 /\ none_selected (lits s1)).

(** The mark does not matter. *)
Definition insens (g : selfun) : Prop := forall e s,
  option_map lits (g e (mark s)) = option_map lits (g e s).

Definition says (b : env -> clause -> bool) (P : env -> clause -> Prop) : Prop :=
  forall e c, ready c -> (b e c = true <-> P e c).

Lemma fo_when : forall b g P, says b P -> good true g -> follows (when b g) g P.
Proof.
  intros b g P B G e s R. unfold when. specialize (B e _ R). destruct (G e s R) as [s' [E _]].
  destruct (b e (lits s)); split; intros H.
  - exists s', s'. auto.
  - exfalso; apply H, B; auto.
  - apply B in H; discriminate.
  - eexists; split; [reflexivity|apply R].
Qed.
Lemma fo_when_clear : forall b g P, says b P -> good true g -> follows (when_else_clear b g) g P.
Proof.
  intros b g P B G e s R. unfold when_else_clear. specialize (B e _ R). destruct (G e s R) as [s' [E _]].
  destruct (b e (lits s)); split; intros H.
  - exists s', s'. auto.
  - exfalso; apply H, B; auto.
  - apply B in H; discriminate.
  - eexists; split; [reflexivity|apply none_unselect].
Qed.
Lemma mark_lits : forall g e s s', insens g -> g e s = Some s' ->
  exists s2, g e (mark s) = Some s2 /\ lits s2 = lits s'.
Proof.
  intros g e s s' I E. specialize (I e s). rewrite E in I. simpl in I.
  destruct (g e (mark s)) as [s2|]; simpl in I; [|discriminate]. exists s2. split; congruence.
Qed.
Lemma fo_unless : forall b g P, says b P -> good true g -> insens g -> follows (unless b g) g P.
Proof.
  intros b g P B G I e s R. unfold unless, marking, when. simpl lits. specialize (B e _ R).
  destruct (G e s R) as [s' [E _]]. destruct (mark_lits g e s s' I E) as [s2 [E2 L]].
  destruct (b e (lits s)); split; intros H.
  - unfold unmarking. rewrite E2. exists (unmark s2), s'. auto.
  - exfalso; apply H, B; auto.
  - apply B in H; discriminate.
  - eexists; split; [reflexivity|apply R].
Qed.
Lemma fo_unless_pdom : forall g, good true g -> insens g ->
  follows (unless_pdom g) g (fun _ c => ~ dominated c).
Proof.
  intros g G I e s R. unfold unless_pdom, marking, when. simpl lits. pose proof (b_pdom _ R) as B.
  destruct (G e s R) as [s' [E _]]. destruct (mark_lits g e s s' I E) as [s2 [E2 L]].
  destruct (negb (pdom (lits s))); split; intros H.
  - exists s2, s'. auto.
  - exfalso; apply H, B; auto.
  - apply B in H; discriminate.
  - eexists; split; [reflexivity|apply R].
Qed.
Lemma fo_except : forall p (Q : clause -> Prop) f g, (forall c, p c = true <-> Q c) ->
  (forall e s s', g e s = Some s' -> exists s2, f e s = Some s2 /\ lits s2 = lits s') ->
  good true g -> insens g ->
  follows (except_horn p f) g (fun _ c => ~ (is_horn c /\ Q c)).
Proof.
  intros p Q f g B F G I e s R. unfold except_horn.
  destruct (G e s R) as [s' [E _]]. destruct (mark_lits g e s s' I E) as [s2 [E2 L]].
  pose proof (horn_spec (lits s)) as HS. pose proof (B (lits s)) as BS.
  destruct (F _ _ _ E) as [s3 [E3 L3]]. destruct (F _ _ _ E2) as [s4 [E4 L4]].
  destruct (horn (lits s)); [destruct (p (lits s))|]; split; intros H.
  - exfalso. apply H. split; [apply HS; auto|apply BS; auto].
  - eexists; split; [reflexivity|apply R].
  - exists s4, s'. repeat split; auto. congruence.
  - exfalso. apply H. intros [_ X]. apply BS in X. discriminate.
  - exists s3, s'. auto.
  - exfalso. apply H. intros [X _]. apply HS in X. discriminate.
Qed.
Lemma f_same : forall g : selfun, forall e s s', g e s = Some s' -> exists s2, g e s = Some s2 /\ lits s2 = lits s'.
Proof. intros g e s s' E. exists s'; auto. Qed.
Lemma f_unmark : forall g : selfun, forall e s s', g e s = Some s' ->
  exists s2, unmarking g e s = Some s2 /\ lits s2 = lits s'.
Proof. intros g e s s' E. unfold unmarking. rewrite E. eexists; split; reflexivity. Qed.

Lemma i_pick : forall F, insens (pick F).
Proof. intros F e s. unfold pick. simpl. destruct (F (lits s)); reflexivity. Qed.
Lemma i_pick_if : forall F, insens (pick_if F).
Proof. intros F e s. unfold pick_if. simpl. destruct (F (lits s)); reflexivity. Qed.
Lemma i_ppick : forall F, insens (ppick F).
Proof. intros F e s. unfold ppick. simpl. destruct (F (lits s)); reflexivity. Qed.
Lemma i_pick_or : forall F f, insens f -> insens (pick_or F f).
Proof. intros F f H e s. unfold pick_or. simpl. destruct (F (lits s)); [reflexivity|apply H]. Qed.
Lemma i_marking : forall f, insens (marking f).
Proof. intros f e s. reflexivity. Qed.
Lemma i_uniq : forall pos pd wf, insens (uniq_selection pos true pd wf).
Proof. intros pos pd wf e s. reflexivity. Qed.
#[export] Hint Resolve i_pick i_pick_if i_ppick i_pick_or i_marking i_uniq f_same f_unmark
  b_one_max b_one_max_pos : cnd.
Lemma i_opt : insens optimal. Proof. apply i_pick_or, i_pick_if. Qed.
Lemma i_popt : insens poptimal. Proof. apply i_pick_or, i_ppick. Qed.
Lemma i_cx : insens complex. Proof. apply i_pick_or, i_pick_if. Qed.
Lemma i_pcx : insens pcomplex. Proof. apply i_pick_or, i_ppick. Qed.
#[export] Hint Resolve i_opt i_popt i_cx i_pcx : cnd.

Lemma s_uniq_max : says uniq_max (fun _ c => two max_lit c).
Proof. intros e c R. apply b_uniq_max. Qed.
Lemma s_pos_max : says pos_max (fun _ c => ~ some pos_max_lit c).
Proof. intros e c R. apply b_pos_max. Qed.
Lemma s_uniq_pos_max : says uniq_pos_max (fun _ c => ~ exactly_one pos_max_lit c).
Proof.
  intros e c R. unfold uniq_pos_max. rewrite negb_true_iff. pose proof (b_one_pos c).
  destruct (max_pos_no c =? 1); intuition congruence.
Qed.
Lemma s_uniq_max_pos : says uniq_max_pos (fun _ c => some neg_max_lit c \/ two max_lit c).
Proof. intros e c R. apply b_uniq_max_pos. Qed.
Lemma s_rr : says not_rr_horn (fun e c => ~ (is_horn c /\ rr e = true)).
Proof.
  intros e c R. unfold not_rr_horn. rewrite negb_true_iff. pose proof (horn_spec c).
  destruct (horn c), (rr e); simpl; intuition congruence.
Qed.

Lemma cond_table : Forall (fun x => exists f g, strategy (fst (fst x)) = Some f /\
  strategy (snd (fst x)) = Some g /\ follows f g (snd x)) conditional.
Proof.
  unfold conditional. repeat apply Forall_cons; try apply Forall_nil; cbn [fst snd].
  all: do 2 eexists; (split; [reflexivity|]); (split; [reflexivity|]).
  all: try solve [apply fo_unless; auto using s_uniq_max, s_pos_max, s_uniq_pos_max, s_uniq_max_pos with sel cnd;
                  unfold smallest_or, psmallest_or; auto with cnd].
  all: try solve [apply fo_when_clear; [|auto with sel]; intros e c R;
                  first [apply b_cond|apply b_all_cond|apply b_deep|apply b_deep_p|apply b_deep_n|idtac];
                  destruct (rr e), (srr e), (arr e); simpl; intuition congruence].
  all: try solve [apply fo_when; [apply s_rr|]; unfold complex_ahp, pcomplex_ahp, new_complex_ahp, pnew_complex_ahp;
                  auto with sel].
  all: try solve [apply fo_when; [|auto with sel]; intros e c R; 
                  destruct (rr e), (srr e), (arr e); simpl; intuition congruence].
  all: try solve [apply fo_unless_pdom; unfold ar_np_eqf, ar_nt_eqf, cq; auto with sel cnd].
  all: try solve [apply fo_except; auto with sel cnd;
                  unfold new_complex, pnew_complex, new_complex_ahp, pnew_complex_ahp; auto 8 with sel cnd].
  apply fo_when; [|auto with sel]. intros e c R.
  assert (N : neg_no c <> 0).
  { destruct (neg_in c) as [l [I N]]; [apply R|]. unfold neg_no, count.
    assert (K : In l (filter negative c)) by (apply filter_In; auto).
    destruct (filter negative c); [destruct K|simpl; lia]. }
  apply Z.eqb_neq in N. rewrite N. reflexivity.
Qed.

(** ** The weights of the CQ strategies *)

Lemma cq_best : forall eqw sgn (ef hi : bool),
  (forall x, 0 <= x < 100000 -> if ef then eqw < sgn * x else sgn * x < eqw) ->
  sgn = (if hi then -1 else 1) ->
  forall e s, ready (lits s) -> Forall (fun l => 0 <= arity (at_ l) < 100000) (lits s) ->
  exists i m, cq (cq_weight eqw false sgn none_bad 0) e s = Some (mkst (select_nth i (lits s)) m) /\
    cq_choice ef hi (lits s) i.
Proof.
  intros eqw sgn ef hi B SG e s R AR. rewrite Forall_forall in AR. unfold cq.
  destruct (uniq_result false true no_dist (cq_weight eqw false sgn none_bad 0) e s)
    as [i [l [N [P [M ->]]]]]; [apply R|].
  assert (F : forall n c d x, cq_weight eqw false sgn none_bad 0 n c d x =
    if equ (at_ x) || lvar (at_ x) then mkeval false eqw 0 (dw x)
    else mkeval false (sgn * arity (at_ x)) (alpha (at_ x)) (dw x)) by reflexivity.
  rewrite F. replace (forbidden _) with false by (destruct (equ (at_ l) || lvar (at_ l)); reflexivity).
  exists i, false. split; [reflexivity|]. exists l. split; [exact N|]. split; [exact P|].
  intros k l' N' P'. destruct (M k l' N') as [A A']. rewrite !F in A, A'. unfold elt in A, A'.
  simpl in A, A'. rewrite P, P' in A, A'. unfold cq_le, equational.
  pose proof (B _ (AR l (nth_error_In _ _ N))) as B1.
  pose proof (B _ (AR l' (nth_error_In _ _ N'))) as B2. clear B. subst sgn.
  assert (W : forall x, measured x -> dw x = imbalance x).
  { intros x _. unfold dw, imbalance, diff, std. lia. }
  rewrite <- !W by (eapply measured_in; eauto using nth_error_In). clear W.
  destruct (equ (at_ l) || lvar (at_ l)), (equ (at_ l') || lvar (at_ l')); simpl in *;
    destruct ef, hi; try reflexivity; try lia;
    destruct (Nat.le_gt_cases i k) as [K|K]; try lia; specialize (A' K); lia.
Qed.
