(** * Every single step of the saturation loop keeps: the clause is well formed, uses declared symbols and follows. *)
From Coq Require Import Permutation.
From Verif Require Import Terms Unify UnifyProofs Semantics Clauses ClausesProofs LitOrder MatchProofs Infer InferProofs Subsume SubsumeProofs SubsumeSpec SubsumeClause SubsumeUnits SubsumeCond Taut Rewrite RewriteProofs RewriteHist Split Saturate SaturateSyms SaturateRw.
Local Open Scope nat_scope.

Section Step.
Variables (E : env) (K : conf) (P : policy) (n : nat).
Hypothesis HE : env_ok E.
Notation SS := (srt E).

Section Good.
Variables (G : list clause) (N : sym).
Hypothesis HN : 2 < N.
Hypothesis HMin : strong_inst K = true -> forall x, tgood E N (minterm K (vsort SS x)) /\ tsort SS (minterm K (vsort SS x)) = vsort SS x.
Hypothesis HAlt : forall x, vsort SS (altv K x) = vsort SS x /\ is_fresh (altv K x) = false.

Definition models (M : structure) : Prop := model_ok SS (dist E) M /\ forall c, In c G -> clause_true SS M c.
Definition cgood (c : clause) : Prop := Forall (lgood E N) c /\ follows E G c.

Lemma lgood_split c : Forall (lgood E N) c <-> clause_ok E c /\ Forall (lok N) c.
Proof.
  unfold clause_ok, lgood. rewrite !Forall_forall. split; [intros H; split; intros e He; apply (H e He)|intros [A B] e He; auto].
Qed.
Lemma cgood_true M c : models M -> cgood c -> clause_true SS M c.
Proof. intros [A B] [_ F]. apply F; auto. Qed.
Lemma cgood_intro c : clause_ok E c -> Forall (lok N) c -> (forall M, models M -> clause_true SS M c) -> cgood c.
Proof. intros A B C. split; [apply lgood_split; auto|]. intros M HM HT. apply C. split; auto. Qed.
Lemma cgood_ok c : cgood c -> clause_ok E c. Proof. intros [A _]. apply lgood_split in A. tauto. Qed.
Lemma cgood_lok c : cgood c -> Forall (lok N) c. Proof. intros [A _]. apply lgood_split in A. tauto. Qed.
(** the literals may be exchanged for others with the same value *)
Lemma cgood_same c d : cgood c -> Forall (lgood E N) d -> (forall M v, models M -> respects SS M v -> Exists (holds M v) c -> Exists (holds M v) d) -> cgood d.
Proof. intros [A B] C D. split; auto. intros M HM HT v Hv. apply D; auto; [split; auto|]. apply B; auto. Qed.
Lemma cgood_sub c d : cgood c -> (forall e, In e d -> In e c) -> (forall M v, models M -> respects SS M v -> Exists (holds M v) c -> Exists (holds M v) d) -> cgood d.
Proof. intros A B C. eapply cgood_same; eauto. destruct A as [A _]. rewrite Forall_forall in *. auto. Qed.
Lemma cgood_perm c d : cgood c -> Permutation c d -> cgood d.
Proof.
  intros A B. apply (cgood_sub c); auto.
  - intros e He. eapply Permutation_in; [apply Permutation_sym; exact B|auto].
  - intros M v _ _. rewrite !Exists_exists. intros [e [He Hh]]. exists e. split; auto. eapply Permutation_in; eauto.
Qed.
Lemma cgood_map (f : eqn -> eqn) c : cgood c ->
  (forall e, In e c -> lgood E N e -> lgood E N (f e) /\ forall M v, models M -> respects SS M v -> (holds M v e <-> holds M v (f e))) -> cgood (map f c).
Proof.
  intros A H. apply (cgood_same c); auto.
  - destruct A as [A _]. rewrite Forall_forall in *. intros e He. apply in_map_iff in He. destruct He as [x [<- Hx]]. apply H; auto.
  - intros M v HM Hv. rewrite !Exists_exists. intros [e [He Hh]]. exists (f e). split; [apply in_map; auto|]. destruct A as [A _]. rewrite Forall_forall in A.
    apply (proj2 (H e He (A e He)) M v HM Hv); auto.
Qed.
(** only flags are changed *)
Definition same_lit (e e' : eqn) : Prop := pos e' = pos e /\ ((lt e' = lt e /\ rt e' = rt e) \/ (lt e' = rt e /\ rt e' = lt e)).
Lemma same_lit_good e e' : same_lit e e' -> lgood E N e -> lgood E N e'.
Proof.
  intros [A B] H. apply lgood_sides in H. destruct H as [L [R S1]]. apply lgood_sides. destruct B as [[-> ->]|[-> ->]]; auto.
Qed.
Lemma same_lit_holds e e' M v : same_lit e e' -> (holds M v e <-> holds M v e').
Proof. intros [A B]. unfold holds. rewrite A. destruct B as [[-> ->]|[-> ->]]; [tauto|apply lit_holds_swap]. Qed.
Lemma cgood_flags c c' : cgood c -> Forall2 same_lit c c' -> cgood c'.
Proof.
  intros A H. apply (cgood_same c); auto.
  - destruct A as [A _]. clear - A H. induction H as [|e e' c c' S H IH]; [constructor|]. inversion A; subst. constructor; auto. eapply same_lit_good; eauto.
  - intros M v _ _. clear A. induction H as [|e e' c c' S H IH]; intros X; [inversion X|]. inversion X; subst; [left; apply (same_lit_holds e e' M v S); auto|right; auto].
Qed.
Lemma flags_map (f : eqn -> eqn) c : (forall e, same_lit e (f e)) -> Forall2 same_lit c (map f c).
Proof. intros H. induction c; simpl; constructor; auto. Qed.
Lemma flags_combine (f : nat * eqn -> eqn) : (forall i e, same_lit e (f (i, e))) -> forall c k, Forall2 same_lit c (map f (combine (seq k (length c)) c)).
Proof. intros H. induction c as [|e c IH]; intros k; simpl; constructor; auto. Qed.

Lemma orient_lit e : same_lit e (eqn_orient (ordr K) nob e).
Proof. unfold eqn_orient, same_lit. destruct (uptodate e); auto. cbv zeta. destruct (if term_eqb (lt e) (rt e) then _ else _); cbn; auto. Qed.
Lemma orient_good c : cgood c -> cgood (orient K c).
Proof. intros H. eapply cgood_flags; [exact H|]. apply flags_map, orient_lit. Qed.
Lemma select_good s c : cgood c -> cgood (select_lits P s c).
Proof. intros H. eapply cgood_flags; [exact H|]. apply (flags_combine (fun '(i, e) => _)). intros i e. split; cbn; auto. Qed.
Lemma unselect_good c : cgood c -> cgood (unselect c).
Proof. intros H. eapply cgood_flags; [exact H|]. apply flags_map. intros e. split; cbn; auto. Qed.
Lemma mark_good c d : cgood c -> mark_maximal K c = Some d -> cgood d.
Proof.
  intros H. unfold mark_maximal, maximal_literals. destruct (max_outer _ _ _ _ _) as [[ml sm]|]; [|discriminate]. intros [= <-].
  eapply cgood_flags; [apply orient_good; exact H|]. apply (flags_combine (fun '(i, e) => _)). intros i e. split; cbn; auto.
Qed.
Lemma sort_good c : cgood c -> cgood (sort_lits c).
Proof. intros H. eapply cgood_perm; [exact H|]. apply Permutation_sym, sort_lits_perm. Qed.

Lemma superfluous_good c : cgood (lits c) -> cgood (lits (superfluous E c)).
Proof.
  intros H. unfold superfluous, with_lits. cbv zeta. cbn [lits]. apply (cgood_sub (lits c)); auto.
  - intros e He. apply remove_dups_incl in He. apply filter_In in He. tauto.
  - intros M v [HM _] _ X. apply remove_dups_holds. apply (remove_resolved_holds E M HM). auto.
Qed.

(** *** local rewriting *)
Lemma local_rule_false M v e l r : models M -> respects SS M v -> lgood E N e -> local_rule e = Some (l, r) -> ~ holds M v e ->
  eval M v l = eval M v r.
Proof.
  intros [HM _] Hv Hg H NH. apply lgood_sides in Hg. destruct Hg as [L [R S1]]. unfold local_rule in H. destruct (negb (pos e) && ori e) eqn:Q.
  - injection H as <- <-. apply andb_true_iff in Q. destruct Q as [Q _]. apply negb_true_iff in Q. unfold holds, lit_holds in NH. rewrite Q in NH.
    destruct (mo_dec _ _ _ HM (eval M v (lt e)) (eval M v (rt e))); tauto.
  - destruct (negb (equlit e) && pos e) eqn:Q2; [|discriminate]. injection H as <- <-. apply andb_true_iff in Q2. destruct Q2 as [Q2 Q3].
    unfold holds, lit_holds in NH. rewrite Q3 in NH. unfold equlit in Q2. apply negb_true_iff, negb_false_iff in Q2. apply term_eqb_eq in Q2.
    pose proof (eval_sort _ _ _ _ _ HM Hv (proj1 L)) as D. rewrite S1, Q2 in D. cbn in D. rewrite Q2 in NH.
    destruct (mo_bool _ _ _ HM _ D) as [Z|Z]; [exfalso; apply NH; rewrite Z; reflexivity|rewrite Z; reflexivity].
Qed.
Lemma local_rule_terms e l r : lgood E N e -> local_rule e = Some (l, r) -> tgood E N l /\ tgood E N r /\ tsort SS l = tsort SS r.
Proof.
  intros Hg H. apply lgood_sides in Hg. destruct Hg as [L [R S1]]. unfold local_rule in H. destruct (negb (pos e) && ori e); [injection H as <- <-; auto|].
  destruct (negb (equlit e) && pos e) eqn:Q2; [|discriminate]. injection H as <- <-. apply andb_true_iff in Q2. destruct Q2 as [Q2 Q3].
  unfold equlit in Q2. apply negb_true_iff, negb_false_iff in Q2. apply term_eqb_eq in Q2. split; auto. split.
  - split; [apply (wf_false E HE)|]. split; [intros x []|apply sok_false; auto].
  - rewrite S1, Q2. apply (eo_tf E HE).
Qed.
Lemma local_rules_in c l r : In (l, r) (local_rules c) -> exists e, In e c /\ local_rule e = Some (l, r).
Proof.
  unfold local_rules. assert (X : forall c m, In (l, r) (fold_left (fun m e => match local_rule e with Some r => r :: m | None => m end) c m) -> In (l, r) m \/ exists e, In e c /\ local_rule e = Some (l, r)).
  { clear c. induction c as [|e c IH]; intros m H; cbn [fold_left] in H; auto. destruct (IH _ H) as [Y|[e' [A B]]]; [|right; exists e'; split; [right; auto|auto]].
    destruct (local_rule e) as [r'|] eqn:Q; auto. destruct Y as [->|Y]; auto. right. exists e. split; [left; auto|auto]. }
  intros H. destruct (X _ _ H) as [[]|Y]. auto.
Qed.
Section Repl.
Variable rw : list (term * term).
Hypothesis HR : forall l r, In (l, r) rw -> tgood E N l /\ tgood E N r /\ tsort SS l = tsort SS r.
Lemma replace_good : forall k t u, tgood E N t -> replace_term k rw t = Some u ->
  tgood E N u /\ tsort SS u = tsort SS t /\ forall M v, (forall l r, In (l, r) rw -> eval M v l = eval M v r) -> eval M v u = eval M v t.
Proof.
  induction k as [|k IH]; intros t u T H; [discriminate|]. cbn [replace_term] in H.
  destruct (find _ rw) as [[l r]|] eqn:F.
  - apply List.find_some in F. destruct F as [F1 F2]. cbn [fst snd] in *. apply andb_true_iff in F2. destruct F2 as [F2 _]. apply term_eqb_eq in F2. subst t.
    destruct (HR _ _ F1) as [_ [R S1]]. destruct (IH _ _ R H) as [A [B C]]. split; auto. split; [congruence|]. intros M v X. rewrite (C M v X). symmetry. auto.
  - destruct t as [x|f a]; [injection H as <-; auto|]. destruct (mapo (replace_term k rw) a) as [a'|] eqn:MA; [|discriminate]. injection H as <-.
    pose proof (mapo_spec _ _ _ MA) as F2. pose proof (tgood_fun E N f a T) as GA.
    assert (X : Forall (tgood E N) a' /\ map (tsort SS) a' = map (tsort SS) a /\ forall M v, (forall l r, In (l, r) rw -> eval M v l = eval M v r) -> map (eval M v) a' = map (eval M v) a).
    { clear - IH F2 GA. induction F2 as [|t u a a' H F2 IHa]; [auto|]. inversion GA as [|? ? Gt Ga]; subst. destruct (IH _ _ Gt H) as [A [B C]]. destruct (IHa Ga) as [A' [B' C']].
      split; [constructor; auto|]. simpl. split; [congruence|]. intros M v X. rewrite (C M v X), (C' M v X). auto. }
    destruct X as [X1 [X2 X3]]. destruct T as [W [Pm Sk]]. apply wf_fun in W. apply sok_fun in Sk. split; [|split].
    + split; [|split].
      * apply wf_fun. split; [|rewrite X2; apply W]. eapply Forall_impl; [|exact X1]. intros t Ht; apply Ht.
      * intros x Hx. simpl in Hx. apply in_flat_map in Hx. destruct Hx as [t [Ht Hx]]. rewrite Forall_forall in X1. apply (X1 t Ht); auto.
      * apply sok_fun. split; [apply Sk|]. eapply Forall_impl; [|exact X1]. intros t Ht; apply Ht.
    + reflexivity.
    + intros M v X. simpl. rewrite (X3 M v X). auto.
Qed.
Lemma eqn_map_good e e' : lgood E N e -> eqn_map E (replace_term n rw) e = Some e' ->
  lgood E N e' /\ forall M v, models M -> respects SS M v -> (forall l r, In (l, r) rw -> eval M v l = eval M v r) -> (holds M v e <-> holds M v e').
Proof.
  intros Hg H. apply lgood_sides in Hg. destruct Hg as [L [R S1]]. unfold eqn_map in H. destruct (replace_term n rw (lt e)) as [l|] eqn:Hl; [|discriminate].
  destruct (replace_term n rw (rt e)) as [r|] eqn:Hr; [|discriminate]. cbv zeta in H. injection H as <-.
  destruct (replace_good _ _ _ L Hl) as [L1 [L2 L3]]. destruct (replace_good _ _ _ R Hr) as [R1 [R2 R3]].
  assert (SE : tsort SS l = tsort SS r) by congruence. split.
  - split.
    + assert (X : eqn_ok E (eqn_alloc E l r (pos e))) by (apply eqn_alloc_ok; auto; try apply L1; try apply R1). exact X.
    + assert (X : lok N (eqn_alloc E l r (pos e))) by (apply alloc_lok; auto; try apply L1; apply R1). exact X.
  - intros M v [HM _] Hv X. transitivity (holds M v (eqn_alloc E l r (pos e))); [|reflexivity].
    rewrite (eqn_alloc_holds E M HE HM v l r (pos e)); auto; try apply L1; try apply R1. unfold holds, lit_holds. rewrite (L3 M v X), (R3 M v X). tauto.
Qed.
End Repl.
Lemma local_rw_good c d : cgood (lits c) -> local_rw E K n c = Some d -> cgood (lits d).
Proof.
  intros HC H. unfold local_rw in H. cbv zeta in H. pose proof (orient_good _ HC) as HO. set (l := orient K (lits c)) in *. clearbody l.
  match type of H with match ?g with _ => _ end = _ => destruct g as [l'|] eqn:ML end; [|discriminate].
  assert (X : cgood l').
  { pose proof HO as [HL _]. pose proof (mapo_spec _ _ _ ML) as F2.
    assert (HR : forall a b, In (a, b) (local_rules l) -> tgood E N a /\ tgood E N b /\ tsort SS a = tsort SS b).
    { intros a b I. destruct (local_rules_in _ _ _ I) as [e [I1 I2]]. rewrite Forall_forall in HL. eapply local_rule_terms; eauto. }
    apply (cgood_same l); auto.
    - clear - HL F2 HR HE HN G. set (m := local_rules l) in *. clearbody m. induction F2 as [|e e' l l' A F2 IH]; [constructor|]. inversion HL as [|? ? He Hl]; subst. constructor; auto.
      destruct (local_rule e); [injection A as <-; auto|]. eapply eqn_map_good; eauto.
    - intros M v HM Hv HX.
      (* either a rule literal holds or all are false *)
      assert (D : (exists e r, In e l /\ local_rule e = Some r /\ holds M v e) \/ (forall a b, In (a, b) (local_rules l) -> eval M v a = eval M v b)).
      { assert (D : (exists e r, In e l /\ local_rule e = Some r /\ holds M v e) \/ (forall e r, In e l -> local_rule e = Some r -> ~ holds M v e)).
        { clear - HM HE. induction l as [|e l IH]; [right; intros e r []|]. destruct IH as [[e' [r [A B]]]|Y]; [left; exists e', r; split; [right; auto|auto]|].
          destruct (local_rule e) as [r|] eqn:Q.
          - destruct (lit_holds_dec SS (dist E) M v (pos e) (lt e) (rt e) (proj1 HM)) as [Z|Z]; [left; exists e, r; split; [left; auto|auto]|].
            right. intros e' r' [<-|I] Q'; [exact Z|]. eapply Y; eauto.
          - right. intros e' r' [<-|I] Q'; [congruence|]. eapply Y; eauto. }
        destruct D as [D|D]; [left; auto|]. right. intros a b I. destruct (local_rules_in _ _ _ I) as [e [I1 I2]]. rewrite Forall_forall in HL. eapply local_rule_false; eauto. }
      destruct D as [[e [r [A [B C]]]]|D].
      + clear - F2 A B C. revert F2. generalize (local_rules l) as m. intros m F2. induction F2 as [|e1 e' k k' Q F2 IH]; [destruct A|]. destruct A as [->|A]; [|right; auto]. rewrite B in Q. injection Q as <-. left; auto.
      + clear ML HO. revert HL D HR F2 HX. generalize (local_rules l) as m. intros m HL D HR F2. clear - HE HN HL D HR F2 HM Hv G. induction F2 as [|e1 e' l l' Q F2 IH]; intros HX; [inversion HX|].
        inversion HL as [|? ? He Hl]; subst. inversion HX; subst; [|right; auto]. left. destruct (local_rule e1); [injection Q as <-; auto|].
        destruct (eqn_map_good m HR _ _ He Q) as [_ Z]. apply (Z M v HM Hv D); auto. }
  destruct (forallb _ _); injection H as <-; [exact X|]. apply superfluous_good. exact X.
Qed.

(** *** condensation, simplify-reflect *)
Lemma condense_good c d : cgood c -> condense E n c = Condensed d -> cgood d.
Proof.
  intros HC H. destruct (condense_ok E n HE c d (cgood_ok _ HC) H) as [A [_ B]]. apply cgood_intro; auto; [eapply condense_lok; cycle -1; [exact H|..]; auto using cgood_lok|].
  intros M HM. apply (B M (proj1 HM)). apply cgood_true; auto.
Qed.
Definition ugood (u : upos) : Prop := cgood [ulit u].
Lemma ugood_ok us : Forall ugood us -> units_ok E us.
Proof. intros H. eapply Forall_impl; [|exact H]. intros u Hu. apply cgood_ok in Hu. inversion Hu; auto. Qed.
Lemma ugood_true M us : models M -> Forall ugood us -> all_true E M us.
Proof. intros HM H u Hu. rewrite Forall_forall in H. apply (cgood_true M); auto. apply H; auto. Qed.
Lemma pos_sr_good strong us c d used : cgood c -> Forall ugood us -> pos_simplify_reflect E n strong us c = Some (d, used) -> cgood d.
Proof.
  intros HC HU H. pose proof (pos_sr_ok E n strong us (ugood_ok _ HU) c (cgood_ok _ HC)) as X. rewrite H in X. destruct X as [U1 [OK [_ EQ]]].
  apply (cgood_same c); auto; [apply lgood_split; split; auto; eapply pos_sr_lok; cycle -1; [exact H|..]; auto using cgood_lok|].
  intros M v HM Hv. apply (EQ M (proj1 HM)); auto. pose proof (ugood_true M us HM HU) as T. destruct strong; auto. intros u Hu. apply T. auto.
Qed.
Lemma neg_sr_good us c d used : cgood c -> Forall ugood us -> neg_simplify_reflect E n us c = Some (d, used) -> cgood d.
Proof.
  intros HC HU H. pose proof (neg_sr_ok E n us (ugood_ok _ HU) c (cgood_ok _ HC)) as X. rewrite H in X. destruct X as [U1 [OK [_ EQ]]].
  apply (cgood_same c); auto; [apply lgood_split; split; auto; eapply neg_sr_lok; cycle -1; [exact H|..]; auto using cgood_lok|].
  intros M v HM Hv. apply (EQ M (proj1 HM)); auto. pose proof (ugood_true M us HM HU) as T. intros u Hu. apply T. auto.
Qed.
Lemma context_good set c d used : cgood c -> Forall cgood set -> contextual_sr E n set c = Some (d, used) -> cgood d.
Proof.
  intros HC HU H. assert (OKs : Forall (clause_ok E) set) by (eapply Forall_impl; [|exact HU]; apply cgood_ok).
  pose proof (contextual_sr_ok E n set c OKs (cgood_ok _ HC)) as X. rewrite H in X. destruct X as [U1 [OK EQ]].
  apply (cgood_same c); auto; [apply lgood_split; split; auto; eapply contextual_sr_lok; cycle -1; [exact H|..]; auto using cgood_lok|].
  intros M v HM Hv. apply (EQ M (proj1 HM)); auto. intros s Hs. rewrite Forall_forall in HU. apply cgood_true; auto.
Qed.

(** *** generating inferences *)
Lemma eq_res_good c i e d : cgood c -> nth_error c i = Some e -> pos e = false -> eq_res E n c i = Derived d -> cgood d.
Proof.
  intros HC NE Hp H. destruct (eq_res_sound E n c i e HE (cgood_ok _ HC) NE d Hp H) as [A B].
  apply cgood_intro; auto; [eapply eq_res_lok; cycle -1; [exact H|..]; auto using cgood_lok|]. intros M HM. apply (B M (proj1 HM)). apply cgood_true; auto.
Qed.
Lemma var_lit_neg e : var_lit K e = true -> pos e = false.
Proof. unfold var_lit. intros H. apply andb_true_iff in H. destruct H as [H _]. apply negb_true_iff in H. auto. Qed.
Lemma er_first_good c ix d : cgood c -> er_first E K n c ix = Some (Some d) -> cgood d.
Proof.
  intros HC. induction ix as [|i ix IH]; cbn [er_first]; [discriminate|]. destruct (nth_error c i) as [e|] eqn:NE; [|discriminate]. destruct (var_lit K e) eqn:V; auto.
  destruct (eq_res E n c i) as [d'| | |] eqn:R; auto; try discriminate. intros [= <-]. eapply eq_res_good; eauto. apply var_lit_neg; auto.
Qed.
Lemma er_normalize_good : forall k c b d b', cgood c -> er_normalize E K n k c b = Some (d, b') -> cgood d.
Proof.
  induction k as [|k IH]; intros c b d b' HC H; [discriminate|]. cbn [er_normalize] in H. destruct (er_first E K n c _) as [[c1|]|] eqn:F; [| |discriminate].
  - eapply IH; [|exact H]. eapply er_first_good; eauto.
  - injection H as <- <-. auto.
Qed.
Lemma factor_good o cnt c i l1 j l2 e1 e2 d : cgood c -> nth_error c i = Some e1 -> nth_error c j = Some e2 -> i <> j -> pos e1 = true -> pos e2 = true ->
  equality_factor E o n cnt c i l1 j l2 = Derived d -> cgood d.
Proof.
  intros HC N1 N2 NE P1 P2 H. destruct (equality_factor_sound E o n c i j e1 e2 HE (cgood_ok _ HC) N1 N2 cnt l1 l2 d NE P1 P2 H) as [A B].
  apply cgood_intro; auto; [eapply equality_factor_lok; cycle -1; [exact H|..]; auto using cgood_lok|]. intros M HM. apply (B M (proj1 HM)). apply cgood_true; auto.
Qed.
Lemma paramod_good o ty cf fi fs ci ii is p fl d : cgood cf -> cgood ci -> nth_error cf fi = Some fl -> pos fl = true ->
  paramod E o n ty cf fi fs ci ii is p = Derived d -> cgood d.
Proof.
  intros HF HI NE Hp H. destruct (paramod_sound E o n ty cf fi fs ci ii is p fl d HE (cgood_ok _ HF) (cgood_ok _ HI) NE Hp H) as [A B].
  apply cgood_intro; auto; [eapply paramod_lok; cycle -1; [exact H|..]; auto using cgood_lok|]. intros M HM. apply (B M (proj1 HM)); apply cgood_true; auto.
Qed.
Lemma ordered_paramod_good o cf fi fs ci ii is p fl d : cgood cf -> cgood ci -> nth_error cf fi = Some fl -> pos fl = true ->
  ordered_paramod E o n cf fi fs ci ii is p = Derived d -> cgood d.
Proof.
  intros HF HI NE Hp H. destruct (ordered_paramod_sound E o n cf fi fs ci ii is p fl d HE (cgood_ok _ HF) (cgood_ok _ HI) NE Hp H) as [A B].
  apply cgood_intro; auto; [eapply ordered_paramod_lok; cycle -1; [exact H|..]; auto using cgood_lok|]. intros M HM. apply (B M (proj1 HM)); apply cgood_true; auto.
Qed.
Lemma results_good l ds : results l = Some ds -> (forall r d, In r l -> r = Derived d -> cgood d) -> Forall cgood ds.
Proof.
  revert ds. induction l as [|r l IH]; intros ds H HL; cbn [results] in H; [injection H as <-; constructor|].
  destruct r as [d| | |]; destruct (results l) as [ds'|]; try discriminate; injection H as <-.
  - constructor; [apply (HL (Derived d) d); [left; auto|auto]|]. apply IH; auto. intros r d' I. apply HL. right; auto.
  - apply IH; auto. intros r d' I. apply HL. right; auto.
Qed.
Lemma all_factors_good s c ds : cgood c -> all_factors E K P n s c = Some ds -> Forall cgood ds.
Proof.
  intros HC H. unfold all_factors in H. destruct (Nat.leb _ _); [injection H as <-; constructor|]. eapply results_good; [exact H|].
  intros r d I Q. apply in_flat_map in I. destruct I as [[[[i l1] j] l2] [_ I]]. destruct (nth_error c i) as [e1|] eqn:N1; [|destruct I]. destruct (nth_error c j) as [e2|] eqn:N2; [|destruct I].
  destruct (pos e1 && pos e2 && negb (Nat.eqb i j)) eqn:C; [|destruct I]. destruct I as [I|[]]. rewrite <- I in Q. apply andb_true_iff in C. destruct C as [C C3]. apply andb_true_iff in C. destruct C as [C1 C2].
  apply negb_true_iff, Nat.eqb_neq in C3. eapply factor_good; [exact HC|exact N1|exact N2|auto|auto|auto|exact Q].
Qed.
Lemma all_eq_res_good c ds : cgood c -> all_eq_res E K n c = Some ds -> Forall cgood ds.
Proof.
  intros HC H. unfold all_eq_res in H. eapply results_good; [exact H|]. intros r d I Q. apply in_flat_map in I. destruct I as [i [_ I]]. destruct (nth_error c i) as [e|] eqn:NE; [|destruct I].
  destruct (negb (pos e) && _) eqn:C; [|destruct I]. destruct I as [I|[]]. rewrite <- I in Q. apply andb_true_iff in C. destruct C as [C _]. apply negb_true_iff in C. eapply eq_res_good; eauto.
Qed.
Lemma pick_in {A} ix (l : list A) a : In a (pick ix l) -> In a l.
Proof.
  unfold pick. intros H. apply in_flat_map in H. destruct H as [i [_ H]]. destruct (nth_error l i) as [b|] eqn:Q; [|destruct H]. destruct H as [->|[]]. eapply nth_error_In; eauto.
Qed.
Lemma all_paramods_good s c ds : cgood c -> (forall k d, In d (proc_set s k) -> cgood (lits d)) -> all_paramods E K P n s c = Some ds -> Forall cgood ds.
Proof.
  intros HC HS H. unfold all_paramods in H. eapply results_good; [exact H|]. intros r d I Q. apply in_flat_map in I. destruct I as [o [_ I]].
  destruct (nth_error (proc_set s (pset_no o)) (pcl o)) as [d0|] eqn:ND; [|destruct I]. apply nth_error_In in ND. apply HS in ND. cbv zeta in I.
  set (cf := if from_new o then c else lits d0) in *. set (ci := if from_new o then lits d0 else c) in *.
  assert (GF : cgood cf) by (unfold cf; destruct (from_new o); auto). assert (GI : cgood ci) by (unfold ci; destruct (from_new o); auto).
  destruct (nth_error cf (ofi o)) as [fl|] eqn:NF; [|destruct I]. destruct (pos fl) eqn:Hp; [|destruct I]. destruct I as [I|[]]. rewrite <- I in Q. destruct (indexed o).
  - eapply paramod_good; [exact GF|exact GI|exact NF|exact Hp|exact Q].
  - eapply ordered_paramod_good; [exact GF|exact GI|exact NF|exact Hp|exact Q].
Qed.

Lemma denotes_nob : denotes nob Var. Proof. intros x. reflexivity. Qed.
Lemma wfsubst_var : wfsubst SS Var. Proof. intros x. split; reflexivity. Qed.
Lemma ren_id t : primary t -> Terms.app (sg Var) t = t.
Proof.
  intros H. induction t as [x|f a IH] using term_ind'.
  - cbn. unfold ren. f_equal. apply prim_id. apply H. left; auto.
  - simpl. f_equal. rewrite <- (map_id a) at 2. apply map_ext_in. rewrite Forall_forall in IH. intros t Ht. apply IH; auto. intros x Hx. apply H. simpl. apply in_flat_map. eauto.
Qed.
Lemma diseq_good c i e f a b d : cgood c -> nth_error c i = Some e -> pos e = false -> lt e = Fun f a -> rt e = Fun f b -> diseq_decomp E n c i a b = Some d -> cgood d.
Proof.
  intros HC NE Hp HL HR H. pose proof (proj1 HC) as HG. rewrite Forall_forall in HG. pose proof (HG e (nth_error_In _ _ NE)) as Ge. apply lgood_sides in Ge. rewrite HL, HR in Ge. destruct Ge as [L [R _]].
  pose proof (tgood_fun E N f a L) as Ga. pose proof (tgood_fun E N f b R) as Gb. destruct L as [Wa _]. destruct R as [Wb _]. apply wf_fun in Wa. apply wf_fun in Wb.
  assert (SE : map (tsort SS) a = map (tsort SS) b) by (rewrite (proj2 Wa), (proj2 Wb); auto).
  unfold diseq_decomp in H. destruct (mapo (copy_opt n E nob) (except i c)) as [l|] eqn:ML; [|discriminate]. injection H as <-.
  assert (LL : l = map (inst_lit E (sg Var)) (except i c)) by (apply (copies_inst E nob Var n); auto using denotes_nob).
  set (new := map (fun '(s, t) => eqn_alloc E s t false) (combine a b)).
  assert (NG : Forall (lgood E N) new).
  { unfold new. clear - Ga Gb SE HE HN. revert b Gb SE. induction a as [|s a IH]; intros [|t b] Gb SE; simpl; try constructor; inversion Ga; inversion Gb; subst; simpl in SE; injection SE as S1 S2.
    - split; [apply eqn_alloc_ok|apply alloc_lok]; auto; try (match goal with H : tgood E N _ |- _ => apply H end).
    - apply IH; auto. }
  assert (OKx : clause_ok E (except i c)) by (apply clause_ok_except, cgood_ok; auto).
  assert (LG : Forall (lgood E N) l).
  { apply lgood_split. split; [rewrite LL; apply insts_ok; auto using wfsubst_var|]. eapply (copies_lok N HN E n nob); [apply bok_none|exact ML|]. apply except_lok, cgood_lok; auto. }
  assert (ALL : Forall (lgood E N) (l ++ rev new)) by (apply Forall_app; split; auto; apply Forall_rev; auto).
  apply (cgood_same c); auto.
  - apply lgood_split in ALL. apply lgood_split. split; [apply ClausesProofs.finish_ok; tauto|apply finish_lok; tauto].
  - intros M v HM Hv HX. apply (finish_holds E M v _ (proj1 HM)). assert (OC : Exists (holds M v) (except i c) \/ holds M v e) by (destruct (exists_except _ _ _ _ NE HX); auto). destruct OC as [Y|Y].
    + apply Exists_app. left. rewrite LL. apply Exists_exists in Y. destruct Y as [e' [I Hh]]. apply Exists_exists. exists (inst_lit E (sg Var) e'). split; [apply in_map; auto|].
      unfold clause_ok in OKx. rewrite Forall_forall in OKx. pose proof (OKx e' I) as OKe. pose proof OKe as [W1 [W2 [SQ [P1 P2]]]].
      unfold inst_lit. apply copy_props_holds. rewrite !ren_id by auto. apply (eqn_alloc_holds E M HE (proj1 HM)); auto.
    + apply Exists_app. right. apply Exists_exists. unfold holds, lit_holds in Y. rewrite Hp, HL, HR in Y. simpl in Y.
      assert (Z : exists x, In x new /\ holds M v x).
      { unfold new. clear - Y Ga Gb SE HE HM Hv. assert (Z : map (eval M v) a <> map (eval M v) b) by congruence. clear Y. revert b Gb SE Z.
        induction a as [|s a IH]; intros [|t b] Gb SE Z; simpl in *; try discriminate; [congruence|]. injection SE as S1 S2. inversion Ga as [|? ? Gs Ga']; inversion Gb as [|? ? Gt Gb']; subst.
        destruct (mo_dec _ _ _ (proj1 HM) (eval M v s) (eval M v t)) as [D|D].
        - destruct (IH Ga' b Gb' S2) as [x [I Hh]]; [congruence|]. exists x. split; auto.
        - exists (eqn_alloc E s t false). split; auto. apply (eqn_alloc_holds E M HE (proj1 HM)); auto; try apply Gs; apply Gt. }
      destruct Z as [x [I Hh]]. exists x. split; auto. apply -> in_rev. auto.
Qed.
Lemma all_diseqs_good c ds : cgood c -> all_diseqs E K n c = Some ds -> Forall cgood ds.
Proof.
  intros HC H. unfold all_diseqs in H. destruct (Nat.leb _ _); [|injection H as <-; constructor]. pose proof (mapo_spec _ _ _ H) as F2.
  match type of F2 with Forall2 _ ?l _ => assert (X : forall x d, In x l -> x = Some d -> cgood d) end.
  { intros x d I Q. apply in_flat_map in I. destruct I as [i [_ I]]. destruct (nth_error c i) as [e|] eqn:NE; [|destruct I]. destruct (lt e) as [|f a] eqn:HL; [destruct I|]. destruct (rt e) as [|g b] eqn:HR; [destruct I|].
    destruct (_ && _ && _ && _ && _) eqn:C in I; [|destruct I]. destruct I as [I|[]]. rewrite <- I in Q. repeat (apply andb_true_iff in C; destruct C as [C ?]).
    match goal with H : Nat.eqb f g = true |- _ => apply Nat.eqb_eq in H; subst g end. match goal with H : negb (pos e) = true |- _ => apply negb_true_iff in H end.
    eapply diseq_good; [exact HC|exact NE|auto|exact HL|exact HR|exact Q]. }
  clear H HC. induction F2 as [|x d l ds A F2 IH]; constructor; [eapply X; [left; reflexivity|exact A]|]. apply IH. intros y d' I. apply X. right; auto.
Qed.
Lemma normalize_good c d : cgood c -> normalize_vars E n c = Some d -> cgood d.
Proof.
  intros HC H. unfold normalize_vars in H. destruct (norm_eqns n E (start, reset) c) as [[st c1]|] eqn:NO; [|discriminate].
  assert (X : forall d, mapo (copy_eqn E n (bnd st)) c = Some d -> cgood d).
  { clear d H. intros d H. destruct (norm_state E n start reset _ st c1 HE (good_start E) NO) as [s0 [s1 [D0 [D1 [Ws1 [Ws0 [Es [So R]]]]]]]].
    assert (F2 : Forall2 (fun e e' => same3 e' (inst_lit E (sg s1) e)) c d).
    { pose proof (mapo_spec _ _ _ H) as F. clear - F D1. induction F as [|e e' c d A F IH]; constructor; auto. apply (copy_eqn_inst E (bnd st) s1 n e e' D1 A). }
    pose proof (cgood_ok _ HC) as OK. apply cgood_intro; [exact (SubsumeCond.copies_ok E s1 c d HE Ws1 OK F2)| |].
    - eapply mapo_lok; [|exact H|apply cgood_lok; auto]. intros e e' A. eapply (copy_eqn_lok N HN); eauto. apply (norm_eqns_bok N E n c (start, reset) (st, c1)); auto. apply bok_start.
    - intros M HM v Hv. eapply copies_hold; [exact HE|apply HM|exact Hv|exact Ws1|exact OK|exact F2|]. apply (cgood_true M c HM HC). apply (val_respects E M (proj1 HM)); auto. apply sg_wf; auto. }
  destruct (trail st); [injection H as <-; auto|]. auto.
Qed.
Lemma copy_disjoint_good c : cgood c -> cgood (copy_disjoint E K c).
Proof.
  intros HC. set (s := fun x => Var (altv K x)). assert (Ws : wfsubst SS s) by (intros x; destruct (HAlt x) as [A _]; split; [exact A|reflexivity]).
  assert (TG : forall t, tgood E N t -> tgood E N (Terms.app s t)).
  { intros t T. apply tgood_app; auto. intros x _. split; [reflexivity|]. split; [|apply sok_var]. intros y [<-|[]]. apply HAlt. }
  destruct HC as [HL HF]. split.
  - unfold copy_disjoint. apply Forall_map. eapply Forall_impl; [|exact HL]. intros e He. apply lgood_sides in He. destruct He as [L [R SE]]. cbv zeta. apply TG in L. apply TG in R.
    assert (SE' : tsort SS (Terms.app s (lt e)) = tsort SS (Terms.app s (rt e))) by (rewrite !app_sort; auto).
    split.
    + assert (X : eqn_ok E (eqn_alloc E (Terms.app s (lt e)) (Terms.app s (rt e)) (pos e))) by (apply eqn_alloc_ok; auto; try apply L; apply R). exact X.
    + assert (X : lok N (eqn_alloc E (Terms.app s (lt e)) (Terms.app s (rt e)) (pos e))) by (apply alloc_lok; auto; try apply L; apply R). exact X.
  - intros M HM HT v Hv. pose proof (HF M HM HT _ (respects_subst _ _ _ _ _ HM Hv Ws)) as X. apply Exists_exists in X. destruct X as [e [I Hh]].
    apply Exists_exists. eexists. split; [unfold copy_disjoint; apply in_map; exact I|]. cbv zeta. rewrite Forall_forall in HL. pose proof (HL e I) as He. apply lgood_sides in He. destruct He as [L [R SE]].
    apply TG in L. apply TG in R.
    assert (SE' : tsort SS (Terms.app s (lt e)) = tsort SS (Terms.app s (rt e))) by (rewrite !app_sort; auto).
    assert (X : holds M v (eqn_alloc E (Terms.app s (lt e)) (Terms.app s (rt e)) (pos e))).
    { apply (eqn_alloc_holds E M HE HM); auto; try apply L; try apply R. apply lit_holds_app. exact Hh. }
    exact X.
Qed.
End Good.
End Step.
