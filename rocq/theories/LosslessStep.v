(** * Steps of the saturation loop, read backwards: a model of the result is a model of the clause it replaces. *)
From Coq Require Import Permutation.
From Verif Require Import Terms Unify UnifyProofs Semantics Clauses ClausesProofs LitOrder MatchProofs Infer InferProofs InferTotal Subsume SubsumeProofs SubsumeSpec SubsumeClause SubsumeUnits SubsumeCond Taut TautProofs Rewrite RewriteProofs RewriteHist Split SplitProofs SplitSemProofs SplitProps AC Saturate SaturateSyms SaturateRw SaturateStep.
Local Open Scope nat_scope.

Section Back.
Variables (E : env) (K : conf) (n : nat).
Hypothesis HE : env_ok E.
Notation SS := (srt E).

Section Model.
Variable M : structure.
Hypothesis HM : model_ok SS (dist E) M.
Notation tr := (clause_true SS M).

Lemma flags_back c c' : Forall2 same_lit c c' -> tr c' -> tr c.
Proof.
  intros F T v Hv. specialize (T v Hv). clear Hv. induction F as [|e e' c c' S F IH]; [inversion T|].
  inversion T; subst; [left; apply (same_lit_holds e e' M v S); auto|right; auto].
Qed.
Lemma sub_back c d : (forall e, In e d -> In e c) -> tr d -> tr c.
Proof. intros I T v Hv. specialize (T v Hv). apply Exists_exists in T. destruct T as [e [Ie Hh]]. apply Exists_exists. eauto. Qed.
Lemma orient_back c : tr (orient K c) -> tr c.
Proof. apply flags_back. apply flags_map, orient_lit. Qed.
Lemma select_back P s c : tr (select_lits P s c) -> tr c.
Proof. apply flags_back. apply (flags_combine (fun '(i, e) => _)). intros i e. split; cbn; auto. Qed.
Lemma unselect_back c : tr (unselect c) -> tr c.
Proof. apply flags_back. apply flags_map. intros e. split; cbn; auto. Qed.
Lemma mark_back c d : mark_maximal K c = Some d -> tr d -> tr c.
Proof.
  unfold mark_maximal, maximal_literals. destruct (max_outer _ _ _ _ _) as [[ml sm]|]; [|discriminate]. intros [= <-] T. apply orient_back.
  revert T. apply flags_back. apply (flags_combine (fun '(i, e) => _)). intros i e. split; cbn; auto.
Qed.
Lemma sort_back c : tr (sort_lits c) -> tr c.
Proof. apply sub_back. intros e. apply Permutation_in, sort_lits_perm. Qed.
Lemma superfluous_back c : tr (lits (superfluous E c)) -> tr (lits c).
Proof. apply sub_back. intros e He. apply remove_dups_incl in He. apply filter_In in He. tauto. Qed.
Lemma ac_resolve_back A c : tr (lits (ac_resolve A c)) -> tr (lits c).
Proof. unfold ac_resolve. destruct (ac_active A); auto. cbn [with_lits lits]. apply sub_back. intros e He. unfold remove_ac_resolved in He. apply filter_In in He. tauto. Qed.

Section Clause.
Variables (N : sym).
Hypothesis HN : 2 < N.
Lemma models_nil : models E [] M. Proof. split; auto. intros c []. Qed.
Lemma local_rw_back c d : Forall (lgood E N) (lits c) -> local_rw E K n c = Some d -> tr (lits d) -> tr (lits c).
Proof.
  intros HC H T. apply orient_back. unfold local_rw in H. cbv zeta in H.
  assert (HL : Forall (lgood E N) (orient K (lits c))).
  { unfold orient. apply Forall_map. eapply Forall_impl; [|exact HC]. intros e. apply same_lit_good, orient_lit. }
  set (l := orient K (lits c)) in *. clearbody l.
  match type of H with match ?g with _ => _ end = _ => destruct g as [l'|] eqn:ML end; [|discriminate].
  assert (T' : tr l') by (destruct (forallb _ _); injection H as <-; [exact T|apply superfluous_back in T; exact T]). clear T H.
  pose proof (mapo_spec _ _ _ ML) as F2.
  assert (HR : forall a b, In (a, b) (local_rules l) -> tgood E N a /\ tgood E N b /\ tsort SS a = tsort SS b).
  { intros a b I. destruct (local_rules_in _ _ _ I) as [e [I1 I2]]. rewrite Forall_forall in HL. eapply local_rule_terms; eauto. }
  pose proof models_nil as HM0. intros v Hv. specialize (T' v Hv).
  assert (D : (exists e r, In e l /\ local_rule e = Some r /\ holds M v e) \/ (forall a b, In (a, b) (local_rules l) -> eval M v a = eval M v b)).
  { assert (D : (exists e r, In e l /\ local_rule e = Some r /\ holds M v e) \/ (forall e r, In e l -> local_rule e = Some r -> ~ holds M v e)).
    { clear - HM. induction l as [|e l IH]; [right; intros e r []|]. destruct IH as [[e' [r [A B]]]|Y]; [left; exists e', r; split; [right; auto|auto]|].
      destruct (local_rule e) as [r|] eqn:Q.
      - destruct (lit_holds_dec SS (dist E) M v (pos e) (lt e) (rt e) HM) as [Z|Z]; [left; exists e, r; split; [left; auto|auto]|].
        right. intros e' r' [<-|I] Q'; [exact Z|]. eapply Y; eauto.
      - right. intros e' r' [<-|I] Q'; [congruence|]. eapply Y; eauto. }
    destruct D as [D|D]; [left; auto|]. right. intros a b I. destruct (local_rules_in _ _ _ I) as [e [I1 I2]]. rewrite Forall_forall in HL. eapply local_rule_false; eauto. }
  destruct D as [[e [r [A [B C]]]]|D]; [apply Exists_exists; eauto|].
  clear ML. revert HL D HR F2 T'. generalize (local_rules l) as m. intros m HL D HR F2. induction F2 as [|e1 e' l l' Q F2 IH]; intros HX; [inversion HX|].
  inversion HL as [|? ? He Hl]; subst. inversion HX as [? ? Y|? ? Y]; subst; [|right; auto]. left. destruct (local_rule e1); [injection Q as <-; auto|].
  destruct (eqn_map_good E n HE [] N HN m HR _ _ He Q) as [_ Z]. apply (Z M v HM0 Hv D); auto.
Qed.
End Clause.
Lemma condense_back c d : clause_ok E c -> condense E n c = Condensed d -> tr d -> tr c.
Proof. intros HC H. destruct (condense_ok E n HE c d HC H) as [_ [_ B]]. apply (B M HM). Qed.
Lemma numbered_inj c : (forall t u, eno K t = eno K u -> t = u) -> injective_on (eno K) c.
Proof. intros HNum a b t u _ _ _ _. apply HNum. Qed.
Lemma trivial_back c : (forall t u, eno K t = eno K u -> t = u) -> clause_is_trivial (eno K) E c = Some true -> tr c.
Proof. intros HNum H. destruct (trivial_ok (eno K) E c (numbered_inj c HNum)) as [b [A B]]. rewrite H in A. injection A as <-. apply (B eq_refl M HM). intros d []. Qed.
Lemma tautology_back mx k c : (forall t u, eno K t = eno K u -> t = u) -> clause_ok E c -> clause_is_tautology (eno K) mx E k c = TAns true -> tr c.
Proof. intros HNum HC H. apply (tautology_sound (eno K) E mx k c HE HC (numbered_inj c HNum) H M HM). intros d []. Qed.

(** renaming and resolving away [X <> t] *)
Lemma app_sorts (rho : subst) u : wf SS u -> wf SS (Terms.app rho u) -> tsort SS (Terms.app rho u) = tsort SS u ->
  forall y, In y (vars u) -> wf SS (rho y) /\ tsort SS (rho y) = vsort SS y.
Proof.
  induction u as [x|f a IH] using term_ind'; intros W W' Q y Hy.
  - destruct Hy as [<-|[]]. auto.
  - simpl in Hy. apply in_flat_map in Hy. destruct Hy as [t [It Hy]]. apply wf_fun in W. destruct W as [W1 W2]. simpl in W'. apply wf_fun in W'. destruct W' as [W3 W4].
    rewrite Forall_forall in IH, W1, W3. apply (IH t It); auto.
    + apply W3. apply in_map. auto.
    + rewrite map_map in W4. rewrite <- W2 in W4. clear - W4 It. induction a as [|u a IHa]; [destruct It|]. simpl in W4. injection W4 as A B. destruct It as [->|It]; auto.
Qed.
Lemma undo_back (rho s tau : subst) v ls : respects SS M v -> wfsubst SS s -> wfsubst SS tau -> clause_ok E ls ->
  (forall e, In e ls -> Terms.app rho (Terms.app s (lt e)) = Terms.app tau (lt e) /\ Terms.app rho (Terms.app s (rt e)) = Terms.app tau (rt e)) ->
  tr (map (inst_lit E s) ls) -> Exists (holds M (val M v tau)) ls.
Proof.
  intros Hv Ws Wt OK HR T.
  set (w := fun y => if wfb SS (rho y) && Nat.eqb (tsort SS (rho y)) (vsort SS y) then eval M v (rho y) else v y).
  assert (Hw : respects SS M w).
  { intros y. unfold w. destruct (wfb SS (rho y) && _) eqn:Q; [|apply Hv]. apply andb_true_iff in Q. destruct Q as [Q1 Q2]. apply Nat.eqb_eq in Q2. rewrite <- Q2.
    apply (eval_sort SS (dist E)); auto. }
  assert (EV : forall t, wf SS t -> Terms.app rho (Terms.app s t) = Terms.app tau t -> eval M w (Terms.app s t) = eval M (val M v tau) t).
  { intros t W Q. unfold val. rewrite <- eval_app, <- Q, (eval_app M v rho). apply eval_ext. intros y Hy.
    destruct (app_sorts rho (Terms.app s t)) with (y := y) as [A B]; auto; [apply app_wf; auto|rewrite Q; apply app_wf; auto|rewrite Q, !app_sort; auto|].
    unfold w. unfold wf in A. rewrite A, B, Nat.eqb_refl. reflexivity. }
  specialize (T w Hw). apply Exists_exists in T. destruct T as [e' [I Hh]]. apply in_map_iff in I. destruct I as [e [<- I]]. apply Exists_exists. exists e. split; auto.
  unfold clause_ok in OK. rewrite Forall_forall in OK. pose proof (OK e I) as [A [B [C D]]]. apply (inst_lit_holds E M HE HM w s e Hw Ws (OK e I)) in Hh.
  destruct (HR e I) as [R1 R2]. apply EV in R1; auto. apply EV in R2; auto. unfold holds in *. unfold val in Hh at 1. apply lit_holds_app in Hh. unfold lit_holds in *. rewrite R1, R2 in Hh. exact Hh.
Qed.
Lemma normalize_back c d : clause_ok E c -> normalize_vars E n c = Some d -> tr d -> tr c.
Proof.
  intros OK H T. unfold normalize_vars in H. destruct (norm_eqns n E (start, reset) c) as [[st c1]|] eqn:NO; [|discriminate].
  assert (X : mapo (copy_eqn E n (bnd st)) c = Some d -> tr c).
  { clear H. intros H. destruct (norm_state E n start reset _ st c1 HE (good_start E) NO) as [s0 [s1 [D0 [D1 [Ws1 [Ws0 [Es [So R]]]]]]]].
    assert (F2 : Forall2 (fun e e' => same3 e' (inst_lit E (sg s1) e)) c d).
    { pose proof (mapo_spec _ _ _ H) as F. clear - F D1. induction F as [|e e' c d A F IH]; constructor; auto. apply (copy_eqn_inst E (bnd st) s1 n e e' D1 A). }
    destruct (norm_mg E start reset s0 _ st c1 Var HE (good_start E) D0 (fun t => eqn_terms_primary E _ t OK) R) as [rho Hrho]; [intros x t Hx; discriminate|].
    intros v Hv. assert (Y : Exists (holds M (val M v Var)) c).
    { apply (undo_back rho (sg s1) Var v c Hv); auto using wfsubst_var.
      - apply sg_wf; auto.
      - intros e He. destruct (eqn_terms_in _ _ He). rewrite Es. split; apply Hrho; auto.
      - intros w Hw. specialize (T w Hw). clear - F2 T. induction F2 as [|e e' c d S F2 IH]; [inversion T|]. inversion T as [? ? Y|? ? Y]; subst; [left; apply (same3_holds M w _ _ S); auto|right; auto]. }
    exact Y. }
  destruct (trail st); [injection H as <-; auto|auto].
Qed.
Lemma var_unifier x t (th : subst) : th x = Terms.app th t -> tsort SS t = vsort SS x -> wf SS t ->
  exists tau, wfsubst SS tau /\ tau x = Terms.app tau t /\ forall v, v x = eval M v t -> forall y, eval M v (tau y) = v y.
Proof.
  intros Q Qs W. destruct (in_dec Nat.eq_dec x (vars t)) as [I|I].
  - exists Var. split; [apply wfsubst_var|]. split; [|auto]. destruct t as [y|f a]; [destruct I as [->|[]]; reflexivity|]. exfalso.
    pose proof (size_var_app_strict th f a x I). rewrite Q in *. lia.
  - exists (fun y => if Nat.eqb y x then t else Var y). split; [intros y; destruct (Nat.eqb_spec y x) as [->|]; [auto|split; reflexivity]|]. split.
    + rewrite Nat.eqb_refl. rewrite <- (app_var t) at 1. apply app_ext. intros y Hy. destruct (Nat.eqb_spec y x) as [->|]; [contradiction|auto].
    + intros v Hx y. destruct (Nat.eqb_spec y x) as [->|]; auto.
Qed.
Lemma er_back c i e d : clause_ok E c -> nth_error c i = Some e -> pos e = false -> isVar (lt e) || isVar (rt e) = true -> eq_res E n c i = Derived d -> tr d -> tr c.
Proof.
  intros OK NE Hp HV H T. destruct (eq_res_mg E n c i e d HE OK NE H) as [th [Wt [Qt [-> MG]]]].
  pose proof (clause_ok_nth E i c e OK NE) as [W1 [W2 [SQ _]]].
  assert (X : exists tau, wfsubst SS tau /\ Terms.app tau (lt e) = Terms.app tau (rt e) /\ forall v, eval M v (lt e) = eval M v (rt e) -> forall y, eval M v (tau y) = v y).
  { apply orb_true_iff in HV. destruct HV as [HV|HV].
    - destruct (lt e) as [x|]; [|discriminate]. apply (var_unifier x (rt e) th); auto.
    - destruct (rt e) as [x|]; [|discriminate]. destruct (var_unifier x (lt e) th (eq_sym Qt) SQ W1) as [tau [A [B C]]]. exists tau. split; auto. }
  destruct X as [tau [Wtau [Qtau HV']]]. destruct (MG tau Qtau) as [rho HR]. intros v Hv.
  destruct (mo_dec _ _ _ HM (eval M v (lt e)) (eval M v (rt e))) as [D|D].
  - assert (Y : Exists (holds M (val M v tau)) (except i c)).
    { apply (undo_back rho th tau v _ Hv); auto; [apply clause_ok_except; auto|]. intros w Hw. apply (finish_holds E M w _ HM). apply T; auto. }
    apply Exists_exists in Y. destruct Y as [e' [I Hh]]. apply Exists_exists. exists e'. split; [eapply except_in; eauto|].
    unfold holds, lit_holds in *. unfold val in Hh. rewrite <- !eval_app in Hh.
    assert (EQ : forall t, eval M v (Terms.app tau t) = eval M v t) by (intros t; rewrite eval_app; apply eval_ext; intros y _; apply HV'; auto).
    rewrite !EQ in Hh. exact Hh.
  - apply Exists_exists. exists e. split; [eapply nth_error_In; eauto|]. unfold holds, lit_holds. rewrite Hp. exact D.
Qed.
Lemma er_first_back c ix d : clause_ok E c -> er_first E K n c ix = Some (Some d) -> tr d -> tr c.
Proof.
  intros OK. induction ix as [|i ix IH]; cbn [er_first]; [discriminate|]. destruct (nth_error c i) as [e|] eqn:NE; [|discriminate]. destruct (var_lit K e) eqn:V; auto.
  destruct (eq_res E n c i) as [d'| | |] eqn:R; auto; try discriminate. intros [= <-]. eapply er_back; eauto; [apply (var_lit_neg K); auto|].
  unfold var_lit in V. apply andb_true_iff in V. destruct V as [_ V]. destruct (isVar (lt e)), (isVar (rt e)); auto. cbn in V. rewrite andb_false_r in V. discriminate.
Qed.
Lemma er_normalize_back (N : sym) : 2 < N -> forall k c b d b', Forall (lgood E N) c -> er_normalize E K n k c b = Some (d, b') -> tr d -> tr c.
Proof.
  intros HN. induction k as [|k IH]; intros c b d b' HC H T; [discriminate|]. cbn [er_normalize] in H. destruct (er_first E K n c _) as [[c1|]|] eqn:F; [| |discriminate].
  - eapply er_first_back; [apply (lgood_split E N) in HC; apply HC|exact F|]. eapply IH; [|exact H|exact T].
    eapply (er_first_good E K n HE [c] N HN c _ c1); [|exact F]. split; auto. intros M' _ HT. apply HT. left; auto.
  - injection H as <- <-. auto.
Qed.

(** splitting: the pieces, and the definitions that were used again *)
Lemma split_back st m flagged how fd c r : lookup_ok E (lookup K) -> clause_ok E c -> below m c -> store_ok E m st -> declared E [] m (new_next r) -> 2 < m ->
  clause_split E (lookup K) how fd [] flagged st m c = Some (Some r) ->
  (forall d, In d (new_defs r ++ [rest r]) -> tr d) -> (forall d p, In (d, p) st -> tr (def_lit E p true [] :: d)) -> tr c.
Proof.
  intros LK OK BC SO DC Hm H TD TS. destruct (clause_split_inv E (lookup K) how fd [] flagged st m c r H) as [bs [PT [MD _]]].
  destruct (blocks_wf E how [] c bs m PT OK BC) as [OB BB].
  destruct (make_defs_back E HE (lookup K) LK M fd [] HM (Forall_nil _) bs st m [] _ _ _ _ MD SO OB BB DC Hm) as [_ Y].
  - intros d p I _. auto.
  - intros d Hd. apply TD. apply in_or_app; auto.
  - intros v Hv. destruct (Y v Hv) as [Z|Z]; [apply TD; auto; apply in_or_app; right; left; auto|inversion Z|].
    eapply perm_exists; [apply (pt_perm how [] c bs PT)|exact Z].
Qed.
End Model.
End Back.
