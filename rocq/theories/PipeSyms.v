(** * Preprocessing introduces no symbols but the declared ones: predicate elimination, unfolding, injectivity axioms. *)
From Coq Require Import Permutation.
From Verif Require Import Terms Unify UnifyProofs Semantics Clauses ClausesProofs Subsume Taut Split SplitSemProofs Infer InferProofs SaturateSyms Bce BceProofs Unfold Inj PredElim.
Local Open Scope nat_scope.

Section Syms.
Variable N : sym.
Hypothesis HN : 2 < N.
Notation sok := (sok N).
Notation lok := (lok N).
Notation bok := (bok N).

Lemma filter_sub {A} (P : A -> Prop) (f : A -> bool) l : Forall P l -> Forall P (filter f l).
Proof. rewrite !Forall_forall. intros H x Hx. apply filter_In in Hx. apply H. tauto. Qed.

(** ** Predicate elimination *)
Lemma backtrack_bok : forall k st, bok (bnd st) -> bok (bnd (backtrack_n k st)).
Proof.
  induction k as [|k IH]; intros st H; cbn; auto. apply IH. unfold backtrack_single. destruct (trail st); auto. cbn. intros y t. unfold upd. destruct (Nat.eqb _ _); [discriminate|apply H].
Qed.
Lemma mgu_loop_bok_fail S : forall n st jobs st', bok (bnd st) -> Forall sok jobs -> mgu_loop n S st jobs = Failure st' -> bok (bnd st').
Proof.
  induction n as [|n IH]; intros st jobs st' HB HJ H; [discriminate|]. cbn [mgu_loop] in H.
  destruct jobs as [|j2 [|j1 rest]]; [discriminate | discriminate|].
  destruct (deref n (bnd st) j2) as [d2|] eqn:D2; [|discriminate].
  destruct (deref n (bnd st) j1) as [d1|] eqn:D1; [|discriminate].
  inversion HJ as [|? ? P2 HJ1]; subst. inversion HJ1 as [|? ? P1 HJ2]; subst.
  pose proof (bok_deref _ _ HB _ _ _ D2 P2) as Q2. pose proof (bok_deref _ _ HB _ _ _ D1 P1) as Q1.
  assert (HS : exists t1 t2, (if isVar d2 then (d2, d1) else (d1, d2)) = (t1, t2) /\ sok t1 /\ sok t2).
  { destruct (isVar d2); eauto. }
  destruct HS as [t1 [t2 [ES [T1 T2]]]]. rewrite ES in H. cbv beta iota in H.
  destruct t1 as [x|f a1].
  - destruct (term_eqb (Var x) t2); [eapply IH; eauto|].
    destruct (negb (Nat.eqb (vsort S x) (tsort S t2))); [injection H as <-; auto|].
    destruct (occur_check n (bnd st) t2 x) as [[|]|]; try discriminate; [injection H as <-; auto|].
    apply (IH (add_binding st x t2) rest st'); auto. apply bok_add; auto.
  - destruct t2 as [y|g a2]; [discriminate|]. destruct (Nat.eqb f g); [|injection H as <-; auto].
    destruct (push_args_rev (rev a1) (rev a2) rest) as [jobs'|] eqn:PA; [|discriminate].
    apply sok_fun in T1. apply sok_fun in T2. destruct T1 as [_ T1]. destruct T2 as [_ T2].
    apply (IH st jobs' st'); auto. rewrite Forall_forall in *. intros t Ht.
    destruct (push_args_rev_in _ _ _ _ PA t Ht) as [G|[G|G]]; auto; apply in_rev in G; auto.
Qed.
Lemma mgu_bok_fail S pp n st t1 t2 st' : bok (bnd st) -> sok t1 -> sok t2 -> mgu n S pp st t1 t2 = Failure st' -> bok (bnd st').
Proof.
  unfold mgu. intros HB P1 P2 H. destruct (_ || _); [injection H as <-; auto|].
  destruct (mgu_loop n S st [t2; t1]) eqn:L; try discriminate. injection H as <-.
  apply backtrack_bok. eapply mgu_loop_bok_fail; [| |exact L]; auto.
Qed.

Lemma sok_map_var (f : var -> term) t : (forall x, sok (f x)) -> sok t -> sok (Terms.app f t).
Proof. intros H Ht. apply sok_app; auto. Qed.
Lemma disjoint_lok E alt c : Forall lok c -> Forall lok (disjoint E alt c).
Proof.
  intros H. unfold disjoint. rewrite Forall_map. eapply Forall_impl; [|exact H]. intros e [L R]. unfold disjoint_lit.
  apply (alloc_lok N HN E (Terms.app (fun x => Var (alt x)) (lt e)) (Terms.app (fun x => Var (alt x)) (rt e)) (pos e)); apply sok_map_var; auto; intros; apply sok_var.
Qed.
Lemma copy_lok E c : Forall lok c -> Forall lok (map (lit_copy E) c).
Proof. intros H. rewrite Forall_map. eapply Forall_impl; [|exact H]. intros e [L R]. apply (alloc_lok N HN E (lt e) (rt e) (pos e)); auto. Qed.
Lemma rest_lok j c : Forall lok c -> Forall lok (rest j c).
Proof. intros H. apply Forall_rev, except_lok. auto. Qed.
Lemma eqn_map_lok E n b e e' : bok b -> eqn_map E n b e = Some e' -> lok e -> lok e'.
Proof.
  intros HB H [L R]. unfold eqn_map in H. destruct (inst n b (lt e)) as [l|] eqn:Hl; [|discriminate]. destruct (inst n b (rt e)) as [r|] eqn:Hr; [|discriminate].
  injection H as <-. apply (alloc_lok N HN E l r (pos e)); eapply inst_sok; eauto.
Qed.
Lemma join_rests_lok E n b P Q j k c : bok b -> Forall lok P -> Forall lok Q -> join_rests E n b P Q j k = Some c -> Forall lok c.
Proof.
  intros HB HP HQ H. unfold join_rests in H. destruct (mapo _ (rest j P)) as [x|] eqn:X; [|discriminate]. destruct (mapo _ (rest k Q)) as [y|] eqn:Y; [|discriminate].
  injection H as <-. apply finish_lok, Forall_app. split; (eapply mapo_lok; [|eassumption|apply rest_lok; auto]); intros; eapply eqn_map_lok; eauto.
Qed.
Lemma args_sok t : sok t -> Forall sok (args t).
Proof. destruct t; intros H; cbn; [constructor|]. apply sok_fun in H. tauto. Qed.
Lemma neq_resolvent_lok E alt n P Q f r : Forall lok P -> Forall lok Q -> neq_resolvent E alt n P Q f = Some (Some r) -> Forall lok r.
Proof.
  intros HP HQ H. unfold neq_resolvent in H. pose proof (disjoint_lok E alt P HP) as HP'. pose proof (copy_lok E Q HQ) as HQ'.
  destruct (find_lit f (Some true) _) as [j|]; [|discriminate]. destruct (find_lit f (Some false) _) as [k|]; [|discriminate].
  destruct (nth_error (disjoint E alt P) j) as [p|] eqn:NP; [|discriminate]. destruct (nth_error (map _ Q) k) as [q|] eqn:NQ; [|discriminate].
  destruct (mgu _ _ _ _ _ _) as [st| | |] eqn:U; try discriminate. destruct (join_rests _ _ _ _ _ _ _) as [c|] eqn:J; [|discriminate]. injection H as <-.
  pose proof (nth_lok _ _ _ _ HP' NP) as [A _]. pose proof (nth_lok _ _ _ _ HQ' NQ) as [B _].
  eapply join_rests_lok; [|exact HP'|exact HQ'|exact J]. eapply mgu_bok; [apply bok_start|exact B|exact A|exact U].
Qed.
Lemma eq_resolvent_lok E alt n P Q f r : Forall lok P -> Forall lok Q -> eq_resolvent E alt n P Q f = Some (Some r) -> Forall lok r.
Proof.
  intros HP HQ H. unfold eq_resolvent in H. pose proof (disjoint_lok E alt P HP) as HP'. pose proof (copy_lok E Q HQ) as HQ'.
  destruct (find_lit f (Some true) _) as [j|]; [|discriminate]. destruct (find_lit f (Some false) _) as [k|]; [|discriminate].
  destruct (nth_error (disjoint E alt P) j) as [p|] eqn:NP; [|discriminate]. destruct (nth_error (map _ Q) k) as [q|] eqn:NQ; [|discriminate].
  pose proof (nth_lok _ _ _ _ HP' NP) as [A _]. pose proof (nth_lok _ _ _ _ HQ' NQ) as [B _].
  assert (J : forall st r0, bok (bnd st) -> option_map Some (join_rests E n (bnd st) (disjoint E alt P) (map (lit_copy E) Q) j k) = Some (Some r0) -> Forall lok r0).
  { intros st r0 HB X. destruct (join_rests _ _ _ _ _ _ _) as [c|] eqn:J; [|discriminate]. injection X as <-. eapply join_rests_lok; [exact HB|exact HP'|exact HQ'|exact J]. }
  assert (G : match mgu n (srt E) (pp E) start (lt p) (lt q) with
              | Success st | Failure st => option_map Some (join_rests E n (bnd st) (disjoint E alt P) (map (lit_copy E) Q) j k)
              | _ => None end = Some (Some r) -> Forall lok r).
  { destruct (mgu _ _ _ _ _ _) as [st|st| |] eqn:U; try discriminate; apply J; [eapply mgu_bok; [apply bok_start|exact A|exact B|exact U]|eapply mgu_bok_fail; [apply bok_start|exact A|exact B|exact U]]. }
  destruct (unique_distinct_vars (lt p)) as [?|]; [auto|]. destruct (unique_distinct_vars (lt q)) as [?|]; [auto|]. injection H as <-.
  apply finish_lok, Forall_app. split; [|apply Forall_app; split; apply rest_lok; auto]. apply Forall_rev. apply args_sok in A. apply args_sok in B. rewrite Forall_forall in *.
  intros e He. apply in_map_iff in He. destruct He as [[a b] [<- I]]. apply alloc_lok; auto; [apply A; eapply in_combine_l; eauto|apply B; eapply in_combine_r; eauto].
Qed.
Lemma assign_sok E : forall xs seen cnt z, sok (assign E xs seen cnt z).
Proof. induction xs as [|x xs IH]; intros seen cnt z; cbn; [apply sok_var|]. destruct (has x seen); auto. destruct (Nat.eqb z x); auto. apply sok_var. Qed.
Lemma normalize_lok E c : Forall lok c -> Forall lok (normalize E c).
Proof.
  intros H. unfold normalize. rewrite Forall_map. eapply Forall_impl; [|exact H]. intros e [L R]. unfold norm_lit.
  set (s := assign E (clause_vars c) [] reset). apply (alloc_lok N HN E (Terms.app s (lt e)) (Terms.app s (rt e)) (pos e)); apply sok_map_var; auto; intros; apply assign_sok.
Qed.

Definition stok (st : pstate) : Prop := Forall (Forall lok) (objs st).
Lemma obj_lok st i : stok st -> Forall lok (obj st i).
Proof.
  intros H. unfold stok in H. unfold obj. destruct (nth_in_or_default i (objs st) []) as [X| ->]; [|constructor]. rewrite Forall_forall in H. auto.
Qed.
Lemma clauses_lok st is : stok st -> Forall (Forall lok) (clauses st is).
Proof. intros H. unfold clauses. rewrite Forall_map. apply Forall_forall. intros i _. apply obj_lok. auto. Qed.

Section Run.
Variables (E : env) (alt : var -> var) (eno : term -> Z) (max_neg n : nat) (heur : nat -> nat) (core : list clause -> option (list nat))
  (pairs : list nat -> list nat -> list (nat * nat)).

Lemma resolver_lok eq P Q f r : Forall lok P -> Forall lok Q -> resolver E alt n eq P Q f = Some (Some r) -> Forall lok r.
Proof. destruct eq; [apply eq_resolvent_lok|apply neq_resolvent_lok]. Qed.
Lemma singular_lok eq st f P Q l : stok st -> singular E eno max_neg n (resolver E alt n eq) st f P Q = Some l -> Forall (Forall lok) l.
Proof.
  intros HS H. unfold singular in H. destruct (mapo _ _) as [ls|] eqn:M; [|discriminate]. injection H as <-. pose proof (mapo_spec _ _ _ M) as X. clear M. revert X.
  generalize (all_pairs P Q). intros ps X. induction X as [|p l ps ls A X IH]; cbn; [constructor|]. apply Forall_app. split; auto.
  unfold resolve_pair in A. destruct (resolver _ _ _ _ _ _ _) as [[r|]|] eqn:R; [|injection A as <-; constructor|discriminate].
  destruct (taut _ _ _ _ r) as [[|]|]; [injection A as <-; constructor|injection A as <-|discriminate]. constructor; [|constructor].
  eapply resolver_lok; [| |exact R]; apply obj_lok; auto.
Qed.
Lemma scan_lit_objs gates i c st j : objs (scan_lit heur gates i c st j) = objs st.
Proof.
  unfold scan_lit. destruct (nth_error c j) as [e|]; auto. destruct (equlit e); auto. destruct (lt e) as [|f a]; auto. cbv zeta. destruct (blocked _); auto. destruct (_ && negb _); auto.
Qed.
Lemma scan_objs gates st i c : objs (scan heur gates st i c) = objs st.
Proof.
  unfold scan. generalize (seq 0 (length c)). intros l. revert st. induction l as [|j l IH]; intros st; cbn [fold_left]; auto. rewrite IH. apply scan_lit_objs.
Qed.
Lemma scan_all_objs gates : forall is st, objs (scan_all heur gates st is) = objs st.
Proof. induction is as [|i is IH]; intros st; cbn; auto. rewrite IH. apply scan_objs. Qed.
Lemma react_objs i : forall c st st', react_removed heur i st c = Some st' -> objs st' = objs st.
Proof.
  induction c as [|e c IH]; intros st st' H; cbn in H; [congruence|]. destruct (react_lit heur i st e) as [st1|] eqn:R; [|discriminate]. rewrite (IH _ _ H).
  unfold react_lit in R. destruct (equlit e); [congruence|]. destruct (lt e) as [|f a]; [discriminate|]. destruct (tasks st f) as [t|]; [|discriminate].
  destruct (blocked t); [congruence|]. destruct (has i _); injection R as <-; destruct (_ && _); reflexivity.
Qed.
Lemma remove_all_objs : forall is st st', remove_all heur st is = Some st' -> objs st' = objs st.
Proof.
  induction is as [|i is IH]; intros st st' H; cbn in H; [congruence|]. destruct (react_removed _ _ _ _) as [st1|] eqn:R; [|discriminate].
  rewrite (IH _ _ H), (react_objs _ _ _ _ R). reflexivity.
Qed.
Lemma add_stok st c : stok st -> Forall lok c -> stok (add_clause E heur st c).
Proof. intros H Hc. unfold stok, add_clause. cbv zeta. rewrite scan_objs. cbn. apply Forall_app. split; auto. constructor; [apply normalize_lok; auto|constructor]. Qed.
Lemma adds_stok : forall cls st, stok st -> Forall (Forall lok) cls -> stok (fold_left (add_clause E heur) cls st).
Proof. induction cls as [|c cls IH]; intros st H HC; cbn; auto. inversion HC; subst. apply IH; auto. apply add_stok; auto. Qed.

(** without gates no task is a gate *)
Definition nogate (st : pstate) : Prop := forall f t, tasks st f = Some t -> gate t = false.
Lemma nogate_set st f t : nogate st -> gate t = false -> nogate (set_task st f t).
Proof. intros H G g u. cbn. destruct (Nat.eqb g f); [intros [= <-]; auto|apply H]. Qed.
Lemma nogate_ext st st' : tasks st' = tasks st -> nogate st -> nogate st'.
Proof. intros H G f t. rewrite H. apply G. Qed.
Lemma scan_lit_nogate gates i c st j : nogate st -> nogate (scan_lit heur gates i c st j).
Proof.
  intros H. unfold scan_lit. destruct (nth_error c j) as [e|]; auto. destruct (equlit e); auto. destruct (lt e) as [|f a]; auto. cbv zeta.
  set (t0 := match tasks st f with Some t => t | None => mk_task end). assert (G0 : gate t0 = false) by (subst t0; destruct (tasks st f) eqn:T; [apply (H f); auto|reflexivity]).
  set (t1 := if yes heur st then block t0 else t0). assert (G1 : gate t1 = false) by (subst t1; destruct (yes heur st); auto).
  destruct (blocked t1); [apply (nogate_ext (set_task st f t1)); [reflexivity|apply nogate_set; auto]|].
  set (t2 := if find_except f c j then _ else _). assert (G2 : gate t2 = false).
  { subst t2. destruct (find_except f c j); [exact G1|]. unfold add_single, add_gate. destruct (gates && _); destruct (pos e); exact G1. }
  destruct (_ && negb _); apply (nogate_ext (set_task st f t2)); try reflexivity; apply nogate_set; auto.
Qed.
Lemma scan_nogate gates st i c : nogate st -> nogate (scan heur gates st i c).
Proof. unfold scan. generalize (seq 0 (length c)). intros l. revert st. induction l as [|j l IH]; intros st H; cbn [fold_left]; auto. apply IH, scan_lit_nogate. auto. Qed.
Lemma scan_all_nogate gates : forall is st, nogate st -> nogate (scan_all heur gates st is).
Proof. induction is as [|i is IH]; intros st H; cbn; auto. apply IH, scan_nogate. auto. Qed.
Lemma react_nogate i : forall c st st', react_removed heur i st c = Some st' -> nogate st -> nogate st'.
Proof.
  induction c as [|e c IH]; intros st st' H G; cbn in H; [injection H as <-; auto|]. destruct (react_lit heur i st e) as [st1|] eqn:R; [|discriminate]. apply (IH _ _ H). clear H IH.
  unfold react_lit in R. destruct (equlit e); [injection R as <-; auto|]. destruct (lt e) as [|f a]; [discriminate|]. destruct (tasks st f) as [t|] eqn:T; [|discriminate].
  destruct (blocked t); [injection R as <-; auto|]. destruct (has i _); injection R as <-; (destruct (_ && _); (eapply nogate_ext; [|apply nogate_set; [exact G|]]; [reflexivity|cbn; auto])); apply (G f); auto.
Qed.
Lemma remove_all_nogate : forall is st st', remove_all heur st is = Some st' -> nogate st -> nogate st'.
Proof.
  induction is as [|i is IH]; intros st st' H G; cbn in H; [injection H as <-; auto|]. destruct (react_removed _ _ _ _) as [st1|] eqn:R; [|discriminate].
  apply (IH _ _ H), (react_nogate _ _ _ _ R). apply (nogate_ext st); [reflexivity|auto].
Qed.
Lemma adds_nogate : forall cls st, nogate st -> nogate (fold_left (add_clause E heur) cls st).
Proof. induction cls as [|c cls IH]; intros st H; cbn; auto. apply IH. unfold add_clause. cbv zeta. apply scan_nogate. apply (nogate_ext st); auto. Qed.

Lemma eliminate_stok wfuel eq : forall fuel st st', nogate st -> stok st -> eliminate E alt eno max_neg n heur fuel wfuel eq st = Some st' -> stok st'.
Proof.
  induction fuel as [|fuel IH]; intros st st' G H R; cbn [eliminate] in R; [destruct (queue st); [injection R as <-; auto|discriminate]|].
  destruct (pop heur st) as [[f st1]|] eqn:P; [|injection R as <-; auto].
  assert (O1 : objs st1 = objs st /\ tasks st1 = tasks st) by (unfold pop in P; destruct (queue st); [discriminate|]; injection P as <- <-; split; reflexivity).
  destruct O1 as [O1 T1]. assert (H1 : stok st1) by (unfold stok; rewrite O1; auto). assert (G1 : nogate st1) by (apply (nogate_ext st); auto).
  destruct (tasks st1 f) as [t|] eqn:T; [|discriminate]. destruct (blocked t); [eapply IH; eauto|].
  unfold new_clauses in R. rewrite (G1 f t T) in R. destruct (singular _ _ _ _ _ _ _ _ _) as [cls|] eqn:SG; [|discriminate]. cbn [fold_left] in R.
  destruct (yes heur st1).
  - destruct (remove_clauses heur (ticked st1) f t) as [st3|] eqn:RM; [|discriminate]. unfold remove_clauses in RM. eapply IH; [| |exact R].
    + apply adds_nogate. apply (remove_all_nogate _ _ _ RM). apply nogate_set; [apply (nogate_ext st1); auto|cbn; apply (G1 f); auto].
    + apply adds_stok; [unfold stok; rewrite (remove_all_objs _ _ _ RM); exact H1|]. apply Forall_rev. eapply singular_lok; [|exact SG]; auto.
  - eapply IH; [| |exact R]; auto.
Qed.
Lemma elimination_lok fuel wfuel junk CN st : Forall (Forall lok) CN ->
  predicate_elimination E alt eno max_neg n heur core pairs fuel wfuel false junk CN = Some st -> Forall (Forall lok) (clauses st (passive st)).
Proof.
  intros H R. unfold predicate_elimination, build_queue in R. cbv zeta in R. cbn [PredElim.passive] in R. eapply clauses_lok, eliminate_stok; [| |exact R].
  - match goal with |- nogate (set_queue ?s _) => apply (nogate_ext s); [reflexivity|] end. apply scan_all_nogate. intros f t. discriminate.
  - unfold stok. cbn. rewrite scan_all_objs. exact H.
Qed.
End Run.

(** ** Unfolding *)
Lemma zip_sok : forall xs a x, Forall sok a -> sok (zip_subst xs a x).
Proof.
  induction xs as [|y xs IH]; intros [|u a] x H; cbn; try apply sok_var. inversion H; subst. destruct (Nat.eqb x y); auto.
Qed.
Lemma term_unfold_sok d t : sok (drhs d) -> sok t -> sok (term_unfold d t).
Proof.
  intros HD. induction t as [x|f a IH] using term_ind'; intros H; cbn [term_unfold]; auto. apply sok_fun in H. destruct H as [H1 H2].
  assert (A : Forall sok (map (term_unfold d) a)) by (rewrite Forall_map; rewrite Forall_forall in *; auto).
  destruct (Nat.eqb f (dsym d)); [|apply sok_fun; auto]. apply sok_app; auto. intros x _. apply zip_sok. auto.
Qed.
Lemma set_unfold_lok E d l : sok (drhs d) -> Forall (Forall lok) l -> Forall (Forall lok) (set_unfold E d l).
Proof.
  intros HD H. unfold set_unfold. rewrite Forall_map. eapply Forall_impl; [|exact H]. intros c Hc. unfold clause_unfold. destruct (unfolds d c); auto.
  unfold remove_superfluous. apply dups_lok, resolved_lok. rewrite Forall_map. eapply Forall_impl; [|exact Hc]. intros e [L R]. split; apply term_unfold_sok; auto.
Qed.
Lemma find_def_in E m : forall l pre c d post, find_def E m l = Some (pre, c, d, post) -> l = pre ++ c :: post /\ clause_def E m c = Some d.
Proof.
  induction l as [|c0 l IH]; intros pre c d post H; cbn in H; [discriminate|]. destruct (clause_def E m c0) as [d0|] eqn:D; [injection H as <- <- <- <-; auto|].
  destruct (find_def E m l) as [[[[p c1] d1] q]|] eqn:F; [|discriminate]. injection H as <- <- <- <-. destruct (IH _ _ _ _ eq_refl) as [-> A]. auto.
Qed.
Lemma clause_def_sok E m c d : clause_def E m c = Some d -> Forall lok c -> sok (drhs d).
Proof.
  unfold clause_def, eqn_def. destruct c as [|e [|]]; try discriminate. intros H HC. inversion HC as [|? ? [L R] _]; subst. destruct (negb (pos e)); [discriminate|].
  assert (S : forall l r d0, side_def E m l r = Some d0 -> drhs d0 = r).
  { intros l r d0 X. unfold side_def in X. destruct (def_term m l) as [[f xs]|]; [|discriminate]. destruct (_ && _); [|discriminate]. injection X as <-. reflexivity. }
  destruct (side_def E m (lt e) (rt e)) as [d0|] eqn:D; [injection H as <-; rewrite (S _ _ _ D); auto|rewrite (S _ _ _ H); auto].
Qed.
Lemma unfold_loop_lok E m limit : forall fuel b r p a b' p' a', Forall (Forall lok) b -> Forall (Forall lok) r -> unfold_loop E m limit fuel b r p a = Some (b', p', a') -> Forall (Forall lok) b'.
Proof.
  induction fuel as [|k IH]; intros b r p a b' p' a' HB HR H; cbn [unfold_loop] in H; [discriminate|].
  destruct (find_def E m r) as [[[[pre c] d] post]|] eqn:F; [|injection H as <- _ _; apply Forall_app; auto].
  destruct (find_def_in _ _ _ _ _ _ _ F) as [-> D]. apply Forall_app in HR. destruct HR as [H1 H2]. inversion H2 as [|? ? HC HP]; subst.
  destruct (small_enough limit d); eapply IH; [| |exact H| | |exact H].
  - apply set_unfold_lok; [eapply clause_def_sok; eauto|]. apply Forall_app; auto.
  - apply set_unfold_lok; [eapply clause_def_sok; eauto|]. auto.
  - apply Forall_app. split; auto. apply Forall_app. split; auto.
  - auto.
Qed.
Lemma filter_taut_sub eno mn k E : forall l r, filter_taut eno mn k E l = Some r -> incl r l.
Proof.
  induction l as [|c l IH]; intros r H; cbn in H; [injection H as <-; intros x []|]. destruct (clause_is_tautology _ _ _ _ _) as [b| |]; try discriminate.
  destruct (filter_taut _ _ _ _ l) as [r0|] eqn:F; [|discriminate]. injection H as <-. specialize (IH _ eq_refl).
  destruct b; [intros x Hx; right; auto|]. intros x [X|X]; [left; auto|right; auto].
Qed.
Lemma sub_lok r l : incl r l -> Forall (Forall lok) l -> Forall (Forall lok) r.
Proof. rewrite !Forall_forall. auto. Qed.
Lemma unfold_normalize_lok eno mn k E off limit mx set passive r p a : Forall (Forall lok) set ->
  unfold_normalize eno mn k E off limit mx set passive = Some (r, p, a) -> Forall (Forall lok) r.
Proof.
  intros H R. unfold unfold_normalize in R. destruct (off || _); [injection R as <- _ _; auto|].
  destruct (unfold_all E 1 limit set passive) as [[[s ps] ar]|] eqn:U; [|discriminate]. assert (HS : Forall (Forall lok) s) by (eapply unfold_loop_lok; [| |exact U]; auto).
  destruct ar; [injection R as <- _ _; auto|]. destruct (filter_taut _ _ _ _ s) as [q|] eqn:F; [|discriminate]. injection R as <- _ _.
  eapply sub_lok; [eapply filter_taut_sub; eauto|auto].
Qed.
End Syms.

(** ** Injectivity axioms *)
Lemma sok_mono N N' t : N <= N' -> sok N t -> sok N' t.
Proof. intros L H f Hf. specialize (H f Hf). lia. Qed.
Lemma lok_mono N N' e : N <= N' -> lok N e -> lok N' e.
Proof. intros L [A B]. split; eapply sok_mono; eauto. Qed.
Lemma loks_mono N N' l : N <= N' -> Forall (Forall (lok N)) l -> Forall (Forall (lok N')) l.
Proof. intros L H. eapply Forall_impl; [|exact H]. intros c Hc. eapply Forall_impl; [|exact Hc]. intros e. apply lok_mono. auto. Qed.
Lemma inj_clause_lok E internal isinj n p q r d : 2 < n -> lok n p -> lok n q -> inj_clause E internal isinj n p q = Some (r, d) -> Forall (lok (S n)) r /\ dcl_sym d = n.
Proof.
  intros Hn [P1 P2] [Q1 Q2] H. unfold inj_clause in H. destruct (_ && _); [|discriminate]. destruct (lt p) as [x|]; [|discriminate]. destruct (rt p) as [y|]; [|discriminate].
  destruct (lt q) as [|f ls]; [discriminate|]. destruct (rt q) as [|g rs]; [discriminate|]. destruct (_ && _); [|discriminate].
  destruct (var_args ls) as [lv|]; [|discriminate]. destruct (var_args rs) as [rv|]; [|discriminate]. destruct (inj_index _ _ _ _) as [i|]; [|discriminate]. destruct (inj_scan _ _ _ _) as [sv|]; [|discriminate].
  injection H as <- <-. split; [|reflexivity]. constructor; [|constructor]. apply alloc_lok; [lia| |apply sok_var]. apply sok_fun. split; [lia|]. apply Forall_app. split.
  - rewrite Forall_map. apply Forall_forall. intros; apply sok_var.
  - constructor; [|constructor]. eapply sok_mono; [|exact Q1]. lia.
Qed.
Lemma recognize_lok E internal isinj n c r d : 2 < n -> Forall (lok n) c -> recognize_injectivity E internal isinj n c = Some (r, d) -> Forall (lok (S n)) r /\ dcl_sym d = n.
Proof.
  intros Hn H R. unfold recognize_injectivity in R. destruct c as [|a [|b [|]]]; try discriminate. inversion H as [|? ? A H1]; subst. inversion H1 as [|? ? B _]; subst.
  destruct (_ && _); [eapply inj_clause_lok; [| | |exact R]; auto|]. destruct (_ && _); [eapply inj_clause_lok; [| | |exact R]; auto|discriminate].
Qed.
Lemma replace_inj_lok E internal known n0 : forall set n tmp r a ds, 2 < n -> Forall (Forall (lok n)) set -> Forall (Forall (lok n)) tmp ->
  replace_inj E internal known n0 n set tmp = (r, a, ds) -> Forall (Forall (lok (n + length ds))) r /\ map dcl_sym ds = seq n (length ds).
Proof.
  induction set as [|c set IH]; intros n tmp r a ds Hn HS HT H; cbn [replace_inj] in H.
  - injection H as <- _ <-. cbn. rewrite Nat.add_0_r. auto.
  - inversion HS as [|? ? HC HS']; subst. destruct (recognize_injectivity _ _ _ _ _) as [[repl dc]|] eqn:R.
    + destruct (recognize_lok _ _ _ _ _ _ _ Hn HC R) as [LR DS]. pose proof (loks_mono n (S n) _ ltac:(lia) HS') as HS2. pose proof (loks_mono n (S n) _ ltac:(lia) HT) as HT2.
      destruct (known tmp repl).
      * destruct (replace_inj _ _ _ _ (S n) set tmp) as [[r0 a0] ds0] eqn:RI. injection H as <- _ <-. destruct (IH (S n) tmp r0 a0 ds0 ltac:(lia) HS2 HT2 RI) as [X Y].
        cbn [length map seq]. rewrite DS, Y. replace (n + S (length ds0)) with (S n + length ds0) by lia. split; auto. constructor; auto.
        eapply Forall_impl; [|exact HC]. intros e. apply lok_mono. lia.
      * destruct (replace_inj _ _ _ _ (S n) set (tmp ++ [repl])) as [[r0 a0] ds0] eqn:RI. injection H as <- _ <-.
        destruct (IH (S n) (tmp ++ [repl]) r0 a0 ds0 ltac:(lia) HS2 ltac:(apply Forall_app; split; auto) RI) as [X Y].
        cbn [length map seq]. rewrite DS, Y. replace (n + S (length ds0)) with (S n + length ds0) by lia. auto.
    + destruct (replace_inj _ _ _ _ n set tmp) as [[r0 a0] ds0] eqn:RI. injection H as <- _ <-. destruct (IH n tmp r0 a0 ds0 Hn HS' HT RI) as [X Y]. split; auto.
      constructor; auto. eapply Forall_impl; [|exact HC]. intros e. apply lok_mono. lia.
Qed.
