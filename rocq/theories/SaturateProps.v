(** * Properties of the saturation loop: C35. *)
From Coq Require Import ClassicalEpsilon.
From Verif Require Import AC.
From Verif Require Import Terms Unify Semantics Clauses LitOrder Infer Subsume Taut Rewrite RewriteHist Split SplitSemProofs SplitProps Saturate SaturateStep SaturateRw SaturateSyms SaturateProofs ExEnv.
Local Open Scope nat_scope.

(** Every reachable state satisfies the invariant for some set of clauses that splitting alone makes of the input. *)
Lemma reaches_inv E K n0 N0 s : env_ok E -> conf_ok E K n0 -> 2 < n0 -> Forall (clause_ok E) N0 -> Forall (below n0) N0 -> reaches E K n0 N0 s ->
  exists G, ext E K n0 N0 N0 (init K n0 N0) G s.
Proof.
  intros HE HK H0 HOK HB R. induction R as [|P n s s' R [G IH] H|P n s s' R [G IH] H|P n desc s s' R [G IH] H|s R [G IH]].
  - exists N0. apply ext_refl. apply init_inv; auto.
  - eapply process_good in H; try eassumption; [|apply IH]. destruct H as [G' [X _]]. exists G'. eapply ext_trans; eauto.
  - eapply cleanup_good in H; try eassumption; [|apply IH]. destruct H as [X _]. exists G. eapply ext_trans; eauto.
  - eapply filter_unproc_good in H; try eassumption; [|apply IH]. destruct H as [X _]. exists G. eapply ext_trans; eauto.
  - exists G. destruct IH as [A B]. split; [apply inv_tick; auto|exact B].
Qed.
Lemma inv_all E K n0 N0 G s c : inv E K n0 N0 G s -> In c (all_clauses s) -> cgood E G (nextc s) c.
Proof.
  intros [_ [B1 B2 B3 B4 B5 B6 _ _ _]] I. unfold all_clauses in I. apply in_map_iff in I. destruct I as [d [<- I]].
  rewrite Forall_forall in B1, B2, B3, B4, B5, B6. rewrite !in_app_iff in I. destruct I as [I|[I|[I|[I|[I|I]]]]]; [apply B1|apply B2|apply B3|apply B4|apply B5|apply B6]; auto.
Qed.

(** In every state of every run, each processed, unprocessed or temporary clause that contains only symbols of the input follows from
    the input. *)
Theorem C35_sound : forall E K n0 N0 s c, env_ok E -> conf_ok E K n0 -> 2 < n0 -> Forall (clause_ok E) N0 -> Forall (below n0) N0 ->
  reaches E K n0 N0 s -> In c (all_clauses s) -> below n0 c -> follows E N0 c.
Proof.
  intros E K n0 N0 s c HE HK H0 HOK HB R I B. destruct (reaches_inv _ _ _ _ _ HE HK H0 HOK HB R) as [G [HI _]].
  apply (proj1 (C20_conservative E (lookup K) N0 n0 _ c HE (co_lookup _ _ _ HK) HOK HB H0 (proj1 (proj1 HI)) B)). apply (inv_all _ _ _ _ _ _ _ HI I).
Qed.
(** Without splitting, which alone introduces symbols, that is every clause. *)
Theorem C35_sound_without_splitting : forall E K n0 N0 s c, env_ok E -> conf_ok E K n0 -> 2 < n0 -> Forall (clause_ok E) N0 -> Forall (below n0) N0 ->
  (forall l, split_wanted K l = false) -> reaches E K n0 N0 s -> In c (all_clauses s) -> below n0 c /\ follows E N0 c.
Proof.
  intros E K n0 N0 s c HE HK H0 HOK HB NS R I. destruct (reaches_inv _ _ _ _ _ HE HK H0 HOK HB R) as [G [HI [_ [_ Q]]]]. specialize (Q NS). cbn [init nextc] in Q.
  assert (B : below n0 c) by (rewrite <- Q; apply below_lok; eapply cgood_lok, inv_all; eauto).
  split; auto. eapply C35_sound; eauto.
Qed.
(** With splitting: if the clauses of a state have no common model, the input has none. *)
Theorem C35_state_unsat : forall E K n0 N0 s, env_ok E -> conf_ok E K n0 -> 2 < n0 -> Forall (clause_ok E) N0 -> Forall (below n0) N0 ->
  reaches E K n0 N0 s -> unsat E (all_clauses s) -> unsat E N0.
Proof.
  intros E K n0 N0 s HE HK H0 HOK HB R HS. destruct (reaches_inv _ _ _ _ _ HE HK H0 HOK HB R) as [G [HI _]].
  apply (proj1 (C20_history E (lookup K) N0 n0 _ HE (co_lookup _ _ _ HK) HOK HB H0 (proj1 (proj1 HI)))). intros M HM HT. apply (HS M HM).
  intros c Hc. apply (proj2 (inv_all _ _ _ _ _ _ _ HI Hc)); auto.
Qed.
(** The clauses stay well-formed. *)
Theorem C35_well_formed : forall E K n0 N0 s c, env_ok E -> conf_ok E K n0 -> 2 < n0 -> Forall (clause_ok E) N0 -> Forall (below n0) N0 ->
  reaches E K n0 N0 s -> In c (all_clauses s) -> clause_ok E c.
Proof.
  intros E K n0 N0 s c HE HK H0 HOK HB R I. destruct (reaches_inv _ _ _ _ _ HE HK H0 HOK HB R) as [G [HI _]]. eapply cgood_ok, inv_all; eauto.
Qed.

Lemma found_follows E K n0 N0 G s r e : env_ok E -> conf_ok E K n0 -> 2 < n0 -> Forall (clause_ok E) N0 -> Forall (below n0) N0 ->
  inv E K n0 N0 G s -> found_ok E G (nextc s) r -> r = Some e -> lits e = [] /\ follows E N0 [].
Proof.
  intros HE HK H0 HOK HB HI F Q. destruct (F e Q) as [L [_ FG]]. split; auto. rewrite L in FG.
  assert (B : below n0 []) by (intros e' f []).
  exact (proj1 (C20_conservative E (lookup K) N0 n0 _ [] HE (co_lookup _ _ _ HK) HOK HB H0 (proj1 (proj1 HI)) B) FG).
Qed.
(** If any step returns a clause, that clause is empty, and the empty clause follows from the input. *)
Theorem C35_refutation : forall E K n0 N0 s P n k desc s' e, env_ok E -> conf_ok E K n0 -> 2 < n0 -> Forall (clause_ok E) N0 -> Forall (below n0) N0 ->
  reaches E K n0 N0 s ->
  process_clause E K P n s = Some (s', Some e) \/ cleanup E K P n s = Some (s', Some e) \/ filter_unproc E K P n desc s = Some (s', Some e)
  \/ saturate E K P n k s = Some (s', Some e) ->
  lits e = [] /\ follows E N0 [].
Proof.
  intros E K n0 N0 s P n k desc s' e HE HK H0 HOK HB R H. destruct (reaches_inv _ _ _ _ _ HE HK H0 HOK HB R) as [G [HI _]].
  destruct H as [H|[H|[H|H]]].
  - eapply process_good in H; try eassumption. destruct H as [G' [[X _] F]]. eapply found_follows; eauto.
  - eapply cleanup_good in H; try eassumption. destruct H as [[X _] F]. eapply found_follows; eauto.
  - eapply filter_unproc_good in H; try eassumption. destruct H as [[X _] F]. eapply found_follows; eauto.
  - eapply saturate_good in H; try eassumption. destruct H as [G' [[X _] F]]. eapply found_follows; eauto.
Qed.
(** So the input has no model.  The axiom of choice (Coq.Logic.ClassicalEpsilon) is needed to assign values to the variables of
    all sorts at once. *)
Theorem C35_unsatisfiable : forall E K n0 N0 s P n k desc s' e, env_ok E -> conf_ok E K n0 -> 2 < n0 -> Forall (clause_ok E) N0 -> Forall (below n0) N0 ->
  reaches E K n0 N0 s ->
  process_clause E K P n s = Some (s', Some e) \/ cleanup E K P n s = Some (s', Some e) \/ filter_unproc E K P n desc s = Some (s', Some e)
  \/ saturate E K P n k s = Some (s', Some e) ->
  unsat E N0.
Proof.
  intros E K n0 N0 s P n k desc s' e HE HK H0 HOK HB R H. destruct (C35_refutation E K n0 N0 s P n k desc s' e HE HK H0 HOK HB R H) as [_ F].
  intros M HM HT. specialize (F M HM HT (fun x => proj1_sig (constructive_indefinite_description _ (mo_inh _ _ _ HM (vsort (srt E) x))))).
  assert (X : Exists (holds M (fun x => proj1_sig (constructive_indefinite_description _ (mo_inh _ _ _ HM (vsort (srt E) x))))) []).
  { apply F. intros x. destruct (constructive_indefinite_description _ _) as [d Hd]. exact Hd. }
  inversion X.
Qed.
(** The clauses in the state when Saturate stops are also those of a reachable state. *)
Theorem C35_saturate : forall E K n0 N0 P n k s s', reaches E K n0 N0 s -> saturate E K P n k s = Some (s', None) -> reaches E K n0 N0 s'.
Proof.
  intros E K n0 N0 P n k. induction k as [|k IH]; intros s s' R H; cbn [saturate] in H; [injection H as <-; auto|].
  destruct (unproc s); [injection H as <-; auto|].
  destruct (process_clause E K P n s) as [[s1 [e|]]|] eqn:PC; try discriminate. destruct (cleanup E K P n s1) as [[s2 [e|]]|] eqn:CL; try discriminate.
  eapply IH; [|exact H]. apply reaches_tick. eapply reaches_cleanup; [|exact CL]. eapply reaches_process; eauto.
Qed.

(** ** A run *)

(** codes from 30 on are propositional constants *)
Definition S2 : sorting := {| vsort := vsort S0; fres := fun f => if 30 <=? f then 0 else fres S0 f; fargs := fun f => if 30 <=? f then [] else fargs S0 f |}.
Definition E2 : env := {| srt := S2; pp := pp E0; dist := dist E0; pspred := pspred E0; fresh := fresh E0 |}.
Lemma E2_ok : env_ok E2.
Proof. pose proof E0_ok as H. constructor; try apply H; reflexivity. Qed.
Definition scan2 (st : defstore) (d : clause) : option (clause * sym) :=
  find (fun q => match clause_subsumes E2 60 (fst q) d, clause_subsumes E2 60 d (fst q) with Ans true, Ans true => true | _, _ => false end) st.
Definition K2 : conf := {|
  ordr := o0; gtb := fun _ _ => false; strong_inst := true; minterm := fun _ => a0; eno := fun _ => 0%Z; max_neg := 10; altv := fun x => 20 + 2 * (x / 2); lookup := scan2;
  given_simpl := true; fwd_csr := true; fwd_csr_aggr := true; bwd_csr := true; condensing := true; condensing_aggr := true;
  local_rewriting := true; strong_subsumption := true; forward_demod := FullRewrite; subsumption_aggr := true;
  er_varlit := true; er_strong := true; er_aggr := true; er_max_only := false;
  split_horn := true; split_nonhorn := true; split_negative := true; split_positive := true; split_mixed := true;
  split_how := SplitGroundFull; split_fresh := false; split_aggr := true;
  eq_factoring := true; diseq_lits := 5; diseq_arity := 5; neg_unit_pm := true; pm_type := PmPlain; generate := true; ac_handling := ACDiscardAll |}.
Example K2_ok : conf_ok E2 K2 30.
Proof.
  constructor.
  - intros st d d' p H. apply List.find_some in H. destruct H as [I H]. split; auto. cbn [fst] in H. exists 60.
    destruct (clause_subsumes E2 60 d' d) as [[|]| |]; try discriminate. destruct (clause_subsumes E2 60 d d') as [[|]| |]; try discriminate. auto.
  - intros _ x. cbn. repeat split; auto. + intros y []. + intros f [<-|[]]. lia.
  - intros x. split; auto. cbn [altv K2]. unfold is_fresh. rewrite <- Nat.negb_even, Nat.even_add_mul_2. reflexivity.
  - intros m f Hf. cbn [srt E2 S2 fres fargs dist]. assert (30 <=? f = true) as -> by (apply Nat.leb_le; lia). repeat split.
    unfold dist, E2, E0, dist0. do 30 (destruct f as [|f]; [lia|]). reflexivity.
Qed.
(** the first unprocessed clause, no selection, all overlaps at the top of literals *)
Definition P2 : policy := {|
  orphan := fun _ _ => false; bad := fun _ _ => false; contract_all := fun _ => true; choose := fun _ => Some 0; choose_lits := fun _ _ _ => false;
  dem_order := fun _ _ _ _ => seq 0 4; unit_order := fun _ _ => seq 0 4;
  overlaps := fun s c => flat_map (fun k => flat_map (fun '(i, d) => flat_map (fun fn : bool =>
     flat_map (fun a => map (fun b => {| pset_no := k; pcl := i; from_new := fn; indexed := true; ofi := a; ofs := true; oii := b; ois := true; opos := [] |})
                            (seq 0 (length (if fn then lits d else c)))) (seq 0 (length (if fn then c else lits d)))) [true; false])
     (combine (seq 0 (length (proc_set s k))) (proc_set s k))) (seq 0 4);
  factor_pairs := fun _ _ => []; counts := fun _ _ => 0; bw_terms := fun _ => []; bw_found := fun _ _ => false; tmp_order := fun s => seq 0 (length (tmp s)); has_split_lit := fun _ c => existsb (fun e => match lt e with Fun f _ => 30 <=? f | _ => false end) c |}.
Definition N2 : list clause := [[at0 (p0 a0)]; [nat0 (p0 X0); at0 (p0 (f0 X0))]; [nat0 (p0 (f0 (f0 a0))); eq0 a0 b0]; [ne0 a0 b0]].
(** p(a), ~p(X) | p(f(X)), ~p(f(f(a))) | a = b, a != b: after three rounds, in which the third clause was split, two predicates have been
    introduced and clauses over the input symbols derived; later the empty clause is found *)
Example run_of_N2 :
  Forall (clause_ok E2) N2 /\ Forall (below 30) N2 /\
  (exists s c, saturate E2 K2 P2 60 3 (init K2 30 N2) = Some (s, None) /\ nextc s = 32 /\ reaches E2 K2 30 N2 s /\ In c (all_clauses s) /\ below 30 c /\ map (fun e => (pos e, lt e)) c = [(true, p0 (f0 a0))]) /\
  (exists s e, saturate E2 K2 P2 60 20 (init K2 30 N2) = Some (s, Some e)).
Proof.
  split; [repeat (constructor; [apply clause_okb; reflexivity|]); constructor|]. split.
  { repeat (constructor; [intros e f I Hf; cbn in I; repeat (destruct I as [<-|I]; [vm_compute in Hf; repeat (destruct Hf as [<-|Hf]; [lia|]); destruct Hf|]); destruct I|]). constructor. }
  split.
  - assert (H : match saturate E2 K2 P2 60 3 (init K2 30 N2) with
                | Some (s, None) => nextc s = 32 /\ nth_error (all_clauses s) 3 = Some [mkeqn (p0 (f0 a0)) ttrue true true true true true false false]
                | _ => False end) by (vm_compute; split; reflexivity).
    destruct (saturate E2 K2 P2 60 3 (init K2 30 N2)) as [[s [e|]]|] eqn:Q; try contradiction. destruct H as [A B]. exists s. eexists. split; auto. split; auto.
    split; [eapply C35_saturate; [apply reaches_init|exact Q]|]. split; [eapply nth_error_In; exact B|]. split; [|reflexivity].
    intros e f [<-|[]] Hf. vm_compute in Hf. repeat (destruct Hf as [<-|Hf]; [lia|]). destruct Hf.
  - assert (H : match saturate E2 K2 P2 60 20 (init K2 30 N2) with Some (s, Some e) => True | _ => False end) by (vm_compute; exact I).
    destruct (saturate E2 K2 P2 60 20 (init K2 30 N2)) as [[s [e|]]|]; try contradiction. exists s, e. reflexivity.
Qed.

Print Assumptions C35_sound.
Print Assumptions C35_sound_without_splitting.
Print Assumptions C35_state_unsat.
Print Assumptions C35_well_formed.
Print Assumptions C35_refutation.
Print Assumptions C35_unsatisfiable.
Print Assumptions C35_saturate.
