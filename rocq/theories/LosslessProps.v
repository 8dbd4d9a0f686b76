(** * C61: what saturation replaces can be recovered from what is left. *)
From Coq Require Import ZArith.
From Verif Require Import Terms Unify UnifyProofs KBO Semantics Clauses ClausesProofs LitOrder ExEnv Infer Subsume Taut Rewrite RewriteHist Split SplitSemProofs SplitProps AC ACScan Saturate SaturateSyms SaturateRw SaturateStep SaturateProofs SaturateProps Lossless LosslessStep LosslessProofs LosslessEx.
Local Open Scope nat_scope.

Lemma facts_follow E K n0 N G s d : inv E K n0 N G s -> In d (facts E s) -> follows E G d.
Proof.
  intros [[_ HS] HG] I. unfold facts in I. rewrite !in_app_iff in I. destruct I as [I|[I|I]].
  - apply in_map_iff in I. destruct I as [c [<- I]]. destruct HG as [B1 B2 B3 _ _ _ _ _ _]. rewrite Forall_forall in B1, B2, B3. rewrite !in_app_iff in I.
    destruct I as [I|[I|I]]; [apply (B1 c I)|apply (B2 c I)|apply (B3 c I)].
  - destruct (s_a _ _ _ _ HG) as [_ F]. rewrite Forall_forall in F. apply (F d I).
  - apply in_map_iff in I. destruct I as [[l p] [<- I]]. apply HS. auto.
Qed.
Lemma known_mono E D D' s : incl D D' -> known E D s -> known E D' s.
Proof.
  intros I [A B C F]. constructor; try (eapply Forall_impl; [|eassumption]; intros c; apply follows_mono; auto). eapply links_mono; [exact I| |exact F]. auto.
Qed.
Lemma orphans_mono E P D D' s : incl D D' -> orphans_follow E P D s -> orphans_follow E P D' s.
Proof. intros I H c Hc Q. eapply follows_mono; [|apply H; auto]. intros x. rewrite !in_app_iff. intros [X|X]; auto. Qed.

Lemma run_inv E K n0 N D s : env_ok E -> conf_ok E K n0 -> 2 < n0 -> Forall (clause_ok E) N -> Forall (below n0) N -> numbered K -> run_with E K n0 N D s ->
  (exists G, inv E K n0 N G s /\ forall d, In d D -> follows E G d)
  /\ forall M, model_ok (srt E) (dist E) M -> satisfied E M D -> known E D s /\ (TR E M s -> satisfied E M N).
Proof.
  intros HE HK H0 HOK HB HN R. induction R as [|P n D s s' R [[G [HI HF]] IH] KP OF H|P n D s s' R [[G [HI HF]] IH] KP OF H|P n desc D s s' R [[G [HI HF]] IH] H|D s R [[G [HI HF]] IH]].
  - pose proof (init_inv E K n0 N HOK HB) as I0. split; [exists N; split; [exact I0|]; intros d Hd; eapply facts_follow; eauto|]. intros M HM HD. split.
    + constructor; cbn [init rules eqns links acs]; try solve [constructor].
      * apply Forall_forall. intros c Hc M' HM' HT. apply HT. unfold facts. rewrite !in_app_iff. auto.
      * intros t u a b Q. discriminate.
    + intros [_ TU _]. cbn [init unproc] in TU. rewrite Forall_map in TU. intros c Hc. rewrite Forall_forall in TU. exact (TU c Hc).
  - destruct (process_good E K n n0 N HE HK H0 HOK HB P G s s' None HI H) as [G' [[HI' [IG _]] _]]. split.
    + exists G'. split; auto. intros d Hd. apply in_app_or in Hd. destruct Hd as [Hd|Hd]; [eapply follows_mono; [exact IG|auto]|eapply facts_follow; eauto].
    + intros M HM HD. destruct (IH M HM) as [KN TN]; [intros c Hc; apply HD; apply in_or_app; auto|].
      assert (I1 : incl D (D ++ facts E s')) by (intros x Hx; apply in_or_app; auto).
      destruct (process_back E K n n0 N HE HK H0 HOK HB HN P (D ++ facts E s') M HM HD G s s' HI (known_mono _ _ _ _ I1 KN) KP (orphans_mono _ _ _ _ _ I1 OF) H) as [A B]; [intros x Hx; apply in_or_app; auto|]. auto.
  - destruct (cleanup_good E K n n0 N HE HK H0 P G s s' None HI H) as [[HI' [IG _]] _]. split.
    + exists G. split; auto. intros d Hd. apply in_app_or in Hd. destruct Hd as [Hd|Hd]; [auto|eapply facts_follow; eauto].
    + intros M HM HD. destruct (IH M HM) as [KN TN]; [intros c Hc; apply HD; apply in_or_app; auto|].
      assert (I1 : incl D (D ++ facts E s')) by (intros x Hx; apply in_or_app; auto).
      destruct (cleanup_back E K n n0 N HE HK H0 HN P (D ++ facts E s') M HM HD G s s' HI (known_mono _ _ _ _ I1 KN) KP (orphans_mono _ _ _ _ _ I1 OF) H) as [A B]. auto.
  - destruct (filter_unproc_good E K n n0 N HE HK H0 P desc G s s' None HI H) as [[HI' [IG _]] _]. split.
    + exists G. split; auto. intros d Hd. apply in_app_or in Hd. destruct Hd as [Hd|Hd]; [auto|eapply facts_follow; eauto].
    + intros M HM HD. destruct (IH M HM) as [KN TN]; [intros c Hc; apply HD; apply in_or_app; auto|].
      assert (I1 : incl D (D ++ facts E s')) by (intros x Hx; apply in_or_app; auto).
      destruct (filter_unproc_back E K n n0 N HE HK H0 HN P (D ++ facts E s') M HM HD desc G s s' HI (known_mono _ _ _ _ I1 KN) H) as [A B]. auto.
  - split; [exists G; split; auto; apply inv_tick; auto|]. intros M HM HD. destruct (IH M HM HD) as [[A B C F] TN]. split; [constructor; auto|]. intros [[T1 T2 T3 T4] TU TT]. apply TN. constructor; auto. constructor; auto.
Qed.
Lemma run_reaches E K n0 N D s : run_with E K n0 N D s -> reaches E K n0 N s.
Proof.
  intros R. induction R as [|P n D s s' R IH KP OF H|P n D s s' R IH KP OF H|P n desc D s s' R IH H|D s R IH];
    [apply reaches_init|eapply reaches_process; eauto|eapply reaches_cleanup; eauto|eapply reaches_filter; eauto|apply reaches_tick; auto].
Qed.

Lemma facts_below E K n0 N G s d : env_ok E -> conf_ok E K n0 -> 2 < n0 -> Forall (clause_ok E) N -> Forall (below n0) N -> inv E K n0 N G s -> In d (facts E s) -> below (nextc s) d.
Proof.
  intros HE HK H0 HOK HB [[MV _] HG] I. unfold facts in I. rewrite !in_app_iff in I. destruct I as [I|[I|I]].
  - apply in_map_iff in I. destruct I as [c [<- I]]. destruct HG as [B1 B2 B3 _ _ _ _ _ _]. rewrite Forall_forall in B1, B2, B3. rewrite !in_app_iff in I. apply below_lok.
    destruct I as [I|[I|I]]; eapply cgood_lok; [apply (B1 c I)|apply (B2 c I)|apply (B3 c I)].
  - destruct (s_a _ _ _ _ HG) as [_ F]. rewrite Forall_forall in F. apply below_lok. eapply cgood_lok. apply (F d I).
  - apply in_map_iff in I. destruct I as [[l p] [<- I]]. assert (TB : forall sv : list var, sv = [] -> tabulable sv) by (intros sv ->; apply tabulable_nil).
    destruct (moves_inv E HE (lookup K) (co_lookup _ _ _ HK) (fun sv => sv = []) N n0 _ TB HOK HB H0 MV) as [[_ [_ [Hst _]]] [_ [_ Hle]]]. cbn [pstore pnext] in Hst, Hle. destruct (Hst l p I) as [A [_ [B _]]].
    intros e f [<-|He] Hf; [|exact (B e f He Hf)]. destruct (def_lit_syms E [] p true f Hf) as [-> | ->]; auto. unfold true_code. lia.
Qed.
Lemma run_below E K n0 N D s : env_ok E -> conf_ok E K n0 -> 2 < n0 -> Forall (clause_ok E) N -> Forall (below n0) N -> (forall l, split_wanted K l = false) -> run_with E K n0 N D s ->
  forall d, In d D -> below n0 d.
Proof.
  intros HE HK H0 HOK HB NS R.
  assert (X : forall D s, run_with E K n0 N D s -> forall d, In d (facts E s) -> below n0 d).
  { intros D' x R' d Hd. destruct (reaches_inv _ _ _ _ _ HE HK H0 HOK HB (run_reaches _ _ _ _ _ _ R')) as [G [HI [_ [_ Q]]]]. specialize (Q NS). cbn [init nextc] in Q. rewrite <- Q. eapply facts_below; eauto. }
  induction R as [|P n D s s' R IH KP OF H|P n D s s' R IH KP OF H|P n desc D s s' R IH H|D s R IH]; auto.
  - apply (X (facts E (init K n0 N))). constructor.
  - intros d Hd. apply in_app_or in Hd. destruct Hd as [Hd|Hd]; auto. eapply X; [|exact Hd]. eapply rw_process; eauto.
  - intros d Hd. apply in_app_or in Hd. destruct Hd as [Hd|Hd]; auto. eapply X; [|exact Hd]. eapply rw_cleanup; eauto.
  - intros d Hd. apply in_app_or in Hd. destruct Hd as [Hd|Hd]; auto. eapply X; [|exact Hd]. eapply rw_filter; eauto.
Qed.

(** Whatever makes the clauses of a state and the facts used so far true, makes the input true: no step loses information that cannot
    be recovered from them. *)
Theorem C61_nothing_lost : forall E K n0 N D s M, env_ok E -> conf_ok E K n0 -> 2 < n0 -> Forall (clause_ok E) N -> Forall (below n0) N -> numbered K ->
  run_with E K n0 N D s -> model_ok (srt E) (dist E) M -> satisfied E M (D ++ all_clauses s) -> satisfied E M N.
Proof.
  intros E K n0 N D s M HE HK H0 HOK HB HN R HM HT. destruct (run_inv _ _ _ _ _ _ HE HK H0 HOK HB HN R) as [_ X].
  destruct (X M HM) as [_ Y]; [intros c Hc; apply HT; apply in_or_app; auto|]. apply Y.
  assert (T : forall c, In c (rules s ++ eqns s ++ negs s ++ nons s ++ unproc s ++ tmp s) -> clause_true (srt E) M (lits c)).
  { intros c Hc. apply HT. apply in_or_app. right. unfold all_clauses. apply in_map. auto. }
  constructor; [constructor| |]; apply Forall_forall; intros c Hc; apply T; rewrite !in_app_iff; tauto.
Qed.
(** The facts are consequences of the input as far as they are about its symbols. *)
Theorem C61_facts : forall E K n0 N D s d, env_ok E -> conf_ok E K n0 -> 2 < n0 -> Forall (clause_ok E) N -> Forall (below n0) N -> numbered K ->
  run_with E K n0 N D s -> In d D -> below n0 d -> follows E N d.
Proof.
  intros E K n0 N D s d HE HK H0 HOK HB HN R I B. destruct (run_inv _ _ _ _ _ _ HE HK H0 HOK HB HN R) as [[G [HI HF]] _].
  apply (proj1 (C20_conservative E (lookup K) N n0 _ d HE (co_lookup _ _ _ HK) HOK HB H0 (proj1 (proj1 HI)) B)). apply HF. auto.
Qed.
(** Clauses and facts together are satisfiable exactly when the input is, also with splitting. *)
Theorem C61_equisatisfiable : forall E K n0 N D s, env_ok E -> conf_ok E K n0 -> 2 < n0 -> Forall (clause_ok E) N -> Forall (below n0) N -> numbered K ->
  run_with E K n0 N D s -> unsat E (D ++ all_clauses s) <-> unsat E N.
Proof.
  intros E K n0 N D s HE HK H0 HOK HB HN R. split; intros HU.
  - destruct (run_inv _ _ _ _ _ _ HE HK H0 HOK HB HN R) as [[G [HI HF]] _].
    apply (proj1 (C20_history E (lookup K) N n0 _ HE (co_lookup _ _ _ HK) HOK HB H0 (proj1 (proj1 HI)))). intros M HM HT. apply (HU M HM).
    intros c Hc. apply in_app_or in Hc. destruct Hc as [Hc|Hc]; [apply (HF c Hc M HM HT)|apply (proj2 (inv_all _ _ _ _ _ _ _ HI Hc)); auto].
  - intros M HM HT. apply (HU M HM). eapply C61_nothing_lost; eauto.
Qed.
(** Without splitting they have exactly the models of the input. *)
Theorem C61_equivalent : forall E K n0 N D s M, env_ok E -> conf_ok E K n0 -> 2 < n0 -> Forall (clause_ok E) N -> Forall (below n0) N -> numbered K ->
  (forall l, split_wanted K l = false) -> run_with E K n0 N D s -> model_ok (srt E) (dist E) M ->
  satisfied E M (D ++ all_clauses s) <-> satisfied E M N.
Proof.
  intros E K n0 N D s M HE HK H0 HOK HB HN NS R HM. split; [eapply C61_nothing_lost; eauto|]. intros HT c Hc. apply in_app_or in Hc. destruct Hc as [Hc|Hc].
  - refine (C61_facts E K n0 N D s c HE HK H0 HOK HB HN R Hc (run_below _ _ _ _ _ _ HE HK H0 HOK HB NS R c Hc) M HM HT).
  - destruct (C35_sound_without_splitting E K n0 N s c HE HK H0 HOK HB NS (run_reaches _ _ _ _ _ _ R) Hc) as [_ F]. apply (F M HM HT).
Qed.
(** The main loop makes such runs, when no clause is an orphan. *)
Theorem C61_saturate : forall E K n0 N P n k D s s', keeping P -> (forall s c, orphan P s c = false) -> run_with E K n0 N D s -> saturate E K P n k s = Some (s', None) ->
  exists D', run_with E K n0 N D' s'.
Proof.
  intros E K n0 N P n k. induction k as [|k IH]; intros D s s' KP NO R H; cbn [saturate] in H; [injection H as <-; eauto|].
  destruct (unproc s) as [|u0 us]; [injection H as <-; eauto|].
  destruct (process_clause E K P n s) as [[s1 [e|]]|] eqn:PC; try discriminate. destruct (cleanup E K P n s1) as [[s2 [e|]]|] eqn:CL; try discriminate.
  assert (OF : forall D s, orphans_follow E P D s) by (intros D' x c _ Q; rewrite NO in Q; discriminate).
  eapply IH; [exact KP|exact NO| |exact H]. apply rw_tick. eapply rw_cleanup; [|exact KP|apply OF|exact CL]. eapply rw_process; eauto.
Qed.

(** ** A run that loses part of the input *)
Lemma unary_cut : forall a b r r', unary a ++ r = unary b ++ r' -> a = b /\ r = r'.
Proof. induction a as [|a IH]; intros [|b] r r' H; cbn in H; try discriminate; injection H as H; auto. destruct (IH b r r' H); auto. Qed.
Fixpoint codes (l : list term) : list bool := match l with [] => [] | u :: l' => code u ++ codes l' end.
Lemma code_fun f a : code (Fun f a) = false :: unary f ++ unary (length a) ++ codes a.
Proof. cbn [code]. do 4 f_equal. Qed.
Lemma code_cut : forall t u r r', code t ++ r = code u ++ r' -> t = u /\ r = r'.
Proof.
  induction t as [x|f a IH] using term_ind'; intros [y|g b] r r' H; try (cbn [code] in H; discriminate); try (rewrite code_fun in H; cbn [code] in H; discriminate).
  - cbn in H. injection H as H. apply unary_cut in H. destruct H as [-> ->]. auto.
  - rewrite !code_fun in H. cbn [app] in H. injection H as H. rewrite <- !app_assoc in H. apply unary_cut in H. destruct H as [-> H]. apply unary_cut in H. destruct H as [L H].
    assert (X : a = b /\ r = r').
    { clear g. revert b r r' L H. induction IH as [|t a Ht _ IHa]; intros [|u b] r r' L H; try discriminate; [auto|]. cbn [codes] in H. rewrite <- !app_assoc in H. apply Ht in H. destruct H as [-> H].
      injection L as L. destruct (IHa b r r' L H) as [-> ->]. auto. }
    destruct X as [-> ->]. auto.
Qed.
Lemma bits_inj : forall l l', bits l = bits l' -> l = l'.
Proof. induction l as [|[|] l IH]; intros [|[|] l'] H; cbn in H; try discriminate; auto; injection H as H; f_equal; auto. Qed.
Lemma eno61_numbered : numbered K61.
Proof.
  intros t u H. cbn [eno K61] in H. unfold eno61 in H. injection H as H. apply bits_inj in H. destruct (code_cut t u [] []) as [A _]; auto. rewrite H. reflexivity.
Qed.
Lemma E61_ok : env_ok E61.
Proof.
  constructor; cbn [E61 srt S61 fres fargs vsort fresh dist pp]; auto; try reflexivity.
  - intros s k. unfold is_fresh. rewrite <- Nat.negb_even. replace (Datatypes.S (2 * k)) with (1 + 2 * k) by lia. rewrite Nat.even_add_mul_2. reflexivity.
  - intros s k k' H. lia.
Qed.
Lemma K61_ok : conf_ok E61 K61 30.
Proof.
  constructor.
  - intros st d d' p H. discriminate.
  - intros H. discriminate.
  - intros x. split; auto. cbn [altv K61]. unfold is_fresh. rewrite <- Nat.negb_even, Nat.even_add_mul_2. reflexivity.
  - intros m f Hf. cbn [srt E61 S61 fres fargs dist]. assert (30 <=? f = true) as -> by (apply Nat.leb_le; lia). repeat split. do 30 (destruct f as [|f]; [lia|]). reflexivity.
Qed.
Lemma P61_keeping o h : keeping (P61 o h).
Proof. constructor; [reflexivity|]. intros s i Hi. cbn [tmp_order P61]. apply in_seq. lia. Qed.
(** the input is unsatisfiable: f(a) = g(d) = h(d) *)
Lemma N61_unsat : unsat E61 N61.
Proof.
  intros M HM HT.
  assert (HV : exists v : var -> dom M, respects S61 M v).
  { destruct (mo_inh _ _ _ HM 1) as [d Hd]. exists (fun _ => d). intros x. exact Hd. }
  destruct HV as [v Hv].
  assert (U : forall x d, isort M 1 d -> respects S61 M (fun y => if Nat.eqb x y then d else v y)) by (intros x d Hd y; destruct (Nat.eqb x y); [exact Hd|apply Hv]).
  assert (HA : isort M 1 (eval M v a61)) by (exact (eval_sort S61 (dist E61) M v a61 HM Hv eq_refl)).
  assert (HD : isort M 1 (eval M v d61)) by (exact (eval_sort S61 (dist E61) M v d61 HM Hv eq_refl)).
  set (v2 := fun y => if Nat.eqb 2 y then eval M v a61 else if Nat.eqb 4 y then eval M v d61 else if Nat.eqb 0 y then eval M v d61 else v y).
  assert (H2 : respects S61 M v2) by (intros y; unfold v2; destruct (Nat.eqb 2 y), (Nat.eqb 4 y), (Nat.eqb 0 y); auto; apply Hv).
  pose proof (HT _ (or_intror (or_intror (or_intror (or_introl eq_refl)))) v2 H2) as T3.
  pose proof (HT _ (or_intror (or_intror (or_intror (or_intror (or_introl eq_refl))))) v2 H2) as T4.
  pose proof (HT _ (or_intror (or_intror (or_intror (or_intror (or_intror (or_introl eq_refl)))))) v2 H2) as T5.
  pose proof (HT _ (or_intror (or_intror (or_intror (or_intror (or_intror (or_intror (or_introl eq_refl))))))) v2 H2) as T6.
  inversion T3 as [? ? A3|? ? A3]; subst; [|inversion A3]. inversion T5 as [? ? A5|? ? A5]; subst; [|inversion A5]. inversion T6 as [? ? A6|? ? A6]; subst; [|inversion A6].
  assert (A4 : eval M v2 (f61 Y0) = eval M v2 (g61 Z0)).
  { inversion T4 as [? ? A4|? ? A4]; subst; [exfalso; apply A4; exact A3|]. inversion A4 as [? ? A|? ? A]; subst; [exact A|inversion A]. }
  apply A6. change (eval M v2 (f61 a61) = eval M v2 (h61 d61)). change (eval M v2 (f61 a61)) with (eval M v2 (f61 Y0)). rewrite A4. exact A5.
Qed.
(** a model of what is left in the end: f is constantly 1, everything else 0 *)
Definition M61 : structure := {|
  dom := nat;
  ifun := fun f _ => match f with 1 | 7 => 1 | 11 => 1 | _ => 0 end;
  isort := fun s d => match s with 0 => d = 0 \/ d = 1 | _ => True end |}.
Lemma M61_ok : model_ok (srt E61) (dist E61) M61.
Proof.
  constructor; cbn [M61 isort ifun dom]; try (intros; lia || discriminate).
  - intros f ds _. cbn [E61 srt S61 fres]. destruct (30 <=? f) eqn:L.
    + apply Nat.leb_le in L. left. do 12 (destruct f as [|f]; [lia|]). reflexivity.
    + clear L. do 12 (destruct f as [|f]; [try exact I; auto|]). exact I.
  - intros [|s]; exists 0; auto.
  - intros d [-> | ->]; auto.
Qed.
Lemma N61_ok : Forall (clause_ok E61) N61 /\ Forall (below 30) N61.
Proof.
  split; [repeat (constructor; [apply clause_okb; reflexivity|]); constructor|].
  repeat (constructor; [intros e f I Hf; cbn in I; repeat (destruct I as [<-|I]; [vm_compute in Hf; repeat (destruct Hf as [<-|Hf]; [lia|]); destruct Hf|]); destruct I|]). constructor.
Qed.
Lemma end61_left : exists s, end61 = Some (s, None) /\ unproc s = [] /\ tmp s = [] /\ sat E61 (all_clauses s).
Proof.
  assert (H : match end61 with
              | Some (s, None) => unproc s = [] /\ tmp s = [] /\
                  map (map (fun e => (pos e, lt e, rt e))) (all_clauses s) =
                  [[(true, m61 (h61 X0), b61)]; [(true, g61 X0, h61 X0)]; [(true, p61 X0, ttrue)]; [(true, c61, d61)]; [(true, h61 X0, h61 Y0)]; [(false, f61 a61, h61 d61)]]
              | _ => False end) by (vm_compute; repeat split; reflexivity).
  destruct end61 as [[s [e|]]|]; try contradiction. destruct H as [A [B C]]. exists s. repeat (split; [auto|]). exists M61. split; [apply M61_ok|].
  intros c Hc v Hv. apply (in_map (map (fun e => (pos e, lt e, rt e)))) in Hc. rewrite C in Hc. clear A B C.
  assert (X : exists e, In e c /\ holds M61 v e).
  { cbn [In] in Hc. repeat (destruct Hc as [Hc|Hc]); [..|destruct Hc]; (destruct c as [|e [|]]; cbn [map] in Hc; try discriminate);
      exists e; (split; [left; reflexivity|]); unfold holds; injection Hc as <- <- <-; cbn; auto; discriminate. }
  destruct X as [e [I H]]. apply Exists_exists. eauto.
Qed.
(** [C61_nothing_lost] is not true of the clauses alone: a rewrite link outlives the demodulator it came from, and what the demodulator said
    can vanish.  From unsatisfiable clauses the loop ends with nothing left to do, without the empty clause, and satisfiable clauses. *)
Theorem C61_clauses_alone_refuted : exists E K P n k n0 N s,
  env_ok E /\ conf_ok E K n0 /\ 2 < n0 /\ Forall (clause_ok E) N /\ Forall (below n0) N /\ numbered K /\ keeping P /\ (forall s c, orphan P s c = false) /\
  unsat E N /\ saturate E K P n k (init K n0 N) = Some (s, None) /\ unproc s = [] /\ tmp s = [] /\ sat E (all_clauses s).
Proof.
  destruct end61_left as [s [A [B [C D]]]]. exists E61, K61, (P61 order61 hit61), 60, 20, 30, N61, s.
  split; [apply E61_ok|]. split; [apply K61_ok|]. split; [lia|]. split; [apply N61_ok|]. split; [apply N61_ok|]. split; [apply eno61_numbered|].
  split; [apply P61_keeping|]. split; [reflexivity|]. split; [apply N61_unsat|]. split; [exact A|]. auto.
Qed.
(** In that run the facts make the difference. *)
Example facts_of_61 : exists D s, run_with E61 K61 30 N61 D s /\ end61 = Some (s, None) /\ sat E61 (all_clauses s) /\ unsat E61 (D ++ all_clauses s) /\
  (forall M, model_ok (srt E61) (dist E61) M -> satisfied E61 M (D ++ all_clauses s) <-> satisfied E61 M N61).
Proof.
  destruct end61_left as [s [A [_ [_ C]]]].
  destruct (C61_saturate E61 K61 30 N61 (P61 order61 hit61) 60 20 _ _ s (P61_keeping _ _) (fun _ _ => eq_refl) (rw_init E61 K61 30 N61) A) as [D R].
  exists D, s. split; [exact R|]. split; [exact A|]. split; [exact C|]. assert (L : 2 < 30) by lia. split.
  - apply (proj2 (C61_equisatisfiable E61 K61 30 N61 D s E61_ok K61_ok L (proj1 N61_ok) (proj2 N61_ok) eno61_numbered R)). exact N61_unsat.
  - intros M HM. apply (C61_equivalent E61 K61 30 N61 D s M E61_ok K61_ok L (proj1 N61_ok) (proj2 N61_ok) eno61_numbered); auto.
    intros l. unfold split_wanted. cbn [K61 split_horn split_nonhorn split_negative split_positive split_mixed]. rewrite !Bool.andb_false_r. reflexivity.
Qed.

Print Assumptions C61_nothing_lost.
Print Assumptions C61_facts.
Print Assumptions C61_equisatisfiable.
Print Assumptions C61_equivalent.
Print Assumptions C61_saturate.
Print Assumptions C61_clauses_alone_refuted.
