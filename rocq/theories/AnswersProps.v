(** * C57: answers are right.

    If the prover prints an answer to a question, one of the printed tuples solves the question, in every model of what is assumed and for all values of the
    variables of the answer. *)
From Coq Require Import Permutation Classical_Prop.
From Verif Require Import AC.
From Verif Require Import Terms Unify UnifyProofs KBO Semantics Clauses ClausesProofs LitOrder InferProofs ExEnv Subsume Taut Split SplitProofs SplitSemProofs SplitProps Infer CNF CNFProofs CNFTermProofs CNFSkolemProofs
  CNFMainProofs CNFProps CNFDefs CNFDefsProofs CNFDefsProps Unfold UnfoldProofs UnfoldProps Inj InjProofs InjProps Bce BceProofs BceProps PredElim PredRes PredInv PredElimProofs PredElimProps
  GoalDefs GoalDefsProofs GoalDefsProps Rewrite Saturate SaturateStep SaturateProofs SaturateSyms SaturateProps PipeSyms Pipeline PipeProofs PipeSteps PipeEnd PipelineProps Answers AnswersProofs.
Local Open Scope nat_scope.

(** ** The given clause *)
(** The contracted given clause follows from the clauses the saturation started with. *)
Theorem C57_given : forall E K n0 N0 s P n s1 c, env_ok E -> conf_ok E K n0 -> 2 < n0 -> Forall (clause_ok E) N0 -> Forall (below n0) N0 -> reaches E K n0 N0 s ->
  given E K P n s = Some (s1, Some c) -> clause_ok E (lits c) /\ (below n0 (lits c) -> follows E N0 (lits c)).
Proof.
  intros E K n0 N0 s P n s1 c HE HK H0 HOK HB R H. destruct (reaches_inv _ _ _ _ _ HE HK H0 HOK HB R) as [G [HI _]]. unfold given in H. cbv zeta in H. set (u := filter _ (unproc s)) in *.
  assert (HU : Forall (gd E G (nextc s)) u) by (apply forall_filter, (s_u _ _ _ _ (proj2 HI))).
  destruct (choose P s) as [i|]; [|discriminate]. destruct (nth_error u i) as [c0|] eqn:NE; [|discriminate].
  set (s0 := set_unproc s (except i u)) in *. assert (I0 : inv E K n0 N0 G s0) by (apply inv_unproc; auto using forall_except).
  assert (G0 : gd E G (nextc s0) c0) by (rewrite Forall_forall in HU; apply HU; eapply nth_error_In; eauto).
  eapply forward_contract_good in H; try eassumption. destruct H as [_ X]. specialize (X c eq_refl). split; [eapply cgood_ok, X|]. intros B.
  apply (proj1 (C20_conservative E (lookup K) N0 n0 _ (lits c) HE (co_lookup _ _ _ HK) HOK HB H0 (proj1 (proj1 HI)) B)). apply X.
Qed.
(** What is printed is a nonempty given clause of pseudo-literals. *)
Lemma printed_given E K P n answer limit count s s' k c ts r : process_answers E K P n answer limit count s = Some (s', k, Some (c, ts), r) ->
  c <> [] /\ Forall (fun e => pseudo e = true) c /\ ts = map (printed_tuple answer) c /\ exists s1 c1, given E K P n s = Some (s1, Some c1) /\ lits c1 = c.
Proof.
  unfold process_answers. intros H. destruct (given E K P n s) as [[s1 [c1|]]|] eqn:GQ; [|discriminate|discriminate].
  destruct (sem_false (lits c1)) eqn:SF; [|destruct (process_clause E K P n s) as [[? ?]|]; discriminate]. cbv zeta in H.
  assert (X : option_map (pair (lits c1)) (print_answer answer (lits c1)) = Some (c, ts)).
  { destruct (_ || _); [injection H as _ _ X _; exact X|]. destruct (process_clause E K P n s) as [[? ?]|]; [injection H as _ _ X _; exact X|discriminate]. }
  unfold print_answer in X. rewrite SF in X. destruct (lits c1) as [|e l] eqn:L; [discriminate|]. cbn [negb andb option_map] in X. injection X as <- <-.
  split; [discriminate|]. split; [apply Forall_forall; unfold sem_false in SF; rewrite forallb_forall in SF; auto|]. split; auto. exists s1, c1. auto.
Qed.
(** If the run goes on after a step, it goes on as without answers. *)
Lemma goes_on E K P n answer limit count s s' k p : process_answers E K P n answer limit count s = Some (s', k, p, None) -> process_clause E K P n s = Some (s', None).
Proof.
  unfold process_answers. intros H. destruct (given E K P n s) as [[s1 [c1|]]|] eqn:GQ; [| |discriminate].
  - destruct (sem_false (lits c1)); [|destruct (process_clause E K P n s) as [[? ?]|]; [injection H as <- _ _ ->; auto|discriminate]]. cbv zeta in H.
    destruct (_ || _); [discriminate|]. destruct (process_clause E K P n s) as [[? ?]|]; [injection H as <- _ _ ->; auto|discriminate].
  - injection H as <- _ _. unfold given in GQ. unfold process_clause. cbv zeta in *. destruct (choose P s) as [i|]; [|injection GQ as <-; auto]. destruct (nth_error _ i); [|discriminate]. rewrite GQ. reflexivity.
Qed.
(** Each printed answer was printed in some reachable state. *)
Lemma printed_reaches E K P n answer limit n0 N0 : forall k count s s' out r, reaches E K n0 N0 s -> saturate_answers E K P n answer limit k count s = Some (s', out, r) ->
  forall a, In a out -> exists s0 count0 s1 k1 r1, reaches E K n0 N0 s0 /\ process_answers E K P n answer limit count0 s0 = Some (s1, k1, Some a, r1).
Proof.
  induction k as [|k IH]; intros count s s' out r R H a I; cbn [saturate_answers] in H; [injection H as _ <- _; destruct I|].
  assert (H' : out = [] \/ match process_answers E K P n answer limit count s with
          | None => None
          | Some (s1, count1, p, r1) =>
              let out := match p with Some a => [a] | None => [] end in
              match r1 with
              | Some e => Some (s1, out, Some e)
              | None =>
                  match cleanup E K P n s1 with
                  | None => None
                  | Some (s2, Some e) => Some (s2, out, Some e)
                  | Some (s2, None) => match saturate_answers E K P n answer limit k count1 (tick s2) with Some (s3, l, r) => Some (s3, out ++ l, r) | None => None end
                  end
              end
          end = Some (s', out, r)) by (destruct (unproc s); [injection H as _ <- _; auto|auto]).
  clear H. destruct H' as [->|H]; [destruct I|]. destruct (process_answers E K P n answer limit count s) as [[[[s1 count1] p] r1]|] eqn:PA; [|discriminate]. cbv zeta in H.
  assert (FST : In a (match p with Some a => [a] | None => [] end) -> exists s0 count0 s1 k1 r1, reaches E K n0 N0 s0 /\ process_answers E K P n answer limit count0 s0 = Some (s1, k1, Some a, r1)).
  { destruct p as [b|]; [|intros []]. intros [->|[]]. exists s, count, s1, count1, r1. auto. }
  destruct r1 as [e|]; [injection H as _ <- _; auto|]. destruct (cleanup E K P n s1) as [[s2 [e|]]|] eqn:CL; [injection H as _ <- _; auto| |discriminate].
  destruct (saturate_answers E K P n answer limit k count1 (tick s2)) as [[[s3 l] r3]|] eqn:SA; [|discriminate]. injection H as _ <- _. apply in_app_or in I. destruct I as [I|I]; auto.
  eapply (IH count1 (tick s2)); eauto. apply reaches_tick. eapply reaches_cleanup; [|exact CL]. eapply reaches_process; [exact R|]. eapply goes_on; eauto.
Qed.
(** No more answers are printed than asked for; if fewer are, the run ended with the empty clause or without result. *)
Theorem C57_limit : forall E K P n answer limit n0 N0 k count s s' out r, env_ok E -> conf_ok E K n0 -> 2 < n0 -> Forall (clause_ok E) N0 -> Forall (below n0) N0 -> reaches E K n0 N0 s ->
  saturate_answers E K P n answer limit k count s = Some (s', out, r) ->
  (count < limit)%Z -> (count + Z.of_nat (length out) <= limit)%Z /\ (r = None -> (count + Z.of_nat (length out) < limit)%Z)
  /\ forall e, r = Some e -> (count + Z.of_nat (length out) < limit)%Z -> lits e = [] /\ follows E N0 [].
Proof.
  intros E K P n answer limit n0 N0 k. induction k as [|k IH]; intros count s s' out r HE HK H0 HOK HB R H LT; cbn [saturate_answers] in H.
  { injection H as _ <- <-. cbn. split; [lia|]. split; [intros; lia|discriminate]. }
  destruct (unproc s) as [|u us] eqn:UQ; [injection H as _ <- <-; cbn; split; [lia|]; split; [intros; lia|discriminate]|].
  destruct (process_answers E K P n answer limit count s) as [[[[s1 count1] p] r1]|] eqn:PA; [|discriminate]. cbv zeta in H.
  assert (PC : (count1 = count /\ p = None \/ count1 = (count + 1)%Z) /\ (r1 = None -> (count1 < limit)%Z /\ count1 = (count + Z.of_nat (length (match p with Some a => [a] | None => [] end)))%Z) /\ forall e, r1 = Some e -> (count1 < limit)%Z -> lits e = [] /\ follows E N0 []).
  { pose proof PA as PA'. unfold process_answers in PA. destruct (given E K P n s) as [[s2 [c1|]]|] eqn:GQ; [| |discriminate].
    - assert (RF : forall s3 e, process_clause E K P n s = Some (s3, Some e) -> lits e = [] /\ follows E N0 []) by (intros s3 e PX; apply (C35_refutation E K n0 N0 s P n 0 [] s3 e); auto).
      destruct (sem_false (lits c1)) eqn:SF.
      + cbv zeta in PA. destruct ((match lits c1 with [] => true | _ => false end) || (limit <=? count + 1)%Z) eqn:ST.
        * injection PA as _ <- _ <-. split; auto. split; [discriminate|]. intros e [= <-] L. cbn [with_lits lits]. apply orb_true_iff in ST. destruct ST as [ST|ST]; [|apply Z.leb_le in ST; lia].
          destruct (lits c1) as [|] eqn:LQ; [|discriminate]. unfold evaluate_answers. cbn. split; auto.
          destruct (C57_given E K n0 N0 s P n s2 c1 HE HK H0 HOK HB R GQ) as [_ FW]. rewrite LQ in FW. apply FW. intros e' f [].
        * apply orb_false_iff in ST. destruct ST as [NE ST]. apply Z.leb_gt in ST. destruct (process_clause E K P n s) as [[s3 r3]|]; [|discriminate]. unfold print_answer in PA. rewrite SF in PA.
          destruct (lits c1); [discriminate|]. cbn [negb andb option_map] in PA. injection PA as _ <- <- <-. split; auto. split; [intros; cbn; lia|]. intros e0 -> _. eauto.
      + destruct (process_clause E K P n s) as [[s3 r3]|]; [|discriminate]. injection PA as _ <- <- <-. split; auto. split; [intros; cbn; lia|]. intros e -> _. eauto.
    - injection PA as _ <- <- <-. split; auto. split; [intros; cbn; lia|discriminate]. }
  destruct PC as (P1 & P2 & P3). set (o := match p with Some a => [a] | None => [] end) in *.
  assert (LO : (count + Z.of_nat (length o) <= count1)%Z /\ (count1 <= count + 1)%Z) by (unfold o; destruct P1 as [[-> ->]| ->]; [cbn; lia|destruct p; cbn; lia]).
  assert (LE : (count1 < limit)%Z -> (count + Z.of_nat (length o) < limit)%Z) by lia.
  destruct r1 as [e|].
  { injection H as _ <- <-. split; [lia|]. split; [discriminate|]. intros e' [= <-] L. destruct P1 as [[-> ->]| ->]; [auto|]. destruct (Z.lt_ge_cases (count + 1) limit) as [X|X]; [auto|].
    unfold o in L. pose proof PA as PA'. unfold process_answers in PA'. destruct (given E K P n s) as [[s2 [c1|]]|] eqn:GQ; [|discriminate|discriminate].
    destruct (sem_false (lits c1)) eqn:SF; cbv zeta in PA'.
    2:{ destruct (process_clause E K P n s) as [[s3 r3]|]; [|discriminate]. injection PA' as _ X' _ _. lia. }
    unfold print_answer in PA'. rewrite SF in PA'. destruct (lits c1) as [|e1 l1] eqn:LQ.
    - cbn [negb andb option_map orb] in PA'. injection PA' as _ <- <-. cbn. unfold evaluate_answers. cbn. split; auto.
      destruct (C57_given E K n0 N0 s P n s2 c1 HE HK H0 HOK HB R GQ) as [_ FW]. rewrite LQ in FW. apply FW. intros e' f [].
    - cbn [negb andb option_map orb] in PA'. exfalso. assert (p <> None) by (destruct (limit <=? count + 1)%Z; [injection PA' as _ <- _; discriminate|]; destruct (process_clause E K P n s) as [[? ?]|]; [injection PA' as _ <- _; discriminate|discriminate]).
      destruct p; [|congruence]. cbn in L. lia. }
  specialize (P2 eq_refl). fold o in P2. destruct P2 as [P2 P4]. assert (R1 : reaches E K n0 N0 s1) by (eapply reaches_process; [exact R|]; eapply goes_on; eauto).
  destruct (cleanup E K P n s1) as [[s2 [e|]]|] eqn:CL; [| |discriminate].
  { injection H as _ <- <-. split; [lia|]. split; [discriminate|]. intros e' [= <-] _. apply (C35_refutation E K n0 N0 s1 P n 0 [] s2 e); auto. }
  destruct (saturate_answers E K P n answer limit k count1 (tick s2)) as [[[s3 l] r3]|] eqn:SA; [|discriminate]. injection H as _ <- <-. rewrite app_length, Nat2Z.inj_add.
  assert (R2 : reaches E K n0 N0 (tick s2)) by (apply reaches_tick; eapply reaches_cleanup; [exact R1|exact CL]).
  destruct (IH count1 (tick s2) s3 l r3 HE HK H0 HOK HB R2 SA P2) as (I1 & I2 & I3). split; [lia|]. split; [intros X; specialize (I2 X); lia|]. intros e X L. apply I3; auto. lia.
Qed.

Section Answers.
Variables (answer : sym) (indiv : sort) (caq : bool) (fuel : nat) (arrange : list var -> list var) (estimate : form -> bool -> Z) (def_limit mlimit : Z) (unroll : bool).
Hypothesis HA : keeps arrange.
Notation clausified := (to_clauses answer indiv true caq fuel arrange estimate def_limit mlimit unroll).

(** Everything up to the saturation *)
Record prepared (st : cstate) (ws : list wformula) (N N1 : list clause) (st1 : cstate) (E : env) (nE : sym) (P : popts) (K : orac) (N2 : list clause) (n2 : sym) : Prop := {
  pd_clauses : clausified st ws N = Some (N1, st1); pd_input : input caq st ws N; pd_answer : answer_ok answer indiv (c_env st) (c_next st) ws N;
  pd_grows : grows (c_env st1) (c_next st1) E nE; pd_ds : exists ds, clausal_preproc E P K (c_next st1) N1 = Some (N2, n2, ds) /\ pre_ok E P K (c_next st1) N1 ds }.
(** The structures differ only in the interpretation of [answer] and of new symbols. *)
Definition same_but (n : sym) (M M' : structure) : Prop :=
  exists F, M' = {| dom := dom M; ifun := F; isort := isort M |} /\ forall f ds, f < n -> f <> answer -> F f ds = ifun M f ds.
(** The values of the answer symbols can tell solutions from other tuples: there are two individuals, or just one question, which asks for individuals. *)
Definition distinguishes (E : env) (n : sym) (ws : list wformula) (M : structure) : Prop :=
  (exists d d', isort M indiv d /\ isort M indiv d' /\ d <> d') \/ exists k xs b, questions caq n ws = [(k, xs, b)] /\ Forall (fun x => vsort (srt E) x = indiv) xs.

Lemma extension st ws N N1 st1 E nE P K N2 n2 M d0 d1 : prepared st ws N N1 st1 E nE P K N2 n2 -> model_of caq (c_env st) ws N M ->
  (forall f, plain caq ws f -> ~ form_true (srt (c_env st)) M f) -> isort M indiv d0 -> isort M indiv d1 ->
  exists M', model_ok (srt E) (dist E) M' /\ satisfied E M' N2 /\ c_next st <= n2 /\ (forall x, vsort (srt E) x = vsort (srt (c_env st)) x) /\ env_ok E /\
    (forall k xs b, In (k, xs, b) (questions caq (c_next st) ws) -> fargs (srt E) k = map (vsort (srt (c_env st))) xs /\ fres (srt E) k = indiv) /\
    exists F, M' = mk (dom M) (isort M) F /\ (forall f ds, f < c_next st -> f <> answer -> F f ds = ifun M f ds) /\
      (forall d, F answer [d] = ifun M true_code [] -> answered caq st ws M d0 d1 d) /\
      (forall k xs b ds, In (k, xs, b) (questions caq (c_next st) ws) -> F k ds = collect st M d0 d1 xs b ds).
Proof.
  intros [H I AN G [ds [HP PO]]] (HM & HS & HT) HW S0 S1. destruct I as [HE HN FO OK BL CL]. unfold to_clauses in H.
  destruct (preproc_conjectures answer indiv true caq st ws) as [ws' st0] eqn:PC. destruct (set_cnf fuel arrange estimate def_limit mlimit unroll st0 (map snd ws')) as [[cs st2]|] eqn:C; [|discriminate]. injection H as <- <-.
  destruct (prep_spec answer indiv caq ws st ws' st0 PC) as (_ & _ & G0 & DC). pose proof (prep_ok answer indiv caq st ws ws' st0 N HE HN FO AN PC) as IN.
  pose proof (gr_ok _ _ _ _ G0 HE (proj1 HN)) as HE0. pose proof (grows_next _ _ _ _ G0 HN) as HN0. pose proof (gr_le _ _ _ _ G0) as L0.
  pose proof (cnf_grows arrange estimate def_limit mlimit unroll fuel HA _ st0 cs st2 HE0 HN0 IN C) as G1. pose proof (gr_le _ _ _ _ G1) as L1.
  pose proof (FA_model answer indiv caq st st0 ws ws' N M HE HN AN PC HM d0 d1 S0 S1) as MM.
  set (MA := mk (dom M) (isort M) (FA answer caq st st0 ws M d0 d1)) in *.
  assert (TF : forall f, In f (map snd ws') -> form_true (srt (c_env st0)) MA f).
  { apply (FA_forms answer indiv caq st st0 ws ws' N M HN FO AN PC HM d0 d1); auto. intros f PF. apply (closed_not _ _ _ _ HM); auto. destruct PF as (r & A & B & _). apply CL. exists r. auto. }
  destruct (cnf_forward arrange estimate def_limit mlimit unroll fuel HA _ st0 cs st2 E nE MA HE0 HN0 IN C G MM TF) as (M1 & SB1 & HM1 & T1).
  destruct (C56_preprocessing E P K _ _ N2 n2 ds HP PO) as (L2 & _ & _ & _ & _ & _ & EX).
  assert (V : forall x, vsort (srt E) x = vsort (srt (c_env st)) x) by (intros x; rewrite (gr_vsort _ _ _ _ G), (gr_vsort _ _ _ _ G1), (gr_vsort _ _ _ _ G0); auto).
  assert (TN : satisfied E MA N).
  { intros c Hc. apply (clause_true_sorts (srt (c_env st))); [intros x; symmetry; auto|]. apply (FA_clauses answer indiv caq st st0 ws N M BL AN d0 d1); auto. }
  assert (T1' : satisfied E M1 (N ++ cs)).
  { intros c Hc. apply in_app_or in Hc. destruct Hc as [Hc|Hc]; auto. apply (same_clause E E (c_next st0) MA M1 c SB1); auto. rewrite Forall_forall in BL. eapply below_mono; [exact L0|]. auto. }
  destruct (EX M1 HM1 T1') as (M2 & HM2 & SB2 & T2). exists M2. split; auto. split; auto. split; [lia|]. split; auto. split; [apply (pr_env _ _ _ _ _ _ PO)|]. split.
  { intros k xs b Hk. destruct (DC k xs b Hk) as (D1 & D2 & D3). rewrite (gr_fargs _ _ _ _ G), (gr_fargs _ _ _ _ G1), (gr_fres _ _ _ _ G), (gr_fres _ _ _ _ G1) by lia. auto. }
  assert (SB : same_below (c_next st0) MA M2) by (eapply same_trans; [exact SB1|eapply same_le; [|exact SB2]; auto]).
  destruct SB as (F & -> & AF). cbn [MA mk dom isort ifun] in *. exists F. split; [reflexivity|]. pose proof (an_known _ _ _ _ _ _ AN) as AK. split; [|split].
  - intros f fs Hf NA. rewrite AF by lia. apply FA_old; auto.
  - intros d X. rewrite AF in X by lia. apply (FA_answer answer caq st st0 ws M HM d0 d1); auto.
  - intros k xs b fs Hk. destruct (DC k xs b Hk) as (D1 & _). rewrite AF by lia. eapply FA_new; eauto.
Qed.

(** An answer is right: in every model of what is assumed in which no other conjecture is true, after an interpretation of the new symbols (Skolem functions may
    occur in an answer), one of the tuples of the clause solves its question, for all values of the variables of the answer. *)
Theorem C57_answers : forall st ws N N1 st1 E nE P K N2 n2 KS s Q n limit count s' k c ts r, prepared st ws N N1 st1 E nE P K N2 n2 ->
  conf_ok E KS n2 -> reaches E KS n2 N2 s -> process_answers E KS Q n answer limit count s = Some (s', k, Some (c, ts), r) ->
  answers_to answer (questions caq (c_next st) ws) c -> below n2 c ->
  forall M, model_of caq (c_env st) ws N M -> (forall f, plain caq ws f -> ~ form_true (srt (c_env st)) M f) -> distinguishes (c_env st) (c_next st) ws M ->
  exists M', same_but (c_next st) M M' /\ model_ok (srt E) (dist E) M' /\
    forall v, respects (srt E) M' v -> exists e u k xs b, In e c /\ In (Some u) ts /\ lt e = Fun answer [Fun k u] /\ In (k, xs, b) (questions caq (c_next st) ws) /\ solves (srt E) M' v xs b u.
Proof.
  intros st ws N N1 st1 E nE P K N2 n2 KS s Q n limit count s' k c ts r PD CO R PR AT B M MO PL DI.
  destruct (printed_given _ _ _ _ _ _ _ _ _ _ _ _ _ PR) as (_ & PS & -> & s1 & c1 & GV & <-).
  assert (DD : exists d0 d1, isort M indiv d0 /\ isort M indiv d1 /\ (d0 <> d1 \/ (forall d d', isort M indiv d -> isort M indiv d' -> d = d') /\ exists k xs b, questions caq (c_next st) ws = [(k, xs, b)] /\ Forall (fun x => vsort (srt (c_env st)) x = indiv) xs)).
  { destruct (classic (exists d d', isort M indiv d /\ isort M indiv d' /\ d <> d')) as [(d & d' & A & A' & NE)|NO]; [exists d, d'; auto|].
    destruct DI as [DI|DI]; [contradiction|]. destruct (mo_inh _ _ _ (proj1 MO) indiv) as [d Hd]. exists d, d. split; auto. split; auto. right. split; auto.
    intros a b Ha Hb. apply NNPP. intros NE. apply NO. exists a, b. auto. }
  destruct DD as (d0 & d1 & S0 & S1 & DD). destruct (extension _ _ _ _ _ _ _ _ _ _ _ M d0 d1 PD MO PL S0 S1) as (M' & HM' & T' & L & V & HE & DQ & F & -> & A1 & A2 & A3).
  destruct PD as [H I AN G [ds [HP PO]]]. destruct (C56_preprocessing E P K _ _ N2 n2 ds HP PO) as (_ & (X1 & _) & X2 & X3 & _).
  destruct (C57_given E KS n2 N2 s Q n s1 c1 (pr_env _ _ _ _ _ _ PO) CO X1 X2 X3 R GV) as [OK FW]. specialize (FW B).
  exists (mk (dom M) (isort M) F). split; [exists F; auto|]. split; auto. intros v Hv. specialize (FW _ HM' T' v Hv). apply Exists_exists in FW. destruct FW as [e [He FW]].
  destruct (AT e He) as (PE & RE & k0 & xs & b & us & I0 & LE). exists e, us, k0, xs, b. split; auto. split.
  { apply in_map_iff. exists e. split; auto. unfold printed_tuple, simple_answer. rewrite Forall_forall in PS. rewrite (PS e He), LE, Nat.eqb_refl. reflexivity. }
  split; auto. split; auto. unfold holds, lit_holds in FW. rewrite PE, RE, LE in FW. cbn [eval map ttrue] in FW. cbn [mk ifun] in FW.
  destruct I as [HE0 HN0 FO _ _ _]. destruct (true_old answer indiv st ws N HN0 AN) as [TT1 TT2]. rewrite (A1 true_code) in FW by auto. apply A2 in FW. rewrite (A3 k0 xs b) in FW by auto.
  assert (SO : solved st M xs b (map (eval (mk (dom M) (isort M) F) v) us)).
  { destruct DD as [NE|(ONE & k1 & xs1 & b1 & QQ & VX)]; [eapply answered_two; eauto|]. rewrite QQ in I0. destruct I0 as [I0|[]]. injection I0 as -> -> ->.
    eapply answered_one; eauto. unfold clause_ok in OK. rewrite Forall_forall in OK. destruct (OK e He) as [WF _]. rewrite LE in WF. apply wf_fun in WF. destruct WF as [WF _].
    inversion WF as [|? ? W1 _]; subst. apply wf_fun in W1. destruct W1 as [W1 W2]. destruct (DQ k0 xs b) as [DQ1 _]; [rewrite QQ; left; auto|]. rewrite DQ1 in W2. rewrite <- W2.
    clear - W1 HM' Hv. induction us as [|t us IH]; cbn [map]; constructor; inversion W1; subst; auto. apply (eval_sort (srt E) (dist E) (mk (dom M) (isort M) F) v t); auto. }
  destruct SO as (w & Rw & Ew & Sw). exists w. split; [intros x; rewrite V; apply Rw|]. split; auto. apply (sem_sorts (srt (c_env st)) (srt E)); [intros x; symmetry; auto|].
  destruct (in_questions caq _ _ _ _ _ I0) as (_ & _ & r0 & f & J & _ & LQ). pose proof (leading_eq f) as LF. rewrite LQ in LF. cbn [fst snd] in LF.
  apply (sem_on_M M F (fun s => s < c_next st /\ s <> answer)); auto; [intros g gs [Y1 Y2]; symmetry; auto|]. intros y Hy. split.
  - apply (FO (r0, f) J). cbn [snd]. rewrite LF, fold_syms. auto.
  - intros ->. apply (an_forms _ _ _ _ _ _ AN (r0, f) J). cbn [snd]. rewrite LF, fold_syms. auto.
Qed.
(** If the terms of the answer are over the symbols of the problem, this holds in the model itself. *)
Theorem C57_old_symbols : forall st ws N N1 st1 E nE P K N2 n2 KS s Q n limit count s' k c ts r, prepared st ws N N1 st1 E nE P K N2 n2 ->
  conf_ok E KS n2 -> reaches E KS n2 N2 s -> process_answers E KS Q n answer limit count s = Some (s', k, Some (c, ts), r) ->
  answers_to answer (questions caq (c_next st) ws) c -> below n2 c ->
  (forall u t f, In (Some u) ts -> In t u -> In f (tsyms t) -> f < c_next st /\ f <> answer) ->
  forall M, model_of caq (c_env st) ws N M -> (forall f, plain caq ws f -> ~ form_true (srt (c_env st)) M f) -> distinguishes (c_env st) (c_next st) ws M ->
  forall v, respects (srt (c_env st)) M v ->
  exists e u k xs b, In e c /\ In (Some u) ts /\ lt e = Fun answer [Fun k u] /\ In (k, xs, b) (questions caq (c_next st) ws) /\ solves (srt (c_env st)) M v xs b u.
Proof.
  intros st ws N N1 st1 E nE P K N2 n2 KS s Q n limit count s' k c ts r PD CO R PR AT B OS M MO PL DI v Hv.
  assert (V : forall x, vsort (srt E) x = vsort (srt (c_env st)) x).
  { destruct (mo_inh _ _ _ (proj1 MO) indiv) as [d Hd]. destruct (extension _ _ _ _ _ _ _ _ _ _ _ M d d PD MO PL Hd Hd) as (M' & _ & _ & _ & V & _). exact V. }
  destruct (C57_answers st ws N N1 st1 E nE P K N2 n2 KS s Q n limit count s' k c ts r PD CO R PR AT B M MO PL DI) as (M' & (F & -> & AF) & HM' & HS).
  destruct (HS v) as (e & u & k0 & xs & b & He & PT & LE & I0 & w & Rw & Ew & Sw); [intros x; rewrite V; apply Hv|]. exists e, u, k0, xs, b. split; auto. split; auto. split; auto. split; auto.
  exists w. split; [intros x; rewrite <- V; apply Rw|]. split.
  - etransitivity; [exact Ew|]. apply map_ext_in. intros t Ht. symmetry. destruct M as [D FM so]. apply (eval_on D so FM F (fun f => f < c_next st /\ f <> answer)); [intros f fs [Y1 Y2]; symmetry; auto|]. intros f Hf. eapply OS; eauto.
  - apply (sem_sorts (srt (c_env st)) (srt E)) in Sw; [|intros x; symmetry; auto]. revert Sw. destruct PD as [_ I AN _ _]. destruct I as [HE0 HN0 FO _ _ _].
    destruct (in_questions caq _ _ _ _ _ I0) as (_ & _ & r0 & f & J & _ & LQ). pose proof (leading_eq f) as LF. rewrite LQ in LF. cbn [fst snd] in LF.
    apply (sem_on_M M F (fun s => s < c_next st /\ s <> answer)); [intros g gs [Y1 Y2]; symmetry; auto|apply (true_old answer indiv st ws N HN0 AN)|]. intros y Hy. split.
    + apply (FO (r0, f) J). cbn [snd]. rewrite LF, fold_syms. auto.
    + intros ->. apply (an_forms _ _ _ _ _ _ AN (r0, f) J). cbn [snd]. rewrite LF, fold_syms. auto.
Qed.
(** So it is for all answers that a run prints. *)
Theorem C57_run : forall st ws N N1 st1 E nE P K N2 n2 KS s Q n limit m count s' out r c ts, prepared st ws N N1 st1 E nE P K N2 n2 ->
  conf_ok E KS n2 -> reaches E KS n2 N2 s -> saturate_answers E KS Q n answer limit m count s = Some (s', out, r) -> In (c, ts) out ->
  answers_to answer (questions caq (c_next st) ws) c -> below n2 c ->
  forall M, model_of caq (c_env st) ws N M -> (forall f, plain caq ws f -> ~ form_true (srt (c_env st)) M f) -> distinguishes (c_env st) (c_next st) ws M ->
  exists M', same_but (c_next st) M M' /\ model_ok (srt E) (dist E) M' /\
    forall v, respects (srt E) M' v -> exists e u k xs b, In e c /\ In (Some u) ts /\ lt e = Fun answer [Fun k u] /\ In (k, xs, b) (questions caq (c_next st) ws) /\ solves (srt E) M' v xs b u.
Proof.
  intros st ws N N1 st1 E nE P K N2 n2 KS s Q n limit m count s' out r c ts PD CO R SA I AT B. destruct (printed_reaches E KS Q n answer limit n2 N2 m count s s' out r R SA _ I) as (s0 & count0 & s1 & k1 & r1 & R0 & PA).
  eapply C57_answers; eauto.
Qed.
(** The status Theorem that is printed with the first answer, or given for the empty clause, is right: in every model of what is assumed something that is to be
    proved, perhaps a question, is true. *)
Theorem C57_theorem : forall st ws N N1 st1 E nE P K N2 n2 KS s Q n s1 c, prepared st ws N N1 st1 E nE P K N2 n2 ->
  conf_ok E KS n2 -> reaches E KS n2 N2 s -> given E KS Q n s = Some (s1, Some c) -> below n2 (lits c) ->
  (forall e, In e (lits c) -> pos e = true /\ rt e = ttrue /\ exists t, lt e = Fun answer [t]) ->
  forall M, model_of caq (c_env st) ws N M -> exists f, wanted caq ws f /\ form_true (srt (c_env st)) M f.
Proof.
  intros st ws N N1 st1 E nE P K N2 n2 KS s Q n s1 c PD CO R GV B AT M MO. apply NNPP. intros NW.
  destruct (mo_inh _ _ _ (proj1 MO) indiv) as [d Hd].
  destruct (extension _ _ _ _ _ _ _ _ _ _ _ M d d PD MO) as (M' & HM' & T' & L & V & HE & DQ & F & -> & A1 & A2 & A3); auto.
  { intros f (r & J & TP & _) T. apply NW. exists f. split; auto. exists r. auto. }
  destruct PD as [H I AN G [ds [HP PO]]]. destruct (C56_preprocessing E P K _ _ N2 n2 ds HP PO) as (_ & (X1 & _) & X2 & X3 & _).
  destruct (C57_given E KS n2 N2 s Q n s1 c HE CO X1 X2 X3 R GV) as [_ FW]. specialize (FW B). destruct (some_valuation _ _ _ HM') as [v Hv].
  specialize (FW _ HM' T' v Hv). apply Exists_exists in FW. destruct FW as [e [He FW]]. destruct (AT e He) as (PE & RE & t & LE).
  unfold holds, lit_holds in FW. rewrite PE, RE, LE in FW. cbn [eval map ttrue] in FW. cbn [mk ifun] in FW. destruct (true_old answer indiv st ws N (in_next _ _ _ _ I) AN) as [TT1 TT2].
  rewrite (A1 true_code) in FW by auto. apply A2 in FW. revert FW. apply (nothing_answered caq st ws M). intros k xs b w I0 Rw Sw.
  destruct (in_questions caq _ _ _ _ _ I0) as (_ & _ & r0 & f & J & IQ & LQ). pose proof (leading_eq f) as LF. rewrite LQ in LF. cbn [fst snd] in LF.
  assert (W : wanted caq ws f) by (exists r0; split; auto; right; auto). apply NW. exists f. split; auto. intros u Hu. apply (sem_ext (srt (c_env st)) M f w u).
  - intros x Hx. rewrite (in_closed _ _ _ _ I f W) in Hx. destruct Hx.
  - rewrite LF. apply ex_intro'; auto.
Qed.
End Answers.

(** ** Examples *)
(** $answer is the symbol 8.  q(a,b) or q(a,c).  For which X is q(a,X)? *)
Definition E57 : env := {| srt := S0; pp := pp0; dist := dist0; pspred := Nat.eqb 8; fresh := fun _ k => 4 * k + 1 |}.
Definition St57 : cstate := CNF.mkst E57 30 (fun _ => 5).
Definition question57 : form := FQ false 4 (at1 (ExEnv.q0 a0 (Var 4))).
Definition ws57 : list wformula := [(r_question, question57)].
Definition N57 : list clause := [[at0 (ExEnv.q0 a0 b0); at0 (ExEnv.q0 a0 ExEnv.c0)]].
Definition cl57 := to_clauses 8 1 true false 50 (fun l => l) est53 1000 1000 true St57 ws57 N57.
Definition E57' : env := closing (declare E57 30 [1] 1) 31.
Definition P57 : popts := mkpopts false true false 20 20000 false 0 false false false false.
Definition K57 : conf := {|
  ordr := o0; gtb := fun _ _ => false; strong_inst := true; minterm := fun _ => a0; eno := fun _ => 0%Z; max_neg := 10; altv := fun x => 20 + 2 * (x / 2);
  lookup := lookup (KS56 E57'); given_simpl := true; fwd_csr := true; fwd_csr_aggr := true; bwd_csr := true; condensing := true; condensing_aggr := true;
  local_rewriting := true; strong_subsumption := true; forward_demod := FullRewrite; subsumption_aggr := true;
  er_varlit := true; er_strong := true; er_aggr := true; er_max_only := false;
  split_horn := false; split_nonhorn := false; split_negative := false; split_positive := false; split_mixed := false;
  split_how := SplitGroundFull; split_fresh := false; split_aggr := false;
  eq_factoring := true; diseq_lits := 5; diseq_arity := 5; neg_unit_pm := true; pm_type := PmPlain; generate := true; ac_handling := ACDiscardAll |}.
Definition step57 (s : state) : state := match process_clause E57' K57 P2 60 s with Some (s', None) => match cleanup E57' K57 P2 60 s' with Some (s'', None) => tick s'' | _ => s end | _ => s end.
Definition answer57 (t : term) : eqn := mkeqn (p0 (Fun 30 [t])) ttrue true false false false false false true.
Definition pairs57 : list clause := N57 ++ [[answer57 (Var 0); nat0 (ExEnv.q0 a0 (Var 0))]].
Definition s57 : state := Nat.iter 4 step57 (init K57 31 pairs57).
Lemma step57_reaches N s : reaches E57' K57 31 N s -> reaches E57' K57 31 N (step57 s).
Proof.
  intros R. unfold step57. destruct (process_clause E57' K57 P2 60 s) as [[s1 [|]]|] eqn:Q; auto. destruct (cleanup E57' K57 P2 60 s1) as [[s2 [|]]|] eqn:Q'; auto.
  apply reaches_tick. eapply reaches_cleanup; [|exact Q']. eapply reaches_process; eauto.
Qed.
Lemma E57_env : env_ok E57.
Proof. constructor; apply E52_ok. Qed.
Lemma dist57 f : 30 <= f -> dist E57' f = false.
Proof. intros Hf. unfold dist, E57', closing, declare, E57, dist0. do 30 (destruct f as [|f]; [lia|]). reflexivity. Qed.
Lemma lits57 n c : forallb (fun e => forallb (fun f => f <? n) (lit_syms e)) c = true -> below n c.
Proof. intros H e f He Hf. rewrite forallb_forall in H. specialize (H e He). rewrite forallb_forall in H. apply Nat.ltb_lt. auto. Qed.
(** The prover prints "b or c", and the theorems apply. *)
Example ex57 : exists N1 st1 N2 s' c r, prepared 8 1 false 50 (fun l => l) est53 1000 1000 true St57 ws57 N57 N1 st1 E57' 31 P57 K56 N2 31 /\ keeps (fun l => l) /\ conf_ok E57' K57 31
  /\ reaches E57' K57 31 N2 s57 /\ process_answers E57' K57 P2 60 8 1 0 s57 = Some (s', 1%Z, Some (c, [Some [ExEnv.c0]; Some [b0]]), Some r) /\ lits r = []
  /\ answers_to 8 (questions false 30 ws57) c /\ below 31 c /\ model_of false E57 ws57 N57 M0 /\ distinguishes 1 false E57 30 ws57 M0.
Proof.
  assert (X : match cl57 with Some (N, s) => N = pairs57 /\ c_env s = declare E57 30 [1] 1 /\ c_next s = 31 | None => False end) by (vm_compute; auto).
  destruct cl57 as [[N1 st1]|] eqn:C; [|destruct X]. destruct X as (-> & E1 & E2). exists pairs57, st1, pairs57.
  assert (CP : clausal_preproc E57' P57 K56 31 pairs57 = Some (pairs57, 31, [])) by (vm_compute; reflexivity).
  assert (OV : forall x, x < 10 -> old_var E57 (fun _ => 5) x).
  { intros x Hx k Hk EQ. pose proof (prim_fresh (4 * k + 1) (eo_fresh_cell E52 E52_ok 0 k)) as P. change (fresh E57 (vsort (srt E57) x) k) with (4 * k + 1) in EQ. lia. }
  assert (ENV : env_ok E57').
  { apply (gr_ok _ _ _ _ (closing_grows (declare E57 30 [1] 1) 31 31 ltac:(lia))); [|lia]. apply (gr_ok _ _ _ _ (grows_declare E57 30 [1] 1)); [apply E57_env|lia]. }
  assert (INP : input false St57 ws57 N57).
  { constructor.
    - apply E57_env.
    - split; [cbn; lia|]. intros f Hf. exact (dist57 f Hf).
    - intros w [<-|[]]. split; [cbn; repeat split; auto; try (apply wfb_ok; reflexivity); try (intros x Hx; repeat (destruct Hx as [<-|Hx]; [reflexivity|]); destruct Hx)|
      split; [intros x Hx; apply OV; cbn in Hx; repeat (destruct Hx as [<-|Hx]; [lia|]); destruct Hx|intros s Hs; cbn in Hs |- *; unfold true_code in Hs; lia]].
    - constructor; [apply clause_okb; reflexivity|constructor].
    - constructor; [|constructor]. apply lits57. reflexivity.
    - intros f [r [[Z|[]] T]]; injection Z as <- <-. reflexivity. }
  do 3 eexists. split.
  { constructor; auto.
    - constructor; try reflexivity; try (cbn; lia); try discriminate.
      + intros w [<-|[]] Z. cbn in Z. unfold true_code in Z. lia.
      + intros c e [<-|[]] He Hf. repeat (destruct He as [<-|He]; [vm_compute in Hf; lia|]). destruct He.
    - rewrite E1, E2. apply closing_grows. lia.
    - exists []. rewrite E2. split; auto. constructor; auto.
      + split; [lia|]. intros f Hf. apply dist57. lia.
      + repeat (constructor; [apply clause_okb; reflexivity|]). constructor.
      + repeat (constructor; [apply lits57; reflexivity|]). constructor.
      + apply eno49_inj.
      + intros l t. tauto.
      + intros [Z|Z]; discriminate. }
  split; [intros l x; tauto|]. split.
  { constructor.
    - intros st d d' p H. apply List.find_some in H. destruct H as [I H]. split; auto. cbn [fst] in H. exists 60.
      destruct (clause_subsumes E57' 60 d' d) as [[|]| |]; try discriminate. destruct (clause_subsumes E57' 60 d d') as [[|]| |]; try discriminate. auto.
    - intros _ x. cbn. repeat split; auto. + intros y []. + intros f [<-|[]]. lia.
    - intros x. split; auto. cbn [altv K57]. unfold is_fresh. rewrite <- Nat.negb_even, Nat.even_add_mul_2. reflexivity.
    - intros m f Hf. assert (L : f <? 31 = false) by (apply Nat.ltb_ge; lia). split; [|split; [|apply dist57; lia]]; unfold E57', closing; cbn [srt fres fargs]; rewrite L; reflexivity. }
  split; [unfold s57; cbn [Nat.iter]; do 4 apply step57_reaches; apply reaches_init|]. split; [vm_compute; reflexivity|]. split; [reflexivity|]. split.
  { intros e [<-|[<-|[]]]; (split; [reflexivity|]; split; [reflexivity|]); exists 30, [4], (at1 (ExEnv.q0 a0 (Var 4))); eexists; (split; [left; reflexivity|reflexivity]). }
  split; [apply lits57; reflexivity|]. split.
  - split; [apply M0_ok|]. split.
    + intros c [<-|[]] v Hv. left. reflexivity.
    + intros f [r [[Z|[]] T]]. injection Z as <- <-. exfalso. apply T. right. reflexivity.
  - left. exists 0, 1. cbn. auto.
Qed.

Print Assumptions C57_given.
Print Assumptions C57_limit.
Print Assumptions C57_answers.
Print Assumptions C57_old_symbols.
Print Assumptions C57_run.
Print Assumptions C57_theorem.
