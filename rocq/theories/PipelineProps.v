(** * C56: from the problem to the verdict.

    The clauses the saturation starts with are satisfiable exactly if the axioms together with the negated conjectures are; a refutation of them shows that
    in every model of the axioms some conjecture is true. *)
From Coq Require Import Permutation Classical_Prop.
From Verif Require Import AC.
From Verif Require Import Terms Unify UnifyProofs KBO Semantics Clauses ClausesProofs LitOrder InferProofs ExEnv Subsume Taut Split SplitProofs SplitSemProofs Infer CNF CNFProofs CNFTermProofs CNFSkolemProofs
  CNFMainProofs CNFProps CNFDefs CNFDefsProofs CNFDefsProps Unfold UnfoldProofs UnfoldProps Inj InjProofs InjProps Bce BceProofs BceProps PredElim PredRes PredInv PredElimProofs PredElimProps
  GoalDefs GoalDefsProofs GoalDefsProps Rewrite Saturate SaturateProofs SaturateSyms SaturateProps PipeSyms Pipeline PipeProofs PipeSteps PipeEnd.
Local Open Scope nat_scope.

(** ** Clausal preprocessing *)
(** The clauses that are handed to the saturation are well formed, over known symbols, and satisfiable exactly if the given ones are. *)
Theorem C56_preprocessing : forall E P K n N N' n' ds, clausal_preproc E P K n N = Some (N', n', ds) -> pre_ok E P K n N ds ->
  n <= n' /\ next_ok E n' /\ Forall (clause_ok E) N' /\ Forall (below n') N' /\ (sat E N <-> sat E N') /\ (unsat E N <-> unsat E N') /\ extends E n N N'.
Proof.
  intros E P K n N N' n' ds H [HE N0 OK BL EI HL HC HO DC FI].
  assert (X : n <= n' /\ next_ok E n' /\ Forall (clause_ok E) N' /\ Forall (below n') N' /\ (sat E N <-> sat E N') /\ extends E n N N').
  2: { destruct X as (X1 & X2 & X3 & X4 & X5 & X6). do 5 (split; auto). split; [|auto]. split; intros U M HM HS.
       - assert (X : sat E N) by (apply X5; exists M; auto). destruct X as [M' [A B]]. exact (U M' A B).
       - assert (X : sat E N') by (apply X5; exists M; auto). destruct X as [M' [A B]]. exact (U M' A B). }
  set (FO := bce P = true \/ pred_elim P = true).
  assert (FI' : exists base, FO -> first_order E P K base N).
  { destruct (bce P) eqn:B1; [|destruct (pred_elim P) eqn:B2]; [destruct FI as [base FI]; auto; exists base; auto|destruct FI as [base FI]; auto; exists base; auto|].
    exists (fun _ => True). intros [X|X]; discriminate. }
  destruct FI' as [base FB]. assert (N2 : 2 < n) by (destruct N0; auto).
  assert (LK : Forall (Forall (lok n)) N) by (eapply Forall_impl; [|exact BL]; intros c Hc; apply below_lok; auto).
  assert (HF : FO -> fo_sig E) by (intros X; apply (FB X)).
  unfold clausal_preproc in H. destruct (if no_preproc P then _ else _) as [[[N1 n1] ds1]|] eqn:S1; [|discriminate].
  destruct (unfold_step E P K N1) as [N2'|] eqn:S2; [|discriminate]. destruct (bce_step E P K N2') as [N3|] eqn:S3; [|discriminate].
  destruct (elim_step E P K N3) as [N4|] eqn:S4; [|discriminate]. destruct (goal_step E P K n1 N4) as [[N5 n5] ds5] eqn:S5. injection H as <- <- <-.
  apply Forall_app in DC. destruct DC as [DC1 DC5].
  assert (K1 : kept E base FO n1 N1 /\ n <= n1 /\ (sat E N <-> sat E N1) /\ extends E n N N1).
  { destruct (no_preproc P) eqn:NP.
    - injection S1 as <- <- <-. split; [|split; [lia|split; [tauto|apply ext_keep; auto]]]. constructor; auto. intros X. pose proof (FB X) as [_ _ _ _ F1 F2]. rewrite NP in F2. auto.
    - apply (pre_kept E P K base FO HE EI HL HC HF n N N1 n1 ds1); auto. intros X. pose proof (FB X) as [_ _ _ _ F1 F2]. rewrite NP in F2. auto. }
  destruct K1 as (K1 & L1 & T1 & W1). destruct (unfold_kept E P K base FO HE EI HL HC n1 N1 N2' K1 S2) as (K2 & T2 & W2).
  destruct (bce_kept E P K base FO HE EI HF n1 N2' N3) as (K3 & T3 & W3); auto. { intros B. assert (X : FO) by (left; auto). pose proof (FB X) as [F1 F2 F3 F4 F5 F6]. auto. }
  destruct (elim_kept E P K base FO HE EI HF n1 N3 N4) as (K4 & T4 & W4); auto. { intros B. assert (X : FO) by (right; auto). pose proof (FB X) as [F1 F2 F3 F4 F5 F6]. auto. }
  assert (T : sat E N <-> sat E N4) by (rewrite T1, T2, T3, T4; tauto).
  assert (W : extends E n N N4) by (apply (ext_trans E n n1 N N1 N4 L1 W1), (ext_trans E n1 n1 N1 N2' N4 (le_n _) W2), (ext_trans E n1 n1 N2' N3 N4 (le_n _) W3 W4)).
  destruct K4 as [A1 A2 A3 _]. assert (B4 : Forall (below n1) N4) by (eapply Forall_impl; [|exact A3]; intros c Hc; apply below_lok; auto).
  assert (M1 : forall m, n <= m -> next_ok E m) by (intros m Hm; destruct N0 as [Q1 Q2]; split; [lia|intros f Hf; apply Q2; lia]).
  unfold goal_step in S5. destruct (goal_pos P || goal_neg P).
  - destruct (gd_transform _ _ _ _ _ _ _ _) as [N6 st] eqn:GD. injection S5 as <- <- <-.
    assert (ST : setting E (k_order K) n1 N4 st).
    { split; [auto|]. split; [apply M1; auto|]. split; [auto|]. split; [rewrite Forall_forall in A2; auto|]. split; [rewrite Forall_forall in B4; auto|auto]. }
    destruct (C55_shape _ _ _ _ _ _ _ _ _ _ GD ST) as (_ & G2 & _ & G4 & G5). destruct (C55_sat _ _ _ _ _ _ _ _ _ _ GD ST) as [G6 _].
    split; [lia|]. split; [apply M1; lia|]. split; [apply Forall_forall; auto|]. split; [apply Forall_forall; auto|]. split; [rewrite T; auto|].
    apply (ext_trans E n n1 N N4 N6 L1 W). intros M HM HS. destruct (C55_models _ _ _ _ _ _ _ _ _ _ GD ST M HM HS) as [M' ?]. exists M'. auto.
  - injection S5 as <- <- <-. split; auto.
Qed.

(** ** The whole way *)

(** The formula is assumed, or to be proved. *)
Definition assumed (caq : bool) (ws : list wformula) (f : form) : Prop := exists r, In (r, f) ws /\ ~ to_prove caq r.
Definition wanted (caq : bool) (ws : list wformula) (f : form) : Prop := exists r, In (r, f) ws /\ to_prove caq r.
(** a model of the input clauses and of the assumed formulas *)
Definition model_of (caq : bool) (E : env) (ws : list wformula) (N : list clause) (M : structure) : Prop :=
  model_ok (srt E) (dist E) M /\ satisfied E M N /\ forall f, assumed caq ws f -> form_true (srt E) M f.
(** formulas and clauses over a signature; what is to be proved has no free variables *)
Record input (caq : bool) (st : cstate) (ws : list wformula) (N : list clause) : Prop := {
  in_env : env_ok (c_env st); in_next : next_ok (c_env st) (c_next st); in_forms : forall w, In w ws -> input_ok st (snd w);
  in_clauses : Forall (clause_ok (c_env st)) N; in_below : Forall (below (c_next st)) N; in_closed : forall f, wanted caq ws f -> closed f }.

Section Whole.
Variables (answer : sym) (indiv : sort) (add caq : bool) (fuel : nat) (arrange : list var -> list var) (estimate : form -> bool -> Z) (def_limit mlimit : Z) (unroll : bool).
Hypothesis HA : keeps arrange.
Notation clausified := (to_clauses answer indiv add caq fuel arrange estimate def_limit mlimit unroll).
(** answer literals are off, or there are no questions; see C57 for questions *)
Definition no_answers (ws : list wformula) : Prop := add = false \/ forall w, In w ws -> is_question caq (fst w) = false.

Lemma split_clauses st ws N N1 st1 : input caq st ws N -> no_answers ws -> clausified st ws N = Some (N1, st1) ->
  exists cs, N1 = N ++ cs /\ Forall (input_ok st) (map (fun w => if is_question caq (fst w) || Z.eqb (fst w) r_conjecture then FNot (snd w) else snd w) ws)
    /\ set_cnf fuel arrange estimate def_limit mlimit unroll st (map (fun w => if is_question caq (fst w) || Z.eqb (fst w) r_conjecture then FNot (snd w) else snd w) ws) = Some (cs, st1).
Proof.
  intros I NA H. unfold to_clauses in H. destruct (negated answer indiv caq st add ws NA) as [A B]. destruct (preproc_conjectures answer indiv add caq st ws) as [ws' st0]. cbn [fst snd] in *. subst st0.
  rewrite B in H. destruct (set_cnf _ _ _ _ _ _ _ _) as [[cs st2]|]; [|discriminate]. injection H as <- <-. exists cs. split; auto. split; auto.
  rewrite Forall_map. apply Forall_forall. intros w Hw. pose proof (in_forms _ _ _ _ I w Hw) as X. destruct (_ || _); auto.
Qed.
Lemma negated_true st ws M : (forall f, wanted caq ws f -> closed f) -> model_ok (srt (c_env st)) (dist (c_env st)) M ->
  ((forall f, In f (map (fun w => if is_question caq (fst w) || Z.eqb (fst w) r_conjecture then FNot (snd w) else snd w) ws) -> form_true (srt (c_env st)) M f)
   <-> (forall f, assumed caq ws f -> form_true (srt (c_env st)) M f) /\ forall f, wanted caq ws f -> ~ form_true (srt (c_env st)) M f).
Proof.
  intros CL HM. split.
  - intros H. split.
    + intros f [r [Hf NP]]. apply H. apply in_map_iff. exists (r, f). split; auto. cbn [fst snd]. destruct (_ || _) eqn:Q; auto. apply to_prove_spec in Q. contradiction.
    + intros f [r [Hf TP]]. assert (W : wanted caq ws f) by (exists r; auto). apply (closed_not _ _ _ _ HM (CL f W)). apply H. apply in_map_iff. exists (r, f). split; auto. cbn [fst snd].
      apply to_prove_spec in TP. rewrite TP. reflexivity.
  - intros [A B] f Hf. apply in_map_iff in Hf. destruct Hf as [[r g] [<- Hg]]. cbn [fst snd]. destruct (is_question caq r || Z.eqb r r_conjecture) eqn:Q.
    + assert (W : wanted caq ws g) by (exists r; split; auto; apply to_prove_spec; auto). apply (closed_not _ _ _ _ HM (CL g W)). apply B; auto.
    + apply A. exists r. split; auto. intros TP. apply to_prove_spec in TP. congruence.
Qed.

(** A model of the clauses, over any larger signature, is up to new symbols a model of what is assumed, in which everything that is to be proved is false. *)
Theorem C56_models_of_clauses : forall st ws N N1 st1 E nE M, clausified st ws N = Some (N1, st1) -> input caq st ws N -> no_answers ws -> grows (c_env st1) (c_next st1) E nE ->
  model_ok (srt E) (dist E) M -> satisfied E M N1 ->
  exists M0, same_below (c_next st) M M0 /\ model_of caq (c_env st) ws N M0 /\ forall f, wanted caq ws f -> ~ form_true (srt (c_env st)) M0 f.
Proof.
  intros st ws N N1 st1 E nE M H I NA G HM HS. destruct (split_clauses st ws N N1 st1 I NA H) as [cs [-> [IN C]]]. destruct I as [HE HN FO OK BL CL].
  pose proof (cnf_grows arrange estimate def_limit mlimit unroll fuel HA _ st cs st1 HE HN IN C) as G0.
  destruct (cnf_backward arrange estimate def_limit mlimit unroll fuel HA _ st cs st1 E nE M HE HN IN C G HM) as (M0 & SB & HM0 & T); [intros c Hc; apply HS, in_or_app; auto|].
  exists M0. split; auto. apply (negated_true st ws M0 CL HM0) in T. destruct T as [T1 T2]. split; auto. split; auto. split; auto.
  apply (same_satisfied E (c_env st) (c_next st) M M0 N SB); auto; [|intros c Hc; apply HS, in_or_app; auto].
  intros x. rewrite (gr_vsort _ _ _ _ G). apply (gr_vsort _ _ _ _ G0).
Qed.
(** Such a model becomes a model of the clauses by interpreting new symbols. *)
Theorem C56_models_extend : forall st ws N N1 st1 E nE M, clausified st ws N = Some (N1, st1) -> input caq st ws N -> no_answers ws -> grows (c_env st1) (c_next st1) E nE ->
  model_of caq (c_env st) ws N M -> (forall f, wanted caq ws f -> ~ form_true (srt (c_env st)) M f) ->
  exists M', same_below (c_next st) M M' /\ model_ok (srt E) (dist E) M' /\ satisfied E M' N1.
Proof.
  intros st ws N N1 st1 E nE M H I NA G (HM & HS & HT) HW. destruct (split_clauses st ws N N1 st1 I NA H) as [cs [-> [IN C]]]. destruct I as [HE HN FO OK BL CL].
  pose proof (cnf_grows arrange estimate def_limit mlimit unroll fuel HA _ st cs st1 HE HN IN C) as G0.
  destruct (cnf_forward arrange estimate def_limit mlimit unroll fuel HA _ st cs st1 E nE M HE HN IN C G HM) as (M' & SB & HM' & T); [apply (negated_true st ws M CL HM); auto|].
  exists M'. split; auto. split; auto. intros c Hc. apply in_app_or in Hc. destruct Hc as [Hc|Hc]; auto. revert c Hc.
  apply (same_satisfied (c_env st) E (c_next st) M M' N SB); auto. intros x. rewrite (gr_vsort _ _ _ _ G). symmetry. apply (gr_vsort _ _ _ _ G0).
Qed.
(** The clauses handed to the saturation are unsatisfiable exactly if in every model of what is assumed something that is to be proved is true. *)
Theorem C56_exact : forall st ws N N1 st1 E nE P K N2 n2 ds, clausified st ws N = Some (N1, st1) -> input caq st ws N -> no_answers ws -> grows (c_env st1) (c_next st1) E nE ->
  clausal_preproc E P K (c_next st1) N1 = Some (N2, n2, ds) -> pre_ok E P K (c_next st1) N1 ds ->
  (unsat E N2 <-> forall M, model_of caq (c_env st) ws N M -> exists f, wanted caq ws f /\ form_true (srt (c_env st)) M f)
  /\ (sat E N2 <-> exists M, model_of caq (c_env st) ws N M /\ forall f, wanted caq ws f -> ~ form_true (srt (c_env st)) M f).
Proof.
  intros st ws N N1 st1 E nE P K N2 n2 ds H I NA G HP PO. destruct (C56_preprocessing E P K _ N1 N2 n2 ds HP PO) as (_ & _ & _ & _ & SA & UN & _).
  assert (X : sat E N2 <-> exists M, model_of caq (c_env st) ws N M /\ forall f, wanted caq ws f -> ~ form_true (srt (c_env st)) M f).
  { rewrite <- SA. split.
    - intros [M [HM HS]]. destruct (C56_models_of_clauses st ws N N1 st1 E nE M H I NA G HM HS) as (M0 & _ & A & B). exists M0. auto.
    - intros [M [A B]]. destruct (C56_models_extend st ws N N1 st1 E nE M H I NA G A B) as (M' & _ & HM & HS). exists M'. auto. }
  split; auto. split.
  - intros U M HM. destruct (classic (exists f, wanted caq ws f /\ form_true (srt (c_env st)) M f)) as [|C]; auto. exfalso.
    assert (Y : sat E N2) by (apply X; exists M; split; auto; intros f W T; apply C; exists f; auto). destruct Y as [M' [A B]]. exact (U M' A B).
  - intros A M HM HS. assert (Y : sat E N2) by (exists M; auto). apply X in Y. destruct Y as [M0 [B C]]. destruct (A M0 B) as [f [W T]]. exact (C f W T).
Qed.
(** If the saturation finds a refutation, that is so, even if the formulas and clauses have been selected from larger sets. *)
Theorem C56_theorem : forall st ws N N1 st1 E nE P K N2 n2 ds KS s Q n k desc s' e ws0 N0, clausified st ws N = Some (N1, st1) -> input caq st ws N -> no_answers ws ->
  grows (c_env st1) (c_next st1) E nE -> clausal_preproc E P K (c_next st1) N1 = Some (N2, n2, ds) -> pre_ok E P K (c_next st1) N1 ds ->
  conf_ok E KS n2 -> reaches E KS n2 N2 s ->
  process_clause E KS Q n s = Some (s', Some e) \/ cleanup E KS Q n s = Some (s', Some e) \/ filter_unproc E KS Q n desc s = Some (s', Some e) \/ saturate E KS Q n k s = Some (s', Some e) ->
  incl ws ws0 -> incl N N0 ->
  forall M, model_of caq (c_env st) ws0 N0 M -> exists f, wanted caq ws0 f /\ form_true (srt (c_env st)) M f.
Proof.
  intros st ws N N1 st1 E nE P K N2 n2 ds KS s Q n k desc s' e ws0 N0 H I NA G HP PO CO R F IW IN M (HM & HS & HT).
  destruct (C56_preprocessing E P K _ N1 N2 n2 ds HP PO) as (_ & (X1 & _) & X2 & X3 & _).
  pose proof (C35_unsatisfiable E KS n2 N2 s Q n k desc s' e (pr_env _ _ _ _ _ _ PO) CO X1 X2 X3 R F) as U.
  destruct (proj1 (proj1 (C56_exact st ws N N1 st1 E nE P K N2 n2 ds H I NA G HP PO)) U M) as [f [[r [A B]] T]].
  - split; auto. split; [intros c Hc; auto|]. intros f [r [A B]]. apply HT. exists r. auto.
  - exists f. split; auto. exists r. auto.
Qed.
(** A clause over the symbols of the problem that the saturation derives is true in every model of what is assumed in which nothing that is to be proved is true. *)
Theorem C56_derived : forall st ws N N1 st1 E nE P K N2 n2 ds KS s c, clausified st ws N = Some (N1, st1) -> input caq st ws N -> no_answers ws ->
  grows (c_env st1) (c_next st1) E nE -> clausal_preproc E P K (c_next st1) N1 = Some (N2, n2, ds) -> pre_ok E P K (c_next st1) N1 ds ->
  conf_ok E KS n2 -> reaches E KS n2 N2 s -> In c (all_clauses s) -> below (c_next st) c ->
  forall M, model_of caq (c_env st) ws N M -> (forall f, wanted caq ws f -> ~ form_true (srt (c_env st)) M f) -> clause_true (srt (c_env st)) M c.
Proof.
  intros st ws N N1 st1 E nE P K N2 n2 ds KS s c H I NA G HP PO CO R Hc B M HM HW.
  destruct (C56_preprocessing E P K _ N1 N2 n2 ds HP PO) as (L2 & (X1 & _) & X2 & X3 & _ & _ & EX).
  destruct (C56_models_extend st ws N N1 st1 E nE M H I NA G HM HW) as (M1 & S1 & HM1 & T1). destruct (EX M1 HM1 T1) as (M2 & HM2 & S2 & T2).
  destruct (split_clauses st ws N N1 st1 I NA H) as [cs [-> [IN C]]]. destruct I as [HE HN FO OK BL CL].
  pose proof (cnf_grows arrange estimate def_limit mlimit unroll fuel HA _ st cs st1 HE HN IN C) as G0. pose proof (gr_le _ _ _ _ G0) as L1.
  assert (T : clause_true (srt E) M2 c) by (apply (C35_sound E KS n2 N2 s c); auto; [apply (pr_env _ _ _ _ _ _ PO)|eapply below_mono; [|exact B]; lia]).
  apply (same_clause (c_env st) E (c_next st) M M2 c); auto; [eapply same_trans; [exact S1|eapply same_le; [|exact S2]; auto]|].
  intros x. rewrite (gr_vsort _ _ _ _ G). symmetry. apply (gr_vsort _ _ _ _ G0).
Qed.
End Whole.

(** ** Examples *)

(** the signature with the symbols from [n] on declared as propositional constants, for splitting *)
Definition closing (E : env) (n : sym) : env := {| srt := {| vsort := vsort (srt E); fres := fun f => if f <? n then fres (srt E) f else fres (srt E) true_code;
   fargs := fun f => if f <? n then fargs (srt E) f else [] |}; pp := pp E; dist := dist E; pspred := pspred E; fresh := fresh E |}.
Lemma closing_grows E n m : n <= m -> grows E n (closing E m) m.
Proof.
  intros L. assert (X : forall f, f < n -> f <? m = true) by (intros f Hf; apply Nat.ltb_lt; lia).
  constructor; auto.
  - intros f Hf. cbn [closing srt fres]. rewrite X; auto.
  - intros f Hf. cbn [closing srt fargs]. rewrite X; auto.
  - intros [A1 A2 A3 A4 A5 A6 A7] N. constructor; auto; cbn [closing srt fres fargs]; rewrite ?X by (unfold true_code, false_code; lia); auto.
Qed.
Definition St56 : cstate := CNF.mkst E52 30 (fun _ => 5).
(** p(a); for all X there is a Y with: if p(X) then g(X,Y) = f(b).  Is there a Y with g(a,Y) = f(b)? *)
Definition ax56 : form := FQ true 0 (FQ false 4 (FBin Impl (at1 (p0 (Var 0))) (FLit true (g0 (Var 0) (Var 4)) (f0 b0)))).
Definition conj56 : form := FQ false 4 (FLit true (g0 a0 (Var 4)) (f0 b0)).
Definition ws56 : list wformula := [(r_axiom, ax56); (r_conjecture, conj56)].
Definition N56 : list clause := [[at0 (p0 a0)]].
Definition cl56 := to_clauses 50 1 true false 50 (fun l => l) est53 1000 1000 true St56 ws56 N56.
Definition P56 : popts := mkpopts false true false 20 20000 true 0 true true true true.
Definition K56 : orac := mkorac eno49 10 60 7 (fun _ _ => false) (fun c => c) (fun l => l) alt51 (fun _ => 0) (table [0;0;0;1]) (fun _ => None) code_pairs 100 false
  (fun c => match c with [e] => negb (pos e) | _ => false end) (fun l => l).
Definition KS56 (E : env) : conf := {|
  ordr := o0; gtb := fun _ _ => false; strong_inst := true; minterm := fun _ => a0; eno := fun _ => 0%Z; max_neg := 10; altv := fun x => 20 + 2 * (x / 2);
  lookup := fun st d => find (fun q => match clause_subsumes E 60 (fst q) d, clause_subsumes E 60 d (fst q) with Ans true, Ans true => true | _, _ => false end) st;
  given_simpl := true; fwd_csr := true; fwd_csr_aggr := true; bwd_csr := true; condensing := true; condensing_aggr := true;
  local_rewriting := true; strong_subsumption := true; forward_demod := FullRewrite; subsumption_aggr := true;
  er_varlit := true; er_strong := true; er_aggr := true; er_max_only := false;
  split_horn := true; split_nonhorn := true; split_negative := true; split_positive := true; split_mixed := true;
  split_how := SplitGroundFull; split_fresh := false; split_aggr := true;
  eq_factoring := true; diseq_lits := 5; diseq_arity := 5; neg_unit_pm := true; pm_type := PmPlain; generate := true; ac_handling := ACDiscardAll |}.
Definition E56 : env := closing (declare E52 30 [1] 1) 32.
Definition show56 (c : clause) : list (term * term * bool) := map (fun e => (lt e, rt e, pos e)) c.
Definition pairs56 : list clause := [[at0 (p0 a0)]; [eq0 (g0 (Var 0) (Fun 30 [Var 0])) (f0 b0); nat0 (p0 (Var 0))]; [ne0 (g0 a0 (Var 0)) (f0 b0)]].
(** the clauses, one with a Skolem function; p is eliminated, f(b) is named by the constant 31; the empty clause is found *)
Example ex56_run : exists st1 N1 N2 ds s e, cl56 = Some (N1, st1) /\ map show56 N1 = map show56 pairs56 /\ c_env st1 = declare E52 30 [1] 1 /\ c_next st1 = 31
  /\ clausal_preproc E56 P56 K56 31 N1 = Some (N2, 32, ds) /\ ds = [{| dcl_sym := 31; dcl_args := []; dcl_res := 1 |}]
  /\ map show56 N2 = map show56 [[ne0 (g0 a0 (Var 0)) (f0 b0)]; [eq0 (g0 a0 (Fun 30 [a0])) (f0 b0)]; [eq0 (f0 b0) (Fun 31 [])]]
  /\ saturate E56 (KS56 E56) P2 60 20 (init (KS56 E56) 32 N2) = Some (s, Some e).
Proof.
  do 6 eexists. split; [vm_compute; reflexivity|]. split; [vm_compute; reflexivity|]. split; [vm_compute; reflexivity|]. split; [vm_compute; reflexivity|].
  split; [vm_compute; reflexivity|]. split; [vm_compute; reflexivity|]. split; vm_compute; reflexivity.
Qed.
Lemma E56_ok : env_ok E56.
Proof.
  apply (gr_ok _ _ _ _ (closing_grows (declare E52 30 [1] 1) 31 32 ltac:(lia))); [|lia]. apply (gr_ok _ _ _ _ (grows_declare E52 30 [1] 1)); [apply E52_ok|lia].
Qed.
Example ex56_input : input false St56 ws56 N56 /\ no_answers true false ws56 /\ keeps (fun l => l).
Proof.
  assert (OV : forall x, x < 10 -> old_var E52 (fun _ => 5) x).
  { intros x Hx k Hk EQ. pose proof (prim_fresh (4 * k + 1) (eo_fresh_cell E52 E52_ok 0 k)) as P. change (fresh E52 (vsort (srt E52) x) k) with (4 * k + 1) in EQ. lia. }
  split; [|split; [right; intros w [<-|[<-|[]]]; reflexivity|intros l x; tauto]]. constructor.
  - apply E52_ok.
  - split; [cbn; lia|]. intros f Hf. cbn in *. unfold dist0. do 30 (destruct f as [|f]; [lia|]). reflexivity.
  - intros w [<-|[<-|[]]];
    (split; [cbn; repeat split; auto; try (apply wfb_ok; reflexivity); try (intros x Hx; repeat (destruct Hx as [<-|Hx]; [reflexivity|]); destruct Hx)|
      split; [intros x Hx; apply OV; cbn in Hx; repeat (destruct Hx as [<-|Hx]; [lia|]); destruct Hx|intros s Hs; cbn in Hs |- *; unfold true_code in Hs; lia]]).
  - constructor; [apply clause_okb; reflexivity|constructor].
  - constructor; [|constructor]. intros e f I Hf. cbn in I. destruct I as [<-|[]]. vm_compute in Hf. repeat (destruct Hf as [<-|Hf]; [cbn; lia|]). destruct Hf.
  - intros f [r [[X|[X|[]]] T]]; injection X as <- <-; [|reflexivity]. destruct T as [X|X]; discriminate.
Qed.
Lemma cases56 f : {f = 30} + {f = 31} + {fres (srt E56) f = fres S0 f /\ fargs (srt E56) f = fargs S0 f} + {fres (srt E56) f = 0 /\ fargs (srt E56) f = [] /\ 32 <= f}.
Proof.
  unfold E56, closing, declare. cbn [srt fres fargs]. destruct (f <? 32) eqn:L.
  - left. destruct (Nat.eq_dec f 30) as [->|N]; [auto|]. destruct (Nat.eq_dec f 31) as [->|N']; [auto|]. right. apply Nat.eqb_neq in N. rewrite N. auto.
  - right. apply Nat.ltb_ge in L. auto.
Qed.
Example ex56_pre : forall N1 st1 ds, cl56 = Some (N1, st1) -> ds = [{| dcl_sym := 31; dcl_args := []; dcl_res := 1 |}] ->
  grows (c_env st1) (c_next st1) E56 32 /\ pre_ok E56 P56 K56 (c_next st1) N1 ds /\ conf_ok E56 (KS56 E56) 32.
Proof.
  intros N1 st1 ds H ->. assert (X : match cl56 with Some (N, s) => N = pairs56 /\ c_env s = declare E52 30 [1] 1 /\ c_next s = 31 | None => False end) by (vm_compute; auto).
  rewrite H in X. destruct X as (-> & -> & ->). clear H. destruct E0_fo as (F1 & F2 & F3).
  assert (DI : forall f, 30 <= f -> dist E56 f = false) by (intros f Hf; unfold dist, E56, closing, declare, E52, dist0; do 30 (destruct f as [|f]; [lia|]); reflexivity).
  split; [apply closing_grows; lia|]. split.
  - constructor.
    + apply E56_ok.
    + split; [lia|]. intros f Hf. apply DI. lia.
    + repeat (constructor; [apply clause_okb; reflexivity|]). constructor.
    + repeat (constructor; [intros e f I Hf; cbn in I; repeat (destruct I as [<-|I]; [vm_compute in Hf; repeat (destruct Hf as [<-|Hf]; [lia|]); destruct Hf|]); destruct I|]). constructor.
    + apply eno49_inj.
    + intros c. apply Permutation_refl.
    + intros c. apply Permutation_refl.
    + intros l t. tauto.
    + constructor; [|constructor]. split; reflexivity.
    + intros _. exists base51. constructor.
      * split; [|split].
        -- intros f s Hs. change (fres (srt E56) true_code) with 0. destruct (cases56 f) as [[[->| ->]|[_ R]]|(_ & R & _)].
           ++ destruct Hs as [<-|[]]. discriminate.
           ++ destruct Hs.
           ++ rewrite R in Hs. exact (F1 f s Hs).
           ++ rewrite R in Hs. destruct Hs.
        -- intros x. discriminate.
        -- intros f Hf. destruct (cases56 f) as [[[->| ->]|[R _]]|(_ & _ & R)]; [discriminate|discriminate| |rewrite DI in Hf by lia; discriminate].
           rewrite R. apply (F3 f Hf).
      * intros f x Hp. assert (f = 8 \/ f = 10) as [->| ->] by (cbn in Hp; do 11 (destruct f as [|f]; [cbn in Hp; try discriminate; auto|]); cbn in Hp; discriminate); discriminate.
      * destruct alt51_ok as (A1 & A2 & A3 & A4). split; [reflexivity|auto].
      * apply E52_base.
      * repeat (constructor; [intros e x I Hx; cbn in I; repeat (destruct I as [<-|I]; [vm_compute in Hx; repeat (destruct Hx as [<-|Hx]; [reflexivity|]); destruct Hx|]); destruct I|]). constructor.
      * cbn [no_preproc P56]. apply Forall_forall. intros c Hc. apply Forall_forall. intros e He. left. unfold fo_lit.
        repeat (destruct Hc as [<-|Hc]; [repeat (destruct He as [<-|He]; [cbn; first [discriminate|eexists; eexists; split; [reflexivity|split; discriminate]]|]); destruct He|]). destruct Hc.
  - constructor.
    + intros st d d' p H. apply List.find_some in H. destruct H as [I H]. split; auto. cbn [fst] in H. exists 60.
      destruct (clause_subsumes E56 60 d' d) as [[|]| |]; try discriminate. destruct (clause_subsumes E56 60 d d') as [[|]| |]; try discriminate. auto.
    + intros _ x. cbn. repeat split; auto. * intros y []. * intros f [<-|[]]. lia.
    + intros x. split; auto. cbn [altv KS56]. unfold is_fresh. rewrite <- Nat.negb_even, Nat.even_add_mul_2. reflexivity.
    + intros m f Hf. split; [|split; [|apply DI; lia]].
      * destruct (cases56 f) as [[[->| ->]|[R _]]|(R & _)]; [lia|lia| |exact R]. rewrite R. unfold E56, closing in R. cbn [srt fres] in R. assert (f <? 32 = false) by (apply Nat.ltb_ge; lia).
        rewrite H in R. rewrite <- R. reflexivity.
      * unfold E56, closing. cbn [srt fargs]. assert (f <? 32 = false) as -> by (apply Nat.ltb_ge; lia). reflexivity.
Qed.

(** The comment of EqnCanonize (ccl_eqn.c:1870) says that the larger side becomes the left one.  The sides are exchanged only if they weigh the same. *)
Theorem C56_canonize_order_refuted : exists e, (stdweight (lt e) < stdweight (rt e))%Z /\ eqn_canonize S0 e = e.
Proof. exists (eq0 a0 (f0 a0)). split; reflexivity. Qed.

Print Assumptions C56_preprocessing.
Print Assumptions C56_models_of_clauses.
Print Assumptions C56_models_extend.
Print Assumptions C56_exact.
Print Assumptions C56_theorem.
Print Assumptions C56_derived.
Print Assumptions C56_canonize_order_refuted.
