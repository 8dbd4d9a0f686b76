(** * C56: from formulas to clauses and back. *)
From Coq Require Import Classical_Prop ClassicalEpsilon.
From Verif Require Import Terms Unify Semantics Clauses ClausesProofs InferProofs Split SplitProofs SplitSemProofs Infer CNF CNFProofs CNFTermProofs CNFSkolemProofs CNFMainProofs CNFProps CNFDefs
  CNFDefsProofs CNFDefsProps Pipeline PipeSteps.
Local Open Scope nat_scope.

(** an interpretation of the old signature becomes one of an extended signature *)
Lemma expand E n E' n' M : grows E n E' n' -> next_ok E n -> env_ok E -> model_ok (srt E) (dist E) M ->
  exists F, agree (dom M) n (ifun M) F /\ model_ok (srt E') (dist E') (mk (dom M) (isort M) F).
Proof.
  intros G [N2 ND] HE HM. pose proof (gr_le _ _ _ _ G) as L.
  set (F := fun f ds => if f <? n then ifun M f ds else epsilon (inhabits (ifun M 1 [])) (isort M (fres (srt E') f))).
  assert (FB : forall f ds, f < n -> F f ds = ifun M f ds) by (intros f ds Hf; unfold F; destruct (Nat.ltb_spec f n); auto; lia).
  exists F. split; [intros f ds Hf; rewrite FB; auto|]. constructor; cbn [mk dom ifun isort].
  - intros f ds Hds. destruct (Nat.lt_ge_cases f n) as [Hf|Hf].
    + rewrite FB by auto. rewrite (gr_fres _ _ _ _ G) by auto. apply (mo_fun _ _ _ HM). rewrite <- (gr_fargs _ _ _ _ G) by auto. exact Hds.
    + unfold F. destruct (Nat.ltb_spec f n); [lia|]. apply epsilon_spec. apply (mo_inh _ _ _ HM).
  - apply (mo_inh _ _ _ HM).
  - rewrite !FB by (unfold true_code, false_code; lia). rewrite (gr_fres _ _ _ _ G) by (unfold true_code; lia). apply (mo_bool _ _ _ HM).
  - rewrite !FB by (unfold true_code, false_code; lia). apply (mo_tf _ _ _ HM).
  - apply (mo_dec _ _ _ HM).
  - intros f g Df Dg NE. rewrite (gr_dist _ _ _ _ G) in Df, Dg. assert (f < n) by (destruct (Nat.lt_ge_cases f n) as [|Hf]; auto; rewrite (ND f Hf) in Df; discriminate).
    assert (g < n) by (destruct (Nat.lt_ge_cases g n) as [|Hg]; auto; rewrite (ND g Hg) in Dg; discriminate). rewrite !FB by auto. apply (mo_dist _ _ _ HM); auto.
Qed.
Lemma agree_same n M F : agree (dom M) n (ifun M) F -> same_below n M (mk (dom M) (isort M) F).
Proof. intros A. exists F. split; auto. intros f ds Hf. symmetry. apply A; auto. Qed.

(** truth of formulas and clauses over the old signature *)
Lemma same_form S S' n M M' f : same_below n M M' -> 2 < n -> (forall x, vsort S x = vsort S' x) -> (forall s, In s (form_syms f) -> s < n) -> (form_true S M f <-> form_true S' M' f).
Proof.
  intros [F [-> A]] N2 V SY. destruct M as [D FM so]. cbn [dom isort ifun] in *. change ({| dom := D; ifun := FM; isort := so |}) with (mk D so FM). change ({| dom := D; ifun := F; isort := so |}) with (mk D so F).
  assert (AG : agree D n FM F) by (intros g ds Hg; rewrite A; auto).
  split; intros H v Hv.
  - apply (sem_sorts S S' (mk D so F) f V). apply (agree_sem D so S n FM F f AG N2 SY). apply H. intros y. rewrite V. apply Hv.
  - apply (agree_sem D so S n FM F f AG N2 SY). apply (sem_sorts S S' (mk D so F) f V). apply H. intros y. rewrite <- V. apply Hv.
Qed.
Lemma same_clause E E' n M M' c : same_below n M M' -> (forall x, vsort (srt E) x = vsort (srt E') x) -> below n c -> (clause_true (srt E) M c <-> clause_true (srt E') M' c).
Proof.
  intros [F [-> A]] V B. destruct M as [D FM so]. cbn [dom isort ifun] in *. change ({| dom := D; ifun := FM; isort := so |}) with (mk D so FM). change ({| dom := D; ifun := F; isort := so |}) with (mk D so F).
  assert (AG : agree D n FM F) by (intros g ds Hg; rewrite A; auto).
  rewrite (agree_true E D so n FM F c AG B). split; apply clause_true_sorts; auto.
Qed.
Lemma same_satisfied E E' n M M' N : same_below n M M' -> (forall x, vsort (srt E) x = vsort (srt E') x) -> Forall (below n) N -> (satisfied E M N <-> satisfied E' M' N).
Proof. intros S V B. rewrite Forall_forall in B. split; intros H c Hc; [apply (same_clause E E' n M M' c)|apply (same_clause E E' n M M' c)]; auto. Qed.
Lemma same_sym n M M' : same_below n M M' -> same_below n M' M.
Proof. intros [F [-> A]]. exists (ifun M). split; [destruct M; auto|]. intros f ds Hf. cbn. rewrite A; auto. Qed.

Section Cnf.
Variables (arrange : list var -> list var) (estimate : form -> bool -> Z) (def_limit mlimit : Z) (unroll : bool) (fuel : nat).
Hypothesis HA : keeps arrange.

Lemma cnf_grows fs st cs st' : env_ok (c_env st) -> next_ok (c_env st) (c_next st) -> Forall (input_ok st) fs ->
  set_cnf fuel arrange estimate def_limit mlimit unroll st fs = Some (cs, st') -> grows (c_env st) (c_next st) (c_env st') (c_next st').
Proof.
  intros HE HN IN H. destruct (cnf_split arrange estimate def_limit mlimit unroll HA fuel fs st cs st' HE HN IN H) as (gs & hs & st1 & G & Q & C & HE1 & HN1 & I1 & S).
  pose proof (inputs_good _ _ G) as GG. destruct (introduce_spec st arrange estimate def_limit _ HE HN HA GG hs st1 Q) as [GR _].
  eapply grows_trans; [exact GR|]. apply (ou_grows _ _ _ _ (all_correct arrange mlimit unroll HA fuel hs st1 cs st' HE1 HN1 I1 C)).
Qed.
(** a model of the clauses, over the symbols of [E], gives one of the formulas *)
Lemma cnf_backward fs st cs st' E nE M : env_ok (c_env st) -> next_ok (c_env st) (c_next st) -> Forall (input_ok st) fs ->
  set_cnf fuel arrange estimate def_limit mlimit unroll st fs = Some (cs, st') -> grows (c_env st') (c_next st') E nE ->
  model_ok (srt E) (dist E) M -> satisfied E M cs ->
  exists M0, same_below (c_next st) M M0 /\ model_ok (srt (c_env st)) (dist (c_env st)) M0 /\ forall f, In f fs -> form_true (srt (c_env st)) M0 f.
Proof.
  intros HE HN IN H G HM HS. pose proof (cnf_grows fs st cs st' HE HN IN H) as G0.
  destruct (C53_well_formed arrange estimate def_limit mlimit unroll HA fuel fs st cs st' HE HN IN H) as (HE' & HN' & L & OK & BL & _).
  destruct (restrict _ _ _ _ M G HN' HM) as [F [AF MF]]. pose proof (agree_same _ _ _ AF) as SB.
  assert (T : satisfied (c_env st') (mk (dom M) (isort M) F) cs) by (apply (same_satisfied E (c_env st') (c_next st') M); auto; apply (gr_vsort _ _ _ _ G)).
  set (M1 := mk (dom M) (isort M) F) in *.
  destruct (cnf_split arrange estimate def_limit mlimit unroll HA fuel fs st cs st' HE HN IN H) as (gs & hs & st1 & G1 & Q & C & HE1 & HN1 & I1 & S).
  pose proof (C34_models_of_clauses arrange mlimit unroll HA fuel hs st1 cs st' M1 HE1 HN1 I1 C MF T) as T1.
  pose proof (inputs_good _ _ G1) as GG.
  pose proof (C53_definitions_sound arrange estimate def_limit HA st _ hs st1 M1 HE HN G1 Q T1) as T2.
  destruct (restrict _ _ _ _ M1 G0 HN MF) as [F2 [AF2 MF2]]. pose proof (agree_same _ _ _ AF2) as SB2. set (M2 := mk (dom M1) (isort M1) F2) in *.
  exists M2. split; [eapply same_trans; [eapply same_le; [|exact SB]; auto|exact SB2]|]. split; auto. apply (S M2 MF2). intros g Hg.
  rewrite Forall_forall in G1. destruct (G1 (false, g) (in_map _ _ _ Hg)) as [[_ [_ SY]] _].
  apply (same_form (srt (c_env st)) (srt (c_env st)) (c_next st) M1 M2 g SB2 (proj1 HN)); auto. apply (T2 (false, g)). apply in_map. auto.
Qed.
Lemma cnf_forward fs st cs st' E nE M : env_ok (c_env st) -> next_ok (c_env st) (c_next st) -> Forall (input_ok st) fs ->
  set_cnf fuel arrange estimate def_limit mlimit unroll st fs = Some (cs, st') -> grows (c_env st') (c_next st') E nE ->
  model_ok (srt (c_env st)) (dist (c_env st)) M -> (forall f, In f fs -> form_true (srt (c_env st)) M f) ->
  exists M', same_below (c_next st) M M' /\ model_ok (srt E) (dist E) M' /\ satisfied E M' cs.
Proof.
  intros HE HN IN H G HM HT. destruct (C53_well_formed arrange estimate def_limit mlimit unroll HA fuel fs st cs st' HE HN IN H) as (HE' & HN' & L & OK & BL & _).
  destruct (C53_models_extend arrange estimate def_limit mlimit unroll HA fuel fs st cs st' M HE HN IN H HM HT) as (M1 & S1 & HM1 & T1).
  destruct (expand _ _ _ _ M1 G HN' HE' HM1) as [F [AF MF]]. pose proof (agree_same _ _ _ AF) as SB.
  exists (mk (dom M1) (isort M1) F). split; [eapply same_trans; [exact S1|eapply same_le; [|exact SB]; auto]|]. split; auto.
  apply (same_satisfied (c_env st') E (c_next st') M1); auto. intros x. symmetry. apply (gr_vsort _ _ _ _ G).
Qed.
End Cnf.

(** ** Conjectures *)
Lemma negated answer indiv caq st add : forall ws, add = false \/ (forall w, In w ws -> is_question caq (fst w) = false) ->
  snd (preproc_conjectures answer indiv add caq st ws) = st
  /\ map snd (fst (preproc_conjectures answer indiv add caq st ws)) = map (fun w => if is_question caq (fst w) || Z.eqb (fst w) r_conjecture then FNot (snd w) else snd w) ws.
Proof.
  induction ws as [|[r f] ws IH]; intros HQ; [split; reflexivity|]. cbn [preproc_conjectures].
  assert (HQ' : add = false \/ (forall w, In w ws -> is_question caq (fst w) = false)) by (destruct HQ as [X|X]; [auto|right; intros w Hw; apply X; right; auto]).
  specialize (IH HQ'). assert (X : annotate_question answer indiv add caq st (r, f) = ((if is_question caq r then r_conjecture else r, f), st)).
  { unfold annotate_question. destruct (is_question caq r) eqn:Q; auto. destruct HQ as [->|X]; auto. specialize (X (r, f) (or_introl eq_refl)). cbn in X. congruence. }
  rewrite X. destruct (preproc_conjectures answer indiv add caq st ws) as [l st2]. cbn [fst snd map] in *. destruct IH as [I1 I2]. split; auto. f_equal; auto.
  unfold conjecture_negate. destruct (is_question caq r); cbn [orb]; [reflexivity|]. destruct (Z.eqb r r_conjecture); reflexivity.
Qed.
Lemma to_prove_spec caq r : is_question caq r || Z.eqb r r_conjecture = true <-> to_prove caq r.
Proof. unfold to_prove. rewrite orb_true_iff, Z.eqb_eq. tauto. Qed.

(** closed formulas *)
Lemma some_valuation S dist M : model_ok S dist M -> exists v, respects S M v.
Proof.
  intros HM. exists (fun x => proj1_sig (constructive_indefinite_description _ (mo_inh _ _ _ HM (vsort S x)))). intros x.
  destruct (constructive_indefinite_description _ _) as [d Hd]. exact Hd.
Qed.
Lemma closed_not S dist M f : model_ok S dist M -> closed f -> (form_true S M (FNot f) <-> ~ form_true S M f).
Proof.
  intros HM HC. destruct (some_valuation S dist M HM) as [v Hv]. split.
  - intros H T. exact (H v Hv (T v Hv)).
  - intros H w Hw T. apply H. intros u Hu. apply (sem_ext S M f w u); auto. intros x Hx. unfold closed in HC. rewrite HC in Hx. destruct Hx.
Qed.
