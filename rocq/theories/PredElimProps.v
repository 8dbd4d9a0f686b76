(** * C52: predicate elimination preserves satisfiability. *)
From Coq Require Import Permutation.
From Verif Require Import Terms Unify UnifyProofs KBO Semantics Clauses ClausesProofs ExEnv Subsume Taut TautProofs TautProps Split Infer InferProofs InferTotal Unfold UnfoldProps
  Bce BceProofs BceTotal BceProps PredElim PredRes PredInv PredElimProofs.
Local Open Scope nat_scope.

(** ** Specification *)
(** [f] is the predicate of an atom of the clause *)
Definition mentions (f : sym) (c : clause) : Prop := exists e a, In e c /\ equlit e = false /\ lt e = Fun f a.
(** new variables can be used in clauses *)
Definition fresh_base (E : env) (base : var -> Prop) : Prop := forall s k, base (prim (fresh E s k)).

Lemma mentions_occurs f c : mentions f c <-> occurs f c.
Proof.
  split; [intros (e & a & I & Q & L)|intros (e & I & A)].
  - exists e. split; auto. apply atom_lt. eauto.
  - apply atom_lt in A. destruct A as [Q [a L]]. exists e, a. auto.
Qed.

(** a run of the program: the decisions are made by [heur], equational resolvents may be used although there is no equation ([junk]) *)
Section Run.
Variables (E : env) (alt : var -> var) (base : var -> Prop) (eno : term -> Z) (max_neg n : nat) (heur : nat -> nat) (core : list clause -> option (list nat))
  (pairs : list nat -> list nat -> list (nat * nat)) (fuel wfuel : nat) (junk : bool) (N : list clause) (st : pstate).
Hypotheses (HP : problem E alt base N) (HB : fresh_base E base) (EI : forall s t, eno s = eno t -> s = t)
  (R : predicate_elimination E alt eno max_neg n heur core pairs fuel wfuel false junk N = Some st).
Lemma run : exists st0 eq, ok_state E base eq st0 /\ objs st0 = N /\ passive st0 = seq 0 (length N) /\ archive st0 = [] /\ ok_state E base eq st /\ simulates E st0 st.
Proof.
  destruct HP as (HE & HF & HFS & HA & NO & NF & NB).
  destruct (build_spec E alt base eno max_neg n heur core pairs N junk NO NF NB) as (st0 & B & OS & O1 & O2 & O3). unfold predicate_elimination in R. rewrite B in R.
  destruct (eliminate_spec E alt base eno max_neg n heur HE HF HFS HA HB EI wfuel _ fuel st0 st OS R) as (A1 & A2 & _). exists st0, (has_equation N || junk). auto 10.
Qed.
Lemma start_obj st0 i c : objs st0 = N -> nth_error N i = Some c -> obj st0 i = c.
Proof. intros O1 H. unfold obj. rewrite O1. apply nth_error_nth; auto. Qed.
Lemma start_sat st0 M : objs st0 = N -> passive st0 = seq 0 (length N) -> (satisfied E M N <-> sat_in E M st0).
Proof.
  intros O1 O2. unfold sat_in. rewrite O2. split.
  - intros H i Hi. apply in_seq in Hi. apply H. unfold obj. rewrite O1. apply nth_In. lia.
  - intros H c Hc. apply In_nth_error in Hc. destruct Hc as [i Hc]. rewrite <- (start_obj st0 i c O1 Hc). apply H. apply in_seq. assert (nth_error N i <> None) by congruence. apply nth_error_Some in H0. lia.
Qed.
Lemma end_sat M : satisfied E M (clauses st (passive st)) <-> sat_in E M st.
Proof.
  split.
  - intros H i Hi. apply H. apply in_map. auto.
  - intros H c Hc. apply in_map_iff in Hc. destruct Hc as [i [<- Hi]]. apply H. auto.
Qed.
End Run.

(** ** Theorems (recognition of gates switched off, the default) *)

(** The clauses that are left are satisfiable exactly if the given ones were: no proof is lost and none is gained, *)
Theorem C52_sat : forall E alt base eno max_neg n heur core pairs fuel wfuel junk N st, problem E alt base N -> fresh_base E base -> (forall s t, eno s = eno t -> s = t) ->
  predicate_elimination E alt eno max_neg n heur core pairs fuel wfuel false junk N = Some st ->
  (sat E N <-> sat E (clauses st (passive st))) /\ (unsat E N <-> unsat E (clauses st (passive st))).
Proof.
  intros E alt base eno max_neg n heur core pairs fuel wfuel junk N st HP HB EI R.
  destruct (run E alt base eno max_neg n heur core pairs fuel wfuel junk N st HP HB EI R) as (st0 & eq & OS & O1 & O2 & O3 & OS' & SM).
  pose proof (fun M => start_sat E N st0 M O1 O2) as SS. pose proof (end_sat E st) as ES.
  assert (FW : forall M, model_ok (srt E) (dist E) M -> satisfied E M N -> satisfied E M (clauses st (passive st))) by (intros M HM H; apply ES; apply (sm_fwd _ _ _ SM M HM); apply SS; auto).
  assert (BW : sat E (clauses st (passive st)) -> sat E N).
  { intros [M [HM H]]. destruct (sm_bwd _ _ _ SM) as [M' [HM' H']]; [exists M; split; auto; apply ES; auto|]. exists M'. split; auto. apply SS. auto. }
  split; split; auto.
  - intros [M [HM H]]. exists M. auto.
  - intros U M HM H. destruct (BW ltac:(exists M; auto)) as [M' [HM' H']]. apply (U M' HM' H').
  - intros U M HM H. apply (U M HM). auto.
Qed.
(** every model of the given clauses is one of the clauses that are left (which thus follow from them). *)
Theorem C52_follows : forall E alt base eno max_neg n heur core pairs fuel wfuel junk N st, problem E alt base N -> fresh_base E base -> (forall s t, eno s = eno t -> s = t) ->
  predicate_elimination E alt eno max_neg n heur core pairs fuel wfuel false junk N = Some st ->
  forall M, model_ok (srt E) (dist E) M -> satisfied E M N -> satisfied E M (clauses st (passive st)).
Proof.
  intros E alt base eno max_neg n heur core pairs fuel wfuel junk N st HP HB EI R M HM H.
  destruct (run E alt base eno max_neg n heur core pairs fuel wfuel junk N st HP HB EI R) as (st0 & eq & OS & O1 & O2 & O3 & OS' & SM).
  apply end_sat, (sm_fwd _ _ _ SM M HM). apply (start_sat E N st0 M O1 O2). auto.
Qed.

(** No clause is lost: the given clauses and the new ones are each in exactly one of the two sets. *)
Theorem C52_partition : forall E alt base eno max_neg n heur core pairs fuel wfuel junk N st, problem E alt base N -> fresh_base E base -> (forall s t, eno s = eno t -> s = t) ->
  predicate_elimination E alt eno max_neg n heur core pairs fuel wfuel false junk N = Some st ->
  exists new, Permutation (N ++ new) (clauses st (passive st) ++ clauses st (archive st)).
Proof.
  intros E alt base eno max_neg n heur core pairs fuel wfuel junk N st HP HB EI R.
  destruct (run E alt base eno max_neg n heur core pairs fuel wfuel junk N st HP HB EI R) as (st0 & eq & OS & O1 & O2 & O3 & OS' & SM).
  destruct (sm_objs _ _ _ SM) as [new H]. rewrite O1 in H. exists new. rewrite <- H. unfold clauses. rewrite <- map_app.
  transitivity (map (obj st) (seq 0 (length (objs st)))); [|apply Permutation_map, Permutation_sym, (os_part _ _ _ _ OS')].
  assert (G : forall l pre : list clause, map (fun i => nth i (pre ++ l) []) (seq (length pre) (length l)) = l).
  { induction l as [|c l IH]; intros pre; cbn; auto. f_equal; [rewrite app_nth2, Nat.sub_diag by lia; auto|]. specialize (IH (pre ++ [c])). rewrite app_length, <- app_assoc in IH. cbn in IH. rewrite Nat.add_1_r in IH. exact IH. }
  pose proof (G (objs st) []) as X. cbn in X. unfold obj. rewrite X. reflexivity.
Qed.

(** A clause is only removed because of a predicate that is eliminated completely, *)
Theorem C52_removed : forall E alt base eno max_neg n heur core pairs fuel wfuel junk N st, problem E alt base N -> fresh_base E base -> (forall s t, eno s = eno t -> s = t) ->
  predicate_elimination E alt eno max_neg n heur core pairs fuel wfuel false junk N = Some st ->
  forall c, In c (clauses st (archive st)) -> exists f, mentions f c /\ forall d, In d (clauses st (passive st)) -> ~ mentions f d.
Proof.
  intros E alt base eno max_neg n heur core pairs fuel wfuel junk N st HP HB EI R c Hc.
  destruct (run E alt base eno max_neg n heur core pairs fuel wfuel junk N st HP HB EI R) as (st0 & eq & OS & O1 & O2 & O3 & OS' & SM).
  apply in_map_iff in Hc. destruct Hc as [i [<- Hi]]. destruct (os_arch _ _ _ _ OS' i Hi) as (f & A & B). exists f. split; [apply mentions_occurs; auto|].
  intros d Hd X. apply in_map_iff in Hd. destruct Hd as [k [<- Hk]]. apply (B k Hk). apply mentions_occurs. auto.
Qed.
(** and no predicate is introduced. *)
Theorem C52_no_new_predicate : forall E alt base eno max_neg n heur core pairs fuel wfuel junk N st, problem E alt base N -> fresh_base E base -> (forall s t, eno s = eno t -> s = t) ->
  predicate_elimination E alt eno max_neg n heur core pairs fuel wfuel false junk N = Some st ->
  forall f d, In d (clauses st (passive st)) -> mentions f d -> exists c, In c N /\ mentions f c.
Proof.
  intros E alt base eno max_neg n heur core pairs fuel wfuel junk N st HP HB EI R f d Hd Hm.
  destruct (run E alt base eno max_neg n heur core pairs fuel wfuel junk N st HP HB EI R) as (st0 & eq & OS & O1 & O2 & O3 & OS' & SM).
  apply in_map_iff in Hd. destruct Hd as [i [<- Hi]]. apply mentions_occurs in Hm. destruct (sm_occ _ _ _ SM f i Hi Hm) as (k & Hk & Hm').
  exists (obj st0 k). split; [|apply mentions_occurs; auto]. rewrite O2 in Hk. apply in_seq in Hk. unfold obj. rewrite O1. apply nth_In. lia.
Qed.

(** The elimination ends, without following a null pointer, if the tautology test does; *)
Definition test_ends (E : env) (eno : term -> Z) (max_neg : nat) : Prop :=
  forall c, clause_ok E c -> fo_clause E c -> exists b n0, forall n, n0 <= n -> clause_is_tautology eno max_neg E n c = TAns b.
Theorem C52_ends : forall E alt base eno max_neg heur core pairs wfuel junk N, problem E alt base N -> fresh_base E base -> (forall s t, eno s = eno t -> s = t) ->
  test_ends E eno max_neg ->
  exists st n0, forall n fuel, n0 <= n -> n0 <= fuel -> predicate_elimination E alt eno max_neg n heur core pairs fuel wfuel false junk N = Some st.
Proof.
  intros E alt base eno max_neg heur core pairs wfuel junk N (HE & HF & HFS & HA & NO & NF & NB) HB EI HT.
  destruct (build_spec E alt base eno max_neg 0 heur core pairs N junk NO NF NB) as (st0 & B & OS & O1 & O2 & O3).
  assert (B' : forall n, build_queue E alt eno max_neg n heur core pairs false N = Some st0) by (intros n; rewrite <- B; reflexivity).
  assert (T : forall c, gc E c -> settles (fun n => taut E eno max_neg n c)).
  { intros c [G1 G2]. destruct (HT c G1 G2) as (b & n0 & H). exists b, n0. intros n Hn. unfold taut. rewrite (H n Hn). reflexivity. }
  destruct (eliminate_settles E alt base eno max_neg heur HE HF HFS HA HB EI T wfuel _ _ st0 OS (le_n _)) as (st & n0 & H).
  exists st, (Nat.max n0 (meas st0)). intros n fuel Hn Hf. unfold predicate_elimination. rewrite B'. apply H; lia.
Qed.
(** the test does if it is limited to clauses with at most one negative literal. *)
Theorem C52_test_ends : forall E eno max_neg, env_ok E -> fo_sig E -> (forall s t, eno s = eno t -> s = t) -> max_neg <= 1 -> test_ends E eno max_neg.
Proof.
  intros E eno max_neg HE HF EI HM c G1 G2. assert (NF : no_false c).
  { intros e He. pose proof (proj1 (Forall_forall _ _) G1 e He) as OK. pose proof (proj1 (Forall_forall _ _) G2 e He) as FO. unfold fo_lit in FO. destruct (equlit e) eqn:Q.
    - destruct OK as (W1 & W2 & TS & _). split; apply (BceEq.not_truth E HE); congruence.
    - destruct FO as (p & l & L & P1 & P2). split; [rewrite L; unfold tfalse; congruence|]. unfold equlit in Q. apply negb_false_iff, term_eqb_eq in Q. rewrite Q. discriminate. }
  assert (IJ : injective_on eno c) by (intros a b t u _ _ _ _; apply EI).
  assert (C : neg_no c <= 1 \/ max_neg < neg_no c) by lia.
  destruct (proj2 (C17_no_crash E eno max_neg 0 c NF IJ) C) as [b H]. exists b, 0. intros n _. rewrite <- H. unfold clause_is_tautology.
  destruct (Nat.ltb max_neg (neg_no c)) eqn:L; auto. apply Nat.ltb_ge in L. assert (L1 : Nat.ltb 1 (neg_no c) = false) by (apply Nat.ltb_ge; lia). rewrite L1. reflexivity.
Qed.

(** ** Examples *)
Definition E52 : env := {| srt := S0; pp := pp0; dist := dist0; pspred := fun _ => false; fresh := fun _ k => 4 * k + 1 |}.
Lemma E52_ok : env_ok E52.
Proof.
  constructor; simpl; auto.
  - intros _ k. unfold is_fresh. rewrite <- Nat.negb_even. replace (k + (k + (k + (k + 0))) + 1) with (1 + 2 * (2 * k)) by lia. rewrite Nat.even_add_mul_2. reflexivity.
  - intros _ k k' H. lia.
Qed.
Lemma E52_base : fresh_base E52 base51.
Proof.
  intros s k. unfold base51, prim. change (fresh E52 s k) with (4 * k + 1). replace (4 * k + 1) with (S (2 * (2 * k))) by lia. rewrite Nat.div2_succ_double. unfold Nat.double.
  replace (2 * k + 2 * k) with (k * 4) by lia. apply Nat.mod_mul. lia.
Qed.
Lemma lits52 N : problem E0 alt51 base51 N -> problem E52 alt51 base51 N.
Proof. intros (_ & A & B & C & D & F & G). split; [apply E52_ok|]. auto 10. Qed.
Lemma eno49_inj s t : eno49 s = eno49 t -> s = t.
Proof. intros H. unfold eno49 in H. injection H as H. apply pair49_inj in H. apply (enum49_inj s t [] []). rewrite !app_nil_r. exact H. Qed.

(** p is eliminated from p(a) | q(a,b), ~p(X) | q(X,X), p(b), f(a) = b *)
Definition N52 : list clause := [[at0 (p0 a0); at0 (ExEnv.q0 a0 b0)]; [nat0 (p0 X0); at0 (ExEnv.q0 X0 X0)]; [at0 (p0 b0)]; [eq0 (f0 a0) b0]].
Definition table (l : list nat) (k : nat) : nat := nth k l 0.
Definition run52 (tab : list nat) := predicate_elimination E52 alt51 eno49 1 50 (table tab) (fun _ => None) code_pairs 50 50.
Definition show52 (c : clause) : list (term * term * bool) := map (fun e => (lt e, rt e, pos e)) c.
Example C52_nonvacuous : problem E52 alt51 base51 N52 /\ fresh_base E52 base51 /\ (forall s t, eno49 s = eno49 t -> s = t) /\ test_ends E52 eno49 1
  /\ exists st, run52 [0;0;0;0;0;0;1] false false N52 = Some st
       /\ map show52 (clauses st (passive st)) = map show52 [[eq0 (f0 a0) b0]; [at0 (ExEnv.q0 a0 b0); at0 (ExEnv.q0 a0 a0)]; [at0 (ExEnv.q0 b0 b0)]]
       /\ archive st = [1; 0; 2].
Proof.
  split; [apply lits52, lits51; reflexivity|]. split; [apply E52_base|]. split; [apply eno49_inj|]. split; [apply C52_test_ends; [apply E52_ok|apply E0_fo|apply eno49_inj|auto]|].
  eexists. split; [vm_compute; reflexivity|]. split; vm_compute; reflexivity.
Qed.

(** ** Where the claim fails *)

(** Gates.  The clauses the solver returns are unsatisfiable as propositional clauses. *)
Definition prop_unsat (cs : list clause) : Prop := forall val : term -> term -> bool, exists c, In c cs /\ forall e, In e c -> val (lt e) (rt e) <> pos e.
Definition core_ok (core : list clause -> option (list nat)) : Prop :=
  forall l is, core l = Some is -> NoDup is /\ prop_unsat (flat_map (fun k => match nth_error l k with Some c => [c] | None => [] end) is).
(** The program checks the resolvents of the clauses of a gate only for one pair, see [code_pairs].  Here p(X) | ~q(X,a), p(X) | q(X,a) | q(X,b) and
    ~p(X) | ~q(X,b) count as a definition of p and are removed; that no X satisfies q(X,a) and q(X,b) is lost. *)
Definition N53 : list clause :=
  [[at0 (p0 X0); nat0 (ExEnv.q0 X0 a0)]; [at0 (p0 X0); at0 (ExEnv.q0 X0 a0); at0 (ExEnv.q0 X0 b0)]; [nat0 (p0 X0); nat0 (ExEnv.q0 X0 b0)]; [at0 (ExEnv.q0 a0 a0)]; [at0 (ExEnv.q0 a0 b0)]].
Definition core53 (l : list clause) : option (list nat) :=
  match l with
  | [[a]; [b]; [c; d]] =>
      if negb (pos a) && negb (pos b) && pos c && pos d && term_eqb (lt a) (lt d) && term_eqb (rt a) (rt d) && term_eqb (lt b) (lt c) && term_eqb (rt b) (rt c) then Some [0; 1; 2] else None
  | _ => None
  end.
Lemma core53_ok : core_ok core53.
Proof.
  intros l is H. unfold core53 in H. destruct l as [|[|a [|]] [|[|b [|]] [|[|c [|d [|]]] [|]]]]; try discriminate.
  destruct (negb (pos a) && _ && _ && _ && _ && _ && _ && _) eqn:B; [|discriminate]. injection H as <-. rewrite !andb_true_iff, !negb_true_iff, !term_eqb_eq in B.
  destruct B as (((((((A1 & A2) & A3) & A4) & A5) & A6) & A7) & A8). split; [repeat constructor; cbn; intuition discriminate|].
  intros val. cbn [flat_map nth_error List.app]. destruct (val (lt a) (rt a)) eqn:VA; [exists [a]; split; [left; auto|intros e [<-|[]]; congruence]|].
  destruct (val (lt b) (rt b)) eqn:VB; [exists [b]; split; [right; left; auto|intros e [<-|[]]; congruence]|].
  exists [c; d]. split; [right; right; left; auto|]. intros e [<-|[<-|[]]]; congruence.
Qed.
Theorem C52_gates_refuted : exists core heur N st, core_ok core /\ problem E52 alt51 base51 N
  /\ predicate_elimination E52 alt51 eno49 1 50 heur core code_pairs 50 50 true false N = Some st
  /\ unsat E52 N /\ sat E52 (clauses st (passive st)).
Proof.
  exists core53, (table [0;0;0;0;0;0;0;0;0;0;1]), N53. eexists. split; [exact core53_ok|]. split; [apply lits52, lits51; reflexivity|]. split; [vm_compute; reflexivity|]. split.
  - intros M HM HS. destruct (valuation E52 M HM) as [v Hv]. set (w := fun x => eval M v (if Nat.eqb x 0 then a0 else Var x)).
    assert (Hw : respects (srt E52) M w). { apply (respects_subst _ (dist E52) M v (fun x => if Nat.eqb x 0 then a0 else Var x)); auto. intros x. destruct (Nat.eqb x 0); split; reflexivity. }
    pose proof (HS _ (or_introl eq_refl) w Hw) as H1. pose proof (HS _ (or_intror (or_intror (or_introl eq_refl))) w Hw) as H2.
    pose proof (HS _ (or_intror (or_intror (or_intror (or_introl eq_refl)))) w Hw) as H3. pose proof (HS _ (or_intror (or_intror (or_intror (or_intror (or_introl eq_refl))))) w Hw) as H4.
    apply Exists_cons in H3. destruct H3 as [H3|H3]; [|inversion H3]. apply Exists_cons in H4. destruct H4 as [H4|H4]; [|inversion H4].
    apply Exists_cons in H1. rewrite Exists_cons in H1. apply Exists_cons in H2. rewrite Exists_cons in H2.
    destruct H1 as [H1|[H1|H1]]; [|apply H1; exact H3|inversion H1]. destruct H2 as [H2|[H2|H2]]; [apply H2; exact H1|apply H2; exact H4|inversion H2].
  - exists M0. split; [apply M0_ok|]. intros c [<-|[<-|[]]] v Hv; left; reflexivity.
Qed.

(** Clauses with answer literals: the prover disregards these literals (a clause with no others is a proof), the elimination does not. *)
Definition E52a : env := {| srt := S0; pp := pp0; dist := dist0; pspred := Nat.eqb 10; fresh := fun _ k => 4 * k + 1 |}.
Theorem C52_answer_refuted : exists heur N st, problem E52a alt51 base51 N
  /\ predicate_elimination E52a alt51 eno49 1 50 heur core53 code_pairs 50 50 false false N = Some st /\ unsat E52a (disregard N) /\ sat E52a (disregard (clauses st (passive st))).
Proof.
  exists (table [0;0;0;1;1;1;1;1;1]), [ [at0 (p0 a0)]; [nat0 (p0 (V51 0)); answer51 (V51 0)] ]. eexists. split; [|split; [vm_compute; reflexivity|split]].
  - assert (X : problem E52 alt51 base51 [ [at0 (p0 a0)]; [nat0 (p0 (V51 0)); answer51 (V51 0)] ]) by (apply lits52, lits51; reflexivity).
    destruct X as (_ & A & B & C & D & F & G). split; [constructor; apply E52_ok|]. auto 10.
  - intros M HM HS. destruct (valuation E52a M HM) as [v Hv].
    pose proof (HS _ (or_introl eq_refl) v Hv) as H1. inversion H1 as [? ? A1|? ? A1]; subst; [|inversion A1].
    pose proof (HS _ (or_intror (or_introl eq_refl)) (fun x => eval M v (if Nat.eqb x 0 then a0 else Var x))) as H2.
    assert (H3 : respects (srt E52a) M (fun x => eval M v (if Nat.eqb x 0 then a0 else Var x))).
    { apply (respects_subst _ (dist E52a) M v (fun x => if Nat.eqb x 0 then a0 else Var x)); auto. intros x. destruct (Nat.eqb x 0); split; reflexivity. }
    specialize (H2 H3). inversion H2 as [? ? A2|? ? A2]; subst; [|inversion A2]. apply A2. exact A1.
  - exists M0. split; [apply M0_ok|]. intros c [].
Qed.

Print Assumptions C52_sat.
Print Assumptions C52_follows.
Print Assumptions C52_partition.
Print Assumptions C52_removed.
Print Assumptions C52_no_new_predicate.
Print Assumptions C52_ends.
Print Assumptions C52_test_ends.
Print Assumptions C52_gates_refuted.
Print Assumptions C52_answer_refuted.
