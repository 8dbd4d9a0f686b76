(** * C56: what is assumed of the input of clausal preprocessing, and what its steps keep. *)
From Coq Require Import Permutation Classical_Prop.
From Verif Require Import Terms Unify UnifyProofs KBO Semantics Clauses ClausesProofs LitOrder InferProofs ExEnv Subsume Taut Split SplitProofs SplitSemProofs Infer CNF CNFProofs CNFTermProofs CNFSkolemProofs
  CNFMainProofs CNFProps CNFDefs CNFDefsProofs CNFDefsProps Unfold UnfoldProofs UnfoldProps Inj InjProofs InjProps Bce BceProofs BceProps PredElim PredRes PredInv PredElimProofs PredElimProps
  GoalDefs GoalDefsProofs GoalDefsProps Rewrite Saturate SaturateProofs SaturateSyms SaturateProps PipeSyms Pipeline PipeProofs.
Local Open Scope nat_scope.

(** ** Specification *)

(** For the elimination of blocked clauses and of predicates: a first-order problem, whose variables are in [base], without $false; see C51 and C52. *)
Record first_order (E : env) (P : popts) (K : orac) (base : var -> Prop) (N : list clause) : Prop := {
  fi_sig : fo_sig E; fi_sorts : fo_sorts (srt E) (pp E); fi_alt : alt_ok E (k_alt K) base; fi_fresh : fresh_base E base;
  fi_vars : Forall (over base) N;
  fi_lits : if no_preproc P then Forall (fo_clause E) N else Forall (Forall (weak_lit E)) N }.
(** [N] are clauses over the symbols below [n]; [ds] are the symbols introduced, declared in [E]; sorting keeps the elements *)
Record pre_ok (E : env) (P : popts) (K : orac) (n : sym) (N : list clause) (ds : list decl) : Prop := {
  pr_env : env_ok E; pr_next : next_ok E n; pr_ok : Forall (clause_ok E) N; pr_below : Forall (below n) N;
  pr_eno : forall s t, k_eno K s = k_eno K t -> s = t;
  pr_sortl : forall c, Permutation (k_sortl K c) c; pr_sortc : forall l, Permutation (k_sortc K l) l; pr_order : forall l t, In t (k_order K l) <-> In t l;
  pr_decl : Forall (decl_in E) ds;
  pr_fo : bce P = true \/ pred_elim P = true -> exists base, first_order E P K base N }.

(** every model of [N] becomes a model of [N'] by interpreting symbols from [n] on *)
Definition extends (E : env) (n : sym) (N N' : list clause) : Prop := forall M, model_ok (srt E) (dist E) M -> satisfied E M N ->
  exists M', model_ok (srt E) (dist E) M' /\ same_below n M M' /\ satisfied E M' N'.

(** ** Clausal preprocessing *)
Lemma same_sat E N N' : (forall M, model_ok (srt E) (dist E) M -> (satisfied E M N' <-> satisfied E M N)) -> (sat E N <-> sat E N').
Proof. intros H. split; intros [M [HM HS]]; exists M; split; auto; apply (H M HM); auto. Qed.
Lemma taut_same E eno mn k N N' : Forall (clause_ok E) N -> env_ok E -> (forall s t, eno s = eno t -> s = t) -> filter_taut eno mn k E N = Some N' ->
  forall M, model_ok (srt E) (dist E) M -> (satisfied E M N' <-> satisfied E M N).
Proof.
  intros OK HE EI H. destruct (filter_taut_spec E eno mn k HE EI N N' OK H) as [I X]. intros M HM. split; auto. intros HS c Hc. apply HS. auto.
Qed.

Lemma same_refl n M : same_below n M M.
Proof. exists (ifun M). split; auto. destruct M; reflexivity. Qed.
Lemma same_trans n M1 M2 M3 : same_below n M1 M2 -> same_below n M2 M3 -> same_below n M1 M3.
Proof. intros [F [-> A]] [F' [-> B]]. exists F'. split; auto. intros f ds Hf. rewrite B by auto. apply A; auto. Qed.
Lemma same_le n m M M' : n <= m -> same_below m M M' -> same_below n M M'.
Proof. intros L [F [-> A]]. exists F. split; auto. intros f ds Hf. apply A. lia. Qed.
Lemma ext_keep E n N N' : (forall M, model_ok (srt E) (dist E) M -> satisfied E M N -> satisfied E M N') -> extends E n N N'.
Proof. intros H M HM HS. exists M. split; auto. split; [apply same_refl|auto]. Qed.
Lemma ext_trans E n m N1 N2 N3 : n <= m -> extends E n N1 N2 -> extends E m N2 N3 -> extends E n N1 N3.
Proof.
  intros L A B M HM HS. destruct (A M HM HS) as [M1 [HM1 [S1 T1]]]. destruct (B M1 HM1 T1) as [M2 [HM2 [S2 T2]]].
  exists M2. split; auto. split; auto. eapply same_trans; [exact S1|]. eapply same_le; eauto.
Qed.

Section Steps.
Variables (E : env) (P : popts) (K : orac) (base : var -> Prop) (FO : Prop).
Hypotheses (HE : env_ok E) (EI : forall s t, k_eno K s = k_eno K t -> s = t) (HL : forall c, Permutation (k_sortl K c) c) (HC : forall l, Permutation (k_sortc K l) l)
  (HO : forall l t, In t (k_order K l) <-> In t l) (HF : FO -> fo_sig E).
(** what every step keeps *)
Record kept (n : sym) (N : list clause) : Prop := {
  ke_next : 2 < n; ke_ok : Forall (clause_ok E) N; ke_lok : Forall (Forall (lok n)) N; ke_fo : FO -> Forall (fo_clause E) N /\ Forall (over base) N }.

Lemma pre_kept n N N' n' ds : 2 < n -> Forall (clause_ok E) N -> Forall (Forall (lok n)) N -> (FO -> Forall (Forall (weak_lit E)) N /\ Forall (over base) N) ->
  set_preprocess E P K n N = Some (N', n', ds) -> Forall (decl_in E) ds -> kept n' N' /\ n <= n' /\ (sat E N <-> sat E N') /\ extends E n N N'.
Proof.
  intros Hn OK LK FW H DC. unfold set_preprocess in H. destruct (filter_taut _ _ _ E (map (remove_superfluous E) N)) as [N1|] eqn:FT; [|discriminate].
  destruct (taut_sub E _ _ _ _ _ FT) as [I1 NT].
  assert (OKs : Forall (clause_ok E) (map (remove_superfluous E) N)).
  { rewrite Forall_map. eapply Forall_impl; [|exact OK]. intros c Hc. eapply sub_forall; [apply superfluous_sub|exact Hc]. }
  assert (LKs : Forall (Forall (lok n)) (map (remove_superfluous E) N)).
  { rewrite Forall_map. eapply Forall_impl; [|exact LK]. intros c Hc. eapply sub_forall; [apply superfluous_sub|exact Hc]. }
  pose proof (forall_incl _ _ _ I1 OKs) as OK1. pose proof (forall_incl _ _ _ I1 LKs) as LK1.
  assert (FO1 : FO -> Forall (fo_clause E) N1 /\ Forall (over base) N1).
  { intros X. destruct (FW X) as [WW OV]. rewrite Forall_forall in WW, OV. split; apply Forall_forall; intros c Hc; pose proof (I1 c Hc) as Hi; apply in_map_iff in Hi; destruct Hi as [d [<- Hd]].
    - apply (strong E); auto; [eapply sub_forall; [apply superfluous_sub|auto]|]. intros e He. eapply resolved_not_false; eauto.
    - eapply sub_over; [apply superfluous_sub|auto]. }
  assert (Q1 : forall M, model_ok (srt E) (dist E) M -> (satisfied E M N1 <-> satisfied E M N)).
  { intros M HM. rewrite (taut_same E _ _ _ _ _ OKs HE EI FT M HM). split; intros HS c Hc.
    - apply (superfluous_true E M c HM), HS. apply in_map. auto.
    - apply in_map_iff in Hc. destruct Hc as [d [<- Hd]]. apply (superfluous_true E M d HM). auto. }
  pose proof (same_sat E _ _ Q1) as S1.
  destruct (if replace_inj_defs P then _ else _) as [[N2 A2] ds2] eqn:RI. injection H as <- <- <-.
  assert (S2 : kept (n + length ds2) N2 /\ (sat E N1 <-> sat E N2) /\ extends E n N1 N2).
  { destruct (replace_inj_defs P).
    - unfold replace_injectivity_defs in RI. assert (BL : Forall (below n) N1) by (eapply Forall_impl; [|exact LK1]; intros c Hc; apply below_lok; auto).
      destruct (C50_follows E _ _ n N1 N2 A2 ds2 HE Hn OK1 BL RI DC) as (G1 & _).
      split; [|split; [apply (C50_sat E _ _ n N1 N2 A2 ds2 HE Hn OK1 BL RI DC)|]].
      2: { destruct (C50_models E _ _ n N1 N2 A2 ds2 HE Hn OK1 BL RI DC) as [D1 D2]. intros M HM HS. destruct (D2 M HM HS) as [M' [B1 [[F' [-> B2]] B3]]].
           eexists. split; [exact B1|]. split; [|exact B3]. exists F'. split; [reflexivity|]. intros f l Hf. apply B2. intros I. apply in_map_iff in I. destruct I as [d [<- I]]. specialize (D1 d I). lia. }
      constructor; [lia|auto| |].
      + apply (replace_inj_lok E _ _ n N1 n [] N2 A2 ds2 Hn LK1 (Forall_nil _) RI).
      + intros X. destruct (FO1 X) as [F1 O1]. eapply (replace_inj_fo E base (HF X)); [exact F1|exact O1|constructor|constructor|exact RI|auto].
    - injection RI as <- <- <-. cbn. rewrite Nat.add_0_r. split; [constructor; auto|]. split; [tauto|]. apply ext_keep. auto. }
  destruct S2 as (KE & S2 & X2). destruct KE as [K1 K2 K3 K4]. split; [|split; [lia|split]].
  - constructor; auto; [apply canonize_ok; auto|apply canonize_lok; auto|]. intros X. destruct (K4 X). split; [apply canonize_fo; auto|apply canonize_over; auto].
  - rewrite S1, S2. apply same_sat. intros M HM. apply canonize_true; auto.
  - eapply ext_trans; [apply le_n|apply ext_keep; intros M HM; apply (Q1 M HM)|]. eapply ext_trans; [apply le_n|exact X2|]. apply ext_keep. intros M HM. apply canonize_true; auto.
Qed.
Lemma unfold_kept n N N' : kept n N -> unfold_step E P K N = Some N' -> kept n N' /\ (sat E N <-> sat E N') /\ extends E n N N'.
Proof.
  intros [K1 K2 K3 K4] H. unfold unfold_step in H. destruct (unfold_normalize _ _ _ _ _ _ _ _ _) as [[[N1 P1] A1]|] eqn:U; [|discriminate].
  destruct (C49_follows E _ _ _ _ _ _ N [] N1 P1 A1 K2 (Forall_nil _) HE EI U) as (G1 & _ & G1' & _).
  pose proof (unfold_normalize_lok n _ _ _ _ _ _ _ _ _ _ _ _ K3 U) as G2.
  assert (G3 : FO -> Forall (fo_clause E) N1 /\ Forall (over base) N1) by (intros X; destruct (K4 X) as [F OV]; exact (unfold_normalize_fo E base HE _ _ _ _ _ _ _ _ _ _ K2 F OV U)).
  pose proof (C49_sat E _ _ _ _ _ _ N [] N1 P1 A1 K2 (Forall_nil _) HE EI U) as [S1 _].
  assert (KE : kept n N1) by (constructor; auto).
  assert (X1 : extends E n N N1) by (apply ext_keep; intros M HM HS c Hc; apply (G1' c); auto; apply in_or_app; auto).
  destruct A1 as [|c A1]; injection H as <-; [split; auto|]. split; [|split].
  - constructor; auto; [apply canonize_ok; auto|apply canonize_lok; auto|]. intros X. destruct (G3 X). split; [apply canonize_fo; auto|apply canonize_over; auto].
  - rewrite S1. apply same_sat. intros M HM. apply canonize_true; auto.
  - eapply ext_trans; [apply le_n|exact X1|]. apply ext_keep. intros M HM. apply canonize_true; auto.
Qed.
Lemma bce_kept n N N' : (bce P = true -> FO /\ fo_sorts (srt E) (pp E) /\ alt_ok E (k_alt K) base) -> kept n N -> bce_step E P K N = Some N' -> kept n N' /\ (sat E N <-> sat E N') /\ extends E n N N'.
Proof.
  intros HB [K1 K2 K3 K4] H. unfold bce_step in H. destruct (bce P); [|injection H as <-; split; [constructor; auto|split; [tauto|apply ext_keep; auto]]].
  destruct (HB eq_refl) as (X & FS & AL). destruct (K4 X) as [F OV]. destruct (eliminate_blocked _ _ _ _ _ _ _ _ _) as [[N1 A1]|] eqn:EB; [|discriminate]. injection H as <-. cbn [fst].
  assert (PR : problem E (k_alt K) base N) by (split; [auto|]; split; [apply HF; auto|]; auto 10).
  destruct (C51_sat E _ base _ _ _ _ _ _ N N1 A1 PR EI EB) as [S1 _].
  destruct (run_chain _ _ _ _ _ _ _ _ _ _ _ EB) as (m & he & arch & _ & -> & _). 
  assert (I : incl (remaining N arch) N) by (intros c; apply remaining_sub).
  split; [|split; [auto|apply ext_keep; intros M HM HS c Hc; apply HS; auto]]. constructor; auto; [eapply forall_incl; eauto|eapply forall_incl; eauto|]. intros _. split; eapply forall_incl; eauto.
Qed.
Lemma elim_kept n N N' : (pred_elim P = true -> FO /\ fo_sorts (srt E) (pp E) /\ alt_ok E (k_alt K) base /\ fresh_base E base) -> kept n N -> elim_step E P K N = Some N' ->
  kept n N' /\ (sat E N <-> sat E N') /\ extends E n N N'.
Proof.
  intros HB [K1 K2 K3 K4] H. unfold elim_step in H. destruct (pred_elim P); [|injection H as <-; split; [constructor; auto|split; [tauto|apply ext_keep; auto]]].
  destruct (HB eq_refl) as (X & FS & AL & FB). destruct (K4 X) as [F OV]. destruct (predicate_elimination _ _ _ _ _ _ _ _ _ _ _ _ _) as [st|] eqn:PE; [|discriminate]. injection H as <-.
  assert (PR : problem E (k_alt K) base N) by (split; [auto|]; split; [apply HF; auto|]; auto 10).
  destruct (C52_sat E _ base _ _ _ _ _ _ _ _ _ N st PR FB EI PE) as [S1 _].
  pose proof (C52_follows E _ base _ _ _ _ _ _ _ _ _ N st PR FB EI PE) as X1. split; [|split; [auto|apply ext_keep; auto]].
  destruct (PredElimProps.run E _ base _ _ _ _ _ _ _ _ _ N st PR FB EI PE) as (st0 & eq & _ & _ & _ & _ & OS & _).
  assert (G : forall c, In c (clauses st (passive st)) -> gc E c /\ over base c).
  { intros c Hc. apply in_map_iff in Hc. destruct Hc as [i [<- Hi]]. apply (os_good _ _ _ _ OS i). auto. }
  constructor; auto.
  - apply Forall_forall. intros c Hc. apply (G c Hc).
  - eapply elimination_lok; eauto.
  - intros _. split; apply Forall_forall; intros c Hc; apply (G c Hc).
Qed.
End Steps.

