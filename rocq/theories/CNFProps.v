(** * C34: clausification.

    Formulas are the formula terms of the prover ([form], CNF.v), their meaning is [sem]; [form_true] quantifies the free variables universally.
    A state [cstate] is the signature with the next free code and the numbers of variables in the term bank; [input_ok st f] says that [f] is
    well-sorted and uses only symbols and variables that are known in [st].  [arrange] is the order in which the free variables are put on
    the stack of universal variables before Skolemisation (it depends on addresses): any function that keeps the elements. *)
From Coq Require Import Permutation.
From Verif Require Import Terms Unify KBO Semantics Clauses ClausesProofs LitOrder Infer InferProofs Split SplitProofs SplitSemProofs CNF CNFProofs CNFTermProofs CNFSkolemProofs CNFMainProofs ExEnv.

Definition keeps (arrange : list var -> list var) : Prop := forall l x, In x (arrange l) <-> In x l.

(** ** The steps before Skolemisation give a formula that is equivalent under every valuation of every model *)
Theorem C34_simplify E limit f g : env_ok E -> simplify limit f = Some g -> form_ok E f ->
  form_ok E g /\ forall M v, model_ok (srt E) (dist E) M -> respects (srt E) M v -> (sem (srt E) M v g <-> sem (srt E) M v f).
Proof. intros HE H OK. apply (simp_better E HE) in H. split; [apply (bt_ok _ _ _ H OK)|]. intros M v HM Hv. apply (bt_sem _ _ _ H OK M v HM Hv). Qed.
Theorem C34_negation_normal_form E f g : env_ok E -> nnf f = Some g -> form_ok E f ->
  form_ok E g /\ forall M v, model_ok (srt E) (dist E) M -> respects (srt E) M v -> (sem (srt E) M v g <-> sem (srt E) M v f).
Proof. intros HE H OK. apply (nnf_better E HE) in H. split; [apply (bt_ok _ _ _ H OK)|]. intros M v HM Hv. apply (bt_sem _ _ _ H OK M v HM Hv). Qed.
Theorem C34_miniscope E limit f g : miniscope3 limit f = Some g -> form_ok E f ->
  form_ok E g /\ forall M v, model_ok (srt E) (dist E) M -> respects (srt E) M v -> (sem (srt E) M v g <-> sem (srt E) M v f).
Proof. intros H OK. apply (miniscope3_better E) in H. split; [apply (bt_ok _ _ _ H OK)|]. intros M v HM Hv. apply (bt_sem _ _ _ H OK M v HM Hv). Qed.
Theorem C34_rename E c f : env_ok E -> form_ok E f -> (forall x, In x (all_vars f) -> old_var E c x) ->
  exists g c', rename E (fun _ => None) c f = Some (g, c') /\ form_ok E g /\ NoDup (bvars g) /\ (forall x, In x (bvars g) -> ~ In x (all_vars f)) /\
    forall M v, sem (srt E) M v g <-> sem (srt E) M v f.
Proof.
  intros HE OK OV. destruct (rename_good E HE c f (fun _ => None) c) as [g [c' [H [L [OK' [_ [ND [NB [_ [_ SM]]]]]]]]]]; auto.
  { intros z t Hz. discriminate. }
  exists g, c'. do 3 (split; auto). split.
  - intros x Hx Ha. exact (isnew_old E c c' x x (NB x Hx) (OV x Ha) eq_refl).
  - intros M v. rewrite SM. apply sem_ext. intros z _. reflexivity.
Qed.
(** negation normal form really is one: negation only at literals, no connectives but and, or, quantifiers *)
Theorem C34_steps_terminate limit mlimit f : exists f1 f2 f3, simplify limit f = Some f1 /\ nnf f1 = Some f2 /\ is_nnf f2 /\ miniscope3 mlimit f2 = Some f3 /\ is_nnf f3.
Proof.
  destruct (simplify_good limit f) as [f1 [H1 B1]]. destruct (nnf_total f1 B1) as [f2 [H2 B2]]. destruct (miniscope3_good mlimit f2) as [f3 [H3 B3]].
  exists f1, f2, f3. auto 10.
Qed.

(** ** The whole conversion *)
Section All.
  Variables (arrange : list var -> list var) (mlimit : Z) (unroll : bool).
  Hypothesis HA : keeps arrange.

  Theorem C34_terminates fs st : env_ok (c_env st) -> next_ok (c_env st) (c_next st) -> Forall (input_ok st) fs ->
    exists cs st' N, forall fuel, N <= fuel -> clausify_all fuel arrange mlimit unroll st fs = Some (cs, st').
  Proof. apply all_total; auto. Qed.

  (** the clauses are well-formed over the new signature, which agrees with the old one on the old symbols *)
  Theorem C34_well_formed fuel fs st cs st' : env_ok (c_env st) -> next_ok (c_env st) (c_next st) -> Forall (input_ok st) fs ->
    clausify_all fuel arrange mlimit unroll st fs = Some (cs, st') ->
    env_ok (c_env st') /\ next_ok (c_env st') (c_next st') /\ c_next st <= c_next st' /\ Forall (clause_ok (c_env st')) cs /\ Forall (below (c_next st')) cs /\
    (forall x, vsort (srt (c_env st')) x = vsort (srt (c_env st)) x) /\
    forall f, f < c_next st -> fres (srt (c_env st')) f = fres (srt (c_env st)) f /\ fargs (srt (c_env st')) f = fargs (srt (c_env st)) f.
  Proof.
    intros HE HN IN H. destruct (all_correct arrange mlimit unroll HA fuel fs st cs st' HE HN IN H) as [G _ A B _ _].
    split; [apply (gr_ok _ _ _ _ G HE (proj1 HN))|]. split; [apply (grows_next _ _ _ _ G HN)|]. split; [apply (gr_le _ _ _ _ G)|]. split; auto. split; auto.
    split; [apply (gr_vsort _ _ _ _ G)|]. intros f Hf. split; [apply (gr_fres _ _ _ _ G)|apply (gr_fargs _ _ _ _ G)]; auto.
  Qed.

  (** every model of the clauses is a model of the formulas *)
  Theorem C34_models_of_clauses fuel fs st cs st' M : env_ok (c_env st) -> next_ok (c_env st) (c_next st) -> Forall (input_ok st) fs ->
    clausify_all fuel arrange mlimit unroll st fs = Some (cs, st') ->
    model_ok (srt (c_env st')) (dist (c_env st')) M -> satisfied (c_env st') M cs -> forall f, In f fs -> form_true (srt (c_env st)) M f.
  Proof. intros HE HN IN H. apply (all_correct arrange mlimit unroll HA fuel fs st cs st' HE HN IN H). Qed.

  (** every model of the formulas becomes a model of the clauses by interpreting the new symbols only *)
  Theorem C34_models_extend fuel fs st cs st' M : env_ok (c_env st) -> next_ok (c_env st) (c_next st) -> Forall (input_ok st) fs ->
    clausify_all fuel arrange mlimit unroll st fs = Some (cs, st') ->
    model_ok (srt (c_env st)) (dist (c_env st)) M -> (forall f, In f fs -> form_true (srt (c_env st)) M f) ->
    exists M', same_below (c_next st) M M' /\ model_ok (srt (c_env st')) (dist (c_env st')) M' /\ satisfied (c_env st') M' cs.
  Proof.
    intros HE HN IN H HM X. destruct M as [D F so]. destruct (ou_complete _ _ _ _ (all_correct arrange mlimit unroll HA fuel fs st cs st' HE HN IN H) D so F HM X) as [F' [A [B C]]].
    exists (mk D so F'). split; [|split; auto]. exists F'. split; auto. intros f ds Hf. symmetry. apply A; auto.
  Qed.

  (** so the clauses are satisfiable iff the formulas are *)
  Theorem C34_satisfiable fuel fs st cs st' : env_ok (c_env st) -> next_ok (c_env st) (c_next st) -> Forall (input_ok st) fs ->
    clausify_all fuel arrange mlimit unroll st fs = Some (cs, st') ->
    (sat (c_env st') cs <-> exists M, model_ok (srt (c_env st)) (dist (c_env st)) M /\ forall f, In f fs -> form_true (srt (c_env st)) M f).
  Proof.
    intros HE HN IN H. pose proof (all_correct arrange mlimit unroll HA fuel fs st cs st' HE HN IN H) as O. split.
    - intros [M [HM X]]. destruct (restrict _ _ _ _ M (ou_grows _ _ _ _ O) HN HM) as [F [AF MF]]. destruct M as [D FM so]. cbn [dom isort ifun] in *. exists (mk D so F). split; auto.
      intros f Hf v Hv. rewrite Forall_forall in IN. destruct (IN f Hf) as [_ [_ SY]].
      apply (agree_sem D so (srt (c_env st)) (c_next st) FM F f AF (proj1 HN) SY). apply (ou_sound _ _ _ _ O _ HM X f Hf v Hv).
    - intros [M [HM X]]. destruct (C34_models_extend fuel fs st cs st' M HE HN IN H HM X) as [M' [_ [B C]]]. exists M'. auto.
  Qed.
End All.

(** ** Examples *)
Definition St0 : cstate := mkst E0 30 (fun _ => 5).
Lemma St0_ok : env_ok (c_env St0) /\ next_ok (c_env St0) (c_next St0).
Proof.
  split; [apply E0_ok|]. split; [cbn; lia|]. intros f Hf. cbn in *. unfold dist0. destruct (Nat.eqb_spec f 20); [lia|]. destruct (Nat.eqb_spec f 21); [lia|]. reflexivity.
Qed.
(** ![X]: (?[Y]: q(X,Y) <=> ~p(X)), and p(a) & ?[X]: ![Y]: (q(X,Y) | X = f(Y)) *)
Definition at1 t := FLit true t ttrue.
Definition ex1 : form := FQ true 0 (FBin Equiv (FQ false 2 (at1 (q0 X0 Y0))) (FNot (at1 (p0 X0)))).
Definition ex2 : form := FBin And (at1 (p0 a0)) (FQ false 0 (FQ true 2 (FBin Or (at1 (q0 X0 Y0)) (FLit true X0 (f0 Y0))))).
Example inputs : Forall (input_ok St0) [ex1; ex2].
Proof.
  assert (OV : forall x, x < 10 -> old_var E0 (fun _ => 5) x).
  { intros x Hx k Hk EQ. pose proof (prim_fresh (Datatypes.S (2 * k)) (eo_fresh_cell E0 E0_ok 0 k)) as P. cbn [E0 fresh] in EQ. lia. }
  constructor; [|constructor; [|constructor]]; (split; [cbn; repeat split; auto; try (apply wfb_ok; reflexivity); try (intros x Hx; repeat (destruct Hx as [<-|Hx]; [reflexivity|]); destruct Hx)|
    split; [intros x Hx; apply OV; cbn in Hx; repeat (destruct Hx as [<-|Hx]; [lia|]); destruct Hx|intros s Hs; cbn in Hs |- *; unfold true_code in Hs; lia]]).
Qed.
(** four clauses, with the Skolem function 30 and the Skolem constant 31 *)
Example ex_clauses : exists cs st', clausify_all 50 (fun l => l) 1000 true St0 [ex1; ex2] = Some (cs, st') /\ c_next st' = 32 /\
  map (map (fun e => (pos e, lt e, rt e))) cs =
    [[(true, p0 X0, ttrue); (true, q0 X0 (Fun 30 [X0]), ttrue)];
     [(false, q0 X0 Y0, ttrue); (false, p0 X0, ttrue)];
     [(true, q0 (Fun 31 []) X0, ttrue); (true, Fun 31 [], f0 X0)];
     [(true, p0 a0, ttrue)]].
Proof. eexists. eexists. split; [vm_compute; reflexivity|]. split; vm_compute; reflexivity. Qed.
Example rename_shadowed : exists g c', rename E0 (fun _ => None) (fun _ => 5) (FBin And (FQ true 0 (at1 (p0 X0))) (FQ true 0 (FQ false 0 (at1 (q0 X0 Y0))))) = Some (g, c') /\
  g = FBin And (FQ true 10 (at1 (p0 (Var 10)))) (FQ true 12 (FQ false 14 (at1 (q0 (Var 14) Y0)))).
Proof. eexists. eexists. split; vm_compute; reflexivity. Qed.

(** The limit on the size of formulas for miniscoping is not kept: a ground subformula counts LONG_MAX and the sums overflow, so this formula of
    weight greater than the limit 1 is a candidate and is miniscoped. *)
Theorem C34_miniscope_limit_refuted : exists f g, (1 < fweight f)%Z /\ miniscope3 1 f = Some g /\ g <> f.
Proof.
  exists (FQ true 0 (FBin And (FQ false 2 (at1 (q0 X0 Y0))) (at1 (p0 a0)))). eexists. split; [vm_compute; reflexivity|]. split; [vm_compute; reflexivity|]. discriminate.
Qed.

Print Assumptions C34_simplify.
Print Assumptions C34_negation_normal_form.
Print Assumptions C34_miniscope.
Print Assumptions C34_rename.
Print Assumptions C34_steps_terminate.
Print Assumptions C34_terminates.
Print Assumptions C34_well_formed.
Print Assumptions C34_models_of_clauses.
Print Assumptions C34_models_extend.
Print Assumptions C34_satisfiable.
Print Assumptions C34_miniscope_limit_refuted.
