(** * Properties of the propositional check: C47, C48. *)
From Coq Require Import ZArith Lia ClassicalEpsilon.
From Verif Require Import Terms Unify Semantics Clauses Split Saturate SaturateProps SatCheck SatCheckProofs ExEnv.
Local Open Scope nat_scope.

(** The answer is the truth about the instances that were encoded, atoms being independent of each other except that s = t and t = s are
    the same atom.  If the check reports a refutation, its parents are clauses of the given sets and no truth values make all their
    instances true; if it reports satisfiability, some truth values make the instances of all clauses true.  No parentless refutation. *)
Theorem C47_exact : forall E eqc pg G st vb sv lim css,
  total_order pg -> Forall (eq_free eqc) (concat css) -> Forall atoms_ok (concat css) -> solver_ok sv ->
  match sat_check E eqc pg G st vb sv lim css with
  | CUnsat ps => incl ps (concat css) /\ ~ exists A, valuation_ok A /\ inst_sat A (ground_subst (srt E) G st vb) ps
  | CSat => lim = None -> exists A, valuation_ok A /\ inst_sat A (ground_subst (srt E) G st vb) (concat css)
  | CGaveUp => True
  | NoParent => False
  end.
Proof. intros. eapply check_exact; eauto. Qed.

(** The clauses with a pure literal, which the solver never sees, make no difference. *)
Theorem C47_pure : forall s, prop_sat (map slits (exported s)) <-> prop_sat (map slits (sset s)).
Proof. exact pure_sat. Qed.

(** A reported refutation is one: the empty clause follows from the parents (with equality), whatever constants or variables were
    chosen for the variables. *)
Theorem C47_sound : forall E eqc pg G st vb sv lim css ps,
  total_order pg -> Forall (eq_free eqc) (concat css) -> Forall atoms_ok (concat css) -> solver_ok sv ->
  ginfo_ok E G -> bank_ok E vb ->
  sat_check E eqc pg G st vb sv lim css = CUnsat ps -> incl ps (concat css) /\ follows E ps [].
Proof.
  intros E eqc pg G st vb sv lim css ps HP HF HA HS HG HB Q.
  assert (X := C47_exact E eqc pg G st vb sv lim css HP HF HA HS). rewrite Q in X. destruct X as [X Y]. split; auto.
  intros M HM HT v Hv. exfalso. apply Y. eapply model_inst; eauto. apply ground_subst_wf; auto.
Qed.
(** So the clauses of the state have no common model. *)
Theorem C47_unsatisfiable : forall E eqc pg G st vb sv lim css ps,
  total_order pg -> Forall (eq_free eqc) (concat css) -> Forall atoms_ok (concat css) -> solver_ok sv ->
  ginfo_ok E G -> bank_ok E vb ->
  sat_check E eqc pg G st vb sv lim css = CUnsat ps -> unsat E (concat css).
Proof.
  intros E eqc pg G st vb sv lim css ps HP HF HA HS HG HB Q.
  destruct (C47_sound E eqc pg G st vb sv lim css ps HP HF HA HS HG HB Q) as [I F].
  intros M HM HT. specialize (F M HM (fun c Hc => HT c (I c Hc)) (fun x => proj1_sig (constructive_indefinite_description _ (mo_inh _ _ _ HM (vsort (srt E) x))))).
  assert (X : Exists (holds M (fun x => proj1_sig (constructive_indefinite_description _ (mo_inh _ _ _ HM (vsort (srt E) x))))) []).
  { apply F. intros x. destruct (constructive_indefinite_description _ _) as [d Hd]. exact Hd. }
  inversion X.
Qed.
(** In a run: if the check finds a refutation in any state the prover can reach, the input is unsatisfiable. *)
Definition state_sets (s : state) : list (list clause) := map (map lits) [rules s; eqns s; negs s; nons s; unproc s].
Theorem C47_run : forall E K n0 N0 s eqc pg G st vb sv lim ps,
  env_ok E -> conf_ok E K n0 -> 2 < n0 -> Forall (clause_ok E) N0 -> Forall (below n0) N0 -> reaches E K n0 N0 s ->
  (forall x, vsort (srt E) x <> fres (srt E) true_code) -> (forall c, In c (all_clauses s) -> eq_free eqc c) ->
  total_order pg -> solver_ok sv -> ginfo_ok E G -> bank_ok E vb ->
  sat_check E eqc pg G st vb sv lim (state_sets s) = CUnsat ps -> unsat E N0.
Proof.
  intros E K n0 N0 s eqc pg G st vb sv lim ps HE HK H0 HOK HB R NB EF HP HS HG HV Q.
  assert (IN : incl (concat (state_sets s)) (all_clauses s)).
  { unfold state_sets, all_clauses. intros c I. apply in_concat in I. destruct I as [l [L I]]. cbn in L. rewrite !map_app, !in_app_iff.
    destruct L as [<-|[<-|[<-|[<-|[<-|[]]]]]]; auto 7. }
  apply (C35_state_unsat E K n0 N0 s); auto. intros M HM HT.
  refine (C47_unsatisfiable E eqc pg G st vb sv lim (state_sets s) ps HP _ _ HS HG HV Q M HM _).
  - apply Forall_forall. auto.
  - apply Forall_forall. intros c I e x Ie Qe Le. assert (W := C35_well_formed E K n0 N0 s c HE HK H0 HOK HB R (IN _ I)).
    unfold clause_ok in W. rewrite Forall_forall in W. destruct (W e Ie) as [_ [_ [W3 _]]]. rewrite (equlit_rt _ Qe), Le in W3. apply (NB x). exact W3.
  - intros c I. apply HT, IN, I.
Qed.

(** Grounding: all variables of a sort get the same term, of that sort; a constant if the strategy asks for one and there is one
    (or what the rewrite links make of it), else the first variable of the sort. *)
Theorem C47_grounding : forall E G st vb stk x0 x, ginfo_ok E G -> bank_ok E vb -> NoDup (concat vb) -> In stk vb -> hd_error stk = Some x0 -> In x stk ->
  let s := ground_subst (srt E) G st vb in
  wfsubst (srt E) s /\ s x = s x0 /\
  match st with
  | GMPseudoVar => s x = Var x0
  | _ => (exists f, In f (gsyms G) /\ fargs (srt E) f = [] /\ fres (srt E) f = vsort (srt E) x
            /\ s x = match gnorm G with Some nf => nf (Fun f []) | None => Fun f [] end)
         \/ (forall f, In f (gsyms G) -> fargs (srt E) f = [] -> fres (srt E) f <> vsort (srt E) x) /\ s x = Var x0
  end.
Proof.
  intros E G st vb stk x0 x HG HB N I H0 Ix s. split; [apply ground_subst_wf; auto|].
  assert (I0 : In x0 stk) by (destruct stk; [discriminate|injection H0 as ->; left; auto]).
  destruct (ground_stack (srt E) G st vb (gconj G) stk N I) as [y [cj0 [t [cj1 [A [B C]]]]]]; [intros ->; contradiction|].
  rewrite H0 in A. injection A as <-. unfold s, ground_subst. rewrite (C x Ix), (C x0 I0). split; auto.
  assert (SX := HB stk x x0 I Ix I0). destruct st as [| |p]; cbn in B.
  - injection B as <- <-. auto.
  - injection B as <- <-. unfold first_const. destruct (sort_consts (srt E) (gsyms G) (vsort (srt E) x0)) as [|f fs] eqn:F; cbn.
    + right. split; auto. intros f F1 F2 F3. assert (J : In f []) by (rewrite <- F; apply sort_consts_in; repeat split; auto; congruence). contradiction.
    + left. exists f. assert (J : In f (f :: fs)) by (left; auto). rewrite <- F in J. apply sort_consts_in in J. destruct J as [J1 [J2 J3]].
      repeat split; auto. congruence.
  - destruct (freq_const (srt E) (gsyms G) p (gdist G) (vsort (srt E) x0) cj0) as [[f|] c1] eqn:F; injection B as <- <-; cbn.
    + left. exists f. apply freq_const_in, sort_consts_in in F. destruct F as [J1 [J2 J3]]. repeat split; auto. congruence.
    + right. split; auto. intros f F1 F2 F3. apply freq_const_none in F.
      assert (J : In f []) by (rewrite <- F; apply sort_consts_in; repeat split; auto; congruence). contradiction.
Qed.

(** An example: p(X), ~p(a) | f(Y) = b, b != f(Z), q(X,X); the last clause is pure.  Y and Z are bound to the same constant. *)
Definition G0 : ginfo := {| gsyms := [3; 4; 5; 6]; gdist := fun _ => 1%Z; gconj := fun _ => 0%Z; gnorm := None |}.
Definition ex_css : list (list clause) := [[[at0 (p0 X0)]]; []; [[ne0 b0 (f0 Z0)]]; [[nat0 (p0 a0); eq0 (f0 Y0) b0]; [at0 (q0 X0 X0)]]].
(** terms ordered by size of their first symbol, just to have some order *)
Definition pg_ex (s t : term) : bool := match s, t with Fun f _, Fun g _ => Nat.ltb g f | _, _ => false end.
(** a solver that knows the answer to one question *)
Definition core_ex : nat -> bool := fun _ => true.
Definition sv_ex : solver := fun cs => if list_eq_dec (list_eq_dec Z.eq_dec) cs [[1]; [-2]; [-1; 2]]%Z then AUnsat core_ex else AUnknown.
Lemma sv_ex_ok : solver_ok sv_ex.
Proof.
  intros cs. unfold sv_ex. destruct (list_eq_dec _ cs _) as [->|]; [|exact I]. intros [V H].
  destruct (H 0 [1]%Z) as [z1 [[<-|[]] T1]]; [auto|auto|]. destruct (H 1 [-2]%Z) as [z2 [[<-|[]] T2]]; [auto|auto|].
  destruct (H 2 [-1; 2]%Z) as [z3 [[<-|[<-|[]]] T3]]; [auto|auto| |].
  - cbn in *. rewrite T1 in T3. discriminate.
  - cbn in *. rewrite T3 in T2. discriminate.
Qed.
Example C47_example : sat_check E0 30 pg_ex G0 GMFirstConst [[0; 2; 4]] sv_ex None ex_css
  = CUnsat [[nat0 (p0 a0); eq0 (f0 Y0) b0]; [ne0 b0 (f0 Z0)]; [at0 (p0 X0)]].
Proof. vm_compute. reflexivity. Qed.
Example C47_example_hyps : Forall (eq_free 30) (concat ex_css) /\ Forall atoms_ok (concat ex_css) /\ ginfo_ok E0 G0 /\ bank_ok E0 [[0; 2; 4]].
Proof.
  split; [|split; [|split]].
  - cbn. repeat constructor; intros e args I _; cbn in I; intuition (subst; discriminate).
  - cbn. repeat constructor; intros e args I _; cbn in I; intuition (subst; discriminate).
  - intros nf f H; discriminate.
  - intros stk x y _ _ _. reflexivity.
Qed.
(** an order of the kind required exists: compare the numbers of terms in any injective numbering; here, on codes of trees *)
Fixpoint code (t : term) : list nat := match t with Var x => [0; x] | Fun f a => (2 + f) :: flat_map code a ++ [1] end.
Fixpoint lex (l m : list nat) : bool :=
  match l, m with
  | x :: l', y :: m' => if Nat.eqb x y then lex l' m' else Nat.ltb y x
  | _ :: _, [] => true
  | [], _ => false
  end.
Lemma lex_total : forall l m, l <> m -> lex l m = negb (lex m l).
Proof.
  induction l as [|x l IH]; destruct m as [|y m]; intros N; cbn [lex]; try reflexivity; try congruence.
  destruct (Nat.eqb_spec x y) as [->|D].
  - rewrite Nat.eqb_refl. apply IH. congruence.
  - rewrite (proj2 (Nat.eqb_neq y x)) by auto. destruct (Nat.ltb_spec y x) as [A|A], (Nat.ltb_spec x y) as [B|B]; try reflexivity; exfalso; lia.
Qed.
Lemma code_inj : forall s t k m, code s ++ k = code t ++ m -> s = t /\ k = m.
Proof.
  induction s as [x|f a IH] using term_ind'; intros [y|g b] k m H; cbn in H; try discriminate.
  - injection H as -> ->. auto.
  - injection H as -> H. enough (a = b /\ k = m) as [-> ->] by auto.
    rewrite <- !app_assoc in H. cbn in H. revert b H. induction a as [|s a IHa]; intros [|t b] H; cbn in H.
    + injection H as ->. auto.
    + destruct t; discriminate.
    + destruct s; discriminate.
    + inversion IH as [|? ? I1 I2]; subst. rewrite <- !app_assoc in H. apply I1 in H. destruct H as [-> H]. destruct (IHa I2 b H) as [-> ->]. auto.
Qed.
Example C47_order_exists : total_order (fun s t => lex (code s) (code t)).
Proof. intros s t N. apply lex_total. intros H. apply N. apply (proj1 (code_inj s t [] [] (f_equal (fun l => l ++ []) H))). Qed.
Example C47_example_ordered : sat_check E0 30 (fun s t => lex (code s) (code t)) G0 GMFirstConst [[0; 2; 4]] sv_ex None ex_css
  = CUnsat [[nat0 (p0 a0); eq0 (f0 Y0) b0]; [ne0 b0 (f0 Z0)]; [at0 (p0 X0)]].
Proof. vm_compute. reflexivity. Qed.

(** ** C48: the constant chosen for a sort *)

(** With the two strategies that look at the overall counts the constant chosen is a best one, for every sort and all counts. *)
Theorem C48_global_partial : forall S syms d s cj g cj',
  (freq_const S syms prefer_global_max d s cj = (Some g, cj') ->
     cj' = cj /\ In g syms /\ fargs S g = [] /\ fres S g = s /\ forall f, In f syms -> fargs S f = [] -> fres S f = s -> (d f <= d g)%Z)
  /\ (freq_const S syms prefer_global_min d s cj = (Some g, cj') ->
     cj' = cj /\ In g syms /\ fargs S g = [] /\ fres S g = s /\ forall f, In f syms -> fargs S f = [] -> fres S f = s -> (d g <= d f)%Z).
Proof.
  intros S syms d s cj g cj'. split; intros H; pose proof (freq_const_in _ _ _ _ _ _ _ _ H) as I; apply sort_consts_in in I; destruct I as [I1 [I2 I3]];
    unfold freq_const in H; destruct (sort_consts S syms s) as [|c cs] eqn:F; try discriminate;
    destruct (best_const _ d cs c cj) as [h cj1] eqn:B; injection H as <- <-.
  - apply (best_const_best _ d cj (fun f => (- d f)%Z)) in B.
    + destruct B as [-> B]. repeat split; auto. intros f F1 F2 F3. specialize (B f). rewrite <- F in B. cbn in B.
      assert (X := B (proj2 (sort_consts_in _ _ _ _) (conj F1 (conj F2 F3)))). lia.
    + intros f1 f2. unfold prefer_global_max. f_equal. destruct (Z.ltb_spec (d f2) (d f1)), (Z.ltb_spec (- d f1) (- d f2)); auto; lia.
  - apply (best_const_best _ d cj d) in B.
    + destruct B as [-> B]. repeat split; auto. intros f F1 F2 F3. specialize (B f). rewrite <- F in B.
      exact (B (proj2 (sort_consts_in _ _ _ _) (conj F1 (conj F2 F3)))).
    + intros f1 f2. reflexivity.
Qed.
(** A constant is found if and only if there is one, with every strategy. *)
Theorem C48_found : forall S syms p d s cj, fst (freq_const S syms p d s cj) = None <-> forall f, In f syms -> fargs S f = [] -> fres S f <> s.
Proof.
  intros S syms p d s cj. destruct (freq_const S syms p d s cj) as [[g|] cj'] eqn:F; cbn; split; try congruence.
  - intros H. apply freq_const_in, sort_consts_in in F. exfalso. apply (H g); tauto.
  - intros _ f H1 H2 H3. apply freq_const_none in F. assert (J : In f []) by (rewrite <- F; apply sort_consts_in; auto). contradiction.
Qed.
(** The four strategies that look at the conjecture are documented as lexicographic comparisons.  [=] was written for [==], so each of them
    can pick a constant although another one is strictly better, and the counts that the next comparisons use are overwritten. *)
Definition counts_of (l : list (sym * Z)) : counts := fun f => fold_right (fun '(g, z) r => if Nat.eqb g f then z else r) 0%Z l.
Definition strictly_better (ag : counts -> counts -> sym -> sym -> Prop) (cj d : counts) (f g : sym) : Prop := ag cj d f g /\ ~ ag cj d g f.
Theorem C48_conjecture_refuted :
  (exists cj d g cj', freq_const S0 [3; 4] prefer_conj_min_max d 1 cj = (Some g, cj') /\ strictly_better as_good_min_max cj d 3 g /\ cj' 4 <> cj 4)
  /\ (exists cj d g cj', freq_const S0 [3; 4] prefer_conj_min_min d 1 cj = (Some g, cj') /\ strictly_better as_good_min_min cj d 3 g /\ cj' 4 <> cj 4)
  /\ (exists cj d g cj', freq_const S0 [3; 4] prefer_conj_max_max d 1 cj = (Some g, cj') /\ strictly_better as_good_max_max cj d 3 g /\ cj' 4 <> cj 4)
  /\ (exists cj d g cj', freq_const S0 [3; 4] prefer_conj_max_min d 1 cj = (Some g, cj') /\ strictly_better as_good_max_min cj d 3 g /\ cj' 4 <> cj 4).
Proof.
  split; [|split; [|split]].
  - exists (counts_of [(3, 1%Z); (4, 2%Z)]), (counts_of [(3, 1%Z); (4, 2%Z)]), 4. eexists. split; [vm_compute; reflexivity|].
    split; [|vm_compute; discriminate]. unfold strictly_better, as_good_min_max. cbn. lia.
  - exists (counts_of [(3, 1%Z); (4, 2%Z)]), (counts_of [(3, 3%Z); (4, 2%Z)]), 4. eexists. split; [vm_compute; reflexivity|].
    split; [|vm_compute; discriminate]. unfold strictly_better, as_good_min_min. cbn. lia.
  - exists (counts_of [(3, 2%Z); (4, 1%Z)]), (counts_of [(3, 2%Z); (4, 3%Z)]), 4. eexists. split; [vm_compute; reflexivity|].
    split; [|vm_compute; discriminate]. unfold strictly_better, as_good_max_max. cbn. lia.
  - exists (counts_of [(3, 2%Z); (4, 1%Z)]), (counts_of [(3, 3%Z); (4, 2%Z)]), 4. eexists. split; [vm_compute; reflexivity|].
    split; [|vm_compute; discriminate]. unfold strictly_better, as_good_max_min. cbn. lia.
Qed.
(** With a sort none of whose constants occurs in the conjecture the overall counts are ignored: the first constant is taken. *)
Theorem C48_no_conjecture_refuted : exists cj d g cj', freq_const S0 [3; 4] prefer_conj_max_max d 1 cj = (Some g, cj') /\ strictly_better as_good_max_max cj d 4 g.
Proof.
  exists (counts_of []), (counts_of [(3, 1%Z); (4, 2%Z)]), 3. eexists. split; [vm_compute; reflexivity|]. unfold strictly_better, as_good_max_max. cbn. lia.
Qed.
Example C48_example : freq_const S0 [3; 4; 5; 6] prefer_global_max (counts_of [(3, 1%Z); (4, 5%Z); (5, 2%Z); (6, 9%Z)]) 1 (fun _ => 0%Z) = (Some 4, fun _ => 0%Z).
Proof. vm_compute. reflexivity. Qed.

Print Assumptions C47_exact.
Print Assumptions C47_pure.
Print Assumptions C47_sound.
Print Assumptions C47_unsatisfiable.
Print Assumptions C47_run.
Print Assumptions C47_grounding.
Print Assumptions C48_global_partial.
Print Assumptions C48_found.
Print Assumptions C48_conjecture_refuted.
Print Assumptions C48_no_conjecture_refuted.
