(** * Proofs about the generating inferences. *)
From Verif Require Import Terms Unify UnifyProofs MatchProofs KBO Semantics Clauses ClausesProofs LitOrder Infer.

Notation evenP := (fun x => is_fresh x = false).

Record good (E : env) (st : bstate) : Prop := {
  gd_inv : inv (srt E) st;
  gd_prim : pbind evenP (bnd st) }.

Lemma good_start E : good E start.
Proof. split; [apply (inv_empty (srt E)) | intros x t H; discriminate]. Qed.

Lemma good_fresh E st : good E st -> fresh_unbound (bnd st).
Proof.
  intros [_ H] x Fx. destruct (bnd st x) as [t|] eqn:B; auto. destruct (H x t B). congruence.
Qed.

Lemma good_mgu E n st t1 t2 st' : good E st -> wf (srt E) t1 -> wf (srt E) t2 -> primary t1 -> primary t2 ->
  mgu n (srt E) (pp E) st t1 t2 = Success st' ->
  good E st' /\ (forall tau, solves (bnd st') tau <-> solves (bnd st) tau /\ app tau t1 = app tau t2).
Proof.
  intros [HI HP] W1 W2 P1 P2 H. pose proof (mgu_correct n (srt E) (pp E) st t1 t2 HI W1 W2) as HC.
  rewrite H in HC. destruct HC as [A [_ C]]. split; auto. split; auto.
  exact (mgu_vars evenP (srt E) (pp E) n st t1 t2 st' HP P1 P2 H).
Qed.

(** the substitution performed by the copying functions *)
Definition sg (s : subst) : subst := comp ren s.

Lemma inst_sg b s n t u : denotes b s -> inst n b t = Some u -> u = app (sg s) t.
Proof. intros HD H. rewrite (inst_correct b s HD n t u H). unfold sg. rewrite app_comp. reflexivity. Qed.

Lemma sg_wf E s : env_ok E -> wfsubst (srt E) s -> wfsubst (srt E) (sg s).
Proof.
  intros HE Hs x. unfold sg, comp. destruct (Hs x) as [A B].
  split; [rewrite app_sort; auto; apply ren_wf; auto | apply app_wf; auto; apply ren_wf; auto].
Qed.

Lemma sg_primary s t : primary (app (sg s) t).
Proof. unfold sg. rewrite app_comp. apply ren_primary. Qed.

Lemma sg_eq s t1 t2 : app s t1 = app s t2 -> app (sg s) t1 = app (sg s) t2.
Proof. intros H. unfold sg. rewrite !app_comp, H. reflexivity. Qed.

(** instance of a literal *)
Definition inst_lit (E : env) (s : subst) (e : eqn) : eqn :=
  copy_props (eqn_alloc E (app s (lt e)) (app s (rt e)) (pos e)) e.

Lemma copy_opt_inst E b s n e e' : denotes b s -> copy_opt n E b e = Some e' -> e' = inst_lit E (sg s) e.
Proof.
  intros HD H. unfold copy_opt in H.
  destruct (inst n b (lt e)) as [l|] eqn:L; [|discriminate].
  destruct (inst n b (rt e)) as [r|] eqn:R; [|discriminate]. injection H as <-.
  rewrite (inst_sg b s _ _ _ HD L), (inst_sg b s _ _ _ HD R). reflexivity.
Qed.

Lemma copies_inst E b s n l l' : denotes b s -> copies E n b l = Some l' -> l' = map (inst_lit E (sg s)) l.
Proof.
  intros HD H. eapply mapo_map; [|exact H]. intros a c _. apply copy_opt_inst; auto.
Qed.

Lemma inst_lit_ok E s e : env_ok E -> wfsubst (srt E) s -> eqn_ok E e -> eqn_ok E (inst_lit E (sg s) e).
Proof.
  intros HE Hs [A [B [C _]]]. pose proof (sg_wf E s HE Hs) as Hg. apply copy_props_ok.
  apply eqn_alloc_ok; auto using app_wf, sg_primary. rewrite !app_sort; auto.
Qed.

Lemma insts_ok E s l : env_ok E -> wfsubst (srt E) s -> clause_ok E l -> clause_ok E (map (inst_lit E (sg s)) l).
Proof. unfold clause_ok. intros HE Hs H. rewrite Forall_map. eapply Forall_impl; [|exact H]. intros; apply inst_lit_ok; auto. Qed.

Section Sound.
Variables (E : env) (M : structure).
Hypothesis HE : env_ok E.
Hypothesis HM : model_ok (srt E) (dist E) M.

Definition val (v : var -> dom M) (s : subst) : var -> dom M := fun x => eval M v (s x).

Lemma val_respects v s : respects (srt E) M v -> wfsubst (srt E) s -> respects (srt E) M (val v s).
Proof. intros. eapply respects_subst; eauto. Qed.

Lemma inst_lit_holds v s e : respects (srt E) M v -> wfsubst (srt E) s -> eqn_ok E e ->
  (holds M v (inst_lit E s e) <-> holds M (val v s) e).
Proof.
  intros Hv Hs [A [B [C _]]]. unfold inst_lit. rewrite copy_props_holds.
  rewrite (eqn_alloc_holds E M HE HM); auto using app_wf; [|rewrite !app_sort; auto].
  apply lit_holds_app.
Qed.

Lemma insts_hold v s l : respects (srt E) M v -> wfsubst (srt E) s -> clause_ok E l ->
  Exists (holds M (val v s)) l -> Exists (holds M v) (map (inst_lit E s) l).
Proof.
  unfold clause_ok. rewrite !Exists_exists, Forall_forall. intros Hv Hs HC [e [He Hh]].
  exists (inst_lit E s e). split; [apply in_map; auto|]. apply inst_lit_holds; auto.
Qed.
End Sound.

Lemma clause_ok_except E i c : clause_ok E c -> clause_ok E (except i c).
Proof. unfold clause_ok. rewrite !Forall_forall. intros H e He. apply H. eapply except_in; eauto. Qed.

Lemma clause_ok_nth E i c e : clause_ok E c -> nth_error c i = Some e -> eqn_ok E e.
Proof. unfold clause_ok. rewrite Forall_forall. intros H N. apply H. eapply nth_error_In; eauto. Qed.

(** After normalising: the state to copy from. *)
Lemma norm_state E n st c l st1 c1 : env_ok E -> good E st -> norm_eqns n E (st, c) l = Some (st1, c1) ->
  exists s0 s1, denotes (bnd st) s0 /\ denotes (bnd st1) s1 /\ wfsubst (srt E) s1 /\ wfsubst (srt E) s0
    /\ s1 = comp (nu (bnd st) (bnd st1)) s0 /\ solves (bnd st) s1
    /\ norm_result E st c s0 (eqn_terms l) st1 c1.
Proof.
  intros HE HG H. pose proof HG as [HI _]. pose proof (good_fresh E st HG) as HF.
  destruct (acyclic_denotes _ (inv_acyclic _ _ HI)) as [s0 D0].
  pose proof (norm_eqns_correct E HE _ _ _ _ _ _ s0 H HI HF D0) as R.
  pose proof (normed_denotes E _ _ _ _ s0 HE (nr_normed _ _ _ _ _ _ _ R) HF (nr_fresh _ _ _ _ _ _ _ R) D0) as D1.
  exists s0, (comp (nu (bnd st) (bnd st1)) s0). split; auto. split; auto.
  split; [eapply denotes_wf; eauto; apply R|]. split; [eapply denotes_wf; eauto; apply HI|]. split; auto. split; auto.
  intros x t Hx. apply (denotes_solves _ _ D1). apply (nm_keep _ _ _ _ _ (nr_normed _ _ _ _ _ _ _ R)). exact Hx.
Qed.

(** ** Equality resolution *)
Section EqRes.
Variables (E : env) (n : nat) (c : clause) (i : nat) (e : eqn).
Hypothesis HE : env_ok E.
Hypothesis HC : clause_ok E c.
Hypothesis HN : nth_error c i = Some e.

(** Shape of the conclusion: a renamed instance under the most general unifier. *)
Lemma eq_res_shape d : eq_res E n c i = Derived d ->
  exists st s1, mgu n (srt E) (pp E) start (lt e) (rt e) = Success st /\ good E st
    /\ wfsubst (srt E) s1 /\ solves (bnd st) s1 /\ app s1 (lt e) = app s1 (rt e)
    /\ d = finish E (map (inst_lit E (sg s1)) (except i c))
    /\ exists s0 st1 c1, denotes (bnd st) s0 /\ s1 = comp (nu (bnd st) (bnd st1)) s0
        /\ norm_result E st reset s0 (eqn_terms (except i c)) st1 c1.
Proof.
  intros H. unfold eq_res in H. rewrite HN in H.
  destruct (clause_ok_nth E i c e HC HN) as [W1 [W2 [Ss [P1 P2]]]].
  destruct (mgu n (srt E) (pp E) start (lt e) (rt e)) as [st|st| |] eqn:G; try discriminate.
  destruct (good_mgu E n start _ _ st (good_start E) W1 W2 P1 P2 G) as [HG HS].
  unfold build_resolvent in H.
  destruct (norm_eqns n E (st, reset) (except i c)) as [[st1 c1]|] eqn:Nm; [|discriminate].
  destruct (copies E n (bnd st1) (except i c)) as [l|] eqn:Cp; [|discriminate]. injection H as <-.
  destruct (norm_state E n st reset _ st1 c1 HE HG Nm) as [s0 [s1 [D0 [D1 [Ws1 [Ws0 [Es [So R]]]]]]]].
  rewrite (copies_inst E (bnd st1) s1 n _ _ D1 Cp).
  exists st, s1. repeat (split; auto). { apply HS; auto. }
  exists s0, st1, c1. auto.
Qed.

Lemma eq_res_sound d : pos e = false -> eq_res E n c i = Derived d ->
  clause_ok E d /\ forall M, model_ok (srt E) (dist E) M -> clause_true (srt E) M c -> clause_true (srt E) M d.
Proof.
  intros Hp H. destruct (eq_res_shape d H) as [st [s1 [_ [_ [Ws [_ [Eq [-> _]]]]]]]].
  split; [apply finish_ok, insts_ok; auto; apply clause_ok_except; auto|].
  intros M HM HT v Hv. apply (finish_holds E M v _ HM).
  pose proof (sg_wf E s1 HE Ws) as Wg.
  pose proof (HT _ (val_respects E M HM v _ Hv Wg)) as HX.
  destruct (exists_except _ _ _ _ HN HX) as [HX1|HX1].
  - exfalso. unfold holds, lit_holds in HX1. rewrite Hp in HX1. apply HX1. unfold val. rewrite <- !eval_app.
    rewrite (sg_eq s1 _ _ Eq). reflexivity.
  - apply insts_hold; auto. apply clause_ok_except; auto.
Qed.
End EqRes.

(** ** Factoring *)
Lemma unify_directed_spec E n st e1 e2 st' : good E st -> eqn_ok E e1 -> eqn_ok E e2 ->
  unify_directed E n st e1 e2 = Success st' ->
  good E st' /\ forall tau, solves (bnd st') tau <->
     solves (bnd st) tau /\ app tau (lt e1) = app tau (lt e2) /\ app tau (rt e1) = app tau (rt e2).
Proof.
  intros HG [A1 [A2 [_ [A3 A4]]]] [B1 [B2 [_ [B3 B4]]]] H. unfold unify_directed in H.
  destruct (mgu n (srt E) (pp E) st (lt e1) (lt e2)) as [st1|st1| |] eqn:G1; try discriminate.
  destruct (good_mgu E n st _ _ st1 HG A1 B1 A3 B3 G1) as [HG1 HS1].
  destruct (mgu n (srt E) (pp E) st1 (rt e1) (rt e2)) as [st2|st2| |] eqn:G2; try discriminate.
  injection H as <-. destruct (good_mgu E n st1 _ _ st2 HG1 A2 B2 A4 B4 G2) as [HG2 HS2].
  split; auto. intros tau. rewrite HS2, HS1. tauto.
Qed.

Lemma swap_ok E e : eqn_ok E e -> eqn_ok E (swap_sides e).
Proof. intros [A [B [C [D F]]]]. repeat split; auto. Qed.

Lemma nth_except_in {A} : forall (c : list A) i j e, nth_error c i = Some e -> i <> j -> In e (except j c).
Proof.
  induction c as [|x c IH]; intros [|i] [|j] e H N; simpl in *; try discriminate; try congruence; auto.
  - injection H as ->. auto.
  - eapply nth_error_In; eauto.
  - right. eapply IH; eauto.
Qed.

Section Factor.
Variables (E : env) (o : lord) (n : nat) (c : clause) (i j : nat) (e1 e2 : eqn).
Hypothesis HE : env_ok E.
Hypothesis HC : clause_ok E c.
Hypothesis H1 : nth_error c i = Some e1.
Hypothesis H2 : nth_error c j = Some e2.

Lemma ordered_factor_shape right d : ordered_factor E o n c i j right = Derived d ->
  exists st s1, let e2' := if right then swap_sides e2 else e2 in
    unify_directed E n start e1 e2' = Success st /\ good E st
    /\ wfsubst (srt E) s1 /\ solves (bnd st) s1
    /\ app s1 (lt e1) = app s1 (lt e2') /\ app s1 (rt e1) = app s1 (rt e2')
    /\ d = finish E (map (inst_lit E (sg s1)) (except j c))
    /\ exists s0 st1 c1, denotes (bnd st) s0 /\ s1 = comp (nu (bnd st) (bnd st1)) s0
        /\ norm_result E st reset s0 (eqn_terms (except j c)) st1 c1.
Proof.
  intros H. unfold ordered_factor in H. rewrite H1, H2 in H.
  set (e2' := if right then swap_sides e2 else e2) in *.
  assert (O1 : eqn_ok E e1) by (eapply clause_ok_nth; eauto).
  assert (O2 : eqn_ok E e2') by (unfold e2'; destruct right; [apply swap_ok|]; eapply clause_ok_nth; eauto).
  destruct (unify_directed E n start e1 e2') as [st|st| |] eqn:U; try discriminate.
  destruct (unify_directed_spec E n start e1 e2' st (good_start E) O1 O2 U) as [HG HS].
  destruct (is_maximal o (bnd st) c i e1); [|discriminate].
  destruct (norm_eqns n E (st, reset) (except j c)) as [[st1 c1]|] eqn:Nm; [|discriminate].
  destruct (copies E n (bnd st1) (except j c)) as [l|] eqn:Cp; [|discriminate]. injection H as <-.
  destruct (norm_state E n st reset _ st1 c1 HE HG Nm) as [s0 [s1 [D0 [D1 [Ws1 [Ws0 [Es [So R]]]]]]]].
  rewrite (copies_inst E (bnd st1) s1 n _ _ D1 Cp).
  destruct (proj1 (HS s1) So) as [_ [Q1 Q2]].
  exists st, s1. cbv zeta. repeat (split; auto). exists s0, st1, c1. auto.
Qed.

Lemma ordered_factor_sound right d : i <> j -> pos e1 = pos e2 -> ordered_factor E o n c i j right = Derived d ->
  clause_ok E d /\ forall M, model_ok (srt E) (dist E) M -> clause_true (srt E) M c -> clause_true (srt E) M d.
Proof.
  intros Nij Hp H. destruct (ordered_factor_shape right d H) as [st [s1 HX]]. cbv zeta in HX.
  destruct HX as [_ [_ [Ws [_ [Q1 [Q2 [-> _]]]]]]].
  split; [apply finish_ok, insts_ok; auto; apply clause_ok_except; auto|].
  intros M HM HT v Hv. apply (finish_holds E M v _ HM).
  pose proof (sg_wf E s1 HE Ws) as Wg.
  apply insts_hold; auto; [apply clause_ok_except; auto|].
  pose proof (HT _ (val_respects E M HM v _ Hv Wg)) as HX.
  destruct (exists_except _ _ _ _ H2 HX) as [HX1|HX1]; auto.
  apply Exists_exists. exists e1. split; [apply (nth_except_in c i j); auto|].
  unfold holds in *. rewrite Hp.
  apply (sg_eq s1) in Q1. apply (sg_eq s1) in Q2. unfold val in *. apply lit_holds_app. apply lit_holds_app in HX1.
  rewrite Q1, Q2. destruct right; simpl; auto. apply lit_holds_swap; auto.
Qed.

Lemma equality_factor_sound cnt l1 l2 d : i <> j -> pos e1 = true -> pos e2 = true ->
  equality_factor E o n cnt c i l1 j l2 = Derived d ->
  clause_ok E d /\ forall M, model_ok (srt E) (dist E) M -> clause_true (srt E) M c -> clause_true (srt E) M d.
Proof.
  intros Nij Hp1 Hp2 H. unfold equality_factor in H. rewrite H1, H2 in H.
  destruct (clause_ok_nth E i c e1 HC H1) as [A1 [A2 [As [A3 A4]]]].
  destruct (clause_ok_nth E j c e2 HC H2) as [B1 [B2 [Bs [B3 B4]]]].
  destruct (_ && _) in H; [|discriminate].
  assert (W1 : forall b, wf (srt E) (side e1 b)) by (intros []; auto).
  assert (W2 : forall b, wf (srt E) (side e2 b)) by (intros []; auto).
  assert (P1 : forall b, primary (side e1 b)) by (intros []; auto).
  assert (P2 : forall b, primary (side e2 b)) by (intros []; auto).
  assert (S1 : forall b, tsort (srt E) (side e1 b) = tsort (srt E) (side e1 (negb b))) by (intros []; simpl; congruence).
  assert (S2 : forall b, tsort (srt E) (side e2 b) = tsort (srt E) (side e2 (negb b))) by (intros []; simpl; congruence).
  destruct (mgu n (srt E) (pp E) start (side e1 l1) (side e2 l2)) as [st|st| |] eqn:G; try discriminate.
  destruct (good_mgu E n start _ _ st (good_start E) (W1 _) (W2 _) (P1 _) (P2 _) G) as [HG HS].
  destruct (_ && _) in H; [|discriminate].
  destruct (norm_eqns n E (st, cnt) (except j c)) as [[st1 c1]|] eqn:Nm; [|discriminate].
  destruct (inst n (bnd st1) (side e1 (negb l1))) as [u|] eqn:I1; [|discriminate].
  destruct (inst n (bnd st1) (side e2 (negb l2))) as [w|] eqn:I2; [|discriminate].
  destruct (copies E n (bnd st1) (except i c)) as [l|] eqn:Cp; [|discriminate]. injection H as <-.
  destruct (norm_state E n st cnt _ st1 c1 HE HG Nm) as [s0 [s1 [D0 [D1 [Ws1 [Ws0 [Es [So R]]]]]]]].
  apply (inst_sg _ s1 _ _ _ D1) in I1. apply (inst_sg _ s1 _ _ _ D1) in I2. subst u w.
  rewrite (copies_inst E (bnd st1) s1 n _ _ D1 Cp).
  destruct (proj1 (HS s1) So) as [_ Q].
  pose proof (sg_wf E s1 HE Ws1) as Wg. apply (sg_eq s1) in Q.
  assert (Ssort : tsort (srt E) (app (sg s1) (side e1 (negb l1))) = tsort (srt E) (app (sg s1) (side e2 (negb l2)))).
  { rewrite !app_sort; auto. rewrite <- S1, <- S2. rewrite <- (app_sort _ (sg s1) (side e1 l1)); auto. rewrite Q.
    apply app_sort; auto. }
  split.
  - apply finish_ok. constructor; [|apply insts_ok; auto; apply clause_ok_except; auto].
    apply eqn_alloc_ok; auto using app_wf, sg_primary.
  - intros M HM HT v Hv. apply (finish_holds E M v _ HM).
    pose proof (HT _ (val_respects E M HM v _ Hv Wg)) as HX.
    set (v' := val M v (sg s1)) in *.
    destruct (exists_except _ _ _ _ H1 HX) as [HX1|HX1].
    + (* the maximal literal holds *)
      destruct (mo_dec _ _ _ HM (eval M v' (side e1 (negb l1))) (eval M v' (side e2 (negb l2)))) as [Eq|Ne].
      * right. apply insts_hold; auto; [apply clause_ok_except; auto|]. apply Exists_exists.
        exists e2. split; [apply (nth_except_in c j i); auto|].
        unfold holds, lit_holds in *. rewrite Hp1 in HX1. rewrite Hp2.
        assert (X1 : eval M v' (side e1 l1) = eval M v' (side e1 (negb l1))) by (destruct l1; simpl; auto).
        assert (X2 : eval M v' (side e1 l1) = eval M v' (side e2 l2)).
        { unfold v', val. rewrite <- !eval_app. rewrite Q. reflexivity. }
        fold v'. destruct l2; simpl in *; congruence.
      * left. apply (eqn_alloc_holds E M HE HM); auto using app_wf. unfold lit_holds. rewrite !eval_app. exact Ne.
    + right. apply insts_hold; auto. apply clause_ok_except; auto.
Qed.
End Factor.

(** ** Paramodulation *)
Lemma Forall2_impl {A B} (P Q : A -> B -> Prop) l l' : (forall a b, P a b -> Q a b) -> Forall2 P l l' -> Forall2 Q l l'.
Proof. intros H F. induction F; constructor; auto. Qed.

Lemma norm_eqns_app E n : forall l1 l2 ns, norm_eqns n E ns (l1 ++ l2) =
  match norm_eqns n E ns l1 with None => None | Some ns1 => norm_eqns n E ns1 l2 end.
Proof.
  induction l1 as [|e l1 IH]; intros l2 ns; simpl; auto.
  destruct (norm_eqn n E ns e); auto.
Qed.

Lemma norm_both_app E n st ci cf : norm_both E n st ci cf = norm_eqns n E (st, reset) (ci ++ cf).
Proof. unfold norm_both. rewrite norm_eqns_app. reflexivity. Qed.

Lemma side_ok E e b : eqn_ok E e -> wf (srt E) (side e b) /\ primary (side e b) /\ tsort (srt E) (side e b) = tsort (srt E) (side e (negb b)).
Proof. intros [A [B [C [D F]]]]. destruct b; simpl; auto. Qed.

Lemma primary_subterm t u : primary t -> In u (subterms t) -> primary u.
Proof.
  intros H Hu x Hx. apply H. apply in_vars_subterm. apply in_vars_subterm in Hx. eapply subterm_trans; eauto.
Qed.

Section Paramod.
Variables (E : env) (o : lord) (n : nat).
Variables (cf : clause) (fi : nat) (fs : bool) (ci : clause) (ii : nat) (is : bool) (p : list nat) (fl il : eqn) (it : term).
Hypothesis HE : env_ok E.
Hypothesis HCf : clause_ok E cf.
Hypothesis HCi : clause_ok E ci.
Hypothesis Hf : nth_error cf fi = Some fl.
Hypothesis Hi : nth_error ci ii = Some il.
Hypothesis Hit : subterm_at (side il is) p = Some it.
Hypothesis Hpos : pos fl = true.

Lemma fl_ok : eqn_ok E fl.
Proof. exact (clause_ok_nth E fi cf fl HCf Hf). Qed.
Lemma il_ok : eqn_ok E il.
Proof. exact (clause_ok_nth E ii ci il HCi Hi). Qed.

(** the overlap equation under a valuation *)
Lemma from_equation M v s1 : model_ok (srt E) (dist E) M -> respects (srt E) M v -> wfsubst (srt E) s1 ->
  app s1 (side fl fs) = app s1 it -> clause_true (srt E) M cf ->
  Exists (holds M v) (map (inst_lit E (sg s1)) (except fi cf))
  \/ eval M v (app (sg s1) it) = eval M v (app (sg s1) (side fl (negb fs))).
Proof.
  intros HM Hv Ws Q HT. pose proof (sg_wf E s1 HE Ws) as Wg.
  pose proof (HT _ (val_respects E M HM v _ Hv Wg)) as HX.
  destruct (exists_except _ _ _ _ Hf HX) as [HX1|HX1].
  - right. rewrite <- (sg_eq s1 _ _ Q). unfold holds, lit_holds in HX1. rewrite Hpos in HX1.
    unfold val in HX1. rewrite <- !eval_app in HX1. destruct fs; simpl; congruence.
  - left. apply insts_hold; auto. apply clause_ok_except; auto.
Qed.

Lemma it_sort s1 : wfsubst (srt E) s1 -> app s1 (side fl fs) = app s1 it ->
  tsort (srt E) (app (sg s1) it) = tsort (srt E) (app (sg s1) (side fl (negb fs))).
Proof.
  intros Ws Q. pose proof (sg_wf E s1 HE Ws) as Wg. rewrite <- (sg_eq s1 _ _ Q). rewrite !app_sort; auto.
  apply (side_ok E fl fs fl_ok).
Qed.

Lemma app_replace_at s : forall q t r t', replace_at t q r = Some t' -> replace_at (app s t) q (app s r) = Some (app s t').
Proof.
  induction q as [|k q IH]; intros t r t' H; simpl in *; [congruence|].
  destruct t as [x|f args]; [discriminate|]. destruct (nth_error args k) as [a|] eqn:N; [|discriminate].
  destruct (replace_at a q r) as [a'|] eqn:R; [|discriminate]. injection H as <-. simpl.
  rewrite nth_error_map, N. simpl. rewrite (IH a r a' R). f_equal. f_equal.
  clear. revert k. induction args as [|x args IH]; intros [|k]; simpl; auto. f_equal. auto.
Qed.

Lemma app_subterm_at s : forall q t u, subterm_at t q = Some u -> subterm_at (app s t) q = Some (app s u).
Proof.
  induction q as [|k q IH]; intros t u H; simpl in *; [congruence|].
  destruct t as [x|f args]; [discriminate|]. simpl. rewrite nth_error_map.
  destruct (nth_error args k) as [a|] eqn:N; [|discriminate]. simpl. auto.
Qed.

(** the literal built by plain paramodulation *)
Lemma pm_literal s1 t : wfsubst (srt E) s1 -> app s1 (side fl fs) = app s1 it ->
  replace_at (side il is) p (side fl (negb fs)) = Some t ->
  eqn_ok E (eqn_alloc E (app (sg s1) t) (app (sg s1) (side il (negb is))) (pos il))
  /\ forall M v, model_ok (srt E) (dist E) M -> respects (srt E) M v ->
      eval M v (app (sg s1) it) = eval M v (app (sg s1) (side fl (negb fs))) ->
      holds M (val M v (sg s1)) il ->
      holds M v (eqn_alloc E (app (sg s1) t) (app (sg s1) (side il (negb is))) (pos il)).
Proof.
  intros Ws Q R. pose proof (sg_wf E s1 HE Ws) as Wg.
  destruct (side_ok E il is il_ok) as [Wi [_ Si]]. destruct (side_ok E il (negb is) il_ok) as [Wi' _].
  destruct (side_ok E fl (negb fs) fl_ok) as [Wf _].
  pose proof (app_replace_at (sg s1) _ _ _ _ R) as R'. pose proof (app_subterm_at (sg s1) _ _ _ Hit) as T'.
  destruct (replace_at_wf (srt E) _ _ _ _ _ T' R') as [Wt St]; auto using app_wf. { apply it_sort; auto. }
  assert (SS : tsort (srt E) (app (sg s1) t) = tsort (srt E) (app (sg s1) (side il (negb is)))).
  { rewrite St. rewrite !app_sort; auto. }
  split; [apply eqn_alloc_ok; auto using app_wf, sg_primary|].
  intros M v HM Hv Eq Hh. apply (eqn_alloc_holds E M HE HM); auto using app_wf.
  pose proof (replace_at_eval M v _ _ _ _ _ T' R' Eq) as Ev.
  unfold holds in Hh. unfold val in Hh. apply lit_holds_app in Hh.
  unfold lit_holds in *. rewrite <- Ev. destruct is; simpl; auto. destruct (pos il); congruence.
Qed.

Variables (st : bstate).
Hypothesis HG : good E st.
(** the unifier in force *)
Hypothesis HU : forall tau, solves (bnd st) tau -> app tau (side fl fs) = app tau it.

Lemma plain_sound d : plain_construct E n st cf fi fs ci ii is p = Derived d ->
  clause_ok E d /\ forall M, model_ok (srt E) (dist E) M -> clause_true (srt E) M cf -> clause_true (srt E) M ci -> clause_true (srt E) M d.
Proof.
  intros H. unfold plain_construct in H. rewrite Hf, Hi, norm_both_app in H.
  destruct (norm_eqns n E (st, reset) (ci ++ cf)) as [[st1 c1]|] eqn:Nm; [|discriminate].
  destruct (replace_at (side il is) p (side fl (negb fs))) as [t|] eqn:R; [|discriminate].
  destruct (inst n (bnd st1) t) as [l|] eqn:I1; [|discriminate].
  destruct (inst n (bnd st1) (side il (negb is))) as [r|] eqn:I2; [|discriminate].
  destruct (pos il && term_eqb l r); [discriminate|].
  destruct (copies E n (bnd st1) (except ii ci)) as [l1|] eqn:C1; [|discriminate].
  destruct (copies E n (bnd st1) (except fi cf)) as [l2|] eqn:C2; [|discriminate].
  destruct (find_true E l1); [discriminate|]. destruct (find_true E l2); [discriminate|]. injection H as <-.
  destruct (norm_state E n st reset _ st1 c1 HE HG Nm) as [s0 [s1 [D0 [D1 [Ws1 [Ws0 [Es [So _]]]]]]]].
  apply (inst_sg _ s1 _ _ _ D1) in I1. apply (inst_sg _ s1 _ _ _ D1) in I2. subst l r.
  apply (copies_inst E (bnd st1) s1 n _ _ D1) in C1. apply (copies_inst E (bnd st1) s1 n _ _ D1) in C2. subst l1 l2.
  pose proof (HU s1 So) as Q. destruct (pm_literal s1 t Ws1 Q R) as [PO PH]. pose proof (sg_wf E s1 HE Ws1) as Wg.
  split.
  - apply finish_ok. constructor; auto. apply Forall_app. split; apply insts_ok; auto; apply clause_ok_except; auto.
  - intros M HM HTf HTi v Hv. apply (finish_holds E M v _ HM).
    rewrite Exists_cons, Exists_app.
    destruct (from_equation M v s1 HM Hv Ws1 Q HTf) as [HX|Eq]; [tauto|].
    pose proof (HTi _ (val_respects E M HM v _ Hv Wg)) as HX.
    destruct (exists_except _ _ _ _ Hi HX) as [HX1|HX1].
    + left. apply PH; auto.
    + right. left. apply insts_hold; auto. apply clause_ok_except; auto.
Qed.

(** literals with the overlapped term replaced *)
Lemma repl_lit_ok s1 rhs e l r : wfsubst (srt E) s1 -> app s1 (side fl fs) = app s1 it ->
  rhs = app (sg s1) (side fl (negb fs)) -> eqn_ok E e ->
  repl_some (app (sg s1) it) rhs (app (sg s1) (lt e)) l -> repl_some (app (sg s1) it) rhs (app (sg s1) (rt e)) r ->
  eqn_ok E (eqn_alloc E l r (pos e))
  /\ forall M v, model_ok (srt E) (dist E) M -> respects (srt E) M v ->
      eval M v (app (sg s1) it) = eval M v rhs -> holds M (val M v (sg s1)) e -> holds M v (eqn_alloc E l r (pos e)).
Proof.
  intros Ws Q -> [A [B [C _]]] Rl Rr. pose proof (sg_wf E s1 HE Ws) as Wg.
  destruct (side_ok E fl (negb fs) fl_ok) as [Wf _].
  destruct (repl_some_wf _ _ (srt E) (app_wf _ _ _ Wg Wf) (it_sort s1 Ws Q) _ _ Rl (app_wf _ _ _ Wg A)) as [Wl Sl].
  destruct (repl_some_wf _ _ (srt E) (app_wf _ _ _ Wg Wf) (it_sort s1 Ws Q) _ _ Rr (app_wf _ _ _ Wg B)) as [Wr Sr].
  assert (SS : tsort (srt E) l = tsort (srt E) r) by (rewrite Sl, Sr, !app_sort; auto).
  split.
  - apply eqn_alloc_ok; auto; intros x Hx.
    + destruct (repl_some_vars _ _ _ _ Rl x Hx) as [Hy|Hy]; eapply sg_primary; eauto.
    + destruct (repl_some_vars _ _ _ _ Rr x Hx) as [Hy|Hy]; eapply sg_primary; eauto.
  - intros M v HM Hv Eq Hh. apply (eqn_alloc_holds E M HE HM); auto.
    unfold holds, val in Hh. apply lit_holds_app in Hh. unfold lit_holds in *.
    rewrite <- (repl_some_eval _ _ M v Eq _ _ Rl), <- (repl_some_eval _ _ M v Eq _ _ Rr). exact Hh.
Qed.

Lemma join_sound s1 into_copy from_copy d : wfsubst (srt E) s1 -> app s1 (side fl fs) = app s1 it ->
  Forall2 (fun e h => eqn_ok E e -> eqn_ok E h /\ forall M v, model_ok (srt E) (dist E) M -> respects (srt E) M v ->
      eval M v (app (sg s1) it) = eval M v (app (sg s1) (side fl (negb fs))) ->
      holds M (val M v (sg s1)) e -> holds M v h) ci into_copy ->
  from_copy = map (inst_lit E (sg s1)) (except fi cf) ->
  join E into_copy from_copy = Derived d ->
  clause_ok E d /\ forall M, model_ok (srt E) (dist E) M -> clause_true (srt E) M cf -> clause_true (srt E) M ci -> clause_true (srt E) M d.
Proof.
  intros Ws Q HF Hfc H. pose proof (sg_wf E s1 HE Ws) as Wg. unfold join in H.
  destruct (find_true E into_copy); [discriminate|]. destruct (find_true E from_copy); [discriminate|]. injection H as <-.
  split.
  - apply finish_ok. apply Forall_app. split.
    + revert HCi. clear Hi Hit HG HU. induction HF as [|e h l1 l2 Hh _ IH]; intros HO; [constructor|].
      inversion HO as [|? ? Oe Ol]; subst. constructor; [apply Hh; auto|auto].
    + subst from_copy. apply insts_ok; auto. apply clause_ok_except; auto.
  - intros M HM HTf HTi v Hv. apply (finish_holds E M v _ HM). rewrite Exists_app.
    destruct (from_equation M v s1 HM Hv Ws Q HTf) as [HX|Eq]; [subst; tauto|].
    pose proof (HTi _ (val_respects E M HM v _ Hv Wg)) as HX. left.
    revert HX HCi. clear Hi Hit HG HU HTi. induction HF as [|e h l1 l2 Hh _ IH]; intros HX HO; [inversion HX|].
    inversion HO as [|? ? Oe Ol]; subst. inversion HX as [? ? He|? ? He]; subst.
    + left. apply Hh; auto.
    + right. auto.
Qed.

Lemma sim_sound d : sim_construct E n st cf fi fs ci ii is p = Derived d ->
  clause_ok E d /\ forall M, model_ok (srt E) (dist E) M -> clause_true (srt E) M cf -> clause_true (srt E) M ci -> clause_true (srt E) M d.
Proof.
  intros H. unfold sim_construct in H. rewrite Hf, Hi, Hit, norm_both_app in H.
  destruct (norm_eqns n E (st, reset) (ci ++ cf)) as [[st1 c1]|] eqn:Nm; [|discriminate].
  destruct (inst n (bnd st1) (side fl (negb fs))) as [rhs|] eqn:I1; [|discriminate].
  destruct (mapo (copy_repl n E (bnd st1) it rhs) ci) as [l1|] eqn:C1; [|discriminate].
  destruct (copies E n (bnd st1) (except fi cf)) as [l2|] eqn:C2; [|discriminate].
  destruct (norm_state E n st reset _ st1 c1 HE HG Nm) as [s0 [s1 [D0 [D1 [Ws1 [Ws0 [Es [So _]]]]]]]].
  apply (inst_sg _ s1 _ _ _ D1) in I1. apply (copies_inst E (bnd st1) s1 n _ _ D1) in C2.
  pose proof (HU s1 So) as Q.
  apply (join_sound s1 l1 l2); auto.
  apply mapo_spec in C1. eapply Forall2_impl; [|exact C1]. intros e h Hh Oe. cbv beta in Hh. unfold copy_repl in Hh.
  destruct (inst_repl n (bnd st1) it rhs (lt e)) as [l|] eqn:L; [|discriminate].
  destruct (inst_repl n (bnd st1) it rhs (rt e)) as [r|] eqn:R; [|discriminate]. injection Hh as <-.
  apply (inst_repl_correct _ s1 _ _ D1) in L. apply (inst_repl_correct _ s1 _ _ D1) in R. rewrite <- !app_comp in L, R.
  destruct (repl_lit_ok s1 rhs e l r Ws1 Q I1 Oe L R) as [X Y]. split; auto.
  intros. apply copy_props_holds. apply Y; auto. congruence.
Qed.

Lemma supersim_sound d : supersim_construct E n st cf fi fs ci ii is p = Derived d ->
  clause_ok E d /\ forall M, model_ok (srt E) (dist E) M -> clause_true (srt E) M cf -> clause_true (srt E) M ci -> clause_true (srt E) M d.
Proof.
  intros H. unfold supersim_construct in H. rewrite Hf, Hi, Hit, norm_both_app in H.
  destruct (norm_eqns n E (st, reset) (ci ++ cf)) as [[st1 c1]|] eqn:Nm; [|discriminate].
  destruct (inst n (bnd st1) it) as [lhs|] eqn:I0; [|discriminate].
  destruct (inst n (bnd st1) (side fl (negb fs))) as [rhs|] eqn:I1; [|discriminate].
  destruct (copies E n (bnd st1) ci) as [tmp|] eqn:C1; [|discriminate].
  destruct (copies E n (bnd st1) (except fi cf)) as [l2|] eqn:C2; [|discriminate].
  destruct (norm_state E n st reset _ st1 c1 HE HG Nm) as [s0 [s1 [D0 [D1 [Ws1 [Ws0 [Es [So _]]]]]]]].
  apply (inst_sg _ s1 _ _ _ D1) in I0. apply (inst_sg _ s1 _ _ _ D1) in I1.
  apply (copies_inst E (bnd st1) s1 n _ _ D1) in C1. apply (copies_inst E (bnd st1) s1 n _ _ D1) in C2.
  pose proof (sg_wf E s1 HE Ws1) as Wg. pose proof (HU s1 So) as Q.
  apply (join_sound s1 (map (copy_repl_plain E lhs rhs) tmp) l2); auto.
  subst tmp. rewrite map_map.
  assert (HF : forall l, Forall2 (fun (e h : eqn) => h = copy_repl_plain E lhs rhs (inst_lit E (sg s1) e)) l
      (map (fun x => copy_repl_plain E lhs rhs (inst_lit E (sg s1) x)) l)) by (induction l; simpl; constructor; auto).
  eapply Forall2_impl; [|apply HF]. intros e h -> Oe.
  pose proof (inst_lit_ok E s1 e HE Ws1 Oe) as Oi. remember (inst_lit E (sg s1) e) as e' eqn:Ee.
  destruct Oi as [A [B [C [P1 P2]]]].
  destruct (side_ok E fl (negb fs) fl_ok) as [Wf _].
  pose proof (it_sort s1 Ws1 Q) as SI. rewrite <- I0, <- I1 in SI.
  assert (Wr : wf (srt E) rhs) by (rewrite I1; apply app_wf; auto).
  pose proof (repl_plain_some lhs rhs (lt e')) as Rl. pose proof (repl_plain_some lhs rhs (rt e')) as Rr.
  destruct (repl_some_wf _ _ (srt E) Wr SI _ _ Rl A) as [Wl Sl].
  destruct (repl_some_wf _ _ (srt E) Wr SI _ _ Rr B) as [Wr' Sr].
  assert (SS : tsort (srt E) (repl_plain lhs rhs (lt e')) = tsort (srt E) (repl_plain lhs rhs (rt e'))) by (rewrite Sl, Sr; auto).
  split.
  - apply copy_props_ok. apply eqn_alloc_ok; auto; intros x Hx.
    + destruct (repl_some_vars _ _ _ _ Rl x Hx) as [Hy|Hy]; [auto | rewrite I1 in Hy; eapply sg_primary; eauto].
    + destruct (repl_some_vars _ _ _ _ Rr x Hx) as [Hy|Hy]; [auto | rewrite I1 in Hy; eapply sg_primary; eauto].
  - intros M v HM Hv Eq Hh. rewrite <- I0, <- I1 in Eq. apply copy_props_holds. apply (eqn_alloc_holds E M HE HM); auto.
    assert (Hh' : holds M v e') by (rewrite Ee; apply inst_lit_holds; auto).
    unfold holds, lit_holds in *.
    rewrite <- (repl_some_eval _ _ M v Eq _ _ Rl), <- (repl_some_eval _ _ M v Eq _ _ Rr). exact Hh'.
Qed.
End Paramod.

Lemma paramod_sound E o n ty cf fi fs ci ii is p fl d : env_ok E -> clause_ok E cf -> clause_ok E ci ->
  nth_error cf fi = Some fl -> pos fl = true ->
  paramod E o n ty cf fi fs ci ii is p = Derived d ->
  clause_ok E d /\ forall M, model_ok (srt E) (dist E) M -> clause_true (srt E) M cf -> clause_true (srt E) M ci -> clause_true (srt E) M d.
Proof.
  intros HE HCf HCi Hf Hpos H. unfold paramod in H. rewrite Hf in H.
  destruct (nth_error ci ii) as [il|] eqn:Hi; [|discriminate].
  destruct (subterm_at (side il is) p) as [it|] eqn:Hit; [|discriminate].
  destruct (mgu n (srt E) (pp E) start (side fl fs) it) as [st|st| |] eqn:G; try discriminate.
  destruct (side_ok E fl fs (clause_ok_nth E fi cf fl HCf Hf)) as [W1 [P1 _]].
  destruct (side_ok E il is (clause_ok_nth E ii ci il HCi Hi)) as [W2 [P2 _]].
  pose proof (subterm_at_in _ _ _ Hit) as Sub.
  destruct (good_mgu E n start _ _ st (good_start E) W1 (wf_subterm _ _ _ W2 Sub) P1 (primary_subterm _ _ P2 Sub) G) as [HG HS].
  destruct (_ && _) in H; [|discriminate].
  assert (HU : forall tau, solves (bnd st) tau -> app tau (side fl fs) = app tau it) by (intros tau Ht; apply HS; auto).
  unfold construct in H. destruct (sim_paramod_q o (bnd st) fl fs ty);
    first [ eapply plain_sound; eassumption | eapply sim_sound; eassumption | eapply supersim_sound; eassumption ].
Qed.

(** ** Paramodulation without an index *)
Lemma norm_term_result E n st c t st' c' s : env_ok E -> norm_term n E (st, c) t = Some (st', c') ->
  inv (srt E) st -> fresh_unbound (bnd st) -> denotes (bnd st) s -> norm_result E st c s [t] st' c'.
Proof.
  intros HE H HI HF HD. unfold norm_term in H.
  destruct (norm_loop_correct E HE _ _ _ _ _ _ s H HI HF HD) as [A [B [C [D F]]]]. constructor; auto.
Qed.

(** a term whose variables have all been normalised is not touched by later normalisation *)
Lemma norm_stable E b b' c c' u : env_ok E -> normed E b b' c c' -> fresh_unbound b' ->
  (forall x, In x (vars u) -> b x = None /\ is_fresh x = true) -> app (nu b b') u = u.
Proof.
  intros HE HN HF H. rewrite <- (app_var u) at 2. apply app_ext. intros x Hx. destruct (H x Hx) as [B Fx].
  unfold nu. rewrite B, (HF x Fx). reflexivity.
Qed.

Lemma norm_image E st c s ts st' c' t x : env_ok E -> inv (srt E) st -> denotes (bnd st) s -> norm_result E st c s ts st' c' ->
  (forall y, In y (vars (app s t)) -> is_fresh y = false -> bnd st' y <> None) ->
  In x (vars (app (comp (nu (bnd st) (bnd st')) s) t)) -> is_fresh x = true /\ bnd st' x = None.
Proof.
  intros HE HI HD R Ht Hx. rewrite app_comp in Hx. apply vars_app in Hx. destruct Hx as [y [Hy Hx]].
  assert (By : bnd st y = None).
  { apply vars_app in Hy. destruct Hy as [z [_ Hy]]. eapply denotes_range; eauto. apply HI. }
  assert (Fx : is_fresh x = true).
  { unfold nu in Hx. rewrite By in Hx. destruct (bnd st' y) as [u|] eqn:B'.
    - destruct (nm_new _ _ _ _ _ (nr_normed _ _ _ _ _ _ _ R) y u By B') as [_ [k [_ ->]]].
      destruct Hx as [<-|[]]. apply (eo_fresh_cell E HE).
    - destruct Hx as [<-|[]]. destruct (is_fresh y) eqn:Fy; auto. exfalso. apply (Ht y Hy Fy). auto. }
  split; auto. apply (nr_fresh _ _ _ _ _ _ _ R). auto.
Qed.

Lemma stable_inst E st c s ts st1 c1 ts' st2 c2 s2 n t u : env_ok E -> inv (srt E) st -> fresh_unbound (bnd st) -> denotes (bnd st) s ->
  norm_result E st c s ts st1 c1 -> norm_result E st1 c1 (comp (nu (bnd st) (bnd st1)) s) ts' st2 c2 ->
  denotes (bnd st2) s2 ->
  (forall y, In y (vars (app s t)) -> is_fresh y = false -> bnd st1 y <> None) ->
  inst n (bnd st1) t = Some u -> u = app (sg s2) t.
Proof.
  intros HE HI HF HD R1 R2 D2 Ht Hu.
  pose proof (normed_denotes E _ _ _ _ s HE (nr_normed _ _ _ _ _ _ _ R1) HF (nr_fresh _ _ _ _ _ _ _ R1) HD) as D1.
  pose proof (normed_denotes E _ _ _ _ _ HE (nr_normed _ _ _ _ _ _ _ R2) (nr_fresh _ _ _ _ _ _ _ R1) (nr_fresh _ _ _ _ _ _ _ R2) D1) as D2'.
  rewrite (inst_sg _ _ _ _ _ D1 Hu). unfold sg. rewrite (app_comp ren), (app_comp ren s2). f_equal.
  assert (Eq : app s2 t = app (comp (nu (bnd st1) (bnd st2)) (comp (nu (bnd st) (bnd st1)) s)) t).
  { apply app_ext. intros x _. eapply (denotes_unique (bnd st2)); auto. apply R2. }
  rewrite Eq. rewrite (app_comp (nu (bnd st1) (bnd st2))). symmetry.
  eapply norm_stable; [exact HE | apply R2 | apply R2 |]. intros x Hx.
  destruct (norm_image E st c s ts st1 c1 t x HE HI HD R1 Ht Hx). auto.
Qed.

Lemma norm_result_denotes E st c s ts st1 c1 : env_ok E -> inv (srt E) st -> fresh_unbound (bnd st) -> denotes (bnd st) s ->
  norm_result E st c s ts st1 c1 -> denotes (bnd st1) (comp (nu (bnd st) (bnd st1)) s).
Proof. intros HE HI HF HD R. eapply normed_denotes; eauto; apply R. Qed.

Lemma app_vars_mono s t u x : (forall y, In y (vars u) -> In y (vars t)) -> In x (vars (app s u)) -> In x (vars (app s t)).
Proof. intros H Hx. apply vars_app in Hx. destruct Hx as [y [Hy Hx]]. apply vars_app. eauto. Qed.

Lemma ordered_paramod_sound E o n cf fi fs ci ii is p fl d : env_ok E -> clause_ok E cf -> clause_ok E ci ->
  nth_error cf fi = Some fl -> pos fl = true ->
  ordered_paramod E o n cf fi fs ci ii is p = Derived d ->
  clause_ok E d /\ forall M, model_ok (srt E) (dist E) M -> clause_true (srt E) M cf -> clause_true (srt E) M ci -> clause_true (srt E) M d.
Proof.
  intros HE HCf HCi Hf Hpos H. unfold ordered_paramod in H. rewrite Hf in H.
  destruct (nth_error ci ii) as [il|] eqn:Hi; [|discriminate].
  destruct (subterm_at (side il is) p) as [it|] eqn:Hit; [|discriminate].
  destruct (replace_at (side il is) p (side fl (negb fs))) as [t|] eqn:Ht; [|discriminate].
  destruct (mgu n (srt E) (pp E) start (side fl fs) it) as [st|st| |] eqn:G; try discriminate.
  destruct (side_ok E fl fs (clause_ok_nth E fi cf fl HCf Hf)) as [W1 [P1 _]].
  destruct (side_ok E il is (clause_ok_nth E ii ci il HCi Hi)) as [W2 [P2 _]].
  pose proof (subterm_at_in _ _ _ Hit) as Sub.
  destruct (good_mgu E n start _ _ st (good_start E) W1 (wf_subterm _ _ _ W2 Sub) P1 (primary_subterm _ _ P2 Sub) G) as [HG HS].
  pose proof HG as [HI _]. pose proof (good_fresh E st HG) as HF.
  destruct (acyclic_denotes _ (inv_acyclic _ _ HI)) as [s0 D0].
  destruct (_ && _) in H; [discriminate|].
  destruct (norm_term n E (st, reset) (side il is)) as [[st1 c1]|] eqn:N1; [|discriminate].
  destruct (norm_term n E (st1, c1) (side fl (negb fs))) as [[st2 c2]|] eqn:N2; [|discriminate].
  cbn [fst] in H.
  destruct (inst n (bnd st2) t) as [new_l|] eqn:IL; [|discriminate].
  destruct (_ && _) in H; [discriminate|].
  destruct (norm_term n E (st2, c2) (side il (negb is))) as [[st3 c3]|] eqn:N3; [|discriminate].
  cbn [fst] in H.
  destruct (inst n (bnd st3) (side il (negb is))) as [new_r|] eqn:IR; [|discriminate].
  destruct (pos il && _) in H; [discriminate|].
  destruct (_ && _) in H; [|discriminate].
  destruct (norm_eqns n E (st3, c3) (except ii ci)) as [[st4 c4]|] eqn:N4; [|discriminate].
  destruct (norm_eqns n E (st4, c4) (except fi cf)) as [[st5 c5]|] eqn:N5; [|discriminate].
  cbn [fst] in H.
  destruct (copies E n (bnd st5) (except ii ci)) as [l1|] eqn:C1; [|discriminate].
  destruct (copies E n (bnd st5) (except fi cf)) as [l2|] eqn:C2; [|discriminate]. injection H as <-.
  (* normalisation steps *)
  pose proof (norm_term_result E n _ _ _ _ _ s0 HE N1 HI HF D0) as R1.
  pose proof (norm_result_denotes E _ _ _ _ _ _ HE HI HF D0 R1) as D1.
  pose proof (norm_term_result E n _ _ _ _ _ _ HE N2 (nr_inv _ _ _ _ _ _ _ R1) (nr_fresh _ _ _ _ _ _ _ R1) D1) as R2'.
  pose proof (norm_result_trans E _ _ _ _ _ _ _ _ _ HE HI HF D0 R1 R2') as R2.
  pose proof (norm_result_denotes E _ _ _ _ _ _ HE HI HF D0 R2) as D2.
  pose proof (norm_term_result E n _ _ _ _ _ _ HE N3 (nr_inv _ _ _ _ _ _ _ R2) (nr_fresh _ _ _ _ _ _ _ R2) D2) as R3'.
  pose proof (norm_result_trans E _ _ _ _ _ _ _ _ _ HE HI HF D0 R2 R3') as R3.
  pose proof (norm_result_denotes E _ _ _ _ _ _ HE HI HF D0 R3) as D3.
  pose proof (norm_eqns_correct E HE _ n _ _ _ _ _ N4 (nr_inv _ _ _ _ _ _ _ R3) (nr_fresh _ _ _ _ _ _ _ R3) D3) as R4'.
  pose proof (norm_result_denotes E _ _ _ _ _ _ HE (nr_inv _ _ _ _ _ _ _ R3) (nr_fresh _ _ _ _ _ _ _ R3) D3 R4') as D4.
  pose proof (norm_eqns_correct E HE _ n _ _ _ _ _ N5 (nr_inv _ _ _ _ _ _ _ R4') (nr_fresh _ _ _ _ _ _ _ R4') D4) as R5'.
  pose proof (norm_result_trans E _ _ _ _ _ _ _ _ _ HE (nr_inv _ _ _ _ _ _ _ R3) (nr_fresh _ _ _ _ _ _ _ R3) D3 R4' R5') as R35.
  pose proof (norm_result_denotes E _ _ _ _ _ _ HE (nr_inv _ _ _ _ _ _ _ R3) (nr_fresh _ _ _ _ _ _ _ R3) D3 R35) as D5.
  set (s5 := comp (nu (bnd st3) (bnd st5)) (comp (nu (bnd st) (bnd st3)) s0)) in *.
  assert (EQ : forall x, comp (nu (bnd st2) (bnd st3)) (comp (nu (bnd st) (bnd st2)) s0) x = comp (nu (bnd st) (bnd st3)) s0 x).
  { intros x. eapply (denotes_unique (bnd st3)); auto; [apply R3|].
    apply (norm_result_denotes E _ _ _ _ _ _ HE (nr_inv _ _ _ _ _ _ _ R2) (nr_fresh _ _ _ _ _ _ _ R2) D2 R3'). }
  assert (R25 : norm_result E st2 c2 (comp (nu (bnd st) (bnd st2)) s0) ([side il (negb is)] ++ (eqn_terms (except ii ci) ++ eqn_terms (except fi cf))) st5 c5).
  { eapply norm_result_trans; eauto; try apply R2. destruct R35 as [X1 X2 X3 X4 X5]. constructor; auto.
    intros u x Hu Hx. apply (X5 u x Hu). rewrite <- (app_ext_all _ _ _ EQ). exact Hx. }
  apply (copies_inst E (bnd st5) s5 n _ _ D5) in C1.
  apply (copies_inst E (bnd st5) s5 n _ _ D5) in C2. subst l1 l2.
  assert (EL : new_l = app (sg s5) t).
  { eapply stable_inst; [exact HE|exact HI|exact HF|exact D0|exact R2|exact R25|exact D5| |exact IL].
    intros y Hy Fy. apply vars_app in Hy. destruct Hy as [z [Hz Hy]].
    destruct (replace_at_vars _ _ _ _ _ Hit Ht z Hz) as [Hz'|Hz'].
    - apply (nr_all _ _ _ _ _ _ _ R2 (side il is)); simpl; auto. apply vars_app. eauto.
    - apply (nr_all _ _ _ _ _ _ _ R2 (side fl (negb fs))); simpl; auto. apply vars_app. eauto. }
  assert (ER : new_r = app (sg s5) (side il (negb is))).
  { eapply stable_inst; [exact HE|exact HI|exact HF|exact D0|exact R3|exact R35|exact D5| |exact IR].
    intros y Hy Fy. apply (nr_all _ _ _ _ _ _ _ R3 (side il (negb is))); auto. apply in_or_app; simpl; auto. }
  assert (So : solves (bnd st) s5).
  { intros x u Hx. apply (denotes_solves _ _ D5). apply (nm_keep _ _ _ _ _ (nr_normed _ _ _ _ _ _ _ R35)).
    apply (nm_keep _ _ _ _ _ (nr_normed _ _ _ _ _ _ _ R3)). exact Hx. }
  assert (Q : app s5 (side fl fs) = app s5 it) by (apply HS; auto).
  assert (Ws : wfsubst (srt E) s5) by (eapply denotes_wf; [| |exact D5]; apply R35).
  pose proof (sg_wf E s5 HE Ws) as Wg. subst new_l new_r.
  destruct (pm_literal E cf fi fs ci ii is p fl il it HE HCf HCi Hf Hi Hit s5 t Ws Q Ht) as [PO PH].
  split.
  - apply finish_ok. constructor; auto. apply Forall_app. split; apply insts_ok; auto; apply clause_ok_except; auto.
  - intros M HM HTf HTi v Hv. apply (finish_holds E M v _ HM).
    rewrite Exists_cons, Exists_app.
    destruct (from_equation E cf fi fs fl it HE HCf Hf Hpos M v s5 HM Hv Ws Q HTf) as [HX|Eq]; [tauto|].
    pose proof (HTi _ (val_respects E M HM v _ Hv Wg)) as HX.
    destruct (exists_except _ _ _ _ Hi HX) as [HX1|HX1].
    + left. apply PH; auto.
    + right. left. apply insts_hold; auto. apply clause_ok_except; auto.
Qed.
