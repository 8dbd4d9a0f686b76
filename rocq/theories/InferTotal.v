(** * The generating inferences return, and compute most general conclusions. *)
From Verif Require Import Terms Unify UnifyProofs MatchProofs KBO Semantics Clauses ClausesProofs LitOrder Infer InferProofs.

(** [eventually f r]: with enough fuel the computation returns r. *)
Definition eventually {A} (f : nat -> A) (r : A) : Prop := exists N, forall n, N <= n -> f n = r.

Lemma eventually_both {A B} (f : nat -> A) (g : nat -> B) a b : eventually f a -> eventually g b ->
  exists N, forall n, N <= n -> f n = a /\ g n = b.
Proof. intros [N1 H1] [N2 H2]. exists (Nat.max N1 N2). intros n Hn. split; [apply H1 | apply H2]; lia. Qed.

Lemma ev_mgu E st t1 t2 : inv (srt E) st -> wf (srt E) t1 -> wf (srt E) t2 ->
  exists r, eventually (fun n => mgu n (srt E) (pp E) st t1 t2) r /\
    match r with Success _ | Failure _ => True | _ => False end.
Proof.
  intros HI W1 W2. destruct (mgu_terminates (srt E) (pp E) st t1 t2 HI W1 W2) as [n Hn].
  exists (mgu n (srt E) (pp E) st t1 t2). split.
  - exists n. intros m Hm. apply mgu_mono; auto.
  - pose proof (mgu_correct n (srt E) (pp E) st t1 t2 HI W1 W2) as HC.
    destruct (mgu n (srt E) (pp E) st t1 t2); auto.
Qed.

Lemma ev_norm E st c l s : env_ok E -> inv (srt E) st -> fresh_unbound (bnd st) -> denotes (bnd st) s ->
  exists ns, eventually (fun n => norm_eqns n E (st, c) l) (Some ns).
Proof.
  intros HE HI HF HD. destruct (norm_eqns_terminates E HE l st c s HI HF HD) as [n [r H]].
  exists r. exists n. intros m Hm. eapply norm_eqns_mono; eauto.
Qed.

Lemma ev_norm_term E st c t s : env_ok E -> inv (srt E) st -> fresh_unbound (bnd st) -> denotes (bnd st) s ->
  exists ns, eventually (fun n => norm_term n E (st, c) t) (Some ns).
Proof.
  intros HE HI HF HD. destruct (norm_loop_terminates E HE _ st c [t] s HI HF HD eq_refl) as [n Hn].
  unfold norm_term. destruct (norm_loop n E (st, c) [t]) as [r|] eqn:H; [|congruence].
  exists r. exists n. intros m Hm. eapply norm_loop_mono; eauto.
Qed.

Lemma ev_inst b s t : acyclic b -> denotes b s -> exists u, eventually (fun n => inst n b t) (Some u).
Proof.
  intros [rank HR] HD. destruct (inst_total b rank s HR HD (Datatypes.S (trank rank t + size (app s t))) t ltac:(lia)) as [u Hu].
  exists u. eexists. intros m Hm. eapply inst_mono; eauto.
Qed.

Lemma ev_inst_repl b s old repl t : acyclic b -> denotes b s -> exists u, eventually (fun n => inst_repl n b old repl t) (Some u).
Proof.
  intros [rank HR] HD. destruct (inst_repl_total b rank s HR HD old repl (Datatypes.S (trank rank t + size (app s t))) t ltac:(lia)) as [u Hu].
  exists u. eexists. intros m Hm. eapply inst_repl_mono; eauto.
Qed.

Lemma ev_mapo {A B} (f : nat -> A -> option B) l : (forall a, exists u, eventually (fun n => f n a) (Some u)) ->
  exists r, eventually (fun n => mapo (f n) l) (Some r).
Proof.
  intros H. induction l as [|a l [r Hr]]; [exists [], 0; auto|].
  destruct (H a) as [u Hu]. destruct (eventually_both _ _ _ _ Hu Hr) as [N HN].
  exists (u :: r), N. intros n Hn. destruct (HN n Hn) as [A1 A2]. simpl. rewrite A1, A2. reflexivity.
Qed.

Lemma ev_copies E b s l : acyclic b -> denotes b s -> exists r, eventually (fun n => copies E n b l) (Some r).
Proof.
  intros HA HD. apply ev_mapo. intros e. destruct (ev_inst b s (lt e) HA HD) as [u Hu]. destruct (ev_inst b s (rt e) HA HD) as [w Hw].
  destruct (eventually_both _ _ _ _ Hu Hw) as [N HN]. eexists. exists N. intros n Hn. destruct (HN n Hn) as [A1 A2].
  unfold copy_opt. rewrite A1, A2. reflexivity.
Qed.

Lemma ev_copy_repls E b s old repl l : acyclic b -> denotes b s -> exists r, eventually (fun n => mapo (copy_repl n E b old repl) l) (Some r).
Proof.
  intros HA HD. apply (ev_mapo (fun n => copy_repl n E b old repl)). intros e.
  destruct (ev_inst_repl b s old repl (lt e) HA HD) as [u Hu]. destruct (ev_inst_repl b s old repl (rt e) HA HD) as [w Hw].
  destruct (eventually_both _ _ _ _ Hu Hw) as [N HN]. eexists. exists N. intros n Hn. destruct (HN n Hn) as [A1 A2].
  unfold copy_repl. rewrite A1, A2. reflexivity.
Qed.

(** the computation ends with a proper answer *)
Definition answers (f : nat -> result) : Prop :=
  exists r, eventually f r /\ match r with Derived _ | NoClause => True | _ => False end.

Lemma answers_noclause f : eventually f NoClause -> answers f.
Proof. intros H. exists NoClause. auto. Qed.
Lemma answers_derived f d : eventually f (Derived d) -> answers f.
Proof. intros H. exists (Derived d). auto. Qed.

(** sequencing: a computation whose first step settles *)
Lemma answers_step {A} (g : nat -> A) a (f h : nat -> result) :
  eventually g a -> (forall n, g n = a -> f n = h n) -> answers h -> answers f.
Proof.
  intros [N1 H1] Hf [r [[N2 H2] Hr]]. exists r. split; auto. exists (Nat.max N1 N2). intros n Hn.
  rewrite Hf; [apply H2; lia | apply H1; lia].
Qed.

Lemma answers_const r : match r with Derived _ | NoClause => True | _ => False end -> answers (fun _ => r).
Proof. intros H. exists r. split; auto. exists 0. auto. Qed.

Lemma answers_join E a b : answers (fun _ => join E a b).
Proof. apply answers_const. unfold join. destruct (find_true E a); auto. destruct (find_true E b); auto. Qed.

(** after a unification that settles on success the state is good *)
Lemma ev_success E st t1 t2 st' : good E st -> wf (srt E) t1 -> wf (srt E) t2 -> primary t1 -> primary t2 ->
  eventually (fun n => mgu n (srt E) (pp E) st t1 t2) (Success st') ->
  good E st' /\ (forall tau, solves (bnd st') tau <-> solves (bnd st) tau /\ app tau t1 = app tau t2).
Proof.
  intros HG W1 W2 P1 P2 [N HN]. apply (good_mgu E N st t1 t2 st'); auto.
Qed.

Lemma ev_failure E st t1 t2 st' : good E st -> wf (srt E) t1 -> wf (srt E) t2 ->
  eventually (fun n => mgu n (srt E) (pp E) st t1 t2) (Failure st') ->
  fo_sorts (srt E) (pp E) -> forall tau, wfsubst (srt E) tau -> solves (bnd st) tau -> app tau t1 <> app tau t2.
Proof.
  intros [HI _] W1 W2 [N HN]. pose proof (mgu_correct N (srt E) (pp E) st t1 t2 HI W1 W2) as HC.
  rewrite HN in HC; auto. apply HC.
Qed.

(** ** Equality resolution *)
Lemma build_answers E st c i : env_ok E -> good E st -> exists d, eventually (fun n => build_resolvent E n st c i) (Derived d).
Proof.
  intros HE HG. pose proof HG as [HI _]. pose proof (good_fresh E st HG) as HF.
  destruct (acyclic_denotes _ (inv_acyclic _ _ HI)) as [s0 D0].
  destruct (ev_norm E st reset (except i c) s0 HE HI HF D0) as [[st1 c1] HN].
  pose proof HN as [N0 HN0]. destruct (norm_state E N0 st reset _ st1 c1 HE HG (HN0 N0 (le_n _))) as [s0' [s1 [_ [D1 [_ [_ [_ [_ R]]]]]]]].
  destruct (ev_copies E (bnd st1) s1 (except i c) (inv_acyclic _ _ (nr_inv _ _ _ _ _ _ _ R)) D1) as [l Hl].
  destruct (eventually_both _ _ _ _ HN Hl) as [N HX]. exists (finish E l), N. intros n Hn.
  destruct (HX n Hn) as [A B]. unfold build_resolvent. rewrite A, B. reflexivity.
Qed.

Lemma eq_res_answers E c i e : env_ok E -> clause_ok E c -> nth_error c i = Some e -> answers (fun n => eq_res E n c i).
Proof.
  intros HE HC HN. destruct (clause_ok_nth E i c e HC HN) as [W1 [W2 [_ [P1 P2]]]].
  destruct (ev_mgu E start (lt e) (rt e) (inv_empty _) W1 W2) as [r [Hr Or]].
  destruct r as [st|st| |]; try contradiction.
  - destruct (ev_success E start _ _ st (good_start E) W1 W2 P1 P2 Hr) as [HG _].
    destruct (build_answers E st c i HE HG) as [d Hd].
    eapply answers_step; [exact Hr| |apply (answers_derived _ d Hd)]. intros n Hn. unfold eq_res. rewrite HN, Hn. reflexivity.
  - eapply answers_step; [exact Hr| |apply (answers_const NoClause I)]. intros n Hn. unfold eq_res. rewrite HN, Hn. reflexivity.
Qed.

Lemma eq_res_complete E c i e tau : env_ok E -> fo_sorts (srt E) (pp E) -> clause_ok E c -> nth_error c i = Some e ->
  wfsubst (srt E) tau -> app tau (lt e) = app tau (rt e) -> exists d, eventually (fun n => eq_res E n c i) (Derived d).
Proof.
  intros HE HFo HC HN Wt Eq. destruct (clause_ok_nth E i c e HC HN) as [W1 [W2 [_ [P1 P2]]]].
  destruct (ev_mgu E start (lt e) (rt e) (inv_empty _) W1 W2) as [r [Hr Or]].
  destruct r as [st|st| |]; try contradiction.
  - destruct (ev_success E start _ _ st (good_start E) W1 W2 P1 P2 Hr) as [HG _].
    destruct (build_answers E st c i HE HG) as [d Hd].
    destruct (eventually_both _ _ _ _ Hr Hd) as [N HX]. exists d, N. intros n Hn. destruct (HX n Hn) as [A B].
    unfold eq_res. rewrite HN, A. exact B.
  - exfalso. eapply (ev_failure E start (lt e) (rt e) st (good_start E) W1 W2 Hr HFo tau Wt); auto.
    intros x t H; discriminate.
Qed.

(** ** Most general conclusions *)

(** a substitution undoing an injective renaming on a finite set of variables *)
Lemma undo_renaming (f : var -> var) (L : list var) (tau : subst) :
  (forall x y, In x L -> In y L -> f x = f y -> x = y) ->
  exists rho : subst, forall x, In x L -> rho (f x) = tau x.
Proof.
  intros H. exists (fun y => match find (fun x => Nat.eqb (f x) y) L with Some x => tau x | None => Var y end).
  intros x Hx. destruct (find (fun z => Nat.eqb (f z) (f x)) L) as [z|] eqn:Fz.
  - apply find_some in Fz. destruct Fz as [Hz Ez]. apply Nat.eqb_eq in Ez. f_equal. apply H; auto.
  - exfalso. apply (find_none _ _ Fz) in Hx. rewrite Nat.eqb_refl in Hx. discriminate.
Qed.

Lemma norm_mg E st c s0 ts st1 c1 tau : env_ok E -> good E st -> denotes (bnd st) s0 ->
  (forall t, In t ts -> primary t) -> norm_result E st c s0 ts st1 c1 ->
  solves (bnd st) tau ->
  exists rho, forall t, In t ts -> app rho (app (sg (comp (nu (bnd st) (bnd st1)) s0)) t) = app tau t.
Proof.
  intros HE [HI HP] HD Pt R So.
  set (b := bnd st) in *. set (b1 := bnd st1) in *.
  set (f := fun x => prim (match nu b b1 x with Var y => y | Fun _ _ => x end)).
  set (L := flat_map (fun t => vars (app s0 t)) ts).
  assert (HL : forall x, In x L -> b x = None /\ is_fresh x = false /\ b1 x <> None).
  { intros x Hx. apply in_flat_map in Hx. destruct Hx as [t [Ht Hx]]. pose proof Hx as Hx0. apply vars_app in Hx. destruct Hx as [y [Hy Hx]].
    assert (Bx : b x = None) by (eapply denotes_range; eauto; apply HI).
    assert (Fx : is_fresh x = false).
    { clear - HP HD HI Hx Hy Pt Ht. specialize (Pt t Ht y Hy). clear Hy Ht.
      destruct (inv_acyclic _ _ HI) as [rank HR]. remember (rank y) as r eqn:Er. revert y Er Pt Hx.
      induction r as [r IH] using lt_wf_ind. intros y Er Py Hx. specialize (HD y) as Dy.
      destruct (b y) as [u|] eqn:By.
      - rewrite Dy in Hx. apply vars_app in Hx. destruct Hx as [z [Hz Hx]]. destruct (HP y u By) as [_ Pu].
        apply (IH (rank z)) with (y := z); auto. subst r. eapply HR; eauto.
      - rewrite Dy in Hx. destruct Hx as [<-|[]]. auto. }
    split; [auto|]. split; [auto|]. apply (nr_all _ _ _ _ _ _ _ R t x); auto. }
  assert (HB : forall x, In x L -> exists y, nu b b1 x = Var y /\ b1 x = Some (Var y) /\ is_fresh y = true).
  { intros x Hx. destruct (HL x Hx) as [B [F N]]. unfold nu. rewrite B. destruct (b1 x) as [u|] eqn:B1; [|congruence].
    destruct (nm_new _ _ _ _ _ (nr_normed _ _ _ _ _ _ _ R) x u B B1) as [_ [k [_ ->]]]. eexists. split; [reflexivity|].
    split; auto. apply (eo_fresh_cell E HE). }
  destruct (undo_renaming f L tau) as [rho Hrho].
  { intros x y Hx Hy Exy. destruct (HB x Hx) as [x' [Nx [Bx Fx]]]. destruct (HB y Hy) as [y' [Ny [By Fy]]].
    unfold f in Exy. rewrite Nx, Ny in Exy. apply (prim_fresh_inj _ _ Fx Fy) in Exy. subst y'.
    eapply (nm_inj _ _ _ _ _ (nr_normed _ _ _ _ _ _ _ R)); eauto; apply HL; auto. }
  exists rho. intros t Ht. unfold sg. rewrite !app_comp.
  rewrite <- (solves_denotes b s0 tau t (inv_acyclic _ _ HI) HD So).
  assert (HV : forall x, In x (vars (app s0 t)) -> In x L) by (intros x Hx; apply in_flat_map; eauto).
  rewrite <- app_comp, <- app_comp. apply app_ext. intros x Hx. unfold comp.
  destruct (HB x (HV x Hx)) as [y [Ny _]]. rewrite <- (Hrho x (HV x Hx)). unfold f, ren. rewrite Ny. reflexivity.
Qed.

Lemma eqn_terms_primary E l t : clause_ok E l -> In t (eqn_terms l) -> primary t.
Proof.
  unfold clause_ok, eqn_terms. rewrite Forall_forall. intros H Ht. apply in_flat_map in Ht. destruct Ht as [e [He Ht]].
  destruct (H e He) as [_ [_ [_ [A B]]]]. destruct Ht as [<-|[<-|[]]]; auto.
Qed.

Lemma eqn_terms_in l e : In e l -> In (lt e) (eqn_terms l) /\ In (rt e) (eqn_terms l).
Proof. intros H. split; apply in_flat_map; exists e; simpl; auto. Qed.

(** The conclusion of equality resolution is [finish] of an instance of the other literals under a
    most general unifier of the two sides. *)
Lemma eq_res_mg E n c i e d : env_ok E -> clause_ok E c -> nth_error c i = Some e -> eq_res E n c i = Derived d ->
  exists th, wfsubst (srt E) th /\ app th (lt e) = app th (rt e)
    /\ d = finish E (map (inst_lit E th) (except i c))
    /\ forall tau, app tau (lt e) = app tau (rt e) ->
         exists rho, forall e', In e' (except i c) ->
            app rho (app th (lt e')) = app tau (lt e') /\ app rho (app th (rt e')) = app tau (rt e').
Proof.
  intros HE HC HN H. destruct (eq_res_shape E n c i e HE HC HN d H) as [st [s1 [G [HG [Ws [So [Eq [Ed [s0 [st1 [c1 [D0 [Es R]]]]]]]]]]]]].
  exists (sg s1). split; [apply sg_wf; auto|]. split; [apply sg_eq; auto|]. split; auto.
  intros tau Ht. destruct (clause_ok_nth E i c e HC HN) as [W1 [W2 [_ [P1 P2]]]].
  destruct (good_mgu E n start _ _ st (good_start E) W1 W2 P1 P2 G) as [_ HS].
  destruct (norm_mg E st reset s0 _ st1 c1 tau HE HG D0 (fun t => eqn_terms_primary E _ t (clause_ok_except E i c HC)) R) as [rho Hrho].
  { apply HS. split; auto. intros x t Hx. discriminate. }
  exists rho. intros e' He'. destruct (eqn_terms_in _ _ He'). rewrite Es. split; apply Hrho; auto.
Qed.

(** ** Factoring *)
Lemma ev_unify_directed E e1 e2 : eqn_ok E e1 -> eqn_ok E e2 ->
  exists r, eventually (fun n => unify_directed E n start e1 e2) r /\ match r with Success _ | Failure _ => True | _ => False end.
Proof.
  intros [A1 [A2 [_ [A3 A4]]]] [B1 [B2 [_ [B3 B4]]]].
  destruct (ev_mgu E start (lt e1) (lt e2) (inv_empty _) A1 B1) as [r [Hr Or]].
  destruct r as [st|st| |]; try contradiction.
  - destruct (ev_success E start _ _ st (good_start E) A1 B1 A3 B3 Hr) as [HG _].
    destruct (ev_mgu E st (rt e1) (rt e2) (gd_inv _ _ HG) A2 B2) as [r2 [Hr2 Or2]].
    destruct (eventually_both _ _ _ _ Hr Hr2) as [N HX].
    exists (match r2 with Failure st2 => Failure (backtrack_to_pos st2 (length (trail start))) | r => r end).
    split; [exists N; intros n Hn; destruct (HX n Hn) as [A B]; unfold unify_directed; rewrite A, B; destruct r2; reflexivity|].
    destruct r2; auto.
  - destruct Hr as [N HN]. eexists. split; [exists N; intros n Hn; unfold unify_directed; rewrite HN; auto; reflexivity|]. exact I.
Qed.

Lemma ordered_factor_answers E o c i j e1 e2 right : env_ok E -> clause_ok E c -> nth_error c i = Some e1 -> nth_error c j = Some e2 ->
  answers (fun n => ordered_factor E o n c i j right).
Proof.
  intros HE HC H1 H2. set (e2' := if right then swap_sides e2 else e2).
  assert (O1 : eqn_ok E e1) by (eapply clause_ok_nth; eauto).
  assert (O2 : eqn_ok E e2') by (unfold e2'; destruct right; [apply swap_ok|]; eapply clause_ok_nth; eauto).
  destruct (ev_unify_directed E e1 e2' O1 O2) as [r [Hr Or]].
  destruct r as [st|st| |]; try contradiction.
  - assert (HG : good E st).
    { destruct Hr as [N HN]. apply (unify_directed_spec E N start e1 e2' st (good_start E) O1 O2). auto. }
    destruct (is_maximal o (bnd st) c i e1) eqn:Mx.
    + destruct (build_answers E st c j HE HG) as [d Hd]. exists (Derived d). split; auto.
      destruct (eventually_both _ _ _ _ Hr Hd) as [N HX]. exists N. intros n Hn. destruct (HX n Hn) as [A B].
      unfold ordered_factor. rewrite H1, H2. fold e2'. rewrite A, Mx. exact B.
    + eapply answers_step; [exact Hr| |apply (answers_const NoClause I)]. intros n Hn.
      unfold ordered_factor. rewrite H1, H2. fold e2'. rewrite Hn, Mx. reflexivity.
  - eapply answers_step; [exact Hr| |apply (answers_const NoClause I)]. intros n Hn.
    unfold ordered_factor. rewrite H1, H2. fold e2'. rewrite Hn. reflexivity.
Qed.

Lemma ordered_factor_mg E o n c i j e1 e2 right d : env_ok E -> clause_ok E c -> nth_error c i = Some e1 -> nth_error c j = Some e2 ->
  ordered_factor E o n c i j right = Derived d ->
  exists th, let e2' := if right then swap_sides e2 else e2 in
    wfsubst (srt E) th /\ app th (lt e1) = app th (lt e2') /\ app th (rt e1) = app th (rt e2')
    /\ d = finish E (map (inst_lit E th) (except j c))
    /\ forall tau, app tau (lt e1) = app tau (lt e2') -> app tau (rt e1) = app tau (rt e2') ->
         exists rho, forall e', In e' (except j c) ->
            app rho (app th (lt e')) = app tau (lt e') /\ app rho (app th (rt e')) = app tau (rt e').
Proof.
  intros HE HC H1 H2 H. destruct (ordered_factor_shape E o n c i j e1 e2 HE HC H1 H2 right d H) as [st [s1 X]]. cbv zeta in *.
  destruct X as [U [HG [Ws [So [Q1 [Q2 [Ed [s0 [st1 [c1 [D0 [Es R]]]]]]]]]]]].
  set (e2' := if right then swap_sides e2 else e2) in *.
  assert (O1 : eqn_ok E e1) by (eapply clause_ok_nth; eauto).
  assert (O2 : eqn_ok E e2') by (unfold e2'; destruct right; [apply swap_ok|]; eapply clause_ok_nth; eauto).
  exists (sg s1). split; [apply sg_wf; auto|]. split; [apply sg_eq; auto|]. split; [apply sg_eq; auto|]. split; auto.
  intros tau T1 T2.
  destruct (unify_directed_spec E n start e1 e2' st (good_start E) O1 O2 U) as [_ HS].
  destruct (norm_mg E st reset s0 _ st1 c1 tau HE HG D0 (fun t => eqn_terms_primary E _ t (clause_ok_except E j c HC)) R) as [rho Hrho].
  { apply HS. split; auto. intros x t Hx. discriminate. }
  exists rho. intros e' He'. destruct (eqn_terms_in _ _ He'). rewrite Es. split; apply Hrho; auto.
Qed.

Lemma equality_factor_answers E o cnt c i l1 j l2 e1 e2 : env_ok E -> clause_ok E c -> nth_error c i = Some e1 -> nth_error c j = Some e2 ->
  answers (fun n => equality_factor E o n cnt c i l1 j l2).
Proof.
  intros HE HC H1 H2.
  assert (O1 : eqn_ok E e1) by (eapply clause_ok_nth; eauto).
  assert (O2 : eqn_ok E e2) by (eapply clause_ok_nth; eauto).
  destruct (side_ok E e1 l1 O1) as [A1 [A2 _]]. destruct (side_ok E e2 l2 O2) as [B1 [B2 _]].
  destruct ((negb (isVar (side e1 l1)) || equlit e2) && (negb (isVar (side e2 l2)) || equlit e1)) eqn:Gd.
  2:{ exists NoClause. split; auto. exists 0. intros n _. unfold equality_factor. rewrite H1, H2. cbv zeta. rewrite Gd. reflexivity. }
  destruct (ev_mgu E start (side e1 l1) (side e2 l2) (inv_empty _) A1 B1) as [r [Hr Or]].
  destruct r as [st|st| |]; try contradiction.
  2:{ eapply answers_step; [exact Hr| |apply (answers_const NoClause I)]. intros n Hn.
      unfold equality_factor. rewrite H1, H2. cbv zeta. rewrite Gd, Hn. reflexivity. }
  destruct (ev_success E start _ _ st (good_start E) A1 B1 A2 B2 Hr) as [HG _].
  destruct (negb (togreater o (bnd st) (side e1 (negb l1)) (side e1 l1)) && is_maximal o (bnd st) c i e1) eqn:Mx.
  2:{ eapply answers_step; [exact Hr| |apply (answers_const NoClause I)]. intros n Hn.
      unfold equality_factor. rewrite H1, H2. cbv zeta. rewrite Gd, Hn, Mx. reflexivity. }
  pose proof (gd_inv _ _ HG) as HI. pose proof (good_fresh E st HG) as HF.
  destruct (acyclic_denotes _ (inv_acyclic _ _ HI)) as [s0 D0].
  destruct (ev_norm E st cnt (except j c) s0 HE HI HF D0) as [[st1 c1] HN].
  pose proof HN as [N0 HN0]. destruct (norm_state E N0 st cnt _ st1 c1 HE HG (HN0 N0 (le_n _))) as [s0' [s1 [_ [D1 [_ [_ [_ [_ R]]]]]]]].
  pose proof (inv_acyclic _ _ (nr_inv _ _ _ _ _ _ _ R)) as Ac.
  destruct (ev_copies E (bnd st1) s1 (except i c) Ac D1) as [l Hl].
  destruct (ev_inst (bnd st1) s1 (side e1 (negb l1)) Ac D1) as [u Hu].
  destruct (ev_inst (bnd st1) s1 (side e2 (negb l2)) Ac D1) as [w Hw].
  exists (Derived (finish E (eqn_alloc E u w false :: l))). split; auto.
  destruct (eventually_both _ _ _ _ HN Hl) as [N1 X1]. destruct (eventually_both _ _ _ _ Hu Hw) as [N2 X2].
  destruct Hr as [N3 X3]. exists (Nat.max N1 (Nat.max N2 N3)). intros n Hn.
  destruct (X1 n ltac:(lia)) as [Y1 Y2]. destruct (X2 n ltac:(lia)) as [Y3 Y4]. specialize (X3 n ltac:(lia)). cbv beta in X3.
  unfold equality_factor. rewrite H1, H2. cbv zeta. rewrite Gd, X3, Mx, Y1, Y3, Y4, Y2. reflexivity.
Qed.

(** ** Paramodulation *)
Section PmAnswers.
Variables (E : env) (cf : clause) (fi : nat) (fs : bool) (ci : clause) (ii : nat) (is : bool) (p : list nat) (fl il : eqn) (it : term).
Hypothesis HE : env_ok E.
Hypothesis Hf : nth_error cf fi = Some fl.
Hypothesis Hi : nth_error ci ii = Some il.
Hypothesis Hit : subterm_at (side il is) p = Some it.
Variable st : bstate.
Hypothesis HG : good E st.

Lemma ev_norm_both : exists st1 c1 s1, eventually (fun n => norm_both E n st ci cf) (Some (st1, c1)) /\ acyclic (bnd st1) /\ denotes (bnd st1) s1.
Proof.
  pose proof (gd_inv _ _ HG) as HI. pose proof (good_fresh E st HG) as HF.
  destruct (acyclic_denotes _ (inv_acyclic _ _ HI)) as [s0 D0].
  destruct (ev_norm E st reset (ci ++ cf) s0 HE HI HF D0) as [[st1 c1] HN].
  pose proof HN as [N0 HN0]. destruct (norm_state E N0 st reset _ st1 c1 HE HG (HN0 N0 (le_n _))) as [s0' [s1 [_ [D1 [_ [_ [_ [_ R]]]]]]]].
  exists st1, c1, s1. split; [|split; auto; apply R]. exists N0. intros n Hn. rewrite norm_both_app. auto.
Qed.

Lemma plain_answers : answers (fun n => plain_construct E n st cf fi fs ci ii is p).
Proof.
  destruct ev_norm_both as [st1 [c1 [s1 [HN [Ac D1]]]]].
  destruct (replace_at_total p (side il is) it (side fl (negb fs)) Hit) as [t Ht].
  destruct (ev_inst (bnd st1) s1 t Ac D1) as [l Hl]. destruct (ev_inst (bnd st1) s1 (side il (negb is)) Ac D1) as [r Hr].
  destruct (ev_copies E (bnd st1) s1 (except ii ci) Ac D1) as [l1 Hl1].
  destruct (ev_copies E (bnd st1) s1 (except fi cf) Ac D1) as [l2 Hl2].
  eapply answers_step; [exact HN| |eapply answers_step; [exact Hl| |eapply answers_step; [exact Hr| |
    eapply answers_step; [exact Hl1| |eapply answers_step; [exact Hl2| |]]]]].
  - intros n Hn. unfold plain_construct. rewrite Hf, Hi, Hn, Ht. reflexivity.
  - intros n Hn. cbv beta. rewrite Hn. reflexivity.
  - intros n Hn. cbv beta. rewrite Hn. reflexivity.
  - intros n Hn. cbv beta. rewrite Hn. reflexivity.
  - intros n Hn. cbv beta. rewrite Hn. reflexivity.
  - cbv beta. destruct (pos il && term_eqb l r); [apply answers_const; auto|].
    destruct (find_true E l1); [apply answers_const; auto|]. destruct (find_true E l2); apply answers_const; auto.
Qed.

Lemma sim_answers : answers (fun n => sim_construct E n st cf fi fs ci ii is p).
Proof.
  destruct ev_norm_both as [st1 [c1 [s1 [HN [Ac D1]]]]].
  destruct (ev_inst (bnd st1) s1 (side fl (negb fs)) Ac D1) as [r Hr].
  destruct (ev_copy_repls E (bnd st1) s1 it r ci Ac D1) as [l1 Hl1].
  destruct (ev_copies E (bnd st1) s1 (except fi cf) Ac D1) as [l2 Hl2].
  eapply answers_step; [exact HN| |eapply answers_step; [exact Hr| |
    eapply answers_step; [exact Hl1| |eapply answers_step; [exact Hl2| |]]]].
  - intros n Hn. unfold sim_construct. rewrite Hf, Hi, Hit, Hn. reflexivity.
  - intros n Hn. cbv beta. rewrite Hn. reflexivity.
  - intros n Hn. cbv beta. rewrite Hn. reflexivity.
  - intros n Hn. cbv beta. rewrite Hn. reflexivity.
  - apply answers_join.
Qed.

Lemma supersim_answers : answers (fun n => supersim_construct E n st cf fi fs ci ii is p).
Proof.
  destruct ev_norm_both as [st1 [c1 [s1 [HN [Ac D1]]]]].
  destruct (ev_inst (bnd st1) s1 it Ac D1) as [u Hu].
  destruct (ev_inst (bnd st1) s1 (side fl (negb fs)) Ac D1) as [r Hr].
  destruct (ev_copies E (bnd st1) s1 ci Ac D1) as [l1 Hl1].
  destruct (ev_copies E (bnd st1) s1 (except fi cf) Ac D1) as [l2 Hl2].
  eapply answers_step; [exact HN| |eapply answers_step; [exact Hu| |eapply answers_step; [exact Hr| |
    eapply answers_step; [exact Hl1| |eapply answers_step; [exact Hl2| |]]]]].
  - intros n Hn. unfold supersim_construct. rewrite Hf, Hi, Hit, Hn. reflexivity.
  - intros n Hn. cbv beta. rewrite Hn. reflexivity.
  - intros n Hn. cbv beta. rewrite Hn. reflexivity.
  - intros n Hn. cbv beta. rewrite Hn. reflexivity.
  - intros n Hn. cbv beta. rewrite Hn. reflexivity.
  - apply answers_join.
Qed.
End PmAnswers.

Lemma paramod_answers E o ty cf fi fs ci ii is p fl il it : env_ok E -> clause_ok E cf -> clause_ok E ci ->
  nth_error cf fi = Some fl -> nth_error ci ii = Some il -> subterm_at (side il is) p = Some it ->
  answers (fun n => paramod E o n ty cf fi fs ci ii is p).
Proof.
  intros HE HCf HCi Hf Hi Hit.
  destruct (side_ok E fl fs (clause_ok_nth E fi cf fl HCf Hf)) as [W1 [P1 _]].
  destruct (side_ok E il is (clause_ok_nth E ii ci il HCi Hi)) as [W2 [P2 _]].
  pose proof (subterm_at_in _ _ _ Hit) as Sub. pose proof (wf_subterm _ _ _ W2 Sub) as W3. pose proof (primary_subterm _ _ P2 Sub) as P3.
  destruct (ev_mgu E start (side fl fs) it (inv_empty _) W1 W3) as [r [Hr Or]].
  destruct r as [st|st| |]; try contradiction.
  2:{ eapply answers_step; [exact Hr| |apply (answers_const NoClause I)]. intros n Hn.
      unfold paramod. rewrite Hf, Hi, Hit, Hn. reflexivity. }
  destruct (ev_success E start _ _ st (good_start E) W1 W3 P1 P3 Hr) as [HG _].
  set (b := bnd st).
  destruct ((ori fl || negb (togreater o b (side fl (negb fs)) (side fl fs)))
                 && is_strictly_maximal o b cf fi fl
                 && (ori il || negb (togreater o b (side il (negb is)) (side il is)))
                 && (if pos il then is_strictly_maximal o b ci ii il else is_maximal o b ci ii il)) eqn:Cd.
  2:{ eapply answers_step; [exact Hr| |apply (answers_const NoClause I)]. intros n Hn.
      unfold paramod. rewrite Hf, Hi, Hit, Hn. cbv zeta. fold b. rewrite Cd. reflexivity. }
  assert (HA : answers (fun n => construct E n (sim_paramod_q o b fl fs ty) st cf fi fs ci ii is p)).
  { unfold construct. destruct (sim_paramod_q o b fl fs ty);
      first [ eapply plain_answers; eassumption | eapply sim_answers; eassumption | eapply supersim_answers; eassumption ]. }
  eapply answers_step; [exact Hr| |exact HA]. intros n Hn.
  unfold paramod. rewrite Hf, Hi, Hit, Hn. cbv zeta. fold b. rewrite Cd. reflexivity.
Qed.

(** Plain paramodulation: the conclusion is an instance, under a most general unifier of the overlap,
    of the into clause with the subterm replaced and the rest of the from clause. *)
Lemma plain_mg E n cf fi fs ci ii is p fl il it st d : env_ok E -> clause_ok E cf -> clause_ok E ci ->
  nth_error cf fi = Some fl -> nth_error ci ii = Some il -> subterm_at (side il is) p = Some it ->
  good E st -> plain_construct E n st cf fi fs ci ii is p = Derived d ->
  exists th t, wfsubst (srt E) th /\ solves (bnd st) th
    /\ replace_at (side il is) p (side fl (negb fs)) = Some t
    /\ d = finish E (eqn_alloc E (app th t) (app th (side il (negb is))) (pos il)
                     :: map (inst_lit E th) (except ii ci) ++ map (inst_lit E th) (except fi cf))
    /\ forall tau, solves (bnd st) tau ->
         exists rho, forall e', In e' (ci ++ cf) ->
            app rho (app th (lt e')) = app tau (lt e') /\ app rho (app th (rt e')) = app tau (rt e').
Proof.
  intros HE HCf HCi Hf Hi Hit HG H. unfold plain_construct in H. rewrite Hf, Hi, norm_both_app in H.
  destruct (norm_eqns n E (st, reset) (ci ++ cf)) as [[st1 c1]|] eqn:Nm; [|discriminate].
  destruct (replace_at (side il is) p (side fl (negb fs))) as [t|] eqn:R; [|discriminate].
  destruct (inst n (bnd st1) t) as [l|] eqn:I1; [|discriminate].
  destruct (inst n (bnd st1) (side il (negb is))) as [r|] eqn:I2; [|discriminate].
  destruct (pos il && term_eqb l r); [discriminate|].
  destruct (copies E n (bnd st1) (except ii ci)) as [l1|] eqn:C1; [|discriminate].
  destruct (copies E n (bnd st1) (except fi cf)) as [l2|] eqn:C2; [|discriminate].
  destruct (find_true E l1); [discriminate|]. destruct (find_true E l2); [discriminate|]. injection H as <-.
  destruct (norm_state E n st reset _ st1 c1 HE HG Nm) as [s0 [s1 [D0 [D1 [Ws1 [Ws0 [Es [So NR]]]]]]]].
  apply (inst_sg _ s1 _ _ _ D1) in I1. apply (inst_sg _ s1 _ _ _ D1) in I2. subst l r.
  apply (copies_inst E (bnd st1) s1 n _ _ D1) in C1. apply (copies_inst E (bnd st1) s1 n _ _ D1) in C2. subst l1 l2.
  exists (sg s1), t. split; [apply sg_wf; auto|]. split.
  { intros x u Hx. unfold sg, comp. rewrite (So x u Hx). rewrite <- app_comp. reflexivity. }
  split; auto. split; auto.
  intros tau Ht.
  assert (HOK : clause_ok E (ci ++ cf)) by (apply Forall_app; auto).
  destruct (norm_mg E st reset s0 _ st1 c1 tau HE HG D0 (fun u => eqn_terms_primary E _ u HOK) NR Ht) as [rho Hrho].
  exists rho. intros e' He'. destruct (eqn_terms_in _ _ He'). rewrite Es. split; apply Hrho; auto.
Qed.
