(** * The inferences introduce no symbols: every symbol of a result occurs in the parents or is $true or $false. *)
From Coq Require Import Permutation.
From Verif Require Import Terms Unify UnifyProofs Semantics Clauses ClausesProofs LitOrder MatchProofs Infer Subsume SubsumeProofs Split SplitSemProofs.
Local Open Scope nat_scope.

Section Syms.
Variable N : sym.
Hypothesis HN : 2 < N.
Definition sok (t : term) : Prop := forall f, In f (tsyms t) -> f < N.
Definition bok (b : binding) : Prop := forall x t, b x = Some t -> sok t.
Definition lok (e : eqn) : Prop := sok (lt e) /\ sok (rt e).

Lemma sok_var x : sok (Var x). Proof. intros f []. Qed.
Lemma sok_fun f a : sok (Fun f a) <-> f < N /\ Forall sok a.
Proof.
  split.
  - intros H. split; [apply H; left; auto|]. apply Forall_forall. intros t Ht g Hg. apply H. right. apply in_flat_map. eauto.
  - intros [H1 H2] g [<-|Hg]; auto. apply in_flat_map in Hg. destruct Hg as [t [Ht Hg]]. rewrite Forall_forall in H2. apply (H2 t Ht g Hg).
Qed.
Lemma sok_true : sok ttrue. Proof. apply sok_fun. split; [unfold true_code; lia|constructor]. Qed.
Lemma sok_false : sok tfalse. Proof. apply sok_fun. split; [unfold false_code; lia|constructor]. Qed.
Lemma sok_sub t u : sok t -> In u (subterms t) -> sok u.
Proof.
  revert u. induction t as [x|f a IH] using term_ind'; intros u H Hu; simpl in Hu.
  - destruct Hu as [<-|[]]; auto.
  - destruct Hu as [<-|Hu]; auto. apply in_flat_map in Hu. destruct Hu as [t [Ht Hu]]. apply sok_fun in H. destruct H as [_ H].
    rewrite Forall_forall in IH, H. apply (IH t Ht u (H t Ht) Hu).
Qed.
Lemma sok_app s t : sok t -> (forall x, In x (vars t) -> sok (s x)) -> sok (Terms.app s t).
Proof.
  induction t as [x|f a IH] using term_ind'; intros H HS; simpl; [apply HS; left; auto|].
  apply sok_fun in H. destruct H as [H1 H2]. apply sok_fun. split; auto. rewrite Forall_forall in *. intros t Ht. apply in_map_iff in Ht.
  destruct Ht as [u [<- Hu]]. apply IH; auto. intros x Hx. apply HS. simpl. apply in_flat_map. eauto.
Qed.
Lemma below_lok c : below N c <-> Forall lok c.
Proof.
  unfold below, lok, sok. rewrite Forall_forall. split.
  - intros H e He. split; intros f Hf; apply (H e f He); apply in_or_app; auto.
  - intros H e f He Hf. destruct (H e He) as [A B]. apply in_app_or in Hf. destruct Hf; auto.
Qed.

Lemma bok_deref b : bok b -> forall n t u, deref n b t = Some u -> sok t -> sok u.
Proof.
  intros HB. induction n as [|n IH]; intros [x|f a] u H Ht; simpl in H; try (injection H as <-; auto).
  - destruct (b x) eqn:E; [discriminate|]. injection H as <-; auto.
  - destruct (b x) as [v|] eqn:E; [|injection H as <-; auto]. apply (IH v u H). apply (HB x v E).
Qed.
Lemma bok_none : bok (fun _ => None). Proof. intros x t H; discriminate. Qed.
Lemma bok_start : bok (bnd start). Proof. exact bok_none. Qed.
Lemma bok_nob : bok (bnd no_bindings). Proof. exact bok_none. Qed.
Lemma bok_add b x t : bok b -> sok t -> bok (upd b x (Some t)).
Proof. intros HB Ht y u. unfold upd. destruct (Nat.eqb x y); [intros [= <-]; auto|apply HB]. Qed.

Lemma mgu_loop_bok S : forall n st jobs st', bok (bnd st) -> Forall sok jobs -> mgu_loop n S st jobs = Success st' -> bok (bnd st').
Proof.
  induction n as [|n IH]; intros st jobs st' HB HJ H; [discriminate|]. cbn [mgu_loop] in H.
  destruct jobs as [|j2 [|j1 rest]]; [injection H as <-; auto | discriminate|].
  destruct (deref n (bnd st) j2) as [d2|] eqn:D2; [|discriminate].
  destruct (deref n (bnd st) j1) as [d1|] eqn:D1; [|discriminate].
  inversion HJ as [|? ? P2 HJ1]; subst. inversion HJ1 as [|? ? P1 HJ2]; subst.
  pose proof (bok_deref _ HB _ _ _ D2 P2) as Q2. pose proof (bok_deref _ HB _ _ _ D1 P1) as Q1.
  assert (HS : exists t1 t2, (if isVar d2 then (d2, d1) else (d1, d2)) = (t1, t2) /\ sok t1 /\ sok t2).
  { destruct (isVar d2); eauto. }
  destruct HS as [t1 [t2 [ES [T1 T2]]]]. rewrite ES in H. cbv beta iota in H.
  destruct t1 as [x|f a1].
  - destruct (term_eqb (Var x) t2); [eapply IH; eauto|].
    destruct (negb (Nat.eqb (vsort S x) (tsort S t2))); [discriminate|].
    destruct (occur_check n (bnd st) t2 x) as [[|]|]; try discriminate.
    apply (IH (add_binding st x t2) rest st'); auto. apply bok_add; auto.
  - destruct t2 as [y|g a2]; [discriminate|]. destruct (Nat.eqb f g); [|discriminate].
    destruct (push_args_rev (rev a1) (rev a2) rest) as [jobs'|] eqn:PA; [|discriminate].
    apply sok_fun in T1. apply sok_fun in T2. destruct T1 as [_ T1]. destruct T2 as [_ T2].
    apply (IH st jobs' st'); auto. rewrite Forall_forall in *. intros t Ht.
    destruct (push_args_rev_in _ _ _ _ PA t Ht) as [G|[G|G]]; auto; apply in_rev in G; auto.
Qed.
Lemma mgu_bok S pp n st t1 t2 st' : bok (bnd st) -> sok t1 -> sok t2 -> mgu n S pp st t1 t2 = Success st' -> bok (bnd st').
Proof.
  unfold mgu. intros HB P1 P2 H. destruct (_ || _); [discriminate|].
  destruct (mgu_loop n S st [t2; t1]) eqn:L; try discriminate. injection H as ->.
  eapply mgu_loop_bok; [| |exact L]; auto.
Qed.
Lemma norm_loop_bok E : forall n ns stack ns', bok (bnd (fst ns)) -> norm_loop n E ns stack = Some ns' -> bok (bnd (fst ns')).
Proof.
  induction n as [|n IH]; intros ns stack ns' HB H; [discriminate|]. cbn [norm_loop] in H. destruct stack as [|t rest]; [injection H as <-; auto|].
  destruct (deref n (bnd (fst ns)) t) as [[x|f a]|]; [| |discriminate].
  - destruct (is_fresh x); [eapply IH; eauto|]. eapply IH; [|exact H]. apply bok_add; auto. apply sok_var.
  - eapply IH; eauto.
Qed.
Lemma norm_eqns_bok E n : forall l ns ns', bok (bnd (fst ns)) -> norm_eqns n E ns l = Some ns' -> bok (bnd (fst ns')).
Proof.
  induction l as [|e l IH]; intros ns ns' HB H; cbn [norm_eqns] in H; [injection H as <-; auto|]. unfold norm_eqn, norm_term in H.
  destruct (norm_loop n E ns [lt e]) as [ns1|] eqn:H1; [|discriminate]. destruct (norm_loop n E ns1 [rt e]) as [ns2|] eqn:H2; [|discriminate].
  eapply IH; [|exact H]. eapply norm_loop_bok; [|exact H2]. eapply norm_loop_bok; [|exact H1]. auto.
Qed.

Lemma mapo_sok (f : term -> option term) l r : (forall t u, In t l -> f t = Some u -> sok t -> sok u) -> mapo f l = Some r -> Forall sok l -> Forall sok r.
Proof.
  intros HF H HL. pose proof (mapo_spec f l r H) as X. clear H. induction X as [|t u l r A X IH]; constructor.
  - apply (HF t u); auto; [left; auto|]. inversion HL; auto.
  - apply IH; [|inversion HL; auto]. intros; eapply HF; eauto. right; auto.
Qed.
Lemma inst_sok b : bok b -> forall n t u, inst n b t = Some u -> sok t -> sok u.
Proof.
  intros HB. induction n as [|n IH]; intros t u H Ht; [discriminate|]. cbn [inst] in H. destruct (deref n b t) as [[y|f a]|] eqn:D; [| |discriminate].
  - injection H as <-. apply sok_var.
  - destruct (mapo (inst n b) a) as [l|] eqn:M; [|discriminate]. injection H as <-. pose proof (bok_deref b HB _ _ _ D Ht) as Q.
    apply sok_fun in Q. destruct Q as [Q1 Q2]. apply sok_fun. split; auto. eapply mapo_sok; [|exact M|]; auto. intros; eapply IH; eauto.
Qed.
Lemma inst_repl_sok b old repl : bok b -> sok repl -> forall n t u, inst_repl n b old repl t = Some u -> sok t -> sok u.
Proof.
  intros HB HR. induction n as [|n IH]; intros t u H Ht; [discriminate|]. cbn [inst_repl] in H. destruct (term_eqb t old); [injection H as <-; auto|].
  destruct (deref n b t) as [[y|f a]|] eqn:D; [| |discriminate].
  - injection H as <-. apply sok_var.
  - destruct (mapo (inst_repl n b old repl) a) as [l|] eqn:M; [|discriminate]. injection H as <-. pose proof (bok_deref b HB _ _ _ D Ht) as Q.
    apply sok_fun in Q. destruct Q as [Q1 Q2]. apply sok_fun. split; auto. eapply mapo_sok; [|exact M|]; auto. intros; eapply IH; eauto.
Qed.
Lemma repl_plain_sok old repl : sok repl -> forall t, sok t -> sok (repl_plain old repl t).
Proof.
  intros HR. induction t as [x|f a IH] using term_ind'; intros H; cbn [repl_plain]; destruct (term_eqb _ old); auto; destruct (_ <=? _)%Z; auto.
  apply sok_fun in H. destruct H as [H1 H2]. apply sok_fun. split; auto. rewrite Forall_forall in *. intros t Ht. apply in_map_iff in Ht.
  destruct Ht as [u [<- Hu]]. auto.
Qed.
Lemma replace_at_sok r : sok r -> forall p t t', replace_at t p r = Some t' -> sok t -> sok t'.
Proof.
  intros HR. induction p as [|i p IH]; intros t t' H Ht; cbn [replace_at] in H; [injection H as <-; auto|].
  destruct t as [x|f a]; [discriminate|]. destruct (nth_error a i) as [u|] eqn:NE; [|discriminate].
  destruct (replace_at u p r) as [u'|] eqn:R; [|discriminate]. injection H as <-. apply sok_fun in Ht. destruct Ht as [H1 H2]. apply sok_fun. split; auto.
  assert (U : sok u') by (eapply IH; eauto; rewrite Forall_forall in H2; apply H2; eapply nth_error_In; eauto). clear - U H2.
  revert i. induction H2 as [|x l Hx Hl IHl]; intros i; simpl; auto. destruct i; constructor; auto.
Qed.

Lemma alloc_lok E l r p : sok l -> sok r -> lok (eqn_alloc E l r p).
Proof.
  intros Hl Hr. unfold eqn_alloc. pose proof sok_true as T.
  destruct (term_eqb l tfalse); destruct (term_eqb r tfalse); cbv beta iota zeta; destruct (term_eqb _ ttrue); split; cbn [lt rt]; auto.
Qed.
Lemma alloc_props_lok E l r p e : sok l -> sok r -> lok (copy_props (eqn_alloc E l r p) e).
Proof. intros Hl Hr. apply (alloc_lok E l r p Hl Hr). Qed.
Lemma finish_lok E l : Forall lok l -> Forall lok (finish E l).
Proof. rewrite !Forall_forall. intros H e He. apply H. eapply finish_in; eauto. Qed.
Lemma except_lok i l : Forall lok l -> Forall lok (except i l).
Proof. rewrite !Forall_forall. intros H e He. apply H. eapply except_in; eauto. Qed.
Lemma nth_lok i l e : Forall lok l -> nth_error l i = Some e -> lok e.
Proof. rewrite !Forall_forall. intros H He. apply H. eapply nth_error_In; eauto. Qed.
Lemma mapo_lok (f : eqn -> option eqn) l r : (forall e e', f e = Some e' -> lok e -> lok e') -> mapo f l = Some r -> Forall lok l -> Forall lok r.
Proof.
  intros HF H HL. pose proof (mapo_spec f l r H) as X. clear H. induction X as [|t u l r A X IH]; constructor; inversion HL; subst; auto. eapply HF; eauto.
Qed.
Lemma copy_opt_lok E n b e e' : bok b -> copy_opt n E b e = Some e' -> lok e -> lok e'.
Proof.
  intros HB H [L R]. unfold copy_opt in H. destruct (inst n b (lt e)) as [l|] eqn:Hl; [|discriminate]. destruct (inst n b (rt e)) as [r|] eqn:Hr; [|discriminate].
  injection H as <-. apply alloc_props_lok; eapply inst_sok; eauto.
Qed.
Lemma copies_lok E n b l l' : bok b -> copies E n b l = Some l' -> Forall lok l -> Forall lok l'.
Proof. intros HB H HL. eapply mapo_lok; [|exact H|exact HL]. intros; eapply copy_opt_lok; eauto. Qed.
Lemma side_sok e b : lok e -> sok (side e b). Proof. intros [L R]. destruct b; auto. Qed.
Lemma swap_lok e : lok e -> lok (swap_sides e). Proof. intros [L R]. split; auto. Qed.

Lemma eq_res_lok E n c i d : Forall lok c -> eq_res E n c i = Derived d -> Forall lok d.
Proof.
  intros HC H. unfold eq_res in H. destruct (nth_error c i) as [e|] eqn:NE; [|discriminate]. destruct (nth_lok _ _ _ HC NE) as [L R].
  destruct (mgu n (srt E) (pp E) start (lt e) (rt e)) as [st| | |] eqn:M; try discriminate. pose proof (mgu_bok _ _ _ _ _ _ _ bok_start L R M) as B.
  unfold build_resolvent in H. destruct (norm_eqns n E (st, reset) (except i c)) as [[st1 c1]|] eqn:NO; [|discriminate].
  pose proof (norm_eqns_bok E n _ (st, _) (st1, c1) B NO) as B1. cbn [fst] in B1. destruct (copies E n (bnd st1) (except i c)) as [l|] eqn:CP; [|discriminate].
  injection H as <-. apply finish_lok. eapply copies_lok; eauto. apply except_lok; auto.
Qed.
Lemma equality_factor_lok E o n cnt c i l1 j l2 d : Forall lok c -> equality_factor E o n cnt c i l1 j l2 = Derived d -> Forall lok d.
Proof.
  intros HC H. unfold equality_factor in H. destruct (nth_error c i) as [e1|] eqn:N1; [|discriminate]. destruct (nth_error c j) as [e2|] eqn:N2; [|discriminate].
  pose proof (nth_lok _ _ _ HC N1) as L1. pose proof (nth_lok _ _ _ HC N2) as L2. destruct (_ && _); [|discriminate].
  destruct (mgu n (srt E) (pp E) start _ _) as [st| | |] eqn:M; try discriminate.
  pose proof (mgu_bok _ _ _ _ _ _ _ bok_start (side_sok e1 l1 L1) (side_sok e2 l2 L2) M) as B. destruct (_ && _); [|discriminate].
  destruct (norm_eqns n E (st, cnt) (except j c)) as [[st1 c1]|] eqn:NO; [|discriminate]. pose proof (norm_eqns_bok E n _ (st, _) (st1, c1) B NO) as B1. cbn [fst] in B1.
  destruct (inst n (bnd st1) (side e1 (negb l1))) as [l|] eqn:I1; [|discriminate]. destruct (inst n (bnd st1) (side e2 (negb l2))) as [r|] eqn:I2; [|discriminate].
  destruct (copies E n (bnd st1) (except i c)) as [ls|] eqn:CP; [|discriminate]. injection H as <-. apply finish_lok. constructor.
  - apply alloc_lok; eapply inst_sok; eauto; apply side_sok; auto.
  - eapply copies_lok; eauto. apply except_lok; auto.
Qed.

Lemma norm_both_bok E n st ci cf st1 c1 : bok (bnd st) -> norm_both E n st ci cf = Some (st1, c1) -> bok (bnd st1).
Proof.
  intros B H. unfold norm_both in H. destruct (norm_eqns n E (st, reset) ci) as [ns|] eqn:H1; [|discriminate].
  apply (norm_eqns_bok _ _ _ _ _ (norm_eqns_bok E n ci (st, reset) ns B H1) H).
Qed.
Lemma join_lok E a b d : Forall lok a -> Forall lok b -> join E a b = Derived d -> Forall lok d.
Proof. intros A B H. unfold join in H. destruct (find_true E a); [discriminate|]. destruct (find_true E b); [discriminate|]. injection H as <-. apply finish_lok, Forall_app. auto. Qed.
Lemma copy_repl_lok E n b old repl e e' : bok b -> sok repl -> copy_repl n E b old repl e = Some e' -> lok e -> lok e'.
Proof.
  intros HB HR H [L R]. unfold copy_repl in H. destruct (inst_repl n b old repl (lt e)) as [l|] eqn:Hl; [|discriminate]. destruct (inst_repl n b old repl (rt e)) as [r|] eqn:Hr; [|discriminate].
  injection H as <-. apply alloc_props_lok; [exact (inst_repl_sok b old repl HB HR _ _ _ Hl L)|exact (inst_repl_sok b old repl HB HR _ _ _ Hr R)].
Qed.
Lemma subterm_at_sok p t u : sok t -> subterm_at t p = Some u -> sok u.
Proof. intros H S. eapply sok_sub; eauto. eapply subterm_at_in; eauto. Qed.

Lemma construct_lok E n ty st cf fi fs ci ii is p d : bok (bnd st) -> Forall lok cf -> Forall lok ci ->
  construct E n ty st cf fi fs ci ii is p = Derived d -> Forall lok d.
Proof.
  intros HB HF HI. assert (PL : plain_construct E n st cf fi fs ci ii is p = Derived d -> Forall lok d).
  { unfold plain_construct. destruct (nth_error cf fi) as [fl|] eqn:NF; [|discriminate]. destruct (nth_error ci ii) as [il|] eqn:NI; [|discriminate].
    pose proof (nth_lok _ _ _ HF NF) as LF. pose proof (nth_lok _ _ _ HI NI) as LI.
    destruct (norm_both E n st ci cf) as [[st1 c1]|] eqn:NO; [|discriminate]. pose proof (norm_both_bok _ _ _ _ _ _ _ HB NO) as B1.
    destruct (replace_at (side il is) p (side fl (negb fs))) as [t|] eqn:R; [|discriminate].
    pose proof (replace_at_sok _ (side_sok fl (negb fs) LF) _ _ _ R (side_sok il is LI)) as T.
    destruct (inst n (bnd st1) t) as [l|] eqn:I1; [|discriminate]. destruct (inst n (bnd st1) (side il (negb is))) as [r|] eqn:I2; [|discriminate].
    destruct (_ && _); [discriminate|]. destruct (copies E n (bnd st1) (except ii ci)) as [a|] eqn:C1; [|discriminate].
    destruct (copies E n (bnd st1) (except fi cf)) as [b|] eqn:C2; [|discriminate]. destruct (find_true E a); [discriminate|]. destruct (find_true E b); [discriminate|].
    intros H. injection H as <-. apply finish_lok. constructor.
    - apply alloc_lok; [eapply inst_sok; eauto|eapply inst_sok; eauto; apply side_sok; auto].
    - apply Forall_app. split; (eapply copies_lok; [|eassumption|]; auto); apply except_lok; auto. }
  destruct ty; unfold construct; auto.
  - unfold sim_construct. destruct (nth_error cf fi) as [fl|] eqn:NF; [|discriminate]. destruct (nth_error ci ii) as [il|] eqn:NI; [|discriminate].
    pose proof (nth_lok _ _ _ HF NF) as LF. destruct (subterm_at (side il is) p) as [it|] eqn:SA; [|discriminate].
    destruct (norm_both E n st ci cf) as [[st1 c1]|] eqn:NO; [|discriminate]. pose proof (norm_both_bok _ _ _ _ _ _ _ HB NO) as B1.
    destruct (inst n (bnd st1) (side fl (negb fs))) as [rhs|] eqn:I1; [|discriminate].
    assert (R : sok rhs) by (eapply inst_sok; eauto; apply side_sok; auto).
    destruct (mapo _ ci) as [a|] eqn:C1; [|discriminate]. destruct (copies E n (bnd st1) (except fi cf)) as [b|] eqn:C2; [|discriminate].
    apply join_lok; [|eapply copies_lok; eauto; apply except_lok; auto].
    eapply mapo_lok; [|exact C1|exact HI]. intros; eapply copy_repl_lok; eauto.
  - unfold supersim_construct. destruct (nth_error cf fi) as [fl|] eqn:NF; [|discriminate]. destruct (nth_error ci ii) as [il|] eqn:NI; [|discriminate].
    pose proof (nth_lok _ _ _ HF NF) as LF. destruct (subterm_at (side il is) p) as [it|] eqn:SA; [|discriminate].
    destruct (norm_both E n st ci cf) as [[st1 c1]|] eqn:NO; [|discriminate]. pose proof (norm_both_bok _ _ _ _ _ _ _ HB NO) as B1.
    destruct (inst n (bnd st1) it) as [lhs|]; [|discriminate]. destruct (inst n (bnd st1) (side fl (negb fs))) as [rhs|] eqn:I1; [|discriminate].
    assert (R : sok rhs) by (eapply inst_sok; eauto; apply side_sok; auto).
    destruct (copies E n (bnd st1) ci) as [a|] eqn:C1; [|discriminate]. destruct (copies E n (bnd st1) (except fi cf)) as [b|] eqn:C2; [|discriminate].
    apply join_lok; [|eapply copies_lok; eauto; apply except_lok; auto].
    pose proof (copies_lok _ _ _ _ _ B1 C1 HI) as A. rewrite Forall_forall in *. intros e He. apply in_map_iff in He. destruct He as [e0 [<- He]].
    destruct (A e0 He) as [A1 A2]. apply alloc_props_lok; apply repl_plain_sok; auto.
Qed.
Lemma paramod_lok E o n ty cf fi fs ci ii is p d : Forall lok cf -> Forall lok ci -> paramod E o n ty cf fi fs ci ii is p = Derived d -> Forall lok d.
Proof.
  intros HF HI H. unfold paramod in H. destruct (nth_error cf fi) as [fl|] eqn:NF; [|discriminate]. destruct (nth_error ci ii) as [il|] eqn:NI; [|discriminate].
  pose proof (nth_lok _ _ _ HF NF) as LF. pose proof (nth_lok _ _ _ HI NI) as LI.
  destruct (subterm_at (side il is) p) as [it|] eqn:SA; [|discriminate]. pose proof (subterm_at_sok _ _ _ (side_sok il is LI) SA) as T.
  destruct (mgu n (srt E) (pp E) start (side fl fs) it) as [st| | |] eqn:M; try discriminate.
  pose proof (mgu_bok _ _ _ _ _ _ _ bok_start (side_sok fl fs LF) T M) as B. destruct (_ && _); [|discriminate]. eapply construct_lok; [| | |exact H]; auto.
Qed.
Lemma ordered_paramod_lok E o n cf fi fs ci ii is p d : Forall lok cf -> Forall lok ci -> ordered_paramod E o n cf fi fs ci ii is p = Derived d -> Forall lok d.
Proof.
  intros HF HI H. unfold ordered_paramod in H. destruct (nth_error cf fi) as [fl|] eqn:NF; [|discriminate]. destruct (nth_error ci ii) as [il|] eqn:NI; [|discriminate].
  pose proof (nth_lok _ _ _ HF NF) as LF. pose proof (nth_lok _ _ _ HI NI) as LI.
  destruct (subterm_at (side il is) p) as [it|] eqn:SA; [|discriminate]. pose proof (subterm_at_sok _ _ _ (side_sok il is LI) SA) as T.
  destruct (replace_at (side il is) p (side fl (negb fs))) as [t|] eqn:R; [|discriminate].
  pose proof (replace_at_sok _ (side_sok fl (negb fs) LF) _ _ _ R (side_sok il is LI)) as T'.
  destruct (mgu n (srt E) (pp E) start (side fl fs) it) as [st| | |] eqn:M; try discriminate.
  pose proof (mgu_bok _ _ _ _ _ _ _ bok_start (side_sok fl fs LF) T M) as B. destruct (_ && _); [discriminate|].
  unfold norm_term in H. destruct (norm_loop n E (st, reset) [side il is]) as [ns1|] eqn:N1; [|discriminate]. pose proof (norm_loop_bok E n (st, reset) [side il is] ns1 B N1) as B1.
  destruct (norm_loop n E ns1 [side fl (negb fs)]) as [ns2|] eqn:N2; [|discriminate]. pose proof (norm_loop_bok _ _ _ _ _ B1 N2) as B2.
  destruct (inst n (bnd (fst ns2)) t) as [nl|] eqn:I1; [|discriminate]. destruct (_ && _); [discriminate|].
  destruct (norm_loop n E ns2 [side il (negb is)]) as [ns3|] eqn:N3; [|discriminate]. pose proof (norm_loop_bok _ _ _ _ _ B2 N3) as B3.
  destruct (inst n (bnd (fst ns3)) (side il (negb is))) as [nr|] eqn:I2; [|discriminate]. destruct (_ && _); [discriminate|]. destruct (_ && _); [|discriminate].
  destruct (norm_eqns n E ns3 (except ii ci)) as [ns4|] eqn:N4; [|discriminate]. pose proof (norm_eqns_bok _ _ _ _ _ B3 N4) as B4.
  destruct (norm_eqns n E ns4 (except fi cf)) as [ns5|] eqn:N5; [|discriminate]. pose proof (norm_eqns_bok _ _ _ _ _ B4 N5) as B5.
  destruct (copies E n (bnd (fst ns5)) (except ii ci)) as [a|] eqn:C1; [|discriminate].
  destruct (copies E n (bnd (fst ns5)) (except fi cf)) as [b|] eqn:C2; [|discriminate]. injection H as <-. apply finish_lok. constructor.
  - apply alloc_lok; [exact (inst_sok _ B2 _ _ _ I1 T')|exact (inst_sok _ B3 _ _ _ I2 (side_sok il (negb is) LI))].
  - apply Forall_app. split; (eapply copies_lok; [|eassumption|]; auto); apply except_lok; auto.
Qed.

(** *** Condensation and contextual simplify-reflect *)
Lemma copy_eqn_lok E n b e e' : bok b -> copy_eqn E n b e = Some e' -> lok e -> lok e'.
Proof.
  intros HB H [L R]. unfold copy_eqn in H. destruct (inst n b (lt e)) as [l|] eqn:Hl; [|discriminate]. destruct (inst n b (rt e)) as [r|] eqn:Hr; [|discriminate].
  injection H as <-. apply (alloc_lok E l r (pos e)); eapply inst_sok; eauto.
Qed.
Lemma sort_lok l : Forall lok l -> Forall lok (sort_lits l).
Proof. intros H. eapply Permutation_Forall; [apply Permutation_sym, sort_lits_perm|auto]. Qed.
Lemma alloc_list_lok l : Forall lok l -> Forall lok (clause_alloc l).
Proof. rewrite !Forall_forall. intros H e He. apply H. apply (proj1 (clause_alloc_in _ _)). auto. Qed.
Lemma dups_lok l : Forall lok l -> Forall lok (remove_dups l).
Proof. rewrite !Forall_forall. intros H e He. apply H. eapply remove_dups_incl; eauto. Qed.
Lemma resolved_lok E l : Forall lok l -> Forall lok (remove_resolved E l).
Proof. rewrite !Forall_forall. intros H e He. apply H. apply filter_In in He. tauto. Qed.
Lemma unify_one_way_bok E n e1 e2 st : lok e1 -> lok e2 -> unify_one_way E n e1 e2 = Success st -> bok (bnd st).
Proof.
  intros [L1 R1] [L2 R2] H. unfold unify_one_way in H. destruct (negb _); [discriminate|].
  destruct (mgu n (srt E) (pp E) _ (lt e1) (lt e2)) as [st1| | |] eqn:M; try discriminate.
  pose proof (mgu_bok _ _ _ _ _ _ _ bok_nob L1 L2 M) as B. exact (mgu_bok _ _ _ _ _ _ _ B R1 R2 H).
Qed.
Lemma try_condensation_lok E n c i j d : Forall lok c -> try_condensation E n c i j = Condensed d -> Forall lok d.
Proof.
  intros HC H. unfold try_condensation in H. destruct (nth_error c i) as [l1|] eqn:N1; [|discriminate]. destruct (nth_error c j) as [l2|] eqn:N2; [|discriminate].
  destruct (unify_one_way E n l1 l2) as [st| | |] eqn:U; try discriminate.
  pose proof (unify_one_way_bok _ _ _ _ _ (nth_lok _ _ _ HC N1) (nth_lok _ _ _ HC N2) U) as B.
  destruct (mapo (copy_eqn E n (bnd st)) (except j c)) as [new|] eqn:M; [|discriminate]. cbv zeta in H.
  destruct (clause_subsumes E n _ c) as [[|]| |]; try discriminate. injection H as <-.
  apply sort_lok, alloc_list_lok, resolved_lok, dups_lok. eapply mapo_lok; [|exact M|apply except_lok; auto]. intros; eapply copy_eqn_lok; eauto.
Qed.
Lemma first_condensed_lok E n c d : Forall lok c -> forall ps, first_condensed E n c ps = Condensed d -> Forall lok d.
Proof.
  intros HC. induction ps as [|[i j] ps IH]; intros H; cbn [first_condensed] in H; [discriminate|].
  destruct (try_condensation E n c i j) as [d'| |] eqn:T; auto; [|discriminate]. injection H as <-. eapply try_condensation_lok; eauto.
Qed.
Lemma condense_lok E n c d : Forall lok c -> condense E n c = Condensed d -> Forall lok d.
Proof.
  intros HC H. unfold condense in H. destruct (_ || _); [|injection H as <-; auto]. apply sort_lok in HC. revert HC H. generalize (sort_lits c) (S (length c)). clear c.
  intros c k. revert c. induction k as [|k IH]; intros c HC H; cbn [condense_loop] in H; [discriminate|].
  destruct (condense_once E n c) as [c'| |] eqn:Q; [| |discriminate]; [|injection H as <-; auto].
  apply (IH c'); auto. eapply first_condensed_lok; [exact HC|exact Q].
Qed.

Definition cells_lok (c : list (nat * eqn)) : Prop := Forall (fun x => lok (snd x)) c.
Lemma insert_cell_perm e c : Permutation (insert_cell e c) (e :: c).
Proof. induction c as [|e' c IH]; cbn [insert_cell]; auto. destruct (inv_compare (snd e) (snd e')); auto. rewrite IH. apply perm_swap. Qed.
Lemma sort_cells_lok c : cells_lok c -> cells_lok (sort_cells c).
Proof.
  unfold sort_cells. intros H. induction H as [|e c He Hc IH]; simpl; [constructor|]. eapply Permutation_Forall; [apply Permutation_sym, insert_cell_perm|]. constructor; auto.
Qed.
Lemma flip_cell_lok i c : cells_lok c -> cells_lok (flip_cell i c).
Proof.
  unfold cells_lok, flip_cell. rewrite !Forall_forall. intros H x Hx. apply in_map_iff in Hx. destruct Hx as [[j e] [<- Hj]]. specialize (H _ Hj).
  destruct (Nat.eqb i j); auto.
Qed.
Lemma remove_cell_lok i c : cells_lok c -> cells_lok (remove_cell i c).
Proof. unfold cells_lok, remove_cell. rewrite !Forall_forall. intros H x Hx. apply filter_In in Hx. destruct Hx. auto. Qed.
Lemma csr_loop_lok E n set : forall stack c r us, cells_lok c -> csr_loop E n set stack c = Some (r, us) -> cells_lok r.
Proof.
  induction stack as [|i stack IH]; intros c r us HC H; cbn [csr_loop] in H; [injection H as <- <-; auto|].
  pose proof (sort_cells_lok _ (flip_cell_lok i _ HC)) as H1. destruct (set_subsumes E n set _) as [s| | |]; try discriminate.
  - destruct (csr_loop E n set stack (remove_cell i _)) as [[r' us']|] eqn:Q; [|discriminate]. injection H as <- <-. eapply IH; [|exact Q]. apply remove_cell_lok; auto.
  - eapply IH; [|exact H]. apply flip_cell_lok; auto.
Qed.
Lemma contextual_sr_lok E n set c r us : Forall lok c -> contextual_sr E n set c = Some (r, us) -> Forall lok r.
Proof.
  intros HC H. unfold contextual_sr in H. destruct (csr_loop E n set _ _) as [[r' us']|] eqn:Q; [|discriminate]. injection H as <- <-.
  apply Forall_map. eapply csr_loop_lok; [|exact Q]. unfold cells_lok. rewrite Forall_forall in *. intros [i e] Hx. apply in_combine_r in Hx. simpl. auto.
Qed.

(** *** Simplify-reflect only removes literals *)
Lemma pos_sr_lok E n strong units : forall c r us, Forall lok c -> pos_simplify_reflect E n strong units c = Some (r, us) -> Forall lok r.
Proof.
  induction c as [|h c IH]; intros r us HC H; cbn [pos_simplify_reflect] in H; [injection H as <- <-; auto|]. inversion HC as [|? ? Hh Hc]; subst.
  destruct (if negb (pos h) then _ else _) as [p| | |]; try discriminate; destruct (pos_simplify_reflect E n strong units c) as [[r' us']|] eqn:Q; try discriminate; injection H as <- <-; eauto.
Qed.
Lemma neg_sr_lok E n units : forall c r us, Forall lok c -> neg_simplify_reflect E n units c = Some (r, us) -> Forall lok r.
Proof.
  induction c as [|h c IH]; intros r us HC H; cbn [neg_simplify_reflect] in H; [injection H as <- <-; auto|]. inversion HC as [|? ? Hh Hc]; subst.
  destruct (if pos h then _ else _) as [p| | |]; try discriminate; destruct (neg_simplify_reflect E n units c) as [[r' us']|] eqn:Q; try discriminate; injection H as <- <-; eauto.
Qed.
End Syms.
