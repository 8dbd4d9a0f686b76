(** * Proofs about subsumption: the tests on clauses and sets. *)
From Coq Require Import Permutation Sorted.
From Verif Require Import Terms Unify UnifyProofs MatchProofs Semantics Clauses ClausesProofs InferProofs InferTotal Subsume SubsumeSpec SubsumeProofs.

Lemma eval_args M v f l r x y : eval M v x = eval M v y -> eval M v (Fun f (l ++ x :: r)) = eval M v (Fun f (l ++ y :: r)).
Proof. intros H. simpl. f_equal. rewrite !map_app. simpl. rewrite H. reflexivity. Qed.

Lemma eq_by_true S dist M e t1 t2 : model_ok S dist M -> pos e = true -> clause_true S M [e] -> eq_by S e t1 t2 ->
  forall v, respects S M v -> eval M v t1 = eval M v t2.
Proof.
  intros HM Hp HT H. 
  assert (X : forall s v, wfsubst S s -> respects S M v -> eval M v (app s (lt e)) = eval M v (app s (rt e))).
  { intros s v Ws Hv. pose proof (HT _ (respects_subst _ _ _ _ _ HM Hv Ws)) as Y. inversion Y as [? ? Z|? ? Z]; [|inversion Z].
    unfold holds, lit_holds in Z. rewrite Hp in Z. rewrite !eval_app. exact Z. }
  induction H; intros v Hv; auto.
  - symmetry. auto.
  - apply eval_args. auto.
Qed.

(** ** Fuel *)
Lemma csize_in e c : In e c -> lsize e <= csize c.
Proof. induction c as [|e' c IH]; simpl; intros []; [subst; lia|]. apply IH in H. lia. Qed.

Lemma match_loop_mono S mw tw st jobs n m : n <= m ->
  match_loop n S mw tw st jobs <> OutOfFuel -> match_loop m S mw tw st jobs = match_loop n S mw tw st jobs.
Proof.
  revert m mw st jobs. induction n as [|n IH]; intros m mw st jobs Hm H; [exfalso; apply H; reflexivity|].
  destruct m as [|m]; [lia|]. cbn [match_loop] in *.
  destruct jobs as [|[p t] rest]; auto. destruct p as [x|f a].
  - destruct (negb _); auto. destruct (bnd st x) as [u|].
    + destruct (term_eqb u t); auto. destruct (_ <? _)%Z; auto. apply IH; auto; lia.
    + destruct (_ <? _)%Z; auto. apply IH; auto; lia.
  - destruct t as [y|g b]; auto. destruct (Nat.eqb f g); auto. destruct (push_pairs a b rest); auto. apply IH; auto; lia.
Qed.
Lemma smatch_mono S pp st p t n m : n <= m -> smatch n S pp st p t <> OutOfFuel -> smatch m S pp st p t = smatch n S pp st p t.
Proof.
  intros Hm H. unfold smatch in *. destruct (_ || _); auto.
  rewrite (match_loop_mono S _ _ st _ n m Hm); auto. intros X. rewrite X in H. congruence.
Qed.

(** ** Literals *)
Section Tests.
Variables (E : env) (n : nat).
Notation SS := (srt E).

Lemma smatch_empty m t : wf SS m -> wf SS t ->
  match smatch n SS (pp E) no_bindings m t with
  | Success st => wfbinding SS (bnd st) /\ (forall s, agrees (bnd st) s -> app s m = t)
  | Failure st => wfbinding SS (bnd st) /\ steq no_bindings st /\ (fo_sorts SS (pp E) -> forall s, wfsubst SS s -> app s m <> t)
  | OutOfFuel => n <= size m
  | UndefBehaviour => False
  end.
Proof.
  intros W1 W2. pose proof (smatch_correct n SS (pp E) no_bindings m t (no_bindings_wf SS) W1 W2) as H.
  destruct (smatch n SS (pp E) no_bindings m t) as [st|st| |]; auto.
  - destruct H as [_ [B [A _]]]. split; auto. intros s Hs. apply A in Hs. tauto.
  - destruct H as [T [B N]]. split; [apply (steq_wfb SS no_bindings); [split; auto|apply no_bindings_wf]|].
    split; [split; auto|]. intros HF s Ws. apply N; auto. apply no_bindings_agrees.
Qed.

Definition fuel_ok (l : eqn) : Prop := size (lt l) < n /\ size (rt l) < n.

Lemma topsubsumes_ok e t1 t2 : wf SS (lt e) -> wf SS (rt e) -> wf SS t1 -> wf SS t2 ->
  match topsubsumes E n e t1 t2 with
  | Ans true => exists s, wfsubst SS s /\ ((app s (lt e) = t1 /\ app s (rt e) = t2) \/ (app s (lt e) = t2 /\ app s (rt e) = t1))
  | Ans false => fo_sorts SS (pp E) -> forall s, wfsubst SS s -> ~ (app s (lt e) = t1 /\ app s (rt e) = t2)
  | NoFuel => ~ fuel_ok e
  | Undef => False
  end.
Proof.
  intros W1 W2 W3 W4. unfold topsubsumes, fuel_ok. 
  pose proof (smatch_correct n SS (pp E) no_bindings (lt e) t1 (no_bindings_wf SS) W1 W3) as H.
  destruct (smatch n SS (pp E) no_bindings (lt e) t1) as [st|st| |].
  - destruct H as [_ [B [A _]]].
    pose proof (smatch_correct n SS (pp E) st (rt e) t2 B W2 W4) as H2.
    destruct (smatch n SS (pp E) st (rt e) t2) as [st2|st2| |]; [| |lia|auto].
    + destruct H2 as [_ [B2 [A2 _]]]. exists (as_subst (bnd st2)). split; [apply as_subst_wf; auto|].
      left. assert (Y : agrees (bnd st2) (as_subst (bnd st2))) by (intros x t Hx; unfold as_subst; rewrite Hx; auto).
      apply A2 in Y. destruct Y as [Y1 Y2]. apply A in Y1. tauto.
    + intros HF s Ws [E1 E2]. destruct H2 as [_ [_ N]]. apply (N HF s Ws); auto. apply A. split; auto. apply no_bindings_agrees.
  - destruct H as [T [B N]].
    assert (WB : wfbinding SS (bnd st)) by (apply (steq_wfb SS no_bindings); [split; auto|apply no_bindings_wf]).
    pose proof (smatch_correct n SS (pp E) st (lt e) t2 WB W1 W4) as H2.
    destruct (smatch n SS (pp E) st (lt e) t2) as [st2|st2| |]; [| |lia|auto].
    + destruct H2 as [_ [B2 [A2 _]]].
      pose proof (smatch_correct n SS (pp E) st2 (rt e) t1 B2 W2 W3) as H3.
      destruct (smatch n SS (pp E) st2 (rt e) t1) as [st3|st3| |]; [| |lia|auto].
      * destruct H3 as [_ [B3 [A3 _]]]. exists (as_subst (bnd st3)). split; [apply as_subst_wf; auto|]. right.
        assert (Y : agrees (bnd st3) (as_subst (bnd st3))) by (intros x t Hx; unfold as_subst; rewrite Hx; auto).
        apply A3 in Y. destruct Y as [Y1 Y2]. apply A2 in Y1. tauto.
      * intros HF s Ws [E1 _]. apply (N HF s Ws); auto. apply no_bindings_agrees.
    + intros HF s Ws [E1 _]. apply (N HF s Ws); auto. apply no_bindings_agrees.
  - lia.
  - auto.
Qed.

Lemma diff_args_none : forall a b, length a = length b -> diff_args a b <> None.
Proof.
  induction a as [|x a IH]; intros [|y b] H; simpl in *; try discriminate.
  specialize (IH b ltac:(lia)). destruct (diff_args a b); [|congruence]. destruct (term_eqb x y); discriminate.
Qed.
Lemma diff_args_nil : forall a b, length a = length b -> diff_args a b = Some [] -> a = b.
Proof.
  induction a as [|x a IH]; intros [|y b] H D; simpl in *; try discriminate; auto.
  destruct (diff_args a b) as [r|] eqn:R; [|discriminate]. destruct (term_eqb x y) eqn:Q; [|discriminate].
  injection D as ->. apply term_eqb_eq in Q. subst. f_equal. apply IH; auto.
Qed.
Lemma diff_args_one : forall a b x y, length a = length b -> diff_args a b = Some [(x, y)] ->
  exists l r, a = l ++ x :: r /\ b = l ++ y :: r /\ x <> y.
Proof.
  induction a as [|u a IH]; intros [|w b] x y H D; simpl in *; try discriminate.
  destruct (diff_args a b) as [r|] eqn:R; [|discriminate]. destruct (term_eqb u w) eqn:Q.
  - injection D as ->. apply term_eqb_eq in Q. subst. destruct (IH b x y ltac:(lia) R) as [l [r [-> [-> N]]]].
    exists (w :: l), r. auto.
  - injection D as -> -> ->. apply diff_args_nil in R; [|lia]. subst. exists [], b. split; auto. split; auto.
    intros ->. rewrite term_eqb_refl in Q. discriminate.
Qed.
Lemma diff_args_eval M v : forall a b ps, length a = length b -> diff_args a b = Some ps ->
  Forall (fun p => eval M v (fst p) = eval M v (snd p)) ps -> map (eval M v) a = map (eval M v) b.
Proof.
  induction a as [|x a IH]; intros [|y b] ps H D F; simpl in *; try discriminate; auto.
  destruct (diff_args a b) as [r|] eqn:R; [|discriminate]. injection D as <-.
  destruct (term_eqb x y) eqn:Q.
  - apply term_eqb_eq in Q. subst. f_equal. apply (IH b r); auto.
  - inversion F; subst. f_equal; auto. apply (IH b r); auto.
Qed.
Lemma diff_args_in : forall a b ps x y, diff_args a b = Some ps -> In (x, y) ps -> In x a /\ In y b.
Proof.
  induction a as [|u a IH]; intros [|w b] ps x y D I; simpl in *; try discriminate; try (injection D as <-; destruct I).
  destruct (diff_args a b) as [r|] eqn:R; [|discriminate]. injection D as <-.
  destruct (term_eqb u w).
  - destruct (IH b r x y R I); auto.
  - destruct I as [I|I]; [injection I as <- <-; auto|]. destruct (IH b r x y R I); auto.
Qed.
Fixpoint pairs_size (ps : list (term * term)) : nat := match ps with [] => 0 | (x, _) :: r => size x + pairs_size r end.
Lemma diff_args_size : forall a b ps, diff_args a b = Some ps -> pairs_size ps <= fold_right (fun a n => size a + n) 0 a.
Proof.
  induction a as [|u a IH]; intros [|w b] ps D; simpl in *; try discriminate; try (injection D as <-; simpl; lia).
  destruct (diff_args a b) as [r|] eqn:R; [|discriminate]. injection D as <-. specialize (IH b r R).
  destruct (term_eqb u w); simpl; lia.
Qed.
Lemma diff_args_neq : forall a b ps x y, diff_args a b = Some ps -> In (x, y) ps -> x <> y.
Proof.
  induction a as [|u a IH]; intros [|w b] ps x y D I; simpl in *; try discriminate; try (injection D as <-; destruct I).
  destruct (diff_args a b) as [r|] eqn:R; [|discriminate]. injection D as <-.
  destruct (term_eqb u w) eqn:Q; [eapply IH; eauto|].
  destruct I as [I|I]; [|eapply IH; eauto]. injection I as <- <-. intros ->. rewrite term_eqb_refl in Q. discriminate.
Qed.

Lemma size_arg f a x : In x a -> size x < size (Fun f a).
Proof.
  intros H. simpl. induction a as [|y a IH]; simpl in *; [contradiction|]. destruct H as [->|H]; [lia|]. apply IH in H. lia.
Qed.
Lemma wf_arg f a x : wf SS (Fun f a) -> In x a -> wf SS x.
Proof. intros H I. apply wf_fun in H. destruct H as [F _]. rewrite Forall_forall in F. auto. Qed.

Lemma subsumes_termpair_ok e : wf SS (lt e) -> wf SS (rt e) -> forall k t1 t2, wf SS t1 -> wf SS t2 ->
  match subsumes_termpair E n k e t1 t2 with
  | Ans true => eq_by SS e t1 t2
  | Ans false => fo_sorts SS (pp E) -> forall s, wfsubst SS s -> ~ (app s (lt e) = t1 /\ app s (rt e) = t2)
  | NoFuel => ~ (fuel_ok e /\ size t1 <= k)
  | Undef => False
  end.
Proof.
  intros W1 W2. induction k as [|k IH]; intros t1 t2 W3 W4; cbn [subsumes_termpair];
    pose proof (topsubsumes_ok e t1 t2 W1 W2 W3 W4) as HT; destruct (topsubsumes E n e t1 t2) as [[|]| |];
    try tauto; try (destruct HT as [s [Ws [[<- <-]|[<- <-]]]]; constructor; auto; fail).
  - destruct t1 as [x|f a], t2 as [y|g b]; auto. destruct (Nat.eqb_spec f g) as [->|N]; cbn [negb orb]; auto.
    destruct a as [|x0 a0] eqn:Ea; auto. rewrite <- Ea in *. pose proof (wf_fun_length SS g a b W3 W4) as HL.
    destruct (diff_args a b) as [[|[x y] [|]]|] eqn:D; auto.
    + apply diff_args_nil in D; auto. subst b. constructor.
    + intros [_ K]. simpl in K. lia.
    + apply diff_args_none in D; auto.
  - destruct t1 as [x|f a], t2 as [y|g b]; auto. destruct (Nat.eqb_spec f g) as [->|N]; cbn [negb orb]; auto.
    destruct a as [|x0 a0] eqn:Ea; auto. rewrite <- Ea in *. pose proof (wf_fun_length SS g a b W3 W4) as HL.
    destruct (diff_args a b) as [[|[x y] [|]]|] eqn:D; auto.
    + apply diff_args_nil in D; auto. subst b. constructor.
    + destruct (diff_args_one a b x y HL D) as [l [r [Qa [Qb _]]]]. clear Ea.
      assert (Wx : wf SS x) by (apply (wf_arg g a); auto; rewrite Qa; apply in_elt).
      assert (Wy : wf SS y) by (apply (wf_arg g b); auto; rewrite Qb; apply in_elt).
      specialize (IH x y Wx Wy). destruct (subsumes_termpair E n k e x y) as [[|]| |]; auto.
      * rewrite Qa, Qb. constructor; auto.
      * intros [F K]. apply IH. split; auto. pose proof (size_arg g a x ltac:(rewrite Qa; apply in_elt)). lia.
    + apply diff_args_none in D; auto.
Qed.

Lemma literal_subsumes_ok l : eqn_ok E l -> forall c, clause_ok E c ->
  match literal_subsumes E n l c with
  | Ans true => exists e, In e c /\ pos e = pos l /\ (if pos l then eq_by SS l (lt e) (rt e) else exists s, wfsubst SS s /\ inst_of s l e)
  | Ans false => fo_sorts SS (pp E) -> forall s e, wfsubst SS s -> In e c -> pos e = pos l -> ~ (app s (lt l) = lt e /\ app s (rt l) = rt e)
  | NoFuel => ~ (fuel_ok l /\ (pos l = true -> Forall fuel_ok c))
  | Undef => False
  end.
Proof.
  intros [Wl [Wr _]]. induction c as [|h c IH]; intros HC; cbn [literal_subsumes]; [intros _ s e _ []|].
  inversion HC as [|? ? Hh Hc]; subst. specialize (IH Hc). destruct Hh as [Wh1 [Wh2 _]].
  assert (SKIP : forall r, r = literal_subsumes E n l c ->
     (fo_sorts SS (pp E) -> forall s, wfsubst SS s -> pos h = pos l -> ~ (app s (lt l) = lt h /\ app s (rt l) = rt h)) ->
     match r with
      | Ans true => exists e, In e (h :: c) /\ pos e = pos l /\ (if pos l then eq_by SS l (lt e) (rt e) else exists s, wfsubst SS s /\ inst_of s l e)
      | Ans false => fo_sorts SS (pp E) -> forall s e, wfsubst SS s -> In e (h :: c) -> pos e = pos l -> ~ (app s (lt l) = lt e /\ app s (rt l) = rt e)
      | NoFuel => ~ (fuel_ok l /\ (pos l = true -> Forall fuel_ok (h :: c)))
      | Undef => False
      end).
  { intros r -> HX. destruct (literal_subsumes E n l c) as [[|]| |]; auto.
    - destruct IH as [e [I R]]. exists e. simpl; auto.
    - intros HF s e Ws [<-|I] Q; [apply HX; auto|apply IH; auto].
    - intros [F G]. apply IH. split; auto. intros P. specialize (G P). inversion G; auto. }
  destruct (pos l) eqn:Pl.
  - destruct (pos h) eqn:Ph; [|apply SKIP; auto; congruence].
    pose proof (subsumes_termpair_ok l Wl Wr n (lt h) (rt h) Wh1 Wh2) as HT.
    destruct (subsumes_termpair E n n l (lt h) (rt h)) as [[|]| |]; auto.
    + exists h. simpl; auto.
    + apply SKIP; auto.
    + intros [F G]. apply HT. split; auto. specialize (G eq_refl). inversion G as [|? ? [G1 G2] _]; subst. lia.
  - destruct (pos h) eqn:Ph; cbn [negb]; [apply SKIP; auto; congruence|].
    pose proof (topsubsumes_ok l (lt h) (rt h) Wl Wr Wh1 Wh2) as HT.
    destruct (topsubsumes E n l (lt h) (rt h)) as [[|]| |]; auto.
    + exists h. simpl. split; auto. split; auto. destruct HT as [s [Ws HI]]. exists s. split; auto. split; auto. congruence.
    + apply SKIP; auto.
    + intros [F _]. auto.
Qed.

(** ** The look-ahead *)
Definition comp_conds (ls d : clause) : Prop :=
  fo_sorts SS (pp E) /\ (forall l e, In l ls -> In e d -> compat E l e)
  /\ StronglySorted (fun a b => inv_compare a b <> Gt) d.

Lemma find_spec_ok l : eqn_ok E l -> forall d, clause_ok E d ->
  match find_spec E n l d with
  | Ans true => True
  | Ans false => comp_conds [l] d -> forall s e, wfsubst SS s -> In e d -> ~ inst_of s l e
  | NoFuel => ~ fuel_ok l
  | Undef => False
  end.
Proof.
  intros [Wl [Wr _]]. induction d as [|e d IH]; intros HC; cbn [find_spec]; [intros _ s e _ []|].
  inversion HC as [|? ? He Hd]; subst. specialize (IH Hd). destruct He as [We1 [We2 _]].
  assert (SKIP : (comp_conds [l] (e :: d) -> forall s, wfsubst SS s -> ~ inst_of s l e) ->
    match find_spec E n l d with
    | Ans true => True
    | Ans false => comp_conds [l] (e :: d) -> forall s e0, wfsubst SS s -> In e0 (e :: d) -> ~ inst_of s l e0
    | NoFuel => ~ fuel_ok l
    | Undef => False
    end).
  { intros HX. destruct (find_spec E n l d) as [[|]| |]; auto. intros HCo s e0 Ws [<-|I]; [apply HX; auto|].
    apply IH; auto. destruct HCo as [A [B C]]. split; auto. split; [intros; apply B; simpl; auto|]. inversion C; auto. }
  assert (QE : comp_conds [l] (e :: d) -> forall s e0, wfsubst SS s -> In e0 (e :: d) -> inst_of s l e0 ->
     qorder e0 l = Eq /\ qorder e0 e <> Gt /\ (qorder e l = Eq -> (eqn_weight e0 <= eqn_weight e)%Z)
     /\ (ori l = true -> ori e0 = true /\ app s (lt l) = lt e0 /\ app s (rt l) = rt e0)).
  { intros [A [B C]] s e0 Ws I IO. destruct (B l e0 (or_introl eq_refl) I s Ws IO) as [Q O]. split; auto.
    destruct I as [<-|I]; [rewrite qorder_refl; split; [discriminate|split; auto; lia]|].
    inversion C as [|? ? _ F]; subst. rewrite Forall_forall in F. specialize (F e0 I). unfold inv_compare in F.
    split; [destruct (qorder e0 e); congruence|]. split; auto. intros Q2. rewrite (qorder_eq_eq e0 l e Q Q2) in F.
    rewrite Z.compare_gt_iff in F. lia. }
  rewrite qorder_sym. destruct (qorder e l) eqn:Q; cbn [CompOpp].
  - destruct (Z.ltb_spec (eqn_weight e) (eqn_weight l)) as [WL|WL].
    { intros HCo s e0 Ws I IO. destruct (QE HCo s e0 Ws I IO) as [_ [_ [W _]]]. specialize (W eq_refl). apply inst_of_weight in IO. lia. }
    destruct (ori l && negb (ori e)) eqn:OR.
    { apply SKIP. intros HCo s Ws IO. destruct (QE HCo s e Ws (or_introl eq_refl) IO) as [_ [_ [_ O]]].
      apply andb_true_iff in OR. destruct OR as [O1 O2]. destruct (O O1) as [O3 _]. rewrite O3 in O2. discriminate. }
    pose proof (match2_correct E n no_bindings (lt l) (lt e) (rt l) (rt e) (no_bindings_wf SS) Wl We1 Wr We2) as M1.
    destruct (match2 E n no_bindings (lt l) (lt e) (rt l) (rt e)) as [st|st| |]; [exact I| |unfold fuel_ok; lia|exact M1].
    destruct M1 as [X1 N1].
    assert (ST : steq no_bindings (backtrack_all st)) by (exact (ext_back _ _ X1)).
    cbv zeta. destruct (ori l) eqn:OL.
    { apply SKIP. intros HCo s Ws IO. destruct (QE HCo s e Ws (or_introl eq_refl) IO) as [_ [_ [_ O]]].
      destruct (O eq_refl) as [_ [E1 E2]]. destruct HCo as [HF _]. apply (N1 HF s Ws (no_bindings_agrees s) E1 E2). }
    pose proof (match2_correct E n (backtrack_all st) (lt l) (rt e) (rt l) (lt e) (steq_wfb _ _ _ ST (no_bindings_wf SS)) Wl We2 Wr We1) as M2.
    destruct (match2 E n (backtrack_all st) (lt l) (rt e) (rt l) (lt e)) as [st2|st2| |]; [exact I| |unfold fuel_ok; lia|exact M2].
    destruct M2 as [_ N2]. apply SKIP. intros [HF _] s Ws [_ [[E1 E2]|[E1 E2]]].
    + apply (N1 HF s Ws (no_bindings_agrees s) E1 E2).
    + apply (N2 HF s Ws); auto. apply (steq_agrees _ _ s ST). apply no_bindings_agrees.
  - intros HCo s e0 Ws I IO. destruct (QE HCo s e0 Ws I IO) as [Q1 [Q2 _]]. rewrite (qorder_trans_lt _ _ _ Q2 Q) in Q1. discriminate.
  - apply SKIP. intros HCo s Ws IO. destruct (QE HCo s e Ws (or_introl eq_refl) IO) as [Q1 _]. congruence.
Qed.

Lemma possible_ok d : clause_ok E d -> forall ls, clause_ok E ls ->
  match possible E n ls d with
  | Ans true => True
  | Ans false => comp_conds ls d -> forall s, wfsubst SS s -> exists l, In l ls /\ forall e, In e d -> ~ inst_of s l e
  | NoFuel => ~ Forall fuel_ok ls
  | Undef => False
  end.
Proof.
  intros HD. induction ls as [|l ls IH]; intros HC; cbn [possible]; auto. inversion HC; subst.
  pose proof (find_spec_ok l H1 d HD) as HF. specialize (IH H2). destruct (find_spec E n l d) as [[|]| |]; auto.
  - destruct (possible E n ls d) as [[|]| |]; auto.
    + intros [A [B C]] s Ws. destruct IH with (s := s) as [l' [I N]]; auto.
      { split; auto. split; auto. intros; apply B; simpl; auto. }
      exists l'. simpl; auto.
    + intros F. inversion F; subst; auto.
  - intros [A [B C]] s Ws. exists l. split; [simpl; auto|]. intros e I. apply HF; auto.
    split; auto. split; auto. intros l0 e0 [<-|[]] I0. apply B; simpl; auto.
  - intros F. inversion F; subst; auto.
Qed.

(** ** From positions to sub-multisets *)
Lemma nodup_perm {A} : forall js l : list A, NoDup js -> (forall j, In j js -> In j l) -> exists r, Permutation l (js ++ r).
Proof.
  induction js as [|j js IH]; intros l HN HI; [exists l; auto|]. inversion HN; subst.
  destruct (in_split j l (HI j (or_introl eq_refl))) as [l1 [l2 ->]].
  destruct (IH (l1 ++ l2) H2) as [r P].
  { intros x Hx. assert (x <> j) by congruence. specialize (HI x (or_intror Hx)). apply in_app_iff in HI. apply in_app_iff.
    destruct HI as [HI|[HI|HI]]; auto. congruence. }
  exists r. simpl. eapply perm_trans; [apply Permutation_sym, Permutation_middle|]. constructor. auto.
Qed.
Lemma seq_nth_map (c : clause) : map (fun j => nth j c dl) (seq 0 (length c)) = c.
Proof.
  apply (nth_ext _ _ dl dl); [rewrite map_length, seq_length; auto|]. intros i Hi. rewrite map_length, seq_length in Hi.
  rewrite (nth_indep _ dl (nth 0 c dl)) by (rewrite map_length, seq_length; auto).
  rewrite (map_nth (fun j => nth j c dl)). rewrite seq_nth; auto.
Qed.
Lemma forall2_map_r {A B C} (P : A -> B -> Prop) (f : C -> B) l : forall js, Forall2 (fun a j => P a (f j)) l js <-> Forall2 P l (map f js).
Proof.
  induction l as [|a l IH]; intros [|j js]; simpl; split; intros H; inversion H; subst; constructor; auto; apply IH; auto.
Qed.
Lemma free_subsumes s ls cand js : wfsubst SS s -> NoDup js -> (forall j, In j js -> j < length cand) -> maps cand s ls js ->
  multiset_subsumes SS ls cand.
Proof.
  intros Ws ND HJ MP. destruct (nodup_perm js (seq 0 (length cand)) ND) as [r P].
  { intros j Hj. apply in_seq. specialize (HJ j Hj). lia. }
  apply (Permutation_map (fun j => nth j cand dl)) in P. rewrite seq_nth_map, map_app in P.
  exists s, (map (fun j => nth j cand dl) js), (map (fun j => nth j cand dl) r). split; auto. split; auto.
  apply (forall2_map_r (inst_of s) (fun j => nth j cand dl)). exact MP.
Qed.
Lemma subsumes_free s ls cand d1 d2 : Permutation cand (d1 ++ d2) -> Forall2 (inst_of s) ls d1 ->
  exists js, NoDup js /\ (forall j, In j js -> j < length cand) /\ maps cand s ls js.
Proof.
  intros P F. rewrite <- (seq_nth_map cand) in P. apply Permutation_sym in P. apply Permutation_map_inv in P.
  destruct P as [js [Q P]]. symmetry in Q. apply map_eq_app in Q. destruct Q as [j1 [j2 [-> [Q1 Q2]]]].
  assert (ND : NoDup (j1 ++ j2)) by (eapply Permutation_NoDup; eauto; apply seq_NoDup).
  exists j1. split; [|split].
  - clear - ND. induction j1 as [|j j1 IH]; [constructor|]. simpl in ND. inversion ND; subst. constructor; auto.
    intros I. apply H1. apply in_or_app; auto.
  - intros j Hj. assert (I : In j (seq 0 (length cand))) by (eapply Permutation_in; [apply Permutation_sym; eauto|]; apply in_or_app; auto).
    apply in_seq in I. lia.
  - subst d1. apply (forall2_map_r (inst_of s) (fun j => nth j cand dl)). exact F.
Qed.

(** the prefilters on counts and weights *)
Lemma pos_no_perm c d : Permutation c d -> pos_no c = pos_no d.
Proof. unfold pos_no. induction 1; simpl; repeat match goal with |- context [if ?b then _ else _] => destruct b; simpl end; congruence. Qed.
Lemma neg_no_perm c d : Permutation c d -> neg_no c = neg_no d.
Proof. unfold neg_no. induction 1; simpl; repeat match goal with |- context [if ?b then _ else _] => destruct b; simpl end; congruence. Qed.
Lemma weight_perm c d : Permutation c d -> clause_weight c = clause_weight d.
Proof. induction 1; simpl; lia. Qed.
Lemma eqn_weight_nonneg e : (0 <= eqn_weight e)%Z.
Proof. unfold eqn_weight. pose proof (stdweight_pos (lt e)). pose proof (stdweight_pos (rt e)). lia. Qed.
Lemma weight_app c d : clause_weight (c ++ d) = (clause_weight c + clause_weight d)%Z.
Proof. induction c; simpl; lia. Qed.
Lemma weight_nonneg c : (0 <= clause_weight c)%Z.
Proof. induction c as [|e c IH]; simpl; [lia|]. pose proof (eqn_weight_nonneg e). lia. Qed.
Lemma inst_counts s c d : Forall2 (inst_of s) c d -> pos_no c = pos_no d /\ neg_no c = neg_no d /\ (clause_weight c <= clause_weight d)%Z.
Proof.
  unfold pos_no, neg_no. induction 1 as [|l e c d H F [A [B C]]]; simpl; [lia|]. pose proof (inst_of_weight s l e H).
  destruct H as [P _]. rewrite P. destruct (pos e); simpl; lia.
Qed.
Lemma subsumes_filters c d : multiset_subsumes SS c d -> pos_no c <= pos_no d /\ neg_no c <= neg_no d /\ (clause_weight c <= clause_weight d)%Z.
Proof.
  intros [s [d1 [d2 [_ [P F]]]]]. destruct (inst_counts s c d1 F) as [A [B C]].
  rewrite (pos_no_perm _ _ P), (neg_no_perm _ _ P), (weight_perm _ _ P). unfold pos_no, neg_no in *.
  rewrite !filter_app, !app_length, weight_app. pose proof (weight_nonneg d2). lia.
Qed.

(** ** Clauses *)
Definition unit_ok (c d : clause) : Prop :=
  exists l e, c = [l] /\ In e d /\ pos e = pos l /\ pos l = true /\ eq_by SS l (lt e) (rt e).

Lemma as_subst_agrees b : agrees b (as_subst b).
Proof. intros x t Hx. unfold as_subst. rewrite Hx. auto. Qed.

Lemma one_subsumes s l e d : wfsubst SS s -> In e d -> inst_of s l e -> multiset_subsumes SS [l] d.
Proof.
  intros Ws I IO. destruct (in_split e d I) as [d1 [d2 ->]]. exists s, [e], (d1 ++ d2). split; auto. split; [|constructor; [exact IO|constructor]].
  apply Permutation_sym. apply (Permutation_middle d1 d2 e).
Qed.

Lemma subsumes_one l d : multiset_subsumes SS [l] d -> exists s e, wfsubst SS s /\ In e d /\ inst_of s l e.
Proof.
  intros [s [d1 [d2 [Ws [P F]]]]]. inversion F as [|? e ? ? IO F']; subst. inversion F'; subst. exists s, e. split; auto. split; auto.
  eapply Permutation_in; [apply Permutation_sym; eauto|]. simpl; auto.
Qed.

Lemma clause_subsumes_ok c d : clause_ok E c -> clause_ok E d ->
  match clause_subsumes E n c d with
  | Ans true => multiset_subsumes SS c d \/ unit_ok c d
  | Ans false => comp_conds c d -> (match c with [l] => ori l = true | _ => True end) -> ~ multiset_subsumes SS c d
  | NoFuel => ~ (Forall fuel_ok c /\ Forall fuel_ok d)
  | Undef => False
  end.
Proof.
  intros HC HD. unfold clause_subsumes. destruct c as [|l [|l2 c2]].
  - left. exists Var, [], d. split; [intros x; split; reflexivity|]. split; auto.
  - inversion HC; subst. pose proof (literal_subsumes_ok l H1 d HD) as HL.
    destruct (literal_subsumes E n l d) as [[|]| |]; auto.
    + destruct HL as [e [I [P R]]]. destruct (pos l) eqn:Pl.
      * right. exists l, e. rewrite Pl. auto.
      * left. destruct R as [s [Ws IO]]. eapply one_subsumes; eauto.
    + intros [HF [HCo _]] Ho HS. apply subsumes_one in HS. destruct HS as [s [e [Ws [I IO]]]].
      destruct (HCo l e (or_introl eq_refl) I s Ws IO) as [_ O]. destruct (O Ho) as [_ OO].
      apply (HL HF s e Ws I); auto. destruct IO; auto.
    + intros [F G]. inversion F; subst. apply HL. auto.
  - remember (l :: l2 :: c2) as c eqn:Ec. clear Ec.
    destruct (Nat.ltb_spec (pos_no d) (pos_no c)) as [L1|L1]; cbn [orb].
    { intros _ _ HS. apply subsumes_filters in HS. lia. }
    destruct (Nat.ltb_spec (neg_no d) (neg_no c)) as [L2|L2].
    { intros _ _ HS. apply subsumes_filters in HS. lia. }
    destruct (Z.ltb_spec (clause_weight d) (clause_weight c)) as [L3|L3].
    { intros _ _ HS. apply subsumes_filters in HS. lia. }
    assert (HP := possible_ok d HD c HC).
    set (pr := if _ || _ then possible E n c d else Ans true).
    assert (HP' : match pr with
      | Ans true => True
      | Ans false => comp_conds c d -> forall s, wfsubst SS s -> exists l, In l c /\ forall e, In e d -> ~ inst_of s l e
      | NoFuel => ~ Forall fuel_ok c
      | Undef => False
      end) by (unfold pr; destruct (_ || _); auto).
    destruct pr as [[|]| |]; [|intros HCo _ [s [d1 [d2 [Ws [P F]]]]]; destruct (HP' HCo s Ws) as [l' [I N]] |intros [F _]; auto|auto].
    + assert (HS := rec_subsume_ok E n d HD (comp_conds c d) c HC).
      assert (HS' := HS (fun X => X) no_bindings (repeat 0 (length d)) (no_bindings_wf SS) (repeat_length 0 (length d))).
      clear HS. destruct (rec_subsume E n c d no_bindings (repeat 0 (length d))) as [st pk|st pk| |]; cbn in HS'; auto.
      * destruct HS' as [X [B [js [[ND FR] MP]]]]. left.
        apply (free_subsumes (as_subst (bnd st)) c d js); auto.
        -- apply as_subst_wf; auto.
        -- intros j Hj. destruct (FR j Hj); auto.
        -- apply MP. apply as_subst_agrees.
      * destruct HS' as [_ [_ N]]. intros HCo _ [s [d1 [d2 [Ws [P F]]]]]. destruct (subsumes_free s c d d1 d2 P F) as [js [ND [HJ MP]]].
        apply (N HCo s js Ws (no_bindings_agrees s)); auto. split; auto. intros j Hj. split; auto. apply nth_repeat.
      * destruct HS' as [l' [I F]]. intros [G _]. rewrite Forall_forall in G. destruct (G l' I). lia.
    + assert (Y : exists e, In e d1 /\ inst_of s l' e).
      { clear - F I. induction F as [|a b ? ? IO F IH]; [destruct I|]. destruct I as [->|I]; [exists b; simpl; auto|].
        destruct (IH I) as [e [J K]]. exists e. simpl; auto. }
      destruct Y as [e [J K]]. apply (N e); auto. eapply Permutation_in; [apply Permutation_sym; eauto|]. apply in_or_app; auto.
Qed.

Lemma clause_subsumes_true M c d : clause_ok E c -> clause_ok E d -> model_ok SS (dist E) M ->
  clause_subsumes E n c d = Ans true -> clause_true SS M c -> clause_true SS M d.
Proof.
  intros HC HD HM H HT. pose proof (clause_subsumes_ok c d HC HD) as X. rewrite H in X. destruct X as [X|X].
  - eapply multiset_subsumes_true; eauto.
  - destruct X as [l [e [-> [I [P [Pl Q]]]]]]. intros v Hv. apply Exists_exists. exists e. split; auto.
    unfold holds, lit_holds. rewrite P, Pl. apply (eq_by_true SS (dist E) M l); auto.
Qed.

(** ** Sets *)
Lemma set_subsumes_ok d : clause_ok E d -> forall set, Forall (clause_ok E) set ->
  match set_subsumes E n set d with
  | Found c => In c set /\ clause_subsumes E n c d = Ans true
  | NotFound => forall c, In c set -> clause_subsumes E n c d = Ans false
  | FNoFuel => ~ (Forall (Forall fuel_ok) set /\ Forall fuel_ok d)
  | FUndef => False
  end.
Proof.
  intros HD. induction set as [|c set IH]; intros HS; cbn [set_subsumes]; [intros c []|]. inversion HS; subst. specialize (IH H2).
  pose proof (clause_subsumes_ok c d H1 HD) as X. destruct (clause_subsumes E n c d) as [[|]| |] eqn:Q; auto.
  - simpl; auto.
  - destruct (set_subsumes E n set d) as [c'| | |]; auto.
    + simpl. tauto.
    + intros c' [<-|I]; auto.
    + intros [F G]. inversion F; subst. tauto.
  - intros [F G]. inversion F; subst. tauto.
Qed.

Lemma find_subsumed_ok c : clause_ok E c -> forall set, Forall (clause_ok E) set ->
  match find_subsumed E n c set with
  | Found d => In d set /\ clause_subsumes E n c d = Ans true
  | NotFound => forall d, In d set -> clause_subsumes E n c d = Ans false
  | FNoFuel => ~ (Forall (Forall fuel_ok) set /\ Forall fuel_ok c)
  | FUndef => False
  end.
Proof.
  intros HD. induction set as [|d set IH]; intros HS; cbn [find_subsumed]; [intros d []|]. inversion HS; subst. specialize (IH H2).
  pose proof (clause_subsumes_ok c d HD H1) as X. destruct (clause_subsumes E n c d) as [[|]| |] eqn:Q; auto.
  - simpl; auto.
  - destruct (find_subsumed E n c set) as [c'| | |]; auto.
    + simpl. tauto.
    + intros c' [<-|I]; auto.
    + intros [F G]. inversion F; subst. tauto.
  - intros [F G]. inversion F; subst. tauto.
Qed.
End Tests.
