(** * Properties C07, C08: the lexicographic path ordering. Statements only; the specification
    ([lpo], [lpo_precedence]) is at the end of LPO.v, [arok] and [total_prec] in KBO.v. *)
From Verif Require Import Terms KBO KBOProofs KBOOrder LPO LPOProofs LPO4Proofs.

Section C07.
  Variables (p : sym -> sym -> cmp) (ar : sym -> nat).
  Hypothesis HP : lpo_precedence p.

  (** C07: a call always returns, and leaves the static recursion counter as it found it. *)
  Theorem C07_lpo4_returns_and_restores_counter : forall limit s t,
    exists N b, forall fuel, N <= fuel -> lpo4_Greater fuel limit p 0 s t = Some (b, 0).
  Proof.
    intros limit s t. exists (limit + 2), (lpo4p (limit + 1 - 0) p s t). intros fuel H.
    apply lpo4_pure. lia.
  Qed.

  (** C07: whatever the recursion limit, the answer "greater" is right. *)
  Theorem C07_lpo4_greater_sound : forall fuel limit s t d,
    arok ar s = true -> arok ar t = true ->
    lpo4_Greater fuel limit p 0 s t = Some (true, d) -> lpo p s t.
  Proof.
    intros fuel limit s t d Hs Ht H. unfold lpo4_Greater in H.
    destruct (Nat.lt_ge_cases (limit + 1 - 0) fuel) as [L|L].
    - rewrite (lpo4_pure p limit fuel 0 s t L) in H. injection H as H _. eapply lpo4p_sound; eauto.
    - assert (HM : forall n m dep s t r, n <= m -> lpo4 n limit p dep s t = Some r -> lpo4 m limit p dep s t = Some r).
      { clear. induction n as [|n IH]; intros m dep s t r Hm H; [discriminate|]. destruct m as [|m]; [lia|].
        cbn [lpo4] in *. destruct (Nat.ltb limit dep); auto. destruct s as [x|f a]; auto. destruct t as [y|g b]; auto.
        assert (HA : forall t l dep r, alpha (lpo4 n limit p) l t dep = Some r -> alpha (lpo4 m limit p) l t dep = Some r).
        { intros t0. induction l as [|u l IHl]; intros dep0 r0 H0; auto. simpl in *. destruct (term_eqb u t0); auto.
          destruct (lpo4 n limit p dep0 u t0) as [[b0 d0]|] eqn:E; [|discriminate].
          rewrite (IH m dep0 u t0 _ ltac:(lia) E). destruct b0; auto. }
        assert (HJ : forall s l dep r, majo (lpo4 n limit p) s l dep = Some r -> majo (lpo4 m limit p) s l dep = Some r).
        { intros s0. induction l as [|u l IHl]; intros dep0 r0 H0; auto. simpl in *.
          destruct (lpo4 n limit p dep0 s0 u) as [[b0 d0]|] eqn:E; [|discriminate].
          rewrite (IH m dep0 s0 u _ ltac:(lia) E). destruct b0; auto. }
        assert (HX : forall s t a b dep r, lexma (lpo4 n limit p) s t a b dep = Some r -> lexma (lpo4 m limit p) s t a b dep = Some r).
        { intros s0 t0. induction a0 as [|u l IHl]; intros [|v k] dep0 r0 H0; auto. simpl in *. destruct (term_eqb u v); auto.
          destruct (lpo4 n limit p dep0 u v) as [[b0 d0]|] eqn:E; [|discriminate].
          rewrite (IH m dep0 u v _ ltac:(lia) E). destruct b0; auto. }
        destruct (p f g).
        - destruct (alpha (lpo4 n limit p) a (Fun g b) (S dep)) as [q|] eqn:E; [|discriminate]. rewrite (HA _ _ _ _ E). auto.
        - destruct (lexma (lpo4 n limit p) (Fun f a) (Fun g b) a b (S dep)) as [q|] eqn:E; [|discriminate]. rewrite (HX _ _ _ _ _ _ E). auto.
        - destruct (majo (lpo4 n limit p) (Fun f a) b (S dep)) as [q|] eqn:E; [|discriminate]. rewrite (HJ _ _ _ _ E). auto.
        - destruct (alpha (lpo4 n limit p) a (Fun g b) (S dep)) as [q|] eqn:E; [|discriminate]. rewrite (HA _ _ _ _ E). auto. }
      apply (HM fuel (limit + 2)) in H; [|lia].
      rewrite (lpo4_pure p limit (limit + 2) 0 s t ltac:(lia)) in H. injection H as H _. eapply lpo4p_sound; eauto.
  Qed.

  (** C07: if the limit is not smaller than the number of symbols of the two terms together, the
      answer is exact. *)
  Theorem C07_lpo4_exact_within_limit : forall fuel limit s t,
    arok ar s = true -> arok ar t = true ->
    size s + size t <= limit + 1 -> limit + 1 < fuel ->
    (lpo4_Greater fuel limit p 0 s t = Some (true, 0) <-> lpo p s t).
  Proof.
    intros fuel limit s t Hs Ht HL HF. unfold lpo4_Greater. rewrite lpo4_pure by lia. split.
    - intros H. injection H as H. eapply lpo4p_sound; eauto.
    - intros H. rewrite (lpo4p_complete p ar HP); auto. lia.
  Qed.

  (** C07: the four-valued comparison. *)
  Theorem C07_lpo4_compare : forall fuel limit s t c d,
    arok ar s = true -> arok ar t = true -> limit + 1 < fuel ->
    lpo4_Compare fuel limit p 0 s t = Some (c, d) ->
    d = 0 /\
    match c with
    | Greater => lpo p s t
    | Lesser => lpo p t s
    | Equal => s = t
    | Uncomparable => s <> t /\ (size s + size t <= limit + 1 -> ~ lpo p s t /\ ~ lpo p t s)
    end.
  Proof.
    intros fuel limit s t c d Hs Ht HF H. unfold lpo4_Compare in H.
    destruct (term_eqb s t) eqn:E.
    { injection H as <- <-. split; auto. apply term_eqb_eq; auto. }
    assert (N : s <> t) by (intros ->; rewrite (proj2 (term_eqb_eq t t) eq_refl) in E; discriminate).
    rewrite (lpo4_pure p limit fuel 0 s t) in H by lia.
    destruct (lpo4p (limit + 1 - 0) p s t) eqn:E1.
    { injection H as <- <-. split; auto. eapply lpo4p_sound; eauto. }
    rewrite (lpo4_pure p limit fuel 0 t s) in H by lia.
    destruct (lpo4p (limit + 1 - 0) p t s) eqn:E2; injection H as <- <-; split; auto.
    { eapply lpo4p_sound; eauto. }
    split; auto. intros HL. split; intros K.
    - apply (lpo4p_complete p ar HP (limit + 1 - 0)) in K; auto; [congruence|lia].
    - apply (lpo4p_complete p ar HP (limit + 1 - 0)) in K; auto; [congruence|lia].
  Qed.

  (** C07: a comparison always produces an answer. *)
  Theorem C07_lpo4_compare_returns : forall fuel limit s t, limit + 1 < fuel ->
    exists c, lpo4_Compare fuel limit p 0 s t = Some (c, 0).
  Proof.
    intros fuel limit s t HF. unfold lpo4_Compare. destruct (term_eqb s t); [eexists; reflexivity|].
    rewrite (lpo4_pure p limit fuel 0 s t) by lia. destruct (lpo4p _ p s t); [eexists; reflexivity|].
    rewrite (lpo4_pure p limit fuel 0 t s) by lia. destruct (lpo4p _ p t s); eexists; reflexivity.
  Qed.
End C07.

Section C08.
  Variables (p : sym -> sym -> cmp) (ar : sym -> nat).
  Hypothesis HP : lpo_precedence p.
  Notation ok t := (arok ar t = true).

  (** the observable relation: LPO4 answers "greater" under some recursion limit *)
  Definition says_lpo (s t : term) : Prop :=
    exists fuel limit d, lpo4_Greater fuel limit p 0 s t = Some (true, d).

  Lemma says_lpo_spec s t : ok s -> ok t -> (says_lpo s t <-> lpo p s t).
  Proof.
    intros Hs Ht. split.
    - intros [fuel [limit [d H]]]. eapply C07_lpo4_greater_sound; eauto.
    - intros H. exists (size s + size t + 3), (size s + size t), 0.
      apply (C07_lpo4_exact_within_limit p ar HP); auto; lia.
  Qed.

  Theorem C08_irreflexive : forall t, ok t -> ~ says_lpo t t.
  Proof. intros t Ht H. apply says_lpo_spec in H; auto. exact (lpo_irrefl p HP _ H). Qed.

  Theorem C08_transitive : forall s t u, ok s -> ok t -> ok u -> says_lpo s t -> says_lpo t u -> says_lpo s u.
  Proof.
    intros s t u Hs Ht Hu H1 H2. apply says_lpo_spec in H1; auto. apply says_lpo_spec in H2; auto.
    apply says_lpo_spec; auto. eapply lpo_trans; eauto.
  Qed.

  Lemma ok_subterm t u : ok t -> In u (subterms t) -> ok u.
  Proof.
    induction t as [x|f a IH] using term_ind'; intros Ht Hin.
    - simpl in Hin. destruct Hin as [<-|[]]. auto.
    - simpl in Hin. destruct Hin as [<-|Hin]; auto.
      apply in_flat_map in Hin. destruct Hin as [v [Hv Hu]].
      rewrite Forall_forall in IH. apply (IH v); auto. eapply args_ok; eauto.
  Qed.

  Theorem C08_subterm : forall t u, ok t -> In u (subterms t) -> u <> t -> says_lpo t u.
  Proof.
    intros t u Ht Hin N. apply says_lpo_spec; auto; [eapply ok_subterm; eauto|].
    destruct (lpo_subterms p t u Hin) as [E|K]; [congruence|auto].
  Qed.

  Theorem C08_monotone : forall f l r s t, ok (Fun f (l ++ s :: r)) -> ok (Fun f (l ++ t :: r)) ->
    says_lpo s t -> says_lpo (Fun f (l ++ s :: r)) (Fun f (l ++ t :: r)).
  Proof.
    intros f l r s t Hs Ht H. apply says_lpo_spec; auto. apply lpo_mono.
    apply says_lpo_spec in H; auto; [eapply args_ok; [exact Hs|] | eapply args_ok; [exact Ht|]];
      apply in_or_app; right; left; auto.
  Qed.

  Theorem C08_stable_under_substitution : forall sg s t, (forall x, ok (sg x)) -> ok s -> ok t ->
    says_lpo s t -> says_lpo (app sg s) (app sg t).
  Proof.
    intros sg s t Hsg Hs Ht H. apply says_lpo_spec in H; auto.
    apply says_lpo_spec; [apply arok_app; auto | apply arok_app; auto|].
    apply (lpo_stable p sg (size s + size t)); auto.
  Qed.

  Lemma lpo_precedence_strict : strict_prec p.
  Proof. split; [intros f; rewrite (lp_refl _ HP); discriminate | exact (lp_trans _ HP)]. Qed.

  Theorem C08_no_infinite_descent : forall (sig : list sym) (chain : nat -> term),
    (forall i, ok (chain i) /\ insig (fun f => existsb (Nat.eqb f) sig) (chain i) = true) ->
    ~ (forall i, says_lpo (chain i) (chain (S i))).
  Proof.
    intros sig chain HG H.
    pose proof (lpo_wf p _ (finite_prec_wf p sig lpo_precedence_strict)) as W.
    assert (HC : forall t, forall i, chain i = t -> False).
    { intros t. induction (W t) as [t _ IH]. intros i E.
      apply (IH (chain (S i))) with (i := S i); auto. split; [|split; try apply HG].
      - subst t. specialize (H i). apply says_lpo_spec in H; try apply HG; auto.
      - subst t. apply HG. }
    exact (HC (chain 0) 0 eq_refl).
  Qed.

  Theorem C08_total_on_ground_terms : total_prec p -> forall s t, ok s -> ok t ->
    ground s -> ground t -> s = t \/ says_lpo s t \/ says_lpo t s.
  Proof.
    intros HT s t Hs Ht Gs Gt. rewrite !says_lpo_spec; auto.
    apply (lpo_ground_total p ar HP HT (size s + size t)); auto.
  Qed.
End C08.

(** ** A satisfiable instance: symbols ordered by their code *)
Definition codeprec (f g : sym) : cmp :=
  if Nat.eqb f g then Equal else if Nat.ltb g f then Greater else Lesser.
Definition lexar (f : sym) : nat := match f with 1 => 0 | 2 => 2 | 3 => 1 | _ => 2 end.

Example codeprec_ok : lpo_precedence codeprec /\ total_prec codeprec.
Proof.
  unfold codeprec. split; split.
  - intros f. rewrite Nat.eqb_refl. auto.
  - intros f g. destruct (Nat.eqb_spec f g); auto. destruct (Nat.ltb g f); discriminate.
  - intros f g h. destruct (Nat.eqb_spec f g), (Nat.eqb_spec g h), (Nat.eqb_spec f h),
      (Nat.ltb_spec g f), (Nat.ltb_spec h g), (Nat.ltb_spec h f); intros; try congruence; lia.
  - intros f. rewrite Nat.eqb_refl. auto.
  - intros f g N. destruct (Nat.eqb_spec f g); [congruence|]. destruct (Nat.ltb g f); auto.
  - intros f g. destruct (Nat.eqb_spec f g), (Nat.eqb_spec g f); auto; try congruence.
    destruct (Nat.ltb_spec g f), (Nat.ltb_spec f g); auto; lia.
  - intros f g h. destruct (Nat.eqb_spec f g), (Nat.eqb_spec g h), (Nat.eqb_spec f h),
      (Nat.ltb_spec g f), (Nat.ltb_spec h g), (Nat.ltb_spec h f); intros; try congruence; lia.
Qed.

(** distributivity is oriented from 5(X,4(Y,Z)) to 4(5(X,Y),5(X,Z)) *)
Example ex_lpo_distributivity :
  let s := Fun 5 [Var 0; Fun 4 [Var 1; Var 2]] in
  let t := Fun 4 [Fun 5 [Var 0; Var 1]; Fun 5 [Var 0; Var 2]] in
  arok lexar s = true /\ arok lexar t = true /\
  lpo4_Compare 1100 1000 codeprec 0 s t = Some (Greater, 0) /\ lpo4_Compare 1100 1000 codeprec 0 t s = Some (Lesser, 0).
Proof. vm_compute. repeat split. Qed.

(** With the built-in limit of 1000 the answer can be "uncomparable" although the terms are
    ordered: the price of the limit, and the reason for the hypothesis in C07_lpo4_exact_within_limit. *)
Fixpoint tower (n : nat) : term := match n with O => Var 0 | S m => Fun 3 [tower m] end.

Theorem C07_lpo4_complete_beyond_limit_refuted :
  exists s t, arok lexar s = true /\ arok lexar t = true /\
    lpo4_Compare 1100 1000 codeprec 0 s t = Some (Uncomparable, 0) /\ lpo codeprec s t.
Proof.
  exists (Fun 5 [Var 0; Var 1]), (tower 1001).
  split; [reflexivity|]. split; [vm_compute; reflexivity|]. split; [vm_compute; reflexivity|].
  generalize 1001. induction n as [|n IH]; [apply lpo_arg; left; auto|].
  cbn [tower]. apply lpo_prec; [reflexivity|]. intros v [<-|[]]. exact IH.
Qed.

Print Assumptions C07_lpo4_returns_and_restores_counter.
Print Assumptions C07_lpo4_greater_sound.
Print Assumptions C07_lpo4_exact_within_limit.
Print Assumptions C07_lpo4_compare.
Print Assumptions C07_lpo4_compare_returns.
Print Assumptions C08_irreflexive.
Print Assumptions C08_transitive.
Print Assumptions C08_subterm.
Print Assumptions C08_monotone.
Print Assumptions C08_stable_under_substitution.
Print Assumptions C08_no_infinite_descent.
Print Assumptions C08_total_on_ground_terms.
Print Assumptions C07_lpo4_complete_beyond_limit_refuted.
