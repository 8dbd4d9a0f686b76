(** * Properties C37, C38: comparing literals and finding the maximal ones.  The specification
    ([mulext], [lit_gt], [lit_equiv]) is at the start of LitOrderProofs.v: a positive equation s = t
    stands for the multiset {{s},{t}}, a negative one for {{s,t}}, compared by the twofold multiset
    extension of the term ordering. *)
From Verif Require Import Terms Unify KBO KBOProofs KBOOrder KBOProps Semantics Clauses LitOrder LitOrderProofs.

Section C37.
(** [val t] is what a term stands for under the current bindings, R the term ordering, [good] the
    terms on which the term comparison is right. *)
Context {V : Type} (R : V -> V -> Prop).
Hypothesis Rirr : forall x, ~ R x x.
Hypothesis Rtr : forall x y z, R x y -> R y z -> R x z.
Variables (o : lord) (good : term -> Prop).
Hypothesis HL : lcmp o = LCNormal.

Theorem C37_literal_comparison_is_multiset_extension : forall b val e1 e2,
  decides R o good b val ->
  good_lit good e1 -> good_lit good e2 -> pseudo e1 = pseudo e2 -> sel e1 = false -> sel e2 = false ->
  oriented_ok val R e1 -> oriented_ok val R e2 ->
  (literal_compare o b e1 e2 = Greater <-> lit_gt val R e1 e2)
  /\ (literal_compare o b e1 e2 = Lesser <-> lit_gt val R e2 e1)
  /\ (literal_compare o b e1 e2 = Equal <-> lit_equiv val e1 e2).
Proof. intros. apply answer_exact; auto. eapply literal_compare_ok; eauto. Qed.

(** ... which is a strict partial order compatible with equality of literals. *)
Theorem C37_literal_order_is_strict : forall val,
  (forall e, ~ lit_gt val R e e)
  /\ (forall e1 e2 e3, lit_gt val R e1 e2 -> lit_gt val R e2 e3 -> lit_gt val R e1 e3)
  /\ (forall e1 e2 e3, lit_equiv val e1 e2 -> lit_gt val R e2 e3 -> lit_gt val R e1 e3)
  /\ (forall e1 e2 e3, lit_gt val R e1 e2 -> lit_equiv val e2 e3 -> lit_gt val R e1 e3).
Proof.
  intros val. split; [apply lit_gt_irrefl; auto|]. split; [apply lit_gt_trans; auto|].
  split; [apply lit_gt_equiv_l; auto | apply lit_gt_equiv_r; auto].
Qed.

(** Orienting a literal keeps it (up to exchanging the sides), marks it oriented exactly if its sides
    are comparable, and then the larger side is the left one. *)
Theorem C37_orientation : forall b val e,
  decides R o good b val -> good_lit good e ->
  (lt e <> rt e -> lt e = ttrue -> R (val (rt e)) (val (lt e))) ->
  (lt e <> rt e -> rt e = ttrue -> R (val (lt e)) (val (rt e))) ->
  uptodate e = false ->
  let e' := eqn_orient o b e in
  uptodate e' = true /\ pos e' = pos e
  /\ ((lt e' = lt e /\ rt e' = rt e) \/ (lt e' = rt e /\ rt e' = lt e))
  /\ (ori e' = true <-> R (val (lt e)) (val (rt e)) \/ R (val (rt e)) (val (lt e)))
  /\ (ori e' = true -> R (val (lt e')) (val (rt e'))).
Proof. intros. eapply eqn_orient_ok; eauto. Qed.

(** C38: the maximality flags are exactly maximality; nothing else about the literals changes. *)
Theorem C38_maximal_literal_flags : forall b val ps l,
  decides R o good b val -> plain_lits R good val ps l ->
  exists l', maximal_literals o b l = Some l' /\ length l' = length l /\
    forall i, i < length l ->
      same_lit (nth i l dfl) (nth i l' dfl)
      /\ (maxi (nth i l' dfl) = true <-> maximal_in R val l i)
      /\ (smaxi (nth i l' dfl) = true <-> strictly_maximal_in R val l i).
Proof.
  intros b val ps l HD HP. destruct (maximal_literals_ok R Rirr Rtr o good HL b val ps l HD HP) as [l' [A [B C]]].
  exists l'. split; auto. split; auto. intros i Hi. destruct (C i Hi) as [X [Y [Z _]]]. auto.
Qed.

(** C38: some literal is flagged maximal, in every non-empty clause. *)
Theorem C38_some_literal_is_maximal : forall b val ps l l',
  decides R o good b val -> plain_lits R good val ps l -> l <> [] ->
  maximal_literals o b l = Some l' -> exists e, In e l' /\ maxi e = true.
Proof.
  intros b val ps l l' HD HP HN HM. destruct (maximal_literals_ok R Rirr Rtr o good HL b val ps l HD HP) as [l1 [A [B C]]].
  rewrite HM in A. injection A as <-. assert (H0 : 0 < length l) by (destruct l; [congruence|simpl; lia]).
  destruct (C 0 H0) as [_ [_ [_ U]]]. destruct (maxi (nth 0 l' dfl)) eqn:M.
  - exists (nth 0 l' dfl). split; auto. apply nth_In. lia.
  - destruct (U eq_refl) as [k [Hk [Mk _]]]. exists (nth k l' dfl). split; auto. apply nth_In. lia.
Qed.

(** C38: after unification (bindings b2, under which terms have the values val2) the tests used by
    the inference rules look only at the literals flagged maximal before unification; they still
    decide maximality in the instantiated clause. *)
Theorem C38_maximality_tests_after_unification : forall b1 val1 b2 val2 ps l l',
  decides R o good b1 val1 -> decides R o good b2 val2 -> plain_lits R good val1 ps l ->
  (forall s t, good s -> good t -> R (val1 s) (val1 t) -> R (val2 s) (val2 t)) ->
  (forall s t, good s -> good t -> val1 s = val1 t -> val2 s = val2 t) ->
  maximal_literals o b1 l = Some l' ->
  forall i, i < length l' ->
    (is_maximal o b2 l' i (nth i l' dfl) = true <-> maximal_in R val2 l' i)
    /\ (is_strictly_maximal o b2 l' i (nth i l' dfl) = true <-> strictly_maximal_in R val2 l' i).
Proof. intros b1 val1 b2 val2 ps l l1 D1 D2 HP HS HE HM i Hi. exact (tests_after_instantiation R Rirr Rtr o good HL b1 val1 b2 val2 ps l l1 D1 D2 HP HS HE HM i Hi). Qed.
End C37.

(** ** With the Knuth-Bendix comparison: the hypotheses hold for every admissible ordering with a
    total precedence, every comparison state, and every substitution. *)
Section KBOInstance.
Variables (ko : ocb) (ar : sym -> nat).
Hypothesis HT : total_prec (prec ko).
Hypothesis HA : admissible ko ar.
Definition kR (s t : term) : Prop := arok ar s = true /\ arok ar t = true /\ kbo ko s t.
Definition kgood (t : term) : Prop := arok ar t = true.
(** TOCompare of dereferenced terms, KBO6 *)
Definition klord (sub : binding -> subst) : lord :=
  {| tcmp := fun b s t => fst (kbo6_compare ko kinit (app (sub b) s) (app (sub b) t));
     lcmp := LCNormal; fcmp := prec ko |}.

Lemma kR_irr x : ~ kR x x.
Proof. intros [_ [_ H]]. apply (kbo_irrefl ko) in H; auto. intros f. rewrite (tp_refl _ HT). discriminate. Qed.
Lemma kR_tr x y z : kR x y -> kR y z -> kR x z.
Proof.
  intros [A [B C]] [D [E F]]. split; auto. split; auto. apply (kbo_trans ko ar (total_strict _ HT) HA x y z); auto.
Qed.
Lemma klord_decides sub b : (forall x, arok ar (sub b x) = true) -> decides kR (klord sub) kgood b (app (sub b)).
Proof.
  intros HS s t Gs Gt. assert (As := arok_app ar (sub b) s HS Gs). assert (At := arok_app ar (sub b) t HS Gt).
  pose proof (C05_kbo_comparison_is_knuth_bendix ko ar kinit _ _ HT HA (kreach_init ko ar) As At) as H.
  unfold term_answer. cbn [tcmp klord]. unfold kR.
  destruct (fst (kbo6_compare ko kinit (app (sub b) s) (app (sub b) t))); try tauto.

Qed.

(** C37 for E's default ordering. *)
Theorem C37_literal_comparison_with_kbo : forall sub b e1 e2,
  (forall x, arok ar (sub b x) = true) ->
  good_lit kgood e1 -> good_lit kgood e2 -> pseudo e1 = pseudo e2 -> sel e1 = false -> sel e2 = false ->
  oriented_ok (app (sub b)) kR e1 -> oriented_ok (app (sub b)) kR e2 ->
  (literal_compare (klord sub) b e1 e2 = Greater <-> lit_gt (app (sub b)) kR e1 e2)
  /\ (literal_compare (klord sub) b e1 e2 = Lesser <-> lit_gt (app (sub b)) kR e2 e1)
  /\ (literal_compare (klord sub) b e1 e2 = Equal <-> lit_equiv (app (sub b)) e1 e2).
Proof.
  intros. apply (C37_literal_comparison_is_multiset_extension kR kR_irr kR_tr (klord sub) kgood eq_refl b (app (sub b))); auto.
  apply klord_decides; auto.
Qed.

(** C38 for E's default ordering: flags computed on the clause, tests made after applying a
    unifier, no further assumption. *)
Theorem C38_maximality_tests_with_kbo : forall sub b1 b2 ps l l',
  (forall x, sub b1 x = Var x) -> (forall x, arok ar (sub b2 x) = true) ->
  plain_lits kR kgood (fun t => t) ps l -> maximal_literals (klord sub) b1 l = Some l' ->
  forall i, i < length l' ->
    (is_maximal (klord sub) b2 l' i (nth i l' dfl) = true <-> maximal_in kR (app (sub b2)) l' i)
    /\ (is_strictly_maximal (klord sub) b2 l' i (nth i l' dfl) = true <-> strictly_maximal_in kR (app (sub b2)) l' i).
Proof.
  intros sub b1 b2 ps l l' H1 H2 HP HM.
  assert (ID : forall t, app (sub b1) t = t).
  { intros t. rewrite (app_ext (sub b1) Var t); [apply app_var | intros; auto]. }
  assert (A1 : forall x, arok ar (sub b1 x) = true) by (intros x; rewrite H1; reflexivity).
  apply (C38_maximality_tests_after_unification kR kR_irr kR_tr (klord sub) kgood eq_refl b1 (fun t => t) b2 (app (sub b2)) ps l l'); auto.
  - intros s t Gs Gt. pose proof (klord_decides sub b1 A1 s t Gs Gt) as D. unfold term_answer in *. rewrite !ID in D. exact D.
  - apply klord_decides; auto.
  - intros s t Gs Gt [_ [_ K]]. split; [apply arok_app; auto|]. split; [apply arok_app; auto|].
    eapply kbo_stable; eauto. apply total_strict; auto.
  - intros; congruence.
Qed.
End KBOInstance.

(** ** A concrete clause: 3(X) = 1 | X != 2(1,1) | X = Y, in the ordering of KBOProps *)
Definition exl1 : eqn := mkeqn (Fun 3 [Var 0]) (Fun 1 []) true false false false false false false.
Definition exl2 : eqn := mkeqn (Var 0) (Fun 2 [Fun 1 []; Fun 1 []]) false false false false false false false.
Definition exl3 : eqn := mkeqn (Var 0) (Var 2) true false false false false false false.
Definition exsub (b : binding) : subst := fun x => match b x with Some t => t | None => Var x end.
Definition exb : binding := fun x => if Nat.eqb x 0 then Some (Fun 2 [Fun 1 []; Fun 1 []]) else None.

Example ex_flags : option_map (map (fun e => (maxi e, smaxi e))) (maximal_literals (klord exo exsub) (fun _ => None) [exl1; exl2; exl3])
  = Some [(true, true); (true, true); (true, true)].
Proof. vm_compute. reflexivity. Qed.
(** with X bound to 2(1,1) the second literal is above nothing and below the first *)
Example ex_flags_inst : option_map (map (fun e => (maxi e, smaxi e))) (maximal_literals (klord exo exsub) exb [exl1; exl2; exl3; exl1])
  = Some [(true, false); (false, false); (true, true); (true, false)].
Proof. vm_compute. reflexivity. Qed.
Example ex_plain : plain_lits (kR exo exar) (kgood exar) (fun t => t) false [exl1; exl2; exl3].
Proof. intros e [<-|[<-|[<-|[]]]]; repeat split; discriminate. Qed.
Example ex_tests : option_map (fun l => map (fun i => is_maximal (klord exo exsub) exb l i (nth i l dfl)) [0; 1; 2])
    (maximal_literals (klord exo exsub) (fun _ => None) [exl1; exl2; exl3]) = Some [true; false; true].
Proof. vm_compute. reflexivity. Qed.
Example ex_orient : eqn_orient (klord exo exsub) (fun _ => None) (mkeqn (Fun 1 []) (Fun 3 [Fun 1 []]) true false false false false false false)
  = mkeqn (Fun 3 [Fun 1 []]) (Fun 1 []) true true true false false false false.
Proof. vm_compute. reflexivity. Qed.

Print Assumptions C37_literal_comparison_is_multiset_extension.
Print Assumptions C37_literal_order_is_strict.
Print Assumptions C37_orientation.
Print Assumptions C37_literal_comparison_with_kbo.
Print Assumptions C38_maximal_literal_flags.
Print Assumptions C38_some_literal_is_maximal.
Print Assumptions C38_maximality_tests_after_unification.
Print Assumptions C38_maximality_tests_with_kbo.
