(** * Properties C05, C06: the Knuth-Bendix comparison. Statements only; the specification of the
    ordering ([kbo], [admissible], [total_prec]) is at the end of KBO.v, proofs are in KBOProofs.v
    and KBOOrder.v. *)
From Verif Require Import Terms KBO KBOProofs KBOOrder.
From Coq Require Import ZifyBool.

(** Comparison states that occur in a run: the freshly allocated one and everything left behind
    by earlier comparisons of terms that use every symbol with its arity. *)
Inductive kreach (o : ocb) (ar : sym -> nat) : kstate -> Prop :=
| kreach_init : kreach o ar kinit
| kreach_step k s t : kreach o ar k -> arok ar s = true -> arok ar t = true ->
    kreach o ar (snd (kbo6_compare o k s t)).

Lemma kreset_zero k : kok k -> kzero (kreset k).
Proof.
  intros [A B C D E].
  assert (HV : forall y, vb (kreset k) y = 0%Z).
  { intros y. unfold kreset. simpl. destruct (Nat.leb_spec y (max_var k)); auto. }
  split; [|split; auto]. split; simpl; auto.
  - lia.
  - rewrite B. simpl. destruct (Nat.leb_spec (vb_size k) (max_var k)); auto; lia.
  - intros x _. exact (HV x).
Qed.

Lemma kinit_ok : kok kinit.
Proof. split; simpl; auto. lia. Qed.

Lemma cmp_correct_kok o s t r k : cmp_correct o s t (r, k) -> kok k.
Proof.
  intros [_ [_ [_ [HZ HD]]]]. destruct (cmp_eqb r Equal) eqn:E.
  - destruct r; try discriminate. apply (HZ eq_refl).
  - apply HD. intros ->. discriminate.
Qed.

Lemma kreach_ok o ar k : total_prec (prec o) -> admissible o ar -> kreach o ar k -> kok k.
Proof.
  intros HT HA H. induction H as [|k s t _ IH Hs Ht]; [exact kinit_ok|].
  unfold kbo6_compare. pose proof (kbolincmp_correct o ar HT HA s t _ Hs Ht (kreset_zero _ IH)) as HC.
  destruct (kbolincmp o s t (kreset k)) as [r k']. exact (cmp_correct_kok _ _ _ _ _ HC).
Qed.

(** C05: in every reachable comparison state, the answer is the mathematical one. *)
Theorem C05_kbo_comparison_is_knuth_bendix :
  forall o ar k s t, total_prec (prec o) -> admissible o ar -> kreach o ar k ->
    arok ar s = true -> arok ar t = true ->
    match fst (kbo6_compare o k s t) with
    | Greater => kbo o s t
    | Lesser => kbo o t s
    | Equal => s = t
    | Uncomparable => s <> t /\ ~ kbo o s t /\ ~ kbo o t s
    end.
Proof.
  intros o ar k s t HT HA HK Hs Ht. unfold kbo6_compare.
  pose proof (kbolincmp_correct o ar HT HA s t _ Hs Ht (kreset_zero _ (kreach_ok _ _ _ HT HA HK))) as HC.
  destruct (kbolincmp o s t (kreset k)) as [r k']. destruct HC as [G [L [E _]]]. simpl.
  destruct r; [split; [|split]|..].
  - intros HH. apply E in HH. discriminate.
  - intros HH. apply G in HH. discriminate.
  - intros HH. apply L in HH. discriminate.
  - apply E; reflexivity.
  - apply G; reflexivity.
  - apply L; reflexivity.
Qed.

(** The four cases of C05 exclude each other, so the answer is determined; hence also
    KBO6Greater decides the ordering. *)
Theorem C05_kbo_greater_decides :
  forall o ar k s t, total_prec (prec o) -> admissible o ar -> kreach o ar k ->
    arok ar s = true -> arok ar t = true ->
    (fst (kbo6_greater o k s t) = true <-> kbo o s t).
Proof.
  intros o ar k s t HT HA HK Hs Ht. unfold kbo6_greater.
  unfold kbo6_compare.
  pose proof (kbolincmp_correct o ar HT HA s t _ Hs Ht (kreset_zero _ (kreach_ok _ _ _ HT HA HK))) as HC.
  destruct (kbolincmp o s t (kreset k)) as [r k']. destruct HC as [G _]. simpl. rewrite <- G.
  destruct r; simpl; split; congruence.
Qed.

(** C05 (memory safety): no comparison in any reachable state touches the balance array outside
    its bounds or an argument array outside its bounds. *)
Theorem C05_kbo_comparison_in_bounds :
  forall o ar k s t, total_prec (prec o) -> admissible o ar -> kreach o ar k ->
    arok ar s = true -> arok ar t = true -> oob (snd (kbo6_compare o k s t)) = false.
Proof.
  intros o ar k s t HT HA HK Hs Ht. apply ok_oob. apply (kreach_ok o ar); auto. constructor; auto.
Qed.

(** ** C06 *)

Section C06.
  Variables (o : ocb) (ar : sym -> nat).
  Hypothesis HT : total_prec (prec o).
  Hypothesis HA : admissible o ar.

  (** the observable relation: asked in some reachable state, the comparison says "greater" *)
  Definition says_greater (s t : term) : Prop :=
    exists k, kreach o ar k /\ fst (kbo6_compare o k s t) = Greater.

  Lemma says_greater_kbo s t : arok ar s = true -> arok ar t = true -> (says_greater s t <-> kbo o s t).
  Proof.
    intros Hs Ht.
    assert (HK : forall k, kreach o ar k -> (fst (kbo6_compare o k s t) = Greater <-> kbo o s t)).
    { intros k Hk. rewrite <- (C05_kbo_greater_decides o ar k s t HT HA Hk Hs Ht).
      unfold kbo6_greater. destruct (kbo6_compare o k s t) as [r k']. simpl. destruct r; simpl; split; congruence. }
    split; [intros [k [Hk H]]; apply (HK k Hk); auto|].
    intros H. exists kinit. split; [constructor|]. apply HK; auto. constructor.
  Qed.

  Theorem C06_irreflexive : forall t, arok ar t = true -> ~ says_greater t t.
  Proof.
    intros t Ht H. apply says_greater_kbo in H; auto. revert H. apply kbo_irrefl.
    intros f. rewrite (tp_refl _ HT). discriminate.
  Qed.

  Theorem C06_transitive : forall s t u, arok ar s = true -> arok ar t = true -> arok ar u = true ->
    says_greater s t -> says_greater t u -> says_greater s u.
  Proof.
    intros s t u Hs Ht Hu H1 H2. apply says_greater_kbo in H1; auto. apply says_greater_kbo in H2; auto.
    apply says_greater_kbo; auto. eapply kbo_trans with (ar := ar) (t := t); auto. apply total_strict; auto.
  Qed.

  Theorem C06_subterm : forall t u, arok ar t = true -> In u (subterms t) -> u <> t -> says_greater t u.
  Proof.
    intros t u Ht Hin N.
    assert (Hu : arok ar u = true).
    { clear - Ht Hin. revert Ht Hin. induction t as [x|f a IH] using term_ind'; intros Ht Hin.
      - simpl in Hin. destruct Hin as [<-|[]]. auto.
      - simpl in Hin. destruct Hin as [<-|Hin]; auto.
        apply in_flat_map in Hin. destruct Hin as [v [Hv Hu]].
        rewrite Forall_forall in IH. apply (IH v); auto.
        apply arok_fun in Ht; destruct Ht as [_ HF]; rewrite Forall_forall in HF; auto. }
    apply says_greater_kbo; auto.
    destruct (kbo_in_subterms o ar (total_strict _ HT) HA t u Ht Hin) as [E|K]; [congruence|auto].
  Qed.

  (** compatibility with contexts, one level; any depth follows by repetition *)
  Theorem C06_monotone : forall f l r s t,
    arok ar (Fun f (l ++ s :: r)) = true -> arok ar (Fun f (l ++ t :: r)) = true ->
    says_greater s t -> says_greater (Fun f (l ++ s :: r)) (Fun f (l ++ t :: r)).
  Proof.
    intros f l r s t Hs Ht H. apply says_greater_kbo; auto. apply kbo_mono.
    pose proof Hs as Hs'. pose proof Ht as Ht'. apply arok_fun in Hs', Ht'.
    destruct Hs' as [_ Fs], Ht' as [_ Ft]. rewrite Forall_forall in Fs, Ft.
    apply says_greater_kbo in H; auto; [apply Fs|apply Ft]; apply in_or_app; right; left; auto.
  Qed.

  Theorem C06_stable_under_substitution : forall sg s t,
    (forall x, arok ar (sg x) = true) -> arok ar s = true -> arok ar t = true ->
    says_greater s t -> says_greater (app sg s) (app sg t).
  Proof.
    intros sg s t Hsg Hs Ht H. apply says_greater_kbo in H; auto.
    apply says_greater_kbo; [apply arok_app; auto | apply arok_app; auto|].
    eapply kbo_stable; eauto. apply total_strict; auto.
  Qed.

  (** no infinite descending chain of terms over a finite signature *)
  Theorem C06_no_infinite_descent : forall (sig : list sym) (chain : nat -> term),
    (forall i, arok ar (chain i) = true /\ insig (fun f => existsb (Nat.eqb f) sig) (chain i) = true) ->
    ~ (forall i, says_greater (chain i) (chain (S i))).
  Proof.
    intros sig chain HG H.
    pose proof (kbo_wf o ar (total_strict _ HT) HA _ (finite_prec_wf (prec o) sig (total_strict _ HT))) as W.
    assert (HC : forall t, forall i, chain i = t -> False).
    { intros t. induction (W t) as [t _ IH]. intros i E.
      apply (IH (chain (S i))) with (i := S i); auto. split; [|split; try apply HG].
      - subst t. specialize (H i). apply says_greater_kbo in H; try apply HG; auto.
      - subst t. apply HG. }
    exact (HC (chain 0) 0 eq_refl).
  Qed.

  Theorem C06_total_on_ground_terms : forall s t, arok ar s = true -> arok ar t = true ->
    ground s -> ground t -> s = t \/ says_greater s t \/ says_greater t s.
  Proof.
    intros s t Hs Ht Gs Gt. rewrite !says_greater_kbo; auto. eapply kbo_ground_total; eauto.
  Qed.
End C06.

(** ** The hypotheses are satisfiable: weight 1 everywhere except a unary symbol 3 of weight 0
    that is greatest, precedence by symbol code below that. *)
Definition exo : ocb := {|
  fw := fun f => if Nat.eqb f 3 then 0%Z else 1%Z; vw := 1%Z;
  prec := fun f g => if Nat.eqb f g then Equal else if Nat.eqb f 3 then Greater else if Nat.eqb g 3 then Lesser
                     else if Nat.ltb g f then Greater else Lesser |}.
Definition exar (f : sym) : nat := match f with 1 => 0 | 2 => 2 | 3 => 1 | _ => 0 end.

Example exo_total : total_prec (prec exo).
Proof.
  split; simpl.
  - intros f. rewrite Nat.eqb_refl. reflexivity.
  - intros f g H. destruct (Nat.eqb_spec f g); [congruence|].
    destruct (Nat.eqb f 3); auto. destruct (Nat.eqb g 3); auto. destruct (Nat.ltb g f); auto.
  - intros f g. destruct (Nat.eqb_spec f g) as [->|N].
    + rewrite Nat.eqb_refl. reflexivity.
    + destruct (Nat.eqb_spec g f); [congruence|].
      destruct (Nat.eqb_spec f 3), (Nat.eqb_spec g 3); simpl; auto; try congruence.
      destruct (Nat.ltb_spec g f), (Nat.ltb_spec f g); simpl; auto; lia.
  - intros f g h. destruct (Nat.eqb_spec f g), (Nat.eqb_spec g h), (Nat.eqb_spec f h),
      (Nat.eqb_spec f 3), (Nat.eqb_spec g 3), (Nat.eqb_spec h 3), (Nat.ltb_spec g f), (Nat.ltb_spec h g), (Nat.ltb_spec h f);
      intros; try congruence; try lia.
Qed.

Example exo_admissible : admissible exo exar.
Proof.
  split; simpl.
  - intros f. destruct (Nat.eqb f 3); lia.
  - lia.
  - intros c H. destruct (Nat.eqb_spec c 3) as [->|]; [discriminate H|lia].
  - intros f g H H0 N. destruct (Nat.eqb_spec f g); [congruence|]. destruct (Nat.eqb_spec f 3); [auto|discriminate].
Qed.

(** 2(3(X), 1) is greater than 2(X, 1) although both weigh the same *)
Example ex_kbo_nontrivial :
  let s := Fun 2 [Fun 3 [Var 7]; Fun 1 []] in let t := Fun 2 [Var 7; Fun 1 []] in
  arok exar s = true /\ arok exar t = true /\ kweight exo s = kweight exo t /\
  fst (kbo6_compare exo kinit s t) = Greater /\
  fst (kbo6_compare exo (snd (kbo6_compare exo kinit s (Var 200))) t s) = Lesser.
Proof. vm_compute. repeat split. Qed.

Example ex_kbo_chain : says_greater exo exar (Fun 2 [Var 0; Var 1]) (Var 1).
Proof. apply says_greater_kbo; try exact exo_total; try exact exo_admissible; auto. apply kbo_weight; [|vm_compute; reflexivity].
  intros x. rewrite vcount_fun, !lcount_cons, !vcount_var. lia. Qed.

(** ** Without a total precedence the code answers "equal" for different terms
    (the missing else at cto_kbolin.c:854-865); E uses such precedences when the user gives a
    partial one.  This is why C05 needs totality. *)
Definition partial_ocb : ocb := {| fw := fun _ => 1%Z; vw := 1%Z; prec := fun f g => if Nat.eqb f g then Equal else Uncomparable |}.

Theorem C09_kbo_equal_only_for_identical_terms_refuted :
  exists o ar s t, strict_prec (prec o) /\ admissible o ar /\ arok ar s = true /\ arok ar t = true /\
    fst (kbo6_compare o kinit s t) = Equal /\ s <> t.
Proof.
  exists partial_ocb, (fun _ => 0), (Fun 1 []), (Fun 2 []).
  split. { split; simpl; [intros f; rewrite Nat.eqb_refl; discriminate|].
           intros f g h. destruct (Nat.eqb f g); discriminate. }
  split. { split; simpl; intros; try lia; congruence. }
  repeat split; try reflexivity. discriminate.
Qed.

Print Assumptions C05_kbo_comparison_is_knuth_bendix.
Print Assumptions C05_kbo_greater_decides.
Print Assumptions C05_kbo_comparison_in_bounds.
Print Assumptions C06_irreflexive.
Print Assumptions C06_transitive.
Print Assumptions C06_subterm.
Print Assumptions C06_monotone.
Print Assumptions C06_stable_under_substitution.
Print Assumptions C06_no_infinite_descent.
Print Assumptions C06_total_on_ground_terms.
Print Assumptions C09_kbo_equal_only_for_identical_terms_refuted.
