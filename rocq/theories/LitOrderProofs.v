(** * Proofs about literal comparison and maximal literals. *)
From Coq Require Import Permutation.
From Verif Require Import Terms Unify KBO Semantics Clauses LitOrder.

(** ** Specification: multiset extension (Dershowitz and Manna), literals as multisets of multisets *)

(** M > N: M = X + Z, N = Y + Z with X not empty and every element of Y below some element of X.
    Multisets are lists up to order; [eqv] is equality of elements. *)
Definition mulext {A} (eqv : A -> A -> Prop) (R : A -> A -> Prop) (M N : list A) : Prop :=
  exists X Y Z Z', Permutation M (X ++ Z) /\ Permutation N (Y ++ Z') /\ Forall2 eqv Z Z'
    /\ X <> [] /\ forall y, In y Y -> exists x, In x X /\ R x y.

(** A positive equation s = t is {{s},{t}}, a negative one {{s,t}}. *)
Definition lit_rep {V} (val : term -> V) (e : eqn) : list (list V) :=
  if pos e then [[val (lt e)]; [val (rt e)]] else [[val (lt e); val (rt e)]].
Definition lit_gt {V} (val : term -> V) (R : V -> V -> Prop) (e1 e2 : eqn) : Prop :=
  mulext (@Permutation V) (mulext eq R) (lit_rep val e1) (lit_rep val e2).
(** the same multiset of multisets *)
Definition lit_equiv {V} (val : term -> V) (e1 e2 : eqn) : Prop :=
  exists l, Permutation (lit_rep val e1) l /\ Forall2 (@Permutation V) l (lit_rep val e2).

Lemma f2_length {A B} (P : A -> B -> Prop) l l' : Forall2 P l l' -> length l = length l'.
Proof. induction 1; simpl; auto. Qed.

(** ** Small multisets *)
Lemma perm1 {A} (a : A) l : Permutation [a] l -> l = [a].
Proof. apply Permutation_length_1_inv. Qed.
Lemma perm2 {A} (a b : A) l : Permutation [a; b] l -> l = [a; b] \/ l = [b; a].
Proof. apply Permutation_length_2_inv. Qed.

Lemma app1 {A} (a : A) X Z : X ++ Z = [a] -> (X = [] /\ Z = [a]) \/ (X = [a] /\ Z = []).
Proof. intros H. destruct X as [|x [|y X]]; simpl in H; [left; auto | injection H as -> ->; auto | discriminate]. Qed.
Lemma app2 {A} (a b : A) X Z : X ++ Z = [a; b] -> (X = [] /\ Z = [a; b]) \/ (X = [a] /\ Z = [b]) \/ (X = [a; b] /\ Z = []).
Proof.
  intros H. destruct X as [|x [|y [|z X]]]; simpl in H; [auto | injection H as -> ->; auto | injection H as -> -> ->; auto | discriminate].
Qed.

Ltac inv_f2 := repeat match goal with
  | H : Forall2 _ [] _ |- _ => inversion H; clear H; subst
  | H : Forall2 _ _ [] |- _ => inversion H; clear H; subst
  | H : Forall2 _ (_ :: _) (_ :: _) |- _ => inversion H; clear H; subst
  end.

Section Two.
Context {A : Type} (eqv R : A -> A -> Prop).

Lemma mul11 a c : mulext eqv R [a] [c] <-> R a c.
Proof.
  split.
  - intros [X [Y [Z [Z' [P1 [P2 [F [N H]]]]]]]]. apply perm1, app1 in P1. apply perm1, app1 in P2.
    destruct P1 as [[-> ->]|[-> ->]]; [congruence|]. destruct P2 as [[-> ->]|[-> ->]]; inv_f2.
    destruct (H c (or_introl eq_refl)) as [x [[<-|[]] Hx]]. auto.
  - intros H. exists [a], [c], [], []. repeat split; simpl; auto using Permutation_refl; try discriminate.
    intros y [<-|[]]. exists a; auto.
Qed.

Lemma mul12 a c d : mulext eqv R [a] [c; d] <-> R a c /\ R a d.
Proof.
  split.
  - intros [X [Y [Z [Z' [P1 [P2 [F [N H]]]]]]]]. apply perm1, app1 in P1.
    destruct P1 as [[-> ->]|[-> ->]]; [congruence|]. inv_f2. rewrite app_nil_r in P2.
    assert (HY : forall y, In y [c; d] -> R a y).
    { intros y Hy. destruct (H y (Permutation_in _ P2 Hy)) as [x [[<-|[]] Hx]]. auto. }
    split; apply HY; simpl; auto.
  - intros [H1 H2]. exists [a], [c; d], [], []. repeat split; simpl; auto using Permutation_refl; try discriminate.
    intros y [<-|[<-|[]]]; exists a; auto.
Qed.

Lemma mul21 a b c : mulext eqv R [a; b] [c] <-> R a c \/ R b c \/ eqv a c \/ eqv b c.
Proof.
  split.
  - intros [X [Y [Z [Z' [P1 [P2 [F [N H]]]]]]]]. apply perm1, app1 in P2.
    destruct P2 as [[-> ->]|[-> ->]]; inv_f2.
    + inversion F as [|z z' l l' E F']; subst. inv_f2.
      assert (In z [a; b]) as [<-|[<-|[]]] by (eapply Permutation_in; [apply Permutation_sym, P1|]; apply in_or_app; simpl; auto); auto.
    + rewrite app_nil_r in P1. destruct (H c (or_introl eq_refl)) as [x [Hx1 Hx2]].
      apply (Permutation_in _ (Permutation_sym P1)) in Hx1. destruct Hx1 as [<-|[<-|[]]]; auto.
  - intros [H|[H|[H|H]]].
    + exists [a; b], [c], [], []. repeat split; simpl; auto using Permutation_refl; try discriminate. intros y [<-|[]]. exists a; auto.
    + exists [a; b], [c], [], []. repeat split; simpl; auto using Permutation_refl; try discriminate. intros y [<-|[]]. exists b; auto.
    + exists [b], [], [a], [c]. repeat split; simpl; auto using Permutation_refl; try discriminate. apply perm_swap. intros y [].
    + exists [a], [], [b], [c]. repeat split; simpl; auto using Permutation_refl; try discriminate. intros y [].
Qed.

Definition F4 (a b c d : A) : Prop :=
  (eqv a c /\ R b d) \/ (eqv b d /\ R a c) \/ (eqv a d /\ R b c) \/ (eqv b c /\ R a d)
  \/ ((R a c \/ R b c) /\ (R a d \/ R b d)).

Lemma mul22 a b c d : mulext eqv R [a; b] [c; d] <-> F4 a b c d.
Proof.
  split.
  - intros [X [Y [Z [Z' [P1 [P2 [F [N H]]]]]]]]. unfold F4.
    assert (HX : forall x, In x X -> x = a \/ x = b).
    { intros x Hx. assert (In x [a; b]) as [<-|[<-|[]]] by (eapply Permutation_in; [apply Permutation_sym, P1|]; apply in_or_app; auto); auto. }
    apply perm2 in P1. apply perm2 in P2.
    destruct P1 as [P1|P1], P2 as [P2|P2]; apply app2 in P1; apply app2 in P2;
      destruct P1 as [[-> ->]|[[-> ->]|[-> ->]]]; try congruence;
      destruct P2 as [[-> ->]|[[-> ->]|[-> ->]]]; inv_f2;
      try (match goal with |- context [R _ ?z] => idtac end);
      try (repeat match goal with
        | H : forall y, In y [?u; ?w] -> _ |- _ => destruct (H u (or_introl eq_refl)) as [x1 [X1 Y1]]; destruct (H w (or_intror (or_introl eq_refl))) as [x2 [X2 Y2]]; clear H
        | H : forall y, In y [?u] -> _ |- _ => destruct (H u (or_introl eq_refl)) as [x1 [X1 Y1]]; clear H
        end; simpl in *;
        repeat match goal with H : _ \/ _ |- _ => destruct H | H : False |- _ => destruct H end; subst; tauto).
  - unfold F4. intros [[H1 H2]|[[H1 H2]|[[H1 H2]|[[H1 H2]|[H1 H2]]]]].
    + exists [b], [d], [a], [c]. repeat split; simpl; auto using perm_swap; try discriminate. intros y [<-|[]]; eauto.
    + exists [a], [c], [b], [d]. repeat split; simpl; auto using Permutation_refl; try discriminate. intros y [<-|[]]; eauto.
    + exists [b], [c], [a], [d]. repeat split; simpl; auto using Permutation_refl, perm_swap; try discriminate. intros y [<-|[]]; eauto.
    + exists [a], [d], [b], [c]. repeat split; simpl; auto using Permutation_refl, perm_swap; try discriminate. intros y [<-|[]]; eauto.
    + exists [a; b], [c; d], [], []. repeat split; simpl; auto using Permutation_refl; try discriminate.
      intros y [<-|[<-|[]]]; [destruct H1 | destruct H2]; eauto.
Qed.
End Two.

(** ** Literals *)
Section Lits.
Context {V : Type} (val : term -> V) (R : V -> V -> Prop).
Hypothesis Rirr : forall x, ~ R x x.
Hypothesis Rtr : forall x y z, R x y -> R y z -> R x z.

Notation rmul := (mulext eq R).

Lemma perm_single (a b : V) : Permutation [a] [b] <-> a = b.
Proof. split; [intros H; apply perm1 in H; congruence | intros ->; apply Permutation_refl]. Qed.
Lemma perm_len12 (a b c : V) : Permutation [a] [b; c] -> False.
Proof. intros H. apply perm1 in H. discriminate. Qed.
Lemma perm_len21 (a b c : V) : Permutation [a; b] [c] -> False.
Proof. intros H. apply Permutation_length in H. discriminate. Qed.

Definition gt_pp (e1 e2 : eqn) := F4 eq R (val (lt e1)) (val (rt e1)) (val (lt e2)) (val (rt e2)).
Definition gt_pn (e1 e2 : eqn) :=
  let a := val (lt e1) in let b := val (rt e1) in let c := val (lt e2) in let d := val (rt e2) in
  (R a c /\ R a d) \/ (R b c /\ R b d).
Definition gt_np (e1 e2 : eqn) :=
  let a := val (lt e1) in let b := val (rt e1) in let c := val (lt e2) in let d := val (rt e2) in
  (R a c \/ R b c \/ a = c \/ b = c) /\ (R a d \/ R b d \/ a = d \/ b = d).

Lemma lit_gt_spec e1 e2 : lit_gt val R e1 e2 <->
  match pos e1, pos e2 with
  | true, true | false, false => gt_pp e1 e2
  | true, false => gt_pn e1 e2
  | false, true => gt_np e1 e2
  end.
Proof.
  unfold lit_gt, lit_rep. destruct (pos e1), (pos e2).
  - rewrite mul22. unfold gt_pp, F4. rewrite !mul11, !perm_single. tauto.
  - rewrite mul21, !mul12. unfold gt_pn. split; [|tauto]. intros [H|[H|[H|H]]]; auto; destruct (perm_len12 _ _ _ H).
  - rewrite mul12, !mul21. unfold gt_np. tauto.
  - rewrite mul11, mul22. unfold gt_pp. tauto.
Qed.

Lemma lit_equiv_spec e1 e2 : lit_equiv val e1 e2 <-> pos e1 = pos e2 /\
  ((val (lt e1) = val (lt e2) /\ val (rt e1) = val (rt e2)) \/ (val (lt e1) = val (rt e2) /\ val (rt e1) = val (lt e2))).
Proof.
  unfold lit_equiv, lit_rep. destruct (pos e1), (pos e2).
  - split.
    + intros [l [P F]]. split; auto. apply perm2 in P. destruct P as [-> | ->]; inv_f2; rewrite !perm_single in *; auto.
    + intros [_ [[A B]|[A B]]]; [exists [[val (lt e1)]; [val (rt e1)]] | exists [[val (rt e1)]; [val (lt e1)]]];
        split; auto using Permutation_refl, perm_swap; repeat constructor; apply perm_single; auto.
  - split; [|intros [H _]; discriminate]. intros [l [P F]]. apply Permutation_length in P. apply f2_length in F. simpl in *. lia.
  - split; [|intros [H _]; discriminate]. intros [l [P F]]. apply Permutation_length in P. apply f2_length in F. simpl in *. lia.
  - split.
    + intros [l [P F]]. split; auto. apply perm1 in P. subst l. inv_f2.
      match goal with H : Permutation _ _ |- _ => apply perm2 in H; destruct H as [H|H]; injection H as -> ->; auto end.
    + intros [_ [[A B]|[A B]]]; exists [[val (lt e1); val (rt e1)]]; split; auto using Permutation_refl; constructor; auto;
        rewrite A, B; auto using Permutation_refl, perm_swap.
Qed.

(** Strict partial order. *)
Lemma lit_gt_irrefl e : ~ lit_gt val R e e.
Proof.
  rewrite lit_gt_spec. destruct (pos e); unfold gt_pp, F4; intros H;
  repeat match goal with
  | H : _ \/ _ |- _ => destruct H
  | H : _ /\ _ |- _ => destruct H
  | H : R ?x ?x |- _ => destruct (Rirr _ H)
  | H : ?x = ?y |- _ => rewrite H in *; clear H
  end; try (eapply Rirr; eauto; fail).
Qed.

Ltac split_all := repeat match goal with
  | H : _ \/ _ |- _ => destruct H
  | H : _ /\ _ |- _ => destruct H
  end.

Ltac sat := repeat match goal with
  | H : R ?x ?y, H' : R ?y ?z |- _ =>
      lazymatch goal with _ : R x z |- _ => fail | _ => pose proof (Rtr x y z H H') end
  end; try match goal with H : R ?x ?x |- _ => destruct (Rirr _ H) end.

Lemma lit_gt_trans e1 e2 e3 : lit_gt val R e1 e2 -> lit_gt val R e2 e3 -> lit_gt val R e1 e3.
Proof.
  rewrite !lit_gt_spec. unfold gt_pp, gt_pn, gt_np, F4.
  generalize (val (lt e1)) (val (rt e1)) (val (lt e2)) (val (rt e2)) (val (lt e3)) (val (rt e3)). intros a b c d f g.
  destruct (pos e1), (pos e2), (pos e3); cbv zeta; intros H1 H2; split_all; subst; sat; auto 7.
Qed.

Lemma lit_gt_equiv_l e1 e2 e3 : lit_equiv val e1 e2 -> lit_gt val R e2 e3 -> lit_gt val R e1 e3.
Proof.
  rewrite !lit_gt_spec, lit_equiv_spec. unfold gt_pp, gt_pn, gt_np, F4.
  generalize (val (lt e1)) (val (rt e1)) (val (lt e2)) (val (rt e2)) (val (lt e3)) (val (rt e3)). intros a b c d f g.
  intros [-> H1]. destruct (pos e2), (pos e3); cbv zeta; intros H2; split_all; subst; auto 7.
Qed.
Lemma lit_gt_equiv_r e1 e2 e3 : lit_gt val R e1 e2 -> lit_equiv val e2 e3 -> lit_gt val R e1 e3.
Proof.
  rewrite !lit_gt_spec, lit_equiv_spec. unfold gt_pp, gt_pn, gt_np, F4.
  generalize (val (lt e1)) (val (rt e1)) (val (lt e2)) (val (rt e2)) (val (lt e3)) (val (rt e3)). intros a b c d f g.
  intros H1 [<- H2]. destruct (pos e1), (pos e2); cbv zeta; split_all; subst; auto 7.
Qed.
Lemma lit_equiv_refl e : lit_equiv val e e.
Proof. rewrite lit_equiv_spec. auto. Qed.
Lemma lit_equiv_sym e1 e2 : lit_equiv val e1 e2 -> lit_equiv val e2 e1.
Proof. rewrite !lit_equiv_spec. intros [A [[B C]|[B C]]]; auto. Qed.
Lemma lit_equiv_trans e1 e2 e3 : lit_equiv val e1 e2 -> lit_equiv val e2 e3 -> lit_equiv val e1 e3.
Proof. rewrite !lit_equiv_spec. intros [A [[B C]|[B C]]] [A' [[B' C']|[B' C']]]; split; try congruence; [left|right|right|left]; split; congruence. Qed.

(** What an answer means. *)
Definition answer_ok (gt : eqn -> eqn -> Prop) (e1 e2 : eqn) (c : cmp) : Prop :=
  match c with
  | Greater => gt e1 e2
  | Lesser => gt e2 e1
  | Equal => lit_equiv val e1 e2
  | Uncomparable => ~ gt e1 e2 /\ ~ gt e2 e1 /\ ~ lit_equiv val e1 e2
  end.

Variables (o : lord) (b : binding).
Definition term_answer (s t : term) (c : cmp) : Prop :=
  match c with
  | Greater => R (val s) (val t)
  | Lesser => R (val t) (val s)
  | Equal => val s = val t
  | Uncomparable => ~ R (val s) (val t) /\ ~ R (val t) (val s) /\ val s <> val t
  end.
(** [good]: the terms on which the comparison is known to be right (e.g. arities respected) *)
Variable good : term -> Prop.
Hypothesis Hdec : forall s t, good s -> good t -> term_answer s t (tcmp o b s t).
Definition good_lit (e : eqn) : Prop := good (lt e) /\ good (rt e).

Lemma answer_iff e1 e2 c (P Q T : Prop) : (lit_gt val R e1 e2 <-> P) -> (lit_gt val R e2 e1 <-> Q) -> (lit_equiv val e1 e2 <-> T) ->
  match c with Greater => P | Lesser => Q | Equal => T | Uncomparable => ~ P /\ ~ Q /\ ~ T end ->
  answer_ok (lit_gt val R) e1 e2 c.
Proof. intros A B C. unfold answer_ok. destruct c; tauto. Qed.

Lemma compare_pos_ok e1 e2 : good_lit e1 -> good_lit e2 -> pos e1 = pos e2 -> answer_ok (lit_gt val R) e1 e2 (compare_pos_eqns o b e1 e2).
Proof.
  intros [G1 G1'] [G2 G2'] Hp.
  assert (E1 : lit_gt val R e1 e2 <-> gt_pp e1 e2) by (rewrite lit_gt_spec, Hp; destruct (pos e2); tauto).
  assert (E2 : lit_gt val R e2 e1 <-> gt_pp e2 e1) by (rewrite lit_gt_spec, Hp; destruct (pos e2); tauto).
  assert (E3 : lit_equiv val e1 e2 <-> (val (lt e1) = val (lt e2) /\ val (rt e1) = val (rt e2)) \/ (val (lt e1) = val (rt e2) /\ val (rt e1) = val (lt e2)))
    by (rewrite lit_equiv_spec; tauto).
  apply (answer_iff _ _ _ _ _ _ E1 E2 E3).
  unfold gt_pp, F4, compare_pos_eqns.
  pose proof (Hdec (lt e1) (lt e2) G1 G2) as D1. pose proof (Hdec (rt e1) (rt e2) G1' G2') as D2.
  pose proof (Hdec (lt e1) (rt e2) G1 G2') as D3. pose proof (Hdec (rt e1) (lt e2) G1' G2) as D4.
  unfold term_answer in *.
  revert D1 D2 D3 D4.
  generalize (val (lt e1)) (val (rt e1)) (val (lt e2)) (val (rt e2)). intros x y z w.
  destruct (tcmp o b (lt e1) (lt e2)), (tcmp o b (rt e1) (rt e2)), (tcmp o b (lt e1) (rt e2)), (tcmp o b (rt e1) (lt e2));
    cbn; intros; split_all; subst; sat; try congruence; auto 8;
    try (repeat split; intros HH; split_all; subst; sat; try congruence; tauto).
Qed.

Lemma compare_posneg_ok e1 e2 : good_lit e1 -> good_lit e2 -> pos e1 = true -> pos e2 = false -> (ori e1 = true -> R (val (lt e1)) (val (rt e1))) ->
  answer_ok (lit_gt val R) e1 e2 (compare_poseqn_negeqn o b e1 e2).
Proof.
  intros [G1 G1'] [G2 G2'] P1 P2 HO.
  assert (E1 : lit_gt val R e1 e2 <-> gt_pn e1 e2) by (rewrite lit_gt_spec, P1, P2; tauto).
  assert (E2 : lit_gt val R e2 e1 <-> gt_np e2 e1) by (rewrite lit_gt_spec, P1, P2; tauto).
  assert (E3 : lit_equiv val e1 e2 <-> False) by (rewrite lit_equiv_spec, P1, P2; split; [intros [H _]; discriminate | tauto]).
  apply (answer_iff _ _ _ _ _ _ E1 E2 E3). clear E1 E2 E3.
  unfold gt_pn, gt_np, compare_poseqn_negeqn.
  pose proof (Hdec (lt e1) (lt e2) G1 G2) as D1. pose proof (Hdec (rt e1) (rt e2) G1' G2') as D2.
  pose proof (Hdec (lt e1) (rt e2) G1 G2') as D3. pose proof (Hdec (rt e1) (lt e2) G1' G2) as D4.
  unfold term_answer in *.
  revert HO D1 D2 D3 D4.
  generalize (val (lt e1)) (val (rt e1)) (val (lt e2)) (val (rt e2)). intros x y z w HO.
  destruct (ori e1); [specialize (HO eq_refl) | clear HO];
  destruct (tcmp o b (lt e1) (lt e2)), (tcmp o b (rt e1) (rt e2)), (tcmp o b (lt e1) (rt e2)), (tcmp o b (rt e1) (lt e2));
    cbn; intros; split_all; subst; sat; try congruence; auto 8;
    try (repeat split; intros HH; split_all; subst; sat; try congruence; tauto).
Qed.

Lemma answer_inv e1 e2 c : answer_ok (lit_gt val R) e1 e2 c -> answer_ok (lit_gt val R) e2 e1 (cmp_inv c).
Proof.
  destruct c; simpl; auto.
  - intros [A [B C]]. split; auto. split; auto. intros D. apply C. apply lit_equiv_sym; auto.
  - apply lit_equiv_sym.
Qed.

(** an oriented literal has its larger side on the left *)
Definition oriented_ok (e : eqn) : Prop := ori e = true -> R (val (lt e)) (val (rt e)).

Lemma literal_compare_ok e1 e2 : good_lit e1 -> good_lit e2 -> lcmp o = LCNormal -> pseudo e1 = pseudo e2 -> sel e1 = false -> sel e2 = false ->
  oriented_ok e1 -> oriented_ok e2 -> answer_ok (lit_gt val R) e1 e2 (literal_compare o b e1 e2).
Proof.
  intros G1 G2 HL HP S1 S2 O1 O2. unfold literal_compare. rewrite HP, S1, S2, HL.
  assert (HX : pseudo e2 && negb (pseudo e2) = false) by (destruct (pseudo e2); auto). rewrite HX. cbn [negb].
  unfold tfo_literal_compare. rewrite HL. destruct (Bool.eqb (pos e1) (pos e2)) eqn:Hp.
  - apply compare_pos_ok; auto. apply eqb_prop; auto.
  - apply eqb_false_iff in Hp. destruct (pos e1) eqn:P1.
    + apply compare_posneg_ok; auto. destruct (pos e2); congruence.
    + apply answer_inv. apply compare_posneg_ok; auto. destruct (pos e2); congruence.
Qed.

(** The answers exclude each other, so each answer is given exactly when it is right. *)
Lemma answer_exact e1 e2 c : answer_ok (lit_gt val R) e1 e2 c ->
  (c = Greater <-> lit_gt val R e1 e2) /\ (c = Lesser <-> lit_gt val R e2 e1) /\ (c = Equal <-> lit_equiv val e1 e2).
Proof.
  assert (X1 : lit_gt val R e1 e2 -> lit_gt val R e2 e1 -> False).
  { intros A B. apply (lit_gt_irrefl e1). eapply lit_gt_trans; eauto. }
  assert (X2 : lit_gt val R e1 e2 -> lit_equiv val e1 e2 -> False).
  { intros A B. apply (lit_gt_irrefl e1). eapply lit_gt_equiv_r; eauto. apply lit_equiv_sym; auto. }
  assert (X3 : lit_gt val R e2 e1 -> lit_equiv val e1 e2 -> False).
  { intros A B. apply (lit_gt_irrefl e2). eapply lit_gt_equiv_r; eauto. }
  destruct c; simpl; intros H; repeat split; intros; try discriminate; auto; exfalso; tauto.
Qed.
End Lits.

(** ** EqnListMaximalLiterals *)

(** A comparison of n things that comes from a partial order and an equivalence. *)
Record cmp_consistent (cmpl : nat -> nat -> cmp) (n : nat) : Prop := {
  cc_inv : forall i j, i < n -> j < n -> cmpl j i = cmp_inv (cmpl i j);
  cc_irr : forall i, i < n -> cmpl i i <> Greater;
  cc_gt_gt : forall i j k, i < n -> j < n -> k < n -> cmpl i j = Greater -> cmpl j k = Greater -> cmpl i k = Greater;
  cc_gt_eq : forall i j k, i < n -> j < n -> k < n -> cmpl i j = Greater -> cmpl j k = Equal -> cmpl i k = Greater }.

Section MaxProofs.
Variable cmpl : nat -> nat -> cmp.
Variable n : nat.
Hypothesis HC : cmp_consistent cmpl n.

Notation gtr i j := (cmpl i j = Greater).
Notation eqr i j := (cmpl i j = Equal).

Lemma c_less i j : i < n -> j < n -> cmpl i j = Lesser <-> gtr j i.
Proof. intros A B. rewrite (cc_inv _ _ HC i j A B). destruct (cmpl i j); simpl; split; congruence. Qed.
Lemma c_eqs i j : i < n -> j < n -> eqr i j -> eqr j i.
Proof. intros A B H. rewrite (cc_inv _ _ HC i j A B), H. reflexivity. Qed.
Lemma c_asym i j : i < n -> j < n -> gtr i j -> gtr j i -> False.
Proof. intros A B H H'. rewrite (cc_inv _ _ HC i j A B), H in H'. discriminate. Qed.

Lemma clr_false f i j : clr f i j = false <-> i = j \/ f j = false.
Proof. unfold clr. destruct (Nat.eqb_spec i j); split; intros; auto. destruct H; congruence. Qed.

Record inner_ok (cand : nat) (l : list nat) (sm : nat -> bool) (c : bool) (r : list nat) (sm' : nat -> bool) : Prop := {
  in_sub : forall h, In h r -> In h l;
  in_nodup : NoDup l -> NoDup r;
  in_drop : forall h, In h l -> ~ In h r -> gtr cand h /\ sm' h = false;
  in_keep : c = true -> forall h, In h r -> ~ gtr cand h /\ ~ gtr h cand /\ (eqr cand h -> sm' h = false /\ sm' cand = false);
  in_less : c = false -> sm' cand = false /\ exists h, In h r /\ gtr h cand;
  in_mono : forall i, sm i = false -> sm' i = false;
  in_why : forall i, sm' i = false -> sm i = false \/ exists j, In j (cand :: l) /\ j <> i /\ (gtr j i \/ eqr j i) }.

Lemma max_inner_ok cand : cand < n -> forall l sm c r sm', (forall h, In h l -> h < n) -> ~ In cand l ->
  max_inner cmpl cand l sm = (c, r, sm') -> inner_ok cand l sm c r sm'.
Proof.
  intros Hc. induction l as [|h l IH]; intros sm c r sm' Hl Hn H; cbn [max_inner] in H.
  - injection H as <- <- <-. constructor; simpl; auto; try tauto; try discriminate.
  - assert (Hh : h < n) by (apply Hl; simpl; auto). assert (Hl' : forall h, In h l -> h < n) by (intros; apply Hl; simpl; auto).
    assert (Hn' : ~ In cand l) by (intros X; apply Hn; simpl; auto).
    assert (Nh : cand <> h) by (intros X; apply Hn; simpl; auto).
    destruct (cmpl cand h) eqn:C.
    + (* Uncomparable *)
      destruct (max_inner cmpl cand l sm) as [[c1 r1] sm1] eqn:M. injection H as <- <- <-.
      destruct (IH _ _ _ _ Hl' Hn' M) as [S N D K L Mo W].
      constructor.
      * intros x [<-|Hx]; simpl; auto.
      * intros ND. inversion ND; subst. constructor; auto.
      * intros x [<-|Hx] Nx; [destruct Nx; simpl; auto | apply D; auto; intros X; apply Nx; simpl; auto].
      * intros E x [<-|Hx]; [|apply K; auto]. split; [congruence|]. split; [rewrite (cc_inv _ _ HC cand h Hc Hh), C; discriminate | congruence].
      * intros E. destruct (L E) as [A [x [B B']]]. split; auto. exists x. simpl; auto.
      * auto.
      * intros i Hi. destruct (W i Hi) as [A|[j [A B]]]; auto. right. exists j. split; auto. destruct A; simpl; auto.
    + (* Equal *)
      destruct (max_inner cmpl cand l (clr (clr sm h) cand)) as [[c1 r1] sm1] eqn:M. injection H as <- <- <-.
      destruct (IH _ _ _ _ Hl' Hn' M) as [S N D K L Mo W].
      assert (F1 : sm1 h = false) by (apply Mo; rewrite !clr_false; auto).
      assert (F2 : sm1 cand = false) by (apply Mo; rewrite !clr_false; auto).
      constructor.
      * intros x [<-|Hx]; simpl; auto.
      * intros ND. inversion ND; subst. constructor; auto.
      * intros x [<-|Hx] Nx; [destruct Nx; simpl; auto | apply D; auto; intros X; apply Nx; simpl; auto].
      * intros E x [<-|Hx]; [|apply K; auto]. split; [congruence|]. split; [rewrite (cc_inv _ _ HC cand h Hc Hh), C; discriminate | auto].
      * intros E. destruct (L E) as [A [x [B B']]]. split; auto. exists x. simpl; auto.
      * intros i Hi. apply Mo. rewrite !clr_false. auto.
      * intros i Hi. destruct (W i Hi) as [A|[j [A B]]]; [|right; exists j; split; auto; destruct A; simpl; auto].
        rewrite !clr_false in A. destruct A as [<-|[<-|A]]; auto; right.
        -- exists h. split; [simpl; auto|]. split; auto. right. apply c_eqs; auto.
        -- exists cand. simpl; auto.
    + (* Greater *)
      destruct (IH _ _ _ _ Hl' Hn' H) as [S N D K L Mo W].
      constructor; auto.
      * intros x Hx. simpl; auto.
      * intros ND. inversion ND; subst. auto.
      * intros x [<-|Hx] Nx; [|apply D; auto]. split; auto. apply Mo. rewrite clr_false; auto.
      * intros i Hi. apply Mo. rewrite clr_false; auto.
      * intros i Hi. destruct (W i Hi) as [A|[j [A B]]]; [|right; exists j; split; auto; destruct A; simpl; auto].
        rewrite clr_false in A. destruct A as [<-|A]; auto. right. exists cand. simpl; auto.
    + (* Lesser *)
      injection H as <- <- <-. constructor; auto; try discriminate.
      * intros x Hx Nx. contradiction.
      * intros _. split; [rewrite clr_false; auto|]. exists h. split; [simpl; auto|]. apply c_less; auto.
      * intros i Hi. rewrite clr_false; auto.
      * intros i Hi. rewrite clr_false in Hi. destruct Hi as [<-|Hi]; auto. right. exists h. split; [simpl; auto|].
        split; auto. left. apply c_less; auto.
Qed.

Record outer_inv (l : list nat) (sm : nat -> bool) (maxl : list nat) : Prop := {
  ou_nodup : NoDup l;
  ou_l : forall i, In i l -> i < n;
  ou_m : forall i, In i maxl -> i < n /\ ~ In i l;
  ou_rem : forall i, i < n -> ~ In i l -> ~ In i maxl -> sm i = false /\ exists j, In j (l ++ maxl) /\ gtr j i;
  ou_max : forall m j, In m maxl -> In j (l ++ maxl) -> ~ gtr j m /\ ~ gtr m j;
  ou_why : forall i, i < n -> sm i = false -> exists j, j < n /\ j <> i /\ (gtr j i \/ eqr j i);
  ou_eq : forall m j, In m maxl -> In j (l ++ maxl) -> j <> m -> eqr m j -> sm m = false /\ sm j = false }.

Lemma max_outer_ok : forall fuel l sm maxl, length l <= fuel -> outer_inv l sm maxl ->
  exists sm' maxl', max_outer cmpl fuel l sm maxl = Some (maxl', sm') /\ outer_inv [] sm' maxl'.
Proof.
  induction fuel as [|fuel IH]; intros l sm maxl Hf HI.
  - destruct l; [|simpl in Hf; lia]. exists sm, maxl. auto.
  - destruct l as [|cand rest]; [exists sm, maxl; auto|]. cbn [max_outer].
    destruct (max_inner cmpl cand rest sm) as [[c r] sm1] eqn:M.
    destruct HI as [ND L Mm Rm Mx W Eq].
    assert (Hc : cand < n) by (apply L; simpl; auto).
    assert (Hr : forall h, In h rest -> h < n) by (intros; apply L; simpl; auto).
    inversion ND as [|? ? Nc NDr]; subst.
    destruct (max_inner_ok cand Hc rest sm c r sm1 Hr Nc M) as [S N D K Ls Mo Wy].
    assert (Hsm : forall i, i < n -> sm1 i = false -> exists j, j < n /\ j <> i /\ (gtr j i \/ eqr j i)).
    { intros i Hi Fi. destruct (Wy i Fi) as [A|[j [A B]]]; auto. exists j. split; auto. }
    assert (Len : length r <= fuel).
    { pose proof (NoDup_incl_length (N NDr) S). simpl in Hf. lia. }
    destruct c.
    + (* accepted *)
      destruct (IH r sm1 (cand :: maxl) Len) as [sm' [maxl' [E I]]]; [|eauto].
      constructor; auto.
      * intros i [<-|Hi]; [split; auto; intros X; apply Nc; auto|]. destruct (Mm i Hi) as [A B]. split; auto.
        intros X. apply B. simpl; auto.
      * intros i Hi N1 N2. destruct (in_dec Nat.eq_dec i rest) as [Ir|Nr].
        { destruct (D i Ir N1) as [A B]. split; auto. exists cand. split; auto. apply in_or_app; simpl; auto. }
        destruct (Rm i Hi) as [A [j [B B']]].
        { intros [<-|X]; [apply N2; simpl; auto | auto]. }
        { intros X. apply N2. simpl; auto. }
        split; auto. apply in_app_or in B. destruct B as [[<-|B]|B].
        -- exists cand. split; auto. apply in_or_app; simpl; auto.
        -- destruct (in_dec Nat.eq_dec j r) as [Jr|Jn]; [exists j; split; auto; apply in_or_app; auto|].
           destruct (D j B Jn) as [G _]. exists cand. split; [apply in_or_app; simpl; auto|]. eapply (cc_gt_gt _ _ HC cand j i); auto.
        -- exists j. split; auto. apply in_or_app; simpl; auto.
      * intros m j [<-|Hm] Hj; apply in_app_or in Hj.
        -- destruct Hj as [Hj|[<-|Hj]].
           ++ destruct (K eq_refl j Hj) as [A [B _]]. auto.
           ++ split; apply (cc_irr _ _ HC); auto.
           ++ destruct (Mx j cand Hj) as [A B]; [simpl; auto|]. auto.
        -- destruct Hj as [Hj|[<-|Hj]].
           ++ apply Mx; auto. apply in_or_app. left. simpl. auto.
           ++ apply Mx; auto. simpl. auto.
           ++ apply Mx; auto. apply in_or_app. auto.
      * intros m j [<-|Hm] Hj Nj Ej; apply in_app_or in Hj.
        -- destruct Hj as [Hj|[<-|Hj]]; [|congruence|].
           ++ destruct (K eq_refl j Hj) as [_ [_ B]]. destruct (B Ej). auto.
           ++ destruct (Eq j cand Hj) as [A B]; simpl; auto. apply c_eqs; auto. apply Mm; auto.
        -- destruct Hj as [Hj|[<-|Hj]].
           ++ destruct (Eq m j Hm) as [A B]; auto. apply in_or_app. left. simpl. auto.
           ++ destruct (Eq m cand Hm) as [A B]; simpl; auto.
           ++ destruct (Eq m j Hm) as [A B]; auto. apply in_or_app. auto.
    + (* rejected *)
      destruct (Ls eq_refl) as [Fc [h [Hh Gh]]].
      destruct (IH r sm1 maxl Len) as [sm' [maxl' [E I]]]; [|eauto].
      constructor; auto.
      * intros i Hi. destruct (Mm i Hi) as [A B]. split; auto. intros X. apply B. simpl; auto.
      * intros i Hi N1 N2.
        assert (UP : forall j, j < n -> In j (cand :: rest) -> gtr j i -> exists j', In j' (r ++ maxl) /\ gtr j' i).
        { intros j Jn [<-|Jr] G.
          - exists h. split; [apply in_or_app; auto|]. eapply (cc_gt_gt _ _ HC h cand i); auto.
          - destruct (in_dec Nat.eq_dec j r) as [Jr'|Jn']; [exists j; split; auto; apply in_or_app; auto|].
            destruct (D j Jr Jn') as [G' _]. exists h. split; [apply in_or_app; auto|].
            apply (cc_gt_gt _ _ HC h cand i); auto. apply (cc_gt_gt _ _ HC cand j i); auto. }
        destruct (Nat.eq_dec i cand) as [->|Ni].
        { split; auto. exists h. split; auto. apply in_or_app; auto. }
        destruct (in_dec Nat.eq_dec i rest) as [Ir|Nr].
        { destruct (D i Ir N1) as [A B]. split; auto. apply (UP cand); simpl; auto. }
        destruct (Rm i Hi) as [A [j [B B']]]; auto. { intros [X|X]; auto. }
        split; auto. apply in_app_or in B. destruct B as [B|B].
        -- apply (UP j); auto.
        -- exists j. split; auto. apply in_or_app; auto.
      * intros m j Hm Hj. apply Mx; auto. apply in_app_or in Hj. apply in_or_app. destruct Hj; simpl; auto.
      * intros m j Hm Hj Nj Ej. destruct (Eq m j Hm) as [A B]; auto. apply in_app_or in Hj. apply in_or_app. destruct Hj; simpl; auto.
Qed.

(** Mathematical maximality among 0..n-1. *)
Definition maximal_idx (i : nat) : Prop := forall j, j < n -> ~ gtr j i.
Definition strictly_maximal_idx (i : nat) : Prop := forall j, j < n -> j <> i -> ~ gtr j i /\ ~ eqr j i.

Lemma max_flags : exists ml sm, max_outer cmpl n (seq 0 n) (fun _ => true) [] = Some (ml, sm)
  /\ forall i, i < n -> (In i ml <-> maximal_idx i) /\ (sm i = true <-> strictly_maximal_idx i)
  /\ (exists j, In j ml /\ (j = i \/ gtr j i)).
Proof.
  destruct (max_outer_ok n (seq 0 n) (fun _ => true) []) as [sm [ml [E I]]].
  { rewrite seq_length. auto. }
  { constructor; simpl; try tauto; try discriminate.
    - apply seq_NoDup.
    - intros i Hi. apply in_seq in Hi. lia.
    - intros i Hi Ni. destruct Ni. apply in_seq. lia. }
  exists ml, sm. split; auto. intros i Hi. destruct I as [_ _ Mm Rm Mx W Eq]. simpl in *.
  assert (HM : In i ml <-> maximal_idx i).
  { split.
    - intros Him j Hj G. destruct (in_dec Nat.eq_dec j ml) as [Jm|Jn]; [destruct (Mx i j); auto|].
      destruct (Rm j Hj (fun x => x)) as [_ [k [Hk Gk]]]; auto. destruct (Mx i k Him Hk) as [A _]. apply A.
      apply (cc_gt_gt _ _ HC k j i); auto. apply Mm; auto.
    - intros Hmx. destruct (in_dec Nat.eq_dec i ml) as [Im|In']; auto. exfalso.
      destruct (Rm i Hi (fun x => x) In') as [_ [k [Hk Gk]]]. apply (Hmx k); auto. apply Mm; auto. }
  split; [exact HM|]. split.
  - split.
    + intros Hs j Hj Nj.
      assert (Im : In i ml).
      { destruct (in_dec Nat.eq_dec i ml) as [Im|In']; auto. destruct (Rm i Hi (fun x => x) In') as [F _]. congruence. }
      split; [apply HM; auto|]. intros Ej.
      destruct (in_dec Nat.eq_dec j ml) as [Jm|Jn].
      * destruct (Eq i j Im Jm Nj) as [F _]; [apply c_eqs; auto|]. congruence.
      * destruct (Rm j Hj (fun x => x) Jn) as [_ [k [Hk Gk]]]. destruct (Mx i k Im Hk) as [A _]. apply A.
        apply (cc_gt_eq _ _ HC k j i); auto. apply Mm; auto.
    + intros Hs. destruct (sm i) eqn:F; auto. exfalso. destruct (W i Hi F) as [j [A [B C]]].
      destruct (Hs j A B). tauto.
  - destruct (in_dec Nat.eq_dec i ml) as [Im|In']; [exists i; auto|].
    destruct (Rm i Hi (fun x => x) In') as [_ [k [Hk Gk]]]. exists k. auto.
Qed.
End MaxProofs.

(** ** The flags of a literal list *)
Definition same_lit (e e' : eqn) : Prop :=
  lt e = lt e' /\ rt e = rt e' /\ pos e = pos e' /\ ori e = ori e' /\ uptodate e = uptodate e' /\ sel e = sel e' /\ pseudo e = pseudo e'.

Lemma existsb_nat i l : existsb (Nat.eqb i) l = true <-> In i l.
Proof.
  rewrite existsb_exists. split.
  - intros [x [A B]]. apply Nat.eqb_eq in B. subst; auto.
  - intros H. exists i. rewrite Nat.eqb_refl; auto.
Qed.

Section Flags.
Context {V : Type} (R : V -> V -> Prop).
Hypothesis Rirr : forall x, ~ R x x.
Hypothesis Rtr : forall x y z, R x y -> R y z -> R x z.
Variables (o : lord) (good : term -> Prop).
Hypothesis HL : lcmp o = LCNormal.

Definition decides (b : binding) (val : term -> V) : Prop :=
  forall s t, good s -> good t -> term_answer val R s t (tcmp o b s t).
(** literals of one clause, without literal selection *)
Definition plain_lits (val : term -> V) (ps : bool) (l : list eqn) : Prop :=
  forall e, In e l -> good_lit good e /\ pseudo e = ps /\ sel e = false /\ oriented_ok val R e.

Definition dfl : eqn := mkeqn ttrue ttrue true false false false false false false.

Lemma lits_answer b val ps l : decides b val -> plain_lits val ps l ->
  forall e1 e2, In e1 l -> In e2 l -> answer_ok val (lit_gt val R) e1 e2 (literal_compare o b e1 e2).
Proof.
  intros HD HP e1 e2 H1 H2. destruct (HP e1 H1) as [A1 [B1 [C1 D1]]]. destruct (HP e2 H2) as [A2 [B2 [C2 D2]]].
  apply (literal_compare_ok val R Rirr Rtr o b good); auto. congruence.
Qed.

Lemma lits_exact b val ps l : decides b val -> plain_lits val ps l -> forall e1 e2, In e1 l -> In e2 l ->
  (literal_compare o b e1 e2 = Greater <-> lit_gt val R e1 e2) /\ (literal_compare o b e1 e2 = Lesser <-> lit_gt val R e2 e1)
  /\ (literal_compare o b e1 e2 = Equal <-> lit_equiv val e1 e2).
Proof. intros HD HP e1 e2 H1 H2. apply answer_exact; auto. eapply lits_answer; eauto. Qed.

Lemma lits_consistent b val ps l : decides b val -> plain_lits val ps l ->
  cmp_consistent (fun i j => literal_compare o b (nth i l dfl) (nth j l dfl)) (length l).
Proof.
  intros HD HP. pose proof (lits_exact b val ps l HD HP) as E.
  assert (I : forall i, i < length l -> In (nth i l dfl) l) by (intros; apply nth_In; auto).
  split.
  - intros i j Hi Hj. pose proof (E _ _ (I i Hi) (I j Hj)) as [G [L Q]]. pose proof (E _ _ (I j Hj) (I i Hi)) as [G' [L' Q']].
    destruct (literal_compare o b (nth i l dfl) (nth j l dfl)) eqn:C; simpl.
    + destruct (literal_compare o b (nth j l dfl) (nth i l dfl)) eqn:C'; auto; exfalso.
      * destruct Q' as [Q' _]. destruct Q as [_ Q]. discriminate (Q (lit_equiv_sym _ _ _ (Q' eq_refl))).
      * destruct L as [_ L]. destruct G' as [G' _]. discriminate (L (G' eq_refl)).
      * destruct G as [_ G]. destruct L' as [L' _]. discriminate (G (L' eq_refl)).
    + apply Q'. apply lit_equiv_sym. apply Q; auto.
    + apply L'. apply G; auto.
    + apply G'. apply L; auto.
  - intros i Hi H. apply (E _ _ (I i Hi) (I i Hi)) in H. apply (lit_gt_irrefl val R Rirr Rtr _ H).
  - intros i j k Hi Hj Hk H1 H2. apply (E _ _ (I i Hi) (I j Hj)) in H1. apply (E _ _ (I j Hj) (I k Hk)) in H2.
    apply (E _ _ (I i Hi) (I k Hk)). eapply lit_gt_trans; eauto.
  - intros i j k Hi Hj Hk H1 H2. apply (E _ _ (I i Hi) (I j Hj)) in H1. apply (E _ _ (I j Hj) (I k Hk)) in H2.
    apply (E _ _ (I i Hi) (I k Hk)). eapply lit_gt_equiv_r; eauto.
Qed.

(** what the flags should say *)
Definition maximal_in (val : term -> V) (l : list eqn) (i : nat) : Prop :=
  forall j, j < length l -> j <> i -> ~ lit_gt val R (nth j l dfl) (nth i l dfl).
Definition strictly_maximal_in (val : term -> V) (l : list eqn) (i : nat) : Prop :=
  forall j, j < length l -> j <> i -> ~ lit_gt val R (nth j l dfl) (nth i l dfl) /\ ~ lit_equiv val (nth j l dfl) (nth i l dfl).

Lemma nth_combine_seq {B} (f : nat * eqn -> B) (d : B) l i k : i < length l ->
  nth i (map f (combine (seq k (length l)) l)) d = f (k + i, nth i l dfl).
Proof.
  revert i k. induction l as [|e l IH]; intros i k H; simpl in *; [lia|]. destruct i as [|i].
  - rewrite Nat.add_0_r. reflexivity.
  - rewrite IH by lia. f_equal. f_equal. lia.
Qed.

Lemma maximal_literals_ok b val ps l : decides b val -> plain_lits val ps l ->
  exists l', maximal_literals o b l = Some l' /\ length l' = length l /\
    forall i, i < length l ->
      same_lit (nth i l dfl) (nth i l' dfl)
      /\ (maxi (nth i l' dfl) = true <-> maximal_in val l i)
      /\ (smaxi (nth i l' dfl) = true <-> strictly_maximal_in val l i)
      /\ (maxi (nth i l' dfl) = false -> exists k, k < length l /\ maxi (nth k l' dfl) = true /\ lit_gt val R (nth k l dfl) (nth i l dfl)).
Proof.
  intros HD HP. pose proof (lits_consistent b val ps l HD HP) as HC. pose proof (lits_exact b val ps l HD HP) as E.
  assert (I : forall i, i < length l -> In (nth i l dfl) l) by (intros; apply nth_In; auto).
  destruct (max_flags _ _ HC) as [ml [sm [EQ HF]]].
  unfold maximal_literals. fold dfl. rewrite EQ. eexists. split; [reflexivity|]. split.
  { rewrite map_length, combine_length, seq_length. lia. }
  intros i Hi. rewrite nth_combine_seq by auto. cbn. destruct (HF i Hi) as [A1 [A2 A3]].
  split; [unfold same_lit; cbn; tauto|]. split; [|split].
  - rewrite existsb_nat, A1. split.
    + intros H j Hj Nj G. apply (H j Hj). apply E; auto.
    + intros H j Hj G. destruct (Nat.eq_dec j i) as [->|N]; [apply (cc_irr _ _ HC i Hi G)|]. apply (H j Hj N).
      apply (E _ _ (I j Hj) (I i Hi)). exact G.
  - rewrite A2. split; intros H j Hj N; destruct (H j Hj N) as [H1 H2]; split; intros G; [apply H1|apply H2|apply H1|apply H2];
      apply (E _ _ (I j Hj) (I i Hi)); exact G.
  - intros F. destruct (HF i Hi) as [_ [_ [k [Hk [->|G]]]]]; [apply existsb_nat in Hk; congruence|].
    assert (Kn : k < length l).
    { destruct (Nat.lt_ge_cases k (length l)) as [X|X]; auto. exfalso.
      rewrite (nth_overflow l dfl X) in G.
      destruct (max_outer_ok _ _ HC (length l) (seq 0 (length l)) (fun _ => true) []) as [sm2 [ml2 [E2 I2]]].
      { rewrite seq_length. auto. }
      { constructor; simpl; try tauto; try discriminate.
        - apply seq_NoDup.
        - intros x Hx. apply in_seq in Hx. lia.
        - intros x Hx Nx. destruct Nx. apply in_seq. lia. }
      rewrite EQ in E2. injection E2 as <- <-. pose proof (ou_m _ _ _ _ _ I2 k Hk). lia. }
    exists k. split; auto. split; [|apply (E _ _ (I k Kn) (I i Hi)); exact G].
    rewrite nth_combine_seq by auto. cbn. apply existsb_nat; auto.
Qed.

(** the two tests used after unification, as a property of indices *)
Lemma is_maximal_spec b e l : forall i, is_maximal o b l i e = true <->
  (forall j, j < length l -> j <> i -> maxi (nth j l dfl) = true -> literal_compare o b (nth j l dfl) e <> Greater).
Proof.
  induction l as [|h l IH]; intros i; cbn [is_maximal].
  - simpl. split; auto. intros _ j Hj. lia.
  - destruct i as [|i].
    + rewrite IH. split; intros H j Hj Nj.
      * destruct j as [|j]; [congruence|]. simpl in *. apply H; lia.
      * apply (H (S j)); simpl; lia.
    + destruct (maxi h && gt (literal_compare o b h e)) eqn:T.
      * apply andb_true_iff in T as [T1 T2]. split; [discriminate|]. intros H. exfalso.
        apply (H 0); simpl; try lia; auto. destruct (literal_compare o b h e); simpl in T2; congruence.
      * rewrite IH. split; intros H j Hj Nj.
        -- destruct j as [|j]; simpl; [|apply H; simpl in Hj; lia]. intros M C. rewrite M, C in T. discriminate.
        -- apply (H (S j)); simpl; lia.
Qed.
Lemma is_strictly_maximal_spec b e l : forall i, is_strictly_maximal o b l i e = true <->
  (forall j, j < length l -> j <> i -> maxi (nth j l dfl) = true ->
     literal_compare o b (nth j l dfl) e <> Greater /\ literal_compare o b (nth j l dfl) e <> Equal).
Proof.
  induction l as [|h l IH]; intros i; cbn [is_strictly_maximal].
  - simpl. split; auto. intros _ j Hj. lia.
  - destruct i as [|i].
    + rewrite IH. split; intros H j Hj Nj.
      * destruct j as [|j]; [congruence|]. simpl in *. apply H; lia.
      * apply (H (S j)); simpl; lia.
    + destruct (maxi h && ge (literal_compare o b h e)) eqn:T.
      * apply andb_true_iff in T as [T1 T2]. split; [discriminate|]. intros H. exfalso.
        destruct (H 0 ltac:(simpl; lia) ltac:(lia) T1) as [A B]. simpl in A, B. destruct (literal_compare o b h e); simpl in T2; congruence.
      * rewrite IH. split; intros H j Hj Nj.
        -- destruct j as [|j]; simpl; [|apply H; simpl in Hj; lia]. intros M. split; intros C; rewrite M, C in T; discriminate.
        -- apply (H (S j)); simpl; lia.
Qed.

(** flags computed under bindings b1 (values val1) and tests made under later bindings b2 (values
    val2, finer: instances) *)
Lemma tests_after_instantiation b1 val1 b2 val2 ps l l' :
  decides b1 val1 -> decides b2 val2 -> plain_lits val1 ps l ->
  (forall s t, good s -> good t -> R (val1 s) (val1 t) -> R (val2 s) (val2 t)) ->
  (forall s t, good s -> good t -> val1 s = val1 t -> val2 s = val2 t) ->
  maximal_literals o b1 l = Some l' ->
  forall i, i < length l' ->
    (is_maximal o b2 l' i (nth i l' dfl) = true <-> maximal_in val2 l' i)
    /\ (is_strictly_maximal o b2 l' i (nth i l' dfl) = true <-> strictly_maximal_in val2 l' i).
Proof.
  intros D1 D2 HP Hst Heq Hml i Hi.
  destruct (maximal_literals_ok b1 val1 ps l D1 HP) as [l1 [E1 [Len HF]]]. rewrite Hml in E1. injection E1 as <-.
  assert (HP2 : plain_lits val2 ps l').
  { intros e He. destruct (In_nth _ _ dfl He) as [k [Hk <-]]. rewrite Len in Hk.
    destruct (HF k Hk) as [[L [Rr [P [O [_ [S PS]]]]]] _]. destruct (HP (nth k l dfl) (nth_In _ _ Hk)) as [[G1 G2] [A [B C]]].
    unfold good_lit. rewrite <- L, <- Rr, <- S, <- PS. repeat split; auto.
    unfold oriented_ok in *. rewrite <- L, <- Rr, <- O. intros X. apply Hst; auto. }
  pose proof (lits_exact b2 val2 ps l' D2 HP2) as E.
  assert (I : forall j, j < length l' -> In (nth j l' dfl) l') by (intros; apply nth_In; auto).
  assert (UP : forall j, j < length l' -> maxi (nth j l' dfl) = false ->
     exists k, k < length l' /\ maxi (nth k l' dfl) = true /\ lit_gt val2 R (nth k l' dfl) (nth j l' dfl)).
  { intros j Hj F. rewrite Len in Hj. destruct (HF j Hj) as [SJ [_ [_ U]]]. destruct (U F) as [k [Hk [Mk Gk]]].
    exists k. rewrite Len. split; auto. split; auto. destruct (HF k Hk) as [SK _].
    destruct (HP _ (nth_In _ dfl Hk)) as [[K1 K2] _]. destruct (HP _ (nth_In _ dfl Hj)) as [[J1 J2] _].
    destruct SJ as [JL [JR [JP _]]]. destruct SK as [KL [KR [KP _]]].
    apply lit_gt_spec in Gk. apply lit_gt_spec.
    unfold gt_pp, gt_pn, gt_np, F4 in *. rewrite <- JL, <- JR, <- JP, <- KL, <- KR, <- KP.
    destruct (pos (nth k l dfl)), (pos (nth j l dfl));
      repeat match goal with
      | H : _ \/ _ |- _ => destruct H
      | H : _ /\ _ |- _ => destruct H
      | H : R (val1 _) (val1 _) |- _ => apply Hst in H; auto
      | H : val1 _ = val1 _ |- _ => apply Heq in H; auto
      end; auto 8. }
  split.
  - rewrite is_maximal_spec. split.
    + intros H j Hj Nj G. destruct (maxi (nth j l' dfl)) eqn:M.
      * apply (H j Hj Nj M). apply (E _ _ (I j Hj) (I i Hi)). exact G.
      * destruct (UP j Hj M) as [k [Hk [Mk Gk]]]. destruct (Nat.eq_dec k i) as [->|Nk].
        -- apply (lit_gt_irrefl val2 R Rirr Rtr (nth i l' dfl)). eapply lit_gt_trans; eauto.
        -- apply (H k Hk Nk Mk). apply (E _ _ (I k Hk) (I i Hi)). eapply lit_gt_trans; eauto.
    + intros H j Hj Nj M C. apply (H j Hj Nj). apply (E _ _ (I j Hj) (I i Hi)). exact C.
  - rewrite is_strictly_maximal_spec. split.
    + intros H j Hj Nj. destruct (maxi (nth j l' dfl)) eqn:M.
      * destruct (H j Hj Nj M) as [A B]. split; intros G; [apply A|apply B]; apply (E _ _ (I j Hj) (I i Hi)); exact G.
      * destruct (UP j Hj M) as [k [Hk [Mk Gk]]].
        assert (X : lit_gt val2 R (nth k l' dfl) (nth i l' dfl) -> False).
        { intros G. destruct (Nat.eq_dec k i) as [->|Nk]; [apply (lit_gt_irrefl val2 R Rirr Rtr _ G)|].
          destruct (H k Hk Nk Mk) as [A _]. apply A. apply (E _ _ (I k Hk) (I i Hi)). exact G. }
        split; intros G; apply X; [eapply lit_gt_trans; eauto | eapply lit_gt_equiv_r; eauto].
    + intros H j Hj Nj M. destruct (H j Hj Nj) as [A B]. split; intros C; [apply A|apply B]; apply (E _ _ (I j Hj) (I i Hi)); exact C.
Qed.

(** EqnOrient *)
Lemma eqn_orient_ok b val e : decides b val -> good_lit good e ->
  (lt e <> rt e -> lt e = ttrue -> R (val (rt e)) (val (lt e))) ->
  (lt e <> rt e -> rt e = ttrue -> R (val (lt e)) (val (rt e))) ->
  uptodate e = false ->
  let e' := eqn_orient o b e in
  uptodate e' = true /\ pos e' = pos e
  /\ ((lt e' = lt e /\ rt e' = rt e) \/ (lt e' = rt e /\ rt e' = lt e))
  /\ (ori e' = true <-> R (val (lt e)) (val (rt e)) \/ R (val (rt e)) (val (lt e)))
  /\ (ori e' = true -> R (val (lt e')) (val (rt e'))).
Proof.
  intros HD [G1 G2] T1 T2 U. unfold eqn_orient. rewrite U.
  pose proof (HD _ _ G1 G2) as A. unfold term_answer in A.
  destruct (term_eqb (lt e) (rt e)) eqn:Q1.
  { apply term_eqb_eq in Q1. cbn. repeat split; auto; try discriminate. rewrite Q1. intros [X|X]; destruct (Rirr _ X). }
  assert (N : lt e <> rt e) by (intros X; rewrite X, term_eqb_refl in Q1; discriminate).
  destruct (term_eqb (lt e) ttrue) eqn:Q2.
  { apply term_eqb_eq in Q2. cbn. repeat split; auto. }
  destruct (term_eqb (rt e) ttrue) eqn:Q3.
  { apply term_eqb_eq in Q3. cbn. repeat split; auto. }
  destruct (tcmp o b (lt e) (rt e)); cbn; repeat split; auto; try discriminate; try tauto.
  rewrite A. intros [X|X]; destruct (Rirr _ X).
Qed.
End Flags.
