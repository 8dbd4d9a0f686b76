(** * Making a literal true wherever its clause is false: the limit of a fair sequence of changes (C51). *)
From Coq Require Import Classical.
From Verif Require Import Terms.
Local Open Scope nat_scope.

Lemma bool_neq (b s : bool) : b <> s -> b = negb s.
Proof. destruct b, s; intros H; auto; destruct H; auto. Qed.

Section Flip.
Context {X : Type}.
(** a ground literal: an atom that may change, or a fixed proposition *)
Inductive glit := GP (b : bool) (x : X) | GO (P : Prop).
Definition gtrue (q : X -> Prop) (g : glit) : Prop :=
  match g with GP true x => q x | GP false x => ~ q x | GO P => P end.
Lemma gneg q b x : gtrue q (GP (negb b) x) <-> ~ gtrue q (GP b x).
Proof. unfold gtrue. destruct b; cbn; [tauto|]. split; [tauto|apply NNPP]. Qed.

Variables (s : bool) (CI : X -> list glit -> Prop) (DI : list glit -> Prop) (sel : nat -> X -> Prop).
Definition wants (q : X -> Prop) (n : nat) (x : X) : Prop := sel n x /\ exists r, CI x r /\ ~ Exists (gtrue q) r.
Definition flip (q : X -> Prop) (n : nat) : X -> Prop := fun x => if s then q x \/ wants q n x else q x /\ ~ wants q n x.

Lemma flip_keeps q n x : gtrue q (GP s x) -> gtrue (flip q n) (GP s x).
Proof. unfold gtrue, flip. destruct s; [left; auto|]. intros H [A _]. auto. Qed.
Lemma flip_wanted q n x : wants q n x -> gtrue (flip q n) (GP s x).
Proof. unfold gtrue, flip. destruct s; auto. intros H [_ A]. auto. Qed.
Lemma flip_same q n x : ~ wants q n x -> (flip q n x <-> q x).
Proof. unfold flip. destruct s; tauto. Qed.

Variable q0 : X -> Prop.
Fixpoint Q (n : nat) : X -> Prop := match n with O => q0 | S m => flip (Q m) m end.
Definition lim (x : X) : Prop := if s then exists n, Q n x else forall n, Q n x.

Lemma Q_keeps x n m : n <= m -> gtrue (Q n) (GP s x) -> gtrue (Q m) (GP s x).
Proof. intros H G. induction H; auto. apply flip_keeps. auto. Qed.
Lemma Q_lim x n : gtrue (Q n) (GP s x) -> gtrue lim (GP s x).
Proof. unfold gtrue, lim. destruct s; [intros H; exists n; auto|]. intros H A. apply H. apply A. Qed.
Lemma lim_Q x : gtrue lim (GP s x) -> exists n, gtrue (Q n) (GP s x).
Proof. unfold gtrue, lim. destruct s; auto. intros H. apply not_all_ex_not. exact H. Qed.

Lemma false_eventually g : ~ gtrue lim g -> exists m, forall n, m <= n -> ~ gtrue (Q n) g.
Proof.
  intros H. destruct g as [b x|P]; [|exists 0; auto].
  destruct (Bool.bool_dec b s) as [->|D].
  - exists 0. intros n _ G. apply H. apply (Q_lim x n G).
  - pose proof (bool_neq b s D); subst b. rewrite gneg in H. apply NNPP in H.
    destruct (lim_Q x H) as [m G]. exists m. intros n L. rewrite gneg. intros A. apply A. apply (Q_keeps x m n L G).
Qed.
Lemma false_all r : ~ Exists (gtrue lim) r -> exists m, forall n, m <= n -> ~ Exists (gtrue (Q n)) r.
Proof.
  induction r as [|g r IH]; intros H; [exists 0; intros n _ A; inversion A|].
  destruct IH as [m1 H1]; [intros A; apply H; right; auto|].
  destruct (false_eventually g) as [m2 H2]; [intros A; apply H; left; auto|].
  exists (Nat.max m1 m2). intros n L A. inversion A; subst; [apply (H2 n); auto; lia|apply (H1 n); auto; lia].
Qed.
Lemma often r : (forall m, exists n, m <= n /\ Exists (gtrue (Q n)) r) -> Exists (gtrue lim) r.
Proof.
  intros H. apply NNPP. intros A. destruct (false_all r A) as [m B]. destruct (H m) as [n [L C]]. apply (B n L C).
Qed.

Theorem flip_limit :
  (forall D, DI D -> Exists (gtrue q0) D) ->
  (forall n q, (forall D, DI D -> Exists (gtrue q) D) -> forall D, DI D -> Exists (gtrue (flip q n)) D) ->
  (forall x m, exists n, m <= n /\ sel n x) ->
  (forall D, DI D -> Exists (gtrue lim) D) /\ forall x r, CI x r -> Exists (gtrue lim) (GP s x :: r).
Proof.
  intros H0 HS HF.
  assert (A : forall n D, DI D -> Exists (gtrue (Q n)) D) by (intros n; induction n; cbn [Q]; auto).
  split.
  - intros D HD. apply often. intros m. exists m. split; auto.
  - intros x r HC. destruct (classic (gtrue lim (GP s x))) as [L|L]; [left; auto|]. right. apply often.
    intros m. destruct (HF x m) as [n [Ln Sn]]. exists n. split; auto. apply NNPP. intros F. apply L. apply (Q_lim x (S n)).
    cbn [Q]. apply flip_wanted. split; auto. exists r. auto.
Qed.
End Flip.
