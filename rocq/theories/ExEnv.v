(** * A concrete signature, environment and model for the examples beside the theorems. *)
From Verif Require Import Terms Unify KBO Semantics Clauses LitOrder.

(** Sort 0: truth values, sort 1: individuals.  Symbols: 1 $true, 2 $false, 3 4 5 constants a b c,
    6 unary f, 7 binary g, 8 unary predicate p, 9 binary h, 10 binary predicate q; all others
    constants of sort 1.  All variables have sort 1, fresh variables are the odd ones. *)
Definition S0 : sorting := {|
  vsort := fun _ => 1;
  fres := fun f => match f with 1 | 2 | 8 | 10 => 0 | _ => 1 end;
  fargs := fun f => match f with 6 | 8 => [1] | 7 | 9 | 10 => [1; 1] | _ => [] end |}.
Definition pp0 (f : sym) : bool := match f with 8 | 10 => true | _ => false end.
Definition dist0 (f : sym) : bool := Nat.eqb f 20 || Nat.eqb f 21.
Definition E0 : env := {| srt := S0; pp := pp0; dist := dist0; pspred := fun _ => false; fresh := fun _ k => Datatypes.S (2 * k) |}.

Lemma E0_ok : env_ok E0.
Proof.
  constructor; simpl; auto.
  - intros _ k. unfold is_fresh. rewrite <- Nat.negb_even. replace (Datatypes.S (k + (k + 0))) with (1 + 2 * k) by lia.
    rewrite Nat.even_add_mul_2. reflexivity.
  - intros _ k k' H. lia.
Qed.

Lemma S0_fo : fo_sorts S0 pp0.
Proof. intros f x H. do 11 (destruct f as [|f]; simpl in *; try discriminate). Qed.

Definition a0 := Fun 3 [].
Definition b0 := Fun 4 [].
Definition c0 := Fun 5 [].
Definition f0 t := Fun 6 [t].
Definition g0 s t := Fun 7 [s; t].
Definition p0 t := Fun 8 [t].
Definition h0 s t := Fun 9 [s; t].
Definition q0 s t := Fun 10 [s; t].
Definition X0 := Var 0.
Definition Y0 := Var 2.
Definition Z0 := Var 4.
Definition U0 := Var 6.
Definition W0 := Var 8.

Definition eq0 (l r : term) : eqn := mkeqn l r true false false false false false false.
Definition ne0 (l r : term) : eqn := mkeqn l r false false false false false false false.
Definition at0 (l : term) : eqn := eq0 l ttrue.
Definition nat0 (l : term) : eqn := ne0 l ttrue.

(** A model: natural numbers; 0 and 1 are the truth values and also individuals. *)
Definition M0 : structure := {|
  dom := nat;
  ifun := fun f args => match f with
          | 1 => 1 | 2 => 0
          | 8 => if Nat.even (nth 0 args 0) then 1 else 0
          | 10 => if Nat.leb (nth 0 args 0) (nth 1 args 0) then 1 else 0
          | 6 => Datatypes.S (Datatypes.S (nth 0 args 0))
          | 7 => nth 0 args 0 + nth 1 args 0
          | 9 => nth 0 args 0 + nth 1 args 0
          | _ => f
          end;
  isort := fun s d => match s with 0 => d = 0 \/ d = 1 | _ => True end |}.

Lemma M0_ok : model_ok S0 dist0 M0.
Proof.
  constructor.
  - intros f ds _. destruct f as [|[|[|[|[|[|[|[|[|[|[|f]]]]]]]]]]]; cbn; auto.
    + destruct (Nat.even _); auto.
    + destruct (Nat.leb _ _); auto.
  - intros [|s]; cbn; [exists 0; auto | exists 0; auto].
  - cbn. intros d [-> | ->]; auto.
  - cbn. discriminate.
  - intros d d'. cbn in *. destruct (Nat.eq_dec d d'); auto.
  - unfold dist0. intros f g Hf Hg N. apply orb_true_iff in Hf. apply orb_true_iff in Hg. rewrite !Nat.eqb_eq in *.
    destruct Hf as [-> | ->], Hg as [-> | ->]; cbn; congruence.
Qed.

(** An ordering in which nothing is comparable (so no inference is excluded). *)
Definition o0 : lord := {| tcmp := fun _ s t => if term_eqb s t then Equal else Uncomparable; lcmp := LCNormal; fcmp := fun _ _ => Uncomparable |}.

(** Deciding well-formedness of literals, for the examples. *)
Definition primaryb (t : term) : bool := forallb (fun x => negb (is_fresh x)) (vars t).
Definition eqn_okb (E : env) (e : eqn) : bool :=
  wfb (srt E) (lt e) && wfb (srt E) (rt e) && Nat.eqb (tsort (srt E) (lt e)) (tsort (srt E) (rt e))
  && primaryb (lt e) && primaryb (rt e).

Lemma primaryb_ok t : primaryb t = true -> primary t.
Proof. unfold primaryb. rewrite forallb_forall. intros H x Hx. apply negb_true_iff. auto. Qed.

Lemma clause_okb E c : forallb (eqn_okb E) c = true -> clause_ok E c.
Proof.
  rewrite forallb_forall. intros H. apply Forall_forall. intros e He. specialize (H e He). unfold eqn_okb in H.
  rewrite !andb_true_iff, Nat.eqb_eq in H. destruct H as [[[[A B] C] D] F].
  repeat split; auto using primaryb_ok.
Qed.
