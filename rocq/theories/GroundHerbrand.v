(** Instances over the constants are enough. *)

From Coq Require Import ZArith List Bool Lia Arith.
From Verif Require Import Ground GroundSpec GroundProofs.
Import ListNotations.
Local Open Scope Z_scope.

Section S.
Variable code : Z -> list Z -> Z.
Hypothesis NU : numbering code.

Definition holds (v : Z -> bool) (env : nat -> Z) (c : clause) : Prop :=
  exists l, In l c /\
    v (code (l_pred l) (map (value (fun c => c) env) (l_args l))) = l_pos l.

Lemma var_in : forall c l x, In l c -> In (Var x) (l_args l) -> In x (vars c).
Proof.
  intros c l x A B. unfold vars. apply in_flat_map. exists l. split; auto.
  apply in_flat_map. exists (Var x). split; auto. left. reflexivity.
Qed.

Lemma ground_value : forall b env c,
  (forall x, In x (vars c) -> b x = Some (env x)) ->
  forall l, In l c ->
  map (ground_term b) (l_args l) = map (value (fun c => c) env) (l_args l).
Proof.
  intros b env c H l A. apply map_ext_in. intros [x|k] B; [|reflexivity].
  cbn. rewrite H; auto. eapply var_in; eauto.
Qed.

Lemma tc_holds : forall v b env c,
  (forall x, In x (vars c) -> b x = Some (env x)) ->
  (tc v (map (ground_lit code b) c) <-> holds v env c).
Proof.
  intros v b env c H. pose proof (ground_value b env c H) as G. split.
  - intros (x & A & B). apply in_map_iff in A. destruct A as (l & <- & A).
    exists l. split; auto. unfold tl, ground_lit in B. cbn in B.
    rewrite (G l A) in B. exact B.
  - intros (l & A & B). exists (ground_lit code b l). split; [apply in_map; exact A|].
    unfold tl, ground_lit. cbn. rewrite (G l A). exact B.
Qed.

Lemma holds_ext : forall v env env' c,
  (forall x, In x (vars c) -> env x = env' x) -> holds v env c -> holds v env' c.
Proof.
  intros v env env' c H (l & A & B). exists l. split; auto. rewrite <- B.
  do 2 f_equal. apply map_ext_in. intros [x|k] C; [|reflexivity].
  cbn. symmetry. apply H. eapply var_in; eauto.
Qed.

(** The cells of the clauses. *)
Definition cells (A : nat -> list Z) (vs : list nat) : list cell :=
  map (fun x => (x, A x)) vs.

Lemma pick : forall A env vs, (forall x, In x vs -> In (env x) (A x)) ->
  exists qs, valid (cells A vs) qs /\
    forall x, In x vs -> varsetinstapply (cells A vs) qs x = Some (env x).
Proof.
  induction vs as [|y vs IH]; intros H.
  - exists []. split; [exact I|intros x []].
  - destruct IH as (qs & V & Q); [intros x K; apply H; right; exact K|].
    destruct (In_nth_error (A y) (env y)) as (p & P).
    { apply H. left. reflexivity. }
    exists (p :: qs). cbn [cells map valid varsetinstapply]. split.
    + split; [apply nth_error_Some; congruence|exact V].
    + intros x K. destruct (Nat.eqb x y) eqn:E.
      * apply Nat.eqb_eq in E. subst x. exact P.
      * apply Q. destruct K as [K|K]; auto. subst x.
        rewrite Nat.eqb_refl in E. discriminate.
Qed.

Lemma got : forall A vs qs, valid (cells A vs) qs ->
  forall x, In x vs -> exists e,
    varsetinstapply (cells A vs) qs x = Some e /\ In e (A x).
Proof.
  induction vs as [|y vs IH]; intros [|q qs] V x K; cbn in V; try tauto;
    [destruct K|]. cbn [cells map varsetinstapply].
  destruct (Nat.eqb x y) eqn:E.
  - apply Nat.eqb_eq in E. subst x. destruct V as [V _].
    destruct (nth_error (A y) q) as [e|] eqn:F.
    + exists e. split; auto. eapply nth_error_In; eauto.
    + apply nth_error_None in F. lia.
  - apply IH; [tauto|]. destruct K as [K|K]; auto. subst x.
    rewrite Nat.eqb_refl in E. discriminate.
Qed.

(** All substitutions of a clause. *)
Lemma all_substs : forall v c A vs, (forall x, In x vs <-> In x (vars c)) ->
  ((forall qs, valid (cells A vs) qs -> tc v (at_ code c (cells A vs) qs)) <->
   (forall env, (forall x, In x (vars c) -> In (env x) (A x)) -> holds v env c)).
Proof.
  intros v c A vs VS. split.
  - intros H env E. destruct (pick A env vs) as (qs & V & Q).
    { intros x K. apply E. apply VS. exact K. }
    apply (tc_holds v (varsetinstapply (cells A vs) qs)); [|apply H; exact V].
    intros x K. apply Q. apply VS. exact K.
  - intros H qs V.
    set (env := fun x => match varsetinstapply (cells A vs) qs x with
                         | Some e => e | None => 0 end).
    apply (tc_holds v _ env).
    + intros x K. apply VS in K. destruct (got A vs qs V x K) as (e & E & _).
      unfold env. rewrite E. reflexivity.
    + apply H. intros x K. apply VS in K.
      destruct (got A vs qs V x K) as (e & E & F). unfold env. rewrite E.
      exact F.
Qed.

(* ------------------------------------------------------------------ *)
(** * Atoms *)

Fixpoint tuples (terms : list Z) (n : nat) : list (list Z) :=
  match n with
  | 0%nat => [[]]
  | S m => flat_map (fun r => map (fun t => t :: r) terms) (tuples terms m)
  end.

Lemma tuples_in : forall terms a, (forall z, In z a -> In z terms) ->
  In a (tuples terms (length a)).
Proof.
  induction a as [|z a IH]; intros H; cbn; [left; reflexivity|].
  apply in_flat_map. exists a. split.
  - apply IH. intros y K. apply H. right. exact K.
  - apply in_map_iff. exists z. split; auto. apply H. left. reflexivity.
Qed.

Definition atoms (terms : list Z) (set : list clause) : list (Z * list Z) :=
  flat_map (flat_map (fun l => map (fun a => (l_pred l, a))
                                   (tuples terms (length (l_args l))))) set.

(** A valuation by the atoms. *)
Definition by_atom (terms : list Z) (set : list clause)
  (f : Z -> list Z -> bool) (z : Z) : bool :=
  match find (fun pa => code (fst pa) (snd pa) =? z) (atoms terms set) with
  | Some (p, a) => f p a
  | None => false
  end.

Lemma by_atom_ok : forall terms set f c l env, In c set -> In l c ->
  (forall t, In t (l_args l) -> In (value (fun c => c) env t) terms) ->
  by_atom terms set f (code (l_pred l) (map (value (fun c => c) env) (l_args l))) =
  f (l_pred l) (map (value (fun c => c) env) (l_args l)).
Proof.
  intros terms set f c l env A B C. unfold by_atom.
  set (a := map (value (fun c => c) env) (l_args l)).
  destruct (find _ (atoms terms set)) as [[p q]|] eqn:E.
  - apply find_some in E. destruct E as [_ E]. cbn in E. apply Z.eqb_eq in E.
    apply NU in E. destruct E as [-> ->]. reflexivity.
  - exfalso. assert (K : In (l_pred l, a) (atoms terms set)).
    { unfold atoms. apply in_flat_map. exists c. split; auto.
      apply in_flat_map. exists l. split; auto. apply in_map.
      replace (length (l_args l)) with (length a)
        by (unfold a; apply map_length).
      apply tuples_in. intros z K. unfold a in K. apply in_map_iff in K.
      destruct K as (t & <- & K). apply C. exact K. }
    apply (find_none _ _ E) in K. cbn in K. rewrite Z.eqb_refl in K.
    discriminate.
Qed.

Section H.
Variable terms : list Z.
Variable set : list clause.
Hypothesis CI : constants_in set terms.
Variable t0 : Z.
Hypothesis T0 : In t0 terms.

Lemma args_in : forall c l env t, In c set -> In l c ->
  (forall x, In (env x) terms) -> In t (l_args l) ->
  In (value (fun c => c) env t) terms.
Proof.
  intros c l env [x|k] A B C D; cbn; auto. eapply CI; eauto.
Qed.

Lemma herbrand : satisfiable set <-> exists v, true_instances code v terms set.
Proof.
  split.
  - intros (D & d & con & pr & H).
    exists (by_atom terms set (fun p a => pr p (map con a))).
    intros c env A E. destruct (H c (fun x => con (env x)) A) as (l & B & C).
    exists l. split; auto. rewrite (by_atom_ok terms set _ c l env); auto.
    + rewrite <- C. f_equal. rewrite map_map. apply map_ext.
      intros [x|k]; reflexivity.
    + intros t K. eapply args_in; eauto.
  - intros (v & H).
    set (clamp := fun z => if existsb (Z.eqb z) terms then z else t0).
    assert (CL : forall z, In (clamp z) terms).
    { intros z. unfold clamp. destruct (existsb (Z.eqb z) terms) eqn:E; auto.
      apply existsb_exists in E. destruct E as (y & A & B).
      apply Z.eqb_eq in B. subst y. exact A. }
    exists Z, 0, (fun c => c), (fun p a => v (code p (map clamp a))).
    intros c env A. destruct (H c (fun x => clamp (env x)) A) as (l & B & C).
    { intros x. apply CL. }
    exists l. split; auto. rewrite <- C. do 2 f_equal. rewrite map_map.
    apply map_ext_in. intros [x|k] K; cbn; auto. unfold clamp.
    replace (existsb (Z.eqb k) terms) with true; auto. symmetry.
    apply existsb_exists. exists k. split; [eapply CI; eauto|apply Z.eqb_refl].
Qed.

(** Restriction to some constants does not matter for the variables that do
    not occur. *)
Lemma true_instances_iff : forall v, true_instances code v terms set <->
  forall c env, In c set -> (forall x, In x (vars c) -> In (env x) terms) ->
    holds v env c.
Proof.
  intros v. split.
  - intros H c env A B.
    apply (holds_ext v (fun x => if existsb (Nat.eqb x) (vars c) then env x else t0)).
    + intros x K. replace (existsb (Nat.eqb x) (vars c)) with true; auto.
      symmetry. apply existsb_exists. exists x. split; auto. apply Nat.eqb_refl.
    + apply H; auto. intros x. destruct (existsb (Nat.eqb x) (vars c)) eqn:E; auto.
      apply existsb_exists in E. destruct E as (y & K & F).
      apply Nat.eqb_eq in F. subst y. auto.
  - intros H c env A B. apply H; auto.
Qed.
End H.
End S.
