(** Purity constraints. *)

From Coq Require Import ZArith List Bool Lia Arith.
From Verif Require Import Ground GroundSpec GroundProofs GroundHerbrand.
Import ListNotations.
Local Open Scope Z_scope.

Lemma in_z : forall z l, existsb (Z.eqb z) l = true <-> In z l.
Proof.
  intros z l. rewrite existsb_exists. split.
  - intros (y & A & B). apply Z.eqb_eq in B. subst y. exact A.
  - intros A. exists z. split; auto. apply Z.eqb_refl.
Qed.

Lemma arg_sub : forall tb p args i vc x z,
  In z (arg_constr tb p i args vc x) -> In z (vc x).
Proof.
  induction args as [|t args IH]; intros i vc x z H; [exact H|].
  cbn [arg_constr] in H. apply IH in H. destruct t as [y|k]; auto.
  destruct (constrained tb p i); auto. cbv zeta in H.
  destruct (Nat.eqb x y) eqn:E; auto. apply Nat.eqb_eq in E. subst x.
  apply filter_In in H. apply H.
Qed.

Lemma arg_in : forall tb p args i vc x z, In z (vc x) ->
  (forall j, nth_error args j = Some (Var x) ->
     constrained tb p (i + j) = true -> In z (constraints tb p (i + j))) ->
  In z (arg_constr tb p i args vc x).
Proof.
  induction args as [|t args IH]; intros i vc x z A B; [exact A|].
  cbn [arg_constr]. apply IH.
  - destruct t as [y|k]; auto. destruct (constrained tb p i) eqn:C; auto.
    cbv zeta. destruct (Nat.eqb x y) eqn:E; auto. apply Nat.eqb_eq in E.
    subst x. apply filter_In. split; auto. apply in_z.
    specialize (B 0%nat eq_refl). rewrite Nat.add_0_r in B. auto.
  - intros j J. specialize (B (S j) J). rewrite Nat.add_succ_r in B. exact B.
Qed.

Lemma clause_sub : forall pt nt c vc x z,
  In z (ClauseCollectVarConstr pt nt c vc x) -> In z (vc x).
Proof.
  induction c as [|l c IH]; intros vc x z H; [exact H|].
  cbn in H. apply IH in H. eapply arg_sub; eauto.
Qed.

Lemma clause_in : forall pt nt c vc x z, In z (vc x) ->
  (forall l j, In l c -> nth_error (l_args l) j = Some (Var x) ->
     constrained (if l_pos l then nt else pt) (l_pred l) j = true ->
     In z (constraints (if l_pos l then nt else pt) (l_pred l) j)) ->
  In z (ClauseCollectVarConstr pt nt c vc x).
Proof.
  induction c as [|l c IH]; intros vc x z A B; [exact A|].
  cbn. apply IH.
  - apply arg_in; auto. intros j J. apply B; auto. left. reflexivity.
  - intros k j K. apply B. right. exact K.
Qed.

(** An atom may occur in a literal of the table. *)
Fixpoint possible (tb : list entry) (p : Z) (i : nat) (a : list Z) : bool :=
  match a with
  | [] => true
  | z :: r => (negb (constrained tb p i) || existsb (Z.eqb z) (constraints tb p i))
              && possible tb p (S i) r
  end.

Lemma possible_nth : forall tb p a i j z, possible tb p i a = true ->
  nth_error a j = Some z -> constrained tb p (i + j) = true ->
  In z (constraints tb p (i + j)).
Proof.
  induction a as [|y a IH]; intros i j z P N C; [destruct j; discriminate|].
  cbn in P. apply andb_true_iff in P. destruct P as [P1 P2].
  destruct j as [|j].
  - rewrite Nat.add_0_r in *. cbn in N. injection N as ->. rewrite C in P1.
    cbn in P1. apply in_z. exact P1.
  - rewrite Nat.add_succ_r in *. apply (IH (S i) j z P2 N C).
Qed.

Lemma here_refl : forall p i t, here p i (p, i, t) = true.
Proof. intros. cbn. rewrite Z.eqb_refl, Nat.eqb_refl. reflexivity. Qed.

Lemma occurs : forall tb p env args i,
  (forall j t, nth_error args j = Some t -> In (p, (i + j)%nat, t) tb) ->
  possible tb p i (map (value (fun c => c) env) args) = true.
Proof.
  induction args as [|t args IH]; intros i H; [reflexivity|].
  cbn [map possible]. apply andb_true_iff. split.
  - specialize (H 0%nat t eq_refl). rewrite Nat.add_0_r in H.
    destruct t as [x|k]; cbn [value].
    + apply orb_true_iff. left. unfold constrained. rewrite negb_involutive.
      apply existsb_exists. exists (p, i, Var x). split; auto.
      rewrite here_refl. reflexivity.
    + apply orb_true_iff. right. apply in_z. unfold constraints.
      apply in_flat_map. exists (p, i, Con k). split; auto.
      rewrite here_refl. left. reflexivity.
  - apply IH. intros j u J. specialize (H (S j) u J).
    rewrite Nat.add_succ_r in H. exact H.
Qed.

Lemma entries_in : forall p args i j t, nth_error args j = Some t ->
  In (p, (i + j)%nat, t) (lit_entries p i args).
Proof.
  induction args as [|u args IH]; intros i [|j] t H; cbn in H; try discriminate.
  - injection H as ->. rewrite Nat.add_0_r. left. reflexivity.
  - right. rewrite Nat.add_succ_r. apply (IH (S i) j t H).
Qed.

Lemma own_possible : forall set c l env, In c set -> In l c ->
  possible (table (l_pos l) set) (l_pred l) 0
    (map (value (fun c => c) env) (l_args l)) = true.
Proof.
  intros set c l env A B. apply occurs. intros j t J. unfold table.
  apply in_flat_map. exists c. split; auto. apply in_flat_map. exists l.
  split; auto. rewrite eqb_reflx. apply (entries_in _ _ 0). exact J.
Qed.

Section S.
Variable code : Z -> list Z -> Z.
Hypothesis NU : numbering code.
Variable terms : list Z.
Variable set : list clause.
Hypothesis CI : constants_in set terms.
Variable t0 : Z.
Hypothesis T0 : In t0 terms.

Definition vc (c : clause) (x : nat) : list Z :=
  ClauseCollectVarConstr (table true set) (table false set) c (fun _ => terms) x.

Lemma pure_ok :
  (exists v, true_instances code v terms set) <->
  (exists v, forall c env, In c set ->
     (forall x, In x (vars c) -> In (env x) (vc c x)) -> holds code v env c).
Proof.
  split.
  - intros (v & H). exists v. intros c env A B.
    apply (proj1 (true_instances_iff code terms set t0 T0 v) H); auto.
    intros x K. apply B in K. unfold vc in K. apply clause_sub in K. exact K.
  - intros (v & H).
    exists (by_atom code terms set (fun p a =>
      if negb (possible (table false set) p 0 a) then true
      else if negb (possible (table true set) p 0 a) then false
      else v (code p a))).
    intros c env A E.
    assert (BA : forall f l, In l c ->
      by_atom code terms set f
        (code (l_pred l) (map (value (fun c => c) env) (l_args l))) =
      f (l_pred l) (map (value (fun c => c) env) (l_args l))).
    { intros f l B. apply (by_atom_ok code NU terms set f c l env); auto.
      intros t K. eapply args_in; eauto. }
    destruct (existsb (fun l => negb (possible (table (negb (l_pos l)) set)
                (l_pred l) 0 (map (value (fun c => c) env) (l_args l)))) c) eqn:P.
    + apply existsb_exists in P. destruct P as (l & B & P).
      exists l. split; auto. rewrite BA; auto.
      pose proof (own_possible set c l env A B) as O.
      destruct (l_pos l); cbn [negb] in P.
      * rewrite P. reflexivity.
      * rewrite O, P. reflexivity.
    + assert (PO : forall l, In l c ->
        possible (table (negb (l_pos l)) set) (l_pred l) 0
          (map (value (fun c => c) env) (l_args l)) = true).
      { intros l B. apply negb_false_iff. apply not_true_is_false. intros F.
        assert (existsb (fun l => negb (possible (table (negb (l_pos l)) set)
                (l_pred l) 0 (map (value (fun c => c) env) (l_args l)))) c = true)
          by (apply existsb_exists; exists l; auto).
        congruence. }
      destruct (H c env A) as (l & B & C).
      * intros x K. unfold vc. apply clause_in; auto.
        intros l j B J G.
        replace (if l_pos l then table false set else table true set)
          with (table (negb (l_pos l)) set) in * by (destruct (l_pos l); auto).
        apply (possible_nth _ _ _ 0 j (env x) (PO l B)); auto.
        rewrite nth_error_map, J. reflexivity.
      * exists l. split; auto. rewrite BA; auto.
        pose proof (own_possible set c l env A B) as O.
        pose proof (PO l B) as O2.
        destruct (l_pos l); cbn [negb] in O2; rewrite O, O2; exact C.
Qed.
End S.

(* ------------------------------------------------------------------ *)
(** * The runs *)

Section R.
Variable code : Z -> list Z -> Z.
Variable ordv : list nat -> list nat.
Variable ordt : list Z -> list Z.
Hypothesis OV : lists ordv.
Hypothesis OT : lists ordt.

Lemma create_model : forall o (A : clause -> nat -> list Z) set time g t,
  create code time o (fun c => cells (A c) (ordv (vars c))) set GroundSetAlloc
    = (g, t) ->
  (forall v, (forall c env, In c set ->
      (forall x, In x (vars c) -> In (env x) (A c x)) -> holds code v env c) ->
    gmodel v g) /\
  (t <> 0%nat -> forall v, gmodel v g -> forall c env, In c set ->
      (forall x, In x (vars c) -> In (env x) (A c x)) -> holds code v env c).
Proof.
  intros o A set time g t H. apply create_ok in H.
  destruct H as (P1 & _ & P3). split.
  - intros v H. apply P1.
    + split; intros ? [].
    + intros c qs B. revert qs. apply all_substs; [intros x; apply OV|].
      intros env E. apply H; auto.
  - intros T v G c env B. revert env. apply (all_substs code v c (A c) (ordv (vars c))).
    + intros x. apply OV.
    + intros qs V. apply (P3 T v G c qs B V).
Qed.

Fixpoint cost (alts : clause -> list cell) (set : list clause) : nat :=
  match set with
  | [] => 0
  | c :: r => match varsetinstinitialize (alts c) with
              | Some ps => S (idx (alts c) ps)
              | None => 0
              end + cost alts r
  end.

Lemma create_time : forall o alts set time g g' t,
  create code time o alts set g = (g', t) -> (time <= t + cost alts set)%nat.
Proof.
  intros o alts. induction set as [|c set IH]; intros time g g' t H;
    cbn [create cost] in *.
  - injection H as <- <-. lia.
  - destruct time as [|n]; [injection H as <- <-; lia|].
    pose proof (init_ok (alts c)) as IN.
    destruct (varsetinstinitialize (alts c)) as [ps|].
    + destruct IN as [V _].
      destruct (instances code (S n) o c (alts c) ps g) as [[g1 r1] t1] eqn:E.
      apply instances_ok in E; auto. destruct E as (_ & _ & _ & _ & P5).
      destruct r1.
      * apply IH in H. lia.
      * injection H as <- <-. lia.
    + apply IH in H. lia.
Qed.
End R.
