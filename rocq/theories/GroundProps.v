(** C67: grounding preserves satisfiability. *)

From Coq Require Import ZArith List Bool Lia Arith.
From Verif Require Import Ground GroundSpec GroundProofs GroundHerbrand
  GroundConstr GroundOut.
Import ListNotations.
Local Open Scope Z_scope.

Lemma terms_ok : forall set consts fresh, constants_in set consts ->
  constants_in set (SigCollectConstantTerms consts fresh) /\
  exists t0, In t0 (SigCollectConstantTerms consts fresh).
Proof.
  intros set [|k consts] fresh H; cbn.
  - split; [|exists fresh; left; reflexivity].
    intros c l a A B C. destruct (H c l a A B C).
  - split; [exact H|exists k; left; reflexivity].
Qed.

Lemma complete_time : forall t, negb (Nat.eqb t 0) = true <-> t <> 0%nat.
Proof. intros t. rewrite negb_true_iff, Nat.eqb_neq. tauto. Qed.

(** The models of the file are the valuations that make all instances over
    the constants true. *)
Theorem C67_models : forall code ordv time o consts fresh set g,
  numbering code -> lists ordv -> constants_in set consts ->
  ClauseSetCreateGroundInstances code ordv time o consts fresh set = (g, true) ->
  forall v, model v (GroundSetPrintDimacs true g) <->
    true_instances code v (SigCollectConstantTerms consts fresh) set.
Proof.
  intros code ordv time o consts fresh set g NU OV CI H v.
  destruct (terms_ok set consts fresh CI) as [CI' (t0 & T0)].
  unfold ClauseSetCreateGroundInstances in H. cbv zeta in H.
  destruct (create _ _ _ _ _ _) as [g1 t] eqn:E. injection H as <- T.
  apply complete_time in T.
  rewrite (file_model v g1) by (eapply create_good; eauto using good_start;
                                apply NU).
  rewrite (true_instances_iff code _ set t0 T0).
  destruct (create_model code ordv OV o
    (fun _ _ => SigCollectConstantTerms consts fresh) set time g1 t E) as [A B].
  split; [intros G; apply (B T v G)|intros F; apply A; exact F].
Qed.

(** The file is satisfiable if and only if the clauses are. *)
Theorem C67_grounding : forall code ordv time o consts fresh set g,
  numbering code -> lists ordv -> constants_in set consts ->
  ClauseSetCreateGroundInstances code ordv time o consts fresh set = (g, true) ->
  (satisfiable set <-> sat_file (GroundSetPrintDimacs true g)).
Proof.
  intros code ordv time o consts fresh set g NU OV CI H.
  destruct (terms_ok set consts fresh CI) as [CI' (t0 & T0)].
  rewrite (herbrand code NU _ set CI' t0 T0). unfold sat_file.
  split; intros (v & K); exists v;
    apply (C67_models code ordv time o consts fresh set g NU OV CI H); exact K.
Qed.

(** With purity constraints as well. *)
Theorem C67_constraints : forall code ordv ordt time o consts fresh set g,
  numbering code -> lists ordv -> lists ordt -> constants_in set consts ->
  ClauseSetCreateConstrGroundInstances code ordv ordt time o consts fresh set
    = (g, true) ->
  (satisfiable set <-> sat_file (GroundSetPrintDimacs true g)).
Proof.
  intros code ordv ordt time o consts fresh set g NU OV OT CI H.
  destruct (terms_ok set consts fresh CI) as [CI' (t0 & T0)].
  rewrite (herbrand code NU _ set CI' t0 T0).
  rewrite (pure_ok code NU _ set CI' t0 T0).
  unfold ClauseSetCreateConstrGroundInstances in H. cbv zeta in H.
  destruct (create _ _ _ _ _ _) as [g1 t] eqn:E. injection H as <- T.
  apply complete_time in T.
  assert (G1 : good g1) by (eapply create_good; eauto using good_start; apply NU).
  destruct (create_model code ordv OV o
    (fun c x => ordt (vc (SigCollectConstantTerms consts fresh) set c x))
    set time g1 t E) as [A B].
  unfold sat_file. split; intros (v & K); exists v.
  - apply file_model; auto. apply A. intros c env C D. apply K; auto.
    intros x X. apply OT. apply D. exact X.
  - apply file_model in K; auto. intros c env C D. apply (B T v K); auto.
    intros x X. apply OT. apply D. exact X.
Qed.

(** If time or memory runs out, an unsatisfiable file still means that the
    clauses are unsatisfiable. *)
Theorem C67_incomplete : forall code ordv time o consts fresh set g ok,
  numbering code -> lists ordv -> constants_in set consts ->
  ClauseSetCreateGroundInstances code ordv time o consts fresh set = (g, ok) ->
  satisfiable set -> sat_file (GroundSetPrintDimacs true g).
Proof.
  intros code ordv time o consts fresh set g ok NU OV CI H SA.
  destruct (terms_ok set consts fresh CI) as [CI' (t0 & T0)].
  apply (herbrand code NU _ set CI' t0 T0) in SA. destruct SA as (v & K).
  unfold ClauseSetCreateGroundInstances in H. cbv zeta in H.
  destruct (create _ _ _ _ _ _) as [g1 t] eqn:E. injection H as <- _.
  exists v. apply file_model.
  { eapply create_good; eauto using good_start. apply NU. }
  destruct (create_model code ordv OV o
    (fun _ _ => SigCollectConstantTerms consts fresh) set time g1 t E) as [A _].
  apply A. apply (true_instances_iff code _ set t0 T0). exact K.
Qed.

Theorem C67_constraints_incomplete :
  forall code ordv ordt time o consts fresh set g ok,
  numbering code -> lists ordv -> lists ordt -> constants_in set consts ->
  ClauseSetCreateConstrGroundInstances code ordv ordt time o consts fresh set
    = (g, ok) ->
  satisfiable set -> sat_file (GroundSetPrintDimacs true g).
Proof.
  intros code ordv ordt time o consts fresh set g ok NU OV OT CI H SA.
  destruct (terms_ok set consts fresh CI) as [CI' (t0 & T0)].
  apply (herbrand code NU _ set CI' t0 T0) in SA.
  apply (pure_ok code NU _ set CI' t0 T0) in SA. destruct SA as (v & K).
  unfold ClauseSetCreateConstrGroundInstances in H. cbv zeta in H.
  destruct (create _ _ _ _ _ _) as [g1 t] eqn:E. injection H as <- _.
  exists v. apply file_model.
  { eapply create_good; eauto using good_start. apply NU. }
  destruct (create_model code ordv OV o
    (fun c x => ordt (vc (SigCollectConstantTerms consts fresh) set c x))
    set time g1 t E) as [A _].
  apply A. intros c env C D. apply K; auto.
  intros x X. apply OT. apply D. exact X.
Qed.

(** Given enough time, the set is complete. *)
Theorem C67_finishes : forall code ordv ordt o consts fresh set,
  exists enough, forall time, (enough < time)%nat ->
    snd (ClauseSetCreateGroundInstances code ordv time o consts fresh set) = true /\
    snd (ClauseSetCreateConstrGroundInstances code ordv ordt time o consts fresh set)
      = true.
Proof.
  intros code ordv ordt o consts fresh set.
  set (terms := SigCollectConstantTerms consts fresh).
  exists (cost (default_cells ordv terms) set +
          cost (constr_cells ordv ordt terms (table true set) (table false set)) set)%nat.
  intros time L. unfold ClauseSetCreateGroundInstances,
    ClauseSetCreateConstrGroundInstances. cbv zeta. fold terms. split.
  - destruct (create _ _ _ _ _ _) as [g t] eqn:E. cbn. apply complete_time.
    apply create_time in E. lia.
  - destruct (create _ _ _ _ _ _) as [g t] eqn:E. cbn. apply complete_time.
    apply create_time in E. lia.
Qed.

(** The header gives the number of clauses in the file and a bound of the
    variables; no clause is empty. *)
Theorem C67_header : forall code ordv ordt time o consts fresh set g ok,
  (forall p a, 0 < code p a) ->
  ClauseSetCreateGroundInstances code ordv time o consts fresh set = (g, ok) \/
  ClauseSetCreateConstrGroundInstances code ordv ordt time o consts fresh set
    = (g, ok) ->
  let (max_var, members) := PrintDimacsHeader g in
  let file := reads [] (GroundSetPrintDimacs true g) in
  Z.of_nat (length file) = members /\
  forall c, In c file -> c <> [] /\
    forall z, In z c -> 1 <= Z.abs z <= max_var.
Proof.
  intros code ordv ordt time o consts fresh set g ok CP H.
  assert (G : good g).
  { destruct H as [H|H];
    unfold ClauseSetCreateGroundInstances, ClauseSetCreateConstrGroundInstances in H;
    cbv zeta in H; destruct (create _ _ _ _ _ _) as [g1 t] eqn:E;
    injection H as <- _; eapply create_good; eauto using good_start. }
  pose proof (file_count g G) as N. pose proof (file_lines g G) as F.
  destruct (PrintDimacsHeader g) as [mv mb] eqn:E. cbv zeta. rewrite F.
  cbn [snd] in N. split; [exact N|]. intros c C. split.
  - intros ->. unfold lines in C. apply in_app_or in C. destruct C as [C|C].
    + apply in_map_iff in C. destruct C as (u & U & _). discriminate.
    + apply in_flat_map in C. destruct C as (k & _ & C).
      destruct k; cbn in C; intuition discriminate.
  - intros z Z. unfold PrintDimacsHeader in E. injection E as <- _.
    apply (lines_range g c z G C Z).
Qed.

(* ------------------------------------------------------------------ *)
(** * Concrete cases *)

(** A numbering. *)
Fixpoint enc (p k : positive) : positive :=
  match p with
  | xH => xI k
  | xO q => xO (xO (enc q k))
  | xI q => xO (xI (enc q k))
  end.

Definition zp (z : Z) : positive :=
  match z with Z0 => xH | Zpos p => xO p | Zneg p => xI p end.

Fixpoint encl (l : list Z) : positive :=
  match l with [] => xH | z :: r => enc (zp z) (encl r) end.

Definition number (p : Z) (a : list Z) : Z := Zpos (encl (p :: a)).

Lemma enc_inj : forall p q k m, enc p k = enc q m -> p = q /\ k = m.
Proof.
  induction p as [p IH|p IH|]; intros [q|q|] k m H; cbn in H;
    try discriminate; injection H as H.
  - apply IH in H. destruct H as [-> ->]. auto.
  - apply IH in H. destruct H as [-> ->]. auto.
  - auto.
Qed.

Lemma encl_inj : forall a b, encl a = encl b -> a = b.
Proof.
  induction a as [|x a IH]; intros [|y b] H; auto.
  - cbn in H. destruct (zp y); discriminate.
  - cbn in H. destruct (zp x); discriminate.
  - cbn [encl] in H. apply enc_inj in H. destruct H as [H1 H2].
    f_equal; auto. destruct x, y; cbn in H1; congruence.
Qed.

Example number_ok : numbering number.
Proof.
  split; [intros; reflexivity|]. intros p a q b H. injection H as H.
  apply (encl_inj (p :: a) (q :: b)) in H. injection H; auto.
Qed.

Definition idl {A} (l : list A) : list A := l.
Example idl_ok : forall A, lists (@idl A).
Proof. intros A l x. reflexivity. Qed.

Definition once : list nat -> list nat := nodup Nat.eq_dec.
Example once_ok : lists once.
Proof. intros l x. apply nodup_In. Qed.

Definition all_on : opts := mkopts true true true.

(** q(X,b) or not p(X); p(a) or p(b); not q(a,Y) or r(X,Y). *)
Definition some_clauses : list clause :=
  [[mklit true 2 [Var 0; Con 11]; mklit false 1 [Var 0]];
   [mklit true 1 [Con 10]; mklit true 1 [Con 11]];
   [mklit false 2 [Con 10; Var 1]; mklit true 3 [Var 0; Var 1]]].

Example some_constants : constants_in some_clauses [10; 11].
Proof.
  intros c l a A B C. cbn in A.
  destruct A as [<-|[<-|[<-|[]]]]; cbn in B; destruct B as [<-|[<-|[]]];
    cbn in C;
    repeat (destruct C as [C|C];
            [first [discriminate|injection C as <-; cbn; tauto]|]);
    destruct C.
Qed.

Example some_complete :
  snd (ClauseSetCreateGroundInstances number once 100 all_on [10; 11] 99 some_clauses)
    = true /\
  snd (ClauseSetCreateConstrGroundInstances number once idl 100 all_on [10; 11] 99
         some_clauses) = true /\
  length (g_non (fst (ClauseSetCreateGroundInstances number once 100 all_on
                        [10; 11] 99 some_clauses))) = 7%nat /\
  length (g_non (fst (ClauseSetCreateConstrGroundInstances number once idl 100 all_on
                        [10; 11] 99 some_clauses))) = 2%nat /\
  snd (ClauseSetCreateGroundInstances number once 3 all_on [10; 11] 99 some_clauses)
    = false.
Proof. vm_compute. repeat split. Qed.

(** p(X); not p(a): a refutation, by unit resolution. *)
Definition contradiction_ : list clause :=
  [[mklit true 1 [Var 0]]; [mklit false 1 [Con 10]]].

Example contradiction_out :
  GroundSetPrintDimacs true
    (fst (ClauseSetCreateGroundInstances number idl 100 all_on [10; 11] 99
            contradiction_)) = [-1; 0; 1; 0].
Proof. vm_compute. reflexivity. Qed.

(** Without constants. *)
Example no_constants :
  GroundSetPrintDimacs true
    (fst (ClauseSetCreateGroundInstances (fun p a => 10 * p + fold_right Z.add 0 a)
            idl 100 all_on [] 5 [[mklit true 1 [Var 0]; mklit false 2 [Var 0; Var 1]]]))
  = [15; -30; 0].
Proof. vm_compute. reflexivity. Qed.

(** With the option -o, ClausePrintDimacs() (lines 587, 591) writes the
    literals to stdout and only the final 0 to the file, which so contains
    an empty clause: a satisfiable problem becomes unsatisfiable. *)
Theorem C67_file_refuted : exists set g,
  constants_in set [10; 11] /\
  ClauseSetCreateGroundInstances number idl 100 all_on [10; 11] 99 set = (g, true) /\
  satisfiable set /\ ~ sat_file (GroundSetPrintDimacs false g).
Proof.
  exists [[mklit true 1 [Con 10]; mklit true 1 [Con 11]]].
  eexists. split; [|split; [vm_compute; reflexivity|split]].
  - intros c l a [<-|[]] B C. cbn in B. destruct B as [<-|[<-|[]]];
      cbn in C; destruct C as [C|[]]; injection C as <-; cbn; auto.
  - exists Z, 0, (fun c => c), (fun _ _ => true). intros c env [<-|[]].
    eexists. split; [left; reflexivity|reflexivity].
  - intros (v & M). destruct (M []) as (z & [] & _). vm_compute. left.
    reflexivity.
Qed.

Print Assumptions C67_models.
Print Assumptions C67_grounding.
Print Assumptions C67_constraints.
Print Assumptions C67_incomplete.
Print Assumptions C67_constraints_incomplete.
Print Assumptions C67_finishes.
Print Assumptions C67_header.
Print Assumptions C67_file_refuted.
