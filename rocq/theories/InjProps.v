(** * C50: replacing injectivity axioms by inverse functions preserves satisfiability. *)
From Verif Require Import Terms Unify KBO Semantics Clauses ClausesProofs ExEnv Subsume Split SplitSemProofs Unfold UnfoldProofs Inj InjProofs.
Local Open Scope nat_scope.

(** [E] is the signature in the end: it contains the new symbols as they were declared ([decl_in]); the codes of the symbols in the clauses are below the
    first new code [n].  [known] is the answer of the search for an earlier renaming of the same definition. *)

(** The result is well-formed, has as many clauses as before, and implies all the clauses replaced. *)
Theorem C50_follows : forall E internal known n N N' A ds, env_ok E -> 2 < n -> Forall (clause_ok E) N -> Forall (below n) N ->
  replace_injectivity_defs E internal known n N = (N', A, ds) -> Forall (decl_in E) ds ->
  Forall (clause_ok E) N' /\ length N' = length N /\ incl A N /\ (forall c, In c N -> In c A \/ In c N') /\ forall c, In c N -> follows E N' c.
Proof.
  intros E internal known n N N' A ds HE N2 OK BL H DC. rewrite <- (app_nil_r N) in OK, BL.
  destruct (replace_spec E internal known n HE N n [] N' A ds N2 H OK BL DC) as (I1 & I2 & _ & I4 & I5 & _ & I7 & _).
  split; auto. split; [cbn in I5; lia|]. split; auto. split; auto. intros c Hc M HM HS. apply (I7 M HM HS). apply in_app_iff. auto.
Qed.

(** Every model of the clauses becomes a model of the result by interpreting the new symbols only; they are new. *)
Theorem C50_models : forall E internal known n N N' A ds, env_ok E -> 2 < n -> Forall (clause_ok E) N -> Forall (below n) N ->
  replace_injectivity_defs E internal known n N = (N', A, ds) -> Forall (decl_in E) ds ->
  (forall d, In d ds -> n <= dcl_sym d)
  /\ forall M, model_ok (srt E) (dist E) M -> satisfied E M N ->
       exists M', model_ok (srt E) (dist E) M' /\ differ_only (map dcl_sym ds) M M' /\ satisfied E M' N'.
Proof.
  intros E internal known n N N' A ds HE N2 OK BL H DC. rewrite <- (app_nil_r N) in OK, BL.
  destruct (replace_spec E internal known n HE N n [] N' A ds N2 H OK BL DC) as (_ & _ & _ & _ & _ & I6 & _ & I8).
  split; [apply Forall_forall; exact I6|]. intros M HM HS. rewrite app_nil_r in I8. destruct (I8 M HM HS) as [F [J1 [J2 J3]]].
  exists (mk (dom M) (isort M) F). split; auto. split; auto. exists F. split; [reflexivity|]. exact J2.
Qed.

Theorem C50_sat : forall E internal known n N N' A ds, env_ok E -> 2 < n -> Forall (clause_ok E) N -> Forall (below n) N ->
  replace_injectivity_defs E internal known n N = (N', A, ds) -> Forall (decl_in E) ds ->
  (sat E N <-> sat E N') /\ (unsat E N <-> unsat E N').
Proof.
  intros E internal known n N N' A ds HE N2 OK BL H DC.
  destruct (C50_follows E internal known n N N' A ds HE N2 OK BL H DC) as (_ & _ & _ & _ & X).
  destruct (C50_models E internal known n N N' A ds HE N2 OK BL H DC) as (_ & Y).
  assert (X' : forall M, model_ok (srt E) (dist E) M -> satisfied E M N' -> satisfied E M N) by (intros M HM HS c Hc; apply (X c Hc M HM HS)).
  split; split.
  - intros [M [HM HS]]. destruct (Y M HM HS) as [M' [A1 [_ A2]]]. exists M'. auto.
  - intros [M [HM HS]]. exists M. auto.
  - intros U M HM HS. apply (U M HM). auto.
  - intros U M HM HS. destruct (Y M HM HS) as [M' [A1 [_ A2]]]. exact (U M' A1 A2).
Qed.

(** Example: f is injective, g is injective in its second argument; the third clause is no injectivity axiom. *)
Definition E50 : env := {| srt := {| vsort := vsort S0; fres := fres S0; fargs := fun f => if Nat.eqb f 30 then [1] else if Nat.eqb f 31 then [1; 1] else fargs S0 f |};
  pp := pp0; dist := dist0; pspred := fun _ => false; fresh := fresh E0 |}.
Definition N50 : list clause :=
  [ [eq0 X0 Y0; ne0 (f0 X0) (f0 Y0)]; [eq0 Z0 X0; ne0 (g0 Y0 X0) (g0 Y0 Z0)]; [eq0 X0 Y0; ne0 (g0 X0 Y0) (g0 Y0 X0)]; [at0 (p0 a0)] ].
Example C50_nonvacuous : env_ok E50 /\ Forall (clause_ok E50) N50 /\ Forall (below 30) N50
  /\ exists ds, replace_injectivity_defs E50 2 (fun _ _ => false) 30 N50
     = ([ [eq0 X0 Y0; ne0 (g0 X0 Y0) (g0 Y0 X0)]; [at0 (p0 a0)]; [eq0 (Fun 30 [f0 X0]) X0]; [eq0 (Fun 31 [Y0; g0 Y0 X0]) X0] ],
        [ [eq0 X0 Y0; ne0 (f0 X0) (f0 Y0)]; [eq0 Z0 X0; ne0 (g0 Y0 X0) (g0 Y0 Z0)] ], ds)
  /\ Forall (decl_in E50) ds.
Proof.
  split; [destruct E0_ok; constructor; auto|]. split.
  - apply Forall_forall. intros c Hc. repeat (destruct Hc as [<-|Hc]; [apply clause_okb; vm_compute; reflexivity|]). destruct Hc.
  - split.
    + apply Forall_forall. intros c Hc e f He Hf. repeat (destruct Hc as [<-|Hc]; [repeat (destruct He as [<-|He]; [cbn in Hf; unfold true_code in *; lia|]); destruct He|]). destruct Hc.
    + eexists. split; [vm_compute; reflexivity|]. repeat constructor.
Qed.

Print Assumptions C50_follows.
Print Assumptions C50_models.
Print Assumptions C50_sat.
