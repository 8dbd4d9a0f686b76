(** * C49: unfolding equational definitions neither loses nor invents consequences. *)
From Verif Require Import Terms Unify KBO Semantics Clauses ClausesProofs ExEnv Subsume Taut TautProofs Split Unfold UnfoldProofs.
Local Open Scope nat_scope.

Lemma normalize_cases E eno mx n off lim mc N P N' P' A :
  unfold_normalize eno mx n E off lim mc N P = Some (N', P', A) ->
  (off || (mc <? Z.of_nat (length N))%Z = true /\ N' = N /\ P' = P /\ A = [])
  \/ (off || (mc <? Z.of_nat (length N))%Z = false /\ exists N1, unfold_all E 1 lim N P = Some (N1, P', A)
      /\ (A = [] /\ N' = N1 \/ filter_taut eno mx n E N1 = Some N')).
Proof.
  unfold unfold_normalize. destruct (off || (mc <? Z.of_nat (length N))%Z).
  - intros [= <- <- <-]. left. auto.
  - destruct (unfold_all E 1 lim N P) as [[[N1 P1] A1]|]; [|discriminate]. right. split; auto. exists N1.
    destruct A1 as [|a A1]; [injection H as <- <- <-; auto|]. destruct (filter_taut eno mx n E N1); [|discriminate]. injection H as <- <- <-. auto.
Qed.

(** What remains follows from what was there, and is well-formed; so do the removed definitions.  A clause of the passive set is replaced
    by one that is equivalent to it in all models of the axioms. *)
Theorem C49_follows : forall E eno max_neg fuel off limit maxclauses N P N' P' A,
  Forall (clause_ok E) N -> Forall (clause_ok E) P -> env_ok E -> (forall s t, eno s = eno t -> s = t) ->
  unfold_normalize eno max_neg fuel E off limit maxclauses N P = Some (N', P', A) ->
  Forall (clause_ok E) N' /\ Forall (clause_ok E) P' /\ (forall c, In c (N' ++ A) -> follows E N c)
  /\ forall M, model_ok (srt E) (dist E) M -> satisfied E M N ->
       Forall2 (fun c c' => clause_true (srt E) M c <-> clause_true (srt E) M c') P P'.
Proof.
  intros E eno mx n off lim mc N P N' P' A ON OP HE HI H. apply normalize_cases in H. destruct H as [[_ [-> [-> ->]]]|[_ [N1 [H1 H2]]]].
  - split; auto. split; auto. split.
    + intros c Hc M HM HS. rewrite app_nil_r in Hc. apply HS. exact Hc.
    + intros M _ _. clear. induction P; constructor; auto. reflexivity.
  - apply loop_steps in H1; [|discriminate]. destruct H1 as [A1 [fs [-> H1]]]. cbn [List.app] in *.
    destruct (steps_follow E _ _ _ _ _ _ H1 ON OP) as [I1 [I2 I3]].
    assert (IN : incl N' N1).
    { destruct H2 as [[_ ->]|H2]; [apply incl_refl|]. apply (filter_taut_spec E eno mx n HE HI _ _ I1 H2). }
    split; [|split; [exact I2|split]].
    + unfold oks in I1. rewrite Forall_forall in *. auto.
    + intros c Hc M HM HS. destruct (I3 M HM HS) as [J1 [J2 _]]. apply in_app_iff in Hc. destruct Hc; auto.
    + intros M HM HS. apply (I3 M HM HS).
Qed.

(** Each removed clause defines a symbol that is gone afterwards, also from the passive set; and every model of what remains becomes a
    model of all the original clauses if just these symbols are reinterpreted.  The clauses of the passive set then say about the
    new model what their replacements say about the old one. *)
Theorem C49_models : forall E eno max_neg fuel off limit maxclauses N P N' P' A,
  Forall (clause_ok E) N -> Forall (clause_ok E) P -> env_ok E -> (forall s t, eno s = eno t -> s = t) ->
  unfold_normalize eno max_neg fuel E off limit maxclauses N P = Some (N', P', A) ->
  exists fs, Forall2 defines A fs
    /\ (forall f c, In f fs -> In c (N' ++ P') -> ~ occurs f c)
    /\ forall M, model_ok (srt E) (dist E) M -> satisfied E M N' ->
         exists M', model_ok (srt E) (dist E) M' /\ differ_only fs M M' /\ satisfied E M' N
           /\ Forall2 (fun c c' => clause_true (srt E) M' c <-> clause_true (srt E) M c') P P'.
Proof.
  intros E eno mx n off lim mc N P N' P' A ON OP HE HI H. apply normalize_cases in H. destruct H as [[_ [-> [-> ->]]]|[_ [N1 [H1 H2]]]].
  - exists []. split; [constructor|]. split; [intros f c []|]. intros M HM HS. exists M. split; auto.
    split; [exists (ifun M); split; [destruct M; reflexivity|reflexivity]|]. split; auto. clear. induction P; constructor; auto. reflexivity.
  - apply loop_steps in H1; [|discriminate]. destruct H1 as [A1 [fs [-> H1]]]. cbn [List.app] in *. exists fs.
    destruct (steps_follow E _ _ _ _ _ _ H1 ON OP) as [I1 _]. destruct (steps_syms E _ _ _ _ _ _ H1 ON OP) as [_ I2].
    split; [apply (steps_defines E _ _ _ _ _ _ H1)|].
    assert (F : incl N' N1 /\ forall M, model_ok (srt E) (dist E) M -> satisfied E M N' -> satisfied E M N1).
    { destruct H2 as [[_ ->]|H2]; [split; [apply incl_refl|auto]|]. apply (filter_taut_spec E eno mx n HE HI _ _ I1 H2). }
    destruct F as [F1 F2]. split.
    + intros f c Hf Hc. apply (I2 f c Hf). rewrite in_app_iff in *. destruct Hc; auto.
    + intros M HM HS. apply (steps_models E _ _ _ _ _ _ H1 ON OP M HM (F2 M HM HS)).
Qed.

Theorem C49_sat : forall E eno max_neg fuel off limit maxclauses N P N' P' A,
  Forall (clause_ok E) N -> Forall (clause_ok E) P -> env_ok E -> (forall s t, eno s = eno t -> s = t) ->
  unfold_normalize eno max_neg fuel E off limit maxclauses N P = Some (N', P', A) ->
  (sat E N <-> sat E N') /\ (unsat E N <-> unsat E N').
Proof.
  intros E eno mx n off lim mc N P N' P' A ON OP HE HI H.
  destruct (C49_follows _ _ _ _ _ _ _ _ _ _ _ _ ON OP HE HI H) as [_ [_ [HF _]]].
  destruct (C49_models _ _ _ _ _ _ _ _ _ _ _ _ ON OP HE HI H) as [fs [_ [_ HM']]].
  assert (D : forall M, model_ok (srt E) (dist E) M -> satisfied E M N -> satisfied E M N').
  { intros M HM HS c Hc. apply (HF c); auto. apply in_app_iff. auto. }
  split; split.
  - intros [M [HM HS]]. exists M. auto.
  - intros [M [HM HS]]. destruct (HM' M HM HS) as [M' [A1 [_ [A2 _]]]]. exists M'. auto.
  - intros U M HM HS. destruct (HM' M HM HS) as [M' [A1 [_ [A2 _]]]]. exact (U M' A1 A2).
  - intros U M HM HS. exact (U M HM (D M HM HS)).
Qed.

(** The search for definitions ends; every clause is kept (possibly changed) or taken away as a definition; the limits given on the
    command line are respected. *)
Theorem C49_terminates : forall E min_arity limit N P, unfold_all E min_arity limit N P <> None.
Proof. intros. apply loop_total. lia. Qed.
Theorem C49_limits : forall E eno max_neg fuel off limit maxclauses N P N' P' A,
  unfold_normalize eno max_neg fuel E off limit maxclauses N P = Some (N', P', A) ->
  Forall (grows_at_most limit) A /\ length N' + length A <= length N
  /\ (off = true \/ (maxclauses < Z.of_nat (length N))%Z -> N' = N /\ P' = P /\ A = []).
Proof.
  intros E eno mx n off lim mc N P N' P' A H. apply normalize_cases in H. destruct H as [[_ [-> [-> ->]]]|[G [N1 [H1 H2]]]].
  - split; auto. split; [cbn; lia|auto].
  - split; [|split].
    + apply loop_limit in H1; auto.
    + apply loop_steps in H1; [|discriminate]. destruct H1 as [A1 [fs [-> H1]]]. apply steps_defines in H1. destruct H1 as [_ H1]. cbn in *.
      assert (length N' <= length N1); [|lia]. destruct H2 as [[_ ->]|H2]; [lia|]. clear -H2. revert N' H2.
      induction N1 as [|c N1 IH]; intros N'; cbn [filter_taut]; [intros [= <-]; cbn; lia|].
      destruct (clause_is_tautology eno mx E n c) as [b| |]; try discriminate. destruct (filter_taut eno mx n E N1) as [r|]; [|discriminate].
      intros [= <-]. specialize (IH r eq_refl). destruct b; cbn; lia.
    + intros X. apply orb_false_iff in G. destruct G as [G1 G2]. apply Z.ltb_ge in G2. destruct X as [X|X]; [congruence|lia].
Qed.

(** Example: f(X) = g(X,X) and p(X) are unfolded; h(X,Y) = g(X,g(Y,a)) is too large for the limit 1; the last clause becomes a tautology. *)
Definition N49 : list clause :=
  [ [at0 (q0 (f0 a0) b0)]; [eq0 (f0 X0) (g0 X0 X0)]; [eq0 (h0 X0 Y0) (g0 X0 (g0 Y0 a0))];
    [nat0 (q0 (f0 (f0 X0)) (h0 X0 Y0)); nat0 (p0 Y0)]; [eq0 (g0 a0 X0) (f0 (f0 X0)); at0 (p0 (f0 X0))]; [at0 (p0 Z0)] ].
Fixpoint enum49 (t : term) : list nat := match t with Var x => [0; x] | Fun f a => [1; f; length a] ++ flat_map enum49 a end.
Lemma enum49_inj : forall t u l l', enum49 t ++ l = enum49 u ++ l' -> t = u /\ l = l'.
Proof.
  induction t as [x|f a IH] using term_ind'; intros [y|g b] l l' H; cbn in H; try discriminate.
  - injection H as -> ->. auto.
  - injection H as -> L H. assert (X : a = b /\ l = l'); [|destruct X as [-> ->]; auto]. revert b L l l' H.
    induction a as [|s a IHa]; intros [|t b] L l l' H; try discriminate; [auto|]. cbn in H. rewrite <- !app_assoc in H. inversion IH as [|? ? I1 I2]; subst.
    apply I1 in H. destruct H as [-> H]. apply IHa in H; auto. destruct H as [-> ->]. auto.
Qed.
Fixpoint pair49 (l : list nat) : positive := match l with [] => xH | n :: l' => Nat.iter n xI (xO (pair49 l')) end.
Lemma pair49_inj : forall l l', pair49 l = pair49 l' -> l = l'.
Proof.
  assert (NI : forall n m p q, Nat.iter n xI (xO p) = Nat.iter m xI (xO q) -> n = m /\ p = q).
  { induction n as [|n IH]; intros [|m] p q H; cbn in H; try discriminate; [injection H as ->; auto|]. injection H as H. apply IH in H. destruct H as [-> ->]. auto. }
  assert (N1 : forall n p, Nat.iter n xI (xO p) <> xH) by (intros [|n] p; discriminate).
  induction l as [|n l IH]; intros [|m l'] H; cbn in H; auto.
  - symmetry in H. apply N1 in H. destruct H.
  - apply N1 in H. destruct H.
  - apply NI in H. destruct H as [-> H]. apply IH in H. subst. reflexivity.
Qed.
Definition eno49 (t : term) : Z := Zpos (pair49 (enum49 t)).
Example C49_nonvacuous : Forall (clause_ok E0) N49 /\ env_ok E0 /\ (forall s t, eno49 s = eno49 t -> s = t)
  /\ unfold_normalize eno49 10 20 E0 false 1 1000 N49 [[eq0 (f0 c0) c0]]
     = Some ([ [at0 (q0 (g0 a0 a0) b0)]; [eq0 (h0 X0 Y0) (g0 X0 (g0 Y0 a0))]; [nat0 (q0 (g0 (g0 X0 X0) (g0 X0 X0)) (h0 X0 Y0))] ],
             [[eq0 (g0 c0 c0) c0]], [ [eq0 (f0 X0) (g0 X0 X0)]; [at0 (p0 Z0)] ])
  /\ (exists M, model_ok (srt E0) (dist E0) M) .
Proof.
  split; [apply Forall_forall; intros c Hc; repeat (destruct Hc as [<-|Hc]; [apply clause_okb; vm_compute; reflexivity|]); destruct Hc|]. split; [exact E0_ok|]. split.
  - intros s t H. unfold eno49 in H. injection H as H. apply pair49_inj in H. apply (enum49_inj s t [] []). rewrite !app_nil_r. exact H.
  - split; [vm_compute; reflexivity|]. exists M0. exact M0_ok.
Qed.

Print Assumptions C49_follows.
Print Assumptions C49_models.
Print Assumptions C49_sat.
Print Assumptions C49_terminates.
Print Assumptions C49_limits.
