(** * C59: proof objects.  Model and specification: Derivation.v. *)
From Coq Require Import String Ascii List ZArith NArith Lia Bool Arith.
From Verif Require Import Sig SigProofs Derivation DerivationProofs DerivLoops DerivMain DerivHist.
Import ListNotations.
Local Open Scope nat_scope.
Local Open Scope list_scope.

(** ** Recording *)
(** Whatever happens to clauses and formulas, their derivation stacks can be read, name only AC axioms that exist, and no step rests on itself. *)
Theorem C59_history : forall ac H, history (ac, H) -> heap_ok ac H.
Proof. exact history_ok. Qed.
Print Assumptions C59_history.
(** What is recorded is read back, after what was recorded before. *)
Theorem C59_recorded : forall ac H n o a1 a2 fs, history (ac, H) -> In o codes ->
  arg_ok Arg1Cnf Arg1Fof o a1 = true -> arg_ok Arg2Cnf Arg2Fof o a2 = true -> H n <> Some [CInt DCIntroDef] ->
  frames (match H n with Some l => l | None => [] end) = Some fs ->
  frames (push_deriv (H n) o a1 a2) =
    Some (fs ++ [mkfr o (match a1 with Some p => ANode (node_of Arg1Cnf o p) | None => ANone end)
                        (match a2 with Some p => ANode (node_of Arg2Cnf o p) | None => ANone end)]).
Proof.
  intros ac H n o a1 a2 fs Hs IO A1 A2 NI FR. destruct (history_inv _ Hs) as [S _]. cbn in S.
  destruct (code_plain o IO) as [N1 [N2 _]].
  rewrite (push_is (H n) o a1 a2 IO A1 A2). fold (arg_of Arg1Cnf o a1). fold (arg_of Arg2Cnf o a2).
  assert (FI : Forall fits [mkfr o (arg_of Arg1Cnf o a1) (arg_of Arg2Cnf o a2)]).
  { constructor; [|constructor]. split; cbn; now apply arg_of_fits. }
  assert (X : exists gs, match H n with Some l => l | None => [] end = encode gs /\ Forall fits gs).
  { destruct (H n) as [l|] eqn:E; [|exists []; split; [reflexivity|constructor]].
    destruct (S n l E) as [->|[gs [-> [_ [F _]]]]]; [contradiction|]. eauto. }
  destruct X as [gs [E F]]. rewrite E in FR |- *. rewrite (frames_encode _ F) in FR. inversion FR; subst.
  apply frames_encode_app; [exact F|]. now apply frames_encode.
Qed.
Print Assumptions C59_recorded.

(** ** The proof object *)
Lemma roots_F : forall ac H rank, (forall n ps p, parents ac H n = Some ps -> In p ps -> rank p < rank n) ->
  forall roots os, Forall2 (fun r o => origin H (Cl r) o) roots os -> os = rts H rank roots.
Proof.
  intros ac H rank RK roots os X. induction X as [|r o l os O X IH]; [reflexivity|]. cbn. f_equal; [|exact IH].
  now apply (origin_F ac H rank RK).
Qed.
(** The computation ends. *)
Theorem C59_total : forall ac A H roots, heap_ok ac H -> distinct_roots H roots ->
  exists b, forall k, b <= k -> exists ob, compute k ac A H roots = Some ob.
Proof.
  intros ac A H roots [S [rank RK]] [os [O ND]]. rewrite (roots_F ac H rank RK roots os O) in ND.
  exact (compute_total ac H S rank RK A roots ND).
Qed.
Print Assumptions C59_total.
Section Object.
Variables (ac : list nat) (A : attrs) (H : heap) (roots : list nat) (k : nat) (ob : object).
Hypothesis OK : heap_ok ac H.
Hypothesis DR : distinct_roots H roots.
Hypothesis E : compute k ac A H roots = Some ob.
(** The steps listed are those that are needed, each once. *)
Theorem C59_steps : NoDup (steps ob) /\ forall n, In n (steps ob) <-> needed ac H roots n.
Proof.
  destruct OK as [S [rank RK]], DR as [os [O ND]]. rewrite (roots_F ac H rank RK roots os O) in ND.
  destruct (compute_sound ac H S rank RK A roots ND k ob E) as [N [I _]]. split; [exact N|].
  intro n. rewrite I. apply (reach_needed ac H S rank RK roots).
Qed.
(** The premises printed for a step are those of its derivation, with quoted steps replaced by what they quote. *)
Theorem C59_refs : forall n, In n (steps ob) -> exists r, printed_refs ac (final ob) n = Some r /\ forall p, In p r <-> shown ac H n p.
Proof.
  destruct OK as [S [rank RK]], DR as [os [O ND]]. rewrite (roots_F ac H rank RK roots os O) in ND.
  destruct (compute_sound ac H S rank RK A roots ND k ob E) as [_ [_ [C _]]]. intros n I.
  destruct (printed_comp ac H S rank RK (final ob) n (C n I)) as [r [R X]]. exists r. split; [exact R|].
  intro p. rewrite X. apply (G_shown ac H S rank RK).
Qed.
(** Every premise printed for a step is a step printed before. *)
Theorem C59_order : forall l1 n l2 r p, steps ob = l1 ++ n :: l2 -> printed_refs ac (final ob) n = Some r -> In p r -> In p l1.
Proof.
  destruct OK as [S [rank RK]], DR as [os [O ND]]. rewrite (roots_F ac H rank RK roots os O) in ND.
  destruct (compute_sound ac H S rank RK A roots ND k ob E) as [_ [_ [C [OR _]]]]. intros l1 n l2 r p L R I.
  assert (IN : In n (steps ob)) by (rewrite L; apply in_or_app; right; now left).
  destruct (printed_comp ac H S rank RK (final ob) n (C n IN)) as [r' [R' X]]. rewrite R in R'. inversion R'; subst.
  apply (OR l1 n l2 L). now apply X.
Qed.
(** Steps without a derivation come first. *)
Theorem C59_axioms_first : exists ax rest, steps ob = ax ++ rest /\ (forall n, In n ax -> H n = None) /\
  forall n, In n rest -> H n <> None \/ exists r, In r roots /\ origin H (Cl r) n.
Proof.
  destruct OK as [S [rank RK]], DR as [os [O ND]]. rewrite (roots_F ac H rank RK roots os O) in ND.
  destruct (compute_sound ac H S rank RK A roots ND k ob E) as [_ [_ [_ [_ [[ax [ord [L [X Y]]]] _]]]]].
  exists ax, ord. split; [exact L|]. split; [exact X|]. intros n I. destruct (Y n I) as [Z|Z]; [now left|]. right.
  apply in_map_iff in Z. destruct Z as [r [<- Z]]. exists r. split; [exact Z|]. apply (F_origin ac H rank RK).
Qed.
(** The numbers of the steps increase in the order of printing. *)
Theorem C59_numbers : forall l1 n l2 m l3, steps ob = l1 ++ n :: l2 ++ m :: l3 -> (0 <= ident (idents ob) n < ident (idents ob) m)%Z.
Proof.
  destruct OK as [S [rank RK]], DR as [os [O ND]]. rewrite (roots_F ac H rank RK roots os O) in ND.
  destruct (compute_sound ac H S rank RK A roots ND k ob E) as [N [_ [_ [_ [_ [ID _]]]]]].
  intros l1 n l2 m l3 L. rewrite ID. unfold renumber.
  rewrite (ident_at (steps ob) _ n l1 (l2 ++ m :: l3) N L).
  rewrite (ident_at (steps ob) _ m (l1 ++ n :: l2) l3 N) by (rewrite L, <- app_assoc; reflexivity).
  rewrite app_length. cbn [length]. pose proof (proj1 (max_fold A (steps ob) (-1)%Z)) as M. fold (max_id A (steps ob)) in M. lia.
Qed.
(** Different steps have different names, if the formulas that keep the names they have in the input have different ones. *)
Theorem C59_names : forall keep, (forall p q s, In (Fm p) (steps ob) -> In (Fm q) (steps ob) -> input_name A p = Some s -> input_name A q = Some s -> p = q) ->
  forall n m, In n (steps ob) -> In m (steps ob) -> step_name keep A (idents ob) n = step_name keep A (idents ob) m -> n = m.
Proof.
  destruct OK as [S [rank RK]], DR as [os [O ND]]. rewrite (roots_F ac H rank RK roots os O) in ND.
  destruct (compute_sound ac H S rank RK A roots ND k ob E) as [N [_ [_ [_ [_ [ID _]]]]]].
  intros keep IN n m I J X.
  assert (AT : forall x, In x (steps ob) -> exists l1 l2, steps ob = l1 ++ x :: l2 /\
     ident (idents ob) x = (max_id A (steps ob) + 1 + Z.of_nat (length l1))%Z).
  { intros x Ix. apply in_split in Ix. destruct Ix as [l1 [l2 L]]. exists l1, l2. split; [exact L|]. rewrite ID. now apply (ident_at _ _ _ _ l2). }
  pose proof (max_fold A (steps ob) (-1)%Z) as [M1 M2]. fold (max_id A (steps ob)) in M1, M2.
  assert (INJ : ident (idents ob) n = ident (idents ob) m -> n = m).
  { intro Q. destruct (AT n I) as [a [b [L1 Q1]]], (AT m J) as [c [d [L2 Q2]]]. assert (LE : length a = length c) by lia.
    assert (Y : nth_error (steps ob) (length a) = Some n) by (rewrite L1, nth_error_app2, Nat.sub_diag by lia; reflexivity).
    rewrite LE, L2, nth_error_app2, Nat.sub_diag in Y by lia. cbn in Y. congruence. }
  assert (NEW : forall x p s, In x (steps ob) -> In (Fm p) (steps ob) -> input_name A p = Some s -> c_name (ident (idents ob) x) = s -> False).
  { intros x p s Ix Ip Es Q. destruct (AT x Ix) as [a [b [_ Qx]]]. specialize (M2 p Ip). rewrite Es, <- Q in M2.
    rewrite counter_c_name in M2 by lia. lia. }
  unfold step_name in X. destruct n as [p|p], m as [q|q].
  - apply INJ. now apply c_name_inj.
  - destruct keep; [destruct (input_name A q) as [s|] eqn:Q; [exfalso; exact (NEW (Cl p) q s I J Q X)|]|]; apply INJ; now apply c_name_inj.
  - destruct keep; [destruct (input_name A p) as [s|] eqn:Q; [exfalso; exact (NEW (Cl q) p s J I Q (eq_sym X))|]|]; apply INJ; now apply c_name_inj.
  - destruct keep; [|apply INJ; now apply c_name_inj].
    destruct (input_name A p) as [s|] eqn:P, (input_name A q) as [t|] eqn:Q.
    + subst t. f_equal. now apply (IN p q s).
    + exfalso. exact (NEW (Fm q) p s J I P (eq_sym X)).
    + exfalso. exact (NEW (Fm p) q t I J Q X).
    + apply INJ. now apply c_name_inj.
Qed.
(** A conjecture is said to be used exactly if one is below an empty clause that is a root, provided that no other empty clause is needed. *)
Theorem C59_conjecture :
  (forall p, needed ac H roots (Cl p) -> is_empty A p = true -> exists r, In r roots /\ origin H (Cl r) (Cl p)) ->
  (has_conjecture ob = true <->
   exists r p n, In r roots /\ origin H (Cl r) (Cl p) /\ is_empty A p = true /\ depends ac H (Cl p) n /\ conj A n = true).
Proof.
  destruct OK as [S [rank RK]], DR as [os [O ND]]. rewrite (roots_F ac H rank RK roots os O) in ND.
  destruct (compute_sound ac H S rank RK A roots ND k ob E) as [_ [_ [_ [_ [_ [_ HC]]]]]]. intro EM.
  assert (IP : forall n, in_proof A [] n = true -> exists p, n = Cl p /\ is_empty A p = true).
  { intros [p|p] X; unfold in_proof in X; cbn in X; [|discriminate]. rewrite orb_false_r in X. eauto. }
  assert (PI : forall p, is_empty A p = true -> in_proof A [] (Cl p) = true) by (intros p X; unfold in_proof; now rewrite X).
  assert (RI : forall n, In n (rts H rank roots) <-> exists r, In r roots /\ origin H (Cl r) n).
  { intro n. unfold rts. rewrite in_map_iff. split; intros [r [X Y]].
    - exists r. split; [exact Y|]. subst n. apply (F_origin ac H rank RK).
    - exists r. split; [|exact X]. symmetry. now apply (origin_F ac H rank RK). }
  rewrite HC.
  - split.
    + intros [r [n [IR [ER [D C]]]]]. apply IP in ER. destruct ER as [p [-> ER]]. apply RI in IR. destruct IR as [x [IX OX]].
      exists x, p, n. apply (gdep_depends ac H S rank RK) in D. auto.
    + intros [x [p [n [IX [OX [EP [D C]]]]]]]. exists (Cl p), n. split; [apply RI; eauto|]. split; [now apply PI|].
      split; [now apply (gdep_depends ac H S rank RK)|exact C].
  - intros n R X. apply IP in X. destruct X as [p [-> X]]. apply RI. apply EM; [|exact X]. now apply (reach_needed ac H S rank RK roots).
Qed.
(** Whoever checks the printed steps one by one checks the proof: if each step follows from the premises printed for it, then whatever
    holds of the steps that are printed without a derivation holds of the roots. *)
Theorem C59_proof : forall T : node -> Prop,
  (forall n, In n (steps ob) -> H n = None -> T n) ->
  (forall n r, In n (steps ob) -> H n <> None -> printed_refs ac (final ob) n = Some r -> (forall p, In p r -> T p) -> T n) ->
  forall r o, In r roots -> origin H (Cl r) o -> T o.
Proof.
  intros T AX ST r o I OR.
  assert (ALL : forall l1 l2, steps ob = l1 ++ l2 -> forall n, In n l1 -> T n).
  { intro l1. induction l1 as [|n l1 IH] using rev_ind; intros l2 L m J; [destruct J|].
    rewrite <- app_assoc in L. cbn in L. apply in_app_or in J. destruct J as [J|[<-|[]]]; [eapply IH; eauto|].
    assert (IN : In n (steps ob)) by (rewrite L; apply in_or_app; right; now left).
    destruct (H n) eqn:Hn; [|now apply AX]. destruct (C59_refs n IN) as [rf [RF _]]. apply (ST n rf IN); [congruence|exact RF|].
    intros p Jp. apply (IH (n :: l2) L). eapply C59_order; eauto. }
  apply (ALL (steps ob) []); [now rewrite app_nil_r|]. apply C59_steps. eapply n_root; eauto.
Qed.
End Object.
Print Assumptions C59_steps.
Print Assumptions C59_refs.
Print Assumptions C59_order.
Print Assumptions C59_axioms_first.
Print Assumptions C59_numbers.
Print Assumptions C59_names.
Print Assumptions C59_conjecture.
Print Assumptions C59_proof.

(** ** Cases that do not hold *)
(** A clause that is given twice as a root is printed twice. *)
Theorem C59_duplicate_roots_refuted : exists ac A H roots k ob, heap_ok ac H /\ compute k ac A H roots = Some ob /\ ~ NoDup (steps ob).
Proof.
  exists [], (mkat (fun _ => true) (fun _ => false) (fun _ => None)), (fun _ => None), [0; 0], 10. eexists.
  split; [split; [discriminate|]; exists (fun _ => 0); cbn; intros n ps p X; inversion X; subst; intros []|]. split; [vm_compute; reflexivity|].
  cbn. intro N. apply NoDup_cons_iff in N. apply (proj1 N). now left.
Qed.
(** A root that is itself a conjecture does not count: an empty clause that is a negated conjecture in the input is reported as a
    contradiction among the axioms. *)
Theorem C59_root_conjecture_refuted : exists ac A H roots k ob, heap_ok ac H /\ distinct_roots H roots /\ compute k ac A H roots = Some ob /\
  (exists p, roots = [p] /\ is_empty A p = true /\ conj A (Cl p) = true) /\ has_conjecture ob = false.
Proof.
  exists [], (mkat (fun _ => true) (fun _ => true) (fun _ => None)), (fun _ => None), [0], 10. eexists.
  split; [split; [discriminate|]; exists (fun _ => 0); cbn; intros n ps p X; inversion X; subst; intros []|].
  split; [exists [Cl 0]; split; [constructor; [apply o_here; reflexivity|constructor]|constructor; [intros []|constructor]]|].
  split; [vm_compute; reflexivity|]. split; [exists 0; auto|reflexivity].
Qed.
(** What is recorded after the introduction of a definition cannot be read. *)
Theorem C59_introdef_refuted : exists o p, In o codes /\ arg_ok Arg1Cnf Arg1Fof o (Some p) = true /\ arg_ok Arg2Cnf Arg2Fof o None = true /\
  frames (push_deriv (Some (push_deriv None DCIntroDef None None)) o (Some p) None) = None.
Proof. exists DCApplyDef, 1. split; [cbn; tauto|]. repeat split. Qed.

(** ** Examples *)
Module Ex.
Definition H1 : heap := set_stack (fun _ => None) (Cl 1) (Some (push_deriv None DCSplitConjunct (Some 0) None)).
Definition H2 : heap := set_stack H1 (Cl 3) (Some (push_deriv None DCParamod (Some 1) (Some 2))).
Definition H3 : heap := archive_copy H2 3 4.
Definition H4 : heap := set_stack H3 (Cl 3) (Some (push_deriv (H3 (Cl 3)) DCSR (Some 2) None)).
Definition H5 : heap := archive H4 3 5.
Definition A : attrs := mkat (fun p => Nat.eqb p 3) (fun n => node_eqb n (Fm 0)) (fun p => match p with 0 => Some "c_0_7"%string | _ => None end).
Definition names (keep : bool) (ob : object) : list (string * option (list string)) :=
  map (fun n => (step_name keep A (idents ob) n, option_map (map (step_name keep A (idents ob))) (printed_refs [] (final ob) n))) (steps ob).
Example ex_compute : exists ob, compute 20 [] A H5 [5] = Some ob /\
  steps ob = [Fm 0; Cl 2; Cl 1; Cl 4; Cl 3] /\ has_conjecture ob = true /\
  names true ob = [("c_0_7", Some []); ("c_0_9", Some []); ("c_0_10", Some ["c_0_7"]); ("c_0_11", Some ["c_0_10"; "c_0_9"]);
                   ("c_0_12", Some ["c_0_11"; "c_0_9"])]%string.
Proof. eexists. split; [vm_compute; reflexivity|]. repeat split. Qed.
Lemma unused : forall ac (H : heap) n, (forall m ps, par_of ac (H m) = Some ps -> ~ In n ps) -> (forall p, n = Cl p -> ~ In p ac) -> ~ used ac H n.
Proof. intros ac H n U N [[m [ps [P I]]]|[p [-> I]]]; [exact (U m ps P I)|exact (N p eq_refl I)]. Qed.
Ltac look := intros m ps Q I; unfold H4, H3, H2, H1, archive_copy, set_stack in Q;
  repeat match type of Q with context [node_eqb m ?k] => destruct (node_eqb m k) end; cbn in Q; inversion Q; subst; cbn in I; intuition discriminate.
Example ex_history : history ([], H5).
Proof.
  unfold H5. eapply h_step; [|apply e_archive; [reflexivity| |discriminate]].
  2:{ apply unused; [look|intros; intros []]. }
  unfold H4. eapply h_step; [|apply e_push; [cbn; tauto|reflexivity|reflexivity|discriminate|discriminate|]].
  2:{ intros _. split; [apply unused; [look|intros; intros []]|]. split; intros p X; inversion X; discriminate. }
  unfold H3. eapply h_step; [|apply e_archive_copy; [reflexivity| |discriminate]].
  2:{ apply unused; [look|intros; intros []]. }
  unfold H2. eapply h_step; [|apply (e_push [] H1 (Cl 3) DCParamod (Some 1) (Some 2)); [cbn; tauto|reflexivity|reflexivity|discriminate|discriminate|]].
  2:{ intros _. split; [apply unused; [look|intros; intros []]|]. split; intros p X; inversion X; discriminate. }
  unfold H1. eapply h_step; [apply h_start|].
  apply (e_push [] (fun _ => None) (Cl 1) DCSplitConjunct (Some 0) None); [cbn; tauto|reflexivity|reflexivity|discriminate|discriminate|].
  intros _. split; [apply unused; [look|intros; intros []]|]. split; intros p X; inversion X; discriminate.
Qed.
Example ex_roots : distinct_roots H5 [5].
Proof.
  exists [Cl 3]. split; [|constructor; [intros []|constructor]]. constructor; [|constructor].
  eapply o_quote; [reflexivity|]. apply o_here. reflexivity.
Qed.
Example ex_empty : forall p, is_empty A p = true -> exists r, In r [5] /\ origin H5 (Cl r) (Cl p).
Proof. intros p X. apply Nat.eqb_eq in X. subst p. exists 5. split; [now left|]. eapply o_quote; [reflexivity|]. apply o_here. reflexivity. Qed.
(** the theorems apply *)
Example ex_proof : forall T : node -> Prop, T (Fm 0) -> T (Cl 2) -> (T (Fm 0) -> T (Cl 1)) -> (T (Cl 1) -> T (Cl 2) -> T (Cl 4)) ->
  (T (Cl 4) -> T (Cl 2) -> T (Cl 3)) -> T (Cl 3).
Proof.
  intros T T0 T2 T1 T4 T3. destruct ex_compute as [ob [C [S _]]].
  apply (C59_proof [] A H5 [5] 20 ob (C59_history _ _ ex_history) ex_roots C T) with (r := 5).
  - rewrite S. intros n [<-|[<-|[<-|[<-|[<-|[]]]]]] X; auto; discriminate.
  - intros n r I N R P. rewrite S in I. vm_compute in C. inversion C; subst ob; clear C.
    destruct I as [<-|[<-|[<-|[<-|[<-|[]]]]]]; vm_compute in R; inversion R; subst r.
    + exact T0.
    + exact T2.
    + apply T1. apply P. now left.
    + apply T4; apply P; cbn; auto.
    + apply T3; apply P; cbn; auto.
  - now left.
  - eapply o_quote; [reflexivity|]. apply o_here. reflexivity.
Qed.
End Ex.
