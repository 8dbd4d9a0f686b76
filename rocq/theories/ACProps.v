(** * Properties of AC handling: C58. *)
From Verif Require Import Terms Unify Semantics Clauses ClausesProofs LitOrder Infer Split AC ACProofs ACModel ACScan Saturate SaturateStep SaturateProofs SaturateSyms SplitProps SaturateProps ExEnv.
Local Open Scope nat_scope.

(** ** Specification *)
(** the clause f(X,Y) = f(Y,X) *)
Definition commutativity_axiom (f : sym) (c : clause) : Prop :=
  exists e x y, c = [e] /\ pos e = true /\ x <> y /\ lt e = Fun f [Var x; Var y] /\ rt e = Fun f [Var y; Var x].
(** the clause f(f(X,Y),Z) = f(X,f(Y,Z)), written in either direction *)
Definition associativity_axiom (f : sym) (c : clause) : Prop :=
  exists e x y z, c = [e] /\ pos e = true /\ x <> y /\ x <> z /\ y <> z /\
    let l := Fun f [Fun f [Var x; Var y]; Var z] in let r := Fun f [Var x; Fun f [Var y; Var z]] in
    (lt e = l /\ rt e = r) \/ (lt e = r /\ rt e = l).
(** f(X,f(Y,Z)) = f(Y,f(X,Z)) *)
Definition extended_commutativity (f : sym) (c : clause) : Prop :=
  exists e x y z, c = [e] /\ pos e = true /\ lt e = Fun f [Var x; Fun f [Var y; Var z]] /\ rt e = Fun f [Var y; Fun f [Var x; Var z]].

(** ** Recognising axioms *)
Lemma assoc_not_comm c f : detect_assoc c = Some f -> detect_comm c = None.
Proof.
  intros H. apply detect_assoc_iff in H. destruct H as [e [x [y [z [-> [P [_ [_ [_ [[L R]|[L R]]]]]]]]]]]; cbn [detect_comm]; rewrite P, L, ?R; reflexivity.
Qed.
Lemma scan_clause_marks A c : let A' := fst (scan_clause A c) in
  (forall f, In f (comm A') <-> In f (comm A) \/ detect_comm c = Some f) /\
  (forall f, In f (assoc A') <-> In f (assoc A) \/ detect_assoc c = Some f) /\
  (snd (scan_clause A c) = true <-> exists f, detect_comm c = Some f).
Proof.
  cbv zeta. unfold scan_clause. destruct (detect_comm c) as [g|] eqn:DC.
  - assert (DA : detect_assoc c = None) by (destruct (detect_assoc c) as [h|] eqn:DA; auto; apply assoc_not_comm in DA; congruence).
    rewrite DA. cbn [snd]. split; [|split; [|split; eauto]].
    + intros f. destruct (memb g (comm A)) eqn:Q; cbn [fst comm In].
      * apply memb_in in Q. split; [auto|]. intros [X|X]; auto. injection X as ->. auto.
      * split; [intros [->|X]; auto|intros [X|X]; auto; injection X as ->; auto].
    + intros f. destruct (memb g (comm A)); cbn [fst assoc]; split; auto; intros [X|X]; auto; discriminate.
  - destruct (detect_assoc c) as [g|] eqn:DA; cbn [snd fst].
    + split; [|split; [|split; [discriminate|intros [f X]; discriminate]]].
      * intros f. destruct (memb g (assoc A)); cbn [fst comm]; split; auto; intros [X|X]; auto; discriminate.
      * intros f. destruct (memb g (assoc A)) eqn:Q; cbn [fst assoc In].
        -- apply memb_in in Q. split; [auto|]. intros [X|X]; auto. injection X as ->. auto.
        -- split; [intros [->|X]; auto|intros [X|X]; auto; injection X as ->; auto].
    + split; [|split; [|split; [discriminate|intros [f X]; discriminate]]]; intros f; split; auto; intros [X|X]; auto; discriminate.
Qed.
Lemma scan_set_marks cs : forall A b, let r := fold_left (fun '(A, b) c => let '(A', r) := scan_clause A c in (A', b || r)) cs (A, b) in
  (forall f, In f (comm (fst r)) <-> In f (comm A) \/ exists c, In c cs /\ detect_comm c = Some f) /\
  (forall f, In f (assoc (fst r)) <-> In f (assoc A) \/ exists c, In c cs /\ detect_assoc c = Some f) /\
  (snd r = true <-> b = true \/ exists c f, In c cs /\ detect_comm c = Some f).
Proof.
  induction cs as [|c cs IH]; intros A b; cbv zeta; cbn [fold_left].
  - cbn [fst snd]. split; [|split]; [intros f; split; auto; intros [X|[c [[] _]]]; auto|intros f; split; auto; intros [X|[c [[] _]]]; auto|split; auto; intros [X|[c [f [[] _]]]]; auto].
  - pose proof (scan_clause_marks A c) as [M1 [M2 M3]]. destruct (scan_clause A c) as [A' r]. cbn [fst snd] in *. destruct (IH A' (b || r)) as [I1 [I2 I3]]. split; [|split].
    + intros f. rewrite I1, M1. split; [intros [[X|X]|[d [X Y]]]; eauto using in_eq, in_cons|intros [X|[d [[->|X] Y]]]; eauto].
    + intros f. rewrite I2, M2. split; [intros [[X|X]|[d [X Y]]]; eauto using in_eq, in_cons|intros [X|[d [[->|X] Y]]]; eauto].
    + rewrite I3, orb_true_iff, M3. split.
      * intros [[X|[f X]]|[d [f [X Y]]]]; auto; right; [exists c, f|exists d, f]; cbn; auto.
      * intros [X|[d [f [[->|X] Y]]]]; auto; [left; eauto|right; eauto].
Qed.
(** When AC handling is switched on, exactly the symbols for which the clause set contains the axiom are marked; redundancy checks are
    active exactly if there is a commutativity axiom. *)
Theorem C58_scan : forall m cs f, m <> NoACHandling -> let A := ac_init m cs in
  (In f (comm A) <-> exists c, In c cs /\ commutativity_axiom f c) /\
  (In f (assoc A) <-> exists c, In c cs /\ associativity_axiom f c) /\
  (ac_active A = true <-> exists c g, In c cs /\ commutativity_axiom g c).
Proof.
  intros m cs f Hm. cbv zeta. unfold ac_init. pose proof (scan_set_marks cs no_ac false) as [M1 [M2 M3]]. fold (scan_set no_ac cs) in M1, M2, M3.
  assert (X : let '(A, b) := scan_set no_ac cs in (In f (comm (set_active A b)) <-> exists c, In c cs /\ commutativity_axiom f c) /\
    (In f (assoc (set_active A b)) <-> exists c, In c cs /\ associativity_axiom f c) /\ (ac_active (set_active A b) = true <-> exists c g, In c cs /\ commutativity_axiom g c)).
  { destruct (scan_set no_ac cs) as [A b]. cbn [fst snd set_active comm assoc ac_active] in *. split; [|split].
    - rewrite M1. split; [intros [[]|[c [I D]]]; exists c; split; auto; apply detect_comm_iff; auto|intros [c [I D]]; right; exists c; split; auto; apply detect_comm_iff; auto].
    - rewrite M2. split; [intros [[]|[c [I D]]]; exists c; split; auto; apply detect_assoc_iff; auto|intros [c [I D]]; right; exists c; split; auto; apply detect_assoc_iff; auto].
    - rewrite M3. split; [intros [X|[c [g [I D]]]]; [discriminate|exists c, g; split; auto; apply detect_comm_iff; auto]|intros [c [g [I D]]]; right; exists c, g; split; auto; apply detect_comm_iff; auto]. }
  destruct m; [congruence| | |]; destruct (scan_set no_ac cs) as [A b]; exact X.
Qed.
(** The same for a clause that is processed later. *)
Theorem C58_check : forall m A c f, m <> NoACHandling -> let A' := ac_check m A c in
  (In f (comm A') <-> In f (comm A) \/ commutativity_axiom f c) /\
  (In f (assoc A') <-> In f (assoc A) \/ associativity_axiom f c) /\
  (ac_active A' = true <-> ac_active A = true \/ exists g, commutativity_axiom g c).
Proof.
  intros m A c f Hm. cbv zeta. pose proof (scan_clause_marks A c) as [M1 [M2 M3]].
  assert (AC : ac_active (fst (scan_clause A c)) = ac_active A) by (unfold scan_clause; destruct (detect_comm c); [destruct (memb _ _); auto|destruct (detect_assoc c); auto; destruct (memb _ _); auto]).
  assert (X : let '(A', b) := scan_clause A c in let A2 := if b && negb (ac_active A') then set_active A' true else A' in
     (In f (comm A2) <-> In f (comm A) \/ commutativity_axiom f c) /\ (In f (assoc A2) <-> In f (assoc A) \/ associativity_axiom f c) /\
     (ac_active A2 = true <-> ac_active A = true \/ exists g, commutativity_axiom g c)).
  { destruct (scan_clause A c) as [A' b]. cbn [fst snd] in *. cbv zeta.
    assert (C1 : forall g, detect_comm c = Some g <-> commutativity_axiom g c) by (intros g; apply detect_comm_iff).
    assert (C2 : detect_assoc c = Some f <-> associativity_axiom f c) by apply detect_assoc_iff.
    assert (C3 : b = true <-> exists g, commutativity_axiom g c) by (rewrite M3; split; intros [g X]; exists g; apply C1; auto).
    split; [|split].
    - rewrite <- C1, <- M1. destruct (b && _); reflexivity.
    - rewrite <- C2, <- M2. destruct (b && _); reflexivity.
    - rewrite <- C3, <- AC. destruct b, (ac_active A') eqn:Q; cbn [andb negb set_active ac_active]; rewrite ?Q; intuition congruence. }
  unfold ac_check. destruct m; [congruence| | |]; destruct (scan_clause A c) as [A' b]; exact X.
Qed.
(** What the axioms say. *)
Theorem C58_axioms_mean : forall E c f M v, clause_ok E c -> respects (srt E) M v ->
  (commutativity_axiom f c -> binary (srt E) f /\ (clause_true (srt E) M c <-> commutes M (arg_sort (srt E) f) f)) /\
  (associativity_axiom f c -> operation (srt E) f /\ (clause_true (srt E) M c <-> associates M (arg_sort (srt E) f) f)).
Proof.
  intros E c f M v OK Hv. split; intros H.
  - apply detect_comm_iff in H. split; [eapply comm_sorts; eauto|eapply comm_true; eauto].
  - apply detect_assoc_iff in H. split; [eapply assoc_sorts; eauto|eapply assoc_true; eauto].
Qed.

(** ** Terms *)
(** Terms accepted as equal are equal in every structure in which the marked symbols have the properties. *)
Theorem C58_equal_sound : forall E A s t, acsig_ok (srt E) A -> wf (srt E) s -> wf (srt E) t -> ac_equal A s t = true ->
  forall M, model_ok (srt E) (dist E) M -> respects_ac (srt E) A M -> forall v, respects (srt E) M v -> eval M v s = eval M v t.
Proof. intros E A s t HA Ws Wt H M HM HR v Hv. eapply norm_sound; eauto. apply ac_equal_norm; auto. Qed.
(** Conversely all terms are accepted that are equal in all structures in which the symbols marked commutative commute and those marked as
    both associate.  (Truth values are excluded: no two different predicate terms need be unequal.) *)
Theorem C58_equal_complete : forall E A s t, env_ok E -> acsig_ok (srt E) A -> (forall f, dist E f = true -> fres (srt E) f <> fres (srt E) true_code) ->
  wf (srt E) s -> wf (srt E) t -> individual (srt E) s -> individual (srt E) t ->
  (forall M, model_ok (srt E) (dist E) M -> (forall f, In f (comm A) -> commutes M (arg_sort (srt E) f) f) ->
     (forall f, In f (comm A) -> In f (assoc A) -> associates M (arg_sort (srt E) f) f) -> forall v, respects (srt E) M v -> eval M v s = eval M v t) ->
  ac_equal A s t = true.
Proof. intros E A s t HE HA HD. apply norm_complete with (di := dist E); auto. rewrite (eo_tf _ HE). reflexivity. Qed.
Lemma assoc_ex (l r : term) : (l = g0 (g0 X0 Y0) Z0 /\ r = g0 X0 (g0 Y0 Z0)) \/ (l = g0 X0 (g0 Y0 Z0) /\ r = g0 (g0 X0 Y0) Z0) -> associativity_axiom 7 [eq0 l r].
Proof. intros H. exists (eq0 l r), 0, 2, 4. repeat (split; [reflexivity || discriminate|]). exact H. Qed.
(** A symbol that is only known to be associative is not used. *)
Theorem C58_associative_only_refuted : exists E c s t, env_ok E /\ clause_ok E c /\ associativity_axiom 7 c /\ wf (srt E) s /\ wf (srt E) t /\
  follows E [c] [eq0 s t] /\ ac_equal (ac_init ACDiscardAll [c]) s t = false.
Proof.
  exists E0, [eq0 (g0 (g0 X0 Y0) Z0) (g0 X0 (g0 Y0 Z0))], (g0 (g0 a0 b0) c0), (g0 a0 (g0 b0 c0)). assert (OK : clause_ok E0 [eq0 (g0 (g0 X0 Y0) Z0) (g0 X0 (g0 Y0 Z0))]) by (apply clause_okb; reflexivity).
  split; [apply E0_ok|]. split; auto. split; [apply assoc_ex; auto|]. split; [reflexivity|]. split; [reflexivity|]. split; [|reflexivity].
  intros M HM HT v Hv. specialize (HT _ (or_introl eq_refl)).
  assert (AS : associates M 1 7).
  { apply (proj2 (proj2 (C58_axioms_mean E0 _ 7 M v OK Hv) (assoc_ex _ _ (or_introl (conj eq_refl eq_refl))))). exact HT. }
  constructor. unfold holds, lit_holds. cbn [pos eq0 lt rt eval map g0 a0 b0 c0]. apply AS; apply (mo_fun _ _ _ HM 3 [])  || apply (mo_fun _ _ _ HM 4 []) || apply (mo_fun _ _ _ HM 5 []); constructor.
Qed.

(** ** Clauses *)
(** Removing literals does not change what a clause says. *)
Theorem C58_resolved : forall E A c M, acsig_ok (srt E) A -> clause_ok E c -> model_ok (srt E) (dist E) M -> respects_ac (srt E) A M ->
  (clause_true (srt E) M (remove_ac_resolved A c) <-> clause_true (srt E) M c).
Proof. intros E A c M HA OK HM HR. split; intros H v Hv; apply (resolved_iff E A M v); auto. Qed.
(** Clauses that are dropped are true wherever the symbols have the properties. *)
Theorem C58_discarded : forall E m A c M, acsig_ok (srt E) A -> clause_ok E c -> model_ok (srt E) (dist E) M -> respects_ac (srt E) A M ->
  ac_discard m A c = true -> clause_true (srt E) M c.
Proof.
  intros E m A c M HA OK HM HR H v Hv. apply (redundant_true E A M v); auto. unfold ac_discard in H. apply andb_true_iff in H. destruct H as [H _]. apply andb_true_iff in H. tauto.
Qed.
(** The axioms themselves are never dropped, nor is the extended commutativity law. *)
Theorem C58_axioms_kept : forall m A f c, commutativity_axiom f c \/ associativity_axiom f c \/ extended_commutativity f c -> ac_discard m A c = false.
Proof.
  intros m A f c H. unfold ac_discard. replace (ac_redundant A c) with false; [rewrite andb_false_r; reflexivity|]. symmetry.
  destruct H as [[e [x [y [-> [P [_ [L R]]]]]]]|[[e [x [y [z [-> [P [_ [_ [_ [[L R]|[L R]]]]]]]]]]]|[e [x [y [z [-> [P [L R]]]]]]]]];
    unfold ac_redundant; rewrite P, L, R; reflexivity.
Qed.
(** Only clauses with a positive literal whose sides are equal modulo AC are dropped; negative clauses never. *)
Theorem C58_negative_kept : forall m A c, (forall e, In e c -> pos e = false) -> ac_discard m A c = false.
Proof.
  intros m A c H. unfold ac_discard. replace (ac_redundant A c) with false; [rewrite andb_false_r; reflexivity|]. symmetry.
  assert (X : some_ac_trivial A c = false).
  { unfold some_ac_trivial. destruct (existsb _ c) eqn:Q; auto. apply existsb_exists in Q. destruct Q as [e [I Q]]. rewrite (H e I) in Q. discriminate. }
  unfold ac_redundant. destruct c as [|e [|? ?]]; auto. destruct (_ && _); auto.
Qed.

(** ** Runs *)
(** In every state of a run the marked symbols have the properties in every model of the input. *)
Theorem C58_run : forall E K n0 N0 s, env_ok E -> conf_ok E K n0 -> 2 < n0 -> Forall (clause_ok E) N0 -> Forall (below n0) N0 -> reaches E K n0 N0 s ->
  acsig_ok (srt E) (acs s) /\
  forall M v, model_ok (srt E) (dist E) M -> respects (srt E) M v -> satisfied E M N0 -> respects_ac (srt E) (acs s) M.
Proof.
  intros E K n0 N0 s HE HK H0 HOK HB R. destruct (reaches_inv _ _ _ _ _ HE HK H0 HOK HB R) as [G [HI _]]. destruct (s_a _ _ _ _ (proj2 HI)) as [J F].
  assert (OA : Forall (clause_ok E) (ac_axioms (acs s))) by (eapply Forall_impl; [|exact F]; intros d; apply cgood_ok). pose proof (justified_ok E (acs s) J OA) as AOK. split; auto.
  intros M v HM Hv HT.
  assert (LT : forall f, binary (srt E) f -> f < n0).
  { intros f [q Q]. destruct (Nat.lt_ge_cases f n0); auto. destruct (co_decl _ _ _ HK (Datatypes.S f) f ltac:(lia)) as [_ [X _]]. rewrite X in Q. discriminate. }
  assert (FOL : forall c, In c (ac_axioms (acs s)) -> below n0 c -> clause_true (srt E) M c).
  { intros c I B. rewrite Forall_forall in F. destruct (F c I) as [_ FG].
    apply (proj1 (C20_conservative E (lookup K) N0 n0 _ c HE (co_lookup _ _ _ HK) HOK HB H0 (proj1 (proj1 HI)) B) FG M HM HT). }
  rewrite Forall_forall in OA. split; intros f Hf.
  - destruct (proj1 J f Hf) as [c [I D]]. apply (proj1 (comm_true E c f M v D (OA c I) Hv)). apply FOL; auto. pose proof (LT f (proj1 AOK f Hf)) as L.
    apply detect_comm_iff in D. destruct D as [e [x [y [-> [_ [_ [QL QR]]]]]]]. intros e' g [<-|[]] Hg. unfold lit_syms in Hg. rewrite QL, QR in Hg. cbn in Hg. intuition (subst; auto).
  - destruct (proj2 J f Hf) as [c [I D]]. apply (proj1 (assoc_true E c f M v D (OA c I) Hv)). apply FOL; auto. pose proof (LT f) as L. specialize (L ltac:(exists (fres (srt E) f); apply (proj2 AOK f Hf))).
    apply detect_assoc_iff in D. destruct D as [e [x [y [z [-> [_ [_ [_ [_ QQ]]]]]]]]]. intros e' g [<-|[]] Hg. unfold lit_syms in Hg. destruct QQ as [[QL QR]|[QL QR]]; rewrite QL, QR in Hg; cbn in Hg; intuition (subst; auto).
Qed.
(** So, in every state, terms that are accepted as equal are equal in every model of the input, dropped clauses and shortened clauses
    follow from it. *)
Theorem C58_run_sound : forall E K n0 N0 s, env_ok E -> conf_ok E K n0 -> 2 < n0 -> Forall (clause_ok E) N0 -> Forall (below n0) N0 -> reaches E K n0 N0 s ->
  (forall t u M v, wf (srt E) t -> wf (srt E) u -> ac_equal (acs s) t u = true -> model_ok (srt E) (dist E) M -> satisfied E M N0 -> respects (srt E) M v -> eval M v t = eval M v u) /\
  (forall m c, clause_ok E c -> ac_discard m (acs s) c = true -> follows E N0 c) /\
  (forall c, clause_ok E c -> follows E (c :: N0) (remove_ac_resolved (acs s) c)).
Proof.
  intros E K n0 N0 s HE HK H0 HOK HB R. destruct (C58_run E K n0 N0 s HE HK H0 HOK HB R) as [OK L]. split; [|split].
  - intros t u M v Wt Wu H HM HT Hv. apply (C58_equal_sound E (acs s) t u OK Wt Wu H M HM); auto. apply (L M v HM Hv HT).
  - intros m c OC H M HM HT v Hv. apply (C58_discarded E m (acs s) c M OK OC HM (L M v HM Hv HT) H v Hv).
  - intros c OC M HM HT v Hv. assert (HT' : satisfied E M N0) by (intros d Hd; apply HT; right; auto).
    apply (proj2 (C58_resolved E (acs s) c M OK OC HM (L M v HM Hv HT')) (HT c (or_introl eq_refl)) v Hv).
Qed.

(** ** A run *)
(** g is commutative and associative (the second axiom written from right to left), and g(a,g(b,c)) != g(c,g(b,a)) *)
Definition N58 : list clause :=
  [[eq0 (g0 X0 Y0) (g0 Y0 X0)]; [eq0 (g0 X0 (g0 Y0 Z0)) (g0 (g0 X0 Y0) Z0)]; [ne0 (g0 a0 (g0 b0 ExEnv.c0)) (g0 ExEnv.c0 (g0 b0 a0))]].
Example C58_ex_input : Forall (clause_ok E2) N58 /\ Forall (below 30) N58 /\ conf_ok E2 K2 30 /\ commutativity_axiom 7 (nth 0 N58 []) /\ associativity_axiom 7 (nth 1 N58 []).
Proof.
  split; [repeat (constructor; [apply clause_okb; reflexivity|]); constructor|]. split.
  { repeat (constructor; [intros e f I Hf; cbn in I; repeat (destruct I as [<-|I]; [vm_compute in Hf; repeat (destruct Hf as [<-|Hf]; [lia|]); destruct Hf|]); destruct I|]). constructor. }
  split; [apply K2_ok|]. split; [|apply assoc_ex; auto]. exists (eq0 (g0 X0 Y0) (g0 Y0 X0)), 0, 2. repeat split. discriminate.
Qed.
(** the input is scanned, and the third clause, chosen at once, becomes the empty clause *)
Example C58_ex_run : comm (acs (init K2 30 N58)) = [7] /\ assoc (acs (init K2 30 N58)) = [7] /\ ac_active (acs (init K2 30 N58)) = true
  /\ match forward_contract E2 K2 P2 60 true true true FullRewrite (init K2 30 N58) (new_cl (nth 2 N58 [])) with Some (_, Some c) => lits c = [] | _ => False end.
Proof. vm_compute. repeat split; reflexivity. Qed.
(** g(X,g(a,Y)) = g(a,g(Y,X)) is dropped, the axioms are not *)
Example C58_ex_discard : map (ac_discard ACDiscardAll (acs (init K2 30 N58))) ([eq0 (g0 X0 (g0 a0 Y0)) (g0 a0 (g0 Y0 X0))] :: N58) = [true; false; false; false].
Proof. vm_compute. reflexivity. Qed.
Example C58_ex_equal : ac_equal (acs (init K2 30 N58)) (f0 (g0 X0 (g0 (f0 (g0 a0 X0)) Y0))) (f0 (g0 Y0 (g0 X0 (f0 (g0 X0 a0))))) = true
  /\ ac_equal (acs (init K2 30 N58)) (g0 X0 (g0 X0 Y0)) (g0 X0 (g0 Y0 Y0)) = false /\ individual (srt E2) (g0 X0 (g0 X0 Y0)).
Proof. split; [reflexivity|]. split; [reflexivity|]. intros u H. cbn in H. repeat (destruct H as [<-|H]; [cbn; discriminate|]). destruct H. Qed.

Print Assumptions C58_scan.
Print Assumptions C58_check.
Print Assumptions C58_axioms_mean.
Print Assumptions C58_equal_sound.
Print Assumptions C58_equal_complete.
Print Assumptions C58_associative_only_refuted.
Print Assumptions C58_resolved.
Print Assumptions C58_discarded.
Print Assumptions C58_axioms_kept.
Print Assumptions C58_negative_kept.
Print Assumptions C58_run.
Print Assumptions C58_run_sound.
