(** * C55: the goal-directed transformation adds names for ground terms of the goals, and nothing else. *)
From Verif Require Import Terms Unify KBO Semantics Clauses ClausesProofs ExEnv Subsume Split SplitSemProofs Unfold Inj CNF GoalDefs GoalDefsProofs.
Local Open Scope nat_scope.

(** [E] is the signature in the end: it contains the new constants as they were declared; the codes in the clauses are below the first new code
    [next].  [order], the order of addresses in which the set of terms is walked through, is arbitrary. *)
Definition setting (E : env) (order : list term -> list term) (next : sym) (N : list clause) (st : gstate) : Prop :=
  env_ok E /\ next_ok E next /\ (forall l t, In t (order l) <-> In t l) /\ (forall c, In c N -> clause_ok E c) /\ (forall c, In c N -> below next c)
  /\ Forall (decl_in E) (g_decl st).

Lemma gd_inv E goal order p n sub next N N' st : gd_transform E goal order p n sub next N = (N', st) -> setting E order next N st ->
  N' = N ++ g_new st /\ ginv E next st /\ forall t, In t (goal_terms E goal p n sub N) -> named E next st t.
Proof.
  unfold gd_transform. intros [= <- <-] (HE & N0 & HO & OK & B & DC). split; auto.
  destruct (fold_ok E HE next N0 sub (order (goal_terms E goal p n sub N)) (mkgs next [] [] [])) as [A C]; auto.
  - apply ginv_init.
  - intros t Ht. apply (proj1 (HO _ _)) in Ht. destruct (goal_terms_spec E goal p n sub N t next OK B Ht) as [X1 [X2 [_ [X3 X4]]]]. repeat split; auto.
  - split; auto. intros t Ht. apply C. apply (proj2 (HO _ _)). exact Ht.
Qed.

(** The clauses remain; the i-th new clause is the unit equation between a ground term and the i-th new constant. *)
Theorem C55_shape : forall E goal order p n sub next N N' st, gd_transform E goal order p n sub next N = (N', st) -> setting E order next N st ->
  N' = N ++ g_new st /\ g_next st = next + length (g_new st)
  /\ (forall i c, nth_error (g_new st) i = Some c -> exists t, names c t (next + i))
  /\ (forall c, In c N' -> clause_ok E c) /\ (forall c, In c N' -> below (g_next st) c).
Proof.
  intros E goal order p n sub next N N' st H HS. destruct (gd_inv _ _ _ _ _ _ _ _ _ _ H HS) as [-> [I _]].
  destruct HS as (HE & N0 & HO & OK & B & DC). split; auto. split; [apply (gi_len _ _ _ I)|]. split.
  - intros i c Hc. destruct (gi_nth _ _ _ I i c Hc) as [l [-> [T1 [T2 V]]]]. exists l. eexists. split; [reflexivity|].
    unfold eqn_alloc. destruct (term_eqb_spec l tfalse) as [X|_]; [contradiction|]. destruct N0 as [N2 _].
    destruct (term_eqb_spec (Fun (next + i) []) tfalse) as [X|_]; [injection X; unfold false_code; lia|].
    destruct (term_eqb_spec l ttrue) as [X|_]; [contradiction|]. cbn. auto.
  - split; intros c Hc; apply in_app_or in Hc; destruct Hc as [Hc|Hc]; auto.
    + destruct (gi_new _ _ _ I c Hc) as [l [k [-> [A [C D]]]]]. eapply unit_ok; eauto.
    + intros e f He Hf. pose proof (B c Hc e f He Hf). pose proof (gi_next _ _ _ I). lia.
    + destruct (gi_new _ _ _ I c Hc) as [l [k [-> [A [C D]]]]]. apply (unit_below E next); auto. destruct N0. pose proof (gi_next _ _ _ I). lia.
Qed.

(** Every model of the clauses becomes a model of the result by interpreting the new constants only. *)
Theorem C55_models : forall E goal order p n sub next N N' st, gd_transform E goal order p n sub next N = (N', st) -> setting E order next N st ->
  forall M, model_ok (srt E) (dist E) M -> satisfied E M N ->
    exists M', model_ok (srt E) (dist E) M' /\ same_below next M M' /\ satisfied E M' N'.
Proof.
  intros E goal order p n sub next N N' st H HS M HM T. destruct (gd_inv _ _ _ _ _ _ _ _ _ _ H HS) as [-> [I _]].
  destruct HS as (HE & N0 & HO & OK & B & DC). rewrite (mk_eta M) in HM. destruct (gi_ext _ _ _ I _ _ _ HM) as [F' [A1 [A2 A3]]].
  exists (mk (dom M) (isort M) F'). split; auto. split.
  - exists F'. split; [reflexivity|]. intros f ds Hf. symmetry. apply A1; auto.
  - intros c Hc. apply in_app_or in Hc. destruct Hc as [Hc|Hc]; auto.
    apply (agree_true E (dom M) (isort M) next (ifun M) F' c A1 (B c Hc)). rewrite <- mk_eta. auto.
Qed.
Theorem C55_sat : forall E goal order p n sub next N N' st, gd_transform E goal order p n sub next N = (N', st) -> setting E order next N st ->
  (sat E N <-> sat E N') /\ (unsat E N <-> unsat E N') /\ forall c, In c N -> follows E N' c.
Proof.
  intros E goal order p n sub next N N' st H HS. pose proof (C55_models _ _ _ _ _ _ _ _ _ _ H HS) as Y.
  destruct (gd_inv _ _ _ _ _ _ _ _ _ _ H HS) as [-> _].
  assert (X' : forall M, satisfied E M (N ++ g_new st) -> satisfied E M N) by (intros M HT c Hc; apply HT, in_or_app; auto).
  split; [split|split; [split|]].
  - intros [M [HM HT]]. destruct (Y M HM HT) as [M' [A1 [_ A2]]]. exists M'. auto.
  - intros [M [HM HT]]. exists M. auto.
  - intros U M HM HT. apply (U M HM). auto.
  - intros U M HM HT. destruct (Y M HM HT) as [M' [A1 [_ A2]]]. exact (U M' A1 A2).
  - intros c Hc M HM HT. apply HT, in_or_app; auto.
Qed.

(** Every term collected from the goals equals one of the new constants. *)
Theorem C55_named : forall E goal order p n sub next N N' st, gd_transform E goal order p n sub next N = (N', st) -> setting E order next N st ->
  forall t, In t (goal_terms E goal p n sub N) ->
    exists f, next <= f < g_next st /\ forall M v, model_ok (srt E) (dist E) M -> respects (srt E) M v -> satisfied E M N' -> eval M v t = ifun M f [].
Proof.
  intros E goal order p n sub next N N' st H HS t Ht. destruct (gd_inv _ _ _ _ _ _ _ _ _ _ H HS) as [-> [_ X]]. destruct (X t Ht) as [f [F1 F2]].
  exists f. split; auto. intros M v HM Hv T. apply F2; auto. intros c Hc. apply T, in_or_app; auto.
Qed.

(** What is collected, with subterms: the ground terms of the chosen literals of goals, except constants and atoms. *)
Lemma is_ground_spec t : is_ground t = true <-> vars t = [].
Proof. unfold is_ground. destruct (vars t); split; intros; auto; discriminate. Qed.
Lemma ground_terms_cons E all f a u : In u (ground_terms E all (Fun f a)) <->
  u = Fun f a /\ vars u = [] /\ is_const u = false /\ is_atom E u = false \/ (vars (Fun f a) <> [] \/ all = true) /\ exists b, In b a /\ In u (ground_terms E all b).
Proof.
  cbn [ground_terms]. rewrite in_app_iff. pose proof (is_ground_spec (Fun f a)) as G. split.
  - intros [H|H].
    + left. destruct (is_ground (Fun f a)); [|destruct H]. destruct (is_const (Fun f a)) eqn:C; [destruct H|]. destruct (is_atom E (Fun f a)) eqn:A; [destruct H|].
      destruct H as [<-|[]]. split; auto. split; [apply G; auto|]. auto.
    + right. destruct (is_ground (Fun f a)); destruct all; cbn [negb orb] in H; try destruct H; apply in_flat_map in H; split; auto; left; intros X; apply G in X; discriminate.
  - intros [[-> [V [C A]]]|[X Y]].
    + left. apply G in V. rewrite V, C, A. left; auto.
    + right. rewrite <- in_flat_map in Y. destruct X as [X| ->]; [|rewrite orb_true_r; exact Y].
      destruct (is_ground (Fun f a)); [|exact Y]. exfalso. apply X, G; auto.
Qed.
Lemma ground_terms_all E t : forall u, In u (ground_terms E true t) <-> In u (subterms t) /\ vars u = [] /\ is_const u = false /\ is_atom E u = false.
Proof.
  induction t as [x|f a IH] using term_ind'; intros u; [cbn; split; [tauto|]; intros [[<-|[]] [X _]]; discriminate X|].
  rewrite ground_terms_cons. rewrite Forall_forall in IH. cbn [subterms]. split.
  - intros [[-> H]|[_ [b [Hb Hu]]]]; [split; auto; left; auto|]. apply (IH b Hb) in Hu. destruct Hu as [X Y]. split; auto. right. apply in_flat_map. eauto.
  - intros [[<-|X] Y]; [left; auto|]. right. split; auto. apply in_flat_map in X. destruct X as [b [Hb Hu]]. exists b. split; auto. apply (IH b Hb). auto.
Qed.
Lemma ground_terms_max E t : forall u, In u (ground_terms E false t) -> In u (subterms t) /\ vars u = [] /\ is_const u = false /\ is_atom E u = false.
Proof.
  induction t as [x|f a IH] using term_ind'; intros u; [intros []|]. rewrite ground_terms_cons. rewrite Forall_forall in IH. cbn [subterms].
  intros [[-> H]|[_ [b [Hb Hu]]]]; [split; auto; left; auto|]. apply (IH b Hb) in Hu. destruct Hu as [X Y]. split; auto. right. apply in_flat_map. eauto.
Qed.
Lemma subterms_trans t u w : In u (subterms t) -> In w (subterms u) -> In w (subterms t).
Proof.
  induction t as [x|f a IH] using term_ind'; cbn [subterms].
  - intros [<-|[]]; auto.
  - intros [<-|Hu] Hw; auto. right. apply in_flat_map in Hu. destruct Hu as [b [Hb Hu]]. apply in_flat_map. exists b. split; auto. rewrite Forall_forall in IH. apply (IH b Hb); auto.
Qed.
Lemma ground_terms_cover E t : forall u, In u (subterms t) -> vars u = [] -> is_const u = false -> is_atom E u = false ->
  exists s, In u (subterms s) /\ (In s (ground_terms E false t) \/ In s (subterms t) /\ vars s = [] /\ is_atom E s = true).
Proof.
  induction t as [x|f a IH] using term_ind'; intros u Hu V C A.
  - destruct Hu as [<-|[]]. discriminate V.
  - destruct (vars (Fun f a)) as [|x xs] eqn:VT.
    + exists (Fun f a). split; auto. destruct (is_atom E (Fun f a)) eqn:AT; [right; split; auto; left; auto|]. left. apply ground_terms_cons. left. split; auto. split; auto. split; auto.
      destruct a as [|b a]; auto. destruct Hu as [<-|[]]. discriminate C.
    + destruct Hu as [<-|Hu]; [rewrite VT in V; discriminate|]. apply in_flat_map in Hu. destruct Hu as [b [Hb Hu]]. rewrite Forall_forall in IH.
      destruct (IH b Hb u Hu V C A) as [s [S1 S2]]. exists s. split; auto. destruct S2 as [S2|[S2 S3]].
      * left. apply ground_terms_cons. right. split; [left; rewrite VT; discriminate|]. eauto.
      * right. split; auto. right. apply in_flat_map. eauto.
Qed.
Definition chosen (p n : bool) (goal : clause -> bool) (N : list clause) (t : term) : Prop :=
  exists c e, In c N /\ goal c = true /\ In e c /\ (if pos e then p else n) = true /\ (t = lt e \/ t = rt e).
Lemma goal_terms_chosen E goal p n all N u : In u (goal_terms E goal p n all N) <-> exists t, chosen p n goal N t /\ In u (ground_terms E all t).
Proof.
  unfold goal_terms, clause_terms, chosen. rewrite in_flat_map. split.
  - intros [c [Hc Hu]]. apply filter_In in Hc. apply in_flat_map in Hu. destruct Hu as [e [He Hu]].
    destruct (pos e && p || negb (pos e) && n) eqn:P; [|destruct Hu]. assert ((if pos e then p else n) = true) by (destruct (pos e), p, n; auto).
    apply in_app_or in Hu. destruct Hu; [exists (lt e)|exists (rt e)]; split; auto; exists c, e; tauto.
  - intros [t [[c [e [Hc [Hg [He [P Ht]]]]]] Hu]]. exists c. split; [apply filter_In; auto|]. apply in_flat_map. exists e. split; auto.
    replace (pos e && p || negb (pos e) && n) with true by (destruct (pos e), p, n; auto). apply in_or_app. destruct Ht as [-> | ->]; auto.
Qed.
Theorem C55_collects_subterms : forall E goal p n N u,
  In u (goal_terms E goal p n true N) <-> (exists t, chosen p n goal N t /\ In u (subterms t)) /\ vars u = [] /\ is_const u = false /\ is_atom E u = false.
Proof.
  intros. rewrite goal_terms_chosen. split.
  - intros [t [A B]]. apply ground_terms_all in B. destruct B as [B C]. split; eauto.
  - intros [[t [A B]] C]. exists t. split; auto. apply ground_terms_all. auto.
Qed.
(** Without subterms: only such terms, and each of them is inside one that is collected or inside a ground atom. *)
Theorem C55_collects_maximal : forall E goal p n N u,
  (In u (goal_terms E goal p n false N) -> (exists t, chosen p n goal N t /\ In u (subterms t)) /\ vars u = [] /\ is_const u = false /\ is_atom E u = false)
  /\ ((exists t, chosen p n goal N t /\ In u (subterms t)) /\ vars u = [] /\ is_const u = false /\ is_atom E u = false ->
      exists s, In u (subterms s) /\ (In s (goal_terms E goal p n false N)
         \/ (exists t, chosen p n goal N t /\ In s (subterms t)) /\ vars s = [] /\ is_atom E s = true)).
Proof.
  intros. split.
  - intros H. apply goal_terms_chosen in H. destruct H as [t [A B]]. apply ground_terms_max in B. destruct B as [B C]. split; eauto.
  - intros [[t [A B]] [C [D F]]]. destruct (ground_terms_cover E t u B C D F) as [s [S1 [S2|[S2 S3]]]]; exists s; split; auto.
    + left. apply goal_terms_chosen. eauto.
    + right. split; eauto.
Qed.

(** Example: three goals and a clause that is none. *)
Definition N55 : list clause := [ [ne0 (f0 a0) b0]; [nat0 (p0 (g0 (f0 a0) X0))]; [eq0 (f0 X0) (g0 X0 (f0 (f0 b0)))]; [at0 (p0 a0)] ].
Definition goal55 (c : clause) : bool := match c with [e] => negb (term_eqb (lt e) (p0 a0)) | _ => true end.
Example C55_nonvacuous : exists N' st, gd_transform E0 goal55 (fun l => l) true true true 22 N55 = (N', st) /\ setting E0 (fun l => l) 22 N55 st
  /\ N' = N55 ++ [ [eq0 (f0 a0) (Fun 22 [])]; [eq0 (f0 b0) (Fun 23 [])]; [eq0 (f0 (Fun 23 [])) (Fun 24 [])] ].
Proof.
  eexists _, _. split; [vm_compute; reflexivity|]. split; [|vm_compute; reflexivity].
  split; [apply E0_ok|]. split; [split; [lia|]; intros f Hf; cbn; unfold dist0; destruct (Nat.eqb_spec f 20); [lia|]; destruct (Nat.eqb_spec f 21); [lia|]; reflexivity|].
  split; [tauto|]. split; [intros c Hc; repeat (destruct Hc as [<-|Hc]; [apply clause_okb; vm_compute; reflexivity|]); destruct Hc|].
  split; [intros c Hc e f He Hf; repeat (destruct Hc as [<-|Hc]; [repeat (destruct He as [<-|He]; [cbn in Hf; unfold true_code in *; lia|]); destruct He|]); destruct Hc|].
  cbn [g_decl]. repeat (constructor; [split; reflexivity|]). constructor.
Qed.

(** "if it does not already exist": a term is looked up as it stands, but its definition is stored under the term with defined subterms replaced.
    With subterms, f(f(b)) has been defined as f(c1) = c2 on the way to g(f(f(b)), b) when it comes up itself: a constant is defined by another. *)
Theorem C55_once_refuted : exists N N' st, gd_transform E0 (fun _ => true) (fun l => l) false true true 22 N = (N', st) /\ setting E0 (fun l => l) 22 N st
  /\ In [eq0 (Fun 23 []) (Fun 25 [])] N'.
Proof.
  exists [[ne0 (g0 (f0 (f0 b0)) b0) a0]]. eexists _, _. split; [vm_compute; reflexivity|]. split; [|cbn; auto 10].
  split; [apply E0_ok|]. split; [split; [lia|]; intros f Hf; cbn; unfold dist0; destruct (Nat.eqb_spec f 20); [lia|]; destruct (Nat.eqb_spec f 21); [lia|]; reflexivity|].
  split; [tauto|]. split; [intros c Hc; repeat (destruct Hc as [<-|Hc]; [apply clause_okb; vm_compute; reflexivity|]); destruct Hc|].
  split; [intros c Hc e f He Hf; repeat (destruct Hc as [<-|Hc]; [repeat (destruct He as [<-|He]; [cbn in Hf; unfold true_code in *; lia|]); destruct He|]); destruct Hc|].
  cbn [g_decl]. repeat (constructor; [split; reflexivity|]). constructor.
Qed.
(** "maximal ground subterms": the ground terms of a goal that is a ground atom are not collected. *)
Theorem C55_ground_atom_refuted : exists N t, chosen true true (fun _ => true) N t /\ In (f0 a0) (subterms t)
  /\ (forall s, In s (subterms t) -> In (f0 a0) (subterms s) -> s = f0 a0 \/ is_atom E0 s = true)
  /\ goal_terms E0 (fun _ => true) true true false N = [].
Proof.
  exists [[nat0 (p0 (f0 a0))]], (p0 (f0 a0)). split; [exists [nat0 (p0 (f0 a0))], (nat0 (p0 (f0 a0))); cbn; tauto|]. split; [cbn; auto|]. split; [|reflexivity].
  intros s [<-|[<-|[<-|[]]]]; cbn; auto. intros [H|[]]; discriminate H.
Qed.

Print Assumptions C55_shape.
Print Assumptions C55_models.
Print Assumptions C55_sat.
Print Assumptions C55_named.
Print Assumptions C55_collects_subterms.
Print Assumptions C55_collects_maximal.
Print Assumptions C55_once_refuted.
Print Assumptions C55_ground_atom_refuted.
