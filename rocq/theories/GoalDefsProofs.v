(** Proofs: the goal-directed transformation. *)
From Verif Require Import Terms Unify Semantics Clauses ClausesProofs Subsume SubsumeClause Split SplitProofs SplitSemProofs Unfold Inj CNF CNFMainProofs GoalDefs.
Local Open Scope nat_scope.

Lemma vars_nil_args f a t : vars (Fun f a) = [] -> In t a -> vars t = [].
Proof.
  cbn [vars]. intros H Ht. destruct (vars t) as [|x l] eqn:Ev; auto. exfalso.
  assert (X : In x (flat_map vars a)) by (apply in_flat_map; exists t; split; auto; rewrite Ev; left; auto). rewrite H in X. destruct X.
Qed.
Lemma vars_nil_fun f a : (forall t, In t a -> vars t = []) -> vars (Fun f a) = [].
Proof. cbn [vars]. induction a as [|t a IH]; cbn [flat_map]; intros H; auto. rewrite (H t) by (left; auto). apply IH. intros; apply H; right; auto. Qed.
Lemma gfind_in ds t c : gfind ds t = Some c -> In (t, c) ds.
Proof.
  unfold gfind. destruct (find _ ds) as [[l c']|] eqn:F; [|discriminate]. cbn. intros [= <-]. apply List.find_some in F. destruct F as [F1 F2].
  cbn in F2. apply term_eqb_eq in F2. subst. exact F1.
Qed.
Lemma ground_sort E M v t : model_ok (srt E) (dist E) M -> vars t = [] -> wf (srt E) t -> isort M (tsort (srt E) t) (eval M v t).
Proof.
  intros HM. induction t as [x|f a IH] using term_ind'; intros V W; [discriminate V|]. cbn [tsort eval]. apply wf_fun in W. destruct W as [W1 W2].
  apply (mo_fun _ _ _ HM). rewrite <- W2. assert (VA : forall t, In t a -> vars t = []) by (intros; eapply vars_nil_args; eauto). clear W2 V.
  induction a as [|b a IHa]; cbn [map]; constructor; inversion IH; inversion W1; subst.
  - apply H1; auto. apply VA. left; auto.
  - apply IHa; auto. intros; apply VA; right; auto.
Qed.

(** ** The terms collected *)
Lemma ground_terms_spec E all t u : In u (ground_terms E all t) ->
  vars u = [] /\ is_const u = false /\ is_atom E u = false /\ (exists x, u = x /\ incl (tsyms u) (tsyms t)) /\ (wf (srt E) t -> wf (srt E) u).
Proof.
  revert u. induction t as [x|f a IH] using term_ind'; intros u Hu; [destruct Hu|]. cbn [ground_terms] in Hu. apply in_app_or in Hu. destruct Hu as [Hu|Hu].
  - destruct (is_ground (Fun f a)) eqn:G; [|destruct Hu]. destruct (is_const (Fun f a)) eqn:C; [destruct Hu|]. destruct (is_atom E (Fun f a)) eqn:A; [destruct Hu|].
    destruct Hu as [<-|[]]. split; [unfold is_ground in G; destruct (vars (Fun f a)); auto; discriminate|]. split; auto. split; auto. split; [eexists; split; eauto; apply incl_refl|auto].
  - destruct (negb (is_ground (Fun f a)) || all); [|destruct Hu]. apply in_flat_map in Hu. destruct Hu as [b [Hb Hu]]. rewrite Forall_forall in IH.
    destruct (IH b Hb u Hu) as [X1 [X2 [X3 [[y [_ X4]] X5]]]]. split; auto. split; auto. split; auto. split.
    + exists u. split; auto. intros g Hg. right. apply in_flat_map. exists b. split; auto.
    + intros W. apply X5. apply wf_fun in W. destruct W as [W _]. rewrite Forall_forall in W. auto.
Qed.
Lemma goal_terms_spec E goal p n all N u k : (forall c, In c N -> clause_ok E c) -> (forall c, In c N -> below k c) -> In u (goal_terms E goal p n all N) ->
  vars u = [] /\ is_const u = false /\ is_atom E u = false /\ wf (srt E) u /\ (forall f, In f (tsyms u) -> f < k).
Proof.
  intros OK B Hu. unfold goal_terms in Hu. apply in_flat_map in Hu. destruct Hu as [c [Hc Hu]]. apply filter_In in Hc. destruct Hc as [Hc _].
  unfold clause_terms in Hu. apply in_flat_map in Hu. destruct Hu as [e [He Hu]]. destruct (pos e && p || negb (pos e) && n); [|destruct Hu].
  pose proof (OK c Hc) as OC. unfold clause_ok in OC. rewrite Forall_forall in OC. destruct (OC e He) as [W1 [W2 _]].
  assert (X : exists t, In u (ground_terms E all t) /\ wf (srt E) t /\ incl (tsyms t) (lit_syms e)).
  { apply in_app_or in Hu. destruct Hu as [Hu|Hu]; [exists (lt e)|exists (rt e)]; split; auto; split; auto; intros f Hf; unfold lit_syms; apply in_or_app; auto. }
  destruct X as [t [X1 [X2 X3]]]. destruct (ground_terms_spec E all t u X1) as [Y1 [Y2 [Y3 [[y [_ Y4]] Y5]]]].
  split; auto. split; auto. split; auto. split; auto. intros f Hf. apply (B c Hc e f He). apply X3, Y4, Hf.
Qed.

(** ** One definition *)
Section G.
  Variable E : env.
  Hypothesis HE : env_ok E.
  Variable n0 : sym.
  Hypothesis N0 : next_ok E n0.
  Notation SS := (srt E).

  Definition gt_ok (k : sym) (t : term) : Prop := vars t = [] /\ wf SS t /\ (forall f, In f (tsyms t) -> f < k).
  Definition isname (k : sym) (c : term) : Prop := exists f, c = Fun f [] /\ n0 <= f < k /\ fargs SS f = [].
  Record ginv (st : gstate) : Prop := {
    gi_next : n0 <= g_next st;
    gi_def : forall l c, In (l, c) (g_defs st) -> gt_ok (g_next st) l /\ isname (g_next st) c /\ tsort SS c = tsort SS l /\ In [eqn_alloc E l c true] (g_new st);
    gi_new : forall c, In c (g_new st) -> exists l k, c = [eqn_alloc E l k true] /\ gt_ok (g_next st) l /\ isname (g_next st) k /\ tsort SS k = tsort SS l;
    gi_len : g_next st = n0 + length (g_new st);
    gi_nth : forall i c, nth_error (g_new st) i = Some c -> exists l, c = [eqn_alloc E l (Fun (n0 + i) []) true] /\ l <> ttrue /\ l <> tfalse /\ vars l = [];
    gi_ext : forall D so F, model_ok SS (dist E) (mk D so F) ->
      exists F', agree D n0 F F' /\ model_ok SS (dist E) (mk D so F') /\ forall c, In c (g_new st) -> clause_true SS (mk D so F') c }.
  (** states reached later *)
  Definition later (st st' : gstate) : Prop :=
    g_next st <= g_next st' /\ incl (g_new st) (g_new st') /\ incl (g_defs st) (g_defs st') /\ incl (g_decl st) (g_decl st').
  Lemma later_refl st : later st st.
  Proof. split; [lia|]. split; [apply incl_refl|]. split; apply incl_refl. Qed.
  Lemma later_trans s1 s2 s3 : later s1 s2 -> later s2 s3 -> later s1 s3.
  Proof. intros [A1 [A2 [A3 A4]]] [B1 [B2 [B3 B4]]]. split; [lia|]. split; [eapply incl_tran; eauto|]. split; eapply incl_tran; eauto. Qed.

  Lemma isname_ok k c : isname k c -> vars c = [] /\ wf SS c /\ (forall f, In f (tsyms c) -> f < k).
  Proof. intros [f [-> [L A]]]. split; auto. split; [apply wf_fun; split; auto|]. intros g [<-|[]]. lia. Qed.
  Lemma gd_nf_sort st t : ginv st -> tsort SS (gd_nf (g_defs st) t) = tsort SS t.
  Proof.
    intros I. destruct t as [x|f [|a l]]; auto. cbn [gd_nf]. destruct (gfind (g_defs st) (Fun f (a :: l))) as [c|] eqn:G1.
    - apply gfind_in in G1. destruct (gi_def _ I _ _ G1) as [_ [_ [Q _]]]. exact Q.
    - destruct (gfind (g_defs st) (Fun f (map (gd_nf (g_defs st)) (a :: l)))) as [c|] eqn:G2; auto.
      apply gfind_in in G2. destruct (gi_def _ I _ _ G2) as [_ [_ [Q _]]]. exact Q.
  Qed.
  Lemma gd_nf_ok st t : ginv st -> gt_ok (g_next st) t -> gt_ok (g_next st) (gd_nf (g_defs st) t).
  Proof.
    intros I. induction t as [x|f a IH] using term_ind'; [destruct 1 as [V _]; discriminate V|]. intros [V [W B]]. destruct a as [|b a]; [repeat split; auto|].
    cbn [gd_nf]. destruct (gfind (g_defs st) (Fun f (b :: a))) as [c|] eqn:G1.
    { apply gfind_in in G1. destruct (gi_def _ I _ _ G1) as [_ [Q _]]. apply isname_ok; auto. }
    destruct (gfind (g_defs st) (Fun f (map (gd_nf (g_defs st)) (b :: a)))) as [c|] eqn:G2.
    { apply gfind_in in G2. destruct (gi_def _ I _ _ G2) as [_ [Q _]]. apply isname_ok; auto. }
    apply wf_fun in W. destruct W as [W1 W2]. rewrite Forall_forall in IH, W1.
    assert (X : forall t, In t (b :: a) -> gt_ok (g_next st) (gd_nf (g_defs st) t)).
    { intros t Ht. apply (IH t Ht). split; [eapply vars_nil_args; eauto|]. split; auto. intros g Hg. apply B. right. apply in_flat_map. eauto. }
    split.
    - apply vars_nil_fun. intros t Ht. apply in_map_iff in Ht. destruct Ht as [u [<- Hu]]. apply X; auto.
    - split.
      + apply wf_fun. split; [apply Forall_forall; intros t Ht; apply in_map_iff in Ht; destruct Ht as [u [<- Hu]]; apply X; auto|].
        rewrite <- W2, map_map. apply map_ext. intros u. apply gd_nf_sort; auto.
      + intros g [<-|Hg]; [apply B; left; auto|]. apply in_flat_map in Hg. destruct Hg as [t [Ht Hg]]. apply in_map_iff in Ht. destruct Ht as [u [<- Hu]]. apply (X u Hu); auto.
  Qed.
  (** in models of the new clauses the name and the term are equal *)
  Lemma def_equal M v l c k : model_ok SS (dist E) M -> respects SS M v -> gt_ok k l -> isname k c -> tsort SS c = tsort SS l ->
    clause_true SS M [eqn_alloc E l c true] -> eval M v l = eval M v c.
  Proof.
    intros HM Hv L C Q T. destruct L as [V [W _]]. destruct (isname_ok _ _ C) as [V2 [W2 _]].
    specialize (T v Hv). rewrite Exists_cons, Exists_nil in T. destruct T as [T|[]]. apply (eqn_alloc_holds E M HE HM v l c true Hv W W2 (eq_sym Q)) in T. exact T.
  Qed.
  Lemma gfind_equal st M v t c : ginv st -> model_ok SS (dist E) M -> respects SS M v -> (forall c, In c (g_new st) -> clause_true SS M c) ->
    gfind (g_defs st) t = Some c -> eval M v t = eval M v c.
  Proof. intros I HM Hv T G. apply gfind_in in G. destruct (gi_def _ I _ _ G) as [A [B [C D]]]. eapply def_equal; eauto. Qed.
  Lemma gd_nf_equal st M v t : ginv st -> model_ok SS (dist E) M -> respects SS M v -> (forall c, In c (g_new st) -> clause_true SS M c) ->
    eval M v (gd_nf (g_defs st) t) = eval M v t.
  Proof.
    intros I HM Hv T. induction t as [x|f a IH] using term_ind'; auto. destruct a as [|b a]; auto. cbn [gd_nf].
    destruct (gfind (g_defs st) (Fun f (b :: a))) as [c|] eqn:G1; [symmetry; eapply gfind_equal; eauto|].
    assert (X : eval M v (Fun f (map (gd_nf (g_defs st)) (b :: a))) = eval M v (Fun f (b :: a))).
    { cbn [eval]. f_equal. rewrite map_map. apply map_ext_in. rewrite Forall_forall in IH. exact IH. }
    destruct (gfind (g_defs st) (Fun f (map (gd_nf (g_defs st)) (b :: a)))) as [c|] eqn:G2; auto.
    rewrite <- X. symmetry. eapply gfind_equal; eauto.
  Qed.

  Lemma gt_ok_le k k' t : k <= k' -> gt_ok k t -> gt_ok k' t.
  Proof. intros L [A [B C]]. split; auto. split; auto. intros f Hf. specialize (C f Hf). lia. Qed.
  Lemma isname_le k k' t : k <= k' -> isname k t -> isname k' t.
  Proof. intros L [f [A [B C]]]. exists f. split; auto. split; auto. lia. Qed.

  (** interpreting a new constant *)
  Lemma new_const D so F k l : n0 <= k -> model_ok SS (dist E) (mk D so F) -> gt_ok k l -> fargs SS k = [] -> fres SS k = tsort SS l ->
    exists F', agree D k F F' /\ model_ok SS (dist E) (mk D so F') /\ clause_true SS (mk D so F') [eqn_alloc E l (Fun k []) true].
  Proof.
    intros L HM GL A R. destruct N0 as [N2 ND]. set (v0 := fun _ : var => F true_code []).
    set (F' := fun f ds => if Nat.eqb f k then eval (mk D so F) v0 l else F f ds).
    assert (AG : agree D k F F') by (intros f ds Hf; unfold F'; destruct (Nat.eqb_spec f k); auto; lia).
    pose proof GL as [V [W B]].
    assert (HM' : model_ok SS (dist E) (mk D so F')).
    { constructor; cbn [mk dom ifun isort].
      - intros f ds Hds. unfold F'. destruct (Nat.eqb_spec f k) as [->|NE]; [rewrite R; apply (ground_sort E (mk D so F)); auto|apply (mo_fun _ _ _ HM); auto].
      - apply (mo_inh _ _ _ HM).
      - rewrite <- !AG by (unfold true_code, false_code; lia). apply (mo_bool _ _ _ HM).
      - rewrite <- !AG by (unfold true_code, false_code; lia). apply (mo_tf _ _ _ HM).
      - apply (mo_dec _ _ _ HM).
      - intros f g Df Dg NE. assert (X : forall h, dist E h = true -> h < k).
        { intros h Hh. destruct (Nat.lt_ge_cases h k); auto. rewrite (ND h) in Hh by lia. discriminate. }
        rewrite <- (AG f []), <- (AG g []) by auto. apply (mo_dist _ _ _ HM); auto. }
    exists F'. split; auto. split; auto. intros v Hv. apply Exists_cons_hd.
    assert (WC : wf SS (Fun k [])) by (apply wf_fun; split; auto).
    apply (eqn_alloc_holds E (mk D so F') HE HM'); auto. unfold lit_holds.
    transitivity (eval (mk D so F) v l); [symmetry; apply (agree_eval D so k F F' v l AG B)|].
    transitivity (F' k []); [|reflexivity]. unfold F'. rewrite Nat.eqb_refl. apply (eval_ext (mk D so F)). rewrite V. intros x [].
  Qed.

  Lemma unit_below l c k : 2 < k -> gt_ok k l -> isname k c -> below k [eqn_alloc E l c true].
  Proof.
    intros K [_ [_ B]] C e f [<-|[]] Hf. apply eqn_alloc_syms in Hf. destruct Hf as [H|[H| ->]]; auto; [|unfold true_code; lia].
    destruct (isname_ok _ _ C) as [_ [_ X]]. auto.
  Qed.
  Lemma unit_ok l c k : gt_ok k l -> isname k c -> tsort SS c = tsort SS l -> clause_ok E [eqn_alloc E l c true].
  Proof.
    intros [V [W _]] C Q. destruct (isname_ok _ _ C) as [V2 [W2 _]]. constructor; [|constructor].
    apply eqn_alloc_ok; auto; intros x Hx; [rewrite V in Hx|rewrite V2 in Hx]; destruct Hx.
  Qed.

  Lemma gd_define_later t st : later st (gd_define E t st).
  Proof.
    unfold gd_define. destruct (is_const t); [apply later_refl|]. destruct (gfind (g_defs st) t); [apply later_refl|].
    split; cbn; [lia|]. split; [apply incl_appl, incl_refl|]. split; [|apply incl_appl, incl_refl].
    destruct (gfind (g_defs st) (gd_nf (g_defs st) t)); [apply incl_refl|apply incl_tl, incl_refl].
  Qed.
  Lemma gd_define_ok t st : Forall (decl_in E) (g_decl (gd_define E t st)) -> ginv st -> gt_ok (g_next st) t -> ginv (gd_define E t st).
  Proof.
    unfold gd_define. destruct (is_const t) eqn:CC; auto. destruct (gfind (g_defs st) t); auto.
    set (l := gd_nf (g_defs st) t). cbn [g_decl]. intros DC I GT.
    apply Forall_app in DC. destruct DC as [_ DC]. inversion DC as [|x y [DA DR] _]; subst. cbn in DA, DR.
    pose proof (gd_nf_ok st t I GT) as GL. fold l in GL. pose proof (gd_nf_sort st t I) as SL. fold l in SL.
    destruct I as [I1 I2 I3 IL IN I4].
    assert (NM : isname (S (g_next st)) (Fun (g_next st) [])) by (exists (g_next st); split; auto; split; auto; lia).
    assert (SC : tsort SS (Fun (g_next st) []) = tsort SS l) by (cbn [tsort]; congruence).
    assert (LE : g_next st <= S (g_next st)) by lia.
    constructor; cbn [g_next g_defs g_new].
    - lia.
    - assert (X : forall l0 c, In (l0, c) ((l, Fun (g_next st) []) :: g_defs st) -> gt_ok (S (g_next st)) l0 /\ isname (S (g_next st)) c /\ tsort SS c = tsort SS l0 /\ In [eqn_alloc E l0 c true] (g_new st ++ [[eqn_alloc E l (Fun (g_next st) []) true]])).
      { intros l0 c [[= <- <-]|H].
        - split; [apply (gt_ok_le _ _ _ LE GL)|]. split; auto. split; auto. apply in_or_app. right. left. auto.
        - destruct (I2 _ _ H) as [A [B [C D]]]. split; [apply (gt_ok_le _ _ _ LE A)|]. split; [apply (isname_le _ _ _ LE B)|]. split; auto. apply in_or_app; auto. }
      intros l0 c H. apply X. destruct (gfind (g_defs st) l); auto. right; auto.
    - intros c H. apply in_app_or in H. destruct H as [H|[<-|[]]].
      + destruct (I3 c H) as [l0 [k [-> [A [B C]]]]]. exists l0, k. split; auto. split; [apply (gt_ok_le _ _ _ LE A)|]. split; auto. apply (isname_le _ _ _ LE B).
      + exists l, (Fun (g_next st) []). split; auto. split; [apply (gt_ok_le _ _ _ LE GL)|]. split; auto.
    - rewrite app_length. cbn [length]. lia.
    - intros i c H. destruct (Nat.lt_ge_cases i (length (g_new st))) as [Hi|Hi]; [rewrite nth_error_app1 in H by auto; auto|].
      rewrite nth_error_app2 in H by auto. destruct (i - length (g_new st)) as [|j] eqn:J; [|destruct j; discriminate]. injection H as <-.
      exists l. replace (n0 + i) with (g_next st) by lia. split; auto. destruct N0 as [N2 _].
      assert (X : exists f a, l = Fun f a /\ (a = [] -> 2 < f)).
      { subst l. destruct GT as [V _]. destruct t as [x|f [|b a]]; [discriminate V|discriminate CC|].
        assert (Q : forall t c, gfind (g_defs st) t = Some c -> exists f a, c = Fun f a /\ (a = [] -> 2 < f)).
        { intros t c G2. apply gfind_in in G2. destruct (I2 _ _ G2) as [_ [[g [-> [Lg _]]] _]]. exists g, []. split; auto. intros; lia. }
        cbn [gd_nf]. destruct (gfind (g_defs st) (Fun f (b :: a))) eqn:G2; [eauto|].
        destruct (gfind (g_defs st) (Fun f (map (gd_nf (g_defs st)) (b :: a)))) eqn:G3; [eauto|]. eexists _, _. split; [reflexivity|]. discriminate. }
      destruct X as [f [a [-> X]]]. unfold ttrue, tfalse, true_code, false_code. split; [intros [= -> ->]; specialize (X eq_refl); lia|].
      split; [intros [= -> ->]; specialize (X eq_refl); lia|]. apply GL.
    - intros D so F HM. destruct (I4 D so F HM) as [F1 [A1 [M1 T1]]].
      destruct (new_const D so F1 (g_next st) l) as [F2 [A2 [M2 T2]]]; auto.
      exists F2. split; [eapply agree_trans; [exact A1|]; apply (agree_le D n0 (g_next st)); auto|]. split; auto.
      intros c H. apply in_app_or in H. destruct H as [H|[<-|[]]]; auto.
      destruct (I3 c H) as [l0 [k [-> [B1 [B2 B3]]]]]. apply (agree_true E D so (g_next st) F1 F2); auto.
      apply unit_below; auto. destruct N0. lia.
  Qed.

  (** a term has a name *)
  Definition named (st : gstate) (t : term) : Prop :=
    exists f, n0 <= f < g_next st /\ forall M v, model_ok SS (dist E) M -> respects SS M v -> (forall c, In c (g_new st) -> clause_true SS M c) -> eval M v t = ifun M f [].
  Lemma named_later st st' t : later st st' -> named st t -> named st' t.
  Proof. intros [A [B _]] [f [F1 F2]]. exists f. split; [lia|]. intros M v HM Hv T. apply F2; auto. Qed.
  Lemma gfind_named st t c : ginv st -> gfind (g_defs st) t = Some c -> named st t.
  Proof.
    intros I G. pose proof (gfind_in _ _ _ G) as G'. destruct (gi_def _ I _ _ G') as [_ [[f [-> [L _]]] _]]. exists f. split; auto.
    intros M v HM Hv T. rewrite (gfind_equal st M v t _ I HM Hv T G). reflexivity.
  Qed.
  Lemma gd_define_named t st : Forall (decl_in E) (g_decl (gd_define E t st)) -> ginv st -> gt_ok (g_next st) t -> is_const t = false -> named (gd_define E t st) t.
  Proof.
    intros DC I GT C. pose proof (gd_define_ok t st DC I GT) as I'. unfold gd_define in *. rewrite C in *. destruct (gfind (g_defs st) t) as [c|] eqn:G; [eapply gfind_named; eauto|].
    cbn [g_decl] in DC. apply Forall_app in DC. destruct DC as [_ DC]. inversion DC as [|x y [DA DR] _]; subst. cbn in DA, DR.
    exists (g_next st). cbn [g_next g_new]. destruct I as [I1 I2 I3 IL IN I4]. assert (I : ginv st) by (constructor; auto). split; [lia|]. intros M v HM Hv T.
    rewrite <- (gd_nf_equal st M v t I HM Hv) by (intros c Hc; apply T, in_or_app; auto).
    assert (X1 : gt_ok (S (g_next st)) (gd_nf (g_defs st) t)) by (apply (gt_ok_le (g_next st)); [lia|apply gd_nf_ok; auto]).
    assert (X2 : isname (S (g_next st)) (Fun (g_next st) [])) by (exists (g_next st); split; auto; split; auto; lia).
    assert (X3 : tsort SS (Fun (g_next st) []) = tsort SS (gd_nf (g_defs st) t)) by (rewrite gd_nf_sort by auto; exact DR).
    rewrite (def_equal M v _ _ _ HM Hv X1 X2 X3); [reflexivity|]. apply T, in_or_app. right; left; auto.
  Qed.

  (** subterms first *)
  Definition gd_args := fix go l s := match l with [] => s | a :: l' => go l' (gd_rek E a s) end.
  Lemma gd_rek_fun f b l st : gd_rek E (Fun f (b :: l)) st = gd_define E (Fun f (b :: l)) (gd_args (b :: l) st).
  Proof. reflexivity. Qed.
  Lemma gd_rek_later t : forall st, later st (gd_rek E t st).
  Proof.
    induction t as [x|f a IH] using term_ind'; intros st; [apply later_refl|]. destruct a as [|b l]; [apply later_refl|]. rewrite gd_rek_fun.
    eapply later_trans; [|apply gd_define_later]. revert st. generalize (b :: l) IH. clear. induction l as [|a l IHl]; intros IH st; cbn [gd_args]; [apply later_refl|].
    inversion IH; subst. eapply later_trans; [apply H1|]. apply IHl; auto.
  Qed.
  Lemma gd_args_later l : forall st, later st (gd_args l st).
  Proof. induction l as [|a l IHl]; intros st; cbn [gd_args]; [apply later_refl|]. eapply later_trans; [apply gd_rek_later|]. apply IHl. Qed.
  Lemma decl_later st st' : later st st' -> Forall (decl_in E) (g_decl st') -> Forall (decl_in E) (g_decl st).
  Proof. intros [_ [_ [_ H]]] F. rewrite Forall_forall in *. auto. Qed.
  Lemma gd_rek_ok t : forall st, Forall (decl_in E) (g_decl (gd_rek E t st)) -> ginv st -> gt_ok (g_next st) t -> ginv (gd_rek E t st).
  Proof.
    induction t as [x|f a IH] using term_ind'; intros st DC I GT; auto. destruct a as [|b l]; auto. rewrite gd_rek_fun in *.
    assert (X : ginv (gd_args (b :: l) st)).
    { pose proof (decl_later _ _ (gd_define_later _ _) DC) as DC1. destruct GT as [V [W B]]. apply wf_fun in W. destruct W as [W _].
      assert (GA : forall t, In t (b :: l) -> gt_ok (g_next st) t).
      { rewrite Forall_forall in W. intros t Ht. split; [eapply vars_nil_args; eauto|]. split; auto. intros g Hg. apply B. right. apply in_flat_map. eauto. }
      clear DC V W B. revert st I DC1 GA. generalize (b :: l) IH. clear - HE N0. induction l as [|a l IHl]; intros IH st I DC GA; cbn [gd_args] in *; auto.
      inversion IH; subst. apply IHl; auto.
      - apply H1; auto; [|apply GA; left; auto]. eapply decl_later; [|exact DC]. apply gd_args_later.
      - intros t Ht. apply (gt_ok_le (g_next st)); [apply gd_rek_later|]. apply GA; right; auto. }
    apply gd_define_ok; auto. apply (gt_ok_le (g_next st)); auto. apply gd_args_later.
  Qed.
  Lemma gd_rek_named t st : Forall (decl_in E) (g_decl (gd_rek E t st)) -> ginv st -> gt_ok (g_next st) t -> is_const t = false -> named (gd_rek E t st) t.
  Proof.
    destruct t as [x|f [|b l]]; intros DC I GT C; [destruct GT as [V _]; discriminate V|discriminate C|]. 
    pose proof (gd_rek_ok _ _ DC I GT) as I'. rewrite gd_rek_fun in *. 
    assert (X : ginv (gd_args (b :: l) st)).
    { pose proof (decl_later _ _ (gd_define_later _ _) DC) as DC1. destruct GT as [V [W B]]. apply wf_fun in W. destruct W as [W _].
      assert (GA : forall t, In t (b :: l) -> gt_ok (g_next st) t).
      { rewrite Forall_forall in W. intros t Ht. split; [eapply vars_nil_args; eauto|]. split; auto. intros g Hg. apply B. right. apply in_flat_map. eauto. }
      clear DC V W B I'. revert st I DC1 GA. generalize (b :: l). clear - HE N0. induction l as [|a l IHl]; intros st I DC GA; cbn [gd_args] in *; auto.
      apply IHl; auto.
      - apply gd_rek_ok; auto; [|apply GA; left; auto]. eapply decl_later; [|exact DC]. apply gd_args_later.
      - intros t Ht. apply (gt_ok_le (g_next st)); [apply gd_rek_later|]. apply GA; right; auto. }
    apply gd_define_named; auto. apply (gt_ok_le (g_next st)); auto. apply gd_args_later.
  Qed.

  Lemma gd_step_later sub t st : later st (gd_step E sub st t).
  Proof. unfold gd_step. destruct (gfind (g_defs st) t); [apply later_refl|]. destruct (is_const t); [apply later_refl|]. destruct sub; [apply gd_rek_later|apply gd_define_later]. Qed.
  Lemma fold_later sub ts : forall st, later st (fold_left (gd_step E sub) ts st).
  Proof. induction ts as [|t ts IH]; intros st; cbn [fold_left]; [apply later_refl|]. eapply later_trans; [apply gd_step_later|apply IH]. Qed.
  Lemma gd_step_ok sub t st : Forall (decl_in E) (g_decl (gd_step E sub st t)) -> ginv st -> gt_ok (g_next st) t -> is_const t = false ->
    ginv (gd_step E sub st t) /\ named (gd_step E sub st t) t.
  Proof.
    unfold gd_step. intros DC I GT C. destruct (gfind (g_defs st) t) as [c|] eqn:G; [split; auto; eapply gfind_named; eauto|]. rewrite C in *.
    destruct sub; split; auto using gd_rek_ok, gd_define_ok, gd_rek_named, gd_define_named.
  Qed.
  Lemma fold_ok sub ts : forall st, Forall (decl_in E) (g_decl (fold_left (gd_step E sub) ts st)) -> ginv st -> (forall t, In t ts -> gt_ok (g_next st) t /\ is_const t = false) ->
    ginv (fold_left (gd_step E sub) ts st) /\ forall t, In t ts -> named (fold_left (gd_step E sub) ts st) t.
  Proof.
    induction ts as [|t ts IH]; intros st DC I GT; cbn [fold_left] in *; [split; auto; intros t []|].
    destruct (GT t (or_introl eq_refl)) as [G1 G2].
    destruct (gd_step_ok sub t st) as [A B]; auto; [eapply decl_later; [apply fold_later|exact DC]|].
    destruct (IH (gd_step E sub st t)) as [C D]; auto.
    - intros u Hu. destruct (GT u (or_intror Hu)) as [X Y]. split; auto. apply (gt_ok_le (g_next st)); auto. apply gd_step_later.
    - split; auto. intros u [<-|Hu]; auto. eapply named_later; [apply fold_later|exact B].
  Qed.
  Lemma ginv_init : ginv (mkgs n0 [] [] []).
  Proof.
    constructor; cbn; auto; try tauto. { intros i c H. destruct i; discriminate. } intros D so F HM. exists F. split; [intros f ds _; auto|]. split; auto. intros c [].
  Qed.
End G.
