(** * Proofs about clausification: the steps that keep the signature. *)
From Coq Require Import Classical.
From Verif Require Import Terms Unify UnifyProofs Semantics Clauses ClausesProofs Split CNF.

Lemma form_eqb_spec : forall f g, reflect (f = g) (form_eqb f g).
Proof.
  intros f g. apply iff_reflect. revert g. induction f as [p l r|t|a IH|o a IHa b IHb|q x a IH]; intros [p' l' r'|t'|a'|o' a' b'|q' x' a']; cbn [form_eqb];
    try (split; intros H; discriminate H); rewrite ?andb_true_iff, ?term_eqb_eq, ?Nat.eqb_eq.
  - rewrite Bool.eqb_true_iff. split; [intros H; injection H; auto|intros [[-> ->] ->]; auto].
  - split; congruence.
  - rewrite <- IH. split; congruence.
  - rewrite <- IHa, <- IHb. assert (X : op_eqb o o' = true <-> o = o') by (destruct o, o'; cbn; split; intros; congruence). rewrite X.
    split; [intros H; injection H; auto|intros [[-> ->] ->]; auto].
  - rewrite <- IH, Bool.eqb_true_iff. split; [intros H; injection H; auto|intros [[-> ->] ->]; auto].
Qed.
Lemma form_eqb_refl f : form_eqb f f = true.
Proof. destruct (form_eqb_spec f f); congruence. Qed.

(** ** Valuations *)
Lemma vset_same {D} (v : var -> D) x d : vset v x d x = d.
Proof. unfold vset. rewrite Nat.eqb_refl. reflexivity. Qed.
Lemma vset_other {D} (v : var -> D) x y d : x <> y -> vset v x d y = v y.
Proof. unfold vset. intros H. destruct (Nat.eqb_spec x y); congruence. Qed.
Lemma respects_vset S M v x d : respects S M v -> isort M (vsort S x) d -> respects S M (vset v x d).
Proof. intros H Hd y. destruct (Nat.eq_dec x y) as [<-|N]; [rewrite vset_same|rewrite vset_other]; auto. Qed.

Lemma occurs_in x t : occurs x t = true <-> In x (vars t).
Proof. unfold occurs. rewrite existsb_exists. split; [intros [y [A B]]; apply Nat.eqb_eq in B; subst; auto|intros H; exists x; split; auto; apply Nat.eqb_refl]. Qed.
Lemma is_free_in x f : is_free x f = true <-> In x (free_vars f).
Proof.
  induction f as [p l r|t|a IH|o a IHa b IHb|q y a IH]; cbn [is_free free_vars]; rewrite ?orb_true_iff, ?in_app_iff, ?occurs_in, ?IHa, ?IHb; try tauto.
  rewrite filter_In, <- IH, negb_true_iff, Nat.eqb_neq. destruct (Nat.eqb_spec x y) as [->|N]; [split; [discriminate|tauto]|]. intuition.
Qed.
Lemma free_all x f : In x (free_vars f) -> In x (all_vars f).
Proof.
  induction f as [p l r|t|a IH|o a IHa b IHb|q y a IH]; cbn [all_vars free_vars]; auto; rewrite ?in_app_iff; try tauto.
  intros H. apply filter_In in H. right. tauto.
Qed.

Section SemExt.
  Variables (S : sorting) (M : structure).
  Lemma lit_ext v1 v2 p l r : (forall x, In x (vars l ++ vars r) -> v1 x = v2 x) -> (lit_holds M v1 p l r <-> lit_holds M v2 p l r).
  Proof. intros H. unfold lit_holds. rewrite (eval_ext M v1 v2 l), (eval_ext M v1 v2 r); [tauto| |]; intros x Hx; apply H, in_or_app; auto. Qed.
  Lemma op_sem_iff o A A' B B' : (A <-> A') -> (B <-> B') -> (op_sem o A B <-> op_sem o A' B').
  Proof. intros H H'. destruct o; cbn; tauto. Qed.
  Lemma sem_ext f : forall v1 v2, (forall x, In x (free_vars f) -> v1 x = v2 x) -> (sem S M v1 f <-> sem S M v2 f).
  Proof.
    induction f as [p l r|t|a IH|o a IHa b IHb|q y a IH]; intros v1 v2 H; cbn [sem free_vars] in *.
    - apply lit_ext, H.
    - rewrite (eval_ext M v1 v2 t); tauto.
    - rewrite (IH v1 v2); tauto.
    - apply op_sem_iff; [apply IHa|apply IHb]; intros x Hx; apply H, in_or_app; auto.
    - assert (X : forall d x, In x (free_vars a) -> vset v1 y d x = vset v2 y d x).
      { intros d x Hx. destruct (Nat.eq_dec y x) as [<-|N]; [rewrite !vset_same; auto|]. rewrite !vset_other; auto. apply H, filter_In. split; auto.
        apply negb_true_iff, Nat.eqb_neq; auto. }
      destruct q; split.
      + intros K d Hd. apply (IH (vset v1 y d)); auto.
      + intros K d Hd. apply (IH _ (vset v2 y d)); auto.
      + intros [d [Hd K]]. exists d. split; auto. apply (IH (vset v1 y d)); auto.
      + intros [d [Hd K]]. exists d. split; auto. apply (IH _ (vset v2 y d)); auto.
  Qed.
  Lemma sem_not_free f v x d : is_free x f = false -> (sem S M (vset v x d) f <-> sem S M v f).
  Proof. intros H. apply sem_ext. intros y Hy. apply vset_other. intros ->. apply is_free_in in Hy. congruence. Qed.
End SemExt.
Lemma sem_sorts S S' M f : (forall x, vsort S x = vsort S' x) -> forall v, sem S M v f <-> sem S' M v f.
Proof.
  intros H. induction f as [p l r|t|a IH|o a IHa b IHb|q y a IH]; intros v; cbn [sem]; try tauto.
  - rewrite IH; tauto.
  - apply op_sem_iff; auto.
  - rewrite H. destruct q; split; [intros K d Hd; apply IH; auto|intros K d Hd; apply IH; auto|intros [d [A B]]; exists d; split; auto; apply IH; auto..].
Qed.

(** ** What all steps preserve *)
Definition tf (s : sym) : Prop := s = true_code \/ s = false_code.
Section Steps.
  Variable E : env.
  Hypothesis HE : env_ok E.
  Notation S := (srt E).
  Record better (f g : form) : Prop := {
    bt_ok : form_ok E f -> form_ok E g;
    bt_vars : incl (all_vars g) (all_vars f);
    bt_syms : forall s, In s (form_syms g) -> In s (form_syms f) \/ tf s;
    bt_sem : form_ok E f -> forall M v, model_ok S (dist E) M -> respects S M v -> (sem S M v g <-> sem S M v f) }.
  Lemma better_refl f : better f f.
  Proof. constructor; auto; [apply incl_refl|tauto]. Qed.
  Lemma better_trans f g h : better f g -> better g h -> better f h.
  Proof.
    intros [A1 A2 A3 A4] [B1 B2 B3 B4]. constructor; auto; [eapply incl_tran; eauto| |].
    - intros s Hs. destruct (B3 s Hs); auto.
    - intros K M v HM Hv. rewrite B4, A4; auto. tauto.
  Qed.
  Lemma better_not a a' : better a a' -> better (FNot a) (FNot a').
  Proof. intros [A1 A2 A3 A4]. constructor; auto. intros K M v HM Hv. cbn [sem]. rewrite A4; auto. tauto. Qed.
  Lemma better_bin o a a' b b' : better a a' -> better b b' -> better (FBin o a b) (FBin o a' b').
  Proof.
    intros [A1 A2 A3 A4] [B1 B2 B3 B4]. constructor; cbn [form_ok all_vars form_syms sem].
    - intros [X Y]; auto.
    - apply incl_app; [apply incl_appl|apply incl_appr]; auto.
    - intros s. rewrite !in_app_iff. intros [X|X]; [destruct (A3 s X)|destruct (B3 s X)]; auto.
    - intros [X Y] M v HM Hv. apply op_sem_iff; auto.
  Qed.
  Lemma better_q q x a a' : better a a' -> better (FQ q x a) (FQ q x a').
  Proof.
    intros [A1 A2 A3 A4]. constructor; cbn [form_ok all_vars form_syms sem]; auto.
    - intros [X Y]; auto.
    - intros y [<-|Hy]; [left; auto|right; auto].
    - intros [X Y] M v HM Hv. destruct q; split; [intros K d Hd; apply (A4 Y M); auto; apply respects_vset; auto| intros K d Hd; apply (A4 Y M); auto; apply respects_vset; auto|
       intros [d [Hd K]]; exists d; split; auto; apply (A4 Y M); auto; apply respects_vset; auto..].
  Qed.

  (** the propositional steps: the same atoms, classical equivalence *)
  Lemma better_intro f g : (form_ok E f -> form_ok E g) -> incl (all_vars g) (all_vars f) -> (forall s, In s (form_syms g) -> In s (form_syms f) \/ tf s) ->
    (form_ok E f -> forall M v, model_ok S (dist E) M -> respects S M v -> (sem S M v g <-> sem S M v f)) -> better f g.
  Proof. constructor; auto. Qed.

  Lemma true_ok : wf S ttrue /\ tsort S ttrue = fres S true_code /\ primary ttrue.
  Proof. split; [apply wf_true; auto|]. split; [reflexivity|intros x []]. Qed.
  Lemma false_ok : wf S tfalse /\ tsort S tfalse = fres S true_code /\ primary tfalse.
  Proof. split; [apply wf_false; auto|]. split; [symmetry; apply (eo_tf E HE)|intros x []]. Qed.
  Lemma prop_const_ok p : form_ok E (prop_const p).
  Proof. destruct true_ok as [A [B C]]. cbn. auto. Qed.
  Lemma has_code_true l : wf S l -> has_code true_code l = true -> l = ttrue.
  Proof.
    destruct l as [x|f a]; [discriminate|]. cbn [has_code]. intros W H. apply Nat.eqb_eq in H. subst f. apply wf_fun in W. destruct W as [_ W].
    rewrite (eo_true E HE) in W. destruct a; [reflexivity|discriminate].
  Qed.
  Lemma has_code_false l : wf S l -> has_code false_code l = true -> l = tfalse.
  Proof.
    destruct l as [x|f a]; [discriminate|]. cbn [has_code]. intros W H. apply Nat.eqb_eq in H. subst f. apply wf_fun in W. destruct W as [_ W].
    rewrite (eo_false E HE) in W. destruct a; [reflexivity|discriminate].
  Qed.
  Lemma is_prop_eq p f : form_ok E f -> is_prop p f = true -> f = prop_const p.
  Proof.
    destruct f as [q l r| | | |]; try discriminate. cbn [is_prop form_ok]. intros [A [B _]] H. rewrite !andb_true_iff, Bool.eqb_true_iff in H. destruct H as [[-> H1] H2].
    rewrite (has_code_true l), (has_code_true r); auto.
  Qed.
  Lemma prop_true M v : sem S M v (prop_const true).
  Proof. reflexivity. Qed.
  Lemma prop_false M v : ~ sem S M v (prop_const false).
  Proof. cbn. unfold lit_holds. congruence. Qed.
  Lemma is_prop_sem f M v : form_ok E f -> (is_prop true f = true -> sem S M v f) /\ (is_prop false f = true -> ~ sem S M v f).
  Proof. intros K. split; intros H; rewrite (is_prop_eq _ f K H); [apply prop_true|apply prop_false]. Qed.

  Lemma neg_alloc_better f : better (FNot f) (neg_alloc f).
  Proof.
    destruct f; try apply better_refl. cbn [neg_alloc]. constructor; cbn; auto; [apply incl_refl|]. intros K M v HM Hv. split; [tauto|apply NNPP].
  Qed.

  (** ** Simplification *)
  Lemma flip_better p l r : better (FNot (FLit p l r)) (FLit (negb p) l r).
  Proof.
    constructor; cbn; auto; [apply incl_refl|]. intros _ M v HM Hv. unfold lit_holds. destruct (mo_dec _ _ _ HM (eval M v l) (eval M v r)); destruct p; cbn; tauto.
  Qed.
  Lemma drop_quant q x a : is_free x a = false -> better (FQ q x a) a.
  Proof.
    intros H. constructor; cbn [form_ok all_vars form_syms sem]; [tauto|apply incl_tl, incl_refl|auto|]. intros _ M v HM Hv. destruct q; split.
    - intros K d _. apply sem_not_free; auto.
    - intros K. destruct (mo_inh _ _ _ HM (vsort S x)) as [d Hd]. apply (sem_not_free S M a v x d); auto.
    - intros K. destruct (mo_inh _ _ _ HM (vsort S x)) as [d Hd]. exists d. split; auto. apply sem_not_free; auto.
    - intros [d [_ K]]. apply sem_not_free in K; auto.
  Qed.
  Lemma pick a b c : (c = a \/ c = b) -> forall o, (form_ok E (FBin o a b) -> form_ok E c) /\ incl (all_vars c) (all_vars (FBin o a b)) /\ incl (form_syms c) (form_syms (FBin o a b)).
  Proof. intros [->| ->] o; (split; [intros [A B]; auto|split; cbn; intros x Hx; apply in_or_app; auto]). Qed.
  Lemma pick_better o a b c : (c = a \/ c = b) ->
    (form_ok E a -> form_ok E b -> forall M v, model_ok S (dist E) M -> respects S M v -> (sem S M v c <-> op_sem o (sem S M v a) (sem S M v b))) -> better (FBin o a b) c.
  Proof. intros P H. destruct (pick a b c P o) as [A [B C]]. constructor; auto. intros [K K'] M v HM Hv. apply H; auto. Qed.
  Lemma const_better o a b p : (form_ok E a -> form_ok E b -> forall M v, model_ok S (dist E) M -> respects S M v -> (sem S M v (prop_const p) <-> op_sem o (sem S M v a) (sem S M v b))) ->
    better (FBin o a b) (prop_const p).
  Proof.
    intros H. constructor; [intros _; apply prop_const_ok|intros x []|intros s Hs; right; left; destruct Hs as [<-|[<-|[]]]; reflexivity|].
    intros [K K'] M v HM Hv. apply H; auto.
  Qed.
  Lemma not_better o a b c : (c = a \/ c = b) ->
    (form_ok E a -> form_ok E b -> forall M v, model_ok S (dist E) M -> respects S M v -> (~ sem S M v c <-> op_sem o (sem S M v a) (sem S M v b))) -> better (FBin o a b) (neg_alloc c).
  Proof.
    intros P H. apply better_trans with (FNot c); [|apply neg_alloc_better]. destruct (pick a b c P o) as [A [B C]]. constructor; auto. intros [K K'] M v HM Hv. apply H; auto.
  Qed.

  Ltac psem := let KA := fresh in let KB := fresh in intros KA KB M v HM Hv;
    pose proof (prop_true M v); pose proof (prop_false M v); pose proof (is_prop_sem _ M v KA); pose proof (is_prop_sem _ M v KB); cbn [op_sem]; tauto.

  Lemma simp_step_better rec limit f g : (forall h h', rec h = Some h' -> better h h') -> simp_step rec limit f = Some g -> better f g.
  Proof.
    intros HR H. destruct f as [p l r|t|a|o a b|q x a]; cbn [simp_step] in H.
    - injection H as <-. apply better_refl.
    - injection H as <-. apply better_refl.
    - destruct a; injection H as <-; try apply better_refl. apply flip_better.
    - destruct o.
      + injection H as <-. unfold return_other, return_it. destruct (is_prop true a) eqn:P1; [apply pick_better; auto; psem|]. destruct (is_prop true b) eqn:P2; [apply pick_better; auto; psem|].
        destruct (is_prop false a) eqn:P3; [apply pick_better; auto; psem|]. destruct (is_prop false b) eqn:P4; [apply pick_better; auto; psem|].
        destruct (form_eqb_spec a b) as [->|N]; [apply pick_better; auto; psem|apply better_refl].
      + injection H as <-. unfold return_other, return_it. destruct (is_prop false a) eqn:P1; [apply pick_better; auto; psem|]. destruct (is_prop false b) eqn:P2; [apply pick_better; auto; psem|].
        destruct (is_prop true a) eqn:P3; [apply pick_better; auto; psem|]. destruct (is_prop true b) eqn:P4; [apply pick_better; auto; psem|].
        destruct (form_eqb_spec a b) as [->|N]; [apply pick_better; auto; psem|apply better_refl].
      + injection H as <-. destruct (is_prop true a) eqn:P1; [apply pick_better; auto; psem|]. destruct (is_prop false a) eqn:P2; [apply const_better; psem|].
        destruct (is_prop false b) eqn:P3; [apply not_better; auto; psem|]. destruct (is_prop true b) eqn:P4; [apply const_better; psem|].
        destruct (form_eqb_spec a b) as [->|N]; [apply const_better; psem|apply better_refl].
      + injection H as <-. unfold return_other, return_it. destruct (is_prop true a) eqn:P1; [apply pick_better; auto; psem|]. destruct (is_prop true b) eqn:P2; [apply pick_better; auto; psem|].
        destruct (is_prop false a) eqn:P3; [apply not_better; auto; psem|]. destruct (is_prop false b) eqn:P4; [apply not_better; auto; psem|].
        destruct (form_eqb_spec a b) as [->|N]; [apply const_better; psem|apply better_refl].
      + apply better_trans with (FNot (FBin And a b)); [|auto]. constructor; cbn; auto; [apply incl_refl|tauto].
      + apply better_trans with (FNot (FBin Or a b)); [|auto]. constructor; cbn; auto; [apply incl_refl|tauto].
      + apply better_trans with (FBin Impl b a); [|auto]. constructor; cbn; [tauto| | |tauto].
        * intros x. rewrite !in_app_iff. tauto.
        * intros x. rewrite !in_app_iff. tauto.
      + apply better_trans with (FNot (FBin Equiv a b)); [|auto]. constructor; cbn; auto; [apply incl_refl|tauto].
    - injection H as <-. destruct (Nat.eqb (vcount (FQ q x a)) 0) eqn:V; [discriminate|]. cbn [orb]. destruct (_ && _) eqn:Q; [|apply better_refl].
      apply andb_true_iff in Q. destruct Q as [_ Q]. apply negb_true_iff in Q. apply drop_quant; auto.
  Qed.
  Lemma simp_loop_better rec limit : (forall h h', rec h = Some h' -> better h h') -> forall n f g, simp_loop rec limit n f = Some g -> better f g.
  Proof.
    intros HR. induction n as [|n IH]; intros f g H; [discriminate|]. cbn [simp_loop] in H. destruct (simp_step rec limit f) as [h|] eqn:X; [|discriminate].
    apply (simp_step_better rec limit f h HR) in X. destruct (form_eqb h f); [injection H as <-; auto|]. eapply better_trans; eauto.
  Qed.
  Lemma simp_better limit : forall n f g, simp n limit f = Some g -> better f g.
  Proof.
    induction n as [|n IH]; intros f g H; [discriminate|]. cbn [simp] in H. destruct f as [p l r|t|a|o a b|q x a].
    - injection H as <-. apply better_refl.
    - eapply simp_loop_better; eauto.
    - destruct (simp n limit a) as [a'|] eqn:X; [|discriminate]. apply better_trans with (FNot a'); [apply better_not; auto|eapply simp_loop_better; eauto].
    - destruct (simp n limit a) as [a'|] eqn:X; [|discriminate]. destruct (simp n limit b) as [b'|] eqn:Y; [|discriminate].
      apply better_trans with (FBin o a' b'); [apply better_bin; auto|eapply simp_loop_better; eauto].
    - destruct (simp n limit a) as [a'|] eqn:X; [|discriminate]. apply better_trans with (FQ q x a'); [apply better_q; auto|eapply simp_loop_better; eauto].
  Qed.

  (** ** Negation normal form *)
  Lemma root_step_better pol f g : root_step pol f = Some g -> better f g.
  Proof.
    destruct f as [p l r|t|a|o a b|q x a]; cbn [root_step]; try discriminate.
    - destruct a as [p l r|t|a|o a b|q x a].
      + intros H. injection H as <-. apply flip_better.
      + destruct (term_eqb_spec t ttrue) as [->|N]; [|destruct (term_eqb_spec t tfalse) as [->|N']; [|discriminate]]; intros H; injection H as <-.
        * constructor; cbn; [tauto|apply incl_refl|tauto|]. intros _ M v HM Hv. unfold lit_holds. tauto.
        * constructor; cbn; [tauto|apply incl_refl|tauto|]. intros _ M v HM Hv. unfold lit_holds. cbn. pose proof (mo_tf _ _ _ HM). split; intros; [congruence|auto].
      + intros H. injection H as <-. constructor; cbn; auto; [apply incl_refl|]. intros _ M v HM Hv. split; [tauto|apply NNPP].
      + destruct o; intros H; try discriminate; injection H as <-; (constructor; cbn; auto; [apply incl_refl|]); intros _ M v HM Hv; tauto.
      + destruct q; intros H; injection H as <-; (constructor; cbn; auto; [apply incl_refl|]); intros _ M v HM Hv; split.
        * intros [d [Hd K]] X. apply K, X, Hd.
        * intros K. apply NNPP. intros X. apply K. intros d Hd. apply NNPP. intros Y. apply X. exists d. auto.
        * intros K [d [Hd X]]. exact (K d Hd X).
        * intros K d Hd X. apply K. exists d; auto.
    - destruct o; try discriminate; intros H; injection H as <-.
      + constructor; cbn; auto; [apply incl_refl|]. intros _ M v HM Hv. destruct (classic (sem S M v a)); tauto.
      + destruct pol; (constructor; cbn; [tauto| | |]).
        * intros x. rewrite !in_app_iff. tauto.
        * intros x. rewrite !in_app_iff. tauto.
        * tauto.
        * intros x. rewrite !in_app_iff. tauto.
        * intros x. rewrite !in_app_iff. tauto.
        * intros _ M v HM Hv. destruct (classic (sem S M v a)); tauto.
  Qed.
  Lemma root_nnf_better pol : forall n f g, root_nnf n pol f = Some g -> better f g.
  Proof.
    induction n as [|n IH]; intros f g H; [discriminate|]. cbn [root_nnf] in H. destruct (root_step pol f) as [h|] eqn:X; [|injection H as <-; apply better_refl].
    apply better_trans with h; auto. eapply root_step_better; eauto.
  Qed.
  Lemma encode_better t : better (FAtom t) (encode_atom t).
  Proof.
    unfold encode_atom. destruct (term_eqb_spec t ttrue) as [->|N]; [|destruct (term_eqb_spec t tfalse) as [->|N']].
    - constructor; cbn; [tauto|apply incl_refl|tauto|]. intros _ M v HM Hv. unfold lit_holds. tauto.
    - constructor; cbn; [tauto|apply incl_refl|tauto|]. intros _ M v HM Hv. unfold lit_holds. cbn. pose proof (mo_tf _ _ _ HM). split; intros; [congruence|]. intros X. congruence.
    - destruct true_ok as [A [B C]]. constructor; cbn.
      + intros [X [Y Z]]. repeat split; auto.
      + rewrite app_nil_r. apply incl_refl.
      + intros s Hs. apply in_app_or in Hs. destruct Hs as [Hs|[<-|[]]]; [auto|right; left; auto].
      + intros _ M v HM Hv. unfold lit_holds. cbn. tauto.
  Qed.
  Lemma nnf_better : forall n pol f g, nnf_rec n pol f = Some g -> better f g.
  Proof.
    induction n as [|n IH]; intros pol f g H; [discriminate|]. cbn [nnf_rec] in H. destruct (root_nnf (Datatypes.S (wnnf f)) pol f) as [f1|] eqn:R; [|discriminate].
    apply root_nnf_better in R. apply better_trans with f1; auto. clear R f. destruct f1 as [p l r|t|a|o a b|q x a].
    - injection H as <-. apply better_refl.
    - injection H as <-. apply encode_better.
    - destruct (nnf_rec n (negb pol) a) as [h|] eqn:X; [|discriminate]. destruct (form_eqb h a); [injection H as <-; apply better_refl|].
      apply better_trans with (FNot h); eauto using better_not.
    - assert (G : (FBin o a b = g \/ exists h h2, nnf_rec n pol a = Some h /\ nnf_rec n pol b = Some h2 /\ nnf_rec n pol (FBin o h h2) = Some g)).
      { destruct o; try (left; congruence); (destruct (nnf_rec n pol a) as [h|] eqn:X; [|discriminate]); (destruct (nnf_rec n pol b) as [h2|] eqn:Y; [|discriminate]);
        (destruct (form_eqb h a && form_eqb h2 b); [left; congruence|right; exists h, h2; auto]). }
      destruct G as [<-|[h [h2 [X [Y Z]]]]]; [apply better_refl|]. apply better_trans with (FBin o h h2); eauto using better_bin.
    - destruct (nnf_rec n pol a) as [h|] eqn:X; [|discriminate]. destruct (form_eqb h a); [injection H as <-; apply better_refl|].
      apply better_trans with (FQ q x h); eauto using better_q.
  Qed.

  (** ** Miniscoping *)
  Ltac inc := let y := fresh in intros y; repeat (cbn [In all_vars form_syms]; rewrite ?in_app_iff); tauto.
  Lemma push_better f : better f (push_quant f).
  Proof.
    destruct f as [p l r|t|a|o a b|q x a]; try apply better_refl. destruct a as [p l r|t|a|o a b|q' x' a]; try apply better_refl. cbn [push_quant].
    assert (X : o = And \/ o = Or -> better (FQ q x (FBin o a b)) (
      if negb (is_free x a) then FBin o a (FQ q x b)
          else if negb (is_free x b) then FBin o (FQ q x a) b
          else match o, q with
               | And, true => FBin And (FQ true x a) (FQ true x b)
               | Or, false => FBin Or (FQ false x a) (FQ false x b)
               | _, _ => FQ q x (FBin o a b)
               end)).
    { intros O. destruct (is_free x a) eqn:FA; cbn [negb]; [destruct (is_free x b) eqn:FB; cbn [negb]|].
      - destruct O as [-> | ->], q; try apply better_refl; (constructor; cbn; [tauto| | |]).
        + inc.
        + inc.
        + intros _ M v HM Hv. split; [intros [X Y] d Hd; auto|]. intros X. split; intros d Hd; apply (X d Hd).
        + inc.
        + inc.
        + intros _ M v HM Hv. split; [intros [[d [X Y]]|[d [X Y]]]; exists d; tauto|]. intros [d [X [Y|Y]]]; [left|right]; exists d; tauto.
      - constructor; cbn [form_ok all_vars form_syms]; [tauto| | |].
        + inc.
        + inc.
        + intros _ M v HM Hv. destruct (mo_inh _ _ _ HM (vsort S x)) as [e He].
          assert (K : forall d, sem S M (vset v x d) b <-> sem S M v b) by (intros d; apply sem_not_free; auto).
          destruct O as [-> | ->], q; cbn [sem op_sem]; split.
          * intros [X Y] d Hd. split; auto. apply K; auto.
          * intros X. split; [intros d Hd; apply (X d Hd)|]. apply (K e). apply (X e He).
          * intros [[d [X Y]] Z]. exists d. rewrite K. auto.
          * intros [d [X [Y Z]]]. rewrite K in Z. split; auto. exists d; auto.
          * intros [X|X] d Hd; [left; auto|right; apply K; auto].
          * intros X. destruct (classic (sem S M v b)) as [Y|Y]; auto. left. intros d Hd. destruct (X d Hd) as [Z|Z]; auto. apply K in Z. contradiction.
          * intros [[d [X Y]]|X]; [exists d; auto|exists e; split; auto; right; apply K; auto].
          * intros [d [X [Y|Y]]]; [left; exists d; auto|right; apply K in Y; auto].
      - constructor; cbn [form_ok all_vars form_syms]; [tauto| | |].
        + inc.
        + inc.
        + intros _ M v HM Hv. destruct (mo_inh _ _ _ HM (vsort S x)) as [e He].
          assert (K : forall d, sem S M (vset v x d) a <-> sem S M v a) by (intros d; apply sem_not_free; auto).
          destruct O as [-> | ->], q; cbn [sem op_sem]; split.
          * intros [X Y] d Hd. split; auto. apply K; auto.
          * intros X. split; [|intros d Hd; apply (X d Hd)]. apply (K e). apply (X e He).
          * intros [Z [d [X Y]]]. exists d. rewrite K. auto.
          * intros [d [X [Z Y]]]. rewrite K in Z. split; auto. exists d; auto.
          * intros [X|X] d Hd; [left; apply K; auto|right; auto].
          * intros X. destruct (classic (sem S M v a)) as [Y|Y]; auto. right. intros d Hd. destruct (X d Hd) as [Z|Z]; auto. apply K in Z. contradiction.
          * intros [X|[d [X Y]]]; [exists e; split; auto; left; apply K; auto|exists d; auto].
          * intros [d [X [Y|Y]]]; [left; apply K in Y; auto|right; exists d; auto]. }
    destruct o; auto; apply better_refl.
  Qed.
  Lemma mini_better : forall n f g, mini_rec n f = Some g -> better f g.
  Proof.
    induction n as [|n IH]; intros f g H; [discriminate|]. cbn [mini_rec] in H. apply better_trans with (push_quant f); [apply push_better|].
    destruct (push_quant f) as [p l r|t|a|o a b|q x a].
    - injection H as <-. apply better_refl.
    - injection H as <-. apply better_refl.
    - destruct (mini_rec n a) as [h|] eqn:X; [|discriminate]. destruct (form_eqb h a); [injection H as <-; apply better_refl|].
      apply better_trans with (FNot h); eauto using better_not.
    - destruct (mini_rec n a) as [h|] eqn:X; [|discriminate]. destruct (mini_rec n b) as [h2|] eqn:Y; [|discriminate]. destruct (form_eqb h a && form_eqb h2 b); [injection H as <-; apply better_refl|].
      apply better_trans with (FBin o h h2); eauto using better_bin.
    - destruct (mini_rec n a) as [h|] eqn:X; [|discriminate]. destruct (form_eqb h a); [injection H as <-; apply better_refl|].
      apply better_trans with (FQ q x h); eauto using better_q.
  Qed.
  Lemma copy_mod_better cands : forall f g, copy_mod cands f = Some g -> better f g.
  Proof.
    assert (Z : forall f g, miniscope f = Some g -> better f g) by (intros f g; apply mini_better).
    induction f as [p l r|t|a IH|o a IHa b IHb|q x a IH]; intros g H; cbn [copy_mod] in H.
    - injection H as <-. apply better_refl.
    - destruct (Nat.eqb _ 0); [injection H as <-; apply better_refl|]. destruct (existsb _ _); [auto|injection H as <-; apply better_refl].
    - destruct (Nat.eqb _ 0); [injection H as <-; apply better_refl|]. destruct (existsb _ _); [auto|]. destruct (copy_mod cands a) as [a'|]; [|discriminate].
      injection H as <-. apply better_not; auto.
    - destruct (Nat.eqb _ 0); [injection H as <-; apply better_refl|]. destruct (existsb _ _); [auto|]. destruct (copy_mod cands a) as [a'|]; [|discriminate].
      destruct (copy_mod cands b) as [b'|]; [|discriminate]. injection H as <-. apply better_bin; auto.
    - destruct (Nat.eqb _ 0); [injection H as <-; apply better_refl|]. destruct (existsb _ _); [auto|injection H as <-; apply better_refl].
  Qed.
  Lemma miniscope3_better limit f g : miniscope3 limit f = Some g -> better f g.
  Proof.
    unfold miniscope3. destruct (find_mini limit f false) as [[sz cands] ex]. destruct cands; [intros H; injection H as <-; apply better_refl|]. apply copy_mod_better.
  Qed.

  (** ** Expansion of literals *)
  Lemma expand_eq_better l r : better (FLit true l r) (expand_eq E l r).
  Proof.
    unfold expand_eq. destruct (isVar l); cbn [negb andb]; [apply better_refl|]. destruct (Nat.eqb_spec (tsort S l) (fres S true_code)) as [TS|]; [|apply better_refl].
    destruct (term_eqb_spec r ttrue) as [->|NR]; cbn [negb].
    - destruct (has_code true_code l || has_code false_code l) eqn:Q; [|apply better_refl]. constructor; cbn [form_ok all_vars form_syms sem].
      + tauto.
      + apply incl_appl, incl_refl.
      + intros s Hs. left. apply in_or_app. auto.
      + intros _ M v HM Hv. unfold lit_holds. cbn. tauto.
    - constructor; cbn [form_ok all_vars form_syms sem op_sem].
      + intros [A [B [C [D F]]]]. rewrite C in TS. intuition congruence.
      + apply incl_refl.
      + auto.
      + intros [A [B [C [D F]]]] M v HM Hv. unfold lit_holds. pose proof (eval_sort _ _ _ _ _ HM Hv A) as DA. pose proof (eval_sort _ _ _ _ _ HM Hv B) as DB.
        rewrite <- C, TS in DB. rewrite TS in DA. pose proof (mo_tf _ _ _ HM) as T.
        destruct (mo_bool _ _ _ HM _ DA) as [-> | ->], (mo_bool _ _ _ HM _ DB) as [-> | ->]; split; intros; try tauto; try congruence.
        * exfalso. apply T. symmetry. tauto.
  Qed.
  Lemma expand_better f : better f (expand E f).
  Proof.
    induction f as [p l r|t|a IH|o a IHa b IHb|q x a IH]; cbn [expand]; auto using better_refl, better_not, better_bin, better_q.
    destruct p; [apply expand_eq_better|]. apply better_trans with (FNot (FLit true l r)).
    - constructor; cbn; auto; [apply incl_refl|tauto].
    - apply better_not, expand_eq_better.
  Qed.

  (** ** Distribution *)
  Lemma dist_better : forall n f g, dist_rec n f = Some g -> better f g.
  Proof.
    induction n as [|n IH]; intros f g H; [discriminate|]. cbn [dist_rec] in H. destruct f as [p l r|t|a|o a b|q x a].
    - injection H as <-. apply better_refl.
    - injection H as <-. apply better_refl.
    - destruct (dist_rec n a) as [a'|] eqn:X; [|discriminate]. injection H as <-. apply better_not; auto.
    - destruct (dist_rec n a) as [a'|] eqn:X; [|discriminate]. destruct (dist_rec n b) as [b'|] eqn:Y; [|discriminate]. apply better_trans with (FBin o a' b'); [apply better_bin; auto|].
      assert (D1 : forall f1 f2 c, better (FBin Or (FBin And f1 f2) c) (FBin And (FBin Or f1 c) (FBin Or f2 c))).
      { intros f1 f2 c. constructor; cbn; [tauto| | |tauto]; intros y; rewrite !in_app_iff; tauto. }
      assert (D2 : forall f1 f2 c, better (FBin Or c (FBin And f1 f2)) (FBin And (FBin Or f1 c) (FBin Or f2 c))).
      { intros f1 f2 c. constructor; cbn; [tauto| | |tauto]; intros y; rewrite !in_app_iff; tauto. }
      destruct o; try (injection H as <-; apply better_refl).
      assert (G : (exists f1 f2, a' = FBin And f1 f2 /\ dist_rec n (FBin And (FBin Or f1 b') (FBin Or f2 b')) = Some g) \/
                  (exists f1 f2, b' = FBin And f1 f2 /\ dist_rec n (FBin And (FBin Or f1 a') (FBin Or f2 a')) = Some g) \/ g = FBin Or a' b').
      { clear - H. destruct a' as [| | |[] f1 f2|]; try (left; exists f1, f2; split; [reflexivity|exact H]); right;
        (destruct b' as [| | |[] g1 g2|]; try (left; exists g1, g2; split; [reflexivity|exact H]); right; congruence). }
      destruct G as [[f1 [f2 [-> G]]]|[[f1 [f2 [-> G]]]| ->]]; [eapply better_trans; eauto..|apply better_refl].
    - destruct (dist_rec n a) as [a'|] eqn:X; [|discriminate]. injection H as <-. apply better_q; auto.
  Qed.
End Steps.
