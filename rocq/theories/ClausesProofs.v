(** * Proofs about instantiating copies, normalisation and literal lists. *)
From Verif Require Import Terms Unify UnifyProofs Semantics Clauses.

(** ** Variable cells *)
Lemma prim_even x : is_fresh (prim x) = false.
Proof.
  unfold is_fresh, prim. rewrite <- Nat.negb_even. replace (Nat.double (Nat.div2 x)) with (2 * Nat.div2 x) by (unfold Nat.double; lia).
  rewrite Nat.even_mul. reflexivity.
Qed.

Lemma prim_id x : is_fresh x = false -> prim x = x.
Proof.
  unfold is_fresh, prim. intros H. pose proof (Nat.div2_odd x) as D. rewrite H in D. simpl in D. unfold Nat.double. lia.
Qed.

Lemma prim_fresh x : is_fresh x = true -> x = S (prim x).
Proof.
  unfold is_fresh, prim. intros H. pose proof (Nat.div2_odd x) as D. rewrite H in D. simpl in D. unfold Nat.double. lia.
Qed.

Lemma prim_fresh_inj x y : is_fresh x = true -> is_fresh y = true -> prim x = prim y -> x = y.
Proof. intros A B C. rewrite (prim_fresh x A), (prim_fresh y B), C. reflexivity. Qed.

Definition ren : subst := fun x => Var (prim x).

Lemma ren_wf E : env_ok E -> wfsubst (srt E) ren.
Proof. intros H x. split; [apply (eo_prim E H) | reflexivity]. Qed.

Lemma ren_primary t : primary (app ren t).
Proof.
  intros x Hx. apply vars_app in Hx. destruct Hx as [y [_ [<-|[]]]]. apply prim_even.
Qed.

Lemma ren_id t : primary t -> app ren t = t.
Proof.
  intros H. rewrite <- (app_var t) at 2. apply app_ext. intros x Hx. unfold ren. rewrite prim_id; auto.
Qed.

(** ** mapo *)
Lemma mapo_spec {A B} (f : A -> option B) : forall l r, mapo f l = Some r -> Forall2 (fun a b => f a = Some b) l r.
Proof.
  induction l as [|a l IH]; intros r H; simpl in H.
  - injection H as <-. constructor.
  - destruct (f a) as [b|] eqn:Fa; [|discriminate]. destruct (mapo f l) as [bs|] eqn:Fl; [|discriminate].
    injection H as <-. constructor; auto.
Qed.

Lemma mapo_total {A B} (f : A -> option B) : forall l, (forall a, In a l -> exists b, f a = Some b) -> exists r, mapo f l = Some r.
Proof.
  induction l as [|a l IH]; intros H; simpl; [eauto|].
  destruct (H a (or_introl eq_refl)) as [b ->]. destruct IH as [r ->]; [intros; apply H; right; auto|]. eauto.
Qed.

Lemma mapo_mono {A B} (f g : A -> option B) : forall l r, (forall a b, In a l -> f a = Some b -> g a = Some b) ->
  mapo f l = Some r -> mapo g l = Some r.
Proof.
  induction l as [|a l IH]; intros r H E; simpl in *; auto.
  destruct (f a) as [b|] eqn:Fa; [|discriminate]. rewrite (H a b (or_introl eq_refl) Fa).
  destruct (mapo f l) as [bs|] eqn:Fl; [|discriminate]. rewrite (IH bs); auto.
Qed.

Lemma mapo_map {A B} (f : A -> option B) (g : A -> B) l r :
  (forall a b, In a l -> f a = Some b -> b = g a) -> mapo f l = Some r -> r = map g l.
Proof.
  intros H E. apply mapo_spec in E. induction E as [|a b l r Hab _ IH]; simpl; auto.
  f_equal; [apply H; simpl; auto | apply IH; intros; apply H; simpl; auto].
Qed.

(** ** inst *)
Lemma inst_correct b s : denotes b s -> forall n t u, inst n b t = Some u -> u = app ren (app s t).
Proof.
  intros HD. induction n as [|n IH]; intros t u H; [discriminate|]. cbn [inst] in H.
  destruct (deref n b t) as [d|] eqn:D; [|discriminate].
  rewrite (deref_app b s (denotes_solves _ _ HD) _ _ _ D).
  pose proof (deref_unbound b _ _ _ D) as U. destruct d as [y|f args].
  - injection H as <-. simpl. specialize (HD y). rewrite U in HD. rewrite HD. reflexivity.
  - destruct (mapo (inst n b) args) as [l|] eqn:E; [|discriminate]. injection H as <-.
    simpl. f_equal. rewrite map_map. apply (mapo_map (inst n b)); auto.
Qed.

Lemma inst_mono b : forall n m t u, n <= m -> inst n b t = Some u -> inst m b t = Some u.
Proof.
  induction n as [|n IH]; intros m t u Hm H; [discriminate|]. destruct m as [|m]; [lia|].
  cbn [inst] in *. destruct (deref n b t) as [d|] eqn:D; [|discriminate].
  rewrite (deref_mono b n m t d); auto; [|lia]. destruct d as [y|f args]; auto.
  destruct (mapo (inst n b) args) as [l|] eqn:E; [|discriminate].
  rewrite (mapo_mono (inst n b) (inst m b) args l); auto. intros; apply IH; auto; lia.
Qed.

Section Total.
Variables (b : binding) (rank : var -> nat) (s : subst).
Hypothesis HR : forall x t y, b x = Some t -> In y (vars t) -> rank y < rank x.
Hypothesis HD : denotes b s.

Lemma trank_arg f args a : In a args -> trank rank a <= trank rank (Fun f args).
Proof. intros H. apply trank_le. intros x Hx. apply trank_var. simpl. apply in_flat_map. eauto. Qed.

Lemma inst_total : forall n t, trank rank t + size (app s t) < n -> exists u, inst n b t = Some u.
Proof.
  induction n as [|n IH]; intros t H; [lia|]. cbn [inst].
  pose proof (size_pos (app s t)).
  destruct (deref_total b rank HR n t ltac:(lia)) as [d [D Rd]]. rewrite D.
  pose proof (deref_app b s (denotes_solves _ _ HD) _ _ _ D) as A.
  destruct d as [y|f args]; [eauto|].
  destruct (mapo_total (inst n b) args) as [l El].
  - intros a Ha. apply IH. pose proof (trank_arg f args a Ha).
    rewrite A in H. assert (size (app s a) < size (app s (Fun f args))) by (apply (size_arg f (map (app s) args)), in_map, Ha). lia.
  - rewrite El. eauto.
Qed.

Lemma inst_repl_total old repl : forall n t, trank rank t + size (app s t) < n -> exists u, inst_repl n b old repl t = Some u.
Proof.
  induction n as [|n IH]; intros t H; [lia|]. cbn [inst_repl].
  destruct (term_eqb t old); [eauto|].
  pose proof (size_pos (app s t)).
  destruct (deref_total b rank HR n t ltac:(lia)) as [d [D Rd]]. rewrite D.
  pose proof (deref_app b s (denotes_solves _ _ HD) _ _ _ D) as A.
  destruct d as [y|f args]; [eauto|].
  destruct (mapo_total (inst_repl n b old repl) args) as [l El].
  - intros a Ha. apply IH. pose proof (trank_arg f args a Ha).
    rewrite A in H. assert (size (app s a) < size (app s (Fun f args))) by (apply (size_arg f (map (app s) args)), in_map, Ha). lia.
  - rewrite El. eauto.
Qed.
End Total.

Lemma inst_repl_mono b old repl : forall n m t u, n <= m -> inst_repl n b old repl t = Some u -> inst_repl m b old repl t = Some u.
Proof.
  induction n as [|n IH]; intros m t u Hm H; [discriminate|]. destruct m as [|m]; [lia|].
  cbn [inst_repl] in *. destruct (term_eqb t old); auto.
  destruct (deref n b t) as [d|] eqn:D; [|discriminate].
  rewrite (deref_mono b n m t d); auto; [|lia]. destruct d as [y|f args]; auto.
  destruct (mapo (inst_repl n b old repl) args) as [l|] eqn:E; [|discriminate].
  rewrite (mapo_mono (inst_repl n b old repl) (inst_repl m b old repl) args l); auto. intros; apply IH; auto; lia.
Qed.

(** [treplace P Q t u]: u is t with some occurrences of P-related subterms replaced by Q; here the
    relation "replace some occurrences of term a by term c". *)
Inductive repl_some (a c : term) : term -> term -> Prop :=
| rs_here : repl_some a c a c
| rs_var x : repl_some a c (Var x) (Var x)
| rs_fun f l l' : Forall2 (repl_some a c) l l' -> repl_some a c (Fun f l) (Fun f l').

Lemma repl_some_refl a c : forall t, repl_some a c t t.
Proof.
  induction t as [x|f l IH] using term_ind'; constructor.
  induction IH; constructor; auto.
Qed.

Section ReplSome.
Variables a c : term.

Fixpoint repl_some_ind' (P : term -> term -> Prop)
  (H1 : P a c) (H2 : forall x, P (Var x) (Var x))
  (H3 : forall f l l', Forall2 (repl_some a c) l l' -> Forall2 P l l' -> P (Fun f l) (Fun f l'))
  (t u : term) (H : repl_some a c t u) {struct H} : P t u :=
  match H in repl_some _ _ t u return P t u with
  | rs_here _ _ => H1
  | rs_var _ _ x => H2 x
  | rs_fun _ _ f l l' HF => H3 f l l' HF
     ((fix go l l' (HF : Forall2 (repl_some a c) l l') : Forall2 P l l' :=
        match HF in Forall2 _ l l' return Forall2 P l l' with
        | Forall2_nil _ => Forall2_nil _
        | Forall2_cons x y Hxy HF' => Forall2_cons x y (repl_some_ind' P H1 H2 H3 x y Hxy) (go _ _ HF')
        end) l l' HF)
  end.

Lemma repl_some_eval M v : eval M v a = eval M v c -> forall t u, repl_some a c t u -> eval M v t = eval M v u.
Proof.
  intros E. apply repl_some_ind'; auto. intros f l l' _ H. simpl. f_equal.
  induction H; simpl; congruence.
Qed.

Lemma repl_some_wf S : wf S c -> tsort S a = tsort S c -> forall t u, repl_some a c t u -> wf S t -> wf S u /\ tsort S u = tsort S t.
Proof.
  intros Wc Sc. apply (repl_some_ind' (fun t u => wf S t -> wf S u /\ tsort S u = tsort S t)).
  - intros _. split; congruence.
  - auto.
  - intros f l l' _ H W. split; [|reflexivity]. apply wf_fun in W. destruct W as [W1 W2]. apply wf_fun.
    rewrite <- W2. clear W2. induction H as [|x y l l' Hxy _ IH]; [split; auto|].
    inversion W1; subst. destruct (Hxy H1) as [A B]. destruct (IH H2) as [C D].
    split; [constructor; auto | simpl; congruence].
Qed.

Lemma repl_some_vars : forall t u, repl_some a c t u -> forall x, In x (vars u) -> In x (vars t) \/ In x (vars c).
Proof.
  apply (repl_some_ind' (fun t u => forall x, In x (vars u) -> In x (vars t) \/ In x (vars c))); auto.
  intros f l l' _ H x Hx. simpl in *. induction H as [|p q l l' Hpq _ IH]; simpl in *; auto.
  rewrite in_app_iff in *. destruct Hx as [Hx|Hx]; [destruct (Hpq x Hx) | destruct (IH Hx)]; auto.
Qed.
End ReplSome.

Lemma inst_repl_correct b s old repl : denotes b s -> forall n t u, inst_repl n b old repl t = Some u ->
  repl_some (app ren (app s old)) repl (app ren (app s t)) u.
Proof.
  intros HD. induction n as [|n IH]; intros t u H; [discriminate|]. cbn [inst_repl] in H.
  destruct (term_eqb_spec t old) as [->|N]; [injection H as <-; constructor|].
  destruct (deref n b t) as [d|] eqn:D; [|discriminate].
  rewrite (deref_app b s (denotes_solves _ _ HD) _ _ _ D).
  pose proof (deref_unbound b _ _ _ D) as U. destruct d as [y|f args].
  - injection H as <-. simpl. specialize (HD y). rewrite U in HD. rewrite HD. apply rs_var.
  - destruct (mapo (inst_repl n b old repl) args) as [l|] eqn:E; [|discriminate]. injection H as <-.
    simpl. apply rs_fun. rewrite map_map. apply mapo_spec in E. clear D.
    induction E as [|x y args l Hxy _ IHE]; simpl; constructor; auto.
Qed.

Lemma repl_plain_some old repl : forall t, repl_some old repl t (repl_plain old repl t).
Proof.
  induction t as [x|f l IH] using term_ind'; cbn [repl_plain].
  - destruct (term_eqb_spec (Var x) old) as [->|N]; [constructor|].
    destruct (stdweight (Var x) <=? stdweight old)%Z; constructor.
  - destruct (term_eqb_spec (Fun f l) old) as [->|N]; [constructor|].
    destruct (stdweight (Fun f l) <=? stdweight old)%Z; [apply repl_some_refl|].
    constructor. clear N. induction IH; simpl; constructor; auto.
Qed.

(** ** Positions *)
Lemma replace_at_total : forall p t u r, subterm_at t p = Some u -> exists t', replace_at t p r = Some t'.
Proof.
  induction p as [|i p IH]; intros t u r H; simpl in *; [eauto|].
  destruct t as [x|f args]; [discriminate|]. destruct (nth_error args i) as [a|]; [|discriminate].
  destruct (IH a u r H) as [a' ->]. eauto.
Qed.

Lemma set_nth_spec : forall l i (a a' : term), nth_error l i = Some a ->
  exists l1 l2, l = l1 ++ a :: l2 /\ set_nth l i a' = l1 ++ a' :: l2.
Proof.
  induction l as [|x l IH]; intros [|i] a a' H; simpl in H; try discriminate.
  - injection H as ->. exists [], l. auto.
  - destruct (IH i a a' H) as [l1 [l2 [-> E]]]. exists (x :: l1), l2. simpl. rewrite E. auto.
Qed.

Lemma replace_at_eval M v : forall p t u r t', subterm_at t p = Some u -> replace_at t p r = Some t' ->
  eval M v u = eval M v r -> eval M v t = eval M v t'.
Proof.
  induction p as [|i p IH]; intros t u r t' H1 H2 E; simpl in *; [congruence|].
  destruct t as [x|f args]; [discriminate|]. destruct (nth_error args i) as [a|] eqn:N; [|discriminate].
  destruct (replace_at a p r) as [a'|] eqn:R; [|discriminate]. injection H2 as <-.
  pose proof (IH a u r a' H1 R E) as Ea. destruct (set_nth_spec args i a a' N) as [l1 [l2 [-> ->]]].
  simpl. f_equal. rewrite !map_app. simpl. congruence.
Qed.

Lemma subterm_at_in : forall p t u, subterm_at t p = Some u -> In u (subterms t).
Proof.
  induction p as [|i p IH]; intros t u H; simpl in H.
  - injection H as ->. apply subterm_refl.
  - destruct t as [x|f args]; [discriminate|]. destruct (nth_error args i) as [a|] eqn:N; [|discriminate].
    apply subterms_fun. right. exists a. split; [eapply nth_error_In; eauto | auto].
Qed.

Lemma wf_subterm S : forall t u, wf S t -> In u (subterms t) -> wf S u.
Proof.
  induction t as [x|f a IH] using term_ind'; intros u W Hu.
  - destruct Hu as [<-|[]]; auto.
  - apply subterms_fun in Hu. destruct Hu as [->|[b [Hb Hu]]]; auto.
    apply wf_fun in W. destruct W as [W _]. rewrite Forall_forall in *. eapply IH; eauto.
Qed.

Lemma replace_at_wf S : forall p t u r t', subterm_at t p = Some u -> replace_at t p r = Some t' ->
  wf S t -> wf S r -> tsort S u = tsort S r -> wf S t' /\ tsort S t' = tsort S t.
Proof.
  induction p as [|i p IH]; intros t u r t' H1 H2 Wt Wr E; simpl in *.
  - injection H1 as ->. injection H2 as <-. auto.
  - destruct t as [x|f args]; [discriminate|]. destruct (nth_error args i) as [a|] eqn:N; [|discriminate].
    destruct (replace_at a p r) as [a'|] eqn:R; [|discriminate]. injection H2 as <-.
    apply wf_fun in Wt. destruct Wt as [W1 W2].
    assert (Wa : wf S a) by (rewrite Forall_forall in W1; apply W1; eapply nth_error_In; eauto).
    destruct (IH a u r a' H1 R Wa Wr E) as [A B]. destruct (set_nth_spec args i a a' N) as [l1 [l2 [-> ->]]].
    split; [|reflexivity]. apply wf_fun. rewrite <- W2. split.
    + apply Forall_app in W1. destruct W1 as [C D]. inversion D; subst. apply Forall_app. split; auto.
    + rewrite !map_app. simpl. congruence.
Qed.

Lemma replace_at_vars : forall p t u r t', subterm_at t p = Some u -> replace_at t p r = Some t' ->
  forall x, In x (vars t') -> In x (vars t) \/ In x (vars r).
Proof.
  induction p as [|i p IH]; intros t u r t' H1 H2 x Hx; simpl in *.
  - injection H2 as <-. auto.
  - destruct t as [y|f args]; [discriminate|]. destruct (nth_error args i) as [a|] eqn:N; [|discriminate].
    destruct (replace_at a p r) as [a'|] eqn:R; [|discriminate]. injection H2 as <-.
    destruct (set_nth_spec args i a a' N) as [l1 [l2 [-> E]]]. rewrite E in Hx. simpl in *.
    rewrite flat_map_app in *. simpl in *. rewrite !in_app_iff in *.
    destruct Hx as [Hx|[Hx|Hx]]; auto. destruct (IH a u r a' H1 R x Hx); auto.
Qed.

(** ** Literal allocation *)
Lemma wf_true E : env_ok E -> wf (srt E) ttrue.
Proof. intros H. apply wf_fun. rewrite (eo_true E H). auto. Qed.
Lemma wf_false E : env_ok E -> wf (srt E) tfalse.
Proof. intros H. apply wf_fun. rewrite (eo_false E H). auto. Qed.

Section Alloc.
Variables (E : env) (M : structure).
Hypothesis HE : env_ok E.
Hypothesis HM : model_ok (srt E) (dist E) M.
Notation S := (srt E).

(* l = $false  iff  l <> $true, for l of the sort of the truth values *)
Lemma flip_sign v p l r : respects S M v -> wf S r -> tsort S r = fres S true_code -> l = tfalse ->
  (lit_holds M v (negb p) ttrue r <-> lit_holds M v p l r).
Proof.
  intros Hv Wr Sr ->. pose proof (eval_sort _ _ _ _ _ HM Hv Wr) as D. rewrite Sr in D.
  pose proof (mo_tf _ _ _ HM) as T. unfold lit_holds. cbn.
  destruct (mo_bool _ _ _ HM _ D) as [-> | ->]; destruct p; simpl; split; intros; congruence.
Qed.

Lemma eqn_alloc_holds v l r p : respects S M v -> wf S l -> wf S r -> tsort S l = tsort S r ->
  (holds M v (eqn_alloc E l r p) <-> lit_holds M v p l r).
Proof.
  intros Hv Wl Wr Es. unfold eqn_alloc, holds.
  set (A := if term_eqb l tfalse then (ttrue, negb p) else (l, p)).
  assert (HA : tsort S (fst A) = tsort S l /\ wf S (fst A) /\ (lit_holds M v (snd A) (fst A) r <-> lit_holds M v p l r)).
  { unfold A. destruct (term_eqb_spec l tfalse) as [->|N]; simpl.
    - split; [apply (eo_tf E HE)|]. split; [apply (wf_true E HE)|].
      apply flip_sign; auto. rewrite <- Es. simpl. symmetry. apply (eo_tf E HE).
    - split; auto. split; auto. tauto. }
  destruct A as [l1 p1]. simpl in HA. destruct HA as [S1 [W1 H1]]. rewrite <- H1.
  set (B := if term_eqb r tfalse then (ttrue, negb p1) else (r, p1)).
  assert (HB : tsort S (fst B) = tsort S r /\ wf S (fst B) /\ (lit_holds M v (snd B) l1 (fst B) <-> lit_holds M v p1 l1 r)).
  { unfold B. destruct (term_eqb_spec r tfalse) as [->|N]; simpl.
    - split; [apply (eo_tf E HE)|]. split; [apply (wf_true E HE)|].
      rewrite lit_holds_swap. rewrite (lit_holds_swap M v p1). apply flip_sign; auto.
      rewrite S1, Es. simpl. symmetry. apply (eo_tf E HE).
    - split; auto. split; auto. tauto. }
  destruct B as [r1 p2]. simpl in HB. destruct HB as [S2 [W2 H2]]. rewrite <- H2.
  destruct (term_eqb l1 ttrue); simpl; [apply lit_holds_swap | tauto].
Qed.
End Alloc.

Lemma eqn_alloc_ok E l r p : env_ok E -> wf (srt E) l -> wf (srt E) r -> tsort (srt E) l = tsort (srt E) r ->
  primary l -> primary r -> eqn_ok E (eqn_alloc E l r p).
Proof.
  intros HE Wl Wr Es Pl Pr. unfold eqn_alloc.
  assert (PT : primary ttrue) by (intros x []).
  set (A := if term_eqb l tfalse then (ttrue, negb p) else (l, p)).
  assert (HA : tsort (srt E) (fst A) = tsort (srt E) l /\ wf (srt E) (fst A) /\ primary (fst A)).
  { unfold A. destruct (term_eqb_spec l tfalse) as [->|N]; simpl; auto.
    split; [apply (eo_tf E HE)|]. split; [apply (wf_true E HE)|]. exact PT. }
  destruct A as [l1 p1]. simpl in HA. destruct HA as [S1 [W1 H1]].
  set (B := if term_eqb r tfalse then (ttrue, negb p1) else (r, p1)).
  assert (HB : tsort (srt E) (fst B) = tsort (srt E) r /\ wf (srt E) (fst B) /\ primary (fst B)).
  { unfold B. destruct (term_eqb_spec r tfalse) as [->|N]; simpl; auto.
    split; [apply (eo_tf E HE)|]. split; [apply (wf_true E HE)|]. exact PT. }
  destruct B as [r1 p2]. simpl in HB. destruct HB as [S2 [W2 H2]].
  destruct (term_eqb l1 ttrue); simpl; repeat split; simpl; auto; congruence.
Qed.

Lemma copy_props_holds M v h e : holds M v (copy_props h e) <-> holds M v h.
Proof. reflexivity. Qed.
Lemma copy_props_ok E h e : eqn_ok E (copy_props h e) <-> eqn_ok E h.
Proof. reflexivity. Qed.

(** ** Literal lists *)
Lemma lit_same_holds M v e1 e2 : lit_same e1 e2 = true -> holds M v e1 -> holds M v e2.
Proof.
  unfold lit_same, holds. rewrite andb_true_iff, orb_true_iff, !andb_true_iff, !term_eqb_eq.
  intros [P [[A B]|[A B]]]; apply eqb_prop in P; rewrite P, A, B; auto. apply lit_holds_swap.
Qed.

Section Lists.
Variables (E : env) (M : structure).
Hypothesis HM : model_ok (srt E) (dist E) M.

Lemma is_false_holds v e : eqn_is_false E e = true -> ~ holds M v e.
Proof.
  unfold eqn_is_false, holds, lit_holds, eqn_trivial, terms_distinct. destruct (pos e).
  - destruct (lt e) as [x|f [|a l]]; try discriminate. destruct (rt e) as [y|g [|b l]]; try discriminate.
    rewrite !andb_true_iff, negb_true_iff, Nat.eqb_neq. intros [[A B] C]. simpl. apply (mo_dist _ _ _ HM); auto.
  - rewrite term_eqb_eq. intros ->. auto.
Qed.

Lemma is_true_holds v e : eqn_is_true E e = true -> holds M v e.
Proof.
  unfold eqn_is_true, holds, lit_holds, eqn_trivial, terms_distinct. destruct (pos e).
  - rewrite term_eqb_eq. congruence.
  - destruct (lt e) as [x|f [|a l]]; try discriminate. destruct (rt e) as [y|g [|b l]]; try discriminate.
    rewrite !andb_true_iff, negb_true_iff, Nat.eqb_neq. intros [[A B] C]. simpl. apply (mo_dist _ _ _ HM); auto.
Qed.

Lemma remove_resolved_holds v l : Exists (holds M v) (remove_resolved E l) <-> Exists (holds M v) l.
Proof.
  rewrite !Exists_exists. unfold remove_resolved. split.
  - intros [e [H1 H2]]. apply filter_In in H1. destruct H1; eauto.
  - intros [e [H1 H2]]. exists e. split; auto. apply filter_In. split; auto.
    destruct (eqn_is_false E e) eqn:F; auto. exfalso. exact (is_false_holds v e F H2).
Qed.
End Lists.

Lemma remove_dups_from_holds M v : forall l seen,
  (Exists (holds M v) l -> Exists (holds M v) (remove_dups_from seen l) \/ Exists (holds M v) seen)
  /\ (Exists (holds M v) (remove_dups_from seen l) -> Exists (holds M v) l).
Proof.
  induction l as [|e l IH]; intros seen; simpl.
  - split; auto.
  - destruct (existsb (lit_same e) seen) eqn:X.
    + destruct (IH seen) as [I1 I2]. split; [|intros H; right; auto].
      intros H. inversion H as [? ? He|? ? He]; subst; auto.
      right. apply existsb_exists in X. destruct X as [e' [Hin Hs]].
      apply Exists_exists. exists e'. split; auto. eapply lit_same_holds; eauto.
    + destruct (IH (e :: seen)) as [I1 I2]. split.
      * intros H. inversion H as [? ? He|? ? He]; subst; [left; left; auto|].
        destruct (I1 He) as [H1|H1]; [left; right; auto|]. inversion H1; subst; auto.
      * intros H. inversion H; subst; [left | right]; auto.
Qed.

Lemma remove_dups_holds M v l : Exists (holds M v) (remove_dups l) <-> Exists (holds M v) l.
Proof.
  unfold remove_dups. destruct (remove_dups_from_holds M v l []) as [A B]. split; auto.
  intros H. destruct (A H) as [H1|H1]; auto. inversion H1.
Qed.

Lemma remove_dups_incl : forall l seen e, In e (remove_dups_from seen l) -> In e l.
Proof.
  induction l as [|x l IH]; intros seen e; simpl; auto.
  destruct (existsb (lit_same x) seen); intros H; [right; eapply IH; eauto|].
  destruct H as [->|H]; [auto | right; eapply IH; eauto].
Qed.

Lemma clause_alloc_in l e : In e (clause_alloc l) <-> In e l.
Proof.
  unfold clause_alloc. rewrite in_app_iff, !filter_In. destruct (pos e); simpl; split; intros; intuition congruence.
Qed.

Lemma clause_alloc_holds M v l : Exists (holds M v) (clause_alloc l) <-> Exists (holds M v) l.
Proof. rewrite !Exists_exists. split; intros [e [H1 H2]]; exists e; rewrite ?clause_alloc_in in *; auto. Qed.

Lemma finish_holds E M v l : model_ok (srt E) (dist E) M -> (Exists (holds M v) (finish E l) <-> Exists (holds M v) l).
Proof.
  intros HM. unfold finish. rewrite clause_alloc_holds, remove_dups_holds. apply (remove_resolved_holds E M HM).
Qed.

Lemma finish_in E l e : In e (finish E l) -> In e l.
Proof.
  unfold finish. rewrite clause_alloc_in. intros H. apply remove_dups_incl in H.
  apply filter_In in H. tauto.
Qed.

Lemma finish_ok E l : clause_ok E l -> clause_ok E (finish E l).
Proof.
  unfold clause_ok. rewrite !Forall_forall. intros H e He. apply H, (finish_in E), He.
Qed.

Lemma except_in {A} : forall (l : list A) i e, In e (except i l) -> In e l.
Proof.
  induction l as [|x l IH]; intros [|i] e; simpl; auto.
  intros [H|H]; auto. right. eapply IH; eauto.
Qed.

Lemma except_split {A} : forall (l : list A) i e, nth_error l i = Some e ->
  exists l1 l2, l = l1 ++ e :: l2 /\ except i l = l1 ++ l2 /\ length l1 = i.
Proof.
  induction l as [|x l IH]; intros [|i] e H; simpl in H; try discriminate.
  - injection H as ->. exists [], l. auto.
  - destruct (IH i e H) as [l1 [l2 [-> [E L]]]]. exists (x :: l1), l2. simpl. rewrite E. auto.
Qed.

Lemma exists_except {A} (P : A -> Prop) (l : list A) i e : nth_error l i = Some e ->
  Exists P l -> P e \/ Exists P (except i l).
Proof.
  intros N H. destruct (except_split l i e N) as [l1 [l2 [-> [-> _]]]].
  rewrite Exists_app in *. rewrite Exists_cons in H. tauto.
Qed.

(** ** Normalisation *)

(** Fresh cells are never bound. *)
Definition fresh_unbound (b : binding) : Prop := forall x, is_fresh x = true -> b x = None.

(** Effect of normalisation on the bindings: unbound primary variables get distinct fresh cells. *)
Record normed (E : env) (b b' : binding) (c c' : counters) : Prop := {
  nm_keep : forall x t, b x = Some t -> b' x = Some t;
  nm_new : forall x t, b x = None -> b' x = Some t ->
             is_fresh x = false /\ exists k, c (vsort (srt E) x) <= k < c' (vsort (srt E) x)
                /\ t = Var (fresh E (vsort (srt E) x) k);
  nm_inj : forall x y t, b x = None -> b y = None -> b' x = Some t -> b' y = Some t -> x = y;
  nm_cnt : forall s, c s <= c' s }.

Lemma normed_refl E b c : normed E b b c c.
Proof. constructor; auto; intros; congruence. Qed.

Lemma normed_trans E b1 b2 b3 c1 c2 c3 : env_ok E -> normed E b1 b2 c1 c2 -> normed E b2 b3 c2 c3 -> normed E b1 b3 c1 c3.
Proof.
  intros HE [K1 N1 I1 C1] [K2 N2 I2 C2]. constructor.
  - auto.
  - intros x t H1 H3. destruct (b2 x) as [u|] eqn:H2.
    + pose proof (K2 x u H2) as H4. rewrite H3 in H4. injection H4 as ->.
      destruct (N1 x u H1 H2) as [A [k [B C]]]. split; auto. exists k. split; auto.
      specialize (C2 (vsort (srt E) x)). lia.
    + destruct (N2 x t H2 H3) as [A [k [B C]]]. split; auto. exists k. split; auto.
      specialize (C1 (vsort (srt E) x)). lia.
  - intros x y t Hx Hy Tx Ty.
    assert (X : forall x y, b1 x = None -> b1 y = None -> b3 x = Some t -> b3 y = Some t ->
                  b2 x <> None -> b2 y = None -> False).
    { clear x y Hx Hy Tx Ty. intros x y Hx Hy Tx Ty Bx By.
      destruct (b2 x) as [u|] eqn:H2; [|congruence].
      pose proof (K2 x u H2) as H4. rewrite Tx in H4. injection H4 as ->.
      destruct (N1 x u Hx H2) as [A [k [B C]]]. destruct (N2 y u By Ty) as [A' [k' [B' C']]].
      rewrite C in C'. injection C' as C'.
      pose proof (f_equal (vsort (srt E)) C') as V. rewrite !(eo_fresh_sort E HE) in V. rewrite V in *.
      apply (eo_fresh_inj E HE) in C'. lia. }
    destruct (b2 x) as [u|] eqn:X2; destruct (b2 y) as [w|] eqn:Y2.
    + pose proof (K2 x u X2). pose proof (K2 y w Y2). apply (I1 x y t); congruence.
    + exfalso. apply (X x y); congruence.
    + exfalso. apply (X y x); congruence.
    + apply (I2 x y t); auto.
  - intros s. specialize (C1 s). specialize (C2 s). lia.
Qed.

Lemma normed_add E b c x : env_ok E -> b x = None -> is_fresh x = false ->
  normed E b (upd b x (Some (Var (fresh E (vsort (srt E) x) (c (vsort (srt E) x)))))) c (bump c (vsort (srt E) x)).
Proof.
  intros HE Hx Hf. constructor.
  - intros y t Hy. rewrite upd_other; auto. intros ->; congruence.
  - intros y t Hy H. unfold upd in H. destruct (Nat.eqb_spec x y) as [<-|N]; [|congruence].
    split; auto. exists (c (vsort (srt E) x)). injection H as <-. split; auto.
    unfold bump. rewrite Nat.eqb_refl. lia.
  - intros y z t Hy Hz Ty Tz. unfold upd in *.
    destruct (Nat.eqb_spec x y); destruct (Nat.eqb_spec x z); congruence.
  - intros s. unfold bump. destruct (Nat.eqb_spec (vsort (srt E) x) s); lia.
Qed.

(** The renaming performed. *)
Definition nu (b b' : binding) : subst := fun x =>
  match b x with Some _ => Var x | None => match b' x with Some t => t | None => Var x end end.

Lemma normed_denotes E b b' c c' s : env_ok E -> normed E b b' c c' -> fresh_unbound b -> fresh_unbound b' ->
  denotes b s -> denotes b' (comp (nu b b') s).
Proof.
  intros HE [K N I C] F F' HD x. unfold comp. specialize (HD x) as Hx.
  destruct (b x) as [t|] eqn:Bx.
  - rewrite (K x t Bx). rewrite Hx. rewrite <- !app_comp. apply app_ext_all. reflexivity.
  - rewrite Hx. simpl. destruct (b' x) as [t|] eqn:B'x.
    + assert (NX : nu b b' x = t) by (unfold nu; rewrite Bx, B'x; reflexivity). rewrite NX.
      destruct (N x t Bx B'x) as [_ [k [_ ->]]]. simpl.
      pose proof (HD (fresh E (vsort (srt E) x) k)) as Hy. rewrite (F _ (eo_fresh_cell E HE _ _)) in Hy. rewrite Hy.
      simpl. unfold nu. rewrite (F _ (eo_fresh_cell E HE _ _)), (F' _ (eo_fresh_cell E HE _ _)). reflexivity.
    + unfold nu. rewrite Bx, B'x. reflexivity.
Qed.

Lemma normed_wf E b b' c c' : env_ok E -> normed E b b' c c' -> wfsubst (srt E) (nu b b').
Proof.
  intros HE [K N I C] x. unfold nu. destruct (b x) as [t|] eqn:Bx; [split; reflexivity|].
  destruct (b' x) as [t|] eqn:B'x; [|split; reflexivity].
  destruct (N x t Bx B'x) as [_ [k [_ ->]]]. split; [apply (eo_fresh_sort E HE) | reflexivity].
Qed.

(** One call of the normalisation loop. *)
Lemma norm_loop_correct E : env_ok E -> forall n st c stack st' c' s,
  norm_loop n E (st, c) stack = Some (st', c') ->
  inv (srt E) st -> fresh_unbound (bnd st) -> denotes (bnd st) s ->
  inv (srt E) st' /\ fresh_unbound (bnd st') /\ normed E (bnd st) (bnd st') c c' /\ ext st st'
  /\ (forall t x, In t stack -> In x (vars (app s t)) -> is_fresh x = false -> bnd st' x <> None).
Proof.
  intros HE. induction n as [|n IH]; intros st c stack st' c' s H HI HF HD; [discriminate|].
  cbn [norm_loop fst snd] in H. destruct stack as [|t rest].
  { injection H as <- <-. split; auto. split; auto. split; [apply normed_refl|]. split; [apply ext_refl|]. intros t x []. }
  destruct (deref n (bnd st) t) as [d|] eqn:D; [|discriminate].
  pose proof (deref_app _ s (denotes_solves _ _ HD) _ _ _ D) as A.
  pose proof (deref_unbound _ _ _ _ D) as U.
  destruct d as [x|f args].
  - pose proof (HD x) as Hx. rewrite U in Hx.
    destruct (is_fresh x) eqn:Fx.
    + destruct (IH _ _ _ _ _ _ H HI HF HD) as [I1 [I2 [I3 [I4 I5]]]].
      split; auto. split; auto. split; auto. split; auto.
      intros u y [<-|Hu] Hy Fy; [|eapply I5; eauto].
      rewrite A in Hy. simpl in Hy. rewrite Hx in Hy. destruct Hy as [->|[]]. congruence.
    + set (y := fresh E (vsort (srt E) x) (c (vsort (srt E) x))) in *.
      assert (Fy : is_fresh y = true) by apply (eo_fresh_cell E HE).
      assert (HI' : inv (srt E) (add_binding st x (Var y))).
      { apply (inv_add _ st s x (Var y)); auto.
        - simpl. specialize (HD y). rewrite (HF y Fy) in HD. rewrite HD. intros [X0|[]]. congruence.
        - reflexivity.
        - apply (eo_fresh_sort E HE). }
      assert (HF' : fresh_unbound (bnd (add_binding st x (Var y)))).
      { intros z Fz. simpl. rewrite upd_other; auto. intros ->. congruence. }
      pose proof (normed_add E (bnd st) c x HE U Fx) as HN. fold y in HN.
      pose proof (normed_denotes E _ _ _ _ s HE HN HF HF' HD) as HD'.
      destruct (IH _ _ _ _ _ _ H HI' HF' HD') as [I1 [I2 [I3 [I4 I5]]]].
      split; auto. split; auto. split; [exact (normed_trans E _ _ _ _ _ _ HE HN I3)|].
      split; [exact (ext_trans _ _ _ (ext_add st x (Var y) U) I4)|].
      assert (Bx' : bnd st' x <> None).
      { rewrite (nm_keep _ _ _ _ _ I3 x (Var y)); [discriminate|]. simpl. apply upd_same. }
      intros u z [<-|Hu] Hz Fz.
      * rewrite A in Hz. simpl in Hz. rewrite Hx in Hz. destruct Hz as [<-|[]]. exact Bx'.
      * destruct (Nat.eq_dec z x) as [->|Nz]; [exact Bx'|].
        apply (I5 u z Hu); auto. rewrite app_comp. apply vars_app. exists z. split; auto.
        unfold nu. cbn [bnd add_binding]. rewrite upd_other by auto.
        assert (Bz : bnd st z = None) by (apply vars_app in Hz; destruct Hz as [w [_ Hz]]; eapply denotes_range; eauto; apply HI).
        rewrite Bz. left; reflexivity.
  - destruct (IH _ _ _ _ _ _ H HI HF HD) as [I1 [I2 [I3 [I4 I5]]]].
    split; auto. split; auto. split; auto. split; auto.
    intros u y [<-|Hu] Hy Fy.
    + rewrite A in Hy. simpl in Hy. apply in_flat_map in Hy. destruct Hy as [w [Hw Hy]].
      apply in_map_iff in Hw. destruct Hw as [w' [<- Hw]]. apply (I5 w' y); auto. apply in_or_app; auto.
    + apply (I5 u y); auto. apply in_or_app; auto.
Qed.

Lemma norm_loop_mono E : forall n m ns stack r, n <= m -> norm_loop n E ns stack = Some r -> norm_loop m E ns stack = Some r.
Proof.
  induction n as [|n IH]; intros m ns stack r Hm H; [discriminate|]. destruct m as [|m]; [lia|].
  cbn [norm_loop] in *. destruct stack as [|t rest]; auto.
  destruct (deref n (bnd (fst ns)) t) as [d|] eqn:D; [|discriminate].
  rewrite (deref_mono _ n m t d); auto; [|lia].
  destruct d as [x|f args]; [destruct (is_fresh x)|]; apply IH; auto; lia.
Qed.

Definition ssize (s : subst) (l : list term) : nat := list_sum (map (fun t => size (app s t)) l).

Lemma size_app_ren s r t : (forall x, exists y, r x = Var y) -> size (app (comp r s) t) = size (app s t).
Proof.
  intros H. rewrite app_comp. generalize (app s t) as u. clear t.
  induction u as [x|f a IH] using term_ind'; simpl.
  - destruct (H x) as [y ->]. reflexivity.
  - f_equal. induction IH; simpl; congruence.
Qed.

Lemma ssize_ren s r l : (forall x, exists y, r x = Var y) -> ssize (comp r s) l = ssize s l.
Proof. intros H. unfold ssize. f_equal. apply map_ext. intros t. apply size_app_ren, H. Qed.

Lemma nu_var E b b' c c' : normed E b b' c c' -> forall x, exists y, nu b b' x = Var y.
Proof.
  intros [K N I C] x. unfold nu. destruct (b x) eqn:B; [eauto|]. destruct (b' x) eqn:B'; [|eauto].
  destruct (N x t B B') as [_ [k [_ ->]]]. eauto.
Qed.

Lemma norm_loop_terminates E : env_ok E -> forall sz st c stack s,
  inv (srt E) st -> fresh_unbound (bnd st) -> denotes (bnd st) s -> ssize s stack = sz ->
  exists n, norm_loop n E (st, c) stack <> None.
Proof.
  intros HE. induction sz as [sz IH] using lt_wf_ind. intros st c stack s HI HF HD Hsz.
  destruct stack as [|t rest]; [exists 1; discriminate|].
  destruct HI as [HA HB]. pose proof HA as [rank HR].
  destruct (deref_total _ rank HR (S (trank rank t)) t ltac:(lia)) as [d [D _]].
  pose proof (deref_app _ s (denotes_solves _ _ HD) _ _ _ D) as A.
  pose proof (deref_unbound _ _ _ _ D) as U.
  assert (GO : forall st1 c1 stack1 s1, inv (srt E) st1 -> fresh_unbound (bnd st1) -> denotes (bnd st1) s1 ->
     ssize s1 stack1 < sz ->
     (forall n, S (trank rank t) <= n -> norm_loop (S n) E (st, c) (t :: rest) = norm_loop n E (st1, c1) stack1) ->
     exists n, norm_loop n E (st, c) (t :: rest) <> None).
  { intros st1 c1 stack1 s1 I1 F1 D1 L H. destruct (IH _ L st1 c1 stack1 s1 I1 F1 D1 eq_refl) as [n Hn].
    exists (S (S (trank rank t) + n)). rewrite H by lia.
    destruct (norm_loop n E (st1, c1) stack1) as [r|] eqn:Er; [|congruence].
    rewrite (norm_loop_mono E n (S (trank rank t) + n) _ _ r ltac:(lia) Er). discriminate. }
  pose proof (size_pos (app s t)) as Sp.
  destruct d as [x|f args].
  - pose proof (HD x) as Hx. rewrite U in Hx. destruct (is_fresh x) eqn:Fx.
    + apply (GO st c rest s (Build_inv _ _ HA HB) HF HD); [rewrite <- Hsz; unfold ssize; simpl; lia |].
      intros n Hn. cbn [norm_loop fst]. rewrite (deref_mono _ _ n _ _ Hn D), Fx. reflexivity.
    + set (y := fresh E (vsort (srt E) x) (c (vsort (srt E) x))) in *.
      assert (Fy : is_fresh y = true) by apply (eo_fresh_cell E HE).
      assert (HI' : inv (srt E) (add_binding st x (Var y))).
      { apply (inv_add _ st s x (Var y)); auto; [split; auto| |reflexivity|apply (eo_fresh_sort E HE)].
        simpl. specialize (HD y). rewrite (HF y Fy) in HD. rewrite HD. intros [X0|[]]. congruence. }
      assert (HF' : fresh_unbound (bnd (add_binding st x (Var y)))).
      { intros z Fz. simpl. rewrite upd_other; auto. intros ->. congruence. }
      pose proof (normed_add E (bnd st) c x HE U Fx) as HN. fold y in HN.
      pose proof (normed_denotes E _ _ _ _ s HE HN HF HF' HD) as HD'.
      eapply (GO _ _ rest _ HI' HF' HD').
      * rewrite ssize_ren by apply (nu_var E _ _ _ _ HN). rewrite <- Hsz; unfold ssize; simpl; lia.
      * intros n Hn. cbn [norm_loop fst snd]. rewrite (deref_mono _ _ n _ _ Hn D), Fx. reflexivity.
  - apply (GO st c (args ++ rest) s (Build_inv _ _ HA HB) HF HD).
    + rewrite <- Hsz. unfold ssize. simpl. rewrite map_app, list_sum_app, A. simpl.
      assert (X : forall l, list_sum (map (fun t => size (app s t)) l) = fold_right (fun a n => size a + n) 0 (map (app s) l))
        by (induction l as [|q l IHl]; simpl; congruence). rewrite X. lia.
    + intros n Hn. cbn [norm_loop fst]. rewrite (deref_mono _ _ n _ _ Hn D). reflexivity.
Qed.

(** All normalisation calls of an inference, seen as one. *)
Record norm_result (E : env) (st : bstate) (c : counters) (s : subst) (ts : list term) (st' : bstate) (c' : counters) : Prop := {
  nr_inv : inv (srt E) st';
  nr_fresh : fresh_unbound (bnd st');
  nr_normed : normed E (bnd st) (bnd st') c c';
  nr_ext : ext st st';
  nr_all : forall t x, In t ts -> In x (vars (app s t)) -> is_fresh x = false -> bnd st' x <> None }.

Lemma norm_result_nil E st c s : inv (srt E) st -> fresh_unbound (bnd st) -> norm_result E st c s [] st c.
Proof. intros. constructor; auto; [apply normed_refl | apply ext_refl]. Qed.

Lemma norm_result_trans E st c s t1 st1 c1 t2 st2 c2 : env_ok E ->
  inv (srt E) st -> fresh_unbound (bnd st) -> denotes (bnd st) s ->
  norm_result E st c s t1 st1 c1 -> norm_result E st1 c1 (comp (nu (bnd st) (bnd st1)) s) t2 st2 c2 ->
  norm_result E st c s (t1 ++ t2) st2 c2.
Proof.
  intros HE HI HF HD [I1 F1 N1 X1 A1] [I2 F2 N2 X2 A2]. constructor; auto.
  - exact (normed_trans E _ _ _ _ _ _ HE N1 N2).
  - exact (ext_trans _ _ _ X1 X2).
  - intros t x Ht Hx Fx. apply in_app_iff in Ht.
    assert (K : bnd st1 x <> None -> bnd st2 x <> None).
    { intros B. destruct (bnd st1 x) as [u|] eqn:Bx; [|congruence]. rewrite (nm_keep _ _ _ _ _ N2 x u Bx). discriminate. }
    destruct Ht as [Ht|Ht]; [apply K, (A1 t); auto|].
    destruct (bnd st1 x) as [u|] eqn:Bx; [apply K; congruence|].
    apply (A2 t x Ht); auto. rewrite app_comp. apply vars_app. exists x. split; auto.
    unfold nu. assert (Bz : bnd st x = None) by (apply vars_app in Hx; destruct Hx as [w [_ Hx]]; eapply denotes_range; eauto; apply HI).
    rewrite Bz, Bx. left; reflexivity.
Qed.

Definition eqn_terms (l : list eqn) : list term := flat_map (fun e => [lt e; rt e]) l.

Lemma norm_eqn_correct E n st c e st' c' s : env_ok E -> norm_eqn n E (st, c) e = Some (st', c') ->
  inv (srt E) st -> fresh_unbound (bnd st) -> denotes (bnd st) s -> norm_result E st c s [lt e; rt e] st' c'.
Proof.
  intros HE H HI HF HD. unfold norm_eqn, norm_term in H.
  destruct (norm_loop n E (st, c) [lt e]) as [[st1 c1]|] eqn:H1; [|discriminate].
  destruct (norm_loop_correct E HE _ _ _ _ _ _ _ H1 HI HF HD) as [A [B [C [D F]]]].
  assert (R1 : norm_result E st c s [lt e] st1 c1) by (constructor; auto).
  pose proof (normed_denotes E _ _ _ _ s HE C HF B HD) as HD1.
  destruct (norm_loop_correct E HE _ _ _ _ _ _ _ H A B HD1) as [A2 [B2 [C2 [D2 F2]]]].
  apply (norm_result_trans E st c s [lt e] st1 c1 [rt e]); auto. constructor; auto.
Qed.

Lemma norm_eqns_correct E : env_ok E -> forall l n st c st' c' s, norm_eqns n E (st, c) l = Some (st', c') ->
  inv (srt E) st -> fresh_unbound (bnd st) -> denotes (bnd st) s -> norm_result E st c s (eqn_terms l) st' c'.
Proof.
  intros HE. induction l as [|e l IH]; intros n st c st' c' s H HI HF HD; simpl in H.
  - injection H as <- <-. apply norm_result_nil; auto.
  - destruct (norm_eqn n E (st, c) e) as [[st1 c1]|] eqn:H1; [|discriminate].
    pose proof (norm_eqn_correct E _ _ _ _ _ _ s HE H1 HI HF HD) as R1.
    change (eqn_terms (e :: l)) with ([lt e; rt e] ++ eqn_terms l).
    eapply norm_result_trans; eauto. eapply IH; eauto; try apply R1.
    eapply normed_denotes; eauto; apply R1.
Qed.

Lemma norm_eqn_mono E n m ns e r : n <= m -> norm_eqn n E ns e = Some r -> norm_eqn m E ns e = Some r.
Proof.
  unfold norm_eqn, norm_term. intros Hm H.
  destruct (norm_loop n E ns [lt e]) as [r1|] eqn:H1; [|discriminate].
  rewrite (norm_loop_mono E n m _ _ r1); auto. apply (norm_loop_mono E n m); auto.
Qed.

Lemma norm_eqns_mono E n m : n <= m -> forall l ns r, norm_eqns n E ns l = Some r -> norm_eqns m E ns l = Some r.
Proof.
  intros Hm. induction l as [|e l IH]; intros ns r H; simpl in *; auto.
  destruct (norm_eqn n E ns e) as [r1|] eqn:H1; [|discriminate].
  rewrite (norm_eqn_mono E n m _ _ r1); auto.
Qed.

Lemma norm_eqns_terminates E : env_ok E -> forall l st c s,
  inv (srt E) st -> fresh_unbound (bnd st) -> denotes (bnd st) s -> exists n r, norm_eqns n E (st, c) l = Some r.
Proof.
  intros HE. induction l as [|e l IH]; intros st c s HI HF HD; [exists 0; simpl; eauto|].
  assert (T : forall st c s t, inv (srt E) st -> fresh_unbound (bnd st) -> denotes (bnd st) s ->
     exists n st' c', norm_loop n E (st, c) [t] = Some (st', c') /\ inv (srt E) st' /\ fresh_unbound (bnd st') /\ exists s', denotes (bnd st') s').
  { clear st c s HI HF HD. intros st c s t HI HF HD.
    destruct (norm_loop_terminates E HE _ st c [t] s HI HF HD eq_refl) as [n Hn].
    destruct (norm_loop n E (st, c) [t]) as [[st' c']|] eqn:H; [|congruence]. exists n, st', c'.
    destruct (norm_loop_correct E HE _ _ _ _ _ _ _ H HI HF HD) as [A [B [C _]]].
    split; auto. split; auto. split; auto. eexists. eapply normed_denotes; eauto. }
  destruct (T st c s (lt e) HI HF HD) as [n1 [st1 [c1 [H1 [I1 [F1 [s1 D1]]]]]]].
  destruct (T st1 c1 s1 (rt e) I1 F1 D1) as [n2 [st2 [c2 [H2 [I2 [F2 [s2 D2]]]]]]].
  destruct (IH st2 c2 s2 I2 F2 D2) as [n3 [r H3]].
  exists (n1 + n2 + n3), r. simpl. unfold norm_eqn, norm_term.
  rewrite (norm_loop_mono E n1 (n1+n2+n3) _ _ _ ltac:(lia) H1).
  rewrite (norm_loop_mono E n2 (n1+n2+n3) _ _ _ ltac:(lia) H2).
  apply (norm_eqns_mono E n3); auto. lia.
Qed.

(** ** Unification touches only variables of the problem *)
Section MguVars.
Variable P : var -> Prop.
Definition pterm (t : term) : Prop := forall x, In x (vars t) -> P x.
Definition pbind (b : binding) : Prop := forall x t, b x = Some t -> P x /\ pterm t.

Lemma pbind_deref b : pbind b -> forall n t u, deref n b t = Some u -> pterm t -> pterm u.
Proof.
  intros HB. induction n as [|n IH]; intros [x|f a] u H Ht; simpl in H; try (injection H as <-; auto).
  - destruct (b x) eqn:E; [discriminate|]. injection H as <-; auto.
  - destruct (b x) as [v|] eqn:E; [|injection H as <-; auto]. apply (IH v u H). apply (HB x v E).
Qed.

Lemma mgu_loop_vars S : forall n st jobs st', pbind (bnd st) -> Forall pterm jobs ->
  mgu_loop n S st jobs = Success st' -> pbind (bnd st').
Proof.
  induction n as [|n IH]; intros st jobs st' HB HJ H; [discriminate|]. cbn [mgu_loop] in H.
  destruct jobs as [|j2 [|j1 rest]]; [injection H as <-; auto | discriminate|].
  destruct (deref n (bnd st) j2) as [d2|] eqn:D2; [|discriminate].
  destruct (deref n (bnd st) j1) as [d1|] eqn:D1; [|discriminate].
  inversion HJ as [|? ? P2 HJ1]; subst. inversion HJ1 as [|? ? P1 HJ2]; subst.
  pose proof (pbind_deref _ HB _ _ _ D2 P2) as Q2. pose proof (pbind_deref _ HB _ _ _ D1 P1) as Q1.
  assert (HS : exists t1 t2, (if isVar d2 then (d2, d1) else (d1, d2)) = (t1, t2) /\ pterm t1 /\ pterm t2).
  { destruct (isVar d2); eauto. }
  destruct HS as [t1 [t2 [ES [T1 T2]]]]. rewrite ES in H. cbv beta iota in H.
  destruct t1 as [x|f a1].
  - destruct (term_eqb (Var x) t2); [eapply IH; eauto|].
    destruct (negb (Nat.eqb (vsort S x) (tsort S t2))); [discriminate|].
    destruct (occur_check n (bnd st) t2 x) as [[|]|]; try discriminate.
    apply (IH (add_binding st x t2) rest st'); auto.
    intros y u Hy. simpl in Hy. unfold upd in Hy. destruct (Nat.eqb_spec x y) as [<-|N]; [|apply HB; auto].
    injection Hy as <-. split; auto. apply T1. left; auto.
  - destruct t2 as [y|g a2]; [discriminate|]. destruct (Nat.eqb f g); [|discriminate].
    destruct (push_args_rev (rev a1) (rev a2) rest) as [jobs'|] eqn:PA; [|discriminate].
    apply (IH st jobs' st'); auto. rewrite Forall_forall in *. intros t Ht.
    destruct (push_args_rev_in _ _ _ _ PA t Ht) as [G|[G|G]]; auto.
    + apply in_rev in G. intros z Hz. apply T1. simpl. apply in_flat_map; eauto.
    + apply in_rev in G. intros z Hz. apply T2. simpl. apply in_flat_map; eauto.
Qed.

Lemma mgu_vars S pp n st t1 t2 st' : pbind (bnd st) -> pterm t1 -> pterm t2 ->
  mgu n S pp st t1 t2 = Success st' -> pbind (bnd st').
Proof.
  unfold mgu. intros HB P1 P2 H. destruct (_ || _); [discriminate|].
  destruct (mgu_loop n S st [t2; t1]) eqn:L; try discriminate. injection H as ->.
  eapply mgu_loop_vars; [| |exact L]; auto.
Qed.
End MguVars.

Lemma mgu_fresh_unbound S pp n st t1 t2 st' : pbind (fun x => is_fresh x = false) (bnd st) -> primary t1 -> primary t2 ->
  mgu n S pp st t1 t2 = Success st' -> pbind (fun x => is_fresh x = false) (bnd st') /\ fresh_unbound (bnd st').
Proof.
  intros HB P1 P2 H. pose proof (mgu_vars _ S pp n st t1 t2 st' HB P1 P2 H) as HV. split; auto.
  intros x Fx. destruct (bnd st' x) as [t|] eqn:E; auto. destruct (HV x t E). congruence.
Qed.
