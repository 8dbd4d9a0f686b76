(** * Proofs about the unfolding of equational definitions *)
From Coq Require Import Permutation.
From Verif Require Import Terms Unify Semantics Clauses ClausesProofs Subsume Taut TautProofs Split Unfold.
Local Open Scope nat_scope.

Lemma mem_in x l : mem x l = true <-> In x l.
Proof.
  unfold mem. rewrite existsb_exists. split.
  - intros [y [H1 H2]]. apply Nat.eqb_eq in H2. subst. exact H1.
  - intros H. exists x. split; [exact H|]. apply Nat.eqb_refl.
Qed.
Lemma distinct_nodup l : distinct l = true <-> NoDup l.
Proof.
  induction l as [|x l IH]; cbn [distinct].
  - split; [constructor|reflexivity].
  - rewrite andb_true_iff, negb_true_iff, IH. split.
    + intros [A B]. constructor; auto. intros C. apply mem_in in C. congruence.
    + intros H. inversion H as [|? ? A B]; subst. split; auto. destruct (mem x l) eqn:Q; auto. apply mem_in in Q. tauto.
Qed.
Lemma var_args_some l : forall xs, var_args l = Some xs -> l = map Var xs.
Proof.
  induction l as [|t l IH]; intros xs; cbn [var_args].
  - intros [= <-]. reflexivity.
  - destruct t as [x|f a]; [|discriminate]. destruct (var_args l) as [ys|]; [|discriminate]. cbn. intros [= <-]. cbn. rewrite (IH ys); auto.
Qed.
Lemma has_fcode_in f t : has_fcode f t = true <-> In f (tsyms t).
Proof.
  induction t as [x|g a IH] using term_ind'; cbn [has_fcode tsyms].
  - split; [discriminate|intros []].
  - rewrite orb_true_iff, Nat.eqb_eq, existsb_exists. cbn [In]. rewrite in_flat_map. rewrite Forall_forall in IH.
    split; (intros [A|[y [A B]]]; [left; exact A|right; exists y; split; [exact A|apply IH; auto]]).
Qed.
Lemma unbound_vars_false l r : unbound_vars l r = false <-> incl (vars r) (vars l).
Proof.
  unfold unbound_vars. split.
  - intros H x Hx. apply mem_in. destruct (mem x (vars l)) eqn:Q; auto. exfalso.
    assert (existsb (fun x => negb (mem x (vars l))) (vars r) = true) as X; [|congruence].
    apply existsb_exists. exists x. split; auto. rewrite Q. reflexivity.
  - intros H. destruct (existsb _ _) eqn:Q; auto. apply existsb_exists in Q. destruct Q as [x [A B]].
    apply H, mem_in in A. rewrite A in B. discriminate.
Qed.
Lemma vars_map_var xs f : vars (Fun f (map Var xs)) = xs.
Proof. cbn [vars]. induction xs as [|x xs IH]; cbn; auto. rewrite IH. reflexivity. Qed.

(** what the recognition guarantees *)
Definition def_of (d : defn) (e : eqn) : Prop :=
  pos e = true /\ (lt e = Fun (dsym d) (map Var (dvars d)) /\ rt e = drhs d \/ rt e = Fun (dsym d) (map Var (dvars d)) /\ lt e = drhs d).
Definition def_shape (d : defn) : Prop :=
  dvars d <> [] /\ NoDup (dvars d) /\ ~ In (dsym d) (tsyms (drhs d)) /\ incl (vars (drhs d)) (dvars d).

Lemma side_def_some E n l r d : n <> 0 -> side_def E n l r = Some d ->
  l = Fun (dsym d) (map Var (dvars d)) /\ r = drhs d /\ def_shape d.
Proof.
  intros Hn. unfold side_def, def_term. destruct l as [x|f a]; [discriminate|].
  destruct (length a <? n) eqn:L; [discriminate|]. destruct (var_args a) as [xs|] eqn:VA; [|discriminate].
  destruct (distinct xs) eqn:DI; [|discriminate].
  destruct (negb (pspred E f) && negb (has_fcode f r) && negb (unbound_vars (Fun f a) r)) eqn:Q; [|discriminate].
  intros [= <-]. cbn. apply var_args_some in VA. subst a. rewrite !andb_true_iff, !negb_true_iff in Q. destruct Q as [[_ Q1] Q2].
  apply unbound_vars_false in Q2. rewrite vars_map_var in Q2. apply distinct_nodup in DI.
  split; auto. split; auto. split; cbn.
  - intros ->. cbn in L. destruct n; [tauto|discriminate].
  - split; auto. split; auto. intros C. apply has_fcode_in in C. congruence.
Qed.
Lemma clause_def_some E n c d : n <> 0 -> clause_def E n c = Some d -> exists e, c = [e] /\ def_of d e /\ def_shape d.
Proof.
  intros Hn. unfold clause_def. destruct c as [|e [|e' c]]; try discriminate. unfold eqn_def. destruct (pos e) eqn:P; [|discriminate]. cbn [negb].
  destruct (side_def E n (lt e) (rt e)) as [d'|] eqn:A.
  - intros [= <-]. apply side_def_some in A; auto. destruct A as [A [B C]]. exists e. split; auto. split; auto. split; auto.
  - intros B. apply side_def_some in B; auto. destruct B as [B [B' C]]. exists e. split; auto. split; auto. split; auto.
Qed.

(** a well-sorted definition *)
Definition def_ok (E : env) (d : defn) : Prop :=
  def_shape d /\ wf (srt E) (Fun (dsym d) (map Var (dvars d))) /\ wf (srt E) (drhs d)
  /\ tsort (srt E) (drhs d) = fres (srt E) (dsym d) /\ primary (drhs d).
Lemma def_of_ok E d e : eqn_ok E e -> def_of d e -> def_shape d -> def_ok E d.
Proof.
  intros (W1 & W2 & W3 & W4 & W5) [_ H] HS. destruct H as [[H1 H2]|[H1 H2]]; rewrite H1, H2 in *; split; auto; split; auto.
Qed.
Lemma def_sorts E d : def_ok E d -> map (vsort (srt E)) (dvars d) = fargs (srt E) (dsym d).
Proof. intros (_ & W & _). apply wf_fun in W. destruct W as [_ W]. rewrite map_map in W. exact W. Qed.

(** ** Unfolding as a term operation *)

Lemma zip_out : forall xs args y, ~ In y xs -> zip_subst xs args y = Var y.
Proof.
  induction xs as [|x xs IH]; intros [|a args] y H; cbn; auto. destruct (Nat.eqb y x) eqn:Q.
  - apply Nat.eqb_eq in Q. subst. exfalso. apply H. left. reflexivity.
  - apply IH. intros C. apply H. right. exact C.
Qed.
Lemma zip_in : forall xs args y, length xs = length args -> In y xs -> In (zip_subst xs args y) args.
Proof.
  induction xs as [|x xs IH]; intros [|a args] y L H; try discriminate; [destruct H|]. cbn. destruct (Nat.eqb y x) eqn:Q; auto.
  right. apply IH; auto. destruct H as [->|H]; auto. rewrite Nat.eqb_refl in Q. discriminate.
Qed.
Lemma zip_wfsubst S : forall xs args, Forall (wf S) args -> map (tsort S) args = map (vsort S) xs -> wfsubst S (zip_subst xs args).
Proof.
  induction xs as [|x xs IH]; intros [|a args] W H; try discriminate; intros y; cbn; [split; reflexivity|].
  inversion W; subst. cbn in H. injection H as HA HB. destruct (Nat.eqb y x) eqn:Q.
  - apply Nat.eqb_eq in Q. subst. split; auto.
  - apply IH; auto.
Qed.

Section One.
  Variable E : env.
  Variable d : defn.
  Hypothesis OK : def_ok E d.
  Let S := srt E.
  Let f := dsym d.
  Let xs := dvars d.
  Let r := drhs d.

  Lemma unfold_wf t : wf S t -> wf S (term_unfold d t) /\ tsort S (term_unfold d t) = tsort S t.
  Proof.
    induction t as [x|g a IH] using term_ind'; intros W; cbn [term_unfold]; [auto|]. apply wf_fun in W. destruct W as [W1 W2].
    assert (A1 : Forall (wf S) (map (term_unfold d) a)).
    { rewrite Forall_map. rewrite Forall_forall in *. intros y Hy. apply IH; auto. }
    assert (A2 : map (tsort S) (map (term_unfold d) a) = fargs S g).
    { rewrite map_map, <- W2. apply map_ext_in. intros y Hy. rewrite Forall_forall in *. apply IH; auto. }
    destruct (Nat.eqb g (dsym d)) eqn:Q.
    - apply Nat.eqb_eq in Q. subst g.
      assert (Z : wfsubst S (zip_subst (dvars d) (map (term_unfold d) a))).
      { apply zip_wfsubst; auto. rewrite A2. symmetry. apply (def_sorts E d OK). }
      destruct OK as (_ & _ & B1 & B2 & _). split; [apply app_wf; auto|]. rewrite app_sort; auto.
    - split; [|reflexivity]. apply wf_fun. auto.
  Qed.

  (** a term without the symbol is not changed *)
  Lemma unfold_id t : ~ In f (tsyms t) -> term_unfold d t = t.
  Proof.
    induction t as [x|g a IH] using term_ind'; intros H; cbn [term_unfold]; auto. cbn [tsyms] in H.
    destruct (Nat.eqb g (dsym d)) eqn:Q; [apply Nat.eqb_eq in Q; exfalso; apply H; left; exact Q|]. f_equal.
    rewrite <- (map_id a) at 2. apply map_ext_in. intros y Hy. rewrite Forall_forall in IH. apply IH; auto. intros C. apply H. right.
    apply in_flat_map. eauto.
  Qed.
  Lemma app_syms s t h : In h (tsyms (app s t)) -> In h (tsyms t) \/ exists x, In x (vars t) /\ In h (tsyms (s x)).
  Proof.
    induction t as [x|g a IH] using term_ind'; cbn [app tsyms vars]; [intros H; right; exists x; split; [left; auto|auto]|].
    intros [H|H]; [left; left; exact H|]. apply in_flat_map in H. destruct H as [y [H1 H2]]. apply in_map_iff in H1. destruct H1 as [z [<- H1]].
    rewrite Forall_forall in IH. destruct (IH z H1 H2) as [A|[x [A B]]].
    - left. right. apply in_flat_map. eauto.
    - right. exists x. split; auto. apply in_flat_map. eauto.
  Qed.
  Lemma app_vars s t y : In y (vars (app s t)) -> exists x, In x (vars t) /\ In y (vars (s x)).
  Proof.
    induction t as [x|g a IH] using term_ind'; cbn [app vars]; [intros H; exists x; split; [left; auto|auto]|].
    intros H. apply in_flat_map in H. destruct H as [u [H1 H2]]. apply in_map_iff in H1. destruct H1 as [z [<- H1]].
    rewrite Forall_forall in IH. destruct (IH z H1 H2) as [x [A B]]. exists x. split; auto. apply in_flat_map. eauto.
  Qed.
  (** symbols and variables of the result *)
  Lemma unfold_syms t h : wf S t -> In h (tsyms (term_unfold d t)) -> h <> f /\ (In h (tsyms t) \/ In h (tsyms r)).
  Proof.
    induction t as [x|g a IH] using term_ind'; intros W; cbn [term_unfold]; [intros []|]. rewrite Forall_forall in IH. apply wf_fun in W. destruct W as [W1 W2].
    rewrite Forall_forall in W1.
    destruct OK as ((X1 & X2 & X3 & X4) & _). cbn [tsyms].
    assert (ARG : forall y, In y (map (term_unfold d) a) -> In h (tsyms y) -> h <> f /\ ((g = h \/ In h (flat_map tsyms a)) \/ In h (tsyms r))).
    { intros y H H'. apply in_map_iff in H. destruct H as [z [<- H]]. destruct (IH z H (W1 z H) H') as [A [B|B]]; split; auto.
      left. right. apply in_flat_map. eauto. }
    destruct (Nat.eqb g (dsym d)) eqn:Q.
    - apply Nat.eqb_eq in Q. intros H. apply app_syms in H. destruct H as [H|[x [H1 H2]]].
      + split; auto. intros ->. tauto.
      + apply X4 in H1. apply (ARG (zip_subst (dvars d) (map (term_unfold d) a) x)); auto. apply zip_in; auto.
        rewrite map_length, <- (map_length (vsort S) (dvars d)). unfold S. rewrite (def_sorts E d OK), <- Q. unfold S in W2. rewrite <- W2. apply map_length.
    - apply Nat.eqb_neq in Q. cbn [tsyms]. intros [H|H].
      + split; [subst h; exact Q|left; left; exact H].
      + apply in_flat_map in H. destruct H as [y [H1 H2]]. apply (ARG y); auto.
  Qed.
  Lemma unfold_vars t y : wf S t -> In y (vars (term_unfold d t)) -> In y (vars t).
  Proof.
    induction t as [x|g a IH] using term_ind'; intros W; cbn [term_unfold]; auto. rewrite Forall_forall in IH. apply wf_fun in W. destruct W as [W1 W2].
    rewrite Forall_forall in W1. destruct OK as ((X1 & X2 & X3 & X4) & _).
    assert (ARG : forall u, In u (map (term_unfold d) a) -> In y (vars u) -> In y (flat_map vars a)).
    { intros u H H'. apply in_map_iff in H. destruct H as [z [<- H]]. apply in_flat_map. exists z. auto. }
    cbn [vars].
    destruct (Nat.eqb g (dsym d)) eqn:Q.
    - apply Nat.eqb_eq in Q. intros H. apply app_vars in H. destruct H as [x [H1 H2]]. apply X4 in H1.
      apply (ARG (zip_subst (dvars d) (map (term_unfold d) a) x)); auto. apply zip_in; auto.
      rewrite map_length, <- (map_length (vsort S) (dvars d)). unfold S. rewrite (def_sorts E d OK), <- Q. unfold S in W2. rewrite <- W2. apply map_length.
    - cbn [vars]. intros H. apply in_flat_map in H. destruct H as [u [H1 H2]]. apply (ARG u); auto.
  Qed.
  Lemma eqn_unfold_ok e : eqn_ok E e -> eqn_ok E (eqn_unfold d e).
  Proof.
    intros (W1 & W2 & W3 & W4 & W5). destruct (unfold_wf (lt e) W1) as [A1 A2], (unfold_wf (rt e) W2) as [B1 B2].
    split; [exact A1|]. split; [exact B1|]. split; [cbn; unfold S in *; congruence|]. split; intros x Hx; cbn in Hx; apply unfold_vars in Hx; auto.
  Qed.
  Lemma remove_superfluous_in c e : In e (remove_superfluous E c) -> In e c.
  Proof. unfold remove_superfluous. intros H. apply remove_dups_incl in H. apply filter_In in H. tauto. Qed.
  Lemma clause_unfold_ok c : clause_ok E c -> clause_ok E (clause_unfold E d c).
  Proof.
    intros H. unfold clause_unfold. destruct (unfolds d c); auto. unfold clause_ok in *. rewrite Forall_forall in *. intros e He.
    apply remove_superfluous_in in He. apply in_map_iff in He. destruct He as [e' [<- He]]. apply eqn_unfold_ok; auto.
  Qed.
  Lemma unfolds_false c : unfolds d c = false -> ~ occurs f c.
  Proof.
    intros H [e [H1 H2]]. assert (unfolds d c = true); [|congruence]. apply existsb_exists. exists e. split; auto.
    unfold lit_syms in H2. apply in_app_iff in H2. apply orb_true_iff. destruct H2 as [H2|H2]; [left|right]; apply has_fcode_in; exact H2.
  Qed.
  Lemma clause_unfold_syms c h : clause_ok E c -> occurs h (clause_unfold E d c) -> h <> f /\ (occurs h c \/ In h (tsyms r)).
  Proof.
    intros OKc. unfold clause_unfold. destruct (unfolds d c) eqn:U.
    - intros [e [H1 H2]]. apply remove_superfluous_in, in_map_iff in H1. destruct H1 as [e' [<- H1]]. unfold clause_ok in OKc. rewrite Forall_forall in OKc.
      destruct (OKc e' H1) as (W1 & W2 & _). unfold lit_syms in H2. cbn in H2. apply in_app_iff in H2.
      destruct H2 as [H2|H2]; apply unfold_syms in H2; auto; destruct H2 as [A [B|B]]; split; auto; left; exists e'; split; auto; unfold lit_syms; apply in_app_iff; auto.
    - intros H. split; auto. intros ->. exact (unfolds_false c U H).
  Qed.

  (** ** Semantics *)

  (** in a model of the definition, unfolding changes no value *)
  Lemma unfold_eval M v t : model_ok S (dist E) M -> (forall w, respects S M w -> eval M w (Fun f (map Var xs)) = eval M w r) ->
    respects S M v -> wf S t -> eval M v (term_unfold d t) = eval M v t.
  Proof.
    intros HM HD Hv. induction t as [x|g a IH] using term_ind'; intros W; cbn [term_unfold]; [reflexivity|].
    pose proof W as W0. apply wf_fun in W. destruct W as [W1 W2]. rewrite Forall_forall in IH, W1.
    assert (A : map (eval M v) (map (term_unfold d) a) = map (eval M v) a).
    { rewrite map_map. apply map_ext_in. auto. }
    destruct (Nat.eqb g (dsym d)) eqn:Q.
    - apply Nat.eqb_eq in Q. subst g. rewrite eval_app.
      assert (Z : wfsubst S (zip_subst (dvars d) (map (term_unfold d) a))).
      { apply zip_wfsubst.
        - rewrite Forall_map. apply Forall_forall. intros y Hy. apply unfold_wf; auto.
        - rewrite map_map. unfold S. rewrite (def_sorts E d OK). unfold S in W2. rewrite <- W2. apply map_ext_in. intros y Hy. apply unfold_wf. apply W1; auto. }
      fold r. rewrite <- HD by (apply (respects_subst S (dist E)); auto). cbn [eval]. f_equal.
      rewrite <- A. rewrite map_map. cbn [eval].
      assert (L : length (map (term_unfold d) a) = length xs).
      { rewrite map_length. unfold xs. rewrite <- (map_length (vsort S) (dvars d)). unfold S. rewrite (def_sorts E d OK). unfold S in W2. rewrite <- W2.
        symmetry. apply map_length. }
      destruct OK as ((_ & X2 & _) & _). fold xs in X2. clear -X2 L. fold xs. revert L. generalize (map (term_unfold d) a) as l. clear a.
      induction xs as [|x ys IHy]; intros [|b l] L; try discriminate; cbn; auto. rewrite Nat.eqb_refl. f_equal.
      inversion X2 as [|? ? X3 X4]; subst. injection L as L. rewrite <- (IHy X4 l L). apply map_ext_in. intros y Hy.
      destruct (Nat.eqb y x) eqn:Q; auto. apply Nat.eqb_eq in Q. subst. tauto.
    - cbn [eval]. rewrite A. reflexivity.
  Qed.
  Lemma unfold_holds M v e : model_ok S (dist E) M -> (forall w, respects S M w -> eval M w (Fun f (map Var xs)) = eval M w r) ->
    respects S M v -> eqn_ok E e -> (holds M v (eqn_unfold d e) <-> holds M v e).
  Proof.
    intros HM HD Hv (W1 & W2 & _). unfold holds, lit_holds. cbn. rewrite !unfold_eval; auto. reflexivity.
  Qed.
  Lemma superfluous_true M c : model_ok S (dist E) M -> (clause_true S M (remove_superfluous E c) <-> clause_true S M c).
  Proof.
    intros HM. unfold clause_true, remove_superfluous. split; intros H v Hv; specialize (H v Hv);
    rewrite remove_dups_holds in *; apply (remove_resolved_holds E M HM v); exact H.
  Qed.
  Lemma clause_unfold_true M c : model_ok S (dist E) M -> (forall w, respects S M w -> eval M w (Fun f (map Var xs)) = eval M w r) ->
    clause_ok E c -> (clause_true S M (clause_unfold E d c) <-> clause_true S M c).
  Proof.
    intros HM HD OKc. unfold clause_unfold. destruct (unfolds d c); [|reflexivity]. rewrite superfluous_true by exact HM.
    unfold clause_ok in OKc. rewrite Forall_forall in OKc.
    split; intros H v Hv; specialize (H v Hv); rewrite Exists_exists in *.
    - destruct H as [e [H1 H2]]. apply in_map_iff in H1. destruct H1 as [e' [<- H1]]. exists e'. split; auto. apply (unfold_holds M v e'); auto.
    - destruct H as [e [H1 H2]]. exists (eqn_unfold d e). split; [apply in_map; auto|]. apply unfold_holds; auto.
  Qed.

  (** the definition interpreted *)
  Fixpoint zip_val {D : Type} (def : D) (ys : list var) (ds : list D) : var -> D :=
    match ys, ds with
    | y :: ys', a :: ds' => fun x => if Nat.eqb x y then a else zip_val def ys' ds' x
    | _, _ => fun _ => def
    end.
  Definition new_fun (M : structure) (g : sym) (ds : list (dom M)) : dom M :=
    match ds with
    | [] => ifun M g []
    | _ => if Nat.eqb g f then eval M (zip_val (ifun M true_code []) xs ds) r else ifun M g ds
    end.
  Definition new_str (M : structure) : structure := {| dom := dom M; ifun := new_fun M; isort := isort M |}.

  Lemma zip_val_eval M v def : forall ys args x, length ys = length args -> In x ys ->
    zip_val def ys (map (eval M v) args) x = eval M v (zip_subst ys args x).
  Proof.
    induction ys as [|y ys IH]; intros [|a args] x L H; try discriminate; [destruct H|]. cbn. destruct (Nat.eqb x y) eqn:Q; auto.
    apply IH; auto. destruct H as [->|H]; auto. rewrite Nat.eqb_refl in Q. discriminate.
  Qed.
  Lemma eval_sort_on D M v t : model_ok S D M -> (forall x, In x (vars t) -> isort M (vsort S x) (v x)) -> wf S t -> isort M (tsort S t) (eval M v t).
  Proof.
    intros HM. induction t as [x|g a IH] using term_ind'; intros Hv W; cbn.
    - apply Hv. left. reflexivity.
    - apply wf_fun in W. destruct W as [W1 W2]. apply (mo_fun _ _ _ HM). rewrite <- W2. cbn [vars] in Hv.
      clear W2. induction a as [|b a IHa]; cbn; constructor.
      + inversion IH; inversion W1; subst; auto. apply H1; auto. intros x Hx. apply Hv. cbn. apply in_app_iff. auto.
      + inversion IH; inversion W1; subst; apply IHa; auto. intros x Hx. apply Hv. cbn. apply in_app_iff. auto.
  Qed.
  Lemma zip_val_sort M def : forall ys ds x, Forall2 (isort M) (map (vsort S) ys) ds -> In x ys -> isort M (vsort S x) (zip_val def ys ds x).
  Proof.
    induction ys as [|y ys IH]; intros ds x H Hx; [destruct Hx|]. cbn in H. inversion H as [|? a ? ds' H1 H2]; subst. cbn.
    destruct (Nat.eqb x y) eqn:Q.
    - apply Nat.eqb_eq in Q. subst. exact H1.
    - apply IH; auto. destruct Hx as [->|Hx]; auto. rewrite Nat.eqb_refl in Q. discriminate.
  Qed.
  Lemma new_ok M : model_ok S (dist E) M -> model_ok S (dist E) (new_str M).
  Proof.
    intros HM. constructor; cbn.
    - intros g ds H. destruct ds as [|a ds]; [apply (mo_fun _ _ _ HM); exact H|]. unfold new_fun. destruct (Nat.eqb g f) eqn:Q; [|apply (mo_fun _ _ _ HM); exact H].
      apply Nat.eqb_eq in Q. subst g. destruct OK as ((_ & _ & _ & X4) & _ & W & T & _). unfold f. fold S in T. rewrite <- T.
      apply (eval_sort_on (dist E)); auto. intros x Hx. apply zip_val_sort; [|apply X4; exact Hx]. unfold xs, S. rewrite (def_sorts E d OK). exact H.
    - apply (mo_inh _ _ _ HM).
    - apply (mo_bool _ _ _ HM).
    - apply (mo_tf _ _ _ HM).
    - apply (mo_dec _ _ _ HM).
    - intros g h. apply (mo_dist _ _ _ HM).
  Qed.
  Lemma new_eval M (v : var -> dom M) t : wf S t -> eval (new_str M) v t = eval M v (term_unfold d t).
  Proof.
    induction t as [x|g a IH] using term_ind'; intros W; cbn [term_unfold]; [reflexivity|].
    apply wf_fun in W. destruct W as [W1 W2]. rewrite Forall_forall in IH, W1.
    assert (A : map (eval (new_str M) v) a = map (eval M v) (map (term_unfold d) a)).
    { rewrite map_map. apply map_ext_in. auto. }
    cbn [eval]. rewrite A. cbn [ifun new_str]. destruct (Nat.eqb g (dsym d)) eqn:Q.
    - apply Nat.eqb_eq in Q. subst g.
      assert (L : length xs = length (map (term_unfold d) a)).
      { rewrite map_length. unfold xs. rewrite <- (map_length (vsort S) (dvars d)). unfold S. rewrite (def_sorts E d OK). unfold S in W2. rewrite <- W2.
        apply map_length. }
      destruct OK as ((X1 & X2 & X3 & X4) & _). fold xs r in X1, X4.
      unfold new_fun. destruct (map (eval M v) (map (term_unfold d) a)) as [|b l] eqn:Z.
      { apply map_eq_nil in Z. rewrite Z in L. destruct xs; [tauto|discriminate]. }
      fold f. rewrite Nat.eqb_refl. refine (eq_trans _ (eq_sym (eval_app M v _ _))). rewrite <- Z. apply eval_ext. intros x Hx. apply zip_val_eval; auto.
    - cbn [eval]. unfold new_fun. destruct (map (eval M v) (map (term_unfold d) a)); auto. fold f in Q. rewrite Q. reflexivity.
  Qed.
  Lemma new_def M (v : var -> dom M) : eval (new_str M) v (Fun f (map Var xs)) = eval (new_str M) v r.
  Proof.
    destruct OK as ((X1 & X2 & X3 & X4) & W & W' & _). rewrite !new_eval; auto. cbn [term_unfold]. unfold f. rewrite Nat.eqb_refl, map_map.
    rewrite (unfold_id r) by exact X3. fold r xs. refine (eq_trans (eval_app M v _ _) _). apply eval_ext. intros x Hx. apply X4 in Hx. fold xs in Hx, X2. clear -Hx X2.
    induction xs as [|y ys IH]; [destruct Hx|]. cbn. destruct (Nat.eqb x y) eqn:Q; [apply Nat.eqb_eq in Q; subst; reflexivity|].
    inversion X2; subst. apply IH; auto. destruct Hx as [->|Hx]; auto. rewrite Nat.eqb_refl in Q. discriminate.
  Qed.
  Lemma new_clause M c : model_ok S (dist E) M -> clause_ok E c -> (clause_true S (new_str M) c <-> clause_true S M (clause_unfold E d c)).
  Proof.
    intros HM OKc. rewrite <- (clause_unfold_true (new_str M)) by (auto using new_ok, new_def).
    assert (OKu := clause_unfold_ok c OKc).
    assert (NO : ~ occurs f (clause_unfold E d c)) by (intros X; apply clause_unfold_syms in X; tauto).
    unfold clause_ok in OKu. rewrite Forall_forall in OKu.
    assert (HH : forall v e, In e (clause_unfold E d c) -> (holds (new_str M) v e <-> holds M v e)).
    { intros v e He. unfold holds, lit_holds. destruct (OKu e He) as (W1 & W2 & _).
      assert (N : ~ In f (lit_syms e)) by (intros X; apply NO; exists e; auto). unfold lit_syms in N. rewrite in_app_iff in N.
      rewrite (new_eval M v (lt e)), (new_eval M v (rt e)) by auto. rewrite !unfold_id by tauto. reflexivity. }
    split; intros H v Hv; specialize (H v Hv); apply Exists_exists in H; destruct H as [e [H1 H2]]; apply Exists_exists; exists e; split; auto; apply HH; auto.
  Qed.
End One.

(** ** The loop *)

Lemma find_def_some E n : forall l pre c d post, find_def E n l = Some (pre, c, d, post) -> l = pre ++ c :: post /\ clause_def E n c = Some d.
Proof.
  induction l as [|x l IH]; intros pre c d post; cbn [find_def]; [discriminate|]. destruct (clause_def E n x) as [d'|] eqn:Q.
  - intros [= <- <- <- <-]. auto.
  - destruct (find_def E n l) as [[[[pre' c'] d'] post']|]; [|discriminate]. intros [= <- <- <- <-].
    destruct (IH _ _ _ _ eq_refl) as [-> A]. auto.
Qed.
Lemma def_of_true E d e : forall M, clause_true (srt E) M [e] -> def_of d e ->
  forall w, respects (srt E) M w -> eval M w (Fun (dsym d) (map Var (dvars d))) = eval M w (drhs d).
Proof.
  intros M HT [P H] w Hw. specialize (HT w Hw). inversion HT as [? ? A|? ? A]; subst; [|inversion A]. unfold holds, lit_holds in A. rewrite P in A.
  destruct H as [[H1 H2]|[H1 H2]]; rewrite H1, H2 in A; auto.
Qed.
Lemma new_def_true E d e : def_ok E d -> def_of d e -> forall M, clause_true (srt E) (new_str d M) [e].
Proof.
  intros OK [P H] M v Hv. left. unfold holds, lit_holds. rewrite P. destruct H as [[-> ->]|[-> ->]]; [|symmetry]; apply (new_def E d OK).
Qed.

Definition oks (E : env) (l : list clause) : Prop := Forall (clause_ok E) l.
Lemma oks_app E l1 l2 : oks E (l1 ++ l2) <-> oks E l1 /\ oks E l2.
Proof. unfold oks. apply Forall_app. Qed.
Lemma set_unfold_oks E d l : def_ok E d -> oks E l -> oks E (set_unfold E d l).
Proof. intros OK. unfold oks, set_unfold. rewrite Forall_map, !Forall_forall. intros H c Hc. apply clause_unfold_ok; auto. Qed.
Lemma set_unfold_app E d l1 l2 : set_unfold E d (l1 ++ l2) = set_unfold E d l1 ++ set_unfold E d l2.
Proof. apply map_app. Qed.

Lemma loop_total E n lim : forall fuel before rest passive archive, length rest < fuel ->
  unfold_loop E n lim fuel before rest passive archive <> None.
Proof.
  induction fuel as [|k IH]; intros before rest passive archive L; [lia|]. cbn [unfold_loop].
  destruct (find_def E n rest) as [[[[pre c] d] post]|] eqn:F; [|discriminate]. apply find_def_some in F. destruct F as [-> _].
  rewrite app_length in L. cbn in L. destruct (small_enough lim d); apply IH; unfold set_unfold; rewrite ?map_length; lia.
Qed.

(** One step, in terms of the sets as a whole: [S] before and [S'] after are [def :: S0] and [S0] unfolded. *)
Inductive steps (E : env) : list clause -> list clause -> list clause -> list sym -> list clause -> list clause -> Prop :=
| steps_done : forall N N' P, Permutation N N' -> steps E N P [] [] N' P
| steps_step : forall N P e d N0 A fs N' P', Permutation N ([e] :: N0) -> def_of d e -> def_shape d ->
    steps E (set_unfold E d N0) (set_unfold E d P) A fs N' P' -> steps E N P ([e] :: A) (dsym d :: fs) N' P'.

Lemma loop_steps E n lim : n <> 0 -> forall fuel before rest passive archive N' P' A', 
  unfold_loop E n lim fuel before rest passive archive = Some (N', P', A') ->
  exists A fs, A' = archive ++ A /\ steps E (before ++ rest) passive A fs N' P'.
Proof.
  intros Hn. induction fuel as [|k IH]; intros before rest passive archive N' P' A'; cbn [unfold_loop]; [discriminate|].
  destruct (find_def E n rest) as [[[[pre c] d] post]|] eqn:F.
  - apply find_def_some in F. destruct F as [-> F]. apply clause_def_some in F; auto. destruct F as [e [-> [D1 D2]]].
    destruct (small_enough lim d); intros H; apply IH in H; destruct H as [A [fs [-> H]]].
    + exists ([e] :: A), (dsym d :: fs). split; [rewrite <- app_assoc; reflexivity|].
      apply (steps_step E _ _ e d ((before ++ pre) ++ post) A); auto.
      * rewrite app_assoc. symmetry. apply Permutation_middle.
      * rewrite set_unfold_app. exact H.
    + exists A, fs. split; auto. rewrite <- !app_assoc in H. exact H.
  - intros [= <- <- <-]. exists [], []. split; [symmetry; apply app_nil_r|]. apply steps_done. reflexivity.
Qed.

Lemma oks_perm E N N' : Permutation N N' -> oks E N -> oks E N'.
Proof. intros P. unfold oks. rewrite !Forall_forall. intros H c Hc. apply H. eapply Permutation_in; [symmetry; exact P|exact Hc]. Qed.
Lemma step_def_ok E e d N0 : oks E ([e] :: N0) -> def_of d e -> def_shape d -> def_ok E d.
Proof. intros H. inversion H as [|? ? A B]; subst. inversion A; subst. intros. eapply def_of_ok; eauto. Qed.

Lemma satisfied_perm E M N N' : Permutation N N' -> satisfied E M N -> satisfied E M N'.
Proof. intros P H c Hc. apply H. eapply Permutation_in; [symmetry; exact P|exact Hc]. Qed.

Lemma steps_follow E N P A fs N' P' : steps E N P A fs N' P' -> oks E N -> oks E P ->
  oks E N' /\ oks E P'
  /\ (forall M, model_ok (srt E) (dist E) M -> satisfied E M N ->
        satisfied E M N' /\ satisfied E M A /\ Forall2 (fun c c' => clause_true (srt E) M c <-> clause_true (srt E) M c') P P').
Proof.
  induction 1 as [N N' P HP|N P e d N0 A fs N' P' HP D1 D2 HS IH]; intros ON OP.
  - split; [eapply oks_perm; eauto|]. split; auto. intros M HM HS. split; [eapply satisfied_perm; eauto|]. split; [intros c []|].
    clear. induction P; constructor; auto. reflexivity.
  - apply (oks_perm E _ _ HP) in ON. assert (OK := step_def_ok E e d N0 ON D1 D2). inversion ON as [|? ? ON1 ON2]; subst.
    destruct (IH (set_unfold_oks E d N0 OK ON2) (set_unfold_oks E d P OK OP)) as [I1 [I2 I3]]. split; auto. split; auto.
    intros M HM HS'. apply (satisfied_perm E M _ _ HP) in HS'.
    assert (T : clause_true (srt E) M [e]) by (apply HS'; left; reflexivity).
    assert (DT := def_of_true E d e M T D1).
    destruct (I3 M HM) as [J1 [J2 J3]].
    { intros c Hc. apply in_map_iff in Hc. destruct Hc as [c0 [<- Hc]]. apply (clause_unfold_true E d OK M c0 HM DT).
      - unfold oks in ON2. rewrite Forall_forall in ON2. auto.
      - apply HS'. right. exact Hc. }
    split; auto. split; [intros c [<-|Hc]; auto|].
    clear -J3 OP OK HM DT. revert P' J3. induction P as [|p P IHP]; intros P' J3; cbn in J3; inversion J3 as [|? p' ? P'' H1 H2]; subst; constructor.
    + rewrite <- H1. symmetry. apply (clause_unfold_true E d OK M p HM DT). inversion OP; auto.
    + inversion OP; subst. apply IHP; auto.
Qed.

Lemma defines_of d e : def_of d e -> def_shape d -> defines [e] (dsym d).
Proof.
  intros [P H] (X1 & X2 & X3 & X4). exists e, (dvars d), (drhs d). auto 10.
Qed.

Lemma steps_models E N P A fs N' P' : steps E N P A fs N' P' -> oks E N -> oks E P ->
  forall M, model_ok (srt E) (dist E) M -> satisfied E M N' ->
  exists M', model_ok (srt E) (dist E) M' /\ differ_only fs M M'
    /\ satisfied E M' N /\ Forall2 (fun c c' => clause_true (srt E) M' c <-> clause_true (srt E) M c') P P'.
Proof.
  induction 1 as [N N' P HP|N P e d N0 A fs N' P' HP D1 D2 HS IH]; intros ON OP M HM HT.
  - exists M. split; auto. split; [exists (ifun M); split; [destruct M; reflexivity|reflexivity]|].
    split; [eapply satisfied_perm; [symmetry|]; eauto|]. clear. induction P; constructor; auto. reflexivity.
  - apply (oks_perm E _ _ HP) in ON. assert (OK := step_def_ok E e d N0 ON D1 D2). inversion ON as [|? ? ON1 ON2]; subst.
    destruct (IH (set_unfold_oks E d N0 OK ON2) (set_unfold_oks E d P OK OP) M HM HT) as [M1 [I1 [I2 [I4 I5]]]].
    exists (new_str d M1). split; [apply new_ok; auto|]. split; [|split].
    + destruct I2 as [F [-> HF]]. exists (new_fun d {| dom := dom M; ifun := F; isort := isort M |}). split; [reflexivity|].
      intros g ds Hg. cbn in Hg. unfold new_fun. rewrite <- HF by tauto. cbn [ifun]. destruct ds as [|a ds]; [reflexivity|].
      destruct (Nat.eqb g (dsym d)) eqn:Q; [apply Nat.eqb_eq in Q; subst; tauto|]. reflexivity.
    + eapply satisfied_perm; [symmetry; exact HP|]. intros c [<-|Hc].
      * apply new_def_true; auto.
      * apply (new_clause E d OK M1 c I1).
        -- unfold oks in ON2. rewrite Forall_forall in ON2. auto.
        -- apply I4. apply in_map_iff. eauto.
    + clear -I5 OP OK I1. revert P' I5. induction P as [|p P IHP]; intros P' J3; cbn in J3; inversion J3 as [|? p' ? P'' H1 H2]; subst; constructor.
      * rewrite <- H1. apply (new_clause E d OK M1 p I1). inversion OP; auto.
      * inversion OP; subst. apply IHP; auto.
Qed.


(** symbols *)
Lemma steps_syms E N P A fs N' P' : steps E N P A fs N' P' -> oks E N -> oks E P ->
  (forall h c, In c (N' ++ P') -> occurs h c -> exists c', In c' (N ++ P) /\ occurs h c')
  /\ (forall f c, In f fs -> In c (N' ++ P') -> ~ occurs f c).
Proof.
  induction 1 as [N N' P HP|N P e d N0 A fs N' P' HP D1 D2 HS IH]; intros ON OP.
  - split; [|intros f c []]. intros h c Hc Ho. exists c. split; auto. rewrite in_app_iff in *. destruct Hc; auto. left.
    eapply Permutation_in; [symmetry; exact HP|]; auto.
  - apply (oks_perm E _ _ HP) in ON. assert (OK := step_def_ok E e d N0 ON D1 D2). inversion ON as [|? ? ON1 ON2]; subst.
    destruct (IH (set_unfold_oks E d N0 OK ON2) (set_unfold_oks E d P OK OP)) as [I1 I2].
    assert (BACK : forall h c', In c' (set_unfold E d N0 ++ set_unfold E d P) -> occurs h c' ->
       h <> dsym d /\ exists c'', In c'' (N ++ P) /\ occurs h c'').
    { intros h c' Hc' Ho. rewrite <- set_unfold_app in Hc'. apply in_map_iff in Hc'. destruct Hc' as [c0 [<- Hc0]].
      apply clause_unfold_syms in Ho; auto.
      - destruct Ho as [Hn [Ho|Ho]]; split; auto.
        + exists c0. split; auto. rewrite in_app_iff in *. destruct Hc0 as [Hc0|Hc0]; auto. left. eapply Permutation_in; [symmetry; exact HP|]. right. exact Hc0.
        + exists [e]. split; [apply in_app_iff; left; eapply Permutation_in; [symmetry; exact HP|]; left; reflexivity|].
          exists e. split; [left; reflexivity|]. unfold lit_syms. apply in_app_iff. destruct D1 as [_ [[_ X]|[_ X]]]; rewrite X; auto.
      - unfold oks in ON2, OP. rewrite Forall_forall in ON2, OP. apply in_app_iff in Hc0. destruct Hc0; auto. }
    split.
    + intros h c Hc Ho. destruct (I1 h c Hc Ho) as [c' [H1 H2]]. apply (BACK h c' H1 H2).
    + intros f c [<-|Hf] Hc Ho; [|exact (I2 f c Hf Hc Ho)]. destruct (I1 _ c Hc Ho) as [c' [H1 H2]]. apply (BACK _ c' H1 H2). reflexivity.
Qed.
Lemma steps_defines E N P A fs N' P' : steps E N P A fs N' P' -> Forall2 defines A fs /\ length N = length A + length N'.
Proof.
  induction 1 as [N N' P HP|N P e d N0 A fs N' P' HP D1 D2 HS [IH1 IH2]].
  - split; [constructor|]. cbn. apply Permutation_length; auto.
  - split; [constructor; [apply defines_of; auto|exact IH1]|]. rewrite (Permutation_length HP). cbn. unfold set_unfold in IH2. rewrite map_length in IH2. lia.
Qed.

(** ** Tautology filter *)

Lemma filter_taut_spec E eno mx n : env_ok E -> (forall s t, eno s = eno t -> s = t) -> forall l l', oks E l -> filter_taut eno mx n E l = Some l' ->
  incl l' l /\ forall M, model_ok (srt E) (dist E) M -> satisfied E M l' -> satisfied E M l.
Proof.
  intros HE HI. induction l as [|c l IH]; intros l' OL; cbn [filter_taut].
  - intros [= <-]. split; [intros x []|]. auto.
  - inversion OL as [|? ? O1 O2]; subst. destruct (clause_is_tautology eno mx E n c) as [b| |] eqn:T; try discriminate.
    destruct (filter_taut eno mx n E l) as [r|]; [|discriminate]. destruct (IH r O2 eq_refl) as [I1 I2]. intros [= <-].
    destruct b.
    + split; [intros x Hx; right; auto|]. intros M HM HS d [<-|Hd]; [|apply (I2 M HM HS); auto].
      refine (tautology_sound eno E mx n c HE O1 _ T M HM _); [|intros ? []]. intros e1 e2 s t _ _ _ _. apply HI.
    + split; [intros x [<-|Hx]; [left; reflexivity|right; auto]|]. intros M HM HS d [<-|Hd]; [apply HS; left; reflexivity|].
      apply (I2 M HM); auto. intros x Hx. apply HS. right. exact Hx.
Qed.

Lemma loop_limit E n lim : n <> 0 -> forall fuel before rest passive archive N' P' A',
  unfold_loop E n lim fuel before rest passive archive = Some (N', P', A') -> Forall (grows_at_most lim) archive -> Forall (grows_at_most lim) A'.
Proof.
  intros Hn. induction fuel as [|k IH]; intros before rest passive archive N' P' A'; cbn [unfold_loop]; [discriminate|].
  destruct (find_def E n rest) as [[[[pre c] d] post]|] eqn:F; [|intros [= <- <- <-]; auto].
  apply find_def_some in F. destruct F as [-> F]. apply clause_def_some in F; auto. destruct F as [e [-> [[_ D] _]]].
  destruct (small_enough lim d) eqn:Q; intros H HA; apply IH in H; auto. apply Forall_app. split; auto. constructor; [|constructor].
  exists e, (dsym d), (dvars d). split; auto. unfold small_enough in Q. apply Z.leb_le in Q.
  destruct D as [[D1 D2]|[D1 D2]]; [left|right]; split; auto; rewrite D1, D2; lia.
Qed.
Lemma find_def_none E n : forall l c, find_def E n l = None -> In c l -> clause_def E n c = None.
Proof.
  induction l as [|x l IH]; intros c; cbn [find_def]; [intros _ []|]. destruct (clause_def E n x) eqn:Q; [discriminate|].
  destruct (find_def E n l) as [[[[? ?] ?] ?]|]; [discriminate|]. intros _ [<-|H]; auto.
Qed.
