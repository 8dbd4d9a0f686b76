(** * Proofs about AC handling: order and normal form. *)
From Coq Require Import Permutation.
From Verif Require Import Terms Semantics Clauses ClausesProofs AC.
Local Open Scope nat_scope.

Section ActermInd.
Variable P : acterm -> Prop.
Hypothesis HV : forall x, P (AVar x).
Hypothesis HF : forall f a, Forall P a -> P (AFun f a).
Fixpoint acterm_ind' (t : acterm) : P t :=
  match t with
  | AVar x => HV x
  | AFun f a => HF f a ((fix go (l : list acterm) : Forall P l := match l with [] => Forall_nil _ | x :: l' => Forall_cons _ (acterm_ind' x) (go l') end) a)
  end.
End ActermInd.

(** ** The order *)
Fixpoint lexc (l1 l2 : list acterm) : comparison :=
  match l1, l2 with
  | [], [] => Eq
  | [], _ => Lt
  | _, [] => Gt
  | x :: l1', y :: l2' => match ac_compare x y with Eq => lexc l1' l2' | r => r end
  end.
Lemma compare_fun f a g b : ac_compare (AFun f a) (AFun g b) = match (Z.of_nat f ?= Z.of_nat g)%Z with Eq => lexc a b | r => r end.
Proof.
  cbn [ac_compare ac_code]. destruct (Z.of_nat f ?= Z.of_nat g)%Z; auto.
Qed.
Lemma compare_var x y : ac_compare (AVar x) (AVar y) = ((- Z.of_nat x - 1) ?= (- Z.of_nat y - 1))%Z.
Proof. cbn [ac_compare ac_code]. destruct (_ ?= _)%Z; auto. Qed.
Lemma compare_vf x g b : ac_compare (AVar x) (AFun g b) = Lt.
Proof. cbn [ac_compare ac_code]. replace (- Z.of_nat x - 1 ?= Z.of_nat g)%Z with Lt; auto. symmetry. apply Z.compare_lt_iff. lia. Qed.
Lemma compare_fv x g b : ac_compare (AFun g b) (AVar x) = Gt.
Proof. cbn [ac_compare ac_code]. replace (Z.of_nat g ?= - Z.of_nat x - 1)%Z with Gt; auto. symmetry. apply Z.compare_gt_iff. lia. Qed.

Lemma compare_refl t : ac_compare t t = Eq.
Proof.
  induction t as [x|f a IH] using acterm_ind'; [rewrite compare_var; apply Z.compare_refl|]. rewrite compare_fun, Z.compare_refl.
  induction IH as [|x a H _ IH]; cbn; auto. rewrite H. auto.
Qed.
Lemma compare_eq t : forall u, ac_compare t u = Eq -> t = u.
Proof.
  induction t as [x|f a IH] using acterm_ind'; intros [y|g b] H.
  - rewrite compare_var in H. apply Z.compare_eq in H. f_equal. lia.
  - rewrite compare_vf in H. discriminate.
  - rewrite compare_fv in H. discriminate.
  - rewrite compare_fun in H. destruct (Z.of_nat f ?= Z.of_nat g)%Z eqn:Q; try discriminate. apply Z.compare_eq in Q. assert (f = g) by lia. subst g. f_equal. clear Q.
    revert b H. induction IH as [|x a HX _ IH]; intros [|y b] H; cbn in H; try discriminate; auto.
    destruct (ac_compare x y) eqn:Q; try discriminate. f_equal; auto.
Qed.
Lemma compare_anti t : forall u, ac_compare u t = CompOpp (ac_compare t u).
Proof.
  induction t as [x|f a IH] using acterm_ind'; intros [y|g b].
  - rewrite !compare_var. apply Z.compare_antisym.
  - rewrite compare_vf, compare_fv. reflexivity.
  - rewrite compare_vf, compare_fv. reflexivity.
  - rewrite !compare_fun, (Z.compare_antisym (Z.of_nat f) (Z.of_nat g)). destruct (Z.of_nat f ?= Z.of_nat g)%Z; auto. cbn [CompOpp].
    revert b. induction IH as [|x a HX _ IH]; intros [|y b]; cbn; auto. rewrite HX. destruct (ac_compare x y); cbn; auto.
Qed.
Lemma compare_trans t : forall u w, ac_compare t u = Lt -> ac_compare u w = Lt -> ac_compare t w = Lt.
Proof.
  induction t as [x|f a IH] using acterm_ind'; intros [y|g b] [z|h c] H1 H2;
    try (rewrite compare_fv in *; discriminate); try apply compare_vf.
  - rewrite compare_var in H1, H2 |- *. apply Z.compare_lt_iff. apply -> Z.compare_lt_iff in H1. apply -> Z.compare_lt_iff in H2. lia.
  - rewrite compare_fun in H1, H2 |- *.
    destruct (Z.of_nat f ?= Z.of_nat g)%Z eqn:Q1; destruct (Z.of_nat g ?= Z.of_nat h)%Z eqn:Q2; try discriminate;
      try (replace (Z.of_nat f ?= Z.of_nat h)%Z with Lt; [reflexivity|]; symmetry; apply Z.compare_lt_iff;
           try apply Z.compare_eq in Q1; try apply Z.compare_eq in Q2; try apply -> Z.compare_lt_iff in Q1; try apply -> Z.compare_lt_iff in Q2; lia).
    replace (Z.of_nat f ?= Z.of_nat h)%Z with Eq; [|symmetry; apply Z.compare_eq_iff; apply Z.compare_eq in Q1; apply Z.compare_eq in Q2; lia].
    clear Q1 Q2. revert b c H1 H2. induction IH as [|x a HX _ IH]; intros [|y b] [|z c] H1 H2; cbn in *; try discriminate; auto.
    destruct (ac_compare x y) eqn:Q1; try discriminate; destruct (ac_compare y z) eqn:Q2; try discriminate.
    + apply compare_eq in Q1. subst y. rewrite Q2. eapply IH; eauto.
    + apply compare_eq in Q1. subst y. rewrite Q2. auto.
    + apply compare_eq in Q2. subst z. rewrite Q1. auto.
    + rewrite (HX _ _ Q1 Q2). auto.
Qed.
Lemma compare_gt t u : ac_compare t u = Gt <-> ac_compare u t = Lt.
Proof. rewrite (compare_anti t u). destruct (ac_compare t u); cbn; split; congruence. Qed.

Lemma insert_comm a b l : ac_insert a (ac_insert b l) = ac_insert b (ac_insert a l).
Proof.
  assert (W : forall a b l, ac_compare a b = Lt -> ac_insert a (ac_insert b l) = ac_insert b (ac_insert a l)).
  { clear. intros a b l H. assert (G : ac_compare b a = Gt) by (rewrite compare_gt; auto).
    induction l as [|u l IH]; cbn [ac_insert]; [rewrite H, G; auto|].
    destruct (ac_compare b u) eqn:Q1; destruct (ac_compare a u) eqn:Q2; cbn [ac_insert]; rewrite ?H, ?G, ?Q1, ?Q2; cbn [ac_insert]; rewrite ?H, ?G, ?Q1, ?Q2; auto.
    all: try (f_equal; exact IH).
    all: exfalso; try (apply compare_eq in Q1; subst b); try (apply compare_eq in Q2; subst a); try congruence.
    all: try (apply compare_gt in Q2; pose proof (compare_trans _ _ _ Q2 (compare_trans _ _ _ H Q1)) as X; rewrite compare_refl in X; discriminate).
    all: try (rewrite compare_refl in *; discriminate). }
  destruct (ac_compare a b) eqn:Q; auto; [apply compare_eq in Q; subst; auto|]. symmetry. apply W. apply compare_gt. auto.
Qed.
Lemma sort_perm l l' : Permutation l l' -> ac_sort l = ac_sort l'.
Proof.
  unfold ac_sort. induction 1; cbn [fold_right]; auto; [rewrite IHPermutation; auto|apply insert_comm|congruence].
Qed.
Lemma insert_perm t l : Permutation (ac_insert t l) (t :: l).
Proof.
  induction l as [|u l IH]; cbn [ac_insert]; auto. destruct (ac_compare t u); auto. etransitivity; [apply perm_skip, IH|apply perm_swap].
Qed.
Lemma sort_is_perm l : Permutation (ac_sort l) l.
Proof. unfold ac_sort. induction l as [|t l IH]; cbn [fold_right]; auto. etransitivity; [apply insert_perm|auto]. Qed.
Lemma sort_two a b : ac_sort [a; b] = match ac_compare a b with Gt => [b; a] | _ => [a; b] end.
Proof. reflexivity. Qed.

(** ** Collecting arguments *)
Section Norm.
Variable A : acsig.
Definition collect (f : sym) : term -> list acterm :=
  fix collect (u : term) : list acterm :=
    match u with
    | Var _ => [ac_norm A u]
    | Fun g b => if Nat.eqb g f then flat_map collect b else [ac_norm A u]
    end.
Lemma norm_ac f a : is_ac A f = true -> ac_norm A (Fun f a) = AFun f (ac_sort (flat_map (collect f) a)).
Proof. intros H. cbn [ac_norm]. rewrite H. reflexivity. Qed.
Lemma norm_c f a b : is_ac A f = false -> is_comm A f = true -> ac_norm A (Fun f [a; b]) = AFun f (ac_sort [ac_norm A a; ac_norm A b]).
Proof. intros H1 H2. cbn [ac_norm]. rewrite H1, H2, sort_two. cbv zeta. destruct (ac_compare _ _); auto. Qed.
Lemma norm_free f a : is_comm A f = false -> ac_norm A (Fun f a) = AFun f (map (ac_norm A) a).
Proof. intros H. cbn [ac_norm]. unfold is_ac, is_comm in *. rewrite H. reflexivity. Qed.
Lemma collect_same f b : collect f (Fun f b) = flat_map (collect f) b.
Proof. cbn [collect]. rewrite Nat.eqb_refl. reflexivity. Qed.
Lemma collect_other f g b : g <> f -> collect f (Fun g b) = [ac_norm A (Fun g b)].
Proof. intros H. cbn [collect]. apply Nat.eqb_neq in H. rewrite H. reflexivity. Qed.
Lemma collect_var f x : collect f (Var x) = [AVar x].
Proof. reflexivity. Qed.

(** ** Values of AC terms *)
Fixpoint fold1 {D} (op : D -> D -> D) (d : D) (l : list D) : D := match l with [] => d | x :: l' => op d (fold1 op x l') end.
Section Val.
Variables (S : sorting) (di : sym -> bool) (M : structure).
Hypothesis HM : model_ok S di M.
Hypothesis HA : acsig_ok S A.
Hypothesis HR : respects_ac S A M.

Section Fold.
Variables (f : sym) (s : sort).
Hypothesis HF : fargs S f = [s; s].
Hypothesis HS : fres S f = s.
Hypothesis HC : commutes M s f.
Hypothesis HAs : associates M s f.
Notation op := (fun a b => ifun M f [a; b]).
Lemma op_sort a b : isort M s a -> isort M s b -> isort M s (ifun M f [a; b]).
Proof. intros Ha Hb. rewrite <- HS at 1. apply (mo_fun _ _ _ HM). rewrite HF. auto. Qed.
Lemma fold1_sort l : forall d, isort M s d -> Forall (isort M s) l -> isort M s (fold1 op d l).
Proof. induction l as [|x l IH]; intros d H1 H2; cbn; auto. apply Forall_cons_iff in H2. destruct H2. apply op_sort; auto. Qed.
Lemma fold1_app l : forall d y m, isort M s d -> Forall (isort M s) l -> isort M s y -> Forall (isort M s) m ->
  fold1 op d (l ++ y :: m) = ifun M f [fold1 op d l; fold1 op y m].
Proof.
  induction l as [|x l IH]; intros d y m H1 H2 H3 H4; cbn [List.app fold1]; auto. apply Forall_cons_iff in H2. destruct H2. rewrite IH; auto.
  rewrite HAs; auto; apply fold1_sort; auto.
Qed.
Lemma fold1_swap a b l : isort M s a -> isort M s b -> Forall (isort M s) l -> fold1 op a (b :: l) = fold1 op b (a :: l).
Proof.
  intros H1 H2 H3. cbn [fold1]. destruct l as [|x l]; cbn [fold1]; [apply HC; auto|]. apply Forall_cons_iff in H3. destruct H3.
  rewrite <- HAs, (HC a b), HAs; auto; apply fold1_sort; auto.
Qed.
Definition foldl (l : list (dom M)) : option (dom M) := match l with [] => None | d :: l' => Some (fold1 op d l') end.
Lemma foldl_cons d l : foldl (d :: l) = match foldl l with None => Some d | Some e => Some (ifun M f [d; e]) end.
Proof. destruct l; reflexivity. Qed.
Lemma foldl_perm l l' : Permutation l l' -> Forall (isort M s) l -> foldl l = foldl l'.
Proof.
  induction 1 as [|x l l' P IH|x y l|l l' l'' P1 IH1 P2 IH2]; intros H; auto.
  - apply Forall_cons_iff in H. destruct H. rewrite !foldl_cons, IH; auto.
  - apply Forall_cons_iff in H. destruct H as [HX H']. apply Forall_cons_iff in H'. destruct H'. cbn [foldl]. f_equal. apply fold1_swap; auto.
  - rewrite IH1; auto. apply IH2. eapply Permutation_Forall; eauto.
Qed.
Lemma foldl_app l m a b : Forall (isort M s) l -> Forall (isort M s) m -> foldl l = Some a -> foldl m = Some b -> foldl (l ++ m) = Some (ifun M f [a; b]).
Proof.
  intros H1 H2 Q1 Q2. destruct l as [|d l]; [discriminate|]. destruct m as [|e m]; [discriminate|]. cbn in *. injection Q1 as <-. injection Q2 as <-. apply Forall_cons_iff in H1. apply Forall_cons_iff in H2. destruct H1, H2. rewrite fold1_app; auto.
Qed.
End Fold.

Variable v : var -> dom M.
Hypothesis Hv : respects S M v.
Fixpoint acval (t : acterm) : dom M :=
  match t with
  | AVar x => v x
  | AFun f a => if is_ac A f then match foldl f (map acval a) with Some d => d | None => v 0 end else ifun M f (map acval a)
  end.
Lemma memb_in f l : memb f l = true <-> In f l.
Proof. unfold memb. rewrite existsb_exists. split; [intros [x [I Q]]; apply Nat.eqb_eq in Q; subst; auto|intros I; exists f; split; auto; apply Nat.eqb_refl]. Qed.
Lemma ac_facts f : is_ac A f = true -> fargs S f = [fres S f; fres S f] /\ commutes M (fres S f) f /\ associates M (fres S f) f.
Proof.
  intros H. unfold is_ac in H. apply andb_true_iff in H. destruct H as [H1 H2]. apply memb_in in H1. apply memb_in in H2.
  pose proof (proj2 HA _ H2) as O. unfold operation in O. split; auto. pose proof (proj1 HR _ H1) as X. pose proof (proj2 HR _ H2) as Y.
  unfold arg_sort in *. rewrite O in *. cbn in X, Y. auto.
Qed.
Lemma wf_two f a s : wf S (Fun f a) -> fargs S f = [s; s] -> exists t u, a = [t; u] /\ wf S t /\ wf S u /\ tsort S t = s /\ tsort S u = s.
Proof.
  intros W Q. apply wf_fun in W. destruct W as [W1 W2]. rewrite Q in W2. destruct a as [|t [|u [|? ?]]]; try discriminate. injection W2 as W2 W3.
  inversion W1 as [|? ? X1 X2]; inversion X2; subst. exists t, u. auto.
Qed.
(** the normal form has the value of the term; so have the collected arguments *)
Lemma norm_val t : wf S t -> acval (ac_norm A t) = eval M v t /\
  forall f, is_ac A f = true -> tsort S t = fres S f ->
    Forall (fun x => isort M (fres S f) (acval x)) (collect f t) /\ foldl f (map acval (collect f t)) = Some (eval M v t).
Proof.
  induction t as [x|f a IH] using term_ind'; intros W.
  - split; [reflexivity|]. intros f HF TS. rewrite collect_var. cbn. split; auto. constructor; auto. rewrite <- TS. apply Hv.
  - assert (COL : is_ac A f = true -> Forall (fun x => isort M (fres S f) (acval x)) (collect f (Fun f a)) /\ foldl f (map acval (collect f (Fun f a))) = Some (eval M v (Fun f a))).
    { intros HF. destruct (ac_facts f HF) as [Q [C As]]. destruct (wf_two f a _ W Q) as [t [u [-> [Wt [Wu [St Su]]]]]]. inversion IH as [|? ? I1 I2]; inversion I2 as [|? ? I3 _]; subst.
      destruct (proj2 (I1 Wt) f HF St) as [F1 E1]. destruct (proj2 (I3 Wu) f HF Su) as [F2 E2]. rewrite collect_same. cbn [flat_map]. rewrite app_nil_r. split; [apply Forall_app; auto|].
      rewrite map_app. cbn [eval map]. eapply foldl_app; eauto; apply Forall_map; auto. }
    assert (VAL : acval (ac_norm A (Fun f a)) = eval M v (Fun f a)).
    { destruct (is_ac A f) eqn:HF.
      - rewrite norm_ac by auto. destruct (COL eq_refl) as [F E]. rewrite collect_same in *. destruct (ac_facts f HF) as [Q [C As]].
        cbn [acval]. rewrite HF. rewrite (foldl_perm f (fres S f) Q eq_refl C As _ (map acval (flat_map (collect f) a))); [rewrite E; auto| |].
        + apply Permutation_map, sort_is_perm.
        + apply Forall_map. eapply Permutation_Forall; [symmetry; apply sort_is_perm|auto].
      - destruct (is_comm A f) eqn:HC.
        + pose proof HC as HC'. unfold is_comm in HC'. apply memb_in in HC'. destruct (proj1 HA _ HC') as [s Q]. pose proof (proj1 HR _ HC') as C. unfold arg_sort in C. rewrite Q in C. cbn in C.
          destruct (wf_two f a s W Q) as [t [u [-> [Wt [Wu [St Su]]]]]]. inversion IH as [|? ? I1 I2]; inversion I2 as [|? ? I3 _]; subst.
          destruct (I1 Wt) as [E1 _]. destruct (I3 Wu) as [E2 _]. rewrite norm_c by auto. cbn [acval]. rewrite HF, sort_two.
          destruct (ac_compare _ _); cbn [map eval]; rewrite E1, E2; auto. apply C; [rewrite <- Su|]; apply (eval_sort S di M v); auto.
        + rewrite norm_free by auto. cbn [acval eval]. rewrite HF, map_map. f_equal. apply map_ext_in. intros x Hx. apply wf_fun in W. destruct W as [W1 _]. rewrite Forall_forall in *. apply IH; auto. }
    split; auto. intros g HG TS. destruct (Nat.eq_dec f g) as [->|NE]; [apply COL; auto|]. rewrite collect_other by auto. cbn [map foldl fold1]. rewrite VAL. split; auto.
    constructor; auto. rewrite VAL, <- TS. apply (eval_sort S di M v); auto.
Qed.
Theorem norm_sound s t : wf S s -> wf S t -> ac_norm A s = ac_norm A t -> eval M v s = eval M v t.
Proof. intros Ws Wt Q. rewrite <- (proj1 (norm_val s Ws)), <- (proj1 (norm_val t Wt)), Q. reflexivity. Qed.
End Val.
End Norm.

Lemma ac_equal_norm A s t : ac_equal A s t = true -> ac_norm A s = ac_norm A t.
Proof. unfold ac_equal. destruct (Z.eqb _ _); [|discriminate]. destruct (ac_compare _ _) eqn:Q; try discriminate. intros _. apply compare_eq. auto. Qed.
