(** * Proofs about unification (model in Unify.v). *)
From Verif Require Import Terms Unify.

(** ** Bindings and the substitution they denote *)

Lemma upd_same b x o : upd b x o x = o.
Proof. unfold upd. rewrite Nat.eqb_refl. reflexivity. Qed.
Lemma upd_other b x o y : x <> y -> upd b x o y = b y.
Proof. unfold upd. intros H. apply Nat.eqb_neq in H. rewrite H. reflexivity. Qed.

Fixpoint resolve (n : nat) (b : binding) (x : var) : term :=
  match b x with
  | None => Var x
  | Some t => match n with O => Var x | S n' => app (resolve n' b) t end
  end.

Lemma resolve_stable b rank (HR : forall x t y, b x = Some t -> In y (vars t) -> rank y < rank x) :
  forall n m x, rank x < n -> rank x < m -> resolve n b x = resolve m b x.
Proof.
  induction n as [|n IH]; intros m x Hn Hm; [lia|].
  destruct m as [|m]; [lia|]. simpl. destruct (b x) as [t|] eqn:E; auto.
  apply app_ext. intros y Hy. apply IH; specialize (HR x t y E Hy); lia.
Qed.

Lemma acyclic_denotes b : acyclic b -> exists s, denotes b s.
Proof.
  intros [rank HR]. exists (fun x => resolve (S (rank x)) b x).
  intros x. simpl. destruct (b x) as [t|] eqn:E; auto.
  apply app_ext. intros y Hy.
  pose proof (HR x t y E Hy).
  change (resolve (rank x) b y = resolve (S (rank y)) b y).
  apply (resolve_stable b rank HR); lia.
Qed.

Lemma denotes_solves b s : denotes b s -> solves b s.
Proof. intros H x t E. specialize (H x). rewrite E in H. exact H. Qed.

Lemma solves_denotes_var b s tau : acyclic b -> denotes b s -> solves b tau ->
  forall x, app tau (s x) = tau x.
Proof.
  intros [rank HR] HD HS x.
  remember (rank x) as r eqn:Er. revert x Er.
  induction r as [r IH] using lt_wf_ind. intros x Er.
  specialize (HD x) as Hx. destruct (b x) as [t|] eqn:E.
  - rewrite Hx. rewrite (HS x t E). rewrite <- app_comp. apply app_ext.
    intros y Hy. unfold comp. specialize (HR x t y E Hy). apply (IH (rank y)); lia.
  - rewrite Hx. reflexivity.
Qed.

Lemma solves_denotes b s tau t : acyclic b -> denotes b s -> solves b tau ->
  app tau (app s t) = app tau t.
Proof.
  intros HA HD HS. rewrite <- app_comp. apply app_ext. intros x _.
  apply (solves_denotes_var b); auto.
Qed.

Lemma denotes_unique b s1 s2 : acyclic b -> denotes b s1 -> denotes b s2 -> forall x, s1 x = s2 x.
Proof.
  intros [rank HR] H1 H2 x.
  remember (rank x) as r eqn:Er. revert x Er.
  induction r as [r IH] using lt_wf_ind. intros x Er.
  specialize (H1 x) as A1. specialize (H2 x) as A2. destruct (b x) as [t|] eqn:E.
  - rewrite A1, A2. apply app_ext. intros y Hy. specialize (HR x t y E Hy). apply (IH (rank y)); lia.
  - congruence.
Qed.

(** the denoted substitution is idempotent: its range contains unbound variables only *)
Lemma denotes_range b s : acyclic b -> denotes b s -> forall x y, In y (vars (s x)) -> b y = None.
Proof.
  intros [rank HR] HD x.
  remember (rank x) as r eqn:Er. revert x Er.
  induction r as [r IH] using lt_wf_ind. intros x Er y Hy.
  specialize (HD x) as Hx. destruct (b x) as [t|] eqn:E.
  - rewrite Hx in Hy. apply vars_app in Hy. destruct Hy as [z [Hz Hy]].
    specialize (HR x t z E Hz). apply (IH (rank z)) with (x := z); auto; lia.
  - rewrite Hx in Hy. destruct Hy as [<-|[]]. exact E.
Qed.

Lemma denotes_wf S b s : acyclic b -> wfbinding S b -> denotes b s -> wfsubst S s.
Proof.
  intros [rank HR] HW HD x.
  remember (rank x) as r eqn:Er. revert x Er.
  induction r as [r IH] using lt_wf_ind. intros x Er.
  specialize (HD x) as Hx. destruct (b x) as [t|] eqn:E.
  - destruct (HW x t E) as [W1 W2]. rewrite Hx.
    set (s' := fun y => if in_dec Nat.eq_dec y (vars t) then s y else Var y).
    assert (HE : app s t = app s' t).
    { apply app_ext. intros y Hy. unfold s'. destruct (in_dec _ _ _); tauto. }
    assert (WS : wfsubst S s').
    { intros y. unfold s'. destruct (in_dec _ _ _) as [Hy|Hy].
      - apply (IH (rank y)); auto. rewrite Er. eapply HR; eauto.
      - split; reflexivity. }
    rewrite HE. split.
    + rewrite app_sort; auto.
    + apply app_wf; auto.
  - rewrite Hx. split; reflexivity.
Qed.

(** ** Backtracking *)

Definition ext (st st' : bstate) : Prop :=
  exists new, trail st' = new ++ trail st
    /\ (forall x, In x new -> bnd st x = None)
    /\ (forall x, ~ In x new -> bnd st' x = bnd st x).

Lemma ext_refl st : ext st st.
Proof. exists []. simpl. tauto. Qed.

Lemma ext_add st x t : bnd st x = None -> ext st (add_binding st x t).
Proof.
  intros H. exists [x]. simpl. repeat split; auto.
  - intros y [<-|[]]; auto.
  - intros y Hy. apply upd_other. intros ->. tauto.
Qed.

Lemma ext_trans s1 s2 s3 : ext s1 s2 -> ext s2 s3 -> ext s1 s3.
Proof.
  intros [n1 [A1 [B1 C1]]] [n2 [A2 [B2 C2]]]. exists (n2 ++ n1). repeat split.
  - rewrite A2, A1, app_assoc. reflexivity.
  - intros x Hx. apply in_app_iff in Hx. destruct (in_dec Nat.eq_dec x n1) as [H|H]; auto.
    destruct Hx as [Hx|Hx]; [|tauto]. rewrite <- C1; auto.
  - intros x Hx. rewrite in_app_iff in Hx. rewrite C2, C1; tauto.
Qed.

Lemma backtrack_n_spec : forall new st old,
  trail st = new ++ old ->
  trail (backtrack_n (length new) st) = old /\
  (forall x, bnd (backtrack_n (length new) st) x = if in_dec Nat.eq_dec x new then None else bnd st x).
Proof.
  induction new as [|y new IH]; intros st old H; simpl.
  - split; auto.
  - unfold backtrack_single. rewrite H. simpl.
    destruct (IH {| bnd := upd (bnd st) y None; trail := new ++ old |} old eq_refl) as [I1 I2].
    split; auto. intros x. rewrite I2. simpl.
    destruct (in_dec Nat.eq_dec x new) as [Hx|Hx].
    + destruct (Nat.eq_dec y x); auto.
    + destruct (Nat.eq_dec y x) as [->|N]; [apply upd_same | apply upd_other; auto].
Qed.

Lemma backtrack_ext st st' : ext st st' ->
  trail (backtrack_to_pos st' (length (trail st))) = trail st /\
  forall x, bnd (backtrack_to_pos st' (length (trail st))) x = bnd st x.
Proof.
  intros [new [A [B C]]]. unfold backtrack_to_pos.
  replace (length (trail st') - length (trail st)) with (length new)
    by (rewrite A, app_length; lia).
  destruct (backtrack_n_spec new st' (trail st) A) as [I1 I2].
  split; auto. intros x. rewrite I2. destruct (in_dec Nat.eq_dec x new) as [H|H]; auto.
  symmetry; auto.
Qed.

(** ** Dereferencing *)

Lemma deref_app b tau : solves b tau -> forall n t u, deref n b t = Some u -> app tau t = app tau u.
Proof.
  intros HS. induction n as [|n IH]; intros [x|f a] u H; simpl in H; try congruence;
    destruct (b x) as [v|] eqn:E; try congruence.
  simpl. rewrite (HS x v E). apply IH; auto.
Qed.

Lemma deref_unbound b : forall n t u, deref n b t = Some u ->
  match u with Var x => b x = None | Fun _ _ => True end.
Proof.
  induction n as [|n IH]; intros [x|f a] u H; simpl in H.
  - destruct (b x) eqn:E; inversion H; subst; auto.
  - inversion H; subst; auto.
  - destruct (b x) as [v|] eqn:E; [exact (IH _ _ H) | inversion H; subst; auto].
  - inversion H; subst; auto.
Qed.

Lemma deref_wf S b : wfbinding S b -> forall n t u, deref n b t = Some u -> wf S t ->
  wf S u /\ tsort S u = tsort S t.
Proof.
  intros HW. induction n as [|n IH]; intros [x|f a] u H Wt; simpl in H.
  - destruct (b x) eqn:E; inversion H; subst; auto.
  - inversion H; subst; auto.
  - destruct (b x) as [v|] eqn:E; [|inversion H; subst; auto].
    destruct (HW x v E) as [W1 W2]. destruct (IH v u H W1) as [I1 I2]. split; auto. simpl. congruence.
  - inversion H; subst; auto.
Qed.

Lemma deref_mono b : forall n m t u, n <= m -> deref n b t = Some u -> deref m b t = Some u.
Proof.
  induction n as [|n IH]; intros m [x|f a] u Hm H; simpl in H.
  - destruct (b x) eqn:E; [discriminate|]. destruct m; simpl; rewrite E; auto.
  - destruct m; auto.
  - destruct (b x) as [v|] eqn:E.
    + destruct m as [|m]; [lia|]. simpl. rewrite E. apply IH; auto; lia.
    + destruct m; simpl; rewrite E; auto.
  - destruct m; auto.
Qed.

(** rank of a term: bounds dereferencing chains *)
Definition trank (rank : var -> nat) (t : term) : nat := list_max (map rank (vars t)).

Lemma trank_var rank t x : In x (vars t) -> rank x <= trank rank t.
Proof.
  intros H. unfold trank. apply (in_map rank) in H.
  revert H. generalize (map rank (vars t)) as l. induction l as [|a l IH]; simpl; [tauto|].
  intros [->|H]; [lia | apply IH in H; lia].
Qed.

Lemma trank_le rank t n : (forall x, In x (vars t) -> rank x <= n) -> trank rank t <= n.
Proof.
  unfold trank. intros H. apply list_max_le. rewrite Forall_map, Forall_forall. exact H.
Qed.

Lemma deref_total b rank (HR : forall x t y, b x = Some t -> In y (vars t) -> rank y < rank x) :
  forall n t, trank rank t < n -> exists u, deref n b t = Some u /\ trank rank u <= trank rank t.
Proof.
  induction n as [|n IH]; intros [x|f a] H; simpl; try lia.
  - destruct (b x) as [v|] eqn:E; [|eexists; split; eauto].
    assert (Hv : trank rank v <= rank x) by (apply trank_le; intros y Hy; specialize (HR x v y E Hy); lia).
    assert (Hx : trank rank (Var x) = rank x) by (unfold trank; simpl; lia).
    destruct (b x) as [v'|] eqn:E'; inversion E; subst.
    destruct (vars v) as [|y l] eqn:Ev.
    + assert (trank rank v = 0) by (unfold trank; rewrite Ev; reflexivity).
      destruct v as [z|g c]; [simpl in Ev; discriminate|].
      destruct n; simpl; eexists; split; eauto; lia.
    + assert (trank rank v < rank x).
      { apply Nat.lt_le_trans with (S (trank rank v)); auto.
        assert (trank rank v <= pred (rank x)); [|specialize (HR x v y E' ltac:(rewrite Ev; left; auto)); lia].
        apply trank_le. intros z Hz. specialize (HR x v z E' Hz). lia. }
      destruct (IH v) as [u [Hu1 Hu2]]; [lia|]. exists u. split; auto. lia.
  - eexists; split; eauto.
Qed.

(** ** Occurs check *)

Definition oc_list (n : nat) (b : binding) (x : var) := fix go (l : list term) : option bool :=
           match l with
           | [] => Some false
           | a :: l' => match occur_check n b a x with
                        | None => None
                        | Some true => Some true
                        | Some false => go l'
                        end
           end.

Lemma occur_check_S n b t x : occur_check (S n) b t x =
  match deref n b t with
  | None => None
  | Some (Var y) => Some (Nat.eqb y x)
  | Some (Fun f args) => oc_list n b x args
  end.
Proof. reflexivity. Qed.

Lemma occur_check_correct b s x : acyclic b -> denotes b s -> b x = None ->
  forall n t r, occur_check n b t x = Some r -> (r = true <-> In x (vars (app s t))).
Proof.
  intros HA HD Hx. induction n as [|n IH]; intros t r H; [discriminate|].
  rewrite occur_check_S in H.
  destruct (deref n b t) as [u|] eqn:Du; [|discriminate].
  rewrite (deref_app b s (denotes_solves _ _ HD) _ _ _ Du).
  destruct u as [y|f args].
  - apply deref_unbound in Du. specialize (HD y) as Hy. rewrite Du in Hy. simpl. rewrite Hy. simpl.
    inversion H; subst. rewrite Nat.eqb_eq. split; [auto | intros [E|[]]; auto].
  - clear Du. simpl app. revert r H. induction args as [|a l IHl]; intros r H.
    + simpl in H. inversion H; subst. simpl. split; [discriminate | tauto].
    + simpl in H. destruct (occur_check n b a x) as [[|]|] eqn:Ea; [| |discriminate].
      * inversion H; subst. simpl. rewrite in_app_iff. apply IH in Ea. split; [intros _; left; apply Ea; auto | auto].
      * apply IH in Ea. apply IHl in H. rewrite H. simpl. rewrite in_app_iff.
        split; [auto | intros [C|C]; auto]. apply Ea in C. discriminate.
Qed.

Lemma occur_check_mono b x : forall n m t r, n <= m -> occur_check n b t x = Some r -> occur_check m b t x = Some r.
Proof.
  induction n as [|n IH]; intros m t r Hm H; [discriminate|].
  destruct m as [|m]; [lia|]. rewrite occur_check_S in *.
  destruct (deref n b t) as [u|] eqn:Du; [|discriminate].
  rewrite (deref_mono b n m t u); auto; [|lia].
  destruct u as [y|f args]; auto.
  clear Du. revert r H. induction args as [|a l IHl]; intros r H; simpl in *; auto.
  destruct (occur_check n b a x) as [q|] eqn:Ea; [|discriminate].
  rewrite (IH m a q); auto; [|lia]. destruct q; auto.
Qed.

Lemma occur_check_total b rank s x (HR : forall x t y, b x = Some t -> In y (vars t) -> rank y < rank x) :
  denotes b s ->
  forall n t, trank rank t + size (app s t) < n -> exists r, occur_check n b t x = Some r.
Proof.
  intros HD. induction n as [|n IH]; intros t H; [lia|].
  rewrite occur_check_S.
  pose proof (size_pos (app s t)).
  destruct (deref_total b rank HR n t) as [u [Du Hu]]; [lia|]. rewrite Du.
  pose proof (deref_app b s (denotes_solves _ _ HD) _ _ _ Du) as Ea.
  destruct u as [y|f args]; [eauto|].
  assert (Hall : forall a, In a args -> exists r, occur_check n b a x = Some r).
  { intros a Ha. apply IH.
    assert (size (app s a) < size (app s t)) by (rewrite Ea; apply size_arg, in_map; auto).
    assert (trank rank a <= trank rank (Fun f args)); [|lia].
    apply trank_le. intros z Hz. apply trank_var. simpl. apply in_flat_map; eauto. }
  clear - Hall. induction args as [|a l IHl]; simpl; [eauto|].
  destruct (Hall a (or_introl eq_refl)) as [[|] ->]; [eauto|].
  apply IHl. intros c Hc. apply Hall. right; auto.
Qed.

(** ** Jobs *)

Fixpoint junif (tau : subst) (jobs : list term) : Prop :=
  match jobs with
  | a :: b :: r => app tau a = app tau b /\ junif tau r
  | _ => True
  end.

Inductive evenl : list term -> Prop :=
| evenl_nil : evenl []
| evenl_cons a b l : evenl l -> evenl (a :: b :: l).

Lemma junif_snoc tau l x y : evenl l -> (junif tau (l ++ [x; y]) <-> junif tau l /\ app tau x = app tau y).
Proof. induction 1; simpl; [tauto | rewrite IHevenl; tauto]. Qed.

Lemma evenl_snoc l x y : evenl l -> evenl (l ++ [x; y]).
Proof. induction 1; simpl; repeat constructor; auto. Qed.

Lemma push_args_rev_spec tau : forall a1 a2 jobs j', push_args_rev a1 a2 jobs = Some j' -> evenl jobs ->
  evenl j' /\ (junif tau j' <-> map (app tau) a1 = map (app tau) a2 /\ junif tau jobs).
Proof.
  induction a1 as [|x r1 IH]; intros [|y r2] jobs j' H He; simpl in H; try discriminate.
  - inversion H; subst. simpl. tauto.
  - assert (HX : forall j, evenl j -> push_args_rev r1 r2 j = Some j' ->
        (junif tau j <-> app tau x = app tau y /\ junif tau jobs) ->
        evenl j' /\ (junif tau j' <-> map (app tau) (x :: r1) = map (app tau) (y :: r2) /\ junif tau jobs)).
    { intros j Hj Hp E. destruct (IH r2 j j' Hp Hj) as [I1 I2]. split; auto. rewrite I2, E. simpl.
      split; [intros [A [B C]]; split; [congruence|auto] | intros [A B]; injection A; auto]. }
    destruct (isVar x || isVar y); (eapply HX; [ | exact H | ]).
    + apply evenl_snoc; auto.
    + rewrite junif_snoc; auto. split; intros [? ?]; auto.
    + constructor; auto.
    + simpl. split; intros [? ?]; auto.
Qed.

Lemma push_args_rev_defined : forall a1 a2 jobs, length a1 = length a2 -> exists j', push_args_rev a1 a2 jobs = Some j'.
Proof.
  induction a1 as [|x r1 IH]; intros [|y r2] jobs H; simpl in *; try discriminate; [eauto|].
  destruct (isVar x || isVar y); apply IH; lia.
Qed.

Lemma push_args_rev_in : forall a1 a2 jobs j', push_args_rev a1 a2 jobs = Some j' ->
  forall t, In t j' -> In t a1 \/ In t a2 \/ In t jobs.
Proof.
  induction a1 as [|x r1 IH]; intros [|y r2] jobs j' H t Ht; simpl in H; try discriminate.
  - inversion H; subst; auto.
  - destruct (isVar x || isVar y); specialize (IH _ _ _ H t Ht); simpl.
    + rewrite in_app_iff in IH. simpl in IH. tauto.
    + simpl in IH. tauto.
Qed.

Lemma push_args_rev_sum (g : term -> nat) : forall a1 a2 jobs j', push_args_rev a1 a2 jobs = Some j' ->
  list_sum (map g j') = list_sum (map g a1) + list_sum (map g a2) + list_sum (map g jobs).
Proof.
  induction a1 as [|x r1 IH]; intros [|y r2] jobs j' H; simpl in H; try discriminate.
  - inversion H; subst; auto.
  - destruct (isVar x || isVar y); rewrite (IH _ _ _ H); simpl.
    + rewrite map_app, list_sum_app. simpl. lia.
    + lia.
Qed.

(** ** The invariant of the main loop *)

Record inv (S : sorting) (st : bstate) : Prop := {
  inv_acyclic : acyclic (bnd st);
  inv_wf : wfbinding S (bnd st) }.

Lemma solves_upd b x t tau : b x = None -> (solves (upd b x (Some t)) tau <-> solves b tau /\ tau x = app tau t).
Proof.
  intros Hx. split.
  - intros H. split.
    + intros y u Hy. apply H. rewrite upd_other; auto. intros ->; congruence.
    + apply H. apply upd_same.
  - intros [H1 H2] y u Hy. unfold upd in Hy. destruct (Nat.eqb_spec x y) as [->|N]; [congruence|auto].
Qed.

Lemma acyclic_add b s x t : acyclic b -> denotes b s -> b x = None -> ~ In x (vars (app s t)) ->
  acyclic (upd b x (Some t)).
Proof.
  intros HA HD Hx Hno. pose proof HA as [rank HR].
  set (dep := fun y => in_dec Nat.eq_dec x (vars (s y))).
  exists (fun y => if dep y then rank y + 1 + trank rank t else rank y).
  intros y u z Hy Hz. unfold upd in Hy. destruct (Nat.eqb_spec x y) as [<-|N].
  - inversion Hy; subst u.
    assert (Hsx : s x = Var x) by (specialize (HD x); rewrite Hx in HD; auto).
    destruct (dep x) as [_|C]; [|exfalso; apply C; rewrite Hsx; left; auto].
    destruct (dep z) as [C|_].
    + exfalso. apply Hno. apply vars_app. eauto.
    + pose proof (trank_var rank t z Hz). lia.
  - pose proof (HR y u z Hy Hz).
    destruct (dep z) as [Cz|Cz]; destruct (dep y) as [Cy|Cy]; try lia.
    exfalso. apply Cy. specialize (HD y). rewrite Hy in HD. rewrite HD. apply vars_app. eauto.
Qed.

Lemma inv_add S st s x t : inv S st -> denotes (bnd st) s -> bnd st x = None -> ~ In x (vars (app s t)) ->
  wf S t -> tsort S t = vsort S x -> inv S (add_binding st x t).
Proof.
  intros [HA HW] HD Hx Hno Wt Ws. split; simpl.
  - eapply acyclic_add; eauto.
  - intros y u Hy. unfold upd in Hy. destruct (Nat.eqb_spec x y) as [<-|N]; [|auto].
    inversion Hy; subst; auto.
Qed.

Lemma size_var_app_strict s f a x : In x (vars (Fun f a)) -> size (s x) < size (app s (Fun f a)).
Proof.
  simpl. intros H. apply in_flat_map in H. destruct H as [u [Hu Hx]].
  pose proof (size_var_app s u x Hx).
  assert (size (app s u) < size (Fun f (map (app s) a))) by (apply size_arg, in_map; auto).
  simpl in *. lia.
Qed.

(** Characterisation of one job against the current bindings *)
Lemma occurs_no_solution b s x t tau : acyclic b -> denotes b s -> b x = None ->
  match t with Var y => b y = None | Fun _ _ => True end -> t <> Var x ->
  In x (vars (app s t)) -> solves b tau -> tau x <> app tau t.
Proof.
  intros HA HD Hx Ht Hne Hin HS E.
  destruct t as [y|f a].
  - specialize (HD y) as Hy. rewrite Ht in Hy. simpl in Hin. rewrite Hy in Hin.
    destruct Hin as [->|[]]. congruence.
  - rewrite <- (solves_denotes b s tau (Fun f a) HA HD HS) in E.
    simpl app in Hin at 1.
    pose proof (size_var_app_strict tau f (map (app s) a) x Hin) as HL.
    change (app s (Fun f a)) with (Fun f (map (app s) a)) in E. rewrite <- E in HL. lia.
Qed.

Definition sane_unify_result S st jobs (o : outcome) : Prop :=
  match o with
  | Success st' => inv S st' /\ ext st st' /\
      (forall tau, solves (bnd st') tau <-> solves (bnd st) tau /\ junif tau jobs)
  | Failure st' => ext st st' /\
      (forall tau, wfsubst S tau -> solves (bnd st) tau -> ~ junif tau jobs)
  | OutOfFuel => True
  | UndefBehaviour => False
  end.

Lemma mgu_loop_correct S : forall n st jobs, inv S st -> evenl jobs -> Forall (wf S) jobs ->
  sane_unify_result S st jobs (mgu_loop n S st jobs).
Proof.
  induction n as [|n IH]; intros st jobs HI HE HW; [exact I|].
  cbn [mgu_loop]. destruct HE as [|j2 j1 rest HE].
  { simpl. split; [auto|]. split; [apply ext_refl|]. intros; tauto. }
  destruct (deref n (bnd st) j2) as [d2|] eqn:D2; [|exact I].
  destruct (deref n (bnd st) j1) as [d1|] eqn:D1; [|exact I].
  inversion HW as [|? ? W2 HW']; subst. inversion HW' as [|? ? W1 HWr]; subst. clear HW HW'.
  destruct (inv_acyclic _ _ HI) as [rank HR] eqn:Eqr; clear Eqr.
  destruct (acyclic_denotes _ (inv_acyclic _ _ HI)) as [s HD].
  destruct (deref_wf S _ (inv_wf _ _ HI) _ _ _ D1 W1) as [W1' _].
  destruct (deref_wf S _ (inv_wf _ _ HI) _ _ _ D2 W2) as [W2' _].
  pose proof (deref_unbound _ _ _ _ D1) as U1. pose proof (deref_unbound _ _ _ _ D2) as U2.
  assert (Hjob : forall tau, solves (bnd st) tau -> (app tau j2 = app tau j1 <-> app tau d1 = app tau d2)).
  { intros tau Hs. rewrite (deref_app _ _ Hs _ _ _ D1), (deref_app _ _ Hs _ _ _ D2).
    split; congruence. }
  clear D1 D2 W1 W2.
  (* both orientations *)
  assert (HK : forall t1 t2, (isVar t1 = true \/ isVar t2 = false) -> wf S t1 -> wf S t2 ->
     match t1 with Var x => bnd st x = None | Fun _ _ => True end ->
     match t2 with Var x => bnd st x = None | Fun _ _ => True end ->
     (forall tau, solves (bnd st) tau -> (app tau j2 = app tau j1 <-> app tau t1 = app tau t2)) ->
     sane_unify_result S st (j2 :: j1 :: rest)
       (match t1 with
          | Var x =>
              if term_eqb t1 t2 then mgu_loop n S st rest
              else if negb (Nat.eqb (vsort S x) (tsort S t2)) then Failure st
              else match occur_check n (bnd st) t2 x with
                   | None => OutOfFuel
                   | Some true => Failure st
                   | Some false => mgu_loop n S (add_binding st x t2) rest
                   end
          | Fun f a1 =>
              match t2 with
              | Var _ => UndefBehaviour
              | Fun g a2 =>
                  if Nat.eqb f g
                  then match push_args_rev (rev a1) (rev a2) rest with
                       | Some jobs' => mgu_loop n S st jobs'
                       | None => UndefBehaviour
                       end
                  else Failure st
              end
          end)).
  { clear d1 d2 W1' W2' U1 U2 Hjob. intros t1 t2 Hor W1 W2 U1 U2 Hjob.
    destruct t1 as [x|f a1].
    - destruct (term_eqb_spec (Var x) t2) as [<-|Hne].
      + specialize (IH st rest HI HE HWr).
        destruct (mgu_loop n S st rest) as [st'|st'| |]; simpl in *; auto.
        * destruct IH as [I1 [I2 I3]]. split; [auto|]. split; [auto|]. intros tau. rewrite I3.
          split; [intros [A B]; repeat split; auto; apply Hjob; auto | intros [A [_ B]]; auto].
        * destruct IH as [I1 I2]. split; auto. intros tau Wt Hs [_ Hj]. eapply I2; eauto.
      + destruct (negb (Nat.eqb (vsort S x) (tsort S t2))) eqn:Es.
        { simpl. split; [apply ext_refl|]. intros tau Wt Hs [Hj _]. apply Hjob in Hj; auto.
          apply negb_true_iff, Nat.eqb_neq in Es. apply Es.
          simpl in Hj. destruct (Wt x) as [Wx _]. rewrite <- Wx, Hj. apply app_sort; auto. }
        apply negb_false_iff, Nat.eqb_eq in Es.
        destruct (occur_check n (bnd st) t2 x) as [[|]|] eqn:Eo; [| |exact I].
        * simpl. split; [apply ext_refl|]. intros tau Wt Hs [Hj _]. apply Hjob in Hj; auto.
          revert Hj. simpl. apply (occurs_no_solution (bnd st) s); auto.
          -- apply inv_acyclic in HI; auto.
          -- apply (occur_check_correct _ s x (inv_acyclic _ _ HI) HD U1 _ _ _ Eo); auto.
        * assert (Hno : ~ In x (vars (app s t2))).
          { intros C. apply (occur_check_correct _ s x (inv_acyclic _ _ HI) HD U1 _ _ _ Eo) in C. discriminate. }
          specialize (IH (add_binding st x t2) rest (inv_add S st s x t2 HI HD U1 Hno W2 (eq_sym Es)) HE HWr).
          destruct (mgu_loop n S (add_binding st x t2) rest) as [st'|st'| |]; simpl in *; auto.
          -- destruct IH as [I1 [I2 I3]]. split; auto. split.
             ++ eapply ext_trans; [apply ext_add; eauto | exact I2].
             ++ intros tau. rewrite I3. rewrite solves_upd; auto. split.
                ** intros [[A B] C]. repeat split; auto. apply Hjob; auto.
                ** intros [A [B C]]. repeat split; auto. apply Hjob; auto.
          -- destruct IH as [I1 I2]. split.
             ++ eapply ext_trans; [apply ext_add; eauto | exact I1].
             ++ intros tau Wt Hs [Hj Hr]. eapply (I2 tau); auto. apply solves_upd; auto. split; auto. apply Hjob; auto.
    - destruct t2 as [y|g a2]; [destruct Hor; discriminate|].
      destruct (Nat.eqb_spec f g) as [<-|Hfg].
      + assert (HL : length (rev a1) = length (rev a2)) by (rewrite !rev_length; eapply wf_fun_length; eauto).
        destruct (push_args_rev_defined _ _ rest HL) as [j' Hj']. rewrite Hj'.
        assert (HS' : forall tau, evenl j' /\ (junif tau j' <-> map (app tau) (rev a1) = map (app tau) (rev a2) /\ junif tau rest))
          by (intros tau; eapply push_args_rev_spec; eauto).
        assert (HF : forall tau, map (app tau) (rev a1) = map (app tau) (rev a2) <-> app tau (Fun f a1) = app tau (Fun f a2)).
        { intros tau. rewrite !map_rev. simpl. split; intros H.
          - f_equal. rewrite <- (rev_involutive (map (app tau) a1)), H, rev_involutive. reflexivity.
          - injection H as H. congruence. }
        assert (HWj : Forall (wf S) j').
        { rewrite Forall_forall. intros t Ht. apply (push_args_rev_in _ _ _ _ Hj') in Ht.
          rewrite <- !in_rev in Ht. apply wf_fun in W1, W2. destruct W1 as [W1 _], W2 as [W2 _].
          rewrite Forall_forall in *. destruct Ht as [Ht|[Ht|Ht]]; auto. }
        specialize (IH st j' HI (proj1 (HS' Var)) HWj).
        destruct (mgu_loop n S st j') as [st'|st'| |]; simpl in *; auto.
        * destruct IH as [I1 [I2 I3]]. split; [auto|]. split; [auto|]. intros tau. rewrite I3.
          destruct (HS' tau) as [_ HSt]. rewrite HSt. rewrite HF. split.
          -- intros [A [B C]]. repeat split; auto. apply Hjob; auto.
          -- intros [A [B C]]. repeat split; auto. apply Hjob; auto.
        * destruct IH as [I1 I2]. split; auto. intros tau Wt Hs [Hj Hr]. apply (I2 tau); auto.
          destruct (HS' tau) as [_ HSt]. apply HSt. split; auto. apply HF. apply Hjob; auto.
      + simpl. split; [apply ext_refl|]. intros tau Wt Hs [Hj _]. apply Hjob in Hj; auto. simpl in Hj. congruence. }
  destruct (isVar d2) eqn:V2.
  - apply HK; auto. intros tau Hs. rewrite Hjob; auto. split; congruence.
  - apply HK; auto.
Qed.

(** ** Termination *)

Definition jvars (s : subst) (jobs : list term) : list var := flat_map (fun t => vars (app s t)) jobs.
Definition nvars (s : subst) (jobs : list term) : nat := length (nodup Nat.eq_dec (jvars s jobs)).
Definition jsize (s : subst) (jobs : list term) : nat := list_sum (map (fun t => size (app s t)) jobs).

Lemma nvars_incl s1 s2 j1 j2 : (forall x, In x (jvars s1 j1) -> In x (jvars s2 j2)) -> nvars s1 j1 <= nvars s2 j2.
Proof.
  intros H. unfold nvars. apply NoDup_incl_length; [apply NoDup_nodup|].
  intros x Hx. apply nodup_In in Hx. apply nodup_In. auto.
Qed.

Lemma nvars_lt s1 s2 j1 j2 y : (forall x, In x (jvars s1 j1) -> In x (jvars s2 j2)) ->
  In y (jvars s2 j2) -> ~ In y (jvars s1 j1) -> nvars s1 j1 < nvars s2 j2.
Proof.
  intros H Hy Hn. unfold nvars.
  change (length (y :: nodup Nat.eq_dec (jvars s1 j1)) <= length (nodup Nat.eq_dec (jvars s2 j2))).
  apply NoDup_incl_length.
  - constructor; [rewrite nodup_In; auto | apply NoDup_nodup].
  - intros x [<-|Hx]; apply nodup_In; auto. apply H. apply nodup_In in Hx. auto.
Qed.

Lemma mgu_loop_mono S : forall n m st jobs, n <= m -> mgu_loop n S st jobs <> OutOfFuel ->
  mgu_loop m S st jobs = mgu_loop n S st jobs.
Proof.
  induction n as [|n IH]; intros m st jobs Hm H; [elim H; reflexivity|].
  destruct m as [|m]; [lia|]. cbn [mgu_loop] in *.
  destruct jobs as [|j2 [|j1 rest]]; auto.
  destruct (deref n (bnd st) j2) as [d2|] eqn:D2; [|elim H; reflexivity].
  destruct (deref n (bnd st) j1) as [d1|] eqn:D1; [|elim H; reflexivity].
  rewrite (deref_mono _ n m _ _ ltac:(lia) D2), (deref_mono _ n m _ _ ltac:(lia) D1).
  destruct (if isVar d2 then (d2, d1) else (d1, d2)) as [t1 t2].
  destruct t1 as [x|f a1].
  - destruct (term_eqb (Var x) t2); [apply IH; auto; lia|].
    destruct (negb _); auto.
    destruct (occur_check n (bnd st) t2 x) as [r|] eqn:Eo; [|elim H; reflexivity].
    rewrite (occur_check_mono _ _ n m _ _ ltac:(lia) Eo). destruct r; auto. apply IH; auto; lia.
  - destruct t2 as [y|g a2]; auto. destruct (Nat.eqb f g); auto.
    destruct (push_args_rev (rev a1) (rev a2) rest); auto. apply IH; auto; lia.
Qed.

Lemma mgu_loop_terminates S : forall nv sz st jobs s, inv S st -> denotes (bnd st) s ->
  evenl jobs -> Forall (wf S) jobs -> nvars s jobs = nv -> jsize s jobs = sz ->
  exists n, mgu_loop n S st jobs <> OutOfFuel.
Proof.
  induction nv as [nv IHv] using lt_wf_ind. induction sz as [sz IHs] using lt_wf_ind.
  intros st jobs s HI HD HE HW Hnv Hsz.
  destruct HE as [|j2 j1 rest HE]; [exists 1; discriminate|].
  pose proof (inv_acyclic _ _ HI) as HA. destruct HA as [rank HR] eqn:Eqr; clear Eqr.
  set (D := Datatypes.S (trank rank j1) + Datatypes.S (trank rank j2)).
  destruct (deref_total (bnd st) rank HR D j2 ltac:(lia)) as [d2 [D2 R2]].
  destruct (deref_total (bnd st) rank HR D j1 ltac:(lia)) as [d1 [D1 R1]].
  assert (B2 : forall k, D <= k -> deref k (bnd st) j2 = Some d2) by (intros; eapply deref_mono; eauto).
  assert (B1 : forall k, D <= k -> deref k (bnd st) j1 = Some d1) by (intros; eapply deref_mono; eauto).
  inversion HW as [|? ? W2 HW']; subst. inversion HW' as [|? ? W1 HWr]; subst. clear HW HW'.
  destruct (deref_wf S _ (inv_wf _ _ HI) _ _ _ D1 W1) as [W1' _].
  destruct (deref_wf S _ (inv_wf _ _ HI) _ _ _ D2 W2) as [W2' _].
  pose proof (deref_unbound _ _ _ _ D1) as U1. pose proof (deref_unbound _ _ _ _ D2) as U2.
  pose proof (deref_app _ _ (denotes_solves _ _ HD) _ _ _ D1) as E1.
  pose proof (deref_app _ _ (denotes_solves _ _ HD) _ _ _ D2) as E2.
  assert (HK : forall t1 t2, (isVar t1 = true \/ isVar t2 = false) -> wf S t1 -> wf S t2 ->
     match t1 with Var x => bnd st x = None | Fun _ _ => True end ->
     match t2 with Var x => bnd st x = None | Fun _ _ => True end ->
     size (app s t1) + size (app s t2) = size (app s j2) + size (app s j1) ->
     (forall z, In z (vars (app s t1)) \/ In z (vars (app s t2)) <-> In z (vars (app s j1)) \/ In z (vars (app s j2))) ->
     exists n, D <= n /\
       (match t1 with
          | Var x =>
              if term_eqb t1 t2 then mgu_loop n S st rest
              else if negb (Nat.eqb (vsort S x) (tsort S t2)) then Failure st
              else match occur_check n (bnd st) t2 x with
                   | None => OutOfFuel
                   | Some true => Failure st
                   | Some false => mgu_loop n S (add_binding st x t2) rest
                   end
          | Fun f a1 =>
              match t2 with
              | Var _ => UndefBehaviour
              | Fun g a2 =>
                  if Nat.eqb f g
                  then match push_args_rev (rev a1) (rev a2) rest with
                       | Some jobs' => mgu_loop n S st jobs'
                       | None => UndefBehaviour
                       end
                  else Failure st
              end
          end) <> OutOfFuel).
  { clear d1 d2 D1 D2 R1 R2 B1 B2 W1' W2' U1 U2 E1 E2. intros t1 t2 Hor V1 V2 U1 U2 Hsz Hvs.
    assert (Hrest : forall x, In x (jvars s rest) -> In x (jvars s (j2 :: j1 :: rest))).
    { intros x Hx. unfold jvars in *. simpl. rewrite !in_app_iff. auto. }
    destruct t1 as [x|f a1].
    - destruct (term_eqb_spec (Var x) t2) as [<-|Hne].
      + assert (Hle : nvars s rest <= nvars s (j2 :: j1 :: rest)) by (apply nvars_incl; auto).
        assert (Hlt : jsize s rest < jsize s (j2 :: j1 :: rest)).
        { unfold jsize. simpl. pose proof (size_pos (app s j2)). lia. }
        assert (HX : exists n, mgu_loop n S st rest <> OutOfFuel).
        { destruct (Nat.eq_dec (nvars s rest) (nvars s (j2 :: j1 :: rest))) as [En|En].
          - eapply (IHs _ Hlt); eauto.
          - eapply (IHv (nvars s rest)); eauto. lia. }
        destruct HX as [n Hn]. exists (n + D). split; [lia|]. rewrite (mgu_loop_mono S n); auto; lia.
      + destruct (negb (Nat.eqb (vsort S x) (tsort S t2))) eqn:Es; [exists D; split; [lia|discriminate]|].
        apply negb_false_iff, Nat.eqb_eq in Es.
        destruct (occur_check_total (bnd st) rank s x HR HD (Datatypes.S (trank rank t2 + size (app s t2))) t2 ltac:(lia)) as [r Hr].
        set (N := Datatypes.S (trank rank t2 + size (app s t2))) in *.
        destruct r; [exists (N + D); split; [lia|]; rewrite (occur_check_mono _ _ N (N + D) _ _ ltac:(lia) Hr); discriminate|].
        assert (Hno : ~ In x (vars (app s t2))).
        { intros C. apply (occur_check_correct _ s x (inv_acyclic _ _ HI) HD U1 _ _ _ Hr) in C. discriminate. }
        pose proof (inv_add S st s x t2 HI HD U1 Hno V2 (eq_sym Es)) as HI'.
        destruct (acyclic_denotes _ (inv_acyclic _ _ HI')) as [s' HD'].
        assert (Hs' : forall z, s' z = app (fun w => if Nat.eqb x w then app s t2 else Var w) (s z)).
        { (* both denote the new bindings *)
          apply (denotes_unique _ _ _ (inv_acyclic _ _ HI') HD').
          set (d := fun w => if Nat.eqb x w then app s t2 else Var w).
          assert (Hdt : app d (app s t2) = app s t2).
          { rewrite <- (app_var (app s t2)) at 2. apply app_ext. intros w Hw. unfold d.
            destruct (Nat.eqb_spec x w) as [->|_]; [tauto | reflexivity]. }
          intros z. simpl. unfold upd. destruct (Nat.eqb_spec x z) as [<-|Nz].
          - specialize (HD x) as Hx. rewrite U1 in Hx. rewrite Hx.
            transitivity (app s t2); [simpl; unfold d; rewrite Nat.eqb_refl; reflexivity|].
            transitivity (app d (app s t2)); [symmetry; exact Hdt|]. symmetry. apply (app_comp d s).
          - specialize (HD z) as Hz. destruct (bnd st z) as [u|]; rewrite Hz.
            + rewrite <- app_comp. reflexivity.
            + simpl. unfold d. destruct (Nat.eqb_spec x z); [congruence|reflexivity]. }
        assert (Hsub : forall z, In z (jvars s' rest) -> In z (jvars s (j2 :: j1 :: rest)) /\ z <> x).
        { intros z Hz. unfold jvars in Hz. apply in_flat_map in Hz. destruct Hz as [u [Hu Hz]].
          apply vars_app in Hz. destruct Hz as [w [Hw Hz]]. rewrite Hs' in Hz. apply vars_app in Hz.
          destruct Hz as [v [Hv Hz]].
          assert (Hvin : In v (jvars s rest)) by (unfold jvars; apply in_flat_map; exists u; split; auto; apply vars_app; eauto).
          destruct (Nat.eqb_spec x v) as [<-|Nv].
          - split; [|intros ->; auto].
            unfold jvars. simpl. rewrite !in_app_iff. destruct (proj1 (Hvs z) (or_intror Hz)); auto.
          - simpl in Hz. destruct Hz as [<-|[]]. split; auto. }
        destruct (IHv (nvars s' rest)) with (sz := jsize s' rest)
          (st := add_binding st x t2) (jobs := rest) (s := s') as [n Hn]; auto.
        { apply nvars_lt with (y := x).
          - intros z Hz. apply Hsub; auto.
          - unfold jvars. simpl. rewrite !in_app_iff.
            assert (In x (vars (app s (Var x)))) as Hx'.
            { simpl. specialize (HD x). rewrite U1 in HD. rewrite HD. left; auto. }
            destruct (proj1 (Hvs x) (or_introl Hx')); auto.
          - intros C. apply Hsub in C. tauto. }
        exists (n + N + D). split; [lia|].
        rewrite (occur_check_mono _ _ N (n + N + D) _ _ ltac:(lia) Hr). rewrite (mgu_loop_mono S n); auto; lia.
    - destruct t2 as [y|g a2]; [destruct Hor; discriminate|].
      destruct (Nat.eqb_spec f g) as [<-|Hfg]; [|exists D; split; [lia|discriminate]].
      assert (HL : length (rev a1) = length (rev a2)) by (rewrite !rev_length; eapply wf_fun_length; eauto).
      destruct (push_args_rev_defined _ _ rest HL) as [j' Hj']. rewrite Hj'.
      assert (HWj : Forall (wf S) j').
      { rewrite Forall_forall. intros t Ht. apply (push_args_rev_in _ _ _ _ Hj') in Ht.
        rewrite <- !in_rev in Ht. apply wf_fun in V1, V2. destruct V1 as [V1 _], V2 as [V2 _].
        rewrite Forall_forall in *. destruct Ht as [Ht|[Ht|Ht]]; auto. }
      assert (Hin : forall x, In x (jvars s j') -> In x (jvars s (j2 :: j1 :: rest))).
      { intros x Hx. unfold jvars in Hx. apply in_flat_map in Hx. destruct Hx as [u [Hu Hx]].
        apply (push_args_rev_in _ _ _ _ Hj') in Hu. rewrite <- !in_rev in Hu.
        unfold jvars. simpl. rewrite !in_app_iff.
        assert (HY : forall a, In u a -> In x (vars (app s (Fun f a)))).
        { intros a Ha. simpl. apply in_flat_map. exists (app s u). split; auto. apply in_map; auto. }
        destruct Hu as [Hu|[Hu|Hu]].
        - destruct (proj1 (Hvs x) (or_introl (HY _ Hu))); auto.
        - destruct (proj1 (Hvs x) (or_intror (HY _ Hu))); auto.
        - right. right. apply in_flat_map; eauto. }
      assert (Hle : nvars s j' <= nvars s (j2 :: j1 :: rest)) by (apply nvars_incl; auto).
      assert (Hlt : jsize s j' < jsize s (j2 :: j1 :: rest)).
      { unfold jsize. rewrite (push_args_rev_sum _ _ _ _ _ Hj'). simpl.
        assert (HZ : forall a, Datatypes.S (list_sum (map (fun t => size (app s t)) (rev a))) = size (app s (Fun f a))).
        { intros a. rewrite map_rev. simpl. f_equal. clear.
          assert (forall l, list_sum (rev l) = list_sum l) as HR.
          { induction l as [|x l IH]; simpl; auto. rewrite list_sum_app. simpl. lia. }
          rewrite HR. induction a; simpl; auto. }
        pose proof (HZ a1). pose proof (HZ a2). lia. }
      assert (HEj : evenl j') by (eapply (push_args_rev_spec Var); eauto).
      assert (HX : exists n, mgu_loop n S st j' <> OutOfFuel).
      { destruct (Nat.eq_dec (nvars s j') (nvars s (j2 :: j1 :: rest))) as [En|En].
        - eapply (IHs _ Hlt); eauto.
        - eapply (IHv (nvars s j')); eauto. lia. }
      destruct HX as [n Hn]. exists (n + D). split; [lia|]. rewrite (mgu_loop_mono S n); auto; lia. }
  assert (HG : exists n, D <= n /\ (let '(t1, t2) := if isVar d2 then (d2, d1) else (d1, d2) in
       match t1 with
          | Var x =>
              if term_eqb t1 t2 then mgu_loop n S st rest
              else if negb (Nat.eqb (vsort S x) (tsort S t2)) then Failure st
              else match occur_check n (bnd st) t2 x with
                   | None => OutOfFuel
                   | Some true => Failure st
                   | Some false => mgu_loop n S (add_binding st x t2) rest
                   end
          | Fun f a1 =>
              match t2 with
              | Var _ => UndefBehaviour
              | Fun g a2 =>
                  if Nat.eqb f g
                  then match push_args_rev (rev a1) (rev a2) rest with
                       | Some jobs' => mgu_loop n S st jobs'
                       | None => UndefBehaviour
                       end
                  else Failure st
              end
          end) <> OutOfFuel).
  { destruct (isVar d2) eqn:V2; apply HK; auto; rewrite <- ?E1, <- ?E2; try lia; intros; tauto. }
  destruct HG as [n [HDn Hn]]. exists (Datatypes.S n). cbn [mgu_loop]. rewrite (B1 n HDn), (B2 n HDn). exact Hn.
Qed.
