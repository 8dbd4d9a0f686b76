(** * Proofs about unification at the API level and about matching. *)
From Verif Require Import Terms Unify UnifyProofs.

(** ** mgu, top level *)

Lemma predpos_guard_no_unifier S pp t1 t2 tau : fo_sorts S pp -> wfsubst S tau ->
  (qpredpos pp t1 && isVar t2) || (qpredpos pp t2 && isVar t1) = true -> app tau t1 <> app tau t2.
Proof.
  intros HF HW H E. apply orb_true_iff in H.
  assert (HX : forall a b, qpredpos pp a && isVar b = true -> app tau a = app tau b -> False).
  { intros [x|f a] [y|g b] Hq Heq; simpl in *; try rewrite andb_false_r in Hq; try discriminate.
    rewrite andb_true_r in Hq. apply (HF f y Hq). destruct (HW y) as [Hy _]. rewrite <- Hy, <- Heq. reflexivity. }
  destruct H as [H|H]; [apply (HX _ _ H E) | apply (HX _ _ H (eq_sym E))].
Qed.

Lemma mgu_correct n S pp st t1 t2 : inv S st -> wf S t1 -> wf S t2 ->
  match mgu n S pp st t1 t2 with
  | Success st' => inv S st' /\ ext st st' /\
      (forall tau, solves (bnd st') tau <-> solves (bnd st) tau /\ app tau t1 = app tau t2)
  | Failure st' => trail st' = trail st /\ (forall x, bnd st' x = bnd st x) /\
      (fo_sorts S pp -> forall tau, wfsubst S tau -> solves (bnd st) tau -> app tau t1 <> app tau t2)
  | OutOfFuel => True
  | UndefBehaviour => False
  end.
Proof.
  intros HI W1 W2. unfold mgu.
  destruct ((qpredpos pp t1 && isVar t2) || (qpredpos pp t2 && isVar t1)) eqn:Eg.
  { split; [auto|]. split; [auto|]. intros HF tau HT _. eapply predpos_guard_no_unifier; eauto. }
  pose proof (mgu_loop_correct S n st [t2; t1] HI ltac:(repeat constructor) ltac:(repeat constructor; auto)) as H.
  destruct (mgu_loop n S st [t2; t1]) as [st'|st'| |]; simpl in H; auto.
  - destruct H as [H1 [H2 H3]]. split; [auto|]. split; [auto|]. intros tau. rewrite H3.
    split; [intros [A [B _]]; auto | intros [A B]; auto].
  - destruct H as [H1 H2]. destruct (backtrack_ext _ _ H1) as [B1 B2]. split; [auto|]. split; [auto|].
    intros _ tau HT Hs E. apply (H2 tau HT Hs). auto.
Qed.

Lemma mgu_mono S pp n m st t1 t2 : n <= m -> mgu n S pp st t1 t2 <> OutOfFuel ->
  mgu m S pp st t1 t2 = mgu n S pp st t1 t2.
Proof.
  intros Hm H. unfold mgu in *. destruct (_ || _); auto.
  rewrite (mgu_loop_mono S n m); auto. destruct (mgu_loop n S st [t2; t1]); auto; discriminate.
Qed.

Lemma mgu_terminates S pp st t1 t2 : inv S st -> wf S t1 -> wf S t2 ->
  exists n, mgu n S pp st t1 t2 <> OutOfFuel.
Proof.
  intros HI W1 W2. destruct (acyclic_denotes _ (inv_acyclic _ _ HI)) as [s HD].
  destruct (mgu_loop_terminates S (nvars s [t2; t1]) (jsize s [t2; t1]) st [t2; t1] s HI HD) as [n Hn]; auto.
  { repeat constructor. }
  exists n. unfold mgu. destruct (_ || _); [discriminate|].
  destruct (mgu_loop n S st [t2; t1]); auto; discriminate.
Qed.

(** ** Matching *)

(** [s] agrees with the bindings taken as a plain (one-step) substitution. *)
Definition agrees (b : binding) (s : subst) : Prop := forall x t, b x = Some t -> s x = t.

Definition jmatch (s : subst) (jobs : list (term * term)) : Prop :=
  Forall (fun p => app s (fst p) = snd p) jobs.

Definition jdiff (jobs : list (term * term)) : Z :=
  fold_right (fun p n => (stdweight (snd p) - stdweight (fst p) + n)%Z) 0%Z jobs.

Definition jmsize (jobs : list (term * term)) : nat := list_sum (map (fun p => size (fst p)) jobs).

Definition wstack (l : list term) : Z := fold_right (fun a n => (stdweight a + n)%Z) 0%Z l.

Lemma push_pairs_spec : forall a1 a2 jobs j', push_pairs a1 a2 jobs = Some j' ->
  j' = combine a1 a2 ++ jobs /\ length a1 = length a2.
Proof.
  induction a1 as [|x r IH]; intros [|y r2] jobs j' H; simpl in H; try discriminate.
  - inversion H; subst; auto.
  - destruct (push_pairs r r2 jobs) as [j|] eqn:E; [|discriminate]. inversion H; subst.
    destruct (IH _ _ _ E) as [-> L]. simpl. auto.
Qed.

Lemma push_pairs_defined : forall a1 a2 jobs, length a1 = length a2 -> exists j', push_pairs a1 a2 jobs = Some j'.
Proof.
  induction a1 as [|x r IH]; intros [|y r2] jobs H; simpl in *; try discriminate; [eauto|].
  destruct (IH r2 jobs ltac:(lia)) as [j ->]. eauto.
Qed.

Lemma jmatch_combine s : forall a1 a2, length a1 = length a2 ->
  (jmatch s (combine a1 a2) <-> map (app s) a1 = a2).
Proof.
  induction a1 as [|x r IH]; intros [|y r2] H; simpl in *; try discriminate.
  - split; [auto | intros _; constructor].
  - split.
    + intros HH. inversion HH; subst. simpl in *. f_equal; auto. apply IH; auto.
    + intros HH. injection HH as H1 H2. constructor; auto. apply IH; auto.
Qed.

Lemma jdiff_combine : forall a1 a2 jobs, length a1 = length a2 ->
  jdiff (combine a1 a2 ++ jobs) = (wstack a2 - wstack a1 + jdiff jobs)%Z.
Proof.
  induction a1 as [|x r IH]; intros [|y r2] jobs H; simpl in *; try discriminate; [lia|].
  rewrite IH; auto. lia.
Qed.

Lemma jmsize_combine : forall a1 a2 jobs, length a1 = length a2 ->
  jmsize (combine a1 a2 ++ jobs) = list_sum (map size a1) + jmsize jobs.
Proof.
  unfold jmsize. induction a1 as [|x r IH]; intros [|y r2] jobs H; simpl in *; try discriminate; auto.
  rewrite IH; auto. lia.
Qed.

Lemma jdiff_nonneg s jobs : jmatch s jobs -> (0 <= jdiff jobs)%Z.
Proof.
  induction 1 as [|[m t] l H _ IH]; simpl in *; [lia|].
  pose proof (app_stdweight_ge s m). rewrite H in H0. lia.
Qed.

Lemma agrees_upd b x t s : b x = None -> (agrees (upd b x (Some t)) s <-> agrees b s /\ s x = t).
Proof.
  intros Hx. split.
  - intros H. split.
    + intros y u Hy. apply H. rewrite upd_other; auto. intros ->; congruence.
    + apply H. apply upd_same.
  - intros [H1 H2] y u Hy. unfold upd in Hy. destruct (Nat.eqb_spec x y) as [->|N]; [congruence|auto].
Qed.

Definition sane_match_result S st jobs (o : outcome) : Prop :=
  match o with
  | Success st' => ext st st' /\ wfbinding S (bnd st') /\
      (forall s, agrees (bnd st') s <-> agrees (bnd st) s /\ jmatch s jobs) /\
      (forall p x, In p jobs -> In x (vars (fst p)) -> bnd st' x <> None) /\
      (forall x, bnd st x <> None -> bnd st' x <> None)
  | Failure st' => ext st st' /\
      (forall s, wfsubst S s -> agrees (bnd st) s -> ~ jmatch s jobs)
  | OutOfFuel => True
  | UndefBehaviour => False
  end.

Lemma size_fun_sum f a : size (Fun f a) = Datatypes.S (list_sum (map size a)).
Proof. simpl. f_equal. induction a; simpl; auto. Qed.

Lemma match_loop_correct S : forall n mw tw st jobs,
  wfbinding S (bnd st) -> Forall (fun p => wf S (fst p) /\ wf S (snd p)) jobs ->
  (mw + jdiff jobs = tw)%Z ->
  sane_match_result S st jobs (match_loop n S mw tw st jobs) /\
  (jmsize jobs < n -> match_loop n S mw tw st jobs <> OutOfFuel).
Proof.
  induction n as [|n IH]; intros mw tw st jobs HB HW HD; [split; [exact I | lia]|].
  cbn [match_loop]. destruct jobs as [|[m t] rest].
  { split; [|discriminate]. simpl. split; [apply ext_refl|]. split; auto. split.
    - intros s. split; [intros A; split; [auto|constructor] | tauto].
    - split; [intros ? ? []|auto]. }
  inversion HW as [|? ? [Wm Wt] HWr]; subst. simpl in Wm, Wt. change (jdiff ((m, t) :: rest)) with (stdweight t - stdweight m + jdiff rest)%Z.
  destruct m as [x|f a1].
  - destruct (negb (Nat.eqb (vsort S x) (tsort S t))) eqn:Es.
    { split; [|discriminate]. simpl. split; [apply ext_refl|]. intros s Hs _ HJ. inversion HJ as [|? ? HJ1]; subst.
      apply negb_true_iff, Nat.eqb_neq in Es. apply Es. simpl in HJ1. destruct (Hs x) as [A _]. congruence. }
    apply negb_false_iff, Nat.eqb_eq in Es.
    set (mw' := (mw + (stdweight t - 1))%Z).
    assert (HD' : (mw' + jdiff rest = mw + (stdweight t - stdweight (Var x) + jdiff rest))%Z) by (unfold mw'; simpl; lia).
    (* common continuation *)
    assert (HC : forall st1, ext st st1 -> wfbinding S (bnd st1) -> bnd st1 x = Some t ->
      (forall s, agrees (bnd st1) s <-> agrees (bnd st) s /\ s x = t) ->
      (forall y, bnd st y <> None -> bnd st1 y <> None) ->
      let o := if ((mw + (stdweight t - stdweight (Var x) + jdiff rest)) <? mw')%Z then Failure st1 else match_loop n S mw' (mw + (stdweight t - stdweight (Var x) + jdiff rest))%Z st1 rest in
      sane_match_result S st ((Var x, t) :: rest) o /\ (jmsize ((Var x, t) :: rest) < Datatypes.S n -> o <> OutOfFuel)).
    { intros st1 He Hb Hx Ha Hk o. unfold o.
      destruct ((mw + (stdweight t - stdweight (Var x) + jdiff rest)) <? mw')%Z eqn:Ew.
      - split; [|discriminate]. simpl. split; auto. intros s Hs Hag HJ.
        inversion HJ as [|? ? HJ1 HJ2]; subst. apply jdiff_nonneg in HJ2. apply Z.ltb_lt in Ew. lia.
      - destruct (IH mw' _ st1 rest Hb HWr HD') as [I1 I2]. split.
        + destruct (match_loop n S mw' _ st1 rest) as [st'|st'| |]; simpl in *; auto.
          * destruct I1 as [J1 [J2 [J3 [J4 J5]]]]. split; [eapply ext_trans; eauto|]. split; [auto|]. split; [|split].
            -- intros s. rewrite J3, Ha. split.
               ++ intros [[A B] C]. split; auto. constructor; auto.
               ++ intros [A B]. inversion B; subst. simpl in *. auto.
            -- intros p y [<-|Hp] Hy; [|eapply J4; eauto]. simpl in Hy. destruct Hy as [<-|[]]. apply J5. congruence.
            -- auto.
          * destruct I1 as [J1 J2]. split; [eapply ext_trans; eauto|].
            intros s Hs Hag HJ. inversion HJ; subst. apply (J2 s); auto. apply Ha. auto.
        + unfold jmsize in *. simpl in *. intros HL. apply I2. lia. }
    destruct (bnd st x) as [u|] eqn:Ex.
    + destruct (term_eqb_spec u t) as [->|Hne].
      * apply (HC st); auto; [apply ext_refl|]. intros s. split; [intros A; split; auto | tauto].
      * split; [|discriminate]. simpl. split; [apply ext_refl|]. intros s _ Hag HJ. inversion HJ; subst.
        simpl in *. apply Hne. rewrite <- (Hag x u Ex). auto.
    + apply HC; simpl.
      * apply ext_add; auto.
      * intros y u Hy. unfold upd in Hy. destruct (Nat.eqb_spec x y) as [<-|N]; [inversion Hy; subst; auto | auto].
      * apply upd_same.
      * intros s. apply agrees_upd; auto.
      * intros y Hy. unfold upd. destruct (Nat.eqb x y); [discriminate|auto].
  - destruct t as [y|g a2].
    { split; [|discriminate]. simpl. split; [apply ext_refl|]. intros s _ _ HJ. inversion HJ; subst. discriminate. }
    destruct (Nat.eqb_spec f g) as [<-|Hfg].
    2:{ split; [|discriminate]. simpl. split; [apply ext_refl|]. intros s _ _ HJ. inversion HJ as [|? ? HJ1]; subst. simpl in HJ1. congruence. }
    assert (HL : length a1 = length a2) by (eapply wf_fun_length; eauto).
    destruct (push_pairs_defined a1 a2 rest HL) as [j' Hj']. rewrite Hj'.
    destruct (push_pairs_spec _ _ _ _ Hj') as [-> _].
    assert (HWj : Forall (fun p => wf S (fst p) /\ wf S (snd p)) (combine a1 a2 ++ rest)).
    { apply Forall_app. split; auto. apply wf_fun in Wm, Wt. destruct Wm as [Wm _], Wt as [Wt _].
      rewrite Forall_forall in *. intros [p q] Hp. simpl. split; [apply Wm; eapply in_combine_l; eauto | apply Wt; eapply in_combine_r; eauto]. }
    assert (HDj : (mw + jdiff (combine a1 a2 ++ rest) = mw + (stdweight (Fun f a2) - stdweight (Fun f a1) + jdiff rest))%Z).
    { rewrite jdiff_combine; auto. cbn [stdweight]. fold (wstack a1) (wstack a2). lia. }
    destruct (IH mw _ st _ HB HWj HDj) as [I1 I2]. split.
    + assert (HJ : forall s, jmatch s (combine a1 a2 ++ rest) <-> jmatch s ((Fun f a1, Fun f a2) :: rest)).
      { intros s. unfold jmatch at 1. rewrite Forall_app. fold (jmatch s (combine a1 a2)).
        rewrite (jmatch_combine s a1 a2 HL). split.
        - intros [A B]. constructor; auto. simpl. congruence.
        - intros H. inversion H as [|? ? H1 H2]; subst. simpl in H1. injection H1 as H1. auto. }
      destruct (match_loop n S mw _ st (combine a1 a2 ++ rest)) as [st'|st'| |]; simpl in *; auto.
      * destruct I1 as [J1 [J2 [J3 [J4 J5]]]]. split; [auto|]. split; [auto|]. split; [|split; auto].
        -- intros s. rewrite J3, HJ. tauto.
        -- intros p x [<-|Hp] Hx.
           ++ simpl in Hx. apply in_flat_map in Hx. destruct Hx as [u [Hu Hx]].
              destruct (In_nth a1 u (Var 0) Hu) as [i [Hi Hn]].
              apply (J4 (nth i a1 (Var 0), nth i a2 (Var 0))); simpl; [|rewrite Hn; auto].
              apply in_app_iff. left. rewrite <- combine_nth; auto. apply nth_In. rewrite combine_length. lia.
           ++ apply (J4 p); auto. apply in_app_iff; auto.
      * destruct I1 as [J1 J2]. split; auto. intros s Hs Hag Hm. apply (J2 s); auto. apply HJ; auto.
    + intros HL2. apply I2. rewrite jmsize_combine; auto.
      change (jmsize ((Fun f a1, Fun f a2) :: rest)) with (size (Fun f a1) + jmsize rest) in HL2.
      rewrite size_fun_sum in HL2. lia.
Qed.

Lemma smatch_correct n S pp st m t : wfbinding S (bnd st) -> wf S m -> wf S t ->
  match smatch n S pp st m t with
  | Success st' => ext st st' /\ wfbinding S (bnd st') /\
      (forall s, agrees (bnd st') s <-> agrees (bnd st) s /\ app s m = t) /\
      (forall x, In x (vars m) -> bnd st' x <> None)
  | Failure st' => trail st' = trail st /\ (forall x, bnd st' x = bnd st x) /\
      (fo_sorts S pp -> forall s, wfsubst S s -> agrees (bnd st) s -> app s m <> t)
  | OutOfFuel => n <= size m
  | UndefBehaviour => False
  end.
Proof.
  intros HB Wm Wt. unfold smatch.
  destruct ((stdweight t <? stdweight m)%Z || (qpredpos pp t && isVar m)) eqn:Eg.
  { split; [auto|]. split; [auto|]. intros HF s Hs _ E. apply orb_true_iff in Eg. destruct Eg as [Eg|Eg].
    - apply Z.ltb_lt in Eg. pose proof (app_stdweight_ge s m) as HG. rewrite E in HG. lia.
    - destruct m as [x|g b]; [|rewrite andb_false_r in Eg; discriminate].
      destruct t as [y|g b]; [discriminate|]. simpl in *. rewrite andb_true_r in Eg.
      apply (HF g x Eg). destruct (Hs x) as [A _]. rewrite <- A, E. reflexivity. }
  destruct (match_loop_correct S n (stdweight m) (stdweight t) st [(m, t)]) as [I1 I2]; auto.
  { simpl. lia. }
  destruct (match_loop n S (stdweight m) (stdweight t) st [(m, t)]) as [st'|st'| |]; simpl in *; auto.
  - destruct I1 as [J1 [J2 [J3 [J4 _]]]]. split; [auto|]. split; [auto|]. split.
    + intros s. rewrite J3. split.
      * intros [A B]. inversion B; subst. auto.
      * intros [A B]. split; auto. constructor; auto.
    + intros x Hx. apply (J4 (m, t)); auto.
  - destruct I1 as [J1 J2]. destruct (backtrack_ext _ _ J1) as [B1 B2]. split; [auto|]. split; [auto|].
    intros _ s Hs Ha E. apply (J2 s); auto. constructor; auto.
  - destruct (le_lt_dec n (size m)); auto. exfalso. apply I2; auto. unfold jmsize. simpl. lia.
Qed.

(** the bindings read as a one-step substitution *)
Definition as_subst (b : binding) : subst := fun x => match b x with Some t => t | None => Var x end.

Lemma as_subst_agrees b : agrees b (as_subst b).
Proof. intros x t H. unfold as_subst. rewrite H. reflexivity. Qed.

(** ** Reachable binding states *)

Inductive bop := OpUnify (t1 t2 : term) | OpBacktrackTo (pos : nat).

Definition run_op (n : nat) (S : sorting) (pp : sym -> bool) (st : bstate) (o : bop) : option bstate :=
  match o with
  | OpUnify t1 t2 => match mgu n S pp st t1 t2 with
                     | Success st' | Failure st' => Some st'
                     | _ => None
                     end
  | OpBacktrackTo pos => Some (backtrack_to_pos st pos)
  end.

Fixpoint run_ops n S pp st (l : list bop) : option bstate :=
  match l with
  | [] => Some st
  | o :: l' => match run_op n S pp st o with Some st' => run_ops n S pp st' l' | None => None end
  end.

Definition empty_state : bstate := {| bnd := fun _ => None; trail := [] |}.

Lemma inv_ext S st st' : (forall x, bnd st' x = bnd st x \/ bnd st' x = None) -> inv S st -> inv S st'.
Proof.
  intros H [[rank HR] HW]. split.
  - exists rank. intros x t y Hx Hy. destruct (H x) as [E|E]; rewrite E in Hx; [eauto|discriminate].
  - intros x t Hx. destruct (H x) as [E|E]; rewrite E in Hx; [eauto|discriminate].
Qed.

Lemma backtrack_n_sub : forall k st x, bnd (backtrack_n k st) x = bnd st x \/ bnd (backtrack_n k st) x = None.
Proof.
  induction k as [|k IH]; intros st x; simpl; auto.
  destruct (IH (backtrack_single st) x) as [E|E]; [|auto]. rewrite E. unfold backtrack_single.
  destruct (trail st) as [|y tr]; simpl; auto. unfold upd. destruct (Nat.eqb y x); auto.
Qed.

Lemma run_ops_inv n S pp : forall l st st', inv S st ->
  (forall t1 t2, In (OpUnify t1 t2) l -> wf S t1 /\ wf S t2) ->
  run_ops n S pp st l = Some st' -> inv S st'.
Proof.
  induction l as [|o l IH]; intros st st' HI HW H; simpl in H; [inversion H; subst; auto|].
  destruct (run_op n S pp st o) as [st1|] eqn:E; [|discriminate].
  apply (IH st1); auto; [|intros; apply HW; right; auto].
  destruct o as [t1 t2|pos]; simpl in E.
  - destruct (HW t1 t2 (or_introl eq_refl)) as [W1 W2].
    pose proof (mgu_correct n S pp st t1 t2 HI W1 W2) as HC.
    destruct (mgu n S pp st t1 t2) as [s1|s1| |]; inversion E; subst; [tauto|].
    destruct HC as [_ [HC _]]. eapply inv_ext; [|exact HI]. auto.
  - inversion E; subst. eapply inv_ext; [|exact HI]. intros x. apply backtrack_n_sub.
Qed.

Lemma inv_empty S : inv S empty_state.
Proof. split; [exists (fun _ => 0) |]; intros x t; discriminate. Qed.
