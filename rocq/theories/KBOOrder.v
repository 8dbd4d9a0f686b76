(** * Proofs: the Knuth-Bendix ordering is a simplification ordering. *)
From Verif Require Import Terms KBO KBOProofs.
From Coq Require Import ZifyBool Wellfounded.

(** ** Sums over variable occurrences *)

Definition sumv (g : var -> Z) (l : list var) : Z := fold_right (fun x n => (g x + n)%Z) 0%Z l.

Lemma sumv_app g l1 l2 : sumv g (l1 ++ l2) = (sumv g l1 + sumv g l2)%Z.
Proof. induction l1 as [|x l IH]; simpl; [lia|]. fold (sumv g (l ++ l2)) (sumv g l). lia. Qed.

Lemma sumv_remove g x l : In x l -> exists l', sumv g l = (g x + sumv g l')%Z /\
  (forall y, count_occ Nat.eq_dec l y = (if Nat.eq_dec x y then 1 else 0) + count_occ Nat.eq_dec l' y).
Proof.
  intros H. apply in_split in H. destruct H as [l1 [l2 ->]]. exists (l1 ++ l2). split.
  - rewrite !sumv_app. simpl. fold (sumv g l2). lia.
  - intros y. rewrite !count_occ_app. simpl. destruct (Nat.eq_dec x y); lia.
Qed.

Lemma sumv_mono g : (forall x, 0 <= g x)%Z -> forall l2 l1,
  (forall x, count_occ Nat.eq_dec l2 x <= count_occ Nat.eq_dec l1 x) -> (sumv g l2 <= sumv g l1)%Z.
Proof.
  intros Hg. induction l2 as [|x l2 IH]; intros l1 H.
  - simpl. clear H. induction l1 as [|y l IHl]; simpl; [lia|]. fold (sumv g l). specialize (Hg y). lia.
  - assert (Hin : In x l1).
    { apply (count_occ_In Nat.eq_dec). specialize (H x). simpl in H. destruct (Nat.eq_dec x x); [lia|congruence]. }
    destruct (sumv_remove g x l1 Hin) as [l1' [E1 E2]]. rewrite E1. simpl. fold (sumv g l2).
    assert (sumv g l2 <= sumv g l1')%Z; [|lia].
    apply IH. intros y. specialize (H y). rewrite E2 in H. simpl in H. destruct (Nat.eq_dec x y); lia.
Qed.

Lemma kweight_app o s t :
  kweight o (app s t) = (kweight o t + sumv (fun x => kweight o (s x) - vw o) (vars t))%Z.
Proof.
  induction t as [x|f a IH] using term_ind'; simpl; [lia|].
  fold (lweight o a). fold (lweight o (map (app s) a)).
  assert (lweight o (map (app s) a) = lweight o a + sumv (fun x => kweight o (s x) - vw o) (flat_map vars a))%Z; [|lia].
  induction IH as [|t l Ht _ IHl]; [reflexivity|]. simpl map. simpl flat_map.
  rewrite !lweight_cons, sumv_app, Ht, IHl. lia.
Qed.

Lemma vcount_app o s t y (_ : ocb := o) :
  Z.of_nat (vcount y (app s t)) = sumv (fun x => Z.of_nat (vcount y (s x))) (vars t).
Proof.
  induction t as [x|f a IH] using term_ind'; simpl; [lia|].
  rewrite vcount_fun.
  induction IH as [|t l Ht _ IHl]; [reflexivity|]. simpl map. simpl flat_map.
  rewrite lcount_cons, sumv_app, <- Ht. rewrite <- IHl. lia.
Qed.

Lemma varcond_app s t u : varcond t u -> varcond (app s t) (app s u).
Proof.
  intros H y. pose (o := {| fw := fun _ => 0%Z; vw := 0%Z; prec := fun _ _ => Equal |}).
  apply Nat2Z.inj_le. rewrite !(vcount_app o). apply sumv_mono; [intros; lia|]. exact H.
Qed.

Section Order.
  Variables (o : ocb) (ar : sym -> nat).
  Hypothesis HP : strict_prec (prec o).
  Hypothesis HA : admissible o ar.

  Let Hfw : forall f, (0 <= fw o f)%Z := ad_nonneg _ _ HA.
  Let Hvw : (0 < vw o)%Z := ad_var _ _ HA.
  Let Hvw' : (0 <= vw o)%Z.
  Proof. lia. Qed.

  Notation ok t := (arok ar t = true).

  Lemma varcond_arg f a u : In u a -> varcond (Fun f a) u.
  Proof.
    intros H x. rewrite vcount_fun. apply in_split in H. destruct H as [l1 [l2 ->]].
    rewrite lcount_app, lcount_cons. lia.
  Qed.

  Lemma lweight_zero l : Forall (fun t => ok t) l -> (lweight o l <= 0)%Z -> l = [].
  Proof.
    intros HF. destruct HF as [|u l Hu Hl]; auto. rewrite lweight_cons.
    pose proof (kweight_ge_vw o ar HA u Hu). pose proof (lweight_nonneg o l Hfw Hvw'). lia.
  Qed.

  (** an argument is smaller than the term *)
  Lemma kbo_subterm : forall t u f a, t = Fun f a -> ok t -> In u a -> kbo o t u.
  Proof.
    induction t as [x|f0 a0 IH] using term_ind'; intros u f a E Hok Hin; [discriminate|].
    injection E as <- <-. pose proof Hok as Hok'. apply arok_fun in Hok'. destruct Hok' as [HL HF].
    pose proof (varcond_arg f0 _ _ Hin) as HV.
    rewrite Forall_forall in IH. pose proof (IH u Hin) as IHu.
    assert (Hu : ok u) by (rewrite Forall_forall in HF; auto).
    destruct (Z.lt_ge_cases (kweight o u) (kweight o (Fun f0 a0))) as [W|W]; [apply kbo_weight; auto|].
    (* equal weights: the symbol is a weightless unary one *)
    pose proof Hin as Hin'. apply in_split in Hin'. destruct Hin' as [l1 [l2 ->]].
    rewrite kweight_fun, lweight_app, lweight_cons in W.
    apply Forall_app in HF. destruct HF as [F1 F2]. inversion F2 as [|? ? _ F3]; subst.
    pose proof (lweight_nonneg o l1 Hfw Hvw'). pose proof (lweight_nonneg o l2 Hfw Hvw'). pose proof (Hfw f0).
    assert (l1 = []) by (apply lweight_zero; auto; lia).
    assert (l2 = []) by (apply lweight_zero; auto; lia). subst l1 l2. simpl in *.
    assert (E0 : fw o f0 = 0%Z) by (unfold lweight in *; simpl in *; lia).
    assert (EW : kweight o (Fun f0 [u]) = kweight o u) by (rewrite kweight_fun; unfold lweight; simpl; lia).
    destruct u as [x|g b].
    - apply kbo_var; auto.
    - destruct (Nat.eq_dec f0 g) as [<-|N].
      + apply arok_fun in Hu. destruct Hu as [HLb HFb].
        destruct b as [|v [|? ?]]; simpl in HLb; try congruence.
        apply kbo_lex; auto. apply lex_here; auto.
        apply (IHu v f0 [v]); auto. 2: left; auto.
        apply arok_fun. split; auto.
      + apply kbo_prec; auto. apply (ad_unary _ _ HA); auto.
  Qed.

  Lemma kbolex_trans : forall a b c, length a = length c ->
    Forall (fun x => forall y z, In y b -> In z c -> kbo o x y -> kbo o y z -> kbo o x z) a ->
    kbolex o a b -> kbolex o b c -> kbolex o a c.
  Proof.
    induction a as [|x a IH]; intros b c HL HF H1 H2; [inversion H1|].
    inversion HF as [|? ? Hx Ha]; subst.
    inversion H1; subst; inversion H2; subst.
    - apply lex_here; auto. eapply Hx; eauto; left; auto.
    - apply lex_here; auto.
    - apply lex_here; auto.
    - apply lex_later. eapply IH; [simpl in HL; lia | | eassumption | eassumption].
      eapply Forall_impl; [|exact Ha]. intros x0 Hx0 y z Hy Hz. apply Hx0; right; auto.
  Qed.

  Lemma kbo_trans : forall s t u, ok s -> ok t -> ok u -> kbo o s t -> kbo o t u -> kbo o s u.
  Proof.
    induction s as [x|f a IH] using term_ind'; intros t u Hs Ht Hu H1 H2.
    - exfalso. exact (not_kbo_var o ar HA x t Ht H1).
    - pose proof (kbo_varcond_weight _ _ _ H1) as [V1 W1]. pose proof (kbo_varcond_weight _ _ _ H2) as [V2 W2].
      pose proof (varcond_trans _ _ _ V1 V2) as V3.
      destruct (Z.lt_ge_cases (kweight o u) (kweight o (Fun f a))) as [W|W]; [apply kbo_weight; auto|].
      assert (E1 : kweight o (Fun f a) = kweight o t) by lia. assert (E2 : kweight o t = kweight o u) by lia.
      destruct t as [y|g b]; [exfalso; exact (not_kbo_var o ar HA y u Hu H2)|].
      destruct u as [z|h c]; [apply kbo_var; auto; lia|].
      inversion H1; subst; try lia; inversion H2; subst; try lia.
      + apply kbo_prec; auto; [lia|]. eapply sp_trans; eauto.
      + apply kbo_prec; auto. lia.
      + apply kbo_prec; auto. lia.
      + apply kbo_lex; auto; [lia|].
        apply arok_fun in Hs, Ht, Hu. destruct Hs as [Ls Fs], Ht as [Lt Ft], Hu as [Lu Fu].
        eapply kbolex_trans; [congruence| |eassumption|eassumption].
        rewrite Forall_forall in *. intros x Hx y z Hy Hz. apply IH; auto.
  Qed.

  Lemma kbo_in_subterms : forall t u, ok t -> In u (subterms t) -> u = t \/ kbo o t u.
  Proof.
    induction t as [x|f a IH] using term_ind'; intros u Hok Hin.
    - simpl in Hin. destruct Hin as [<-|[]]. auto.
    - simpl in Hin. destruct Hin as [<-|Hin]; auto. right.
      apply in_flat_map in Hin. destruct Hin as [v [Hv Hu]].
      assert (Hokv : ok v) by (apply arok_fun in Hok; destruct Hok as [_ HF]; rewrite Forall_forall in HF; auto).
      pose proof (kbo_subterm _ v f a eq_refl Hok Hv) as K1.
      rewrite Forall_forall in IH. destruct (IH v Hv u Hokv Hu) as [->|K2]; auto.
      eapply kbo_trans with (t := v); auto.
      clear - Hokv Hu. revert Hokv Hu. induction v as [x|f a IH] using term_ind'; intros Hok Hin.
      + simpl in Hin. destruct Hin as [<-|[]]. auto.
      + simpl in Hin. destruct Hin as [<-|Hin]; auto.
        apply in_flat_map in Hin. destruct Hin as [v [Hv Hu]].
        rewrite Forall_forall in IH. apply (IH v); auto.
        apply arok_fun in Hok; destruct Hok as [_ HF]; rewrite Forall_forall in HF; auto.
  Qed.

  Lemma kbo_mono f l r s t : kbo o s t -> kbo o (Fun f (l ++ s :: r)) (Fun f (l ++ t :: r)).
  Proof.
    intros H. pose proof (kbo_varcond_weight _ _ _ H) as [V W].
    assert (HV : varcond (Fun f (l ++ s :: r)) (Fun f (l ++ t :: r))).
    { intros x. specialize (V x). rewrite !vcount_fun, !lcount_app, !lcount_cons. lia. }
    destruct (Z.eq_dec (kweight o s) (kweight o t)) as [E|E].
    - apply kbo_lex; auto.
      + rewrite !kweight_fun, !lweight_app, !lweight_cons. lia.
      + clear HV. induction l as [|z l IH]; simpl; [apply lex_here; auto | apply lex_later; auto].
    - apply kbo_weight; auto. rewrite !kweight_fun, !lweight_app, !lweight_cons. lia.
  Qed.

  Lemma arok_app s t : (forall x, ok (s x)) -> ok t -> ok (app s t).
  Proof.
    intros Hs. induction t as [x|f a IH] using term_ind'; intros H; [apply Hs|].
    simpl app. apply arok_fun in H. destruct H as [HL HF]. apply arok_fun. rewrite map_length. split; auto.
    rewrite Forall_forall in *. intros u Hu. apply in_map_iff in Hu. destruct Hu as [v [<- Hv]]. auto.
  Qed.

  Lemma kbo_stable_aux (sg : subst) : (forall x, ok (sg x)) ->
    (forall s t, kbo o s t -> ok s -> ok t -> kbo o (app sg s) (app sg t)) /\
    (forall a b, kbolex o a b -> Forall (fun t => ok t) a -> Forall (fun t => ok t) b ->
        kbolex o (map (app sg) a) (map (app sg) b)).
  Proof.
    intros Hsg.
    assert (HW : forall s t, varcond s t ->
      (kweight o (app sg t) - kweight o t <= kweight o (app sg s) - kweight o s)%Z).
    { intros s t H. rewrite !kweight_app.
      assert (sumv (fun x => kweight o (sg x) - vw o) (vars t) <= sumv (fun x => kweight o (sg x) - vw o) (vars s))%Z; [|lia].
      apply sumv_mono; auto. intros x. pose proof (kweight_ge_vw o ar HA (sg x) (Hsg x)). lia. }
    apply kbo_mutind.
    - intros s t V W _ _. specialize (HW _ _ V). apply kbo_weight; [apply varcond_app; auto|lia].
    - intros f a x V W Hs Ht.
      assert (Hin : In x (vars (Fun f a))).
      { apply vcount_in. specialize (V x). rewrite vcount_var, Nat.eqb_refl in V. auto. }
      assert (HS : In (sg x) (subterms (app sg (Fun f a)))).
      { clear - Hin. revert Hin. generalize (Fun f a). induction t as [y|g b IH] using term_ind'; simpl; intros Hin.
        - destruct Hin as [->|[]]. destruct (sg x); left; auto.
        - right. apply in_flat_map in Hin. destruct Hin as [u [Hu Hx]]. apply in_flat_map.
          exists (app sg u). split; [apply in_map; auto|]. rewrite Forall_forall in IH. auto. }
      destruct (kbo_in_subterms _ _ (arok_app sg _ Hsg Hs) HS) as [E|K]; auto.
      (* the instance of the variable cannot be the whole term: sizes *)
      exfalso. simpl in Hin. apply in_flat_map in Hin. destruct Hin as [u [Hu Hx]].
      pose proof (size_var_app sg u x Hx) as S1.
      pose proof (size_arg f (map (app sg) a) (app sg u) (in_map _ _ _ Hu)) as S2.
      simpl app in E. rewrite E in S1. lia.
    - intros f a g b V W P Hs Ht. specialize (HW _ _ V). pose proof (varcond_app sg _ _ V) as V'.
      destruct (Z.eq_dec (kweight o (app sg (Fun f a))) (kweight o (app sg (Fun g b)))).
      + simpl app. apply kbo_prec; auto.
      + apply kbo_weight; auto. lia.
    - intros f a b V W HLx IHx Hs Ht. specialize (HW _ _ V). pose proof (varcond_app sg _ _ V) as V'.
      destruct (Z.eq_dec (kweight o (app sg (Fun f a))) (kweight o (app sg (Fun f b)))).
      + apply arok_fun in Hs, Ht. simpl app. apply kbo_lex; auto. apply IHx; tauto.
      + apply kbo_weight; auto. lia.
    - intros x y a b H IH HL Fa Fb. inversion Fa; subst. inversion Fb; subst. simpl.
      apply lex_here; auto. rewrite !map_length. auto.
    - intros z a b H IH Fa Fb. inversion Fa; subst. inversion Fb; subst. simpl. apply lex_later. auto.
  Qed.

  Lemma kbo_stable sg s t : (forall x, ok (sg x)) -> ok s -> ok t -> kbo o s t -> kbo o (app sg s) (app sg t).
  Proof. intros H1 H2 H3 H4. apply (kbo_stable_aux sg H1); auto. Qed.

  (** ** Well-foundedness *)

  (** symbols of the term belong to a class of symbols *)
  Fixpoint insig (Q : sym -> bool) (t : term) : bool :=
    match t with Var _ => true | Fun f a => Q f && forallb (insig Q) a end.

  Variable Q : sym -> bool.
  Hypothesis HQ : well_founded (fun g f => prec o f g = Greater /\ Q f = true /\ Q g = true).

  Definition good (t : term) : Prop := arok ar t = true /\ insig Q t = true.
  Definition klt (u t : term) : Prop := kbo o t u /\ good t /\ good u.

  Lemma good_args f a : good (Fun f a) -> Forall good a.
  Proof.
    intros [H1 H2]. apply arok_fun in H1. destruct H1 as [_ H1]. simpl in H2. apply andb_true_iff in H2.
    destruct H2 as [_ H2]. rewrite forallb_forall in H2. rewrite Forall_forall in *. intros x Hx. split; auto.
  Qed.

  Definition accs (l : list term) : Prop := Forall (fun t => Acc klt t /\ good t) l.
  Definition klexlt (b a : list term) : Prop := kbolex o a b /\ accs b.

  Lemma klexlt_acc : forall n a, length a = n -> accs a -> Acc klexlt a.
  Proof.
    induction n as [|n IH]; intros a HL HF.
    - destruct a; [|discriminate]. constructor. intros b [H _]. inversion H.
    - destruct a as [|x a]; [discriminate|]. injection HL as HL.
      pose proof (Forall_inv HF) as [Ax Gx]. pose proof (Forall_inv_tail HF) as Ha.
      revert a HL Ha HF. induction Ax as [x Ax IHx]. intros a HL Ha HF.
      pose proof (IH a HL Ha) as Aa. clear HF. revert HL Ha. induction Aa as [a Aa IHa]. intros HL Ha.
      constructor. intros b [H1 H2]. inversion H1; subst.
      + inversion H2 as [|? ? [Ay Gy] Hb]; subst. apply IHx; auto. split; auto.
      + inversion H2 as [|? ? [Ay Gy] Hb]; subst. apply IHa; auto.
        * split; auto.
        * symmetry. match goal with HK : kbolex o a _ |- _ => apply kbolex_length in HK; congruence end.
  Qed.

  Lemma acc_var x : Acc klt (Var x).
  Proof. constructor. intros u [H [_ [Hu _]]]. exfalso. exact (not_kbo_var o ar HA x u Hu H). Qed.

  Lemma acc_fun : forall w f a, (kweight o (Fun f a) = Z.of_nat w)%Z -> good (Fun f a) -> accs a -> Acc klt (Fun f a).
  Proof.
    induction w as [w IHw] using (well_founded_induction lt_wf).
    intros f. induction f as [f IHf] using (well_founded_induction HQ).
    intros a EW Gt Aa. pose proof (klexlt_acc (length a) a eq_refl Aa) as AL.
    revert EW Gt Aa. induction AL as [a _ IHa]. intros EW Gt Aa.
    constructor. intros u [K [_ Gu]]. revert K Gu.
    induction u as [x|g b IHu] using term_ind'; intros K Gu; [apply acc_var|].
    assert (Ab : accs b).
    { pose proof (good_args _ _ Gu) as Gb. unfold accs. rewrite Forall_forall in *. intros v Hv. split; auto.
      apply IHu; auto. eapply kbo_trans with (t := Fun g b); try (apply Gt || apply Gu || apply Gb); auto.
      eapply kbo_subterm; eauto. apply Gu. }
    pose proof (kweight_nonneg o (Fun g b) Hfw Hvw') as NN.
    pose proof (kbo_varcond_weight _ _ _ K) as [_ WW].
    destruct (Z.lt_ge_cases (kweight o (Fun g b)) (kweight o (Fun f a))) as [W|W].
    { apply (IHw (Z.to_nat (kweight o (Fun g b)))); auto; lia. }
    assert (EW' : kweight o (Fun g b) = Z.of_nat w) by lia.
    inversion K; subst; try lia.
    - apply IHf; auto. split; auto. destruct Gt as [_ Gt]. destruct Gu as [_ Gu].
      simpl in Gt, Gu. apply andb_true_iff in Gt, Gu. tauto.
    - apply IHa; auto. split; auto.
  Qed.

  Lemma kbo_wf_all : forall t, good t -> Acc klt t.
  Proof.
    induction t as [x|f a IH] using term_ind'; intros G; [apply acc_var|].
    apply (acc_fun (Z.to_nat (kweight o (Fun f a)))); auto.
    - pose proof (kweight_nonneg o (Fun f a) Hfw Hvw'). lia.
    - pose proof (good_args _ _ G) as Ga. unfold accs. rewrite Forall_forall in *. auto.
  Qed.

  Lemma kbo_wf : well_founded klt.
  Proof. intros t. constructor. intros u [_ [_ G]]. apply kbo_wf_all. exact G. Qed.

End Order.

(** A strict precedence on a finite signature is well-founded. *)
Lemma finite_prec_wf (p : sym -> sym -> cmp) (sig : list sym) : strict_prec p ->
  well_founded (fun g f => p f g = Greater /\ existsb (Nat.eqb f) sig = true /\ existsb (Nat.eqb g) sig = true).
Proof.
  intros [HI HTr].
  set (R := fun g f => p f g = Greater /\ existsb (Nat.eqb f) sig = true /\ existsb (Nat.eqb g) sig = true).
  set (below := fun f => filter (fun g => cmp_eqb (p f g) Greater) (nodup Nat.eq_dec sig)).
  assert (HB : forall g f, R g f -> length (below g) < length (below f)).
  { intros g f [H1 [H2 H3]]. unfold below.
    assert (Hg : In g (nodup Nat.eq_dec sig)).
    { apply nodup_In. apply existsb_exists in H3. destruct H3 as [z [Hz E]]. apply Nat.eqb_eq in E. subst. auto. }
    assert (HC : forall c, cmp_eqb c Greater = true <-> c = Greater) by (intros []; split; simpl; congruence).
    pose proof (NoDup_nodup Nat.eq_dec sig) as ND.
    assert (NoDup (g :: filter (fun h => cmp_eqb (p g h) Greater) (nodup Nat.eq_dec sig))).
    { constructor; [|apply NoDup_filter; auto]. intros HH. apply filter_In in HH. destruct HH as [_ HH].
      apply HC in HH. exact (HI _ HH). }
    change (length (g :: filter (fun h => cmp_eqb (p g h) Greater) (nodup Nat.eq_dec sig)) <=
            length (filter (fun h => cmp_eqb (p f h) Greater) (nodup Nat.eq_dec sig))).
    apply NoDup_incl_length; auto. intros h [<-|Hh]; apply filter_In.
    - split; auto. apply HC; auto.
    - apply filter_In in Hh. destruct Hh as [Hh1 Hh2]. split; auto. apply HC in Hh2. apply HC. eauto. }
  apply (wf_incl _ _ (fun a b => length (below a) < length (below b))); [exact HB|].
  apply well_founded_ltof.
Qed.

Lemma kbo_ground_total o ar : total_prec (prec o) -> forall s t, arok ar s = true -> arok ar t = true ->
  vars s = [] -> vars t = [] -> s = t \/ kbo o s t \/ kbo o t s.
Proof.
  intros HT. induction s as [x|f a IH] using term_ind'; intros t Hs Ht Gs Gt; [discriminate|].
  destruct t as [y|g b]; [discriminate|].
  assert (HV : forall u v, vars u = [] -> varcond v u).
  { intros u v E x. unfold vcount. rewrite E. simpl. lia. }
  destruct (Z.lt_trichotomy (kweight o (Fun f a)) (kweight o (Fun g b))) as [W|[W|W]].
  - right. right. apply kbo_weight; auto.
  - destruct (Nat.eq_dec f g) as [<-|N].
    + assert (HX : a = b \/ kbolex o a b \/ kbolex o b a).
      { apply arok_fun in Hs, Ht. destruct Hs as [Ls Fs], Ht as [Lt Ft]. simpl in Gs, Gt. rewrite <- Lt in Ls. clear W Lt.
        revert b Ls Ft Gt Fs Gs. induction IH as [|x a Hx Ha IHa]; intros [|y b] HL Ft Gt Fs Gs; try discriminate; auto.
        simpl in *. apply app_eq_nil in Gs, Gt. inversion Ft; subst. inversion Fs; subst.
        destruct Gs, Gt. destruct (Hx y) as [->|[K|K]]; auto.
        - destruct (IHa b) as [->|[K|K]]; auto.
          + right. left. apply lex_later. auto.
          + right. right. apply lex_later. auto.
        - right. left. apply lex_here; [auto|lia].
        - right. right. apply lex_here; [auto|lia]. }
      destruct HX as [->|[K|K]]; auto; right; [left|right]; apply kbo_lex; auto.
    + right. destruct (tp_total _ HT f g N) as [P|P]; [left|right]; apply kbo_prec; auto.
      rewrite (tp_inv _ HT g f), P. reflexivity.
  - right. left. apply kbo_weight; auto.
Qed.

Lemma total_strict p : total_prec p -> strict_prec p.
Proof. intros [A B C D]. split; auto. intros f. rewrite A. discriminate. Qed.
