(** * Proofs about the lexicographic path ordering and LPO4. *)
From Verif Require Import Terms KBO KBOProofs KBOOrder LPO.
From Coq Require Import Wellfounded.

Lemma lexr_length R a b : lexr R a b -> length a = length b.
Proof. induction 1; simpl; congruence. Qed.

Lemma lexr_mono (R R' : term -> term -> Prop) a b :
  (forall x y, In x a -> In y b -> R x y -> R' x y) -> lexr R a b -> lexr R' a b.
Proof.
  intros H L. induction L as [x y a b HR HL|z a b L IH].
  - apply lexr_here; auto. apply H; [left|left|]; auto.
  - apply lexr_later. apply IH. intros x y Hx Hy. apply H; right; auto.
Qed.

Lemma lexr_irrefl R a : (forall x, In x a -> ~ R x x) -> ~ lexr R a a.
Proof.
  intros H L. assert (E : forall a b, lexr R a b -> a = b -> (forall x, In x a -> ~ R x x) -> False).
  { clear. induction 1; intros E H'; injection E; intros; subst.
    - eapply H'; [left; reflexivity|eauto].
    - apply IHlexr; auto. intros x Hx. apply H'. right; auto. }
  exact (E a a L eq_refl H).
Qed.

Section LPO.
  Variable p : sym -> sym -> cmp.
  Hypothesis HP : lpo_precedence p.

  Notation gt := (lpo p).

  Lemma not_lpo_var x t : ~ gt (Var x) t.
  Proof. intros H. inversion H. Qed.

  Lemma lpo_ge_sub f a u t : In u a -> (u = t \/ gt u t) -> gt (Fun f a) t.
  Proof. intros H [->|K]; [apply lpo_arg; auto | eapply lpo_sub; eauto]. Qed.

  Lemma lpo_trans_n : forall n s t u, size s + size t + size u <= n -> gt s t -> gt t u -> gt s u.
  Proof.
    induction n as [|n IH]; intros s t u Hn H1 H2.
    { pose proof (size_pos s). lia. }
    assert (Hsub : forall f a v, s = Fun f a -> In v a -> (v = t \/ gt v t) -> gt s u).
    { intros f a v -> Hv Hc. apply (lpo_ge_sub f a v u Hv). right.
      pose proof (size_arg f a v Hv). destruct Hc as [->|Hc]; auto. apply (IH v t u); auto. lia. }
    assert (Hmid : forall f a g b, s = Fun f a -> t = Fun g b -> (forall v, In v b -> gt s v) ->
              (forall h c, u = Fun h c -> (forall v, In v c -> gt s v) -> gt t u -> (p g h = Greater \/ (g = h /\ lexr gt b c)) -> gt s u) -> gt s u).
    { intros f a g b Es Et Hall K. subst t. inversion H2; subst.
      - apply Hall; auto.
      - pose proof (size_arg g b u0 H3). apply (IH (Fun f a) u0 u); auto. lia.
      - eapply K; eauto. intros v Hv. pose proof (size_arg g0 b0 v Hv).
        apply (IH (Fun f a) (Fun g b) v); auto. lia.
      - eapply K; eauto. intros v Hv. pose proof (size_arg g b0 v Hv).
        apply (IH (Fun f a) (Fun g b) v); auto. lia. }
    inversion H1; subst.
    - eapply Hsub; eauto.
    - eapply Hsub; eauto.
    - eapply Hmid; eauto. intros h c -> Hc Hg [Hp|[<- Hl]].
      + apply lpo_prec; auto. eapply lp_trans; eauto.
      + apply lpo_prec; auto.
    - eapply Hmid; eauto. intros h c -> Hc Hg [Hp|[<- Hl]].
      + apply lpo_prec; auto.
      + apply lpo_lex; auto.
        assert (HX : forall a b c, lexr gt a b -> lexr gt b c ->
           (forall x y z, In x a -> In y b -> In z c -> gt x y -> gt y z -> gt x z) -> lexr gt a c).
        { clear. intros a b c H1. revert c. induction H1 as [x y a b HR HL|z a b L IHL]; intros c H2 HT; inversion H2; subst.
          - apply lexr_here; [|congruence]. apply (HT x y y0); auto; left; auto.
          - apply lexr_here; auto. match goal with H : lexr _ b _ |- _ => apply lexr_length in H end. congruence.
          - apply lexr_here; auto. apply lexr_length in L. congruence.
          - apply lexr_later. apply IHL; auto. intros x y w Hx Hy Hw. apply HT; right; auto. }
        eapply HX; eauto. intros x y z Hx Hy Hz.
        pose proof (size_arg f a x Hx). pose proof (size_arg f b y Hy). pose proof (size_arg f c z Hz).
        apply IH. lia.
  Qed.

  Lemma lpo_trans s t u : gt s t -> gt t u -> gt s u.
  Proof. apply (lpo_trans_n (size s + size t + size u)). lia. Qed.

  Lemma lpo_irrefl : forall t, ~ gt t t.
  Proof.
    induction t as [x|f a IH] using term_ind'; intros H; [exact (not_lpo_var _ _ H)|].
    rewrite Forall_forall in IH. inversion H as [? ? ? Hi|? ? ? ? Hi Hg|? ? ? ? Hp Hall|? ? ? Hl Hall]; subst.
    - apply size_arg with (f := f) in Hi. lia.
    - apply (IH u Hi). eapply lpo_trans; [eassumption|]. apply lpo_arg; auto.
    - rewrite (lp_refl _ HP) in Hp. discriminate.
    - exact (lexr_irrefl _ _ IH Hl).
  Qed.

  Lemma lpo_subterms t u : In u (subterms t) -> u = t \/ gt t u.
  Proof.
    induction t as [x|f a IH] using term_ind'; intros Hin.
    - simpl in Hin. destruct Hin as [<-|[]]. auto.
    - simpl in Hin. destruct Hin as [<-|Hin]; auto. right.
      apply in_flat_map in Hin. destruct Hin as [v [Hv Hu]]. rewrite Forall_forall in IH.
      apply (lpo_ge_sub f a v u Hv). destruct (IH v Hv Hu); auto.
  Qed.

  Lemma lpo_mono f l r s t : gt s t -> gt (Fun f (l ++ s :: r)) (Fun f (l ++ t :: r)).
  Proof.
    intros H. apply lpo_lex.
    - induction l as [|z l IH]; simpl; [apply lexr_here; auto | apply lexr_later; auto].
    - intros v Hv. apply in_app_or in Hv. destruct Hv as [Hv|[->|Hv]].
      + apply lpo_arg. apply in_or_app. auto.
      + eapply lpo_sub; [|exact H]. apply in_or_app. right; left; auto.
      + apply lpo_arg. apply in_or_app. right; right; auto.
  Qed.

  Lemma lpo_stable sg : forall n s t, size s + size t <= n -> gt s t -> gt (app sg s) (app sg t).
  Proof.
    induction n as [|n IH]; intros s t Hn H; [pose proof (size_pos s); lia|].
    inversion H as [? ? ? Hi|? ? ? ? Hi Hg|? ? ? ? Hp Hall|? ? ? Hl Hall]; subst; simpl app.
    - apply lpo_arg. apply in_map; auto.
    - pose proof (size_arg f a u Hi). eapply lpo_sub; [apply in_map; eauto|]. apply IH; auto. lia.
    - apply lpo_prec; auto. intros v Hv. apply in_map_iff in Hv. destruct Hv as [w [<- Hw]].
      pose proof (size_arg g b w Hw). apply (IH (Fun f a) w); auto. lia.
    - apply lpo_lex.
      + assert (HX : forall a b, lexr gt a b -> (forall x y, In x a -> In y b -> gt x y -> gt (app sg x) (app sg y)) ->
             lexr gt (map (app sg) a) (map (app sg) b)).
        { clear. induction 1; intros HH; simpl.
          - apply lexr_here; [apply HH; auto; left; auto|]. rewrite !map_length. auto.
          - apply lexr_later. apply IHlexr. intros x y Hx Hy. apply HH; right; auto. }
        apply HX; auto. intros x y Hx Hy. pose proof (size_arg f a x Hx). pose proof (size_arg f b y Hy).
        apply IH. lia.
      + intros v Hv. apply in_map_iff in Hv. destruct Hv as [w [<- Hw]].
        pose proof (size_arg f b w Hw). apply (IH (Fun f a) w); auto. lia.
  Qed.

  Lemma lpo_var_subterm : forall s y, gt s (Var y) <-> isVar s = false /\ In y (vars s).
  Proof.
    induction s as [x|f a IH] using term_ind'; intros y.
    - split; [intros H; inversion H|intros [H _]; discriminate].
    - rewrite Forall_forall in IH. simpl. split.
      + intros H. split; auto. apply in_flat_map. inversion H; subst.
        * exists (Var y). split; auto. left; auto.
        * exists u. split; auto. apply IH; auto.
      + intros [_ H]. apply in_flat_map in H. destruct H as [u [Hu Hy]].
        destruct u as [z|g b].
        * simpl in Hy. destruct Hy as [->|[]]. apply lpo_arg; auto.
        * eapply lpo_sub; eauto. apply IH; auto.
  Qed.

  (** ** Well-foundedness *)
  Variable Q : sym -> bool.
  Hypothesis HQ : well_founded (fun g f => p f g = Greater /\ Q f = true /\ Q g = true).

  Definition lgood (t : term) : Prop := insig Q t = true.
  Definition llt (u t : term) : Prop := gt t u /\ lgood t /\ lgood u.

  Lemma lgood_args f a : lgood (Fun f a) -> Forall lgood a.
  Proof.
    unfold lgood. simpl. intros H. apply andb_true_iff in H. destruct H as [_ H]. rewrite forallb_forall in H.
    rewrite Forall_forall. auto.
  Qed.

  Definition laccs (l : list term) : Prop := Forall (fun t => Acc llt t /\ lgood t) l.
  Definition llexlt (b a : list term) : Prop := lexr gt a b /\ laccs b.

  Lemma llexlt_acc : forall n a, length a = n -> laccs a -> Acc llexlt a.
  Proof.
    induction n as [|n IH]; intros a HL HF.
    - destruct a; [|discriminate]. constructor. intros b [H _]. inversion H.
    - destruct a as [|x a]; [discriminate|]. injection HL as HL.
      pose proof (Forall_inv HF) as [Ax Gx]. pose proof (Forall_inv_tail HF) as Ha.
      revert a HL Ha HF. induction Ax as [x Ax IHx]. intros a HL Ha HF.
      pose proof (IH a HL Ha) as Aa. clear HF. revert HL Ha. induction Aa as [a Aa IHa]. intros HL Ha.
      constructor. intros b [H1 H2]. inversion H1; subst.
      + inversion H2 as [|? ? [Ay Gy] Hb]; subst. apply IHx; auto. split; auto.
      + inversion H2 as [|? ? [Ay Gy] Hb]; subst. apply IHa; auto.
        * split; auto.
        * symmetry. match goal with HK : lexr gt a _ |- _ => apply lexr_length in HK; congruence end.
  Qed.

  Lemma lacc_fun : forall f a, lgood (Fun f a) -> laccs a -> Acc llt (Fun f a).
  Proof.
    intros f. induction f as [f IHf] using (well_founded_induction HQ).
    intros a Gt Aa. pose proof (llexlt_acc (length a) a eq_refl Aa) as AL.
    revert Gt Aa. induction AL as [a _ IHa]. intros Gt Aa.
    constructor. intros u [K [_ Gu]]. revert K Gu.
    induction u as [x|g b IHu] using term_ind'; intros K Gu.
    { constructor. intros u [H _]. exfalso. exact (not_lpo_var _ _ H). }
    assert (Ab : (forall v, In v b -> gt (Fun f a) v) -> laccs b).
    { intros Hb. pose proof (lgood_args _ _ Gu) as Gb. unfold laccs. rewrite Forall_forall in *. intros v Hv. split; auto. }
    unfold laccs in Aa. rewrite Forall_forall in Aa.
    inversion K as [? ? ? Hi|? ? ? ? Hi Hg|? ? ? ? Hp Hall|? ? ? Hl Hall]; subst.
    - apply (Aa (Fun g b)); auto.
    - destruct (Aa u Hi) as [Au Gu']. apply Au. split; auto.
    - apply IHf; auto. split; auto. unfold lgood in *. simpl in Gt, Gu. apply andb_true_iff in Gt, Gu. tauto.
    - apply IHa; auto. split; auto.
  Qed.

  Lemma lpo_wf_all : forall t, lgood t -> Acc llt t.
  Proof.
    induction t as [x|f a IH] using term_ind'; intros G.
    { constructor. intros u [H _]. exfalso. exact (not_lpo_var _ _ H). }
    apply lacc_fun; auto. pose proof (lgood_args _ _ G) as Ga. unfold laccs. rewrite Forall_forall in *. auto.
  Qed.

  Lemma lpo_wf : well_founded llt.
  Proof. intros t. constructor. intros u [_ [_ G]]. apply lpo_wf_all. exact G. Qed.
End LPO.

Lemma lpo_ground_total p ar : lpo_precedence p -> total_prec p -> forall n s t, size s + size t <= n ->
  arok ar s = true -> arok ar t = true -> vars s = [] -> vars t = [] -> s = t \/ lpo p s t \/ lpo p t s.
Proof.
  intros HP HT. induction n as [|n IH]; intros s t Hn Hs Ht Gs Gt; [pose proof (size_pos s); lia|].
  destruct s as [x|f a]; [discriminate|]. destruct t as [y|g b]; [discriminate|].
  pose proof Hs as Hs'. pose proof Ht as Ht'. apply arok_fun in Hs', Ht'. destruct Hs' as [La Fa], Ht' as [Lb Fb].
  rewrite Forall_forall in Fa, Fb.
  assert (Ga : forall u, In u a -> vars u = []).
  { intros u Hu. simpl in Gs. destruct (vars u) as [|z l] eqn:E; auto. exfalso.
    assert (In z (flat_map vars a)) by (apply in_flat_map; exists u; split; auto; rewrite E; left; auto). rewrite Gs in H. destruct H. }
  assert (Gb : forall u, In u b -> vars u = []).
  { intros u Hu. simpl in Gt. destruct (vars u) as [|z l] eqn:E; auto. exfalso.
    assert (In z (flat_map vars b)) by (apply in_flat_map; exists u; split; auto; rewrite E; left; auto). rewrite Gt in H. destruct H. }
  assert (DA : (exists u, In u a /\ (u = Fun g b \/ lpo p u (Fun g b))) \/ forall u, In u a -> lpo p (Fun g b) u).
  { assert (HX : forall l, incl l a -> (exists u, In u l /\ (u = Fun g b \/ lpo p u (Fun g b))) \/ forall u, In u l -> lpo p (Fun g b) u).
    { induction l as [|u l IHl]; intros HI; [right; intros u []|].
      destruct IHl as [[v [Hv Hc]]|Hall]; [intros v Hv; apply HI; right; auto| |].
      - left. exists v. split; auto. right; auto.
      - assert (Hu : In u a) by (apply HI; left; auto). pose proof (size_arg f a u Hu).
        destruct (IH u (Fun g b)) as [E|[K|K]]; auto; try lia.
        + left. exists u. split; auto. left; auto.
        + left. exists u. split; auto. left; auto.
        + right. intros v [<-|Hv]; auto. }
    apply HX. intros u Hu; auto. }
  assert (DB : (exists u, In u b /\ (u = Fun f a \/ lpo p u (Fun f a))) \/ forall u, In u b -> lpo p (Fun f a) u).
  { assert (HX : forall l, incl l b -> (exists u, In u l /\ (u = Fun f a \/ lpo p u (Fun f a))) \/ forall u, In u l -> lpo p (Fun f a) u).
    { induction l as [|u l IHl]; intros HI; [right; intros u []|].
      destruct IHl as [[v [Hv Hc]]|Hall]; [intros v Hv; apply HI; right; auto| |].
      - left. exists v. split; auto. right; auto.
      - assert (Hu : In u b) by (apply HI; left; auto). pose proof (size_arg g b u Hu).
        destruct (IH (Fun f a) u) as [E|[K|K]]; auto; try lia.
        + left. exists u. split; auto. left; auto.
        + right. intros v [<-|Hv]; auto.
        + left. exists u. split; auto. left; auto. }
    apply HX. intros u Hu; auto. }
  destruct DA as [[u [Hu Hc]]|DA]; [right; left; eapply lpo_ge_sub; eauto|].
  destruct DB as [[u [Hu Hc]]|DB]; [right; right; eapply lpo_ge_sub; eauto|].
  destruct (Nat.eq_dec f g) as [<-|N].
  - assert (HX : a = b \/ lexr (lpo p) a b \/ lexr (lpo p) b a).
    { assert (HE : forall x y, In x a -> In y b -> x = y \/ lpo p x y \/ lpo p y x).
      { intros x y Hx Hy. pose proof (size_arg f a x Hx). pose proof (size_arg f b y Hy). apply IH; auto. lia. }
      rewrite <- Lb in La. clear - HE La. revert b La HE.
      induction a as [|x a IHa]; intros [|y b] HL HE; try discriminate; auto.
      simpl in HL. destruct (HE x y) as [->|[K|K]]; try (left; reflexivity).
      - destruct (IHa b) as [->|[K|K]]; auto; [intros; apply HE; right; auto| |].
        + right. left. apply lexr_later; auto.
        + right. right. apply lexr_later; auto.
      - right. left. apply lexr_here; [auto|lia].
      - right. right. apply lexr_here; [auto|lia]. }
    destruct HX as [->|[K|K]]; auto; right; [left|right]; apply lpo_lex; auto.
  - right. destruct (tp_total _ HT f g N) as [P|P]; [left|right]; apply lpo_prec; auto.
    rewrite (tp_inv _ HT g f), P. reflexivity.
Qed.
