(** * Proofs: LPO4 decides the lexicographic path ordering. *)
From Verif Require Import Terms KBO KBOProofs LPO LPOProofs.

(** Pure reading: [d] = number of nested calls still allowed. *)
Definition alphap (gt : term -> term -> bool) l t := existsb (fun u => term_eqb u t || gt u t) l.
Definition majop (gt : term -> term -> bool) s l := forallb (gt s) l.
Fixpoint lexmap (gt : term -> term -> bool) (s t : term) (a b : list term) : bool :=
  match a with
  | [] => false
  | x :: a' => match b with
               | [] => true
               | y :: b' => if term_eqb x y then lexmap gt s t a' b'
                            else if gt x y then majop gt s b' else alphap gt a' t
               end
  end.
Fixpoint lpo4p (d : nat) (p : sym -> sym -> cmp) (s t : term) : bool :=
  match d with
  | O => false
  | S n => match s with
           | Var _ => false
           | Fun f a => match t with
                        | Var _ => is_subterm s t
                        | Fun g b => match p f g with
                                     | Greater => majop (lpo4p n p) s b
                                     | Equal => lexmap (lpo4p n p) s t a b
                                     | _ => alphap (lpo4p n p) a t
                                     end
                        end
           end
  end.

Section Pure.
  Variables (gt : nat -> term -> term -> dres) (g : term -> term -> bool) (dep : nat).
  Hypothesis HG : forall s t, gt dep s t = Some (g s t, dep).
  Lemma alpha_pure t : forall l, alpha gt l t dep = Some (alphap g l t, dep).
  Proof.
    induction l as [|u l IH]; auto. simpl. destruct (term_eqb u t); auto. rewrite HG.
    destruct (g u t); auto.
  Qed.
  Lemma majo_pure s : forall l, majo gt s l dep = Some (majop g s l, dep).
  Proof. induction l as [|u l IH]; auto. simpl. rewrite HG. destruct (g s u); auto. Qed.
  Lemma lexma_pure s t : forall a b, lexma gt s t a b dep = Some (lexmap g s t a b, dep).
  Proof.
    induction a as [|x a IH]; intros [|y b]; auto. simpl. destruct (term_eqb x y); auto. rewrite HG.
    destruct (g x y); [apply majo_pure | apply alpha_pure].
  Qed.
End Pure.

Lemma lpo4_pure p limit : forall fuel dep s t, limit + 1 - dep < fuel ->
  lpo4 fuel limit p dep s t = Some (lpo4p (limit + 1 - dep) p s t, dep).
Proof.
  induction fuel as [|n IH]; intros dep s t H; [lia|]. cbn [lpo4].
  destruct (Nat.ltb_spec limit dep) as [L|L].
  - replace (limit + 1 - dep) with 0 by lia. reflexivity.
  - destruct (limit + 1 - dep) as [|d] eqn:E; [lia|]. cbn [lpo4p].
    assert (ED : limit + 1 - S dep = d) by lia.
    assert (HG : forall s t, lpo4 n limit p (S dep) s t = Some (lpo4p d p s t, S dep)).
    { intros s' t'. rewrite IH; [rewrite ED; reflexivity|lia]. }
    assert (R : forall b : bool, (match Some (b, S dep) with Some (b, dep2) => Some (b, dep2 - 1) | None => None end) = Some (b, dep))
      by (intros b; simpl; rewrite Nat.sub_0_r; reflexivity).
    destruct s as [x|f a]; [apply R|]. destruct t as [y|g b]; [apply R|].
    destruct (p f g).
    + rewrite (alpha_pure _ _ _ HG). apply R.
    + rewrite (lexma_pure _ _ _ HG). apply R.
    + rewrite (majo_pure _ _ _ HG). apply R.
    + rewrite (alpha_pure _ _ _ HG). apply R.
Qed.

Lemma is_subterm_var f a y : is_subterm (Fun f a) (Var y) = true <-> In y (vars (Fun f a)).
Proof.
  unfold is_subterm. rewrite existsb_exists.
  assert (HX : forall t, In (Var y) (subterms t) <-> In y (vars t)).
  { induction t as [x|g b IH] using term_ind'.
    - simpl. split; intros [E|[]]; left; congruence.
    - simpl. split.
      + intros [E|H]; [discriminate|]. apply in_flat_map in H. destruct H as [u [Hu Hy]]. apply in_flat_map.
        exists u. split; auto. rewrite Forall_forall in IH. apply IH; auto.
      + intros H. right. apply in_flat_map in H. destruct H as [u [Hu Hy]]. apply in_flat_map.
        exists u. split; auto. rewrite Forall_forall in IH. apply IH; auto. }
  rewrite <- HX. split.
  - intros [u [Hu E]]. apply term_eqb_eq in E. subst. auto.
  - intros H. exists (Var y). split; auto. apply term_eqb_eq. reflexivity.
Qed.

Section Decide.
  Variables (p : sym -> sym -> cmp) (ar : sym -> nat).
  Hypothesis HP : lpo_precedence p.
  Notation ok t := (arok ar t = true).

  Lemma args_ok f a u : ok (Fun f a) -> In u a -> ok u.
  Proof. intros H Hu. apply arok_fun in H. destruct H as [_ H]. rewrite Forall_forall in H. auto. Qed.

  (** soundness, at every depth limit *)
  Lemma lpo4p_sound : forall d s t, ok s -> ok t -> lpo4p d p s t = true -> lpo p s t.
  Proof.
    induction d as [|n IH]; intros s t Hs Ht H; [discriminate|].
    destruct s as [x|f a]; [discriminate|]. destruct t as [y|g b].
    { apply lpo_var_subterm. split; auto. cbn [lpo4p] in H. apply is_subterm_var in H. auto. }
    cbn [lpo4p] in H.
    assert (HA : forall l, incl l a -> alphap (lpo4p n p) l (Fun g b) = true -> lpo p (Fun f a) (Fun g b)).
    { intros l Hl HH. apply existsb_exists in HH. destruct HH as [u [Hu HH]]. apply orb_true_iff in HH.
      apply (lpo_ge_sub p f a u); auto. destruct HH as [HH|HH]; [left; apply term_eqb_eq; auto|right].
      apply IH; auto. exact (args_ok f a u Hs (Hl u Hu)). }
    assert (HM : forall l, incl l b -> majop (lpo4p n p) (Fun f a) l = true -> forall v, In v l -> lpo p (Fun f a) v).
    { intros l Hl HH v Hv. unfold majop in HH. rewrite forallb_forall in HH. apply IH; auto. exact (args_ok g b v Ht (Hl v Hv)). }
    destruct (p f g) eqn:E.
    - apply (HA a); auto. intros u; auto.
    - apply (lp_equal _ HP) in E. subst g.
      assert (HL : length a = length b) by (apply arok_fun in Hs, Ht; destruct Hs, Ht; congruence).
      assert (HX : forall q a0 b0, a = q ++ a0 -> b = q ++ b0 -> lexmap (lpo4p n p) (Fun f a) (Fun f b) a0 b0 = true ->
                lpo p (Fun f a) (Fun f b)).
      { intros q a0. revert q. induction a0 as [|x a0 IHa]; intros q b0 Ea Eb HH; [discriminate|].
        destruct b0 as [|y b0].
        { exfalso. rewrite Ea, Eb, !app_length in HL. simpl in HL. lia. }
        simpl in HH. destruct (term_eqb x y) eqn:Exy.
        - apply term_eqb_eq in Exy. subst y. apply (IHa (q ++ [x]) b0); auto; rewrite <- app_assoc; auto.
        - destruct (lpo4p n p x y) eqn:Hxy.
          + assert (Hx : In x a) by (subst a; apply in_or_app; right; left; auto).
            assert (Hy : In y b) by (subst b; apply in_or_app; right; left; auto).
            assert (Kxy : lpo p x y) by (apply IH; [exact (args_ok f a x Hs Hx)|exact (args_ok f b y Ht Hy)|auto]).
            apply lpo_lex.
            * rewrite Ea, Eb, !app_length in HL. simpl in HL. assert (length a0 = length b0) by lia. rewrite Ea, Eb.
              clear - Kxy H0. induction q as [|z q IHq]; simpl; [apply lexr_here; auto | apply lexr_later; auto].
            * intros v Hv. rewrite Eb in Hv. apply in_app_or in Hv. destruct Hv as [Hv|[<-|Hv]].
              -- apply lpo_arg. rewrite Ea. apply in_or_app; auto.
              -- eapply lpo_sub; eauto.
              -- apply (HM b0); auto. intros w Hw. rewrite Eb. apply in_or_app. right; right; auto.
          + apply (HA a0); auto. intros w Hw. rewrite Ea. apply in_or_app. right; right; auto. }
      apply (HX [] a b); auto.
    - apply lpo_prec; auto. apply (HM b); auto. intros v; auto.
    - apply (HA a); auto. intros u; auto.
  Qed.

  (** completeness, when the limit is not smaller than the combined size *)
  Lemma lpo4p_complete : forall d s t, size s + size t <= d -> ok s -> ok t -> lpo p s t -> lpo4p d p s t = true.
  Proof.
    induction d as [|n IH]; intros s t Hd Hs Ht H; [pose proof (size_pos s); lia|].
    destruct s as [x|f a]; [inversion H|]. destruct t as [y|g b].
    { apply lpo_var_subterm in H. cbn [lpo4p]. apply is_subterm_var. tauto. }
    cbn [lpo4p].
    assert (Hbelow : forall v, In v b -> lpo p (Fun f a) v).
    { intros v Hv. eapply lpo_trans; eauto. apply lpo_arg; auto. }
    assert (HM : forall l, incl l b -> majop (lpo4p n p) (Fun f a) l = true).
    { intros l Hl. apply forallb_forall. intros v Hv. apply IH; auto.
      - pose proof (size_arg g b v (Hl v Hv)). lia.
      - exact (args_ok g b v Ht (Hl v Hv)). }
    assert (HA : forall l u, incl l a -> In u l -> (u = Fun g b \/ lpo p u (Fun g b)) -> alphap (lpo4p n p) l (Fun g b) = true).
    { intros l u Hl Hu Hc. apply existsb_exists. exists u. split; auto. apply orb_true_iff.
      destruct Hc as [->|Hc]; [left; apply term_eqb_eq; auto|right]. apply IH; auto.
      - pose proof (size_arg f a u (Hl u Hu)). lia.
      - exact (args_ok f a u Hs (Hl u Hu)). }
    assert (HS : p f g <> Greater -> f <> g -> alphap (lpo4p n p) a (Fun g b) = true).
    { intros N1 N2. inversion H as [? ? ? Hi|? ? ? ? Hi Hg|? ? ? ? Hp Hall|? ? ? Hl Hall]; subst; try congruence.
      - apply (HA a (Fun g b)); auto. intros w; auto.
      - apply (HA a u); auto. intros w; auto. }
    destruct (p f g) eqn:E.
    - apply HS; [discriminate|]. intros ->. rewrite (lp_refl _ HP) in E. discriminate.
    - apply (lp_equal _ HP) in E. subst g.
      assert (HL : length a = length b) by (apply arok_fun in Hs, Ht; destruct Hs, Ht; congruence).
      assert (HX : forall q a0 b0, a = q ++ a0 -> b = q ++ b0 -> lexmap (lpo4p n p) (Fun f a) (Fun f b) a0 b0 = true).
      { intros q a0. revert q. induction a0 as [|x a0 IHa]; intros q b0 Ea Eb.
        { destruct b0; [|rewrite Ea, Eb, !app_length in HL; simpl in HL; lia].
          exfalso. subst. exact (lpo_irrefl p HP _ H). }
        destruct b0 as [|y b0].
        { reflexivity. }
        assert (Hx : In x a) by (subst a; apply in_or_app; right; left; auto).
        assert (Hy : In y b) by (subst b; apply in_or_app; right; left; auto).
        simpl. destruct (term_eqb x y) eqn:Exy.
        - apply term_eqb_eq in Exy. subst y. apply (IHa (q ++ [x]) b0); rewrite <- app_assoc; auto.
        - destruct (lpo4p n p x y) eqn:Hxy.
          + apply HM. intros w Hw. rewrite Eb. apply in_or_app. right; right; auto.
          + assert (Nxy : ~ lpo p x y).
            { intros K. assert (lpo4p n p x y = true); [|congruence]. apply IH; auto.
              - pose proof (size_arg f a x Hx). pose proof (size_arg f b y Hy). lia.
              - exact (args_ok f a x Hs Hx).
              - exact (args_ok f b y Ht Hy). }
            assert (N : x <> y) by (intros ->; rewrite (proj2 (term_eqb_eq y y) eq_refl) in Exy; discriminate).
            assert (SUB : forall u, In u a -> (u = Fun f b \/ lpo p u (Fun f b)) -> alphap (lpo4p n p) a0 (Fun f b) = true).
            { intros u Hu Hc. rewrite Ea in Hu. apply in_app_or in Hu. destruct Hu as [Hu|[<-|Hu]].
              - exfalso. assert (Hub : In u b) by (rewrite Eb; apply in_or_app; auto).
                destruct Hc as [->|Hc].
                + pose proof (size_arg f b _ Hub). lia.
                + apply (lpo_irrefl p HP u). eapply lpo_trans; eauto. apply lpo_arg; auto.
              - exfalso. apply Nxy. destruct Hc as [->|Hc]; [apply lpo_arg; auto|].
                eapply lpo_trans; eauto. apply lpo_arg; auto.
              - apply (HA a0 u); auto. intros w Hw. rewrite Ea. apply in_or_app. right; right; auto. }
            inversion H as [? ? ? Hi|? ? ? ? Hi Hg|? ? ? ? Hp Hall|? ? ? Hl Hall]; subst.
            * apply (SUB (Fun f (q ++ y :: b0))); auto.
            * eapply SUB; eauto.
            * rewrite (lp_refl _ HP) in Hp. discriminate.
            * exfalso. clear - Hl Nxy N HP. induction q as [|z q IHq]; simpl in Hl; inversion Hl; subst; auto.
              match goal with HH : lpo p z z |- _ => exact (lpo_irrefl p HP _ HH) end. }
      apply (HX [] a b); auto.
    - apply HM. intros v; auto.
    - apply HS; [discriminate|]. intros ->. rewrite (lp_refl _ HP) in E. discriminate.
  Qed.
End Decide.
