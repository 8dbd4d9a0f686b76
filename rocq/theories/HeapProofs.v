(** * Proofs about the priority heap *)
From Coq Require Import Permutation.
From Verif Require Import Mem Queue QueueProofs Heap.

Section P.
  Context {A : Type}.
  Variable eqb : A -> A -> bool.
  Hypothesis eqb_ok : forall a b, eqb a b = true <-> a = b.
  Variable setter : bool.
  Implicit Types (h : heap A) (l : list A).

  Definition tracks h : Prop := forall i x, nth_error (harr h) i = Some x -> hidx h x = Some i.

  Lemma eqb_refl a : eqb a a = true. Proof. apply eqb_ok. auto. Qed.
  Lemma eqb_neq a b : a <> b -> eqb a b = false.
  Proof. intros N. destruct (eqb a b) eqn:E; auto. apply eqb_ok in E. tauto. Qed.

  Lemma set_nth_at l i v : i < length l -> nth_error (set_nth l i v) i = Some v.
  Proof.
    intros H. unfold set_nth. rewrite nth_error_app2 by (rewrite firstn_length; lia). rewrite firstn_length, Nat.min_l by lia.
    rewrite Nat.sub_diag. reflexivity.
  Qed.
  Lemma set_nth_other l i v k : i < length l -> k <> i -> nth_error (set_nth l i v) k = nth_error l k.
  Proof.
    intros H N. destruct (nth_error (set_nth l i v) k) as [w|] eqn:E.
    - apply set_nth_el in E; auto. destruct E as [[? _]|[_ E]]; [tauto|auto].
    - apply nth_error_None in E. rewrite set_nth_len in E by auto. symmetry. apply nth_error_None. auto.
  Qed.
  Lemma set_nth_perm l i v x : nth_error l i = Some x -> Permutation (x :: set_nth l i v) (v :: l).
  Proof.
    intros H. unfold set_nth. assert (E : l = firstn i l ++ x :: skipn (S i) l).
    { rewrite <- (firstn_skipn i l) at 1. f_equal. clear - H. revert l H. induction i; intros [|y l] H; simpl in *; try discriminate; [congruence|]. apply IHi. auto. }
    rewrite E at 3. rewrite <- !Permutation_middle. apply perm_swap.
  Qed.

  (** what a swap does *)
  Lemma swap_ok h i j a b : nth_error (harr h) i = Some a -> nth_error (harr h) j = Some b -> i <> j ->
    exists h', swap eqb setter h i j = Some h' /\ length (harr h') = length (harr h) /\ Permutation (harr h') (harr h) /\
      nth_error (harr h') i = Some b /\ nth_error (harr h') j = Some a /\
      (forall k, k <> i -> k <> j -> nth_error (harr h') k = nth_error (harr h) k) /\
      (forall x, ~ In x (harr h) -> hidx h' x = hidx h x) /\
      (setter = true -> NoDup (harr h) -> tracks h -> tracks h').
  Proof.
    intros Ha Hb N. unfold swap. rewrite Ha, Hb. eexists. split; [reflexivity|]. simpl.
    pose proof (nth_lt _ _ _ Ha). pose proof (nth_lt _ _ _ Hb).
    assert (Lb : length (set_nth (harr h) i b) = length (harr h)) by (apply set_nth_len; auto).
    assert (Ei : nth_error (set_nth (set_nth (harr h) i b) j a) i = Some b).
    { rewrite set_nth_other, set_nth_at by lia. auto. }
    assert (Ej : nth_error (set_nth (set_nth (harr h) i b) j a) j = Some a) by (rewrite set_nth_at by lia; auto).
    assert (Ek : forall k, k <> i -> k <> j -> nth_error (set_nth (set_nth (harr h) i b) j a) k = nth_error (harr h) k).
    { intros k Ki Kj. rewrite !set_nth_other by lia. auto. }
    split; [rewrite set_nth_len; lia|]. split.
    - assert (P1 : Permutation (a :: set_nth (harr h) i b) (b :: harr h)) by (apply set_nth_perm; auto).
      assert (P2 : Permutation (b :: set_nth (set_nth (harr h) i b) j a) (a :: set_nth (harr h) i b)).
      { apply set_nth_perm. rewrite set_nth_other by lia. auto. }
      eapply Permutation_cons_inv. rewrite P2. exact P1.
    - split; auto. split; auto. split; auto. split.
      + intros x Hx. unfold set_idx. destruct setter; auto. rewrite !eqb_neq; auto; intros ->; apply Hx; eapply nth_error_In; eauto.
      + intros St ND T k x Hk. simpl in *. unfold set_idx. rewrite St.
        assert (U : forall p q y, nth_error (harr h) p = Some y -> nth_error (harr h) q = Some y -> p = q).
        { intros p q y Hp Hq. pose proof (T _ _ Hp). pose proof (T _ _ Hq). congruence. }
        destruct (eqb b x) eqn:Eb.
        * apply eqb_ok in Eb. subst x. f_equal. destruct (Nat.eq_dec k i) as [->|Ki]; auto. destruct (Nat.eq_dec k j) as [->|Kj].
          -- rewrite Ej in Hk. inversion Hk; subst. elim N. apply (U i j b); auto.
          -- rewrite Ek in Hk by auto. elim Kj. apply (U k j b); auto.
        * destruct (eqb a x) eqn:Ea.
          -- apply eqb_ok in Ea. subst x. f_equal. destruct (Nat.eq_dec k j) as [->|Kj]; auto. destruct (Nat.eq_dec k i) as [->|Ki].
             ++ rewrite Ei in Hk. inversion Hk; subst. elim N. apply (U i j a); auto.
             ++ rewrite Ek in Hk by auto. elim Ki. apply (U k i a); auto.
          -- assert (k <> i) by (intros ->; rewrite Ei in Hk; inversion Hk; subst; rewrite eqb_refl in Eb; discriminate).
             assert (k <> j) by (intros ->; rewrite Ej in Hk; inversion Hk; subst; rewrite eqb_refl in Ea; discriminate).
             rewrite Ek in Hk by auto. apply T. auto.
  Qed.

  Variable lt : A -> A -> bool.
  Hypothesis WO : weak_order lt.
  Definition le (a b : A) : Prop := lt b a = false.
  Lemma le_trans a b c : le a b -> le b c -> le a c.
  Proof. unfold le. intros. eapply wo_trans; eauto. Qed.
  Lemma lt_le a b : lt a b = true -> le a b.
  Proof. unfold le. apply wo_asym. auto. Qed.
  Lemma le_refl a : le a a.
  Proof. unfold le. destruct (lt a a) eqn:E; auto. pose proof (wo_asym _ WO _ _ E). congruence. Qed.

  Definition child (p c : nat) : Prop := c = 2 * p + 1 \/ c = 2 * p + 2.
  Definition ok2 l p c : Prop := forall a b, nth_error l p = Some a -> nth_error l c = Some b -> le a b.
  Definition heaped l : Prop := forall p c, child p c -> ok2 l p c.

  Lemma parent_child c : c <> 0 -> child ((c - 1) / 2) c.
  Proof.
    intros N. unfold child. pose proof (Nat.div_mod (c - 1) 2 ltac:(lia)). pose proof (Nat.mod_upper_bound (c - 1) 2 ltac:(lia)). lia.
  Qed.
  Lemma child_unique p q c : child p c -> child q c -> p = q.
  Proof. unfold child. lia. Qed.

  (** same content, indices kept up to date *)
  Definition same h h' : Prop := Permutation (harr h') (harr h) /\ (forall x, ~ In x (harr h) -> hidx h' x = hidx h x) /\
    (setter = true -> NoDup (harr h) -> tracks h -> tracks h').
  Lemma same_refl h : same h h.
  Proof. repeat split; auto. Qed.
  Lemma same_trans h1 h2 h3 : same h1 h2 -> same h2 h3 -> same h1 h3.
  Proof.
    intros [P1 [O1 T1]] [P2 [O2 T2]]. split; [eapply Permutation_trans; eauto|]. split.
    - intros x Hx. rewrite O2, O1; auto. intros Hi. apply Hx. eapply Permutation_in; eauto.
    - intros St ND T. apply T2; auto. apply (Permutation_NoDup (Permutation_sym P1)). auto.
  Qed.

  Lemma bubble_ok : forall fuel h c, c < length (harr h) -> c <= fuel ->
    (forall p c', child p c' -> c' <> c -> ok2 (harr h) p c') -> (forall p j, child p c -> child c j -> ok2 (harr h) p j) ->
    exists h', bubble_up eqb setter lt fuel h c = Some h' /\ heaped (harr h') /\ same h h'.
  Proof.
    induction fuel as [|n IH]; intros h c Hc Hf I1 I2.
    - assert (c = 0) by lia. subst. exists h. split; [reflexivity|]. split; [|apply same_refl]. intros p c' C. apply I1; auto. unfold child in C. lia.
    - destruct (Nat.eq_dec c 0) as [->|N0].
      { exists h. split; [reflexivity|]. split; [|apply same_refl]. intros p c' C. apply I1; auto. unfold child in C. lia. }
      pose proof (parent_child c N0) as PC. set (p := (c - 1) / 2) in *.
      assert (Hp : p < c) by (unfold child in PC; lia).
      destruct (nth_error (harr h) c) as [x|] eqn:Ex; [|apply nth_error_None in Ex; lia].
      destruct (nth_error (harr h) p) as [y|] eqn:Ey; [|apply nth_error_None in Ey; lia].
      assert (Eq : bubble_up eqb setter lt (S n) h c =
                   if lt x y then match swap eqb setter h c p with Some h' => bubble_up eqb setter lt n h' p | None => None end else Some h).
      { destruct c as [|c]; [lia|]. cbn [bubble_up]. fold p. rewrite Ex, Ey. reflexivity. }
      rewrite Eq. destruct (lt x y) eqn:El.
      + destruct (swap_ok h c p x y Ex Ey ltac:(lia)) as [h1 [E1 [L1 [P1 [Rc [Rp [Rk [O1 T1]]]]]]]]. rewrite E1.
        pose proof (lt_le _ _ El) as Lxy.
        destruct (IH h1 p) as [h2 [E2 [H2 S2]]]; try lia.
        * intros p' c' C N. intros a b Ha Hb. destruct (Nat.eq_dec c' c) as [->|Nc].
          -- rewrite (child_unique _ _ _ C PC) in Ha. rewrite Rp in Ha. rewrite Rc in Hb. congruence.
          -- rewrite (Rk c') in Hb by auto. destruct (Nat.eq_dec p' p) as [->|Np].
             ++ rewrite Rp in Ha. inversion Ha; subst a. apply (le_trans x y b); auto. apply (I1 p c' C Nc y b); auto.
             ++ destruct (Nat.eq_dec p' c) as [->|Np2].
                ** rewrite Rc in Ha. inversion Ha; subst a. apply (I2 p c' PC C y b); auto.
                ** rewrite Rk in Ha by auto. apply (I1 p' c' C Nc a b); auto.
        * intros pp j Cp Cj a b Ha Hb. assert (pp < p) by (unfold child in Cp; lia). rewrite Rk in Ha by lia.
          assert (Lpp : le a y) by (apply (I1 pp p Cp ltac:(lia) a y); auto).
          destruct (Nat.eq_dec j c) as [->|Nj].
          -- rewrite Rc in Hb. congruence.
          -- rewrite Rk in Hb by (unfold child in Cj; lia). apply (le_trans a y b); auto. apply (I1 p j Cj Nj y b); auto.
        * exists h2. split; auto. split; auto. eapply same_trans; [|exact S2]. split; auto.
      + exists h. split; auto. split; [|apply same_refl]. intros p' c' C. destruct (Nat.eq_dec c' c) as [->|Nc]; auto.
        rewrite (child_unique _ _ _ C PC). intros a b Ha Hb. unfold le. congruence.
  Qed.

  Lemma drop_ok : forall fuel h c, c < length (harr h) -> length (harr h) - c <= fuel ->
    (forall p c', child p c' -> p <> c -> ok2 (harr h) p c') -> (forall p j, child p c -> child c j -> ok2 (harr h) p j) ->
    exists h', drop_down eqb setter lt fuel h c = Some h' /\ heaped (harr h') /\ same h h'.
  Proof.
    induction fuel as [|n IH]; intros h c Hc Hf I1 I2; [lia|].
    cbn [drop_down]. destruct (Nat.leb_spec (length (harr h)) (2 * c + 1)) as [Lf|Nl].
    { exists h. split; auto. split; [|apply same_refl]. intros p c' C. destruct (Nat.eq_dec p c) as [->|Np]; auto.
      intros a b Ha Hb. pose proof (nth_lt _ _ _ Hb). unfold child in C. lia. }
    destruct (nth_error (harr h) c) as [x|] eqn:Ex; [|apply nth_error_None in Ex; lia].
    destruct (nth_error (harr h) (2 * c + 1)) as [xl|] eqn:Exl; [|apply nth_error_None in Exl; lia].
    (* the smallest of the node and its children *)
    assert (M : exists m xm, (if 2 * c + 1 + 1 <? length (harr h)
                        then match nth_error (harr h) (2 * c + 1 + 1), nth_error (harr h) (if lt xl x then 2 * c + 1 else c) with
                             | Some xr, Some xm => Some (if lt xr xm then 2 * c + 1 + 1 else if lt xl x then 2 * c + 1 else c)
                             | _, _ => None
                             end
                        else Some (if lt xl x then 2 * c + 1 else c)) = Some m /\ nth_error (harr h) m = Some xm /\ (m = c \/ child c m /\ le xm x) /\
                      forall j y, child c j -> nth_error (harr h) j = Some y -> le xm y).
    { assert (M1 : exists m1 x1, (if lt xl x then 2 * c + 1 else c) = m1 /\ nth_error (harr h) m1 = Some x1 /\ (m1 = c \/ child c m1) /\ le x1 x /\ le x1 xl).
      { destruct (lt xl x) eqn:El.
        - exists (2 * c + 1), xl. split; auto. split; auto. split; [right; left; lia|]. split; [apply lt_le; auto|apply le_refl].
        - exists c, x. split; auto. split; auto. split; auto. split; [apply le_refl|exact El]. }
      destruct M1 as [m1 [x1 [-> [E1 [C1 [L1 L2]]]]]].
      destruct (Nat.ltb_spec (2 * c + 1 + 1) (length (harr h))) as [Hr|Hr].
      - destruct (nth_error (harr h) (2 * c + 1 + 1)) as [xr|] eqn:Er; [|apply nth_error_None in Er; lia]. rewrite E1. destruct (lt xr x1) eqn:El.
        + exists (2 * c + 1 + 1), xr. split; auto. split; auto. pose proof (lt_le _ _ El) as Lr. split.
          * right. split; [right; lia|]. eapply le_trans; eauto.
          * intros j y [->| ->] Hy.
            -- rewrite Exl in Hy. inversion Hy; subst. eapply le_trans; eauto.
            -- replace (2 * c + 2) with (2 * c + 1 + 1) in Hy by lia. rewrite Er in Hy. inversion Hy; subst. apply le_refl.
        + exists m1, x1. split; auto. split; auto. split; [destruct C1; auto|]. intros j y [->| ->] Hy.
          * rewrite Exl in Hy. inversion Hy; subst. auto.
          * replace (2 * c + 2) with (2 * c + 1 + 1) in Hy by lia. rewrite Er in Hy. inversion Hy; subst. exact El.
      - exists m1, x1. split; auto. split; auto. split; [destruct C1; auto|]. intros j y [->| ->] Hy.
        + rewrite Exl in Hy. inversion Hy; subst. auto.
        + apply nth_lt in Hy. lia. }
    destruct M as [m [xm [-> [Em [Cm Mn]]]]]. destruct (Nat.eqb_spec m c) as [->|Nm].
    - rewrite Ex in Em. inversion Em; subst xm. exists h. split; auto. split; [|apply same_refl]. intros p c' C. destruct (Nat.eq_dec p c) as [->|Np]; auto.
      intros a b Ha Hb. rewrite Ex in Ha. inversion Ha; subst. eapply Mn; eauto.
    - destruct Cm as [Cm|[Cm Lm]]; [tauto|].
      destruct (swap_ok h c m x xm Ex Em ltac:(lia)) as [h1 [E1 [L1 [P1 [Rc [Rm [Rk [O1 T1]]]]]]]]. rewrite E1. pose proof (nth_lt _ _ _ Em).
      assert (c < m) by (unfold child in Cm; lia).
      destruct (IH h1 m) as [h2 [E2 [H2 S2]]]; try lia.
      * intros p c' C N a b Ha Hb. destruct (Nat.eq_dec p c) as [->|Np].
        -- rewrite Rc in Ha. inversion Ha; subst a. destruct (Nat.eq_dec c' m) as [->|Nc].
           ++ rewrite Rm in Hb. inversion Hb; subst. auto.
           ++ rewrite Rk in Hb by (unfold child in C; lia). eapply Mn; eauto.
        -- rewrite (Rk p) in Ha by auto. destruct (Nat.eq_dec c' c) as [->|Nc].
           ++ rewrite Rc in Hb. inversion Hb; subst b. apply (I2 p m C Cm a xm); auto.
           ++ destruct (Nat.eq_dec c' m) as [->|Nc2]; [elim Np; apply (child_unique _ _ _ C Cm)|]. rewrite Rk in Hb by auto. apply (I1 p c' C Np a b); auto.
      * intros p j C Cj a b Ha Hb. rewrite (child_unique _ _ _ C Cm) in Ha. rewrite Rc in Ha. inversion Ha; subst a.
        rewrite Rk in Hb by (unfold child in *; lia). apply (I1 m j Cj ltac:(lia) xm b); auto.
      * exists h2. split; auto. split; auto. eapply same_trans; [|exact S2]. split; auto.
  Qed.

  Lemma heaped_min l x y i : heaped l -> nth_error l 0 = Some x -> nth_error l i = Some y -> le x y.
  Proof.
    intros H Hx. revert y. induction i as [i IH] using (well_founded_induction lt_wf). intros y Hy. destruct (Nat.eq_dec i 0) as [->|N].
    - rewrite Hx in Hy. inversion Hy; subst. apply le_refl.
    - pose proof (parent_child i N) as C. assert (Hlt : (i - 1) / 2 < i) by (unfold child in C; lia).
      destruct (nth_error l ((i - 1) / 2)) as [z|] eqn:Ez; [|apply nth_error_None in Ez; apply nth_lt in Hy; lia].
      apply (le_trans x z y); [apply (IH _ Hlt); auto|]. apply (H _ _ C); auto.
  Qed.

  (** ** operations *)
  Lemma add_ok h x : heaped (harr h) -> exists h', heap_add eqb setter lt h x = Some h' /\ heaped (harr h') /\ Permutation (harr h') (x :: harr h) /\
    (forall y, ~ In y (x :: harr h) -> hidx h' y = hidx h y) /\ (setter = true -> NoDup (x :: harr h) -> tracks h -> tracks h').
  Proof.
    intros H. unfold heap_add. set (h1 := {| harr := harr h ++ [x]; hidx := set_idx eqb setter (hidx h) x (Some (length (harr h))) |}).
    assert (L1 : length (harr h1) = S (length (harr h))) by (simpl; rewrite app_length; simpl; lia).
    assert (Old : forall i, i < length (harr h) -> nth_error (harr h1) i = nth_error (harr h) i) by (intros i Hi; simpl; apply nth_error_app1; auto).
    destruct (bubble_ok (S (length (harr h))) h1 (length (harr h))) as [h' [E [Hh [P [O T]]]]]; try lia.
    - intros p c C N a b Ha Hb. pose proof (nth_lt _ _ _ Hb). assert (p < c) by (unfold child in C; lia). rewrite Old in Ha, Hb by lia. apply (H p c C a b); auto.
    - intros p j C Cj a b Ha Hb. pose proof (nth_lt _ _ _ Hb). unfold child in Cj. lia.
    - exists h'. split; auto. split; auto. split; [rewrite P; simpl; rewrite Permutation_app_comm; reflexivity|]. split.
      + intros y Hy. rewrite O.
        * simpl. unfold set_idx. destruct setter; auto. rewrite eqb_neq; auto. intros ->. apply Hy. simpl. auto.
        * simpl. rewrite in_app_iff. simpl in *. tauto.
      + intros St ND Tr. apply T; auto.
        * simpl. apply (Permutation_NoDup (l := x :: harr h)); auto. rewrite Permutation_app_comm. reflexivity.
        * intros i y Hy. simpl. unfold set_idx. rewrite St. pose proof (nth_lt _ _ _ Hy). apply NoDup_cons_iff in ND. destruct ND as [NX1 NX2].
          destruct (Nat.eq_dec i (length (harr h))) as [->|N].
          -- simpl in Hy. rewrite nth_error_app2, Nat.sub_diag in Hy by lia. simpl in Hy. inversion Hy; subst. rewrite eqb_refl. auto.
          -- rewrite Old in Hy by lia. rewrite eqb_neq; [auto|]. intros ->. apply nth_error_In in Hy. tauto.
  Qed.

  Lemma update_ok h i : i < length (harr h) -> (forall p c, child p c -> p <> i -> c <> i -> ok2 (harr h) p c) ->
    (forall p j, child p i -> child i j -> ok2 (harr h) p j) ->
    exists h', heap_update eqb setter lt h i = Some h' /\ heaped (harr h') /\ same h h'.
  Proof.
    intros Hi I1 I2. unfold heap_update. destruct i as [|i'].
    - apply drop_ok; auto; try lia. intros p c' C N. apply I1; auto. unfold child in C. lia.
    - set (i := S i') in *. pose proof (parent_child i ltac:(unfold i; lia)) as C0. set (p0 := (i - 1) / 2) in *.
      assert (p0 < i) by (unfold child in C0; lia).
      destruct (nth_error (harr h) i) as [x|] eqn:Ex; [|apply nth_error_None in Ex; lia].
      destruct (nth_error (harr h) p0) as [y|] eqn:Ey; [|apply nth_error_None in Ey; lia].
      destruct (lt x y) eqn:El.
      + apply bubble_ok; auto; try lia. intros p c' C N. destruct (Nat.eq_dec p i) as [->|Np]; auto.
        intros a b Ha Hb. rewrite Ex in Ha. inversion Ha; subst a. apply (le_trans x y b); [apply lt_le; auto|]. apply (I2 p0 c' C0 C y b); auto.
      + apply drop_ok; auto; try lia. intros p c' C N. destruct (Nat.eq_dec c' i) as [->|Nc]; auto.
        rewrite (child_unique _ _ _ C C0). intros a b Ha Hb. unfold le. congruence.
  Qed.

  Lemma last_ex l : l <> [] -> exists l' v, l = l' ++ [v].
  Proof. destruct l as [|v l' _] using rev_ind; [tauto|]. eauto. Qed.

  Lemma remove_ok h i x : heaped (harr h) -> nth_error (harr h) i = Some x ->
    exists h', heap_remove eqb setter lt h i = Some h' /\ heaped (harr h') /\ Permutation (x :: harr h') (harr h) /\
      (forall y, ~ In y (harr h) -> hidx h' y = hidx h y) /\
      (setter = true -> NoDup (harr h) -> tracks h -> tracks h' /\ hidx h' x = None).
  Proof.
    intros H Hx. unfold heap_remove. rewrite Hx. destruct (last_ex (harr h)) as [l [v El]]; [intros E; rewrite E in Hx; destruct i; discriminate|].
    pose proof (nth_lt _ _ _ Hx) as Hi. rewrite El, last_nth, last_firstn. rewrite El, app_length in Hi. simpl in Hi.
    assert (Hl : forall k, k < length l -> nth_error (harr h) k = nth_error l k) by (intros k Hk; rewrite El; apply nth_error_app1; auto).
    assert (Hla : nth_error (harr h) (length l) = Some v) by (rewrite El, nth_error_app2, Nat.sub_diag by lia; reflexivity).
    assert (Hlh : heaped l).
    { intros p c C a b Ha Hb. pose proof (nth_lt _ _ _ Ha). pose proof (nth_lt _ _ _ Hb). apply (H p c C); rewrite Hl; auto. }
    destruct (Nat.eqb_spec i (length l)) as [->|N].
    - eexists. split; [reflexivity|]. simpl. rewrite Hla in Hx. inversion Hx; subst x. split; auto. split; [apply Permutation_cons_append|].
      split.
      + intros y Hy. unfold set_idx. destruct setter; auto. rewrite eqb_neq; auto. intros ->. apply Hy. apply in_or_app. simpl. auto.
      + intros St ND T. split; [|simpl; unfold set_idx; rewrite St, eqb_refl; auto]. intros k y Hk. simpl in *. unfold set_idx. rewrite St.
        pose proof (nth_lt _ _ _ Hk). rewrite eqb_neq; [apply T; rewrite Hl; auto|]. intros ->.
        apply NoDup_remove_2 in ND. rewrite app_nil_r in ND. apply nth_error_In in Hk. tauto.
    - assert (Hil : i < length l) by lia. pose proof Hx as Hx'. rewrite Hl in Hx' by auto.
      set (h1 := {| harr := set_nth l i v; hidx := set_idx eqb setter (set_idx eqb setter (hidx h) x None) v (Some i) |}).
      assert (L1 : length (harr h1) = length l) by (simpl; apply set_nth_len; auto).
      destruct (update_ok h1 i) as [h' [E [Hh [P [O T]]]]]; try lia.
      + intros p c C Np Nc a b Ha Hb. simpl in *. rewrite set_nth_other in Ha, Hb by auto. apply (Hlh p c C); auto.
      + intros p j Cp Cj a b Ha Hb. assert (p < i /\ i < j) by (unfold child in *; lia). simpl in *. rewrite set_nth_other in Ha, Hb by lia.
        apply (le_trans a x b); [apply (Hlh p i Cp a x)|apply (Hlh i j Cj x b)]; auto.
      + exists h'. split; auto. split; auto. split.
        * rewrite P. simpl. rewrite (set_nth_perm l i v x Hx'). apply Permutation_cons_append.
        * split.
          -- intros y Hy. assert (Hyl : ~ In y (x :: v :: l)).
             { intros [<-|[<-|Hy']]; apply Hy; [|apply in_or_app; simpl; auto|apply in_or_app; auto]. apply in_or_app. left. eapply nth_error_In; eauto. }
             simpl in Hyl. rewrite O.
             ++ simpl. unfold set_idx. destruct setter; auto. rewrite !eqb_neq; auto.
             ++ simpl. intros Hi2. assert (In y (v :: l)); [|simpl in *; tauto]. apply (Permutation_in _ (set_nth_perm l i v x Hx')). right. auto.
          -- intros St ND Tr.
             assert (NDl : NoDup l /\ ~ In v l).
             { pose proof (NoDup_remove_1 _ _ _ ND) as N1. pose proof (NoDup_remove_2 _ _ _ ND) as N2. rewrite app_nil_r in *. auto. }
             destruct NDl as [NDl Nv].
             assert (NDs : NoDup (x :: set_nth l i v)).
             { apply (Permutation_NoDup (Permutation_sym (set_nth_perm l i v x Hx'))). constructor; auto. }
             apply NoDup_cons_iff in NDs. destruct NDs as [NX1 NX2].
             assert (Trk : tracks h1).
             { intros k y Hk. simpl in *. unfold set_idx. rewrite St. apply set_nth_el in Hk; auto. destruct Hk as [[-> ->]|[Nk Hk]].
               - rewrite eqb_refl. auto.
               - rewrite (eqb_neq v y), (eqb_neq x y).
                 + pose proof (nth_lt _ _ _ Hk). apply Tr. rewrite Hl; auto.
                 + intros ->. apply Nk. rewrite NoDup_nth_error in NDl. symmetry. apply NDl; [auto|]. congruence.
                 + intros ->. apply nth_error_In in Hk. tauto. }
             split; [apply T; auto|].
             rewrite O; auto. simpl. unfold set_idx. rewrite St, eqb_refl. rewrite eqb_neq; auto. intros ->. apply Nv. eapply nth_error_In; eauto.
  Qed.

  Lemma pop_ok h : heaped (harr h) -> harr h <> [] -> exists x h', heap_pop eqb setter lt h = Some (x, h') /\ nth_error (harr h) 0 = Some x /\
      (forall y, In y (harr h) -> le x y) /\ heaped (harr h') /\ Permutation (x :: harr h') (harr h) /\
      (forall y, ~ In y (harr h) -> hidx h' y = hidx h y) /\
      (setter = true -> NoDup (harr h) -> tracks h -> tracks h' /\ hidx h' x = None).
  Proof.
    intros H N. unfold heap_pop. destruct (nth_error (harr h) 0) as [x|] eqn:Hx; [|destruct (harr h); [tauto|discriminate]].
    assert (Mn : forall y, In y (harr h) -> le x y) by (intros y Hy; apply In_nth_error in Hy; destruct Hy as [i Hi]; eapply heaped_min; eauto).
    destruct (last_ex (harr h) N) as [l [v El]].
    rewrite El, last_nth, last_firstn.
    assert (Hl : forall k, k < length l -> nth_error (harr h) k = nth_error l k) by (intros k Hk; rewrite El; apply nth_error_app1; auto).
    assert (Hla : nth_error (harr h) (length l) = Some v) by (rewrite El, nth_error_app2, Nat.sub_diag by lia; reflexivity).
    assert (Hlh : heaped l).
    { intros p c C a b Ha Hb. pose proof (nth_lt _ _ _ Ha). pose proof (nth_lt _ _ _ Hb). apply (H p c C); rewrite Hl; auto. }
    destruct l as [|w l'].
    - cbn [length] in Hla. rewrite Hx in Hla. inversion Hla; subst v. simpl in El. exists x. eexists. split; [reflexivity|]. split; auto. simpl. split.
      { intros y Hy. apply Mn. rewrite El. auto. }
      split; auto. split; auto. split.
      + intros y Hy. simpl. unfold set_idx. destruct setter; auto. rewrite eqb_neq; auto.
      + intros St ND T. simpl. unfold set_idx. rewrite St, eqb_refl. split; auto. intros i y Hy. destruct i; discriminate.
    - set (l := w :: l') in *.
      set (h1 := {| harr := set_nth l 0 v; hidx := set_idx eqb setter (hidx h) v (Some 0) |}).
      assert (Hx' : nth_error l 0 = Some x) by (rewrite <- Hl; auto; simpl; lia).
      assert (L1 : length (harr h1) = length l) by (unfold h1; cbn [harr]; apply set_nth_len; simpl; lia).
      destruct (drop_ok (length l) h1 0) as [h' [E [Hh [P [O T]]]]].
      + rewrite L1. simpl. lia.
      + rewrite L1. lia.
      + intros p c C Np a b Ha Hb. simpl harr in *. rewrite set_nth_other in Ha, Hb by (unfold child in C; simpl; lia). apply (Hlh p c C); auto.
      + intros p j C. unfold child in C. lia.
      + unfold l at 1. fold l. rewrite E. exists x. eexists. split; [reflexivity|]. split; auto. split.
        { intros y Hy. apply Mn. rewrite El. auto. }
        simpl harr. split; auto. split.
        * rewrite P. simpl harr. rewrite (set_nth_perm l 0 v x Hx'). apply Permutation_cons_append.
        * split.
          -- intros y Hy. assert (Hyl : ~ In y (x :: v :: l)).
             { intros [<-|[<-|Hy']]; apply Hy; [|apply in_or_app; simpl; auto|apply in_or_app; auto]. apply in_or_app. left. eapply nth_error_In; eauto. }
             simpl In in Hyl. cbn [hidx]. unfold set_idx at 1.
             assert (X : hidx h' y = hidx h y).
             { rewrite O.
               - simpl. unfold set_idx. destruct setter; auto. rewrite eqb_neq; auto.
               - simpl harr. intros Hi2. assert (In y (v :: l)); [|simpl in *; tauto]. apply (Permutation_in _ (set_nth_perm l 0 v x Hx')). right. auto. }
             destruct setter; auto. rewrite eqb_neq; auto.
          -- intros St ND Tr.
             assert (NDl : NoDup l /\ ~ In v l).
             { pose proof (NoDup_remove_1 _ _ _ ND) as N1. pose proof (NoDup_remove_2 _ _ _ ND) as N2. rewrite app_nil_r in *. auto. }
             destruct NDl as [NDl Nv].
             assert (NDs : NoDup (x :: set_nth l 0 v)).
             { apply (Permutation_NoDup (Permutation_sym (set_nth_perm l 0 v x Hx'))). constructor; auto. }
             apply NoDup_cons_iff in NDs. destruct NDs as [NX1 NX2].
             assert (Trk : tracks h1).
             { intros k y Hk. cbn [h1 harr hidx] in *. unfold set_idx. rewrite St. apply set_nth_el in Hk; [|simpl; lia]. destruct Hk as [[-> ->]|[Nk Hk]].
               - rewrite eqb_refl. auto.
               - rewrite (eqb_neq v y).
                 + pose proof (nth_lt _ _ _ Hk). apply Tr. rewrite Hl; auto.
                 + intros ->. apply nth_error_In in Hk. tauto. }
             cbn [hidx]. split; [|unfold set_idx; rewrite St, eqb_refl; auto].
             intros k y Hk. cbn [harr hidx] in *. unfold set_idx. rewrite St. rewrite eqb_neq; [apply T; auto|]. intros ->.
             apply nth_error_In in Hk. apply (Permutation_in _ P) in Hk. tauto.
  Qed.
End P.
