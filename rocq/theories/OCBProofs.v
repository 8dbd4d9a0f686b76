(** * Proofs about precedence extension. *)
From Verif Require Import Terms KBO OCB.
From Coq Require Import ZifyBool.

Lemma cmp_eqb_eq a b : cmp_eqb a b = true <-> a = b.
Proof. destruct a, b; simpl; split; congruence. Qed.
Lemma cmp_eqb_neq a b : cmp_eqb a b = false <-> a <> b.
Proof. destruct a, b; simpl; split; congruence. Qed.
Lemma cmp_inv_inv a : cmp_inv (cmp_inv a) = a.
Proof. destruct a; auto. Qed.
Lemma comp_inv a b : comp (cmp_inv b) (cmp_inv a) = cmp_inv (comp a b).
Proof. destruct a, b; auto. Qed.
Lemma q_inv z : q_to_part (- z) = cmp_inv (q_to_part z).
Proof. unfold q_to_part. destruct (Z.ltb_spec z 0), (Z.ltb_spec 0 z), (Z.ltb_spec (- z) 0), (Z.ltb_spec 0 (- z)); auto; lia. Qed.

Section Proofs.
  Variables (n : nat) (dist : sym -> bool).
  Notation D := (insig_code n).
  Notation C := (fun_compare n dist).

  (** the class of a symbol: comparisons between classes are fixed *)
  Definition lvl (f : sym) : nat := if Nat.eqb f sig_true then 0 else if dist f then 1 else 2.

  Lemma C_unc_mat st f g : D f -> D g -> C st f g = Uncomparable -> f <> g /\ lvl f = lvl g /\ mat st f g = Uncomparable.
  Proof.
    unfold fun_compare, fun_compare_gen, lvl, compare_matrix. intros [_ Hf] [_ Hg].
    destruct (Nat.eqb_spec f g); [discriminate|].
    destruct (Nat.eqb_spec f sig_true); [discriminate|]. destruct (Nat.eqb_spec g sig_true); [discriminate|].
    apply Nat.leb_le in Hf, Hg. rewrite Hf, Hg.
    destruct (dist f), (dist g); simpl; try discriminate; auto.
  Qed.

  Lemma C_same_level st f g : D f -> D g -> f <> g -> lvl f = lvl g -> C st f g = mat st f g.
  Proof.
    unfold fun_compare, fun_compare_gen, lvl, compare_matrix. intros [_ Hf] [_ Hg] N.
    destruct (Nat.eqb_spec f g); [congruence|].
    apply Nat.leb_le in Hf, Hg. rewrite Hf, Hg.
    destruct (Nat.eqb_spec f sig_true), (Nat.eqb_spec g sig_true), (dist f), (dist g); simpl; auto; intros; try lia; congruence.
  Qed.

  Lemma C_diff_level st st' f g : f = g \/ lvl f <> lvl g -> C st f g = C st' f g.
  Proof.
    unfold fun_compare, fun_compare_gen, lvl. intros [->|N]; [rewrite Nat.eqb_refl; auto|].
    destruct (Nat.eqb_spec f g); auto.
    destruct (Nat.eqb_spec f sig_true), (Nat.eqb_spec g sig_true), (dist f), (dist g); simpl; auto; congruence.
  Qed.

  Lemma C_refl st f : C st f f = Equal.
  Proof. unfold fun_compare, fun_compare_gen. rewrite Nat.eqb_refl. auto. Qed.

  Definition set_tuple (st : pstate) (f1 f2 : sym) (r : cmp) : pstate :=
    {| mat := mupd (mupd (mat st) f1 f2 r) f2 f1 (cmp_inv r); stk := (f1, f2) :: stk st |}.

  Lemma mupd_same m f g c : mupd m f g c f g = c.
  Proof. unfold mupd. rewrite !Nat.eqb_refl. auto. Qed.
  Lemma mupd_other m f g c x y : f <> x \/ g <> y -> mupd m f g c x y = m x y.
  Proof. unfold mupd. intros H. destruct (Nat.eqb_spec f x), (Nat.eqb_spec g y); auto. destruct H; congruence. Qed.

  Lemma set_tuple_C st f1 f2 r f g : D f1 -> D f2 -> D f -> D g -> C st f1 f2 = Uncomparable ->
    C (set_tuple st f1 f2 r) f g =
      if Nat.eqb f f1 && Nat.eqb g f2 then r else if Nat.eqb f f2 && Nat.eqb g f1 then cmp_inv r else C st f g.
  Proof.
    intros H1 H2 Hf Hg HU. destruct (C_unc_mat _ _ _ H1 H2 HU) as [N [L M]].
    destruct (Nat.eqb_spec f f1) as [->|Na], (Nat.eqb_spec g f2) as [->|Nb]; simpl.
    - rewrite C_same_level by auto. simpl. rewrite mupd_other by auto. apply mupd_same.
    - destruct (Nat.eqb_spec f1 f2); [congruence|]. simpl.
      destruct (Nat.eq_dec f1 g) as [<-|Ng]; [apply C_diff_level; auto|].
      destruct (Nat.eq_dec (lvl f1) (lvl g)); [|apply C_diff_level; auto].
      rewrite !C_same_level by auto. simpl. rewrite !mupd_other by auto. auto.
    - destruct (Nat.eqb_spec f2 f1); [congruence|]. rewrite andb_false_r.
      destruct (Nat.eq_dec f f2) as [->|Ng]; [apply C_diff_level; auto|].
      destruct (Nat.eq_dec (lvl f) (lvl f2)); [|apply C_diff_level; auto].
      rewrite !C_same_level by auto. simpl. rewrite !mupd_other by auto. auto.
    - destruct (Nat.eqb_spec f f2) as [->|Nc], (Nat.eqb_spec g f1) as [->|Nd]; simpl.
      + rewrite C_same_level by auto. simpl. apply mupd_same.
      + destruct (Nat.eq_dec f2 g) as [<-|Ng]; [apply C_diff_level; auto|].
        destruct (Nat.eq_dec (lvl f2) (lvl g)); [|apply C_diff_level; auto].
        rewrite !C_same_level by auto. simpl. rewrite !mupd_other by auto. auto.
      + destruct (Nat.eq_dec f f1) as [->|Ng]; [congruence|].
        destruct (Nat.eq_dec (lvl f) (lvl f1)); [|apply C_diff_level; auto].
        rewrite !C_same_level by auto. simpl. rewrite !mupd_other by auto. auto.
      + destruct (Nat.eq_dec f g) as [<-|Ng]; [apply C_diff_level; auto|].
        destruct (Nat.eq_dec (lvl f) (lvl g)); [|apply C_diff_level; auto].
        rewrite !C_same_level by auto. simpl. rewrite !mupd_other by auto. auto.
  Qed.

  (** number of uncomparable pairs *)
  Definition unset (st : pstate) : nat :=
    length (filter (fun pr => cmp_eqb (C st (fst pr) (snd pr)) Uncomparable) (list_prod (seq 1 n) (seq 1 n))).

  Lemma filter_le {A} (P Q : A -> bool) l : (forall x, In x l -> Q x = true -> P x = true) ->
    length (filter Q l) <= length (filter P l).
  Proof.
    induction l as [|x l IH]; intros H; simpl; auto.
    pose proof (IH (fun y Hy => H y (or_intror Hy))) as IH'. specialize (H x (or_introl eq_refl)).
    destruct (Q x); [rewrite H; auto; simpl; lia|]. destruct (P x); simpl; lia.
  Qed.
  Lemma filter_lt {A} (P Q : A -> bool) l a : (forall x, In x l -> Q x = true -> P x = true) ->
    In a l -> P a = true -> Q a = false -> length (filter Q l) < length (filter P l).
  Proof.
    induction l as [|x l IH]; intros H Hin HP HQ; [destruct Hin|]. simpl.
    pose proof (filter_le P Q l (fun y Hy => H y (or_intror Hy))) as HLe.
    pose proof (H x (or_introl eq_refl)) as Hx.
    destruct Hin as [->|Hin].
    - rewrite HP, HQ. simpl. lia.
    - pose proof (IH (fun y Hy => H y (or_intror Hy)) Hin HP HQ).
      destruct (Q x); [rewrite Hx; auto; simpl; lia|]. destruct (P x); simpl; lia.
  Qed.

  Lemma in_dom f g : In (f, g) (list_prod (seq 1 n) (seq 1 n)) <-> D f /\ D g.
  Proof. rewrite in_prod_iff, !in_seq. unfold insig_code. lia. Qed.

  Definition ext st st' := forall f g, D f -> D g -> C st f g <> Uncomparable -> C st' f g = C st f g.
  Definition invc st := forall f g, D f -> D g -> C st f g = cmp_inv (C st g f).

  Lemma unset_ext st st' : ext st st' -> unset st' <= unset st.
  Proof.
    intros H. apply filter_le. intros [f g] Hin HU. apply in_dom in Hin. simpl in *.
    apply cmp_eqb_eq in HU. apply cmp_eqb_eq. destruct (cmp_eqb (C st f g) Uncomparable) eqn:E.
    - apply cmp_eqb_eq; auto.
    - apply cmp_eqb_neq in E. rewrite <- (H f g) by tauto. auto.
  Qed.

  Lemma set_ext st f1 f2 r : D f1 -> D f2 -> invc st -> C st f1 f2 = Uncomparable -> ext st (set_tuple st f1 f2 r).
  Proof.
    intros H1 H2 HI HU f g Hf Hg N. rewrite set_tuple_C by auto.
    destruct (Nat.eqb f f1 && Nat.eqb g f2) eqn:A.
    { apply andb_true_iff in A. destruct A as [A B]. apply Nat.eqb_eq in A, B. congruence. }
    destruct (Nat.eqb f f2 && Nat.eqb g f1) eqn:B; auto.
    apply andb_true_iff in B. destruct B as [B1 B2]. apply Nat.eqb_eq in B1, B2. subst f g.
    exfalso. apply N. rewrite HI, HU; auto.
  Qed.

  Lemma set_invc st f1 f2 r : D f1 -> D f2 -> invc st -> C st f1 f2 = Uncomparable -> invc (set_tuple st f1 f2 r).
  Proof.
    intros H1 H2 HI HU f g Hf Hg. rewrite !set_tuple_C by auto.
    destruct (C_unc_mat _ _ _ H1 H2 HU) as [N _].
    destruct (Nat.eqb f f1 && Nat.eqb g f2) eqn:A.
    { apply andb_true_iff in A. destruct A as [A B]. apply Nat.eqb_eq in A, B. subst f g.
      destruct (Nat.eqb_spec f2 f1); [congruence|]. simpl. rewrite !Nat.eqb_refl. simpl. rewrite cmp_inv_inv. auto. }
    destruct (Nat.eqb f f2 && Nat.eqb g f1) eqn:B.
    { apply andb_true_iff in B. destruct B as [B1 B2]. apply Nat.eqb_eq in B1, B2. subst f g.
      rewrite !Nat.eqb_refl. auto. }
    rewrite (andb_comm (Nat.eqb g f1)), (andb_comm (Nat.eqb g f2)), A, B. auto.
  Qed.

  (** undoing: resetting the pairs pushed since *)
  Fixpoint undo (m : sym -> sym -> cmp) (new : list (sym * sym)) : sym -> sym -> cmp :=
    match new with
    | [] => m
    | (f1, f2) :: new' => undo (mupd (mupd m f1 f2 Uncomparable) f2 f1 Uncomparable) new'
    end.

  Lemma undo_ext new : forall m m', (forall f g, m f g = m' f g) -> forall f g, undo m new f g = undo m' new f g.
  Proof.
    induction new as [|[a b] new IH]; intros m m' H f g; simpl; auto.
    apply IH. intros x y. unfold mupd. rewrite H. auto.
  Qed.

  Lemma undo_app new1 : forall new2 m, undo m (new1 ++ new2) = undo (undo m new1) new2.
  Proof. induction new1 as [|[a b] l IH]; intros; simpl; auto. Qed.

  Definition undoable st st' := exists new, stk st' = new ++ stk st /\ forall f g, undo (mat st') new f g = mat st f g.

  Lemma undoable_refl st : undoable st st.
  Proof. exists []. split; auto. Qed.
  Lemma undoable_trans s1 s2 s3 : undoable s1 s2 -> undoable s2 s3 -> undoable s1 s3.
  Proof.
    intros [n1 [E1 U1]] [n2 [E2 U2]]. exists (n2 ++ n1). split.
    - rewrite E2, E1, app_assoc. auto.
    - intros f g. rewrite undo_app. rewrite (undo_ext n1 _ (mat s2)); auto.
  Qed.
  Lemma undoable_set st f1 f2 r : D f1 -> D f2 -> invc st -> C st f1 f2 = Uncomparable -> undoable st (set_tuple st f1 f2 r).
  Proof.
    intros H1 H2 HI HU. exists [(f1, f2)]. split; auto. intros f g. simpl. unfold mupd.
    destruct (C_unc_mat _ _ _ H1 H2 HU) as [_ [_ M]].
    assert (HU' : C st f2 f1 = Uncomparable) by (rewrite HI, HU; auto).
    destruct (C_unc_mat _ _ _ H2 H1 HU') as [_ [_ M']].
    destruct (Nat.eqb f2 f && Nat.eqb f1 g) eqn:A.
    { apply andb_true_iff in A. destruct A as [A B]. apply Nat.eqb_eq in A, B. subst f g. auto. }
    destruct (Nat.eqb f1 f && Nat.eqb f2 g) eqn:B; auto.
    apply andb_true_iff in B. destruct B as [B1 B2]. apply Nat.eqb_eq in B1, B2. subst f g. auto.
  Qed.

  (** closure of newly added pairs *)
  Definition clos st st' := forall x y z, D x -> D y -> D z ->
    C st' x y <> Uncomparable -> C st' y z <> Uncomparable ->
    (C st x y = Uncomparable \/ C st y z = Uncomparable) ->
    comp (C st' x y) (C st' y z) <> Uncomparable -> C st' x z <> Uncomparable.

  Lemma ext_refl st : ext st st. Proof. intros f g _ _ _; auto. Qed.
  Lemma ext_trans s1 s2 s3 : ext s1 s2 -> ext s2 s3 -> ext s1 s3.
  Proof. intros H1 H2 f g Hf Hg N. rewrite (H2 f g); auto. rewrite (H1 f g); auto. Qed.

  Lemma clos_refl st : clos st st.
  Proof. intros x y z _ _ _ N1 N2 [H|H]; congruence. Qed.
  Lemma clos_trans s1 s2 s3 : ext s2 s3 -> clos s1 s2 -> clos s2 s3 -> clos s1 s3.
  Proof.
    intros HE H1 H2 x y z Hx Hy Hz N1 N2 HU HC.
    destruct (cmp_eqb (C s2 x y) Uncomparable) eqn:E1.
    { apply cmp_eqb_eq in E1. apply (H2 x y z); auto. }
    destruct (cmp_eqb (C s2 y z) Uncomparable) eqn:E2.
    { apply cmp_eqb_eq in E2. apply (H2 x y z); auto. }
    apply cmp_eqb_neq in E1, E2.
    rewrite (HE x y), (HE y z) in HC by auto.
    assert (C s2 x z <> Uncomparable) by (apply (H1 x y z); auto).
    rewrite (HE x z); auto.
  Qed.

  Section Target.
    Variable T : sym -> sym -> cmp.
    Hypothesis HT : ordering_rel n T.

    Definition sub st := forall f g, D f -> D g -> C st f g <> Uncomparable -> C st f g = T f g.

    Record good st := { g_sub : sub st; g_inv : invc st; g_stk : stk st <> [] }.
    Record post st st' := { p_good : good st'; p_ext : ext st st'; p_clos : clos st st'; p_undo : undoable st st' }.

    Lemma post_refl st : good st -> post st st.
    Proof. split; auto using ext_refl, clos_refl, undoable_refl. Qed.
    Lemma post_trans s1 s2 s3 : post s1 s2 -> post s2 s3 -> post s1 s3.
    Proof.
      intros [A1 B1 C1 D1] [A2 B2 C2 D2]. split; auto.
      - eapply ext_trans; eauto.
      - eapply clos_trans; eauto.
      - eapply undoable_trans; eauto.
    Qed.

    Definition add_ok (add : pstate -> sym -> sym -> cmp -> option (nat * pstate)) (k : nat) :=
      forall st f1 f2 r, good st -> D f1 -> D f2 -> r <> Uncomparable -> T f1 f2 = r -> unset st < k ->
        exists res st', add st f1 f2 r = Some (S res, st') /\ post st st' /\ C st' f1 f2 = r.

    Lemma trans_ok add k st f1 f2 f3 : add_ok add k -> good st -> D f1 -> D f2 -> D f3 -> unset st < k ->
      exists res st', trans_compute n dist add st f1 f2 f3 = Some (S res, st') /\ post st st' /\
        (comp (C st f1 f2) (C st f2 f3) <> Uncomparable -> C st' f1 f3 = comp (C st f1 f2) (C st f2 f3)).
    Proof.
      intros HA HG H1 H2 H3 HU. unfold trans_compute.
      assert (NOP : comp (C st f1 f2) (C st f2 f3) = Uncomparable ->
         exists res st', Some (1, st) = Some (S res, st') /\ post st st' /\
           (comp (C st f1 f2) (C st f2 f3) <> Uncomparable -> C st' f1 f3 = comp (C st f1 f2) (C st f2 f3))).
      { intros E. exists 0, st. split; auto. split; [apply post_refl; auto|]. congruence. }
      assert (DO : forall r, comp (C st f1 f2) (C st f2 f3) = r -> r <> Uncomparable ->
        exists res st', (match add st f1 f3 r with Some (0, s) => Some (0, s) | Some (S _, s) => Some (1, s) | None => None end) = Some (S res, st')
          /\ post st st' /\ (comp (C st f1 f2) (C st f2 f3) <> Uncomparable -> C st' f1 f3 = comp (C st f1 f2) (C st f2 f3))).
      { intros r E N.
        assert (N12 : C st f1 f2 <> Uncomparable) by (intros E0; rewrite E0 in E; simpl in E; congruence).
        assert (N23 : C st f2 f3 <> Uncomparable) by (intros E0; rewrite E0 in E; destruct (C st f1 f2); simpl in E; congruence).
        assert (ET : T f1 f3 = r).
        { rewrite (g_sub _ HG f1 f2), (g_sub _ HG f2 f3) in E by auto.
          rewrite <- E. apply HT; auto. congruence. }
        destruct (HA st f1 f3 r HG H1 H3 N ET HU) as [res [st' [E1 [E2 E3]]]].
        exists 0, st'. rewrite E1. split; auto. split; auto. rewrite E. auto. }
      destruct (C st f1 f2) eqn:E12; destruct (C st f2 f3) eqn:E23; simpl in *; try (apply NOP; reflexivity);
        apply DO; auto; discriminate.
    Qed.

    Lemma loop_ok add k f1 f2 : add_ok add k -> D f1 -> D f2 -> forall l res0 st, good st -> (forall i, In i l -> D i) ->
      unset st < k -> C st f1 f2 <> Uncomparable -> (l = [] -> res0 <> 0) ->
      exists res st', trans_loop n dist add f1 f2 l res0 st = Some (S res, st') /\ post st st' /\
        (forall i, In i l -> comp (C st f1 f2) (C st f2 i) <> Uncomparable -> C st' f1 i = comp (C st f1 f2) (C st f2 i)) /\
        (forall i, In i l -> comp (C st i f1) (C st f1 f2) <> Uncomparable -> C st' i f2 = comp (C st i f1) (C st f1 f2)).
    Proof.
      intros HA H1 H2. induction l as [|i l IH]; intros res0 st HG HL HU N12 HR.
      - destruct res0 as [|r]; [exfalso; apply HR; auto|]. exists r, st. split; auto. split; [apply post_refl; auto|].
        split; intros i [].
      - assert (Hi : D i) by (apply HL; left; auto). cbn [trans_loop].
        destruct (trans_ok add k st f1 f2 i HA HG H1 H2 Hi HU) as [ra [sa [Ea [Pa Ca]]]]. rewrite Ea.
        pose proof (unset_ext _ _ (p_ext _ _ Pa)) as Ua.
        destruct (trans_ok add k sa i f1 f2 HA (p_good _ _ Pa) Hi H1 H2 ltac:(lia)) as [rb [sb [Eb [Pb Cb]]]]. rewrite Eb.
        pose proof (unset_ext _ _ (p_ext _ _ Pb)) as Ub.
        pose proof (post_trans _ _ _ Pa Pb) as Pab.
        assert (N12b : C sb f1 f2 = C st f1 f2) by (apply (p_ext _ _ Pab); auto).
        destruct (IH (S rb) sb) as [r [s' [E [P [Q1 Q2]]]]]; auto.
        { apply Pb. } { intros j Hj. apply HL. right; auto. } { lia. } { congruence. }
        exists r, s'. split; auto. pose proof (post_trans _ _ _ Pab P) as Pall. split; auto.
        assert (CC : forall a b, comp a b <> Uncomparable -> a <> Uncomparable /\ b <> Uncomparable)
          by (intros [] []; simpl; split; congruence).
        assert (KEEP : forall x y c, D x -> D y -> c <> Uncomparable -> C st x y = c -> C sb x y = c)
          by (intros x y c Dx Dy Nc Ec; rewrite (p_ext _ _ Pab x y); auto; congruence).
        split.
        + intros j [<-|Hj] Nc.
          * rewrite <- (Ca Nc). apply (ext_trans _ _ _ (p_ext _ _ Pb) (p_ext _ _ P)); auto.
            rewrite (Ca Nc). auto.
          * assert (Dj : D j) by (apply HL; right; auto). destruct (CC _ _ Nc) as [_ N2].
            specialize (Q1 j Hj). rewrite N12b, (KEEP f2 j _ H2 Dj N2 eq_refl) in Q1. auto.
        + intros j [<-|Hj] Nc.
          * destruct (CC _ _ Nc) as [Na Nb]. rewrite (p_ext _ _ Pa i f1), (p_ext _ _ Pa f1 f2) in Cb by auto.
            rewrite <- (Cb Nc). apply (p_ext _ _ P); auto. rewrite (Cb Nc). auto.
          * assert (Dj : D j) by (apply HL; right; auto). destruct (CC _ _ Nc) as [N2 _].
            specialize (Q2 j Hj). rewrite N12b, (KEEP j f1 _ Dj H1 N2 eq_refl) in Q2. auto.
    Qed.

    Lemma set_unset st f1 f2 r : D f1 -> D f2 -> invc st -> C st f1 f2 = Uncomparable -> r <> Uncomparable ->
      unset (set_tuple st f1 f2 r) < unset st.
    Proof.
      intros H1 H2 HI HU Nr. pose proof (set_ext st f1 f2 r H1 H2 HI HU) as HE.
      apply filter_lt with (a := (f1, f2)).
      - intros [f g] Hin HU'. apply in_dom in Hin. simpl in *. apply cmp_eqb_eq in HU'. apply cmp_eqb_eq.
        destruct (cmp_eqb (C st f g) Uncomparable) eqn:E; [apply cmp_eqb_eq; auto|].
        apply cmp_eqb_neq in E. rewrite <- (HE f g) by tauto. auto.
      - apply in_dom. auto.
      - simpl. apply cmp_eqb_eq. auto.
      - simpl. apply cmp_eqb_neq. rewrite set_tuple_C by auto. rewrite !Nat.eqb_refl. auto.
    Qed.

    Lemma add_new_ok k st f1 f2 r : sub st -> invc st -> D f1 -> D f2 -> r <> Uncomparable -> T f1 f2 = r ->
      C st f1 f2 = Uncomparable -> unset st <= k -> add_ok (add_tuple n dist k) k ->
      exists res st', add_tuple n dist (S k) st f1 f2 r = Some (S res, st') /\ post st st' /\ C st' f1 f2 = r.
    Proof.
      intros HS HI H1 H2 Nr ET HU HK HA. cbn [add_tuple].
      assert (Eq : cmp_eqb (C st f1 f2) r = false) by (apply cmp_eqb_neq; congruence). rewrite Eq.
      rewrite HU. simpl. fold (set_tuple st f1 f2 r).
      pose proof (set_ext st f1 f2 r H1 H2 HI HU) as XE.
      pose proof (set_invc st f1 f2 r H1 H2 HI HU) as XI.
      pose proof (set_unset st f1 f2 r H1 H2 HI HU Nr) as XU.
      assert (S12 : C (set_tuple st f1 f2 r) f1 f2 = r) by (rewrite set_tuple_C by auto; rewrite !Nat.eqb_refl; auto).
      assert (XG : good (set_tuple st f1 f2 r)).
      { split; auto; [|discriminate]. intros f g Hf Hg N. rewrite set_tuple_C in * by auto.
        destruct (Nat.eqb f f1 && Nat.eqb g f2) eqn:A.
        { apply andb_true_iff in A. destruct A as [A B]. apply Nat.eqb_eq in A, B. subst f g. auto. }
        destruct (Nat.eqb f f2 && Nat.eqb g f1) eqn:B; auto.
        apply andb_true_iff in B. destruct B as [B1 B2]. apply Nat.eqb_eq in B1, B2. subst f g.
        destruct HT as [HTr [HTi _]]. rewrite (HTi f2 f1) by auto. congruence. }
      destruct (loop_ok (add_tuple n dist k) k f1 f2 HA H1 H2 (seq 1 n) 0 (set_tuple st f1 f2 r)) as [res [st' [E [P [Q1 Q2]]]]]; auto.
      { intros i Hi. apply in_seq in Hi. unfold insig_code. lia. }
      { lia. } { congruence. } { intros E. unfold insig_code in *. apply (f_equal (@length nat)) in E. rewrite seq_length in E. simpl in E. lia. }
      rewrite E. exists res, st'. split; auto.
      assert (R12 : C st' f1 f2 = r) by (rewrite <- S12; apply (p_ext _ _ P); auto; congruence).
      split; auto. split.
      - apply P.
      - eapply ext_trans; [exact XE|apply P].
      - intros x y z Hx Hy Hz N1 N2 HUn HC.
        set (s1 := set_tuple st f1 f2 r) in *.
        destruct (cmp_eqb (C s1 x y) Uncomparable) eqn:E1.
        { apply cmp_eqb_eq in E1. apply (p_clos _ _ P x y z); auto. }
        destruct (cmp_eqb (C s1 y z) Uncomparable) eqn:E2.
        { apply cmp_eqb_eq in E2. apply (p_clos _ _ P x y z); auto. }
        apply cmp_eqb_neq in E1, E2.
        assert (V1 : C st' x y = C s1 x y) by (apply (p_ext _ _ P); auto).
        assert (V2 : C st' y z = C s1 y z) by (apply (p_ext _ _ P); auto).
        rewrite V1, V2 in HC.
        assert (Hseq : forall i, D i -> In i (seq 1 n)) by (intros i Hi; apply in_seq; unfold insig_code in Hi; lia).
        assert (INV' : invc st') by apply P. assert (INV1 : invc s1) by auto.
        assert (PAIR : forall a b, D a -> D b -> C st a b = Uncomparable -> C s1 a b <> Uncomparable ->
                  (a = f1 /\ b = f2) \/ (a = f2 /\ b = f1)).
        { intros a b Ha Hb U1 U2. unfold s1 in U2. rewrite set_tuple_C in U2 by auto.
          destruct (Nat.eqb_spec a f1), (Nat.eqb_spec b f2); simpl in U2; auto;
          destruct (Nat.eqb_spec a f2), (Nat.eqb_spec b f1); simpl in U2; auto; congruence. }
        destruct HUn as [HUn|HUn].
        + destruct (PAIR x y Hx Hy HUn E1) as [[-> ->]|[-> ->]].
          * rewrite (Q1 z (Hseq z Hz) HC). exact HC.
          * assert (HC' : comp (C s1 z f1) (C s1 f1 f2) <> Uncomparable).
            { rewrite (INV1 z f1), (INV1 f1 f2), comp_inv by auto. destruct (comp (C s1 f2 f1) (C s1 f1 z)); simpl; congruence. }
            rewrite (INV' f2 z) by auto. rewrite (Q2 z (Hseq z Hz) HC'). destruct (comp (C s1 z f1) (C s1 f1 f2)); simpl; congruence.
        + destruct (PAIR y z Hy Hz HUn E2) as [[-> ->]|[-> ->]].
          * rewrite (Q2 x (Hseq x Hx) HC). exact HC.
          * assert (HC' : comp (C s1 f1 f2) (C s1 f2 x) <> Uncomparable).
            { rewrite (INV1 f1 f2), (INV1 f2 x), comp_inv by auto. destruct (comp (C s1 x f2) (C s1 f2 f1)); simpl; congruence. }
            rewrite (INV' x f1) by auto. rewrite (Q1 x (Hseq x Hx) HC'). destruct (comp (C s1 f1 f2) (C s1 f2 x)); simpl; congruence.
      - apply undoable_trans with (set_tuple st f1 f2 r); [apply undoable_set; auto | apply P].
    Qed.

    Lemma add_tuple_ok : forall k, add_ok (add_tuple n dist k) k.
    Proof.
      induction k as [|k IH]; intros st f1 f2 r HG H1 H2 Nr ET HU; [lia|].
      destruct (cmp_eqb (C st f1 f2) Uncomparable) eqn:E.
      - apply cmp_eqb_eq in E. apply add_new_ok; auto; try apply HG. lia.
      - apply cmp_eqb_neq in E. cbn [add_tuple].
        assert (Er : C st f1 f2 = r) by (rewrite <- ET; apply (g_sub _ HG); auto).
        rewrite (proj2 (cmp_eqb_eq _ _) Er).
        assert (Hn : stk st <> []) by apply HG. unfold get_state.
        destruct (stk st) as [|a l] eqn:Es; [congruence|]. eexists _, st. split; [reflexivity|]. split; auto. apply post_refl; auto.
    Qed.
  End Target.

  (** ** The least extension exists *)

  Definition geC (C0 : sym -> sym -> cmp) f g := cmp_eqb (C0 f g) Equal || cmp_eqb (C0 f g) Greater.
  Definition cmp_of (ge : sym -> sym -> bool) f g : cmp :=
    match ge f g, ge g f with true, true => Equal | true, false => Greater | false, true => Lesser | false, false => Uncomparable end.

  Lemma cmp_of_ordering ge : (forall f, D f -> ge f f = true) ->
    (forall f g h, D f -> D g -> D h -> ge f g = true -> ge g h = true -> ge f h = true) -> ordering_rel n (cmp_of ge).
  Proof.
    intros HR HTr. split; [|split].
    - intros f Hf. unfold cmp_of. rewrite HR by auto. auto.
    - intros f g Hf Hg. unfold cmp_of. destruct (ge f g), (ge g f); auto.
    - intros f g h Hf Hg Hh. unfold cmp_of.
      pose proof (HTr f g h Hf Hg Hh) as T1. pose proof (HTr h g f Hh Hg Hf) as T2.
      pose proof (HTr g h f Hg Hh Hf) as T3. pose proof (HTr h f g Hh Hf Hg) as T4.
      pose proof (HTr f h g Hf Hh Hg) as T5. pose proof (HTr g f h Hg Hf Hh) as T6.
      destruct (ge f g), (ge g f), (ge g h), (ge h g), (ge f h), (ge h f); simpl; intros N; try reflexivity; exfalso;
        repeat match goal with H : true = true -> _ |- _ => specialize (H eq_refl) | H : false = true -> _ |- _ => clear H end;
        try discriminate; apply N; reflexivity.
  Qed.

  Lemma cmp_of_geC C0 f g : ordering_rel n C0 -> D f -> D g -> cmp_of (geC C0) f g = C0 f g.
  Proof.
    intros [_ [HI _]] Hf Hg. unfold cmp_of, geC. rewrite (HI g f) by auto. destruct (C0 f g); auto.
  Qed.

  Lemma geC_trans C0 : ordering_rel n C0 -> forall f g h, D f -> D g -> D h -> geC C0 f g = true -> geC C0 g h = true -> geC C0 f h = true.
  Proof.
    intros [_ [_ HC]] f g h Hf Hg Hh. unfold geC. intros H1 H2. specialize (HC f g h Hf Hg Hh).
    destruct (C0 f g), (C0 g h); simpl in *; try discriminate; rewrite HC; auto; discriminate.
  Qed.

  Lemma least_extension C0 f1 f2 r : ordering_rel n C0 -> D f1 -> D f2 -> C0 f1 f2 = Uncomparable -> r <> Uncomparable ->
    exists T, ordering_rel n T /\ T f1 f2 = r /\ extends n C0 T.
  Proof.
    intros HO H1 H2 HU Nr. pose proof (geC_trans C0 HO) as TR. destruct HO as [HR [HI HCl]].
    assert (GR : forall f, D f -> geC C0 f f = true) by (intros f Hf; unfold geC; rewrite HR by auto; auto).
    assert (N12 : geC C0 f1 f2 = false) by (unfold geC; rewrite HU; auto).
    assert (N21 : geC C0 f2 f1 = false) by (unfold geC; rewrite HI, HU by auto; auto).
    set (u := match r with Greater | Equal => true | _ => false end).
    set (d := match r with Lesser | Equal => true | _ => false end).
    set (G := fun a b => geC C0 a b || (u && geC C0 a f1 && geC C0 f2 b) || (d && geC C0 a f2 && geC C0 f1 b)).
    assert (GS : forall a b, G a b = true <-> geC C0 a b = true \/ (u = true /\ geC C0 a f1 = true /\ geC C0 f2 b = true)
                  \/ (d = true /\ geC C0 a f2 = true /\ geC C0 f1 b = true)).
    { intros a b. unfold G. rewrite !orb_true_iff, !andb_true_iff. tauto. }
    exists (cmp_of G). split; [|split].
    - apply cmp_of_ordering.
      + intros f Hf. apply GS. left. auto.
      + intros f g h Hf Hg Hh Ha Hb. apply GS in Ha, Hb. apply GS.
        destruct Ha as [Ha|[[U1 [Ha1 Ha2]]|[U1 [Ha1 Ha2]]]], Hb as [Hb|[[U2 [Hb1 Hb2]]|[U2 [Hb1 Hb2]]]].
        * left. apply (TR f g h); auto.
        * right. left. split; auto. split; auto. apply (TR f g f1); auto.
        * right. right. split; auto. split; auto. apply (TR f g f2); auto.
        * right. left. split; auto. split; auto. apply (TR f2 g h); auto.
        * right. left. auto.
        * left. apply (TR f f1 h); auto.
        * right. right. split; auto. split; auto. apply (TR f1 g h); auto.
        * left. apply (TR f f2 h); auto.
        * right. right. auto.
    - assert (G12 : G f1 f2 = u).
      { unfold G. rewrite N12, !GR by auto. simpl. destruct u, d; auto. }
      assert (G21 : G f2 f1 = d).
      { unfold G. rewrite N21, !GR by auto. simpl. destruct u, d; auto. }
      unfold cmp_of. rewrite G12, G21. unfold u, d. destruct r; auto; congruence.
    - intros a b Ha Hb N.
      assert (KEY : forall x y, D x -> D y -> geC C0 x y = true -> G y x = geC C0 y x).
      { intros x y Hx Hy Hxy. unfold G. destruct (geC C0 y x) eqn:E; auto. simpl.
        destruct (geC C0 y f1) eqn:E1; destruct (geC C0 f2 x) eqn:E2; simpl.
        - exfalso. assert (geC C0 f2 f1 = true) by eauto. congruence.
        - rewrite andb_false_r. simpl. destruct (geC C0 y f2) eqn:E3, (geC C0 f1 x) eqn:E4; rewrite ?andb_false_r; simpl; auto.
          exfalso. assert (geC C0 f1 f2 = true) by eauto. congruence.
        - rewrite !andb_false_r. simpl. destruct (geC C0 y f2) eqn:E3, (geC C0 f1 x) eqn:E4; rewrite ?andb_false_r; simpl; auto.
          exfalso. assert (geC C0 f1 f2 = true) by eauto. congruence.
        - rewrite !andb_false_r. simpl. destruct (geC C0 y f2) eqn:E3, (geC C0 f1 x) eqn:E4; rewrite ?andb_false_r; simpl; auto.
          exfalso. assert (geC C0 f1 f2 = true) by eauto. congruence. }
      assert (UP : forall x y, geC C0 x y = true -> G x y = true) by (intros x y Hxy; apply GS; auto).
      assert (BOTH : geC C0 a b = true \/ geC C0 b a = true).
      { unfold geC. rewrite (HI b a) by auto. destruct (C0 a b); simpl; auto; congruence. }
      rewrite <- (cmp_of_geC C0 a b (conj HR (conj HI HCl)) Ha Hb). unfold cmp_of.
      destruct BOTH as [B|B].
      + rewrite (UP _ _ B), B, (KEY a b Ha Hb B). auto.
      + rewrite (UP _ _ B), B, (KEY b a Hb Ha B). auto.
  Qed.

  Lemma ordering_rel_ext C1 C2 : (forall f g, D f -> D g -> C1 f g = C2 f g) -> ordering_rel n C1 -> ordering_rel n C2.
  Proof.
    intros E [A [B Cc]]. split; [|split].
    - intros f Hf. rewrite <- E; auto.
    - intros f g Hf Hg. rewrite <- !E; auto.
    - intros f g h Hf Hg Hh. rewrite <- !E; auto.
  Qed.

  (** ** Main result for a top-level call *)
  Lemma add_tuple_top st f1 f2 r k : ordering_rel n (C st) -> D f1 -> D f2 -> r <> Uncomparable -> unset st < k ->
    exists res st', add_tuple n dist k st f1 f2 r = Some (res, st') /\ undoable st st' /\
      ((C st f1 f2 = r /\ st' = st) \/
       (C st f1 f2 <> r /\ C st f1 f2 <> Uncomparable /\ st' = st /\ res = 0) \/
       (C st f1 f2 = Uncomparable /\ res <> 0 /\ ordering_rel n (C st') /\ C st' f1 f2 = r /\ extends n (C st) (C st') /\
        forall E, ordering_rel n E -> E f1 f2 = r -> extends n (C st) E -> extends n (C st') E)).
  Proof.
    intros HO H1 H2 Nr HK. destruct k as [|k]; [lia|].
    destruct (cmp_eqb (C st f1 f2) r) eqn:Er.
    { cbn [add_tuple]. rewrite Er. eexists _, st. split; [reflexivity|]. split; [apply undoable_refl|].
      left. split; auto. apply cmp_eqb_eq; auto. }
    destruct (cmp_eqb (C st f1 f2) Uncomparable) eqn:Eu.
    2:{ cbn [add_tuple]. rewrite Er, Eu. simpl. eexists _, st. split; [reflexivity|]. split; [apply undoable_refl|].
        right. left. apply cmp_eqb_neq in Er, Eu. auto. }
    apply cmp_eqb_eq in Eu.
    assert (HI : invc st) by (exact (proj1 (proj2 HO))).
    assert (GEN : forall E, ordering_rel n E -> E f1 f2 = r -> extends n (C st) E ->
       exists res st', add_tuple n dist (S k) st f1 f2 r = Some (S res, st') /\ post E st st' /\ C st' f1 f2 = r).
    { intros E HE EE XE. apply add_new_ok; auto; try lia.
      - intros f g Hf Hg N. symmetry. apply XE; auto.
      - apply add_tuple_ok; auto. }
    destruct (least_extension (C st) f1 f2 r HO H1 H2 Eu Nr) as [T [HT [ET XT]]].
    destruct (GEN T HT ET XT) as [res [st' [E [P R]]]].
    exists (S res), st'. split; auto. split; [apply P|]. right. right. split; auto. split; [discriminate|].
    assert (HX : extends n (C st) (C st')) by (intros f g Hf Hg N; apply (p_ext _ _ _ P); auto).
    split; [|split; [exact R|split; [exact HX|]]].
    - split; [|split].
      + intros f _. apply C_refl.
      + apply P.
      + intros f g h Hf Hg Hh HC.
        assert (NN : C st' f g <> Uncomparable /\ C st' g h <> Uncomparable)
          by (destruct (C st' f g), (C st' g h); simpl in HC; split; congruence).
        destruct NN as [N1 N2].
        assert (NEW : C st f g = Uncomparable \/ C st g h = Uncomparable -> C st' f h = comp (C st' f g) (C st' g h)).
        { intros HN. assert (N3 : C st' f h <> Uncomparable) by (apply (p_clos _ _ _ P f g h); auto).
          pose proof (g_sub _ _ (p_good _ _ _ P)) as SB.
          rewrite (SB f h Hf Hh N3). rewrite (SB f g Hf Hg N1), (SB g h Hg Hh N2) in *. apply HT; auto. }
        destruct (cmp_eqb (C st f g) Uncomparable) eqn:E1; [apply cmp_eqb_eq in E1; auto|].
        destruct (cmp_eqb (C st g h) Uncomparable) eqn:E2; [apply cmp_eqb_eq in E2; auto|].
        apply cmp_eqb_neq in E1, E2. rewrite (HX f g), (HX g h) in * by auto.
        destruct HO as [_ [_ HO]]. rewrite <- (HO f g h) by auto. apply HX; auto. rewrite (HO f g h); auto.
    - intros Ex HE EE XE f g Hf Hg N. destruct (GEN Ex HE EE XE) as [res2 [st2 [E2 [P2 _]]]].
      rewrite E in E2. injection E2 as _ <-. symmetry. apply (g_sub _ _ (p_good _ _ _ P2)); auto.
  Qed.

  Lemma backtrack_undo new : forall m base, exists st', backtrack m (new ++ base) (2 * length base) = Some st' /\
    stk st' = base /\ forall f g, mat st' f g = undo m new f g.
  Proof.
    induction new as [|[a b] new IH]; intros m base.
    - exists {| mat := m; stk := base |}. split; auto. destruct base; simpl; rewrite ?Nat.eqb_refl; auto.
    - change (((a, b) :: new) ++ base) with ((a, b) :: (new ++ base)). cbn [backtrack]. destruct (Nat.eqb_spec (2 * length base) (2 * length ((a, b) :: new ++ base))) as [E|E].
      + simpl in E. rewrite app_length in E. lia.
      + apply IH.
  Qed.
End Proofs.
