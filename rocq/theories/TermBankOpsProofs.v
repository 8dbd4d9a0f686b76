(** The operations of the term bank that add or look up terms: results and preservation of the invariant. *)
From Coq Require Import Permutation.
From Verif Require Import Terms Splay SplayProofs SplayProps TermBank TermBankProofs.
Local Open Scope Z_scope.

Record grows (b b' : bank) : Prop := {
  g_heap : forall x c, heap b x = Some c -> heap b' x = Some c;
  g_stored : forall x, stored b x -> stored b' x;
  g_var : forall f a, varcell b f = Some a -> varcell b' f = Some a
}.
Lemma ext_grows b b' : ext b b' -> grows b b'.
Proof. intros E. split; [apply (e_heap b b' E)|apply (e_stored b b' E)|apply (e_var b b' E)]. Qed.
Lemma grows_refl b : grows b b. Proof. split; auto. Qed.
Lemma grows_trans b1 b2 b3 : grows b1 b2 -> grows b2 b3 -> grows b1 b3.
Proof. intros [A B C] [A' B' C']. split; auto. Qed.
Lemma grows_shared b b' x : grows b b' -> shared b x -> shared b' x.
Proof. intros E [H|[f H]]; [left; apply (g_stored b b' E); auto|right; exists f; apply (g_var b b' E); auto]. Qed.
Lemma grows_denotes b b' a t : grows b b' -> denotes (heap b) a t -> denotes (heap b') a t.
Proof. intros E. apply denotes_mono. apply (g_heap b b' E). Qed.

Definition outcome (L : Prop) {A} (r : res (bank * A)) (P : bank -> A -> Prop) : Prop :=
  match r with Ok (b, x) => P b x | NoFuel => L | Undef => False end.
Lemma outcome_weaken (L L' : Prop) {A} (r : res (bank * A)) (P P' : bank -> A -> Prop) :
  (L -> L') -> (forall b x, P b x -> P' b x) -> outcome L r P -> outcome L' r P'.
Proof. intros HL HP. destruct r as [[b x]| |]; cbn; auto. Qed.

Lemma den_list_in h ts xs x : den_list h ts xs -> In x xs -> exists t, In t ts /\ denotes h x t.
Proof.
  revert xs. induction ts as [|t ts IH]; intros [|y xs]; cbn [den_list]; try tauto; [intros _ []|].
  intros [A B] [->|H]; [exists t; cbn; auto|]. destruct (IH xs B H) as [t' [H1 H2]]. exists t'. cbn; auto.
Qed.

Lemma tdepth_arg f ts t : In t ts -> (tdepth t < tdepth (Fun f ts))%nat.
Proof.
  cbn [tdepth]. induction ts as [|u ts IH]; [intros []|]. cbn [fold_right]. intros [->|H]; [lia|]. specialize (IH H). lia.
Qed.

Section Ops.
  Variable alloc : nat -> (Z -> option cell) -> Z.
  Hypothesis FA : fair_alloc alloc.

  (** inserting the arguments one after the other *)
  Lemma ins_args_spec {A} (ins : A -> bank -> res (bank * Z)) (L : Prop) (R : A -> term -> Prop) (l : list A) : forall b,
    (forall x b1, In x l -> inv b1 -> grows b b1 ->
       outcome L (ins x b1) (fun b2 r => inv b2 /\ ext b1 b2 /\ shared b2 r /\ exists u, R x u /\ denotes (heap b2) r u)) ->
    inv b ->
    outcome L (ins_args ins l b) (fun b2 xs => inv b2 /\ ext b b2 /\ (forall x, In x xs -> shared b2 x) /\
      exists us, Forall2 R l us /\ den_list (heap b2) us xs).
  Proof.
    induction l as [|x l IH]; intros b H I.
    - cbn. split; auto. split; [apply ext_refl|]. split; [intros x []|]. exists []. cbn. auto.
    - cbn [ins_args]. pose proof (H x b (or_introl eq_refl) I (grows_refl b)) as H1. unfold outcome in H1.
      destruct (ins x b) as [[b1 r]| |]; cbn [rbind outcome]; auto. destruct H1 as [I1 [E1 [S1 [u [Ru Du]]]]].
      assert (H2 : outcome L (ins_args ins l b1) (fun b2 xs => inv b2 /\ ext b1 b2 /\ (forall x, In x xs -> shared b2 x) /\
         exists us, Forall2 R l us /\ den_list (heap b2) us xs)).
      { apply IH; auto. intros y b2 Hy I2 G. apply H; cbn; auto. eapply grows_trans; [apply ext_grows; eauto|auto]. }
      unfold outcome in H2. fold (@ins_args A ins). destruct (ins_args ins l b1) as [[b2 xs]| |]; cbn [rbind outcome]; auto.
      destruct H2 as [I2 [E2 [S2 [us [Rus Dus]]]]]. split; auto. split; [eapply ext_trans; eauto|]. split.
      + intros y [<-|Hy]; auto. eapply ext_shared; eauto.
      + exists (u :: us). split; [constructor; auto|]. cbn. split; auto. eapply ext_denotes; eauto.
  Qed.

  (** building a term from its arguments in a temporary cell; then the cell is inserted, or freed *)
  Lemma build_spec {A} (ins : A -> bank -> res (bank * Z)) (L : Prop) (R : A -> term -> Prop) (l : list A) b f n :
    inv b ->
    (forall x b1, In x l -> inv b1 -> grows b b1 ->
       outcome L (ins x b1) (fun b2 r => inv b2 /\ ext b1 b2 /\ shared b2 r /\ exists u, R x u /\ denotes (heap b2) r u)) ->
    let '(b1, a) := new_top alloc b (scode f) n in
    outcome L (ins_args ins l b1) (fun b2 xs => exists b3 us, fill b2 a xs = Ok b3 /\ Forall2 R l us /\
      (exists b4 r, top_insert b3 a = Ok (b4, r) /\ inv b4 /\ ext b b4 /\ shared b4 r /\ denotes (heap b4) r (Fun f us)) /\
      (inv (free_cell b3 a) /\ ext b (free_cell b3 a) /\ den_list (heap (free_cell b3 a)) us xs)).
  Proof.
    intros I H. unfold new_top. set (c0 := mkcell (scode f) (repeat 0 n) false false None 0 0 0).
    pose proof (new_cell_spec alloc FA b c0 I) as N. destruct (new_cell alloc b c0) as [b1 a].
    destruct N as [I1 [Na [Pa [Hh [NS [SS [SV [Ev [Es [Eg [En [R1 [R2 R3]]]]]]]]]]]]].
    assert (G1 : grows b b1).
    { split; [|intros x Sx; apply SS; auto|intros; rewrite Ev; auto]. intros x c E. rewrite Hh, upd_other by congruence. auto. }
    assert (H1 : outcome L (ins_args ins l b1) (fun b2 xs => inv b2 /\ ext b1 b2 /\ (forall x, In x xs -> shared b2 x) /\
      exists us, Forall2 R l us /\ den_list (heap b2) us xs)).
    { apply ins_args_spec; auto. intros x b' Hx I' G'. apply H; auto. eapply grows_trans; eauto. }
    revert H1. apply outcome_weaken; auto. intros b2 xs [I2 [E2 [S2 [us [Rus Dus]]]]].
    assert (Ha1 : heap b1 a = Some c0) by (rewrite Hh; apply upd_same).
    assert (Ha2 : heap b2 a = Some c0) by (apply (e_heap b1 b2 E2); auto).
    assert (NS2 : ~ shared b2 a).
    { intros S. destruct S as [S|S].
      - destruct (stored_cell b2 a I2 S) as [c [Ec [K _]]]. rewrite Ha2 in Ec. injection Ec as <-.
        destruct (i_cell b2 I2 _ a K) as [c' [Ec' [_ [_ [_ [_ [_ [t [Dt Ct]]]]]]]]]. rewrite Ha2 in Ec'. injection Ec' as <-.
        destruct Ct as [W _]. cbn in W. assert (0 < stdweight t); [|lia]. clear.
        induction t as [x|g ts IH] using term_ind'; cbn [stdweight]; [lia|].
        assert (0 <= fold_right (fun a n => stdweight a + n) 0 ts); [|lia]. induction IH; cbn [fold_right]; lia.
      - destruct (var_cell b2 a I2 S) as [c [Ec [_ K]]]. rewrite Ha2 in Ec. injection Ec as <-. cbn in K. pose proof (scode_pos f). lia. }
    unfold fill. rewrite Ha2. set (b3 := write b2 a (set_args c0 xs)). exists b3, us. split; auto. split; auto.
    destruct (write_other b2 a (set_args c0 xs) I2 ltac:(congruence) NS2) as [I3 [SS3 SV3]]. fold b3 in I3, SS3, SV3.
    assert (SH3 : forall x, shared b3 x <-> shared b2 x) by (intros x; unfold shared; rewrite SS3, SV3; tauto).
    assert (Ha3 : heap b3 a = Some (set_args c0 xs)) by (cbn; apply upd_same).
    assert (Hx3 : forall x, x <> a -> heap b3 x = heap b2 x) by (intros x Nx; cbn; apply upd_other; auto).
    assert (D3 : den_list (heap b3) us xs).
    { apply (den_list_agree (shared b2) (heap b2)); auto using inv_closed. intros x c Sx Ex. exists c. split; auto. rewrite Hx3; auto. congruence. }
    assert (EXT : forall b4, ext_but a b3 b4 -> inv b4 -> ext b b4).
    { intros b4 E4 I4. split.
      - intros x c Ex. assert (x <> a) by congruence. apply (eb_heap a b3 b4 E4); auto. rewrite Hx3 by auto.
        apply (e_heap b1 b2 E2), (g_heap b b1 G1). auto.
      - intros x Sx. apply (eb_stored a b3 b4 E4), SS3, (e_stored b1 b2 E2), SS. auto.
      - intros g x Vx. apply (eb_var a b3 b4 E4). change (varcell b3) with (varcell b2). apply (e_var b1 b2 E2). rewrite Ev. auto.
      - intros x Hx. destruct (eb_leak a b3 b4 E4 x Hx) as [[Nx H3]|S]; auto. rewrite Hx3 in H3 by auto.
        destruct (e_leak b1 b2 E2 x H3) as [H4|S].
        + left. rewrite Hh, upd_other in H4 by auto. auto.
        + right. apply SH3 in S. destruct S as [S|[g S]]; [left; apply (eb_stored a b3 b4 E4); auto|right; exists g; apply (eb_var a b3 b4 E4); auto].
      - rewrite (eb_gst a b3 b4 E4). change (gstate b3) with (gstate b2). rewrite (e_gst b1 b2 E2). auto.
      - destruct (eb_roots a b3 b4 E4) as [Q1 [Q2 Q3]], (e_roots b1 b2 E2) as [P1 [P2 P3]].
        change (true_term b3) with (true_term b2) in Q1. change (false_term b3) with (false_term b2) in Q2. change (min_terms b3) with (min_terms b2) in Q3.
        split; [congruence|]. split; congruence. }
    split.
    - assert (NS3 : ~ shared b3 a) by (rewrite SH3; auto).
      assert (SX3 : forall x, In x (cargs (set_args c0 xs)) -> shared b3 x) by (intros x Hx; apply SH3, S2; exact Hx).
      destruct (top_insert_spec b3 a (set_args c0 xs) f us) as [b4 [r [T [I4 [S4 [D4 [E4 _]]]]]]]; auto.
      exists b4, r. split; auto. split; auto. split; [apply EXT; auto|]. split; auto. left. auto.
    - destruct (free_other b3 a I3) as [I4 [SS4 SV4]]; [rewrite SH3; auto|]. split; auto. split.
      + apply EXT; auto. split.
        * intros x c Nx Ex. cbn. rewrite upd_other by auto. exact Ex.
        * intros x Sx. apply SS4. auto.
        * auto.
        * intros x Hx. left. cbn in Hx. unfold upd in Hx. destruct (Z.eqb_spec x a); [congruence|]. split; auto.
          unfold b3. cbn. rewrite upd_other by auto. auto.
        * reflexivity.
        * cbn. auto.
      + apply (den_list_agree (shared b3) (heap b3)); auto using inv_closed.
        intros x c Sx Ex. exists c. split; auto. cbn. rewrite upd_other; [exact Ex|]. intros ->. apply NS2, SH3. auto.
  Qed.

  Definition inserted (b : bank) (t : term) (b' : bank) (r : Z) : Prop := inv b' /\ ext b b' /\ shared b' r /\ denotes (heap b') r t.

  Lemma tb_insert_spec : forall t b, inv b -> exists b' r, tb_insert alloc t b = Ok (b', r) /\ inserted b t b' r.
  Proof.
    induction t as [x|f ts IH] using term_ind'; intros b I.
    - cbn [tb_insert]. destruct (var_assert_alloc_spec alloc FA b (vcode x) I (vcode_neg x)) as [b' [a [E [I' [X [V _]]]]]].
      exists b', a. split; auto. destruct (varcell_denotes b' x a I' V). split; auto.
    - cbn [tb_insert].
      pose proof (build_spec (tb_insert alloc) False (fun t u => u = t) ts b f (length ts) I) as H.
      rewrite Forall_forall in IH.
      assert (Q : forall x b1, In x ts -> inv b1 -> grows b b1 -> outcome False (tb_insert alloc x b1)
         (fun b2 r => inv b2 /\ ext b1 b2 /\ shared b2 r /\ exists u, u = x /\ denotes (heap b2) r u)).
      { intros x b1 Hx I1 _. destruct (IH x Hx b1 I1) as [b2 [r [E [I2 [E2 [S2 D2]]]]]]. rewrite E. cbn. split; auto. split; auto. split; auto. exists x. auto. }
      specialize (H Q). destruct (new_top alloc b (scode f) (length ts)) as [b1 a]. unfold outcome in H.
      destruct (ins_args (tb_insert alloc) ts b1) as [[b2 xs]| |]; try contradiction. cbn [rbind].
      destruct H as [b3 [us [E3 [R [[b4 [r [E4 [I4 [X4 [S4 D4]]]]]] _]]]]]. rewrite E3. cbn [rbind]. exists b4, r. split; auto.
      assert (us = ts) as -> by (clear - R; induction R; congruence). split; auto.
  Qed.

  (** *** instantiation *)
  Lemma nvars_nonneg t : 0 <= nvars t.
  Proof. induction t as [x|f ts IH] using term_ind'; cbn [nvars]; [lia|]. induction IH; cbn [fold_right]; lia. Qed.
  Lemma nvars_arg f ts t : In t ts -> nvars t <= nvars (Fun f ts).
  Proof.
    cbn [nvars]. induction ts as [|u ts IH]; [intros []|]. cbn [fold_right]. intros [->|H].
    - assert (0 <= fold_right (fun t n => nvars t + n) 0 ts); [|lia]. clear. induction ts as [|u ts IH]; cbn [fold_right]; [lia|]. pose proof (nvars_nonneg u). lia.
    - specialize (IH H). pose proof (nvars_nonneg u). lia.
  Qed.
  Lemma nvars_0_app s t : nvars t = 0 -> Terms.app s t = t.
  Proof.
    induction t as [x|f ts IH] using term_ind'; intros H; [cbn in H; lia|]. cbn [Terms.app]. f_equal.
    rewrite <- (map_id ts) at 2. apply map_ext_in. intros t Ht. rewrite Forall_forall in IH. apply IH; auto.
    pose proof (nvars_arg f ts t Ht). pose proof (nvars_nonneg t). lia.
  Qed.
  Lemma ground_small b a t c : inv b -> shared b a -> denotes (heap b) a t -> heap b a = Some c -> ground c = true ->
    nvars t < 4294967296 -> nvars t = 0.
  Proof.
    intros I S D E G B. destruct (inv_counts b a t I S D) as [c' [E' [_ [V [_ Gc]]]]]. rewrite E in E'. injection E' as <-.
    rewrite G in Gc. symmetry in Gc. apply Z.eqb_eq in Gc. rewrite V in Gc. unfold wrap32 in Gc.
    pose proof (nvars_nonneg t). rewrite Z.mod_small in Gc; lia.
  Qed.
  Lemma var_not_ground b a c : inv b -> shared b a -> heap b a = Some c -> fcode c < 0 -> ground c = false.
  Proof.
    intros I [S|[f S]] E F.
    - destruct (stored_cell b a I S) as [c' [E' [_ P]]]. rewrite E in E'. injection E' as <-. lia.
    - destruct (i_var b I f a S) as [_ [c' [E' [_ [_ [_ [G _]]]]]]]. rewrite E in E'. injection E' as <-. auto.
  Qed.
  Lemma shared_varcell b a c : inv b -> shared b a -> heap b a = Some c -> fcode c < 0 -> varcell b (fcode c) = Some a.
  Proof.
    intros I [S|S] E F.
    - destruct (stored_cell b a I S) as [c' [E' [_ P]]]. rewrite E in E'. injection E' as <-. lia.
    - destruct (var_cell b a I S) as [c' [E' [V _]]]. rewrite E in E'. injection E' as <-. auto.
  Qed.
  Lemma denotes_cell h a t c : denotes h a t -> h a = Some c ->
    (exists x, t = Var x /\ fcode c = vcode x) \/ (exists f ts, t = Fun f ts /\ fcode c = scode f /\ den_list h ts (cargs c)).
  Proof.
    destruct t as [x|f ts]; intros D E.
    - destruct D as [c' [E' F]]. rewrite E in E'. injection E' as <-. left. eauto.
    - apply denotes_fun in D. destruct D as [c' [E' [F L]]]. rewrite E in E'. injection E' as <-. right. eauto.
  Qed.

  Lemma forall2_map h (g : term -> term) xs us ts (R : Z -> term -> Prop) :
    (forall x t u, In t ts -> denotes h x t -> R x u -> u = g t) -> den_list h ts xs -> Forall2 R xs us -> us = map g ts.
  Proof.
    intros HR D F. revert ts HR D. induction F as [|x u xs us Rx _ IH]; intros [|t ts] HR; cbn [den_list]; try tauto.
    intros [A B]. cbn [map]. f_equal; [eapply HR; cbn; eauto|]. apply IH; auto. intros y v w Hv. apply HR. cbn; auto.
  Qed.

  Lemma tb_inst_spec b0 bnd (s : subst) : inv b0 -> (forall y r, bnd y = Some r -> is_var b0 y /\ shared b0 r) ->
    (forall x a, varcell b0 (vcode x) = Some a -> match bnd a with Some y => denotes (heap b0) y (s x) | None => s x = Var x end) ->
    forall n a b t, inv b -> grows b0 b -> shared b0 a -> denotes (heap b0) a t ->
      outcome (n < tdepth t)%nat (tb_inst alloc n bnd a b) (fun b2 r => inv b2 /\ ext b b2 /\ shared b2 r /\
        exists u, (nvars t < 4294967296 -> u = Terms.app s t) /\ denotes (heap b2) r u).
  Proof.
    intros I0 HB HS. induction n as [|n IH]; intros a b t I G Sa D.
    - cbn. destruct t; cbn; lia.
    - cbn [tb_inst]. destruct (inv_shared_cell b0 a I0 Sa) as [c E]. rewrite (g_heap b0 b G a c E).
      destruct (ground c) eqn:Gr.
      + cbn. split; auto. split; [apply ext_refl|]. split; [eapply grows_shared; eauto|]. exists t.
        split; [|eapply grows_denotes; eauto]. intros B. rewrite nvars_0_app; auto. apply (ground_small b0 a t c); auto.
      + destruct (denotes_cell _ _ _ _ D E) as [[x [-> F]]|[f [ts [-> [F DL]]]]].
        * assert (V : varcell b0 (vcode x) = Some a).
          { rewrite <- F. apply shared_varcell; auto. rewrite F. apply vcode_neg. }
          specialize (HS x a V). destruct (bnd a) as [y|] eqn:By.
          -- cbn. split; auto. split; [apply ext_refl|]. destruct (HB a y By) as [_ Sy]. split; [eapply grows_shared; eauto|]. exists (s x).
             split; auto. eapply grows_denotes; eauto.
          -- rewrite F. rewrite (proj2 (Z.ltb_lt _ 0) (vcode_neg x)).
             destruct (var_assert_alloc_spec alloc FA b (vcode x) I (vcode_neg x)) as [b' [r [Er [I' [X [Vr _]]]]]]. rewrite Er. cbn.
             destruct (varcell_denotes b' x r I' Vr). split; auto. split; auto. split; auto. exists (Var x). auto.
        * destruct (bnd a) as [y|] eqn:By.
          { exfalso. destruct (HB a y By) as [Va _]. destruct (var_cell b0 a I0 Va) as [c' [E' [_ N]]]. rewrite E in E'. injection E' as <-.
            pose proof (scode_pos f). lia. }
          rewrite F. rewrite (proj2 (Z.ltb_ge _ 0)) by (pose proof (scode_pos f); lia).
          pose proof (build_spec (tb_inst alloc n bnd) (S n < tdepth (Fun f ts))%nat
             (fun x u => forall t', denotes (heap b0) x t' -> nvars t' < 4294967296 -> u = Terms.app s t') (cargs c) b f (length (cargs c)) I) as H.
          assert (Q : forall x b1, In x (cargs c) -> inv b1 -> grows b b1 ->
            outcome (S n < tdepth (Fun f ts))%nat (tb_inst alloc n bnd x b1) (fun b2 r => inv b2 /\ ext b1 b2 /\ shared b2 r /\
              exists u, (forall t', denotes (heap b0) x t' -> nvars t' < 4294967296 -> u = Terms.app s t') /\ denotes (heap b2) r u)).
          { intros x b1 Hx I1 G1. destruct (den_list_in _ _ _ x DL Hx) as [t' [Ht Dt]].
            refine (outcome_weaken _ _ _ _ _ _ _ (IH x b1 t' I1 (grows_trans _ _ _ G G1) (inv_closed b0 I0 a c x Sa E Hx) Dt)).
            - pose proof (tdepth_arg f ts t' Ht). lia.
            - intros b2 r [A1 [A2 [A3 [u [A4 A5]]]]]. split; auto. split; auto. split; auto. exists u. split; auto.
              intros t'' D'' B. rewrite (denotes_det _ _ _ _ D'' Dt) in *. auto. }
          specialize (H Q). destruct (new_top alloc b (scode f) (length (cargs c))) as [b1 a1]. unfold outcome in H.
          destruct (ins_args (tb_inst alloc n bnd) (cargs c) b1) as [[b2 xs]| |]; cbn [rbind outcome]; auto.
          destruct H as [b3 [us [E3 [R [[b4 [r [E4 [I4 [X4 [S4 D4]]]]]] _]]]]]. rewrite E3. cbn [rbind]. rewrite E4. cbn.
          split; auto. split; auto. split; auto. exists (Fun f us). split; auto. intros B. f_equal.
          refine (forall2_map (heap b0) (Terms.app s) _ us ts _ _ DL R). intros x t' u Ht Dt Ru. apply Ru; auto.
          pose proof (nvars_arg f ts t' Ht). cbn [nvars] in *. lia.
  Qed.

  (** *** replacement *)
  Lemma stdweight_pos t : 0 < stdweight t.
  Proof.
    induction t as [x|g ts IH] using term_ind'; cbn [stdweight]; [lia|].
    assert (0 <= fold_right (fun a n => stdweight a + n) 0 ts); [|lia]. induction IH; cbn [fold_right]; lia.
  Qed.
  Lemma stdweight_arg f ts t : In t ts -> stdweight t < stdweight (Fun f ts).
  Proof.
    cbn [stdweight]. induction ts as [|u ts IH]; [intros []|]. cbn [fold_right]. intros [->|H].
    - assert (0 <= fold_right (fun a n => stdweight a + n) 0 ts); [|lia]. clear. induction ts as [|u ts IH]; cbn [fold_right]; [lia|]. pose proof (stdweight_pos u). lia.
    - specialize (IH H). pose proof (stdweight_pos u). lia.
  Qed.
  Lemma replace_all_light s r t : stdweight t <= stdweight s -> t <> s -> replace_all s r t = t.
  Proof.
    induction t as [x|f ts IH] using term_ind'; intros W N.
    - cbn [replace_all]. destruct (term_eqb (Var x) s) eqn:E; auto. apply term_eqb_eq in E. contradiction.
    - cbn [replace_all]. destruct (term_eqb (Fun f ts) s) eqn:E; [apply term_eqb_eq in E; contradiction|]. f_equal.
      rewrite <- (map_id ts) at 2. apply map_ext_in. intros t Ht. rewrite Forall_forall in IH. pose proof (stdweight_arg f ts t Ht).
      apply IH; auto; [lia|]. intros ->. lia.
  Qed.
  Lemma changed_eq xs ys : length xs = length ys -> changed xs ys = false -> xs = ys.
  Proof.
    unfold changed. revert ys. induction xs as [|x xs IH]; intros [|y ys]; cbn; try discriminate; auto. intros L H.
    apply orb_false_iff in H. destruct H as [H1 H2]. apply negb_false_iff, Z.eqb_eq in H1. f_equal; auto.
  Qed.

  Lemma tb_repl_spec b0 old repl s r0 : inv b0 -> shared b0 old -> shared b0 repl -> denotes (heap b0) old s -> denotes (heap b0) repl r0 ->
    forall n a b t, inv b -> grows b0 b -> shared b0 a -> denotes (heap b0) a t ->
      outcome (n < tdepth t)%nat (tb_repl alloc n old repl a b) (fun b2 r => inv b2 /\ ext b b2 /\ shared b2 r /\
        exists u, u = replace_all s r0 t /\ denotes (heap b2) r u).
  Proof.
    intros I0 So Sr Do Dr. induction n as [|n IH]; intros a b t I G Sa D.
    - cbn. destruct t; cbn; lia.
    - cbn [tb_repl]. destruct (Z.eqb_spec a old) as [->|N].
      + cbn. split; auto. split; [apply ext_refl|]. split; [eapply grows_shared; eauto|]. exists r0.
        split; [|eapply grows_denotes; eauto]. rewrite (denotes_det _ _ _ _ D Do).
        assert (E : term_eqb s s = true) by (apply term_eqb_eq; auto). destruct s; cbn [replace_all]; rewrite E; auto.
      + assert (TS : t <> s) by (intros ->; apply N; exact (canon b0 I0 s a old Sa So D Do)).
        destruct (inv_counts b0 a t I0 Sa D) as [c [E [W _]]]. destruct (inv_counts b0 old s I0 So Do) as [co [Eo [Wo _]]].
        rewrite (g_heap b0 b G a c E), (g_heap b0 b G old co Eo).
        assert (KEEP : replace_all s r0 t = t -> inv b /\ ext b b /\ shared b a /\ exists u, u = replace_all s r0 t /\ denotes (heap b) a u).
        { intros K. split; auto. split; [apply ext_refl|]. split; [eapply grows_shared; eauto|]. exists t. split; auto. eapply grows_denotes; eauto. }
        destruct (Z.leb_spec (weight c) (weight co)) as [Le|Gt].
        { cbn. apply KEEP. apply replace_all_light; auto. congruence. }
        destruct (denotes_cell _ _ _ _ D E) as [[x [-> F]]|[f [ts [-> [F DL]]]]].
        * rewrite F, (proj2 (Z.ltb_lt _ 0) (vcode_neg x)). cbn [outcome]. apply KEEP. cbn [replace_all].
          destruct (term_eqb (Var x) s) eqn:X; auto. apply term_eqb_eq in X. contradiction.
        * rewrite F. rewrite (proj2 (Z.ltb_ge _ 0)) by (pose proof (scode_pos f); lia).
          pose proof (build_spec (tb_repl alloc n old repl) (S n < tdepth (Fun f ts))%nat
             (fun x u => forall t', denotes (heap b0) x t' -> u = replace_all s r0 t') (cargs c) b f (length (cargs c)) I) as H.
          assert (Q : forall x b1, In x (cargs c) -> inv b1 -> grows b b1 ->
            outcome (S n < tdepth (Fun f ts))%nat (tb_repl alloc n old repl x b1) (fun b2 r => inv b2 /\ ext b1 b2 /\ shared b2 r /\
              exists u, (forall t', denotes (heap b0) x t' -> u = replace_all s r0 t') /\ denotes (heap b2) r u)).
          { intros x b1 Hx I1 G1. destruct (den_list_in _ _ _ x DL Hx) as [t' [Ht Dt]].
            refine (outcome_weaken _ _ _ _ _ _ _ (IH x b1 t' I1 (grows_trans _ _ _ G G1) (inv_closed b0 I0 a c x Sa E Hx) Dt)).
            - pose proof (tdepth_arg f ts t' Ht). lia.
            - intros b2 r [A1 [A2 [A3 [u [A4 A5]]]]]. split; auto. split; auto. split; auto. exists u. split; auto.
              intros t'' D''. rewrite (denotes_det _ _ _ _ D'' Dt) in *. auto. }
          specialize (H Q). destruct (new_top alloc b (scode f) (length (cargs c))) as [b1 a1]. unfold outcome in H.
          destruct (ins_args (tb_repl alloc n old repl) (cargs c) b1) as [[b2 xs]| |]; cbn [rbind outcome]; auto.
          destruct H as [b3 [us [E3 [R [[b4 [r [E4 [I4 [X4 [S4 D4]]]]]] [I5 [X5 D5]]]]]]]. rewrite E3. cbn [rbind].
          assert (us = map (replace_all s r0) ts) as ->.
          { refine (forall2_map (heap b0) (replace_all s r0) _ us ts _ _ DL R). intros x t' u Ht Dt Ru. apply Ru; auto. }
          assert (RA : replace_all s r0 (Fun f ts) = Fun f (map (replace_all s r0) ts)).
          { cbn [replace_all]. destruct (term_eqb (Fun f ts) s) eqn:X; auto. apply term_eqb_eq in X. contradiction. }
          rewrite RA. destruct (changed xs (cargs c)) eqn:Ch.
          -- rewrite E4. cbn. split; auto. split; auto. split; auto. exists (Fun f (map (replace_all s r0) ts)). auto.
          -- assert (LE : length xs = length (cargs c)).
             { apply den_list_length in D5, DL. rewrite map_length in D5. congruence. }
             apply changed_eq in Ch; auto. subst xs. cbn. split; auto. split; auto.
             assert (Sa' : shared (free_cell b3 a1) a) by (eapply ext_shared; [exact X5|]; eapply grows_shared; eauto).
             split; auto. exists (Fun f (map (replace_all s r0) ts)). split; auto. apply denotes_fun. exists c. split; auto.
             apply (e_heap b _ X5), (g_heap b0 b G); auto.
  Qed.

  (** *** renaming apart *)
  Lemma tb_disjoint_spec b0 : inv b0 ->
    forall n a b t, inv b -> grows b0 b -> shared b0 a -> denotes (heap b0) a t -> (forall v, In v (vars t) -> Nat.odd v = true) ->
      outcome (n < tdepth t)%nat (tb_disjoint alloc n a b) (fun b2 r => inv b2 /\ ext b b2 /\ shared b2 r /\
        exists u, (nvars t < 4294967296 -> u = Terms.app alt_var t) /\ denotes (heap b2) r u).
  Proof.
    intros I0. induction n as [|n IH]; intros a b t I G Sa D OD.
    - cbn. destruct t; cbn; lia.
    - cbn [tb_disjoint]. destruct (inv_shared_cell b0 a I0 Sa) as [c E]. rewrite (g_heap b0 b G a c E).
      destruct (ground c) eqn:Gr.
      + cbn. split; auto. split; [apply ext_refl|]. split; [eapply grows_shared; eauto|]. exists t.
        split; [|eapply grows_denotes; eauto]. intros B. rewrite nvars_0_app; auto. apply (ground_small b0 a t c); auto.
      + destruct (denotes_cell _ _ _ _ D E) as [[x [-> F]]|[f [ts [-> [F DL]]]]].
        * rewrite F. rewrite (proj2 (Z.ltb_lt _ 0) (vcode_neg x)).
          assert (O : Nat.odd x = true) by (apply OD; cbn; auto).
          assert (X : vcode x + 1 = vcode (x - 1)%nat) by (destruct x; [discriminate|]; unfold vcode; lia). rewrite X.
          destruct (var_assert_alloc_spec alloc FA b (vcode (x - 1)%nat) I (vcode_neg _)) as [b' [r [Er [I' [Xe [Vr _]]]]]]. rewrite Er. cbn.
          destruct (varcell_denotes b' (x - 1)%nat r I' Vr). split; auto. split; auto. split; auto. exists (alt_var x). auto.
        * rewrite F. rewrite (proj2 (Z.ltb_ge _ 0)) by (pose proof (scode_pos f); lia).
          pose proof (build_spec (tb_disjoint alloc n) (S n < tdepth (Fun f ts))%nat
             (fun x u => forall t', denotes (heap b0) x t' -> nvars t' < 4294967296 -> u = Terms.app alt_var t') (cargs c) b f (length (cargs c)) I) as H.
          assert (Q : forall x b1, In x (cargs c) -> inv b1 -> grows b b1 ->
            outcome (S n < tdepth (Fun f ts))%nat (tb_disjoint alloc n x b1) (fun b2 r => inv b2 /\ ext b1 b2 /\ shared b2 r /\
              exists u, (forall t', denotes (heap b0) x t' -> nvars t' < 4294967296 -> u = Terms.app alt_var t') /\ denotes (heap b2) r u)).
          { intros x b1 Hx I1 G1. destruct (den_list_in _ _ _ x DL Hx) as [t' [Ht Dt]].
            assert (OD' : forall v, In v (vars t') -> Nat.odd v = true).
            { intros v Hv. apply OD. cbn [vars]. apply in_flat_map. eauto. }
            refine (outcome_weaken _ _ _ _ _ _ _ (IH x b1 t' I1 (grows_trans _ _ _ G G1) (inv_closed b0 I0 a c x Sa E Hx) Dt OD')).
            - pose proof (tdepth_arg f ts t' Ht). lia.
            - intros b2 r [A1 [A2 [A3 [u [A4 A5]]]]]. split; auto. split; auto. split; auto. exists u. split; auto.
              intros t'' D'' B. rewrite (denotes_det _ _ _ _ D'' Dt) in *. auto. }
          specialize (H Q). destruct (new_top alloc b (scode f) (length (cargs c))) as [b1 a1]. unfold outcome in H.
          destruct (ins_args (tb_disjoint alloc n) (cargs c) b1) as [[b2 xs]| |]; cbn [rbind outcome]; auto.
          destruct H as [b3 [us [E3 [R [[b4 [r [E4 [I4 [X4 [S4 D4]]]]]] _]]]]]. rewrite E3. cbn [rbind]. rewrite E4. cbn.
          split; auto. split; auto. split; auto. exists (Fun f us). split; auto. intros B. f_equal.
          refine (forall2_map (heap b0) (Terms.app alt_var) _ us ts _ _ DL R). intros x t' u Ht Dt Ru. apply Ru; auto.
          pose proof (nvars_arg f ts t' Ht). cbn [nvars] in *. lia.
  Qed.

  (** *** lookup *)
  Record same_bank (b b' : bank) : Prop := {
    s_heap : heap b' = heap b; s_tick : tick b' = tick b; s_var : varcell b' = varcell b; s_look : forall i k, look (store b' i) k = look (store b i) k;
    s_tok : forall i, tok (store b' i); s_ent : entries b' = entries b; s_gst : gstate b' = gstate b;
    s_roots : true_term b' = true_term b /\ false_term b' = false_term b /\ min_terms b' = min_terms b
  }.
  Lemma same_inv b b' : inv b -> same_bank b b' -> inv b' /\ (forall x, stored b' x <-> stored b x) /\ (forall x, is_var b' x <-> is_var b x).
  Proof.
    intros I [A T B C D E F G]. apply (inv_frame b); auto.
    - intros f. rewrite B. auto.
    - intros x _. rewrite A. auto.
    - rewrite A, T. apply (i_fin b I).
  Qed.
  Lemma same_refl b : inv b -> same_bank b b.
  Proof. intros I. split; auto. apply (i_tok b I). Qed.
  Lemma same_trans b1 b2 b3 : same_bank b1 b2 -> same_bank b2 b3 -> same_bank b1 b3.
  Proof.
    intros [A T B C D E F [G1 [G2 G3]]] [A' T' B' C' D' E' F' [G1' [G2' G3']]].
    split; try congruence; auto.
    split; [congruence|]. split; congruence.
  Qed.
  Lemma store_find_spec b k : inv b -> let '(a, b') := store_find b k in
    same_bank b b' /\ ((a = 0 /\ forall x, ~ st b k x) \/ st b k a).
  Proof.
    intros I. unfold store_find. pose proof (find_look (store b (hash k)) k (i_tok b I _)) as H.
    destruct (find key Z top_cmp (store b (hash k)) k) as [o tr]. destruct H as [Ho [Ht HL]].
    assert (SB : same_bank b (set_store b (upd (store b) (hash k) tr) (entries b))).
    { split; cbn; auto.
      - intros i x. unfold upd. destruct (Z.eqb_spec i (hash k)) as [->|]; auto.
      - intros i. unfold upd. destruct (Z.eqb_spec i (hash k)); auto. apply (i_tok b I). }
    destruct o as [[k' a]|]; split; auto.
    - right. symmetry in Ho. unfold st. rewrite Ho. pose proof (look_key _ _ _ _ Ho). congruence.
    - left. split; auto. intros x Hx. unfold st in Hx. congruence.
  Qed.

  (** the address 0 (NULL) if the term is not in the bank, its cell otherwise *)
  Definition finds (b : bank) (t : term) (a : Z) : Prop :=
    (a = 0 /\ forall x, shared b x -> ~ denotes (heap b) x t) \/ (shared b a /\ denotes (heap b) a t).
  Lemma finds_same b b' t a : inv b -> same_bank b b' -> finds b' t a -> finds b t a.
  Proof.
    intros I SB. destruct (same_inv b b' I SB) as [_ [SS SV]]. unfold finds, shared. rewrite (s_heap b b' SB), SS, SV.
    intros [[A H]|H]; auto. left. split; auto. intros x Hx. apply H. rewrite SS, SV. auto.
  Qed.
  Lemma tb_find_spec : forall t b, inv b -> let '(a, b') := tb_find t b in same_bank b b' /\ finds b t a.
  Proof.
    induction t as [x|f ts IH] using term_ind'; intros b I.
    - cbn [tb_find]. split; [apply same_refl; auto|]. destruct (varcell b (vcode x)) as [a|] eqn:V.
      + right. apply varcell_denotes; auto.
      + left. split; auto. intros y Sy [c [E F]]. pose proof (shared_varcell b y c I Sy E) as H. rewrite F in H. specialize (H (vcode_neg x)). congruence.
    - cbn [tb_find]. rewrite Forall_forall in IH.
      set (go := fix go (l : list term) (b : bank) {struct l} : list Z * bank := match l with [] => ([], b)
              | t :: l' => let '(x, b1) := tb_find t b in let '(xs, b2) := go l' b1 in (x :: xs, b2) end).
      assert (H : forall l b, (forall t, In t l -> In t ts) -> inv b -> let '(xs, b') := go l b in same_bank b b' /\ Forall2 (finds b) l xs).
      { induction l as [|t l IHl]; intros b1 Hl I1.
        - cbn. split; [apply same_refl; auto|constructor].
        - cbn [go]. pose proof (IH t (Hl t (or_introl eq_refl)) b1 I1) as Ht. destruct (tb_find t b1) as [x b2]. destruct Ht as [SB F].
          destruct (same_inv b1 b2 I1 SB) as [I2 _]. specialize (IHl b2 (fun t' H' => Hl t' (or_intror H')) I2).
          fold go. destruct (go l b2) as [xs b3]. destruct IHl as [SB2 F2]. split; [eapply same_trans; eauto|]. constructor; auto.
          clear - F2 I1 SB. induction F2; constructor; auto. eapply finds_same; eauto. }
      specialize (H ts b (fun t Ht => Ht) I). destruct (go ts b) as [xs b1]. destruct H as [SB F].
      destruct (same_inv b b1 I SB) as [I1 [SS SV]].
      pose proof (store_find_spec b1 (scode f, xs) I1) as H. destruct (store_find b1 (scode f, xs)) as [a b2]. destruct H as [SB2 H].
      split; [eapply same_trans; eauto|].
      assert (ST : forall k a, st b1 k a <-> st b k a) by (intros k' a'; unfold st; rewrite (s_look b b1 SB); tauto).
      destruct H as [[-> NF]|H].
      + left. split; auto. intros y Sy D. destruct (inv_shared_cell b y I Sy) as [c E].
        destruct (denotes_cell _ _ _ _ D E) as [[x [Q _]]|[g [us [Q [Fc DL]]]]]; [discriminate|]. injection Q as <- <-.
        apply (NF y). apply ST. destruct Sy as [Sy|Sy].
        2:{ destruct (var_cell b y I Sy) as [c' [E' [_ V]]]. rewrite E in E'. injection E' as <-. pose proof (scode_pos f). lia. }
        destruct (stored_cell b y I Sy) as [c' [E' [K _]]]. rewrite E in E'. injection E' as <-.
        assert (cargs c = xs) as <-; [|unfold ckey in K; rewrite Fc in K; exact K].
        assert (Q : forall z, In z (cargs c) -> shared b z) by (intros z Hz; exact (inv_closed b I y c z (or_introl Sy) E Hz)).
        revert F DL Q. clear - I. generalize (cargs c) as ys. intros ys F. revert ys.
        induction F as [|t x ts xs Fx _ IH]; intros [|y ys]; cbn [den_list]; try tauto. intros [A B] Q. f_equal.
        * destruct Fx as [[_ N]|[Sx Dx]]; [exfalso; apply (N y); auto; apply Q; cbn; auto|].
          apply (canon b I t); auto. apply Q. cbn; auto.
        * apply IH; auto. intros z Hz. apply Q. cbn; auto.
      + right. apply ST in H. assert (Sa : stored b a) by (eexists; eauto). split; [left; auto|].
        destruct (i_cell b I _ a H) as [c [E [K _]]]. unfold ckey in K. injection K as K1 K2. apply denotes_fun. exists c. split; auto. split; auto.
        rewrite K2. assert (Q : forall z, In z xs -> shared b z).
        { intros z Hz. apply (inv_closed b I a c z (or_introl Sa) E). rewrite K2. auto. }
        revert F Q. clear - I. intros F. induction F as [|t x ts xs Fx _ IH]; intros Q; cbn [den_list]; auto. split.
        * destruct Fx as [[-> _]|[_ Dx]]; auto. pose proof (i_pos b I 0 (Q 0 (or_introl eq_refl))). lia.
        * apply IH. intros z Hz. apply Q. cbn; auto.
  Qed.

  (** *** states of programs *)
  Record pinv (b : bank) : Prop := {
    p_inv : inv b;
    p_roots : shared b (true_term b) /\ shared b (false_term b) /\ forall ty a, In (ty, a) (min_terms b) -> shared b a;
    p_leak : forall x, heap b x <> None -> shared b x
  }.
  Lemma pinv_ext b b' : pinv b -> inv b' -> ext b b' -> pinv b'.
  Proof.
    intros [I [R1 [R2 R3]] L] I' E. destruct (e_roots b b' E) as [Q1 [Q2 Q3]]. split; auto.
    - rewrite Q1, Q2, Q3. split; [eapply ext_shared; eauto|]. split; [eapply ext_shared; eauto|]. intros ty a H. eapply ext_shared; eauto.
    - intros x H. destruct (e_leak b b' E x H); auto. eapply ext_shared; eauto.
  Qed.

  Lemma create_min_spec b ty f : pinv b -> exists b' a, create_min alloc b ty f = Ok (b', a) /\ pinv b' /\
    (forall x c, heap b x = Some c -> heap b' x = Some c) /\ (forall x, shared b x -> shared b' x) /\ shared b' a /\ gstate b' = gstate b.
  Proof.
    intros P. unfold create_min. destruct (List.find (fun p => Nat.eqb (fst p) ty) (min_terms b)) as [[ty' a]|] eqn:F.
    - apply find_some in F. destruct F as [F _]. exists b, a. apply (p_roots b P) in F. auto 10.
    - destruct (tb_insert_spec (Fun f []) b (p_inv b P)) as [b1 [a [E [I1 [X [S D]]]]]]. rewrite E. cbn [rbind].
      exists (set_min b1 ((ty, a) :: min_terms b1)), a. split; auto.
      destruct (pinv_ext b b1 P I1 X) as [I1' [R1 [R2 R3]] L1]. split.
      + split; [destruct I1; split; auto| |exact L1]. split; auto. split; auto. intros ty' a' [[= <- <-]|H]; auto. exact (R3 ty' a' H).
      + split; [apply (e_heap b b1 X)|]. split; [intros x; apply (ext_shared b b1 x X)|]. split; auto. apply (e_gst b b1 X).
  Qed.

  Lemma empty_inv : inv empty_bank.
  Proof.
    split.
    - intros i. cbn. split; cbn; auto. intros e [].
    - intros i k a H. discriminate.
    - intros k a H. discriminate.
    - intros f a H. discriminate.
    - intros a [[k H]|[f H]]; discriminate.
    - exists []. split; auto. intros x H. cbn in H. congruence.
    - cbn [entries store empty_bank]. unfold total. induction bucket_list as [|i l IH]; cbn [fold_right]; auto.
  Qed.
  Lemma tb_alloc_spec : exists b, tb_alloc alloc = Ok b /\ pinv b /\ denotes (heap b) (true_term b) (Fun 0%nat []) /\
    denotes (heap b) (false_term b) (Fun 1%nat []).
  Proof.
    unfold tb_alloc. destruct (tb_insert_spec (Fun 0%nat []) empty_bank empty_inv) as [b1 [a [E [I1 [X [S D]]]]]]. rewrite E. cbn [rbind].
    destruct (tb_insert_spec (Fun 1%nat []) b1 I1) as [b2 [a2 [E2 [I2 [X2 [S2 D2]]]]]]. rewrite E2. cbn [rbind].
    eexists. split; [reflexivity|]. split; [|cbn [heap true_term false_term]; split; auto; eapply ext_denotes; eauto].
    split.
    - destruct I2; split; auto.
    - cbn [true_term false_term min_terms]. split; [exact (ext_shared b1 b2 a X2 S)|]. split; [exact S2|]. intros ty x [].
    - intros x H. cbn [heap] in H. destruct (e_leak b1 b2 X2 x H) as [H1|H1]; [|exact H1].
      destruct (e_leak _ b1 X x H1) as [H2|H2]; [cbn in H2; congruence|]. exact (ext_shared b1 b2 x X2 H2).
  Qed.

  Lemma set_link_spec b x r : pinv b -> stored b x -> (forall y, r = Some y -> shared b y) -> exists b', set_link b x r = Ok b' /\ pinv b' /\
    (forall y, shared b' y <-> shared b y) /\ agree (fun _ => True) (heap b) (heap b').
  Proof.
    intros [I R L] Sx Hr. unfold set_link. destruct (stored_cell b x I Sx) as [c [E [K P]]]. rewrite E.
    set (b' := write b x (set_replace c r)). exists b'. split; auto.
    assert (HH : forall y, heap b' y = if y =? x then Some (set_replace c r) else heap b y) by reflexivity.
    assert (AG : agree (fun _ => True) (heap b) (heap b')).
    { intros y cy _ Ey. rewrite HH. destruct (Z.eqb_spec y x) as [->|]; [|eauto]. rewrite E in Ey. injection Ey as <-. eexists. split; [reflexivity|]. reflexivity. }
    split; [|split; auto; intros y; tauto].
    split; [| |intros y Hy; rewrite HH in Hy; revert Hy; destruct (Z.eqb_spec y x) as [Eyx|]; intros Hy; [rewrite Eyx; left; exact Sx|exact (L y Hy)]].
    - split.
      + apply (i_tok b I).
      + apply (i_hash b I).
      + intros k a H. destruct (i_cell b I k a H) as [ca [Ea [Ka [Pa [Ga [Aa [Ra [t [Dt Ct]]]]]]]]].
        assert (Dt' : denotes (heap b') a t).
        { apply (denotes_agree (fun _ => True) (heap b)); auto. intros ? ? ? _ _ _. auto. }
        rewrite HH. destruct (Z.eqb_spec a x) as [->|N].
        * rewrite E in Ea. injection Ea as <-. exists (set_replace c r). split; auto. split; auto. split; auto. split; auto. split; auto.
          split; [intros y Hy; apply Hr; auto|]. exists t. split; auto.
        * exists ca. split; auto. split; auto. split; auto. split; auto. split; auto. split; auto. exists t. auto.
      + intros f a H. destruct (i_var b I f a H) as [N [ca [Ea Q]]]. split; auto. exists ca. split; auto. rewrite HH.
        destruct (Z.eqb_spec a x) as [->|]; auto. exfalso. rewrite E in Ea. injection Ea as <-. destruct Q as [Q _]. lia.
      + intros a Sa. apply (i_pos b I). auto.
      + apply (fin_write (tick b) (heap b)); [apply (i_fin b I)|congruence].
      + apply (i_cnt b I).
    - exact R.
  Qed.

  Lemma var_dec b z : inv b -> (exists v, varcell b (vcode v) = Some z) \/ ~ exists v, varcell b (vcode v) = Some z.
  Proof.
    intros I. assert (K : forall v, varcell b (vcode v) = Some z -> exists c, heap b z = Some c /\ fcode c = vcode v).
    { intros v V. destruct (i_var b I _ _ V) as [_ [c [E [F _]]]]. eauto. }
    destruct (heap b z) as [c|] eqn:E.
    - destruct (Z_lt_dec (fcode c) 0) as [N|N].
      + destruct (vcode_of _ N) as [v Hv]. destruct (varcell b (vcode v)) as [z'|] eqn:V.
        * destruct (Z.eq_dec z' z) as [->|D]; [left; eauto|]. right. intros [w W]. destruct (K w W) as [c' [[= <-] F]].
          rewrite Hv in F. apply vcode_inj in F. subst w. congruence.
        * right. intros [w W]. destruct (K w W) as [c' [[= <-] F]]. rewrite Hv in F. apply vcode_inj in F. subst w. congruence.
      + right. intros [w W]. destruct (K w W) as [c' [[= <-] F]]. pose proof (vcode_neg w). lia.
    - right. intros [w W]. destruct (K w W) as [c' [Q _]]. discriminate.
  Qed.

  Lemma use_pinv b b' : pinv b -> use alloc b b' -> pinv b' /\ (forall x, shared b x -> shared b' x) /\
    (forall x t, shared b x -> denotes (heap b) x t -> denotes (heap b') x t).
  Proof.
    intros P U.
    assert (EX : forall b', inv b' -> ext b b' -> pinv b' /\ (forall x, shared b x -> shared b' x) /\
       (forall x t, shared b x -> denotes (heap b) x t -> denotes (heap b') x t)).
    { intros b1 I1 E1. split; [eapply pinv_ext; eauto|]. split; [intros x; apply (ext_shared b b1 x E1)|]. intros x t _. apply (ext_denotes b b1 x t E1). }
    destruct U.
    - destruct (tb_insert_spec t b (p_inv b P)) as [b1 [r [E [I1 [E1 _]]]]]. rewrite H in E. injection E as <- <-. auto.
    - destruct (inv_denotes b x (p_inv b P) H) as [t D].
      assert (exists s : subst, forall y a, varcell b (vcode y) = Some a -> match bnd a with Some r => denotes (heap b) r (s y) | None => s y = Var y end) as [s HS].
      { (* a substitution read off the finitely many bound variables is only needed through its values; choose by cases *)
        destruct (i_fin b (p_inv b P)) as [used [_ HU]]. clear H1.
        assert (HF : forall l, exists s : subst, forall y a, In a l -> varcell b (vcode y) = Some a -> match bnd a with Some r => denotes (heap b) r (s y) | None => s y = Var y end).
        { induction l as [|z l [s Hs]]; [exists Var; intros ? ? []|].
          destruct (bnd z) as [r|] eqn:Bz.
          - destruct (H0 z r Bz) as [Vz Sr]. destruct (inv_denotes b r (p_inv b P) Sr) as [u Du]. destruct (var_cell b z (p_inv b P) Vz) as [cz [Ez [Vz' Nz]]].
            destruct (vcode_of _ Nz) as [v Hv]. exists (fun y => if Nat.eqb y v then u else s y). intros y aa Hin Va. destruct (Nat.eqb_spec y v) as [->|Ny].
            + rewrite <- Hv, Vz' in Va. injection Va as <-. rewrite Bz. auto.
            + destruct Hin as [<-|Hin]; [|exact (Hs y aa Hin Va)]. exfalso. apply Ny. apply vcode_inj. rewrite <- Hv.
              destruct (i_var b (p_inv b P) _ _ Va) as [_ [c' [E' [F' _]]]]. rewrite Ez in E'. injection E' as <-. congruence.
          - destruct (var_dec b z (p_inv b P)) as [[v Vz]|NV].
            + exists (fun y => if Nat.eqb y v then Var y else s y). intros y aa Hin Va. destruct (Nat.eqb_spec y v) as [->|Ny].
              * rewrite Vz in Va. injection Va as <-. rewrite Bz. auto.
              * destruct Hin as [<-|Hin]; [rewrite Bz|exact (Hs y aa Hin Va)]. exfalso. apply Ny. apply vcode_inj.
                destruct (i_var b (p_inv b P) _ _ Va) as [_ [c' [E' [F' _]]]]. destruct (i_var b (p_inv b P) _ _ Vz) as [_ [c2 [E2 [F2 _]]]]. congruence.
            + exists s. intros y aa [<-|Hin] Va; [exfalso; apply NV; eauto|exact (Hs y aa Hin Va)]. }
        destruct (HF used) as [s Hs]. exists s. intros y aa Va. refine (Hs y aa _ Va). apply HU.
        destruct (i_var b (p_inv b P) _ _ Va) as [_ [c [E _]]]. congruence. }
      pose proof (tb_inst_spec b bnd s (p_inv b P) H0 HS n x b t (p_inv b P) (grows_refl b) H D) as Q. rewrite H1 in Q. cbn in Q.
      destruct Q as [I1 [E1 _]]. auto.
    - destruct (inv_denotes b x (p_inv b P) H) as [t D]. destruct (inv_denotes b old (p_inv b P) H0) as [s Do]. destruct (inv_denotes b repl (p_inv b P) H1) as [r0 Dr].
      pose proof (tb_repl_spec b old repl s r0 (p_inv b P) H0 H1 Do Dr n x b t (p_inv b P) (grows_refl b) H D) as Q. rewrite H2 in Q. cbn in Q.
      destruct Q as [I1 [E1 _]]. auto.
    - pose proof (tb_disjoint_spec b (p_inv b P) n x b t (p_inv b P) (grows_refl b) H H0 H1) as Q. rewrite H2 in Q. cbn in Q.
      destruct Q as [I1 [E1 _]]. auto.
    - pose proof (tb_find_spec t b (p_inv b P)) as Q. rewrite H in Q. destruct Q as [SB _]. destruct (same_inv b b' (p_inv b P) SB) as [I1 [SS SV]].
      apply EX; auto. split; try (rewrite (s_heap b b' SB)); auto.
      + intros y Sy. apply SS. auto.
      + rewrite (s_var b b' SB). auto.
      + apply (s_gst b b' SB).
      + apply (s_roots b b' SB).
    - destruct (create_min_spec b ty f P) as [b1 [r [E [P1 [H1 [S1 _]]]]]]. rewrite H in E. injection E as <- <-. split; auto. split; auto.
      intros x t _. apply denotes_mono. auto.
    - destruct (set_link_spec b x r P H H0) as [b1 [E [P1 [SH AG]]]]. rewrite H1 in E. injection E as <-. split; auto. split; [intros y; apply SH|].
      intros y t _. apply (denotes_agree (fun _ => True)); auto. intros ? ? ? _ _ _. auto.
  Qed.
End Ops.
