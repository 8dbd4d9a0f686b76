(** * Proofs about the generation of term orderings (model: OrdGen.v). *)
From Coq Require Import String Permutation ZifyBool.
From Verif Require Import Terms KBO KBOProofs KBOOrder KBOProps LPO OCB OCBProofs OCBProps OrdGen.

(** ** Symbols *)
Lemma in_codes P f : In f (codes P) <-> 2 <= f <= sigsize P.
Proof. unfold codes. rewrite in_seq. lia. Qed.
Lemma nodup_codes P : NoDup (codes P).
Proof. apply seq_NoDup. Qed.

(** ** Precedence *)
Lemma index_bound i l k : k <= index i l k <= k + length l.
Proof. revert k. induction l as [|j l IH]; intros k; simpl; [lia|]. destruct (Nat.eqb i j); [lia|]. specialize (IH (S k)). lia. Qed.

Lemma index_inj i j l k : In i l -> In j l -> index i l k = index j l k -> i = j.
Proof.
  revert k. induction l as [|x l IH]; intros k Hi Hj E; simpl in *; [tauto|].
  destruct (Nat.eqb_spec i x), (Nat.eqb_spec j x); subst; auto.
  - pose proof (index_bound j l (S k)). lia.
  - pose proof (index_bound i l (S k)). lia.
  - apply (IH (S k)); auto; [destruct Hi|destruct Hj]; congruence.
Qed.

Lemma index_nth i l k : In i l -> nth_error l (index i l k - k) = Some i.
Proof.
  revert k. induction l as [|x l IH]; intros k Hi; simpl in *; [tauto|].
  destruct (Nat.eqb_spec i x) as [->|N].
  - rewrite Nat.sub_diag. reflexivity.
  - destruct Hi as [?|Hi]; [congruence|]. specialize (IH (S k) Hi).
    pose proof (index_bound i l (S k)). replace (index i l (S k) - k) with (S (index i l (S k) - S k)) by lia. exact IH.
Qed.

Lemma sorted_perm P q order : sorted_codes P q order -> Permutation (codes P) order.
Proof.
  intros [l' [[Hp _] ->]]. apply (Permutation_map symbol) in Hp.
  rewrite map_map in Hp. rewrite (map_ext _ (fun i => i)) in Hp; [rewrite map_id in Hp; exact Hp|].
  intros i. unfold entry_of. destruct (keys P (to_prec_gen q) i) as [[a b] c]. reflexivity.
Qed.

Section Weighted.
  Variables (P : problem) (order : list sym).
  Hypothesis HO : Permutation (codes P) order.

  Lemma in_order f : In f order <-> 2 <= f <= sigsize P.
  Proof.
    rewrite <- in_codes. split; intros H.
    - eapply Permutation_in; [apply Permutation_sym; exact HO|exact H].
    - eapply Permutation_in; [exact HO|exact H].
  Qed.

  Lemma pw_pos f : f <> 0 -> f <> sig_true -> (2 <= prec_weights order f)%Z.
  Proof.
    intros A B. unfold prec_weights. destruct (Nat.eqb_spec f 0); [congruence|]. destruct (Nat.eqb_spec f sig_true); [congruence|].
    pose proof (index_bound f order 2). lia.
  Qed.

  Lemma weighted_total : total_prec (prec_weighted P order) /\ lpo_precedence (prec_weighted P order).
  Proof.
    apply C10_weighted_precedence_is_total.
    - intros f g Hf Hg Nf Ng E. unfold prec_weights in E.
      pose proof (index_bound g order 2). pose proof (index_bound f order 2).
      destruct (Nat.eqb_spec f sig_true); [congruence|]. destruct (Nat.eqb_spec g sig_true); [congruence|].
      destruct (Nat.eqb_spec f 0), (Nat.eqb_spec g 0); try congruence; try lia.
      apply (index_inj f g order 2); try (apply in_order; unfold sig_true in *; lia). lia.
    - intros f _ N. destruct (Nat.eqb_spec f 0) as [->|]; [unfold prec_weights; simpl; lia|].
      pose proof (pw_pos f). lia.
  Qed.

  (** a symbol of the signature that is not a distinct object is above every symbol outside *)
  Lemma weighted_outside f g : 2 <= f <= sigsize P -> dst P f = false -> ~ (2 <= g <= sigsize P) ->
    prec_weighted P order f g = Greater.
  Proof.
    intros Hf Df Hg. unfold prec_weighted, fun_compare_w, fun_compare_gen.
    destruct (Nat.eqb_spec f g); [lia|]. destruct (Nat.eqb_spec f sig_true); [unfold sig_true in *; lia|].
    destruct (Nat.eqb_spec g sig_true); auto. rewrite Df.
    destruct (dst P g); [reflexivity|]. simpl. unfold compare_weights.
    destruct (Nat.leb_spec f (sigsize P)); [|lia].
    assert (2 <= prec_weights order f)%Z by (apply pw_pos; auto; lia).
    assert (~ (prec_weights order f - (if Nat.leb g (sigsize P) then prec_weights order g else - Z.of_nat g) <= 0))%Z.
    { destruct (Nat.leb_spec g (sigsize P)).
      - assert (g = 0) as -> by (unfold sig_true in *; lia). unfold prec_weights at 2. simpl. lia.
      - lia. }
    unfold q_to_part. destruct (Z.ltb_spec (prec_weights order f - (if Nat.leb g (sigsize P) then prec_weights order g else - Z.of_nat g)) 0); [lia|].
    destruct (Z.ltb_spec 0 (prec_weights order f - (if Nat.leb g (sigsize P) then prec_weights order g else - Z.of_nat g))); [auto|lia].
  Qed.
End Weighted.

(** ** The greatest symbol *)
Section Max.
  Variables (P : problem) (p : sym -> sym -> cmp).
  Hypothesis HT : total_prec p.

  Lemma max_step_one m i : m <> i -> (p m i = Greater /\ max_step p [m] i = [m]) \/ (p i m = Greater /\ max_step p [m] i = [i]).
  Proof.
    intros N. unfold max_step. simpl.
    destruct (tp_total p HT i m ltac:(congruence)) as [E|E]; rewrite E; simpl.
    - right. auto.
    - left. split; auto. rewrite (tp_inv p HT), E. reflexivity.
  Qed.

  Lemma max_fold l m : NoDup (m :: l) ->
    exists f, fold_left (max_step p) l [m] = [f] /\ In f (m :: l) /\ forall g, In g (m :: l) -> g <> f -> p f g = Greater.
  Proof.
    revert m. induction l as [|i l IH]; intros m HN.
    - exists m. simpl. repeat split; auto. intros g [->|[]] N. congruence.
    - simpl. apply NoDup_cons_iff in HN. destruct HN as [Nm HN]. apply NoDup_cons_iff in HN. destruct HN as [Ni HN].
      assert (mi : m <> i) by (intros ->; apply Nm; left; auto).
      destruct (max_step_one m i mi) as [[E ->]|[E ->]].
      + destruct (IH m) as [f [A [B C]]]. { constructor; auto. intros H. apply Nm. right. auto. }
        exists f. split; auto. split; [destruct B; [left|right; right]; auto|].
        intros g [->|[->|Hg]] N; [apply C; auto; left; auto| |apply C; auto; right; auto].
        destruct (Nat.eq_dec f m) as [->|Nf]; auto.
        apply (tp_trans p HT f m g); auto. apply C; auto. left; auto.
      + destruct (IH i) as [f [A [B C]]]. { constructor; auto. }
        exists f. split; auto. split; [right; auto|].
        intros g [->|Hg] N; [|apply C; auto].
        destruct (Nat.eq_dec f i) as [->|Nf]; auto.
        apply (tp_trans p HT f i g); auto. apply C; auto. left; auto.
  Qed.

  Lemma first_max_total :
    (first_max P p = None /\ codes P = []) \/
    exists f, first_max P p = Some f /\ In f (codes P) /\ forall g, In g (codes P) -> g <> f -> p f g = Greater.
  Proof.
    unfold first_max, find_max_symbols. pose proof (nodup_codes P) as HN. destruct (codes P) as [|m l] eqn:E; [left; auto|].
    right. destruct (max_fold l m HN) as [f [A [B C]]].
    exists f. simpl. replace (max_step p [] m) with [m] by reflexivity. rewrite A. simpl. auto.
  Qed.
End Max.

(** ** Weights *)
Lemma upd_same w f v : upd w f v f = v.
Proof. unfold upd. rewrite Nat.eqb_refl. auto. Qed.
Lemma upd_other w f v g : g <> f -> upd w f v g = w g.
Proof. unfold upd. intros N. destruct (Nat.eqb_spec g f); congruence. Qed.

Lemma fold_upd v l w f : fold_left (fun w i => upd w i (v i)) l w f = if existsb (Nat.eqb f) l then v f else w f.
Proof.
  revert w. induction l as [|i l IH]; intros w; simpl; auto. rewrite IH. unfold upd.
  destruct (Nat.eqb_spec f i) as [->|]; simpl; auto. destruct (existsb (Nat.eqb i) l); auto.
Qed.

Lemma existsb_in f l : existsb (Nat.eqb f) l = true <-> In f l.
Proof.
  rewrite existsb_exists. split; [intros [x [H E]]; apply Nat.eqb_eq in E; congruence|].
  intros H. exists f. rewrite Nat.eqb_refl. auto.
Qed.

Lemma for_all_in P v w f : In f (codes P) -> for_all P v w f = v f.
Proof. intros H. unfold for_all. rewrite fold_upd. apply existsb_in in H. rewrite H. auto. Qed.
Lemma for_all_out P v w f : ~ In f (codes P) -> for_all P v w f = w f.
Proof.
  intros H. unfold for_all. rewrite fold_upd. destruct (existsb (Nat.eqb f) (codes P)) eqn:E; auto.
  apply existsb_in in E. tauto.
Qed.

Section Ranks.
  Variable P : problem.

  Lemma precrank_out ranks l i w f : ~ In f l -> precrank P ranks l i w f = w f.
  Proof.
    revert i w. induction l as [|x l IH]; intros i w H; simpl in *; auto.
    rewrite IH by tauto. apply upd_other. intros ->. apply H. auto.
  Qed.
  Lemma precrank_in ranks l i w f : (0 <= ranks)%Z -> (0 <= i)%Z -> In f l -> (1 <= precrank P ranks l i w f)%Z.
  Proof.
    revert i w. induction l as [|x l IH]; intros i w Hr Hi H; simpl in *; [tauto|].
    destruct (in_dec Nat.eq_dec f l) as [I|N]; [apply IH; auto; lia|].
    rewrite precrank_out by auto. destruct H as [->|H]; [|tauto]. rewrite upd_same.
    assert (0 <= i * ranks / Z.of_nat (length (codes P)))%Z; [|lia].
    destruct (Z.eq_dec (Z.of_nat (length (codes P))) 0) as [E|E]; [rewrite E, Zdiv_0_r; lia|].
    apply Z.div_pos; lia.
  Qed.

  Lemma freqrank_out fin l a b w f : ~ In f l -> freqrank P fin l a b w f = w f.
  Proof.
    revert a b w. induction l as [|x l IH]; intros a b w H; simpl in *; auto.
    rewrite IH by tauto. apply upd_other. intros ->. apply H. auto.
  Qed.
  (** once the counter is positive it stays so; until then only frequency 0 has been seen *)
  Lemma freqrank_in fin l a b w f : (0 <= a)%Z -> (1 <= a \/ b = 0)%Z -> In f l ->
    exists r, freqrank P fin l a b w f = fin r /\ (0 <= r)%Z /\ (freq P f <> 0 -> 1 <= r)%Z.
  Proof.
    revert a b w. induction l as [|x l IH]; intros a b w Ha Hab H; simpl in *; [tauto|].
    set (a' := if Z.eqb b (freq P x) then a else (a + 1)%Z).
    assert (A0 : (0 <= a')%Z) by (unfold a'; destruct (Z.eqb b (freq P x)); lia).
    assert (A1 : (1 <= a' \/ freq P x = 0)%Z).
    { unfold a'. destruct (Z.eqb_spec b (freq P x)); lia. }
    destruct (in_dec Nat.eq_dec f l) as [I|N]; [apply IH; auto|].
    rewrite freqrank_out by auto. destruct H as [->|H]; [|tauto]. rewrite upd_same.
    exists a'. split; auto. split; auto. lia.
  Qed.

  Lemma conjrank_out l a b c w f : ~ In f l -> conjrank P l a b c w f = w f.
  Proof.
    revert a b c w. induction l as [|x l IH]; intros a b c w H; simpl in *; auto.
    rewrite IH by tauto. apply upd_other. intros ->. apply H. auto.
  Qed.
  Lemma conjrank_in l a b c w f : (0 <= a)%Z -> (1 <= a \/ b = 0)%Z -> In f l ->
    (0 <= conjrank P l a b c w f)%Z /\ (freq P f <> 0 -> 1 <= conjrank P l a b c w f)%Z.
  Proof.
    revert a b c w. induction l as [|x l IH]; intros a b c w Ha Hab H; simpl in *; [tauto|].
    set (a' := if Z.eqb b (freq P x) && Z.eqb c (conjfreq P x) then a else (a + 1)%Z).
    assert (A0 : (0 <= a')%Z) by (unfold a'; destruct (Z.eqb b (freq P x) && Z.eqb c (conjfreq P x)); lia).
    assert (A1 : (1 <= a' \/ freq P x = 0)%Z).
    { unfold a'. destruct (Z.eqb_spec b (freq P x)), (Z.eqb_spec c (conjfreq P x)); simpl; lia. }
    destruct (in_dec Nat.eq_dec f l) as [I|N]; [apply IH; auto|].
    rewrite conjrank_out by auto. destruct H as [->|H]; [|tauto]. rewrite upd_same. split; auto. lia.
  Qed.

  Lemma modrank_out l a b c w f : ~ In f l -> modrank P l a b c w f = w f.
  Proof.
    revert a b c w. induction l as [|x l IH]; intros a b c w H; simpl in *; auto.
    rewrite IH by tauto. apply upd_other. intros ->. apply H. auto.
  Qed.
  Lemma modrank_in l a b c w f : (0 <= a)%Z -> (0 <= b)%Z -> (1 <= a \/ c = 0)%Z -> In f l ->
    (0 <= modrank P l a b c w f)%Z /\ (freq P f <> 0 -> 1 <= modrank P l a b c w f)%Z.
  Proof.
    revert a b c w. induction l as [|x l IH]; intros a b c w Ha Hb Hab H; simpl in *; [tauto|].
    set (a' := if Z.eqb c (freq P x) then a else (b + 1)%Z).
    assert (A0 : (0 <= a')%Z) by (unfold a'; destruct (Z.eqb c (freq P x)); lia).
    assert (A1 : (1 <= a' \/ freq P x = 0)%Z).
    { unfold a'. destruct (Z.eqb_spec c (freq P x)); lia. }
    destruct (in_dec Nat.eq_dec f l) as [I|N]; [apply IH; auto; lia|].
    rewrite modrank_out by auto. destruct H as [->|H]; [|tauto]. rewrite upd_same. split; auto. lia.
  Qed.

  Lemma fold_max_ge (v : sym -> Z) l m : (m <= fold_left (fun m i => Z.max m (v i)) l m)%Z /\
    forall i, In i l -> (v i <= fold_left (fun m i => Z.max m (v i)) l m)%Z.
  Proof.
    revert m. induction l as [|x l IH]; intros m; simpl; [split; [lia|tauto]|].
    destruct (IH (Z.max m (v x))) as [A B]. split; [lia|]. intros i [->|H]; [lia|auto].
  Qed.
  Lemma max_arity_ge f : In f (codes P) -> (zar P f <= max_arity P)%Z.
  Proof.
    intros H. apply (proj2 (fold_max_ge (zar P) (seq 1 (sigsize P)) 0%Z)). apply in_codes in H. apply in_seq. lia.
  Qed.
  Lemma max_count_gt f : In f (codes P) -> (Z.max (freq P f) 1 < max_count P)%Z.
  Proof.
    intros H. unfold max_count.
    assert (E : forall l m, fold_left (fun m i => Z.max (freq P i) m) l m = fold_left (fun m i => Z.max m (freq P i)) l m).
    { induction l as [|x l IH]; intros m; simpl; auto. rewrite Z.max_comm. apply IH. }
    rewrite E. destruct (fold_max_ge (freq P) (codes P) 1%Z) as [A B]. specialize (B f H). lia.
  Qed.
  Lemma count_rel_pos p r f : (1 <= count_rel P p r f)%Z.
  Proof.
    unfold count_rel. assert (H : forall l m, (1 <= m -> 1 <= fold_left (fun w j => if cmp_eqb (p f j) r then w + 1 else w) l m)%Z).
    { induction l as [|x l IH]; intros m Hm; simpl; auto. apply IH. destruct (cmp_eqb (p f x) r); lia. }
    apply H. lia.
  Qed.
End Ranks.

(** methods that use set_maximal_0, i.e. weight 0 without a look at the arity *)
Definition uses_max0 (m : wmethod) : bool :=
  match m with
  | WNoMethod | WSelectMaximal | WArityMax0 | WModArityMax0 | WAritySqMax0 | WInvArityMax0 | WInvAritySqMax0 => true
  | _ => false
  end.

(** methods that give weight 0 to symbols that do not occur *)
Definition needs_occurrence (m : wmethod) : bool :=
  match m with
  | WInvConjFrequencyRank | WFrequencyRankSq | WInvFrequencyRankSq | WInvModFreqRank | WInvModFreqRankMax0 => true
  | _ => false
  end.

Section Method.
  Variables (P : problem) (p : sym -> sym -> cmp) (wsrt psrt : list sym).
  Hypothesis HT : total_prec p.
  Hypothesis HW : Permutation (codes P) wsrt.
  Hypothesis HS : Permutation (codes P) psrt.

  Lemma in_wsrt f : In f wsrt <-> In f (codes P).
  Proof. split; apply Permutation_in; [apply Permutation_sym|]; exact HW. Qed.
  Lemma in_psrt f : In f psrt <-> In f (codes P).
  Proof. split; apply Permutation_in; [apply Permutation_sym|]; exact HS. Qed.

  Lemma sq_pos z : (0 <= z)%Z -> (z <= sq z)%Z.
  Proof. unfold sq. nia. Qed.

  Lemma max0_case w f : (1 <= w f)%Z ->
    (1 <= set_maximal_0 P p w f)%Z \/ (set_maximal_0 P p w f = 0%Z /\ first_max P p = Some f).
  Proof.
    intros H. unfold set_maximal_0. destruct (first_max P p) as [g|]; auto.
    destruct (Nat.eq_dec f g) as [->|N]; [right; rewrite upd_same; auto|left; rewrite upd_other; auto].
  Qed.

  Lemma mw_in m f : In f (codes P) -> (needs_occurrence m = true -> freq P f <> 0%Z) ->
    let w := method_weights P p m wsrt psrt (fun _ => 1%Z) f in
    (1 <= w)%Z \/ (w = 0%Z /\ first_max P p = Some f /\ (uses_max0 m = true \/ ari P f = 1)).
  Proof.
    intros Hf Hn w. pose proof (max_arity_ge P f Hf) as HA. pose proof (max_count_gt P f Hf) as HC.
    assert (HZ : (0 <= zar P f)%Z) by (unfold zar; lia).
    assert (HM : forall v, (1 <= v f)%Z -> let w := set_maximal_0 P p (for_all P v (fun _ => 1%Z)) f in
       (1 <= w)%Z \/ (w = 0%Z /\ first_max P p = Some f /\ (true = true \/ ari P f = 1))).
    { intros v Hv w'. unfold w'. destruct (max0_case (for_all P v (fun _ => 1%Z)) f) as [A|[A B]]; auto.
      rewrite for_all_in; auto. }
    assert (HR : forall fin l a, Permutation (codes P) l -> (a = 0)%Z -> exists r, freqrank P fin l a 0 (fun _ => 1%Z) f = fin r /\ (0 <= r)%Z /\ (freq P f <> 0 -> 1 <= r)%Z).
    { intros fin l a Hl ->. apply freqrank_in; [lia|lia|]. eapply Permutation_in; eauto. }
    assert (HV : Permutation (codes P) (rev wsrt)) by (eapply Permutation_trans; [exact HW|apply Permutation_rev]).
    destruct m; unfold w, method_weights; cbn [uses_max0 needs_occurrence] in *;
      try (apply HM; unfold sq; try lia; nia);
      try (left; rewrite for_all_in by auto; unfold sq; try lia; try nia; apply count_rel_pos);
      try (left; apply precrank_in; [lia|lia|apply in_psrt; auto]).
    - left. destruct (HR (fun z => Z.max z 1) wsrt 0%Z HW eq_refl) as [r [E _]]. rewrite E. lia.
    - left. destruct (HR (fun z => Z.max z 1) (rev wsrt) 0%Z HV eq_refl) as [r [E _]]. rewrite E. lia.
    - left. apply conjrank_in; auto; [lia|]. apply in_wsrt; auto.
    - left. destruct (HR sq wsrt 0%Z HW eq_refl) as [r [E [A B]]]. rewrite E. specialize (B (Hn eq_refl)). pose proof (sq_pos r). lia.
    - left. destruct (HR sq (rev wsrt) 0%Z HV eq_refl) as [r [E [A B]]]. rewrite E. specialize (B (Hn eq_refl)). pose proof (sq_pos r). lia.
    - left. apply modrank_in; auto; try lia. rewrite <- in_rev. apply in_wsrt; auto.
    - assert (1 <= modrank P (rev wsrt) 0 0 0 (fun _ => 1%Z) f)%Z.
      { apply modrank_in; auto; try lia. rewrite <- in_rev. apply in_wsrt; auto. }
      unfold set_maximal_unary_0. destruct (first_max P p) as [g|]; auto.
      destruct (Nat.eqb_spec (ari P g) 1) as [E|]; auto.
      destruct (Nat.eq_dec f g) as [->|N]; [right; rewrite upd_same; auto|left; rewrite upd_other; auto].
  Qed.

  (** the weights of the arity methods for a constant that is not the greatest symbol *)
  Lemma mw_modconst m f : In f (codes P) -> is_modarity m = true -> ari P f = 0 -> (uses_max0 m = true -> first_max P p <> Some f) ->
    method_weights P p m wsrt psrt (fun _ => 1%Z) f = 4%Z.
  Proof.
    intros Hf Hm Ha Hx. destruct m; try discriminate; unfold method_weights.
    - rewrite for_all_in by auto. unfold zar. rewrite Ha. reflexivity.
    - specialize (Hx eq_refl). unfold set_maximal_0. destruct (first_max P p) as [g|].
      + rewrite upd_other by congruence. rewrite for_all_in by auto. unfold zar. rewrite Ha. reflexivity.
      + rewrite for_all_in by auto. unfold zar. rewrite Ha. reflexivity.
  Qed.

  (** ** The loop over the constants *)
  Section Const.
    Variable q : oparms.
    Let c := to_const_weight q.

    Definition const_w (w : sym -> Z) (l : list sym) (f : sym) : Z :=
      if existsb (Nat.eqb f) l && Nat.eqb (ari P f) 0 && negb (Z.eqb c (-1)) then Z.max c 1 else w f.

    Lemma const_fold l w v : NoDup l ->
      let r := fold_left (const_step P q) l (w, v) in
      (forall f, fst r f = const_w w l f) /\
      (force_kbo_var_weight q = false -> snd r = v) /\
      (snd r <= v)%Z /\
      (force_kbo_var_weight q = true -> forall f, In f l -> ari P f = 0 -> (snd r <= const_w w l f)%Z) /\
      (snd r = v \/ exists f, In f l /\ ari P f = 0 /\ force_kbo_var_weight q = true /\ snd r = const_w w l f).
    Proof.
      revert w v. induction l as [|i l IH]; intros w v HN.
      - simpl. repeat split; auto; try lia; try (intros _ f []; fail).
      - apply NoDup_cons_iff in HN. destruct HN as [Ni HN]. simpl.
        assert (Ei : existsb (Nat.eqb i) l = false).
        { destruct (existsb (Nat.eqb i) l) eqn:E; auto. apply existsb_in in E. tauto. }
        destruct (Nat.eqb_spec (ari P i) 0) as [A0|A0].
        + set (w' := if Z.eqb (to_const_weight q) (-1) then w else upd w i (Z.max (to_const_weight q) 1)).
          set (v' := if force_kbo_var_weight q then Z.min v (w' i) else v).
          assert (W : forall f, const_w w' l f = const_w w (i :: l) f).
          { intros f. unfold const_w. simpl. destruct (Nat.eqb_spec f i) as [->|N]; simpl.
            - rewrite Ei. simpl. rewrite A0. simpl. unfold w', c. destruct (Z.eqb (to_const_weight q) (-1)); simpl; auto. apply upd_same.
            - unfold w', c. destruct (Z.eqb (to_const_weight q) (-1)); auto. rewrite upd_other; auto. }
          assert (Wi : w' i = const_w w (i :: l) i).
          { rewrite <- W. unfold const_w. rewrite Ei. reflexivity. }
          destruct (IH w' v' HN) as [B1 [B2 [B3 [B4 B5]]]].
          split; [intros f; rewrite B1; apply W|].
          split; [intros F; rewrite (B2 F); unfold v'; rewrite F; auto|].
          split. { unfold v' in B3 at 2. destruct (force_kbo_var_weight q); lia. }
          split.
          * intros F f [->|Hf] Ha; [|rewrite <- W; auto]. rewrite <- Wi. unfold v' in B3 at 2. rewrite F in B3. lia.
          * destruct B5 as [B5|[f [Hf [Ha [F E]]]]]; [|right; exists f; rewrite <- W; auto].
            unfold v' in B5 at 2. destruct (force_kbo_var_weight q) eqn:F; auto.
            destruct (Z.min_spec v (w' i)) as [[_ M]|[_ M]]; rewrite M in B5; auto.
            right. exists i. rewrite <- Wi. auto.
        + assert (W : forall f, const_w w l f = const_w w (i :: l) f).
          { intros f. unfold const_w. simpl. destruct (Nat.eqb_spec f i) as [->|N]; simpl; auto.
            rewrite Ei. simpl. apply Nat.eqb_neq in A0. rewrite A0. reflexivity. }
          destruct (IH w v HN) as [B1 [B2 [B3 [B4 B5]]]].
          split; [intros f; rewrite B1; apply W|]. split; [exact B2|]. split; [exact B3|]. split.
          * intros F f [->|Hf] Ha; [congruence|]. rewrite <- W. auto.
          * destruct B5 as [B5|[f [Hf [Ha [F E]]]]]; auto. right. exists f. rewrite <- W. auto.
    Qed.
  End Const.
End Method.

(** ** Admissibility *)
Section Admissible.
  Variables (P : problem) (q : oparms) (order wsrt psrt : list sym) (U : sym -> bool).
  Hypothesis HO : Permutation (codes P) order.
  Hypothesis HW : Permutation (codes P) wsrt.
  Hypothesis HS : Permutation (codes P) psrt.
  Hypothesis HD : forall f, dst P f = true -> ari P f = 0.
  Hypothesis HU : forall f, U f = true -> 1 <= f.

  Let p := prec_weighted P order.
  Let o := generate P p q wsrt psrt.
  Let m := to_weight_gen q.
  Let c := to_const_weight q.
  Let n := sigsize P.

  Hypothesis Hmod : is_modarity m = true -> (c = -1 \/ 1 <= c)%Z /\ forall f, U f = true -> f <= n.
  Hypothesis Hocc : needs_occurrence m = true -> forall f, U f = true -> 2 <= f <= n -> freq P f <> 0%Z.
  Hypothesis Hmax : uses_max0 m = true -> c = (-1)%Z ->
    forall f, U f = true -> 2 <= f <= n -> ari P f = 0 -> exists g, 2 <= g <= n /\ p g f = Greater.
  Hypothesis Hforce : force_kbo_var_weight q = true -> c = (-1)%Z ->
    needs_occurrence m = false /\
    (uses_max0 m = true -> forall f, 2 <= f <= n -> ari P f = 0 -> exists g, 2 <= g <= n /\ p g f = Greater).

  Let HT : total_prec p := proj1 (weighted_total P order HO).

  Lemma not_first f : In f (codes P) -> (exists g, 2 <= g <= n /\ p g f = Greater) -> first_max P p <> Some f.
  Proof.
    intros Hf [g [Hg E]] H.
    destruct (first_max_total P p HT) as [[A _]|[x [A [_ B]]]]; [congruence|].
    assert (x = f) by congruence. subst x.
    destruct (Nat.eq_dec g f) as [->|N].
    - rewrite (tp_refl p HT) in E. discriminate.
    - assert (p f g = Greater) by (apply B; auto; apply in_codes; exact Hg).
      rewrite (tp_inv p HT), E in H0. discriminate.
  Qed.

  Definition w1 : sym -> Z := method_weights P p m wsrt psrt (fun _ => 1%Z).
  Definition v1 : Z := if is_modarity m then (if Z.eqb c (-1) then 4 else c)%Z else 1%Z.
  Definition r2 := fold_left (const_step P q) (codes P) (w1, v1).

  Lemma o_vw : vw o = snd r2.
  Proof. unfold o, generate, r2, w1, v1, m, c. destruct (fold_left _ _ _). reflexivity. Qed.
  Lemma o_fw f : fw o f = if Nat.leb f n then (if Nat.eqb f sig_true then snd r2 else fst r2 f) else 1%Z.
  Proof.
    unfold o, generate, r2, w1, v1, m, c, n. destruct (fold_left _ _ _) as [w2 v2]. simpl.
    destruct (Nat.leb f (sigsize P)); auto.
  Qed.
  Lemma o_prec : prec o = p.
  Proof. unfold o, generate. destruct (fold_left _ _ _). reflexivity. Qed.

  Lemma first_in f : first_max P p = Some f -> In f (codes P).
  Proof.
    intros H. destruct (first_max_total P p HT) as [[A _]|[x [A [B _]]]]; [congruence|]. assert (x = f) by congruence. subst. auto.
  Qed.

  (** weight of a symbol in use after the loop over the constants *)
  Lemma w2_in f : In f (codes P) -> U f = true ->
    (1 <= const_w P q w1 (codes P) f)%Z \/
    (const_w P q w1 (codes P) f = 0%Z /\ ari P f <> 0 /\ first_max P p = Some f).
  Proof.
    intros Hf Hu. assert (H2 : 2 <= f <= n) by (apply in_codes; auto). unfold const_w.
    destruct (existsb (Nat.eqb f) (codes P) && Nat.eqb (ari P f) 0 && negb (Z.eqb (to_const_weight q) (-1))) eqn:E; [lia|].
    apply existsb_in in Hf. rewrite Hf in E. simpl in E. apply existsb_in in Hf.
    destruct (mw_in P p wsrt psrt HW HS m f Hf (fun H => Hocc H f Hu H2)) as [A|[A [B C]]]; [left; exact A|right].
    split; auto. split; auto. intros Z0. rewrite Z0 in E. simpl in E.
    destruct C as [C|C]; [|lia]. revert B. apply not_first; auto. apply Hmax; auto. unfold c.
    destruct (Z.eqb_spec (to_const_weight q) (-1)); auto. discriminate.
  Qed.

  Lemma v1_pos : (1 <= v1)%Z.
  Proof. unfold v1. destruct (is_modarity m) eqn:E; [|lia]. destruct (Hmod eq_refl) as [H _]. destruct (Z.eqb_spec c (-1)); lia. Qed.

  Lemma const_pos f : force_kbo_var_weight q = true -> In f (codes P) -> ari P f = 0 -> (1 <= const_w P q w1 (codes P) f)%Z.
  Proof.
    intros F Hf Ha. unfold const_w. assert (Hf' := Hf). apply existsb_in in Hf'. rewrite Hf', Ha. simpl.
    destruct (Z.eqb_spec (to_const_weight q) (-1)) as [E|E]; simpl; [|lia].
    destruct (Hforce F E) as [N1 N2].
    destruct (mw_in P p wsrt psrt HW HS m f Hf ltac:(rewrite N1; discriminate)) as [A|[_ [B C]]]; [exact A|].
    exfalso. destruct C as [C|C]; [|lia]. revert B. apply not_first; auto. apply N2; auto. apply in_codes; auto.
  Qed.

  Lemma v2_spec : (1 <= snd r2 <= v1)%Z.
  Proof.
    destruct (const_fold P q (codes P) w1 v1 (nodup_codes P)) as [_ [_ [C [_ E]]]]. fold r2 in *.
    pose proof v1_pos. destruct E as [E|[f [Hf [Ha [F E]]]]]; [lia|]. pose proof (const_pos f F Hf Ha). lia.
  Qed.

  Lemma v2_const f : U f = true -> In f (codes P) -> ari P f = 0 -> (snd r2 <= const_w P q w1 (codes P) f)%Z.
  Proof.
    intros Hu Hf Ha. assert (H2 : 2 <= f <= n) by (apply in_codes; auto).
    destruct (const_fold P q (codes P) w1 v1 (nodup_codes P)) as [_ [B [_ [D _]]]]. fold r2 in *.
    pose proof (w2_in f Hf Hu) as W2. pose proof (Hmax) as Hmax'. pose proof (not_first f Hf) as NF.
    destruct (force_kbo_var_weight q) eqn:F; [apply D; auto|]. rewrite (B eq_refl). unfold v1.
    destruct (is_modarity m) eqn:E.
    - destruct (Hmod eq_refl) as [Hc _]. unfold const_w. assert (Hf' := Hf). apply existsb_in in Hf'. rewrite Hf', Ha. simpl. fold c.
      destruct (Z.eqb_spec c (-1)) as [C|C]; simpl; [|lia].
      unfold w1. rewrite mw_modconst; auto; try lia.
    - destruct W2 as [A|[_ [A _]]]; [exact A|congruence].
  Qed.

  (** the ordering with the weights of the symbols that are not in use replaced *)
  Definition repaired : ocb := {| fw := fun f => if U f then fw o f else vw o; vw := vw o; prec := p |}.

  Lemma repaired_admissible : admissible repaired (ari P).
  Proof.
    pose proof v2_spec as HV. pose proof v1_pos as H1.
    destruct (const_fold P q (codes P) w1 v1 (nodup_codes P)) as [W [B [_ [_ _]]]]. fold r2 in *.
    assert (HF : forall f, U f = true -> (exists v, fw o f = v /\ (1 <= v)%Z /\ (ari P f = 0 -> (snd r2 <= v)%Z)) \/
                   (fw o f = 0%Z /\ ari P f <> 0 /\ first_max P p = Some f)).
    { intros f Hu. rewrite o_fw. specialize (HU f Hu).
      destruct (Nat.leb_spec f n).
      - destruct (Nat.eqb_spec f sig_true) as [->|N]; [left; exists (snd r2); split; auto; split; [lia|lia]|].
        assert (Hf : In f (codes P)) by (apply in_codes; unfold sig_true, n in *; lia).
        rewrite W. destruct (w2_in f Hf Hu) as [A|A]; [|right; auto].
        left. exists (const_w P q w1 (codes P) f). split; auto. split; auto. intros Ha. apply v2_const; auto.
      - left. exists 1%Z. split; auto. split; [lia|]. intros Ha. unfold v1 in HV. destruct (is_modarity m) eqn:E; [|lia].
        destruct (Hmod eq_refl) as [_ K]. specialize (K f Hu). lia. }
    assert (V : vw o = snd r2) by apply o_vw.
    split; simpl.
    - intros f. destruct (U f) eqn:E; [|lia]. destruct (HF f E) as [[v [-> [A _]]]|[-> _]]; lia.
    - lia.
    - intros f Ha. destruct (U f) eqn:E; [|lia]. destruct (HF f E) as [[v [-> [_ A]]]|[_ [A _]]]; [specialize (A Ha); lia|congruence].
    - intros f g Ha Hw N. destruct (U f) eqn:E; [|lia].
      destruct (HF f E) as [[v [X [A _]]]|[_ [_ F]]]; [lia|].
      pose proof (first_in f F) as Hf. apply in_codes in Hf.
      destruct (first_max_total P p HT) as [[K _]|[x [K [_ G]]]]; [congruence|]. assert (x = f) by congruence. subst x.
      destruct (in_dec Nat.eq_dec g (codes P)) as [I|I]; [apply G; auto|].
      apply weighted_outside; auto.
      + destruct (dst P f) eqn:D; auto. specialize (HD f D). lia.
      + rewrite <- in_codes. auto.
  Qed.
End Admissible.

(** ** The comparison only reads the weights of the symbols in its terms *)
Section Cong.
  Variables (o o' : ocb) (U : sym -> bool).
  Hypothesis Hf : forall f, U f = true -> fw o f = fw o' f.
  Hypothesis Hv : vw o = vw o'.
  Hypothesis Hp : forall f g, prec o f g = prec o' f g.

  Lemma insig_fun f a : insig U (Fun f a) = true -> U f = true /\ Forall (fun t => insig U t = true) a.
  Proof. simpl. intros H. apply andb_prop in H. destruct H as [A B]. split; auto. apply Forall_forall. apply forallb_forall. auto. Qed.

  Lemma inc_cong k x : inc_vb o k x = inc_vb o' k x.
  Proof. unfold inc_vb. rewrite Hv. auto. Qed.
  Lemma dec_cong k x : dec_vb o k x = dec_vb o' k x.
  Proof. unfold dec_vb. rewrite Hv. auto. Qed.

  Lemma mfylhs_cong t : insig U t = true -> forall k, mfylhs o t k = mfylhs o' t k.
  Proof.
    induction t as [x|f a IH] using term_ind'; intros H k; cbn [mfylhs]; [apply inc_cong|].
    apply insig_fun in H. destruct H as [Hu Ha]. rewrite (Hf f Hu).
    induction a as [|t a IHa]; simpl; auto. apply Forall_cons_iff in IH, Ha. destruct IH as [I1 I2], Ha as [H1 H2].
    rewrite IHa by auto. apply I1; auto.
  Qed.
  Lemma mfyrhs_cong t : insig U t = true -> forall k, mfyrhs o t k = mfyrhs o' t k.
  Proof.
    induction t as [x|f a IH] using term_ind'; intros H k; cbn [mfyrhs]; [apply dec_cong|].
    apply insig_fun in H. destruct H as [Hu Ha]. rewrite (Hf f Hu).
    induction a as [|t a IHa]; simpl; auto. apply Forall_cons_iff in IH, Ha. destruct IH as [I1 I2], Ha as [H1 H2].
    rewrite IHa by auto. apply I1; auto.
  Qed.
  Lemma rest_cong a b : Forall (fun t => insig U t = true) a -> Forall (fun t => insig U t = true) b ->
    forall k, mfy_rest o a b k = mfy_rest o' a b k.
  Proof.
    revert b. induction a as [|x a IH]; intros [|y b] Ha Hb k; simpl; auto.
    apply Forall_cons_iff in Ha, Hb. destruct Ha, Hb. rewrite mfylhs_cong, mfyrhs_cong by auto. apply IH; auto.
  Qed.

  Lemma kbolincmp_cong s : forall t k, insig U s = true -> insig U t = true -> kbolincmp o s t k = kbolincmp o' s t k.
  Proof.
    induction s as [x|f a IH] using term_ind'; intros t k Hs Ht.
    - destruct t as [y|g b]; cbn [kbolincmp].
      + rewrite inc_cong, dec_cong. auto.
      + rewrite inc_cong, mfyrhs_cong by auto. auto.
    - destruct t as [y|g b]; cbn [kbolincmp].
      + rewrite dec_cong, mfylhs_cong by auto. auto.
      + destruct (Nat.eqb f g) eqn:E.
        * apply insig_fun in Hs, Ht. destruct Hs as [_ Hs], Ht as [_ Ht]. clear E.
          revert b k Ht. induction a as [|x a IHa]; intros [|y b] k Ht; auto.
          apply Forall_cons_iff in IH, Hs, Ht. destruct IH as [I1 I2], Hs as [S1 S2], Ht as [T1 T2].
          rewrite (I1 y k S1 T1). destruct (kbolincmp o' x y k) as [r k1].
          rewrite (rest_cong a b S2 T2). destruct r; auto.
        * rewrite mfylhs_cong, mfyrhs_cong by auto. rewrite Hp. auto.
  Qed.
End Cong.

(** ** Sorting *)
Section Sort.
  Variables (P : problem) (q : oparms).

  (** the differences the comparison function computes fit into an int *)
  Definition in_range : Prop :=
    forall i j, In i (codes P) -> In j (codes P) ->
      let a := entry_of P q i in let b := entry_of P q j in
      Forall (fun d => - int_max - 1 <= d <= int_max)%Z
        [key0 a - key0 b; key1 a - key1 b; key2 a - key2 b; key3 a - key3 b; rank a - rank b]%Z.

  (** lexicographic comparison *)
  Fixpoint lexlt (l k : list Z) : Prop :=
    match l, k with
    | x :: l', y :: k' => (x < y)%Z \/ (x = y /\ lexlt l' k')
    | _, _ => False
    end.
  Definition elist (e : entry) : list Z := [key0 e; key1 e; key2 e; key3 e; rank e].

  Lemma isub_range a b : (- int_max - 1 <= a - b <= int_max)%Z -> isub a b = Some (a - b)%Z.
  Proof. intros H. unfold isub. destruct (Z.leb_spec (- int_max - 1) (a - b)), (Z.leb_spec (a - b) int_max); simpl; auto; lia. Qed.

  Lemma compare_lex a b : Forall (fun d => - int_max - 1 <= d <= int_max)%Z
        [key0 a - key0 b; key1 a - key1 b; key2 a - key2 b; key3 a - key3 b; rank a - rank b]%Z ->
    exists x, feature_compare a b = Some x /\ (x < 0 <-> lexlt (elist a) (elist b))%Z /\ (0 < x <-> lexlt (elist b) (elist a))%Z.
  Proof.
    intros H. repeat (apply Forall_cons_iff in H; destruct H as [? H]).
    unfold feature_compare. rewrite !isub_range by auto. cbn [elist lexlt].
    destruct (Z.eqb_spec (key0 a - key0 b) 0); [|eexists; split; [reflexivity|lia]].
    destruct (Z.eqb_spec (key1 a - key1 b) 0); [|eexists; split; [reflexivity|lia]].
    destruct (Z.eqb_spec (key2 a - key2 b) 0); [|eexists; split; [reflexivity|lia]].
    destruct (Z.eqb_spec (key3 a - key3 b) 0); [|eexists; split; [reflexivity|lia]].
    eexists; split; [reflexivity|lia].
  Qed.

  Lemma lexlt_trans a b d : length a = length b -> length b = length d -> ~ lexlt b a -> ~ lexlt d b -> ~ lexlt d a.
  Proof.
    revert b d. induction a as [|x a IH]; intros [|y b] [|z d] L1 L2 H1 H2 H; simpl in *; try tauto; try discriminate.
    destruct H as [H|[-> H]].
    - destruct (Z.lt_trichotomy x y) as [?|[->|?]]; [|apply H2; left; auto|apply H1; left; lia].
      apply H2. left. lia.
    - destruct (Z.lt_trichotomy x y) as [?|[->|?]]; [apply H2; left; auto| |apply H1; left; auto].
      apply (IH b d); auto.
  Qed.

  Lemma range_consistent : in_range -> consistent feature_compare (map (entry_of P q) (codes P)).
  Proof.
    intros HR. split.
    - intros a b Ha Hb. apply in_map_iff in Ha, Hb. destruct Ha as [i [<- Hi]], Hb as [j [<- Hj]].
      destruct (compare_lex _ _ (HR i j Hi Hj)) as [x [E [X1 X2]]].
      destruct (compare_lex _ _ (HR j i Hj Hi)) as [y [F [Y1 Y2]]].
      exists x, y. split; auto. split; auto.
      assert (K1 : (x < 0 <-> 0 < y)%Z) by tauto. assert (K2 : (0 < x <-> y < 0)%Z) by tauto. clear X1 X2 Y1 Y2.
      destruct (Z.sgn_spec x) as [[A ->]|[[A ->]|[A ->]]], (Z.sgn_spec y) as [[B ->]|[[B ->]|[B ->]]]; try lia.
    - intros a b d x y Ha Hb Hd. apply in_map_iff in Ha, Hb, Hd. destruct Ha as [i [<- Hi]], Hb as [j [<- Hj]], Hd as [k [<- Hk]].
      destruct (compare_lex _ _ (HR i j Hi Hj)) as [x' [E [X1 X2]]].
      destruct (compare_lex _ _ (HR j k Hj Hk)) as [y' [F [Y1 Y2]]].
      destruct (compare_lex _ _ (HR i k Hi Hk)) as [z' [G [Z1 Z2]]].
      intros E' F' Lx Ly. rewrite E in E'. rewrite F in F'. injection E' as <-. injection F' as <-.
      exists z'. split; auto. assert (~ (0 < z')%Z); [|lia]. rewrite Z2.
      apply (lexlt_trans _ (elist (entry_of P q j))); auto; rewrite <- ?X2, <- ?Y2; lia.
  Qed.

  Lemma sorted_below order f g : in_range -> sorted_codes P q order -> In f (codes P) -> In g (codes P) ->
    lexlt (elist (entry_of P q f)) (elist (entry_of P q g)) -> index f order 2 < index g order 2.
  Proof.
    intros HR HS Hf Hg HL. pose proof (sorted_perm _ _ _ HS) as HP.
    destruct HS as [l' [[Hp Hs] ->]]. specialize (Hs (range_consistent HR)).
    assert (HE : forall e, In e l' -> e = entry_of P q (symbol e) /\ In (symbol e) (codes P)).
    { intros e He. assert (In e (map (entry_of P q) (codes P))) as I by (eapply Permutation_in; [apply Permutation_sym; eauto|auto]).
      apply in_map_iff in I. destruct I as [i [<- Hi]].
      assert (symbol (entry_of P q i) = i) as -> by (unfold entry_of; destruct (keys P (to_prec_gen q) i) as [[? ?] ?]; reflexivity). auto. }
    assert (If : In f (map symbol l')) by (eapply Permutation_in; eauto).
    assert (Ig : In g (map symbol l')) by (eapply Permutation_in; eauto).
    pose proof (index_nth f _ 2 If) as Nf. pose proof (index_nth g _ 2 Ig) as Ng.
    pose proof (index_bound f (map symbol l') 2). pose proof (index_bound g (map symbol l') 2).
    destruct (Nat.lt_trichotomy (index f (map symbol l') 2) (index g (map symbol l') 2)) as [L|[L|L]]; auto.
    - exfalso. rewrite L, Ng in Nf. injection Nf as ->. revert HL. clear. generalize (elist (entry_of P q f)).
      induction l as [|x l IH]; simpl; [tauto|]. intros [?|[_ ?]]; [lia|auto].
    - exfalso. rewrite nth_error_map in Nf, Ng.
      destruct (nth_error l' (index f (map symbol l') 2 - 2)) as [a|] eqn:Ea; [|discriminate]. injection Nf as Nf.
      destruct (nth_error l' (index g (map symbol l') 2 - 2)) as [b|] eqn:Eb; [|discriminate]. injection Ng as Ng.
      assert (L' : index g (map symbol l') 2 - 2 < index f (map symbol l') 2 - 2) by lia.
      destruct (Hs _ _ _ _ L' Eb Ea) as [x [E Lx]].
      destruct (HE a (nth_error_In _ _ Ea)) as [Ra _]. destruct (HE b (nth_error_In _ _ Eb)) as [Rb _].
      rewrite Nf in Ra. rewrite Ng in Rb. rewrite Ra, Rb in E.
      destruct (compare_lex _ _ (HR g f Hg Hf)) as [x' [E' [_ X2]]]. rewrite E in E'. injection E' as <-. apply X2 in HL. lia.
  Qed.

  Lemma sorted_prec order f g : in_range -> sorted_codes P q order -> In f (codes P) -> In g (codes P) -> dst P f = dst P g ->
    lexlt (elist (entry_of P q f)) (elist (entry_of P q g)) -> prec_weighted P order f g = Lesser.
  Proof.
    intros HR HS Hf Hg HD HL. pose proof (sorted_below order f g HR HS Hf Hg HL) as L.
    apply in_codes in Hf, Hg. unfold prec_weighted, fun_compare_w, fun_compare_gen.
    destruct (Nat.eqb_spec f g) as [->|]; [lia|]. destruct (Nat.eqb_spec f sig_true); [unfold sig_true in *; lia|].
    destruct (Nat.eqb_spec g sig_true); [unfold sig_true in *; lia|]. rewrite HD, Z.sub_diag. simpl.
    unfold compare_weights, prec_weights. destruct (Nat.leb_spec f (sigsize P)); [|lia]. destruct (Nat.leb_spec g (sigsize P)); [|lia].
    destruct (Nat.eqb_spec f 0); [lia|]. destruct (Nat.eqb_spec g 0); [lia|].
    destruct (Nat.eqb_spec f sig_true); [congruence|]. destruct (Nat.eqb_spec g sig_true); [congruence|].
    unfold q_to_part. destruct (Z.ltb_spec (Z.of_nat (index f order 2) - Z.of_nat (index g order 2)) 0); auto. lia.
  Qed.
End Sort.
