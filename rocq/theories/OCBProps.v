(** * Property C10: precedence extension and backtracking.  Model and specification are in OCB.v. *)
From Verif Require Import Terms KBO LPO OCB OCBProofs.
From Coq Require Import ZifyBool.

(** Precedence states that occur in a run: the fresh one, everything reached by adding tuples over
    symbols of the signature, and everything reached by backtracking to a state pointer that was read earlier
    ([padds st st']: st' comes from st by adding tuples only). *)
Inductive padds (n : nat) (dist : sym -> bool) : pstate -> pstate -> Prop :=
| padds_refl st : padds n dist st st
| padds_step st st1 k f g r res st2 : padds n dist st st1 -> insig_code n f -> insig_code n g -> r <> Uncomparable ->
    add_tuple n dist k st1 f g r = Some (res, st2) -> padds n dist st st2.
Inductive preach (n : nat) (dist : sym -> bool) : pstate -> Prop :=
| preach_init : preach n dist pinit
| preach_adds st st' : preach n dist st -> padds n dist st st' -> preach n dist st'
| preach_back st st' st'' : preach n dist st -> padds n dist st st' ->
    backtrack (mat st') (stk st') (get_state st) = Some st'' -> preach n dist st''.

Lemma fuel_mono n dist : forall k st f g r x, add_tuple n dist k st f g r = Some x ->
  forall k', k <= k' -> add_tuple n dist k' st f g r = Some x.
Proof.
  induction k as [|k IH]; intros st f g r x H k' HK; [discriminate|]. destruct k' as [|k']; [lia|].
  cbn [add_tuple] in *. destruct (cmp_eqb (fun_compare n dist st f g) r); auto.
  destruct (negb _); auto.
  assert (TC : forall st f1 f2 f3 y, trans_compute n dist (add_tuple n dist k) st f1 f2 f3 = Some y ->
                trans_compute n dist (add_tuple n dist k') st f1 f2 f3 = Some y).
  { intros s f1 f2 f3 y. unfold trans_compute.
    assert (TB : forall c, match add_tuple n dist k s f1 f3 c with Some (0, s0) => Some (0, s0) | Some (S _, s0) => Some (1, s0) | None => None end = Some y ->
       match add_tuple n dist k' s f1 f3 c with Some (0, s0) => Some (0, s0) | Some (S _, s0) => Some (1, s0) | None => None end = Some y).
    { intros c. destruct (add_tuple n dist k s f1 f3 c) as [p|] eqn:E; [|discriminate].
      rewrite (IH _ _ _ _ _ E k') by lia. auto. }
    destruct (fun_compare n dist s f1 f2), (fun_compare n dist s f2 f3); simpl; auto. }
  assert (TL : forall l res s y, trans_loop n dist (add_tuple n dist k) f g l res s = Some y ->
                trans_loop n dist (add_tuple n dist k') f g l res s = Some y).
  { induction l as [|i l IHl]; intros res s y; simpl; auto.
    destruct (trans_compute n dist (add_tuple n dist k) s f g i) as [[a s1]|] eqn:E1; [|discriminate].
    rewrite (TC _ _ _ _ _ E1). destruct a; auto.
    destruct (trans_compute n dist (add_tuple n dist k) s1 i f g) as [[b s2]|] eqn:E2; [|discriminate].
    rewrite (TC _ _ _ _ _ E2). destruct b; auto. }
  match type of H with match ?X with _ => _ end = _ => destruct X as [[a s]|] eqn:E; [|discriminate] end.
  rewrite (TL _ _ _ _ E). auto.
Qed.

Lemma unset_bound n dist st : unset n dist st <= n * n.
Proof.
  unfold unset. transitivity (length (list_prod (seq 1 n) (seq 1 n))).
  - generalize (list_prod (seq 1 n) (seq 1 n)). intros l. induction l as [|a l IH]; simpl; auto.
    destruct (cmp_eqb _ _); simpl; lia.
  - rewrite prod_length, !seq_length. auto.
Qed.

Lemma pinit_ordering n dist : ordering_rel n (fun_compare n dist pinit).
Proof.
  assert (L : forall f g, insig_code n f -> insig_code n g ->
    fun_compare n dist pinit f g = if Nat.eqb f g then Equal else if Nat.ltb (lvl dist f) (lvl dist g) then Lesser
      else if Nat.ltb (lvl dist g) (lvl dist f) then Greater else Uncomparable).
  { intros f g [_ Hf] [_ Hg]. apply Nat.leb_le in Hf, Hg.
    unfold fun_compare, fun_compare_gen, compare_matrix, lvl, pinit. rewrite Hf, Hg. simpl.
    destruct (Nat.eqb_spec f g); auto.
    destruct (Nat.eqb_spec f sig_true), (Nat.eqb_spec g sig_true), (dist f), (dist g); simpl; auto; congruence. }
  split; [|split].
  - intros f Hf. apply C_refl.
  - intros f g Hf Hg. rewrite !L by auto. rewrite (Nat.eqb_sym g f). destruct (Nat.eqb_spec f g); auto.
    destruct (Nat.ltb_spec (lvl dist f) (lvl dist g)), (Nat.ltb_spec (lvl dist g) (lvl dist f)); auto; lia.
  - intros f g h Hf Hg Hh. rewrite !L by auto.
    destruct (Nat.eqb_spec f g) as [->|]; [simpl; intros; destruct (Nat.eqb_spec g h); auto; destruct (Nat.ltb_spec (lvl dist g) (lvl dist h)), (Nat.ltb_spec (lvl dist h) (lvl dist g)); auto; lia|].
    destruct (Nat.eqb_spec g h) as [->|]; [destruct (Nat.eqb_spec f h); [congruence|]; destruct (Nat.ltb (lvl dist f) (lvl dist h)), (Nat.ltb (lvl dist h) (lvl dist f)); auto|].
    destruct (Nat.eqb_spec f h) as [Efh|]; [assert (lvl dist f = lvl dist h) by congruence|];
    destruct (Nat.ltb_spec (lvl dist f) (lvl dist g)), (Nat.ltb_spec (lvl dist g) (lvl dist f)),
             (Nat.ltb_spec (lvl dist g) (lvl dist h)), (Nat.ltb_spec (lvl dist h) (lvl dist g)); simpl; intros; auto; try congruence; try lia;
    destruct (Nat.ltb_spec (lvl dist f) (lvl dist h)), (Nat.ltb_spec (lvl dist h) (lvl dist f)); auto; lia.
Qed.

Lemma add_ordering n dist k st f g r res st' : ordering_rel n (fun_compare n dist st) -> insig_code n f -> insig_code n g ->
  r <> Uncomparable -> add_tuple n dist k st f g r = Some (res, st') ->
  ordering_rel n (fun_compare n dist st') /\ undoable st st'.
Proof.
  intros HO Hf Hg Nr HA. pose proof (unset_bound n dist st) as HB.
  destruct (add_tuple_top n dist st f g r (k + S (n * n)) HO Hf Hg Nr ltac:(lia)) as [res' [s [E [U H]]]].
  rewrite (fuel_mono _ _ _ _ _ _ _ _ HA) in E by lia. injection E as <- <-. split; auto.
  destruct H as [[_ ->]|[[_ [_ [-> _]]]|[_ [_ [H _]]]]]; auto.
Qed.

Lemma padds_ordering n dist st st' : padds n dist st st' -> ordering_rel n (fun_compare n dist st) ->
  ordering_rel n (fun_compare n dist st') /\ undoable st st'.
Proof.
  intros H HO. induction H as [st|st st1 k f g r res st2 _ IH Hf Hg Nr HA]; [split; auto; apply undoable_refl|].
  destruct (IH HO) as [O1 U1]. destruct (add_ordering _ _ _ _ _ _ _ _ _ O1 Hf Hg Nr HA) as [O2 U2].
  split; auto. eapply undoable_trans; eauto.
Qed.

Lemma mat_ext_C n dist s1 s2 : (forall f g, mat s1 f g = mat s2 f g) -> forall f g, fun_compare n dist s1 f g = fun_compare n dist s2 f g.
Proof.
  intros H f g. unfold fun_compare, fun_compare_gen, compare_matrix. rewrite H. auto.
Qed.

(** C10: after any history of additions and backtracks the precedence is an ordering (with ties where the user asked for ties):
    reflexive, inverse-consistent and transitively closed. *)
Theorem C10_precedence_is_always_an_ordering :
  forall n dist st, preach n dist st -> ordering_rel n (fun_compare n dist st).
Proof.
  intros n dist st H. induction H as [|st st' H IH HA|st st' st'' H IH HA HB].
  - apply pinit_ordering.
  - apply (padds_ordering _ _ _ _ HA IH).
  - destruct (padds_ordering _ _ _ _ HA IH) as [_ [new [E U]]].
    destruct (backtrack_undo new (mat st') (stk st)) as [s [Eb [Es Em]]].
    rewrite <- E in Eb. unfold get_state in HB. rewrite Eb in HB. injection HB as <-.
    apply (ordering_rel_ext n (fun_compare n dist st)); auto.
    intros f g _ _. apply mat_ext_C. intros x y. rewrite Em, U. auto.
Qed.

(** C10: adding a tuple.  The call always returns (with the recursion depth bounded by the number of pairs);
    if the relation already holds, or the opposite does, nothing changes, and the latter is reported by 0;
    otherwise the new precedence contains the tuple and all old relations, is an ordering, and is the least such. *)
Theorem C10_add_tuple :
  forall n dist st f g r, preach n dist st -> insig_code n f -> insig_code n g -> r <> Uncomparable ->
    let C := fun_compare n dist in
    exists res st', add_tuple n dist (S (n * n)) st f g r = Some (res, st') /\
      ((C st f g = r /\ st' = st) \/
       (C st f g <> r /\ C st f g <> Uncomparable /\ st' = st /\ res = 0) \/
       (C st f g = Uncomparable /\ res <> 0 /\ ordering_rel n (C st') /\ C st' f g = r /\ extends n (C st) (C st') /\
        forall E, ordering_rel n E -> E f g = r -> extends n (C st) E -> extends n (C st') E)).
Proof.
  intros n dist st f g r H Hf Hg Nr C. pose proof (C10_precedence_is_always_an_ordering _ _ _ H) as HO.
  pose proof (unset_bound n dist st) as HB.
  destruct (add_tuple_top n dist st f g r (S (n * n)) HO Hf Hg Nr ltac:(lia)) as [res [s [E [U HH]]]].
  exists res, s. auto.
Qed.

(** C10: the refusal is exact: 0 is returned with the relation not recorded only if no ordering extends the
    current precedence with the tuple. *)
Theorem C10_refused_only_if_contradictory :
  forall n dist st f g r res st', preach n dist st -> insig_code n f -> insig_code n g -> r <> Uncomparable ->
    add_tuple n dist (S (n * n)) st f g r = Some (res, st') -> fun_compare n dist st' f g <> r ->
    res = 0 /\ st' = st /\ ~ exists E, extends n (fun_compare n dist st) E /\ E f g = r.
Proof.
  intros n dist st f g r res st' H Hf Hg Nr HA HN.
  destruct (C10_add_tuple n dist st f g r H Hf Hg Nr) as [res' [s [E HH]]]. rewrite E in HA. injection HA as <- <-.
  destruct HH as [[A ->]|[[A [B [-> D]]]|[_ [_ [_ [A _]]]]]]; [congruence| |congruence].
  split; auto. split; auto. intros [X [XE XR]]. apply A. rewrite <- XR. symmetry. apply XE; auto.
Qed.

(** C10: backtracking to a state pointer read before any number of additions succeeds and restores the precedence and the history. *)
Theorem C10_backtrack_restores :
  forall n dist st st', preach n dist st -> padds n dist st st' ->
    exists st'', backtrack (mat st') (stk st') (get_state st) = Some st'' /\
      stk st'' = stk st /\ (forall f g, mat st'' f g = mat st f g) /\
      (forall f g, fun_compare n dist st'' f g = fun_compare n dist st f g).
Proof.
  intros n dist st st' H HA. pose proof (C10_precedence_is_always_an_ordering _ _ _ H) as HO.
  destruct (padds_ordering _ _ _ _ HA HO) as [_ [new [E U]]].
  destruct (backtrack_undo new (mat st') (stk st)) as [s [Eb [Es Em]]].
  exists s. rewrite E. unfold get_state. split; auto. split; auto.
  assert (forall f g, mat s f g = mat st f g) by (intros; rewrite Em, U; auto).
  split; auto. apply mat_ext_C. auto.
Qed.

(** C10: comparing arbitrary symbol codes (also those introduced after the ordering was set up): without user-declared ties
    the comparison is a precedence in the sense required by the path ordering theorems. *)
Theorem C10_reachable_precedence_serves_lpo :
  forall n dist st, preach n dist st ->
    (forall f g, f <= n -> g <= n -> mat st f g = Equal -> f = g) ->
    (forall f, dist f = true -> 1 <= f <= n) ->
    forall f g h, 1 <= f -> 1 <= g -> 1 <= h ->
      let p := fun_compare n dist st in
      p f f = Equal /\ (p f g = Equal -> f = g) /\ (p f g = Greater -> p g h = Greater -> p f h = Greater).
Proof.
  intros n dist st H HE HD f g h Hf Hg Hh p. pose proof (C10_precedence_is_always_an_ordering _ _ _ H) as [_ [HI HC]].
  split; [apply C_refl|]. split.
  - unfold p, fun_compare, fun_compare_gen, compare_matrix.
    destruct (Nat.eqb_spec f g); auto. destruct (Nat.eqb_spec f sig_true); [discriminate|].
    destruct (Nat.eqb_spec g sig_true); [discriminate|].
    destruct (Z.eqb_spec (b2z (dist g) - b2z (dist f)) 0).
    + destruct (Nat.leb_spec f n), (Nat.leb_spec g n); auto; try discriminate.
      unfold q_to_part. destruct (Z.ltb_spec (Z.of_nat g - Z.of_nat f) 0), (Z.ltb_spec 0 (Z.of_nat g - Z.of_nat f)); try discriminate. lia.
    + unfold q_to_part. destruct (Z.ltb_spec (b2z (dist g) - b2z (dist f)) 0), (Z.ltb_spec 0 (b2z (dist g) - b2z (dist f))); try discriminate. lia.
  - intros H1 H2.
    assert (DN : forall x, n < x -> dist x = false) by (intros x Hx; destruct (dist x) eqn:E; auto; apply HD in E; lia).
    assert (BIG : forall a b, 1 <= a -> 1 <= b -> n < b -> a <= n -> p a b =
        if Nat.eqb a sig_true then Lesser else if Nat.eqb b sig_true then Greater else if dist a then Lesser else Greater).
    { intros a b Ha Hb Gb La. unfold p, fun_compare, fun_compare_gen, compare_matrix. rewrite (DN b Gb).
      destruct (Nat.eqb_spec a b); [lia|]. destruct (Nat.eqb a sig_true); auto. destruct (Nat.eqb b sig_true); auto.
      destruct (dist a); simpl; auto. apply Nat.leb_le in La. apply Nat.leb_gt in Gb. rewrite La, Gb. auto. }
    assert (BIG' : forall a b, 1 <= a -> 1 <= b -> n < a -> b <= n -> p a b =
        if Nat.eqb a sig_true then Lesser else if Nat.eqb b sig_true then Greater else if dist b then Greater else Lesser).
    { intros a b Ha Hb Ga Lb. unfold p, fun_compare, fun_compare_gen, compare_matrix. rewrite (DN a Ga).
      destruct (Nat.eqb_spec a b); [lia|]. destruct (Nat.eqb a sig_true); auto. destruct (Nat.eqb b sig_true); auto.
      destruct (dist b); simpl; auto. apply Nat.leb_le in Lb. apply Nat.leb_gt in Ga. rewrite Lb, Ga. auto. }
    assert (BB : forall a b, 1 <= a -> 1 <= b -> n < a -> n < b -> p a b =
        if Nat.eqb a b then Equal else if Nat.eqb a sig_true then Lesser else if Nat.eqb b sig_true then Greater else if Nat.ltb a b then Greater else Lesser).
    { intros a b Ha Hb Ga Gb. unfold p, fun_compare, fun_compare_gen, compare_matrix. rewrite (DN a Ga), (DN b Gb).
      destruct (Nat.eqb_spec a b); auto. destruct (Nat.eqb a sig_true); auto. destruct (Nat.eqb b sig_true); auto.
      simpl. apply Nat.leb_gt in Ga, Gb. rewrite Ga, Gb. unfold q_to_part.
      destruct (Nat.ltb_spec a b), (Z.ltb_spec (Z.of_nat b - Z.of_nat a) 0), (Z.ltb_spec 0 (Z.of_nat b - Z.of_nat a)); auto; lia. }
    assert (LV : forall a b, 1 <= a <= n -> 1 <= b <= n -> p a b = Greater -> a <> sig_true /\ (dist a = true -> b = sig_true \/ dist b = true) /\ a <> b).
    { intros a b _ _. unfold p, fun_compare, fun_compare_gen. destruct (Nat.eqb_spec a b); [discriminate|].
      destruct (Nat.eqb_spec a sig_true); [discriminate|]. intros HH. split; auto. split; auto. intros E. rewrite E in HH.
      destruct (Nat.eqb_spec b sig_true); auto. destruct (dist b); auto; discriminate. }
    destruct (Nat.le_gt_cases f n) as [Lf|Gf], (Nat.le_gt_cases g n) as [Lg|Gg], (Nat.le_gt_cases h n) as [Lh|Gh].
    + assert (E : p f h = comp (p f g) (p g h)).
      { apply HC; try (unfold insig_code; lia). unfold p in *. rewrite H1, H2. discriminate. }
      rewrite E, H1, H2. auto.
    + destruct (LV f g ltac:(lia) ltac:(lia) H1) as [A [B _]]. rewrite (BIG g h) in H2 by lia. rewrite (BIG f h) by lia.
      destruct (Nat.eqb_spec g sig_true); [discriminate|]. destruct (Nat.eqb_spec f sig_true); [congruence|].
      destruct (Nat.eqb_spec h sig_true); auto. destruct (dist g); [discriminate|]. destruct (dist f); auto.
      destruct (B eq_refl); congruence.
    + rewrite (BIG f g) in H1 by lia. rewrite (BIG' g h) in H2 by lia.
      destruct (Nat.eqb_spec f sig_true); [discriminate|]. destruct (Nat.eqb_spec g sig_true); [discriminate|].
      destruct (dist f) eqn:Df; [discriminate|].
      unfold p, fun_compare, fun_compare_gen. rewrite Df. destruct (Nat.eqb_spec f h); [subst h; rewrite Df in H2; destruct (Nat.eqb_spec f sig_true); congruence|].
      destruct (Nat.eqb_spec f sig_true); [congruence|].
      destruct (Nat.eqb_spec h sig_true); auto. destruct (dist h); [auto|discriminate].
    + rewrite (BIG f g) in H1 by lia. rewrite (BB g h) in H2 by lia. rewrite (BIG f h) by lia.
      destruct (Nat.eqb_spec f sig_true); [discriminate|]. destruct (Nat.eqb_spec h sig_true); auto.
      destruct (Nat.eqb_spec g sig_true); destruct (dist f); auto; destruct (Nat.eqb g h); try discriminate.
    + rewrite (BIG' f g) in H1 by lia. destruct (LV g h ltac:(lia) ltac:(lia) H2) as [A [B _]]. rewrite (BIG' f h) by lia.
      destruct (Nat.eqb_spec f sig_true); [discriminate|]. destruct (Nat.eqb_spec h sig_true); auto.
      destruct (Nat.eqb_spec g sig_true); [congruence|]. destruct (dist g); [|discriminate]. destruct (B eq_refl) as [|Q]; [congruence|]. rewrite Q. auto.
    + rewrite (BIG' f g) in H1 by lia. rewrite (BIG g h) in H2 by lia.
      destruct (Nat.eqb_spec f sig_true); [discriminate|]. destruct (Nat.eqb_spec g sig_true); [discriminate|].
      destruct (dist g); [|discriminate]. rewrite (BB f h) by lia. destruct (Nat.eqb_spec h sig_true); [|discriminate].
      destruct (Nat.eqb_spec f h); [congruence|]. destruct (Nat.eqb_spec f sig_true); [congruence|]. auto.
    + rewrite (BB f g) in H1 by lia. rewrite (BIG' g h) in H2 by lia. rewrite (BIG' f h) by lia.
      destruct (Nat.eqb_spec f g); [discriminate|]. destruct (Nat.eqb_spec f sig_true); [discriminate|].
      destruct (Nat.eqb_spec g sig_true); [discriminate|]. auto.
    + rewrite (BB f g) in H1 by lia. rewrite (BB g h) in H2 by lia. rewrite (BB f h) by lia.
      destruct (Nat.eqb_spec f g); [discriminate|]. destruct (Nat.eqb_spec f sig_true); [discriminate|].
      destruct (Nat.eqb_spec g h); [discriminate|]. destruct (Nat.eqb_spec g sig_true); [discriminate|].
      destruct (Nat.eqb_spec f h).
      { subst h. destruct (Nat.eqb_spec f sig_true); [congruence|]. destruct (Nat.ltb_spec f g), (Nat.ltb_spec g f); try discriminate; lia. }
      destruct (Nat.eqb_spec h sig_true); auto. destruct (Nat.ltb_spec f g), (Nat.ltb_spec g h), (Nat.ltb_spec f h); auto; try discriminate; lia.
Qed.

(** C10: the numeric precedence used by default is total whenever the weights are non-negative and distinct, so the
    ordering theorems C05-C08 apply to it. *)
Theorem C10_weighted_precedence_is_total :
  forall n dist pw, (forall f g, f <= n -> g <= n -> f <> sig_true -> g <> sig_true -> pw f = pw g -> f = g) ->
    (forall f, f <= n -> f <> sig_true -> (0 <= pw f)%Z) ->
    total_prec (fun_compare_w n dist pw) /\ lpo_precedence (fun_compare_w n dist pw).
Proof.
  intros n dist pw HI HP.
  set (w := fun f => if Nat.leb f n then pw f else (- Z.of_nat f)%Z).
  assert (WI : forall f g, f <> sig_true -> g <> sig_true -> w f = w g -> f = g).
  { intros f g Nf Ng. unfold w. destruct (Nat.leb_spec f n), (Nat.leb_spec g n); intros E; auto; try lia.
    - pose proof (HP f ltac:(auto) Nf). lia.
    - pose proof (HP g ltac:(auto) Ng). lia. }
  assert (V : forall f g, fun_compare_w n dist pw f g = if Nat.eqb f g then Equal else if Nat.eqb f sig_true then Lesser
     else if Nat.eqb g sig_true then Greater else if Bool.eqb (dist f) (dist g) then (if (w f <? w g)%Z then Lesser else Greater)
     else if dist f then Lesser else Greater).
  { intros f g. unfold fun_compare_w, fun_compare_gen, compare_weights. fold (w f) (w g).
    destruct (Nat.eqb_spec f g); auto. destruct (Nat.eqb_spec f sig_true); auto. destruct (Nat.eqb_spec g sig_true); auto.
    pose proof (WI f g). unfold q_to_part.
    destruct (dist f), (dist g); simpl; auto;
      destruct (Z.ltb_spec (w f) (w g)), (Z.ltb_spec (w f - w g) 0), (Z.ltb_spec 0 (w f - w g)); auto; try lia; exfalso; apply n0; apply H; auto; lia. }
  assert (TOT : forall f g, f <> g -> fun_compare_w n dist pw f g = Greater \/ fun_compare_w n dist pw f g = Lesser).
  { intros f g N. rewrite V. destruct (Nat.eqb_spec f g); [congruence|]. destruct (Nat.eqb f sig_true); auto.
    destruct (Nat.eqb g sig_true); auto. destruct (Bool.eqb _ _); [destruct (_ <? _)%Z|destruct (dist f)]; auto. }
  assert (TR : forall f g h, fun_compare_w n dist pw f g = Greater -> fun_compare_w n dist pw g h = Greater -> fun_compare_w n dist pw f h = Greater).
  { intros f g h. rewrite !V. destruct (Nat.eqb_spec f g); [discriminate|]. destruct (Nat.eqb_spec g h); [discriminate|].
    destruct (Nat.eqb_spec f sig_true); [discriminate|]. destruct (Nat.eqb_spec g sig_true); [discriminate|].
    destruct (Nat.eqb_spec f h) as [->|Nfh]; destruct (Nat.eqb_spec h sig_true); auto; try congruence.
    - destruct (dist h), (dist g); simpl; try discriminate; auto;
      destruct (Z.ltb_spec (w h) (w g)), (Z.ltb_spec (w g) (w h)); try discriminate; intros; exfalso; assert (w h = w g) by lia; apply n0; apply WI; auto.
    - destruct (dist f), (dist g), (dist h); simpl; try discriminate; auto;
      destruct (Z.ltb_spec (w f) (w g)), (Z.ltb_spec (w g) (w h)), (Z.ltb_spec (w f) (w h)); try discriminate; auto; lia. }
  assert (RF : forall f, fun_compare_w n dist pw f f = Equal) by (intros f; rewrite V, Nat.eqb_refl; auto).
  split; split; auto.
  - intros f g. rewrite !V, (Nat.eqb_sym g f). destruct (Nat.eqb_spec f g); auto.
    destruct (Nat.eqb_spec f sig_true), (Nat.eqb_spec g sig_true); auto; [congruence|].
    destruct (dist f), (dist g); simpl; auto;
      destruct (Z.ltb_spec (w f) (w g)), (Z.ltb_spec (w g) (w f)); auto; try lia; exfalso; apply n0; apply WI; auto; lia.
  - intros f g E. destruct (Nat.eq_dec f g) as [|N]; auto. destruct (TOT f g N); congruence.
Qed.

(** ** Findings *)

(** The interface comment promises "0 on failure, a state pointer otherwise".  A redundant tuple asked for in the initial state
    gets 0 although it holds; the parser of user-given precedences reports this as an incompatible precedence. *)
Theorem C10_redundant_tuple_reports_failure_refuted :
  exists n dist st f g r st', preach n dist st /\ insig_code n f /\ insig_code n g /\ r <> Uncomparable /\
    fun_compare n dist st f g = r /\ add_tuple n dist (S (n * n)) st f g r = Some (0, st').
Proof.
  exists 3, (fun _ => false), pinit, 3, 1, Greater, pinit.
  split; [constructor|]. unfold insig_code. repeat split; try lia; try discriminate; vm_compute; reflexivity.
Qed.

(** A successful addition returns 1, not the new value of the state pointer. *)
Theorem C10_add_returns_new_state_pointer_refuted :
  exists n dist st f g r res st', preach n dist st /\ insig_code n f /\ insig_code n g /\ r <> Uncomparable /\
    add_tuple n dist (S (n * n)) st f g r = Some (res, st') /\ fun_compare n dist st' f g = r /\ res <> get_state st' /\ res <> get_state st.
Proof.
  destruct (add_tuple 3 (fun _ => false) 10 pinit 2 3 Greater) as [[res st]|] eqn:E; [|vm_compute in E; discriminate].
  exists 3, (fun _ => false), pinit, 2, 3, Greater, res, st.
  assert (E1 : res = 1 /\ get_state st = 2 /\ fun_compare 3 (fun _ => false) st 2 3 = Greater)
    by (vm_compute in E; injection E as <- <-; repeat split; vm_compute; reflexivity).
  destruct E1 as [-> [E2 E3]]. unfold insig_code. rewrite E2.
  split; [constructor|]. repeat split; try lia; try discriminate; auto.
Qed.

(** ** Non-vacuity: a chain of additions on five symbols, transitive consequences, a refusal and a backtrack *)
Definition run5 := match add_tuple 5 (fun f => Nat.eqb f 2) 26 pinit 3 4 Greater with
  | Some (_, s1) => match add_tuple 5 (fun f => Nat.eqb f 2) 26 s1 4 5 Greater with Some (_, s2) => Some (s1, s2) | None => None end
  | None => None end.
Example C10_example_chain : exists s1 s2, run5 = Some (s1, s2) /\ preach 5 (fun f => Nat.eqb f 2) s2 /\
  fun_compare 5 (fun f => Nat.eqb f 2) s2 3 5 = Greater /\ fun_compare 5 (fun f => Nat.eqb f 2) s1 3 5 = Uncomparable /\
  add_tuple 5 (fun f => Nat.eqb f 2) 26 s2 5 3 Greater = Some (0, s2) /\
  (exists s3, backtrack (mat s2) (stk s2) (get_state s1) = Some s3 /\ fun_compare 5 (fun f => Nat.eqb f 2) s3 3 5 = Uncomparable
     /\ fun_compare 5 (fun f => Nat.eqb f 2) s3 3 4 = Greater).
Proof.
  destruct (add_tuple 5 (fun f => Nat.eqb f 2) 26 pinit 3 4 Greater) as [[r1 s1]|] eqn:E1; [|vm_compute in E1; discriminate].
  destruct (add_tuple 5 (fun f => Nat.eqb f 2) 26 s1 4 5 Greater) as [[r2 s2]|] eqn:E2;
    [|exfalso; revert E2; vm_compute in E1; injection E1 as _ <-; vm_compute; discriminate].
  exists s1, s2. split; [unfold run5; rewrite E1, E2; reflexivity|]. split.
  - apply preach_adds with pinit; [constructor|].
    eapply padds_step; [eapply padds_step; [apply padds_refl| | | |exact E1]| | | |exact E2]; unfold insig_code; try lia; discriminate.
  - vm_compute in E1. injection E1 as _ <-. vm_compute in E2. injection E2 as _ <-.
    split; [vm_compute; reflexivity|]. split; [vm_compute; reflexivity|]. split; [vm_compute; reflexivity|].
    eexists. split; [vm_compute; reflexivity|]. split; vm_compute; reflexivity.
Qed.
Example C10_example_weights : total_prec (fun_compare_w 5 (fun f => Nat.eqb f 2) Z.of_nat).
Proof. apply C10_weighted_precedence_is_total; intros; lia. Qed.

Print Assumptions C10_precedence_is_always_an_ordering.
Print Assumptions C10_add_tuple.
Print Assumptions C10_refused_only_if_contradictory.
Print Assumptions C10_backtrack_restores.
Print Assumptions C10_reachable_precedence_serves_lpo.
Print Assumptions C10_weighted_precedence_is_total.
Print Assumptions C10_redundant_tuple_reports_failure_refuted.
Print Assumptions C10_add_returns_new_state_pointer_refuted.
