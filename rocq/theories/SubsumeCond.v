(** * Proofs about condensation and contextual simplify-reflect. *)
From Coq Require Import Permutation Sorted.
From Verif Require Import Terms Unify UnifyProofs MatchProofs Semantics Clauses ClausesProofs Infer InferProofs InferTotal Subsume SubsumeSpec SubsumeProofs SubsumeClause SubsumeUnits.

(** ** More fuel does not change an answer *)
Section Mono.
Variables (E : env) (n m : nat).
Hypothesis Hnm : n <= m.
Notation SS := (srt E).

Ltac sm t := match t with
  | context [smatch n ?S ?p ?st ?a ?b] => 
      let H := fresh "H" in
      destruct (smatch n S p st a b) eqn:H;
      try rewrite (smatch_mono S p st a b n m Hnm ltac:(rewrite H; discriminate)), H
  end.

Lemma topsubsumes_mono e t1 t2 : topsubsumes E n e t1 t2 <> NoFuel -> topsubsumes E m e t1 t2 = topsubsumes E n e t1 t2.
Proof.
  unfold topsubsumes. intros H.
  repeat (match goal with H : ?g <> NoFuel |- _ => sm g end; try congruence).
Qed.

Lemma subsumes_termpair_mono e : forall k k' t1 t2, k <= k' -> subsumes_termpair E n k e t1 t2 <> NoFuel ->
  subsumes_termpair E m k' e t1 t2 = subsumes_termpair E n k e t1 t2.
Proof.
  induction k as [|k IH]; intros k' t1 t2 Hk H.
  - assert (U : subsumes_termpair E m k' e t1 t2 = match topsubsumes E m e t1 t2 with
      | Ans true => Ans true
      | Ans false => match t1, t2 with
          | Fun f a, Fun g b =>
          if negb (Nat.eqb f g) || match a with [] => true | _ => false end then Ans false
          else match diff_args a b with
               | None => Undef
               | Some [] => Ans true
               | Some [(x, y)] => match k' with O => NoFuel | S k' => subsumes_termpair E m k' e x y end
               | Some _ => Ans false
               end
          | _, _ => Ans false end
      | r => r end) by (destruct k'; reflexivity).
    rewrite U. cbn [subsumes_termpair] in *.
    rewrite (topsubsumes_mono e t1 t2) by (intros X; rewrite X in H; congruence).
    destruct (topsubsumes E n e t1 t2) as [[|]| |]; auto. destruct t1 as [|f a], t2 as [|g b]; auto.
    destruct (_ || _); auto. destruct (diff_args a b) as [[|[x y] [|]]|]; auto. congruence.
  - destruct k' as [|k']; [lia|]. cbn [subsumes_termpair] in *.
    rewrite (topsubsumes_mono e t1 t2) by (intros X; rewrite X in H; congruence).
    destruct (topsubsumes E n e t1 t2) as [[|]| |]; auto. destruct t1 as [|f a], t2 as [|g b]; auto.
    destruct (_ || _); auto. destruct (diff_args a b) as [[|[x y] [|]]|]; auto. apply IH; auto. lia.
Qed.

Lemma literal_subsumes_mono l : forall c, literal_subsumes E n l c <> NoFuel -> literal_subsumes E m l c = literal_subsumes E n l c.
Proof.
  induction c as [|h c IH]; intros H; cbn [literal_subsumes] in *; auto.
  destruct (pos l), (pos h); cbn [negb] in *; auto.
  - rewrite (subsumes_termpair_mono l n m) by (auto; intros X; rewrite X in H; congruence).
    destruct (subsumes_termpair E n n l (lt h) (rt h)) as [[|]| |]; auto.
  - rewrite topsubsumes_mono by (intros X; rewrite X in H; congruence).
    destruct (topsubsumes E n l (lt h) (rt h)) as [[|]| |]; auto.
Qed.

Lemma match2_mono st m1 t1 m2 t2 : match2 E n st m1 t1 m2 t2 <> OutOfFuel -> match2 E m st m1 t1 m2 t2 = match2 E n st m1 t1 m2 t2.
Proof.
  unfold match2. intros H.
  rewrite (smatch_mono SS (pp E) st m1 t1 n m Hnm) by (intros X; rewrite X in H; congruence).
  destruct (smatch n SS (pp E) st m1 t1); auto. apply smatch_mono; auto.
Qed.

Lemma find_spec_mono l : forall c, find_spec E n l c <> NoFuel -> find_spec E m l c = find_spec E n l c.
Proof.
  induction c as [|e c IH]; intros H; cbn [find_spec] in *; auto.
  destruct (qorder l e); auto. destruct (_ <? _)%Z; auto. destruct (ori l && negb (ori e)); auto.
  rewrite match2_mono by (intros X; rewrite X in H; congruence).
  destruct (match2 E n no_bindings (lt l) (lt e) (rt l) (rt e)); auto. cbv zeta in *. destruct (ori l); auto.
  rewrite match2_mono by (intros X; rewrite X in H; congruence).
  destruct (match2 E n (backtrack_all st) (lt l) (rt e) (rt l) (lt e)); auto.
Qed.

Lemma possible_mono c : forall ls, possible E n ls c <> NoFuel -> possible E m ls c = possible E n ls c.
Proof.
  induction ls as [|l ls IH]; intros H; cbn [possible] in *; auto.
  rewrite find_spec_mono by (intros X; rewrite X in H; congruence). destruct (find_spec E n l c) as [[|]| |]; auto.
Qed.

Lemma attempt_mono r r' l a b st pk : (forall st pk, r st pk <> SFuel -> r' st pk = r st pk) ->
  attempt E n r l a b st pk <> SFuel -> attempt E m r' l a b st pk = attempt E n r l a b st pk.
Proof.
  intros HR H. unfold attempt in *. rewrite match2_mono by (intros X; rewrite X in H; congruence).
  destruct (match2 E n st (lt l) a (rt l) b) as [st1|st1| |]; auto.
  rewrite HR; auto. intros X. rewrite X in H. congruence.
Qed.

Lemma pick_loop_mono r r' l : (forall st pk, r st pk <> SFuel -> r' st pk = r st pk) -> forall es i st pk,
  pick_loop E n r l es i st pk <> SFuel -> pick_loop E m r' l es i st pk = pick_loop E n r l es i st pk.
Proof.
  intros HR. induction es as [|e es IH]; intros i st pk H; cbn [pick_loop] in *; auto.
  destruct (negb _); auto. destruct (qorder e l); auto. destruct (_ <? _)%Z; auto. destruct (ori l && negb (ori e)); auto.
  rewrite (attempt_mono r r') by (auto; intros X; rewrite X in H; congruence).
  destruct (attempt E n r l (lt e) (rt e) st (at_index S pk i)) as [st1 pk1|st1 pk1| |]; auto.
  destruct (ori l); auto. rewrite (attempt_mono r r') by (auto; intros X; rewrite X in H; congruence).
  destruct (attempt E n r l (rt e) (lt e) st1 pk1) as [st2 pk2|st2 pk2| |]; auto.
Qed.

Lemma rec_subsume_mono d : forall ls st pk, rec_subsume E n ls d st pk <> SFuel -> rec_subsume E m ls d st pk = rec_subsume E n ls d st pk.
Proof. induction ls as [|l ls IH]; intros st pk H; cbn [rec_subsume] in *; auto. apply pick_loop_mono; auto. Qed.

Lemma clause_subsumes_mono c d : clause_subsumes E n c d <> NoFuel -> clause_subsumes E m c d = clause_subsumes E n c d.
Proof.
  intros H. unfold clause_subsumes in *. destruct c as [|l [|l2 c]]; auto; [apply literal_subsumes_mono; auto|].
  destruct (_ || _); auto. destruct (_ <? _)%Z; auto.
  set (b := Nat.leb 3 (pos_no d) || Nat.leb 3 (neg_no d)) in *.
  assert (P : (if b then possible E m (l :: l2 :: c) d else Ans true) = (if b then possible E n (l :: l2 :: c) d else Ans true)).
  { destruct b; auto. apply possible_mono. intros X. rewrite X in H. congruence. }
  rewrite P. destruct (if b then possible E n (l :: l2 :: c) d else Ans true) as [[|]| |]; auto.
  rewrite rec_subsume_mono; auto. intros X. rewrite X in H. congruence.
Qed.
End Mono.

Lemma fuel_ok_max n c : csize c < n -> Forall (fuel_ok n) c.
Proof. intros H. apply Forall_forall. intros e He. apply csize_in in He. unfold lsize, fuel_ok in *. lia. Qed.

Lemma ev_clause_subsumes E c d : clause_ok E c -> clause_ok E d -> exists b, eventually (fun n => clause_subsumes E n c d) (Ans b).
Proof.
  intros HC HD. set (N := S (csize c + csize d)).
  pose proof (clause_subsumes_ok E N c d HC HD) as X.
  assert (Y : clause_subsumes E N c d <> NoFuel).
  { intros Q. rewrite Q in X. apply X. split; apply fuel_ok_max; unfold N; lia. }
  destruct (clause_subsumes E N c d) as [b| |] eqn:Q; [|congruence|contradiction].
  exists b, N. intros k Hk. rewrite (clause_subsumes_mono E N k Hk) by congruence. exact Q.
Qed.

(** ** Condensation *)
Lemma copy_eqn_inst E b s n e e' : denotes b s -> copy_eqn E n b e = Some e' ->
  lt e' = lt (inst_lit E (sg s) e) /\ rt e' = rt (inst_lit E (sg s) e) /\ pos e' = pos (inst_lit E (sg s) e).
Proof.
  intros HD H. unfold copy_eqn in H.
  destruct (inst n b (lt e)) as [l|] eqn:L; [|discriminate].
  destruct (inst n b (rt e)) as [r|] eqn:R; [|discriminate]. injection H as <-.
  rewrite (inst_sg b s _ _ _ HD L), (inst_sg b s _ _ _ HD R). cbn. auto.
Qed.
Definition same3 (a b : eqn) : Prop := lt a = lt b /\ rt a = rt b /\ pos a = pos b.
Lemma same3_ok E a b : same3 a b -> eqn_ok E b -> eqn_ok E a.
Proof. intros [A [B C]] H. unfold eqn_ok in *. rewrite A, B. auto. Qed.
Lemma same3_holds M v a b : same3 a b -> holds M v a <-> holds M v b.
Proof. intros [A [B C]]. unfold holds. rewrite A, B, C. tauto. Qed.
Lemma mapo_forall2 {A B} (f : A -> option B) : forall l r, mapo f l = Some r -> Forall2 (fun a b => f a = Some b) l r.
Proof.
  induction l as [|a l IH]; intros r H; simpl in H; [injection H as <-; constructor|].
  destruct (f a) as [b|] eqn:F; [|discriminate]. destruct (mapo f l) as [bs|]; [|discriminate]. injection H as <-. constructor; auto.
Qed.

Lemma copies_hold E M v s ls new : env_ok E -> model_ok (srt E) (dist E) M -> respects (srt E) M v -> wfsubst (srt E) s -> clause_ok E ls ->
  Forall2 (fun e e' => same3 e' (inst_lit E (sg s) e)) ls new -> Exists (holds M (val M v (sg s))) ls -> Exists (holds M v) new.
Proof.
  intros HE HM Hv Ws HC F HX. revert HC HX. induction F as [|e e' ls new S F IH]; intros HC HX; [inversion HX|]. inversion HC; subst.
  inversion HX as [? ? Y|? ? Y]; subst.
  - left. apply (same3_holds M v _ _ S). apply (inst_lit_holds E M HE HM v (sg s) e); auto. apply sg_wf; auto.
  - right. auto.
Qed.
Lemma copies_ok E s ls new : env_ok E -> wfsubst (srt E) s -> clause_ok E ls ->
  Forall2 (fun e e' => same3 e' (inst_lit E (sg s) e)) ls new -> clause_ok E new.
Proof.
  intros HE Ws HC F. induction F as [|e e' ls new S F IH]; [constructor|]. inversion HC; subst. constructor; [|apply IH; auto].
  apply (same3_ok E _ _ S). apply inst_lit_ok; auto.
Qed.

Lemma sort_lits_ok E c : clause_ok E c -> clause_ok E (sort_lits c).
Proof. unfold clause_ok. rewrite !Forall_forall. intros H e He. apply H. eapply Permutation_in; [apply sort_lits_perm|exact He]. Qed.
Lemma sort_lits_holds M v c : Exists (holds M v) (sort_lits c) <-> Exists (holds M v) c.
Proof.
  rewrite !Exists_exists. split; intros [e [I H]]; exists e; split; auto;
    [eapply Permutation_in; [apply sort_lits_perm|] | eapply Permutation_in; [apply Permutation_sym, sort_lits_perm|]]; auto.
Qed.

Lemma remove_dups_len : forall l seen, length (remove_dups_from seen l) <= length l.
Proof. induction l as [|e l IH]; intros seen; simpl; auto. destruct (existsb _ _); simpl; [specialize (IH seen)|specialize (IH (e :: seen))]; lia. Qed.
Lemma filter_len {A} (f : A -> bool) l : length (filter f l) <= length l.
Proof. induction l; simpl; auto. destruct (f a); simpl; lia. Qed.
Lemma clause_alloc_len l : length (clause_alloc l) = length l.
Proof. unfold clause_alloc. rewrite app_length. induction l as [|e l IH]; simpl; auto. destruct (pos e); simpl; lia. Qed.
Lemma except_len {A} : forall (c : list A) j e, nth_error c j = Some e -> S (length (except j c)) = length c.
Proof. induction c as [|x c IH]; intros [|j] e H; simpl in *; try discriminate; auto. rewrite (IH j e H). auto. Qed.
Lemma mapo_len {A B} (f : A -> option B) : forall l r, mapo f l = Some r -> length r = length l.
Proof.
  induction l as [|a l IH]; intros r H; simpl in H; [injection H as <-; auto|].
  destruct (f a); [|discriminate]. destruct (mapo f l) as [bs|]; [|discriminate]. injection H as <-. simpl. f_equal. apply IH; auto.
Qed.

Section Cond.
Variables (E : env) (n : nat).
Hypothesis HE : env_ok E.
Notation SS := (srt E).

Lemma unify_one_way_ok e1 e2 st : eqn_ok E e1 -> eqn_ok E e2 -> unify_one_way E n e1 e2 = Success st ->
  good E st /\ pos e1 = pos e2 /\ exists s, denotes (bnd st) s /\ wfsubst SS s /\ app s (lt e1) = app s (lt e2) /\ app s (rt e1) = app s (rt e2).
Proof.
  intros [A1 [A2 [_ [A3 A4]]]] [B1 [B2 [_ [B3 B4]]]] H. unfold unify_one_way in H.
  destruct (Bool.eqb (pos e1) (pos e2)) eqn:P; cbn [negb] in H; [|discriminate]. apply Bool.eqb_prop in P.
  change no_bindings with start in H.
  destruct (mgu n SS (pp E) start (lt e1) (lt e2)) as [st1|st1| |] eqn:G1; try discriminate.
  destruct (good_mgu E n start _ _ st1 (good_start E) A1 B1 A3 B3 G1) as [HG1 HS1].
  destruct (good_mgu E n st1 _ _ st HG1 A2 B2 A4 B4 H) as [HG2 HS2].
  split; auto. split; auto. pose proof HG2 as [HI _]. destruct (acyclic_denotes _ (inv_acyclic _ _ HI)) as [s D].
  exists s. split; auto. split; [apply (denotes_wf SS (bnd st)); auto; apply HI|].
  pose proof (denotes_solves _ _ D) as So. apply HS2 in So. destruct So as [So Q2]. apply HS1 in So. tauto.
Qed.

Definition equivalent (c d : clause) : Prop := forall M, model_ok SS (dist E) M -> (clause_true SS M c <-> clause_true SS M d).

Lemma try_condensation_ok c i j d : clause_ok E c -> i <> j -> try_condensation E n c i j = Condensed d ->
  clause_ok E d /\ length d < length c /\ subsume_ordered d = true /\ equivalent c d.
Proof.
  intros HC Hij H. unfold try_condensation in H.
  destruct (nth_error c i) as [l1|] eqn:H1; [|discriminate]. destruct (nth_error c j) as [l2|] eqn:H2; [|discriminate].
  pose proof (clause_ok_nth E i c l1 HC H1) as O1. pose proof (clause_ok_nth E j c l2 HC H2) as O2.
  destruct (unify_one_way E n l1 l2) as [st|st| |] eqn:U; try discriminate.
  destruct (unify_one_way_ok l1 l2 st O1 O2 U) as [HG [Hp [s [D [Ws [Q1 Q2]]]]]].
  destruct (mapo (copy_eqn E n (bnd st)) (except j c)) as [new|] eqn:Mp; [|discriminate]. cbv zeta in H.
  set (cand := sort_lits _) in H.
  destruct (clause_subsumes E n cand c) as [[|]| |] eqn:CS; try discriminate. injection H as <-.
  assert (F : Forall2 (fun e e' => same3 e' (inst_lit E (sg s) e)) (except j c) new).
  { apply mapo_forall2 in Mp. eapply Forall2_impl; [|exact Mp]. intros a b Hab. apply (copy_eqn_inst E (bnd st) s n a b D Hab). }
  assert (Hn : clause_ok E new) by (exact (copies_ok E s (except j c) new HE Ws (clause_ok_except E j c HC) F)).
  assert (Hc : clause_ok E cand).
  { apply sort_lits_ok. unfold clause_ok in *. rewrite Forall_forall in *. intros e He. apply (proj1 (clause_alloc_in _ _)) in He.
    unfold remove_resolved in He. apply filter_In in He. destruct He as [He _]. apply remove_dups_incl in He. auto. }
  split; auto. split.
  { unfold cand. rewrite (Permutation_length (sort_lits_perm _)), clause_alloc_len.
    pose proof (filter_len (fun e => negb (eqn_is_false E e)) (remove_dups new)). unfold remove_resolved.
    pose proof (remove_dups_len new []). unfold remove_dups in *. rewrite (mapo_len _ _ _ Mp) in *. pose proof (except_len c j l2 H2). lia. }
  split; [apply sort_lits_sorted|].
  intros M HM. split.
  - intros HT v Hv. unfold cand. rewrite sort_lits_holds, clause_alloc_holds, (remove_resolved_holds E M HM), remove_dups_holds.
    pose proof (sg_wf E s HE Ws) as Wg.
    apply (copies_hold E M v s (except j c)); auto; [apply clause_ok_except; auto|].
    pose proof (HT _ (val_respects E M HM v _ Hv Wg)) as HX.
    destruct (exists_except _ _ _ _ H2 HX) as [HX1|HX1]; auto.
    apply Exists_exists. exists l1. split; [apply (nth_except_in c i j); auto|].
    unfold holds in *. rewrite Hp. apply (sg_eq s) in Q1. apply (sg_eq s) in Q2. unfold val in *. apply lit_holds_app. apply lit_holds_app in HX1.
    rewrite Q1, Q2. auto.
  - intros HT. eapply (clause_subsumes_true E n M cand c); eauto.
Qed.

Definition cond_pairs (c : clause) : list (nat * nat) := flat_map (fun i => flat_map (fun j =>
      (i, j) :: (if negb (is_oriented c i) || negb (is_oriented c j) then [(i, j)] else []))
    (seq (S i) (length c - S i))) (seq 0 (length c)).
Lemma cond_pairs_lt c i j : In (i, j) (cond_pairs c) -> i < j /\ j < length c.
Proof.
  unfold cond_pairs. intros H. apply in_flat_map in H. destruct H as [i' [Hi H]]. apply in_flat_map in H. destruct H as [j' [Hj H]].
  apply in_seq in Hi. apply in_seq in Hj.
  assert (Q : (i, j) = (i', j')) by (destruct (_ || _); simpl in H; intuition). injection Q as -> ->. lia.
Qed.

Lemma first_condensed_ok c ps d : clause_ok E c -> (forall i j, In (i, j) ps -> i < j) -> first_condensed E n c ps = Condensed d ->
  clause_ok E d /\ length d < length c /\ subsume_ordered d = true /\ equivalent c d.
Proof.
  intros HC. induction ps as [|[i j] ps IH]; intros HP H; cbn [first_condensed] in H; [discriminate|].
  destruct (try_condensation E n c i j) as [d'| |] eqn:T.
  - injection H as <-. apply (try_condensation_ok c i j); auto. specialize (HP i j (or_introl eq_refl)). lia.
  - apply IH; auto. intros; apply HP; simpl; auto.
  - discriminate.
Qed.
Lemma condense_once_ok c d : clause_ok E c -> condense_once E n c = Condensed d ->
  clause_ok E d /\ length d < length c /\ subsume_ordered d = true /\ equivalent c d.
Proof. intros HC H. apply (first_condensed_ok c (cond_pairs c)); auto. intros i j I. apply cond_pairs_lt in I. lia. Qed.

Lemma equivalent_refl c : equivalent c c. Proof. intros M HM. tauto. Qed.
Lemma equivalent_trans a b c : equivalent a b -> equivalent b c -> equivalent a c.
Proof. intros H1 H2 M HM. rewrite (H1 M HM). apply H2; auto. Qed.

Lemma condense_loop_ok : forall k c d, clause_ok E c -> subsume_ordered c = true -> condense_loop E n k c = Condensed d ->
  clause_ok E d /\ length d <= length c /\ subsume_ordered d = true /\ equivalent c d /\ condense_once E n d = NotCondensed.
Proof.
  induction k as [|k IH]; intros c d HC HS H; cbn [condense_loop] in H; [discriminate|].
  destruct (condense_once E n c) as [c'| |] eqn:Q; [| |discriminate].
  - destruct (condense_once_ok c c' HC Q) as [A [B [C D]]]. destruct (IH c' d A C H) as [A' [B' [C' [D' F']]]].
    split; auto. split; [lia|]. split; auto. split; auto. eapply equivalent_trans; eauto.
  - injection H as <-. split; auto. split; auto. split; auto. split; [apply equivalent_refl|auto].
Qed.

Lemma equivalent_sort c : equivalent c (sort_lits c).
Proof. intros M HM. split; intros HT v Hv; [apply sort_lits_holds|apply (sort_lits_holds M v c)]; auto. Qed.

Lemma condense_ok c d : clause_ok E c -> condense E n c = Condensed d ->
  clause_ok E d /\ length d <= length c /\ equivalent c d.
Proof.
  intros HC H. unfold condense in H. destruct (_ || _).
  - destruct (condense_loop_ok _ _ _ (sort_lits_ok E c HC) (sort_lits_sorted c) H) as [A [B [C [D F]]]].
    split; auto. rewrite (Permutation_length (sort_lits_perm c)) in B. split; auto. eapply equivalent_trans; [apply equivalent_sort|exact D].
  - injection H as <-. split; auto. split; auto. apply equivalent_refl.
Qed.
End Cond.

(** *** Condensation returns *)
Definition creturns (f : nat -> cres) : Prop := exists r, eventually f r /\ r <> CFail.

Lemma ev_copy_eqn E b s e : acyclic b -> denotes b s -> exists u, eventually (fun n => copy_eqn E n b e) (Some u).
Proof.
  intros HA HD. destruct (ev_inst b s (lt e) HA HD) as [u Hu]. destruct (ev_inst b s (rt e) HA HD) as [w Hw].
  destruct (eventually_both _ _ _ _ Hu Hw) as [N HN]. eexists. exists N. intros n Hn. destruct (HN n Hn) as [A1 A2].
  unfold copy_eqn. rewrite A1, A2. reflexivity.
Qed.

Lemma ev_unify_one_way E e1 e2 : eqn_ok E e1 -> eqn_ok E e2 ->
  exists r, eventually (fun n => unify_one_way E n e1 e2) r /\ match r with Success _ | Failure _ => True | _ => False end.
Proof.
  intros [A1 [A2 [_ [A3 A4]]]] [B1 [B2 [_ [B3 B4]]]]. unfold unify_one_way. destruct (negb _); [exists (Failure no_bindings); split; auto; exists 0; auto|].
  change no_bindings with start.
  destruct (ev_mgu E start (lt e1) (lt e2) (inv_empty _) A1 B1) as [r [[N HN] Or]].
  destruct r as [st|st| |]; try contradiction.
  - destruct (ev_success E start _ _ st (good_start E) A1 B1 A3 B3 (ex_intro _ N HN)) as [HG _].
    destruct HG as [HI HP]. destruct (ev_mgu E st (rt e1) (rt e2) HI A2 B2) as [r2 [[N2 HN2] Or2]].
    exists r2. split; auto. exists (Nat.max N N2). intros k Hk. rewrite HN by lia. apply HN2. lia.
  - exists (Failure st). split; auto. exists N. intros k Hk. rewrite HN; auto.
Qed.

Lemma try_condensation_returns E c i j l1 l2 : env_ok E -> clause_ok E c -> nth_error c i = Some l1 -> nth_error c j = Some l2 ->
  creturns (fun n => try_condensation E n c i j).
Proof.
  intros HE HC H1 H2. unfold try_condensation, creturns. rewrite H1, H2.
  pose proof (clause_ok_nth E i c l1 HC H1) as O1. pose proof (clause_ok_nth E j c l2 HC H2) as O2.
  destruct (ev_unify_one_way E l1 l2 O1 O2) as [r [[N HN] Or]]. destruct r as [st|st| |]; try contradiction.
  - destruct (unify_one_way_ok E N l1 l2 st O1 O2 (HN N (le_n N))) as [HG [Hp [s [D [Ws _]]]]].
    pose proof HG as [HI _].
    destruct (ev_mapo (fun n => copy_eqn E n (bnd st)) (except j c) (fun e => ev_copy_eqn E (bnd st) s e (inv_acyclic _ _ HI) D)) as [new [N2 HN2]].
    set (cand := sort_lits (clause_alloc (remove_resolved E (remove_dups new)))).
    assert (F : Forall2 (fun e e' => same3 e' (inst_lit E (sg s) e)) (except j c) new).
    { pose proof (HN2 N2 (le_n _)) as Mp. apply mapo_forall2 in Mp. eapply Forall2_impl; [|exact Mp]. intros a b Hab. apply (copy_eqn_inst E (bnd st) s N2 a b D Hab). }
    assert (Hn : clause_ok E new) by (exact (copies_ok E s (except j c) new HE Ws (clause_ok_except E j c HC) F)).
    assert (Hc : clause_ok E cand).
    { apply sort_lits_ok. unfold clause_ok in *. rewrite Forall_forall in *. intros e He. apply (proj1 (clause_alloc_in _ _)) in He.
      unfold remove_resolved in He. apply filter_In in He. destruct He as [He _]. apply remove_dups_incl in He. auto. }
    destruct (ev_clause_subsumes E cand c Hc HC) as [b [N3 HN3]].
    exists (if b then Condensed cand else NotCondensed). split; [|destruct b; discriminate].
    exists (Nat.max N (Nat.max N2 N3)). intros k Hk. rewrite HN by lia. rewrite HN2 by lia. cbv zeta. fold cand. rewrite HN3 by lia.
    destruct b; auto.
  - exists NotCondensed. split; [|discriminate]. exists N. intros k Hk. rewrite HN; auto.
Qed.

Lemma first_condensed_returns E c : env_ok E -> clause_ok E c -> forall ps, (forall i j, In (i, j) ps -> i < j /\ j < length c) ->
  creturns (fun n => first_condensed E n c ps).
Proof.
  intros HE HC. induction ps as [|[i j] ps IH]; intros HP; cbn [first_condensed].
  - exists NotCondensed. split; [exists 0; auto|discriminate].
  - destruct (HP i j (or_introl eq_refl)) as [L1 L2].
    destruct (nth_error c i) as [l1|] eqn:H1; [|apply nth_error_None in H1; lia].
    destruct (nth_error c j) as [l2|] eqn:H2; [|apply nth_error_None in H2; lia].
    destruct (try_condensation_returns E c i j l1 l2 HE HC H1 H2) as [r [[N HN] Hr]].
    destruct r as [d| |]; [| |congruence].
    + exists (Condensed d). split; [|discriminate]. exists N. intros k Hk. rewrite HN; auto.
    + destruct (IH (fun i' j' I => HP i' j' (or_intror I))) as [r' [[N' HN'] Hr']]. exists r'. split; auto.
      exists (Nat.max N N'). intros k Hk. rewrite HN by lia. apply HN'. lia.
Qed.

Lemma condense_loop_returns E : env_ok E -> forall k c, clause_ok E c -> length c < k -> creturns (fun n => condense_loop E n k c).
Proof.
  intros HE. induction k as [|k IH]; intros c HC HL; [lia|]. cbn [condense_loop].
  destruct (first_condensed_returns E c HE HC (cond_pairs c) (fun i j => cond_pairs_lt c i j)) as [r [[N HN] Hr]].
  destruct r as [d| |]; [| |congruence].
  - destruct (condense_once_ok E N HE c d HC (HN N (le_n N))) as [A [B _]].
    destruct (IH d A ltac:(lia)) as [r' [[N' HN'] Hr']]. exists r'. split; auto. exists (Nat.max N N'). intros m Hm.
    unfold condense_once. fold (cond_pairs c). rewrite HN by lia. apply HN'. lia.
  - exists (Condensed c). split; [|discriminate]. exists N. intros m Hm. unfold condense_once. fold (cond_pairs c). rewrite HN by lia. auto.
Qed.

Lemma condense_returns E c : env_ok E -> clause_ok E c -> creturns (fun n => condense E n c).
Proof.
  intros HE HC. unfold condense. destruct (_ || _).
  - apply condense_loop_returns; auto using sort_lits_ok. rewrite (Permutation_length (sort_lits_perm c)). lia.
  - exists (Condensed c). split; [exists 0; auto|discriminate].
Qed.

(** ** Contextual simplify-reflect *)
Section CSR.
Variables (E : env) (n : nat).
Notation SS := (srt E).
Notation cell := (nat * eqn)%type.

Lemma insert_cell_perm e c : Permutation (insert_cell e c) (e :: c).
Proof.
  induction c as [|e' c IH]; simpl; auto. destruct (inv_compare (snd e) (snd e')); auto.
  eapply perm_trans; [apply perm_skip, IH|]. apply perm_swap.
Qed.
Lemma sort_cells_perm c : Permutation (sort_cells c) c.
Proof. induction c as [|e c IH]; simpl; auto. eapply perm_trans; [apply insert_cell_perm|]. auto. Qed.
Lemma flip_lit_twice e : flip_lit (flip_lit e) = e.
Proof. destruct e. unfold flip_lit; simpl. rewrite negb_involutive. reflexivity. Qed.
Lemma flip_cell_twice i c : flip_cell i (flip_cell i c) = c.
Proof.
  unfold flip_cell. rewrite map_map. rewrite <- (map_id c) at 2. apply map_ext. intros [j e].
  destruct (Nat.eqb i j) eqn:Q; rewrite Q; [rewrite flip_lit_twice|]; auto.
Qed.
Lemma flip_cell_ids i c : map fst (flip_cell i c) = map fst c.
Proof. unfold flip_cell. rewrite map_map. apply map_ext. intros [j e]. destruct (Nat.eqb i j); auto. Qed.
Lemma flip_lit_ok e : eqn_ok E e -> eqn_ok E (flip_lit e).
Proof. auto. Qed.
Lemma flip_lit_holds M v e : model_ok SS (dist E) M -> holds M v (flip_lit e) <-> ~ holds M v e.
Proof.
  intros HM. unfold holds, flip_lit, lit_holds; simpl. destruct (mo_dec _ _ _ HM (eval M v (lt e)) (eval M v (rt e))); destruct (pos e); simpl; tauto.
Qed.

Lemma nodup_ids (c : list cell) i e e' : NoDup (map fst c) -> In (i, e) c -> In (i, e') c -> e = e'.
Proof.
  induction c as [|[j d] c IH]; simpl; [contradiction|]. intros ND H1 H2. inversion ND; subst.
  destruct H1 as [H1|H1], H2 as [H2|H2]; auto.
  - congruence.
  - injection H1 as -> ->. exfalso. apply H3. apply (in_map fst) in H2. exact H2.
  - injection H2 as -> ->. exfalso. apply H3. apply (in_map fst) in H1. exact H1.
Qed.

Definition cells_ok (c : list cell) : Prop := Forall (fun p => eqn_ok E (snd p)) c.
Definition cells_fuel (c : list cell) : Prop := Forall (fun p => fuel_ok n (snd p)) c.
Definition chold M v (c : list cell) : Prop := exists p, In p c /\ holds M v (snd p).

Lemma chold_exists M v c : chold M v c <-> Exists (holds M v) (map snd c).
Proof.
  rewrite Exists_exists. split.
  - intros [p [I H]]. exists (snd p). split; auto. apply in_map; auto.
  - intros [e [I H]]. apply in_map_iff in I. destruct I as [p [<- I]]. exists p. auto.
Qed.
Lemma chold_perm M v c d : Permutation c d -> chold M v c <-> chold M v d.
Proof.
  intros P. split; intros [p [I H]]; exists p; split; auto; [exact (Permutation_in _ P I)|exact (Permutation_in _ (Permutation_sym P) I)].
Qed.
Lemma filter_perm {A} (f : A -> bool) c d : Permutation c d -> Permutation (filter f c) (filter f d).
Proof.
  induction 1; simpl; auto.
  - destruct (f x); auto.
  - destruct (f x), (f y); auto. apply perm_swap.
  - eapply perm_trans; eauto.
Qed.
Lemma flip_perm i c d : Permutation c d -> Permutation (flip_cell i c) (flip_cell i d).
Proof. apply Permutation_map. Qed.

Lemma remove_flip i c : remove_cell i (flip_cell i c) = remove_cell i c.
Proof.
  induction c as [|[j e] c IH]; simpl; auto. destruct (Nat.eqb i j) eqn:Q; cbn; rewrite ?Q; cbn; rewrite ?IH; auto.
Qed.

Lemma csr_step M v i c : model_ok SS (dist E) M -> NoDup (map fst c) -> chold M v (flip_cell i c) ->
  (chold M v c <-> chold M v (remove_cell i c)).
Proof.
  intros HM ND [[j' e'] [I' H']]. split.
  - intros [[j e] [I H]]. cbn [snd] in *. destruct (Nat.eq_dec j i) as [->|Nj].
    + unfold flip_cell in I'. apply in_map_iff in I'. destruct I' as [[j2 e2] [Q I2]].
      destruct (Nat.eqb_spec i j2) as [->|N2].
      * injection Q as <- <-. rewrite (nodup_ids c j2 e e2 ND I I2) in H. apply (flip_lit_holds M v e2 HM) in H'. contradiction.
      * injection Q as <- <-. exists (j2, e2). split; auto. apply filter_In. split; auto. apply negb_true_iff, Nat.eqb_neq; auto.
    + exists (j, e). split; auto. apply filter_In. split; auto. apply negb_true_iff, Nat.eqb_neq; auto.
  - intros [p [I H]]. exists p. split; auto. apply filter_In in I. tauto.
Qed.

Lemma cells_ok_perm c d : Permutation c d -> cells_ok c -> cells_ok d.
Proof. unfold cells_ok. rewrite !Forall_forall. intros P H p I. apply H. eapply Permutation_in; [apply Permutation_sym|]; eauto. Qed.
Lemma cells_fuel_perm c d : Permutation c d -> cells_fuel c -> cells_fuel d.
Proof. unfold cells_fuel. rewrite !Forall_forall. intros P H p I. apply H. eapply Permutation_in; [apply Permutation_sym|]; eauto. Qed.
Lemma cells_ok_flip i c : cells_ok c -> cells_ok (flip_cell i c).
Proof. unfold cells_ok, flip_cell. rewrite Forall_map. intros H. eapply Forall_impl; [|exact H]. intros [j e] X. cbn in *. destruct (Nat.eqb i j); auto. Qed.
Lemma cells_fuel_flip i c : cells_fuel c -> cells_fuel (flip_cell i c).
Proof. unfold cells_fuel, flip_cell. rewrite Forall_map. intros H. eapply Forall_impl; [|exact H]. intros [j e] X. cbn in *. destruct (Nat.eqb i j); auto. Qed.
Lemma forall_filter {A} (P : A -> Prop) f l : Forall P l -> Forall P (filter f l).
Proof. rewrite !Forall_forall. intros H x I. apply filter_In in I. apply H; tauto. Qed.
Lemma nodup_filter (f : cell -> bool) c : NoDup (map fst c) -> NoDup (map fst (filter f c)).
Proof.
  induction c as [|p c IH]; simpl; auto. intros ND. inversion ND; subst. destruct (f p); auto. simpl. constructor; auto.
  intros I. apply H1. apply in_map_iff in I. destruct I as [q [Q I]]. apply filter_In in I. apply in_map_iff. exists q. tauto.
Qed.
Lemma nodup_perm_ids (c d : list cell) : Permutation c d -> NoDup (map fst c) -> NoDup (map fst d).
Proof. intros P H. eapply Permutation_NoDup; [apply Permutation_map; eauto|auto]. Qed.

Lemma csr_loop_ok set : Forall (clause_ok E) set -> forall stack c, NoDup (map fst c) -> cells_ok c ->
  match csr_loop E n set stack c with
  | Some (r, used) => (forall s, In s used -> In s set) /\ cells_ok r
      /\ forall M, model_ok SS (dist E) M -> (forall s, In s used -> clause_true SS M s) ->
         forall v, respects SS M v -> (chold M v c <-> chold M v r)
  | None => ~ (Forall (Forall (fuel_ok n)) set /\ cells_fuel c)
  end.
Proof.
  intros HS. induction stack as [|i stack IH]; intros c ND HC; cbn [csr_loop].
  - split; [intros s []|]. split; auto. tauto.
  - set (c1 := sort_cells (flip_cell i c)). cbv zeta.
    assert (P1 : Permutation c1 (flip_cell i c)) by apply sort_cells_perm.
    assert (C1 : cells_ok c1) by (eapply cells_ok_perm; [apply Permutation_sym, P1|apply cells_ok_flip; auto]).
    assert (D1 : clause_ok E (map snd c1)) by (unfold clause_ok; rewrite Forall_map; exact C1).
    assert (N1 : NoDup (map fst c1)) by (eapply nodup_perm_ids; [apply Permutation_sym, P1|]; rewrite flip_cell_ids; auto).
    pose proof (set_subsumes_ok E n (map snd c1) D1 set HS) as X.
    destruct (set_subsumes E n set (map snd c1)) as [s| | |].
    + destruct X as [Is Cs]. assert (C2 : cells_ok (remove_cell i c1)) by (apply forall_filter; auto).
      assert (N2 : NoDup (map fst (remove_cell i c1))) by (apply nodup_filter; auto).
      specialize (IH (remove_cell i c1) N2 C2). destruct (csr_loop E n set stack (remove_cell i c1)) as [[r us]|].
      * destruct IH as [A [B C]]. split; [intros q [<-|Iq]; auto|]. split; auto.
        intros M HM HT v Hv. rewrite <- (C M HM (fun q Iq => HT q (or_intror Iq)) v Hv).
        assert (HX : chold M v (flip_cell i c)).
        { apply (chold_perm M v _ _ P1). apply chold_exists.
          assert (Hs : clause_ok E s) by (rewrite Forall_forall in HS; auto).
          apply (clause_subsumes_true E n M s (map snd c1) Hs D1 HM Cs (HT s (or_introl eq_refl)) v Hv). }
        rewrite (csr_step M v i c HM ND HX). rewrite <- remove_flip. apply chold_perm. apply filter_perm. apply Permutation_sym; auto.
      * intros [F G]. apply IH. split; auto. apply forall_filter. eapply cells_fuel_perm; [apply Permutation_sym, P1|]. apply cells_fuel_flip; auto.
    + assert (P2 : Permutation (flip_cell i c1) c) by (pose proof (flip_perm i _ _ P1) as Q; rewrite flip_cell_twice in Q; exact Q).
      assert (C2 : cells_ok (flip_cell i c1)) by (apply cells_ok_flip; auto).
      assert (N2 : NoDup (map fst (flip_cell i c1))) by (rewrite flip_cell_ids; auto).
      specialize (IH (flip_cell i c1) N2 C2). destruct (csr_loop E n set stack (flip_cell i c1)) as [[r us]|].
      * destruct IH as [A [B C]]. split; auto. split; auto. intros M HM HT v Hv. rewrite <- (C M HM HT v Hv).
        apply chold_perm. apply Permutation_sym; auto.
      * intros [F G]. apply IH. split; auto. eapply cells_fuel_perm; [apply Permutation_sym, P2|]. auto.
    + intros [F G]. apply X. split; auto. rewrite Forall_map. eapply cells_fuel_perm; [apply Permutation_sym, P1|]. apply cells_fuel_flip; auto.
    + contradiction.
Qed.

Lemma map_snd_combine (c : clause) : forall i, map snd (combine (seq i (length c)) c) = c.
Proof. induction c as [|e c IH]; intros i; simpl; auto. rewrite IH. auto. Qed.
Lemma map_fst_combine (c : clause) : forall i, map fst (combine (seq i (length c)) c) = seq i (length c).
Proof. induction c as [|e c IH]; intros i; simpl; auto. rewrite IH. auto. Qed.

Lemma contextual_sr_ok set c : Forall (clause_ok E) set -> clause_ok E c ->
  match contextual_sr E n set c with
  | Some (r, used) => (forall s, In s used -> In s set) /\ clause_ok E r
      /\ forall M, model_ok SS (dist E) M -> (forall s, In s used -> clause_true SS M s) -> lits_equivalent E M c r
  | None => ~ (Forall (Forall (fuel_ok n)) set /\ Forall (fuel_ok n) c)
  end.
Proof.
  intros HS HC. unfold contextual_sr.
  assert (C0 : cells_ok (combine (seq 0 (length c)) c)) by (unfold cells_ok; rewrite <- (Forall_map snd), map_snd_combine; auto).
  assert (N0 : NoDup (map fst (combine (seq 0 (length c)) c))) by (rewrite map_fst_combine; apply seq_NoDup).
  pose proof (csr_loop_ok set HS (rev (seq 0 (length c))) _ N0 C0) as X.
  destruct (csr_loop E n set (rev (seq 0 (length c))) (combine (seq 0 (length c)) c)) as [[r us]|].
  - destruct X as [A [B C]]. split; auto. split; [unfold clause_ok; rewrite Forall_map; exact B|].
    intros M HM HT v Hv. specialize (C M HM HT v Hv). rewrite !chold_exists, map_snd_combine in C. exact C.
  - intros [F G]. apply X. split; auto. unfold cells_fuel. rewrite <- (Forall_map snd), map_snd_combine. auto.
Qed.
End CSR.

(** ** The conditions for completeness, from facts about the clauses *)
Lemma compat_norm E (gt : term -> term -> Prop) l e :
  (forall x, vsort (srt E) x <> fres (srt E) true_code) ->
  (forall s t u, wfsubst (srt E) s -> wf (srt E) t -> wf (srt E) u -> gt t u -> gt (app s t) (app s u)) ->
  eqn_ok E l -> eqn_ok E e -> norm_lit gt l -> norm_lit gt e -> compat E l e.
Proof.
  intros NV ST [Wl [Wr [Sl _]]] [We1 [We2 [Se _]]] Nl Ne s Ws [P IO].
  assert (T : forall t, app s t = ttrue -> t = ttrue).
  { intros [x|f a] Q; simpl in Q.
    - exfalso. destruct (Ws x) as [A _]. rewrite Q in A. simpl in A. apply (NV x). auto.
    - injection Q as -> Q. destruct a; [reflexivity|discriminate]. }
  assert (AT : app s ttrue = ttrue) by reflexivity.
  assert (EQ : rt l = ttrue <-> rt e = ttrue).
  { destruct IO as [[A B]|[A B]].
    - split; intros Q; [rewrite <- B, Q; auto|apply T; congruence].
    - split; intros Q.
      + apply (nl_true _ _ Ne). rewrite <- B, Q. auto.
      + apply (nl_true _ _ Nl). apply T. congruence. }
  assert (FC : rt l = ttrue -> fcode (lt e) = fcode (lt l)).
  { intros Q. destruct (lt l) as [x|f a] eqn:L.
    - exfalso. apply (NV x). rewrite Q in Sl. simpl in Sl. auto.
    - destruct IO as [[A B]|[A B]].
      + rewrite <- A. reflexivity.
      + pose proof (proj1 EQ Q) as Q2. rewrite Q2 in A. apply T in A. injection A as -> ->. rewrite <- B, Q. reflexivity. }
  split.
  - unfold qorder. rewrite P. unfold bcmp at 1.
    assert (EL : equlit e = equlit l).
    { unfold equlit. destruct (term_eqb (rt e) ttrue) eqn:Q1, (term_eqb (rt l) ttrue) eqn:Q2; auto.
      - apply term_eqb_eq in Q1. apply EQ in Q1. rewrite Q1, term_eqb_refl in Q2. discriminate.
      - apply term_eqb_eq in Q2. apply EQ in Q2. rewrite Q2, term_eqb_refl in Q1. discriminate. }
    rewrite EL. replace (bcmp (equlit l) (equlit l)) with Eq by (destruct (equlit l); reflexivity).
    destruct (equlit l) eqn:Q; simpl; [destruct (pos e); reflexivity|].
    unfold equlit in Q. apply negb_false_iff in Q. apply term_eqb_eq in Q. rewrite FC by auto. rewrite Z.compare_refl. destruct (pos e); reflexivity.
  - intros O. apply (nl_ori _ _ Nl) in O. apply (ST s _ _ Ws Wl Wr) in O. destruct IO as [[A B]|[A B]]; rewrite A, B in O.
    + split; auto. apply (nl_ori _ _ Ne). auto.
    + exfalso. apply (nl_left _ _ Ne). auto.
Qed.
