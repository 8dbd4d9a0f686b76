(** * Proofs about the tautology tests. *)
From Coq Require Import Permutation.
From Verif Require Import Terms Unify KBO Semantics Clauses ClausesProofs Subsume Taut.

(** ** Trivial clauses *)

Lemma same_equation_sym a b : same_equation a b -> same_equation b a.
Proof. unfold same_equation. intuition. Qed.

Lemma complementary_valid E c : complementary_pair c -> follows E [] c.
Proof.
  intros [e1 [e2 [I1 [I2 [P1 [P2 H]]]]]] M HM _ v Hv. apply Exists_exists.
  destruct (lit_holds_dec _ _ M v true (lt e1) (rt e1) HM) as [D|D].
  - exists e1. split; auto. unfold holds. rewrite P1. exact D.
  - exists e2. split; auto. unfold holds. rewrite P2. cbn in *. destruct H as [[<- <-]|[A B]]; auto. rewrite <- A, <- B. congruence.
Qed.

Lemma eqn_equal_sound e1 e2 : eqn_equal e1 e2 = true -> same_equation e1 e2.
Proof.
  unfold eqn_equal, same_equation. destruct (term_eqb (lt e1) (lt e2) && term_eqb (rt e1) (rt e2)) eqn:Q.
  - apply andb_true_iff in Q. rewrite !term_eqb_eq in Q. tauto.
  - destruct (ori e1 && ori e2); [discriminate|]. simpl. rewrite andb_true_iff, !term_eqb_eq. tauto.
Qed.

Lemma eqn_equal_complete e1 e2 : ~ (ori e1 = true /\ ori e2 = true /\ lt e1 = rt e2 /\ rt e1 = lt e2 /\ lt e1 <> rt e1) ->
  same_equation e1 e2 -> eqn_equal e1 e2 = true.
Proof.
  unfold eqn_equal, same_equation. intros N H.
  destruct (term_eqb (lt e1) (lt e2) && term_eqb (rt e1) (rt e2)) eqn:Q; auto.
  destruct H as [[A B]|[A B]].
  - rewrite A, B, !term_eqb_refl in Q. discriminate.
  - destruct (ori e1) eqn:O1, (ori e2) eqn:O2; simpl; try (rewrite A, B, !term_eqb_refl; reflexivity).
    destruct (term_eqb (lt e1) (rt e1)) eqn:X.
    + apply term_eqb_eq in X. assert (Y1 : lt e1 = lt e2) by congruence. assert (Y2 : rt e1 = rt e2) by congruence.
      rewrite Y1, Y2, !term_eqb_refl in Q. discriminate.
    + exfalso. apply N. repeat split; auto. intros F. rewrite F, term_eqb_refl in X. discriminate.
Qed.

Lemma list_trivial_sound l : list_trivial l = true -> complementary_pair l.
Proof.
  induction l as [|e l IH]; simpl; [discriminate|]. intros H. apply orb_true_iff in H. destruct H as [H|H].
  - apply existsb_exists in H. destruct H as [h [I H]]. apply andb_true_iff in H. destruct H as [P Q].
    apply eqn_equal_sound in Q. destruct (pos h) eqn:Ph, (pos e) eqn:Pe; try discriminate.
    + exists h, e. simpl; auto 10.
    + exists e, h. simpl. apply same_equation_sym in Q. auto 10.
  - destruct (IH H) as [e1 [e2 [A [B C]]]]. exists e1, e2. simpl; auto.
Qed.

Lemma orient_ok_pair gt c e1 e2 : orient_ok gt c -> In e1 c -> In e2 c ->
  ~ (ori e1 = true /\ ori e2 = true /\ lt e1 = rt e2 /\ rt e1 = lt e2 /\ lt e1 <> rt e1).
Proof. intros [A H] I1 I2 [O1 [O2 [X [Y _]]]]. apply H in O1; auto. apply H in O2; auto. rewrite X, Y in O1. exact (A _ _ O1 O2). Qed.

Lemma list_trivial_complete gt l : orient_ok gt l -> complementary_pair l -> list_trivial l = true.
Proof.
  induction l as [|e l IH]; intros [AS OK] [e1 [e2 [I1 [I2 [P1 [P2 H]]]]]]; [destruct I1|].
  assert (IHl : complementary_pair l -> list_trivial l = true).
  { intros. apply IH; auto. split; auto. intros; apply OK; simpl; auto. }
  cbn [list_trivial]. apply orb_true_iff.
  destruct I1 as [->|I1], I2 as [->|I2].
  - congruence.
  - left. apply existsb_exists. exists e2. split; auto. rewrite P1, P2. simpl. apply eqn_equal_complete; [|apply same_equation_sym; auto].
    apply (orient_ok_pair gt (e1 :: l)); simpl; auto. split; auto.
  - left. apply existsb_exists. exists e1. split; auto. rewrite P1, P2. simpl. apply eqn_equal_complete; auto.
    apply (orient_ok_pair gt (e2 :: l)); simpl; auto. split; auto.
  - right. apply IHl. exists e1, e2; auto 10.
Qed.

Section Long.
Variable eno : term -> Z.

Lemma insert_eqn_perm e l : Permutation (insert_eqn eno e l) (e :: l).
Proof.
  induction l as [|x l IH]; simpl; auto. destruct (syntax_compare eno e x); auto.
  eapply perm_trans; [apply perm_skip, IH|]. apply perm_swap.
Qed.
Lemma sort_eqns_perm l : Permutation (sort_eqns eno l) l.
Proof.
  induction l as [|x l IH]; simpl; auto. eapply perm_trans; [apply insert_eqn_perm|]. apply perm_skip, IH.
Qed.

Lemma syntax_compare_eq (c : clause) e1 e2 :
  (forall a b t u, In a c -> In b c -> (t = lt a \/ t = rt a) -> (u = lt b \/ u = rt b) -> eno t = eno u -> t = u) ->
  In e1 c -> In e2 c -> syntax_compare eno e1 e2 = Eq -> same_equation e1 e2.
Proof.
  intros INJ I1 I2. unfold syntax_compare. destruct (_ && _); [discriminate|]. destruct (_ && _); [discriminate|].
  destruct (Z.compare_spec (Z.max (eno (lt e1)) (eno (rt e1))) (Z.max (eno (lt e2)) (eno (rt e2)))); try discriminate.
  intros K. apply Z.compare_eq in K.
  assert (X : (eno (lt e1) = eno (lt e2) /\ eno (rt e1) = eno (rt e2)) \/ (eno (lt e1) = eno (rt e2) /\ eno (rt e1) = eno (lt e2))) by lia.
  destruct X as [[A B]|[A B]]; [left|right]; split; eapply (INJ e1 e2); eauto.
Qed.

Lemma bin_search_ok l key : forall fuel lower upper, upper - lower < fuel -> upper <= length l ->
  exists i, bin_search eno fuel l key lower upper = Some i /\
   ((lower <= i < upper /\ exists e, nth_error l i = Some e /\ syntax_compare eno key e = Eq) \/ lower < i).
Proof.
  induction fuel as [|n IH]; intros lower upper F L; [lia|]. cbn [bin_search]. destruct (Nat.ltb_spec lower upper) as [H|H].
  - assert (D : lower <= Nat.div2 (lower + upper) < upper).
    { rewrite Nat.div2_div. split; [apply Nat.div_le_lower_bound; lia|apply Nat.div_lt_upper_bound; lia]. }
    set (i := Nat.div2 (lower + upper)) in *. destruct (nth_error l i) as [e|] eqn:Q.
    2:{ apply nth_error_None in Q. lia. }
    destruct (syntax_compare eno key e) eqn:C.
    + exists i. split; auto. left. split; auto. eauto.
    + destruct (IH lower (i - 1)) as [j [A B]]; try lia. exists j. split; auto. destruct B as [[B1 B2]|B]; auto. left. split; auto. lia.
    + destruct (IH (i + 1) upper) as [j [A B]]; try lia. exists j. split; auto. destruct B as [[B1 B2]|B]; [|right; lia]. left. split; auto. lia.
  - exists (lower + 1). split; auto. right. lia.
Qed.

Lemma long_loop_ok (ps ns : list eqn) (P : Prop) :
  (forall a b, In a ps -> In b ns -> syntax_compare eno a b = Eq -> P) ->
  forall fuel pp np, S (length ns) - np < fuel -> exists b, long_loop eno fuel ps ns pp np = Some b /\ (b = true -> P).
Proof.
  intros HP. induction fuel as [|n IH]; intros pp np F; [lia|]. cbn [long_loop].
  destruct (Nat.ltb_spec pp (length ps)) as [H|H]; [|exists false; split; [auto|discriminate]].
  destruct (nth_error ps pp) as [key|] eqn:Q; [|apply nth_error_None in Q; lia].
  destruct (bin_search_ok ns key (S (length ns)) np (length ns)) as [np' [A B]]; try lia. rewrite A.
  destruct (Nat.leb_spec (length ns) np') as [L|L]; [exists false; split; [auto|discriminate]|].
  destruct (nth_error ns np') as [key2|] eqn:Q2; [|apply nth_error_None in Q2; lia].
  destruct (bin_search_ok ps key2 (S (length ps)) pp (length ps)) as [pp' [A' B']]; try lia. rewrite A'.
  assert (R : np < np' -> exists b, long_loop eno n ps ns pp' np' = Some b /\ (b = true -> P)) by (intros; apply IH; lia).
  destruct (syntax_compare eno key key2) eqn:C.
  - exists true. split; auto. intros _. apply (HP key key2); auto; eapply nth_error_In; eauto.
  - destruct B as [[_ [e [B1 B2]]]|B]; [|auto]. congruence.
  - destruct B as [[_ [e [B1 B2]]]|B]; [|auto]. congruence.
Qed.

Lemma long_list_ok c : injective_on eno c -> exists b, long_list_trivial eno c = Some b /\ (b = true -> complementary_pair c).
Proof.
  intros INJ. unfold long_list_trivial. apply long_loop_ok; [|lia]. intros a b Ia Ib H.
  apply (Permutation_in _ (sort_eqns_perm _)) in Ia. apply (Permutation_in _ (sort_eqns_perm _)) in Ib.
  apply filter_In in Ia. apply filter_In in Ib. destruct Ia as [Ia Pa], Ib as [Ib Pb]. apply negb_true_iff in Pb.
  exists a, b. repeat split; auto. apply (syntax_compare_eq c); auto.
Qed.

Lemma trivial_ok E c : injective_on eno c -> exists b, clause_is_trivial eno E c = Some b /\ (b = true -> follows E [] c).
Proof.
  intros INJ. unfold clause_is_trivial. destruct (find_true E c) eqn:FT.
  - exists true. split; auto. intros _ M HM _ v Hv. apply existsb_exists in FT. destruct FT as [e [I T]].
    apply Exists_exists. exists e. split; auto. apply (is_true_holds E M HM); auto.
  - destruct (_ && _); [|exists false; split; [auto|discriminate]].
    destruct (Nat.ltb _ _).
    + destruct (long_list_ok c INJ) as [b [A B]]. exists b. split; auto. intros. apply complementary_valid; auto.
    + eexists. split; [reflexivity|]. intros H. apply complementary_valid, list_trivial_sound; auto.
Qed.

(** ** The completion-based test *)
Definition gholds (M : structure) (v : var -> dom M) (g : geq) : Prop := eval M v (gl g) = eval M v (gr g).

Section Sem.
Variable M : structure.
Variable v : var -> dom M.

Lemma top_nf_eval rules t : Forall (gholds M v) rules -> eval M v (fst (top_nf rules t)) = eval M v t.
Proof.
  intros H. induction rules as [|g r IH]; simpl; auto. inversion H; subst. destruct (term_eqb (lside g) t) eqn:Q; auto.
  apply term_eqb_eq in Q. subst t. simpl. unfold gholds in *. unfold lside, rside. destruct (natural g); congruence.
Qed.

Lemma ground_nf_eval rules : Forall (gholds M v) rules -> forall t, eval M v (fst (ground_nf rules t)) = eval M v t.
Proof.
  intros H. induction t as [x|f a IH] using term_ind'; cbn [ground_nf].
  - apply top_nf_eval; auto.
  - pose proof (top_nf_eval rules (Fun f (map fst (map (ground_nf rules) a))) H) as X.
    destruct (top_nf rules (Fun f (map fst (map (ground_nf rules) a)))) as [t' b]. simpl in *. rewrite X. simpl. f_equal.
    rewrite !map_map. apply map_ext_in. rewrite Forall_forall in IH. auto.
Qed.

Lemma ground_normalize_eval rules g : Forall (gholds M v) rules ->
  let g' := fst (ground_normalize rules g) in eval M v (gl g') = eval M v (gl g) /\ eval M v (gr g') = eval M v (gr g).
Proof.
  intros H. unfold ground_normalize. pose proof (ground_nf_eval rules H (gl g)) as A. pose proof (ground_nf_eval rules H (gr g)) as B.
  destruct (ground_nf rules (gl g)) as [l bl], (ground_nf rules (gr g)) as [r br]. simpl in *. destruct bl, br; simpl; auto.
Qed.
Lemma ground_normalize_holds rules g : Forall (gholds M v) rules -> gholds M v (fst (ground_normalize rules g)) <-> gholds M v g.
Proof. intros H. destruct (ground_normalize_eval rules g H) as [A B]. unfold gholds. rewrite A, B. tauto. Qed.

Lemma ground_orient_sides g g' : ground_orient g = Some g' -> gl g' = gl g /\ gr g' = gr g.
Proof. unfold ground_orient. destruct (ground_compare _ _) as [[]|]; intros H; inversion H; auto. Qed.

Lemma backward_contract_holds h : gholds M v h -> forall from to p' u', backward_contract from h to = (p', u') ->
  Forall (gholds M v) from -> Forall (gholds M v) to -> Forall (gholds M v) p' /\ Forall (gholds M v) u'.
Proof.
  intros Hh. induction from as [|g from IH]; intros to p' u' H HF HT; cbn [backward_contract] in H.
  - injection H as <- <-. auto.
  - inversion HF; subst. assert (HR : Forall (gholds M v) [h]) by (constructor; auto).
    pose proof (proj2 (ground_normalize_holds [h] g HR) H2) as G.
    destruct (ground_normalize [h] g) as [g' b]. simpl in G. destruct b.
    + eapply IH; eauto.
    + destruct (backward_contract from h to) as [r to'] eqn:Q. injection H as <- <-. destruct (IH to r to' Q); auto.
Qed.

Lemma ground_complete_holds : forall n unproc proc rules, ground_complete n unproc proc = Some rules ->
  Forall (gholds M v) unproc -> Forall (gholds M v) proc -> Forall (gholds M v) rules.
Proof.
  induction n as [|n IH]; intros unproc proc rules H HU HP; destruct unproc as [|h u]; cbn [ground_complete] in H.
  - injection H as <-. auto.
  - discriminate.
  - injection H as <-. auto.
  - inversion HU; subst. destruct (term_eqb _ _); [eapply IH; eauto|].
    destruct (ground_orient _) as [h2|] eqn:O; [|discriminate].
    assert (G : gholds M v h2).
    { destruct (ground_orient_sides _ _ O) as [A B]. unfold gholds. rewrite A, B. apply ground_normalize_holds; auto. }
    destruct (backward_contract proc h2 u) as [p' u'] eqn:Q.
    destruct (backward_contract_holds h2 G proc u p' u' Q HP H3). eapply IH; eauto.
Qed.

(** the final loop *)
Lemma decide_holds rules poss : Forall (gholds M v) rules ->
  existsb (fun g => let g' := fst (ground_normalize rules g) in term_eqb (gl g') (gr g')) poss = true -> Exists (gholds M v) poss.
Proof.
  intros H Q. apply existsb_exists in Q. destruct Q as [g [I Q]]. apply Exists_exists. exists g. split; auto.
  apply (ground_normalize_holds rules g H). apply term_eqb_eq in Q. unfold gholds. rewrite Q. reflexivity.
Qed.
End Sem.

Lemma tautology_sound E max_neg n c : env_ok E -> clause_ok E c -> injective_on eno c ->
  clause_is_tautology eno max_neg E n c = TAns true -> follows E [] c.
Proof.
  intros HE HC INJ. unfold clause_is_tautology. destruct (find_true E c) eqn:FT.
  { intros _ M HM _ v Hv. apply existsb_exists in FT. destruct FT as [e [I T]].
    apply Exists_exists. exists e. split; auto. apply (is_true_holds E M HM); auto. }
  destruct (_ || _); [discriminate|]. destruct (Nat.ltb max_neg (neg_no c)).
  { destruct (trivial_ok E c INJ) as [b [A B]]. rewrite A. intros H. injection H as ->. auto. }
  set (w := map (fun e => eqn_alloc E (lt e) (rt e) (pos e)) c).
  set (negs := rev (map as_geq (filter (fun e => negb (pos e)) w))).
  set (poss := map as_geq (filter pos w)). intros H M HM _ v Hv.
  assert (W : Exists (holds M v) w <-> Exists (holds M v) c).
  { unfold w. rewrite Exists_map, !Exists_exists. unfold clause_ok in HC. rewrite Forall_forall in HC.
    split; intros [e [I T]]; exists e; split; auto; destruct (HC e I) as [W1 [W2 [W3 _]]].
    - apply (proj1 (eqn_alloc_holds E M HE HM v _ _ _ Hv W1 W2 W3)) in T. exact T.
    - apply (proj2 (eqn_alloc_holds E M HE HM v _ _ _ Hv W1 W2 W3)). exact T. }
  apply W.
  assert (D : Exists (holds M v) (filter (fun e => negb (pos e)) w) \/ Forall (gholds M v) negs).
  { unfold negs. clear - HM. induction w as [|e l IH]; simpl; auto. destruct (pos e) eqn:Pe; simpl; auto.
    destruct IH as [IH|IH]; [left; right; auto|]. destruct (lit_holds_dec _ _ M v true (lt e) (rt e) HM) as [T|T].
    - right. rewrite Forall_app. split; auto.
    - left. left. unfold holds. rewrite Pe. exact T. }
  destruct D as [D|D].
  { rewrite Exists_exists in *. destruct D as [e [I T]]. apply filter_In in I. exists e. tauto. }
  assert (F : Exists (gholds M v) poss -> Exists (holds M v) w).
  { unfold poss. rewrite Exists_map, !Exists_exists. intros [e [I T]]. apply filter_In in I. destruct I as [I P].
    exists e. split; auto. unfold holds. rewrite P. exact T. }
  apply F. destruct (Nat.ltb 1 (neg_no c)).
  - destruct (ground_complete n negs []) as [rules|] eqn:Q; [|discriminate]. injection H as H.
    apply (decide_holds M v rules); auto. eapply ground_complete_holds; eauto.
  - destruct negs as [|g gs]; [discriminate|]. destruct (ground_orient g) as [g'|] eqn:O; [|discriminate]. injection H as H.
    apply (decide_holds M v (g' :: gs)); auto. inversion D; subst. constructor; auto.
    destruct (ground_orient_sides _ _ O) as [A B]. unfold gholds in *. rewrite A, B. auto.
Qed.

(** ** The comparison never fails, and is compatible with weights *)
Definition ssize2 (l : list (term * term)) : nat := fold_right (fun p n => size (fst p) + n) 0 l.
Lemma ssize2_app l l' : ssize2 (l ++ l') = ssize2 l + ssize2 l'.
Proof. induction l as [|p l IH]; simpl; lia. Qed.
Lemma ssize2_rev l : ssize2 (rev l) = ssize2 l.
Proof. induction l as [|p l IH]; simpl; auto. rewrite ssize2_app. simpl. lia. Qed.
Lemma ssize2_combine a : forall b, ssize2 (combine a b) <= fold_right (fun x n => size x + n) 0 a.
Proof. induction a as [|x a IH]; intros [|y b]; simpl; try lia. specialize (IH b). lia. Qed.

Lemma ground_cmp_returns : forall n stack, ssize2 stack <= n -> exists r, ground_cmp_loop n stack = Some r.
Proof.
  induction n as [|n IH]; intros stack H; destruct stack as [|[t1 t2] rest]; cbn [ground_cmp_loop]; eauto.
  - simpl in H. pose proof (size_pos t1). lia.
  - destruct (Z.compare _ _); eauto. destruct (Z.compare _ _); eauto. destruct (Nat.compare _ _); eauto.
    apply IH. rewrite ssize2_app, ssize2_rev. pose proof (ssize2_combine (targs t1) (targs t2)).
    cbn [ssize2 fold_right fst] in H. fold (ssize2 rest) in H.
    destruct t1 as [x|f a]; cbn [targs size] in *; simpl in *; lia.
Qed.
Lemma ground_compare_returns t1 t2 : exists r, ground_compare t1 t2 = Some r.
Proof. apply ground_cmp_returns. simpl. lia. Qed.

Lemma ground_compare_weight t1 t2 r : ground_compare t1 t2 = Some r ->
  ((r = Greater -> stdweight t2 <= stdweight t1) /\ (r <> Greater -> stdweight t1 <= stdweight t2))%Z.
Proof.
  unfold ground_compare. pose proof (size_pos t1). destruct (size t1) as [|n]; [lia|]. cbn [ground_cmp_loop].
  destruct (Z.compare_spec (stdweight t1) (stdweight t2)); intros E; split; intros X; try lia; inversion E; subst; congruence.
Qed.

(** ** One negative literal *)
Lemma subterm_weight t f a : In t a -> (stdweight t < stdweight (Fun f a))%Z.
Proof.
  intros H. assert (stdweight t <= fold_right (fun x n => stdweight x + n) 0 a)%Z; [|cbn [stdweight]; lia].
  revert H. induction a as [|x a IH]; simpl; [tauto|]. intros [->|H].
  - assert (0 <= fold_right (fun x n => stdweight x + n) 0 a)%Z; [|lia]. clear. induction a as [|x a IH]; simpl; [lia|]. pose proof (stdweight_pos x). lia.
  - pose proof (stdweight_pos x). specialize (IH H). lia.
Qed.

(** a rule does not touch terms lighter than its left side *)
Lemma nf_light g : forall t, (stdweight t < stdweight (lside g))%Z -> ground_nf [g] t = (t, false).
Proof.
  induction t as [x|f a IH] using term_ind'; intros H; cbn [ground_nf].
  - cbn [top_nf]. destruct (term_eqb (lside g) (Var x)) eqn:Q; auto. apply term_eqb_eq in Q. rewrite Q in H. lia.
  - assert (R : map (ground_nf [g]) a = map (fun t => (t, false)) a).
    { apply map_ext_in. intros t I. rewrite Forall_forall in IH. apply IH; auto. pose proof (subterm_weight t f a I). lia. }
    rewrite R, map_map. cbn [fst]. rewrite map_id. cbn [top_nf].
    destruct (term_eqb (lside g) (Fun f a)) eqn:Q; [apply term_eqb_eq in Q; rewrite Q in H; lia|].
    f_equal. clear. induction a; simpl; auto.
Qed.
Lemma nf_same g t : (stdweight t <= stdweight (lside g))%Z -> t <> lside g -> ground_nf [g] t = (t, false).
Proof.
  destruct t as [x|f a]; intros H N; cbn [ground_nf].
  - cbn [top_nf]. destruct (term_eqb (lside g) (Var x)) eqn:Q; auto. apply term_eqb_eq in Q. congruence.
  - assert (R : map (ground_nf [g]) a = map (fun t => (t, false)) a).
    { apply map_ext_in. intros t I. apply nf_light. pose proof (subterm_weight t f a I). lia. }
    rewrite R, map_map. cbn [fst]. rewrite map_id. cbn [top_nf].
    destruct (term_eqb (lside g) (Fun f a)) eqn:Q; [apply term_eqb_eq in Q; congruence|].
    f_equal. clear. induction a; simpl; auto.
Qed.
Lemma nf_left g : fst (ground_nf [g] (lside g)) = rside g.
Proof.
  destruct (lside g) as [x|f a] eqn:L; cbn [ground_nf].
  - cbn [top_nf]. rewrite L, term_eqb_refl. auto.
  - assert (R : map (ground_nf [g]) a = map (fun t => (t, false)) a).
    { apply map_ext_in. intros t I. apply nf_light. rewrite L. apply subterm_weight; auto. }
    rewrite R, map_map. cbn [fst]. rewrite map_id. cbn [top_nf]. rewrite L, term_eqb_refl. auto.
Qed.
Lemma nf_right g : (stdweight (rside g) <= stdweight (lside g))%Z -> fst (ground_nf [g] (rside g)) = rside g.
Proof.
  intros H. destruct (term_eqb (rside g) (lside g)) eqn:Q.
  - apply term_eqb_eq in Q. rewrite Q at 1. apply nf_left.
  - rewrite nf_same; auto. intros E. rewrite E, term_eqb_refl in Q. discriminate.
Qed.

Lemma gnorm_sides rules h : let h' := fst (ground_normalize rules h) in
  gl h' = fst (ground_nf rules (gl h)) /\ gr h' = fst (ground_nf rules (gr h)).
Proof.
  assert (K : forall t, snd (ground_nf rules t) = false -> fst (ground_nf rules t) = t).
  { assert (K0 : forall t, snd (top_nf rules t) = false -> fst (top_nf rules t) = t).
    { intros t. induction rules as [|g r IH]; simpl; auto. destruct (term_eqb _ _); [discriminate|auto]. }
    induction t as [x|f a IH] using term_ind'; cbn [ground_nf]; auto.
    destruct (top_nf rules (Fun f (map fst (map (ground_nf rules) a)))) as [t' b] eqn:Q. simpl. intros H.
    apply orb_false_iff in H. destruct H as [H1 ->]. specialize (K0 (Fun f (map fst (map (ground_nf rules) a)))). rewrite Q in K0.
    simpl in K0. rewrite (K0 eq_refl). f_equal. rewrite map_map. rewrite <- (map_id a) at 2. apply map_ext_in. intros t I.
    rewrite Forall_forall in IH. apply IH; auto. destruct (snd (ground_nf rules t)) eqn:X; auto.
    assert (existsb snd (map (ground_nf rules) a) = true); [|congruence]. apply existsb_exists. exists (ground_nf rules t). split; auto.
    apply in_map; auto. }
  unfold ground_normalize. pose proof (K (gl h)) as A. pose proof (K (gr h)) as B.
  destruct (ground_nf rules (gl h)) as [l bl], (ground_nf rules (gr h)) as [r br]. simpl in *.
  destruct bl, br; simpl; split; auto; symmetry; auto.
Qed.

(** EqnAlloc changes nothing but the side order of a literal without $false. *)
Lemma alloc_no_false E e : lt e <> tfalse -> rt e <> tfalse ->
  let h := eqn_alloc E (lt e) (rt e) (pos e) in pos h = pos e /\ same_equation h e.
Proof.
  intros H1 H2. unfold eqn_alloc. assert (Q1 : term_eqb (lt e) tfalse = false).
  { destruct (term_eqb (lt e) tfalse) eqn:Q; auto. apply term_eqb_eq in Q. congruence. }
  assert (Q2 : term_eqb (rt e) tfalse = false).
  { destruct (term_eqb (rt e) tfalse) eqn:Q; auto. apply term_eqb_eq in Q. congruence. }
  rewrite Q1, Q2. destruct (term_eqb (lt e) ttrue); simpl; unfold same_equation; simpl; auto.
Qed.

Lemma alloc_neg E c : no_false c ->
  filter (fun e => negb (pos e)) (map (fun e => eqn_alloc E (lt e) (rt e) (pos e)) c)
  = map (fun e => eqn_alloc E (lt e) (rt e) (pos e)) (filter (fun e => negb (pos e)) c).
Proof.
  induction c as [|e c IH]; intros H; simpl; auto. destruct (H e (or_introl eq_refl)) as [A B].
  destruct (alloc_no_false E e A B) as [P _]. rewrite P. rewrite IH by (intros x Hx; apply H; simpl; auto). destruct (pos e) eqn:Pe; simpl; rewrite ?Pe; reflexivity.
Qed.

Lemma tautology_answers E max_neg n c : no_false c -> injective_on eno c ->
  clause_is_tautology eno max_neg E n c <> TUndef /\
  (neg_no c <= 1 \/ max_neg < neg_no c -> exists b, clause_is_tautology eno max_neg E n c = TAns b).
Proof.
  intros NF INJ. unfold clause_is_tautology. destruct (find_true E c); [split; [discriminate|eauto]|].
  destruct (Nat.eqb (pos_no c) 0 || Nat.eqb (neg_no c) 0) eqn:Z; [split; [discriminate|eauto]|].
  destruct (Nat.ltb max_neg (neg_no c)) eqn:MX.
  { destruct (trivial_ok E c INJ) as [b [A _]]. rewrite A. split; [discriminate|eauto]. }
  destruct (Nat.ltb 1 (neg_no c)) eqn:L1.
  { split; [destruct (ground_complete _ _ _); discriminate|]. intros H. apply Nat.ltb_lt in L1. apply Nat.ltb_ge in MX. lia. }
  rewrite (alloc_neg E c NF). apply orb_false_iff in Z. destruct Z as [_ Z]. apply Nat.eqb_neq in Z. unfold neg_no in Z.
  assert (X : rev (map as_geq (map (fun e => eqn_alloc E (lt e) (rt e) (pos e)) (filter (fun e => negb (pos e)) c))) <> []).
  { intros X. apply (f_equal (@length _)) in X. rewrite rev_length, !map_length in X. simpl in X. congruence. }
  destruct (rev _) as [|g gs]; [congruence|].
  unfold ground_orient. destruct (ground_compare_returns (gl g) (gr g)) as [r R]. rewrite R. destruct r; split; try discriminate; eauto.
Qed.

(** With one negative literal, a complementary pair is always found. *)
Lemma one_negative E max_neg n c : no_false c -> neg_no c = 1 -> 1 <= max_neg -> complementary_pair c ->
  clause_is_tautology eno max_neg E n c = TAns true.
Proof.
  intros NF N1 MX [e1 [e2 [I1 [I2 [P1 [P2 SE]]]]]]. unfold clause_is_tautology. destruct (find_true E c); auto.
  assert (PN : Nat.eqb (pos_no c) 0 = false).
  { apply Nat.eqb_neq. unfold pos_no. assert (In e1 (filter pos c)) by (apply filter_In; auto). destruct (filter pos c); simpl; [tauto|lia]. }
  rewrite PN, N1. cbn [Nat.eqb orb]. replace (Nat.ltb max_neg 1) with false by (symmetry; apply Nat.ltb_ge; lia).
  cbn [Nat.ltb Nat.leb]. rewrite (alloc_neg E c NF). unfold neg_no in N1.
  assert (F : In e2 (filter (fun e => negb (pos e)) c)) by (apply filter_In; rewrite P2; auto).
  destruct (filter (fun e => negb (pos e)) c) as [|e [|e' r]]; try (simpl in N1; lia). destruct F as [->|[]].
  cbn [map rev Datatypes.app].
  destruct (NF e2 I2) as [F1 F2]. destruct (alloc_no_false E e2 F1 F2) as [_ S2].
  set (h2 := eqn_alloc E (lt e2) (rt e2) (pos e2)) in *.
  destruct (NF e1 I1) as [F3 F4]. destruct (alloc_no_false E e1 F3 F4) as [Q1 S1].
  set (h1 := eqn_alloc E (lt e1) (rt e1) (pos e1)) in *.
  destruct (ground_orient (as_geq h2)) as [g'|] eqn:O.
  2:{ exfalso. unfold ground_orient in O. destruct (ground_compare_returns (gl (as_geq h2)) (gr (as_geq h2))) as [r R]. rewrite R in O. destruct r; discriminate. }
  f_equal. apply existsb_exists. exists (as_geq h1). split.
  { apply in_map. apply filter_In. split; [|rewrite Q1; auto]. unfold h1. apply (in_map (fun e => eqn_alloc E (lt e) (rt e) (pos e))); auto. }
  destruct (gnorm_sides [g'] (as_geq h1)) as [A B]. cbv zeta. rewrite A, B. clear A B. apply term_eqb_eq.
  assert (W : (stdweight (rside g') <= stdweight (lside g'))%Z /\ same_equation h2 (mkeqn (lside g') (rside g') true false false false false false false)).
  { unfold ground_orient in O. destruct (ground_compare_returns (gl (as_geq h2)) (gr (as_geq h2))) as [r R]. rewrite R in O.
    destruct (ground_compare_weight _ _ _ R) as [X Y]. unfold same_equation.
    destruct r; injection O as <-; cbn [lside rside natural gl gr lt rt]; cbn [as_geq gl gr] in *; split; auto; try (apply Y; discriminate). }
  destruct W as [W1 W2].
  assert (SS : same_equation h1 (mkeqn (lside g') (rside g') true false false false false false false)).
  { clear - S1 S2 SE W2. unfold same_equation in *. cbn [lt rt] in *.
    destruct S1 as [[A1 A2]|[A1 A2]], S2 as [[B1 B2]|[B1 B2]], SE as [[C1 C2]|[C1 C2]], W2 as [[D1 D2]|[D1 D2]];
      first [left; split; congruence|right; split; congruence]. }
  cbn [as_geq gl gr]. destruct SS as [[A B]|[A B]]; cbn [lt rt] in A, B; rewrite A, B, nf_left, nf_right; auto.
Qed.
End Long.
