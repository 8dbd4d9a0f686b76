(** Proofs about compact positions and clause indices. *)
From Coq Require Import ZifyBool.
From Verif Require Import Terms Clauses FPIndex FPIndexProofs ClauseIdx.
Open Scope Z_scope.

Definition wsum (l : list term) : Z := fold_right (fun a n => stdweight a + n) 0 l.
Definition lsum (c : clause) : Z := fold_right (fun e n => lit_weight e + n) 0 c.
Lemma stdw_pos t : 0 < stdweight t.
Proof. induction t as [x|f l IH] using term_ind'; cbn [stdweight]; [lia|]. fold (wsum l). assert (0 <= wsum l); [|lia]. induction IH as [|a l H1 H2 IH2]; cbn [wsum fold_right]; [lia|]. fold (wsum l). lia. Qed.
Lemma wsum_nonneg l : 0 <= wsum l.
Proof. induction l as [|a l IH]; cbn [wsum fold_right]; [lia|]. fold (wsum l). pose proof (stdw_pos a). lia. Qed.
Lemma wsum_firstn l : forall i a, nth_error l i = Some a -> wsum (firstn i l) + stdweight a <= wsum l.
Proof.
  induction l as [|b l IH]; intros [|i] a E; try discriminate; cbn [nth_error firstn wsum fold_right] in *.
  - injection E as ->. pose proof (wsum_nonneg l). fold (wsum l). lia.
  - fold (wsum (firstn i l)) (wsum l). specialize (IH i a E). lia.
Qed.
Lemma pack_term_range : forall p t u, subterm_at t p = Some u -> 0 <= pack_term t p /\ pack_term t p + stdweight u <= stdweight t.
Proof.
  induction p as [|i p IH]; intros t u E; cbn [subterm_at pack_term] in *; [injection E as ->; lia|]. destruct t as [x|f args]; [discriminate|]. destruct (nth_error args i) as [a|] eqn:N; [|discriminate].
  destruct (IH a u E) as [H1 H2]. pose proof (wsum_firstn _ _ _ N). pose proof (wsum_nonneg (firstn i args)). fold (wsum (firstn i args)). cbn [stdweight]. fold (wsum args). lia.
Qed.
Lemma pack_term_pos i p t u : subterm_at t (i :: p) = Some u -> 0 < pack_term t (i :: p).
Proof.
  intros E. cbn [subterm_at pack_term] in *. destruct t as [x|f args]; [discriminate|]. destruct (nth_error args i) as [a|] eqn:N; [|discriminate].
  destruct (pack_term_range p a u E) as [H1 H2]. pose proof (wsum_nonneg (firstn i args)). fold (wsum (firstn i args)). lia.
Qed.

Fixpoint unpack_args (i : nat) (l : list term) (k : Z) : option (list nat) :=
  match l with [] => None | a :: r => if k <? stdweight a then option_map (cons i) (unpack_term a k) else unpack_args (S i) r (k - stdweight a) end.
Lemma unpack_term_eq t k : unpack_term t k = if k <=? 0 then Some [] else match t with Var _ => None | Fun _ args => unpack_args 0 args (k - 2) end.
Proof. destruct t as [x|f args]; cbn [unpack_term]; destruct (k <=? 0); reflexivity. Qed.
Lemma unpack_args_ok : forall l i0 j a k r, nth_error l j = Some a -> 0 <= k < stdweight a -> unpack_term a k = Some r -> unpack_args i0 l (wsum (firstn j l) + k) = Some ((i0 + j)%nat :: r).
Proof.
  induction l as [|b l IH]; intros i0 [|j] a k r E H1 H2; try discriminate; cbn [nth_error firstn wsum fold_right unpack_args] in *.
  - injection E as ->. replace (0 + k) with k by lia. destruct (Z.ltb_spec k (stdweight a)); [|lia]. rewrite H2. cbn [option_map]. do 2 f_equal. lia.
  - fold (wsum (firstn j l)). pose proof (wsum_nonneg (firstn j l)). destruct (Z.ltb_spec (stdweight b + wsum (firstn j l) + k) (stdweight b)); [lia|].
    replace (stdweight b + wsum (firstn j l) + k - stdweight b) with (wsum (firstn j l) + k) by lia. rewrite (IH (S i0) j a k r E H1 H2). do 2 f_equal. lia.
Qed.
Lemma unpack_term_ok : forall p t u, subterm_at t p = Some u -> unpack_term t (pack_term t p) = Some p.
Proof.
  induction p as [|i p IH]; intros t u E; rewrite unpack_term_eq; [reflexivity|]. pose proof (pack_term_pos _ _ _ _ E) as P. destruct (Z.leb_spec (pack_term t (i :: p)) 0); [lia|].
  cbn [subterm_at pack_term] in *. destruct t as [x|f args]; [discriminate|]. destruct (nth_error args i) as [a|] eqn:N; [|discriminate]. fold (wsum (firstn i args)) in *.
  destruct (pack_term_range p a u E) as [H1 H2]. pose proof (stdw_pos u). replace (2 + wsum (firstn i args) + pack_term a p - 2) with (wsum (firstn i args) + pack_term a p) by lia.
  rewrite (unpack_args_ok args 0 i a _ p N); [reflexivity|lia|]. apply (IH a u E).
Qed.
Lemma lit_weight_pos e : 0 < lit_weight e.
Proof. unfold lit_weight. pose proof (stdw_pos (lt e)). pose proof (stdw_pos (rt e)). lia. Qed.
Lemma lsum_nonneg c : 0 <= lsum c.
Proof. induction c as [|e c IH]; cbn [lsum fold_right]; [lia|]. fold (lsum c). pose proof (lit_weight_pos e). lia. Qed.
Lemma cpos_split_ok : forall c i e k, nth_error c i = Some e -> 0 <= k < lit_weight e -> cpos_split c (lsum (firstn i c) + k) = Some (i, e, k).
Proof.
  induction c as [|b c IH]; intros [|i] e k E H; try discriminate; cbn [nth_error firstn lsum fold_right cpos_split] in *.
  - injection E as ->. replace (0 + k) with k by lia. destruct (Z.leb_spec (lit_weight e) k); [lia|auto].
  - fold (lsum (firstn i c)). pose proof (lsum_nonneg (firstn i c)). destruct (Z.leb_spec (lit_weight b) (lit_weight b + lsum (firstn i c) + k)); [|lia].
    replace (lit_weight b + lsum (firstn i c) + k - lit_weight b) with (lsum (firstn i c) + k) by lia. rewrite (IH i e k E H). auto.
Qed.
Lemma unpack_ok c i left p t : occurs c i left p t -> unpack c (pack c i left p) = Some (i, left, p).
Proof.
  intros [e [E S]]. unfold unpack, pack. rewrite E. destruct (pack_term_range _ _ _ S) as [H1 H2]. pose proof (stdw_pos t). pose proof (stdw_pos (lt e)). pose proof (stdw_pos (rt e)). fold (lsum (firstn i c)).
  rewrite (cpos_split_ok c i e) by (auto; unfold lit_weight; destruct left; cbn [eside] in *; lia). destruct left; cbn [eside] in *.
  - destruct (Z.leb_spec (stdweight (lt e)) (0 + pack_term (lt e) p)); [lia|]. replace (0 + pack_term (lt e) p) with (pack_term (lt e) p) by lia. rewrite (unpack_term_ok _ _ _ S). auto.
  - destruct (Z.leb_spec (stdweight (lt e)) (stdweight (lt e) + pack_term (rt e) p)); [|lia]. replace (stdweight (lt e) + pack_term (rt e) p - stdweight (lt e)) with (pack_term (rt e) p) by lia. rewrite (unpack_term_ok _ _ _ S). auto.
Qed.
Lemma cpos_subterm_ok c i left p t : occurs c i left p t -> cpos_subterm c (pack c i left p) = Some t.
Proof. intros O. unfold cpos_subterm. rewrite (unpack_ok _ _ _ _ _ O). destruct O as [e [-> S]]. auto. Qed.
Lemma lit_cpos_ok : forall c k i, (i < length c)%nat -> nth_error (lit_cpos c k) i = Some (k + lsum (firstn i c)).
Proof.
  induction c as [|e c IH]; intros k [|i] L; cbn [length] in L; try lia; cbn [lit_cpos nth_error firstn lsum fold_right]; [f_equal; lia|]. rewrite IH by lia. fold (lsum (firstn i c)). f_equal. lia.
Qed.

(** ** What is collected *)
Fixpoint into_args (l : list term) (k : Z) : list (term * Z) := match l with [] => [] | a :: r => into_pos a k ++ into_args r (k + stdweight a) end.
Lemma into_pos_fun f args k : into_pos (Fun f args) k = (Fun f args, k) :: into_args args (k + 2).
Proof. reflexivity. Qed.
Lemma into_args_in : forall l k x, In x (into_args l k) <-> exists j a, nth_error l j = Some a /\ In x (into_pos a (k + wsum (firstn j l))).
Proof.
  induction l as [|b l IH]; intros k x; cbn [into_args]; [split; [intros []|intros [[|j] [a [E _]]]; discriminate]|]. rewrite in_app_iff, IH. split.
  - intros [I|[j [a [E I]]]]; [exists 0%nat, b; split; auto; cbn [firstn wsum fold_right]; rewrite Z.add_0_r; auto|]. exists (S j), a. split; auto. cbn [firstn wsum fold_right]. fold (wsum (firstn j l)). rewrite Z.add_assoc. auto.
  - intros [[|j] [a [E I]]]; cbn [nth_error firstn wsum fold_right] in *; [injection E as ->; rewrite Z.add_0_r in I; auto|]. right. exists j, a. split; auto. fold (wsum (firstn j l)) in I. rewrite Z.add_assoc in I. auto.
Qed.
Lemma into_pos_in : forall t k u k', In (u, k') (into_pos t k) <-> exists p, subterm_at t p = Some u /\ isfun u /\ k' = k + pack_term t p.
Proof.
  induction t as [x|f args IH] using term_ind'; intros k u k'.
  - cbn [into_pos]. split; [intros []|]. intros [[|i p] [E [F _]]]; cbn in E; [injection E as <-; destruct F|discriminate].
  - rewrite into_pos_fun. cbn [In]. rewrite into_args_in. rewrite Forall_forall in IH. split.
    + intros [[= <- <-]|[j [a [E I]]]]; [exists []; cbn; repeat split; lia|]. apply IH in I; [|eapply nth_error_In; eauto]. destruct I as [p [S [F K]]]. exists (j :: p). cbn [subterm_at pack_term]. rewrite E. fold (wsum (firstn j args)). repeat split; auto. lia.
    + intros [[|j p] [E [F K]]]; cbn [subterm_at pack_term] in *; [injection E as <-; left; f_equal; lia|]. destruct (nth_error args j) as [a|] eqn:N; [|discriminate]. right. exists j, a. split; auto.
      apply IH; [eapply nth_error_In; eauto|]. exists p. fold (wsum (firstn j args)) in K. repeat split; auto. lia.
Qed.
Lemma into_pos_tl f args k u k' : In (u, k') (into_args args (k + 2)) <-> exists p, p <> [] /\ subterm_at (Fun f args) p = Some u /\ isfun u /\ k' = k + pack_term (Fun f args) p.
Proof.
  rewrite into_args_in. split.
  - intros [j [a [E I]]]. apply into_pos_in in I. destruct I as [p [S [F K]]]. exists (j :: p). cbn [subterm_at pack_term]. rewrite E. fold (wsum (firstn j args)). repeat split; auto; try discriminate. lia.
  - intros [[|j p] [N0 [E [F K]]]]; cbn [subterm_at pack_term] in *; [tauto|]. destruct (nth_error args j) as [a|] eqn:N; [|discriminate]. exists j, a. split; auto.
    apply into_pos_in. exists p. fold (wsum (firstn j args)) in K. repeat split; auto. lia.
Qed.
Definition at_lit (e : eqn) (left : bool) (p : list nat) (u : term) (k : Z) : Prop :=
  maxi e = true /\ (left = true \/ ori e = false) /\ subterm_at (eside e left) p = Some u /\ isfun u /\ k = (if left then 0 else stdweight (lt e)) + pack_term (eside e left) p.
Definition atom_lit (e : eqn) (left : bool) (p : list nat) : Prop := pos e = false /\ equlit e = false /\ left = true /\ p = [].
Lemma lit_into_fst e k u k' : maxi e = true -> In (u, k') (fst (lit_into_pos e k)) <-> exists left p, at_lit e left p u (k' - k) /\ ~ atom_lit e left p.
Proof.
  intros M. unfold lit_into_pos, app2, at_lit, atom_lit. cbn [fst snd]. rewrite in_app_iff.
  assert (R : In (u, k') (fst (if ori e then ([], []) else (into_pos (rt e) (k + stdweight (lt e)), @nil (term * Z)))) <-> exists p, ori e = false /\ subterm_at (rt e) p = Some u /\ isfun u /\ k' - k = stdweight (lt e) + pack_term (rt e) p).
  { destruct (ori e); cbn [fst]; [split; [intros []|intros [p [[=] _]]]|]. rewrite into_pos_in. split; intros [p H]; exists p; intuition lia. }
  rewrite R. clear R. assert (L : In (u, k') (fst (if negb (pos e) && negb (equlit e) then into_pos2 (lt e) k else (into_pos (lt e) k, []))) <-> exists p, ~ (pos e = false /\ equlit e = false /\ p = []) /\ subterm_at (lt e) p = Some u /\ isfun u /\ k' - k = pack_term (lt e) p).
  { destruct (pos e), (equlit e); cbn [negb andb fst]; try (rewrite into_pos_in; split; [intros [p H]; exists p; intuition (try discriminate; lia)|intros [p H]; exists p; intuition lia]).
    destruct (lt e) as [x|f args] eqn:El; cbn [into_pos2 fst].
    - split; [intros []|]. intros [[|i p] [_ [E [F _]]]]; cbn in E; [injection E as <-; destruct F|discriminate].
    - rewrite into_pos_fun. cbn [tl]. rewrite (into_pos_tl f). split; intros [p H]; exists p; intuition (try discriminate; try lia). }
  rewrite L. clear L. split.
  - intros [[p H]|[p H]]; [exists true, p|exists false, p]; cbn [eside]; intuition (try discriminate; try lia).
  - intros [[] [p H]]; cbn [eside] in H; [left|right]; exists p; intuition (try discriminate; try lia).
Qed.
Lemma lit_into_snd e k u k' : maxi e = true -> In (u, k') (snd (lit_into_pos e k)) <-> exists left p, at_lit e left p u (k' - k) /\ atom_lit e left p.
Proof.
  intros M. unfold lit_into_pos, app2, at_lit, atom_lit. cbn [fst snd]. rewrite in_app_iff. assert (R : In (u, k') (snd (if ori e then ([], []) else (into_pos (rt e) (k + stdweight (lt e)), @nil (term * Z)))) <-> False) by (destruct (ori e); cbn; tauto).
  rewrite R. clear R. split.
  - intros [H|[]]. destruct (pos e) eqn:Ep, (equlit e) eqn:Eq; cbn [negb andb snd] in H; try destruct H. destruct (lt e) as [x|f args] eqn:El; cbn [into_pos2 snd] in H; [destruct H|]. destruct H as [H|[]]. injection H as <- <-.
    exists true, []. cbn [eside subterm_at pack_term]. rewrite El. cbn. intuition lia.
  - intros [l [p [H [H1 [H2 [-> ->]]]]]]. left. rewrite H1, H2. cbn [negb andb]. cbn [eside subterm_at pack_term] in H. destruct H as [_ [_ [[= E] [F K]]]]. rewrite E. destruct u as [x|f args]; [destruct F|]. cbn. left. f_equal. lia.
Qed.
Lemma clause_into_fst : forall c k u k', In (u, k') (fst (clause_into_pos c k)) <-> exists i e left p, nth_error c i = Some e /\ at_lit e left p u (k' - k - lsum (firstn i c)) /\ ~ atom_lit e left p.
Proof.
  induction c as [|e c IH]; intros k u k'; cbn [clause_into_pos].
  - cbn. split; [intros []|]. intros [[|i] [e [l [p [E _]]]]]; discriminate.
  - unfold app2. cbn [fst]. rewrite in_app_iff, IH. split.
    + intros [H|[i [e' [l [p [E H]]]]]].
      * destruct (maxi e) eqn:M; [|destruct H]. apply lit_into_fst in H; auto. destruct H as [l [p H]]. exists 0%nat, e, l, p. split; auto. cbn [firstn lsum fold_right]. rewrite Z.sub_0_r. auto.
      * exists (S i), e', l, p. split; auto. cbn [firstn lsum fold_right]. fold (lsum (firstn i c)). replace (k' - k - (lit_weight e + lsum (firstn i c))) with (k' - (k + lit_weight e) - lsum (firstn i c)) by lia. auto.
    + intros [[|i] [e' [l [p [E H]]]]]; cbn [nth_error firstn lsum fold_right] in *.
      * injection E as <-. left. assert (M : maxi e = true) by (destruct H as [[M _] _]; auto). rewrite M. apply lit_into_fst; auto. exists l, p. rewrite Z.sub_0_r in H. auto.
      * right. exists i, e', l, p. split; auto. fold (lsum (firstn i c)) in H. replace (k' - k - (lit_weight e + lsum (firstn i c))) with (k' - (k + lit_weight e) - lsum (firstn i c)) in H by lia. auto.
Qed.
Lemma clause_into_snd : forall c k u k', In (u, k') (snd (clause_into_pos c k)) <-> exists i e left p, nth_error c i = Some e /\ at_lit e left p u (k' - k - lsum (firstn i c)) /\ atom_lit e left p.
Proof.
  induction c as [|e c IH]; intros k u k'; cbn [clause_into_pos].
  - cbn. split; [intros []|]. intros [[|i] [e [l [p [E _]]]]]; discriminate.
  - unfold app2. cbn [snd]. rewrite in_app_iff, IH. split.
    + intros [H|[i [e' [l [p [E H]]]]]].
      * destruct (maxi e) eqn:M; [|destruct H]. apply lit_into_snd in H; auto. destruct H as [l [p H]]. exists 0%nat, e, l, p. split; auto. cbn [firstn lsum fold_right]. rewrite Z.sub_0_r. auto.
      * exists (S i), e', l, p. split; auto. cbn [firstn lsum fold_right]. fold (lsum (firstn i c)). replace (k' - k - (lit_weight e + lsum (firstn i c))) with (k' - (k + lit_weight e) - lsum (firstn i c)) by lia. auto.
    + intros [[|i] [e' [l [p [E H]]]]]; cbn [nth_error firstn lsum fold_right] in *.
      * injection E as <-. left. assert (M : maxi e = true) by (destruct H as [[M _] _]; auto). rewrite M. apply lit_into_snd; auto. exists l, p. rewrite Z.sub_0_r in H. auto.
      * right. exists i, e', l, p. split; auto. fold (lsum (firstn i c)) in H. replace (k' - k - (lit_weight e + lsum (firstn i c))) with (k' - (k + lit_weight e) - lsum (firstn i c)) in H by lia. auto.
Qed.
Lemma at_lit_into c i e left p u k : nth_error c i = Some e -> at_lit e left p u (k - 0 - lsum (firstn i c)) <-> into_position c i left p u /\ k = pack c i left p.
Proof.
  intros E. unfold at_lit, into_position, pack. rewrite E. fold (lsum (firstn i c)). split.
  - intros [A [B [C [D F]]]]. split; [exists e; auto|lia].
  - intros [[e' [E' [A [B [C D]]]]] K]. assert (e' = e) by congruence. subst e'. repeat split; auto. lia.
Qed.
Lemma atom_neg c i e left p : nth_error c i = Some e -> atom_lit e left p <-> neg_atom c i left p.
Proof. intros E. unfold atom_lit, neg_atom. split; [intros H; exists e; tauto|]. intros [e' [E' H]]. assert (e' = e) by congruence. subst e'. tauto. Qed.
Lemma into_spec c u k : In (u, k) (fst (clause_into_pos c 0)) <-> exists i left p, into_position c i left p u /\ ~ neg_atom c i left p /\ k = pack c i left p.
Proof.
  rewrite clause_into_fst. split.
  - intros [i [e [l [p [E [A N]]]]]]. exists i, l, p. apply (at_lit_into c i e) in A; auto. rewrite (atom_neg c i e) in N by auto. tauto.
  - intros [i [l [p [A [N K]]]]]. pose proof A as [e [E _]]. exists i, e, l, p. split; auto. split; [apply at_lit_into; auto|]. rewrite (atom_neg c i e); auto.
Qed.
Lemma negp_spec c u k : In (u, k) (snd (clause_into_pos c 0)) <-> exists i left p, into_position c i left p u /\ neg_atom c i left p /\ k = pack c i left p.
Proof.
  rewrite clause_into_snd. split.
  - intros [i [e [l [p [E [A N]]]]]]. exists i, l, p. apply (at_lit_into c i e) in A; auto. rewrite (atom_neg c i e) in N by auto. tauto.
  - intros [i [l [p [A [N K]]]]]. pose proof A as [e [E _]]. exists i, e, l, p. split; auto. split; [apply at_lit_into; auto|]. rewrite (atom_neg c i e); auto.
Qed.
Lemma from_gen : forall c k u k', In (u, k') (clause_from_pos c k) <-> exists i left, from_position c i left u /\ k' = k + pack c i left [].
Proof.
  induction c as [|e c IH]; intros k u k'; cbn [clause_from_pos].
  - split; [intros []|]. intros [[|i] [l [[e [E _]] _]]]; discriminate.
  - assert (Sh : forall i l, from_position (e :: c) (S i) l u <-> from_position c i l u) by (intros; unfold from_position; cbn [nth_error]; tauto).
    assert (Sp : forall i l, (exists e', nth_error c i = Some e') -> pack (e :: c) (S i) l [] = lit_weight e + pack c i l []).
    { intros i l [e' E]. unfold pack. cbn [nth_error firstn fold_right]. rewrite E. lia. }
    assert (P0 : forall l, pack (e :: c) 0 l [] = if l then 0 else stdweight (lt e)) by (intros []; unfold pack; cbn [firstn fold_right nth_error pack_term]; lia).
    rewrite in_app_iff, IH. split.
    + intros [H|[i [l [H K]]]].
      * unfold is_from in H. destruct (maxi e) eqn:E1, (pos e) eqn:E2, (sel e) eqn:E3; cbn [negb andb] in H; try destruct H as [].
        -- injection H as <- <-. exists 0%nat, true. split; [exists e; cbn; auto 10|]. rewrite P0. lia.
        -- destruct (ori e) eqn:E4; [destruct H|]. destruct H as [H|[]]. injection H as <- <-. exists 0%nat, false. split; [exists e; cbn; auto 10|]. rewrite P0. lia.
      * exists (S i), l. rewrite Sh, Sp by (destruct H as [e' [? _]]; eauto). split; auto. lia.
    + intros [[|i] [l [H K]]].
      * left. destruct H as [e' [[= <-] [E1 [E2 [E3 [E4 E5]]]]]]. unfold is_from. rewrite E1, E2, E3. cbn [negb andb]. rewrite P0 in K. destruct l; cbn [eside] in *; [left; subst; f_equal; lia|]. destruct E4 as [?|E4]; [discriminate|]. rewrite E4. right. left. subst. auto.
      * right. exists i, l. rewrite Sh in H. rewrite Sp in K by (destruct H as [e' [? _]]; eauto). split; auto. lia.
Qed.
Lemma from_spec c u k : In (u, k) (clause_from_pos c 0) <-> exists i left, from_position c i left u /\ k = pack c i left [].
Proof. rewrite from_gen. split; intros [i [l [H K]]]; exists i, l; split; auto. Qed.

(** the terms used for deletion are the terms inserted *)
Lemma into_terms_map : forall t k, map fst (into_pos t k) = into_terms t.
Proof.
  induction t as [x|f args IH] using term_ind'; intros k; auto. rewrite into_pos_fun. cbn [map fst into_terms]. f_equal. generalize (k + 2). induction IH as [|a r H1 H2 IH2]; intros z; auto. cbn [into_args flat_map]. rewrite map_app, H1, IH2. auto.
Qed.
Lemma clause_terms_map : forall c k, map fst (fst (clause_into_pos c k)) = fst (clause_into_terms c) /\ map fst (snd (clause_into_pos c k)) = snd (clause_into_terms c).
Proof.
  induction c as [|e c IH]; intros k; auto. destruct (IH (k + lit_weight e)) as [I1 I2]. cbn [clause_into_pos clause_into_terms]. unfold app2. cbn [fst snd]. rewrite !map_app, I1, I2.
  assert (L : map fst (fst (lit_into_pos e k)) = fst (lit_into_terms e) /\ map fst (snd (lit_into_pos e k)) = snd (lit_into_terms e)).
  { unfold lit_into_pos, lit_into_terms, app2. cbn [fst snd]. rewrite !map_app. destruct (negb (pos e) && negb (equlit e)).
    - destruct (lt e) as [x|f args]; destruct (ori e); cbn [fst snd map List.app into_pos2 into_terms2]; rewrite ?into_terms_map; auto; rewrite into_pos_fun; cbn [tl];
        pose proof (into_terms_map (Fun f args) k) as Q; rewrite into_pos_fun in Q; cbn [map into_terms] in Q; injection Q as Q; rewrite Q; cbn [into_terms tl]; auto.
    - destruct (ori e); cbn [fst snd map List.app]; rewrite ?into_terms_map; auto. }
  destruct L as [L1 L2]. destruct (maxi e); [rewrite L1, L2|]; auto.
Qed.
Lemma from_terms_map : forall c k, map fst (clause_from_pos c k) = clause_from_terms c.
Proof. induction c as [|e c IH]; intros k; auto. cbn [clause_from_pos clause_from_terms]. rewrite map_app, IH. f_equal. destruct (is_from e); auto. cbn [map fst]. f_equal. destruct (ori e); auto. Qed.

(** ** Histories *)
Lemma spec_ext s s' : forall ops, (forall e, s e <-> s' e) -> forall e, fold_left spec_step ops s e <-> fold_left spec_step ops s' e.
Proof. intros ops. revert s s'. induction ops as [|o ops IH]; intros s s' H e; cbn [fold_left]; auto. apply IH. intros e'. destruct o; cbn [spec_step]; rewrite H; tauto. Qed.
Lemma run_insert id : forall l s e, fold_left spec_step (map (fun tk => Insert (fst tk) (id, snd tk)) l) s e <-> s e \/ exists t k, In (t, k) l /\ e = (t, (id, k)).
Proof.
  induction l as [|[t k] l IH]; intros s e; cbn [map fold_left]; [split; auto; intros [?|[t [k [[] _]]]]; auto|]. rewrite IH. cbn [spec_step fst snd]. split.
  - intros [[->|H]|[t' [k' [I E]]]]; auto; right; [exists t, k|exists t', k']; split; auto; [left|right]; auto.
  - intros [H|[t' [k' [[[= <- <-]|I] E]]]]; auto. right. exists t', k'. auto.
Qed.
Lemma run_delete_clause id : forall l s e, fold_left spec_step (map (fun t => DeleteClause t id) l) s e <-> s e /\ ~ (In (fst e) l /\ fst (snd e) = id).
Proof.
  induction l as [|t l IH]; intros s e; cbn [map fold_left In]; [tauto|]. rewrite IH. cbn [spec_step]. split.
  - intros [[H1 H2] H3]. split; auto. intros [[E|I] E2]; [apply H2; auto|apply H3; auto].
  - intros [H1 H2]. split; [split; auto; intros [E1 E]; apply H2; auto|]. intros [I E]. apply H2. auto.
Qed.
Lemma run_delete id : forall (l : list (term * Z)) s e, fold_left spec_step (map (fun tk => Delete (fst tk) (id, snd tk)) l) s e <-> s e /\ ~ (exists t k, In (t, k) l /\ e = (t, (id, k))).
Proof.
  induction l as [|[t k] l IH]; intros s e; cbn [map fold_left]; [split; [intros H; split; auto; intros [t [k [[] _]]]|tauto]|]. rewrite IH. cbn [spec_step fst snd]. split.
  - intros [[H1 H2] H3]. split; auto. intros [t' [k' [[[= <- <-]|I] E]]]; [auto|apply H3; eauto].
  - intros [H1 H2]. split; [split; auto; intros ->; apply H2; exists t, k; split; auto; left; auto|]. intros [t' [k' [I E]]]. apply H2. exists t', k'. split; auto. right. auto.
Qed.
(** a kind of index: the entries of a clause, and the operations that insert and delete it *)
Definition idx_kind (iops : gop -> list iop) (ent : clause -> term -> Z -> Prop) : Prop :=
  (forall id c s e, fold_left spec_step (iops (GInsert id c)) s e <-> s e \/ exists t k, ent c t k /\ e = (t, (id, k))) /\
  (forall id c (s : entry -> Prop) e, (forall t k, s (t, (id, k)) -> ent c t k) -> fold_left spec_step (iops (GDelete id c)) s e <-> s e /\ fst (snd e) <> id).
Lemma history_entries iops ent ops ps : idx_kind iops ent -> history ops ps -> NoDup (map fst ps) /\ forall e, fold_left spec_step (flat_map iops ops) (fun _ => False) e <-> exists id c t k, In (id, c) ps /\ ent c t k /\ e = (t, (id, k)).
Proof.
  intros [KI KD]. induction 1 as [|ops ps id c H [ND IH] N|ops ps1 ps2 id c H [ND IH]].
  - split; [constructor|]. intros e. cbn. split; [intros []|intros [id [c [t [k [[] _]]]]]].
  - split; [constructor; auto|]. intros e. rewrite flat_map_app, fold_left_app. cbn [flat_map]. rewrite app_nil_r. rewrite KI, IH. split.
    + intros [[id' [c' [t [k [I H']]]]]|[t [k H']]]; [exists id', c', t, k|exists id, c, t, k]; split; auto; [right|left]; auto.
    + intros [id' [c' [t [k [[[= <- <-]|I] H']]]]]; [right|left]; eauto. exists id', c', t, k. auto.
  - assert (N : ~ In id (map fst (ps1 ++ ps2))) by (rewrite map_app in ND |- *; cbn [map fst] in ND; apply NoDup_remove_2 in ND; auto).
    split; [rewrite map_app in ND |- *; cbn [map fst] in ND; apply NoDup_remove_1 in ND; auto|]. intros e. rewrite flat_map_app, fold_left_app. cbn [flat_map]. rewrite app_nil_r.
    assert (Sub : forall x, In x (ps1 ++ ps2) -> In x (ps1 ++ (id, c) :: ps2)) by (intros x; rewrite !in_app_iff; cbn [In]; tauto).
    rewrite KD.
    + rewrite IH. split.
      * intros [[id' [c' [t [k [I [H1 ->]]]]]] H2]. cbn [fst snd] in H2. exists id', c', t, k. split; auto. rewrite in_app_iff in *. cbn [In] in I. destruct I as [I|[[= <- <-]|I]]; auto. tauto.
      * intros [id' [c' [t [k [I [H1 ->]]]]]]. split; [exists id', c', t, k; auto|]. cbn [fst snd]. intros ->. apply N. apply (in_map fst _ _ I).
    + intros t k Hs. apply IH in Hs. destruct Hs as [id' [c' [t' [k' [I [H1 [= <- <- <-]]]]]]]. rewrite in_app_iff in I. cbn [In] in I. destruct I as [I|[[= <-]|I]]; auto; elim N; apply (in_map fst) in I; rewrite map_app, in_app_iff; auto.
Qed.
Lemma ol_kind (collect : clause -> list (term * Z)) (terms : clause -> list term) (iops : gop -> list iop) :
  (forall c, map fst (collect c) = terms c) -> (forall id c, iops (GInsert id c) = ol_insert id (collect c)) -> (forall id c, iops (GDelete id c) = ol_delete id (terms c)) -> idx_kind iops (fun c t k => In (t, k) (collect c)).
Proof.
  intros M HI HD. split; intros id c s e.
  - rewrite HI. unfold ol_insert. rewrite run_insert. split; (intros [H|[t [k [I E]]]]; auto; right; exists t, k; split; auto); apply in_rev; auto. rewrite rev_involutive. auto.
  - intros Hs. rewrite HD. unfold ol_delete. rewrite run_delete_clause. split; [|tauto]. intros [H1 H2]. split; auto. intros E. apply H2. split; auto. destruct e as [t [id' k]]. cbn [fst snd] in *. subst id'. rewrite <- M. apply (in_map fst _ _ (Hs t k H1)).
Qed.
Lemma into_kind : idx_kind into_ops (fun c t k => In (t, k) (fst (clause_into_pos c 0))).
Proof. apply (ol_kind (fun c => fst (clause_into_pos c 0)) (fun c => fst (clause_into_terms c))); auto. intros c. apply clause_terms_map. Qed.
Lemma negp_kind : idx_kind negp_ops (fun c t k => In (t, k) (snd (clause_into_pos c 0))).
Proof. apply (ol_kind (fun c => snd (clause_into_pos c 0)) (fun c => snd (clause_into_terms c))); auto. intros c. apply clause_terms_map. Qed.
Lemma from_kind : idx_kind from_ops (fun c t k => In (t, k) (clause_from_pos c 0)).
Proof. apply (ol_kind (fun c => clause_from_pos c 0) clause_from_terms); auto. intros c. apply from_terms_map. Qed.
Lemma bw_kind ld : idx_kind (bw_ops ld) (fun c t k => exists r, In (t, r) (clause_idx_subterms c ld) /\ k = restno r).
Proof.
  assert (M : forall c t k, In (t, k) (map (fun tr => (fst tr, restno (snd tr))) (clause_idx_subterms c ld)) <-> exists r, In (t, r) (clause_idx_subterms c ld) /\ k = restno r).
  { intros c t k. rewrite in_map_iff. split; [intros [[t' r] [[= <- <-] I]]; eauto|intros [r [I ->]]; exists (t, r); auto]. }
  split; intros id c s e; cbn [bw_ops].
  - unfold bw_insert. replace (map (fun tr => Insert (fst tr) (id, restno (snd tr))) (clause_idx_subterms c ld)) with (map (fun tk => Insert (fst tk) (id, snd tk)) (map (fun tr => (fst tr, restno (snd tr))) (clause_idx_subterms c ld))) by (rewrite map_map; auto).
    rewrite run_insert. split; (intros [H|[t [k [I E]]]]; auto; right; exists t, k; split; auto); apply M; auto.
  - intros Hs. unfold bw_delete. replace (map (fun tr => Delete (fst tr) (id, restno (snd tr))) (clause_idx_subterms c ld)) with (map (fun tk => Delete (fst tk) (id, snd tk)) (map (fun tr => (fst tr, restno (snd tr))) (clause_idx_subterms c ld))) by (rewrite map_map; auto).
    rewrite run_delete. split.
    + intros [H1 H2]. split; auto. intros E. apply H2. destruct e as [t [id' k]]. cbn [fst snd] in *. subst id'. exists t, k. split; auto. apply M. auto.
    + intros [H1 H2]. split; auto. intros [t [k [I ->]]]. apply H2. auto.
Qed.

(** ** Terms of clauses *)
Section WithSig.
  Variable sigarity : Z -> nat.
  Notation fo := (fo_term (arity sigarity)).
  Lemma fo_subterm : forall p t u, fo t -> subterm_at t p = Some u -> fo u.
  Proof.
    induction p as [|i p IH]; intros t u F E; cbn [subterm_at] in E; [injection E as <-; auto|]. destruct t as [x|f args]; [discriminate|]. destruct (nth_error args i) as [a|] eqn:N; [|discriminate].
    apply (IH a); auto. apply fo_fun in F. destruct F as [_ [_ [_ [_ F]]]]. rewrite Forall_forall in F. apply F. eapply nth_error_In; eauto.
  Qed.
  Lemma into_fo c t k : clause_fo (arity sigarity) c -> In (t, k) (fst (clause_into_pos c 0)) -> fo t.
  Proof. intros F I. apply into_spec in I. destruct I as [i [l [p [[e [E [_ [_ [S _]]]]] _]]]]. unfold clause_fo in F. rewrite Forall_forall in F. destruct (F e (nth_error_In _ _ E)). apply (fo_subterm p (eside e l)); auto. destruct l; auto. Qed.
  Lemma negp_fo c t k : clause_fo (arity sigarity) c -> In (t, k) (snd (clause_into_pos c 0)) -> fo t.
  Proof. intros F I. apply negp_spec in I. destruct I as [i [l [p [[e [E [_ [_ [S _]]]]] _]]]]. unfold clause_fo in F. rewrite Forall_forall in F. destruct (F e (nth_error_In _ _ E)). apply (fo_subterm p (eside e l)); auto. destruct l; auto. Qed.
  Lemma from_fo c t k : clause_fo (arity sigarity) c -> In (t, k) (clause_from_pos c 0) -> fo t.
  Proof. intros F I. apply from_spec in I. destruct I as [i [l [[e [E [_ [_ [_ [_ S]]]]]] _]]]. unfold clause_fo in F. rewrite Forall_forall in F. destruct (F e (nth_error_In _ _ E)). subst t. destruct l; auto. Qed.
  Lemma idx_subterms_in t u r ld rs : In (u, r) (idx_subterms t rs ld) <-> isfun u /\ ((u = t /\ r = rs) \/ (ld = false /\ r = false /\ exists i, subterm_at t [i] = Some u)).
  Proof.
    destruct t as [x|f args]; cbn [idx_subterms].
    - split; [intros []|]. intros [F [[-> _]|[_ [_ [i E]]]]]; [destruct F|discriminate].
    - cbn [In]. split.
      + intros [[= <- <-]|I]; [split; cbn; auto|]. destruct ld; [destruct I|]. apply in_flat_map in I. destruct I as [a [I1 I2]]. destruct a as [x|g l]; cbn [idx_subterms] in I2; [destruct I2|]. destruct I2 as [[= <- <-]|[]]. split; [cbn; auto|]. right. repeat split; auto.
        apply In_nth_error in I1. destruct I1 as [i E]. exists i. cbn [subterm_at]. rewrite E. auto.
      + intros [F [[-> ->]|[-> [-> [i E]]]]]; auto. right. cbn [subterm_at] in E. destruct (nth_error args i) as [a|] eqn:N; [|discriminate]. injection E as ->. apply in_flat_map. exists u. split; [eapply nth_error_In; eauto|]. destruct u; [destruct F|]. left. auto.
  Qed.
  Lemma idx_in c u r ld : In (u, r) (clause_idx_subterms c ld) <-> isfun u /\ exists i e left p, nth_error c i = Some e /\ subterm_at (eside e left) p = Some u /\ (length p <= (if ld then 0 else 1))%nat /\ (r = true <-> maxi e = true /\ pos e = true /\ ori e = true /\ left = true /\ p = []).
  Proof.
    unfold clause_idx_subterms. rewrite in_flat_map. unfold lit_idx_subterms. split.
    - intros [e [I1 I2]]. apply In_nth_error in I1. destruct I1 as [i E]. rewrite in_app_iff, !idx_subterms_in in I2. destruct I2 as [[F H]|[F H]]; (split; auto); destruct H as [[-> ->]|[-> [-> [j S]]]].
      + exists i, e, true, []. split; auto. split; auto. split; [cbn; lia|]. rewrite !andb_true_iff. tauto.
      + exists i, e, true, [j]. split; auto. split; auto. split; auto. split; [discriminate|]. intros [_ [_ [_ [_ ?]]]]. discriminate.
      + exists i, e, false, []. split; auto. split; auto. split; [cbn; lia|]. split; [discriminate|]. intros [_ [_ [_ [? _]]]]. discriminate.
      + exists i, e, false, [j]. split; auto. split; auto. split; auto. split; [discriminate|]. intros [_ [_ [_ [_ ?]]]]. discriminate.
    - intros [F [i [e [l [p [E [S [L R]]]]]]]]. exists e. split; [eapply nth_error_In; eauto|]. rewrite in_app_iff, !idx_subterms_in. destruct p as [|j [|j' p]]; [| |destruct ld; cbn [length] in L; lia].
      + destruct l; [left|right]; split; auto; left; cbn [eside subterm_at] in S; injection S as <-; split; auto; destruct r; auto.
        * symmetry. rewrite !andb_true_iff. tauto.
        * destruct (maxi e) eqn:E1, (pos e) eqn:E2, (ori e) eqn:E3; auto. apply R. auto 10.
        * destruct R as [R _]. destruct (R eq_refl) as [_ [_ [_ [? _]]]]. discriminate.
      + destruct ld; [cbn [length] in L; lia|]. assert (r = false) as -> by (destruct r; auto; destruct R as [R _]; destruct (R eq_refl) as [_ [_ [_ [_ ?]]]]; discriminate). destruct l; [left|right]; split; auto; right; repeat split; auto; exists j; auto.
  Qed.
  Lemma bw_fo c t r ld : clause_fo (arity sigarity) c -> In (t, r) (clause_idx_subterms c ld) -> fo t.
  Proof. intros F I. apply idx_in in I. destruct I as [_ [i [e [l [p [E [S _]]]]]]]. unfold clause_fo in F. rewrite Forall_forall in F. destruct (F e (nth_error_In _ _ E)). apply (fo_subterm p (eside e l)); auto. destruct l; auto. Qed.
  (** all operations of an index are on first-order terms *)
  Lemma ol_fo (collect : clause -> list (term * Z)) (terms : clause -> list term) iops : (forall c, map fst (collect c) = terms c) -> (forall id c, iops (GInsert id c) = ol_insert id (collect c)) -> (forall id c, iops (GDelete id c) = ol_delete id (terms c)) ->
    (forall c t k, clause_fo (arity sigarity) c -> In (t, k) (collect c) -> fo t) -> forall ops, Forall (fun o => clause_fo (arity sigarity) (gop_clause o)) ops -> Forall (fun o => fo (iop_term o)) (flat_map iops ops).
  Proof.
    intros M HI HD HF ops F. rewrite Forall_forall in *. intros o I. apply in_flat_map in I. destruct I as [g [I1 I2]]. specialize (F g I1). destruct g as [id c|id c]; cbn [gop_clause] in F.
    - rewrite HI in I2. unfold ol_insert in I2. apply in_map_iff in I2. destruct I2 as [[t k] [<- I2]]. apply in_rev in I2. cbn. eapply HF; eauto.
    - rewrite HD in I2. unfold ol_delete in I2. apply in_map_iff in I2. destruct I2 as [t [<- I2]]. rewrite <- M in I2. apply in_map_iff in I2. destruct I2 as [[t' k] [<- I2]]. cbn. eapply HF; eauto.
  Qed.
  Lemma bw_ops_fo ld ops : Forall (fun o => clause_fo (arity sigarity) (gop_clause o)) ops -> Forall (fun o => fo (iop_term o)) (flat_map (bw_ops ld) ops).
  Proof.
    intros F. rewrite Forall_forall in *. intros o I. apply in_flat_map in I. destruct I as [g [I1 I2]]. specialize (F g I1). destruct g as [id c|id c]; cbn [gop_clause bw_ops] in *; unfold bw_insert, bw_delete in I2;
      apply in_map_iff in I2; destruct I2 as [[t r] [<- I2]]; cbn; eapply bw_fo; eauto.
  Qed.
End WithSig.
