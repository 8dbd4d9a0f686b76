(** * Proofs about subsumption. *)
From Coq Require Import Permutation Sorted.
From Verif Require Import Terms Unify UnifyProofs MatchProofs Semantics Clauses ClausesProofs InferProofs Subsume SubsumeSpec.

Lemma inst_of_holds M v s l e : inst_of s l e -> holds M (fun x => eval M v (s x)) l -> holds M v e.
Proof.
  intros [P H] Hl. unfold holds in *. rewrite P in Hl. rewrite <- lit_holds_app in Hl.
  destruct H as [[A B]|[A B]]; rewrite A, B in Hl; auto. apply lit_holds_swap; auto.
Qed.

Lemma multiset_subsumes_true E M c d : model_ok (srt E) (dist E) M -> multiset_subsumes (srt E) c d ->
  clause_true (srt E) M c -> clause_true (srt E) M d.
Proof.
  intros HM [s [d1 [d2 [Ws [P F]]]]] HC v Hv.
  assert (Hv' := respects_subst (srt E) (dist E) M v s HM Hv Ws).
  specialize (HC _ Hv').
  assert (X : Exists (holds M v) d1).
  { clear P. induction F as [|l e c d1 HI F IH]; [inversion HC|]. inversion HC; subst.
    - left. eapply inst_of_holds; eauto.
    - right. apply IH; auto. }
  apply Exists_exists in X. destruct X as [e [I H]]. apply Exists_exists. exists e. split; auto.
  eapply Permutation_in; [apply Permutation_sym; eauto|]. apply in_or_app; auto.
Qed.

(** ** Small lemmas *)
Definition steq (st st' : bstate) : Prop := trail st' = trail st /\ forall x, bnd st' x = bnd st x.
Lemma steq_refl st : steq st st. Proof. split; auto. Qed.
Lemma steq_ext st st' : steq st st' -> ext st st'.
Proof. intros [A B]. exists []. rewrite A. simpl. repeat split; auto. intros x []. Qed.
Lemma steq_trans a b c : steq a b -> steq b c -> steq a c.
Proof. intros [A B] [C D]. split; [congruence|]. intros x. rewrite D; auto. Qed.
Lemma ext_back st st' : ext st st' -> steq st (backtrack_to_pos st' (length (trail st))).
Proof. intros H. apply backtrack_ext in H. exact H. Qed.
Lemma steq_wfb S st st' : steq st st' -> wfbinding S (bnd st) -> wfbinding S (bnd st').
Proof. intros [_ B] H x t Hx. rewrite B in Hx. apply H; auto. Qed.
Lemma steq_agrees st st' s : steq st st' -> (agrees (bnd st') s <-> agrees (bnd st) s).
Proof. intros [_ B]. unfold agrees. split; intros H x t Hx; apply H; [rewrite B|rewrite <- B]; auto. Qed.
Lemma agrees_ext st st' s : ext st st' -> agrees (bnd st') s -> agrees (bnd st) s.
Proof.
  intros [new [_ [A B]]] H x t Hx. apply H. rewrite B; auto. intros I. rewrite (A x I) in Hx. discriminate.
Qed.
Lemma steq_len st st' : steq st st' -> length (trail st') = length (trail st).
Proof. intros [A _]. congruence. Qed.

Lemma as_subst_wf S b : wfbinding S b -> wfsubst S (as_subst b).
Proof.
  intros H x. unfold as_subst. destruct (b x) as [t|] eqn:E; [apply H in E; tauto|]. split; reflexivity.
Qed.

Lemma no_bindings_wf S : wfbinding S (bnd no_bindings).
Proof. intros x t H. discriminate. Qed.
Lemma no_bindings_agrees s : agrees (bnd no_bindings) s.
Proof. intros x t H. discriminate. Qed.

Lemma at_index_length f l i : length (at_index f l i) = length l.
Proof. revert i. induction l; intros [|i]; simpl; auto. Qed.
Lemma at_index_nth f l i j : i < length l -> nth j (at_index f l i) 0 = if Nat.eqb j i then f (nth i l 0) else nth j l 0.
Proof.
  revert i j. induction l as [|x l IH]; intros i j H; simpl in H; [lia|].
  destruct i as [|i], j as [|j]; simpl; auto. apply IH. lia.
Qed.
Lemma at_index_back l i : at_index pred (at_index S l i) i = l.
Proof. revert i. induction l as [|x l IH]; intros [|i]; simpl; auto. rewrite IH. auto. Qed.

Ltac qsolve := unfold qorder, bcmp;
  repeat match goal with |- context [pos ?e] => destruct (pos e) end;
  repeat match goal with |- context [equlit ?e] => destruct (equlit e) end; cbn; intros; try congruence;
  repeat match goal with
  | |- context [Z.compare ?a ?b] => destruct (Z.compare_spec a b)
  | H : context [Z.compare ?a ?b] |- _ => destruct (Z.compare_spec a b)
  end; try congruence; try lia; try reflexivity.
Lemma qorder_trans_lt a b c : qorder a b <> Gt -> qorder b c = Lt -> qorder a c = Lt.
Proof. qsolve. Qed.
Lemma qorder_eq_eq a b c : qorder a b = Eq -> qorder c b = Eq -> qorder a c = Eq.
Proof. qsolve. Qed.
Lemma qorder_sym a b : qorder b a = CompOpp (qorder a b).
Proof. qsolve. Qed.
Lemma qorder_refl a : qorder a a = Eq.
Proof. qsolve. Qed.
Lemma qorder_le_trans a b c : qorder a b <> Gt -> qorder b c <> Gt -> qorder a c <> Gt.
Proof. qsolve. Qed.
Lemma inv_compare_trans a b c : inv_compare a b <> Gt -> inv_compare b c <> Gt -> inv_compare a c <> Gt.
Proof.
  unfold inv_compare. intros H1 H2.
  assert (A : qorder b a <> Gt) by (destruct (qorder b a); congruence).
  assert (B : qorder c b <> Gt) by (destruct (qorder c b); congruence).
  pose proof (qorder_le_trans c b a B A) as C. destruct (qorder c a) eqn:X; try congruence.
  assert (Y : qorder b a = Eq).
  { destruct (qorder b a) eqn:Z; auto; [|congruence]. exfalso. rewrite (qorder_trans_lt c b a B Z) in X. discriminate. }
  assert (Y' : qorder c b = Eq).
  { rewrite qorder_sym in Y. destruct (qorder a b) eqn:Z; try discriminate. rewrite qorder_sym in X. destruct (qorder a c) eqn:Z'; try discriminate.
    apply (qorder_eq_eq c a b); [rewrite qorder_sym, Z'; auto|rewrite qorder_sym, Z; auto]. }
  rewrite Y in H1. rewrite Y' in H2. rewrite Z.compare_gt_iff in *. lia.
Qed.

Lemma subsume_ordered_cons e e' c :
  subsume_ordered (e :: e' :: c) = match inv_compare e e' with Gt => false | _ => subsume_ordered (e' :: c) end.
Proof. reflexivity. Qed.

Lemma subsume_ordered_sorted c : subsume_ordered c = true <-> StronglySorted (fun a b => inv_compare a b <> Gt) c.
Proof.
  induction c as [|e c IH]; [split; auto; constructor|].
  split.
  - intros H. constructor.
    + apply IH. destruct c as [|e' c]; auto. rewrite subsume_ordered_cons in H. destruct (inv_compare e e'); congruence.
    + destruct c as [|e' c]; [constructor|].
      assert (He : inv_compare e e' <> Gt) by (rewrite subsume_ordered_cons in H; destruct (inv_compare e e'); congruence).
      assert (Hs : subsume_ordered (e' :: c) = true) by (rewrite subsume_ordered_cons in H; destruct (inv_compare e e'); congruence).
      apply IH in Hs. inversion Hs as [|? ? _ F]; subst. constructor; auto.
      rewrite Forall_forall in *. intros x Hx. eapply inv_compare_trans; eauto.
  - intros H. inversion H as [|? ? S F]; subst. apply IH in S. destruct c as [|e' c]; auto.
    inversion F; subst. rewrite subsume_ordered_cons. destruct (inv_compare e e'); congruence.
Qed.

Lemma insert_lit_perm e c : Permutation (insert_lit e c) (e :: c).
Proof.
  induction c as [|e' c IH]; simpl; auto. destruct (inv_compare e e'); auto.
  eapply perm_trans; [apply perm_skip, IH|]. apply perm_swap.
Qed.
Lemma sort_lits_perm c : Permutation (sort_lits c) c.
Proof. induction c as [|e c IH]; simpl; auto. eapply perm_trans; [apply insert_lit_perm|]. auto. Qed.
Lemma inv_compare_total a b : inv_compare a b = Gt -> inv_compare b a <> Gt.
Proof.
  unfold inv_compare. rewrite (qorder_sym a b). destruct (qorder a b); cbn; try discriminate.
  rewrite (Z.compare_antisym (eqn_weight b)). destruct (eqn_weight b ?= eqn_weight a)%Z; discriminate.
Qed.
Lemma sort_lits_sorted c : subsume_ordered (sort_lits c) = true.
Proof.
  apply subsume_ordered_sorted. induction c as [|e c IH]; simpl; [constructor|].
  induction IH as [|a r SR IHr F]; simpl; [repeat constructor|].
  destruct (inv_compare e a) eqn:C.
  - constructor; [constructor; auto|]. constructor; [congruence|]. rewrite Forall_forall in *. intros x Hx.
    eapply inv_compare_trans; [|apply F; auto]. congruence.
  - constructor; [constructor; auto|]. constructor; [congruence|]. rewrite Forall_forall in *. intros x Hx.
    eapply inv_compare_trans; [|apply F; auto]. congruence.
  - constructor; auto. rewrite Forall_forall in *. intros x Hx. apply (Permutation_in _ (insert_lit_perm e r)) in Hx.
    destruct Hx as [<-|Hx]; auto. apply inv_compare_total; auto.
Qed.

Lemma inst_of_weight s l e : inst_of s l e -> (eqn_weight l <= eqn_weight e)%Z.
Proof.
  unfold eqn_weight. intros [_ [[A B]|[A B]]]; pose proof (app_stdweight_ge s (lt l)); pose proof (app_stdweight_ge s (rt l)); rewrite A, B in *; lia.
Qed.

Section Search.
Variables (E : env) (n : nat).
Notation SS := (srt E).

Lemma match2_correct st m1 t1 m2 t2 : wfbinding SS (bnd st) -> wf SS m1 -> wf SS t1 -> wf SS m2 -> wf SS t2 ->
  match match2 E n st m1 t1 m2 t2 with
  | Success st' => ext st st' /\ wfbinding SS (bnd st')
      /\ forall s, agrees (bnd st') s <-> agrees (bnd st) s /\ app s m1 = t1 /\ app s m2 = t2
  | Failure st' => ext st st'
      /\ (fo_sorts SS (pp E) -> forall s, wfsubst SS s -> agrees (bnd st) s -> app s m1 = t1 -> app s m2 = t2 -> False)
  | OutOfFuel => n <= size m1 \/ n <= size m2
  | UndefBehaviour => False
  end.
Proof.
  intros HB W1 W2 W3 W4. unfold match2. pose proof (smatch_correct n SS (pp E) st m1 t1 HB W1 W2) as C1.
  destruct (smatch n SS (pp E) st m1 t1) as [st1|st1| |]; auto.
  - destruct C1 as [X1 [B1 [A1 _]]]. pose proof (smatch_correct n SS (pp E) st1 m2 t2 B1 W3 W4) as C2.
    destruct (smatch n SS (pp E) st1 m2 t2) as [st2|st2| |]; auto.
    + destruct C2 as [X2 [B2 [A2 _]]]. split; [eapply ext_trans; eauto|]. split; auto.
      intros s. rewrite A2, A1. tauto.
    + destruct C2 as [T2 [B2 N2]]. split.
      * eapply ext_trans; [exact X1|]. apply steq_ext. split; auto.
      * intros HF s Ws Ha E1 E2. apply (N2 HF s Ws); auto. apply A1. auto.
  - destruct C1 as [T1 [B1 N1]]. split; [apply steq_ext; split; auto|]. intros HF s Ws Ha E1 _. apply (N1 HF s Ws Ha E1).
Qed.

Definition dl : eqn := mkeqn ttrue ttrue true false false false false false false.

Section Rec.
Variable cand : list eqn.
Hypothesis HC : clause_ok E cand.
Variable comp : Prop.       (* the conditions for completeness *)

Definition free_idx (pk js : list nat) : Prop := NoDup js /\ forall j, In j js -> j < length cand /\ nth j pk 0 = 0.
Definition maps (s : subst) (ls : list eqn) (js : list nat) : Prop := Forall2 (fun l j => inst_of s l (nth j cand dl)) ls js.

Definition compat (l e : eqn) : Prop := forall s, wfsubst SS s -> inst_of s l e ->
  qorder e l = Eq /\ (ori l = true -> ori e = true /\ app s (lt l) = lt e /\ app s (rt l) = rt e).

Definition search_ok (ls : list eqn) (st : bstate) (pk : list nat) (r : sres) : Prop :=
  match r with
  | SYes st' _ => ext st st' /\ wfbinding SS (bnd st') /\
      exists js, free_idx pk js /\ forall s, agrees (bnd st') s -> maps s ls js
  | SNo st' pk' => steq st st' /\ pk' = pk /\
      (comp -> forall s js, wfsubst SS s -> agrees (bnd st) s -> free_idx pk js -> maps s ls js -> False)
  | SFuel => exists l, In l ls /\ (n <= size (lt l) \/ n <= size (rt l))
  | SUndef => False
  end.

Section Loop.
Variables (l : eqn) (ls : list eqn) (rest : bstate -> list nat -> sres).
Hypothesis Hl : eqn_ok E l.
Hypothesis Hrest : forall st pk, wfbinding SS (bnd st) -> length pk = length cand -> search_ok ls st pk (rest st pk).
Hypothesis Hcomp : comp -> fo_sorts SS (pp E) /\ (forall e, In e cand -> compat l e)
   /\ StronglySorted (fun a b => inv_compare a b <> Gt) cand.

(** one attempt: the literal is mapped to candidate literal i, as a = b *)
Lemma attempt_ok i a b st pk e :
  wfbinding SS (bnd st) -> length pk = length cand -> nth_error cand i = Some e ->
  ((a = lt e /\ b = rt e) \/ (a = rt e /\ b = lt e)) -> pos l = pos e -> nth i pk 0 = 0 ->
  match attempt E n rest l a b st (at_index S pk i) with
  | SYes st' pk' => search_ok (l :: ls) st pk (SYes st' pk')
  | SNo st' pk' => steq st st' /\ pk' = at_index S pk i /\
      (comp -> forall s js, wfsubst SS s -> agrees (bnd st) s -> free_idx pk (i :: js) -> maps s ls js ->
         app s (lt l) = a -> app s (rt l) = b -> False)
  | SFuel => exists l', In l' (l :: ls) /\ (n <= size (lt l') \/ n <= size (rt l'))
  | SUndef => False
  end.
Proof.
  intros HB HL Hi Hab Hp Hz.
  assert (He : eqn_ok E e) by (apply (clause_ok_nth E i cand e HC Hi)).
  assert (Hil : i < length cand) by (apply nth_error_Some; congruence).
  assert (HN : nth i cand dl = e) by (apply nth_error_nth; auto).
  destruct Hl as [Wl [Wr _]]. destruct He as [We1 [We2 _]].
  assert (Wa : wf SS a) by (destruct Hab as [[-> _]|[-> _]]; auto).
  assert (Wb : wf SS b) by (destruct Hab as [[_ ->]|[_ ->]]; auto).
  unfold attempt. pose proof (match2_correct st (lt l) a (rt l) b HB Wl Wa Wr Wb) as HM.
  destruct (match2 E n st (lt l) a (rt l) b) as [st1|st1| |].
  - destruct HM as [X1 [B1 A1]].
    assert (HL1 : length (at_index S pk i) = length cand) by (rewrite at_index_length; auto).
    pose proof (Hrest st1 (at_index S pk i) B1 HL1) as HR.
    destruct (rest st1 (at_index S pk i)) as [st2 pk2|st2 pk2| |]; cbn in HR |- *; auto.
    + destruct HR as [X2 [B2 [js [[ND FR] MP]]]]. split; [eapply ext_trans; eauto|]. split; auto.
      assert (FR' : forall j, In j js -> j <> i /\ j < length cand /\ nth j pk 0 = 0).
      { intros j Hj. destruct (FR j Hj) as [J1 J2]. rewrite at_index_nth in J2 by lia.
        destruct (Nat.eqb_spec j i); [discriminate|]. auto. }
      exists (i :: js). split.
      { split; [constructor; auto; intros I; destruct (FR' i I); congruence|].
        intros j [<-|Hj]; auto. destruct (FR' j Hj); auto. }
      intros s Ha. constructor; [|apply MP; auto]. rewrite HN. apply (agrees_ext _ _ _ X2) in Ha. apply A1 in Ha.
      destruct Ha as [_ [E1 E2]]. split; auto. destruct Hab as [[-> ->]|[-> ->]]; auto.
    + destruct HR as [S2 [-> N2]].
      assert (X2 : ext st st2) by (eapply ext_trans; [exact X1|apply steq_ext; auto]).
      split; [apply ext_back; auto|]. split; auto. intros Hc s js Ws Ha [ND FR] MP E1 E2.
      apply (N2 Hc s js); auto.
      * apply A1. auto.
      * inversion ND; subst. split; auto. intros j Hj. destruct (FR j (or_intror Hj)) as [J1 J2]. split; auto.
        rewrite at_index_nth by lia. destruct (Nat.eqb_spec j i); [subst; contradiction|auto].
    + destruct HR as [l' [I1 I2]]. exists l'. auto.
  - destruct HM as [X1 N1]. split; [apply ext_back; auto|]. split; auto. intros Hc s js Ws Ha _ _ E1 E2.
    destruct (Hcomp Hc) as [HF _]. apply (N1 HF s Ws Ha E1 E2).
  - exists l. simpl. auto.
  - auto.
Qed.

Lemma qorder_eq_pos a b : qorder a b = Eq -> pos a = pos b.
Proof. unfold qorder. destruct (pos a), (pos b); simpl; auto; discriminate. Qed.

(** solutions that map the first literal at or after position i *)
Definition no_solution (i : nat) (st : bstate) (pk : list nat) : Prop :=
  forall s j js, wfsubst SS s -> agrees (bnd st) s -> free_idx pk (j :: js) -> i <= j -> maps s (l :: ls) (j :: js) -> False.

Lemma sorted_nth (R : eqn -> eqn -> Prop) c : StronglySorted R c -> forall i j, i < j -> j < length c -> R (nth i c dl) (nth j c dl).
Proof.
  induction 1 as [|a c HS IH HF]; intros i j Hij Hj; simpl in Hj; [lia|].
  destruct j as [|j]; [lia|]. destruct i as [|i]; simpl.
  - rewrite Forall_forall in HF. apply HF. apply nth_In. lia.
  - apply IH; lia.
Qed.

Lemma pick_loop_ok : forall es i st pk, wfbinding SS (bnd st) -> length pk = length cand ->
  (exists pre, cand = pre ++ es /\ length pre = i) ->
  match pick_loop E n rest l es i st pk with
  | SYes st' pk' => search_ok (l :: ls) st pk (SYes st' pk')
  | SNo st' pk' => steq st st' /\ pk' = pk /\ (comp -> no_solution i st pk)
  | SFuel => exists l', In l' (l :: ls) /\ (n <= size (lt l') \/ n <= size (rt l'))
  | SUndef => False
  end.
Proof.
  induction es as [|e es IH]; intros i st pk HB HL [pre [HP HPl]]; cbn [pick_loop].
  - split; [apply steq_refl|]. split; auto. intros _ s j js _ _ [_ FR] Hij _.
    destruct (FR j (or_introl eq_refl)) as [X _]. rewrite HP, app_nil_r in X. lia.
  - assert (Hi : nth_error cand i = Some e).
    { rewrite HP, nth_error_app2 by lia. rewrite <- HPl, Nat.sub_diag. reflexivity. }
    assert (Hil : i < length cand) by (apply nth_error_Some; congruence).
    assert (HN : nth i cand dl = e) by (apply nth_error_nth; auto).
    assert (Hin : In e cand) by (eapply nth_error_In; eauto).
    assert (NEXT : exists pre', cand = pre' ++ es /\ length pre' = S i).
    { exists (pre ++ [e]). rewrite <- app_assoc. split; auto. rewrite app_length. simpl. lia. }
    (* how to go on when position i is impossible *)
    assert (STEP : forall st1, steq st st1 ->
       (comp -> forall s js, wfsubst SS s -> agrees (bnd st) s -> free_idx pk (i :: js) -> maps s (l :: ls) (i :: js) -> False) ->
       match pick_loop E n rest l es (S i) st1 pk with
       | SYes st' pk' => search_ok (l :: ls) st pk (SYes st' pk')
       | SNo st' pk' => steq st st' /\ pk' = pk /\ (comp -> no_solution i st pk)
       | SFuel => exists l', In l' (l :: ls) /\ (n <= size (lt l') \/ n <= size (rt l'))
       | SUndef => False
       end).
    { intros st1 HS HX. pose proof (IH (S i) st1 pk (steq_wfb _ _ _ HS HB) HL NEXT) as HI.
      destruct (pick_loop E n rest l es (S i) st1 pk) as [st' pk'|st' pk'| |]; auto.
      - destruct HI as [A [B C]]. split; auto. eapply ext_trans; [apply steq_ext; eauto|auto].
      - destruct HI as [A [B C]]. split; [eapply steq_trans; eauto|]. split; auto.
        intros Hc s j js Ws Ha FI Hij MP. destruct (Nat.eq_dec j i) as [->|Nj]; [apply (HX Hc s js Ws Ha FI MP)|].
        apply (C Hc s j js Ws); auto; [|lia]. apply (steq_agrees _ _ s HS); auto. }
    destruct (Nat.eqb_spec (nth i pk 0) 0) as [Hz|Hz]; cbn [negb].
    2:{ apply STEP; [apply steq_refl|]. intros _ s js _ _ [_ FR] _. destruct (FR i (or_introl eq_refl)); congruence. }
    (* facts about a solution, under the completeness conditions *)
    assert (SOL : forall s j js, comp -> wfsubst SS s -> free_idx pk (j :: js) -> maps s (l :: ls) (j :: js) ->
        j < length cand /\ inst_of s l (nth j cand dl) /\ qorder (nth j cand dl) l = Eq
        /\ (ori l = true -> ori (nth j cand dl) = true /\ app s (lt l) = lt (nth j cand dl) /\ app s (rt l) = rt (nth j cand dl))).
    { intros s j js Hc Ws [_ FR] MP. destruct (FR j (or_introl eq_refl)) as [Jl _]. inversion MP; subst.
      destruct (Hcomp Hc) as [_ [HCo _]]. split; auto. split; auto. apply (HCo (nth j cand dl)); auto. apply nth_In; auto. }
    destruct (qorder e l) eqn:Q.
    + destruct (Z.ltb_spec (eqn_weight e) (eqn_weight l)) as [WL|WL].
      { split; [apply steq_refl|]. split; auto. intros Hc s j js Ws Ha FI Hij MP.
        destruct (SOL s j js Hc Ws FI MP) as [Jl [IO [QJ _]]]. apply inst_of_weight in IO.
        destruct (Nat.eq_dec j i) as [->|Nj]; [rewrite HN in IO; lia|].
        destruct (Hcomp Hc) as [_ [_ HS]]. pose proof (sorted_nth _ _ HS i j ltac:(lia) Jl) as C. unfold inv_compare in C.
        rewrite HN in C. rewrite (qorder_eq_eq (nth j cand dl) l e QJ Q) in C. rewrite Z.compare_gt_iff in C. lia. }
      destruct (ori l && negb (ori e)) eqn:OR.
      { apply STEP; [apply steq_refl|]. intros Hc s js Ws Ha FI MP. destruct (SOL s i js Hc Ws FI MP) as [_ [_ [_ O]]].
        apply andb_true_iff in OR. destruct OR as [O1 O2]. destruct (O O1) as [O3 _]. rewrite HN in O3. rewrite O3 in O2. discriminate. }
      pose proof (attempt_ok i (lt e) (rt e) st pk e HB HL Hi (or_introl (conj eq_refl eq_refl)) (eq_sym (qorder_eq_pos _ _ Q)) Hz) as A1.
      destruct (attempt E n rest l (lt e) (rt e) st (at_index S pk i)) as [st2 pk2|st2 pk2| |]; auto.
      destruct A1 as [S1 [-> N1]].
      destruct (ori l) eqn:OL.
      { rewrite at_index_back. apply STEP; auto. intros Hc s js Ws Ha FI MP. destruct (SOL s i js Hc Ws FI MP) as [_ [_ [_ O]]].
        destruct (O eq_refl) as [_ [E1 E2]]. rewrite HN in *. inversion MP; subst. apply (N1 Hc s js Ws Ha FI); auto. }
      pose proof (attempt_ok i (rt e) (lt e) st2 pk e (steq_wfb _ _ _ S1 HB) HL Hi (or_intror (conj eq_refl eq_refl)) (eq_sym (qorder_eq_pos _ _ Q)) Hz) as A2.
      destruct (attempt E n rest l (rt e) (lt e) st2 (at_index S pk i)) as [st3 pk3|st3 pk3| |]; auto.
      * destruct A2 as [X [Y Z]]. split; auto. eapply ext_trans; [apply steq_ext; eauto|auto].
      * destruct A2 as [S2 [-> N2]]. rewrite at_index_back. apply STEP; [eapply steq_trans; eauto|].
        intros Hc s js Ws Ha FI MP. destruct (SOL s i js Hc Ws FI MP) as [_ [[_ IO] _]]. rewrite HN in *. inversion MP; subst.
        destruct IO as [[E1 E2]|[E1 E2]]; [apply (N1 Hc s js Ws Ha FI); auto|].
        apply (N2 Hc s js Ws); auto. apply (steq_agrees _ _ s S1); auto.
    + split; [apply steq_refl|]. split; auto. intros Hc s j js Ws Ha FI Hij MP.
      destruct (SOL s j js Hc Ws FI MP) as [Jl [IO [QJ _]]].
      destruct (Nat.eq_dec j i) as [->|Nj]; [rewrite HN in QJ; congruence|].
      destruct (Hcomp Hc) as [_ [_ HS]]. pose proof (sorted_nth _ _ HS i j ltac:(lia) Jl) as C. unfold inv_compare in C.
      rewrite HN in C. assert (LE : qorder (nth j cand dl) e <> Gt) by (destruct (qorder (nth j cand dl) e); congruence).
      rewrite (qorder_trans_lt _ _ _ LE Q) in QJ. discriminate.
    + apply STEP; [apply steq_refl|]. intros Hc s js Ws Ha FI MP. destruct (SOL s i js Hc Ws FI MP) as [_ [_ [QJ _]]].
      rewrite HN in QJ. congruence.
Qed.
End Loop.

Lemma rec_subsume_ok : forall ls, Forall (eqn_ok E) ls ->
  (comp -> fo_sorts SS (pp E) /\ (forall l e, In l ls -> In e cand -> compat l e)
    /\ StronglySorted (fun a b => inv_compare a b <> Gt) cand) ->
  forall st pk, wfbinding SS (bnd st) -> length pk = length cand -> search_ok ls st pk (rec_subsume E n ls cand st pk).
Proof.
  induction ls as [|l ls IH]; intros HO Hcomp st pk HB HL; cbn [rec_subsume].
  - cbn. split; [apply ext_refl|]. split; auto. exists []. split; [split; [constructor|intros j []]|]. intros; constructor.
  - inversion HO; subst.
    assert (HR : forall st pk, wfbinding SS (bnd st) -> length pk = length cand -> search_ok ls st pk (rec_subsume E n ls cand st pk)).
    { apply IH; auto. intros Hc. destruct (Hcomp Hc) as [A [B C]]. split; auto. split; auto. intros; apply B; simpl; auto. }
    assert (HC2 : comp -> fo_sorts SS (pp E) /\ (forall e, In e cand -> compat l e) /\ StronglySorted (fun a b => inv_compare a b <> Gt) cand).
    { intros Hc. destruct (Hcomp Hc) as [A [B C]]. split; auto. split; auto. intros; apply B; simpl; auto. }
    pose proof (pick_loop_ok l ls (rec_subsume E n ls cand) H1 HR HC2 cand 0 st pk HB HL (ex_intro _ [] (conj eq_refl eq_refl))) as P.
    destruct (pick_loop E n (rec_subsume E n ls cand) l cand 0 st pk) as [st' pk'|st' pk'| |]; auto.
    destruct P as [A [B C]]. split; auto. split; auto. intros Hc s js Ws Ha FI MP. inversion MP; subst.
    eapply (C Hc); eauto. lia.
Qed.
End Rec.
End Search.
