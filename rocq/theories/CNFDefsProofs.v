(** * Proofs about the introduction of definitions. *)
From Coq Require Import Classical ClassicalEpsilon.
From Verif Require Import Terms Unify UnifyProofs Semantics Clauses ClausesProofs Split SplitProofs SplitSemProofs CNF CNFProofs CNFTermProofs CNFSkolemProofs CNFMainProofs CNFDefs.

Fixpoint fsize (f : form) : nat :=
  match f with FLit _ _ _ | FAtom _ => 1 | FNot a => S (fsize a) | FBin _ a b => S (fsize a + fsize b) | FQ _ _ a => S (fsize a) end.
Lemma fsize_pos f : 0 < fsize f.
Proof. destruct f; cbn; lia. Qed.

Lemma find_def_some defs f a : find_def defs f = Some a -> In (f, a) defs.
Proof.
  unfold find_def. destruct (List.find _ defs) as [[g b]|] eqn:Q; cbn; [|discriminate]. intros H. injection H as <-. apply List.find_some in Q. destruct Q as [A B]. cbn in B.
  destruct (form_eqb_spec f g); [subst; auto|discriminate].
Qed.
Lemma find_def_none defs f : find_def defs f = None -> forall a, ~ In (f, a) defs.
Proof.
  unfold find_def. destruct (List.find _ defs) as [[g b]|] eqn:Q; cbn; [discriminate|]. intros _ a H. apply (List.find_none _ _ Q) in H. cbn in H. rewrite form_eqb_refl in H. discriminate.
Qed.
Lemma find_def_fresh defs f n s : (forall d, In d defs -> forall s, In s (form_syms (fst d)) -> s < n) -> In s (form_syms f) -> n <= s -> find_def defs f = None.
Proof. intros H Hs Hn. destruct (find_def defs f) as [a|] eqn:Q; auto. apply find_def_some in Q. specialize (H _ Q s Hs). lia. Qed.

(** ** Closure *)
Lemma quant_true S M x g : form_true S M (FQ true x g) <-> form_true S M g.
Proof.
  split; intros H v Hv.
  - specialize (H v Hv (v x) (Hv x)). revert H. apply sem_ext. intros y _. unfold vset. destruct (Nat.eqb_spec x y); congruence.
  - intros d Hd. apply H. apply respects_vset; auto.
Qed.
Lemma add_quantors_true S M xs : forall g, form_true S M (add_quantors g xs) <-> form_true S M g.
Proof. induction xs as [|x xs IH]; intros g; cbn; [tauto|]. fold (add_quantors (FQ true x g) xs). rewrite IH. apply quant_true. Qed.
Lemma add_quantors_syms xs : forall g, form_syms (add_quantors g xs) = form_syms g.
Proof. induction xs as [|x xs IH]; intros g; cbn; auto. fold (add_quantors (FQ true x g) xs). rewrite IH. reflexivity. Qed.
Lemma add_quantors_ok E xs : forall g, (forall x, In x xs -> is_fresh x = false) -> form_ok E g -> form_ok E (add_quantors g xs).
Proof.
  induction xs as [|x xs IH]; intros g H K; cbn; auto. fold (add_quantors (FQ true x g) xs). apply IH; [intros; apply H; right; auto|]. split; auto. apply H. left; auto.
Qed.
Lemma add_quantors_vars xs : forall g x, In x (all_vars (add_quantors g xs)) -> In x xs \/ In x (all_vars g).
Proof.
  induction xs as [|y xs IH]; intros g x H; cbn in H; auto. fold (add_quantors (FQ true y g) xs) in H. destruct (IH _ _ H) as [X|[->|X]]; cbn; auto.
Qed.

(** ** Copying *)
Section Copy.
  Variable defs : list (form * term).
  Notation copy := (copy_def defs).
  Definition parts (bl : option form) (f : form) : form :=
    match f with FNot a => FNot (copy bl a) | FBin o a b => FBin o (copy bl a) (copy bl b) | FQ q x a => FQ q x (copy bl a) | _ => f end.
  Lemma copy_step bl f : copy bl f = parts bl f \/ (is_blocked bl f = false /\ exists a, In (f, a) defs /\ copy bl f = def_atom a).
  Proof.
    destruct f as [| |g|o g h|q x g]; auto;
      (cbn [copy_def parts]; match goal with |- context [is_blocked bl ?F] => destruct (is_blocked bl F) eqn:B; [left; reflexivity|];
        destruct (find_def defs F) as [a|] eqn:Q; [right; split; auto; exists a; split; [apply find_def_some; auto|reflexivity]|left; reflexivity] end).
  Qed.
  Lemma copy_blocked f : copy (Some f) f = parts (Some f) f.
  Proof. destruct (copy_step (Some f) f) as [H|[H _]]; auto. cbn in H. rewrite form_eqb_refl in H. discriminate. Qed.
  Lemma copy_unblocked f g : fsize g < fsize f -> copy (Some f) g = copy None g.
  Proof.
    assert (B : forall g, fsize g < fsize f -> is_blocked (Some f) g = is_blocked None g).
    { intros h H. cbn. destruct (form_eqb_spec h f); auto. subst. lia. }
    induction g as [p l r|t|a IH|o a IHa b IHb|q x a IH]; intros H; cbn [copy_def]; auto; rewrite B by auto; cbn [fsize] in H; rewrite ?IH, ?IHa, ?IHb by lia; reflexivity.
  Qed.
  Lemma parts_blocked f : parts (Some f) f = parts None f.
  Proof. destruct f as [| |a|o a b|q x a]; cbn [parts]; auto; rewrite ?copy_unblocked; auto; cbn; lia. Qed.
  Lemma copy_fresh bl f n s : (forall d, In d defs -> forall s, In s (form_syms (fst d)) -> s < n) -> In s (form_syms f) -> n <= s -> copy bl f = parts bl f.
  Proof. intros H Hs Hn. destruct (copy_step bl f) as [X|[_ [a [A _]]]]; auto. specialize (H _ A s Hs). lia. Qed.
  Lemma copy_quantors bl n s xs : (forall d, In d defs -> forall s, In s (form_syms (fst d)) -> s < n) -> n <= s -> forall g, In s (form_syms g) ->
    copy bl (add_quantors g xs) = add_quantors (copy bl g) xs.
  Proof.
    intros H Hn. induction xs as [|x xs IH]; intros g Hg; cbn; auto. fold (add_quantors (FQ true x g) xs). fold (add_quantors (FQ true x (copy bl g)) xs). rewrite IH by auto.
    rewrite (copy_fresh bl (FQ true x g) n s H Hg Hn). reflexivity.
  Qed.

  (** when every atom is equivalent to its formula, copying changes nothing *)
  Lemma copy_equiv S M : (forall f a, In (f, a) defs -> forall v, respects S M v -> (sem S M v (def_atom a) <-> sem S M v f)) ->
    forall f bl v, respects S M v -> (sem S M v (copy bl f) <-> sem S M v f).
  Proof.
    intros H. induction f as [p l r|t|a IH|o a IHa b IHb|q x a IH]; intros bl v Hv; try (cbn [copy_def]; tauto);
      (match goal with |- context [copy bl ?F] => destruct (copy_step bl F) as [->|[_ [d [A ->]]]]; [|apply H; auto] end); cbn [parts sem].
    - rewrite IH; tauto.
    - apply op_sem_iff; auto.
    - destruct q; split.
      + intros K d Hd. apply (IH bl); auto. apply respects_vset; auto.
      + intros K d Hd. apply (IH bl); auto. apply respects_vset; auto.
      + intros [d [Hd K]]. exists d. split; auto. apply (IH bl) in K; auto. apply respects_vset; auto.
      + intros [d [Hd K]]. exists d. split; auto. apply (IH bl); auto. apply respects_vset; auto.
  Qed.
End Copy.

(** ** Polarity *)
Lemma mark_self pol f : (exists p l r, f = FLit p l r) \/ In (f, pol) (mark pol f).
Proof. destruct f as [| | |[]|]; [left; eauto| | | | | | | | | | |]; right; left; reflexivity. Qed.
Lemma mark_closed : forall f0 pol f p, In (f, p) (mark pol f0) -> incl (mark p f) (mark pol f0).
Proof.
  assert (T : forall (f g : form) (p q : polarity) l, (f, p) = (g, q) -> l = mark p f -> incl (mark q g) l) by (intros ? ? ? ? l E ->; injection E as -> ->; apply incl_refl).
  induction f0 as [s l r|t|a IH|o a IHa b IHb|q x a IH]; intros pol f p H.
  - destruct H.
  - destruct H as [H|[]]. eapply T; eauto.
  - destruct H as [H|H]; [eapply T; eauto|]. cbn [mark]. apply incl_tl. apply IH; auto.
  - destruct o; cbn [mark] in *; destruct H as [H|H]; try (eapply T; eauto; reflexivity); try (destruct H; fail);
      (apply incl_tl; apply in_app_or in H; destruct H as [H|H]; [apply incl_appl; apply IHa; auto|apply incl_appr; apply IHb; auto]).
  - destruct H as [H|H]; [eapply T; eauto|]. cbn [mark]. apply incl_tl. apply IH; auto.
Qed.

Section Marks.
  Variable marks : list (form * polarity).
  Hypothesis closed : forall f p, In (f, p) marks -> incl (mark p f) marks.
  (** occurs positively, negatively *)
  Definition occ_pos (f : form) : Prop := exists p, In (f, p) marks /\ p <> (-1)%Z.
  Definition occ_neg (f : form) : Prop := exists p, In (f, p) marks /\ p <> 1%Z.
  Lemma has_pos_iff f : has_pos marks f = true <-> occ_pos f.
  Proof.
    unfold has_pos, occ_pos. rewrite existsb_exists. split.
    - intros [[g p] [A B]]. cbn in B. apply andb_true_iff in B. destruct B as [B C]. destruct (form_eqb_spec f g); [subst|discriminate]. exists p. split; auto.
      intros ->. discriminate C.
    - intros [p [A B]]. exists (f, p). split; auto. cbn. rewrite form_eqb_refl. cbn. apply negb_true_iff, Z.eqb_neq; auto.
  Qed.
  Lemma has_neg_iff f : has_neg marks f = true <-> occ_neg f.
  Proof.
    unfold has_neg, occ_neg. rewrite existsb_exists. split.
    - intros [[g p] [A B]]. cbn in B. apply andb_true_iff in B. destruct B as [B C]. destruct (form_eqb_spec f g); [subst|discriminate]. exists p. split; auto.
      intros ->. discriminate C.
    - intros [p [A B]]. exists (f, p). split; auto. cbn. rewrite form_eqb_refl. cbn. apply negb_true_iff, Z.eqb_neq; auto.
  Qed.
  Lemma decode_pos f : occ_pos f -> decode marks f = 1%Z \/ decode marks f = 0%Z.
  Proof. intros H. apply has_pos_iff in H. unfold decode. rewrite H. destruct (has_neg marks f); auto. Qed.
  Lemma decode_neg f : occ_neg f -> decode marks f = (-1)%Z \/ decode marks f = 0%Z.
  Proof. intros H. apply has_neg_iff in H. unfold decode. rewrite H. destruct (has_pos marks f); auto. Qed.

  Definition lit_or (P : form -> Prop) (f : form) : Prop := (exists p l r, f = FLit p l r) \/ P f.
  Lemma sub_occ pol a f : In (f, pol) marks -> incl (mark pol a) marks -> (pol <> (-1)%Z -> lit_or occ_pos a) /\ (pol <> 1%Z -> lit_or occ_neg a).
  Proof. intros H I. destruct (mark_self pol a) as [L|L]; [split; intros _; left; auto|]. split; intros N; right; exists pol; split; auto. Qed.
  Lemma down pol f g (H : In (f, pol) marks) (q : polarity) : incl (mark q g) (mark pol f) -> (q <> (-1)%Z -> lit_or occ_pos g) /\ (q <> 1%Z -> lit_or occ_neg g).
  Proof.
    intros I. assert (J : incl (mark q g) marks) by (intros x Hx; apply (closed f pol H), I, Hx).
    destruct (mark_self q g) as [L|L]; [split; intros _; left; auto|]. split; intros N; right; exists q; split; auto.
  Qed.
  Lemma neg_m1 p : p <> (-1)%Z -> (- p)%Z <> 1%Z. Proof. lia. Qed.
  Lemma neg_1 p : p <> 1%Z -> (- p)%Z <> (-1)%Z. Proof. lia. Qed.

  Ltac here := intros ? ?; cbn [mark]; right; try apply in_or_app; auto.
  Lemma occ_not a : (occ_pos (FNot a) -> lit_or occ_neg a) /\ (occ_neg (FNot a) -> lit_or occ_pos a).
  Proof.
    split; intros [p [A B]].
    - refine (proj2 (down p _ a A (- p)%Z _) _); [here|lia].
    - refine (proj1 (down p _ a A (- p)%Z _) _); [here|lia].
  Qed.
  Lemma occ_and o a b : o = And \/ o = Or -> (occ_pos (FBin o a b) -> lit_or occ_pos a /\ lit_or occ_pos b) /\ (occ_neg (FBin o a b) -> lit_or occ_neg a /\ lit_or occ_neg b).
  Proof.
    intros O. split; intros [p [A B]]; destruct O as [-> | ->].
    1,2: split; [refine (proj1 (down p _ a A p _) _)|refine (proj1 (down p _ b A p _) _)]; [here|lia|here|lia].
    1,2: split; [refine (proj2 (down p _ a A p _) _)|refine (proj2 (down p _ b A p _) _)]; [here|lia|here|lia].
  Qed.
  Lemma occ_impl a b : (occ_pos (FBin Impl a b) -> lit_or occ_neg a /\ lit_or occ_pos b) /\ (occ_neg (FBin Impl a b) -> lit_or occ_pos a /\ lit_or occ_neg b).
  Proof.
    split; intros [p [A B]].
    - split; [refine (proj2 (down p _ a A (- p)%Z _) _)|refine (proj1 (down p _ b A p _) _)]; [here|lia|here|lia].
    - split; [refine (proj1 (down p _ a A (- p)%Z _) _)|refine (proj2 (down p _ b A p _) _)]; [here|lia|here|lia].
  Qed.
  Lemma occ_equiv a b p : In (FBin Equiv a b, p) marks -> lit_or occ_neg a /\ lit_or occ_pos a /\ lit_or occ_neg b /\ lit_or occ_pos b.
  Proof.
    intros A. split; [|split; [|split]].
    - refine (proj2 (down p _ a A 0%Z _) _); [here|lia].
    - refine (proj1 (down p _ a A 0%Z _) _); [here|lia].
    - refine (proj2 (down p _ b A 0%Z _) _); [here|lia].
    - refine (proj1 (down p _ b A 0%Z _) _); [here|lia].
  Qed.
  Lemma occ_quant q x a : (occ_pos (FQ q x a) -> lit_or occ_pos a) /\ (occ_neg (FQ q x a) -> lit_or occ_neg a).
  Proof.
    split; intros [p [A B]].
    - refine (proj1 (down p _ a A p _) _); [here|lia].
    - refine (proj2 (down p _ a A p _) _); [here|lia].
  Qed.

  (** In a model of the definitions, a copy implies a formula that occurs positively and is implied by one that occurs negatively. *)
  Variables (S : sorting) (M : structure) (defs : list (form * term)).
  Hypothesis def_pos : forall f a, In (f, a) defs -> decode marks f <> (-1)%Z -> forall v, respects S M v -> sem S M v (def_atom a) -> sem S M v (parts defs None f).
  Hypothesis def_neg : forall f a, In (f, a) defs -> decode marks f <> 1%Z -> forall v, respects S M v -> sem S M v (parts defs None f) -> sem S M v (def_atom a).
  Definition pos_ok f := forall v, respects S M v -> sem S M v (copy_def defs None f) -> sem S M v f.
  Definition neg_ok f := forall v, respects S M v -> sem S M v f -> sem S M v (copy_def defs None f).
  Lemma copy_polar : forall f, basic f -> (lit_or occ_pos f -> pos_ok f) /\ (lit_or occ_neg f -> neg_ok f).
  Proof.
    assert (LP : forall f, (forall p l r, f <> FLit p l r) -> lit_or occ_pos f -> occ_pos f) by (intros f N [[p [l [r ->]]]|]; auto; destruct (N p l r); auto).
    assert (LN : forall f, (forall p l r, f <> FLit p l r) -> lit_or occ_neg f -> occ_neg f) by (intros f N [[p [l [r ->]]]|]; auto; destruct (N p l r); auto).
    assert (STEP : forall f, (forall p l r, f <> FLit p l r) ->
      (occ_pos f -> forall v, respects S M v -> sem S M v (parts defs None f) -> sem S M v f) ->
      (occ_neg f -> forall v, respects S M v -> sem S M v f -> sem S M v (parts defs None f)) -> (lit_or occ_pos f -> pos_ok f) /\ (lit_or occ_neg f -> neg_ok f)).
    { intros f NL HP HN. split; intros L v Hv K.
      - apply LP in L; auto. apply HP; auto. destruct (copy_step defs None f) as [<-|[_ [a [A Q]]]]; auto. rewrite Q in K. apply (def_pos f a); auto.
        destruct (decode_pos f L) as [-> | ->]; lia.
      - apply LN in L; auto. specialize (HN L v Hv K). destruct (copy_step defs None f) as [->|[_ [a [A ->]]]]; auto. apply (def_neg f a); auto.
        destruct (decode_neg f L) as [-> | ->]; lia. }
    induction f as [p l r|t|a IH|o a IHa b IHb|q x a IH]; cbn [basic]; intros BS.
    - split; intros _ v Hv; auto.
    - split; intros _ v Hv; auto.
    - destruct (IH BS) as [P N]. apply STEP; [discriminate| |]; intros O v Hv; cbn [parts sem].
      + apply occ_not in O. intros K X. apply K. apply N; auto.
      + apply occ_not in O. intros K X. apply K. apply P; auto.
    - destruct BS as [PL [Ba Bb]]. destruct (IHa Ba) as [Pa Na]. destruct (IHb Bb) as [Pb Nb]. apply STEP; [discriminate| |]; intros O v Hv; cbn [parts sem]; destruct o; cbn in PL; try (exfalso; tauto); cbn [op_sem].
      1,2: apply occ_and in O; auto; destruct O as [O1 O2]; specialize (Pa O1 v Hv); specialize (Pb O2 v Hv); tauto.
      1: apply occ_impl in O; auto; destruct O as [O1 O2]; specialize (Na O1 v Hv); specialize (Pb O2 v Hv); tauto.
      1: destruct O as [p [A _]]; apply occ_equiv in A; destruct A as [O1 [O2 [O3 O4]]]; specialize (Na O1 v Hv); specialize (Pa O2 v Hv); specialize (Nb O3 v Hv); specialize (Pb O4 v Hv); tauto.
      1,2: apply occ_and in O; auto; destruct O as [O1 O2]; specialize (Na O1 v Hv); specialize (Nb O2 v Hv); tauto.
      1: apply occ_impl in O; auto; destruct O as [O1 O2]; specialize (Pa O1 v Hv); specialize (Nb O2 v Hv); tauto.
      1: destruct O as [p [A _]]; apply occ_equiv in A; destruct A as [O1 [O2 [O3 O4]]]; specialize (Na O1 v Hv); specialize (Pa O2 v Hv); specialize (Nb O3 v Hv); specialize (Pb O4 v Hv); tauto.
    - destruct (IH BS) as [P N]. apply STEP; [discriminate| |]; intros O v Hv; cbn [parts sem]; apply occ_quant in O; destruct q.
      + intros K d Hd. apply P; auto. apply respects_vset; auto.
      + intros [d [Hd K]]. exists d. split; auto. apply P; auto. apply respects_vset; auto.
      + intros K d Hd. apply N; auto. apply respects_vset; auto.
      + intros [d [Hd K]]. exists d. split; auto. apply N; auto. apply respects_vset; auto.
  Qed.
End Marks.

(** ** Finding definitions *)
Definition assign {D} (v : var -> D) (U : list var) (ds : list D) : var -> D := fold_right (fun ud w => vset w (fst ud) (snd ud)) v (combine U ds).
Lemma assign_map {D} (v w : var -> D) U x : In x U -> assign v U (map w U) x = w x.
Proof.
  unfold assign. induction U as [|u U IH]; intros H; [destruct H|]. cbn [map combine fold_right fst snd]. destruct (Nat.eq_dec u x) as [->|N]; [apply vset_same|].
  rewrite vset_other by auto. apply IH. destruct H; [contradiction|auto].
Qed.
Lemma assign_respects S M v U ds : respects S M v -> Forall2 (isort M) (map (vsort S) U) ds -> respects S M (assign v U ds).
Proof.
  intros Hv. unfold assign. revert ds. induction U as [|u U IH]; intros ds H; inversion H; subst; cbn [combine fold_right fst snd]; auto. apply respects_vset; auto.
Qed.

Section Inv.
  Variables (E0 : env) (n0 : sym) (c0 : counters) (arrange : list var -> list var).
  Hypothesis HE0 : env_ok E0.
  Hypothesis HN0 : next_ok E0 n0.
  Hypothesis HA : forall l x, In x (arrange l) <-> In x l.

  Definition good (f : form) : Prop := form_ok E0 f /\ form_known E0 n0 c0 f /\ basic f.
  Record dinv (st : dstate) : Prop := {
    di_grows : grows E0 n0 (d_env st) (d_next st);
    di_defs : forall f a, In (f, a) (d_defs st) -> good f /\ wf (srt (d_env st)) a /\ tsort (srt (d_env st)) a = fres (srt E0) true_code /\
      exists s U, a = Fun s (map Var U) /\ (forall x, In x U <-> In x (free_vars f)) /\ n0 <= s < d_next st;
    di_model : forall D so F, model_ok (srt E0) (dist E0) (mk D so F) -> exists F', agree D n0 F F' /\ model_ok (srt (d_env st)) (dist (d_env st)) (mk D so F') /\
      forall f a, In (f, a) (d_defs st) -> forall v : var -> D, respects (srt E0) (mk D so F') v -> (sem (srt E0) (mk D so F') v (def_atom a) <-> sem (srt E0) (mk D so F') v f) }.

  Lemma dinv_start : dinv (mkds E0 n0 []).
  Proof. constructor; cbn; [apply grows_refl|intros f a []|]. intros D so F HM. exists F. split; [intros s ds _; reflexivity|]. split; auto. intros f a []. Qed.

  Lemma primary_free f x : form_ok E0 f -> In x (free_vars f) -> is_fresh x = false.
  Proof.
    induction f as [p l r|t|a IH|o a IHa b IHb|q y a IH]; cbn [form_ok free_vars]; intros OK Hx.
    - destruct OK as [_ [_ [_ [A B]]]]. apply in_app_or in Hx. destruct Hx; [apply A|apply B]; auto.
    - destruct OK as [_ [_ A]]. apply A; auto.
    - auto.
    - destruct OK. apply in_app_or in Hx. destruct Hx; auto.
    - destruct OK. apply filter_In in Hx. destruct Hx. auto.
  Qed.

  Lemma tsyms_vars s U g : In g (tsyms (Fun s (map Var U))) -> g = s.
  Proof. intros [<-|Hg]; auto. exfalso. apply in_flat_map in Hg. destruct Hg as [w [Hw Hg]]. apply in_map_iff in Hw. destruct Hw as [u [<- _]]. destruct Hg. Qed.

  Lemma dinv_rename f st : good f -> dinv st -> dinv (def_rename arrange f st).
  Proof.
    intros GF I. unfold def_rename. destruct (find_def (d_defs st) f) as [a|] eqn:Q; auto. unfold new_skolem.
    set (U := arrange (nodup Nat.eq_dec (free_vars f))). assert (HU : forall x, In x U <-> In x (free_vars f)) by (intros x; unfold U; rewrite HA, nodup_In; tauto).
    destruct I as [G DF MD]. set (E := d_env st) in *. set (n := d_next st) in *. pose proof (gr_le _ _ _ _ G) as L. destruct HN0 as [N2 ND].
    set (bool := fres (srt E) true_code). set (E' := declare E n (map (vsort (srt E)) U) bool).
    assert (BL : bool = fres (srt E0) true_code) by (apply (gr_fres _ _ _ _ G); unfold true_code; lia).
    pose proof (grows_declare E n (map (vsort (srt E)) U) bool) as G1. fold E' in G1.
    assert (HE : env_ok E) by (apply (gr_ok _ _ _ _ G); auto).
    constructor; cbn [d_env d_next d_defs].
    - eapply grows_trans; eauto.
    - intros h b H. apply in_app_or in H. destruct H as [H|[H|[]]].
      + destruct (DF h b H) as [A [B [C [s [V [-> [X Y]]]]]]]. split; auto.
        destruct (grows_wf E n E' (S n) (Fun s (map Var V)) G1) as [W1 W2]; [intros g Hg; apply tsyms_vars in Hg; lia|]. rewrite W1, W2. split; auto. split; auto.
        exists s, V. split; auto. split; auto. lia.
      + injection H as <- <-. split; auto. split; [|split].
        * apply wf_fun. cbn [E' declare srt fargs]. rewrite Nat.eqb_refl. split.
          -- apply Forall_forall. intros u Hu. apply in_map_iff in Hu. destruct Hu as [x [<- _]]. reflexivity.
          -- rewrite map_map. reflexivity.
        * cbn [tsort E' declare srt fres]. rewrite Nat.eqb_refl. exact BL.
        * exists n, U. split; auto.
    - intros D so F HM. destruct (MD D so F HM) as [F1 [A1 [M1 D1]]].
      assert (EV : exists v0 : var -> D, respects (srt E) (mk D so F1) v0).
      { exists (fun x => epsilon (inhabits (F1 true_code [])) (so (vsort (srt E) x))). intros x. cbn [mk isort]. apply epsilon_spec. apply (mo_inh _ _ _ M1). }
      destruct EV as [v0 Hv0].
      set (F2 := fun g ds => if Nat.eqb g n then (if excluded_middle_informative (sem (srt E0) (mk D so F1) (assign v0 U ds) f) then F1 true_code [] else F1 false_code []) else F1 g ds).
      assert (A2 : agree D n F1 F2) by (intros g ds Hg; unfold F2; destruct (Nat.eqb_spec g n); [lia|reflexivity]).
      assert (A2' : agree D n0 F1 F2) by (intros g ds Hg; apply A2; lia).
      assert (T2 : F2 true_code [] = F1 true_code []) by (symmetry; apply A2; unfold true_code; lia).
      assert (T3 : F2 false_code [] = F1 false_code []) by (symmetry; apply A2; unfold false_code; lia).
      exists F2. split; [intros g ds Hg; rewrite (A1 g ds Hg); apply A2'; auto|]. split.
      + constructor; cbn [mk dom ifun isort E' declare srt fargs fres dist].
        * intros g ds Hds. unfold F2. destruct (Nat.eqb_spec g n) as [->|Ng]; [|apply (mo_fun _ _ _ M1); auto].
          assert (BT : forall k, k = true_code \/ k = false_code -> so bool (F1 k [])).
          { intros k Hk. assert (fargs (srt E) k = [] /\ fres (srt E) k = bool) as [X Y].
            { destruct HE as [e1 e2 e3 e4 e5 e6 e7]. unfold bool. destruct Hk as [-> | ->]; split; auto; try congruence. }
            rewrite <- Y. apply (mo_fun _ _ _ M1). rewrite X. constructor. }
          destruct (excluded_middle_informative _); apply BT; auto.
        * apply (mo_inh _ _ _ M1).
        * rewrite T2, T3. destruct (Nat.eqb_spec true_code n) as [X|_]; [unfold true_code in X; lia|]. apply (mo_bool _ _ _ M1).
        * rewrite T2, T3. apply (mo_tf _ _ _ M1).
        * apply (mo_dec _ _ _ M1).
        * intros g h Hg Hh N. assert (X : forall k, dist E k = true -> k < n0).
          { intros k Hk. destruct (Nat.lt_ge_cases k n0); auto. rewrite (gr_dist _ _ _ _ G), ND in Hk by auto. discriminate. }
          rewrite <- !A2' by auto. apply (mo_dist _ _ _ M1); auto.
      + intros h b H v Hv. destruct GF as [OKf [[OV SY] _]].
        assert (VS : forall x, vsort (srt E) x = vsort (srt E0) x) by apply (gr_vsort _ _ _ _ G).
        apply in_app_or in H. destruct H as [H|[H|[]]].
        * destruct (DF h b H) as [[OKh [[_ SYh] _]] [_ [_ [s [V [-> [X Y]]]]]]].
          assert (K : forall k, In k (form_syms (def_atom (Fun s (map Var V)))) -> k < n).
          { intros k Hk. cbn [def_atom form_syms] in Hk. apply in_app_or in Hk. destruct Hk as [Hk|Hk]; [apply tsyms_vars in Hk; lia|]. destruct Hk as [<-|[]]. unfold true_code; lia. }
          rewrite <- (agree_sem D so (srt E0) n F1 F2 _ A2 ltac:(lia) K v), <- (agree_sem D so (srt E0) n0 F1 F2 h A2' N2 SYh v). apply D1; auto.
        * injection H as <- <-. rewrite <- (agree_sem D so (srt E0) n0 F1 F2 f A2' N2 SY v). cbn [def_atom sem]. unfold lit_holds.
          change (eval (mk D so F2) v ttrue) with (F2 true_code []). change (eval (mk D so F2) v (Fun n (map Var U))) with (F2 n (map (eval (mk D so F2) v) (map Var U))). rewrite T2.
          assert (ME : map (eval (mk D so F2) v) (map Var U) = map v U) by (rewrite map_map; apply map_ext; reflexivity).
          change (dom (mk D so F2)) with D in *. rewrite ME. unfold F2. rewrite Nat.eqb_refl.
          assert (SE : sem (srt E0) (mk D so F1) (assign v0 U (map v U)) f <-> sem (srt E0) (mk D so F1) v f).
          { apply sem_ext. intros x Hx. apply assign_map. apply HU; auto. }
          pose proof (mo_tf _ _ _ M1) as TF. cbn [mk ifun] in TF. destruct (excluded_middle_informative _) as [Y|Y]; rewrite SE in Y; [tauto|].
          split; [intros Z; symmetry in Z; contradiction|tauto].
  Qed.
  Lemma dinv_rename_if b f st : good f -> dinv st -> dinv (rename_if arrange b f st).
  Proof. destruct b; auto. apply dinv_rename. Qed.

  Lemma good_not a : good (FNot a) -> good a.
  Proof. intros [A [[B C] D]]. split; auto. split; auto. split; auto. Qed.
  Lemma good_bin o a b : good (FBin o a b) -> good a /\ good b.
  Proof. intros [[A A'] [[B C] [D [D1 D2]]]]. cbn [all_vars form_syms] in *. split; (split; auto; split; auto; split; intros; [apply B|apply C]; apply in_or_app; auto). Qed.
  Lemma good_quant q x a : good (FQ q x a) -> good a.
  Proof. intros [[A A'] [[B C] D]]. split; auto. split; auto. split; auto. intros y Hy. apply B. right; auto. Qed.

  Variables (estimate : form -> bool -> Z) (limit : Z).
  Lemma dinv_find : forall f pol st, good f -> dinv st -> dinv (find_defs arrange estimate limit pol f st).
  Proof.
    induction f as [p l r|t|a IH|o a IHa b IHb|q x a IH]; intros pol st GF I; cbn [find_defs]; auto.
    - apply good_not in GF. apply dinv_rename_if; auto.
    - apply good_bin in GF. destruct GF as [Ga Gb].
      assert (J : forall p' t, dinv (rename_if arrange t a (find_defs arrange estimate limit p' a st))) by (intros; apply dinv_rename_if; auto).
      destruct o; auto; apply dinv_rename_if; auto.
    - apply good_quant in GF. apply dinv_rename_if; auto.
  Qed.
  Lemma dinv_set : forall fs st, Forall good (map snd fs) -> dinv st -> dinv (set_find_defs arrange estimate limit fs st).
  Proof.
    unfold set_find_defs. induction fs as [|cf fs IH]; intros st GF I; cbn [fold_left]; auto. cbn [map] in GF. inversion GF as [|x l A B]; subst. apply IH; auto.
    destruct (_ && _); auto. apply dinv_find; auto.
  Qed.
End Inv.

(** ** The new set of formulas *)
Definition def_core (a : term) (f : form) (pol : polarity) : form :=
  if (pol =? -1)%Z then FBin Impl f (def_atom a) else if (pol =? 1)%Z then FBin Impl (def_atom a) f else FBin Equiv (def_atom a) f.

Section Set_.
  Variables (st : cstate) (arrange : list var -> list var) (estimate : form -> bool -> Z) (limit : Z) (fs : list (bool * form)).
  Notation E0 := (c_env st).
  Notation n0 := (c_next st).
  Hypothesis HE0 : env_ok E0.
  Hypothesis HN0 : next_ok E0 n0.
  Hypothesis HA : forall l x, In x (arrange l) <-> In x l.
  Hypothesis GF : Forall (good E0 n0 (c_vars st)) (map snd fs).
  Let ds := set_find_defs arrange estimate limit fs (mkds E0 n0 []).
  Let defs := d_defs ds.
  Let marks := flat_map (fun cf => mark 1%Z (snd cf)) fs.
  Let st' := mkst (d_env ds) (d_next ds) (c_vars st).

  Lemma set_inv : dinv E0 n0 (c_vars st) ds.
  Proof. apply dinv_set; auto. apply dinv_start. Qed.
  Lemma defs_old d : In d defs -> forall s, In s (form_syms (fst d)) -> s < n0.
  Proof. intros H s Hs. destruct d as [f a]. destruct (di_defs _ _ _ _ set_inv f a H) as [[_ [[_ X] _]] _]. auto. Qed.
  Lemma def_form f a : In (f, a) defs -> forall pol, copy_def defs (Some f) (create_def arrange a f pol) = add_quantors (def_core a (parts defs None f) pol) (arrange (nodup Nat.eq_dec (vars a))).
  Proof.
    intros H pol. destruct (di_defs _ _ _ _ set_inv f a H) as [_ [_ [_ [s [U [-> [_ Hs]]]]]]]. unfold create_def. set (a := Fun s (map Var U)).
    assert (IA : In s (form_syms (def_atom a))) by (left; auto).
    assert (IC : In s (form_syms (def_core a f pol))) by (unfold def_core; destruct (pol =? -1)%Z; [apply in_or_app; auto|]; destruct (pol =? 1)%Z; apply in_or_app; auto).
    fold (def_core a f pol). rewrite (copy_quantors defs (Some f) n0 s _ defs_old) by (auto; lia). f_equal.
    rewrite (copy_fresh defs (Some f) _ n0 s defs_old) by (auto; lia). unfold def_core.
    destruct (pol =? -1)%Z; [|destruct (pol =? 1)%Z]; cbn [parts]; rewrite copy_blocked, parts_blocked; reflexivity.
  Qed.

  Lemma atom_input f a : In (f, a) defs -> input_ok st' (def_atom a) /\ forall x, In x (vars a) -> is_fresh x = false /\ old_var E0 (c_vars st) x.
  Proof.
    intros H. pose proof set_inv as I. destruct (di_defs _ _ _ _ I f a H) as [[OK [[OV SY] _]] [W [T [s [U [-> [HU Hs]]]]]]]. pose proof (di_grows _ _ _ _ I) as G.
    assert (VA : forall x, In x (vars (Fun s (map Var U))) -> is_fresh x = false /\ old_var E0 (c_vars st) x).
    { intros x Hx. cbn [vars] in Hx. apply (proj1 (vars_mapVar _ _)), HU in Hx. split; [apply (primary_free E0 f); auto|apply OV, free_all; auto]. }
    split; auto. destruct HN0 as [N2 _]. assert (HE : env_ok (d_env ds)) by (apply (gr_ok _ _ _ _ G); auto). assert (TA : fargs (srt (d_env ds)) true_code = []) by apply HE.
    split; [|split].
    - cbn [st' c_env def_atom form_ok]. split; auto. split; [apply wf_fun; rewrite TA; split; [constructor|reflexivity]|]. split.
      + cbn [ttrue tsort]. cbn [tsort] in T. rewrite T. symmetry. apply (gr_fres _ _ _ _ G). unfold true_code; lia.
      + split; intros x Hx; [apply VA; auto|destruct Hx].
    - intros x Hx. cbn [def_atom all_vars st' c_env c_vars] in *. apply in_app_or in Hx. destruct Hx as [Hx|[]]. destruct (VA x Hx) as [_ O]. intros k. rewrite (gr_vsort _ _ _ _ G), (gr_fresh _ _ _ _ G). apply O.
    - intros g Hg. cbn [def_atom form_syms st' c_next] in *. apply in_app_or in Hg. destruct Hg as [Hg|Hg]; [apply tsyms_vars in Hg; lia|]. destruct Hg as [<-|[]]. pose proof (gr_le _ _ _ _ G). unfold true_code; lia.
  Qed.
  Lemma good_input f : good E0 n0 (c_vars st) f -> input_ok st' f.
  Proof.
    intros [OK [[OV SY] _]]. pose proof (di_grows _ _ _ _ set_inv) as G. apply (input_mono st st'); [exact G|intros; apply le_n|exact HE0|exact HN0|]. split; [exact OK|]. split; [exact OV|exact SY].
  Qed.
  Lemma parts_input bl f : good E0 n0 (c_vars st) f -> input_ok st' (copy_def defs bl f) /\ input_ok st' (parts defs bl f).
  Proof.
    revert bl. induction f as [p l r|t|a IH|o a IHa b IHb|q x a IH]; intros bl GG; try (cbn [copy_def parts]; pose proof (good_input _ GG); tauto).
    - assert (P : input_ok st' (parts defs bl (FNot a))) by (destruct (IH bl (good_not _ _ _ _ GG)) as [[A B] _]; split; auto).
      split; auto. destruct (copy_step defs bl (FNot a)) as [->|[_ [b [Hb ->]]]]; auto. apply (atom_input _ b Hb).
    - assert (P : input_ok st' (parts defs bl (FBin o a b))).
      { destruct (good_bin _ _ _ _ _ _ GG) as [Ga Gb]. destruct (IHa bl Ga) as [[A [A1 A2]] _]. destruct (IHb bl Gb) as [[B [B1 B2]] _].
        split; [split; auto|]. split; cbn [parts all_vars form_syms]; intros x Hx; apply in_app_or in Hx; destruct Hx; auto. }
      split; auto. destruct (copy_step defs bl (FBin o a b)) as [->|[_ [c [Hc ->]]]]; auto. apply (atom_input _ c Hc).
    - assert (P : input_ok st' (parts defs bl (FQ q x a))).
      { destruct (IH bl (good_quant _ _ _ _ _ _ GG)) as [[A [A1 A2]] _]. destruct (good_input _ GG) as [[X _] [Y _]]. split; [split; auto|]. split; auto. cbn [parts all_vars].
        intros y [<-|Hy]; auto. apply Y. left; auto. }
      split; auto. destruct (copy_step defs bl (FQ q x a)) as [->|[_ [c [Hc ->]]]]; auto. apply (atom_input _ c Hc).
  Qed.
  Lemma core_input f a pol : In (f, a) defs -> input_ok st' (add_quantors (def_core a (parts defs None f) pol) (arrange (nodup Nat.eq_dec (vars a)))).
  Proof.
    intros H. destruct (atom_input f a H) as [[A [A1 A2]] VA]. destruct (di_defs _ _ _ _ set_inv f a H) as [GG _]. destruct (parts_input None f GG) as [_ [B [B1 B2]]].
    assert (X : input_ok st' (def_core a (parts defs None f) pol)).
    { unfold def_core. destruct (pol =? -1)%Z; [|destruct (pol =? 1)%Z]; (split; [split; auto|]; split; cbn [all_vars form_syms]; intros x Hx; apply in_app_or in Hx; destruct Hx; auto). }
    assert (VX : forall x, In x (arrange (nodup Nat.eq_dec (vars a))) -> In x (vars a)) by (intros x; rewrite HA, nodup_In; auto).
    destruct X as [X [X1 X2]]. split; [apply add_quantors_ok; auto; intros x Hx; apply VA, VX, Hx|]. split.
    - intros x Hx. apply add_quantors_vars in Hx. destruct Hx as [Hx|Hx]; auto. apply A1. cbn [def_atom all_vars]. apply in_or_app. left. apply VX; auto.
    - rewrite add_quantors_syms. auto.
  Qed.

  Lemma introduce_spec hs st1 : introduce_defs arrange estimate limit st fs = (hs, st1) ->
    grows E0 n0 (c_env st1) (c_next st1) /\ c_vars st1 = c_vars st /\ Forall (input_ok st1) hs /\
    (forall M, (forall h, In h hs -> form_true (srt (c_env st1)) M h) -> forall cf, In cf fs -> form_true (srt E0) M (snd cf)) /\
    (forall D so F, model_ok (srt E0) (dist E0) (mk D so F) -> (forall cf, In cf fs -> form_true (srt E0) (mk D so F) (snd cf)) ->
      exists F', agree D n0 F F' /\ model_ok (srt (c_env st1)) (dist (c_env st1)) (mk D so F') /\ forall h, In h hs -> form_true (srt (c_env st1)) (mk D so F') h).
  Proof.
    unfold introduce_defs. fold ds. fold defs. fold marks. fold st'. intros H. injection H as <- <-. pose proof set_inv as I. pose proof (di_grows _ _ _ _ I) as G. pose proof (proj1 (Forall_forall _ _) GF) as GG.
    assert (VS : forall x, vsort (srt (c_env st')) x = vsort (srt E0) x) by apply (gr_vsort _ _ _ _ G).
    assert (RS : forall M v, respects (srt (c_env st')) M v <-> respects (srt E0) M v) by (intros M v; split; intros R x; [rewrite <- VS|rewrite VS]; apply R).
    assert (TS : forall M g, form_true (srt (c_env st')) M g <-> form_true (srt E0) M g).
    { intros M g. split; intros T v Hv; [apply (sem_sorts _ _ M g VS)|apply (sem_sorts _ _ M g VS)]; apply T, RS; auto. }
    assert (MC : forall f p, In (f, p) marks -> incl (mark p f) marks).
    { intros f p X. unfold marks in *. apply in_flat_map in X. destruct X as [cf [X Y]]. intros z Hz. apply in_flat_map. exists cf. split; auto. apply (mark_closed (snd cf) 1%Z f p Y z Hz). }
    split; [exact G|]. split; [reflexivity|]. split; [|split].
    - apply Forall_forall. intros h Hh. apply in_app_or in Hh. destruct Hh as [Hh|Hh]; apply in_map_iff in Hh.
      + destruct Hh as [cf [<- Hc]]. apply parts_input. apply GG, in_map, Hc.
      + destruct Hh as [[f a] [<- Hd]]. cbn [fst snd]. rewrite (def_form f a Hd). apply core_input; auto.
    - intros M HM cf Hc.
      assert (DT : forall f a, In (f, a) defs -> form_true (srt E0) M (def_core a (parts defs None f) (decode marks f))).
      { intros f a Hd. rewrite <- (add_quantors_true _ _ (arrange (nodup Nat.eq_dec (vars a)))), <- (def_form f a Hd). apply TS, HM, in_or_app. right. apply in_map_iff. exists (f, a). auto. }
      assert (HC : form_true (srt E0) M (copy_def defs None (snd cf))) by (apply TS, HM, in_or_app; left; apply in_map_iff; exists cf; auto).
      destruct (copy_polar marks MC (srt E0) M defs) with (f := snd cf) as [P _].
      + intros f a Hd N v Hv. specialize (DT f a Hd v Hv). unfold def_core in DT. destruct (Z.eqb_spec (decode marks f) (-1)); [contradiction|]. destruct (decode marks f =? 1)%Z; cbn [sem op_sem] in DT; tauto.
      + intros f a Hd N v Hv. specialize (DT f a Hd v Hv). unfold def_core in DT. destruct (decode marks f =? -1)%Z; [exact DT|]. destruct (Z.eqb_spec (decode marks f) 1); [contradiction|]. cbn [sem op_sem] in DT. tauto.
      + apply GG, in_map, Hc.
      + intros v Hv. apply P; auto. destruct (mark_self 1%Z (snd cf)) as [L|L]; [left; auto|]. right. exists 1%Z. split; [|lia]. unfold marks. apply in_flat_map. exists cf. auto.
    - intros D so F HM HT. destruct (di_model _ _ _ _ I D so F HM) as [F' [A [M' DT]]]. exists F'. split; auto. split; auto.
      pose proof (copy_equiv defs (srt E0) (mk D so F') DT) as CE. destruct HN0 as [N2 _].
      intros h Hh. apply TS. apply in_app_or in Hh. destruct Hh as [Hh|Hh]; apply in_map_iff in Hh.
      + destruct Hh as [cf [<- Hc]]. intros v Hv. apply CE; auto. destruct (GG _ (in_map snd _ _ Hc)) as [_ [[_ SY] _]]. apply (agree_sem D so (srt E0) n0 F F' _ A N2 SY). apply HT; auto.
      + destruct Hh as [[f a] [<- Hd]]. cbn [fst snd]. set (pol := decode marks f). assert (X : form_true (srt E0) (mk D so F') (create_def arrange a f pol)).
        { unfold create_def. apply add_quantors_true. intros v Hv. specialize (DT f a Hd v Hv). destruct (pol =? -1)%Z; [|destruct (pol =? 1)%Z]; cbn [sem op_sem] in *; tauto. }
        intros v Hv. apply CE; auto.
  Qed.
End Set_.
