(** * Recognising the axioms, and what may be done with them. *)
From Verif Require Import Terms Semantics Clauses ClausesProofs AC ACProofs ACModel.
Local Open Scope nat_scope.

Lemma detect_comm_iff c f : detect_comm c = Some f <-> exists e x y, c = [e] /\ pos e = true /\ x <> y /\ lt e = Fun f [Var x; Var y] /\ rt e = Fun f [Var y; Var x].
Proof.
  split.
  - intros H. destruct c as [|e [|? ?]]; try discriminate. cbn [detect_comm] in H. destruct (pos e) eqn:P; [|discriminate].
    destruct (lt e) as [?|g [|[x|] [|[y|] [|? ?]]]] eqn:L; try discriminate. destruct (rt e) as [?|h [|[x'|] [|[y'|] [|? ?]]]] eqn:R; try discriminate.
    destruct (Nat.eqb g h) eqn:Q1; [|discriminate]. destruct (Nat.eqb x y) eqn:Q2; [discriminate|]. destruct (Nat.eqb x y') eqn:Q3; [|discriminate]. destruct (Nat.eqb y x') eqn:Q4; [|discriminate].
    cbn in H. injection H as <-. apply Nat.eqb_eq in Q1, Q3, Q4. apply Nat.eqb_neq in Q2. subst. exists e, y', x'. auto.
  - intros [e [x [y [-> [P [NE [L R]]]]]]]. cbn [detect_comm]. rewrite P, L, R, !Nat.eqb_refl. apply Nat.eqb_neq in NE. rewrite NE. reflexivity.
Qed.
Lemma detect_assoc_iff c f : detect_assoc c = Some f <-> exists e x y z, c = [e] /\ pos e = true /\ x <> y /\ x <> z /\ y <> z /\
  let l := Fun f [Fun f [Var x; Var y]; Var z] in let r := Fun f [Var x; Fun f [Var y; Var z]] in (lt e = l /\ rt e = r) \/ (lt e = r /\ rt e = l).
Proof.
  split.
  - intros H. destruct c as [|e [|? ?]]; try discriminate. cbn [detect_assoc] in H. destruct (pos e) eqn:P; [|discriminate]. cbn [andb] in H. destruct (Z.eqb _ _); [|discriminate].
    assert (X : exists l r, ((lt e = l /\ rt e = r) \/ (lt e = r /\ rt e = l)) /\ match l, r with
        | Fun f [Fun g [Var v1; Var v2]; Var v3], Fun f' [Var w1; Fun g' [Var w2; Var w3]] =>
            if Nat.eqb f f' && Nat.eqb f g && negb (Nat.eqb v1 v2) && negb (Nat.eqb v1 v3) && negb (Nat.eqb v2 v3)
               && Nat.eqb f g' && Nat.eqb v1 w1 && Nat.eqb v2 w2 && Nat.eqb v3 w3
            then Some f else None
        | _, _ => None
        end = Some f).
    { destruct (lt e) as [?|g [|[?|? ?] ?]] eqn:L; try (exists (lt e), (rt e); rewrite L; split; [auto|exact H]). exists (rt e), (lt e). rewrite L. split; [auto|exact H]. }
    clear H. destruct X as [l [r [X H]]].
    destruct l as [?|g [|[?|g1 [|[v1|] [|[v2|] [|? ?]]]] [|[v3|] [|? ?]]]]; try discriminate.
    destruct r as [?|h [|[w1|] [|[?|h1 [|[w2|] [|[w3|] [|? ?]]]] [|? ?]]]]; try discriminate.
    match type of H with (if ?b then _ else _) = _ => destruct b eqn:B; [|discriminate] end. injection H as <-.
    repeat rewrite andb_true_iff in B. destruct B as [[[[[[[[B1 B2] B3] B4] B5] B6] B7] B8] B9]. rewrite negb_true_iff in B3, B4, B5. apply Nat.eqb_eq in B1, B2, B6, B7, B8, B9. apply Nat.eqb_neq in B3, B4, B5. subst.
    exists e, w1, w2, w3. cbv zeta. repeat (split; auto).
  - intros [e [x [y [z [-> [P [N1 [N2 [N3 Q]]]]]]]]]. cbv zeta in Q. apply Nat.eqb_neq in N1, N2, N3. cbn [detect_assoc]. rewrite P.
    destruct Q as [[L R]|[L R]]; rewrite L, R; cbn [stdweight fold_right]; cbv [Z.eqb Z.add Z.mul Pos.eqb Pos.add Pos.mul Pos.succ andb]; cbv beta iota; rewrite !Nat.eqb_refl, N1, N2, N3; reflexivity.
Qed.

(** ** What the axioms say *)
Section Sem.
Variables (E : env).
Notation S := (srt E).
Lemma comm_sorts c f : detect_comm c = Some f -> clause_ok E c -> binary S f.
Proof.
  intros H OK. apply detect_comm_iff in H. destruct H as [e [x [y [-> [P [NE [L R]]]]]]]. inversion OK as [|? ? O _]; subst.
  destruct O as [W1 [W2 _]]. rewrite L in W1. rewrite R in W2. apply wf_fun in W1. apply wf_fun in W2. destruct W1 as [_ W1]. destruct W2 as [_ W2]. cbn in *.
  exists (vsort S x). rewrite <- W1. rewrite <- W1 in W2. injection W2 as W2 _. congruence.
Qed.
Lemma assoc_sorts c f : detect_assoc c = Some f -> clause_ok E c -> operation S f.
Proof.
  intros H OK. apply detect_assoc_iff in H. destruct H as [e [x [y [z [-> [P [N1 [N2 [N3 Q]]]]]]]]]. inversion OK as [|? ? O _]; subst. cbv zeta in Q.
  destruct O as [W1 [W2 _]]. assert (W : wf S (Fun f [Fun f [Var x; Var y]; Var z]) /\ wf S (Fun f [Var x; Fun f [Var y; Var z]])) by (destruct Q as [[L R]|[L R]]; rewrite L in W1; rewrite R in W2; auto).
  destruct W as [A B]. apply wf_fun in A. apply wf_fun in B. destruct A as [_ A]. destruct B as [_ B]. cbn in *. unfold operation. rewrite <- A in B |- *. injection B as B1 B2. congruence.
Qed.

Definition put {D} (v : var -> D) (x : var) (d : D) : var -> D := fun y => if Nat.eqb y x then d else v y.
Lemma put_same {D} (v : var -> D) x d : put v x d x = d. Proof. unfold put. rewrite Nat.eqb_refl. auto. Qed.
Lemma put_other {D} (v : var -> D) x y d : x <> y -> put v x d y = v y.
Proof. intros H. unfold put. destruct (Nat.eqb y x) eqn:Q; auto. apply Nat.eqb_eq in Q. congruence. Qed.
Lemma put_ok M v x d : respects S M v -> isort M (vsort S x) d -> respects S M (put v x d).
Proof. intros H1 H2 y. unfold put. destruct (Nat.eqb y x) eqn:Q; auto. apply Nat.eqb_eq in Q. subst. auto. Qed.

Lemma comm_true c f M v : detect_comm c = Some f -> clause_ok E c -> respects S M v -> (clause_true S M c <-> commutes M (arg_sort S f) f).
Proof.
  intros H OK Hv. pose proof (comm_sorts c f H OK) as [s Q]. apply detect_comm_iff in H. destruct H as [e [x [y [-> [P [NE [L R]]]]]]]. inversion OK as [|? ? O _]; subst.
  assert (SX : vsort S x = s /\ vsort S y = s). { destruct O as [W1 _]. rewrite L in W1. apply wf_fun in W1. destruct W1 as [_ W1]. cbn in W1. rewrite Q in W1. injection W1. auto. }
  destruct SX as [SX SY]. unfold arg_sort. rewrite Q. cbn [hd]. split.
  - intros T a b Ha Hb. assert (Rv : respects S M (put (put v x a) y b)) by (apply put_ok; [apply put_ok; auto; congruence|congruence]).
    specialize (T _ Rv). inversion T as [? ? X|? ? X]; subst; [|inversion X]. unfold holds, lit_holds in X. rewrite P, L, R in X. cbn [eval map] in X.
    rewrite put_same, (put_other _ y x), put_same in X by auto. exact X.
  - intros C w Hw. constructor. unfold holds, lit_holds. rewrite P, L, R. cbn [eval map]. apply C; [rewrite <- SX|rewrite <- SY]; apply Hw.
Qed.
Lemma assoc_true c f M v : detect_assoc c = Some f -> clause_ok E c -> respects S M v -> (clause_true S M c <-> associates M (arg_sort S f) f).
Proof.
  intros H OK Hv. pose proof (assoc_sorts c f H OK) as Q. unfold operation in Q. apply detect_assoc_iff in H. destruct H as [e [x [y [z [-> [P [N1 [N2 [N3 H]]]]]]]]]. cbv zeta in H. inversion OK as [|? ? O _]; subst.
  assert (SX : vsort S x = fres S f /\ vsort S y = fres S f /\ vsort S z = fres S f).
  { destruct O as [W1 [W2 _]]. assert (W : wf S (Fun f [Fun f [Var x; Var y]; Var z])) by (destruct H as [[L R]|[L R]]; rewrite L in W1; rewrite R in W2; auto).
    apply wf_fun in W. destruct W as [W W']. inversion W as [|? ? X _]; subst. apply wf_fun in X. destruct X as [_ X]. cbn in W', X. rewrite Q in *. injection W'. injection X. auto. }
  destruct SX as [SX [SY SZ]]. unfold arg_sort. rewrite Q. cbn [hd].
  assert (IFF : forall w, holds M w e <-> ifun M f [ifun M f [w x; w y]; w z] = ifun M f [w x; ifun M f [w y; w z]]).
  { intros w. unfold holds, lit_holds. rewrite P. destruct H as [[L R]|[L R]]; rewrite L, R; cbn [eval map]; split; auto. }
  split.
  - intros T a b c Ha Hb Hc. assert (Rv : respects S M (put (put (put v x a) y b) z c)) by (repeat apply put_ok; auto; congruence).
    specialize (T _ Rv). inversion T as [? ? X|? ? X]; subst; [|inversion X]. apply IFF in X.
    rewrite put_same, (put_other _ z x), (put_other _ z y), (put_other _ y x), !put_same in X by auto. exact X.
  - intros C w Hw. constructor. apply IFF. apply C; [rewrite <- SX|rewrite <- SY|rewrite <- SZ]; apply Hw.
Qed.
End Sem.

(** ** The signature: every property has been read off a recorded clause *)
Definition justified (A : acsig) : Prop :=
  (forall f, In f (comm A) -> exists c, In c (ac_axioms A) /\ detect_comm c = Some f) /\
  (forall f, In f (assoc A) -> exists c, In c (ac_axioms A) /\ detect_assoc c = Some f).
Lemma justified_none : justified no_ac.
Proof. split; intros f []. Qed.
Lemma justified_active A b : justified A -> justified (set_active A b).
Proof. auto. Qed.
Lemma scan_justified A c A' b : justified A -> scan_clause A c = (A', b) -> justified A' /\ (forall d, In d (ac_axioms A') -> In d (ac_axioms A) \/ d = c).
Proof.
  intros [J1 J2] H. unfold scan_clause in H. destruct (detect_comm c) as [f|] eqn:DC.
  - destruct (memb f (comm A)); injection H as <- <-; [split; [split; auto|auto]|]. split; [split|]; cbn [comm assoc ac_axioms].
    + intros g [<-|Hg]; [exists c; cbn; auto|]. destruct (J1 g Hg) as [d [I D]]. exists d. cbn. auto.
    + intros g Hg. destruct (J2 g Hg) as [d [I D]]. exists d. cbn. auto.
    + intros d [<-|I]; auto.
  - destruct (detect_assoc c) as [f|] eqn:DA; [|injection H as <- <-; split; [split; auto|auto]].
    destruct (memb f (assoc A)); injection H as <- <-; [split; [split; auto|auto]|]. split; [split|]; cbn [comm assoc ac_axioms].
    + intros g Hg. destruct (J1 g Hg) as [d [I D]]. exists d. cbn. auto.
    + intros g [<-|Hg]; [exists c; cbn; auto|]. destruct (J2 g Hg) as [d [I D]]. exists d. cbn. auto.
    + intros d [<-|I]; auto.
Qed.
Lemma scan_set_justified cs : forall A, justified A -> justified (fst (scan_set A cs)) /\ (forall d, In d (ac_axioms (fst (scan_set A cs))) -> In d (ac_axioms A) \/ In d cs).
Proof.
  unfold scan_set. generalize false. induction cs as [|c cs IH]; intros b A J; cbn [fold_left]; [cbn; auto|].
  destruct (scan_clause A c) as [A1 r] eqn:Q. destruct (scan_justified _ _ _ _ J Q) as [J1 I1]. destruct (IH (b || r) A1 J1) as [J2 I2]. split; auto.
  intros d Hd. destruct (I2 d Hd) as [X|X]; [destruct (I1 d X); [auto|subst; cbn; auto]|cbn; auto].
Qed.
Lemma init_justified m cs : justified (ac_init m cs) /\ forall d, In d (ac_axioms (ac_init m cs)) -> In d cs.
Proof.
  unfold ac_init. assert (X : justified no_ac /\ forall d, In d (ac_axioms no_ac) -> In d cs) by (split; [apply justified_none|intros d []]).
  destruct m; auto; destruct (scan_set no_ac cs) as [A b] eqn:Q; pose proof (scan_set_justified cs no_ac justified_none) as [J I]; rewrite Q in *; cbn [fst] in *;
    (split; [apply justified_active; auto|intros d Hd; destruct (I d Hd) as [[]|]; auto]).
Qed.
Lemma check_justified m A c : justified A -> justified (ac_check m A c) /\ forall d, In d (ac_axioms (ac_check m A c)) -> In d (ac_axioms A) \/ d = c.
Proof.
  intros J. unfold ac_check. assert (X : forall A' b, scan_clause A c = (A', b) -> let A2 := if b && negb (ac_active A') then set_active A' true else A' in justified A2 /\ forall d, In d (ac_axioms A2) -> In d (ac_axioms A) \/ d = c).
  { intros A' b Q. destruct (scan_justified _ _ _ _ J Q) as [J1 I1]. cbv zeta. destruct (b && _); auto. }
  destruct m; [split; auto| | |]; destruct (scan_clause A c) as [A' b]; apply (X A' b eq_refl).
Qed.
Section Use.
Variables (E : env) (A : acsig).
Notation S := (srt E).
Hypothesis HJ : justified A.
Hypothesis HO : Forall (clause_ok E) (ac_axioms A).
Lemma justified_ok : acsig_ok S A.
Proof.
  rewrite Forall_forall in HO. split; intros f Hf.
  - destruct (proj1 HJ f Hf) as [c [I D]]. eapply comm_sorts; eauto.
  - destruct (proj2 HJ f Hf) as [c [I D]]. eapply assoc_sorts; eauto.
Qed.
Lemma justified_respects M v : respects S M v -> (forall c, In c (ac_axioms A) -> clause_true S M c) -> respects_ac S A M.
Proof.
  intros Hv HT. rewrite Forall_forall in HO. split; intros f Hf.
  - destruct (proj1 HJ f Hf) as [c [I D]]. apply (comm_true E c f M v); auto.
  - destruct (proj2 HJ f Hf) as [c [I D]]. apply (assoc_true E c f M v); auto.
Qed.
End Use.

(** ** Clauses *)
Section Cls.
Variables (E : env) (A : acsig) (M : structure) (v : var -> dom M).
Notation S := (srt E).
Hypothesis HA : acsig_ok S A.
Hypothesis HM : model_ok S (dist E) M.
Hypothesis HR : respects_ac S A M.
Hypothesis Hv : respects S M v.
Lemma trivial_eval e : eqn_ok E e -> ac_trivial A e = true -> eval M v (lt e) = eval M v (rt e).
Proof. intros [W1 [W2 _]] H. apply (norm_sound A S (dist E) M HM HA HR v Hv); auto. apply ac_equal_norm. exact H. Qed.
Lemma resolved_iff c : clause_ok E c -> (Exists (holds M v) (remove_ac_resolved A c) <-> Exists (holds M v) c).
Proof.
  intros OK. unfold remove_ac_resolved. rewrite !Exists_exists. split; intros [e [I H]].
  - apply filter_In in I. exists e. tauto.
  - exists e. split; auto. apply filter_In. split; auto. apply negb_true_iff. destruct (pos e) eqn:P; auto. cbn. destruct (ac_trivial A e) eqn:T; auto.
    unfold clause_ok in OK. rewrite Forall_forall in OK. exfalso. unfold holds, lit_holds in H. rewrite P in H. apply H. apply trivial_eval; auto.
Qed.
Lemma trivial_true c : clause_ok E c -> some_ac_trivial A c = true -> Exists (holds M v) c.
Proof.
  intros OK H. unfold some_ac_trivial in H. apply existsb_exists in H. destruct H as [e [I H]]. apply andb_true_iff in H. destruct H as [P T].
  unfold clause_ok in OK. rewrite Forall_forall in OK. apply Exists_exists. exists e. split; auto. unfold holds, lit_holds. rewrite P. apply trivial_eval; auto.
Qed.
Lemma redundant_true c : clause_ok E c -> ac_redundant A c = true -> Exists (holds M v) c.
Proof.
  intros OK H. apply trivial_true; auto. unfold ac_redundant in H. destruct c as [|e [|? ?]]; auto. destruct (_ && _); [discriminate|auto].
Qed.
End Cls.
