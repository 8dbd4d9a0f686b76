(** C36: setting, clearing, flipping and querying a property does not touch the others. *)
From Verif Require Import Flags.

Definition single (p : Z) : Prop := exists n, 0 <= n /\ p = 2 ^ n.
Lemma query_single w n : 0 <= n -> query_prop w (2 ^ n) = Z.testbit w n.
Proof.
  intros Hn. unfold query_prop. destruct (Z.testbit w n) eqn:E.
  - apply Z.eqb_eq. apply Z.bits_inj'. intros i Hi. rewrite Z.land_spec, Z.pow2_bits_eqb by auto. destruct (Z.eqb_spec n i); [subst; rewrite E; auto|]. apply andb_false_r.
  - apply Z.eqb_neq. intros H. assert (X : Z.testbit (Z.land w (2 ^ n)) n = Z.testbit (2 ^ n) n) by (rewrite H; auto).
    rewrite Z.land_spec, E, Z.pow2_bits_true in X by auto. discriminate.
Qed.
Lemma pow2_eqb n m : 0 <= n -> 0 <= m -> Z.eqb (2 ^ n) (2 ^ m) = Z.eqb n m.
Proof.
  intros Hn Hm. destruct (Z.eqb_spec n m) as [->|N]; [apply Z.eqb_refl|]. apply Z.eqb_neq. intros E. apply N. apply (Z.pow_inj_r 2); lia.
Qed.
Lemma step_single o w f : (forall q, single q -> query_prop w q = f q) -> single (fop_prop o) -> forall q, single q -> query_prop (fop_word w o) q = fop_bools f o q.
Proof.
  intros H [n [Hn Ep]] q Sq. pose proof (H q Sq) as Hq. destruct Sq as [m [Hm ->]]. rewrite query_single in * by auto.
  destruct o as [p|p|p]; cbn [fop_prop fop_word fop_bools] in *; subst p; rewrite pow2_eqb by auto; unfold set_prop, del_prop, flip_prop.
  - rewrite Z.lor_spec, Z.pow2_bits_eqb, Hq by auto. rewrite (Z.eqb_sym m n). destruct (n =? m); [apply orb_true_r|apply orb_false_r].
  - rewrite Z.land_spec, Z.lnot_spec, Z.pow2_bits_eqb, Hq by auto. rewrite (Z.eqb_sym m n). destruct (n =? m); [apply andb_false_r|apply andb_true_r].
  - rewrite Z.lxor_spec, Z.pow2_bits_eqb, Hq by auto. rewrite (Z.eqb_sym m n). destruct (n =? m); [apply xorb_true_r|apply xorb_false_r].
Qed.
Lemma independent_single ps : (forall p, In p ps -> single p) -> independent ps.
Proof.
  intros S w ops. assert (X : forall w f, (forall q, single q -> query_prop w q = f q) -> (forall o, In o ops -> In (fop_prop o) ps) ->
    forall q, single q -> query_prop (fold_left fop_word ops w) q = fold_left fop_bools ops f q).
  { clear w. induction ops as [|o ops IH]; intros w f H Ho q Sq; simpl; auto. apply IH; auto; [|intros x Hx; apply Ho; simpl; auto]. apply step_single; auto. apply S, Ho. simpl. auto. }
  intros Ho q Hq. apply X; auto.
Qed.
Definition is_single (p : Z) : bool := Z.eqb p (2 ^ Z.log2 p) && (0 <? p).
Lemma is_single_ok p : is_single p = true -> single p.
Proof. intros H. apply andb_prop in H. destruct H as [H _]. apply Z.eqb_eq in H. exists (Z.log2 p). split; auto. apply Z.log2_nonneg. Qed.
Lemma independent_check ps : forallb is_single ps = true -> independent ps.
Proof. intros H. apply independent_single. intros p Hp. apply is_single_ok. rewrite forallb_forall in H. auto. Qed.

(** Any history of changes to the properties of a literal (other than the split mark), of a clause or formula, of a term or of a symbol:
    afterwards each property has the value that it would have if every property were stored on its own. *)
Theorem C36_literal_props_independent_partial : independent eqn_props.
Proof. apply independent_check. vm_compute. reflexivity. Qed.
Theorem C36_clause_props_independent : independent clause_props.
Proof. apply independent_check. vm_compute. reflexivity. Qed.
Theorem C36_term_props_independent : independent term_props.
Proof. apply independent_check. vm_compute. reflexivity. Qed.
Theorem C36_symbol_props_independent : independent func_props.
Proof. apply independent_check. vm_compute. reflexivity. Qed.
(** so no two names of an enumeration stand for the same bit *)
Example props_distinct : NoDup eqn_props /\ NoDup clause_props /\ NoDup term_props /\ NoDup func_props /\
  length eqn_props = 16%nat /\ length clause_props = 31%nat /\ length term_props = 31%nat /\ length func_props = 19%nat.
Proof.
  assert (X : forall l, nodup Z.eq_dec l = l -> NoDup l) by (intros l <-; apply NoDup_nodup).
  repeat split; try (apply X; vm_compute; reflexivity).
Qed.

(** The type of a clause takes three bits: it is what was set last, and no property is disturbed. *)
Theorem C36_clause_type : forall w t, (forall n, Z.testbit t n = true -> 10 <= n <= 12) ->
  query_type (set_type w t) = t /\ forall p, In p clause_props -> Z.land p CPTypeMask = 0 -> query_prop (set_type w t) p = query_prop w p.
Proof.
  intros w t Ht. assert (M : forall n, 0 <= n -> Z.testbit CPTypeMask n = ((10 <=? n) && (n <=? 12))%bool).
  { intros n Hn. unfold CPTypeMask. rewrite !Z.lor_spec, !Z.pow2_bits_eqb by lia. destruct (Z.eqb_spec 10 n), (Z.eqb_spec 11 n), (Z.eqb_spec 12 n), (Z.leb_spec 10 n), (Z.leb_spec n 12); simpl; auto; lia. }
  split.
  - apply Z.bits_inj'. intros n Hn. unfold query_type, give_props, set_type, set_prop, del_prop. rewrite Z.land_spec, Z.lor_spec, Z.land_spec, Z.lnot_spec by auto. rewrite M by auto.
    destruct (Z.testbit t n) eqn:E.
    + apply Ht in E. destruct (Z.leb_spec 10 n), (Z.leb_spec n 12); try lia.
    + rewrite orb_false_r. destruct ((10 <=? n) && (n <=? 12))%bool; simpl; rewrite ?andb_false_r; auto.
  - intros p Hp Hz. assert (S : forallb is_single clause_props = true) by (vm_compute; reflexivity). rewrite forallb_forall in S. destruct (is_single_ok p (S p Hp)) as [n [Hn ->]].
    rewrite !query_single by auto. unfold set_type, set_prop, del_prop. rewrite Z.lor_spec, Z.land_spec, Z.lnot_spec by auto. rewrite M by auto.
    assert (N : Z.testbit (Z.land (2 ^ n) CPTypeMask) n = false) by (rewrite Hz; apply Z.testbit_0_l). rewrite Z.land_spec, Z.pow2_bits_true, M in N by auto. simpl in N. rewrite N.
    destruct (Z.testbit t n) eqn:E; [|simpl; rewrite andb_true_r, orb_false_r; auto]. apply Ht in E. destruct (Z.leb_spec 10 n), (Z.leb_spec n 12); simpl in N; try lia; discriminate.
Qed.
Example type_ex : query_type (set_type (Z.lor CPIsSOS (2 ^ 11)) (Z.lor (2 ^ 10) (2 ^ 12))) = Z.lor (2 ^ 10) (2 ^ 12).
Proof. reflexivity. Qed.

(** The mark of literals introduced by splitting is not a power of two (65636 instead of 65536): it contains the bits of three other
    properties. Marking a literal as split literal declares it strictly maximal with up-to-date orientation and equivalent partner ... *)
Theorem C36_split_lit_sets_others_refuted :
  exists p q w, In q eqn_props /\ p = EPIsSplitLit /\ query_prop w q = false /\ query_prop (set_prop w p) q = true.
Proof. exists EPIsSplitLit, EPIsStrictlyMaximal, EPIsPositive. repeat split; try reflexivity. simpl. auto. Qed.
(** ... and clearing one of those (which happens whenever maximal literals are recomputed) removes the split mark. *)
Theorem C36_split_lit_lost_refuted :
  exists q w, In q eqn_props /\ query_prop w EPIsSplitLit = true /\ query_prop (del_prop w q) EPIsSplitLit = false.
Proof. exists EPIsStrictlyMaximal, (set_prop EPIsPositive EPIsSplitLit). repeat split; try reflexivity. simpl. auto. Qed.
(** Exactly these three properties are affected. *)
Theorem C36_split_lit_overlap : forall q, In q eqn_props ->
  ((forall w, query_prop (set_prop w EPIsSplitLit) q = query_prop w q) <-> q <> EPIsStrictlyMaximal /\ q <> EPMaxIsUpToDate /\ q <> EPHasEquiv).
Proof.
  intros q Hq. split.
  - intros H. pose proof (H 0) as H0. repeat split; intros ->; vm_compute in H0; discriminate.
  - intros [N1 [N2 N3]] w. assert (S : forallb is_single eqn_props = true) by (vm_compute; reflexivity). rewrite forallb_forall in S.
    assert (Z0 : Z.land EPIsSplitLit q = 0).
    { unfold eqn_props in Hq. simpl in Hq. repeat (destruct Hq as [<-|Hq]; [try reflexivity; exfalso; (apply N1; reflexivity) || (apply N2; reflexivity) || (apply N3; reflexivity)|]). destruct Hq. }
    destruct (is_single_ok q (S q Hq)) as [n [Hn ->]]. rewrite !query_single by auto. unfold set_prop. rewrite Z.lor_spec.
    assert (N : Z.testbit (Z.land EPIsSplitLit (2 ^ n)) n = false) by (rewrite Z0; apply Z.testbit_0_l). rewrite Z.land_spec, Z.pow2_bits_true, andb_true_r in N by auto. rewrite N, orb_false_r. auto.
Qed.

Print Assumptions C36_literal_props_independent_partial.
Print Assumptions C36_clause_props_independent.
Print Assumptions C36_term_props_independent.
Print Assumptions C36_symbol_props_independent.
Print Assumptions C36_clause_type.
Print Assumptions C36_split_lit_sets_others_refuted.
Print Assumptions C36_split_lit_lost_refuted.
Print Assumptions C36_split_lit_overlap.
