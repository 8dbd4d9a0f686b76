(** * Proofs about proof objects: stacks, quotes, the loops *)
From Coq Require Import String Ascii List ZArith NArith Lia Bool Arith Permutation.
From Verif Require Import Sig Derivation.
Import ListNotations.
Local Open Scope nat_scope.
Local Open Scope list_scope.

Lemma node_dec : forall a b : node, {a = b} + {a <> b}.
Proof. decide equality; apply Nat.eq_dec. Defined.
Lemma eqb_iff : forall a b, node_eqb a b = true <-> a = b.
Proof. intros [p|p] [q|q]; cbn; rewrite ?Nat.eqb_eq; split; congruence. Qed.
Lemma eqb_refl : forall a, node_eqb a a = true.
Proof. intro a. now apply eqb_iff. Qed.
Lemma eqb_neq : forall a b, a <> b -> node_eqb a b = false.
Proof. intros a b N. destruct (node_eqb a b) eqn:E; [apply eqb_iff in E; contradiction|reflexivity]. Qed.
Lemma existsb_in : forall n l, existsb (node_eqb n) l = true <-> In n l.
Proof.
  intros n l. rewrite existsb_exists. split; [intros [x [I E]]; apply eqb_iff in E; now subst|].
  intro I. exists n. split; [assumption|apply eqb_refl].
Qed.
Lemma upd_same : forall A (f : node -> A) n a, upd f n a n = a.
Proof. intros; unfold upd. now rewrite eqb_refl. Qed.
Lemma upd_other : forall A (f : node -> A) n m a, m <> n -> upd f n a m = f m.
Proof. intros; unfold upd. now rewrite eqb_neq. Qed.
Lemma set_same : forall H n l, set_stack H n l n = l.
Proof. intros; unfold set_stack. now rewrite eqb_refl. Qed.
Lemma set_other : forall H n m l, m <> n -> set_stack H n l m = H m.
Proof. intros; unfold set_stack. now rewrite eqb_neq. Qed.

(** ** Reading stacks *)
Lemma read_len : forall a b c o l x r, read_arg a b c o l = Some (x, r) -> length r <= length l.
Proof.
  unfold read_arg; intros a b c o l x r H.
  destruct (has a o), (has b o), (has c o); destruct l as [|[k|p] l]; inversion H; subst; cbn; lia.
Qed.
Lemma decode_more : forall k l k' fs, decode k l = Some fs -> k <= k' -> decode k' l = Some fs.
Proof.
  induction k as [|k IH]; intros l k' fs H L; destruct l as [|c l]; cbn in H; try discriminate.
  - destruct k'; exact H.
  - destruct k'; exact H.
  - destruct k' as [|k']; [lia|]. cbn. destruct c as [o|p]; [|discriminate].
    destruct (read_arg Arg1Cnf Arg1Fof Arg1Num o l) as [[a1 l2]|]; [|discriminate].
    destruct (read_arg Arg2Cnf Arg2Fof Arg2Num o l2) as [[a2 l3]|]; [|discriminate].
    destruct (decode k l3) as [r|] eqn:D; [|discriminate]. rewrite (IH l3 k' r D) by lia. exact H.
Qed.
Lemma decode_len : forall k l fs, decode k l = Some fs -> frames l = Some fs.
Proof.
  intros k l fs H. unfold frames.
  assert (G : forall m l k fs, length l <= m -> decode k l = Some fs -> decode (length l) l = Some fs).
  { clear. induction m as [|m IH]; intros l k fs L H.
    - destruct l; [destruct k; exact H|cbn in L; lia].
    - destruct l as [|c l]; [destruct k; exact H|]. cbn in L.
      destruct k as [|k]; [discriminate|]. cbn in H. cbn. destruct c as [o|p]; [|discriminate].
      destruct (read_arg Arg1Cnf Arg1Fof Arg1Num o l) as [[a1 l2]|] eqn:R1; [|discriminate].
      destruct (read_arg Arg2Cnf Arg2Fof Arg2Num o l2) as [[a2 l3]|] eqn:R2; [|discriminate].
      apply read_len in R1. apply read_len in R2.
      destruct (decode k l3) as [r|] eqn:D; [|discriminate].
      apply (IH l3 k r) in D; [|lia]. rewrite (decode_more _ _ (length l) _ D) by lia. exact H. }
  now apply (G (length l) l k).
Qed.

(** a frame as it is read from a stack *)
Definition arg_fits (cnf fof num o : N) (a : arg) : Prop :=
  if has cnf o then exists p, a = ANode (Cl p)
  else if has fof o then exists p, a = ANode (Fm p)
  else if has num o then exists c, a = ARaw (Some c)
  else a = ANone.
Definition fits (f : frame) : Prop :=
  arg_fits Arg1Cnf Arg1Fof Arg1Num (op f) (arg1 f) /\ arg_fits Arg2Cnf Arg2Fof Arg2Num (op f) (arg2 f).
Lemma read_encode : forall cnf fof num o a l, arg_fits cnf fof num o a -> read_arg cnf fof num o (encode_arg a ++ l) = Some (a, l).
Proof.
  unfold arg_fits, read_arg; intros cnf fof num o a l H.
  destruct (has cnf o); [destruct H as [p ->]; reflexivity|].
  destruct (has fof o); [destruct H as [p ->]; reflexivity|].
  destruct (has num o); [destruct H as [c ->]; reflexivity|]. now subst.
Qed.
Lemma frames_encode_app : forall fs gs l, Forall fits fs -> frames l = Some gs -> frames (encode fs ++ l) = Some (fs ++ gs).
Proof.
  intros fs gs l F D. unfold frames in D.
  apply decode_len with (k := length fs + length l). induction F as [|f fs [F1 F2] F IH].
  - exact D.
  - cbn - [encode_arg]. rewrite <- !app_assoc. rewrite (read_encode _ _ _ _ _ _ F1), (read_encode _ _ _ _ _ _ F2).
    change (flat_map (fun f0 : frame => CInt (op f0) :: encode_arg (arg1 f0) ++ encode_arg (arg2 f0)) fs) with (encode fs).
    rewrite IH. now destruct f.
Qed.
Lemma frames_encode : forall fs, Forall fits fs -> frames (encode fs) = Some fs.
Proof. intros fs F. pose proof (frames_encode_app fs [] [] F eq_refl) as H. now rewrite !app_nil_r in H. Qed.

Lemma read_cases : forall cnf fof num o l a r, read_arg cnf fof num o l = Some (a, r) ->
  l = encode_arg a ++ r /\ (arg_fits cnf fof num o a \/ (a = ARaw None /\ l = [] /\ r = [] /\ has cnf o = false /\ has fof o = false /\ has num o = true)).
Proof.
  unfold read_arg, arg_fits; intros cnf fof num o l a r H.
  destruct (has cnf o).
  - destruct l as [|[k|p] l]; inversion H; subst. split; [reflexivity|]. left; eauto.
  - destruct (has fof o).
    + destruct l as [|[k|p] l]; inversion H; subst. split; [reflexivity|]. left; eauto.
    + destruct (has num o).
      * destruct l as [|c l]; inversion H; subst; (split; [reflexivity|]); [right; auto 7|left; eauto].
      * inversion H; subst. split; [reflexivity|]. now left.
Qed.
(** frames give the stack back *)
Lemma encode_frames : forall l fs, frames l = Some fs -> encode fs = l.
Proof.
  unfold frames. intro l. remember (length l) as k eqn:K. clear K. revert l.
  induction k as [|k IH]; intros l fs H; destruct l as [|c l]; cbn in H; try discriminate; try (inversion H; reflexivity).
  destruct c as [o|p]; [|discriminate].
  destruct (read_arg Arg1Cnf Arg1Fof Arg1Num o l) as [[a1 l2]|] eqn:R1; [|discriminate].
  destruct (read_arg Arg2Cnf Arg2Fof Arg2Num o l2) as [[a2 l3]|] eqn:R2; [|discriminate].
  destruct (decode k l3) as [r|] eqn:D; [|discriminate]. inversion H; subst; clear H.
  apply read_cases in R1. apply read_cases in R2. destruct R1 as [-> _], R2 as [-> _].
  cbn - [encode_arg]. rewrite <- app_assoc. change (flat_map _ r) with (encode r). now rewrite (IH l3 r D).
Qed.

(** ** Replacing premises *)
Definition amap (F : node -> node) (a : arg) : arg := match a with ANode n => ANode (F n) | _ => a end.
Definition fmap (F : node -> node) (f : frame) : frame := mkfr (op f) (amap F (arg1 f)) (amap F (arg2 f)).
Definition keeps_kind (F : node -> node) : Prop := forall n, is_cl (F n) = is_cl n.
Lemma keeps_cl : forall F p, keeps_kind F -> exists q, F (Cl p) = Cl q.
Proof. intros F p K. specialize (K (Cl p)). destruct (F (Cl p)); [eauto|discriminate]. Qed.
Lemma keeps_fm : forall F p, keeps_kind F -> exists q, F (Fm p) = Fm q.
Proof. intros F p K. specialize (K (Fm p)). destruct (F (Fm p)); [discriminate|eauto]. Qed.
Lemma fits_map : forall F cnf fof num o a, keeps_kind F -> arg_fits cnf fof num o a -> arg_fits cnf fof num o (amap F a).
Proof.
  unfold arg_fits; intros F cnf fof num o a K H.
  destruct (has cnf o); [destruct H as [p ->]; destruct (keeps_cl F p K) as [q E]; cbn; rewrite E; eauto|].
  destruct (has fof o); [destruct H as [p ->]; destruct (keeps_fm F p K) as [q E]; cbn; rewrite E; eauto|].
  destruct (has num o); [destruct H as [c ->]; cbn; eauto|]. now subst.
Qed.
Lemma frames_map : forall F l fs, keeps_kind F -> frames l = Some fs -> frames (encode (map (fmap F) fs)) = Some (map (fmap F) fs).
Proof.
  intros F l fs K D. unfold frames in D. apply decode_len with (k := length l).
  revert fs D. remember (length l) as k eqn:E. clear E. revert l.
  induction k as [|k IH]; intros l fs H; destruct l as [|c l]; cbn in H; try discriminate; try (inversion H; reflexivity).
  destruct c as [o|p]; [|discriminate].
  destruct (read_arg Arg1Cnf Arg1Fof Arg1Num o l) as [[a1 l2]|] eqn:R1; [|discriminate].
  destruct (read_arg Arg2Cnf Arg2Fof Arg2Num o l2) as [[a2 l3]|] eqn:R2; [|discriminate].
  destruct (decode k l3) as [r|] eqn:D; [|discriminate]. inversion H; subst; clear H.
  specialize (IH l3 r D).
  cbn - [encode_arg]. rewrite <- app_assoc. change (flat_map _ (map (fmap F) r)) with (encode (map (fmap F) r)).
  apply read_cases in R1. apply read_cases in R2. destruct R1 as [L1 R1], R2 as [L2 R2].
  assert (A2 : read_arg Arg2Cnf Arg2Fof Arg2Num o (encode_arg (amap F a2) ++ encode (map (fmap F) r)) = Some (amap F a2, encode (map (fmap F) r))).
  { destruct R2 as [R2|[-> [-> [-> [B1 [B2 B3]]]]]].
    - apply read_encode. now apply fits_map.
    - assert (r = []) as -> by (destruct k; cbn in D; congruence). cbn. unfold read_arg. now rewrite B1, B2, B3. }
  destruct R1 as [R1|[-> [-> [-> [B1 [B2 B3]]]]]].
  - rewrite (read_encode _ _ _ _ _ _ (fits_map F _ _ _ _ _ K R1)), A2, IH. reflexivity.
  - symmetry in L2. apply app_eq_nil in L2. destruct L2 as [L2 ->].
    assert (r = []) as -> by (destruct k; cbn in D; congruence).
    assert (X : encode_arg (amap F a2) = []) by (destruct a2 as [|n|[c|]]; cbn in *; congruence).
    cbn in A2. rewrite X in A2 |- *. cbn in *. unfold read_arg at 1. rewrite B1, B2, B3. rewrite A2, IH. reflexivity.
Qed.
(** the shape of a stack does not change *)
Definition same_kind (a b : cell) : Prop := match a, b with CInt j, CInt k => j = k | CPtr _, CPtr _ => True | _, _ => False end.
Lemma same_refl : forall c, same_kind c c.
Proof. now intros [k|p]. Qed.
Lemma encode_shape : forall F fs, Forall2 same_kind (encode fs) (encode (map (fmap F) fs)).
Proof.
  intros F fs. induction fs as [|f fs IH]; [constructor|]. cbn - [encode_arg]. constructor; [reflexivity|].
  apply Forall2_app; [|exact IH].
  apply Forall2_app; [destruct (arg1 f) as [|n|[c|]]|destruct (arg2 f) as [|n|[c|]]]; cbn; repeat constructor; apply same_refl.
Qed.

Lemma popped_in : forall p l, In p (popped l) <-> In p l.
Proof.
  intros p l. unfold popped. rewrite in_app_iff, <- !in_rev, !filter_In. destruct (is_cl p) eqn:E; cbn; intuition.
Qed.
Lemma premises_in : forall ac fs ps p, premises ac fs = Some ps ->
  (In p ps <-> exists f, In f fs /\ (In p (arg_node (arg1 f)) \/ In p (arg_node (arg2 f)) \/ exists l, ac_parents ac f = Some l /\ In p l)).
Proof.
  intros ac. induction fs as [|f fs IH]; cbn; intros ps p H.
  - inversion H; subst. cbn. split; [tauto|intros [f [[] _]]].
  - destruct (ac_parents ac f) as [l|] eqn:A; [|discriminate]. destruct (premises ac fs) as [m|] eqn:P; [|discriminate].
    inversion H; subst; clear H. rewrite !in_app_iff. rewrite (IH m p eq_refl). split.
    + intros [H|[H|[H|[g [I H]]]]].
      * exists f. split; [now left|tauto].
      * exists f. split; [now left|tauto].
      * exists f. split; [now left|]. right; right. eauto.
      * exists g. split; [now right|exact H].
    + intros [g [[<-|I] H]]; [|eauto 6]. destruct H as [H|[H|[l' [E H]]]]; auto. rewrite A in E. inversion E; subst. auto.
Qed.
Lemma ac_map : forall F ac f, ac_parents ac (fmap F f) = ac_parents ac f.
Proof.
  intros F ac f. unfold ac_parents, fmap; cbn [op arg1 arg2]. destruct (N.eqb (op f) DCACRes); [|reflexivity]. destruct (arg1 f); reflexivity.
Qed.
Lemma premises_map : forall F ac fs ps, premises ac fs = Some ps -> exists ps', premises ac (map (fmap F) fs) = Some ps'.
Proof.
  intros F ac. induction fs as [|f fs IH]; cbn; intros ps H; [eauto|].
  rewrite ac_map. destruct (ac_parents ac f); [|discriminate]. destruct (premises ac fs) as [m|]; [|discriminate].
  destruct (IH m eq_refl) as [m' ->]. eauto.
Qed.
Lemma quoted_ext : forall H K n, H n = K n -> quoted H n = quoted K n.
Proof. intros H K [q|q] E; unfold quoted; now rewrite E. Qed.
Lemma quoted_cases : forall H n m, quoted H n = Some m ->
  (exists q p, n = Cl q /\ m = Cl p /\ H n = Some [CInt DCCnfQuote; CPtr p]) \/
  (exists q p, n = Fm q /\ m = Fm p /\ H n = Some [CInt DCFofQuote; CPtr p]).
Proof.
  intros H n m Q. unfold quoted in Q.
  destruct n as [q|q]; [left|right]; destruct (H _) as [[|[o|x] [|[o2|p] [|? ?]]]|] eqn:E; try discriminate;
    match type of Q with context [N.eqb o ?c] => destruct (N.eqb o c) eqn:O; [|discriminate] end; inversion Q; subst;
    apply N.eqb_eq in O; subst; eauto.
Qed.

Section Heap.
Variable ac : list nat.
Variable H0 : heap.
Hypothesis STK : forall n l, H0 n = Some l -> stack_ok ac l.
Variable rank : node -> nat.
Hypothesis RK : forall n ps p, parents ac H0 n = Some ps -> In p ps -> rank p < rank n.

Lemma parents_total : forall n, exists ps, parents ac H0 n = Some ps.
Proof.
  intro n. unfold parents. destruct (H0 n) as [l|] eqn:E; [|eauto].
  destruct (STK n l E) as [fs [-> [_ [P _]]]]. destruct (premises ac fs); [eauto|contradiction].
Qed.
Lemma rank_premise : forall n l fs f p, H0 n = Some l -> frames l = Some fs -> In f fs ->
  In p (arg_node (arg1 f)) \/ In p (arg_node (arg2 f)) \/ (exists l, ac_parents ac f = Some l /\ In p l) -> rank p < rank n.
Proof.
  intros n l fs f p E D I C. destruct (STK n l E) as [fs' [D' [_ [P _]]]]. rewrite D in D'. inversion D'; subst fs'.
  destruct (premises ac fs) as [ps|] eqn:Q; [|contradiction].
  apply (RK n (popped ps)); [unfold parents; now rewrite E, D, Q|]. apply popped_in. apply (premises_in ac fs ps p Q). eauto.
Qed.
Lemma quoted_rank : forall n m, quoted H0 n = Some m -> rank m < rank n.
Proof.
  intros n m Q. destruct (quoted_cases _ _ _ Q) as [(q & p & -> & -> & E)|(q & p & -> & -> & E)];
    apply (RK _ [_] _ ltac:(unfold parents; rewrite E; cbn; reflexivity)); now left.
Qed.
Lemma quoted_kind : forall H n m, quoted H n = Some m -> is_cl m = is_cl n.
Proof. intros H n m Q. destruct (quoted_cases _ _ _ Q) as [(q & p & -> & -> & E)|(q & p & -> & -> & E)]; reflexivity. Qed.

(** ** Origins *)
Definition F (n : node) : node := match find_first (rank n) H0 n with Some m => m | None => n end.
Lemma ff_total : forall k n, rank n <= k -> exists m, find_first k H0 n = Some m.
Proof.
  induction k as [|k IH]; intros n L; cbn; destruct (quoted H0 n) as [m|] eqn:Q; eauto; apply quoted_rank in Q; [lia|]. apply IH. lia.
Qed.
Lemma ff_det : forall H k j n a b, find_first k H n = Some a -> find_first j H n = Some b -> a = b.
Proof.
  intro H. induction k as [|k IH]; intros j n a b A B; cbn in A; destruct j; cbn in B; destruct (quoted H n); try congruence. eauto.
Qed.
Lemma F_here : forall n, quoted H0 n = None -> F n = n.
Proof. intros n Q. unfold F. destruct (rank n); cbn; now rewrite Q. Qed.
Lemma F_quote : forall n m, quoted H0 n = Some m -> F n = F m.
Proof.
  intros n m Q. unfold F. pose proof (quoted_rank n m Q) as R. destruct (rank n) as [|r] eqn:E; [lia|]. cbn. rewrite Q.
  destruct (ff_total r m ltac:(lia)) as [x X]. destruct (ff_total (rank m) m (le_n _)) as [y Y].
  rewrite X, Y. eapply ff_det; eauto.
Qed.
Lemma node_rec : forall P : node -> Prop, (forall n, (forall m, rank m < rank n -> P m) -> P n) -> forall n, P n.
Proof.
  intros P H n. assert (G : forall k n, rank n < k -> P n); [|apply (G (S (rank n))); lia].
  induction k as [|k IH]; intros x L; [lia|]. apply H. intros m M. apply IH. lia.
Qed.
Lemma F_origin : forall n, origin H0 n (F n).
Proof.
  apply node_rec. intros n IH. destruct (quoted H0 n) as [m|] eqn:Q.
  - apply o_quote with m; [exact Q|]. rewrite (F_quote n m Q). apply IH. now apply quoted_rank.
  - rewrite F_here by exact Q. now constructor.
Qed.
Lemma origin_F : forall n o, origin H0 n o -> o = F n.
Proof. intros n o O. induction O as [n Q|n m o Q O IH]; [symmetry; now apply F_here|]. now rewrite (F_quote n m Q). Qed.
Lemma F_unquoted : forall n, quoted H0 (F n) = None.
Proof. intro n. pose proof (F_origin n) as O. induction O; auto. Qed.
Lemma F_idem : forall n, F (F n) = F n.
Proof. intro n. apply F_here. apply F_unquoted. Qed.
Lemma F_rank : forall n, rank (F n) <= rank n.
Proof. intro n. pose proof (F_origin n) as O. induction O as [n Q|n m o Q O IH]; [lia|]. apply quoted_rank in Q. lia. Qed.
Lemma F_kind : keeps_kind F.
Proof. intro n. pose proof (F_origin n) as O. induction O as [n Q|n m o Q O IH]; [reflexivity|]. rewrite IH. eapply quoted_kind; eauto. Qed.

(** ** Heaps in which some premises have been replaced by their origins *)
Definition comp (n : node) : option (list cell) :=
  match H0 n with
  | None => None
  | Some l => match frames l with Some fs => Some (encode (map (fmap F) fs)) | None => Some l end
  end.
Definition cmp (H : heap) : Prop := forall n, H n = H0 n \/ H n = comp n.
Lemma cmp_start : cmp H0.
Proof. intro n; now left. Qed.
Lemma comp_none : forall n, comp n = None <-> H0 n = None.
Proof.
  intro n. unfold comp. destruct (H0 n) as [l|] eqn:E; [|tauto]. destruct (STK n l E) as [fs [-> _]]. split; discriminate.
Qed.
Lemma cmp_none : forall H n, cmp H -> (H n = None <-> H0 n = None).
Proof. intros H n C. destruct (C n) as [->| ->]; [tauto|apply comp_none]. Qed.
Lemma quoted_comp : forall H n, H n = comp n -> quoted H n = option_map F (quoted H0 n).
Proof.
  intros H n E. destruct (quoted H0 n) as [m|] eqn:Q.
  - destruct (quoted_cases _ _ _ Q) as [(q & p & -> & -> & X)|(q & p & -> & -> & X)]; unfold comp in E; rewrite X in E; cbn in E.
    + destruct (keeps_cl F p F_kind) as [p' P]. rewrite P in E. unfold quoted. rewrite E. cbn. now rewrite P.
    + destruct (keeps_fm F p F_kind) as [p' P]. rewrite P in E. unfold quoted. rewrite E. cbn. now rewrite P.
  - cbn. destruct (quoted H n) as [m|] eqn:Q'; [|reflexivity]. exfalso.
    unfold comp in E. destruct (H0 n) as [l|] eqn:X.
    2:{ apply quoted_cases in Q'. destruct Q' as [(q & p & -> & -> & Y)|(q & p & -> & -> & Y)]; congruence. }
    destruct (STK n l X) as [fs [D _]]. rewrite D in E. pose proof (encode_shape F fs) as S. rewrite (encode_frames _ _ D) in S.
    apply quoted_cases in Q'. destruct Q' as [(q & p & -> & -> & Y)|(q & p & -> & -> & Y)]; rewrite E in Y; inversion Y as [Z];
      rewrite Z in S; inversion S as [|c1 ? l1 ? K1 S1]; subst; inversion S1 as [|c2 ? l2 ? K2 S2]; subst; inversion S2; subst;
      destruct c1; try contradiction; destruct c2; try contradiction; cbn in K1; subst; unfold quoted in Q; rewrite X in Q; cbn in Q; discriminate.
Qed.
Lemma ff_cmp : forall H k n r, cmp H -> find_first k H n = Some r -> r = F n.
Proof.
  intros H k n r C. revert n. induction k as [|k IH]; intros n; cbn; destruct (C n) as [E|E].
  - rewrite (quoted_ext H H0 n E). destruct (quoted H0 n) eqn:Q; [discriminate|]. intro X; inversion X; subst. symmetry. now apply F_here.
  - rewrite (quoted_comp H n E). destruct (quoted H0 n) eqn:Q; [discriminate|]. cbn. intro X; inversion X; subst. symmetry. now apply F_here.
  - rewrite (quoted_ext H H0 n E). destruct (quoted H0 n) as [m|] eqn:Q.
    + intro X. rewrite (F_quote n m Q). now apply IH.
    + intro X; inversion X; subst. symmetry. now apply F_here.
  - rewrite (quoted_comp H n E). destruct (quoted H0 n) as [m|] eqn:Q; cbn.
    + intro X. rewrite (F_quote n m Q), <- (F_idem m). now apply IH.
    + intro X; inversion X; subst. symmetry. now apply F_here.
Qed.
Lemma ff_cmp_total : forall H k n, cmp H -> rank n <= k -> find_first k H n = Some (F n).
Proof.
  intros H k n C L. destruct (find_first k H n) as [r|] eqn:E; [f_equal; eapply ff_cmp; eauto|]. exfalso.
  revert n L E. induction k as [|k IH]; intros n L; cbn; destruct (C n) as [E|E].
  - rewrite (quoted_ext H H0 n E). destruct (quoted H0 n) as [m|] eqn:Q; [|discriminate]. apply quoted_rank in Q. lia.
  - rewrite (quoted_comp H n E). destruct (quoted H0 n) as [m|] eqn:Q; [|discriminate]. apply quoted_rank in Q. lia.
  - rewrite (quoted_ext H H0 n E). destruct (quoted H0 n) as [m|] eqn:Q; [|discriminate]. apply quoted_rank in Q. apply IH. lia.
  - rewrite (quoted_comp H n E). destruct (quoted H0 n) as [m|] eqn:Q; [|discriminate]. cbn. apply quoted_rank in Q. apply IH. pose proof (F_rank m). lia.
Qed.
Lemma fr_cmp : forall H k fs r, cmp H -> first_frames k H fs = Some r -> r = map (fmap F) fs.
Proof.
  intros H k fs r C. revert r. induction fs as [|f fs IH]; cbn; intros r X; [now inversion X|].
  assert (A : forall a b, first_arg k H a = Some b -> b = amap F a).
  { intros [|n|c] b B; cbn in B; try (inversion B; reflexivity).
    destruct (find_first k H n) as [m|] eqn:E; [|discriminate]. inversion B; subst. cbn. f_equal. eapply ff_cmp; eauto. }
  destruct (first_arg k H (arg1 f)) as [a1|] eqn:A1; [|discriminate]. destruct (first_arg k H (arg2 f)) as [a2|] eqn:A2; [|discriminate].
  destruct (first_frames k H fs) as [q|]; [|discriminate]. inversion X; subst. rewrite (A _ _ A1), (A _ _ A2), (IH q eq_refl). reflexivity.
Qed.
Lemma fr_cmp_total : forall H k fs, cmp H -> (forall f n, In f fs -> In n (arg_node (arg1 f)) \/ In n (arg_node (arg2 f)) -> rank n <= k) ->
  first_frames k H fs = Some (map (fmap F) fs).
Proof.
  intros H k fs C. induction fs as [|f fs IH]; cbn; intros L; [reflexivity|].
  assert (A : forall a, (forall n, In n (arg_node a) -> rank n <= k) -> first_arg k H a = Some (amap F a)).
  { intros [|n|c] B; cbn; try reflexivity. rewrite (ff_cmp_total H k n C); [reflexivity|]. apply B. now left. }
  rewrite (A (arg1 f)), (A (arg2 f)), IH; [reflexivity| | |]; intros; eapply L; eauto.
Qed.

(** the premises that are shown for a step *)
Definition G (n : node) : list node :=
  match H0 n with
  | None => []
  | Some l => match frames l with
              | Some fs => match premises ac (map (fmap F) fs) with Some ps => popped ps | None => [] end
              | None => []
              end
  end.
Lemma amap_in : forall p a, In p (arg_node (amap F a)) <-> exists q, In q (arg_node a) /\ p = F q.
Proof.
  intros p a. destruct a as [|n|c]; cbn; split; intro X.
  - destruct X.
  - destruct X as [x [[] _]].
  - destruct X as [X|[]]. eauto.
  - destruct X as [x [[<-|[]] E]]. auto.
  - destruct X.
  - destruct X as [x [[] _]].
Qed.
Lemma G_shown : forall n p, In p (G n) <-> shown ac H0 n p.
Proof.
  intros n p. unfold G, shown, premise_of, ac_premise_of. destruct (H0 n) as [l|] eqn:E.
  2:{ split; [intros []|]. intros [[q [[l [fs [X _]]] _]]|[l [fs [X _]]]]; discriminate. }
  destruct (STK n l E) as [fs [D [_ [P _]]]]. rewrite D. destruct (premises ac fs) as [ps|] eqn:Q; [|contradiction].
  destruct (premises_map F ac fs ps Q) as [ps' Q']. rewrite Q'. rewrite popped_in, (premises_in _ _ _ p Q'). split.
  - intros [f' [I C]]. apply in_map_iff in I. destruct I as [f [<- I]]. cbn in C. rewrite !amap_in, ac_map in C.
    destruct C as [[q [J ->]]|[[q [J ->]]|[m [A J]]]].
    + left. exists q. split; [exists l, fs; repeat split; auto; eauto|apply F_origin].
    + left. exists q. split; [exists l, fs; repeat split; auto; eauto|apply F_origin].
    + right. exists l, fs. repeat split; auto. eauto.
  - intros [[q [[l' [fs' [X [Y [f [I C]]]]]] O]]|[l' [fs' [X [Y [f [m [I [A J]]]]]]]]].
    + inversion X; subst l'. rewrite D in Y. inversion Y; subst fs'. apply origin_F in O. subst p. exists (fmap F f).
      split; [now apply in_map|]. cbn. rewrite !amap_in. destruct C; eauto.
    + inversion X; subst l'. rewrite D in Y. inversion Y; subst fs'. exists (fmap F f). split; [now apply in_map|]. cbn. rewrite ac_map. eauto.
Qed.
Lemma G_rank : forall n p, In p (G n) -> rank p < rank n.
Proof.
  intros n p I. apply G_shown in I. destruct I as [[q [[l [fs [E [D [f [I C]]]]]] O]]|[l [fs [E [D [f [m [I [A J]]]]]]]]].
  - apply origin_F in O. subst p. pose proof (F_rank q). assert (rank q < rank n); [|lia]. eapply rank_premise; eauto. tauto.
  - eapply rank_premise; eauto.
Qed.
Lemma G_none : forall n, H0 n = None -> G n = [].
Proof. intros n E. unfold G. now rewrite E. Qed.
Lemma map_idem : forall fs, map (fmap F) (map (fmap F) fs) = map (fmap F) fs.
Proof.
  intro fs. rewrite map_map. apply map_ext. intro f. unfold fmap; cbn. f_equal; [destruct (arg1 f)|destruct (arg2 f)]; cbn; try reflexivity; now rewrite F_idem.
Qed.
Lemma frames_cmp : forall H n l, cmp H -> H n = Some l -> exists fs, frames l = Some fs /\
  exists l0 fs0, H0 n = Some l0 /\ frames l0 = Some fs0 /\ map (fmap F) fs = map (fmap F) fs0 /\ (fs = fs0 \/ fs = map (fmap F) fs0).
Proof.
  intros H n l C E. destruct (H0 n) as [l0|] eqn:E0; [|apply (cmp_none H n C) in E0; congruence].
  destruct (STK n l0 E0) as [fs0 [D0 _]]. destruct (C n) as [X|X]; rewrite E in X.
  - rewrite E0 in X. inversion X; subst. exists fs0. split; [exact D0|]. exists l0, fs0. repeat split; auto.
  - unfold comp in X. rewrite E0, D0 in X. inversion X; subst. exists (map (fmap F) fs0).
    split; [eapply frames_map; eauto; apply F_kind|]. exists l0, fs0. repeat split; auto. apply map_idem.
Qed.
Lemma opt_sound : forall H k n H' ps, cmp H -> opt_parents k ac H n = Some (H', ps) ->
  cmp H' /\ ps = G n /\ H' n = comp n /\ (forall m, H m = comp m -> H' m = comp m).
Proof.
  intros H k n H' ps C X. unfold opt_parents in X. destruct (H n) as [l|] eqn:E.
  - destruct (frames_cmp H n l C E) as [fs [D [l0 [fs0 [E0 [D0 [M _]]]]]]]. rewrite D in X.
    destruct (first_frames k H fs) as [r|] eqn:R; [|discriminate]. apply (fr_cmp H k fs r C) in R. rewrite M in R. subst r.
    destruct (premises ac (map (fmap F) fs0)) as [q|] eqn:P; [|discriminate]. inversion X; subst; clear X.
    assert (CN : comp n = Some (encode (map (fmap F) fs0))) by (unfold comp; now rewrite E0, D0).
    split; [|split; [|split]].
    + intro m. destruct (node_dec m n) as [->|NE]; [right; now rewrite set_same|rewrite set_other by assumption; apply C].
    + unfold G. now rewrite E0, D0, P.
    + now rewrite set_same.
    + intros m Hm. destruct (node_dec m n) as [->|NE]; [now rewrite set_same|now rewrite set_other].
  - inversion X; subst. assert (E0 : H0 n = None) by (now apply (cmp_none H' n C)).
    repeat split; auto; [now rewrite G_none|]. rewrite E. symmetry. now apply comp_none.
Qed.
Lemma opt_total : forall H k n, cmp H -> rank n <= k -> exists r, opt_parents k ac H n = Some r.
Proof.
  intros H k n C L. unfold opt_parents. destruct (H n) as [l|] eqn:E; [|eauto].
  destruct (frames_cmp H n l C E) as [fs [D [l0 [fs0 [E0 [D0 [M V]]]]]]]. rewrite D.
  rewrite (fr_cmp_total H k fs C).
  - rewrite M. destruct (STK n l0 E0) as [fs' [D' [_ [P _]]]]. rewrite D0 in D'. inversion D'; subst fs'.
    destruct (premises ac fs0) as [ps|] eqn:Q; [|contradiction]. destruct (premises_map F ac fs0 ps Q) as [q ->]. eauto.
  - intros f p I J. assert (B : forall f p, In f fs0 -> In p (arg_node (arg1 f)) \/ In p (arg_node (arg2 f)) -> rank p < rank n).
    { intros g x Ig Jg. eapply rank_premise; eauto. tauto. }
    destruct V as [->| ->]; [specialize (B f p I J); lia|].
    apply in_map_iff in I. destruct I as [g [<- I]]. cbn in J. rewrite !amap_in in J.
    destruct J as [[q [J ->]]|[q [J ->]]]; pose proof (F_rank q); [specialize (B g q I (or_introl J))|specialize (B g q I (or_intror J))]; lia.
Qed.
Lemma parents_comp : forall H n, H n = comp n -> parents ac H n = Some (G n).
Proof.
  intros H n E. unfold parents, G. rewrite E. unfold comp. destruct (H0 n) as [l0|] eqn:E0; [|reflexivity].
  destruct (STK n l0 E0) as [fs0 [D0 [_ [P _]]]]. rewrite D0. rewrite (frames_map F l0 fs0 F_kind D0).
  destruct (premises ac fs0) as [ps|] eqn:Q; [|contradiction]. destruct (premises_map F ac fs0 ps Q) as [q ->]. reflexivity.
Qed.
End Heap.
