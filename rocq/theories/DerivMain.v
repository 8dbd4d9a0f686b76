(** * The computed proof object: proofs.  See Derivation.v. *)
From Coq Require Import String Ascii List ZArith NArith Lia Bool Arith Permutation.
From Verif Require Import Sig SigProofs Derivation DerivationProofs DerivLoops.
Import ListNotations.
Local Open Scope nat_scope.
Local Open Scope list_scope.

Lemma split_two : forall (ax ord l1 l2 : list node) n, l1 ++ n :: l2 = ax ++ ord ->
  In n ax \/ exists o1, l1 = ax ++ o1 /\ ord = o1 ++ n :: l2.
Proof.
  induction ax as [|x ax IH]; intros ord l1 l2 n E; cbn in E; [right; exists l1; auto|].
  destruct l1 as [|y l1]; cbn in E; inversion E; subst; [left; now left|].
  destruct (IH ord l1 l2 n H1) as [I|[o1 [-> ->]]]; [left; now right|right; exists o1; auto].
Qed.

Section Main.
Variable ac : list nat.
Variable H0 : heap.
Hypothesis STK : forall n l, H0 n = Some l -> stack_ok ac l.
Variable rank : node -> nat.
Hypothesis RK : forall n ps p, parents ac H0 n = Some ps -> In p ps -> rank p < rank n.
Notation F := (F H0 rank).
Notation G := (G ac H0 rank).
Notation comp := (comp H0 rank).
Notation cmp := (cmp H0 rank).
Variable A : attrs.
Variable roots : list nat.
Definition rts : list node := map (fun r => F (Cl r)) roots.
Notation rs := rts.
Notation reach := (reach ac H0 rank rs).
Lemma first_roots_F : forall k l r, first_roots k H0 l = Some r -> r = map (fun r => F (Cl r)) l.
Proof.
  intro k. induction l as [|x l IH]; intros r E; cbn in E; [inversion E; reflexivity|].
  destruct (find_first k H0 (Cl x)) as [n|] eqn:X; [|discriminate]. destruct (first_roots k H0 l) as [m|]; [|discriminate].
  inversion E; subst. cbn. f_equal; [|now apply IH]. now apply (ff_cmp ac H0 STK rank RK H0 k (Cl x) n (cmp_start H0 rank)).
Qed.
Lemma first_roots_total : forall k l, (forall x, In x l -> rank (Cl x) <= k) -> first_roots k H0 l = Some (map (fun r => F (Cl r)) l).
Proof.
  intro k. induction l as [|x l IH]; intros L; cbn; [reflexivity|].
  rewrite (ff_cmp_total ac H0 STK rank RK H0 k (Cl x) (cmp_start H0 rank)) by (apply L; now left).
  rewrite IH; [reflexivity|]. intros y I. apply L. now right.
Qed.
Hypothesis ND : NoDup rs.
Lemma compute_sound : forall k ob, compute k ac A H0 roots = Some ob ->
  NoDup (steps ob) /\ (forall n, In n (steps ob) <-> reach n) /\ (forall n, In n (steps ob) -> final ob n = comp n) /\
  (forall l1 n l2, steps ob = l1 ++ n :: l2 -> forall p, In p (G n) -> In p l1) /\
  (exists ax ord, steps ob = ax ++ ord /\ (forall n, In n ax -> H0 n = None) /\ (forall n, In n ord -> H0 n <> None \/ In n rs)) /\
  idents ob = renumber A (steps ob) /\
  ((forall n, reach n -> in_proof A [] n = true -> In n rs) ->
   (has_conjecture ob = true <-> exists r n, In r rs /\ in_proof A [] r = true /\ gdep ac H0 rank r n /\ conj A n = true)).
Proof.
  intros k ob E. unfold compute in E. destruct (first_roots k H0 roots) as [r|] eqn:R; [|discriminate].
  apply first_roots_F in R. fold rts in R. subst r.
  destruct (extract k ac H0 (fun _ => 0%Z) (fun n => negb (existsb (node_eqb n) rs)) (rev rs)) as [[H1 rc]|] eqn:X; [|discriminate].
  destruct (mark k ac A H1 (filter (in_proof A []) rs) (rev rs) false) as [[H2 hc]|] eqn:M; [|discriminate].
  destruct (topo k ac H2 rc (filter (fun n => Z.eqb (rc n) 0) rs) [] []) as [l|] eqn:T; [|discriminate]. inversion E; subst; clear E.
  destruct (extract_sound ac H0 STK rank RK rs k _ _ _ _ _ _ _ (ex_start ac H0 rank rs ND) X) as [V [NV [C1 [VC [RC VR]]]]].
  destruct (mark_keeps ac H0 STK rank RK A k _ _ _ _ _ _ C1 M) as [C2 K2].
  assert (VC2 : forall m, In m V -> H2 m = comp m) by (intros m I; apply K2; now apply VC).
  destruct (topo_sound ac H0 STK rank RK rs H2 V C2 VC2 VR k rc (filter (fun n => Z.eqb (rc n) 0) rs) [] [] l) as [rc' [ax [ord [-> I]]]]; [now apply tp_start|exact T|].
  cbn. assert (IL : forall n, In n (ax ++ ord) <-> In n V).
  { intro n. split; intro J.
    - apply (t_incl _ _ _ _ _ _ _ _ _ I). cbn. rewrite in_app_iff in *. tauto.
    - pose proof (tp_end ac H0 STK rank RK rs V NV rc' ax ord I n J) as K. rewrite in_app_iff in *. tauto. }
  assert (NL : NoDup (ax ++ ord)).
  { apply (Permutation_NoDup (l := ord ++ ax)); [apply Permutation_app_comm|]. apply (t_nodup _ _ _ _ _ _ _ _ _ I). }
  split; [exact NL|]. split; [intro n; rewrite IL; apply VR|]. split; [intros n J; apply VC2; now apply IL|].
  split; [|split; [|split; [reflexivity|]]].
  - intros l1 n l2 S p J.
    assert (NV' : In n V) by (apply IL; rewrite S; apply in_or_app; right; now left).
    assert (PV : In p V) by (apply VR; apply VR in NV'; eapply r_step; eauto).
    apply IL in PV. rewrite S in PV. apply in_app_or in PV. destruct PV as [K|K]; [exact K|]. exfalso.
    symmetry in S. apply split_two in S. destruct S as [S|[o1 [-> ->]]].
    + apply (t_ax _ _ _ _ _ _ _ _ _ I) in S. rewrite (G_none ac H0 rank n S) in J. destruct J.
    + exact (t_order _ _ _ _ _ _ _ _ _ I o1 n l2 eq_refl p J K).
  - exists ax, ord. split; [reflexivity|]. split; [apply (t_ax _ _ _ _ _ _ _ _ _ I)|].
    intros n J. apply (t_rest _ _ _ _ _ _ _ _ _ I). now rewrite app_nil_r.
  - intro EMP. destruct (mark_hc ac H0 STK rank RK rs A EMP k _ _ _ _ _ _ C1 (mk_start ac H0 rank rs A ND) M) as [mk' J].
    exact (mk_end ac H0 rank rs A mk' hc J).
Qed.
Lemma compute_total : exists b, forall k, b <= k -> exists ob, compute k ac A H0 roots = Some ob.
Proof.
  destruct (reach_finite ac H0 STK rank RK rs) as [L RL].
  assert (BD : exists b, forall x, In x roots -> rank (Cl x) <= b).
  { clear. induction roots as [|x l [b IH]]; [exists 0; intros n []|]. exists (Nat.max (rank (Cl x)) b). intros n [<-|I]; [lia|]. specialize (IH n I). lia. }
  destruct BD as [b BD].
  assert (BR : forall r, In r rs -> rank r <= b).
  { intros r I. apply in_map_iff in I. destruct I as [x [<- I]]. pose proof (F_rank ac H0 rank RK (Cl x)). specialize (BD x I). lia. }
  exists (b + length rs + length L). intros k LE. unfold compute.
  rewrite first_roots_total by (intros x I; specialize (BD x I); lia). fold rts.
  destruct (extract_total ac H0 STK rank RK rs b L BR RL k _ _ _ _ _ (ex_start ac H0 rank rs ND)) as [[H1 rc] X]; [cbn; lia|]. rewrite X.
  destruct (extract_sound ac H0 STK rank RK rs k _ _ _ _ _ _ _ (ex_start ac H0 rank rs ND) X) as [V [NV [C1 [VC [RC VR]]]]].
  destruct (mark_total ac H0 STK rank RK rs A b L BR RL k H1 (filter (in_proof A []) rs) (rev rs) false) as [[H2 hc] M]; auto.
  - now apply NoDup_filter.
  - intros n I. apply filter_In in I. apply r_root. tauto.
  - intros n I. apply in_rev in I. now apply r_root.
  - rewrite rev_length. lia.
  - rewrite M. destruct (mark_keeps ac H0 STK rank RK A k _ _ _ _ _ _ C1 M) as [C2 K2].
    assert (VC2 : forall m, In m V -> H2 m = comp m) by (intros m I; apply K2; now apply VC).
    assert (LV : length V <= length L) by (apply NoDup_incl_length; [exact NV|intros x I; apply RL; now apply VR]).
    destruct (topo_total ac H0 STK rank RK rs H2 V C2 VC2 VR k rc (filter (fun n => Z.eqb (rc n) 0) rs) [] []) as [l T].
    + now apply tp_start.
    + cbn. lia.
    + rewrite T. eauto.
Qed.
Lemma reach_needed : forall n, reach n <-> needed ac H0 roots n.
Proof.
  intro n. split; intro R.
  - induction R as [r I|n p R IH J].
    + apply in_map_iff in I. destruct I as [x [<- I]]. eapply n_root; [exact I|]. apply (F_origin ac H0 rank RK).
    + eapply n_premise; [exact IH|]. now apply (G_shown ac H0 STK rank RK).
  - induction R as [r o I O|n p R IH J].
    + apply (origin_F ac H0 rank RK) in O. subst o. apply r_root. apply in_map_iff. eauto.
    + eapply r_step; [exact IH|]. now apply (G_shown ac H0 STK rank RK).
Qed.
Lemma gdep_depends : forall n m, gdep ac H0 rank n m <-> depends ac H0 n m.
Proof.
  intros n m. split; intro R.
  - induction R as [n p J|n m p R IH J]; [apply d_one|eapply d_more; [exact IH|]]; now apply (G_shown ac H0 STK rank RK).
  - induction R as [n p J|n m p R IH J]; [apply g_one|eapply g_more; [exact IH|]]; now apply (G_shown ac H0 STK rank RK).
Qed.
End Main.

(** ** Printed references *)
Definition has1 (o : N) : bool := has Arg1Cnf o || has Arg1Fof o.
Definition has2 (o : N) : bool := has Arg2Cnf o || has Arg2Fof o.
Definition loose (f : frame) : Prop := (has1 (op f) = false -> arg_node (arg1 f) = []) /\ (has2 (op f) = false -> arg_node (arg2 f) = []).
Lemma read_loose : forall cnf fof num o l a r, read_arg cnf fof num o l = Some (a, r) -> has cnf o || has fof o = false -> arg_node a = [].
Proof.
  unfold read_arg; intros cnf fof num o l a r H E. apply orb_false_iff in E. destruct E as [E1 E2]. rewrite E1, E2 in H.
  destruct (has num o); [destruct l|]; inversion H; reflexivity.
Qed.
Lemma frames_loose : forall l fs, frames l = Some fs -> Forall loose fs.
Proof.
  unfold frames. intro l. remember (length l) as k eqn:K. clear K. revert l.
  induction k as [|k IH]; intros l fs H; destruct l as [|c l]; cbn in H; try discriminate; try (inversion H; constructor).
  destruct c as [o|p]; [|discriminate].
  destruct (read_arg Arg1Cnf Arg1Fof Arg1Num o l) as [[a1 l2]|] eqn:R1; [|discriminate].
  destruct (read_arg Arg2Cnf Arg2Fof Arg2Num o l2) as [[a2 l3]|] eqn:R2; [|discriminate].
  destruct (decode k l3) as [r|] eqn:D; [|discriminate]. inversion H; subst; clear H.
  constructor; [|eapply IH; eauto]. split; cbn; intro E; [eapply read_loose; [exact R1|exact E]|eapply read_loose; [exact R2|exact E]].
Qed.
Definition code_ok (f : frame) : Prop := (has Arg1Num (op f) = true \/ In (op f) codes) /\ has Arg2Num (op f) = false /\
                     (has Arg1Num (op f) = true -> has Arg2Cnf (op f) = false /\ has Arg2Fof (op f) = false).
Lemma code_args : forall o, In o codes -> has2 o = true -> has1 o = true.
Proof.
  assert (X : forallb (fun o => negb (has2 o) || has1 o) codes = true) by (vm_compute; reflexivity).
  intros o I E. rewrite forallb_forall in X. specialize (X o I). rewrite E in X. exact X.
Qed.
Definition own (ac : list nat) (f : frame) (p : node) : Prop :=
  In p (arg_node (arg1 f)) \/ In p (arg_node (arg2 f)) \/ exists l, ac_parents ac f = Some l /\ In p l.
Lemma refs_own : forall ac f p l, loose f -> code_ok f -> ac_parents ac f = Some l ->
  (In p ((if has1 (op f) then arg_node (arg1 f) ++ (if has2 (op f) then arg_node (arg2 f) else []) else [])) \/ In p l <-> own ac f p).
Proof.
  intros ac f p l [L1 L2] [C1 [C2 C3]] A. unfold own.
  assert (X : In p (if has1 (op f) then arg_node (arg1 f) ++ (if has2 (op f) then arg_node (arg2 f) else []) else []) <->
              In p (arg_node (arg1 f)) \/ In p (arg_node (arg2 f))).
  { destruct (has1 (op f)) eqn:E1.
    - rewrite in_app_iff. destruct (has2 (op f)) eqn:E2; [tauto|]. rewrite (L2 eq_refl). cbn; tauto.
    - rewrite (L1 eq_refl). destruct (has2 (op f)) eqn:E2; [|rewrite (L2 eq_refl); cbn; tauto].
      destruct C1 as [C1|C1]; [|rewrite (code_args _ C1 E2) in E1; discriminate].
      destruct (C3 C1) as [B1 B2]. unfold has2 in E2. rewrite B1, B2 in E2. discriminate. }
  rewrite X. split; [intros [[Y|Y]|Y]; eauto|]. intros [Y|[Y|[m [E Y]]]]; [auto|auto|]. rewrite A in E. inversion E; subst. auto.
Qed.
Lemma refs_in : forall ac fs pend r p, Forall loose fs -> Forall code_ok fs -> refs ac fs pend = Some r ->
  (In p r <-> (exists f, In f fs /\ op f <> DCCnfAddArg /\ own ac f p) \/ (In p pend /\ exists f, In f fs /\ op f <> DCCnfAddArg)).
Proof.
  intro ac. induction fs as [|f fs IH]; intros pend r p L C E; cbn [refs] in E.
  - inversion E; subst. cbn. split; [intros []|]. intros [[f [[] _]]|[_ [f [[] _]]]].
  - apply Forall_cons_iff in L. apply Forall_cons_iff in C. destruct L as [Lf L], C as [Cf C].
    destruct (N.eqb (op f) DCCnfAddArg) eqn:O.
    + apply N.eqb_eq in O. rewrite (IH pend r p L C E). split.
      * intros [[g [I X]]|[I [g [J X]]]]; [left; exists g; cbn; tauto|right; split; [exact I|exists g; cbn; tauto]].
      * intros [[g [[<-|I] [N X]]]|[I [g [[<-|J] N]]]]; [congruence|left; eauto|congruence|right; eauto].
    + apply N.eqb_neq in O. destruct (ac_parents ac f) as [l|] eqn:A; [|discriminate].
      destruct (refs ac fs []) as [m|] eqn:R; [|discriminate]. inversion E; subst; clear E.
      fold (has1 (op f)). fold (has2 (op f)). rewrite in_app_iff, !in_app_iff. rewrite (IH [] m p L C R).
      pose proof (refs_own ac f p l Lf Cf A) as W. cbn [In]. split.
      * intros [X|[X|[X|[[g [I X]]|[[] _]]]]].
        -- left. exists f. split; [now left|]. split; [exact O|]. apply W. now left.
        -- right. split; [exact X|]. exists f. split; [now left|exact O].
        -- left. exists f. split; [now left|]. split; [exact O|]. apply W. now right.
        -- left. exists g. split; [now right|exact X].
      * intros [[g [[<-|I] [N X]]]|[I _]].
        -- apply W in X. tauto.
        -- right; right; right. left. exists g. auto.
        -- tauto.
Qed.
Lemma refs_total : forall ac fs pend ps, premises ac fs = Some ps -> exists r, refs ac fs pend = Some r.
Proof.
  intro ac. induction fs as [|f fs IH]; intros pend ps H; cbn [refs premises] in *; [eauto|].
  destruct (ac_parents ac f) as [l|]; [|discriminate]. destruct (premises ac fs) as [m|]; [|discriminate].
  destruct (N.eqb (op f) DCCnfAddArg); [eapply IH; reflexivity|]. destruct (IH [] m eq_refl) as [r ->]. eauto.
Qed.
Lemma add_args_in : forall fs p, In p (add_args fs) <-> exists f, In f fs /\ op f = DCCnfAddArg /\ In p (arg_node (arg1 f)).
Proof.
  intros fs p. unfold add_args. rewrite in_flat_map. split.
  - intros [f [I X]]. destruct (N.eqb (op f) DCCnfAddArg) eqn:E; [|destruct X]. apply N.eqb_eq in E. eauto.
  - intros [f [I [E X]]]. exists f. split; [exact I|]. now rewrite E.
Qed.
Lemma refs_premises : forall ac fs ps r p, Forall loose fs -> Forall code_ok fs -> (forall f, hd_error fs = Some f -> op f <> DCCnfAddArg) -> fs <> [] ->
  premises ac fs = Some ps -> refs ac fs (add_args fs) = Some r -> (In p r <-> In p ps).
Proof.
  intros ac fs ps r p L C HD NE P R. rewrite (refs_in ac fs (add_args fs) r p L C R), (premises_in ac fs ps p P). split.
  - intros [[f [I [_ X]]]|[I _]]; [exists f; auto|]. apply add_args_in in I. destruct I as [f [I [_ X]]]. exists f. auto.
  - intros [f [I X]]. destruct (N.eqb (op f) DCCnfAddArg) eqn:O.
    + apply N.eqb_eq in O. right. split.
      * apply add_args_in. exists f. split; [exact I|]. split; [exact O|]. destruct X as [X|[X|[l [A X]]]]; [exact X| |].
        -- rewrite Forall_forall in L. destruct (L f I) as [_ L2]. rewrite L2 in X; [destruct X|]. rewrite O. reflexivity.
        -- unfold ac_parents in A. rewrite O in A. cbn in A. inversion A; subst. destruct X.
      * destruct fs as [|g fs]; [contradiction|]. exists g. split; [now left|]. now apply HD.
    + apply N.eqb_neq in O. left. exists f. auto.
Qed.
Lemma printed_comp : forall ac H0, (forall n l, H0 n = Some l -> stack_ok ac l) -> forall rank,
  (forall n ps p, parents ac H0 n = Some ps -> In p ps -> rank p < rank n) -> forall H n, H n = comp H0 rank n ->
  exists r, printed_refs ac H n = Some r /\ forall p, In p r <-> In p (G ac H0 rank n).
Proof.
  intros ac H0 STK rank RK H n E. unfold printed_refs, G. rewrite E. unfold comp. destruct (H0 n) as [l0|] eqn:E0.
  2:{ exists []. split; [reflexivity|]. tauto. }
  destruct (STK n l0 E0) as [fs [D [NE [P [HD C]]]]]. rewrite D.
  rewrite (frames_map (F H0 rank) l0 fs (F_kind ac H0 rank RK) D).
  destruct (premises ac fs) as [ps|] eqn:Q; [|contradiction]. destruct (premises_map (F H0 rank) ac fs ps Q) as [q Q']. rewrite Q'.
  destruct (refs_total ac (map (fmap (F H0 rank)) fs) (add_args (map (fmap (F H0 rank)) fs)) q Q') as [r R]. exists r. split; [exact R|].
  intro p. rewrite popped_in. apply (refs_premises ac (map (fmap (F H0 rank)) fs)); auto.
  - eapply frames_loose. eapply frames_map; [apply (F_kind ac H0 rank RK)|exact D].
  - rewrite Forall_forall in C |- *. intros f I. apply in_map_iff in I. destruct I as [g [<- I]]. exact (C g I).
  - intros f X. destruct fs as [|g fs]; cbn in X; [discriminate|]. inversion X; subst. cbn. now apply HD.
  - intro X. apply NE. destruct fs; [reflexivity|discriminate].
Qed.

(** ** Names *)
Lemma number_fst : forall l i, map fst (number i l) = l.
Proof. induction l as [|n l IH]; intro i; cbn; [reflexivity|]. now rewrite IH. Qed.
Lemma ident_out : forall l i n r, ~ In n l -> fold_left (fun r p => if node_eqb (fst p) n then snd p else r) (number i l) r = r.
Proof.
  induction l as [|m l IH]; intros i n r N; cbn; [reflexivity|]. rewrite eqb_neq by (intros ->; apply N; now left).
  apply IH. intro I. apply N. now right.
Qed.
Lemma ident_at : forall l i n l1 l2, NoDup l -> l = l1 ++ n :: l2 -> ident (number i l) n = (i + Z.of_nat (length l1))%Z.
Proof.
  unfold ident. intros l i n l1 l2 ND E. subst l. generalize (-1)%Z. revert i. induction l1 as [|m l1 IH]; intros i r; cbn in *.
  - rewrite eqb_refl. apply NoDup_cons_iff in ND. rewrite ident_out by tauto. lia.
  - apply NoDup_cons_iff in ND. destruct ND as [N ND]. rewrite (IH ND). lia.
Qed.
Lemma max_fold : forall A l m, (m <= fold_left (fun m n => match n with Fm p => Z.max m (id_counter (input_name A p)) | Cl _ => m end) l m)%Z /\
  forall p, In (Fm p) l -> (id_counter (input_name A p) <= fold_left (fun m n => match n with Fm p => Z.max m (id_counter (input_name A p)) | Cl _ => m end) l m)%Z.
Proof.
  intro A. induction l as [|n l IH]; intro m; cbn; [split; [lia|intros p []]|].
  destruct (IH (match n with Fm p => Z.max m (id_counter (input_name A p)) | Cl _ => m end)) as [I1 I2]. split.
  - destruct n; lia.
  - intros p [->|I]; [lia|auto].
Qed.
Lemma digit_char : forall c, is_digit c -> is_blank c = false /\ c <> "-"%char /\ c <> "+"%char /\ digit c <> None.
Proof. unfold is_digit; cbn; intros c H. repeat (destruct H as [<-|H]; [repeat split; try reflexivity; discriminate|]). destruct H. Qed.
Lemma read_digits : forall u acc, read_num (Z.of_nat acc) (digits u) = (Z.of_nat (Nat.of_uint_acc u acc), EmptyString).
Proof.
  assert (T : forall a d, (10 * Z.of_nat a + Z.of_nat d)%Z = Z.of_nat (d + 10 * a)) by (intros; lia).
  induction u; intro acc; cbn [digits read_num Nat.of_uint_acc]; try reflexivity;
    rewrite Nat.tail_mul_spec;
    match goal with |- context [digit ?c] => let v := eval vm_compute in (digit c) in change (digit c) with v end; cbn match;
    rewrite <- IHu; f_equal; lia.
Qed.
Lemma read_print : forall n, strtol (print_nat n) = (Z.of_nat n, EmptyString).
Proof.
  intro n. unfold strtol. pose proof (print_nat_digit n) as D. pose proof (read_digits (Nat.to_uint n) 0) as R.
  fold (print_nat n) in R. change (Nat.of_uint_acc (Nat.to_uint n) 0) with (Nat.of_uint (Nat.to_uint n)) in R.
  rewrite DecimalNat.Unsigned.of_to in R.
  destruct (print_nat n) as [|c s] eqn:E.
  - exfalso. unfold print_nat in E. destruct (Nat.to_uint n) eqn:U; try discriminate. pose proof (DecimalNat.Unsigned.of_to n) as W. rewrite U in W. cbn in W. subst n. discriminate U.
  - destruct (digit_char c) as [B1 [B2 [B3 B4]]]; [apply D; now left|].
    cbn [skip_blanks]. rewrite B1.
    assert (X : (match c with "-"%char => (true, s) | "+"%char => (false, s) | _ => (false, String c s) end) = (false, String c s)).
    { clear - B2 B3. destruct c as [[] [] [] [] [] [] [] []]; try reflexivity; congruence. }
    rewrite X. cbn [starts_digit]. destruct (digit c) eqn:DC; [|congruence]. change 0%Z with (Z.of_nat 0). rewrite R. reflexivity.
Qed.
Lemma counter_c_name : forall i, (0 <= i)%Z -> id_counter (Some (c_name i)) = i.
Proof.
  intros i L. unfold c_name, print_Z. rewrite (proj2 (Z.ltb_ge i 0) L). cbn [append id_counter Ascii.eqb Bool.eqb orb].
  change (digit "0") with (Some 0%Z). cbn match.
  assert (X : strtol (String "_" (print_nat (Z.to_nat i))) = (0%Z, String "_" (print_nat (Z.to_nat i)))) by reflexivity.
  rewrite X. cbn [snd]. rewrite read_print. rewrite Z2Nat.id by exact L. reflexivity.
Qed.
Lemma c_name_inj : forall i j, c_name i = c_name j -> i = j.
Proof. intros i j E. unfold c_name in E. cbn in E. inversion E. now apply print_Z_inj. Qed.
