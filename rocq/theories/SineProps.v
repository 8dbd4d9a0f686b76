(** * C54: axiom selection (SInE, relevancy pruning) keeps what it promises, and never leads to a wrong verdict.

    [triggered ... k i]: axiom [i] is reached from the seeds in [k] steps (specification in Sine.v); [linked ... k i]: it shares symbols with a
    goal over [k] steps. *)
From Coq Require Import Permutation Sorted.
From Verif Require Import Sine SineProofs.

(** ** The symbols that trigger an axiom *)

(** An axiom is filed under those of its symbols that are at most [ben] times as general as its least general one, and for which at most
    [generosity] of its symbols are strictly less general.  [ben] is multiplication by the benevolence (any function). *)
Theorem C54_filed gen internal ben generosity sort symbols :
  (forall l, Permutation (sort l) l /\ StronglySorted (fun a b => (gen a <= gen b)%Z) (sort l)) ->
  forall t, In t (d_symbols internal gen ben generosity sort symbols) <->
    In t symbols /\ internal <= t /\
    (forall s, In s symbols -> internal <= s -> (forall u, In u symbols -> internal <= u -> (gen s <= gen u)%Z) -> (gen t <= ben (gen s))%Z) /\
    length (filter (fun u => (internal <=? u) && (gen u <? gen t)%Z) symbols) <= generosity.
Proof. apply d_symbols_spec. Qed.
(** so with a benevolence of at least 1 every axiom with a symbol of the user's is filed under its least general one *)
Theorem C54_filed_least gen internal ben generosity sort symbols s :
  (forall l, Permutation (sort l) l /\ StronglySorted (fun a b => (gen a <= gen b)%Z) (sort l)) -> (forall z, (z <= ben z)%Z) ->
  In s symbols -> internal <= s -> (forall u, In u symbols -> internal <= u -> (gen s <= gen u)%Z) -> In s (d_symbols internal gen ben generosity sort symbols).
Proof.
  intros HS HB A B C. apply d_symbols_spec; auto. split; auto. split; auto. split.
  - intros s' A' B' C'. specialize (C s' A' B'). specialize (HB (gen s')). lia.
  - rewrite filter_none; [cbn; lia|]. intros x Hx. apply andb_false_iff. destruct (Nat.leb_spec internal x); auto. right. apply Z.ltb_ge. auto.
Qed.

(** ** SInE *)
Section SInE.
  Variables (internal : nat) (symbols dsyms : item -> list nat) (axioms seeds : list item) (max_depth max_size : Z).
  Notation select fuel := (select_defining internal symbols dsyms axioms fuel max_depth max_size seeds).
  Notation R := (triggered internal symbols dsyms axioms seeds).
  (** the selection ends *)
  Theorem C54_selection_ends : exists N, forall fuel, N <= fuel -> exists l, select fuel = Some l.
  Proof. apply select_total. Qed.

  Lemma select_done fuel l : NoDup seeds -> select fuel = Some l -> done internal symbols dsyms axioms seeds max_depth max_size l.
  Proof.
    intros ND H. unfold select_defining in H. destruct (select_loop _ _ _ _ _ _ _ _) as [st'|] eqn:Q; [|discriminate]. injection H as <-.
    eapply loop_done; [exact ND|apply inv_start|exact Q].
  Qed.
  (** nothing else is selected than what is triggered within the depth, nothing twice, and no more than one above the size limit *)
  Theorem C54_selection_sound fuel l : NoDup seeds -> select fuel = Some l ->
    NoDup l /\ (Z.of_nat (length l) <= Z.max 0 (max_size + 1))%Z /\ forall i, In i l -> exists k, (Z.of_nat k <= max_depth)%Z /\ R k i.
  Proof. intros ND H. destruct (select_done fuel l ND H). auto. Qed.
  (** if the limit on the size is not exceeded, exactly what is triggered within the depth is selected *)
  Theorem C54_selection_exact fuel l : NoDup seeds -> select fuel = Some l -> (Z.of_nat (length l) <= max_size)%Z ->
    forall i, In i l <-> exists k, (Z.of_nat k <= max_depth)%Z /\ R k i.
  Proof. intros ND H HL i. destruct (select_done fuel l ND H) as [A _ B _ _]. split; auto. intros [k [X Y]]. eapply B; eauto. Qed.
  (** the seeds are selected if there are not more than the size limit plus one *)
  Theorem C54_seeds_selected fuel l : NoDup seeds -> select fuel = Some l -> (0 <= max_depth)%Z -> (Z.of_nat (length seeds) <= max_size + 1)%Z -> incl seeds l.
  Proof. intros ND H. destruct (select_done fuel l ND H). auto. Qed.
End SInE.

(** A problem: Cl 0 and Fo 0 are the seeds, symbols from 11 on; 10 is the last internal one.  Fo 1 is triggered by Fo 0, Fo 2 by Fo 1. *)
Definition sy0 (i : item) : list nat := match i with Cl 0 => [12] | Fo 0 => [10; 11] | Fo 1 => [11; 13] | Fo 2 => [13; 14] | Cl 1 => [15] | _ => [] end.
Definition ds0 (i : item) : list nat := match i with Cl 0 => [12] | Fo 0 => [11] | Fo 1 => [11] | Fo 2 => [13] | Cl 1 => [15] | _ => [] end.
Definition ax0 := [Fo 0; Fo 1; Fo 2; Fo 3; Cl 0; Cl 1].
Definition sd0 (i : item) : bool := match i with Cl 0 | Fo 0 => true | _ => false end.
Example sine_deep : select_axioms 10 sy0 ds0 ax0 50 sd0 false 10 1000 = Some [Cl 0; Fo 0; Fo 1; Fo 2].
Proof. vm_compute. reflexivity. Qed.
Example sine_shallow : select_axioms 10 sy0 ds0 ax0 50 sd0 true 1 1000 = Some [Fo 3; Cl 0; Fo 0; Fo 1].
Proof. vm_compute. reflexivity. Qed.
Example seeds_found : seeds_of ax0 sd0 = [Cl 0; Fo 0] /\ NoDup (seeds_of ax0 sd0) /\ select_defining 10 sy0 ds0 ax0 50 10 1000 (seeds_of ax0 sd0) = Some [Cl 0; Fo 0; Fo 1; Fo 2].
Proof. split; [reflexivity|]. split; [|vm_compute; reflexivity]. cbn. repeat constructor; cbn; intuition discriminate. Qed.
Example triggered_twice : triggered 10 sy0 ds0 ax0 [Cl 0; Fo 0] 2 (Fo 2).
Proof. apply (trig_step _ _ _ _ _ 1 (Fo 1) 13); cbn; auto 10; try lia. apply (trig_step _ _ _ _ _ 0 (Fo 0) 11); cbn; auto 10; try lia. constructor. cbn. auto. Qed.
(** Clauses are seeds before formulas: with many hypotheses the conjecture itself is lost. *)
Theorem C54_seed_lost_refuted : exists l, select_axioms 10 sy0 ds0 ax0 50 sd0 false 10 0 = Some l /\ sd0 (Fo 0) = true /\ In (Fo 0) ax0 /\ ~ In (Fo 0) l.
Proof. eexists. split; [vm_compute; reflexivity|]. split; [reflexivity|]. split; [cbn; auto|]. cbn. intuition discriminate. Qed.
(** Symbols are filed from [internal] on, but trigger only above [internal]: an axiom filed under the last internal symbol alone is never found. *)
Theorem C54_boundary_refuted : exists dsyms, In 10 (sy0 (Fo 0)) /\ In (Fo 3) ax0 /\ dsyms (Fo 3) = d_symbols 10 (fun _ => 1%Z) (fun z => z) 10 (fun l => l) [10] /\
  In 10 (dsyms (Fo 3)) /\ (forall i, i <> Fo 3 -> dsyms i = ds0 i) /\ exists l, select_axioms 10 sy0 dsyms ax0 50 sd0 true 10 1000 = Some l /\ ~ In (Fo 3) l.
Proof.
  exists (fun i => match i with Fo 3 => [10] | _ => ds0 i end). split; [cbn; auto|]. split; [cbn; auto 10|]. split; [reflexivity|]. split; [cbn; auto|]. split.
  - intros [i|[|[|[|[|i]]]]] H; auto; congruence.
  - eexists. split; [vm_compute; reflexivity|]. cbn. intuition discriminate.
Qed.

(** ** The axioms that are left, and their number *)
Lemma sub_axioms_in (axioms : list item) P : incl (filter P axioms) axioms.
Proof. intros i Hi. apply filter_In in Hi. tauto. Qed.
Lemma select_in internal symbols dsyms axioms fuel seed nosym depth size l : NoDup axioms ->
  select_axioms internal symbols dsyms axioms fuel seed nosym depth size = Some l -> incl l axioms.
Proof.
  intros ND H. unfold select_axioms in H.
  assert (IN : incl (seeds_of axioms seed) axioms).
  { intros i Hi. unfold seeds_of in Hi. apply filter_In in Hi. destruct Hi as [Hi _]. apply in_app_or in Hi. rewrite !filter_In in Hi. tauto. }
  assert (NS : NoDup (seeds_of axioms seed)).
  { unfold seeds_of. apply NoDup_filter. eapply Permutation_NoDup; [apply Permutation_sym, filter_split|auto]. }
  destruct (seeds_of axioms seed) as [|s ss] eqn:Q; [injection H as <-; intros i []|].
  destruct (select_defining _ _ _ _ _ _ _ _) as [l'|] eqn:QS; [|discriminate]. injection H as <-.
  destruct (C54_selection_sound _ _ _ _ _ _ _ _ _ NS QS) as [_ [_ C]]. intros i Hi. apply in_app_or in Hi. destruct Hi as [Hi|Hi].
  - destruct nosym; [|destruct Hi]. apply in_drel in Hi. tauto.
  - destruct (C i Hi) as [k [_ X]]. inversion X; subst; auto.
Qed.
(** every filter: the rest is a part of the axioms, and the reported number of lost axioms is 0 exactly if none is lost *)
Theorem C54_sine_count fuel f axioms new n : NoDup axioms -> sine fuel f axioms = Some (new, n) ->
  NoDup new /\ incl new axioms /\ (0 <= n)%Z /\ (n = 0%Z <-> incl axioms new).
Proof.
  intros ND H. unfold sine in H. destruct f as [f|]; [|injection H as <- <-; split; auto; split; [apply incl_refl|]; split; [lia|]; split; auto; intros _; apply incl_refl].
  destruct (get_problem fuel f axioms) as [l|] eqn:Q; [|discriminate]. injection H as <- <-. destruct (moved_spec l) as [A B].
  assert (IL : incl l axioms).
  { destruct f; cbn [get_problem] in Q.
    - eapply select_in; eauto.
    - injection Q as <-. destruct (_ <=? _)%Z; [apply incl_refl|intros i []].
    - injection Q as <-. apply sub_axioms_in. }
  assert (IM : incl (moved l) axioms) by (intros i Hi; apply IL, B; auto).
  split; auto. split; auto. apply lost_spec; auto.
Qed.
(** every filter ends *)
Theorem C54_sine_ends f axioms : exists N, forall fuel, N <= fuel -> exists new n, sine fuel f axioms = Some (new, n).
Proof.
  destruct f as [f|]; [|exists 0; intros fuel _; cbn; eauto]. unfold sine.
  assert (G : exists N, forall fuel, N <= fuel -> exists l, get_problem fuel f axioms = Some l).
  { destruct f as [internal symbols dsyms seed nosym depth size|t|w]; cbn [get_problem]; [|exists 0; eauto|exists 0; eauto].
    unfold select_axioms. destruct (seeds_of axioms seed) as [|s ss]; [exists 0; eauto|].
    destruct (C54_selection_ends internal symbols dsyms axioms (s :: ss) depth size) as [N X]. exists N. intros fuel Hf. destruct (X fuel Hf) as [l ->]. cbn. eauto. }
  destruct G as [N G]. exists N. intros fuel Hf. destruct (G fuel Hf) as [l ->]. eauto.
Qed.
Example sine_lost : exists new, sine 50 (Some (GSinE 10 sy0 ds0 sd0 false 10 1000)) ax0 = Some (new, 2%Z) /\ NoDup ax0.
Proof. eexists. split; [vm_compute; reflexivity|]. repeat constructor; cbn; intuition discriminate. Qed.

(** ** Relevancy pruning *)
Theorem C54_relevancy codes goal level axioms new n : NoDup axioms -> (0 < level)%Z -> relevancy codes goal level axioms = Some (new, n) ->
  (forall k i, (Z.of_nat k < level)%Z -> linked codes goal axioms k i -> In i new) /\
  (n <> 0%Z -> forall i, In i new -> exists k, (Z.of_nat k < level)%Z /\ linked codes goal axioms k i).
Proof.
  intros ND HL H. unfold relevancy in H. destruct (Z.eqb_spec level 0); [lia|].
  destruct (levels _ _ _ _ _) as [[ls rest]|] eqn:Q; [|discriminate]. injection H as <- <-.
  pose proof (levels_perm _ _ _ _ _ _ _ Q) as PM. pose proof (Permutation_trans PM (filter_split goal axioms)) as PA.
  pose proof (fun h1 h2 h3 h4 h5 h6 h7 h8 h9 => levels_exact codes goal axioms _ _ _ _ _ _ 0 [] Q h1 h2 h3 h4 h5 h6 h7 h8 h9 (Z.to_nat level)) as EX.
  assert (EX' : forall i, (In i (concat (firstn (Z.to_nat level) ls)) -> exists k, k < 0 + Z.to_nat level /\ linked codes goal axioms k i) /\
    (forall k, k < 0 + Z.to_nat level -> linked codes goal axioms k i -> In i [] \/ In i (concat (firstn (Z.to_nat level) ls)))).
  { apply EX; clear EX.
    - intros i Hi. apply filter_In in Hi. constructor; tauto.
    - intros; lia.
    - intros i Hi. inversion Hi; subst. right. apply filter_In. auto.
    - intros i [].
    - intros i f [].
    - intros f [].
    - intros i Hi. right. rewrite !filter_In. destruct (goal i); auto.
    - intros i Hi. rewrite !filter_In in Hi. tauto.
    - intros i f _ _ []. }
  split.
  - intros k i Hk Hi. unfold keep_levels. apply in_or_app. left. destruct (EX' i) as [_ X]. destruct (X k ltac:(lia) Hi) as [[]|Y]; auto.
  - intros NZ i Hi. unfold keep_levels in *. destruct (Nat.ltb_spec (length ls) (Z.to_nat level)) as [Q'|Q'].
    + exfalso. apply NZ. rewrite firstn_all2 by lia. apply Permutation_length in PA. lia.
    + rewrite app_nil_r in Hi. destruct (EX' i) as [X _]. destruct (X Hi) as [k [Y Z]]. exists k. split; auto. lia.
Qed.
Theorem C54_relevancy_count codes goal level axioms new n : NoDup axioms -> relevancy codes goal level axioms = Some (new, n) ->
  NoDup new /\ incl new axioms /\ (0 <= n)%Z /\ (n = 0%Z <-> incl axioms new).
Proof.
  intros ND H. unfold relevancy in H. destruct (Z.eqb_spec level 0); [injection H as <- <-; split; auto; split; [apply incl_refl|]; split; [lia|]; split; auto; intros _; apply incl_refl|].
  destruct (levels _ _ _ _ _) as [[ls rest]|] eqn:Q; [|discriminate]. injection H as <- <-.
  pose proof (levels_perm _ _ _ _ _ _ _ Q) as PM. pose proof (Permutation_trans PM (filter_split goal axioms)) as PA.
  assert (ND' : NoDup (concat ls ++ rest)) by (eapply Permutation_NoDup; [apply Permutation_sym; exact PA|auto]).
  assert (SUB : exists r, Permutation (keep_levels (Z.to_nat level) ls rest ++ r) (concat ls ++ rest)).
  { unfold keep_levels. destruct (Nat.ltb_spec (length ls) (Z.to_nat level)); [exists []; rewrite firstn_all2, app_nil_r by lia; apply Permutation_refl|].
    exists (concat (skipn (Z.to_nat level) ls) ++ rest). rewrite app_nil_r, app_assoc, <- concat_app, firstn_skipn. apply Permutation_refl. }
  destruct SUB as [r SUB].
  assert (NN : NoDup (keep_levels (Z.to_nat level) ls rest)).
  { assert (X : NoDup (keep_levels (Z.to_nat level) ls rest ++ r)) by (eapply Permutation_NoDup; [apply Permutation_sym; exact SUB|auto]).
    clear - X. induction (keep_levels (Z.to_nat level) ls rest) as [|a l IH]; [constructor|]. inversion X; subst. constructor; [rewrite in_app_iff in *; tauto|auto]. }
  assert (II : incl (keep_levels (Z.to_nat level) ls rest) axioms).
  { intros i Hi. apply (Permutation_in _ PA), (Permutation_in _ SUB), in_or_app. auto. }
  split; auto. split; auto. apply lost_spec; auto.
Qed.
Theorem C54_relevancy_ends codes goal level axioms : exists new n, relevancy codes goal level axioms = Some (new, n).
Proof.
  unfold relevancy. destruct (level =? 0)%Z; eauto.
  destruct (levels_total codes (S (length axioms)) (filter goal axioms) (filter (fun i => negb (goal i)) axioms) []) as [ls [r ->]]; [|eauto].
  pose proof (filter_length_le (fun i => negb (goal i)) axioms). lia.
Qed.
Example relevancy_two : relevancy sy0 sd0 2 ax0 = Some ([Fo 0; Cl 0; Fo 1], 3%Z).
Proof. vm_compute. reflexivity. Qed.
Example relevancy_all : relevancy sy0 sd0 9 ax0 = Some ([Fo 0; Cl 0; Fo 1; Fo 2; Fo 3; Cl 1], 0%Z).
Proof. vm_compute. reflexivity. Qed.
Example linked_once : linked sy0 sd0 ax0 1 (Fo 1).
Proof. apply (link_step _ _ _ 0 (Fo 0) 11); cbn; auto 10. constructor; cbn; auto. Qed.
(** a negative level is accepted and removes everything, also the goals *)
Theorem C54_negative_level_refuted : exists n, relevancy sy0 sd0 (-1) ax0 = Some ([], n) /\ sd0 (Fo 0) = true /\ In (Fo 0) ax0.
Proof. eexists. split; [vm_compute; reflexivity|]. cbn. auto. Qed.

(** ** The verdict *)

(** [ok m i]: axiom [i] is true in structure [m].  If the search is right about the axioms it is given, then the status printed is right about
    all axioms of the problem, whatever was pruned. *)
Section Verdict.
  Variables (structure : Type) (ok : structure -> item -> Prop).
  Definition satisfiable (axioms : list item) : Prop := exists m, forall i, In i axioms -> ok m i.
  Theorem C54_verdict fuel f codes goal rlevel s search_on axioms st a2 : NoDup axioms ->
    run fuel f codes goal rlevel s search_on axioms = Some (st, a2) ->
    (success (search_on a2) || answers (search_on a2) = true -> ~ satisfiable a2) ->
    (success (search_on a2) || answers (search_on a2) = false -> out_of_clauses (search_on a2) = true -> deleted_bad (search_on a2) = false -> inf_complete s = true ->
      interpreted s = false -> higher_order s = false -> satisfiable a2) ->
    (st = Theorem_ \/ st = ContradictoryAxioms \/ st = Unsatisfiable -> ~ satisfiable axioms) /\
    (st = Satisfiable \/ st = CounterSatisfiable -> satisfiable axioms) /\
    (st = CounterSatisfiable \/ st = Theorem_ -> negated_conjecture s = true).
  Proof.
    intros ND H HU HS. unfold run in H. destruct (sine fuel f axioms) as [[a1 n1]|] eqn:Q1; [|discriminate]. destruct (relevancy codes goal rlevel a1) as [[a2' n2]|] eqn:Q2; [|discriminate].
    injection H as <- <-. destruct (C54_sine_count _ _ _ _ _ ND Q1) as [N1 [I1 [P1 E1]]]. destruct (C54_relevancy_count _ _ _ _ _ _ N1 Q2) as [N2 [I2 [P2 E2]]].
    unfold verdict. set (r := search_on a2') in *. destruct (success r || answers r) eqn:QS.
    - assert (U : ~ satisfiable axioms) by (intros [m Hm]; apply (HU eq_refl); exists m; auto).
      destruct (negated_conjecture s); [destruct (proof_uses_conjecture r)|]; (split; [auto|]); split; try (intros [X|X]; discriminate X); auto.
    - assert (G : forall b : status, b <> Theorem_ -> b <> ContradictoryAxioms -> b <> Unsatisfiable -> b <> Satisfiable -> b <> CounterSatisfiable ->
        (b = Theorem_ \/ b = ContradictoryAxioms \/ b = Unsatisfiable -> ~ satisfiable axioms) /\ (b = Satisfiable \/ b = CounterSatisfiable -> satisfiable axioms) /\ (b = CounterSatisfiable \/ b = Theorem_ -> negated_conjecture s = true)) by (intros b; intuition congruence).
      destruct (watchlist_done r); [apply G; discriminate|]. destruct (cnf_only s); [apply G; discriminate|]. destruct (out_of_clauses r); [|apply G; discriminate].
      destruct (negb (inf_complete s || assume_complete s)); [apply G; discriminate|].
      destruct (negb (negb (n1 + n2 =? 0)%Z || incomplete_opt s) && negb (deleted_bad r)) eqn:QC; cbn [andb].
      2: { rewrite andb_false_r; apply G; discriminate. }
      apply andb_true_iff in QC. destruct QC as [QC1 QC2]. apply negb_true_iff in QC1, QC2. apply orb_false_iff in QC1. destruct QC1 as [QC1 _]. apply negb_false_iff, Z.eqb_eq in QC1.
      destruct (inf_complete s) eqn:QI; cbn [andb]; [|rewrite andb_false_r; apply G; discriminate]. destruct (interpreted s) eqn:QT; [apply G; discriminate|].
      destruct (higher_order s) eqn:QH; cbn [negb andb]; [apply G; discriminate|].
      assert (U : satisfiable axioms).
      { destruct HS as [m Hm]; auto. exists m. intros i Hi. apply Hm. apply (proj1 E2 ltac:(lia)), (proj1 E1 ltac:(lia)). auto. }
      destruct (negated_conjecture s); (split; [intros [X|[X|X]]; discriminate X|]); split; auto. intros [X|X]; discriminate X.
  Qed.
End Verdict.
Definition set0 := mkset false true false false false false true.
Example run_pruned : exists a2, run 50 (Some (GSinE 10 sy0 ds0 sd0 false 10 1000)) sy0 sd0 0 set0 (fun _ => mksearch false false true false false false) ax0 = Some (GaveUp, a2).
Proof. eexists. vm_compute. reflexivity. Qed.
Example run_full : exists a2, run 50 None sy0 sd0 9 set0 (fun _ => mksearch false false true false false false) ax0 = Some (CounterSatisfiable, a2).
Proof. eexists. vm_compute. reflexivity. Qed.
Example run_proof : exists a2, run 50 (Some (GSinE 10 sy0 ds0 sd0 false 10 1000)) sy0 sd0 2 set0 (fun _ => mksearch true false false false false true) ax0 = Some (Theorem_, a2).
Proof. eexists. vm_compute. reflexivity. Qed.
Example filed_example : d_symbols 10 (fun s => Z.of_nat (s - 10)) (fun z => (2 * z)%Z) 5 (fun l => l) [11; 12; 13; 7] = [11; 12].
Proof. vm_compute. reflexivity. Qed.

Print Assumptions C54_filed.
Print Assumptions C54_filed_least.
Print Assumptions C54_selection_ends.
Print Assumptions C54_selection_sound.
Print Assumptions C54_selection_exact.
Print Assumptions C54_seeds_selected.
Print Assumptions C54_seed_lost_refuted.
Print Assumptions C54_boundary_refuted.
Print Assumptions C54_sine_count.
Print Assumptions C54_sine_ends.
Print Assumptions C54_relevancy.
Print Assumptions C54_relevancy_count.
Print Assumptions C54_relevancy_ends.
Print Assumptions C54_negative_level_refuted.
Print Assumptions C54_verdict.
