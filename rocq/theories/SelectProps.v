(** C33: clause selection is fair. *)
From Verif Require Import Splay SplayProofs Select SelectProofs SelectFairProofs.
From Coq Require Import Lia Sorted.
Open Scope Z_scope.

Section Heuristic.
  Variable qs : list (wfun * Z).
  Hypothesis POS : forall q, In q qs -> 0 < snd q.
  Hypothesis NE : qs <> [].
  Notation h := (hcb_of qs).
  Lemma reach_inv st : reachable h st -> inv h st /\ cur_ok qs st.
  Proof.
    intros [os [ev [O R]]]. destruct (run_total qs POS NE os init (inv_init h) (cur_init qs POS NE) O) as [st1 [ev1 [R1 IK]]]. congruence.
  Qed.
End Heuristic.

(** Every history of insertions, deletions, re-evaluations and selections runs to its end: the loops of the selection functions stop. *)
Theorem C33_terminates qs os : (forall q, In q qs -> 0 < snd q) -> qs <> [] -> run_ok (hcb_of qs) init os -> exists st ev, run (hcb_of qs) init os = Some (st, ev).
Proof. intros P N O. destruct (run_total qs P N os init (inv_init _) (cur_init qs P N) O) as [st [ev [R _]]]. eauto. Qed.

(** Fairness, with a bound: if a FIFO queue with constant priority is in the heuristic, a clause that is waiting is selected or removed
    at the latest after (number of waiting clauses + number of preferred clauses that come later) * (length of a round) selections. *)
Theorem C33_fair qs f id prio s st c os st' ev :
  (forall q, In q qs -> 0 < snd q) ->
  nth_error qs f = Some (Fifo id prio, s) -> (forall n d, prio n d = PrioNormal) ->
  reachable (hcb_of qs) st -> In c (waiting st) ->
  run_ok (hcb_of qs) st os -> run (hcb_of qs) st os = Some (st', ev) ->
  Z.of_nat (length (waiting st) + all_preferred os) * round qs <= Z.of_nat (selections os) ->
  In (Selected c) ev \/ In (Removed c) ev.
Proof.
  intros P Hf CP R Hc O E B. assert (NE : qs <> []) by (intros ->; destruct f; discriminate).
  destruct (reach_inv qs P NE st R) as [I K]. exact (fair qs P NE f id prio s Hf CP os st c st' ev I K O Hc E B).
Qed.

(** The selection itself: the clauses skipped are orphans, and the clause selected is the best of the others in the current queue.
    Nothing is selected only if all waiting clauses are orphans. *)
Theorem C33_best qs st orph : (forall q, In q qs -> 0 < snd q) -> qs <> [] -> reachable (hcb_of qs) st ->
  exists st' l, (forall d, In d l -> In d (waiting st) /\ orph d = true) /\
    (step (hcb_of qs) st (OSelect orph) = Some (st', map Removed l) /\ waiting st' = [] /\ (forall d, In d (waiting st) -> In d l) \/
     exists c e, step (hcb_of qs) st (OSelect orph) = Some (st', map Removed l ++ [Selected c]) /\ In (c, e) (u_list st) /\ orph c = false /\
       (forall d, In d (waiting st') <-> In d (waiting st) /\ ~ In d l /\ d <> c) /\
       forall d e', In (d, e') (u_list st) -> ~ In d l -> d <> c -> better (ekey (s_cur st) e) (ekey (s_cur st) e')).
Proof.
  intros P NE R. destruct (reach_inv qs P NE st R) as [I K]. destruct (select_total qs P NE orph st I K) as [r [st1 [l [E [I1 [K1 [C1 [L1 [OR B]]]]]]]]].
  cbn [step]. rewrite E.
  assert (G : forall q, In q (u_list st1) <-> In q (u_list st) /\ ~ In (fst q) l).
  { intros q. rewrite L1, filter_In. unfold gone. rewrite negb_true_iff. split; intros [A X]; split; auto.
    - intros Y. apply memb_in in Y. congruence.
    - destruct (memb l (fst q)) eqn:Y; auto. apply memb_in in Y. tauto. }
  destruct r as [c|].
  - destruct B as [O [e [Hc B]]]. exists (extract_entry st1 c), l. split; auto. right. exists c, e. split; auto.
    split; [apply G in Hc; tauto|]. split; auto. split.
    + intros d. rewrite waiting_extract, filter_In. unfold waiting. rewrite !in_map_iff. rewrite negb_true_iff, Nat.eqb_neq. split.
      * intros [[q [<- Hq]] N]. apply G in Hq. split; [exists q; tauto|]. tauto.
      * intros [[q [<- Hq]] [N1 N2]]. split; auto. exists q. split; auto. apply G. auto.
    + intros d e' Hd N1 N2. assert (X : In (d, e') (u_list st1)) by (apply G; auto). specialize (B d e' X N2).
      destruct (ekey (s_cur st) e) as [[p1 h1] n1], (ekey (s_cur st) e') as [[p2 h2] n2]. apply eval_cmp_lt in B. simpl. lia.
  - exists st1, l. split; auto. left. split; auto. split; [unfold waiting; rewrite B; auto|]. intros d Hd. apply in_map_iff in Hd. destruct Hd as [q [<- Hq]].
    destruct (in_dec Nat.eq_dec (fst q) l) as [|N]; auto. assert (X : In q (u_list st1)) by (apply G; auto). rewrite B in X. destruct X.
Qed.

(** In every round of selections, wherever it starts, every queue is used exactly as often as its share says. *)
Theorem C33_shares qs i w s st os : (forall q, In q qs -> 0 < snd q) -> nth_error qs i = Some (w, s) ->
  reachable (hcb_of qs) st -> run_ok (hcb_of qs) st os -> Z.of_nat (selections os) = round qs ->
  Z.of_nat (count_occ Nat.eq_dec (turns (hcb_of qs) st os) i) = s.
Proof.
  intros P Hi R O E. assert (NE : qs <> []) by (intros ->; destruct i; discriminate). destruct (reach_inv qs P NE st R) as [I K].
  exact (shares qs P NE i w s st os Hi I K O E).
Qed.

(** Clauses leave the set only as the events say, and new clauses are in the set. *)
Theorem C33_contents qs st o st' ev : (forall q, In q qs -> 0 < snd q) -> qs <> [] -> reachable (hcb_of qs) st -> op_ok st o ->
  step (hcb_of qs) st o = Some (st', ev) ->
  NoDup (waiting st') /\
  (forall c, In (Selected c) ev -> In c (waiting st) /\ ~ In c (waiting st')) /\
  (forall c, In (Removed c) ev -> ~ In c (waiting st')) /\
  (forall c, In c (waiting st) -> In c (waiting st') \/ In (Selected c) ev \/ In (Removed c) ev) /\
  (forall c, In c (waiting st') <-> (In c (waiting st) /\ ~ In (Selected c) ev /\ ~ In (Removed c) ev) \/
     match o with ONew cs => In c (map fst cs) | OInitial d _ => c = d | _ => False end).
Proof.
  intros P NE R O E. destruct (reach_inv qs P NE st R) as [I K].
  destruct (step_total qs P NE st o I K O) as [s1 [e1 [E1 [I1 _]]]]. assert (X : (s1, e1) = (st', ev)) by congruence. inversion X; subst. clear X E1.
  split; [apply I1|]. destruct o as [cs|d b|d|sf| |orph]; cbn [step] in E.
  - inversion E; subst. destruct O as [O1 O2]. rewrite batch_one. destruct (fold_insert_spec qs cs st I O1 O2) as [_ [-> _]]. simpl.
    repeat split; try tauto; intros; rewrite ?in_app_iff in *; tauto.
  - destruct (evaluate (hcb_of qs) st d b) as [e st2] eqn:E2. inversion E; subst. destruct (initial_spec qs st d b e st2 I O E2) as [_ [L2 _]].
    unfold waiting, insert_entry. simpl. rewrite L2, map_app. simpl. repeat split; try tauto; intros; rewrite ?in_app_iff in *; simpl in *; intuition.
  - inversion E; subst. rewrite waiting_extract. simpl.
    repeat split; try (intros c [H|[]]; inversion H; subst; rewrite filter_In, Nat.eqb_refl; intros [_ H']; discriminate).
    + destruct H as [H|[]]; discriminate.
    + destruct H as [H|[]]; discriminate.
    + intros c H. rewrite filter_In. destruct (Nat.eqb_spec c d) as [->|]; auto.
    + rewrite filter_In. intros [H N]. left. split; auto. rewrite negb_true_iff, Nat.eqb_neq in N. split; intros [X|[]]; inversion X; congruence.
    + rewrite filter_In. intros [[H [N1 N2]]|[]]. split; auto. destruct (Nat.eqb_spec c d) as [->|]; auto; exfalso; auto.
  - inversion E; subst. destruct (reweight_spec qs (memb sf) st I) as [_ [-> _]]. simpl. repeat split; tauto.
  - inversion E; subst. unfold waiting. simpl. repeat split; tauto.
  - destruct (C33_best qs st orph P NE R) as [st1 [l [OR B]]]. cbn [step] in B. destruct B as [[B [W A]]|[c [e [B [Hc [O1 [W A]]]]]]]; rewrite B in E; inversion E; subst.
    + rewrite W. simpl. repeat split; try tauto; intros.
      * apply in_map_iff in H. destruct H as [? [H _]]. discriminate.
      * right. right. apply in_map. auto.
      * destruct H as [[H [_ N]]|[]]. apply N. apply in_map. auto.
    + assert (Q1 : forall d, In (Selected d) (map Removed l ++ [Selected c]) <-> d = c).
      { intros d. rewrite in_app_iff, in_map_iff. simpl. split; [intros [[? [H _]]|[H|[]]]; congruence|intros ->; auto]. }
      assert (Q2 : forall d, In (Removed d) (map Removed l ++ [Selected c]) <-> In d l).
      { intros d. rewrite in_app_iff, in_map_iff. simpl. split; [intros [[x [H Hx]]|[H|[]]]; [inversion H; subst; auto|discriminate]|intros H; left; eauto]. }
      assert (Wc : In c (waiting st)) by (apply (in_map fst) in Hc; auto).
      split; [intros d; rewrite Q1, W; intros ->; tauto|]. split; [intros d; rewrite Q2, W; tauto|].
      split; [intros d Hd; rewrite Q1, Q2, W; destruct (Nat.eq_dec d c); destruct (in_dec Nat.eq_dec d l); tauto|]. intros d. rewrite Q1, Q2, W. tauto.
Qed.

(** The constant priority is needed: with a FIFO queue whose priority function prefers some clauses (as PreferGoals does), a clause can
    wait for ever although no clause is an initial or semantically false one. *)
Definition goals_first (n : Z) (c : cid) : Z := if Nat.even c then 30 else PrioNormal.
Definition unfair : list (wfun * Z) := [(Fifo 0 goals_first, 1)].
Fixpoint starve (n : nat) : list op := match n with O => [] | S m => ONew [(2%nat, false)] :: OSelect (fun _ => false) :: starve m end.
Theorem C33_priority_refuted : exists st, reachable (hcb_of unfair) st /\ In 1%nat (waiting st) /\
  forall n, exists os st' ev, run_ok (hcb_of unfair) st os /\ run (hcb_of unfair) st os = Some (st', ev) /\ selections os = n /\ all_preferred os = 0%nat /\
    In 1%nat (waiting st') /\ ~ In (Selected 1%nat) ev /\ ~ In (Removed 1%nat) ev.
Proof.
  exists (insert_batch (hcb_of unfair) init [(1%nat, false)]). split.
  { exists [ONew [(1%nat, false)]], []. split; [|reflexivity]. simpl. split; auto. split; [repeat constructor; simpl; tauto|]. intros c [<-|[]] []. }
  split; [simpl; auto|].
  set (st0 := insert_batch (hcb_of unfair) init [(1%nat, false)]).
  assert (G : forall n st hv ct, u_list st = [(1%nat, mkeval ct [(PrioNormal, hv)])] -> u_trees st 0%nat = Node Leaf (PrioNormal, hv, ct) 1%nat Leaf -> s_cur st = 0%nat ->
    exists st' ev, run_ok (hcb_of unfair) st (starve n) /\ run (hcb_of unfair) st (starve n) = Some (st', ev) /\ In 1%nat (waiting st') /\ ~ In (Selected 1%nat) ev /\ ~ In (Removed 1%nat) ev).
  { induction n as [|n IH]; intros st hv ct EL ET EC.
    - exists st, []. unfold waiting. rewrite EL. simpl. tauto.
    - destruct st as [ul ut cur cnt evs ff]. cbn [u_list u_trees s_cur] in *. subst ul cur.
      set (st1 := insert_batch (hcb_of unfair) (mks [(1%nat, mkeval ct [(PrioNormal, hv)])] ut 0 cnt evs ff) [(2%nat, false)]).
      assert (S1 : exists st2, step (hcb_of unfair) st1 (OSelect (fun _ => false)) = Some (st2, [Selected 2%nat]) /\
        u_list st2 = [(1%nat, mkeval ct [(PrioNormal, hv)])] /\ u_trees st2 0%nat = Node Leaf (PrioNormal, hv, ct) 1%nat Leaf /\ s_cur st2 = 0%nat).
      { set (V := to_float (dsucc (ff 0%nat))).
        assert (TR : u_trees st1 0%nat = Node Leaf (30, V, evs) 2%nat (Node Leaf (PrioNormal, hv, ct) 1%nat Leaf)).
        { change (u_trees st1 0%nat) with (snd (insert key cid eval_cmp (ut 0%nat) (30, V, evs) 2%nat)). rewrite ET. reflexivity. }
        assert (FB : find_best st1 0 = Some 2%nat) by (unfold find_best; rewrite TR; reflexivity).
        assert (SK : skip_orphans (S (length (u_list st1))) (fun _ => false) st1 = Some (Some 2%nat, st1, [])).
        { cbn [skip_orphans]. change (s_cur st1) with 0%nat. rewrite FB. reflexivity. }
        exists (extract_entry st1 2%nat). split; [unfold step, hcb_select; rewrite SK; reflexivity|]. split; [rewrite list_extract; reflexivity|]. split; [|reflexivity].
        change (u_trees (extract_entry st1 2%nat) 0%nat) with (snd (extract key cid eval_cmp (u_trees st1 0%nat) (30, V, evs))). rewrite TR.
        unfold extract, splay. cbn [sloop]. replace (eval_cmp (30, V, evs) (30, V, evs)) with Eq by (symmetry; apply eval_cmp_eq; auto).
        cbn [assemble asml asmr]. replace (eval_cmp (30, V, evs) (30, V, evs)) with Eq by (symmetry; apply eval_cmp_eq; auto). reflexivity. }
      destruct S1 as [st2 [S1 [L2 [T2 C2]]]]. destruct (IH st2 hv ct L2 T2 C2) as [st' [ev [O [R [W [N1 N2]]]]]].
      cbn [starve]. exists st', ([] ++ [Selected 2%nat] ++ ev). split; [|split; [|split; [auto|]]].
      + cbn [run_ok step]. fold st1. split; [split; [repeat constructor; simpl; tauto|intros c [<-|[]] [H|[]]; discriminate]|]. split; [exact Logic.I|].
        cbn [step] in S1. rewrite S1. auto.
      + cbn [run]. unfold step at 1. fold st1. rewrite S1, R. auto.
      + simpl. split; intros [H|H]; auto; discriminate. }
  intros n. destruct (G n st0 1 0 eq_refl) as [st' [ev [A B]]]; [reflexivity|reflexivity|].
  exists (starve n), st', ev. split; [exact A|]. destruct B as [B C]. split; [exact B|].
  split; [clear; induction n as [|n IH]; auto; unfold selections in *; cbn; rewrite IH; auto|].
  split; [clear; induction n as [|n IH]; auto|exact C].
Qed.

(** ** Examples *)
(** (3*weight, 1*FIFO): clause 0 is heavy, and selected by the FIFO queue *)
Definition q31 : list (wfun * Z) := [(Weight (fun _ _ => PrioNormal) (fun _ c => match c with O => 1000 | _ => Z.of_nat c end), 3); (Fifo 0 (fun _ _ => PrioNormal), 1)].
Definition sel := OSelect (fun c => Nat.eqb c 4).
Definition hist1 : list op := [ONew [(0, false); (1, false)]; ONew [(2, false); (3, false); (4, false)]; OReweight [3]; OInitial 5 false; sel]%nat.
Definition hist2 : list op := [sel; ONew [(6, false)]; sel; ODelete 9; sel; sel; sel; OOtherEval; sel]%nat.
(** 5 is an initial clause, 3 was semantically false; 0 is the oldest, 1, 2 and 6 are light, 4 is an orphan *)
Example C33_ex_run : option_map (fun r => (waiting (fst r), snd r)) (run (hcb_of q31) init (hist1 ++ hist2))
  = Some ([], [Selected 5; Selected 3; Selected 1; Removed 9; Selected 0; Selected 2; Removed 4; Selected 6]%nat).
Proof. vm_compute. reflexivity. Qed.
Example C33_ex_ok : run_ok (hcb_of q31) init (hist1 ++ hist2).
Proof. vm_compute. repeat split; repeat constructor; cbn; intuition (try discriminate); subst; intuition discriminate. Qed.
Example C33_ex_pos : forall q, In q q31 -> 0 < snd q.
Proof. intros q [<-|[<-|[]]]; reflexivity. Qed.
(** a state and a clause to which C33_fair applies *)
Example C33_ex_fair : exists st, reachable (hcb_of q31) st /\ In 0%nat (waiting st) /\ length (waiting st) = 5%nat /\
  run_ok (hcb_of q31) st (repeat sel 20) /\ Z.of_nat (5 + all_preferred (repeat sel 20)) * round q31 <= Z.of_nat (selections (repeat sel 20)).
Proof.
  destruct (run (hcb_of q31) init hist1) as [[st ev]|] eqn:E; [|vm_compute in E; discriminate].
  exists st. split; [exists hist1, ev; split; [apply (run_ok_app q31 hist1 init hist2 st ev E), C33_ex_ok|exact E]|].
  assert (W : option_map (fun r => waiting (fst r)) (run (hcb_of q31) init hist1) = Some [0; 1; 2; 3; 4]%nat) by (vm_compute; reflexivity).
  rewrite E in W. cbn [option_map fst] in W. inversion W as [W']. rewrite W'. split; [simpl; auto|]. split; [reflexivity|]. split.
  - generalize 20%nat. clear. intros n. revert st. induction n as [|n IH]; intros st; cbn [repeat run_ok]; [exact Logic.I|]. split; [exact Logic.I|].
    destruct (step _ _ _) as [[st1 ?]|]; [apply IH|exact Logic.I].
  - vm_compute. discriminate.
Qed.
(** the rounding of the FIFO counter to float: 2^24 + 1 becomes 2^24, and the order of insertion still decides *)
Example C33_ex_float : to_float (2 ^ 24 + 1) = 2 ^ 24 /\ to_float (2 ^ 24 + 3) = 2 ^ 24 + 4 /\ dsucc (2 ^ 53) = 2 ^ 53.
Proof. vm_compute. auto. Qed.

Print Assumptions C33_terminates.
Print Assumptions C33_fair.
Print Assumptions C33_best.
Print Assumptions C33_shares.
Print Assumptions C33_contents.
Print Assumptions C33_priority_refuted.
