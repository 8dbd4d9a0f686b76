(** * Predicate elimination without gates: the tasks know all occurrences (C52). *)
From Coq Require Import Permutation.
From Verif Require Import Terms Unify Semantics Clauses ClausesProofs Taut Split Infer Unfold Bce BceEq BceTotal PredElim PredRes.
Local Open Scope nat_scope.

(** ** Occurrences *)
Definition occ (f : sym) (c : clause) : list eqn := filter (atom_of f) c.
Definition sgn (f : sym) (s : bool) (c : clause) : Prop := exists e, occ f c = [e] /\ pos e = s.
Definition multi (f : sym) (c : clause) : Prop := 2 <= length (occ f c).
Definition occurs (f : sym) (c : clause) : Prop := exists e, In e c /\ atom_of f e = true.
Lemma occurs_occ f c : occurs f c <-> occ f c <> [].
Proof.
  unfold occurs, occ. split.
  - intros [e [I A]] C. assert (X : In e (filter (atom_of f) c)) by (apply filter_In; auto). rewrite C in X. destruct X.
  - destruct (filter (atom_of f) c) as [|e l] eqn:F; [congruence|]. intros _. exists e. apply filter_In. rewrite F. left. auto.
Qed.
Lemma sgn_occurs f s c : sgn f s c -> occurs f c.
Proof. intros [e [H _]]. apply occurs_occ. congruence. Qed.
Lemma multi_occurs f c : multi f c -> occurs f c.
Proof. intros H. apply occurs_occ. unfold multi in H. destruct (occ f c); [cbn in H; lia|discriminate]. Qed.
Lemma sgn_fun f s s' c : sgn f s c -> sgn f s' c -> s = s'.
Proof. intros [e [A B]] [e' [A' B']]. congruence. Qed.
Lemma sgn_multi f s c : sgn f s c -> ~ multi f c.
Proof. intros [e [A _]]. unfold multi. rewrite A. cbn. lia. Qed.
Lemma occurs_cases f c : occurs f c -> sgn f true c \/ sgn f false c \/ multi f c.
Proof.
  intros H. apply occurs_occ in H. unfold sgn, multi. destruct (occ f c) as [|e [|e' l]]; [congruence| |right; right; cbn; lia]. destruct (pos e) eqn:P; eauto.
Qed.
Lemma atom_split f c j e : nth_error c j = Some e -> atom_of f e = true -> Permutation (occ f c) (e :: occ f (except j c)).
Proof.
  revert j. induction c as [|e0 c IH]; intros [|j] H A; cbn in *; try discriminate.
  - injection H as ->. unfold occ. cbn. rewrite A. auto.
  - unfold occ in *. cbn [filter]. specialize (IH j H A). destruct (atom_of f e0); auto. rewrite IH. apply perm_swap.
Qed.
Lemma find_except_spec f c j e : nth_error c j = Some e -> atom_of f e = true ->
  if find_except f c j then multi f c else sgn f (pos e) c.
Proof.
  intros H A. pose proof (atom_split f c j e H A) as P. unfold find_except. destruct (existsb (atom_of f) (except j c)) eqn:X.
  - apply existsb_exists in X. destruct X as [e' [I A']]. unfold multi. rewrite (Permutation_length P). cbn. assert (Y : In e' (occ f (except j c))) by (apply filter_In; auto).
    destruct (occ f (except j c)); [destruct Y|cbn; lia].
  - assert (Y : occ f (except j c) = []).
    { destruct (occ f (except j c)) as [|e' l] eqn:O; auto. assert (I : In e' (occ f (except j c))) by (rewrite O; left; auto). apply filter_In in I. destruct I as [I A'].
      assert (existsb (atom_of f) (except j c) = true) by (apply existsb_exists; eauto). congruence. }
    rewrite Y in P. apply Permutation_sym, Permutation_length_1_inv in P. exists e. auto.
Qed.
Lemma atom_lt f e : atom_of f e = true <-> equlit e = false /\ exists a, lt e = Fun f a.
Proof.
  unfold atom_of. destruct (equlit e); cbn; [split; [discriminate|intros [X _]; discriminate]|]. destruct (lt e) as [x|g a]; [split; [discriminate|intros [_ [a H]]; discriminate]|].
  split; [intros H; apply Nat.eqb_eq in H; subst; split; eauto|intros [_ [a' H]]; injection H as -> ->; apply Nat.eqb_refl].
Qed.

Lemma store_in i l x : In x (store_cl i l) <-> x = i \/ In x l.
Proof. unfold store_cl. destruct (has i l) eqn:H; [apply has_spec in H; split; auto; intros [->|]; auto|]. cbn. split; intros [|]; auto. Qed.
Lemma store_nodup i l : NoDup l -> NoDup (store_cl i l).
Proof. intros H. unfold store_cl. destruct (has i l) eqn:X; auto. constructor; auto. intros C. apply has_spec in C. congruence. Qed.
Lemma remove_in i l x : In x (remove_cl i l) <-> In x l /\ x <> i.
Proof. unfold remove_cl. rewrite filter_In, negb_true_iff, Nat.eqb_neq. split; intros [A B]; auto. Qed.
Lemma remove_nodup i l : NoDup l -> NoDup (remove_cl i l).
Proof. apply NoDup_filter. Qed.

(** ** What the tasks contain *)
Section Inv.
Variables (E : env) (heur : nat -> nat).
Notation SS := (srt E).
Notation bool_sort := (fres SS true_code).
Definition is_pred (f : sym) : Prop := fres SS f = bool_sort /\ f <> true_code /\ f <> false_code.

Definition tracked (st : pstate) (vis : nat -> sym -> Prop) (f : sym) : Prop :=
  match tasks st f with
  | Some t => is_pred f /\ (blocked t = true \/
      (gate t = false /\ pg t = [] /\ ng t = []
      /\ (forall i, In i (ps t) <-> vis i f /\ sgn f true (obj st i)) /\ (forall i, In i (ns t) <-> vis i f /\ sgn f false (obj st i))
      /\ (forall i, In i (off t) <-> vis i f /\ multi f (obj st i)) /\ NoDup (ps t) /\ NoDup (ns t) /\ NoDup (off t)))
  | None => forall i, vis i f -> ~ occurs f (obj st i)
  end.
Definition queued (st : pstate) : Prop := NoDup (queue st) /\ forall f, In f (queue st) -> exists t, tasks st f = Some t /\ (blocked t = true \/ off t = []).
Definition keyed (st : pstate) : Prop := NoDup (keys st) /\ forall f, In f (keys st) <-> tasks st f <> None.

Lemma tracked_ext st vis vis' f : (forall i, occurs f (obj st i) -> (vis i f <-> vis' i f)) -> tracked st vis f -> tracked st vis' f.
Proof.
  intros H. unfold tracked. destruct (tasks st f) as [t|].
  - intros [P [B|(A1 & A2 & A3 & A4 & A5 & A6 & A7)]]; split; auto. right. split; auto. split; auto. split; auto.
    split; [|split; [|split; auto]]; intros i.
    + rewrite A4. split; intros [X Y]; split; auto; apply (H i); auto; eapply sgn_occurs; eauto.
    + rewrite A5. split; intros [X Y]; split; auto; apply (H i); auto; eapply sgn_occurs; eauto.
    + rewrite A6. split; intros [X Y]; split; auto; apply (H i); auto; eapply multi_occurs; eauto.
  - intros A i V C. apply (A i); auto. apply H; auto.
Qed.

(** *** Scanning a clause *)
Definition same_rest (st st' : pstate) : Prop := objs st' = objs st /\ passive st' = passive st /\ archive st' = archive st.
Lemma same_refl st : same_rest st st. Proof. split; [|split]; reflexivity. Qed.
Lemma same_trans a b c : same_rest a b -> same_rest b c -> same_rest a c.
Proof. intros (A1 & A2 & A3) (B1 & B2 & B3). split; [|split]; congruence. Qed.
Lemma same_obj st st' i : same_rest st st' -> obj st' i = obj st i.
Proof. intros (A & _). unfold obj. rewrite A. reflexivity. Qed.
(** blocked tasks stay blocked *)
Definition blocks (st st' : pstate) : Prop := forall f t, tasks st f = Some t -> exists t', tasks st' f = Some t' /\ (blocked t = true -> t' = t).
Lemma blocks_refl st : blocks st st. Proof. intros f t H. eauto. Qed.
Lemma blocks_trans a b c : blocks a b -> blocks b c -> blocks a c.
Proof. intros A B f t H. destruct (A f t H) as (t' & H' & Q). destruct (B f t' H') as (t'' & H'' & Q'). exists t''. split; auto. intros X. pose proof (Q X). subst t'. auto. Qed.

Lemma set_task_keyed st f t : keyed st -> keyed (set_task st f t).
Proof.
  intros [N K]. unfold keyed, set_task. cbn [keys tasks]. destruct (has f (keys st)) eqn:H.
  - split; auto. intros g. rewrite K. destruct (Nat.eqb_spec g f) as [->|]; [|reflexivity]. apply has_spec, K in H. split; auto. discriminate.
  - assert (NF : ~ In f (keys st)) by (intros X; apply has_spec in X; congruence). split.
    + apply nodup_app; auto; [constructor; [intros []|constructor]|]. intros x Hx [<-|[]]. auto.
    + intros g. rewrite in_app_iff, K. cbn. destruct (Nat.eqb_spec g f) as [->|NE]; [split; auto; discriminate|]. split; [intros [X|[X|[]]]; auto; congruence|auto].
Qed.
Lemma queue_remove st f t : queued st -> queued (if has f (queue st) && negb (can_schedule t) then set_queue (ticked (set_task st f t)) (remove_cl f (queue (ticked (set_task st f t)))) else ticked (set_task st f t))
  \/ ~ (blocked t = true \/ gate t = false).
Proof.
  intros [N Q]. destruct (blocked t) eqn:B; [left|destruct (gate t) eqn:G; [right; intros [X|X]; discriminate|left]].
  - destruct (has f (queue st) && negb (can_schedule t)); (split; [try apply remove_nodup; exact N|]); cbn; intros g Hg; (destruct (Nat.eqb_spec g f) as [->|NE]; [eauto|]); apply Q; auto. apply remove_in in Hg. tauto.
  - destruct (has f (queue st)) eqn:HQ; cbn [andb].
    + destruct (can_schedule t) eqn:C; cbn [negb].
      * split; [exact N|]. cbn. intros g Hg. destruct (Nat.eqb_spec g f) as [->|NE]; [|apply Q; auto]. exists t. split; auto. right. unfold can_schedule in C. rewrite G in C. destruct (off t); [auto|discriminate].
      * split; [cbn; apply remove_nodup; exact N|]. cbn. intros g Hg. apply remove_in in Hg. destruct Hg as [Hg NE]. destruct (Nat.eqb_spec g f); [contradiction|apply Q; auto].
    + split; [exact N|]. cbn. intros g Hg. destruct (Nat.eqb_spec g f) as [->|NE]; [apply has_spec in Hg; congruence|apply Q; auto].
Qed.

Definition scanned (st st' : pstate) : Prop := same_rest st st' /\ blocks st st' /\ (queued st -> queued st') /\ (keyed st -> keyed st') /\ (forall f, In f (queue st') -> In f (queue st)).
Lemma scanned_refl st : scanned st st.
Proof. split; [apply same_refl|]. split; [apply blocks_refl|auto]. Qed.
Lemma scanned_trans a b c : scanned a b -> scanned b c -> scanned a c.
Proof. intros (A1 & A2 & A3 & A4 & A5) (B1 & B2 & B3 & B4 & B5). split; [eapply same_trans; eauto|]. split; [eapply blocks_trans; eauto|auto]. Qed.

Lemma scan_lit_spec i c j st vis : gc E c -> obj st i = c -> (forall g, tracked st vis g) ->
  let st' := scan_lit heur false i c st j in
  scanned st st' /\
  (forall g, tracked st' (fun i' g' => vis i' g' \/ i' = i /\ exists e, nth_error c j = Some e /\ atom_of g' e = true) g) /\
  (forall g, tasks st' g <> None -> tasks st g <> None \/ occurs g c).
Proof.
  intros G OC T. cbv zeta.
  assert (NOP : (forall e g, nth_error c j = Some e -> atom_of g e = false) -> scanned st st /\
     (forall g, tracked st (fun i' g' => vis i' g' \/ i' = i /\ exists e, nth_error c j = Some e /\ atom_of g' e = true) g) /\ (forall g, tasks st g <> None -> tasks st g <> None \/ occurs g c)).
  { intros H. split; [apply scanned_refl|]. split; [|auto]. intros g. apply (tracked_ext st vis); auto. intros i' _. split; auto. intros [X|[_ (e & N & A)]]; auto. rewrite (H e g N) in A. discriminate. }
  unfold scan_lit. destruct (nth_error c j) as [e|] eqn:NJ; [|apply NOP; intros e g X; discriminate].
  destruct (equlit e) eqn:Q; [apply NOP; intros e' g X; injection X as <-; unfold atom_of; rewrite Q; reflexivity|].
  destruct (lt e) as [x|f a] eqn:L; [apply NOP; intros e' g X; injection X as <-; unfold atom_of; rewrite L, andb_false_r; reflexivity|].
  assert (AT : atom_of f e = true) by (apply atom_lt; split; eauto).
  assert (AG : forall g, atom_of g e = true -> g = f) by (intros g X; apply atom_lt in X; destruct X as [_ [a' X]]; congruence).
  assert (OF : occurs f c) by (exists e; split; auto; eapply nth_error_In; eauto).
  assert (PF : is_pred f).
  { destruct (gc_in E c e G (nth_error_In _ _ NJ)) as [(W1 & W2 & W3 & _) FO]. destruct (fo_atom E e FO Q) as (p & l & L' & R & P1 & P2). rewrite L in L'. injection L' as <- <-. split; auto.
    rewrite L, R in W3. cbn in W3. auto. }
  set (t0 := match tasks st f with Some t => t | None => mk_task end). set (t1 := if yes heur st then block t0 else t0). cbn [andb].
  assert (T0 : blocked t0 = true \/ (gate t0 = false /\ pg t0 = [] /\ ng t0 = [] /\ (forall i, In i (ps t0) <-> vis i f /\ sgn f true (obj st i)) /\ (forall i, In i (ns t0) <-> vis i f /\ sgn f false (obj st i))
      /\ (forall i, In i (off t0) <-> vis i f /\ multi f (obj st i)) /\ NoDup (ps t0) /\ NoDup (ns t0) /\ NoDup (off t0))).
  { specialize (T f). unfold tracked in T. unfold t0. destruct (tasks st f) as [t|]; [apply T|]. right. cbn. split; auto. split; auto. split; auto.
    split; [|split; [|split; [|split; [|split]; constructor]]]; intros k; (split; [intros []|]); intros [V X]; apply (T k V); [eapply sgn_occurs|eapply sgn_occurs|eapply multi_occurs]; eauto. }
  assert (B0 : forall t, tasks st f = Some t -> t0 = t) by (intros t H; unfold t0; rewrite H; auto).
  assert (B1 : blocked t0 = true -> t1 = t0) by (unfold t1; destruct (yes heur st); auto; destruct t0; cbn; intros ->; reflexivity).
  assert (OTHER : forall st' g, objs st' = objs st -> tasks st' g = tasks st g -> g <> f -> tracked st' (fun i' g' => vis i' g' \/ i' = i /\ exists e0, Some e = Some e0 /\ atom_of g' e0 = true) g).
  { intros st' g OB TS NE. assert (TE : tracked st (fun i' g' => vis i' g' \/ i' = i /\ exists e0, Some e = Some e0 /\ atom_of g' e0 = true) g).
    { apply (tracked_ext st vis); auto. intros i' _. split; auto. intros [X|[_ (e' & N & A)]]; auto. injection N as <-. apply AG in A. contradiction. }
    unfold tracked in *. rewrite TS. unfold obj in *. rewrite OB. exact TE. }
  destruct (blocked t1) eqn:BL.
  - split; [|split].
    + split; [split; [|split]; reflexivity|]. split.
      * intros g t H. cbn. destruct (Nat.eqb_spec g f) as [->|NE]; [|eauto]. exists t1. split; auto. rewrite (B0 t H) in B1. auto.
      * split; [|split; [intros K; destruct (set_task_keyed st f t1 K) as [K1 K2]; split; auto|auto]]. intros [N Qu]. split; auto. cbn. intros g Hg. destruct (Nat.eqb_spec g f); [eauto|apply Qu; auto].
    + intros g. destruct (Nat.eq_dec g f) as [->|NE]; [|apply OTHER; cbn; auto; destruct (Nat.eqb_spec g f); congruence].
      unfold tracked. cbn. rewrite Nat.eqb_refl. auto.
    + cbn. intros g. destruct (Nat.eqb_spec g f) as [->|]; auto.
  - assert (T1 : t1 = t0) by (unfold t1 in *; destruct (yes heur st); auto; cbn in BL; discriminate). rewrite T1 in *. clear T1 t1. destruct T0 as [T0|T0]; [congruence|]. destruct T0 as (A1 & A2 & A3 & A4 & A5 & A6 & A7 & A8 & A9).
    set (t2 := if find_except f c j then add_off i t0 else add_single (pos e) i t0).
    assert (FS := find_except_spec f c j e NJ AT).
    assert (F2 : blocked t2 = false /\ gate t2 = false /\ pg t2 = [] /\ ng t2 = []) by (unfold t2, add_off, add_single; destruct (find_except f c j), (pos e); cbn; auto).
    destruct F2 as (F1 & F2 & F3 & F4).
    assert (M2 : (forall k, In k (ps t2) <-> (vis k f \/ k = i) /\ sgn f true (obj st k)) /\ (forall k, In k (ns t2) <-> (vis k f \/ k = i) /\ sgn f false (obj st k)) /\ (forall k, In k (off t2) <-> (vis k f \/ k = i) /\ multi f (obj st k))
       /\ NoDup (ps t2) /\ NoDup (ns t2) /\ NoDup (off t2)).
    { unfold t2, add_off, add_single. destruct (find_except f c j); [|destruct (pos e)]; cbn [ps ns off].
      - split; [|split; [|split; [|split; [|split]]]]; auto; try (apply store_nodup; auto); intros k; rewrite ?store_in, ?A4, ?A5, ?A6.
        + split; [tauto|]. intros [[X|X] Y]; auto. subst k. rewrite OC in Y. destruct (sgn_multi _ _ _ Y FS).
        + split; [tauto|]. intros [[X|X] Y]; auto. subst k. rewrite OC in Y. destruct (sgn_multi _ _ _ Y FS).
        + split; [intros [->|[X Y]]; auto; rewrite OC; auto|intros [[X|X] Y]; auto].
      - split; [|split; [|split; [|split; [|split]]]]; auto; try (apply store_nodup; auto); intros k; rewrite ?store_in, ?A4, ?A5, ?A6.
        + split; [intros [->|[X Y]]; auto; rewrite OC; auto|intros [[X|X] Y]; auto].
        + split; [tauto|]. intros [[X|X] Y]; auto. subst k. rewrite OC in Y. pose proof (sgn_fun _ _ _ _ FS Y). discriminate.
        + split; [tauto|]. intros [[X|X] Y]; auto. subst k. rewrite OC in Y. destruct (sgn_multi _ _ _ FS Y).
      - split; [|split; [|split; [|split; [|split]]]]; auto; try (apply store_nodup; auto); intros k; rewrite ?store_in, ?A4, ?A5, ?A6.
        + split; [tauto|]. intros [[X|X] Y]; auto. subst k. rewrite OC in Y. pose proof (sgn_fun _ _ _ _ FS Y). discriminate.
        + split; [intros [->|[X Y]]; auto; rewrite OC; auto|intros [[X|X] Y]; auto].
        + split; [tauto|]. intros [[X|X] Y]; auto. subst k. rewrite OC in Y. destruct (sgn_multi _ _ _ FS Y). }
    destruct M2 as (M1 & M2 & M3 & M4).
    set (st2 := ticked (set_task st f t2)). change (queue st2) with (queue st).
    set (st' := if has f (queue st) && negb (can_schedule t2) then set_queue st2 (remove_cl f (queue st)) else st2).
    assert (TS : tasks st' = tasks st2 /\ objs st' = objs st /\ same_rest st st' /\ keys st' = keys st2) by (unfold st'; destruct (_ && _); split; try reflexivity; split; try reflexivity; (split; [split; [|split]|]; reflexivity)).
    destruct TS as (TS & TO & SR & KS). split; [|split].
    + split; auto. split; [|split; [|split]].
      * intros g t H. rewrite TS. cbn. destruct (Nat.eqb_spec g f) as [->|NE]; [|eauto]. exists t2. split; auto. intros X. rewrite <- (B0 t H) in X. congruence.
      * intros Qu. destruct (queue_remove st f t2 Qu) as [X|X]; [exact X|destruct X; auto].
      * intros K. destruct (set_task_keyed st f t2 K) as [K1 K2]. split; [rewrite KS; exact K1|]. intros g. rewrite KS, TS. apply K2.
      * intros g Hg. unfold st' in Hg. destruct (_ && _); auto. cbn in Hg. apply remove_in in Hg. tauto.
    + intros g. destruct (Nat.eq_dec g f) as [->|NE].
      2:{ apply OTHER; auto. rewrite TS. cbn. destruct (Nat.eqb_spec g f); congruence. }
      unfold tracked. rewrite TS. cbn. rewrite Nat.eqb_refl. split; auto. right. split; auto. split; auto. split; auto.
      assert (VE : forall k, (vis k f \/ k = i) <-> (vis k f \/ k = i /\ exists e0, Some e = Some e0 /\ atom_of f e0 = true)).
      { intros k. split; (intros [X|X]; [auto|right]); [split; eauto|tauto]. }
      assert (OBJ : forall k, obj st' k = obj st k) by (intros k; apply same_obj; auto).
      split; [|split; [|split; auto]]; intros k; rewrite OBJ, <- VE; auto.
    + rewrite TS. cbn. intros g. destruct (Nat.eqb_spec g f) as [->|]; auto.
Qed.

Lemma scan_spec i c st : gc E c -> obj st i = c -> forall vis, (forall g, tracked st vis g) ->
  let st' := scan heur false st i c in
  scanned st st' /\ (forall g, tracked st' (fun i' g' => vis i' g' \/ i' = i) g) /\ (forall g, tasks st' g <> None -> tasks st g <> None \/ occurs g c).
Proof.
  intros G OC vis T. cbv zeta. unfold scan.
  assert (X : forall js st vis, obj st i = c -> (forall g, tracked st vis g) -> let st' := fold_left (scan_lit heur false i c) js st in
     scanned st st' /\ (forall g, tracked st' (fun i' g' => vis i' g' \/ i' = i /\ exists j e, In j js /\ nth_error c j = Some e /\ atom_of g' e = true) g)
     /\ (forall g, tasks st' g <> None -> tasks st g <> None \/ occurs g c)).
  { clear st OC vis T. induction js as [|j js IH]; intros st vis OC T; cbn [fold_left].
    - split; [apply scanned_refl|]. split; [|auto]. intros g. apply (tracked_ext st vis); auto. intros i' _. split; auto. intros [X|[_ (j & e & [] & _)]]. auto.
    - destruct (scan_lit_spec i c j st vis G OC T) as (A & B & C). cbv zeta in *. destruct A as (A & A').
      destruct (IH (scan_lit heur false i c st j) _ ltac:(rewrite (same_obj _ _ _ A); auto) B) as (A2 & B2 & C2). split; [eapply scanned_trans; [split; eauto|exact A2]|]. split.
      + intros g. eapply tracked_ext; [|apply B2]. intros i' _. split.
        * intros [[X|[-> (e & N & X)]]|[-> (k & e & I & N & X)]]; [auto| |]; right; split; auto; [exists j, e|exists k, e]; split; auto; [left; auto|right; auto].
        * intros [X|[-> (k & e & [<-|I] & N & X)]]; [auto| |]; [left; right|right]; split; eauto.
      + intros g X. destruct (C2 g X) as [Y|Y]; auto. }
  destruct (X (seq 0 (length c)) st vis OC T) as (A & B & C). split; auto. split; auto. intros g. eapply tracked_ext; [|apply B]. intros i' OB. split; [tauto|]. intros [V| ->]; auto.
  right. split; auto. destruct A as (A & _). rewrite (same_obj _ _ _ A), OC in OB. destruct OB as [e [I AT]]. apply In_nth_error in I. destruct I as [j N]. exists j, e. split; auto.
  apply in_seq. assert (nth_error c j <> None) by congruence. apply nth_error_Some in H. lia.
Qed.

(** *** Removing a clause *)
Lemma react_lit_spec i c st vis e : gc E c -> obj st i = c -> In e c -> (forall g, tracked st vis g) -> (forall g, atom_of g e = true -> tasks st g <> None) ->
  exists st', react_lit heur i st e = Some st' /\ same_rest st st' /\ blocks st st' /\ (queued st -> queued st') /\ (keyed st -> keyed st') /\
  (forall g, tracked st' (fun i' g' => vis i' g' /\ ~ (i' = i /\ atom_of g' e = true)) g) /\ (forall g, tasks st' g <> None <-> tasks st g <> None) /\ (forall f, In f (queue st') -> In f (queue st) \/ occurs f c).
Proof.
  intros G OC I T NN. unfold react_lit. destruct (equlit e) eqn:Q.
  - exists st. split; auto. split; [apply same_refl|]. split; [apply blocks_refl|]. split; auto. split; auto. split; [|split; [reflexivity|auto]]. intros g. apply (tracked_ext st vis); auto.
    intros i' _. split; [|tauto]. intros X. split; auto. intros [_ A]. unfold atom_of in A. rewrite Q in A. discriminate.
  - destruct (gc_in E c e G I) as [(W1 & W2 & W3 & _) FO]. destruct (fo_atom E e FO Q) as (f & l & L & R & P1 & P2). rewrite L.
    assert (AT : atom_of f e = true) by (apply atom_lt; split; eauto).
    assert (AG : forall g, atom_of g e = true -> g = f) by (intros g X; apply atom_lt in X; destruct X as [_ [a' X]]; congruence).
    assert (OF : occurs f c) by (exists e; auto).
    destruct (tasks st f) as [t|] eqn:TF; [|destruct (NN f AT TF)].
    pose proof (T f) as TT. unfold tracked in TT. rewrite TF in TT. destruct TT as [PF TT].
    assert (OTHER : forall st' g, objs st' = objs st -> tasks st' g = tasks st g -> g <> f -> tracked st' (fun i' g' => vis i' g' /\ ~ (i' = i /\ atom_of g' e = true)) g).
    { intros st' g OB TS NE. assert (TE : tracked st (fun i' g' => vis i' g' /\ ~ (i' = i /\ atom_of g' e = true)) g).
      { apply (tracked_ext st vis); auto. intros i' _. split; [|tauto]. intros X. split; auto. intros [_ A]. apply AG in A. contradiction. }
      unfold tracked in *. rewrite TS. unfold obj in *. rewrite OB. exact TE. }
    destruct (blocked t) eqn:BL.
    { exists st. split; auto. split; [apply same_refl|]. split; [apply blocks_refl|]. split; auto. split; auto. split; [|split; [reflexivity|auto]]. intros g.
      destruct (Nat.eq_dec g f) as [->|NE]; [|apply OTHER; auto]. unfold tracked. rewrite TF. auto. }
    destruct TT as [TT|(A1 & A2 & A3 & A4 & A5 & A6 & A7 & A8 & A9)]; [discriminate|]. rewrite A2, A3.
    replace (has i (if pos e then [] else [])) with false by (destruct (pos e); reflexivity).
    set (t' := mkptask _ _ _ _ _ _ _). set (st1 := ticked (set_task st f t')). set (rem := has i (if pos e then ps t else ns t) || has i (off t)).
    set (st' := if rem && negb (has f (queue st)) && can_schedule t' && yes heur st then set_queue st1 (queue st1 ++ [f]) else st1).
    assert (TS : tasks st' = tasks st1 /\ objs st' = objs st /\ same_rest st st' /\ keys st' = keys st1) by (unfold st'; destruct (_ && _); split; try reflexivity; split; try reflexivity; (split; [split; [|split]|]; reflexivity)).
    destruct TS as (TS & TO & SR & KS). exists st'. split; [reflexivity|]. split; auto.
    assert (NOTE : forall g, tasks st' g <> None <-> tasks st g <> None).
    { intros g. rewrite TS. cbn. destruct (Nat.eqb_spec g f) as [->|NE]; [rewrite TF; split; discriminate|reflexivity]. }
    assert (SUB : forall k, In k (off t') -> In k (off t)) by (intros k X; cbn in X; apply remove_in in X; tauto).
    split; [|split; [|split; [|split; [|split; [exact NOTE|]]]]].
    + intros g t1 H. rewrite TS. cbn. destruct (Nat.eqb_spec g f) as [->|NE]; [|eauto]. exists t'. split; auto. intros X. congruence.
    + intros [N Qu]. assert (CS : can_schedule t' = true -> off t' = []) by (unfold can_schedule; cbn; rewrite A1; destruct (remove_cl i (off t)); auto; discriminate).
      assert (OQ : forall g, In g (queue st) -> exists t1, tasks st' g = Some t1 /\ (blocked t1 = true \/ off t1 = [])).
      { intros g Hg. rewrite TS. cbn. destruct (Nat.eqb_spec g f) as [->|NE]; [|apply Qu; auto]. exists t'. split; auto. right. destruct (Qu f Hg) as (t1 & H1 & H2). rewrite TF in H1. injection H1 as <-.
        destruct H2 as [H2|H2]; [congruence|]. cbn. rewrite H2. reflexivity. }
      unfold st' in *. destruct (rem && negb (has f (queue st)) && can_schedule t' && yes heur st) eqn:CD.
      * rewrite !andb_true_iff, negb_true_iff in CD. destruct CD as (((_ & CQ) & CC) & _). assert (NF : ~ In f (queue st)) by (intros X; apply has_spec in X; congruence). split.
        -- cbn. apply nodup_app; auto; [constructor; [intros []|constructor]|]. intros x Hx [<-|[]]. auto.
        -- cbn [queue set_queue]. intros g Hg. apply in_app_iff in Hg. destruct Hg as [Hg|[<-|[]]]; [apply OQ; exact Hg|]. exists t'. cbn. rewrite Nat.eqb_refl. split; auto.
      * split; [exact N|]. intros g Hg. apply OQ. exact Hg.
    + intros K. destruct (set_task_keyed st f t' K) as [K1 K2]. split; [rewrite KS; exact K1|]. intros g. rewrite KS, TS. apply K2.
    + intros g. destruct (Nat.eq_dec g f) as [->|NE].
      2:{ apply OTHER; auto. rewrite TS. cbn. destruct (Nat.eqb_spec g f); congruence. }
      unfold tracked. rewrite TS. cbn. rewrite Nat.eqb_refl. split; auto. right. cbn [gate pg ng ps ns off t']. split; auto. split; auto. split; auto.
      assert (OBJ : forall k, obj st' k = obj st k) by (intros k; apply same_obj; auto).
      assert (SG : forall s, sgn f s c -> pos e = s).
      { intros s [e' [O1 O2]]. assert (X : In e (occ f c)) by (apply filter_In; auto). rewrite O1 in X. destruct X as [->|[]]. auto. }
      assert (KEEP : forall s k, (vis k f /\ sgn f s (obj st k)) /\ k <> i <-> (vis k f /\ ~ (k = i /\ atom_of f e = true)) /\ sgn f s (obj st k)) by (intros; tauto).
      assert (KEEP' : forall s k, pos e <> s -> (vis k f /\ sgn f s (obj st k)) <-> (vis k f /\ ~ (k = i /\ atom_of f e = true)) /\ sgn f s (obj st k)).
      { intros s k PE. split; [|tauto]. intros [X Y]. split; auto. split; auto. intros [-> _]. rewrite OC in Y. apply PE, SG, Y. }
      split; [|split; [|split; [|split; [|split]]]]; try (intros k; rewrite OBJ).
      * destruct (pos e) eqn:PE; [rewrite remove_in, A4; apply KEEP|rewrite A4; apply KEEP'; congruence].
      * destruct (pos e) eqn:PE; [rewrite A5; apply KEEP'; congruence|rewrite remove_in, A5; apply KEEP].
      * rewrite remove_in, A6. tauto.
      * destruct (pos e); auto. apply remove_nodup; auto.
      * destruct (pos e); auto. apply remove_nodup; auto.
      * apply remove_nodup; auto.
    + intros g Hg. unfold st' in Hg. destruct (_ && _); auto. cbn in Hg. apply in_app_iff in Hg. destruct Hg as [Hg|[<-|[]]]; auto.
Qed.
Lemma react_spec i c : gc E c -> forall d st vis, obj st i = c -> incl d c -> (forall g, tracked st vis g) -> (forall g, occurs g c -> tasks st g <> None) ->
  exists st', react_removed heur i st d = Some st' /\ same_rest st st' /\ blocks st st' /\ (queued st -> queued st') /\ (keyed st -> keyed st') /\
  (forall g, tracked st' (fun i' g' => vis i' g' /\ ~ (i' = i /\ occurs g' d)) g) /\ (forall g, tasks st' g <> None <-> tasks st g <> None).
Proof.
  intros G. induction d as [|e d IH]; intros st vis OC I T NN; cbn [react_removed].
  - exists st. split; auto. split; [apply same_refl|]. split; [apply blocks_refl|]. split; auto. split; auto. split; [|reflexivity]. intros g. apply (tracked_ext st vis); auto.
    intros i' _. split; [|tauto]. intros X. split; auto. intros [_ (e & [] & _)].
  - destruct (react_lit_spec i c st vis e G OC (I e ltac:(left; auto)) T) as (st1 & R & A1 & A2 & A3 & A4 & A5 & A6 & _); [intros g X; apply NN; exists e; split; auto; apply I; left; auto|].
    rewrite R. destruct (IH st1 _ ltac:(rewrite (same_obj _ _ _ A1); auto) ltac:(intros x Hx; apply I; right; auto) A5) as (st' & R' & B1 & B2 & B3 & B4 & B5 & B6); [intros g X; apply A6, NN, X|].
    exists st'. split; auto. split; [eapply same_trans; eauto|]. split; [eapply blocks_trans; eauto|]. split; auto. split; auto. split; [|intros g; rewrite B6; apply A6].
    intros g. eapply tracked_ext; [|apply B5]. intros i' _. split.
    + intros [[X Y] Z]. split; auto. intros [-> (e' & [<-|J] & AT)]; [apply Y; auto|apply Z; split; auto; exists e'; auto].
    + intros [X Y]. split; [split; auto|]; intros [-> Z]; apply Y; split; auto; [exists e; split; auto; left; auto|]. destruct Z as (e' & J & AT). exists e'. split; auto. right. auto.
Qed.
End Inv.
