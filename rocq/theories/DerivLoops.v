(** * Proofs about proof objects: extraction, marking and topological sorting *)
From Coq Require Import String Ascii List ZArith NArith Lia Bool Arith Permutation.
From Verif Require Import Sig Derivation DerivationProofs.
Import ListNotations.
Local Open Scope nat_scope.
Local Open Scope list_scope.

Notation cnt := (count_occ node_dec).
Lemma cnt_app : forall l m x, cnt (l ++ m) x = cnt l x + cnt m x.
Proof. induction l as [|a l IH]; cbn; intros m x; [reflexivity|]. destruct (node_dec a x); rewrite IH; lia. Qed.
Lemma cnt_perm : forall l m x, Permutation l m -> cnt l x = cnt m x.
Proof. intros l m x P. induction P; cbn; try destruct (node_dec x0 x); try destruct (node_dec y x); try lia. Qed.
Lemma cnt_in : forall l x, In x l <-> 0 < cnt l x.
Proof. intros l x. rewrite (count_occ_In node_dec l x). lia. Qed.

Lemma nodup_app : forall l m : list node, NoDup l -> NoDup m -> (forall x, In x l -> ~ In x m) -> NoDup (l ++ m).
Proof.
  intros l m A B. induction A as [|x l N A IH]; intro D; [exact B|]. cbn. constructor.
  - intro I. apply in_app_or in I. destruct I as [I|I]; [contradiction|]. apply (D x (or_introl eq_refl) I).
  - apply IH. intros y I. apply D. now right.
Qed.

(** ** One premise after the other *)
Lemma nodup_left : forall l m : list node, NoDup (l ++ m) -> NoDup l.
Proof.
  induction l as [|x l IH]; intros m N; [constructor|]. cbn in N. apply NoDup_cons_iff in N. destruct N as [N1 N2].
  constructor; [intro I; apply N1; apply in_or_app; now left|eauto].
Qed.
Lemma visit_fold : forall ps rc fr st rc' fr' st', fold_left visit ps (rc, fr, st) = (rc', fr', st') ->
  (forall x, rc' x = rc x + Z.of_nat (cnt ps x))%Z /\
  (forall x, fr' x = false <-> fr x = false \/ In x ps) /\
  exists new, st' = new ++ st /\ NoDup new /\ forall x, In x new <-> In x ps /\ fr x = true.
Proof.
  induction ps as [|p ps IH]; intros rc fr st rc' fr' st' H.
  - cbn in H. inversion H; subst. split; [intro x; cbn; lia|]. split; [intro x; cbn; tauto|].
    exists []. split; [reflexivity|]. split; [constructor|]. intro x; cbn; tauto.
  - cbn [fold_left visit] in H. apply IH in H. destruct H as [H1 [H2 [new [-> [H3 H4]]]]]. split; [|split].
    + intro x. rewrite H1. cbn. destruct (node_dec p x) as [->|N]; [rewrite upd_same; lia|rewrite upd_other by congruence; lia].
    + intro x. rewrite H2. cbn. destruct (node_dec x p) as [->|N]; [rewrite upd_same; tauto|rewrite upd_other by assumption]. intuition congruence.
    + destruct (fr p) eqn:E.
      * exists (new ++ [p]). split; [now rewrite <- app_assoc|]. split.
        -- apply (Permutation_NoDup (l := p :: new)); [apply Permutation_cons_append|]. constructor; [|exact H3].
           intro I. apply H4 in I. rewrite upd_same in I. destruct I; discriminate.
        -- intro x. rewrite in_app_iff, H4. cbn. destruct (node_dec x p) as [->|N].
           ++ split; [intros _; split; auto|]. intros _. right; now left.
           ++ rewrite upd_other by assumption. intuition congruence.
      * exists new. split; [reflexivity|]. split; [exact H3|]. intro x. rewrite H4. cbn. destruct (node_dec x p) as [->|N].
        -- rewrite upd_same. intuition congruence.
        -- rewrite upd_other by assumption. intuition congruence.
Qed.
Lemma release_fold : forall H ps rc q ax rc' q' ax', fold_left (release H) ps (rc, q, ax) = (rc', q', ax') ->
  (forall x, In x ps -> (Z.of_nat (cnt ps x) <= rc x)%Z) ->
  (forall x, rc' x = rc x - Z.of_nat (cnt ps x))%Z /\
  exists nq na, q' = q ++ nq /\ ax' = na ++ ax /\ NoDup (nq ++ na) /\
    (forall x, In x (nq ++ na) <-> In x ps /\ rc x = Z.of_nat (cnt ps x)) /\ Forall (fun x => H x <> None) nq /\ Forall (fun x => H x = None) na.
Proof.
  intro H. induction ps as [|p ps IH]; intros rc q ax rc' q' ax' E L.
  - cbn in E. inversion E; subst. split; [intro x; cbn; lia|]. exists [], []. rewrite app_nil_r.
    split; [reflexivity|]. split; [reflexivity|]. split; [apply NoDup_nil|]. split; [intro x; cbn; tauto|]. split; apply Forall_nil.
  - assert (LP : (1 + Z.of_nat (cnt ps p) <= rc p)%Z).
    { specialize (L p (or_introl eq_refl)). cbn in L. destruct (node_dec p p); [lia|congruence]. }
    set (rc1 := upd rc p (rc p - 1)%Z) in *.
    assert (L1 : forall x, In x ps -> (Z.of_nat (cnt ps x) <= rc1 x)%Z).
    { intros x I. specialize (L x (or_intror I)). cbn in L. unfold rc1. destruct (node_dec p x) as [<-|N]; [rewrite upd_same; lia|rewrite upd_other by congruence; lia]. }
    assert (RCX : forall x, (rc1 x - Z.of_nat (cnt ps x) = rc x - Z.of_nat (cnt (p :: ps) x))%Z).
    { intro x. unfold rc1. cbn. destruct (node_dec p x) as [<-|N]; [rewrite upd_same; lia|rewrite upd_other by congruence; lia]. }
    assert (IFF : forall x, x <> p -> (In x ps /\ rc1 x = Z.of_nat (cnt ps x) <-> In x (p :: ps) /\ rc x = Z.of_nat (cnt (p :: ps) x))).
    { intros x N. unfold rc1. rewrite upd_other by assumption. cbn. destruct (node_dec p x) as [<-|_]; [congruence|]. intuition congruence. }
    cbn [fold_left release] in E. fold rc1 in E. destruct (Z.eqb (rc1 p) 0) eqn:Z0.
    + apply Z.eqb_eq in Z0. unfold rc1 in Z0. rewrite upd_same in Z0.
      assert (C0 : cnt ps p = 0) by lia. assert (NI : ~ In p ps) by (rewrite cnt_in; lia).
      assert (PP : In p (p :: ps) /\ rc p = Z.of_nat (cnt (p :: ps) p)).
      { split; [now left|]. cbn. destruct (node_dec p p); [lia|congruence]. }
      destruct (H p) as [l|] eqn:HP; apply IH in E; auto; destruct E as [E1 [nq [na [-> [-> [ND [IN [FQ FA]]]]]]]];
        (split; [intro x; rewrite E1; apply RCX|]).
      * exists (p :: nq), na. rewrite <- app_assoc. split; [reflexivity|]. split; [reflexivity|]. split.
        { cbn. constructor; [|exact ND]. intro I. apply IN in I. tauto. }
        split; [|split; [constructor; [congruence|exact FQ]|exact FA]].
        intro x. cbn [app In]. destruct (node_dec x p) as [->|N]; [tauto|]. rewrite IN. rewrite (IFF x N). split; [intros [Q|Q]; [congruence|exact Q]|intro Q; now right].
      * exists nq, (na ++ [p]). split; [reflexivity|]. rewrite <- app_assoc. split; [reflexivity|]. split.
        { rewrite app_assoc. apply (Permutation_NoDup (l := p :: nq ++ na)); [apply Permutation_cons_append|]. constructor; [|exact ND]. intro I. apply IN in I. tauto. }
        split; [|split; [exact FQ|apply Forall_app; split; [exact FA|constructor; [exact HP|constructor]]]].
        intro x. rewrite app_assoc, in_app_iff. cbn [In]. destruct (node_dec x p) as [->|N]; [tauto|]. rewrite IN. rewrite (IFF x N). split; [intros [Q|[Q|[]]]; [exact Q|congruence]|intro Q; now left].
    + apply Z.eqb_neq in Z0. unfold rc1 in Z0. rewrite upd_same in Z0. apply IH in E; auto. destruct E as [E1 [nq [na [-> [-> [ND [IN [FQ FA]]]]]]]].
      split; [intro x; rewrite E1; apply RCX|]. exists nq, na. repeat (split; [auto; fail|]). split; [|split; auto].
      intro x. destruct (node_dec x p) as [->|N]; [|rewrite IN; now apply IFF]. rewrite IN. unfold rc1. rewrite upd_same. cbn.
      destruct (node_dec p p) as [_|]; [|congruence]. split.
      * intros [I Q]. split; [now left|]. lia.
      * intros [_ Q]. assert (0 < cnt ps p) by lia. split; [now apply cnt_in|lia].
Qed.

Lemma mark_fold : forall A ps mk st hc mk' st' hc', fold_left (mark_visit A) ps (mk, st, hc) = (mk', st', hc') ->
  hc' = hc || existsb (conj A) ps /\
  exists new, mk' = new ++ mk /\ st' = new ++ st /\ NoDup new /\ forall x, In x new <-> In x ps /\ in_proof A mk x = false.
Proof.
  intro A. induction ps as [|p ps IH]; intros mk st hc mk' st' hc' H.
  - cbn in H. inversion H; subst. split; [cbn; now rewrite orb_false_r|]. exists []. split; [reflexivity|]. split; [reflexivity|]. split; [apply NoDup_nil|].
    intro x; cbn; tauto.
  - cbn [fold_left mark_visit] in H. destruct (in_proof A mk p) eqn:E; apply IH in H; destruct H as [-> [new [-> [-> [ND IN]]]]].
    + split; [cbn; now rewrite orb_assoc|]. exists new. split; [reflexivity|]. split; [reflexivity|]. split; [exact ND|].
      intro x. rewrite IN. cbn. destruct (node_dec x p) as [->|N]; intuition congruence.
    + split; [cbn; now rewrite orb_assoc|]. exists (new ++ [p]). rewrite <- !app_assoc. split; [reflexivity|]. split; [reflexivity|].
      assert (PR : forall x, in_proof A (p :: mk) x = node_eqb x p || in_proof A mk x).
      { intro x. unfold in_proof. cbn. now rewrite !orb_assoc, (orb_comm (node_eqb x p)). }
      split.
      * apply (Permutation_NoDup (l := p :: new)); [apply Permutation_cons_append|]. constructor; [|exact ND].
        intro I. apply IN in I. rewrite PR, eqb_refl in I. destruct I; discriminate.
      * intro x. rewrite in_app_iff, IN, PR. cbn. destruct (node_dec x p) as [->|N].
        -- split; [intros _; split; auto|]. intros _. right; now left.
        -- rewrite (eqb_neq x p N). cbn. intuition congruence.
Qed.
Lemma incl_perm : forall (l V : list node), NoDup l -> incl l V -> exists E, Permutation V (l ++ E).
Proof.
  induction l as [|x l IH]; intros V N I; [exists V; reflexivity|].
  inversion N; subst. destruct (in_split x V (I x (or_introl eq_refl))) as [a [b ->]].
  destruct (IH (a ++ b)) as [E P].
  - assumption.
  - intros y J. specialize (I y (or_intror J)). apply in_app_or in I. apply in_or_app. destruct I as [I|[I|I]]; auto. subst. contradiction.
  - exists E. cbn. transitivity (x :: a ++ b); [symmetry; apply Permutation_middle|]. now constructor.
Qed.

Section Loops.
Variable ac : list nat.
Variable H0 : heap.
Hypothesis STK : forall n l, H0 n = Some l -> stack_ok ac l.
Variable rank : node -> nat.
Hypothesis RK : forall n ps p, parents ac H0 n = Some ps -> In p ps -> rank p < rank n.
Notation F := (F H0 rank).
Notation G := (G ac H0 rank).
Notation comp := (comp H0 rank).
Notation cmp := (cmp H0 rank).
Let opt_sound := opt_sound ac H0 STK rank RK.
Let opt_total := opt_total ac H0 STK rank RK.
Let G_rank := G_rank ac H0 STK rank RK.

Inductive reach (rs : list node) : node -> Prop :=
| r_root r : In r rs -> reach rs r
| r_step n p : reach rs n -> In p (G n) -> reach rs p.
Lemma reach_finite : forall rs, exists L, forall n, reach rs n -> In n L.
Proof.
  assert (ONE : forall n, exists L, forall m, reach [n] m -> In m L).
  { apply (node_rec rank). intros n IH.
    assert (PS : exists L, forall p m, In p (G n) -> reach [p] m -> In m L).
    { assert (R : forall p, In p (G n) -> exists L, forall m, reach [p] m -> In m L) by (intros p I; apply IH; now apply G_rank).
      induction (G n) as [|p ps IHp]; [exists []; intros p m []|].
      destruct (R p (or_introl eq_refl)) as [L1 A1]. destruct IHp as [L2 A2]; [intros q I; apply R; now right|].
      exists (L1 ++ L2). intros q m [<-|I] X; apply in_or_app; [left; now apply A1|right; eauto]. }
    destruct PS as [L A]. exists (n :: L). intros m X. induction X as [r [<-|[]]|x p X [<-|I] J]; [now left| |].
    - right. apply (A p p J). apply r_root; now left.
    - assert (Y : forall y, reach [n] y -> y = n \/ exists q, In q (G n) /\ reach [q] y).
      { clear. intros y Y. induction Y as [r [<-|[]]|x p Y IH J]; [now left|]. right. destruct IH as [->|[q [I R]]].
        - exists p. split; [exact J|]. apply r_root; now left.
        - exists q. split; [exact I|]. eapply r_step; eauto. }
      destruct (Y x X) as [->|[q [K R]]]; [right; apply (A p p J); apply r_root; now left|].
      right. apply (A q p K). eapply r_step; eauto. }
  induction rs as [|r rs [L A]].
  - exists []. intros n X. induction X as [r []|n p X []].
  - destruct (ONE r) as [L1 A1]. exists (L1 ++ L).
    assert (Y : forall n, reach (r :: rs) n -> reach [r] n \/ reach rs n).
    { intros n X. induction X as [x [<-|I]|x p X IH J].
      - left. constructor. now left.
      - right. now constructor.
      - destruct IH as [R|R]; [left|right]; eapply r_step; eauto. }
    intros n X. apply in_or_app. destruct (Y n X); auto.
Qed.
Lemma reach_rank : forall rs b n, (forall r, In r rs -> rank r <= b) -> reach rs n -> rank n <= b.
Proof. intros rs b n B X. induction X as [r I|n p X IH J]; [auto|]. apply G_rank in J. lia. Qed.

(** ** Extraction *)
Variable rs : list node.
Record ex_inv (H : heap) (rc : node -> Z) (fr : node -> bool) (st P : list node) : Prop := {
  x_nodup : NoDup (P ++ st);
  x_fresh : forall n, fr n = false <-> In n (P ++ st);
  x_count : forall n, rc n = Z.of_nat (cnt (flat_map G P) n);
  x_closed : forall m p, In m P -> In p (G m) -> In p (P ++ st);
  x_roots : forall r, In r rs -> In r (P ++ st);
  x_reach : forall n, In n (P ++ st) -> reach rs n;
  x_cmp : cmp H;
  x_comp : forall m, In m P -> H m = comp m }.
Lemma ex_step : forall H rc fr n st P k H1 ps rc1 fr1 st1, ex_inv H rc fr (n :: st) P -> opt_parents k ac H n = Some (H1, ps) ->
  fold_left visit ps (rc, fr, st) = (rc1, fr1, st1) -> ex_inv H1 rc1 fr1 st1 (n :: P).
Proof.
  intros H rc fr n st P k H1 ps rc1 fr1 st1 [B1 B2 B3 B4 B5 B6 B7 B8] O V.
  destruct (opt_sound H k n H1 ps B7 O) as [C1 [-> [C2 C3]]]. apply visit_fold in V. destruct V as [V1 [V2 [new [-> [V3 V4]]]]].
  assert (PM : Permutation (P ++ n :: st) (n :: P ++ st)) by (symmetry; apply Permutation_middle).
  assert (NEW : forall x, In x (G n) -> In x (n :: P ++ new ++ st)).
  { intros x I. destruct (fr x) eqn:E; [right; apply in_or_app; right; apply in_or_app; left; apply V4; auto|].
    apply B2 in E. apply (Permutation_in _ PM) in E. destruct E as [<-|E]; [now left|]. right. rewrite !in_app_iff in *. tauto. }
  assert (OLD : forall x, In x (P ++ n :: st) -> In x (n :: P ++ new ++ st)).
  { intros x I. apply (Permutation_in _ PM) in I. destruct I as [<-|I]; [now left|]. right. rewrite !in_app_iff in *. tauto. }
  assert (ALL : forall x, In x (n :: P ++ new ++ st) -> In x (P ++ n :: st) \/ In x (G n) /\ fr x = true).
  { intros x [<-|I]; [left; apply in_or_app; right; now left|]. rewrite !in_app_iff in I. destruct I as [I|[I|I]].
    - left. apply in_or_app; now left.
    - right. now apply V4.
    - left. apply in_or_app; right; now right. }
  constructor; cbn [app].
  - apply (Permutation_NoDup (l := new ++ P ++ n :: st)).
    + transitivity (new ++ n :: P ++ st); [apply Permutation_app_head; exact PM|]. transitivity (n :: new ++ P ++ st); [symmetry; apply Permutation_middle|].
      constructor. rewrite !app_assoc. apply Permutation_app_tail. apply Permutation_app_comm.
    + apply nodup_app; [exact V3|exact B1|]. intros x I J. apply V4 in I. apply B2 in J. destruct I; congruence.
  - intro x. rewrite V2. rewrite B2. split; [intros [I|I]; auto|]. intro I. apply ALL in I. tauto.
  - intro x. rewrite V1, B3. cbn. rewrite cnt_app. lia.
  - intros m p [<-|I] J; [now apply NEW|]. apply OLD. eauto.
  - intros r I. apply OLD. auto.
  - intros x I. apply ALL in I. destruct I as [I|[I _]]; [auto|]. apply r_step with n; [apply B6; apply in_or_app; right; now left|exact I].
  - exact C1.
  - intros m [<-|I]; auto.
Qed.
Lemma extract_sound : forall k H rc fr st P H' rc', ex_inv H rc fr st P -> extract k ac H rc fr st = Some (H', rc') ->
  exists V, NoDup V /\ cmp H' /\ (forall m, In m V -> H' m = comp m) /\ (forall n, rc' n = Z.of_nat (cnt (flat_map G V) n)) /\
    (forall n, In n V <-> reach rs n).
Proof.
  induction k as [|k IH]; intros H rc fr st P H' rc' I E; destruct st as [|n st]; cbn [extract] in E; try discriminate.
  1,2: inversion E; subst; destruct I as [B1 B2 B3 B4 B5 B6 B7 B8]; rewrite app_nil_r in *; exists P; do 4 (split; [assumption|]);
    intro x; split; [now apply B6|]; intro R; induction R as [r J|m p R IHR J]; [now apply B5|eapply B4; eauto].
  destruct (opt_parents (S k) ac H n) as [[H1 ps]|] eqn:O; [|discriminate].
  destruct (fold_left visit ps (rc, fr, st)) as [[rc1 fr1] st1] eqn:V.
  apply (IH H1 rc1 fr1 st1 (n :: P)); [|exact E]. eapply ex_step; eauto.
Qed.
Lemma extract_total : forall b L, (forall r, In r rs -> rank r <= b) -> (forall n, reach rs n -> In n L) ->
  forall k H rc fr st P, ex_inv H rc fr st P -> b + (length L - length P) <= k -> exists r, extract k ac H rc fr st = Some r.
Proof.
  intros b L B RL. induction k as [|k IH]; intros H rc fr st P I LE; destruct st as [|n st]; cbn [extract]; eauto.
  - assert (length (P ++ n :: st) <= length L).
    { apply NoDup_incl_length; [apply I|]. intros x J. apply RL. now apply I. }
    rewrite app_length in H1. cbn in H1. lia.
  - assert (LL : length (P ++ n :: st) <= length L).
    { apply NoDup_incl_length; [apply I|]. intros x J. apply RL. now apply I. }
    rewrite app_length in LL. cbn in LL.
    assert (RN : rank n <= b) by (apply (reach_rank rs); auto; apply I; apply in_or_app; right; now left).
    destruct (opt_total H (S k) n) as [[H1 ps] O]; [apply I|lia|]. rewrite O.
    destruct (fold_left visit ps (rc, fr, st)) as [[rc1 fr1] st1] eqn:V.
    apply (IH H1 rc1 fr1 st1 (n :: P)); [eapply ex_step; eauto|]. cbn. lia.
Qed.
Lemma ex_start : NoDup rs -> ex_inv H0 (fun _ => 0%Z) (fun n => negb (existsb (node_eqb n) rs)) (rev rs) [].
Proof.
  intro ND. constructor; cbn; auto.
  - now apply NoDup_rev.
  - intro n. rewrite negb_false_iff, existsb_in. apply in_rev.
  - intros m p [].
  - intros r I. now apply in_rev in I.
  - intros n I. apply r_root. now apply in_rev.
  - apply cmp_start.
  - intros m [].
Qed.

(** ** Topological sorting *)
Section Topo.
Variable H : heap.
Variable V : list node.
Hypothesis HC : cmp H.
Hypothesis NV : NoDup V.
Hypothesis VC : forall m, In m V -> H m = comp m.
Hypothesis VR : forall n, In n V <-> reach rs n.
Record tp_inv (rc : node -> Z) (q ax ord : list node) : Prop := {
  t_nodup : NoDup (ord ++ q ++ ax);
  t_incl : forall n, In n (ord ++ q ++ ax) -> In n V;
  t_zero : forall n, In n V -> rc n = 0%Z -> In n (ord ++ q ++ ax);
  t_conv : forall n, In n (ord ++ q ++ ax) -> rc n = 0%Z;
  t_count : forall n, (rc n + Z.of_nat (cnt (flat_map G ord) n) = Z.of_nat (cnt (flat_map G V) n))%Z;
  t_order : forall o1 m o2, ord = o1 ++ m :: o2 -> forall p, In p (G m) -> ~ In p (m :: o2);
  t_ax : forall n, In n ax -> H0 n = None;
  t_rest : forall n, In n (ord ++ q) -> H0 n <> None \/ In n rs }.
Lemma closed_V : forall m p, In m V -> In p (G m) -> In p V.
Proof. intros m p I J. apply VR. apply VR in I. eapply r_step; eauto. Qed.
Lemma tp_step : forall rc n q ax ord ps rc1 q1 ax1, tp_inv rc (n :: q) ax ord -> parents ac H n = Some ps ->
  fold_left (release H) ps (rc, q, ax) = (rc1, q1, ax1) -> tp_inv rc1 q1 ax1 (n :: ord).
Proof.
  intros rc n q ax ord ps rc1 q1 ax1 [B1 B2 B3 B4 B5 B6 B7 B8] P R.
  assert (NIN : In n (ord ++ (n :: q) ++ ax)) by (apply in_or_app; right; now left).
  assert (IV : In n V) by auto.
  rewrite (parents_comp ac H0 STK rank RK H n (VC n IV)) in P. inversion P; subst ps; clear P.
  assert (PM : Permutation (ord ++ (n :: q) ++ ax) (n :: ord ++ q ++ ax)) by (symmetry; apply Permutation_middle).
  assert (ND : NoDup (n :: ord ++ q ++ ax)) by (eapply Permutation_NoDup; eauto).
  assert (LE : forall x, (Z.of_nat (cnt (G n) x) <= rc x)%Z).
  { intro x. destruct (incl_perm (n :: ord) V) as [E PE].
    - inversion ND; subst. constructor; [intro I; match goal with X : ~ _ |- _ => apply X; apply in_or_app; now left end|].
      eapply nodup_left; eauto.
    - intros y [<-|I]; [exact IV|]. apply B2. apply in_or_app; now left.
    - specialize (B5 x). apply (Permutation_flat_map G) in PE. rewrite (cnt_perm _ _ x PE) in B5. rewrite flat_map_app, cnt_app in B5. cbn in B5. rewrite cnt_app in B5. lia. }
  apply release_fold in R; [|intros; apply LE]. destruct R as [R1 [nq [na [-> [-> [N2 [IN [FQ FA]]]]]]]].
  assert (NEWV : forall x, In x (nq ++ na) -> In x V) by (intros x I; apply IN in I; eapply closed_V; [exact IV|apply I]).
  assert (PF : Permutation ((nq ++ na) ++ ord ++ (n :: q) ++ ax) ((n :: ord) ++ (q ++ nq) ++ na ++ ax)).
  { transitivity ((nq ++ na) ++ n :: ord ++ q ++ ax); [apply Permutation_app_head; exact PM|].
    transitivity (n :: (nq ++ na) ++ ord ++ q ++ ax); [symmetry; apply Permutation_middle|]. cbn. constructor.
    rewrite (Permutation_app_comm (nq ++ na)), <- !app_assoc. do 2 apply Permutation_app_head.
    rewrite Permutation_app_comm, <- app_assoc. reflexivity. }
  assert (PI : forall x, In x ((n :: ord) ++ (q ++ nq) ++ na ++ ax) <-> In x (nq ++ na) \/ In x (ord ++ (n :: q) ++ ax)).
  { intro x. rewrite <- in_app_iff. split; apply Permutation_in; [symmetry|]; exact PF. }
  assert (OLD : forall x, In x (ord ++ (n :: q) ++ ax) -> ~ In x (G n)).
  { intros x I J. apply B4 in I. apply cnt_in in J. specialize (LE x). lia. }
  constructor.
  - apply (Permutation_NoDup PF). apply nodup_app; [exact N2|exact B1|]. intros x I J. apply IN in I. now apply (OLD x J).
  - intros x I. apply PI in I. destruct I; auto.
  - intros x I Z0. apply PI. rewrite R1 in Z0. destruct (in_dec node_dec x (G n)) as [J|J].
    + left. apply IN. split; [exact J|lia].
    + right. apply B3; [exact I|]. assert (cnt (G n) x = 0); [|lia]. destruct (cnt (G n) x) eqn:C; [reflexivity|]. exfalso. apply J. apply cnt_in. lia.
  - intros x I. apply PI in I. rewrite R1. destruct I as [I|I]; [apply IN in I; lia|]. pose proof (OLD x I) as NJ. rewrite (B4 x I).
    destruct (cnt (G n) x) eqn:C; [lia|]. exfalso. apply NJ. apply cnt_in. lia.
  - intro x. rewrite R1. cbn. rewrite cnt_app. specialize (B5 x). lia.
  - intros [|o o1] m o2 E p J; cbn in E; inversion E; subst; clear E.
    + intros [<-|I].
      * apply G_rank in J. lia.
      * apply (OLD p); [apply in_or_app; now left|exact J].
    + eapply B6; eauto.
  - intros x I. apply in_app_or in I. destruct I as [I|I]; [|auto]. rewrite Forall_forall in FA. apply (cmp_none ac H0 STK rank H x HC). auto.
  - intros x I. rewrite app_assoc in I. apply in_app_or in I. destruct I as [I|I].
    + apply B8. apply in_or_app. destruct I as [<-|I]; [right; now left|]. apply in_app_or in I. destruct I; [now left|right; now right].
    + left. intro X. rewrite Forall_forall in FQ. apply (FQ x I). now apply (cmp_none ac H0 STK rank H x HC).
Qed.
Lemma tp_end : forall rc ax ord, tp_inv rc [] ax ord -> forall n, In n V -> In n (ord ++ ax).
Proof.
  intros rc ax ord [B1 B2 B3 B4 B5 B6 B7 B8]. cbn in *.
  assert (OV : NoDup ord) by (eapply nodup_left; eauto).
  destruct (incl_perm ord V OV) as [E PE]; [intros y I; apply B2; apply in_or_app; now left|].
  assert (NE : NoDup (ord ++ E)) by (eapply Permutation_NoDup; eauto).
  assert (UP : forall n, In n V -> ~ In n (ord ++ ax) -> exists m, In m V /\ ~ In m (ord ++ ax) /\ rank n < rank m).
  { intros n I N. assert (rc n <> 0%Z) by (intro Z0; apply N; now apply B3).
    pose proof (B5 n) as C. rewrite (cnt_perm _ _ n (Permutation_flat_map G PE)), flat_map_app, cnt_app in C.
    assert (0 < cnt (flat_map G E) n) by lia. apply cnt_in in H2. apply in_flat_map in H2. destruct H2 as [m [ME J]].
    exists m. split; [apply (Permutation_in _ (Permutation_sym PE)); apply in_or_app; now right|]. split; [|now apply G_rank].
    intro K. apply in_app_or in K. destruct K as [K|K].
    - assert (D : forall l k : list node, NoDup (l ++ k) -> forall x, In x l -> In x k -> False).
      { clear. induction l as [|a l IH]; intros k N x I J; [destruct I|]. inversion N; subst. destruct I as [<-|I]; [apply H1; apply in_or_app; now right|eauto]. }
      eapply D; eauto.
    - apply B7 in K. rewrite (G_none ac H0 rank m K) in J. destruct J. }
  assert (BD : exists b, forall n, In n V -> rank n <= b).
  { clear. induction V as [|x l [b IH]]; [exists 0; intros n []|]. exists (Nat.max (rank x) b). intros n [<-|I]; [lia|]. specialize (IH n I). lia. }
  destruct BD as [b BD].
  assert (GO : forall d n, b < rank n + d -> In n V -> In n (ord ++ ax)).
  { induction d as [|d IH]; intros n L I; [specialize (BD n I); lia|].
    destruct (in_dec node_dec n (ord ++ ax)) as [J|J]; [exact J|]. destruct (UP n I J) as [m [IM [JM R]]]. exfalso. apply JM. apply IH; [lia|exact IM]. }
  intros n I. apply (GO (S b) n); [lia|exact I].
Qed.
Lemma topo_sound : forall k rc q ax ord l, tp_inv rc q ax ord -> topo k ac H rc q ax ord = Some l ->
  exists rc' ax' ord', l = ax' ++ ord' /\ tp_inv rc' [] ax' ord'.
Proof.
  induction k as [|k IH]; intros rc q ax ord l I E; destruct q as [|n q]; cbn [topo] in E; try discriminate.
  1,2: inversion E; subst; eauto.
  destruct (parents ac H n) as [ps|] eqn:P; [|discriminate]. destruct (fold_left (release H) ps (rc, q, ax)) as [[rc1 q1] ax1] eqn:R.
  eapply IH; [|exact E]. eapply tp_step; eauto.
Qed.
Lemma topo_total : forall k rc q ax ord, tp_inv rc q ax ord -> length V - length ord <= k -> exists l, topo k ac H rc q ax ord = Some l.
Proof.
  induction k as [|k IH]; intros rc q ax ord I L; destruct q as [|n q]; cbn [topo]; eauto.
  - assert (length (ord ++ (n :: q) ++ ax) <= length V) by (apply NoDup_incl_length; [apply I|intros x J; now apply I]).
    rewrite !app_length in H1. cbn in H1. lia.
  - assert (IV : In n V) by (apply I; apply in_or_app; right; now left).
    rewrite (parents_comp ac H0 STK rank RK H n (VC n IV)).
    destruct (fold_left (release H) (G n) (rc, q, ax)) as [[rc1 q1] ax1] eqn:R.
    apply IH; [eapply tp_step; eauto; now apply (parents_comp ac H0 STK rank RK), VC|]. cbn. lia.
Qed.
Lemma tp_start : NoDup rs -> forall rc, (forall n, rc n = Z.of_nat (cnt (flat_map G V) n)) ->
  tp_inv rc (filter (fun n => Z.eqb (rc n) 0) rs) [] [].
Proof.
  intros ND rc RC. constructor; cbn; rewrite ?app_nil_r; auto.
  - now apply NoDup_filter.
  - intros n I. apply filter_In in I. apply VR. apply r_root. tauto.
  - intros n I Z0. apply filter_In. split; [|now apply Z.eqb_eq]. apply VR in I. destruct I as [r J|m p R J]; [exact J|].
    exfalso. rewrite RC in Z0. assert (In p (flat_map G V)); [|apply cnt_in in H1; lia]. apply in_flat_map. exists m. split; [now apply VR|exact J].
  - intros n I. apply filter_In in I. now apply Z.eqb_eq.
  - intro n. rewrite RC. lia.
  - intros [|? ?] m o2 E; discriminate.
  - intros n [].
  - intros n I. apply filter_In in I. tauto.
Qed.
End Topo.

(** ** Marking *)
Inductive gdep : node -> node -> Prop :=
| g_one n p : In p (G n) -> gdep n p
| g_more n m p : gdep n m -> In p (G m) -> gdep n p.
Section Mark.
Variable A : attrs.
Lemma mark_keeps : forall k H mk st hc H' hc', cmp H -> mark k ac A H mk st hc = Some (H', hc') ->
  cmp H' /\ (forall m, H m = comp m -> H' m = comp m).
Proof.
  induction k as [|k IH]; intros H mk st hc H' hc' C E; destruct st as [|n st]; cbn [mark] in E; try discriminate.
  1,2: inversion E; subst; eauto.
  destruct (in_proof A mk n) eqn:IP; [|eauto].
  destruct (opt_parents (S k) ac H n) as [[H1 ps]|] eqn:O; [|discriminate].
  destruct (fold_left (mark_visit A) ps (mk, st, hc)) as [[mk1 st1] hc1] eqn:V.
  destruct (opt_sound H (S k) n H1 ps C O) as [C1 [-> [_ C3]]].
  destruct (IH H1 mk1 st1 hc1 H' hc' C1 E) as [D1 D2]. auto.
Qed.
Lemma in_proof_in : forall mk n, In n mk -> in_proof A mk n = true.
Proof. intros mk n I. unfold in_proof. apply orb_true_iff. right. now apply existsb_in. Qed.
Lemma mark_total : forall b L, (forall r, In r rs -> rank r <= b) -> (forall n, reach rs n -> In n L) ->
  forall k H mk st hc, cmp H -> NoDup mk -> (forall n, In n mk -> reach rs n) -> (forall n, In n st -> reach rs n) ->
  b + length st + (length L - length mk) <= k -> exists r, mark k ac A H mk st hc = Some r.
Proof.
  intros b L B RL. induction k as [|k IH]; intros H mk st hc C ND MR SR LE; destruct st as [|n st]; cbn [mark]; eauto; [cbn in LE; lia|].
  cbn in LE. assert (RN : reach rs n) by (apply SR; now left).
  destruct (in_proof A mk n) eqn:IP; [|apply (IH H mk st hc C); auto; [intros; apply SR; now right|lia]].
  destruct (opt_total H (S k) n C) as [[H1 ps] O]; [pose proof (reach_rank rs b n B RN); lia|]. rewrite O.
  destruct (fold_left (mark_visit A) ps (mk, st, hc)) as [[mk1 st1] hc1] eqn:V.
  destruct (opt_sound H (S k) n H1 ps C O) as [C1 [-> [_ C3]]].
  apply mark_fold in V. destruct V as [_ [new [-> [-> [N2 IN]]]]].
  assert (NR : forall x, In x new -> reach rs x) by (intros x I; apply IN in I; eapply r_step; [exact RN|apply I]).
  assert (N3 : NoDup (new ++ mk)).
  { apply nodup_app; auto. intros x I J. apply IN in I. apply in_proof_in in J. destruct I; congruence. }
  assert (M3 : forall x, In x (new ++ mk) -> reach rs x) by (intros x I; apply in_app_or in I; destruct I; auto).
  assert (length (new ++ mk) <= length L) by (apply NoDup_incl_length; [exact N3|intros x K; apply RL; auto]).
  apply (IH H1 (new ++ mk) (new ++ st) hc1 C1 N3 M3).
  - intros x I. apply in_app_or in I. destruct I; auto. apply SR. now right.
  - rewrite !app_length in *. lia.
Qed.
Hypothesis EMP : forall n, reach rs n -> in_proof A [] n = true -> In n rs.
Record mk_inv (mk st : list node) (hc : bool) : Prop := {
  m_nodup : NoDup mk;
  m_mk : forall n, In n mk -> exists r, In r rs /\ in_proof A [] r = true /\ (n = r \/ gdep r n);
  m_st : forall n, In n st -> reach rs n;
  m_done : forall n, In n mk -> In n st \/ forall p, In p (G n) -> In p mk /\ (conj A p = true -> hc = true);
  m_roots : forall r, In r rs -> in_proof A [] r = true -> In r mk;
  m_hc : hc = true -> exists r n, In r rs /\ in_proof A [] r = true /\ gdep r n /\ conj A n = true }.
Lemma gdep_reach : forall r n, reach rs r -> gdep r n -> reach rs n.
Proof. intros r n R D. induction D as [n p J|n m p D IH J]; [eapply r_step; [exact R|exact J]|]. eapply r_step; [exact (IH R)|exact J]. Qed.
Lemma mk_reach : forall mk st hc n, mk_inv mk st hc -> In n mk -> reach rs n.
Proof. intros mk st hc n I J. destruct (m_mk _ _ _ I n J) as [r [IR [_ [->|D]]]]; [now apply r_root|]. eapply gdep_reach; [|exact D]. now apply r_root. Qed.
Lemma in_proof_iff : forall mk st hc n, mk_inv mk st hc -> reach rs n -> (in_proof A mk n = true <-> In n mk).
Proof.
  intros mk st hc n I R. unfold in_proof. rewrite orb_true_iff, existsb_in. split; [intros [E|E]; [|exact E]|tauto].
  apply (m_roots _ _ _ I); [apply EMP; [exact R|]|]; unfold in_proof; rewrite E; reflexivity.
Qed.
Lemma mk_step : forall mk n st hc mk1 st1 hc1, mk_inv mk (n :: st) hc -> In n mk ->
  fold_left (mark_visit A) (G n) (mk, st, hc) = (mk1, st1, hc1) -> mk_inv mk1 st1 hc1.
Proof.
  intros mk n st hc mk1 st1 hc1 I J X. apply mark_fold in X. destruct X as [-> [new [-> [-> [ND IN]]]]].
  assert (RN : reach rs n) by (eapply mk_reach; eauto).
  assert (NEWI : forall p, In p (G n) -> In p (new ++ mk)).
  { intros p K. apply in_or_app. destruct (in_proof A mk p) eqn:E; [right|left; now apply IN].
    eapply in_proof_iff; eauto. eapply r_step; eauto. }
  destruct (m_mk _ _ _ I n J) as [r [IR [ER DR]]].
  assert (GD : forall p, In p (G n) -> gdep r p) by (intros p K; destruct DR as [->|D]; [now apply g_one|eapply g_more; eauto]).
  destruct I as [B1 B2 B3 B4 B5 B6].
  assert (I : mk_inv mk (n :: st) hc) by (constructor; assumption).
  constructor.
  - apply nodup_app; [exact ND|exact B1|]. intros x K L. apply IN in K. destruct K as [K E].
    assert (in_proof A mk x = true) by (eapply in_proof_iff; eauto; eapply mk_reach; eauto). congruence.
  - intros x K. apply in_app_or in K. destruct K as [K|K]; [|auto]. exists r. split; [exact IR|]. split; [exact ER|]. right. apply GD. now apply IN in K.
  - intros x K. apply in_app_or in K. destruct K as [K|K]; [|apply B3; now right]. apply IN in K. eapply r_step; [exact RN|apply K].
  - intros x K. apply in_app_or in K. destruct K as [K|K]; [left; apply in_or_app; now left|].
    destruct (node_dec x n) as [->|NE].
    + right. intros p L. split; [now apply NEWI|]. intro C. apply orb_true_iff. right. apply existsb_exists. eauto.
    + destruct (B4 x K) as [[E|E]|E]; [congruence|left; apply in_or_app; now right|]. right. intros p L. destruct (E p L) as [E1 E2].
      split; [apply in_or_app; now right|]. intro C. rewrite (E2 C). reflexivity.
  - intros x K E. apply in_or_app. right. auto.
  - intro E. apply orb_true_iff in E. destruct E as [E|E]; [auto|]. apply existsb_exists in E. destruct E as [p [K C]]. exists r, p. auto.
Qed.
Lemma mk_skip : forall mk n st hc, mk_inv mk (n :: st) hc -> ~ In n mk -> mk_inv mk st hc.
Proof.
  intros mk n st hc [B1 B2 B3 B4 B5 B6] N. constructor; auto.
  - intros x K. apply B3. now right.
  - intros x K. destruct (B4 x K) as [[->|E]|E]; auto. contradiction.
Qed.
Lemma mark_hc : forall k H mk st hc H' hc', cmp H -> mk_inv mk st hc -> mark k ac A H mk st hc = Some (H', hc') ->
  exists mk', mk_inv mk' [] hc'.
Proof.
  induction k as [|k IH]; intros H mk st hc H' hc' C I E; destruct st as [|n st]; cbn [mark] in E; try discriminate.
  1,2: inversion E; subst; eauto.
  assert (RN : reach rs n) by (apply I; now left).
  destruct (in_proof A mk n) eqn:IP.
  - destruct (opt_parents (S k) ac H n) as [[H1 ps]|] eqn:O; [|discriminate].
    destruct (fold_left (mark_visit A) ps (mk, st, hc)) as [[mk1 st1] hc1] eqn:V.
    destruct (opt_sound H (S k) n H1 ps C O) as [C1 [-> [_ C3]]].
    pose proof (mk_step mk n st hc mk1 st1 hc1 I (proj1 (in_proof_iff mk (n :: st) hc n I RN) IP) V) as J.
    apply (IH H1 mk1 st1 hc1 H' hc' C1 J E).
  - apply (IH H mk st hc H' hc'); auto. eapply mk_skip; eauto. intro K. apply (in_proof_iff mk (n :: st) hc n I RN) in K. congruence.
Qed.
Lemma mk_start : NoDup rs -> mk_inv (filter (in_proof A []) rs) (rev rs) false.
Proof.
  intro ND. constructor.
  - now apply NoDup_filter.
  - intros n I. apply filter_In in I. exists n. tauto.
  - intros n I. apply in_rev in I. now apply r_root.
  - intros n I. apply filter_In in I. left. apply in_rev. rewrite rev_involutive. tauto.
  - intros r I E. apply filter_In. auto.
  - discriminate.
Qed.
Lemma mk_end : forall mk hc, mk_inv mk [] hc ->
  (hc = true <-> exists r n, In r rs /\ in_proof A [] r = true /\ gdep r n /\ conj A n = true).
Proof.
  intros mk hc I. split; [apply I|]. intros [r [n [IR [E [D C]]]]].
  assert (RM : In r mk) by (apply I; auto).
  assert (X : In n mk /\ (conj A n = true -> hc = true)); [|tauto]. clear C. induction D as [n p J|n m p D IH J].
  - destruct (m_done _ _ _ I n RM) as [[]|K]. auto.
  - destruct (IH IR E RM) as [M _]. destruct (m_done _ _ _ I m M) as [[]|K]. auto.
Qed.
End Mark.
End Loops.
