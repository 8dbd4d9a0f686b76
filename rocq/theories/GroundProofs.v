(** The ground set. *)

From Coq Require Import ZArith List Bool Lia Arith.
From Verif Require Import Ground GroundSpec.
Import ListNotations.
Local Open Scope Z_scope.

Definition tl (v : Z -> bool) (l : glit) : Prop := v (snd l) = fst l.
Definition tc (v : Z -> bool) (c : gclause) : Prop := exists l, In l c /\ tl v l.
Definition gmodel (v : Z -> bool) (g : gset) : Prop :=
  (forall u, In u (g_units g) -> tl v u) /\ (forall c, In c (g_non g) -> tc v c).

Lemma eqlit_iff : forall a b, eqlit a b = true <-> a = b.
Proof.
  intros [s x] [t y]. unfold eqlit. cbn. rewrite andb_true_iff, eqb_true_iff,
    Z.eqb_eq. split; [intros [-> ->]; reflexivity|intros H; injection H; auto].
Qed.

Lemma exists_lit : forall l c, existsb (eqlit l) c = true <-> In l c.
Proof.
  intros l c. rewrite existsb_exists. split.
  - intros (x & A & B). apply eqlit_iff in B. subst x. exact A.
  - intros A. exists l. split; auto. apply eqlit_iff. reflexivity.
Qed.

Lemma status_iff : forall g l, status g l = true <-> In l (g_units g).
Proof. intros. apply exists_lit. Qed.

Lemma dedup_iff : forall c seen x, In x (dedup seen c) <-> In x c /\ ~ In x seen.
Proof.
  induction c as [|l r IH]; intros seen x; cbn [dedup]; [cbn; tauto|].
  destruct (existsb (eqlit l) seen) eqn:E.
  - apply exists_lit in E. rewrite IH. cbn. split; [tauto|].
    intros [[<-|A] B]; tauto.
  - assert (N : ~ In l seen).
    { intros H. apply exists_lit in H. congruence. }
    cbn [In]. rewrite IH. cbn [In]. split.
    + intros [<-|[A B]]; tauto.
    + intros [[<-|A] B]; [tauto|].
      destruct (existsb (eqlit l) [x]) eqn:F.
      * apply exists_lit in F. destruct F as [->|[]]. tauto.
      * right. split; auto. intros [H|H]; [|tauto].
        subst x. assert (existsb (eqlit l) [l] = true)
          by (apply exists_lit; left; reflexivity). congruence.
Qed.

Lemma trivial_true : forall v c, EqnListIsTrivial c = true -> tc v c.
Proof.
  induction c as [|l r IH]; cbn; [discriminate|]. intros H.
  apply orb_true_iff in H. destruct H as [H|H].
  - apply exists_lit in H. destruct (Bool.bool_dec (v (snd l)) (fst l)) as [E|E].
    + exists l. split; [left; reflexivity|exact E].
    + exists (opp l). split; [right; exact H|]. unfold tl, opp. cbn.
      destruct (v (snd l)), (fst l); try reflexivity; congruence.
  - destruct (IH H) as (x & A & B). exists x. split; auto. right. exact A.
Qed.

Lemma alloc_in : forall c x, In x (ClauseAlloc c) <-> In x c.
Proof.
  intros c [s x]. unfold ClauseAlloc. rewrite in_app_iff, !filter_In.
  cbn. destruct s; cbn; split; try tauto; intros [[A B]|[A B]]; congruence.
Qed.

Lemma simplify_in : forall g c s r c',
  GroundSetUnitSimplifyClause g c s r = Some c' ->
  forall x, In x c' -> In x c.
Proof.
  intros g c s r. induction c as [|l c IH]; cbn [GroundSetUnitSimplifyClause];
    intros c' H x A.
  - injection H as <-. exact A.
  - destruct (s && status g l); [discriminate|].
    destruct (GroundSetUnitSimplifyClause g c s r) as [q|]; [|discriminate].
    injection H as <-. destruct (r && status g (opp l)).
    + right. eapply IH; eauto.
    + destruct A as [<-|A]; [left; reflexivity|right; eapply IH; eauto].
Qed.

Lemma simplify_ok : forall v g c s r, gmodel v g ->
  match GroundSetUnitSimplifyClause g c s r with
  | None => tc v c
  | Some c' => tc v c <-> tc v c'
  end.
Proof.
  intros v g c s r [GU _]. induction c as [|l c IH];
    cbn [GroundSetUnitSimplifyClause]; [tauto|].
  destruct (s && status g l) eqn:E.
  { apply andb_true_iff in E. destruct E as [_ E]. apply status_iff in E.
    exists l. split; [left; reflexivity|apply GU; exact E]. }
  destruct (GroundSetUnitSimplifyClause g c s r) as [q|].
  - assert (H : tc v (l :: c) <-> tl v l \/ tc v c).
    { split.
      - intros (x & [<-|A] & B); auto. right. exists x. auto.
      - intros [A|(x & A & B)].
        + exists l. split; auto. left. reflexivity.
        + exists x. split; auto. right. exact A. }
    rewrite H, IH. destruct (r && status g (opp l)) eqn:F.
    + apply andb_true_iff in F. destruct F as [_ F]. apply status_iff in F.
      apply GU in F. unfold tl, opp in *. cbn in F. split; auto.
      intros [A|A]; auto. rewrite A in F. destruct (fst l); discriminate.
    + split.
      * intros [A|(x & A & B)].
        -- exists l. split; auto. left. reflexivity.
        -- exists x. split; auto. right. exact A.
      * intros (x & [<-|A] & B); auto. right. exists x. auto.
  - destruct IH as (x & A & B). exists x. split; auto. right. exact A.
Qed.

Lemma insert_ok : forall v g c,
  gmodel v (GroundSetInsert g c) <-> gmodel v g /\ tc v c.
Proof.
  assert (gen : forall v g c, gmodel v (mkgset (g_units g) (g_unit_no g)
           (Z.max (g_max g) (clause_get_max_lit c)) (g_non g ++ [c])) <->
           gmodel v g /\ tc v c).
  { intros v g c. unfold gmodel. cbn. split.
    - intros [A B]. split; [split; auto|].
      + intros x H. apply B. apply in_or_app. auto.
      + apply B. apply in_or_app. right. left. reflexivity.
    - intros [[A B] C]. split; auto. intros x H. apply in_app_or in H.
      destruct H as [H|[<-|[]]]; auto. }
  intros v g [|l [|k c]]; try apply gen. cbn [GroundSetInsert].
  assert (S1 : tc v [l] <-> tl v l).
  { split.
    - intros (x & [<-|[]] & B). exact B.
    - intros A. exists l. split; auto. left. reflexivity. }
  rewrite S1. destruct (status g l) eqn:E.
  - apply status_iff in E. split; [|tauto]. intros H. split; auto.
    apply H. exact E.
  - unfold gmodel. cbn. split.
    + intros [A B]. split; [split; auto|auto].
    + intros [[A B] C]. split; auto. intros u [<-|H]; auto.
Qed.

Section S.
Variable code : Z -> list Z -> Z.

Lemma instance_ok : forall v o c b g g' res, instance code o c b g = (g', res) ->
  (gmodel v g' <-> gmodel v g /\ tc v (map (ground_lit code b) c)) /\
  (res = false -> ~ gmodel v g').
Proof.
  intros v o c b g g' res H. unfold instance in H. cbv zeta in H.
  set (h := EqnListRemoveDuplicates (map (ground_lit code b) c)) in *.
  assert (HI : tc v h <-> tc v (map (ground_lit code b) c)).
  { unfold tc. split; intros (x & A & B); exists x; split; auto;
      [apply dedup_iff in A; tauto|apply dedup_iff; cbn; tauto]. }
  assert (HA : tc v (ClauseAlloc h) <-> tc v h).
  { unfold tc. split; intros (x & A & B); exists x; split; auto;
      apply alloc_in; exact A. }
  rewrite <- HI, <- HA.
  destruct (taut_check o && EqnListIsTrivial h) eqn:T.
  - injection H as <- <-. apply andb_true_iff in T. destruct T as [_ T].
    apply (trivial_true v) in T. split; [tauto|discriminate].
  - destruct (GroundSetUnitSimplifyClause g (ClauseAlloc h) (subsume o)
                (resolve o)) as [[|l q]|] eqn:E.
    + injection H as <- <-.
      assert (N : ~ gmodel v (GroundSetInsert (mkgset [] 0 (g_max g) []) [])).
      { intros F. apply insert_ok in F. destruct F as [_ (x & [] & _)]. }
      split; auto. split; [tauto|]. intros [A B]. exfalso.
      pose proof (simplify_ok v g (ClauseAlloc h) (subsume o) (resolve o) A) as S.
      rewrite E in S. apply S in B. destruct B as (x & [] & _).
    + injection H as <- <-. split; [|discriminate].
      fold (GroundSetInsert g (l :: q)). rewrite insert_ok.
      split; intros [A B]; split; auto;
      pose proof (simplify_ok v g (ClauseAlloc h) (subsume o) (resolve o) A) as S;
      rewrite E in S; apply S; exact B.
    + injection H as <- <-. split; [|discriminate].
      split; [|tauto]. intros A. split; auto.
      pose proof (simplify_ok v g (ClauseAlloc h) (subsume o) (resolve o) A) as S.
      rewrite E in S. exact S.
Qed.

(* ------------------------------------------------------------------ *)
(** * The enumeration *)

Fixpoint valid (cs : list cell) (ps : list nat) : Prop :=
  match cs, ps with
  | [], [] => True
  | (_, a) :: cs', p :: ps' => (p < length a)%nat /\ valid cs' ps'
  | _, _ => False
  end.

Fixpoint idx (cs : list cell) (ps : list nat) : nat :=
  match cs, ps with
  | (_, a) :: cs', p :: ps' => (length a * idx cs' ps' + p)%nat
  | _, _ => 0%nat
  end.

Lemma idx_inj : forall cs ps qs, valid cs ps -> valid cs qs ->
  idx cs ps = idx cs qs -> ps = qs.
Proof.
  induction cs as [|[x a] cs IH]; intros [|p ps] [|q qs] A B E;
    cbn in A, B; try tauto.
  cbn [idx] in E. apply Nat.div_mod_unique in E; try tauto.
  destruct E as [E1 E2]. f_equal; auto. apply IH; tauto.
Qed.

Lemma next_ok : forall cs ps, valid cs ps ->
  match varsetinstnext cs ps with
  | Some qs => valid cs qs /\ idx cs ps = S (idx cs qs)
  | None => idx cs ps = 0%nat
  end.
Proof.
  induction cs as [|[x a] cs IH]; intros [|p ps] A; cbn in A; try tauto.
  - reflexivity.
  - cbn [varsetinstnext idx]. destruct A as [A B]. specialize (IH ps B).
    destruct p as [|p].
    + destruct (varsetinstnext cs ps) as [qs|].
      * destruct IH as [V E]. cbn [valid idx]. split; [split; [lia|exact V]|].
        rewrite E. nia.
      * rewrite IH. lia.
    + cbn [valid idx]. split; [split; [lia|exact B]|]. lia.
Qed.

Lemma init_ok : forall cs,
  match varsetinstinitialize cs with
  | Some ps => valid cs ps /\ forall qs, valid cs qs -> (idx cs qs <= idx cs ps)%nat
  | None => forall qs, ~ valid cs qs
  end.
Proof.
  induction cs as [|[x a] cs IH]; cbn [varsetinstinitialize].
  - split; [exact I|]. intros qs _. cbn. lia.
  - destruct (length a) as [|n] eqn:L.
    + intros [|q qs] H; cbn in H; [exact H|]. lia.
    + destruct (varsetinstinitialize cs) as [ps|].
      * destruct IH as [V M]. cbn [valid idx]. rewrite L. split; [split; [lia|exact V]|].
        intros [|q qs] H; cbn [valid] in H; [tauto|]. try rewrite L in H.
        destruct H as [H1 H2]. specialize (M qs H2). cbn [idx]. nia.
      * intros [|q qs] H; cbn in H; [exact H|]. apply (IH qs). tauto.
Qed.

Definition at_ (c : clause) (cs : list cell) (qs : list nat) : gclause :=
  map (ground_lit code (varsetinstapply cs qs)) c.

Lemma instances_ok : forall o c cs time ps g g' res t, valid cs ps ->
  instances code time o c cs ps g = (g', res, t) ->
  (forall v, gmodel v g -> (forall qs, valid cs qs -> tc v (at_ c cs qs)) ->
     gmodel v g') /\
  (forall v, gmodel v g' -> gmodel v g) /\
  (res = false -> forall v, ~ gmodel v g') /\
  (res = true -> t <> 0%nat -> forall v, gmodel v g' ->
     forall qs, valid cs qs -> (idx cs qs <= idx cs ps)%nat ->
     tc v (at_ c cs qs)) /\
  (time <= t + S (idx cs ps))%nat.
Proof.
  intros o c cs. induction time as [|n IH]; intros ps g g' res t V H;
    cbn [instances] in H.
  - injection H as <- <- <-. split; auto. split; auto.
    split; [discriminate|]. split; [|lia]. intros _ F. congruence.
  - destruct (instance code o c (varsetinstapply cs ps) g) as [g1 r1] eqn:E.
    assert (I1 := fun v => instance_ok v _ _ _ _ _ _ E).
    fold (at_ c cs ps) in I1.
    pose proof (next_ok cs ps V) as NX.
    assert (stop : (forall v, gmodel v g ->
      (forall qs, valid cs qs -> tc v (at_ c cs qs)) -> gmodel v g1) /\
      (forall v, gmodel v g1 -> gmodel v g) /\
      (r1 = false -> forall v, ~ gmodel v g1)).
    { split; [|split].
      - intros v A B. apply (proj1 (I1 v)). split; [exact A|].
        apply B. exact V.
      - intros v A. apply (proj1 (I1 v)) in A. tauto.
      - intros R v. apply (proj2 (I1 v)). exact R. }
    destruct stop as (T1 & T2 & T3).
    destruct (varsetinstnext cs ps) as [ps'|].
    + destruct NX as [V' NX]. destruct r1.
      * apply IH in H; auto. destruct H as (P1 & P2 & P3 & P4 & P5).
        split; [intros v A B; apply P1; auto|].
        split; [intros v A; apply T2, P2; exact A|].
        split; [exact P3|]. split; [|lia].
        intros R Z v A qs VQ L.
        destruct (Nat.eq_dec (idx cs qs) (idx cs ps)) as [D|D].
        -- apply idx_inj in D; auto. subst qs. apply P2 in A.
           apply (proj1 (I1 v)) in A. apply A.
        -- apply (P4 R Z v A qs VQ). lia.
      * injection H as <- <- <-. split; [exact T1|]. split; [exact T2|].
        split; [exact T3|]. split; [discriminate|lia].
    + injection H as <- <- <-. split; [exact T1|]. split; [exact T2|].
      split; [exact T3|]. split; [|lia].
      intros R Z v A qs VQ L. rewrite NX in L.
      assert (D : idx cs qs = idx cs ps) by lia.
      apply idx_inj in D; auto. subst qs. apply (proj1 (I1 v)) in A. apply A.
Qed.

Lemma create_zero : forall o alts set g g' t,
  create code 0 o alts set g = (g', t) -> t = 0%nat.
Proof. intros o alts [|c set] g g' t H; cbn in H; injection H; auto. Qed.

Lemma create_ok : forall o alts set time g g' t,
  create code time o alts set g = (g', t) ->
  (forall v, gmodel v g ->
     (forall c qs, In c set -> valid (alts c) qs -> tc v (at_ c (alts c) qs)) ->
     gmodel v g') /\
  (forall v, gmodel v g' -> gmodel v g) /\
  (t <> 0%nat -> forall v, gmodel v g' ->
     forall c qs, In c set -> valid (alts c) qs -> tc v (at_ c (alts c) qs)).
Proof.
  intros o alts. induction set as [|c set IH]; intros time g g' t H;
    cbn [create] in H.
  - injection H as <- <-. split; auto. split; auto. intros _ v _ c qs [].
  - destruct time as [|n].
    { injection H as <- <-. split; auto. split; auto. intros F. congruence. }
    pose proof (init_ok (alts c)) as IN.
    destruct (varsetinstinitialize (alts c)) as [ps|].
    + destruct IN as [V M].
      destruct (instances code (S n) o c (alts c) ps g) as [[g1 r1] t1] eqn:E.
      apply instances_ok in E; auto. destruct E as (P1 & P2 & P3 & P4 & _).
      destruct r1.
      * destruct (IH _ _ _ _ H) as (Q1 & Q2 & Q3).
        split; [|split].
        -- intros v A B. apply Q1.
           ++ apply P1; auto. intros qs VQ. apply B; auto. left. reflexivity.
           ++ intros d qs D VQ. apply B; auto. right. exact D.
        -- intros v A. apply P2, Q2. exact A.
        -- intros T v A d qs [<-|D] VQ.
           ++ apply (P4 eq_refl); [|apply Q2; exact A|exact VQ|apply M; exact VQ].
              intros T1. subst t1.
              apply T. eapply create_zero; eauto.
           ++ apply (Q3 T v A); auto.
      * injection H as <- <-. split; [|split].
        -- intros v A B. apply P1; auto. intros qs VQ. apply B; auto.
           left. reflexivity.
        -- intros v A. apply P2. exact A.
        -- intros T v A. exfalso. apply (P3 eq_refl v A).
    + apply IH in H. destruct H as (Q1 & Q2 & Q3). split; [|split].
      * intros v A B. apply Q1; auto. intros d qs D VQ. apply B; auto.
        right. exact D.
      * exact Q2.
      * intros T v A d qs [<-|D] VQ; [exfalso; eapply IN; eauto|].
        apply (Q3 T v A); auto.
Qed.
End S.
