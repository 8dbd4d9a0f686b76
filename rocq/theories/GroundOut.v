(** What is printed. *)

From Coq Require Import ZArith List Bool Lia Arith Permutation.
From Verif Require Import Ground GroundSpec GroundProofs GroundHerbrand
  GroundConstr.
Import ListNotations.
Local Open Scope Z_scope.

Definition ranged (m : Z) (l : glit) : Prop := 0 < snd l <= m.

Record good (g : gset) : Prop := {
  good_nodup : NoDup (g_units g);
  good_no : g_unit_no g = Z.of_nat (length (g_units g));
  good_max : 0 <= g_max g;
  good_units : forall u, In u (g_units g) -> ranged (g_max g) u;
  good_non : forall c l, In c (g_non g) -> In l c -> ranged (g_max g) l
}.

Lemma fold_max : forall c r, r <= fold_left (fun r (l : glit) => Z.max r (snd l)) c r /\
  forall l, In l c -> snd l <= fold_left (fun r (l : glit) => Z.max r (snd l)) c r.
Proof.
  induction c as [|k c IH]; intros r; cbn [fold_left].
  - split; [lia|intros l []].
  - destruct (IH (Z.max r (snd k))) as [A B]. split; [lia|].
    intros l [<-|H]; auto. lia.
Qed.

Lemma max_lit : forall c l, In l c -> snd l <= clause_get_max_lit c.
Proof. intros c l H. apply (fold_max c 0). exact H. Qed.

Lemma max_lit_pos : forall c, 0 <= clause_get_max_lit c.
Proof. intros c. apply (fold_max c 0). Qed.

Lemma insert_good : forall g c, good g -> (forall l, In l c -> 0 < snd l) ->
  good (GroundSetInsert g c).
Proof.
  assert (gen : forall g c, good g -> (forall l, In l c -> 0 < snd l) ->
    good (mkgset (g_units g) (g_unit_no g)
           (Z.max (g_max g) (clause_get_max_lit c)) (g_non g ++ [c]))).
  { intros g c [G1 G2 G3 G4 G5] P. constructor; cbn; auto.
    - lia.
    - intros u H. apply G4 in H. unfold ranged in *. lia.
    - intros d l H K. apply in_app_or in H. destruct H as [H|[<-|[]]].
      + specialize (G5 d l H K). unfold ranged in *. lia.
      + specialize (P l K). pose proof (max_lit c l K). unfold ranged. lia. }
  intros g [|l [|k c]] G P; try (apply gen; assumption). cbn [GroundSetInsert].
  destruct (status g l) eqn:E; auto. destruct G as [G1 G2 G3 G4 G5].
  assert (0 < snd l) by (apply P; left; reflexivity).
  constructor; cbn [g_units g_unit_no g_max g_non].
  - constructor; auto. intros H1. apply status_iff in H1. congruence.
  - rewrite G2. cbn [length]. lia.
  - lia.
  - intros u [<-|K]; [unfold ranged; lia|]. apply G4 in K. unfold ranged in *. lia.
  - intros d x D X. specialize (G5 d x D X). unfold ranged in *. lia.
Qed.

Section S.
Variable code : Z -> list Z -> Z.
Hypothesis CP : forall p a, 0 < code p a.

Lemma instance_good : forall o c b g g' res, good g ->
  instance code o c b g = (g', res) -> good g'.
Proof.
  intros o c b g g' res G H. unfold instance in H. cbv zeta in H.
  destruct (taut_check o && _); [injection H as <- <-; exact G|].
  destruct (GroundSetUnitSimplifyClause g _ (subsume o) (resolve o))
    as [[|l q]|] eqn:E; injection H as <- <-; auto.
  - apply (insert_good (mkgset [] 0 (g_max g) []) []); [|intros l []]. destruct G as [G1 G2 G3 G4 G5].
    constructor; cbn; [constructor|reflexivity|exact G3|intros ? []|intros ? ? []].
  - apply (insert_good g (l :: q)); auto. intros x K.
    apply (simplify_in _ _ _ _ _ E) in K. apply (proj1 (alloc_in _ _)) in K.
    apply dedup_iff in K. destruct K as [K _]. apply in_map_iff in K.
    destruct K as (y & <- & _). apply CP.
Qed.

Lemma instances_good : forall o c cs time ps g g' res t, good g ->
  instances code time o c cs ps g = (g', res, t) -> good g'.
Proof.
  intros o c cs. induction time as [|n IH]; intros ps g g' res t G H;
    cbn [instances] in H; [injection H as <- <- <-; exact G|].
  destruct (instance code o c (varsetinstapply cs ps) g) as [g1 r1] eqn:E.
  apply instance_good in E; auto.
  destruct (varsetinstnext cs ps); [destruct r1|];
    [eapply IH; eauto|injection H as <- <- <-; exact E..].
Qed.

Lemma create_good : forall o alts set time g g' t, good g ->
  create code time o alts set g = (g', t) -> good g'.
Proof.
  intros o alts. induction set as [|c set IH]; intros time g g' t G H;
    cbn [create] in H; [injection H as <- <-; exact G|].
  destruct time; [injection H as <- <-; exact G|].
  destruct (varsetinstinitialize (alts c)) as [ps|]; [|eapply IH; eauto].
  destruct (instances code (S time) o c (alts c) ps g) as [[g1 r1] t1] eqn:E.
  apply instances_good in E; auto.
  destruct r1; [eapply IH; eauto|injection H as <- <-; exact E].
Qed.
End S.

Lemma good_start : good GroundSetAlloc.
Proof.
  constructor; cbn; [constructor|reflexivity|lia|intros ? []|intros ? ? []].
Qed.

(* ------------------------------------------------------------------ *)
(** * Files *)

Definition codes (g : gset) : list Z :=
  map Z.of_nat (seq 0 (Z.to_nat (clause_get_max_lit (g_units g) + 1))).

Definition unit_list (g : gset) (l : list Z) : list glit :=
  flat_map (fun i => (if status g (true, i) then [(true, i)] else []) ++
                     (if status g (false, i) then [(false, i)] else [])) l.

Definition lines (g : gset) : list (list Z) :=
  map (fun u => [dimacs u]) (unit_list g (codes g)) ++
  flat_map (fun c : gclause => match c with [] => [[-1]; [1]] | _ => [map dimacs c] end)
    (g_non g).

Definition end0 (c : list Z) : list Z := c ++ [0].

Lemma print_lines : forall g,
  GroundSetPrintDimacs true g = flat_map end0 (lines g).
Proof.
  intros g. unfold GroundSetPrintDimacs, lines. rewrite flat_map_app. f_equal.
  - fold (codes g). induction (codes g) as [|i l IH]; [reflexivity|].
    unfold unit_list in *. cbn [flat_map]. rewrite IH.
    destruct (status g (true, i)), (status g (false, i)); reflexivity.
  - induction (g_non g) as [|c l IH]; [reflexivity|]. cbn [flat_map].
    rewrite IH, flat_map_app. f_equal. destruct c; [reflexivity|].
    cbn [flat_map ClausePrintDimacs]. rewrite app_nil_r. reflexivity.
Qed.

Lemma reads_clause : forall c r acc, (forall z, In z c -> z <> 0) ->
  reads acc (c ++ 0 :: r) = (rev acc ++ c) :: reads [] r.
Proof.
  induction c as [|z c IH]; intros r acc H.
  - cbn. rewrite app_nil_r. reflexivity.
  - cbn [app reads]. destruct (z =? 0) eqn:E.
    { apply Z.eqb_eq in E. exfalso. apply (H z); auto. left. reflexivity. }
    rewrite IH by (intros y K; apply H; right; exact K).
    cbn [rev]. rewrite <- app_assoc. reflexivity.
Qed.

Lemma reads_lines : forall ls, (forall c z, In c ls -> In z c -> z <> 0) ->
  reads [] (flat_map end0 ls) = ls.
Proof.
  induction ls as [|c ls IH]; intros H; [reflexivity|].
  cbn [flat_map]. unfold end0 at 1. rewrite <- app_assoc. cbn [app].
  rewrite reads_clause.
  - cbn. f_equal. apply IH. intros d z D. apply H. right. exact D.
  - intros z K. apply (H c z); auto. left. reflexivity.
Qed.

Lemma unit_list_iff : forall g l u,
  In u (unit_list g l) <-> In (snd u) l /\ In u (g_units g).
Proof.
  intros g l [s z]. unfold unit_list. rewrite in_flat_map. cbn [snd]. split.
  - intros (i & A & B). apply in_app_or in B. destruct B as [B|B].
    + destruct (status g (true, i)) eqn:E; [|destruct B].
      destruct B as [B|[]]. injection B as <- <-. apply status_iff in E. auto.
    + destruct (status g (false, i)) eqn:E; [|destruct B].
      destruct B as [B|[]]. injection B as <- <-. apply status_iff in E. auto.
  - intros [A B]. exists z. split; auto. apply status_iff in B.
    apply in_or_app. destruct s; rewrite B; [left|right]; left; reflexivity.
Qed.

Lemma codes_in : forall g u, good g -> In u (g_units g) -> In (snd u) (codes g).
Proof.
  intros g u G H. unfold codes. apply in_map_iff.
  pose proof (max_lit _ _ H) as M. pose proof (good_units _ G _ H) as R.
  unfold ranged in R. exists (Z.to_nat (snd u)). split; [lia|].
  apply in_seq. lia.
Qed.

Lemma unit_list_nodup : forall g l, NoDup l -> NoDup (unit_list g l).
Proof.
  intros g l N. induction N as [|i l A N IH]; [constructor|].
  cbn [unit_list flat_map]. fold (unit_list g l).
  assert (X : forall s, ~ In (s, i) (unit_list g l)).
  { intros s H. apply unit_list_iff in H. cbn in H. tauto. }
  destruct (status g (true, i)), (status g (false, i)); cbn [app]; auto;
    repeat (constructor; auto).
  cbn [In]. intros [H|H]; [discriminate|]. apply (X true). exact H.
Qed.

Lemma units_perm : forall g, good g ->
  Permutation (unit_list g (codes g)) (g_units g).
Proof.
  intros g G. apply NoDup_Permutation.
  - apply unit_list_nodup. unfold codes. apply FinFun.Injective_map_NoDup.
    + intros a b H. lia.
    + apply seq_NoDup.
  - apply good_nodup. exact G.
  - intros u. rewrite unit_list_iff. split; [tauto|].
    intros H. split; auto. apply codes_in; auto.
Qed.

Lemma lines_range : forall g c z, good g -> In c (lines g) -> In z c ->
  1 <= Z.abs z <= (if g_max g <=? 0 then 1 else g_max g).
Proof.
  intros g c z G A B. unfold lines in A. apply in_app_or in A.
  assert (D : forall l, ranged (g_max g) l ->
    1 <= Z.abs (dimacs l) <= (if g_max g <=? 0 then 1 else g_max g)).
  { intros [s y] R. unfold ranged in R. cbn in R. unfold dimacs. cbn.
    destruct (g_max g <=? 0) eqn:E; [apply Z.leb_le in E; lia|].
    destruct s; lia. }
  destruct A as [A|A].
  - apply in_map_iff in A. destruct A as (u & <- & A).
    destruct B as [<-|[]]. apply D. apply good_units; auto.
    apply (Permutation_in u (units_perm g G)) in A. exact A.
  - apply in_flat_map in A. destruct A as (k & K & A).
    assert (M : 1 <= 1 <= (if g_max g <=? 0 then 1 else g_max g)).
    { destruct (g_max g <=? 0) eqn:E; [lia|apply Z.leb_gt in E; lia]. }
    destruct k as [|l k].
    + destruct A as [<-|[<-|[]]]; destruct B as [<-|[]]; exact M.
    + destruct A as [<-|[]]. apply in_map_iff in B. destruct B as (x & <- & B).
      apply D. apply (good_non _ G _ _ K B).
Qed.

Lemma file_lines : forall g, good g ->
  reads [] (GroundSetPrintDimacs true g) = lines g.
Proof.
  intros g G. rewrite print_lines. apply reads_lines.
  intros c z A B. pose proof (lines_range g c z G A B). lia.
Qed.

Lemma file_count : forall g, good g ->
  Z.of_nat (length (lines g)) = snd (PrintDimacsHeader g).
Proof.
  intros g G. unfold lines, PrintDimacsHeader. cbn [snd].
  rewrite app_length, map_length, (Permutation_length (units_perm g G)),
    (good_no _ G).
  assert (H : length (flat_map (fun c : gclause => match c with
     [] => [[-1]; [1]] | _ => [map dimacs c] end) (g_non g)) =
     (length (g_non g) + length (filter (fun c : gclause => match c with
       [] => true | _ => false end) (g_non g)))%nat).
  { induction (g_non g) as [|c l IH]; [reflexivity|].
    cbn [flat_map filter length]. rewrite app_length, IH.
    destruct c; cbn [length]; lia. }
  rewrite H. lia.
Qed.

Lemma dimacs_true : forall v l, 0 < snd l ->
  (true_in v [dimacs l] <-> tl v l).
Proof.
  intros v [s z] P. cbn in P. unfold true_in, tl, dimacs. cbn [fst snd]. split.
  - intros (y & [<-|[]] & [[A B]|[A B]]); destruct s; auto; try lia.
    rewrite Z.opp_involutive in B. exact B.
  - intros H. eexists. split; [left; reflexivity|]. destruct s.
    + left. auto.
    + right. rewrite Z.opp_involutive. split; [lia|exact H].
Qed.

Lemma clause_true : forall v c, (forall l, In l c -> 0 < snd l) ->
  (true_in v (map dimacs c) <-> tc v c).
Proof.
  intros v c P. split.
  - intros (z & A & B). apply in_map_iff in A. destruct A as (l & <- & A).
    exists l. split; auto. apply (dimacs_true v l); [apply P; exact A|].
    exists (dimacs l). split; auto. left. reflexivity.
  - intros (l & A & B). apply (dimacs_true v l) in B; [|apply P; exact A].
    destruct B as (z & [<-|[]] & B). exists (dimacs l). split; auto.
    apply in_map. exact A.
Qed.

Lemma file_model : forall v g, good g ->
  (model v (GroundSetPrintDimacs true g) <-> gmodel v g).
Proof.
  intros v g G. unfold model. rewrite (file_lines g G). unfold lines. split.
  - intros H. split.
    + intros u U. apply (dimacs_true v u).
      { apply (good_units _ G _ U). }
      apply H. apply in_or_app. left. apply in_map_iff. exists u. split; auto.
      apply (Permutation_in u (Permutation_sym (units_perm g G))). exact U.
    + intros c C. destruct c as [|l c].
      * exfalso.
        assert (K : forall d, In d [[-1]; [1]] -> true_in v d).
        { intros d D. apply H. apply in_or_app. right. apply in_flat_map.
          exists []. split; auto. }
        destruct (K [-1]) as (z & [<-|[]] & [[A B]|[A B]]); [left; auto|lia|].
        destruct (K [1]) as (z & [<-|[]] & [[A' B']|[A' B']]);
          [right; left; auto| |lia].
        cbn in B. congruence.
      * apply clause_true.
        { intros x X. apply (good_non _ G _ _ C X). }
        apply H. apply in_or_app. right. apply in_flat_map.
        exists (l :: c). split; auto. left. reflexivity.
  - intros [A B] c C. apply in_app_or in C. destruct C as [C|C].
    + apply in_map_iff in C. destruct C as (u & <- & C).
      apply (Permutation_in u (units_perm g G)) in C.
      apply dimacs_true; [apply (good_units _ G _ C)|]. apply A. exact C.
    + apply in_flat_map in C. destruct C as (k & K & C).
      destruct k as [|l k].
      * exfalso. destruct (B [] K) as (x & [] & _).
      * destruct C as [<-|[]]. apply clause_true.
        { intros x X. apply (good_non _ G _ _ K X). }
        apply B. exact K.
Qed.
