(** The invariant of the memory manager. *)

From Coq Require Import ZArith List Bool Lia Permutation.
From Verif Require Import Memory MemorySpec.
Import ListNotations.
Local Open Scope Z_scope.

Fixpoint path (m : Z -> Z) (x : Z) (l : list Z) : Prop :=
  match l with
  | [] => x = 0
  | a :: r => x = a /\ path m (m a) r
  end.

Definition of_size (i : Z) (fr : list (Z * Z)) : list Z :=
  map fst (filter (fun b => snd b =? i) fr).

Definition pw (R : list (Z * Z)) : Prop :=
  NoDup R /\ forall b c, In b R -> In c R -> b <> c -> apart b c.

Record inv (st : state) (live fr : list (Z * Z)) : Prop := mkinv {
  i_perm : Permutation (regions st) (live ++ fr);
  i_pw : pw (regions st);
  i_pos : forall r, In r (regions st) -> 0 < fst r /\ 0 < snd r;
  i_size : forall b, In b fr -> 8 <= snd b < 8192;
  i_path : forall i, path (mem st) (free_mem_list st i) (of_size i fr)
}.

Lemma path_ext : forall m m' l x, (forall a, In a l -> m' a = m a) ->
  path m x l -> path m' x l.
Proof.
  intros m m'. induction l as [|a l IH]; cbn; intros x H P; auto.
  destruct P as [-> P]. split; auto. rewrite H by auto. apply IH; auto.
Qed.

Lemma of_size_in : forall i fr a, In a (of_size i fr) <-> In (a, i) fr.
Proof.
  intros i fr a. unfold of_size. rewrite in_map_iff. split.
  - intros ([b n] & A & B). apply filter_In in B. cbn in *. destruct B as [B C].
    apply Z.eqb_eq in C. subst. auto.
  - intros H. exists (a, i). split; auto. apply filter_In. split; auto. cbn.
    apply Z.eqb_refl.
Qed.

Lemma of_size_app : forall i a b, of_size i (a ++ b) = of_size i a ++ of_size i b.
Proof.
  intros i a b. unfold of_size. rewrite filter_app, map_app. reflexivity.
Qed.

Lemma of_size_cons : forall i p n b,
  of_size i ((p, n) :: b) = (if n =? i then [p] else []) ++ of_size i b.
Proof.
  intros i p n b. unfold of_size. cbn. destruct (n =? i); reflexivity.
Qed.

Lemma of_size_first : forall f fr a r, of_size f fr = a :: r ->
  exists fr1 fr2, fr = fr1 ++ (a, f) :: fr2 /\ of_size f (fr1 ++ fr2) = r.
Proof.
  intros f. induction fr as [|[q n] fr IH]; intros a r H; [discriminate|].
  rewrite of_size_cons in H. destruct (Z.eqb_spec n f) as [E|E].
  - subst n. injection H as <- <-. exists [], fr. auto.
  - cbn in H. destruct (IH _ _ H) as (f1 & f2 & -> & B).
    exists ((q, n) :: f1), f2. split; auto. cbn [app]. rewrite of_size_cons.
    destruct (Z.eqb_spec n f); [contradiction|]. exact B.
Qed.

Lemma apart_sym : forall b c, apart b c -> apart c b.
Proof. unfold apart. intros b c [H|H]; auto. Qed.

Lemma pw_disjoint : forall l, pw l -> disjoint l.
Proof.
  intros l [N A]. induction l as [|b l IH]; cbn; auto.
  apply NoDup_cons_iff in N. destruct N as [N1 N2]. split.
  - intros c C. apply A; [left|right|]; auto. intros ->. contradiction.
  - apply IH; auto. intros x y X Y. apply A; right; auto.
Qed.

Lemma pw_perm : forall l l', Permutation l l' -> pw l -> pw l'.
Proof.
  intros l l' P [N A]. split; [eapply Permutation_NoDup; eauto|].
  intros b c B C. apply A; eapply Permutation_in; try apply Permutation_sym; eauto.
Qed.

Lemma pw_tail : forall b l, pw (b :: l) -> pw l.
Proof.
  intros b l [N A]. apply NoDup_cons_iff in N. split; [tauto|].
  intros x y X Y. apply A; right; auto.
Qed.

Lemma disjoint_app_l : forall a b, disjoint (a ++ b) -> disjoint a.
Proof.
  induction a as [|x a IH]; cbn; auto. intros b [H K]. split; eauto.
  intros c C. apply H. apply in_or_app. auto.
Qed.

Lemma take_ok : forall rs p s, pw rs -> (forall r, In r rs -> 0 < snd r) ->
  In (p, s) rs ->
  exists rs', take p rs = Some (s, rs') /\ Permutation rs ((p, s) :: rs').
Proof.
  induction rs as [|[q n] rs IH]; intros p s P Q I; [destruct I|].
  cbn [take]. destruct (Z.eqb_spec q p) as [E|E].
  - subst q. destruct I as [I|I].
    + injection I as ->. exists rs. auto.
    + destruct P as [N A]. apply NoDup_cons_iff in N.
      assert (NE : (p, n) <> (p, s)) by (intros K; rewrite K in N; tauto).
      pose proof (A (p, n) (p, s) (or_introl eq_refl) (or_intror I) NE) as AP.
      pose proof (Q (p, n) (or_introl eq_refl)). pose proof (Q (p, s) (or_intror I)).
      unfold apart in AP. cbn in *. lia.
  - destruct I as [I|I]; [congruence|].
    destruct (IH p s (pw_tail _ _ P) (fun r R => Q r (or_intror R)) I)
      as (rs' & T & PP).
    rewrite T. exists ((q, n) :: rs'). split; auto.
    eapply perm_trans; [apply perm_skip; exact PP|apply perm_swap].
Qed.

Lemma overlaps_apart : forall a p n, overlaps a p n = false <->
  (a + 8 <= p \/ p + n <= a).
Proof.
  intros a p n. unfold overlaps.
  destruct (Z.ltb_spec p (a + 8)), (Z.ltb_spec a (p + n)); cbn; split;
    intros; try discriminate; try reflexivity; lia.
Qed.

(** Freeing a live block. *)
Lemma FREE_ok : forall junk st live fr p s, inv st ((p, s) :: live) fr ->
  exists st', FREE junk st p = Done st' tt /\ inv st' live fr /\
    free_mem_list st' = free_mem_list st /\
    length (regions st) = S (length (regions st')) /\
    (forall a b, In b (live ++ fr) -> inside a 8 b -> mem st' a = mem st a).
Proof.
  intros junk st live fr p s [P W Q S F].
  assert (I : In (p, s) (regions st)).
  { eapply Permutation_in; [apply Permutation_sym; exact P|left; reflexivity]. }
  destruct (take_ok _ p s W (fun r R => proj2 (Q r R)) I) as (rs & T & PP).
  unfold FREE. rewrite T. eexists. split; [reflexivity|].
  assert (PL : Permutation rs (live ++ fr)).
  { apply (Permutation_cons_inv (a := (p, s))).
    eapply perm_trans; [apply Permutation_sym; exact PP|exact P]. }
  assert (W' : pw ((p, s) :: rs)) by (eapply pw_perm; eauto).
  assert (K : forall a b, In b (live ++ fr) -> inside a 8 b ->
    overlaps a p s = false).
  { intros a b B IN. apply overlaps_apart.
    assert (B' : In b rs) by (eapply Permutation_in; [apply Permutation_sym|]; eauto).
    destruct W' as [N A]. apply NoDup_cons_iff in N.
    assert (NE : (p, s) <> b) by (intros <-; tauto).
    pose proof (A _ _ (or_introl eq_refl) (or_intror B') NE) as AP.
    unfold apart, inside in *. cbn in *. lia. }
  assert (M : forall a b, In b (live ++ fr) -> inside a 8 b ->
    (if overlaps a p s then junk a else mem st a) = mem st a).
  { intros a b B IN. rewrite (K a b B IN). reflexivity. }
  split; [|split; [reflexivity|split]].
  - constructor; cbn; auto.
    + eapply pw_tail; eauto.
    + intros r R. apply Q. eapply Permutation_in;
        [apply Permutation_sym; exact PP|right; exact R].
    + intros i. eapply path_ext; [|apply F]. intros a A. cbn.
      apply of_size_in in A. apply (M a (a, i)).
      * apply in_or_app. auto.
      * pose proof (S _ A). unfold inside. cbn in *. lia.
  - cbn. apply Permutation_length in PP. exact PP.
  - exact M.
Qed.

(** Taking a block from a list. *)
Lemma pop_ok : forall st live fr f, inv st live fr -> free_mem_list st f <> 0 ->
  exists fr1 fr2, fr = fr1 ++ (free_mem_list st f, f) :: fr2 /\
    inv (mkstate (mem st)
           (set_list (free_mem_list st) f (mem st (free_mem_list st f)))
           (regions st))
        ((free_mem_list st f, f) :: live) (fr1 ++ fr2).
Proof.
  intros st live fr f [P W Q S F] H. pose proof (F f) as G.
  destruct (of_size f fr) as [|a r] eqn:E; cbn in G; [contradiction|].
  destruct G as [G1 G2]. destruct (of_size_first _ _ _ _ E) as (f1 & f2 & -> & K).
  rewrite G1. exists f1, f2. split; auto. constructor; cbn; auto.
  - eapply perm_trans; [exact P|]. rewrite !app_assoc.
    apply Permutation_sym. apply Permutation_middle.
  - intros b B. apply S. apply in_app_or in B. apply in_or_app. cbn. tauto.
  - intros i. unfold set_list. destruct (Z.eqb_spec i f) as [I|I].
    + subst i. rewrite K. exact G2.
    + pose proof (F i) as Fi. rewrite of_size_app, of_size_cons in Fi.
      destruct (Z.eqb_spec f i) as [J|J]; [congruence|]. cbn in Fi.
      rewrite of_size_app. exact Fi.
Qed.

Lemma head_pos : forall st live fr f, inv st live fr ->
  forall p, In (p, f) fr -> 0 < p.
Proof.
  intros st live fr f [P W Q S F] p I.
  apply (Q (p, f)). eapply Permutation_in; [apply Permutation_sym; exact P|].
  apply in_or_app. auto.
Qed.

(** The inner loop of the flush. *)
Lemma flush_list_ok : forall junk fuel st live fr f,
  inv st live fr -> (length (regions st) <= fuel)%nat ->
  exists st' fr', flush_list junk fuel st f = Done st' tt /\ inv st' live fr' /\
    (forall b, In b fr' -> In b fr /\ snd b <> f) /\
    (forall a b, In b live -> inside a 8 b -> mem st' a = mem st a).
Proof.
  intros junk. induction fuel as [|k IH]; intros st live fr f V L;
    cbn [flush_list]; destruct (Z.eqb_spec (free_mem_list st f) 0) as [E|E].
  1,3: exists st, fr; split; [reflexivity|]; split; [exact V|]; split; auto;
    intros b B; split; auto; intros SB; pose proof (i_path _ _ _ V f) as PA;
    destruct b as [p n]; cbn in SB; subst n;
    pose proof (head_pos _ _ _ _ V p B) as HP;
    apply of_size_in in B; destruct (of_size f fr) eqn:EE; [destruct B|];
    cbn in PA; destruct PA as [PA _]; rewrite E in PA; subst;
    assert (In (0, f) fr) as Z0 by (apply of_size_in; rewrite EE; left; reflexivity);
    pose proof (head_pos _ _ _ _ V 0 Z0); lia.
  - destruct (pop_ok _ _ _ f V E) as (f1 & f2 & -> & V1).
    assert (I : In (free_mem_list st f, f) (regions st)).
    { eapply Permutation_in; [apply Permutation_sym; apply (i_perm _ _ _ V)|].
      apply in_or_app. right. apply in_or_app. right. left. reflexivity. }
    destruct (regions st); [destruct I|cbn in L; lia].
  - destruct (pop_ok _ _ _ f V E) as (f1 & f2 & -> & V1).
    destruct (FREE_ok junk _ _ _ _ _ V1) as (st2 & D & V2 & _ & LE & M).
    rewrite D. cbn [regions mem] in *.
    destruct (IH st2 live (f1 ++ f2) f V2) as (st' & fr' & A & B & C & G); [lia|].
    exists st', fr'. split; [exact A|]. split; [exact B|]. split.
    + intros b Hb. apply C in Hb. destruct Hb as [Hb N]. split; auto.
      apply in_app_or in Hb. apply in_or_app. cbn. tauto.
    + intros a b Hb IN. rewrite (G a b Hb IN). apply (M a b); auto.
      apply in_or_app. auto.
Qed.

Lemma flush_loop_ok : forall junk n f st live fr, inv st live fr ->
  exists st' fr', flush_loop junk n f st = Done st' tt /\ inv st' live fr' /\
    (forall b, In b fr' -> In b fr /\ ~ (f <= snd b < f + Z.of_nat n)) /\
    (forall a b, In b live -> inside a 8 b -> mem st' a = mem st a).
Proof.
  intros junk. induction n as [|n IH]; intros f st live fr V; cbn [flush_loop].
  - exists st, fr. split; [reflexivity|]. split; [exact V|]. split; auto.
    intros b B. split; auto. lia.
  - destruct (flush_list_ok junk _ st live fr f V (le_n _))
      as (s1 & fr1 & A & B & C & D).
    rewrite A. destruct (IH (f + 1) s1 live fr1 B) as (s2 & fr2 & A2 & B2 & C2 & D2).
    exists s2, fr2. split; [exact A2|]. split; [exact B2|]. split.
    + intros b Hb. apply C2 in Hb. destruct Hb as [Hb N]. apply C in Hb.
      destruct Hb as [Hb N1]. split; auto. lia.
    + intros a b Hb IN. rewrite (D2 a b Hb IN). eauto.
Qed.

Lemma flush_ok : forall junk st live fr, inv st live fr ->
  exists st', MemFlushFreeList junk st = Done st' tt /\ inv st' live [] /\
    (forall a b, In b live -> inside a 8 b -> mem st' a = mem st a).
Proof.
  intros junk st live fr V. unfold MemFlushFreeList.
  destruct (flush_loop_ok junk MEM_ARR_SIZE 0 st live fr V)
    as (s & fr' & A & B & C & D).
  exists s. split; [exact A|]. split; [|exact D].
  destruct fr' as [|b fr']; [exact B|]. exfalso.
  destruct (C b (or_introl eq_refl)) as [C1 C2].
  pose proof (i_size _ _ _ V b C1) as S. unfold MEM_ARR_SIZE in C2.
  rewrite Z2Nat.id in C2 by lia. lia.
Qed.

Lemma new_ok : forall malloc st live fr p size,
  good_malloc malloc -> 0 < size -> inv st live fr ->
  malloc (regions st) size = Some p ->
  inv (mkstate (mem st) (free_mem_list st) ((p, size) :: regions st))
      ((p, size) :: live) fr.
Proof.
  intros malloc st live fr p size G Z [P W Q S F] M.
  destruct (G _ _ _ Z M) as [G1 G2]. constructor; cbn; auto.
  - destruct W as [N A]. split.
    + constructor; auto. intros I. apply G2 in I. unfold apart in I. cbn in I. lia.
    + intros b c [<-|B] [<-|C] NE; auto; [congruence|].
      apply apart_sym. auto.
  - intros r [<-|R]; auto.
Qed.

Lemma secure_ok : forall malloc junk st live fr size,
  good_malloc malloc -> 0 < size -> inv st live fr ->
  (exists st' p fr', SecureMalloc malloc junk st size = Done st' p /\
     inv st' ((p, size) :: live) fr' /\
     (forall a b, In b live -> inside a 8 b -> mem st' a = mem st a)) \/
  (SecureMalloc malloc junk st size = OutOfMemory /\
   exists rs, Permutation rs live /\ malloc rs size = None).
Proof.
  intros malloc junk st live fr size G Z V. unfold SecureMalloc.
  destruct (malloc (regions st) size) as [p|] eqn:M.
  - left. eexists _, p, fr. split; [reflexivity|]. split; [|reflexivity].
    eapply new_ok; eauto.
  - destruct (flush_ok junk st live fr V) as (s & A & B & D). rewrite A.
    destruct (malloc (regions s) size) as [p|] eqn:M2.
    + left. eexists _, p, []. split; [reflexivity|]. split; [|exact D].
      eapply new_ok; eauto.
    + right. split; auto. exists (regions s). split; auto.
      pose proof (i_perm _ _ _ B) as PP. rewrite app_nil_r in PP. exact PP.
Qed.

Lemma size_ok : forall malloc junk st live fr size,
  good_malloc malloc -> 0 < size -> inv st live fr ->
  (exists st' p fr', SizeMalloc malloc junk st size = Done st' p /\
     inv st' ((p, size) :: live) fr' /\
     (forall a b, In b live -> inside a 8 b -> mem st' a = mem st a)) \/
  (SizeMalloc malloc junk st size = OutOfMemory /\
   exists rs, Permutation rs live /\ malloc rs size = None).
Proof.
  intros malloc junk st live fr size G Z V. unfold SizeMalloc.
  destruct ((MEM_ARR_MIN_INDEX <=? size) && (size <? Z.of_nat MEM_ARR_SIZE) &&
            negb (free_mem_list st size =? 0)) eqn:E.
  - apply andb_true_iff in E. destruct E as [_ E]. apply negb_true_iff in E.
    apply Z.eqb_neq in E. destruct (pop_ok _ _ _ _ V E) as (f1 & f2 & _ & V1).
    left. eexists _, _, (f1 ++ f2). split; [reflexivity|]. split; [exact V1|].
    reflexivity.
  - eapply secure_ok; eauto.
Qed.

Lemma inv_live_perm : forall st l l' fr, Permutation l l' -> inv st l fr ->
  inv st l' fr.
Proof.
  intros st l l' fr PP [P W Q S F]. constructor; auto.
  eapply perm_trans; [exact P|]. apply Permutation_app_tail. exact PP.
Qed.

Lemma sizefree_ok : forall junk st live fr p size,
  inv st ((p, size) :: live) fr ->
  exists st' fr', SizeFree junk st p size = Done st' tt /\ inv st' live fr' /\
    (forall a b, In b live -> inside a 8 b -> mem st' a = mem st a).
Proof.
  intros junk st live fr p size V. unfold SizeFree.
  destruct ((MEM_ARR_MIN_INDEX <=? size) && (size <? Z.of_nat MEM_ARR_SIZE)) eqn:E.
  - apply andb_true_iff in E. destruct E as [E1 E2].
    apply Z.leb_le in E1. apply Z.ltb_lt in E2.
    unfold MEM_ARR_MIN_INDEX in E1. unfold MEM_ARR_SIZE in E2.
    rewrite Z2Nat.id in E2 by lia.
    eexists _, ((p, size) :: fr). split; [reflexivity|].
    destruct V as [P W Q S F].
    assert (W' : pw ((p, size) :: live ++ fr)) by (eapply pw_perm; eauto).
    assert (M : forall a b, In b (live ++ fr) -> inside a 8 b ->
      store (mem st) p (free_mem_list st size) a = mem st a).
    { intros a b B IN. destruct W' as [N A]. apply NoDup_cons_iff in N.
      assert (NE : (p, size) <> b) by (intros <-; tauto).
      pose proof (A _ _ (or_introl eq_refl) (or_intror B) NE) as AP.
      unfold apart, inside in *. cbn in *. unfold store.
      assert (O : overlaps a p 8 = false) by (apply overlaps_apart; lia).
      rewrite O. destruct (Z.eqb_spec a p); auto. lia. }
    split.
    + constructor; cbn [mem free_mem_list regions]; auto.
      * eapply perm_trans; [exact P|]. apply Permutation_middle.
      * intros b [<-|B]; auto.
      * intros i. rewrite of_size_cons. unfold set_list.
        assert (X : path (store (mem st) p (free_mem_list st size))
                      (free_mem_list st i) (of_size i fr)).
        { eapply path_ext; [|apply F]. intros a A. apply of_size_in in A.
          apply (M a (a, i)); [apply in_or_app; auto|].
          pose proof (S _ A). unfold inside. cbn in *. lia. }
        rewrite (Z.eqb_sym i size). destruct (Z.eqb_spec size i) as [I|I].
        -- subst i. cbn. split; auto. unfold store at 2. rewrite Z.eqb_refl.
           exact X.
        -- exact X.
    + intros a b B IN. cbn. apply (M a b); auto. apply in_or_app. auto.
  - destruct (FREE_ok junk _ _ _ _ _ V) as (s & A & B & _ & _ & M).
    exists s, fr. split; [exact A|]. split; [exact B|].
    intros a b Hb. apply M. apply in_or_app. auto.
Qed.

Definition mal_goal (call : state -> Z -> result Z) (malloc : list (Z * Z) -> Z -> option Z)
  st live size : Prop :=
  (exists st' p fr', call st size = Done st' p /\
     inv st' ((p, size) :: live) fr' /\
     (forall a b, In b live -> inside a 8 b -> mem st' a = mem st a)) \/
  (call st size = OutOfMemory /\
   exists rs, Permutation rs live /\ malloc rs size = None).

Lemma realloc0_ok : forall malloc junk st live fr size,
  good_malloc malloc -> 0 < size -> inv st live fr ->
  mal_goal (fun st => SecureRealloc malloc junk st 0) malloc st live size.
Proof.
  intros malloc junk st live fr size G Z V. unfold mal_goal.
  replace (SecureRealloc malloc junk st 0 size)
    with (SecureMalloc malloc junk st size).
  - eapply secure_ok; eauto.
  - unfold SecureRealloc, SecureMalloc, try_realloc. cbn [Z.eqb].
    destruct (malloc (regions st) size); reflexivity.
Qed.

Definition kept (st st' : state) (p n q size : Z) : Prop :=
  forall k, 0 <= k -> k + 8 <= n -> k + 8 <= size ->
    mem st' (q + k) = mem st (p + k).

Lemma realloc_ok : forall malloc junk st live fr p n size,
  good_malloc malloc -> 0 < size -> inv st ((p, n) :: live) fr ->
  exists rs, Permutation rs (live ++ fr) /\
  match malloc rs size with
  | Some q => exists st', realloc malloc junk st p size = Done st' q /\
      inv st' ((q, size) :: live) fr /\ kept st st' p n q size /\
      (forall a b, In b live -> inside a 8 b -> mem st' a = mem st a)
  | None => realloc malloc junk st p size = OutOfMemory
  end.
Proof.
  intros malloc junk st live fr p n size G Z0 V. pose proof V as [P W Q S F].
  assert (I : In (p, n) (regions st)).
  { eapply Permutation_in; [apply Permutation_sym; exact P|left; reflexivity]. }
  destruct (take_ok _ p n W (fun r R => proj2 (Q r R)) I) as (rs & T & PP).
  exists rs.
  assert (PL : Permutation rs (live ++ fr)).
  { apply (Permutation_cons_inv (a := (p, n))).
    eapply perm_trans; [apply Permutation_sym; exact PP|exact P]. }
  split; [exact PL|]. unfold realloc. rewrite T.
  destruct (malloc rs size) as [q|] eqn:M; [|reflexivity].
  destruct (G _ _ _ Z0 M) as [G1 G2].
  eexists. split; [reflexivity|].
  assert (W' : pw ((p, n) :: rs)) by (eapply pw_perm; eauto).
  assert (MM : forall a b, In b (live ++ fr) -> inside a 8 b ->
    moved junk (mem st) p n q size a = mem st a).
  { intros a b B IN.
    assert (B' : In b rs) by (eapply Permutation_in; [apply Permutation_sym|]; eauto).
    pose proof (G2 b B') as AQ.
    destruct W' as [N A]. apply NoDup_cons_iff in N.
    assert (NE : (p, n) <> b) by (intros <-; tauto).
    pose proof (A _ _ (or_introl eq_refl) (or_intror B') NE) as AP.
    unfold apart, inside in *. cbn in *. unfold moved.
    assert (O1 : overlaps a p n = false) by (apply overlaps_apart; lia).
    assert (O2 : overlaps a q size = false) by (apply overlaps_apart; lia).
    rewrite O1, O2.
    destruct (Z.leb_spec q a), (Z.leb_spec (a + 8) (q + size)); cbn; auto; lia. }
  split; [|split].
  - constructor; cbn [mem free_mem_list regions]; auto.
    + cbn. auto.
    + apply pw_tail in W'. destruct W' as [N A]. split.
      * constructor; auto. intros J. apply G2 in J. unfold apart in J. cbn in J. lia.
      * intros b c [<-|B] [<-|C] NE; auto; [congruence|].
        apply apart_sym. auto.
    + intros r [<-|R]; auto. apply Q. eapply Permutation_in;
        [apply Permutation_sym; exact PP|right; exact R].
    + intros i. eapply path_ext; [|apply F]. intros a A. apply of_size_in in A.
      apply (MM a (a, i)); [apply in_or_app; auto|].
      pose proof (S _ A). unfold inside. cbn in *. lia.
  - intros k K1 K2 K3. cbn. unfold moved.
    destruct (Z.leb_spec q (q + k)); [|lia].
    destruct (Z.leb_spec (q + k + 8) (q + size)); [|lia]. cbn.
    destruct (Z.leb_spec (q + k + 8) (q + n)); [|lia]. f_equal. lia.
  - intros a b B. apply MM. apply in_or_app. auto.
Qed.

Lemma secure_realloc_ok : forall malloc junk st live fr p n size,
  good_malloc malloc -> 0 < size -> inv st ((p, n) :: live) fr ->
  (exists st' q fr', SecureRealloc malloc junk st p size = Done st' q /\
     inv st' ((q, size) :: live) fr' /\ kept st st' p n q size /\
     (forall a b, In b live -> inside a 8 b -> mem st' a = mem st a)) \/
  (SecureRealloc malloc junk st p size = OutOfMemory /\
   exists rs, Permutation rs live /\ malloc rs size = None).
Proof.
  intros malloc junk st live fr p n size G Z0 V. unfold SecureRealloc, try_realloc.
  assert (P0 : p =? 0 = false).
  { apply Z.eqb_neq. assert (0 < p); [|lia].
    apply (i_pos _ _ _ V (p, n)). eapply Permutation_in;
      [apply Permutation_sym; apply (i_perm _ _ _ V)|left; reflexivity]. }
  rewrite P0.
  destruct (realloc_ok malloc junk st live fr p n size G Z0 V) as (rs & P & H).
  destruct (malloc rs size) as [q|] eqn:M.
  - destruct H as (st' & A & B & C & D). rewrite A. left. eauto 8.
  - rewrite H. destruct (flush_ok junk st _ fr V) as (s & A & B & D). rewrite A.
    destruct (realloc_ok malloc junk s live [] p n size G Z0 B) as (rs' & P' & H').
    rewrite app_nil_r in P'. destruct (malloc rs' size) as [q|] eqn:M'.
    + destruct H' as (st' & A' & B' & C' & D'). left. exists st', q, [].
      split; [exact A'|]. split; [exact B'|]. split.
      * intros k K1 K2 K3. rewrite (C' k K1 K2 K3).
        apply (D (p + k) (p, n)); [left; reflexivity|]. unfold inside. cbn. lia.
      * intros a b Hb IN. rewrite (D' a b Hb IN).
        apply (D a b); auto. right. exact Hb.
    + right. rewrite H'. eauto.
Qed.

Lemma reach_inv : forall st live, reach st live -> exists fr, inv st live fr.
Proof.
  intros st live H. induction H.
  - exists []. constructor; cbn; auto.
    + split; [constructor|]. intros b c [].
    + intros r [].
    + intros b [].
  - destruct IHreach as (fr & V). destruct H2 as [H2|[H2|H2]].
    + destruct (size_ok malloc junk st live fr size H1 H0 V)
        as [(s & q & f' & A & B & _)|[A _]]; rewrite A in H2; [|discriminate].
      injection H2 as <- <-. eauto.
    + destruct (secure_ok malloc junk st live fr size H1 H0 V)
        as [(s & q & f' & A & B & _)|[A _]]; rewrite A in H2; [|discriminate].
      injection H2 as <- <-. eauto.
    + destruct (realloc0_ok malloc junk st live fr size H1 H0 V)
        as [(s & q & f' & A & B & _)|[A _]]; rewrite A in H2; [|discriminate].
      injection H2 as <- <-. eauto.
  - destruct IHreach as (fr & V).
    apply (inv_live_perm _ _ ((p, size) :: l1 ++ l2)) in V;
      [|apply Permutation_sym; apply Permutation_middle].
    destruct H0 as [H0|H0].
    + destruct (sizefree_ok junk _ _ _ _ _ V) as (s & f' & A & B & _).
      rewrite A in H0. injection H0 as <-. eauto.
    + destruct (FREE_ok junk _ _ _ _ _ V) as (s & A & B & _).
      rewrite A in H0. injection H0 as <-. eauto.
  - destruct IHreach as (fr & V).
    apply (inv_live_perm _ _ ((p, n) :: l1 ++ l2)) in V;
      [|apply Permutation_sym; apply Permutation_middle].
    destruct (secure_realloc_ok malloc junk _ _ _ _ _ size H1 H0 V)
      as [(s & r & f' & A & B & _)|[A _]]; rewrite A in H2; [|discriminate].
    injection H2 as <- <-. eauto.
  - destruct IHreach as (fr & V).
    destruct (flush_ok junk _ _ _ V) as (s & A & B & _).
    rewrite A in H0. injection H0 as <-. eauto.
  - destruct IHreach as (fr & V). exists fr. destruct V as [P W Q S F].
    constructor; cbn; auto. intros i. eapply path_ext; [|apply F].
    intros a A. apply of_size_in in A. pose proof (S _ A) as SA. cbn in SA.
    assert (I : In (a, i) (regions st)).
    { eapply Permutation_in; [apply Permutation_sym; exact P|].
      apply in_or_app. auto. }
    apply (H0 a (a, i) I).
    + unfold inside. cbn. lia.
    + intros b B. assert (B' : In b (regions st)).
      { eapply Permutation_in; [apply Permutation_sym; exact P|].
        apply in_or_app. auto. }
      assert (NE : (a, i) <> b).
      { intros <-. assert (W' : pw (live ++ fr)) by (eapply pw_perm; eauto).
        destruct W' as [N _]. apply in_split in B. destruct B as (x & y & ->).
        rewrite <- app_assoc in N. cbn in N. apply NoDup_remove_2 in N.
        apply N. rewrite app_assoc. apply in_or_app. auto. }
      destruct W as [_ W]. pose proof (W _ _ I B' NE) as AP.
      unfold apart in *. cbn in *. lia.
Qed.
