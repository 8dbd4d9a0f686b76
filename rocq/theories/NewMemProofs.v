(** The invariant of the alternative memory manager. *)

From Coq Require Import ZArith List Bool Lia Permutation.
From Verif Require Import Memory MemorySpec MemoryProofs NewMem NewMemSpec.
Import ListNotations.
Local Open Scope Z_scope.

Section Proofs.
Variable only : Z -> Z.

Definition cap (i : Z) : Z := if i <=? 16 then 16 * i else only i.
Definition room (s : Z) : Z := Z.max s 8.
Definition lcap (s : Z) : Z :=
  if mem_index (room s) <? 8192 then cap (mem_index (room s)) else room s.

Definition lb (b : Z * Z) : Z * Z := (fst b, lcap (snd b)).
Definition fb (b : Z * Z) : Z * Z := (fst b, cap (snd b)).
Definition blocks (live fr : list (Z * Z)) : list (Z * Z) :=
  map lb live ++ map fb fr.

Record ninv (st : state) (live fr : list (Z * Z)) : Prop := mkninv {
  n_pw : pw (blocks live fr);
  n_in : forall b, In b (blocks live fr) -> 8 <= snd b /\ allocated st b;
  n_rpw : pw (regions st);
  n_pos : forall r, In r (regions st) -> 0 < fst r /\ 0 < snd r;
  n_size : forall b, In b fr -> 1 <= snd b < 8192;
  n_live : forall b, In b live -> 0 < snd b <= lcap (snd b);
  n_big : forall b, In b live -> 8192 <= mem_index (room (snd b)) ->
            In (fst b, room (snd b)) (regions st);
  n_path : forall i, path (mem st) (free_mem_list st i) (of_size i fr)
}.

Lemma index_ok : forall z, 8 <= z ->
  1 <= mem_index z /\ 16 * mem_index z - 15 <= z <= 16 * mem_index z.
Proof.
  intros z H. unfold mem_index, MEM_ALIGN.
  pose proof (Z.div_mod (z + 16 - 1) 16 ltac:(lia)).
  pose proof (Z.mod_pos_bound (z + 16 - 1) 16 ltac:(lia)). lia.
Qed.

Lemma room_8 : forall s, 8 <= room s.
Proof. intros s. unfold room. lia. Qed.

Lemma cap_ok : forall s, one_size only s -> mem_index (room s) < 8192 ->
  room s <= cap (mem_index (room s)) /\
  (256 <= room s -> cap (mem_index (room s)) = room s).
Proof.
  intros s O L. destruct (index_ok (room s) (room_8 s)) as [A B]. unfold cap.
  destruct (Z.leb_spec (mem_index (room s)) 16).
  - split; lia.
  - assert (256 < s <= 16 * 8191) by (unfold room in *; lia).
    rewrite (O H0) at 1.
    assert (E : mem_index (room s) = (s + 15) / 16).
    { unfold room, mem_index, MEM_ALIGN. rewrite Z.max_l by lia. f_equal. lia. }
    rewrite E. rewrite <- (O H0). unfold room. lia.
Qed.

Lemma lcap_small : forall s, mem_index (room s) < 8192 ->
  lcap s = cap (mem_index (room s)).
Proof.
  intros s H. unfold lcap. destruct (Z.ltb_spec (mem_index (room s)) 8192); auto; lia.
Qed.

Lemma lcap_big : forall s, 8192 <= mem_index (room s) -> lcap s = room s.
Proof.
  intros s H. unfold lcap. destruct (Z.ltb_spec (mem_index (room s)) 8192); auto; lia.
Qed.

Lemma in_live : forall live fr b, In b live -> In (lb b) (blocks live fr).
Proof. intros. apply in_or_app. left. apply in_map. auto. Qed.

Lemma in_free : forall live fr b, In b fr -> In (fb b) (blocks live fr).
Proof. intros. apply in_or_app. right. apply in_map. auto. Qed.

Lemma free_pos : forall st live fr p i, ninv st live fr -> In (p, i) fr -> 0 < p.
Proof.
  intros st live fr p i V I. destruct (n_in _ _ _ V _ (in_free live fr _ I))
    as [_ (r & R & J & _)]. apply (n_pos _ _ _ V) in R. cbn in *. lia.
Qed.

Lemma ninv_perm : forall st live live' fr fr',
  Permutation (blocks live fr) (blocks live' fr') ->
  (forall b, In b fr' -> 1 <= snd b < 8192) ->
  (forall b, In b live' -> 0 < snd b <= lcap (snd b)) ->
  (forall b, In b live' -> 8192 <= mem_index (room (snd b)) ->
            In (fst b, room (snd b)) (regions st)) ->
  ninv st live fr -> forall m h,
  (forall i, path m (h i) (of_size i fr')) ->
  ninv (mkstate m h (regions st)) live' fr'.
Proof.
  intros st live live' fr fr' P S L B [A1 A2 A3 A4 A5 A6 A7 A8] m h F.
  constructor; cbn [mem free_mem_list regions]; auto.
  - eapply pw_perm; eauto.
  - intros b I. apply (A2 b). eapply Permutation_in; [apply Permutation_sym|]; eauto.
Qed.

(** Taking a block from a list. *)
Lemma first_ok : forall st live fr s, ninv st live fr -> 0 < s ->
  one_size only s -> mem_index (room s) < 8192 ->
  free_mem_list st (mem_index (room s)) <> 0 ->
  exists st' p fr', first_block st (mem_index (room s)) = Done st' p /\
    ninv st' ((p, s) :: live) fr' /\ mem st' = mem st.
Proof.
  intros st live fr s V P O L H. set (f := mem_index (room s)) in *.
  pose proof (n_path _ _ _ V f) as G.
  destruct (of_size f fr) as [|a r] eqn:E; cbn in G; [contradiction|].
  destruct G as [G1 G2]. destruct (of_size_first _ _ _ _ E) as (f1 & f2 & -> & K).
  unfold first_block. rewrite G1. eexists _, a, (f1 ++ f2).
  split; [reflexivity|]. split; [|reflexivity].
  eapply (ninv_perm st live); [| | | |exact V|].
  - unfold blocks. cbn [map]. rewrite !map_app. cbn [map].
    replace (lb (a, s)) with (fb (a, f))
      by (unfold lb, fb; cbn; rewrite lcap_small by exact L; reflexivity).
    cbn [app]. rewrite !app_assoc. apply Permutation_sym. apply Permutation_middle.
  - intros b B. apply (n_size _ _ _ V). apply in_app_or in B. apply in_or_app.
    cbn. tauto.
  - intros b [<-|B]; [|apply (n_live _ _ _ V); auto]. cbn.
    rewrite lcap_small by exact L. destruct (cap_ok s O L). unfold room in *. lia.
  - intros b [<-|B]; [|apply (n_big _ _ _ V); auto]. cbn. fold f. lia.
  - intros i. unfold set_list. destruct (Z.eqb_spec i f) as [I|I].
    + subst i. rewrite K. exact G2.
    + pose proof (n_path _ _ _ V i) as Fi. rewrite of_size_app, of_size_cons in Fi.
      destruct (Z.eqb_spec f i) as [J|J]; [congruence|]. cbn in Fi.
      rewrite of_size_app. exact Fi.
Qed.

(** New memory from malloc(). *)
Lemma extend : forall st live fr q n lnew fnew m h,
  ninv st live fr -> 0 < q -> 0 < n ->
  (forall r, In r (regions st) -> apart (q, n) r) ->
  pw (blocks lnew fnew) ->
  (forall b, In b (blocks lnew fnew) -> 8 <= snd b /\ inside (fst b) (snd b) (q, n)) ->
  (forall b, In b fnew -> 1 <= snd b < 8192) ->
  (forall b, In b lnew -> 0 < snd b <= lcap (snd b)) ->
  (forall b, In b lnew -> 8192 <= mem_index (room (snd b)) ->
     (fst b, room (snd b)) = (q, n)) ->
  ((forall a, a + 8 <= q \/ q + n <= a -> m a = mem st a) ->
   forall i, path m (h i) (of_size i (fnew ++ fr))) ->
  (forall a, a + 8 <= q \/ q + n <= a -> m a = mem st a) ->
  ninv (mkstate m h ((q, n) :: regions st)) (lnew ++ live) (fnew ++ fr) /\
  (forall a b, In b (blocks live fr) -> inside a 8 b -> m a = mem st a).
Proof.
  intros st live fr q n lnew fnew m h V Q N AP NP NI NS NL NB NF M.
  assert (OUT : forall b, In b (blocks live fr) -> apart (q, n) b).
  { intros b B. destruct (n_in _ _ _ V b B) as [_ (r & R & I)].
    apply AP in R. unfold apart, inside in *. cbn in *. lia. }
  assert (PB : Permutation (blocks (lnew ++ live) (fnew ++ fr))
                 (blocks lnew fnew ++ blocks live fr)).
  { unfold blocks. rewrite !map_app, <- !app_assoc. apply Permutation_app_head.
    rewrite !app_assoc. apply Permutation_app_tail. apply Permutation_app_comm. }
  assert (NEQ : forall b c, In b (blocks lnew fnew) -> In c (blocks live fr) ->
            apart b c /\ b <> c).
  { intros b c B C. destruct (NI b B) as [B1 B2]. pose proof (OUT c C) as O.
    destruct (n_in _ _ _ V c C) as [C1 _].
    unfold apart, inside in *. cbn in *. split; [lia|]. intros ->. lia. }
  split.
  - constructor; cbn [mem free_mem_list regions]; auto.
    + eapply pw_perm; [apply Permutation_sym; exact PB|].
      destruct NP as [NP1 NP2]. destruct (n_pw _ _ _ V) as [VP1 VP2]. split.
      * clear - NP1 VP1 NEQ. induction (blocks lnew fnew) as [|x l IH]; auto.
        cbn. apply NoDup_cons_iff in NP1. constructor.
        -- intros I. apply in_app_or in I. destruct I as [I|I]; [tauto|].
           destruct (NEQ x x (or_introl eq_refl) I). congruence.
        -- apply IH; [tauto|]. intros b c B C. apply NEQ; auto. right. auto.
      * intros b c B C D. apply in_app_or in B. apply in_app_or in C.
        destruct B as [B|B], C as [C|C]; auto.
        -- apply NEQ; auto.
        -- apply apart_sym. apply NEQ; auto.
    + intros b B. apply (Permutation_in _ PB) in B. apply in_app_or in B.
      destruct B as [B|B].
      * destruct (NI b B). split; auto. exists (q, n). split; auto. left. auto.
      * destruct (n_in _ _ _ V b B) as [B1 (r & R & I)]. split; auto.
        exists r. split; auto. right. auto.
    + destruct (n_rpw _ _ _ V) as [A B]. split.
      * constructor; auto. intros I. apply AP in I. unfold apart in I. cbn in I. lia.
      * intros x y [<-|X] [<-|Y] D; auto; [congruence|]. apply apart_sym. auto.
    + intros r [<-|R]; [cbn; lia|]. apply (n_pos _ _ _ V r R).
    + intros b B. apply in_app_or in B. destruct B; auto. apply (n_size _ _ _ V); auto.
    + intros b B. apply in_app_or in B. destruct B; auto. apply (n_live _ _ _ V); auto.
    + intros b B L. apply in_app_or in B. destruct B as [B|B].
      * left. symmetry. auto.
      * right. apply (n_big _ _ _ V); auto.
  - intros a b B I. apply M. apply OUT in B. unfold apart, inside in *.
    cbn in *. lia.
Qed.

Lemma empty_list : forall st live fr i, ninv st live fr ->
  free_mem_list st i = 0 -> of_size i fr = [].
Proof.
  intros st live fr i V H. pose proof (n_path _ _ _ V i) as P.
  destruct (of_size i fr) as [|a r] eqn:E; auto. cbn in P.
  destruct P as [P _]. assert (I : In (a, i) fr).
  { apply of_size_in. rewrite E. left. auto. }
  pose proof (free_pos _ _ _ _ _ V I). lia.
Qed.

(** The blocks of a chunk. *)
Fixpoint cells (b sz : Z) (n : nat) : list Z :=
  match n with O => [] | S k => b :: cells (b + sz) sz k end.

Lemma cells_in : forall n b sz a, 0 < sz -> In a (cells b sz n) ->
  b <= a /\ a + sz <= b + sz * Z.of_nat n.
Proof.
  induction n as [|n IH]; intros b sz a P I; [destruct I|].
  rewrite Nat2Z.inj_succ. destruct I as [<-|I]; [nia|].
  apply IH in I; auto. nia.
Qed.

Lemma cells_apart : forall n b sz, 0 < sz ->
  NoDup (cells b sz n) /\
  forall a c, In a (cells b sz n) -> In c (cells b sz n) -> a <> c ->
    a + sz <= c \/ c + sz <= a.
Proof.
  induction n as [|n IH]; intros b sz P; cbn [cells].
  - split; [constructor|]. intros a c [].
  - destruct (IH (b + sz) sz P) as [A B]. split.
    + constructor; auto. intros I. apply cells_in in I; auto. lia.
    + intros a c [<-|X] [<-|Y] D; auto; [lia| |];
        match goal with K : In _ _ |- _ => apply cells_in in K; auto; lia end.
Qed.

Lemma store_same : forall m p v, store m p v p = v.
Proof. intros. unfold store. rewrite Z.eqb_refl. reflexivity. Qed.

Lemma store_other : forall m p v a, a + 8 <= p \/ p + 8 <= a ->
  store m p v a = m a.
Proof.
  intros m p v a H. unfold store. destruct (Z.eqb_spec a p); [lia|].
  assert (O : overlaps a p 8 = false) by (apply overlaps_apart; exact H).
  rewrite O. reflexivity.
Qed.

Lemma loop_ok : forall sz, 8 <= sz -> forall n h b m,
  b = h + sz -> m h = b ->
  let (m', h') := chunk_loop n h b sz m in
  path (store m' h' 0) h (h :: cells b sz n) /\
  forall a, a + 8 <= h \/ b + sz * Z.of_nat n <= a -> store m' h' 0 a = m a.
Proof.
  intros sz P. induction n as [|n IH]; intros h b m E H; cbn [chunk_loop].
  - split.
    + cbn. split; auto. apply store_same.
    + intros a A. apply store_other. lia.
  - specialize (IH b (b + sz) (store m b (b + sz)) eq_refl (store_same _ _ _)).
    destruct (chunk_loop n b (b + sz) sz (store m b (b + sz))) as [m' h'].
    destruct IH as [A B]. split.
    + cbn [cells]. split; [reflexivity|].
      replace (store m' h' 0 h) with b; [exact A|].
      rewrite B by lia. rewrite store_other by lia. auto.
    + intros a C. rewrite Nat2Z.inj_succ in C. rewrite B by nia.
      apply store_other. nia.
Qed.

Lemma chunk_ok : forall sz n b m, 8 <= sz -> 
  let (m', h') := chunk_loop (S n) 0 b sz m in
  path (store m' h' 0) b (cells b sz (S n)) /\
  forall a, a + 8 <= b \/ b + sz * Z.of_nat (S n) <= a -> store m' h' 0 a = m a.
Proof.
  intros sz n b m P. cbn [chunk_loop cells].
  pose proof (loop_ok sz P n b (b + sz) (store m b (b + sz)) eq_refl
                (store_same _ _ _)) as H.
  destruct (chunk_loop n b (b + sz) sz (store m b (b + sz))) as [m' h'].
  destruct H as [A B]. split; [exact A|]. intros a C.
  rewrite Nat2Z.inj_succ in C. rewrite B by nia. apply store_other. nia.
Qed.

Lemma of_size_cells : forall l i, of_size i (map (fun a => (a, i)) l) = l.
Proof.
  induction l as [|a l IH]; intros i; [reflexivity|]. cbn [map].
  rewrite of_size_cons, Z.eqb_refl, IH. reflexivity.
Qed.

Lemma of_size_cells_other : forall l i j, i <> j ->
  of_size j (map (fun a => (a, i)) l) = [].
Proof.
  induction l as [|a l IH]; intros i j D; [reflexivity|]. cbn [map].
  rewrite of_size_cons, IH by auto. destruct (Z.eqb_spec i j); [contradiction|].
  reflexivity.
Qed.

(** The lists after new blocks have been put into an empty list. *)
Lemma new_paths : forall st live fr i l x m, ninv st live fr ->
  free_mem_list st i = 0 -> path m x l ->
  (forall a b, In b (blocks live fr) -> inside a 8 b -> m a = mem st a) ->
  forall j, path m (set_list (free_mem_list st) i x j)
              (of_size j (map (fun a => (a, i)) l ++ fr)).
Proof.
  intros st live fr i l x m V H P M j. rewrite of_size_app. unfold set_list.
  destruct (Z.eqb_spec j i) as [E|E].
  - subst j. rewrite of_size_cells, (empty_list _ _ _ _ V H), app_nil_r. exact P.
  - rewrite of_size_cells_other by congruence. cbn [app].
    eapply path_ext; [|apply (n_path _ _ _ V)]. intros a A.
    apply of_size_in in A. pose proof (in_free live _ _ A) as B.
    apply (M a _ B). destruct (n_in _ _ _ V _ B) as [C _].
    unfold inside. cbn in *. lia.
Qed.

Lemma outside : forall st live fr q n m, ninv st live fr ->
  (forall r, In r (regions st) -> apart (q, n) r) ->
  (forall a, a + 8 <= q \/ q + n <= a -> m a = mem st a) ->
  forall a b, In b (blocks live fr) -> inside a 8 b -> m a = mem st a.
Proof.
  intros st live fr q n m V AP M a b B I. apply M.
  destruct (n_in _ _ _ V b B) as [_ (r & R & J)]. apply AP in R.
  unfold apart, inside in *. cbn in *. lia.
Qed.

Lemma fill_ok : forall malloc st live fr s, good_malloc malloc ->
  ninv st live fr -> 0 < s -> one_size only s -> mem_index (room s) < 8192 ->
  free_mem_list st (mem_index (room s)) = 0 ->
  (exists st' fr', fill malloc st (room s) = Done st' tt /\ ninv st' live fr' /\
     free_mem_list st' (mem_index (room s)) <> 0 /\
     (forall a b, In b (blocks live fr) -> inside a 8 b -> mem st' a = mem st a)) \/
  fill malloc st (room s) = OutOfMemory.
Proof.
  intros malloc st live fr s G V P O L H.
  pose proof (room_8 s) as R8. destruct (index_ok (room s) R8) as [I1 I2].
  destruct (cap_ok s O L) as [C1 C2].
  set (z := room s) in *. set (i := mem_index z) in *.
  unfold fill. fold i. destruct (Z.ltb_spec z MEM_CHUNKLIMIT) as [LT|GE].
  - change MEM_CHUNKLIMIT with 256 in LT. unfold MemAddNewChunk, NewSecureMalloc.
    rewrite H. unfold MEM_ALIGN.
    destruct (malloc (regions st) (i * 16 * Z.of_nat MEM_MULTIPLIER)) as [q|] eqn:M;
      [|right; reflexivity].
    left. unfold new_block. cbn [mem free_mem_list regions].
    destruct (exists_last (l := cells q (i * 16) MEM_MULTIPLIER)) as (x1 & x2 & _).
    { unfold MEM_MULTIPLIER. destruct (Z.to_nat 1024) eqn:E; [lia|]. discriminate. }
    clear x1 x2.
    assert (EN : exists k, MEM_MULTIPLIER = S k).
    { unfold MEM_MULTIPLIER. destruct (Z.to_nat 1024) eqn:E; [lia|]. eauto. }
    destruct EN as (k & EN). rewrite EN in *.
    assert (NP : 0 < i * 16 * Z.of_nat (S k)) by nia.
    destruct (G _ _ _ NP M) as [G1 G2].
    pose proof (chunk_ok (i * 16) k q (mem st) ltac:(lia)) as K.
    destruct (chunk_loop (S k) 0 q (i * 16) (mem st)) as [m' h'].
    destruct K as [K1 K2].
    assert (CI : cap i = i * 16).
    { unfold cap. destruct (Z.leb_spec i 16); lia. }
    destruct (extend st live fr q (i * 16 * Z.of_nat (S k)) []
                (map (fun a => (a, i)) (cells q (i * 16) (S k)))
                (store m' h' 0) (set_list (free_mem_list st) i q)) as [E1 E2]; auto.
    + unfold blocks. cbn [map app]. rewrite map_map. unfold fb. cbn [fst snd].
      rewrite CI. destruct (cells_apart (S k) q (i * 16) ltac:(lia)) as [N A].
      split.
      * apply FinFun.Injective_map_NoDup; auto. intros a b J. congruence.
      * intros b c B C D. apply in_map_iff in B. apply in_map_iff in C.
        destruct B as (b' & <- & B), C as (c' & <- & C). unfold apart. cbn [fst snd].
        apply A; auto. congruence.
    + unfold blocks. cbn [map app]. intros b B. rewrite map_map in B.
      apply in_map_iff in B. destruct B as (b' & <- & B). unfold fb, inside.
      cbn [fst snd]. rewrite CI. apply cells_in in B; lia.
    + intros b B. apply in_map_iff in B. destruct B as (b' & <- & B). cbn. lia.
    + intros b [].
    + intros b [].
    + intros _. eapply new_paths; eauto. eapply outside; eauto.
    + eexists _, _. split; [reflexivity|]. split; [exact E1|].
      split; [|exact E2]. cbn [free_mem_list]. unfold set_list.
      rewrite Z.eqb_refl. lia.
  - change MEM_CHUNKLIMIT with 256 in GE. unfold NewSecureMalloc.
    destruct (malloc (regions st) z) as [q|] eqn:M; [|right; reflexivity].
    left. unfold new_block. cbn [mem free_mem_list regions].
    assert (NP : 0 < z) by lia. destruct (G _ _ _ NP M) as [G1 G2].
    destruct (extend st live fr q z [] [(q, i)] (store (mem st) q 0)
                (set_list (free_mem_list st) i q)) as [E1 E2]; auto.
    + unfold blocks. cbn [map app]. split.
      * constructor; [intros []|constructor].
      * intros b c [<-|[]] [<-|[]] D. congruence.
    + intros b [<-|[]]. unfold fb, inside. cbn [fst snd]. lia.
    + intros b [<-|[]]. cbn. lia.
    + intros b [].
    + intros b [].
    + intros MM. apply (new_paths st live fr i [q] q); auto.
      * cbn. split; auto. apply store_same.
      * eapply outside; eauto.
    + intros a A. apply store_other. lia.
    + eexists _, _. split; [reflexivity|]. split; [exact E1|].
      split; [|exact E2]. cbn [free_mem_list]. unfold set_list.
      rewrite Z.eqb_refl. lia.
Qed.

Lemma live_inside : forall st live fr b a, ninv st live fr -> In b live ->
  inside a 8 b -> exists c, In c (blocks live fr) /\ inside a 8 c.
Proof.
  intros st live fr b a V B I. exists (lb b). split; [apply in_live; auto|].
  pose proof (n_live _ _ _ V b B). unfold inside, lb in *. cbn [fst snd]. lia.
Qed.

Lemma newsize_ok : forall malloc st live fr s, good_malloc malloc ->
  ninv st live fr -> 0 < s -> one_size only s ->
  (exists st' p fr', NewSizeMalloc malloc st s = Done st' p /\
     ninv st' ((p, s) :: live) fr' /\ same_contents live st st') \/
  NewSizeMalloc malloc st s = OutOfMemory.
Proof.
  intros malloc st live fr s G V P O. unfold NewSizeMalloc.
  change (Z.max s sizeof_MemCell) with (room s). change NEW_ARR_SIZE with 8192.
  destruct (Z.ltb_spec (mem_index (room s)) 8192) as [L|L].
  - destruct (Z.eqb_spec (free_mem_list st (mem_index (room s))) 0) as [E|E].
    + destruct (fill_ok malloc st live fr s G V P O L E)
        as [(s1 & f1 & A & B & C & D)|A]; rewrite A; [|auto].
      destruct (first_ok s1 live f1 s B P O L C) as (s2 & p & f2 & A2 & B2 & C2).
      left. exists s2, p, f2. split; [exact A2|]. split; [exact B2|].
      intros a b Hb I. rewrite C2.
      destruct (live_inside _ _ _ _ _ V Hb I) as (c & Hc & Ic). eauto.
    + destruct (first_ok st live fr s V P O L E) as (s2 & p & f2 & A2 & B2 & C2).
      left. exists s2, p, f2. split; [exact A2|]. split; [exact B2|].
      intros a b Hb I. rewrite C2. reflexivity.
  - unfold NewSecureMalloc. pose proof (room_8 s) as R8.
    destruct (malloc (regions st) (room s)) as [q|] eqn:M; [|auto].
    left. unfold new_block. assert (NP : 0 < room s) by lia.
    destruct (G _ _ _ NP M) as [G1 G2].
    destruct (extend st live fr q (room s) [(q, s)] [] (mem st)
                (free_mem_list st)) as [E1 E2]; auto.
    + unfold blocks. cbn [map app]. split.
      * constructor; [intros []|constructor].
      * intros b c [<-|[]] [<-|[]] D. congruence.
    + intros b [<-|[]]. unfold lb, inside. cbn [fst snd].
      rewrite lcap_big by exact L. lia.
    + intros b [].
    + intros b [<-|[]]. cbn [snd]. rewrite lcap_big by exact L. unfold room. lia.
    + intros b [<-|[]]. reflexivity.
    + intros _. apply (n_path _ _ _ V).
    + eexists _, q, fr. split; [reflexivity|]. split; [exact E1|].
      intros a b Hb I. reflexivity.
Qed.

Lemma ninv_live_perm : forall st l l' fr, Permutation l l' -> ninv st l fr ->
  ninv st l' fr.
Proof.
  intros st l l' fr P V.
  assert (K : forall b, In b l' -> In b l).
  { intros b. apply Permutation_in. apply Permutation_sym. exact P. }
  destruct st as [m h r]. apply (ninv_perm (mkstate m h r) l l' fr fr); auto.
  - unfold blocks. apply Permutation_app_tail. apply Permutation_map. exact P.
  - apply (n_size _ _ _ V).
  - intros b B. apply (n_live _ _ _ V). auto.
  - intros b B. apply (n_big _ _ _ V). auto.
  - apply (n_path _ _ _ V).
Qed.

Lemma head_apart : forall st live fr p s, ninv st ((p, s) :: live) fr ->
  forall b, In b (blocks live fr) -> apart (p, lcap s) b.
Proof.
  intros st live fr p s V b B. destruct (n_pw _ _ _ V) as [N A].
  unfold blocks in N, A. cbn [map app] in N, A. apply NoDup_cons_iff in N.
  apply (A (p, lcap s)); [left; reflexivity|right; exact B|].
  intros E. apply (proj1 N). rewrite <- E in B. exact B.
Qed.

Lemma newfree_ok : forall junk st live fr p s, ninv st ((p, s) :: live) fr ->
  exists st' fr', NewSizeFree junk st p s = Done st' tt /\ ninv st' live fr' /\
    same_contents live st st'.
Proof.
  intros junk st live fr p s V. unfold NewSizeFree.
  change (Z.max s sizeof_MemCell) with (room s). change NEW_ARR_SIZE with 8192.
  pose proof (room_8 s) as R8. destruct (index_ok (room s) R8) as [I1 I2].
  pose proof (head_apart _ _ _ _ _ V) as HA.
  assert (HL : 8 <= lcap s).
  { apply (n_in _ _ _ V (p, lcap s)). left. reflexivity. }
  assert (SC : forall m, (forall a b, In b (blocks live fr) -> inside a 8 b ->
                 m a = mem st a) -> forall a b, In b live -> inside a 8 b ->
                 m a = mem st a).
  { intros m M a b B I.
    assert (X : inside a 8 (lb b)).
    { pose proof (n_live _ _ _ V b (or_intror B)). unfold inside, lb in *.
      cbn [fst snd]. lia. }
    apply (M a (lb b)); auto. apply in_live. exact B. }
  destruct (Z.ltb_spec (mem_index (room s)) 8192) as [L|L].
  - set (i := mem_index (room s)) in *.
    assert (M : forall a b, In b (blocks live fr) -> inside a 8 b ->
      store (mem st) p (free_mem_list st i) a = mem st a).
    { intros a b B IN. apply store_other. apply HA in B.
      unfold apart, inside in *. cbn [fst snd] in *. lia. }
    eexists _, ((p, i) :: fr). split; [reflexivity|]. split; [|exact (SC _ M)].
    eapply (ninv_perm st ((p, s) :: live) live fr); [| | | |exact V|].
    + unfold blocks. cbn [map].
      replace (lb (p, s)) with (fb (p, i))
        by (unfold lb, fb; cbn; rewrite lcap_small by exact L; reflexivity).
      apply Permutation_middle.
    + intros b [<-|B]; [cbn; lia|]. apply (n_size _ _ _ V). auto.
    + intros b B. apply (n_live _ _ _ V). right. auto.
    + intros b B. apply (n_big _ _ _ V). right. auto.
    + intros j. rewrite of_size_cons. unfold set_list.
      assert (X : path (store (mem st) p (free_mem_list st i))
                    (free_mem_list st j) (of_size j fr)).
      { eapply path_ext; [|apply (n_path _ _ _ V)]. intros a A.
        apply of_size_in in A. pose proof (in_free live _ _ A) as B.
        apply (M a _ B).
        destruct (n_in _ _ _ V (fb (a, j))) as [C _]; [right; exact B|].
        unfold inside. cbn in *. lia. }
      rewrite (Z.eqb_sym j i). destruct (Z.eqb_spec i j) as [J|J].
      * subst j. cbn [app path]. split; auto. rewrite store_same. exact X.
      * exact X.
  - pose proof (n_big _ _ _ V _ (or_introl eq_refl) L) as RB. cbn [fst snd] in RB.
    rewrite lcap_big in HA, HL by exact L.
    destruct (take_ok _ p (room s) (n_rpw _ _ _ V)
                (fun r R => proj2 (n_pos _ _ _ V r R)) RB) as (rs & T & PP).
    unfold FREE. rewrite T. eexists _, fr. split; [reflexivity|].
    assert (M : forall a b, In b (blocks live fr) -> inside a 8 b ->
      (if overlaps a p (room s) then junk a else mem st a) = mem st a).
    { intros a b B IN. apply HA in B.
      assert (Ov : overlaps a p (room s) = false).
      { apply overlaps_apart. unfold apart, inside in *. cbn [fst snd] in *. lia. }
      rewrite Ov. reflexivity. }
    split; [|exact (SC _ M)].
    assert (IR : forall r, In r rs -> In r (regions st)).
    { intros r R. eapply Permutation_in; [apply Permutation_sym; exact PP|].
      right. exact R. }
    constructor; cbn [mem free_mem_list regions].
    + apply (pw_tail (lb (p, s))). apply (n_pw _ _ _ V).
    + intros b B. destruct (n_in _ _ _ V b (or_intror B)) as [B8 (r & R & I)].
      split; auto. exists r. split; auto. cbn [regions].
      apply (Permutation_in _ PP) in R. destruct R as [<-|R]; auto.
      exfalso. apply HA in B. unfold apart, inside in *. cbn [fst snd] in *. lia.
    + eapply pw_tail. eapply pw_perm; [exact PP|]. apply (n_rpw _ _ _ V).
    + intros r R. apply (n_pos _ _ _ V). auto.
    + apply (n_size _ _ _ V).
    + intros b B. apply (n_live _ _ _ V). right. auto.
    + intros b B K. pose proof (n_big _ _ _ V b (or_intror B) K) as R.
      apply (Permutation_in _ PP) in R. destruct R as [R|R]; auto.
      exfalso. pose proof (HA (lb b) (in_live live fr b B)) as AP.
      pose proof (room_8 (snd b)). injection R as R1 R2.
      unfold apart, lb in AP. cbn [fst snd] in AP. rewrite lcap_big in AP by exact K.
      lia.
    + intros j. eapply path_ext; [|apply (n_path _ _ _ V)]. intros a A.
      apply of_size_in in A. pose proof (in_free live _ _ A) as B.
      apply (M a _ B).
      destruct (n_in _ _ _ V (fb (a, j))) as [C _]; [right; exact B|].
      unfold inside. cbn in *. lia.
Qed.

Lemma new_reach_inv : forall st live, new_reach (one_size only) st live ->
  exists fr, ninv st live fr.
Proof.
  intros st live H. induction H.
  - exists []. constructor; cbn; auto; try (intros ? []).
    + split; [constructor|]. intros b c [].
    + split; [constructor|]. intros b c [].
  - destruct IHnew_reach as (fr & V).
    destruct (newsize_ok malloc st live fr size H2 V H0 H1)
      as [(s & q & f & A & B & _)|A]; rewrite A in H3; [|discriminate].
    injection H3 as <- <-. eauto.
  - destruct IHnew_reach as (fr & V).
    apply (ninv_live_perm _ _ ((p, size) :: l1 ++ l2)) in V;
      [|apply Permutation_sym; apply Permutation_middle].
    destruct (newfree_ok junk _ _ _ _ _ V) as (s & f & A & B & _).
    rewrite A in H0. injection H0 as <-. eauto.
  - destruct IHnew_reach as (fr & V). exists fr.
    apply (ninv_perm st live live fr fr); auto; try apply V.
    intros i. eapply path_ext; [|apply (n_path _ _ _ V)]. intros a A.
    apply of_size_in in A. pose proof (in_free live _ _ A) as B.
    destruct (n_in _ _ _ V _ B) as [C (r & R & I)].
    apply (H0 a r R).
    + unfold inside, fb in *. cbn [fst snd] in *. lia.
    + intros b Hb. pose proof (n_live _ _ _ V b Hb) as LV.
      destruct (in_split _ _ Hb) as (l1 & l2 & ->).
      apply (ninv_live_perm _ _ (b :: l1 ++ l2)) in V;
        [|apply Permutation_sym; apply Permutation_middle].
      destruct b as [p s].
      pose proof (head_apart _ _ _ _ _ V _ (in_free (l1 ++ l2) fr _ A)) as AP.
      unfold apart, fb in *. cbn [fst snd] in *. lia.
Qed.
End Proofs.
