(** Proofs about the feature vector index: the tree, the searches, the parameters. *)
From Coq Require Import Permutation Sorted.
From Verif Require Import FPIndex FPIndexProofs.
From Verif Require Import Subsume FVIndex SubsumeClause SubsumeProofs SubsumeProps FVIndexProofs.
Open Scope Z_scope.

(** ** The tree *)
Definition succs (x : fvnode) : list (Z * fvnode) := match fbody x with BSucc l => l | _ => [] end.
Definition leafs (x : fvnode) : list nat := match fbody x with BClauses l => l | _ => [] end.
Fixpoint at_path (key : list Z) (x : fvnode) : list nat :=
  match key with [] => leafs x | k :: r => match aget k (succs x) with Some y => at_path r y | None => [] end end.
Fixpoint total (n : nat) (x : fvnode) : Z :=
  match n with O => Z.of_nat (length (leafs x)) | S m => zsum (map (fun ky => total m (snd ky)) (succs x)) end.
(** well-formed tree of depth n *)
Fixpoint twf (n : nat) (x : fvnode) : Prop :=
  total n x <= fcount x /\
  match n with
  | O => (match fbody x with BSucc _ => False | _ => True end) /\ NoDup (leafs x)
  | S m => (match fbody x with BClauses _ => False | _ => True end) /\ sorted (succs x) /\ Forall (fun ky => twf m (snd ky)) (succs x)
  end.
Lemma total_nonneg n : forall x, 0 <= total n x.
Proof. induction n as [|n IH]; intros x; cbn [total]; [lia|]. apply zsum_nonneg. apply Forall_forall. intros y I. apply in_map_iff in I. destruct I as [ky [<- _]]. apply IH. Qed.
Lemma twf_empty n : twf n fv_empty.
Proof. destruct n; simpl; repeat split; auto; try lia; constructor. Qed.
Lemma at_path_empty key : at_path key fv_empty = [].
Proof. destruct key; reflexivity. Qed.
Lemma twf_count n x : twf n x -> total n x <= fcount x.
Proof. destruct n; simpl; tauto. Qed.
Lemma zsum_aset {A} (f : A -> Z) k y (l : list (Z * A)) : sorted l ->
  zsum (map (fun ky => f (snd ky)) (aset k y l)) = zsum (map (fun ky => f (snd ky)) l) + f y - match aget k l with Some o => f o | None => 0 end.
Proof.
  unfold sorted. induction l as [|[i c] l IH]; intros S; cbn [aset aget map zsum snd]; [lia|]. inversion S as [|? ? S1 S2]; subst.
  destruct (Z.eqb_spec i k) as [->|N]; [cbn [map zsum snd]; lia|]. destruct (Z.ltb_spec k i) as [L|L]; cbn [map zsum snd].
  - assert (X : aget k l = None); [|rewrite X; lia]. apply aget_none. intros I. rewrite Forall_forall in S2. specialize (S2 k I). cbn [fst] in S2. lia.
  - rewrite IH by auto. lia.
Qed.
Lemma total_path n : forall key x, twf n x -> length key = n -> Z.of_nat (length (at_path key x)) <= total n x.
Proof.
  induction n as [|n IH]; intros key x W L; destruct key as [|k key]; try discriminate; cbn [at_path total]; [lia|].
  destruct W as [_ [_ [S F]]]. destruct (aget k (succs x)) as [y|] eqn:Q.
  - pose proof (aget_in _ _ _ Q) as I. rewrite Forall_forall in F. pose proof (F _ I) as Wy. cbn [snd] in Wy. specialize (IH key y Wy ltac:(simpl in L; lia)).
    assert (X : total n y <= zsum (map (fun ky => total n (snd ky)) (succs x))); [|lia].
    apply in_split in I. destruct I as [l1 [l2 ->]]. rewrite map_app. cbn [map snd].
    assert (P : forall a b, zsum (a ++ b) = zsum a + zsum b) by (clear; induction a as [|? ? IHa]; intros; simpl; [lia|]; rewrite IHa; lia). rewrite P. cbn [zsum].
    assert (Z1 : forall l, 0 <= zsum (map (fun ky : Z * fvnode => total n (snd ky)) l)) by (intros l; apply zsum_nonneg; apply Forall_forall; intros z Hz; apply in_map_iff in Hz; destruct Hz as [ky [<- _]]; apply total_nonneg).
    pose proof (Z1 l1). pose proof (Z1 l2). lia.
  - cbn [length]. pose proof (total_nonneg (Datatypes.S n) x). exact H.
Qed.
Lemma count_pos n key x id : twf n x -> length key = n -> In id (at_path key x) -> (fcount x =? 0) = false.
Proof. intros W L I. apply Z.eqb_neq. pose proof (total_path n key x W L). pose proof (twf_count n x W). destruct (at_path key x); [destruct I|]. cbn [length] in H. lia. Qed.

Lemma pstore_in id l x : In x (pstore id l) <-> x = id \/ In x l.
Proof.
  unfold pstore. destruct (existsb (Nat.eqb id) l) eqn:Q; [|simpl; intuition]. apply existsb_exists in Q. destruct Q as [y [I Q]]. apply Nat.eqb_eq in Q. subst y. intuition. subst. auto.
Qed.
Lemma pstore_nodup id l : NoDup l -> NoDup (pstore id l) /\ Z.of_nat (length (pstore id l)) <= Z.of_nat (length l) + 1.
Proof.
  intros H. unfold pstore. destruct (existsb (Nat.eqb id) l) eqn:Q; [split; auto; lia|]. split; [|simpl; lia]. constructor; auto. intros I.
  assert (existsb (Nat.eqb id) l = true) by (apply existsb_exists; exists id; split; auto; apply Nat.eqb_refl). congruence.
Qed.
Lemma pdelete_in id l x : In x (pdelete id l) <-> x <> id /\ In x l.
Proof. unfold pdelete. rewrite filter_In, negb_true_iff, Nat.eqb_neq. tauto. Qed.
Lemma pdelete_nodup id l : NoDup l -> NoDup (pdelete id l) /\ (In id l -> Z.of_nat (length (pdelete id l)) = Z.of_nat (length l) - 1).
Proof.
  intros H. split; [apply NoDup_filter; auto|]. intros I. apply in_split in I. destruct I as [l1 [l2 ->]]. apply NoDup_remove_2 in H.
  assert (X : forall l, ~ In id l -> pdelete id l = l).
  { unfold pdelete. induction l as [|y l IH]; simpl; auto. intros N. destruct (Nat.eqb_spec y id) as [->|]; [tauto|]. simpl. rewrite IH by tauto. reflexivity. }
  rewrite in_app_iff in H. unfold pdelete in *. rewrite filter_app. cbn [filter]. rewrite Nat.eqb_refl. simpl. rewrite !X by tauto. rewrite !app_length. simpl. lia.
Qed.

Lemma leafs_body x : (match fbody x with BSucc _ => False | _ => True end) -> fbody x = BNull /\ leafs x = [] \/ fbody x = BClauses (leafs x).
Proof. unfold leafs. destruct (fbody x); tauto. Qed.
Lemma succs_body x : (match fbody x with BClauses _ => False | _ => True end) -> fbody x = BNull /\ succs x = [] \/ fbody x = BSucc (succs x).
Proof. unfold succs. destruct (fbody x); tauto. Qed.

Lemma insert_ok id : forall vec x, twf (length vec) x -> exists y, fv_insert vec id x = Some y /\ twf (length vec) y /\ total (length vec) y <= total (length vec) x + 1 /\ fcount y = fcount x + 1 /\
  forall key, length key = length vec -> at_path key y = if key_eqb key vec then pstore id (at_path vec x) else at_path key x.
Proof.
  induction vec as [|k r IH]; intros x W.
  - cbn [fv_insert length] in *. destruct W as [W1 [W2 W3]]. cbn [total] in W1. destruct (pstore_nodup id (leafs x) W3) as [N1 N2].
    assert (X : (match fbody x with BNull => Some (FVNode (fcount x + 1) (BClauses [id])) | BSucc _ => None | BClauses l => Some (FVNode (fcount x + 1) (BClauses (pstore id l))) end) = Some (FVNode (fcount x + 1) (BClauses (pstore id (leafs x))))).
    { destruct (leafs_body x W2) as [[-> ->]|H]; [reflexivity|]. unfold leafs at 1. destruct (fbody x) as [| |l]; try discriminate. injection H as H. reflexivity. }
    rewrite X. eexists. split; [reflexivity|]. cbn [twf total fcount fbody leafs]. repeat split; auto; try lia. intros [|? ?] L; [reflexivity|discriminate].
  - cbn [length] in W. cbn [fv_insert]. destruct W as [W1 [W2 [W3 W4]]].
    set (next := match aget k (succs x) with Some y => y | None => fv_empty end).
    assert (WN : twf (length r) next).
    { unfold next. destruct (aget k (succs x)) as [y|] eqn:Q; [|apply twf_empty]. apply aget_in in Q. rewrite Forall_forall in W4. apply (W4 _ Q). }
    destruct (IH next WN) as [y [A [B [C [D F]]]]].
    exists (FVNode (fcount x + 1) (BSucc (aset k y (succs x)))). split.
    { unfold next, succs in *. destruct (fbody x) as [|l|l]; [| |destruct W2]; rewrite A; reflexivity. }
    assert (TN : total (length r) next = match aget k (succs x) with Some o => total (length r) o | None => 0 end).
    { unfold next. destruct (aget k (succs x)); auto. destruct (length r); reflexivity. }
    assert (T : total (S (length r)) (FVNode (fcount x + 1) (BSucc (aset k y (succs x)))) <= total (S (length r)) x + 1).
    { cbn [total succs fbody]. rewrite zsum_aset by auto. rewrite <- TN. lia. }
    cbn [length]. split; [|split; [exact T|split; [reflexivity|]]].
    + cbn [twf]. split; [cbn [fcount]; cbn [total] in T, W1 |- *; lia|]. cbn [fbody succs]. split; auto. split; [apply aset_sorted; auto|]. apply (aset_all (twf (length r))); auto.
    + intros [|k' key] L; [discriminate|]. cbn [at_path]. change (succs (FVNode (fcount x + 1) (BSucc (aset k y (succs x))))) with (aset k y (succs x)).
      rewrite aget_aset, key_eqb_cons. destruct (Z.eqb_spec k' k) as [->|N]; [|reflexivity]. cbn [andb]. rewrite F by (simpl in L; lia).
      unfold next. destruct (aget k (succs x)) as [o|]; [reflexivity|]. rewrite !at_path_empty. reflexivity.
Qed.

Lemma delete_ok id : forall vec x, twf (length vec) x -> In id (at_path vec x) -> exists y, fv_delete vec id x = Some y /\ twf (length vec) y /\ total (length vec) y = total (length vec) x - 1 /\
  forall key, length key = length vec -> at_path key y = if key_eqb key vec then pdelete id (at_path vec x) else at_path key x.
Proof.
  induction vec as [|k r IH]; intros x W I.
  - cbn [fv_delete length at_path] in *. destruct W as [W1 [W2 W3]]. cbn [total] in W1. destruct (pdelete_nodup id (leafs x) W3) as [N1 N2]. specialize (N2 I).
    destruct (leafs_body x W2) as [[_ Q]|H]; [rewrite Q in I; destruct I|]. rewrite H.
    eexists. split; [reflexivity|]. cbn [twf total fcount fbody leafs]. repeat split; auto; try lia. intros [|? ?] L; [reflexivity|discriminate].
  - cbn [length] in W. cbn [fv_delete at_path] in *. destruct W as [W1 [W2 [W3 W4]]].
    destruct (aget k (succs x)) as [o|] eqn:Q; [|destruct I].
    assert (Wo : twf (length r) o) by (apply aget_in in Q; rewrite Forall_forall in W4; apply (W4 _ Q)).
    destruct (IH o Wo I) as [y [A [B [C D]]]]. destruct (succs_body x W2) as [[_ Q2]|H]; [rewrite Q2 in Q; discriminate|].
    exists (FVNode (fcount x - 1) (BSucc (aset k y (succs x)))). split; [rewrite H, Q, A; reflexivity|].
    assert (T : total (S (length r)) (FVNode (fcount x - 1) (BSucc (aset k y (succs x)))) = total (S (length r)) x - 1).
    { cbn [total succs fbody]. rewrite zsum_aset by auto. rewrite Q. lia. }
    cbn [length]. split; [|split; [exact T|]].
    + cbn [twf]. split; [cbn [fcount]; cbn [total] in T, W1 |- *; lia|]. cbn [fbody succs]. split; auto. split; [apply aset_sorted; auto|]. apply (aset_all (twf (length r))); auto.
    + intros [|k' key] L; [discriminate|]. cbn [at_path]. change (succs (FVNode (fcount x - 1) (BSucc (aset k y (succs x))))) with (aset k y (succs x)).
      rewrite aget_aset, key_eqb_cons. destruct (Z.eqb_spec k' k) as [->|N]; [|reflexivity]. cbn [andb]. rewrite D by (simpl in L; lia). rewrite Q. reflexivity.
Qed.

(** ** Histories *)
Definition start_ok (lits : nat -> clause) (st : fvstate) (cs : cspec) (perm : option (list nat)) (ids : list nat) : Prop :=
  twf (idx_len cs perm) (fvroot st) /\ zero_arr (fvfull st) /\ (forall j, Permutation (fvlits st j) (lits j)) /\
  forall key id, length key = idx_len cs perm -> (In id (at_path key (fvroot st)) <-> In id ids /\ key = vec_of cs perm (lits id)).
Lemma key_eqb_eq a b : length a = length b -> key_eqb a b = true -> a = b.
Proof.
  revert b. induction a as [|x a IH]; intros [|y b] L; try discriminate; auto. rewrite key_eqb_cons. intros H. apply andb_true_iff in H. destruct H as [H1 H2]. apply Z.eqb_eq in H1. subst y. f_equal. apply IH; auto.
Qed.
Lemma run_app cs perm os : forall o st, fv_run cs perm st (os ++ [o]) = match fv_run cs perm st os with Some st' => fv_step cs perm st' o | None => None end.
Proof. induction os as [|a os IH]; intros o st; cbn [fv_run List.app]; [destruct (fv_step cs perm st o); auto|]. destruct (fv_step cs perm st a); auto. Qed.
Lemma history_ok cs perm lits os ids : spec_ok cs -> perm_ok cs perm -> fv_history os ids -> exists st, fv_run cs perm (fv_start lits) os = Some st /\ start_ok lits st cs perm ids.
Proof.
  intros H P. induction 1 as [|os ids id Hh [st [R [S1 [S2 [S3 S4]]]]]|os ids id Hh [st [R [S1 [S2 [S3 S4]]]]] I].
  - exists (fv_start lits). split; auto. split; [apply twf_empty|]. split; [intros i; reflexivity|]. split; [intros j; reflexivity|]. intros key id L. cbn [fv_start fvroot]. rewrite at_path_empty. simpl. tauto.
  - rewrite run_app, R. cbn [fv_step]. destruct (opt_vector_ok cs perm (fvlits st id) (fvfull st) H P S2) as [v [full' [A [B [C D]]]]]. rewrite A.
    assert (V : v = vec_of cs perm (lits id)) by (rewrite (vec_of_eq cs perm _ _ _ _ H P S2 A); apply vec_of_perm; auto).
    destruct (insert_ok id v (fvroot st)) as [y [Y1 [Y2 [Y3 [Y4 Y5]]]]]; [rewrite C; auto|]. rewrite Y1. eexists. split; [reflexivity|]. rewrite C in *. split; [auto|]. split; [auto|]. split.
    + intros j. cbn [fvlits]. destruct (Nat.eqb_spec j id) as [->|]; auto. eapply perm_trans; [apply C16_sorting|]. auto.
    + intros key i L. cbn [fvroot]. rewrite Y5, pstore_in by auto. destruct (key_eqb key v) eqn:K.
      * apply key_eqb_eq in K; [|lia]. subst key. rewrite pstore_in, S4 by auto. split; [intros [->|[X1 X2]]; auto|intros [[->|X1] X2]; auto].
      * rewrite S4 by auto. split; [tauto|]. intros [[->|X1] X2]; auto. exfalso. rewrite X2, <- V, key_eqb_refl in K. discriminate.
  - rewrite run_app, R. cbn [fv_step]. destruct (opt_vector_ok cs perm (fvlits st id) (fvfull st) H P S2) as [v [full' [A [B [C D]]]]]. rewrite A.
    assert (V : v = vec_of cs perm (lits id)) by (rewrite (vec_of_eq cs perm _ _ _ _ H P S2 A); apply vec_of_perm; auto).
    destruct (delete_ok id v (fvroot st)) as [y [Y1 [Y2 [Y3 Y5]]]]; [rewrite C; auto|apply S4; auto|]. rewrite Y1. eexists. split; [reflexivity|]. rewrite C in *. split; [auto|]. split; [auto|]. split; [auto|].
    intros key i L. cbn [fvroot]. rewrite Y5, pdelete_in by auto. destruct (key_eqb key v) eqn:K.
    + apply key_eqb_eq in K; [|lia]. subst key. rewrite pdelete_in, S4 by auto. tauto.
    + rewrite S4 by auto. split; [|tauto]. intros [X1 X2]. split; auto. split; auto. intros ->. rewrite X2, <- V, key_eqb_refl in K. discriminate.
Qed.

(** ** Searches *)
Section Search.
Variable T : nat -> answer.
Fixpoint tsearch (ids : list nat) : found nat :=
  match ids with [] => NotFound | id :: r => match T id with Ans true => Found id | Ans false => tsearch r | NoFuel => FNoFuel | Undef => FUndef end end.
Fixpoint tall (ids : list nat) : found (list nat) :=
  match ids with [] => Found [] | id :: r => match T id with Ans b => match tall r with Found l => Found (if b then id :: l else l) | x => x end | NoFuel => FNoFuel | Undef => FUndef end end.
Variable lo : Z -> Z.
Variable up : Z -> option Z.
Fixpoint gsearch (vec : list Z) (x : fvnode) {struct vec} : found nat :=
  match vec with
  | [] => leaf_clauses x tsearch
  | v :: r => match fbody x with BSucc l => first_found (gsearch r) (in_range (lo v) (up v) l) | BNull => NotFound | BClauses _ => FUndef end
  end.
Fixpoint gall (vec : list Z) (x : fvnode) {struct vec} : found (list nat) :=
  match vec with
  | [] => leaf_clauses x tall
  | v :: r => match fbody x with BSucc l => all_found (gall r) (in_range (lo v) (up v) l) | BNull => Found [] | BClauses _ => FUndef end
  end.
Definition in_rng (k v : Z) : Prop := lo v <= k /\ match up v with Some u => k <= u | None => True end.

(** the result of a search over the clauses satisfying a predicate *)
Definition search_spec (Q Q' : nat -> Prop) (r : found nat) : Prop :=
  match r with
  | Found id => Q id /\ T id = Ans true
  | NotFound => forall id, Q' id -> T id = Ans false
  | FNoFuel => exists id, Q id /\ T id = NoFuel
  | FUndef => exists id, Q id /\ T id = Undef
  end.
Definition all_spec (Q Q' : nat -> Prop) (r : found (list nat)) : Prop :=
  match r with
  | Found l => (forall id, In id l -> Q id /\ T id = Ans true) /\ (forall id, Q' id -> exists b, T id = Ans b /\ (b = true -> In id l))
  | NotFound => False
  | FNoFuel => exists id, Q id /\ T id = NoFuel
  | FUndef => exists id, Q id /\ T id = Undef
  end.
Lemma tsearch_ok l : search_spec (fun id => In id l) (fun id => In id l) (tsearch l).
Proof.
  induction l as [|id l IH]; cbn [tsearch]; [intros id []|]. destruct (T id) as [[|]| |] eqn:Q.
  - split; [left; auto|auto].
  - destruct (tsearch l); simpl in *; [destruct IH; auto| |destruct IH as [i [A B]]; exists i; auto|destruct IH as [i [A B]]; exists i; auto].
    intros i [<-|I]; auto.
  - exists id. simpl. auto.
  - exists id. simpl. auto.
Qed.
Lemma tall_ok l : all_spec (fun id => In id l) (fun id => In id l) (tall l).
Proof.
  induction l as [|id l IH]; cbn [tall]; [split; intros id []|]. destruct (T id) as [b| |] eqn:Q; [|exists id; simpl; auto|exists id; simpl; auto].
  destruct (tall l) as [r| | |]; simpl in *; [|destruct IH|destruct IH as [i [A B]]; exists i; auto|destruct IH as [i [A B]]; exists i; auto].
  destruct IH as [A B]. split.
  - intros i I. destruct b; [destruct I as [<-|I]|]; auto; destruct (A i I); auto.
  - intros i [<-|I]; [exists b; split; auto; intros ->; left; auto|]. destruct (B i I) as [b' [B1 B2]]. exists b'. split; auto. intros E. specialize (B2 E). destruct b; simpl; auto.
Qed.
Lemma in_range_in {A} k (y : A) v l : In (k, y) (in_range (lo v) (up v) l) <-> In (k, y) l /\ in_rng k v.
Proof. unfold in_range, in_rng. rewrite filter_In, andb_true_iff, Z.leb_le. cbn [fst]. destruct (up v) as [u|]; [rewrite Z.leb_le|]; intuition. Qed.

Definition below (vec : list Z) (x : fvnode) (id : nat) : Prop := exists key, length key = length vec /\ In id (at_path key x).
Definition below_rng (vec : list Z) (x : fvnode) (id : nat) : Prop := exists key, Forall2 in_rng key vec /\ In id (at_path key x).

Lemma f2len {A B} (R : A -> B -> Prop) l m : Forall2 R l m -> length l = length m.
Proof. induction 1; simpl; auto. Qed.
Lemma gsearch_ok : forall vec x, twf (length vec) x -> search_spec (below vec x) (below_rng vec x) (gsearch vec x).
Proof.
  induction vec as [|v r IH]; intros x W.
  - cbn [gsearch]. destruct W as [W1 [W2 W3]]. unfold leaf_clauses.
    assert (X : search_spec (fun id => In id (leafs x)) (fun id => In id (leafs x)) (tsearch (leafs x))) by apply tsearch_ok.
    assert (Y : search_spec (below [] x) (below_rng [] x) (tsearch (leafs x))).
    { destruct (tsearch (leafs x)) as [i| | |]; simpl in *.
      - destruct X. split; auto. exists []. auto.
      - intros i [key [F I]]. inversion F; subst. auto.
      - destruct X as [i [A B]]. exists i. split; auto. exists []. auto.
      - destruct X as [i [A B]]. exists i. split; auto. exists []. auto. }
    destruct (leafs_body x W2) as [[Q1 Q2]|Q]; [rewrite Q1; rewrite Q2 in Y; exact Y|]. rewrite Q. exact Y.
  - cbn [gsearch]. cbn [length] in W. destruct W as [W1 [W2 [W3 W4]]]. destruct (succs_body x W2) as [[Q1 Q2]|Q].
    { rewrite Q1. intros i [key [F I]]. inversion F; subst. cbn [at_path] in I. rewrite Q2 in I. destruct I. }
    rewrite Q.
    set (l := in_range (lo v) (up v) (succs x)).
    assert (L : forall k y, In (k, y) l -> aget k (succs x) = Some y /\ in_rng k v /\ twf (length r) y).
    { intros k y I. apply in_range_in in I. destruct I as [I J]. split; [apply in_aget; auto|]. split; auto. rewrite Forall_forall in W4. apply (W4 _ I). }
    assert (X : search_spec (fun id => exists k y, In (k, y) l /\ below r y id) (fun id => exists k y, In (k, y) l /\ below_rng r y id) (first_found (gsearch r) l)).
    { clearbody l. induction l as [|[k y] l IHl]; cbn [first_found]; [intros i [k [y [[] _]]]|].
      destruct (L k y (or_introl eq_refl)) as [G [R Wy]]. specialize (IHl (fun k y I => L k y (or_intror I))).
      assert (REST : (forall id, below_rng r y id -> T id = Ans false) -> search_spec (fun id => exists k0 y0, In (k0, y0) ((k, y) :: l) /\ below r y0 id) (fun id => exists k0 y0, In (k0, y0) ((k, y) :: l) /\ below_rng r y0 id) (first_found (gsearch r) l)).
      { intros N. destruct (first_found (gsearch r) l) as [i| | |]; simpl in *.
        - destruct IHl as [[k0 [y0 [A B]]] C]. split; auto. exists k0, y0. auto.
        - intros i [k0 [y0 [[[= <- <-]|A] B]]]; auto. apply IHl. exists k0, y0. auto.
        - destruct IHl as [i [[k0 [y0 [A B]]] C]]. exists i. split; auto. exists k0, y0. auto.
        - destruct IHl as [i [[k0 [y0 [A B]]] C]]. exists i. split; auto. exists k0, y0. auto. }
      destruct (fcount y =? 0) eqn:Z0.
      - apply REST. intros id [key [F I]]. pose proof (count_pos (length r) key y id Wy (f2len _ _ _ F) I). congruence.
      - specialize (IH y Wy). destruct (gsearch r y) as [i| | |]; simpl in *.
        + destruct IH as [A B]. split; auto. exists k, y. auto.
        + apply REST; auto.
        + destruct IH as [i [A B]]. exists i. split; auto. exists k, y. auto.
        + destruct IH as [i [A B]]. exists i. split; auto. exists k, y. auto. }
    assert (LF : forall k y id, In (k, y) l -> below r y id -> below (v :: r) x id).
    { intros k y id I [key [L1 L2]]. destruct (L k y I) as [G [R Wy]]. exists (k :: key). split; [simpl; auto|]. cbn [at_path]. rewrite G. auto. }
    assert (LR : forall id, below_rng (v :: r) x id -> exists k y, In (k, y) l /\ below_rng r y id).
    { intros id [key [F I]]. inversion F as [|k ? key' ? F1 F2]; subst. cbn [at_path] in I. destruct (aget k (succs x)) as [y|] eqn:G; [|destruct I]. exists k, y. split; [apply in_range_in; split; auto; apply aget_in; auto|]. exists key'. auto. }
    destruct (first_found (gsearch r) l) as [i| | |]; simpl in *.
    + destruct X as [[k [y [A B]]] C]. split; eauto.
    + intros id B. apply X. apply LR. auto.
    + destruct X as [i [[k [y [A B]]] C]]. exists i. split; eauto.
    + destruct X as [i [[k [y [A B]]] C]]. exists i. split; eauto.
Qed.
Lemma gall_ok : forall vec x, twf (length vec) x -> all_spec (below vec x) (below_rng vec x) (gall vec x).
Proof.
  induction vec as [|v r IH]; intros x W.
  - cbn [gall]. destruct W as [W1 [W2 W3]]. unfold leaf_clauses.
    assert (X : all_spec (fun id => In id (leafs x)) (fun id => In id (leafs x)) (tall (leafs x))) by apply tall_ok.
    assert (Y : all_spec (below [] x) (below_rng [] x) (tall (leafs x))).
    { destruct (tall (leafs x)) as [i| | |]; simpl in *; auto.
      - destruct X as [X1 X2]. split; [intros id I; destruct (X1 id I); split; auto; exists []; auto|]. intros id [key [F I]]. inversion F; subst. auto.
      - destruct X as [i [A B]]. exists i. split; auto. exists []. auto.
      - destruct X as [i [A B]]. exists i. split; auto. exists []. auto. }
    destruct (leafs_body x W2) as [[Q1 Q2]|Q]; [rewrite Q1; rewrite Q2 in Y; exact Y|]. rewrite Q. exact Y.
  - cbn [gall]. cbn [length] in W. destruct W as [W1 [W2 [W3 W4]]]. destruct (succs_body x W2) as [[Q1 Q2]|Q].
    { rewrite Q1. split; [intros i []|]. intros i [key [F I]]. inversion F; subst. cbn [at_path] in I. rewrite Q2 in I. destruct I. }
    rewrite Q.
    set (l := in_range (lo v) (up v) (succs x)).
    assert (L : forall k y, In (k, y) l -> aget k (succs x) = Some y /\ in_rng k v /\ twf (length r) y).
    { intros k y I. apply in_range_in in I. destruct I as [I J]. split; [apply in_aget; auto|]. split; auto. rewrite Forall_forall in W4. apply (W4 _ I). }
    assert (X : all_spec (fun id => exists k y, In (k, y) l /\ below r y id) (fun id => exists k y, In (k, y) l /\ below_rng r y id) (all_found (gall r) l)).
    { clearbody l. induction l as [|[k y] l IHl]; cbn [all_found]; [split; [intros i []|intros i [k [y [[] _]]]]|].
      destruct (L k y (or_introl eq_refl)) as [G [R Wy]]. specialize (IHl (fun k y I => L k y (or_intror I))).
      destruct (fcount y =? 0) eqn:Z0.
      - destruct (all_found (gall r) l) as [i| | |]; simpl in *; auto.
        + destruct IHl as [A B]. split.
          * intros id I. destruct (A id I) as [[k0 [y0 [A1 A2]]] A3]. split; auto. exists k0, y0. auto.
          * intros id [k0 [y0 [[[= <- <-]|I] [key [F J]]]]].
            -- pose proof (count_pos (length r) key y id Wy (f2len _ _ _ F) J). congruence.
            -- apply B. exists k0, y0. split; auto. exists key. auto.
        + destruct IHl as [i [[k0 [y0 [A B]]] C]]. exists i. split; auto. exists k0, y0. auto.
        + destruct IHl as [i [[k0 [y0 [A B]]] C]]. exists i. split; auto. exists k0, y0. auto.
      - specialize (IH y Wy). destruct (gall r y) as [a| | |]; simpl in *; auto.
        + destruct IH as [A B]. destruct (all_found (gall r) l) as [b| | |]; simpl in *; auto.
          * destruct IHl as [C D]. split.
            -- intros id I. apply in_app_iff in I. destruct I as [I|I]; [destruct (A id I); split; auto; exists k, y; auto|]. destruct (C id I) as [[k0 [y0 [A1 A2]]] A3]. split; auto. exists k0, y0. auto.
            -- intros id [k0 [y0 [[[= <- <-]|I] J]]].
               ++ destruct (B id J) as [bb [B1 B2]]. exists bb. split; auto. intros E. apply in_app_iff. auto.
               ++ destruct (D id) as [bb [B1 B2]]; [exists k0, y0; auto|]. exists bb. split; auto. intros E. apply in_app_iff. auto.
          * destruct IHl as [i [[k0 [y0 [A1 B1]]] C]]. exists i. split; auto. exists k0, y0. auto.
          * destruct IHl as [i [[k0 [y0 [A1 B1]]] C]]. exists i. split; auto. exists k0, y0. auto.
        + destruct IH as [i [A B]]. exists i. split; auto. exists k, y. auto.
        + destruct IH as [i [A B]]. exists i. split; auto. exists k, y. auto. }
    assert (LF : forall k y id, In (k, y) l -> below r y id -> below (v :: r) x id).
    { intros k y id I [key [L1 L2]]. destruct (L k y I) as [G [R Wy]]. exists (k :: key). split; [simpl; auto|]. cbn [at_path]. rewrite G. auto. }
    assert (LR : forall id, below_rng (v :: r) x id -> exists k y, In (k, y) l /\ below_rng r y id).
    { intros id [key [F I]]. inversion F as [|k ? key' ? F1 F2]; subst. cbn [at_path] in I. destruct (aget k (succs x)) as [y|] eqn:G; [|destruct I]. exists k, y. split; [apply in_range_in; split; auto; apply aget_in; auto|]. exists key'. auto. }
    destruct (all_found (gall r) l) as [i| | |]; simpl in *; auto.
    + destruct X as [A B]. split; [intros id I; destruct (A id I) as [[k [y [A1 A2]]] A3]; split; eauto|]. intros id J. apply B. apply LR. auto.
    + destruct X as [i [[k [y [A B]]] C]]. exists i. split; eauto.
    + destruct X as [i [[k [y [A B]]] C]]. exists i. split; eauto.
Qed.
(** nothing is found twice *)
Lemma tall_nodup l r : NoDup l -> tall l = Found r -> NoDup r /\ incl r l.
Proof.
  revert r. induction l as [|id l IH]; intros r N; cbn [tall]; [intros [= <-]; split; auto; apply incl_refl|]. inversion N; subst.
  destruct (T id) as [b| |]; try discriminate. destruct (tall l) as [r'| | |]; try discriminate. intros [= <-]. destruct (IH r' H2 eq_refl) as [A B].
  destruct b; [split; [constructor; auto|apply incl_cons; [left; auto|apply incl_tl; auto]]|split; auto; apply incl_tl; auto].
Qed.
Lemma gall_nodup : forall vec x r, twf (length vec) x -> (forall k1 k2 id, length k1 = length vec -> length k2 = length vec -> In id (at_path k1 x) -> In id (at_path k2 x) -> k1 = k2) -> gall vec x = Found r -> NoDup r.
Proof.
  induction vec as [|v vec IH]; intros x r W U; cbn [gall].
  - destruct W as [W1 [W2 W3]]. unfold leaf_clauses. destruct (leafs_body x W2) as [[Q1 Q2]|Q]; [rewrite Q1; cbn [tall]; intros [= <-]; constructor|]. rewrite Q. intros H. apply (tall_nodup _ _ W3 H).
  - cbn [length] in W. destruct W as [W1 [W2 [W3 W4]]]. destruct (succs_body x W2) as [[Q1 Q2]|Q]; [rewrite Q1; intros [= <-]; constructor|]. rewrite Q.
    set (l := in_range (lo v) (up v) (succs x)).
    assert (L : forall k y, In (k, y) l -> aget k (succs x) = Some y /\ twf (length vec) y).
    { intros k y I. apply in_range_in in I. destruct I as [I J]. split; [apply in_aget; auto|]. rewrite Forall_forall in W4. apply (W4 _ I). }
    assert (ND : NoDup (map fst l)).
    { unfold l, in_range. clear -W3. unfold sorted in W3. induction (succs x) as [|[k y] s IH]; simpl in *; [constructor|]. inversion W3 as [|? ? S1 S2]; subst.
      match goal with |- NoDup (map fst (if ?b then _ else _)) => destruct b end; auto. simpl. constructor; auto. intros I. apply in_map_iff in I. destruct I as [[k' y'] [E I]]. apply filter_In in I. destruct I as [I _].
      rewrite Forall_forall in S2. specialize (S2 k' (in_map fst _ _ I)). simpl in E. lia. }
    assert (G : forall l r, (forall k y, In (k, y) l -> aget k (succs x) = Some y /\ twf (length vec) y) -> NoDup (map fst l) -> all_found (gall vec) l = Found r -> NoDup r /\ forall id, In id r -> exists k y key, In (k, y) l /\ length key = length vec /\ In id (at_path key y)).
    { clear l L ND r. induction l as [|[k y] l IHl]; intros r L ND; cbn [all_found]; [intros [= <-]; split; [constructor|intros id []]|]. inversion ND as [|? ? N1 N2]; subst.
      destruct (fcount y =? 0).
      - intros H. destruct (IHl r (fun k y I => L k y (or_intror I)) N2 H) as [A B]. split; auto. intros id I. destruct (B id I) as [k0 [y0 [key [X Y]]]]. exists k0, y0, key. simpl. tauto.
      - destruct (gall vec y) as [a| | |] eqn:Ga; try discriminate. destruct (all_found (gall vec) l) as [b| | |] eqn:Gb; try discriminate. intros [= <-].
        destruct (IHl b (fun k y I => L k y (or_intror I)) N2 eq_refl) as [A B]. destruct (L k y (or_introl eq_refl)) as [L1 L2].
        assert (Na : NoDup a).
        { apply (IH y a L2); auto. intros k1 k2 id E1 E2 I1 I2. assert (E : k :: k1 = k :: k2); [|congruence]. apply (U _ _ id); simpl; auto; rewrite L1; auto. }
        assert (Ia : forall id, In id a -> exists key, length key = length vec /\ In id (at_path key y)).
        { intros id I. pose proof (gall_ok vec y L2) as X. rewrite Ga in X. apply (proj1 X id I). }
        split.
        + assert (D : forall id, In id a -> ~ In id b).
          { intros id I J. destruct (Ia id I) as [key [K1 K2]]. destruct (B id J) as [k0 [y0 [key0 [X [Y1 Y2]]]]]. destruct (L k0 y0 (or_intror X)) as [M1 M2].
            assert (E : k :: key = k0 :: key0); [apply (U _ _ id); simpl; auto; [rewrite L1|rewrite M1]; auto|]. injection E as -> _. apply N1. apply (in_map fst _ _ X). }
          clear -Na A D. induction a as [|i a IHa]; auto. inversion Na; subst. simpl. constructor; [|apply IHa; auto; intros id I; apply D; right; auto]. intros I. apply in_app_iff in I. destruct I as [I|I]; [tauto|]. apply (D i); simpl; auto.
        + intros id I. apply in_app_iff in I. destruct I as [I|I].
          * destruct (Ia id I) as [key [K1 K2]]. exists k, y, key. simpl. auto.
          * destruct (B id I) as [k0 [y0 [key [X Y]]]]. exists k0, y0, key. simpl. tauto. }
    intros H. apply (G l r L ND H).
Qed.
End Search.

(** ** The searches of the code *)
Lemma first_found_ext {A} (f g : fvnode -> found A) l : (forall y, f y = g y) -> first_found f l = first_found g l.
Proof. intros H. induction l as [|[k y] l IH]; cbn [first_found]; auto. rewrite H, IH. reflexivity. Qed.
Lemma all_found_ext {A} (f g : fvnode -> found (list A)) l : (forall y, f y = g y) -> all_found f l = all_found g l.
Proof. intros H. induction l as [|[k y] l IH]; cbn [all_found]; auto. rewrite H, IH. reflexivity. Qed.
Lemma leaf_ext {A} x (f g : list nat -> found A) : (forall l, f l = g l) -> leaf_clauses x f = leaf_clauses x g.
Proof. intros H. unfold leaf_clauses. destruct (fbody x); auto. Qed.

Lemma subsuming_eq E n lits d : forall vec x, subsuming_indexed E n lits d vec x = gsearch (fun id => clause_subsumes E n (lits id) d) (fun _ => 0) (fun v => Some v) vec x.
Proof.
  induction vec as [|v r IH]; intros x; cbn [subsuming_indexed gsearch].
  - apply leaf_ext. induction l as [|id l IHl]; cbn [tree_subsuming tsearch]; auto. rewrite IHl. reflexivity.
  - destruct (fbody x); auto. apply first_found_ext. auto.
Qed.
Lemma first_subsumed_eq E n lits c : forall vec x, first_subsumed_indexed E n lits c vec x = gsearch (fun id => clause_subsumes E n c (lits id)) (fun v => v) (fun _ => None) vec x.
Proof.
  induction vec as [|v r IH]; intros x; cbn [first_subsumed_indexed gsearch].
  - apply leaf_ext. induction l as [|id l IHl]; cbn [tree_first_subsumed tsearch]; auto. rewrite IHl. reflexivity.
  - destruct (fbody x); auto. apply first_found_ext. auto.
Qed.
Lemma subsumed_eq E n lits c : forall vec x, subsumed_indexed E n lits c vec x = gall (fun id => clause_subsumes E n c (lits id)) (fun v => v) (fun _ => None) vec x.
Proof.
  induction vec as [|v r IH]; intros x; cbn [subsumed_indexed gall].
  - apply leaf_ext. induction l as [|id l IHl]; cbn [tree_subsumed tall]; auto. rewrite IHl. reflexivity.
  - destruct (fbody x); auto. apply all_found_ext. auto.
Qed.
Definition both (a b : answer) : answer := match a with Ans true => b | x => x end.
Lemma in_range_single {A} v (l : list (Z * A)) : sorted l -> in_range v (Some v) l = match aget v l with Some y => [(v, y)] | None => [] end.
Proof.
  unfold sorted, in_range. induction l as [|[k y] l IH]; intros H; cbn [filter aget]; auto. inversion H as [|? ? S1 S2]; subst. cbn [fst].
  destruct (Z.eqb_spec k v) as [->|N].
  - rewrite Z.leb_refl. cbn [andb]. f_equal. rewrite IH by auto. assert (X : aget v l = None); [|rewrite X; auto]. apply aget_none. intros I. rewrite Forall_forall in S2. specialize (S2 v I). cbn [fst] in S2. lia.
  - replace ((v <=? k) && (k <=? v)) with false; auto. symmetry. apply andb_false_iff. rewrite !Z.leb_gt. lia.
Qed.
Lemma variant_eq E n lits d : forall vec x, twf (length vec) x ->
  variant_indexed E n lits d vec x = gsearch (fun id => both (clause_subsumes E n (lits id) d) (clause_subsumes E n d (lits id))) (fun v => v) (fun v => Some v) vec x.
Proof.
  induction vec as [|v r IH]; intros x W; cbn [variant_indexed gsearch].
  - apply leaf_ext. induction l as [|id l IHl]; cbn [tree_variant tsearch]; auto. rewrite IHl. destruct (clause_subsumes E n (lits id) d) as [[|]| |]; reflexivity.
  - cbn [length] in W. destruct W as [_ [_ [W3 W4]]]. unfold succs in *. destruct (fbody x) as [|l|l]; auto. rewrite in_range_single by auto.
    destruct (aget v l) as [y|] eqn:Q; auto. cbn [first_found]. destruct (fcount y =? 0); auto. rewrite IH; [destruct (gsearch _ _ _ r y); auto|]. apply aget_in in Q. rewrite Forall_forall in W4. apply (W4 _ Q).
Qed.

(** ** Answers after a history *)
Lemma clause_ok_perm E c d : Permutation c d -> clause_ok E d -> clause_ok E c.
Proof. intros P H. apply Forall_forall. intros e I. unfold clause_ok in H. rewrite Forall_forall in H. apply H. eapply Permutation_in; eauto. Qed.
Lemma csize_perm c d : Permutation c d -> csize c = csize d.
Proof. induction 1; simpl; lia. Qed.
Lemma trivial_perm c d : Permutation c d -> no_trivial d -> no_trivial c.
Proof. intros P H. apply Forall_forall. intros e I. unfold no_trivial in H. rewrite Forall_forall in H. apply H. eapply Permutation_in; eauto. Qed.

Section Answers.
Variable E : env.
Variable n : nat.
Variables (cs : cspec) (perm : option (list nat)) (lits : nat -> clause) (st : fvstate) (ids : list nat).
Hypotheses (HS : spec_ok cs) (HP : perm_ok cs perm) (HI : start_ok lits st cs perm ids).
Hypothesis OK : forall id, In id ids -> clause_ok E (lits id).

Lemma query_vec q : exists f, opt_vector cs perm (fvfull st) q = Some (vec_of cs perm q, f) /\ length (vec_of cs perm q) = idx_len cs perm.
Proof.
  destruct HI as [_ [Z0 _]]. destruct (opt_vector_ok cs perm q (fvfull st) HS HP Z0) as [v [f [A [B [C D]]]]].
  pose proof (vec_of_eq cs perm q _ _ _ HS HP Z0 A) as EQ. subst v. exists f. auto.
Qed.
Lemma root_wf (vec : list Z) : length vec = idx_len cs perm -> twf (length vec) (fvroot st).
Proof. intros ->. apply HI. Qed.
Lemma below_ids vec id : length vec = idx_len cs perm -> below vec (fvroot st) id -> In id ids.
Proof. intros L [key [L1 L2]]. destruct HI as [_ [_ [_ X]]]. apply (X key id) in L2; [tauto|congruence]. Qed.
Lemma vec_below lo up vec id : In id ids -> Forall2 (in_rng lo up) (vec_of cs perm (lits id)) vec -> below_rng lo up vec (fvroot st) id.
Proof. intros I F. exists (vec_of cs perm (lits id)). split; auto. destruct HI as [_ [_ [_ X]]]. apply X; auto. apply vec_of_len; auto. Qed.
Lemma cur_ok id : In id ids -> clause_ok E (fvlits st id).
Proof. intros I. eapply clause_ok_perm; [apply HI|]. auto. Qed.
Lemma cur_vec id : vec_of cs perm (fvlits st id) = vec_of cs perm (lits id).
Proof. apply vec_of_perm; auto. apply HI. Qed.

Lemma nonneg_vec id : Forall (fun x => 0 <= x) (vec_of cs perm (lits id)).
Proof. apply vec_of_len; auto. Qed.

Lemma forward_ok d : clause_ok E d -> no_trivial d -> (forall id, In id ids -> (csize (lits id) + csize d < n)%nat) ->
  match fv_query E n cs perm st (QSubsuming d) with
  | Found id => In id ids /\ clause_subsumes E n (fvlits st id) d = Ans true
  | NotFound => forall id, In id ids -> clause_subsumes E n (fvlits st id) d = Ans false
  | _ => False
  end.
Proof.
  intros D NT F. unfold fv_query. cbn [query_clause]. destruct (query_vec d) as [f [-> L]]. rewrite subsuming_eq.
  assert (TOT : forall id, In id ids -> exists b, clause_subsumes E n (fvlits st id) d = Ans b).
  { intros id I. apply C15_test_answers; auto; [apply cur_ok; auto|]. rewrite (csize_perm (fvlits st id) (lits id)); [auto|apply HI]. }
  pose proof (gsearch_ok (fun id => clause_subsumes E n (fvlits st id) d) (fun _ => 0) (fun v => Some v) _ _ (root_wf _ L)) as X.
  destruct (gsearch _ _ _ _ _) as [id| | |]; cbn [search_spec] in X.
  - destruct X as [A B]. split; auto. eapply below_ids; eauto.
  - intros id I. destruct (TOT id I) as [[|] B]; auto. apply X. apply vec_below; auto.
    pose proof (subsumes_fle E n _ d (cur_ok id I) D NT B) as FL. pose proof (vec_of_mono cs perm _ _ HS HP FL) as V. rewrite cur_vec in V.
    pose proof (nonneg_vec id) as NN. clear -V NN. unfold vle in V. induction V; inversion NN; subst; constructor; auto. split; auto.
  - destruct X as [id [A B]]. destruct (TOT id (below_ids _ _ L A)). congruence.
  - destruct X as [id [A B]]. destruct (TOT id (below_ids _ _ L A)). congruence.
Qed.
Lemma backward_total c : clause_ok E c -> (forall id, In id ids -> (csize c + csize (lits id) < n)%nat) -> forall id, In id ids -> exists b, clause_subsumes E n c (fvlits st id) = Ans b.
Proof. intros C F id I. apply C15_test_answers; auto; [apply cur_ok; auto|]. rewrite (csize_perm (fvlits st id) (lits id)); [auto|apply HI]. Qed.
Lemma backward_below c id : clause_ok E c -> (forall id, In id ids -> no_trivial (lits id)) -> In id ids -> clause_subsumes E n c (fvlits st id) = Ans true ->
  below_rng (fun v => v) (fun _ => None) (vec_of cs perm c) (fvroot st) id.
Proof.
  intros C NT I B. apply vec_below; auto. assert (NT' : no_trivial (fvlits st id)) by (eapply trivial_perm; [apply HI|auto]).
  pose proof (subsumes_fle E n c _ C (cur_ok id I) NT' B) as FL. pose proof (vec_of_mono cs perm _ _ HS HP FL) as V. rewrite cur_vec in V.
  clear -V. unfold vle in V. induction V; constructor; auto. split; auto.
Qed.
Lemma first_ok c : clause_ok E c -> (forall id, In id ids -> no_trivial (lits id)) -> (forall id, In id ids -> (csize c + csize (lits id) < n)%nat) ->
  match fv_query E n cs perm st (QFirstSubsumed c) with
  | Found id => In id ids /\ clause_subsumes E n c (fvlits st id) = Ans true
  | NotFound => forall id, In id ids -> clause_subsumes E n c (fvlits st id) = Ans false
  | _ => False
  end.
Proof.
  intros C NT F. unfold fv_query. cbn [query_clause]. destruct (query_vec c) as [f [-> L]]. rewrite first_subsumed_eq.
  pose proof (backward_total c C F) as TOT.
  pose proof (gsearch_ok (fun id => clause_subsumes E n c (fvlits st id)) (fun v => v) (fun _ => None) _ _ (root_wf _ L)) as X.
  destruct (gsearch _ _ _ _ _) as [id| | |]; cbn [search_spec] in X.
  - destruct X as [A B]. split; auto. eapply below_ids; eauto.
  - intros id I. destruct (TOT id I) as [[|] B]; auto. apply X. apply backward_below; auto.
  - destruct X as [id [A B]]. destruct (TOT id (below_ids _ _ L A)). congruence.
  - destruct X as [id [A B]]. destruct (TOT id (below_ids _ _ L A)). congruence.
Qed.
Lemma all_ok c : clause_ok E c -> (forall id, In id ids -> no_trivial (lits id)) -> (forall id, In id ids -> (csize c + csize (lits id) < n)%nat) ->
  exists l, fv_subsumed E n cs perm st c = Found l /\ NoDup l /\ forall id, In id l <-> In id ids /\ clause_subsumes E n c (fvlits st id) = Ans true.
Proof.
  intros C NT F. unfold fv_subsumed. destruct (query_vec c) as [f [-> L]]. rewrite subsumed_eq.
  pose proof (backward_total c C F) as TOT.
  pose proof (gall_ok (fun id => clause_subsumes E n c (fvlits st id)) (fun v => v) (fun _ => None) _ _ (root_wf _ L)) as X.
  destruct (gall _ _ _ _ _) as [l| | |] eqn:Q; cbn [all_spec] in X.
  - exists l. split; auto. split.
    + eapply gall_nodup; [apply root_wf; exact L| |exact Q]. intros k1 k2 id L1 L2 I1 I2. destruct HI as [_ [_ [_ Y]]]. apply Y in I1; [|congruence]. apply Y in I2; [|congruence]. destruct I1, I2. congruence.
    + destruct X as [X1 X2]. intros id. split; [intros I; destruct (X1 id I) as [A B]; split; auto; eapply below_ids; eauto|]. intros [I B].
      destruct (X2 id) as [b [B1 B2]]; [apply backward_below; auto|]. apply B2. congruence.
  - destruct X.
  - destruct X as [id [A B]]. destruct (TOT id (below_ids _ _ L A)). congruence.
  - destruct X as [id [A B]]. destruct (TOT id (below_ids _ _ L A)). congruence.
Qed.
Lemma variant_ok d : clause_ok E d -> no_trivial d -> (forall id, In id ids -> no_trivial (lits id)) -> (forall id, In id ids -> (csize (lits id) + csize d < n)%nat) ->
  match fv_query E n cs perm st (QVariant d) with
  | Found id => In id ids /\ clause_subsumes E n (fvlits st id) d = Ans true /\ clause_subsumes E n d (fvlits st id) = Ans true
  | NotFound => forall id, In id ids -> clause_subsumes E n (fvlits st id) d = Ans false \/ clause_subsumes E n d (fvlits st id) = Ans false
  | _ => False
  end.
Proof.
  intros D NT NT2 F. unfold fv_query. cbn [query_clause]. destruct (query_vec d) as [f [-> L]]. rewrite variant_eq by (apply root_wf; auto).
  assert (TOT : forall id, In id ids -> exists b, clause_subsumes E n (fvlits st id) d = Ans b).
  { intros id I. apply C15_test_answers; auto; [apply cur_ok; auto|]. rewrite (csize_perm (fvlits st id) (lits id)); [auto|apply HI]. }
  assert (TOT2 : forall id, In id ids -> exists b, clause_subsumes E n d (fvlits st id) = Ans b) by (apply backward_total; auto; intros id I; specialize (F id I); lia).
  pose proof (gsearch_ok (fun id => both (clause_subsumes E n (fvlits st id) d) (clause_subsumes E n d (fvlits st id))) (fun v => v) (fun v => Some v) _ _ (root_wf _ L)) as X.
  destruct (gsearch _ _ _ _ _) as [id| | |]; cbn [search_spec] in X.
  - destruct X as [A B]. split; [eapply below_ids; eauto|]. unfold both in B. destruct (clause_subsumes E n (fvlits st id) d) as [[|]| |]; try discriminate. auto.
  - intros id I. destruct (TOT id I) as [[|] B]; auto. destruct (TOT2 id I) as [[|] B2]; auto. exfalso. specialize (X id). rewrite B, B2 in X. cbn [both] in X.
    assert (Y : below_rng (fun v => v) (fun v => Some v) (vec_of cs perm d) (fvroot st) id); [|specialize (X Y); discriminate].
    apply vec_below; auto. assert (NT' : no_trivial (fvlits st id)) by (eapply trivial_perm; [apply HI|auto]).
    pose proof (subsumes_fle E n _ d (cur_ok id I) D NT B) as FL1. pose proof (subsumes_fle E n d _ D (cur_ok id I) NT' B2) as FL2.
    pose proof (vec_of_mono cs perm _ _ HS HP FL1) as V1. pose proof (vec_of_mono cs perm _ _ HS HP FL2) as V2. rewrite cur_vec in V1, V2.
    pose proof (vle_antisym _ _ V1 V2) as EQ. rewrite EQ. clear. induction (vec_of cs perm d); constructor; auto. split; lia.
  - destruct X as [id [A B]]. destruct (TOT id (below_ids _ _ L A)) as [[|] B1]; destruct (TOT2 id (below_ids _ _ L A)) as [b2 B2]; rewrite B1, ?B2 in B; discriminate.
  - destruct X as [id [A B]]. destruct (TOT id (below_ids _ _ L A)) as [[|] B1]; destruct (TOT2 id (below_ids _ _ L A)) as [b2 B2]; rewrite B1, ?B2 in B; discriminate.
Qed.
End Answers.

(** ** Parameters *)
Lemma reduce_ok base len : (base <= len)%nat -> forall fuel p f, (p + f <= fuel)%nat -> exists p' f', reduce fuel base len p f = Some (p', f') /\ (p' <= p)%nat /\ (f' <= f)%nat /\ (base + 2 * p' + 4 * f' <= len)%nat.
Proof.
  intros H. induction fuel as [|n IH]; intros p f L; cbn [reduce].
  - destruct (Nat.leb_spec (base + 2 * p + 4 * f) len); [exists p, f; repeat split; auto; lia|lia].
  - destruct (Nat.leb_spec (base + 2 * p + 4 * f) len) as [Q|Q]; [exists p, f; repeat split; auto; lia|].
    destruct (Nat.ltb_spec f p).
    + destruct (IH (p - 1)%nat f) as [p' [f' [A [B [C D]]]]]; [lia|]. exists p', f'. repeat split; auto; lia.
    + destruct f as [|g]; [lia|]. destruct (IH p g) as [p' [f' [A [B [C D]]]]]; [lia|]. exists p', f'. repeat split; auto; lia.
Qed.
Definition below_pos (b : nat) (l : list (option nat)) : Prop := forall i r, nth i l None = Some r -> (r < b)%nat.
Lemma set_nth_nth {A} (l : list A) i x d : forall j, nth j (set_nth l i x) d = if Nat.eqb j i then (if Nat.ltb i (length l) then x else d) else nth j l d.
Proof.
  revert i. induction l as [|y l IH]; intros i j; cbn [set_nth].
  - destruct j, i; simpl; auto; destruct (Nat.eqb j i); auto.
  - destruct i as [|i]; destruct j as [|j]; cbn [nth]; auto. rewrite IH. change (Nat.eqb (S j) (S i)) with (Nat.eqb j i). change (length (y :: l)) with (S (length l)). change (Nat.ltb (S i) (S (length l))) with (Nat.ltb i (length l)). reflexivity.
Qed.
Lemma set_slots_below slots : forall l i pos b, below_pos b l -> (b <= pos + slots)%nat -> below_pos (pos + slots) (set_slots slots l i pos).
Proof.
  induction slots as [|n IH]; intros l i pos b H L; cbn [set_slots].
  - intros j r Q. specialize (H j r Q). lia.
  - intros j r. rewrite set_nth_nth. destruct (Nat.eqb j (4 * i + n)).
    + destruct (Nat.ltb _ _); [|discriminate]. intros [= <-]. lia.
    + intros Q. destruct (Nat.le_gt_cases b (pos + n)) as [G|G]; [pose proof (IH l i pos b H G j r Q); lia|].
      assert (X : below_pos b (set_slots n l i pos)).
      { clear -H G. revert G. induction n as [|m IHm]; intros G; cbn [set_slots]; auto. intros j r. rewrite set_nth_nth. destruct (Nat.eqb j (4 * i + m)); [destruct (Nat.ltb _ _); [|discriminate]; intros [= <-]; lia|]. apply IHm. lia. }
      specialize (X j r Q). lia.
Qed.
Lemma fill_ok sg sel slots : forall syms n pos l, (n <= length (filter (fun i => negb (special sg i) && sel i) syms))%nat -> below_pos pos l ->
  exists l', fill sg sel slots syms n pos l = Some ((pos + slots * n)%nat, l') /\ below_pos (pos + slots * n) l'.
Proof.
  induction syms as [|i syms IH]; intros n pos l L B; destruct n as [|n]; cbn [fill].
  - exists l. rewrite Nat.mul_0_r, Nat.add_0_r. auto.
  - simpl in L. lia.
  - exists l. rewrite Nat.mul_0_r, Nat.add_0_r. auto.
  - cbn [filter] in L. destruct (negb (special sg i) && sel i).
    + destruct (IH n (pos + slots)%nat (set_slots slots l i pos)) as [l' [A A']]; [simpl in L; lia|eapply set_slots_below; eauto; lia|]. exists l'. rewrite A. replace (pos + slots + slots * n)%nat with (pos + slots * S n)%nat in * by nia. auto.
    + apply IH; auto.
Qed.
Lemma below_none n b : below_pos b (repeat (@None nat) n).
Proof. intros i r. revert i. induction n as [|n IH]; intros [|i]; simpl; try discriminate. apply IH. Qed.
Lemma with_maxsym_ok cs m : spec_ok cs -> spec_ok (with_maxsym cs m).
Proof. intros H. exact H. Qed.
Lemma bill_ok sg (plus : bool) len : ((if plus then 6 else 2) <= len)%nat -> exists cs, bill_spec sg plus len = Some cs /\ spec_ok cs.
Proof.
  intros H. unfold bill_spec. destruct (reduce_ok _ len H _ _ _ (le_n (count_symbols sg (predicate sg) + count_symbols sg (function sg))%nat)) as [p [f [A [B [C D]]]]]. rewrite A.
  destruct (fill_ok sg (predicate sg) 2 (symbols_from sg) p 2 (repeat None ((f_count sg + 1) * 4 + 2)) B (below_none _ _)) as [l1 [F1 F2]]. rewrite F1.
  destruct (fill_ok sg (function sg) 4 (symbols_from sg) f (2 + 2 * p) l1 C F2) as [l2 [G1 G2]]. rewrite G1. eexists. split; [reflexivity|].
  unfold spec_ok. cbn [features use_litcount reslen]. split; [|intros _; destruct plus; lia].
  intros i r. unfold resindex. cbn [ass reslen pcount ncount pdepth ndepth]. destruct (Nat.ltb i (length l2)).
  - intros Q. specialize (G2 i r Q). destruct plus; lia.
  - destruct plus; cbn [wmod wnd w0].
    + destruct (Nat.modulo i 4) as [|[|[|?]]]; cbn [wmod wbase woff wnd w0 Nat.eqb]; intros Q; apply some_inj in Q; subst r; rewrite Nat.mod_1_r; lia.
    + destruct (Nat.modulo i 4) as [|[|[|?]]]; cbn [wmod wbase woff wnd w0 Nat.eqb]; discriminate.
Qed.
Lemma window_ok cs : ass cs = [] -> (forall w, In w [pcount cs; pdepth cs; ncount cs; ndepth cs] -> wmod w = 0%nat \/ (wbase w + wmod w <= reslen cs)%nat) -> inrange cs.
Proof.
  intros A H i r. unfold resindex. rewrite A. cbn [length]. change (Nat.ltb i 0) with false. cbv iota.
  set (w := match Nat.modulo i 4 with O => pcount cs | 1%nat => pdepth cs | 2%nat => ncount cs | _ => ndepth cs end).
  assert (I : In w [pcount cs; pdepth cs; ncount cs; ndepth cs]) by (unfold w; destruct (Nat.modulo i 4) as [|[|[|?]]]; simpl; tauto).
  specialize (H w I). cbv zeta. destruct (Nat.eqb_spec (wmod w) 0); [discriminate|]. intros Q. apply some_inj in Q. subst r. pose proof (Nat.mod_upper_bound (woff w + Nat.div i 4) (wmod w) n). lia.
Qed.
Lemma fold_ok s : (1 <= s)%nat -> spec_ok (fold_spec s).
Proof.
  intros H. split; [|cbn [fold_spec reslen]; lia]. apply window_ok; [reflexivity|]. cbn [fold_spec pcount pdepth ncount ndepth reslen]. intros w [<-|[<-|[<-|[<-|[]]]]]; cbn [wnd w0 wmod wbase]; lia.
Qed.
Lemma init_spec_ok f sg slack maxs : (1 <= f_count sg)%nat -> (1 <= maxs)%nat -> f <> CollectFeatures -> f <> NoFeatures ->
  exists cs, init_spec f sg slack maxs = Some cs /\ spec_ok cs /\ features cs <> NoFeatures.
Proof.
  intros F M N1 N2. unfold init_spec. set (s := Nat.min (f_count sg + slack) maxs). assert (L : (1 <= s)%nat) by (unfold s; lia). clearbody s.
  assert (X : forall o, (exists cs, o = Some cs /\ spec_ok cs) -> exists cs, match o with Some cs => Some (with_maxsym cs s) | None => None end = Some cs /\ spec_ok cs /\ features cs <> NoFeatures).
  { intros o [cs [-> H]]. exists (with_maxsym cs s). split; auto. split; [apply with_maxsym_ok; auto|]. unfold spec_ok in H. cbn [with_maxsym features]. destruct (features cs); try discriminate. destruct H. }
  apply X. destruct f; try congruence; try (eexists; split; [reflexivity|]; exact I).
  - apply bill_ok. lia.
  - apply bill_ok. lia.
  - eexists. split; [reflexivity|]. apply fold_ok; auto.
  - eexists. split; [reflexivity|]. split; [|cbn [reslen]; lia]. apply window_ok; [reflexivity|]. cbn [pcount pdepth ncount ndepth reslen]. intros w [<-|[<-|[<-|[<-|[]]]]]; cbn [wnd w0 wmod wbase]; lia.
Qed.
Lemma vmap2_len f a b : length (vmap2 f a b) = Nat.min (length a) (length b).
Proof. revert b. induction a as [|x a IH]; intros [|y b]; simpl; auto. Qed.
Lemma char_ok cs set : spec_ok cs -> forall full s mx mn, zero_arr full -> (length s <= vec_len cs)%nat -> exists s' mx' mn' full', char_vectors cs full set (s, mx, mn) = Some ((s', mx', mn'), full') /\ (length s' <= vec_len cs)%nat.
Proof.
  intros H. induction set as [|c set IH]; intros full s mx mn Z0 L; cbn [char_vectors]; [repeat eexists; auto|].
  destruct (freq_vector_ok cs c full H Z0) as [v [f [A [B _]]]]. rewrite A. apply IH; auto. rewrite vmap2_len. lia.
Qed.
Lemma tuples_pos : forall mx mn s i, Forall (fun t : tuple3 => (fst (fst t) < i + length s)%nat) (tuples i mx mn s).
Proof.
  induction mx as [|a mx IH]; intros [|b mn] [|v s] i; cbn [tuples]; constructor; [simpl; lia|]. specialize (IH mn s (S i)). eapply Forall_impl; [|exact IH]. simpl. intros t; lia.
Qed.
Lemma sort_in x l : In x (tuple3_sort l) -> In x l.
Proof.
  assert (I : forall y l, In x (tuple3_insert y l) -> x = y \/ In x l).
  { clear l. intros y. induction l as [|z l IH]; cbn [tuple3_insert]; [simpl; intuition|]. destruct (tuple3_before z y); simpl; intuition. }
  unfold tuple3_sort. induction l as [|y l IH]; cbn [fold_right]; auto. intros H. apply I in H. destruct H as [->|H]; simpl; auto.
Qed.
Lemma skipn_in {A} (x : A) n : forall l, In x (skipn n l) -> In x l.
Proof. induction n as [|n IH]; intros [|y l]; simpl; auto. Qed.
Lemma perm_compute_ok cs full set el : spec_ok cs -> features cs <> NoFeatures -> zero_arr full -> exists p, perm_compute cs full set el = Some (Some p) /\ perm_ok cs (Some p).
Proof.
  intros H N Z0. unfold perm_compute. destruct (char_ok cs set H full (repeat 0 (vec_len cs)) (repeat 0 (vec_len cs)) (repeat LONG_MAX (vec_len cs)) Z0) as [s [mx [mn [f' [A B]]]]]; [rewrite repeat_length; lia|].
  exists (perm_internal mx mn s (maxsym cs) el). split; [destruct (features cs); try congruence; rewrite A; reflexivity|].
  cbn [perm_ok]. apply Forall_forall. intros i I. unfold perm_internal in I. apply in_map_iff in I. destruct I as [t [<- I]]. apply skipn_in, sort_in in I.
  pose proof (tuples_pos mx mn s 0) as X. rewrite Forall_forall in X. specialize (X t I). simpl in X. lia.
Qed.
Lemma init_index_ok f sg slack maxs full axioms el : (1 <= f_count sg)%nat -> (1 <= maxs)%nat -> f <> CollectFeatures -> f <> NoFeatures -> zero_arr full ->
  exists cs perm, init_index f sg slack maxs full axioms el = Some (cs, perm) /\ spec_ok cs /\ perm_ok cs perm.
Proof.
  intros H1 H2 H3 H4 Z0. destruct (init_spec_ok f sg slack maxs H1 H2 H3 H4) as [cs [A [B C]]]. destruct (perm_compute_ok cs full axioms el B C Z0) as [p [D G]].
  exists cs, (Some p). unfold init_index. rewrite A, D. auto.
Qed.
