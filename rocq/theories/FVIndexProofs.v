(** Proofs about feature vectors and the feature vector index. *)
From Coq Require Import Permutation Sorted.
From Verif Require Import FVIndex FPIndex FPIndexProofs SubsumeClause SubsumeProps.
Open Scope Z_scope.

(** ** Occurrences of symbols *)
Fixpoint cnt (P : nat -> bool) (t : term) : Z :=
  match t with Var _ => 0 | Fun f a => (if P f then 1 else 0) + fold_right (fun x s => cnt P x + s) 0 a end.
Fixpoint dep (P : nat -> bool) (d : Z) (t : term) : Z :=
  match t with Var _ => 0 | Fun f a => Z.max (if P f then d else 0) (fold_right (fun x s => Z.max (dep P (d + 1) x) s) 0 a) end.

Lemma cnt_nonneg P t : 0 <= cnt P t.
Proof. induction t as [x|f a IH] using term_ind'; cbn [cnt]; [lia|]. assert (0 <= fold_right (fun x s => cnt P x + s) 0 a) by (induction IH; simpl; lia). destruct (P f); lia. Qed.
Lemma dep_nonneg P t : forall d, 0 <= d -> 0 <= dep P d t.
Proof. induction t as [x|f a IH] using term_ind'; intros d H; cbn [dep]; [lia|]. destruct (P f); lia. Qed.
Lemma cnt_app P s t : cnt P t <= cnt P (app s t).
Proof.
  induction t as [x|f a IH] using term_ind'; [apply cnt_nonneg|]. cbn [app cnt].
  assert (fold_right (fun x s => cnt P x + s) 0 a <= fold_right (fun x s => cnt P x + s) 0 (map (app s) a)) by (induction IH; simpl; lia). lia.
Qed.
Lemma dep_app P s t : forall d, 0 <= d -> dep P d t <= dep P d (app s t).
Proof.
  induction t as [x|f a IH] using term_ind'; intros d H; [apply dep_nonneg; auto|]. cbn [app dep].
  assert (fold_right (fun x s => Z.max (dep P (d + 1) x) s) 0 a <= fold_right (fun x s => Z.max (dep P (d + 1) x) s) 0 (map (app s) a)).
  { induction IH as [|x l Hx _ IHl]; simpl; [lia|]. specialize (Hx (d + 1)). lia. }
  destruct (P f); lia.
Qed.
Lemma dep_deeper P t : forall d e, 0 <= d -> d <= e -> dep P d t <= dep P e t.
Proof.
  induction t as [x|f a IH] using term_ind'; intros d e H L; cbn [dep]; [lia|].
  assert (fold_right (fun x s => Z.max (dep P (d + 1) x) s) 0 a <= fold_right (fun x s => Z.max (dep P (e + 1) x) s) 0 a).
  { induction IH as [|x l Hx _ IHl]; simpl; [lia|]. specialize (Hx (d + 1) (e + 1)). lia. }
  destruct (P f); lia.
Qed.
Lemma dep_zero P t : forall d, cnt P t = 0 -> 0 <= d -> dep P d t = 0.
Proof.
  induction t as [x|f a IH] using term_ind'; intros d H N; cbn [cnt dep] in *; auto.
  assert (A : forall l, 0 <= fold_right (fun x s => cnt P x + s) 0 l) by (induction l as [|y l IHl]; simpl; [lia|]; pose proof (cnt_nonneg P y); lia).
  pose proof (A a). destruct (P f); [lia|].
  assert (fold_right (fun x s => cnt P x + s) 0 a = 0) as Z0 by lia. clear H H0.
  assert (fold_right (fun x s => Z.max (dep P (d + 1) x) s) 0 a = 0); [|lia].
  induction IH as [|x l Hx _ IHl]; simpl in *; auto. pose proof (cnt_nonneg P x). pose proof (A l). rewrite Hx, IHl by lia. reflexivity.
Qed.

Definition lcnt P e := cnt P (lt e) + cnt P (rt e).
Definition ldep P e := Z.max (dep P 0 (lt e)) (dep P 0 (rt e)).
Fixpoint ccnt P (sign : bool) (c : clause) : Z := match c with [] => 0 | e :: r => (if Bool.eqb (pos e) sign then lcnt P e else 0) + ccnt P sign r end.
Fixpoint cdep P (sign : bool) (c : clause) : Z := match c with [] => 0 | e :: r => Z.max (if Bool.eqb (pos e) sign then ldep P e else 0) (cdep P sign r) end.

Lemma lcnt_nonneg P e : 0 <= lcnt P e.
Proof. unfold lcnt. pose proof (cnt_nonneg P (lt e)). pose proof (cnt_nonneg P (rt e)). lia. Qed.
Lemma ldep_nonneg P e : 0 <= ldep P e.
Proof. unfold ldep. pose proof (dep_nonneg P (lt e) 0). lia. Qed.
Lemma ccnt_nonneg P b c : 0 <= ccnt P b c.
Proof. induction c as [|e c IH]; cbn [ccnt]; [lia|]. pose proof (lcnt_nonneg P e). destruct (Bool.eqb (pos e) b); lia. Qed.
Lemma cdep_nonneg P b c : 0 <= cdep P b c.
Proof. induction c as [|e c IH]; cbn [cdep]; lia. Qed.
Lemma ldep_zero P e : lcnt P e = 0 -> ldep P e = 0.
Proof. unfold lcnt, ldep. intros H. pose proof (cnt_nonneg P (lt e)). pose proof (cnt_nonneg P (rt e)). rewrite !dep_zero by lia. reflexivity. Qed.
Lemma cdep_zero P b c : ccnt P b c = 0 -> cdep P b c = 0.
Proof.
  induction c as [|e c IH]; cbn [ccnt cdep]; auto. intros H. pose proof (lcnt_nonneg P e). pose proof (ccnt_nonneg P b c).
  destruct (Bool.eqb (pos e) b); [rewrite ldep_zero by lia|]; rewrite IH by lia; reflexivity.
Qed.
Lemma ccnt_app P b c d : ccnt P b (c ++ d) = ccnt P b c + ccnt P b d.
Proof. induction c as [|e c IH]; cbn [ccnt List.app]; lia. Qed.
Lemma cdep_app P b c d : cdep P b (c ++ d) = Z.max (cdep P b c) (cdep P b d).
Proof. induction c as [|e c IH]; cbn [cdep List.app]; [pose proof (cdep_nonneg P b d)|]; lia. Qed.
Lemma ccnt_perm P b c d : Permutation c d -> ccnt P b c = ccnt P b d.
Proof. induction 1; cbn [ccnt]; lia. Qed.
Lemma cdep_perm P b c d : Permutation c d -> cdep P b c = cdep P b d.
Proof. induction 1; cbn [cdep]; lia. Qed.

(** All features of c are at most those of d. *)
Record fle (c d : clause) : Prop := {
  fle_cnt : forall P b, ccnt P b c <= ccnt P b d;
  fle_dep : forall P b, cdep P b c <= cdep P b d;
  fle_pos : (pos_no c <= pos_no d)%nat;
  fle_neg : (neg_no c <= neg_no d)%nat }.

Lemma pos_no_app c d : pos_no (c ++ d) = (pos_no c + pos_no d)%nat.
Proof. unfold pos_no. rewrite filter_app, app_length. reflexivity. Qed.
Lemma neg_no_app c d : neg_no (c ++ d) = (neg_no c + neg_no d)%nat.
Proof. unfold neg_no. rewrite filter_app, app_length. reflexivity. Qed.
Lemma filter_perm {A} (f : A -> bool) c d : Permutation c d -> Permutation (filter f c) (filter f d).
Proof. induction 1; simpl; auto. - destruct (f x); auto. - destruct (f x), (f y); auto. apply perm_swap. - eapply perm_trans; eauto. Qed.
Lemma fle_perm c d : Permutation c d -> fle c d.
Proof.
  intros H. split; intros; try (rewrite (ccnt_perm P b c d H); lia); try (rewrite (cdep_perm P b c d H); lia).
  - unfold pos_no. rewrite (Permutation_length (filter_perm pos c d H)). lia.
  - unfold neg_no. rewrite (Permutation_length (filter_perm (fun e => negb (pos e)) c d H)). lia.
Qed.
Lemma fle_trans a b c : fle a b -> fle b c -> fle a c.
Proof. intros H K. split; intros; [etransitivity; [apply H|apply K]..|]. all: etransitivity; [apply H|apply K]. Qed.

Lemma inst_cnt P s l e : inst_of s l e -> lcnt P l <= lcnt P e.
Proof. intros [_ [[A B]|[A B]]]; unfold lcnt; rewrite <- A, <- B; pose proof (cnt_app P s (lt l)); pose proof (cnt_app P s (rt l)); lia. Qed.
Lemma inst_dep P s l e : inst_of s l e -> ldep P l <= ldep P e.
Proof. intros [_ [[A B]|[A B]]]; unfold ldep; rewrite <- A, <- B; pose proof (dep_app P s (lt l) 0); pose proof (dep_app P s (rt l) 0); lia. Qed.
Lemma fle_inst s c d : Forall2 (inst_of s) c d -> fle c d.
Proof.
  induction 1 as [|l e c d H _ IH]; [split; intros; simpl; lia|]. destruct IH as [I1 I2 I3 I4].
  assert (Q : pos l = pos e) by apply H. split; intros.
  - cbn [ccnt]. rewrite Q. pose proof (inst_cnt P s l e H). specialize (I1 P b). destruct (Bool.eqb (pos e) b); lia.
  - cbn [cdep]. rewrite Q. pose proof (inst_dep P s l e H). specialize (I2 P b). destruct (Bool.eqb (pos e) b); lia.
  - unfold pos_no in *. cbn [filter]. rewrite Q. destruct (pos e); simpl; lia.
  - unfold neg_no in *. cbn [filter]. rewrite Q. destruct (pos e); simpl; lia.
Qed.
Lemma fle_appl c d : fle c (c ++ d).
Proof.
  split; intros.
  - rewrite ccnt_app. pose proof (ccnt_nonneg P b d). lia.
  - rewrite cdep_app. lia.
  - rewrite pos_no_app. lia.
  - rewrite neg_no_app. lia.
Qed.
Lemma fle_multiset S c d : multiset_subsumes S c d -> fle c d.
Proof.
  intros [s [d1 [d2 [_ [P F]]]]]. eapply fle_trans; [eapply fle_inst; eauto|]. eapply fle_trans; [apply (fle_appl d1 d2)|]. apply fle_perm. apply Permutation_sym; auto.
Qed.

Lemma eq_by_cnt S P e t u : eq_by S e t u -> t <> u -> lcnt P e <= cnt P t + cnt P u.
Proof.
  unfold lcnt. induction 1 as [t|s W|s W|f l r x y H IH]; intros N.
  - tauto.
  - pose proof (cnt_app P s (lt e)). pose proof (cnt_app P s (rt e)). lia.
  - pose proof (cnt_app P s (lt e)). pose proof (cnt_app P s (rt e)). lia.
  - assert (x <> y) by congruence. specialize (IH H0). cbn [cnt]. rewrite !fold_right_app. cbn [fold_right].
    assert (A : forall l (a : Z), 0 <= a -> a <= fold_right (fun x s => cnt P x + s) a l) by (intros l0 a Ha; induction l0 as [|y0 l0 IHl]; simpl; [lia|]; pose proof (cnt_nonneg P y0); lia).
    assert (B : 0 <= fold_right (fun x s => cnt P x + s) 0 r) by (apply A; lia).
    pose proof (cnt_nonneg P x). pose proof (cnt_nonneg P y).
    pose proof (A l (cnt P x + fold_right (fun x s => cnt P x + s) 0 r) ltac:(lia)). pose proof (A l (cnt P y + fold_right (fun x s => cnt P x + s) 0 r) ltac:(lia)).
    destruct (P f); lia.
Qed.
Lemma eq_by_dep S P e t u : eq_by S e t u -> t <> u -> forall d, 0 <= d -> ldep P e <= Z.max (dep P d t) (dep P d u).
Proof.
  unfold ldep. induction 1 as [t|s W|s W|f l r x y H IH]; intros N d D.
  - tauto.
  - pose proof (dep_app P s (lt e) d D). pose proof (dep_app P s (rt e) d D). pose proof (dep_deeper P (lt e) 0 d). pose proof (dep_deeper P (rt e) 0 d). lia.
  - pose proof (dep_app P s (lt e) d D). pose proof (dep_app P s (rt e) d D). pose proof (dep_deeper P (lt e) 0 d). pose proof (dep_deeper P (rt e) 0 d). lia.
  - assert (x <> y) by congruence. specialize (IH H0 (d + 1) ltac:(lia)). cbn [dep]. rewrite !fold_right_app. cbn [fold_right].
    assert (A : forall l (a : Z), a <= fold_right (fun x s => Z.max (dep P (d + 1) x) s) a l) by (intros l0 a; induction l0 as [|y0 l0 IHl]; simpl; lia).
    pose proof (A l (Z.max (dep P (d + 1) x) (fold_right (fun x s => Z.max (dep P (d + 1) x) s) 0 r))). pose proof (A l (Z.max (dep P (d + 1) y) (fold_right (fun x s => Z.max (dep P (d + 1) x) s) 0 r))).
    lia.
Qed.

Lemma subsumes_fle E n c d : clause_ok E c -> clause_ok E d -> no_trivial d -> clause_subsumes E n c d = Ans true -> fle c d.
Proof.
  intros HC HD NT H. destruct (C15_subsumed_clause_contains_instance E n c d HC HD H) as [M|[l [e [-> [I [Pl [Pe Q]]]]]]]; [eapply fle_multiset; eauto|].
  unfold no_trivial in NT. rewrite Forall_forall in NT. specialize (NT e I Pe).
  apply in_split in I. destruct I as [d1 [d2 ->]]. split; intros.
  - rewrite ccnt_app. cbn [ccnt]. rewrite Pl, Pe. pose proof (eq_by_cnt _ P _ _ _ Q NT). unfold lcnt in *. pose proof (ccnt_nonneg P b d1). pose proof (ccnt_nonneg P b d2). destruct (Bool.eqb true b); lia.
  - rewrite cdep_app. cbn [cdep]. rewrite Pl, Pe. pose proof (eq_by_dep _ P _ _ _ Q NT 0 ltac:(lia)). unfold ldep in *. pose proof (cdep_nonneg P b d2). destruct (Bool.eqb true b); lia.
  - rewrite pos_no_app. unfold pos_no. cbn [filter]. rewrite Pl, Pe. simpl. lia.
  - rewrite neg_no_app. unfold neg_no. cbn [filter]. rewrite Pl, Pe. simpl. lia.
Qed.

(** ** The arrays hold these numbers *)
Lemma fupd_eq a i v j : fupd a i v j = if Nat.eqb j i then v else a j.
Proof. reflexivity. Qed.
Definition lim_class (limit i f : nat) : bool := Nat.eqb (if Nat.ltb f limit then f else O) i.

Lemma term_limited_ok limit i t : forall d fd, 0 <= snd fd i ->
  fst (term_features_limited limit t d fd) i = fst fd i + cnt (lim_class limit i) t /\ snd (term_features_limited limit t d fd) i = Z.max (snd fd i) (dep (lim_class limit i) d t).
Proof.
  induction t as [x|f a IH] using term_ind'; intros d fd N; cbn [term_features_limited cnt dep]; [lia|].
  set (fd1 := (_, _)).
  assert (E1 : fst fd1 i = fst fd i + if lim_class limit i f then 1 else 0).
  { unfold fd1, lim_class. cbn [fst]. rewrite fupd_eq, (Nat.eqb_sym i). destruct (Nat.ltb f limit); [destruct (Nat.eqb_spec f i) as [Q|Q]|destruct (Nat.eqb_spec 0 i) as [Q|Q]]; try rewrite <- Q; try lia. }
  assert (E2 : snd fd1 i = Z.max (snd fd i) (if lim_class limit i f then d else 0)).
  { unfold fd1, lim_class. cbn [snd]. rewrite fupd_eq, (Nat.eqb_sym i). destruct (Nat.ltb f limit); [destruct (Nat.eqb_spec f i) as [Q|Q]|destruct (Nat.eqb_spec 0 i) as [Q|Q]]; try rewrite <- Q; try lia. }
  assert (E3 : 0 <= snd fd1 i) by lia.
  match goal with |- fst ?res i = _ /\ _ => enough (fst res i = fst fd1 i + fold_right (fun x s => cnt (lim_class limit i) x + s) 0 a /\ snd res i = Z.max (snd fd1 i) (fold_right (fun x s => Z.max (dep (lim_class limit i) (d + 1) x) s) 0 a)) by lia end.
  clearbody fd1. clear E1 E2. revert fd1 E3. induction IH as [|x l Hx _ IHl]; intros fd1 E3; [simpl; lia|].
  destruct (Hx (d + 1) fd1 E3) as [A B]. specialize (IHl (term_features_limited limit x (d + 1) fd1)). simpl. destruct IHl as [C D]; lia.
Qed.
Lemma lits_limited_ok sign limit i c : forall fd, 0 <= snd fd i ->
  fst (lits_features_limited sign limit c fd) i = fst fd i + ccnt (lim_class limit i) sign c /\ snd (lits_features_limited sign limit c fd) i = Z.max (snd fd i) (cdep (lim_class limit i) sign c).
Proof.
  induction c as [|e c IH]; intros fd N; cbn [lits_features_limited ccnt cdep]; [lia|].
  destruct (Bool.eqb (pos e) sign).
  - unfold eqn_features_limited. destruct (term_limited_ok limit i (lt e) 0 fd N) as [A B]. destruct (term_limited_ok limit i (rt e) 0 (term_features_limited limit (lt e) 0 fd) ltac:(lia)) as [C D].
    destruct (IH (term_features_limited limit (rt e) 0 (term_features_limited limit (lt e) 0 fd)) ltac:(lia)) as [X Y]. unfold lcnt, ldep. lia.
  - destruct (IH fd N). lia.
Qed.

Definition vle : list Z -> list Z -> Prop := Forall2 Z.le.
Lemma vle_app a b c d : vle a b -> vle c d -> vle (a ++ c) (b ++ d).
Proof. apply Forall2_app. Qed.
Lemma vle_segment n a b : (forall i, a i <= b i) -> vle (segment n a) (segment n b).
Proof. intros H. unfold segment. induction (seq 0 (S n)); simpl; constructor; auto. Qed.
Lemma vle_antisym a b : vle a b -> vle b a -> a = b.
Proof. induction 1 as [|x y a b H _ IH]; intros K; inversion K; subst; auto. f_equal; auto. lia. Qed.
Lemma vle_nonneg n v : vle (repeat 0 n) v <-> length v = n /\ Forall (fun x => 0 <= x) v.
Proof.
  revert v. induction n as [|n IH]; intros v; simpl.
  - split; [intros H; inversion H; auto|intros [H _]; destruct v; [constructor|discriminate]].
  - split.
    + intros H; inversion H as [|? x ? w A B]; subst. apply IH in B. destruct B. simpl. auto.
    + intros [H F]. destruct v as [|x v]; [discriminate|]. inversion F; subst. constructor; auto. apply IH. auto.
Qed.

Lemma some_inj {A} (a b : A) : Some a = Some b -> a = b.
Proof. congruence. Qed.
Lemma var_vector_mono symbols f c d v w : fle c d -> var_freq_vector symbols f c = Some v -> var_freq_vector symbols f d = Some w -> vle v w.
Proof.
  intros [H1 H2 H3 H4].
  assert (A : forall b i, fst (lits_features_limited b symbols c no_features) i <= fst (lits_features_limited b symbols d no_features) i).
  { intros b i. destruct (lits_limited_ok b symbols i c no_features) as [-> _]; [simpl; lia|]. destruct (lits_limited_ok b symbols i d no_features) as [-> _]; [simpl; lia|]. specialize (H1 (lim_class symbols i) b). lia. }
  assert (B : forall b i, snd (lits_features_limited b symbols c no_features) i <= snd (lits_features_limited b symbols d no_features) i).
  { intros b i. destruct (lits_limited_ok b symbols i c no_features) as [_ ->]; [simpl; lia|]. destruct (lits_limited_ok b symbols i d no_features) as [_ ->]; [simpl; lia|]. specialize (H2 (lim_class symbols i) b). lia. }
  unfold var_freq_vector. destruct f; try discriminate; intros Q1 Q2; apply some_inj in Q1; apply some_inj in Q2; subst v w; repeat match goal with |- vle (_ ++ _) (_ ++ _) => apply vle_app | |- vle (segment _ _) _ => apply vle_segment; solve [auto] end; (constructor; [lia|constructor; [lia|constructor]]).
Qed.
Lemma segment_length n a : length (segment n a) = S n.
Proof. unfold segment. rewrite map_length, seq_length. reflexivity. Qed.
Lemma segment_nonneg n a : (forall i, 0 <= a i) -> Forall (fun x => 0 <= x) (segment n a).
Proof. intros H. unfold segment. apply Forall_forall. intros x I. apply in_map_iff in I. destruct I as [i [<- _]]. auto. Qed.
Lemma var_vector_nonneg symbols f c v : var_freq_vector symbols f c = Some v -> Forall (fun x => 0 <= x) v.
Proof.
  assert (A : forall b i, 0 <= fst (lits_features_limited b symbols c no_features) i).
  { intros b i. destruct (lits_limited_ok b symbols i c no_features) as [-> _]; [simpl; lia|]. pose proof (ccnt_nonneg (lim_class symbols i) b c). simpl. lia. }
  assert (B : forall b i, 0 <= snd (lits_features_limited b symbols c no_features) i).
  { intros b i. destruct (lits_limited_ok b symbols i c no_features) as [_ ->]; [simpl; lia|]. change (snd no_features i) with 0. lia. }
  unfold var_freq_vector. destruct f; try discriminate; intros Q; apply some_inj in Q; subst v; rewrite ?Forall_app; repeat match goal with |- _ /\ _ => split | |- Forall _ (segment _ _) => apply segment_nonneg; auto end; (constructor; [lia|constructor; [lia|constructor]]).
Qed.

(** ** The unlimited features *)
Definition is_sym (f g : nat) : bool := Nat.eqb g f.
Record finv (am : farr * list nat) : Prop := {
  fi_nonneg : forall i, 0 <= fst am i;
  fi_nodup : NoDup (snd am);
  fi_form : forall i, In i (snd am) -> exists f, i = (4 * f)%nat \/ i = (4 * f + 2)%nat;
  fi_in : forall f o, o = 0%nat \/ o = 2%nat -> fst am (4 * f + o)%nat <> 0 -> In (4 * f + o)%nat (snd am);
  fi_out : forall f o, o = 0%nat \/ o = 2%nat -> fst am (4 * f + o)%nat = 0 -> ~ In (4 * f + o)%nat (snd am) /\ fst am (S (4 * f + o)) = 0 }.

Lemma term_features_ok o (O : o = 0%nat \/ o = 2%nat) t : forall d am, 0 <= d -> finv am ->
  let am' := term_features t d o am in
  finv am' /\
  (forall f, fst am' (4 * f + o)%nat = fst am (4 * f + o)%nat + cnt (is_sym f) t /\ fst am' (S (4 * f + o)) = Z.max (fst am (S (4 * f + o))) (dep (is_sym f) d t)) /\
  (forall f, fst am' (4 * f + (2 - o))%nat = fst am (4 * f + (2 - o))%nat /\ fst am' (S (4 * f + (2 - o))) = fst am (S (4 * f + (2 - o)))).
Proof.
  induction t as [x|g a IH] using term_ind'; intros d am D I; cbn zeta; cbn [term_features cnt dep].
  { split; auto. split; [|auto]. intros f. split; [lia|]. pose proof (fi_nonneg am I (S (4 * f + o))). lia. }
  destruct am as [ar m]. cbn [fst snd] in *. set (i := (4 * g + o)%nat). set (am1 := (fupd _ _ _, _)).
  assert (V : forall j, fst am1 j = if Nat.eqb j i then ar i + 1 else if Nat.eqb j (S i) then Z.max d (ar (S i)) else ar j).
  { intros j. unfold am1. cbn [fst]. rewrite !fupd_eq. destruct (Nat.eqb_spec j (S i)) as [->|N1].
    - destruct (Nat.eqb_spec (S i) i); [lia|]. reflexivity.
    - reflexivity. }
  destruct I as [I1 I2 I3 I4 I5]. cbn [fst snd] in *.
  assert (J : finv am1).
  { split.
    - intros j. rewrite V. pose proof (I1 i). pose proof (I1 (S i)). pose proof (I1 j). destruct (Nat.eqb j i); [lia|]. destruct (Nat.eqb j (S i)); lia.
    - unfold am1. cbn [snd]. destruct (Z.eqb_spec (ar i) 0) as [Q|Q]; auto. constructor; auto. apply (I5 g o O Q).
    - unfold am1. cbn [snd]. intros j Hj. destruct (ar i =? 0); [destruct Hj as [<-|Hj]|]; auto. unfold i. exists g. destruct O as [-> | ->]; lia.
    - intros f p Hp. rewrite V. unfold am1. cbn [snd]. intros Hn. destruct (Nat.eqb_spec (4 * f + p) i) as [Q|Q].
      + rewrite Q. destruct (Z.eqb_spec (ar i) 0) as [W|W]; [left; auto|]. apply (I4 g o O W).
      + destruct (Nat.eqb_spec (4 * f + p) (S i)) as [R|R]; [unfold i in R; exfalso; lia|].
        destruct (ar i =? 0); [right|]; apply I4; auto.
    - intros f p Hp. rewrite V. unfold am1. cbn [snd]. destruct (Nat.eqb_spec (4 * f + p) i) as [Q|Q]; [intros H; pose proof (I1 i); lia|].
      destruct (Nat.eqb_spec (4 * f + p) (S i)) as [R|R]; [unfold i in R; exfalso; lia|]. intros H. destruct (I5 f p Hp H) as [A B]. split.
      + destruct (ar i =? 0); [intros [X|X]; [lia|tauto]|auto].
      + fold am1. rewrite V. destruct (Nat.eqb_spec (S (4 * f + p)) i) as [X|X]; [unfold i in X; exfalso; lia|]. destruct (Nat.eqb_spec (S (4 * f + p)) (S i)); [lia|auto]. }
  assert (E1 : forall f, fst am1 (4 * f + o)%nat = ar (4 * f + o)%nat + (if is_sym f g then 1 else 0) /\ fst am1 (S (4 * f + o)) = Z.max (ar (S (4 * f + o))) (if is_sym f g then d else 0)).
  { intros f. rewrite !V. unfold is_sym. destruct (Nat.eqb_spec (4 * f + o) i) as [Q|Q]; destruct (Nat.eqb_spec g f) as [R|R]; try (unfold i in Q; exfalso; lia).
    - rewrite Q. destruct (Nat.eqb_spec (S i) i); [lia|]. rewrite Nat.eqb_refl. split; lia.
    - destruct (Nat.eqb_spec (4 * f + o) (S i)) as [T|T]; [unfold i in T; exfalso; lia|]. destruct (Nat.eqb_spec (S (4 * f + o)) i) as [U|U]; [unfold i in U; exfalso; lia|].
      destruct (Nat.eqb_spec (S (4 * f + o)) (S i)); [lia|]. pose proof (I1 (S (4 * f + o))). split; lia. }
  assert (E2 : forall f, fst am1 (4 * f + (2 - o))%nat = ar (4 * f + (2 - o))%nat /\ fst am1 (S (4 * f + (2 - o))) = ar (S (4 * f + (2 - o)))).
  { intros f. rewrite !V. repeat match goal with |- context [Nat.eqb ?a ?b] => destruct (Nat.eqb_spec a b) as [?Q|?Q]; [unfold i in *; exfalso; destruct O as [-> | ->]; lia|] end. auto. }
  match goal with |- finv ?res /\ _ => enough (finv res /\
     (forall f, fst res (4 * f + o)%nat = fst am1 (4 * f + o)%nat + fold_right (fun x s => cnt (is_sym f) x + s) 0 a /\ fst res (S (4 * f + o)) = Z.max (fst am1 (S (4 * f + o))) (fold_right (fun x s => Z.max (dep (is_sym f) (d + 1) x) s) 0 a)) /\
     (forall f, fst res (4 * f + (2 - o))%nat = fst am1 (4 * f + (2 - o))%nat /\ fst res (S (4 * f + (2 - o))) = fst am1 (S (4 * f + (2 - o))))) as [X1 [X2 X3]] end.
  { split; auto. split; intros f.
    - specialize (X2 f). specialize (E1 f). destruct X2 as [-> ->]. destruct E1 as [-> ->]. split; lia.
    - specialize (X3 f). specialize (E2 f). destruct X3 as [-> ->]. exact E2. }
  clearbody am1. clear E1 E2 V. revert am1 J. induction IH as [|x l Hx _ IHl]; intros am1 J.
  { split; auto. split; [|auto]. intros f. simpl. split; [lia|]. pose proof (fi_nonneg am1 J (S (4 * f + o))). simpl in *. lia. }
  destruct (Hx (d + 1) am1 ltac:(lia) J) as [A [B C]]. destruct (IHl _ A) as [A' [B' C']]. split; [exact A'|]. split; intros f.
  - destruct (B f) as [P Q]. destruct (B' f) as [P' Q']. rewrite P', Q', P, Q. cbn [fold_right]. split; lia.
  - destruct (C f) as [P Q]. destruct (C' f) as [P' Q']. rewrite P', Q', P, Q. auto.
Qed.

Lemma lits_features_ok c : forall am, finv am ->
  let am' := lits_features c am in
  finv am' /\
  forall f b, let o := if b : bool then 0%nat else 2%nat in
    fst am' (4 * f + o)%nat = fst am (4 * f + o)%nat + ccnt (is_sym f) b c /\ fst am' (S (4 * f + o)) = Z.max (fst am (S (4 * f + o))) (cdep (is_sym f) b c).
Proof.
  induction c as [|e c IH]; intros am I; cbn zeta; cbn [lits_features ccnt cdep].
  - split; auto. intros f b. pose proof (fi_nonneg am I (S (4 * f + (if b then 0 else 2)))). split; lia.
  - unfold eqn_features. set (o := if pos e then 0%nat else 2%nat).
    assert (O : o = 0%nat \/ o = 2%nat) by (unfold o; destruct (pos e); auto).
    destruct (term_features_ok o O (lt e) 0 am ltac:(lia) I) as [A [B C]]. destruct (term_features_ok o O (rt e) 0 _ ltac:(lia) A) as [A' [B' C']].
    destruct (IH _ A') as [A2 B2]. split; [exact A2|]. intros f b. destruct (B2 f b) as [X Y]. cbn zeta in X, Y. rewrite X, Y. unfold lcnt, ldep.
    destruct (B f) as [P Q]. destruct (B' f) as [P' Q']. destruct (C f) as [U V]. destruct (C' f) as [U' V']. unfold o in *. pose proof (cdep_nonneg (is_sym f) b c).
    destruct (pos e), b; cbn [Bool.eqb]; simpl Nat.sub in *; rewrite ?P', ?Q', ?U', ?V', ?P, ?Q, ?U, ?V; split; lia.
Qed.

(** ** Collecting *)
Definition contr (cs : cspec) (full : farr) (r i : nat) : Z :=
  match resindex cs i with Some q => if Nat.eqb q r then full i else 0 | None => 0 end.
Lemma vadd_ok v : forall i x, (i < length v)%nat -> exists w, vadd v i x = Some w /\ length w = length v /\ forall r, nth r w 0 = nth r v 0 + if Nat.eqb i r then x else 0.
Proof.
  induction v as [|y v IH]; intros i x L; [simpl in L; lia|]. destruct i as [|i]; cbn [vadd].
  - exists (y + x :: v). split; auto. split; auto. intros [|r]; simpl; lia.
  - destruct (IH i x) as [w [A [B C]]]; [simpl in L; lia|]. rewrite A. exists (y :: w). split; auto. split; [simpl; auto|]. intros [|r]; simpl; [lia|]. apply C.
Qed.
Definition inrange (cs : cspec) : Prop := forall i r, resindex cs i = Some r -> (r < reslen cs)%nat.
Lemma gather_ok cs full v i : inrange cs -> length v = reslen cs ->
  exists w, gather cs full v i = Some w /\ length w = length v /\ forall r, nth r w 0 = nth r v 0 + contr cs full r i.
Proof.
  intros H L. unfold gather, contr. destruct (resindex cs i) as [q|] eqn:Q.
  - apply H in Q. destruct (vadd_ok v q (full i)) as [w W]; [lia|]. eauto.
  - exists v. split; auto. split; auto. intros r. lia.
Qed.
Fixpoint zsum (l : list Z) : Z := match l with [] => 0 | x :: r => x + zsum r end.
Lemma gather_all_ok cs (H : inrange cs) m : forall full v, NoDup m -> (forall i, In i m -> exists k, i = (2 * k)%nat) -> length v = reslen cs ->
  exists w full', gather_all cs m full v = Some (w, full') /\ length w = length v /\
    (forall r, nth r w 0 = nth r v 0 + zsum (map (fun i => contr cs full r i + contr cs full r (S i)) m)) /\
    (forall j, full' j = if existsb (fun i => Nat.eqb j i || Nat.eqb j (S i)) m then 0 else full j).
Proof.
  induction m as [|i m IH]; intros full v ND EV L; cbn [gather_all].
  - exists v, full. split; auto. split; auto. split; [intros r; simpl; lia|reflexivity].
  - inversion ND as [|? ? NI ND']; subst. destruct (gather_ok cs full v i H L) as [w1 [-> [L1 V1]]].
    destruct (gather_ok cs (fupd full i 0) w1 (S i) H) as [w2 [-> [L2 V2]]]; [lia|].
    destruct (IH (fupd (fupd full i 0) (S i) 0) w2 ND') as [w [full' [A [B [C D]]]]]; [intros j Hj; apply EV; right; auto|lia|].
    rewrite A. exists w, full'. split; auto. split; [lia|]. split.
    + intros r. rewrite C, V2, V1. cbn [map zsum].
      assert (X : contr cs (fupd full i 0) r (S i) = contr cs full r (S i)).
      { unfold contr. rewrite fupd_eq. destruct (Nat.eqb_spec (S i) i); [lia|auto]. }
      rewrite X.
      assert (Y : map (fun i0 => contr cs (fupd (fupd full i 0) (S i) 0) r i0 + contr cs (fupd (fupd full i 0) (S i) 0) r (S i0)) m = map (fun i0 => contr cs full r i0 + contr cs full r (S i0)) m).
      { apply map_ext_in. intros j Hj. destruct (EV i (or_introl eq_refl)) as [k ->]. destruct (EV j (or_intror Hj)) as [k' ->].
        assert (k' <> k) by (intros ->; tauto).
        unfold contr. rewrite !fupd_eq. repeat match goal with |- context [Nat.eqb ?a ?b] => match a with S _ => idtac | (2 * _)%nat => idtac end; destruct (Nat.eqb_spec a b); [exfalso; lia|] end. reflexivity. }
      rewrite Y. lia.
    + intros j. rewrite D. cbn [existsb]. rewrite !fupd_eq. destruct (existsb _ m); [rewrite !orb_true_r; auto|]. rewrite orb_false_r.
      destruct (Nat.eqb j i), (Nat.eqb j (S i)); auto.
Qed.

Definition zero_arr (a : farr) : Prop := forall i, a i = 0.
Lemma zsum_nonneg l : Forall (fun x => 0 <= x) l -> 0 <= zsum l.
Proof. induction 1; simpl; lia. Qed.
Lemma zsum_mono {A} (f g : A -> Z) l : forall m, NoDup l -> incl l m -> (forall x, In x l -> f x <= g x) -> (forall x, 0 <= g x) -> zsum (map f l) <= zsum (map g m).
Proof.
  induction l as [|a l IH]; intros m ND I L N.
  - apply zsum_nonneg. apply Forall_forall. intros y Hy. apply in_map_iff in Hy. destruct Hy as [x [<- _]]. auto.
  - inversion ND; subst. destruct (in_split a m (I a (or_introl eq_refl))) as [m1 [m2 ->]].
    assert (X : zsum (map f l) <= zsum (map g (m1 ++ m2))).
    { apply IH; auto; [|intros x Hx; apply L; right; auto]. intros x Hx. specialize (I x (or_intror Hx)). rewrite in_app_iff in *. destruct I as [|[->|]]; auto. tauto. }
    rewrite map_app in *. cbn [map zsum]. specialize (L a (or_introl eq_refl)).
    assert (S : forall a b, zsum (a ++ b) = zsum a + zsum b) by (clear; induction a; intros; simpl; [lia|]; rewrite IHa; lia).
    rewrite S in *. cbn [zsum]. lia.
Qed.

(** What FVCollectFreqVectorCompute puts into the vector *)
Definition cvalue (c : clause) (i : nat) : Z :=
  match Nat.modulo i 4 with
  | O => ccnt (is_sym (Nat.div i 4)) true c | 1%nat => cdep (is_sym (Nat.div i 4)) true c
  | 2%nat => ccnt (is_sym (Nat.div i 4)) false c | _ => cdep (is_sym (Nat.div i 4)) false c
  end.
Lemma split4 i : exists f o, (o < 4)%nat /\ i = (4 * f + o)%nat /\ Nat.div i 4 = f /\ Nat.modulo i 4 = o.
Proof. exists (Nat.div i 4), (Nat.modulo i 4). split; [apply Nat.mod_upper_bound; lia|]. split; [apply Nat.div_mod; lia|auto]. Qed.
Lemma cvalue_nonneg c i : 0 <= cvalue c i.
Proof. unfold cvalue. destruct (Nat.modulo i 4) as [|[|[|]]]; auto using ccnt_nonneg, cdep_nonneg. Qed.
Lemma cvalue_mono c d i : fle c d -> cvalue c i <= cvalue d i.
Proof. intros H. unfold cvalue. destruct (Nat.modulo i 4) as [|[|[|]]]; apply H. Qed.
Lemma lits_features_value c full : zero_arr full ->
  exists a m, lits_features c (full, []) = (a, m) /\ (forall i, a i = cvalue c i) /\ NoDup m /\ (forall i, In i m -> exists k, i = (2 * k)%nat) /\ (forall k, a (2 * k)%nat <> 0 -> In (2 * k)%nat m)
  /\ (forall k, In (2 * k)%nat m -> a (2 * k)%nat <> 0) /\ (forall k, a (2 * k)%nat = 0 -> a (S (2 * k)) = 0).
Proof.
  intros Z0. assert (I : finv (full, [])).
  { split; cbn [fst snd]; try constructor.
    - intros i. rewrite Z0. lia.
    - intros i [].
    - intros f o _ H. rewrite Z0 in H. lia.
    - intros [].
    - apply Z0. }
  destruct (lits_features_ok c (full, []) I) as [J V]. destruct (lits_features c (full, [])) as [a m]. cbn [fst snd] in *.
  exists a, m. split; auto. destruct J as [J1 J2 J3 J4 J5]. cbn [fst snd] in *.
  assert (E : forall k, exists f o, (o = 0 \/ o = 2)%nat /\ (2 * k = 4 * f + o)%nat).
  { intros k. destruct (split4 (2 * k)) as [f [o [L [Q _]]]]. exists f, o. split; auto. lia. }
  split.
  { intros i. unfold cvalue. destruct (split4 i) as [f [o [L [Q [Q1 Q2]]]]]. rewrite Q1, Q2, Q. clear Q Q1 Q2 i.
    destruct (V f true) as [A B]. destruct (V f false) as [C D]. rewrite Z0 in A, B, C, D.
    pose proof (cdep_nonneg (is_sym f) true c). pose proof (cdep_nonneg (is_sym f) false c).
    destruct o as [|[|[|[|]]]]; try lia; [replace (4 * f + 1)%nat with (S (4 * f + 0)) by lia; rewrite B|replace (4 * f + 3)%nat with (S (4 * f + 2)) by lia; rewrite D]; lia. }
  split; auto. split.
  { intros i Hi. destruct (J3 i Hi) as [f [-> | ->]]; [exists (2 * f)%nat|exists (2 * f + 1)%nat]; lia. }
  split; [intros k Hk; destruct (E k) as [f [o [O Q]]]; rewrite Q in *; apply J4; auto|]. split.
  - intros k Hk N. destruct (E k) as [f [o [O Q]]]. rewrite Q in *. destruct (J5 f o O N). tauto.
  - intros k Hk. destruct (E k) as [f [o [O Q]]]. rewrite Q in *. apply J5; auto.
Qed.
Lemma lits_features_contents c full a m : zero_arr full -> lits_features c (full, []) = (a, m) -> forall j, existsb (fun i => Nat.eqb j i || Nat.eqb j (S i)) m = false -> a j = 0.
Proof.
  intros Z0 Q j. destruct (lits_features_value c full Z0) as [a' [m' [Q' [_ [_ [_ [I [_ O]]]]]]]]. rewrite Q in Q'. injection Q' as <- <-.
  intros H. assert (X : forall i, In i m -> j <> i /\ j <> S i).
  { intros i Hi. destruct (Nat.eqb j i || Nat.eqb j (S i)) eqn:Y.
    - assert (existsb (fun i => Nat.eqb j i || Nat.eqb j (S i)) m = true) by (apply existsb_exists; exists i; auto). congruence.
    - apply orb_false_iff in Y. destruct Y as [Y1 Y2]. apply Nat.eqb_neq in Y1, Y2. auto. }
  destruct (Nat.Even_or_Odd j) as [[k ->]|[k ->]].
  - destruct (Z.eq_dec (a (2 * k)%nat) 0) as [|N]; auto. apply I in N. destruct (X _ N). lia.
  - replace (2 * k + 1)%nat with (S (2 * k)) in * by lia. apply O. destruct (Z.eq_dec (a (2 * k)%nat) 0) as [|N]; auto. apply I in N. destruct (X _ N). lia.
Qed.

Definition start_vec (cs : cspec) (c : clause) : list Z :=
  if use_litcount cs then Z.of_nat (pos_no c) :: Z.of_nat (neg_no c) :: repeat 0 (reslen cs - 2) else repeat 0 (reslen cs).
Lemma collect_ok cs c full : inrange cs -> (use_litcount cs = true -> (2 <= reslen cs)%nat) -> zero_arr full ->
  exists v full' a m, collect_vector cs full c = Some (v, full') /\ zero_arr full' /\ length v = reslen cs /\ lits_features c (full, []) = (a, m) /\
    forall r, nth r v 0 = nth r (start_vec cs c) 0 + zsum (map (fun i => contr cs (cvalue c) r i + contr cs (cvalue c) r (S i)) m).
Proof.
  intros H U Z0. destruct (lits_features_value c full Z0) as [a [m [Q [V [ND [EV _]]]]]].
  assert (C : forall r, zsum (map (fun i => contr cs a r i + contr cs a r (S i)) m) = zsum (map (fun i => contr cs (cvalue c) r i + contr cs (cvalue c) r (S i)) m)).
  { intros r. f_equal. apply map_ext. intros i. unfold contr. rewrite !V. reflexivity. }
  destruct c as [|e c].
  { exists (repeat 0 (reslen cs)), full, a, m. injection Q as <- <-. split; auto. split; auto. split; [apply repeat_length|]. split; auto. intros r. simpl. unfold start_vec.
    destruct (use_litcount cs); [|lia]. specialize (U eq_refl). destruct (reslen cs) as [|[|n]]; try lia. simpl. rewrite Nat.sub_0_r. destruct r as [|[|r]]; simpl; lia. }
  set (cl := e :: c) in *.
  assert (S : exists st, (if use_litcount cs then match repeat 0 (reslen cs) with _ :: _ :: r => Some (Z.of_nat (pos_no cl) :: Z.of_nat (neg_no cl) :: r) | _ => None end else Some (repeat 0 (reslen cs))) = Some st /\ st = start_vec cs cl /\ length st = reslen cs).
  { unfold start_vec. destruct (use_litcount cs) eqn:UL.
    - specialize (U eq_refl). destruct (reslen cs) as [|[|n]]; try lia. simpl. rewrite Nat.sub_0_r. eexists. split; [reflexivity|]. split; auto. simpl. rewrite repeat_length. auto.
    - eexists. split; [reflexivity|]. split; auto. apply repeat_length. }
  destruct S as [st [S1 [S2 S3]]]. destruct (gather_all_ok cs H m a st ND EV S3) as [w [full' [A [B [D F]]]]].
  exists w, full', a, m. split; [|split; [|split; [lia|split; auto]]].
  - unfold collect_vector, cl. fold cl. rewrite S1, Q. exact A.
  - intros j. rewrite F. destruct (existsb _ m) eqn:X; auto. eapply lits_features_contents; eauto.
  - intros r. rewrite D, C, S2. reflexivity.
Qed.

Lemma nth_vle v w : length v = length w -> (forall r, (r < length v)%nat -> nth r v 0 <= nth r w 0) -> vle v w.
Proof.
  revert w. induction v as [|x v IH]; intros [|y w] L H; try discriminate; constructor.
  - apply (H 0%nat). simpl. lia.
  - apply IH; [simpl in L; lia|]. intros r Hr. apply (H (S r)). simpl. lia.
Qed.
Lemma start_mono cs c d r : fle c d -> nth r (start_vec cs c) 0 <= nth r (start_vec cs d) 0.
Proof. intros F. unfold start_vec. destruct (use_litcount cs); [|lia]. pose proof (fle_pos _ _ F). pose proof (fle_neg _ _ F). destruct r as [|[|r]]; simpl; lia. Qed.
Lemma contr_mono cs f g r i : f i <= g i -> contr cs f r i <= contr cs g r i.
Proof. intros H. unfold contr. destruct (resindex cs i) as [q|]; [destruct (Nat.eqb q r)|]; lia. Qed.
Lemma contr_nonneg cs f r i : 0 <= f i -> 0 <= contr cs f r i.
Proof. intros H. unfold contr. destruct (resindex cs i) as [q|]; [destruct (Nat.eqb q r)|]; lia. Qed.

(** ** Vectors: defined, of fixed length, not negative, monotone *)
Definition spec_ok (cs : cspec) : Prop :=
  match features cs with
  | ACFeatures | SSFeatures | AllFeatures => True
  | CollectFeatures => inrange cs /\ (use_litcount cs = true -> (2 <= reslen cs)%nat)
  | _ => False
  end.
Lemma vle_nth v w : vle v w -> forall r, nth r v 0 <= nth r w 0.
Proof. induction 1 as [|x y v w A B IH]; intros [|r]; simpl; try lia. apply IH. Qed.
Lemma freq_vector_ok cs c full : spec_ok cs -> zero_arr full ->
  exists v full', freq_vector cs full c = Some (v, full') /\ zero_arr full' /\ length v = vec_len cs /\ Forall (fun x => 0 <= x) v.
Proof.
  intros H Z0. unfold spec_ok, freq_vector, vec_len in *. destruct (features cs); try tauto.
  1-3: unfold var_freq_vector; eexists; exists full; split; [reflexivity|]; split; auto; split; [cbn [List.app length]; rewrite ?app_length, ?segment_length; lia|].
  - eapply (var_vector_nonneg (maxsym cs) ACFeatures). reflexivity.
  - eapply (var_vector_nonneg (maxsym cs) SSFeatures). reflexivity.
  - eapply (var_vector_nonneg (maxsym cs) AllFeatures). reflexivity.
  - destruct H as [H U]. destruct (collect_ok cs c full H U Z0) as [v [full' [a [m [A [B [L [Q V]]]]]]]]. exists v, full'. split; auto. split; auto. split; auto.
    apply Forall_forall. intros x I. destruct (In_nth v x 0 I) as [r [R <-]]. rewrite V.
    assert (0 <= nth r (start_vec cs c) 0).
    { unfold start_vec. assert (forall k r, nth r (repeat 0 k) 0 = 0) as Y by (induction k as [|k IHk]; intros [|q]; simpl; auto). destruct (use_litcount cs); [destruct r as [|[|r]]; simpl; try lia|]; rewrite Y; lia. }
    assert (0 <= zsum (map (fun i => contr cs (cvalue c) r i + contr cs (cvalue c) r (S i)) m)); [|lia].
    apply zsum_nonneg. apply Forall_forall. intros y Hy. apply in_map_iff in Hy. destruct Hy as [i [<- _]]. pose proof (contr_nonneg cs (cvalue c) r i (cvalue_nonneg c i)). pose proof (contr_nonneg cs (cvalue c) r (S i) (cvalue_nonneg c (S i))). lia.
Qed.
Lemma freq_vector_mono cs c d full1 full2 v w f1 f2 : spec_ok cs -> zero_arr full1 -> zero_arr full2 -> fle c d ->
  freq_vector cs full1 c = Some (v, f1) -> freq_vector cs full2 d = Some (w, f2) -> vle v w.
Proof.
  intros H Z1 Z2 F. unfold spec_ok, freq_vector in *. destruct (features cs); try tauto.
  1-3: destruct (var_freq_vector _ _ c) as [v'|] eqn:Q1; [|discriminate]; destruct (var_freq_vector _ _ d) as [w'|] eqn:Q2; [|discriminate]; intros [= <- _] [= <- _]; eapply var_vector_mono; eauto.
  destruct H as [H U]. destruct (collect_ok cs c full1 H U Z1) as [v' [f1' [a [m [A [_ [L [Q V]]]]]]]]. destruct (collect_ok cs d full2 H U Z2) as [w' [f2' [b [m' [B [_ [L' [Q' V']]]]]]]].
  rewrite A, B. intros [= <- _] [= <- _]. apply nth_vle; [lia|]. intros r _. rewrite V, V'. pose proof (start_mono cs c d r F).
  destruct (lits_features_value c full1 Z1) as [a0 [m0 [Q0 [X1 [X2 [X3 [X4 [X5 X6]]]]]]]]. rewrite Q in Q0. injection Q0 as <- <-.
  destruct (lits_features_value d full2 Z2) as [a0 [m0 [Q0 [Y1 [Y2 [Y3 [Y4 [Y5 Y6]]]]]]]]. rewrite Q' in Q0. injection Q0 as <- <-.
  assert (zsum (map (fun i => contr cs (cvalue c) r i + contr cs (cvalue c) r (S i)) m) <= zsum (map (fun i => contr cs (cvalue d) r i + contr cs (cvalue d) r (S i)) m')); [|lia].
  apply zsum_mono; auto.
  - intros i Hi. destruct (X3 i Hi) as [k ->]. apply Y4. apply X5 in Hi. rewrite X1 in Hi. rewrite Y1. pose proof (cvalue_mono c d (2 * k) F). pose proof (cvalue_nonneg c (2 * k)). lia.
  - intros i _. pose proof (contr_mono cs (cvalue c) (cvalue d) r i (cvalue_mono c d i F)). pose proof (contr_mono cs (cvalue c) (cvalue d) r (S i) (cvalue_mono c d (S i) F)). lia.
  - intros i. pose proof (contr_nonneg cs (cvalue d) r i (cvalue_nonneg d i)). pose proof (contr_nonneg cs (cvalue d) r (S i) (cvalue_nonneg d (S i))). lia.
Qed.

Definition perm_ok (cs : cspec) (perm : option (list nat)) : Prop :=
  match perm with None => True | Some p => Forall (fun i => (i < vec_len cs)%nat) p end.
Definition idx_len (cs : cspec) (perm : option (list nat)) : nat := match perm with None => vec_len cs | Some p => length p end.
Lemma permute_ok p v : Forall (fun i => (i < length v)%nat) p -> Forall (fun x => 0 <= x) v -> exists w, permute p v = Some w /\ length w = length p /\ Forall (fun x => 0 <= x) w.
Proof.
  induction 1 as [|i p H _ IH]; intros N; simpl; [exists []; auto|]. destruct (IH N) as [w [-> [L F]]].
  destruct (nth_error v i) as [x|] eqn:Q; [|apply nth_error_None in Q; lia]. exists (x :: w). simpl. split; auto. split; auto. constructor; auto. rewrite Forall_forall in N. apply N. eapply nth_error_In; eauto.
Qed.
Lemma permute_mono p v w v' w' : vle v w -> permute p v = Some v' -> permute p w = Some w' -> vle v' w'.
Proof.
  intros H. revert v' w'. induction p as [|i p IH]; intros v' w'; simpl; [intros [= <-] [= <-]; constructor|].
  destruct (nth_error v i) as [x|] eqn:Q; [|discriminate]. destruct (nth_error w i) as [y|] eqn:Q'; [|discriminate].
  destruct (permute p v) as [v1|]; [|discriminate]. destruct (permute p w) as [w1|]; [|discriminate]. intros [= <-] [= <-]. constructor; [|apply IH; auto].
  rewrite <- (nth_error_nth _ _ 0 Q), <- (nth_error_nth _ _ 0 Q'). apply vle_nth; auto.
Qed.
Lemma opt_vector_ok cs perm c full : spec_ok cs -> perm_ok cs perm -> zero_arr full ->
  exists v full', opt_vector cs perm full c = Some (v, full') /\ zero_arr full' /\ length v = idx_len cs perm /\ Forall (fun x => 0 <= x) v.
Proof.
  intros H P Z0. destruct (freq_vector_ok cs c full H Z0) as [v [full' [A [B [C D]]]]]. unfold opt_vector, idx_len. rewrite A. destruct perm as [p|]; [|exists v, full'; auto].
  simpl in P. rewrite <- C in P. destruct (permute_ok p v P D) as [w [R [L F]]]. rewrite R. exists w, full'. auto.
Qed.
Lemma opt_vector_mono cs perm c d full1 full2 v w f1 f2 : spec_ok cs -> zero_arr full1 -> zero_arr full2 -> fle c d ->
  opt_vector cs perm full1 c = Some (v, f1) -> opt_vector cs perm full2 d = Some (w, f2) -> vle v w.
Proof.
  intros H Z1 Z2 F. unfold opt_vector. destruct (freq_vector cs full1 c) as [[v1 g1]|] eqn:Q1; [|discriminate]. destruct (freq_vector cs full2 d) as [[w1 g2]|] eqn:Q2; [|discriminate].
  pose proof (freq_vector_mono cs c d full1 full2 v1 w1 g1 g2 H Z1 Z2 F Q1 Q2) as M. destruct perm as [p|]; [|intros [= <- _] [= <- _]; auto].
  destruct (permute p v1) as [v2|] eqn:R1; [|discriminate]. destruct (permute p w1) as [w2|] eqn:R2; [|discriminate]. intros [= <- _] [= <- _]. eapply permute_mono; eauto.
Qed.
(** the vector of a clause *)
Definition vec_of cs perm c : list Z := match opt_vector cs perm (fun _ => 0) c with Some (v, _) => v | None => [] end.
Lemma vec_of_eq cs perm c full v f : spec_ok cs -> perm_ok cs perm -> zero_arr full -> opt_vector cs perm full c = Some (v, f) -> v = vec_of cs perm c.
Proof.
  intros H P Z0 Q. destruct (opt_vector_ok cs perm c (fun _ => 0) H P (fun _ => eq_refl)) as [w [g [A _]]]. unfold vec_of. rewrite A.
  apply vle_antisym; [exact (opt_vector_mono cs perm c c full (fun _ => 0) v w f g H Z0 (fun _ => eq_refl) (fle_perm c c (Permutation_refl c)) Q A)
    |exact (opt_vector_mono cs perm c c (fun _ => 0) full w v g f H (fun _ => eq_refl) Z0 (fle_perm c c (Permutation_refl c)) A Q)].
Qed.
Lemma vec_of_mono cs perm c d : spec_ok cs -> perm_ok cs perm -> fle c d -> vle (vec_of cs perm c) (vec_of cs perm d).
Proof.
  intros H P F. destruct (opt_vector_ok cs perm c (fun _ => 0) H P (fun _ => eq_refl)) as [v [g [A _]]]. destruct (opt_vector_ok cs perm d (fun _ => 0) H P (fun _ => eq_refl)) as [w [g' [B _]]].
  unfold vec_of. rewrite A, B. eapply opt_vector_mono; eauto; intros i; reflexivity.
Qed.
Lemma vec_of_perm cs perm c d : spec_ok cs -> perm_ok cs perm -> Permutation c d -> vec_of cs perm c = vec_of cs perm d.
Proof. intros H P F. apply vle_antisym; apply vec_of_mono; auto; apply fle_perm; auto. apply Permutation_sym; auto. Qed.
Lemma vec_of_len cs perm c : spec_ok cs -> perm_ok cs perm -> length (vec_of cs perm c) = idx_len cs perm /\ Forall (fun x => 0 <= x) (vec_of cs perm c).
Proof. intros H P. destruct (opt_vector_ok cs perm c (fun _ => 0) H P (fun _ => eq_refl)) as [v [g [A [_ B]]]]. unfold vec_of. rewrite A. auto. Qed.
