(** * Proofs: the linear comparison computes the Knuth-Bendix ordering. *)
From Verif Require Import Terms KBO.
From Coq Require Import ZifyBool.

Scheme kbo_mind := Induction for kbo Sort Prop
  with kbolex_mind := Induction for kbolex Sort Prop.
Combined Scheme kbo_mutind from kbo_mind, kbolex_mind.

(** ** Counting balances *)

Fixpoint cnt (P : nat -> bool) (n : nat) : Z :=
  match n with O => 0 | S m => cnt P m + (if P m then 1 else 0) end%Z.

Lemma cnt_ext P Q n : (forall i, i < n -> P i = Q i) -> cnt P n = cnt Q n.
Proof. induction n as [|n IH]; simpl; auto. intros H. rewrite IH; auto. rewrite (H n); auto. Qed.

Lemma cnt_upd P Q x n : x < n -> (forall i, i <> x -> P i = Q i) ->
  (cnt Q n = cnt P n - (if P x then 1 else 0) + (if Q x then 1 else 0))%Z.
Proof.
  induction n as [|n IH]; [lia|]. intros Hx H. simpl.
  destruct (Nat.eq_dec x n) as [->|N].
  - rewrite (cnt_ext Q P n); [lia|]. intros i Hi. symmetry. apply H. lia.
  - rewrite IH; auto; [|lia]. rewrite (H n); [lia|auto].
Qed.

Lemma cnt_extend P n m : n <= m -> (forall i, n <= i -> i < m -> P i = false) -> cnt P m = cnt P n.
Proof.
  induction m as [|m IH]; intros Hm H; [replace n with 0 by lia; reflexivity|].
  destruct (Nat.eq_dec n (S m)) as [->|N]; auto.
  simpl. rewrite (H m); [|lia|lia]. rewrite IH; [lia|lia|]. intros; apply H; lia.
Qed.

Lemma cnt_nonneg P n : (0 <= cnt P n)%Z.
Proof. induction n; simpl; [lia|]. destruct (P n); lia. Qed.

Lemma cnt_zero P n : cnt P n = 0%Z <-> forall i, i < n -> P i = false.
Proof.
  induction n as [|n IH]; simpl.
  - split; auto. intros _ i Hi; lia.
  - pose proof (cnt_nonneg P n). split.
    + intros H0 i Hi. destruct (P n) eqn:E; [lia|].
      destruct (Nat.eq_dec i n) as [->|N]; auto. apply IH; lia.
    + intros H0. rewrite (H0 n); auto. rewrite (proj2 IH); auto.
Qed.

Lemma cnt_S P n : cnt P (S n) = (cnt P n + (if P n then 1 else 0))%Z.
Proof. reflexivity. Qed.

Local Opaque cnt.

(** ** State invariant *)

Record kok (k : kstate) : Prop := {
  ok_size : max_var k < vb_size k;
  ok_oob : oob k = false;
  ok_above : forall x, max_var k < x -> vb k x = 0%Z;
  ok_pos : pos_bal k = cnt (fun x => (0 <? vb k x)%Z) (S (max_var k));
  ok_neg : neg_bal k = cnt (fun x => (vb k x <? 0)%Z) (S (max_var k)) }.

Lemma grow_bound : forall fuel size index, 0 < size -> index < size + fuel -> index < grow fuel size index.
Proof.
  induction fuel as [|n IH]; intros size index Hs H; simpl; [lia|].
  destruct (Nat.leb_spec size index); [apply IH; lia | lia].
Qed.

Lemma resize_ok k x : kok k -> x < vb_size (resize k x) /\
  kok (resize k x) /\ (forall y, vb (resize k x) y = vb k y) /\ wb (resize k x) = wb k /\
  pos_bal (resize k x) = pos_bal k /\ neg_bal (resize k x) = neg_bal k /\ max_var (resize k x) = max_var k
  /\ oob (resize k x) = false.
Proof.
  intros [A B C D E]. unfold resize. destruct (Nat.leb_spec (vb_size k) x) as [L|L].
  2:{ repeat split; auto. }
  assert (HV : forall y, (if Nat.ltb y (vb_size k) then vb k y else 0%Z) = vb k y).
  { intros y. destruct (Nat.ltb_spec y (vb_size k)); auto. symmetry. apply C. lia. }
  assert (HG : x < grow (S x) (vb_size k) x) by (apply grow_bound; lia).
  split; [exact HG|]. split; [|repeat split; auto].
  split; cbn [max_var vb_size oob vb pos_bal neg_bal wb]; auto.
  - lia.
  - intros y Hy. rewrite HV. auto.
  - rewrite D. apply cnt_ext. intros i _. rewrite HV. reflexivity.
  - rewrite E. apply cnt_ext. intros i _. rewrite HV. reflexivity.
Qed.

Lemma zupd_same f x v : zupd f x v x = v.
Proof. unfold zupd. rewrite Nat.eqb_refl. reflexivity. Qed.
Lemma zupd_other f x v y : x <> y -> zupd f x v y = f y.
Proof. unfold zupd. intros H. apply Nat.eqb_neq in H. rewrite H. reflexivity. Qed.

Lemma inc_vb_ok o k x : kok k -> kok (inc_vb o k x) /\ wb (inc_vb o k x) = (wb k + vw o)%Z /\
  forall y, vb (inc_vb o k x) y = (vb k y + (if Nat.eqb x y then 1 else 0))%Z.
Proof.
  intros K. unfold inc_vb. destruct (Nat.ltb_spec (max_var k) x) as [L|L].
  - destruct (resize_ok k x K) as [S1 [K1 [V [W [P [N [M O]]]]]]].
    assert (Hx : vb k x = 0%Z) by (apply K; auto).
    split; [|split].
    + destruct K1 as [A B C D E]. split; simpl.
      * auto.
      * rewrite O. simpl. destruct (Nat.ltb_spec x (vb_size (resize k x))); auto; lia.
      * intros y Hy. rewrite zupd_other; [|lia]. rewrite V. apply K. lia.
      * rewrite D, M. pose proof (ok_above _ K) as HA.
        rewrite <- (cnt_extend _ (S (max_var k)) x); [|lia|intros i Hi _; rewrite V, HA; [reflexivity|lia]].
        rewrite cnt_S, zupd_same. simpl. f_equal.
        apply cnt_ext. intros i Hi. rewrite zupd_other; [reflexivity|lia].
      * rewrite E, M. pose proof (ok_above _ K) as HA.
        rewrite <- (cnt_extend _ (S (max_var k)) x); [|lia|intros i Hi _; rewrite V, HA; [reflexivity|lia]].
        rewrite cnt_S, zupd_same. simpl. rewrite Z.add_0_r.
        apply cnt_ext. intros i Hi. rewrite zupd_other; [reflexivity|lia].
    + simpl. rewrite W. reflexivity.
    + intros y. simpl. destruct (Nat.eqb_spec x y) as [<-|Ny]; [rewrite zupd_same, Hx; lia | rewrite zupd_other, V; [lia|auto]].
  - destruct K as [A B C D E]. split; [|split].
    + split; simpl; auto.
      * rewrite B. simpl. destruct (Nat.ltb_spec x (vb_size k)); auto; lia.
      * intros y Hy. rewrite zupd_other; [auto|lia].
      * rewrite D. rewrite (cnt_upd (fun z => (0 <? vb k z)%Z) (fun z => (0 <? zupd (vb k) x (vb k x + 1) z)%Z) x (S (max_var k)));
          [|lia|intros i Hi; rewrite zupd_other; auto].
        rewrite zupd_same. destruct (Z.eqb_spec (vb k x) 0), (Z.ltb_spec 0 (vb k x)), (Z.ltb_spec 0 (vb k x + 1)); lia.
      * rewrite E. rewrite (cnt_upd (fun z => (vb k z <? 0)%Z) (fun z => (zupd (vb k) x (vb k x + 1) z <? 0)%Z) x (S (max_var k)));
          [|lia|intros i Hi; rewrite zupd_other; auto].
        rewrite zupd_same. destruct (Z.eqb_spec (vb k x) (-1)), (Z.ltb_spec (vb k x) 0), (Z.ltb_spec (vb k x + 1) 0); lia.
    + reflexivity.
    + intros y. simpl. destruct (Nat.eqb_spec x y) as [<-|Ny]; [rewrite zupd_same; lia | rewrite zupd_other; [lia|auto]].
Qed.

Lemma dec_vb_ok o k x : kok k -> kok (dec_vb o k x) /\ wb (dec_vb o k x) = (wb k - vw o)%Z /\
  forall y, vb (dec_vb o k x) y = (vb k y - (if Nat.eqb x y then 1 else 0))%Z.
Proof.
  intros K. unfold dec_vb. destruct (Nat.ltb_spec (max_var k) x) as [L|L].
  - destruct (resize_ok k x K) as [S1 [K1 [V [W [P [N [M O]]]]]]].
    assert (Hx : vb k x = 0%Z) by (apply K; auto).
    split; [|split].
    + destruct K1 as [A B C D E]. split; simpl.
      * auto.
      * rewrite O. simpl. destruct (Nat.ltb_spec x (vb_size (resize k x))); auto; lia.
      * intros y Hy. rewrite zupd_other; [|lia]. rewrite V. apply K. lia.
      * rewrite D, M. pose proof (ok_above _ K) as HA.
        rewrite <- (cnt_extend _ (S (max_var k)) x); [|lia|intros i Hi _; rewrite V, HA; [reflexivity|lia]].
        rewrite cnt_S, zupd_same. simpl. rewrite Z.add_0_r.
        apply cnt_ext. intros i Hi. rewrite zupd_other; [reflexivity|lia].
      * rewrite E, M. pose proof (ok_above _ K) as HA.
        rewrite <- (cnt_extend _ (S (max_var k)) x); [|lia|intros i Hi _; rewrite V, HA; [reflexivity|lia]].
        rewrite cnt_S, zupd_same. simpl. f_equal.
        apply cnt_ext. intros i Hi. rewrite zupd_other; [reflexivity|lia].
    + simpl. rewrite W. reflexivity.
    + intros y. simpl. destruct (Nat.eqb_spec x y) as [<-|Ny]; [rewrite zupd_same, Hx; lia | rewrite zupd_other, V; [lia|auto]].
  - destruct K as [A B C D E]. split; [|split].
    + split; simpl; auto.
      * rewrite B. simpl. destruct (Nat.ltb_spec x (vb_size k)); auto; lia.
      * intros y Hy. rewrite zupd_other; [auto|lia].
      * rewrite D. rewrite (cnt_upd (fun z => (0 <? vb k z)%Z) (fun z => (0 <? zupd (vb k) x (vb k x - 1) z)%Z) x (S (max_var k)));
          [|lia|intros i Hi; rewrite zupd_other; auto].
        rewrite zupd_same. destruct (Z.eqb_spec (vb k x) 1), (Z.ltb_spec 0 (vb k x)), (Z.ltb_spec 0 (vb k x - 1)); lia.
      * rewrite E. rewrite (cnt_upd (fun z => (vb k z <? 0)%Z) (fun z => (zupd (vb k) x (vb k x - 1) z <? 0)%Z) x (S (max_var k)));
          [|lia|intros i Hi; rewrite zupd_other; auto].
        rewrite zupd_same. destruct (Z.eqb_spec (vb k x) 0), (Z.ltb_spec (vb k x) 0), (Z.ltb_spec (vb k x - 1) 0); lia.
    + reflexivity.
    + intros y. simpl. destruct (Nat.eqb_spec x y) as [<-|Ny]; [rewrite zupd_same; lia | rewrite zupd_other; [lia|auto]].
Qed.

Lemma add_wb_ok k d : kok k -> kok (add_wb k d).
Proof. intros [A B C D E]. split; auto. Qed.

(** counts and weights of argument lists *)
Definition lcount (x : var) (l : list term) : nat := count_occ Nat.eq_dec (flat_map vars l) x.
Definition lweight (o : ocb) (l : list term) : Z := fold_right (fun a n => (kweight o a + n)%Z) 0%Z l.

Lemma count_app x l1 l2 : count_occ Nat.eq_dec (l1 ++ l2) x = count_occ Nat.eq_dec l1 x + count_occ Nat.eq_dec l2 x.
Proof. apply count_occ_app. Qed.

Lemma vcount_fun x f a : vcount x (Fun f a) = lcount x a.
Proof. reflexivity. Qed.
Lemma lcount_cons x t l : lcount x (t :: l) = vcount x t + lcount x l.
Proof. unfold lcount, vcount. simpl. apply count_app. Qed.
Lemma lcount_app x l1 l2 : lcount x (l1 ++ l2) = lcount x l1 + lcount x l2.
Proof. unfold lcount. rewrite flat_map_app. apply count_app. Qed.
Lemma vcount_var x y : vcount x (Var y) = if Nat.eqb y x then 1 else 0.
Proof. unfold vcount. simpl. destruct (Nat.eq_dec y x), (Nat.eqb_spec y x); auto; congruence. Qed.
Lemma kweight_fun o f a : kweight o (Fun f a) = (fw o f + lweight o a)%Z.
Proof. reflexivity. Qed.
Lemma lweight_cons o t l : lweight o (t :: l) = (kweight o t + lweight o l)%Z.
Proof. reflexivity. Qed.
Lemma lweight_app o l1 l2 : lweight o (l1 ++ l2) = (lweight o l1 + lweight o l2)%Z.
Proof. induction l1 as [|a l IH]; simpl; [lia|]. fold (lweight o (l ++ l2)) (lweight o l). lia. Qed.

Lemma mfylhs_ok o t : forall k, kok k -> kok (mfylhs o t k) /\ wb (mfylhs o t k) = (wb k + kweight o t)%Z /\
  forall y, vb (mfylhs o t k) y = (vb k y + Z.of_nat (vcount y t))%Z.
Proof.
  induction t as [x|f a IH] using term_ind'; intros k K.
  - simpl. destruct (inc_vb_ok o k x K) as [A [B C]]. split; [auto|]. split; [auto|].
    intros y. rewrite C, vcount_var. destruct (Nat.eqb x y); lia.
  - simpl mfylhs. rewrite kweight_fun.
    assert (H : let k' := fold_right (mfylhs o) (add_wb k (fw o f)) a in
       kok k' /\ wb k' = (wb k + (fw o f + lweight o a))%Z /\ forall y, vb k' y = (vb k y + Z.of_nat (lcount y a))%Z).
    { induction IH as [|t l Ht _ IHl]; cbn [fold_right].
      - split; [apply add_wb_ok; auto|]. simpl. split; [unfold lweight; simpl; lia|].
        intros y. unfold lcount. simpl. lia.
      - destruct IHl as [A [B C]]. destruct (Ht _ A) as [A' [B' C']]. split; [auto|]. split.
        + rewrite B', B, lweight_cons. lia.
        + intros y. rewrite C', C, lcount_cons. lia. }
    exact H.
Qed.

Lemma mfyrhs_ok o t : forall k, kok k -> kok (mfyrhs o t k) /\ wb (mfyrhs o t k) = (wb k - kweight o t)%Z /\
  forall y, vb (mfyrhs o t k) y = (vb k y - Z.of_nat (vcount y t))%Z.
Proof.
  induction t as [x|f a IH] using term_ind'; intros k K.
  - simpl. destruct (dec_vb_ok o k x K) as [A [B C]]. split; [auto|]. split; [auto|].
    intros y. rewrite C, vcount_var. destruct (Nat.eqb x y); lia.
  - simpl mfyrhs. rewrite kweight_fun.
    assert (H : let k' := fold_right (mfyrhs o) (add_wb k (- fw o f)) a in
       kok k' /\ wb k' = (wb k - (fw o f + lweight o a))%Z /\ forall y, vb k' y = (vb k y - Z.of_nat (lcount y a))%Z).
    { induction IH as [|t l Ht _ IHl]; cbn [fold_right].
      - split; [apply add_wb_ok; auto|]. simpl. split; [unfold lweight; simpl; lia|].
        intros y. unfold lcount. simpl. lia.
      - destruct IHl as [A [B C]]. destruct (Ht _ A) as [A' [B' C']]. split; [auto|]. split.
        + rewrite B', B, lweight_cons. lia.
        + intros y. rewrite C', C, lcount_cons. lia. }
    exact H.
Qed.

Lemma mfy_rest_ok o : forall a b k, length a = length b -> kok k ->
  kok (mfy_rest o a b k) /\ wb (mfy_rest o a b k) = (wb k + lweight o a - lweight o b)%Z /\
  forall y, vb (mfy_rest o a b k) y = (vb k y + Z.of_nat (lcount y a) - Z.of_nat (lcount y b))%Z.
Proof.
  induction a as [|x a IH]; intros [|y b] k HL K; simpl in HL; try discriminate.
  - simpl. split; [auto|]. split; [unfold lweight; simpl; lia|]. intros z. unfold lcount. simpl. lia.
  - cbn [mfy_rest]. destruct (mfylhs_ok o x k K) as [A1 [B1 C1]].
    destruct (mfyrhs_ok o y _ A1) as [A2 [B2 C2]].
    destruct (IH b (mfyrhs o y (mfylhs o x k)) ltac:(lia) A2) as [A3 [B3 C3]].
    split; [auto|]. split.
    + rewrite B3, B2, B1, !lweight_cons. lia.
    + intros z. rewrite C3, C2, C1, !lcount_cons. lia.
Qed.

(** state whose counters describe the difference of two terms *)
Definition kdiff (o : ocb) (k : kstate) (s t : term) : Prop :=
  kok k /\ wb k = (kweight o s - kweight o t)%Z /\
  forall y, vb k y = (Z.of_nat (vcount y s) - Z.of_nat (vcount y t))%Z.

Definition kzero (k : kstate) : Prop := kok k /\ wb k = 0%Z /\ forall y, vb k y = 0%Z.

Lemma neg_bal_zero k : kok k -> (neg_bal k = 0%Z <-> forall x, (0 <= vb k x)%Z).
Proof.
  intros [A B C D E]. rewrite E. rewrite cnt_zero. split.
  - intros H x. destruct (le_lt_dec (S (max_var k)) x); [rewrite C; lia|]. specialize (H x ltac:(lia)). lia.
  - intros H i _. specialize (H i). lia.
Qed.

Lemma pos_bal_zero k : kok k -> (pos_bal k = 0%Z <-> forall x, (vb k x <= 0)%Z).
Proof.
  intros [A B C D E]. rewrite D. rewrite cnt_zero. split.
  - intros H x. destruct (le_lt_dec (S (max_var k)) x); [rewrite C; lia|]. specialize (H x ltac:(lia)). lia.
  - intros H i _. specialize (H i). lia.
Qed.

Lemma kdiff_varcond o k s t : kdiff o k s t -> (neg_bal k = 0%Z <-> varcond s t) /\ (pos_bal k = 0%Z <-> varcond t s).
Proof.
  intros [K [W V]]. rewrite neg_bal_zero, pos_bal_zero by auto. unfold varcond.
  split; split; intros H x; specialize (H x); rewrite ?V in *; lia.
Qed.

Lemma g_or_n_spec o k s t : kdiff o k s t -> (g_or_n k = Greater <-> varcond s t) /\ g_or_n k <> Lesser /\ g_or_n k <> Equal.
Proof.
  intros H. apply kdiff_varcond in H. destruct H as [H _]. unfold g_or_n.
  destruct (Z.eqb_spec (neg_bal k) 0); repeat split; try discriminate; try tauto.
Qed.

Lemma l_or_n_spec o k s t : kdiff o k s t -> (l_or_n k = Lesser <-> varcond t s) /\ l_or_n k <> Greater /\ l_or_n k <> Equal.
Proof.
  intros H. apply kdiff_varcond in H. destruct H as [_ H]. unfold l_or_n.
  destruct (Z.eqb_spec (pos_bal k) 0); repeat split; try discriminate; try tauto.
Qed.

(** ** Facts about the specification *)

Lemma kbo_varcond_weight o s t : kbo o s t -> varcond s t /\ (kweight o t <= kweight o s)%Z.
Proof. intros H. inversion H; subst; split; auto; lia. Qed.

Lemma kbolex_length o a b : kbolex o a b -> length a = length b.
Proof. induction 1; simpl; congruence. Qed.

Lemma kbo_irrefl o (HP : forall f, prec o f f <> Greater) : forall t, ~ kbo o t t.
Proof.
  induction t as [x|f a IH] using term_ind'; intros H.
  - inversion H; subst; lia.
  - inversion H; subst; try lia.
    + eapply HP; eassumption.
    + match goal with HL : kbolex o a a |- _ => revert HL end. clear - IH. intros HL0. assert (HG : forall a b, a = b -> Forall (fun t => ~ kbo o t t) a -> ~ kbolex o a b).
      { clear. intros a b E HF HL. induction HL; injection E; intros; subst; inversion HF; subst; auto. }
      exact (HG a a eq_refl IH HL0).
Qed.

Lemma varcond_refl t : varcond t t.
Proof. intros x. lia. Qed.
Lemma varcond_trans s t u : varcond s t -> varcond t u -> varcond s u.
Proof. intros H1 H2 x. specialize (H1 x). specialize (H2 x). lia. Qed.

Lemma kbo_same_head o f a b (HP : forall f, prec o f f <> Greater) :
  kbo o (Fun f a) (Fun f b) <-> varcond (Fun f a) (Fun f b) /\
    ((lweight o b < lweight o a)%Z \/ (lweight o a = lweight o b /\ kbolex o a b)).
Proof.
  split.
  - intros H. inversion H; subst; split; auto; rewrite ?kweight_fun in *; try lia.
    + exfalso. eapply HP; eauto.
    + right. split; auto. lia.
  - intros [H1 [H2|[H2 H3]]].
    + apply kbo_weight; auto. rewrite !kweight_fun. lia.
    + apply kbo_lex; auto. rewrite !kweight_fun. lia.
Qed.

(** lexicographic comparison after a common prefix *)
Lemma kbolex_prefix o (HP : forall f, prec o f f <> Greater) p : forall a b,
  kbolex o (p ++ a) (p ++ b) <-> kbolex o a b.
Proof.
  induction p as [|z p IH]; intros a b; simpl; [tauto|]. rewrite <- (IH a b). split.
  - intros H. inversion H; subst; auto. exfalso. eapply kbo_irrefl; eauto.
  - apply lex_later.
Qed.

Lemma kbolex_head_neq o x y a b : x <> y -> length a = length b -> (kbolex o (x :: a) (y :: b) <-> kbo o x y).
Proof.
  intros N L. split; intros H; [inversion H; subst; auto; congruence | apply lex_here; auto].
Qed.

(** ** The main refinement lemma *)

Definition kgo (o : ocb) := fix go (a b : list term) (k : kstate) {struct a} : cmp * kstate :=
           match a, b with
           | [], [] => (Equal, k)
           | x :: a', y :: b' =>
               let '(r, k1) := kbolincmp o x y k in
               match r with
               | Equal => go a' b' k1
               | _ => match a', b' with
                      | [], [] => (r, k1)
                      | _, _ =>
                          let k2 := mfy_rest o a' b' k1 in
                          (if (0 <? wb k2)%Z then g_or_n k2
                           else if (wb k2 <? 0)%Z then l_or_n k2
                           else match r with
                                | Greater => g_or_n k2
                                | Lesser => l_or_n k2
                                | _ => r
                                end, k2)
                      end
               end
           | _, _ => (Equal, set_oob k)
           end.

Lemma kbolincmp_fun o f a g b k : kbolincmp o (Fun f a) (Fun g b) k =
  if Nat.eqb f g then kgo o a b k
  else let k2 := mfyrhs o (Fun g b) (mfylhs o (Fun f a) k) in
        (if (0 <? wb k2)%Z then g_or_n k2
         else if (wb k2 <? 0)%Z then l_or_n k2
         else match prec o f g with
              | Greater => g_or_n k2
              | Lesser => l_or_n k2
              | _ => Equal
              end, k2).
Proof. reflexivity. Qed.

Definition cmp_correct (o : ocb) (s t : term) (rk : cmp * kstate) : Prop :=
  let '(r, k) := rk in
  (r = Greater <-> kbo o s t) /\ (r = Lesser <-> kbo o t s) /\ (r = Equal <-> s = t) /\
  (r = Equal -> kzero k) /\ (r <> Equal -> kdiff o k s t).

Lemma kzero_diff_refl o k t : kzero k -> kdiff o k t t.
Proof. intros [A [B C]]. split; auto. split; [lia|]. intros y. rewrite C. lia. Qed.

Lemma arok_fun ar f a : arok ar (Fun f a) = true <-> length a = ar f /\ Forall (fun t => arok ar t = true) a.
Proof. simpl. rewrite andb_true_iff, Nat.eqb_eq, forallb_forall, Forall_forall. tauto. Qed.

Lemma kweight_nonneg o t : (forall f, 0 <= fw o f)%Z -> (0 <= vw o)%Z -> (0 <= kweight o t)%Z.
Proof.
  intros Hf Hv. induction t as [x|f a IH] using term_ind'; simpl; auto.
  assert (0 <= fold_right (fun a n => kweight o a + n) 0 a)%Z; [|specialize (Hf f); lia].
  induction IH; simpl; lia.
Qed.

Lemma lweight_nonneg o l : (forall f, 0 <= fw o f)%Z -> (0 <= vw o)%Z -> (0 <= lweight o l)%Z.
Proof.
  intros Hf Hv. induction l as [|t l IH]; simpl; [lia|]. fold (lweight o l).
  pose proof (kweight_nonneg o t Hf Hv). lia.
Qed.

Lemma vcount_in x t : 1 <= vcount x t <-> In x (vars t).
Proof. unfold vcount. rewrite (count_occ_In Nat.eq_dec). lia. Qed.

Lemma kweight_ge_var o x t : (forall f, 0 <= fw o f)%Z -> (0 <= vw o)%Z -> In x (vars t) -> (vw o <= kweight o t)%Z.
Proof.
  intros Hf Hv. induction t as [y|f a IH] using term_ind'; simpl; [lia|].
  intros H. apply in_flat_map in H. destruct H as [u [Hu Hx]].
  rewrite Forall_forall in IH. specialize (IH u Hu Hx).
  assert (kweight o u <= lweight o a)%Z.
  { clear - Hu Hf Hv. induction a as [|v a IHa]; [destruct Hu|]. rewrite lweight_cons.
    pose proof (lweight_nonneg o a Hf Hv). pose proof (kweight_nonneg o v Hf Hv).
    destruct Hu as [->|Hu]; [lia | apply IHa in Hu; lia]. }
  fold (lweight o a). specialize (Hf f). lia.
Qed.

Lemma lweight_In o t l : (forall f, 0 <= fw o f)%Z -> (0 <= vw o)%Z -> In t l -> (kweight o t <= lweight o l)%Z.
Proof.
  intros Hf Hv. induction l as [|v a IHa]; [intros []|]. rewrite lweight_cons.
  pose proof (lweight_nonneg o a Hf Hv). pose proof (kweight_nonneg o v Hf Hv).
  intros [->|Hu]; [lia | apply IHa in Hu; lia].
Qed.

Ltac kfin :=
  repeat match goal with
         | |- _ /\ _ => split
         | |- _ <-> _ => split
         | |- _ -> _ => intro
         | H : _ /\ _ |- _ => destruct H
         | H : _ \/ _ |- _ => destruct H
         | |- (_ < _)%Z \/ _ => (left; lia) || (right; split; [lia|tauto])
         end; try lia; try congruence; try tauto.

Section Refine.
  Variables (o : ocb) (ar : sym -> nat).
  Hypothesis HT : total_prec (prec o).
  Hypothesis HA : admissible o ar.

  Let HP : forall f, prec o f f <> Greater.
  Proof. intros f. rewrite (tp_refl _ HT). discriminate. Qed.
  Let Hfw : forall f, (0 <= fw o f)%Z := ad_nonneg _ _ HA.
  Let Hvw : (0 <= vw o)%Z.
  Proof. pose proof (ad_var _ _ HA). lia. Qed.

  Lemma kweight_ge_vw t : arok ar t = true -> (vw o <= kweight o t)%Z.
  Proof.
    induction t as [y|f a IH] using term_ind'; [simpl; lia|].
    intros H. apply arok_fun in H. destruct H as [HL HF]. rewrite kweight_fun.
    destruct a as [|u a].
    - unfold lweight. simpl. pose proof (ad_const _ _ HA f (eq_sym HL)). lia.
    - inversion IH; subst. inversion HF; subst. specialize (H1 H3).
      rewrite lweight_cons. pose proof (lweight_nonneg o a Hfw Hvw). pose proof (Hfw f). lia.
  Qed.

  Lemma var_lesser f a x : varcond (Fun f a) (Var x) <-> kbo o (Fun f a) (Var x).
  Proof.
    split; [|intros H; apply kbo_varcond_weight in H; tauto].
    intros H. assert (Hin : In x (vars (Fun f a))).
    { apply vcount_in. specialize (H x). rewrite vcount_var, Nat.eqb_refl in H. auto. }
    pose proof (kweight_ge_var o x (Fun f a) Hfw Hvw Hin) as HW.
    destruct (Z.eq_dec (kweight o (Fun f a)) (vw o)) as [E|E].
    - apply kbo_var; auto.
    - apply kbo_weight; auto. simpl (kweight o (Var x)). lia.
  Qed.

  Lemma not_kbo_var x t : arok ar t = true -> ~ kbo o (Var x) t.
  Proof.
    intros HK H. inversion H; subst. apply kweight_ge_vw in HK. simpl in H1. lia.
  Qed.

  Lemma kdiff_same_head f p x y a b k : length a = length b -> kdiff o k x y ->
    kdiff o (mfy_rest o a b k) (Fun f (p ++ x :: a)) (Fun f (p ++ y :: b)).
  Proof.
    intros HL [K [W V]]. destruct (mfy_rest_ok o a b k HL K) as [K2 [W2 V2]].
    split; [auto|]. rewrite !kweight_fun, !lweight_app, !lweight_cons. split; [lia|].
    intros z. rewrite V2, V, !vcount_fun, !lcount_app, !lcount_cons. lia.
  Qed.

  Lemma kgo_correct f a : Forall (fun s => forall t k, arok ar s = true -> arok ar t = true -> kzero k ->
                                    cmp_correct o s t (kbolincmp o s t k)) a ->
    forall p b k, length a = length b -> Forall (fun t => arok ar t = true) a -> Forall (fun t => arok ar t = true) b ->
    kzero k -> cmp_correct o (Fun f (p ++ a)) (Fun f (p ++ b)) (kgo o a b k).
  Proof.
    induction 1 as [|x a Hx Ha IH]; intros p [|y b] k HL HFa HFb HZ; simpl in HL; try discriminate.
    - simpl. split; [|split; [|split; [|split]]]; try (split; intros HH; try discriminate HH; auto).
      + exfalso. eapply kbo_irrefl; eauto.
      + exfalso. eapply kbo_irrefl; eauto.
      + auto.
      + congruence.
    - inversion HFa as [|? ? Hax HFa']; subst. inversion HFb as [|? ? Hby HFb']; subst.
      cbn [kgo]. fold (kgo o). specialize (Hx y k Hax Hby HZ).
      destruct (kbolincmp o x y k) as [r k1] eqn:E.
      destruct Hx as [XG [XL [XE [XZ XD]]]].
      destruct (cmp_eqb r Equal) eqn:RE.
      + destruct r; try discriminate. assert (x = y) by (apply XE; auto). subst y.
        specialize (IH (p ++ [x]) b k1 ltac:(lia) HFa' HFb' (XZ eq_refl)).
        rewrite <- !app_assoc in IH. exact IH.
      + assert (RN : r <> Equal) by (intros ->; discriminate).
        assert (NXY : x <> y) by (intros HH; apply RN, XE, HH).
        specialize (XD RN).
        set (k2 := mfy_rest o a b k1).
        assert (KD : kdiff o k2 (Fun f (p ++ x :: a)) (Fun f (p ++ y :: b))) by (apply kdiff_same_head; [lia|auto]).
        assert (FN : Fun f (p ++ x :: a) <> Fun f (p ++ y :: b)).
        { intros HH. injection HH. intros HH'. apply app_inv_head in HH'. congruence. }
        assert (LX : kbolex o (p ++ x :: a) (p ++ y :: b) <-> kbo o x y)
          by (rewrite (kbolex_prefix o HP); apply kbolex_head_neq; [auto|lia]).
        assert (LY : kbolex o (p ++ y :: b) (p ++ x :: a) <-> kbo o y x)
          by (rewrite (kbolex_prefix o HP); apply kbolex_head_neq; [auto|lia]).
        pose proof KD as [_ [KW _]]. rewrite !kweight_fun in KW.
        destruct (g_or_n_spec _ _ _ _ KD) as [G1 [G2 G3]].
        destruct (l_or_n_spec _ _ _ _ KD) as [L1 [L2 L3]].
        assert (GEN : cmp_correct o (Fun f (p ++ x :: a)) (Fun f (p ++ y :: b))
           (if (0 <? wb k2)%Z then g_or_n k2
            else if (wb k2 <? 0)%Z then l_or_n k2
            else match r with Greater => g_or_n k2 | Lesser => l_or_n k2 | _ => r end, k2)).
        { unfold cmp_correct. rewrite !kbo_same_head by exact HP.
          rewrite LX, LY, <- XG, <- XL.
          destruct (Z.ltb_spec 0 (wb k2)); [|destruct (Z.ltb_spec (wb k2) 0)].
          - kfin.
          - kfin.
          - destruct r; kfin. }
        assert (CASE : (a = [] /\ b = []) \/ (a <> [] /\ b <> [])).
        { destruct a, b; simpl in HL; try discriminate HL; [left|right]; auto; split; discriminate. }
        destruct CASE as [[-> ->]|[Na Nb]].
        * (* last argument *)
          assert (HR : (match r with Equal => kgo o [] [] k1 | _ => (r, k1) end) = (r, k1)) by (destruct r; congruence).
          rewrite HR. subst k2. cbn [mfy_rest] in *.
          assert (kbo o x y -> varcond (Fun f (p ++ [x])) (Fun f (p ++ [y]))) as V1.
          { intros HH. apply kbo_varcond_weight in HH. destruct HH as [HH _]. intros z. specialize (HH z).
            rewrite !vcount_fun, !lcount_app, !lcount_cons. lia. }
          assert (kbo o y x -> varcond (Fun f (p ++ [y])) (Fun f (p ++ [x]))) as V2.
          { intros HH. apply kbo_varcond_weight in HH. destruct HH as [HH _]. intros z. specialize (HH z).
            rewrite !vcount_fun, !lcount_app, !lcount_cons. lia. }
          assert (forall u v, varcond (Fun f (p ++ [u])) (Fun f (p ++ [v])) -> varcond u v) as V3.
          { intros u v HH z. specialize (HH z). rewrite !vcount_fun, !lcount_app, !lcount_cons in HH. unfold lcount in HH. simpl in HH. lia. }
          unfold cmp_correct. rewrite !kbo_same_head by exact HP. rewrite LX, LY.
          rewrite !lweight_app, !lweight_cons. unfold lweight at 2 4 6 8 10 12 14 16; simpl fold_right.
          split; [|split; [|split; [|split]]]; auto; try tauto.
          -- rewrite XG. split.
             ++ intros HH. split; auto. pose proof (kbo_varcond_weight _ _ _ HH) as [_ WW].
                destruct (Z.eq_dec (kweight o x) (kweight o y)); [right; split; [lia|auto]|left; lia].
             ++ intros [HH1 [HH2|[_ HH2]]]; auto. apply kbo_weight; [apply V3; auto|lia].
          -- rewrite XL. split.
             ++ intros HH. split; auto. pose proof (kbo_varcond_weight _ _ _ HH) as [_ WW].
                destruct (Z.eq_dec (kweight o x) (kweight o y)); [right; split; [lia|auto]|left; lia].
             ++ intros [HH1 [HH2|[_ HH2]]]; auto. apply kbo_weight; [apply V3; auto|lia].
        * replace (match r with Equal => kgo o a b k1
             | _ => match a with [] => match b with [] => (r, k1) | _ => _ end | _ => _ end end) with
             (if (0 <? wb k2)%Z then g_or_n k2
            else if (wb k2 <? 0)%Z then l_or_n k2
            else match r with Greater => g_or_n k2 | Lesser => l_or_n k2 | _ => r end, k2); [exact GEN|].
          destruct a; [congruence|]. destruct b; [congruence|]. destruct r; try congruence; reflexivity.
  Qed.

  Theorem kbolincmp_correct : forall s t k, arok ar s = true -> arok ar t = true -> kzero k ->
     cmp_correct o s t (kbolincmp o s t k).
  Proof.
    induction s as [x|f a IH] using term_ind'; intros t k Hs Ht HZ.
    - destruct t as [y|g b].
      + simpl. destruct (Nat.eqb_spec x y) as [->|N].
        * split; [|split; [|split; [|split]]]; try (split; intros HH; try discriminate HH; auto).
          -- exfalso. eapply kbo_irrefl; eauto.
          -- exfalso. eapply kbo_irrefl; eauto.
          -- auto.
          -- congruence.
        * destruct HZ as [K [W V]].
          destruct (inc_vb_ok o k x K) as [K1 [W1 V1]]. destruct (dec_vb_ok o _ y K1) as [K2 [W2 V2]].
          split; [|split; [|split; [|split]]]; try discriminate; try (split; intros HH; try discriminate HH; auto).
          -- exfalso. exact (not_kbo_var _ (Var y) Ht HH).
          -- exfalso. exact (not_kbo_var _ (Var x) Hs HH).
          -- congruence.
          -- intros _. split; [auto|]. split; [simpl; lia|]. intros z. rewrite V2, V1, V, !vcount_var.
             destruct (Nat.eqb x z), (Nat.eqb y z); lia.
      + cbn [kbolincmp]. destruct HZ as [K [W V]].
        destruct (inc_vb_ok o k x K) as [K1 [W1 V1]]. destruct (mfyrhs_ok o (Fun g b) _ K1) as [K2 [W2 V2]].
        set (k2 := mfyrhs o (Fun g b) (inc_vb o k x)) in *.
        assert (KD : kdiff o k2 (Var x) (Fun g b)).
        { split; [auto|]. split; [simpl (kweight o (Var x)); lia|]. intros z. rewrite V2, V1, V, vcount_var. destruct (Nat.eqb x z); lia. }
        destruct (l_or_n_spec _ _ _ _ KD) as [L1 [L2 L3]].
        split; [|split; [|split; [|split]]]; auto; try tauto.
        * split; [tauto|]. intros HH. exfalso. exact (not_kbo_var _ _ Ht HH).
        * rewrite L1. apply var_lesser.
        * split; [tauto|discriminate].
    - destruct t as [y|g b].
      + cbn [kbolincmp]. destruct HZ as [K [W V]].
        destruct (dec_vb_ok o k y K) as [K1 [W1 V1]]. destruct (mfylhs_ok o (Fun f a) _ K1) as [K2 [W2 V2]].
        set (k2 := mfylhs o (Fun f a) (dec_vb o k y)) in *.
        assert (KD : kdiff o k2 (Fun f a) (Var y)).
        { split; [auto|]. split; [simpl (kweight o (Var y)); lia|]. intros z. rewrite V2, V1, V, vcount_var. destruct (Nat.eqb y z); lia. }
        destruct (g_or_n_spec _ _ _ _ KD) as [L1 [L2 L3]].
        split; [|split; [|split; [|split]]]; auto; try tauto.
        * rewrite L1. apply var_lesser.
        * split; [tauto|]. intros HH. exfalso. exact (not_kbo_var _ _ Hs HH).
        * split; [tauto|discriminate].
      + rewrite kbolincmp_fun. pose proof Hs as Hs'. pose proof Ht as Ht'.
        apply arok_fun in Hs'. apply arok_fun in Ht'. destruct Hs' as [La Fa]. destruct Ht' as [Lb Fb].
        destruct (Nat.eqb_spec f g) as [<-|N].
        * apply (kgo_correct f a IH [] b k); auto. congruence.
        * destruct HZ as [K [W V]]. cbv zeta.
          destruct (mfylhs_ok o (Fun f a) k K) as [K1 [W1 V1]].
          destruct (mfyrhs_ok o (Fun g b) _ K1) as [K2 [W2 V2]].
          set (k2 := mfyrhs o (Fun g b) (mfylhs o (Fun f a) k)) in *.
          assert (KD : kdiff o k2 (Fun f a) (Fun g b)).
          { split; [auto|]. split; [lia|]. intros z. rewrite V2, V1, V. lia. }
          destruct (g_or_n_spec _ _ _ _ KD) as [G1 [G2 G3]].
          destruct (l_or_n_spec _ _ _ _ KD) as [L1 [L2 L3]].
          pose proof KD as [_ [KW _]].
          assert (FN : Fun f a <> Fun g b) by congruence.
          assert (SG : kbo o (Fun f a) (Fun g b) <-> varcond (Fun f a) (Fun g b) /\
              ((0 < wb k2)%Z \/ (wb k2 = 0%Z /\ prec o f g = Greater))).
          { split.
            - intros HH. inversion HH; subst; [split; [auto|left; lia] | split; [auto|right; split; [lia|auto]] | congruence].
            - intros [HH1 [HH2|[HH2 HH3]]]; [apply kbo_weight; auto; lia | apply kbo_prec; auto; lia]. }
          assert (SL : kbo o (Fun g b) (Fun f a) <-> varcond (Fun g b) (Fun f a) /\
              ((wb k2 < 0)%Z \/ (wb k2 = 0%Z /\ prec o f g = Lesser))).
          { assert (PI : prec o g f = Greater <-> prec o f g = Lesser).
            { rewrite (tp_inv _ HT f g). destruct (prec o g f); simpl; split; congruence. }
            split.
            - intros HH. inversion HH; subst; [split; [auto|left; lia] | split; [auto|right; split; [lia|apply PI; auto]] | congruence].
            - intros [HH1 [HH2|[HH2 HH3]]]; [apply kbo_weight; auto; lia | apply kbo_prec; auto; [lia|]]. apply PI; auto. }
          destruct (tp_total _ HT f g N) as [PG|PL].
          -- rewrite PG in *. unfold cmp_correct. rewrite SG, SL.
             destruct (Z.ltb_spec 0 (wb k2)); [|destruct (Z.ltb_spec (wb k2) 0)]; kfin.
          -- rewrite PL in *. unfold cmp_correct. rewrite SG, SL.
             destruct (Z.ltb_spec 0 (wb k2)); [|destruct (Z.ltb_spec (wb k2) 0)]; kfin.
  Qed.

End Refine.
